(** What a trace of the thread pool says about its jobs. *)
From Coq Require Import List Arith.
From Verif.Model Require Import Pool.
Import ListNotations.

(** The jobs submitted, started, finished and ended by a panic, in the order this happened (the trace has the latest
    label first). *)
Definition submitted_by (l : plabel) : list nat := match l with Submit j => [j] | _ => [] end.
Definition started_by (l : plabel) : list nat := match l with Start j => [j] | _ => [] end.
Definition finished_by (l : plabel) : list nat := match l with Finish j => [j] | _ => [] end.
Definition crashed_by (l : plabel) : list nat := match l with Crash j => [j] | _ => [] end.
Definition submitted (ls : list plabel) : list nat := flat_map submitted_by (rev ls).
Definition started (ls : list plabel) : list nat := flat_map started_by (rev ls).
Definition finished (ls : list plabel) : list nat := flat_map finished_by (rev ls).
Definition crashed (ls : list plabel) : list nat := flat_map crashed_by (rev ls).
