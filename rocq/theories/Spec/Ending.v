(** Vocabulary for executions of the server up to its end, by their labels (latest first). *)
From Coq Require Import List Bool Arith.
From Verif.Model Require Import Bytes Io Common Server Slab Poll Whole Full Life.
From Verif.Spec Require Import Events Arrivals.
Import ListNotations.

(** The labels of the server proper. *)
Definition server_part (l : llabel) : list flabel := match l with LF l => [l] | _ => [] end.
Definition server_parts (ls : list llabel) : list flabel := flat_map server_part ls.

(** A handler panics, or finds the mutex poisoned. *)
Definition panics (l : llabel) : bool := match l with LF (FW (ADie _ _)) | LF (FW (ACrash _ _ _)) => true | _ => false end.
Definition panicked (ls : list llabel) : bool := existsb panics ls.

(** Peers and the kernel (the server being told to end). *)
Definition beyond (l : llabel) : bool := match l with LF (FW l) => outside l | _ => false end.

(** The job for [c] ends. *)
Definition finishes (c : nat) (l : llabel) : bool :=
  match l with LF (FW l) => match ends l with Some (d, _) => d =? c | None => false end | _ => false end.

(** Jobs for [c] that wait or run. *)
Definition pending (c : nat) (st : lstate) : nat := count_occ Nat.eq_dec (jobs (f_w (l_f st))) c.

(** The main thread is past the event loop, in the drop of the pool or beyond. *)
Definition ending (m : mphase) : bool :=
  match m with MSending _ _ | MJoining _ _ | MReturned _ | MUnwound => true | _ => false end.
