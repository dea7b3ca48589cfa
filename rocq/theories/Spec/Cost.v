(** What the panics of an execution may cost: the workers that have, or will have, a job for the connection that broke. *)
From Coq Require Import List Bool Arith.
From Verif.Model Require Import Bytes Io Common Parse Encode Writer Server Whole Slab Poll Full.
From Verif.Spec Require Import Events.
Import ListNotations.

(** The jobs there are for connection c, queued or taken, and the readiness events for it that the last poll returned and that
    have not been looked at. *)
Definition ready_for (c : nat) (e : event) : bool := match e with EvSocket d _ false => d =? c | _ => false end.
Definition due (c : nat) (st : fstate) : nat :=
  count_occ Nat.eq_dec (jobs (f_w st)) c + List.length (filter (ready_for c) (p_batch (f_p st))).

Definition ended_worker (w : wworker) : bool := match w with WDead => true | _ => false end.
Definition dead_workers (st : fstate) : nat := List.length (filter ended_worker (ws_workers (f_w st))).

(** The connections on which a handler panicked, latest first. *)
Definition panic_on (l : flabel) : list nat := match l with FW (ACrash _ c _) => [c] | _ => [] end.
Definition panics (ls : list flabel) : list nat := flat_map panic_on ls.

(** The executions in which no connection is removed while there is a job for it, as [tidy], with the sum of what was due for each
    connection when a handler panicked on it. *)
Inductive bill (dbg : bool) (R : nat -> _ -> _ -> Prop) : fstate -> list flabel -> fstate -> nat -> Prop :=
| bill_nil st : bill dbg R st [] st 0
| bill_step st ls st' l st'' n : bill dbg R st ls st' n -> fstep dbg R st' l st'' ->
    (forall c r, l = FP (Closed c r) -> ~ In c (jobs (f_w st'))) ->
    bill dbg R st (l :: ls) st'' (n + list_sum (map (fun c => due c st') (panic_on l))).
