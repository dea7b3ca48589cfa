(** Vocabulary for runs of the server with its event loop, by their labels alone (latest first). *)
From Coq Require Import List Bool Arith.
From Verif.Model Require Import Slab Poll Whole Full.
Import ListNotations.

(** The steps of workers, kernel and peers; those of the main thread and the jobs, as Model/Poll.v labels them. *)
Definition wpart (l : flabel) : list wlabel := match l with FW l => [l] | _ => [] end.
Definition ppart (l : flabel) : list label :=
  match l with
  | FP l => [l]
  | FPolled _ => [Polled]
  | FW l => match ends l with Some (d, b) => [Finished d b] | None => [] end
  end.
Definition wparts (ls : list flabel) : list wlabel := flat_map wpart ls.
Definition pparts (ls : list flabel) : list label := flat_map ppart ls.

(** Connection [c] was accepted and registered; no event made the server remove it. *)
Definition accepted_here (c : nat) (ls : list flabel) : Prop := In (FP (Accepted c true)) ls.
Definition never_removed (c : nat) (ls : list flabel) : Prop := forall c', ~ In (FP (Closed c' (Some c))) ls.
(** No event said that the peer of [c] had closed. *)
Definition never_hung_up (c : nat) (ls : list flabel) : Prop := forall r, ~ In (FP (Closed c r)) ls.

(** The socket of [c] is open. *)
Definition connected (c : nat) (st : fstate) : Prop := exists t, In (c, t) (p_reg (f_p st)).

(** What peers and kernel do: something arrives, something happens to a socket, a poll tells of new connections (or of
    nothing), accept gives a connection or fails. *)
Definition new_connection (e : event) : bool := match e with EvListener => true | _ => false end.
Definition from_outside (l : flabel) : bool :=
  match l with
  | FW (AArrive _ _) | FW (ANotify _) => true
  | FPolled [] => true
  | FPolled evs => existsb new_connection evs
  | FP (Accepted _ _) | FP AcceptFailed => true
  | _ => false
  end.
(** The server can do nothing more until something comes from outside. *)
Definition resting (dbg : bool) (R : nat -> _ -> _ -> Prop) (st : fstate) : Prop :=
  forall l st', fstep dbg R st l st' -> from_outside l = true.

(** The jobs there are. *)
Definition job_of (w : wworker) : list nat :=
  match w with WWait c | WServe c _ _ _ | WDrained c _ _ _ => [c] | _ => [] end.
Definition jobs (w : wstate) : list nat := ws_queue w ++ flat_map job_of (ws_workers w).
(** No connection is removed by an event about it while a job for it is queued or running. *)
Inductive tidy (dbg : bool) (R : nat -> _ -> _ -> Prop) : fstate -> list flabel -> fstate -> Prop :=
| tidy_nil st : tidy dbg R st [] st
| tidy_step st ls st' l st'' : tidy dbg R st ls st' -> fstep dbg R st' l st'' ->
    (forall c r, l = FP (Closed c r) -> ~ In c (jobs (f_w st'))) -> tidy dbg R st (l :: ls) st''.
