(** /repo/src/util/thread_pool.rs, as a transition system.  Jobs are numbered in the order submitted. *)
From Coq Require Import List Bool Arith.
From Verif.Model Require Import Slab.
Import ListNotations.

(** thread_pool.rs:16-21. *)
Inductive msg := MJob (j : nat) | MTerm.

(** A worker thread, in the loop of thread_pool.rs:79-86: before [lock], between [lock] and the end of [recv]
    (line 80; the guard is dropped at the end of that statement), running a job (line 83), returned (line 84), or
    ended by a panic. *)
Inductive worker := WIdle | WLocked | WRun (j : nat) | WDone | WDead.

(** The thread that owns the pool: using it; in [drop], with so many Terminate messages left to send
    (thread_pool.rs:61-63); in [drop], joining that worker next (65-69); done; ended by a panic in [execute] or
    [drop].  Only one thread can use the pool (mpsc::Sender is not Sync). *)
Inductive owner := OLive | OSending (n : nat) | OJoining (k : nat) | ODropped | OPanicked.

(** [po_queue]: the channel; [po_jobs]: how many jobs were submitted; [po_poisoned]: the mutex around the receiver. *)
(* thread_pool.rs:31-45 *)
Record pool := mk_pool {
  po_queue : list msg; po_workers : list worker; po_owner : owner; po_jobs : nat; po_poisoned : bool }.

(** thread_pool.rs:31-45 [new]; the caller has [size > 0] (line 32). *)
Definition pool_new (size : nat) : pool := mk_pool [] (repeat WIdle size) OLive 0 false.

(** The receiver exists while some worker thread holds its Arc (thread_pool.rs:79). *)
Definition live (w : worker) : bool := match w with WDone | WDead => false | _ => true end.
Definition receiver (st : pool) : bool := existsb live (po_workers st).

(** The mutex is held. *)
(* thread_pool.rs:80 *)
Definition locked (st : pool) : bool := existsb (fun w => match w with WLocked => true | _ => false end) (po_workers st).

(** The sender exists until the pool is dropped, also by unwinding. *)
(* thread_pool.rs:34, 44, 58-71 *)
Definition sender (st : pool) : bool := match po_owner st with ODropped | OPanicked => false | _ => true end.

(* a thread of thread_pool.rs:79-86 *)
Definition set_worker (st : pool) (i : nat) (w : worker) : list worker := set_nth i w (po_workers st).

(** What is seen of a step. *)
(* thread_pool.rs:48-86 *)
Inductive plabel :=
| Submit (j : nat) | SubmitFailed | DropCalled | Dropped | DropFailed
| Start (j : nat) | Finish (j : nat) | Crash (j : nat) | Tau.

(* thread_pool.rs:48-86 *)
Inductive step : pool -> plabel -> pool -> Prop :=
(** thread_pool.rs:48-55 [execute]; the unwrap panics if the receiver is gone. *)
| step_submit st : po_owner st = OLive -> receiver st = true ->
    step st (Submit (po_jobs st))
      (mk_pool (po_queue st ++ [MJob (po_jobs st)]) (po_workers st) OLive (S (po_jobs st)) (po_poisoned st))
| step_submit_fails st : po_owner st = OLive -> receiver st = false ->
    step st SubmitFailed (mk_pool (po_queue st) (po_workers st) OPanicked (po_jobs st) (po_poisoned st))
(** thread_pool.rs:60-70 [drop]. *)
| step_drop st : po_owner st = OLive ->
    step st DropCalled (mk_pool (po_queue st) (po_workers st) (OSending (List.length (po_workers st))) (po_jobs st) (po_poisoned st))
| step_send st n : po_owner st = OSending (S n) -> receiver st = true ->
    step st Tau (mk_pool (po_queue st ++ [MTerm]) (po_workers st) (OSending n) (po_jobs st) (po_poisoned st))
| step_send_fails st n : po_owner st = OSending (S n) -> receiver st = false ->
    step st DropFailed (mk_pool (po_queue st) (po_workers st) OPanicked (po_jobs st) (po_poisoned st))
| step_sent st : po_owner st = OSending 0 ->
    step st Tau (mk_pool (po_queue st) (po_workers st) (OJoining 0) (po_jobs st) (po_poisoned st))
| step_join st k : po_owner st = OJoining k -> nth_error (po_workers st) k = Some WDone ->
    step st Tau (mk_pool (po_queue st) (po_workers st) (OJoining (S k)) (po_jobs st) (po_poisoned st))
| step_join_fails st k : po_owner st = OJoining k -> nth_error (po_workers st) k = Some WDead ->
    step st DropFailed (mk_pool (po_queue st) (po_workers st) OPanicked (po_jobs st) (po_poisoned st))
| step_joined st k : po_owner st = OJoining k -> nth_error (po_workers st) k = None ->
    step st Dropped (mk_pool (po_queue st) (po_workers st) ODropped (po_jobs st) (po_poisoned st))
(** thread_pool.rs:80 [lock] and its unwrap. *)
| step_lock st i : nth_error (po_workers st) i = Some WIdle -> locked st = false -> po_poisoned st = false ->
    step st Tau (mk_pool (po_queue st) (set_worker st i WLocked) (po_owner st) (po_jobs st) (po_poisoned st))
| step_lock_fails st i : nth_error (po_workers st) i = Some WIdle -> locked st = false -> po_poisoned st = true ->
    step st Tau (mk_pool (po_queue st) (set_worker st i WDead) (po_owner st) (po_jobs st) (po_poisoned st))
(** thread_pool.rs:80 [recv] and its unwrap; 83, 84. *)
| step_start st i j q : nth_error (po_workers st) i = Some WLocked -> po_queue st = MJob j :: q ->
    step st (Start j) (mk_pool q (set_worker st i (WRun j)) (po_owner st) (po_jobs st) (po_poisoned st))
| step_stop st i q : nth_error (po_workers st) i = Some WLocked -> po_queue st = MTerm :: q ->
    step st Tau (mk_pool q (set_worker st i WDone) (po_owner st) (po_jobs st) (po_poisoned st))
| step_recv_fails st i : nth_error (po_workers st) i = Some WLocked -> po_queue st = [] -> sender st = false ->
    step st Tau (mk_pool [] (set_worker st i WDead) (po_owner st) (po_jobs st) true)
(** The job returns or panics. *)
| step_finish st i j : nth_error (po_workers st) i = Some (WRun j) ->
    step st (Finish j) (mk_pool (po_queue st) (set_worker st i WIdle) (po_owner st) (po_jobs st) (po_poisoned st))
| step_crash st i j : nth_error (po_workers st) i = Some (WRun j) ->
    step st (Crash j) (mk_pool (po_queue st) (set_worker st i WDead) (po_owner st) (po_jobs st) (po_poisoned st)).

(** Executions, latest label first. *)
(* thread_pool.rs:48-86 *)
Inductive run : pool -> list plabel -> pool -> Prop :=
| run_nil st : run st [] st
| run_step st ls st' l st'' : run st ls st' -> step st' l st'' -> run st (l :: ls) st''.
