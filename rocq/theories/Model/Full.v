(** The whole server: the main thread with its slab and the registrations of Model/Poll.v, together with the
    connections, their contents and the workers of Model/Whole.v.  server.rs:45-138, poll.rs, thread_pool.rs.
    Connections are numbered in the order accepted, in both parts.  In the second part an event waits in the kernel; the
    first has those of the last poll.  A connection of which the last Arc is dropped keeps its contents here; that its
    socket is closed shows in [p_reg].
    Simplified: the channel is a queue read by free workers (Model/Pool.v has its lock), jobs in it stay when the last
    worker has ended, and what one call of the handler writes and routes shows when it ends. *)
From Coq Require Import List Bool Arith NArith.
From Verif.Model Require Import Bytes Io Common Parse Encode Writer Server Slab Poll Whole.
Import ListNotations.

(* server.rs:48-66, poll.rs:22-61 *)
Record fstate := mk_fstate { f_w : wstate; f_p : pstate }.

(** server.rs:49, poll.rs:27-30. *)
Definition f_init (size : nat) : fstate := mk_fstate (mk_wstate [] [] (repeat WFree size)) poll_init.

(* poll.rs:55 *)
Definition with_event (b : bool) (x : wconn) : wconn := mk_wconn (wc_sock x) b (wc_slot x) (wc_log x).
(* poll.rs:55 *)
Definition has_event (w : wstate) (c : nat) : Prop := exists x, nth_error (ws_conns w) c = Some x /\ wc_event x = true.

(** poll.rs:55: the events returned do not wait in the kernel any more (edge-triggered). *)
Definition clear_event (l : list wconn) (c : nat) : list wconn :=
  match nth_error l c with Some x => set_nth c (with_event false x) l | None => l end.
Definition polled (evs : list event) (w : wstate) : wstate :=
  mk_wstate (fold_left clear_event (flat_map socket_of evs) (ws_conns w)) (ws_queue w) (ws_workers w).

(** server.rs:54-59.  (If registering fails, poll.rs:39, this is not done; the connection has a number all the same.) *)
Definition add_conn (w : wstate) : wstate := mk_wstate (ws_conns w ++ [wc_new]) (ws_queue w) (ws_workers w).

(** server.rs:61-65. *)
Definition enqueue (r : option nat) (w : wstate) : wstate :=
  match r with Some d => mk_wstate (ws_conns w) (ws_queue w ++ [d]) (ws_workers w) | None => w end.

(** The steps of a worker that end a job, and whether the connection is dropped. *)
(* server.rs:82-99 *)
Definition ends (l : wlabel) : option (nat * bool) :=
  match l with
  | ASkip _ c | ADie _ c | AKeep _ c _ => Some (c, false)
  | AClose _ c _ | ACrash _ c _ => Some (c, true)
  | _ => None
  end.
(** The others. *)
(* server.rs:82-99 *)
Definition inner (l : wlabel) : bool :=
  match l with ATake _ _ | AEnter _ _ | ARead _ _ _ | ADrain _ _ => true | _ => false end.
(** The steps of the main thread that leave the second part alone. *)
(* poll.rs:34-61 *)
Definition main_only (l : label) : bool :=
  match l with Listening | AcceptFailed | Blocked | Closed _ _ => true | _ => false end.

(** What shows: a step of a worker, the kernel or a peer; the events returned by a poll; another step of the main
    thread. *)
(* server.rs:48-99, poll.rs:34-75 *)
Inductive flabel := FW (l : wlabel) | FPolled (evs : list event) | FP (l : label).

(* server.rs:48-99, poll.rs:34-75 *)
Inductive fstep (dbg : bool) (R : nat -> request -> lresult -> Prop) : fstate -> flabel -> fstate -> Prop :=
(** Something arrives at, or happens to, an open socket. *)
| fs_arrive st c t its w' : In (c, t) (p_reg (f_p st)) -> wstep dbg R (f_w st) (AArrive c its) w' ->
    fstep dbg R st (FW (AArrive c its)) (mk_fstate w' (f_p st))
| fs_notify st c t w' : In (c, t) (p_reg (f_p st)) -> wstep dbg R (f_w st) (ANotify c) w' ->
    fstep dbg R st (FW (ANotify c)) (mk_fstate w' (f_p st))
(** poll.rs:55. *)
| fs_poll st p' : pstep (f_p st) Polled p' ->
    (forall c t b, In (EvSocket c t b) (p_batch p') -> has_event (f_w st) c) ->
    fstep dbg R st (FPolled (p_batch p')) (mk_fstate (polled (p_batch p') (f_w st)) p')
(** poll.rs:35-44, 65-75. *)
| fs_main st l p' : main_only l = true -> pstep (f_p st) l p' ->
    fstep dbg R st (FP l) (mk_fstate (f_w st) p')
| fs_accept st c ok p' : pstep (f_p st) (Accepted c ok) p' ->
    fstep dbg R st (FP (Accepted c ok)) (mk_fstate (add_conn (f_w st)) p')
(** poll.rs:45; [execute] needs a worker alive, see C48. *)
| fs_ready st c r p' : pstep (f_p st) (Ready c r) p' -> (r <> None -> existsb walive (ws_workers (f_w st)) = true) ->
    fstep dbg R st (FP (Ready c r)) (mk_fstate (enqueue r (f_w st)) p')
(** thread_pool.rs:79-86, server.rs:82-99. *)
| fs_work st l w' : inner l = true -> wstep dbg R (f_w st) l w' ->
    fstep dbg R st (FW l) (mk_fstate w' (f_p st))
| fs_end st l d b w' p' : ends l = Some (d, b) -> wstep dbg R (f_w st) l w' -> pstep (f_p st) (Finished d b) p' ->
    fstep dbg R st (FW l) (mk_fstate w' p').

(** Executions, latest label first. *)
(* server.rs:48-99, poll.rs:34-75 *)
Inductive frun (dbg : bool) (R : nat -> request -> lresult -> Prop) : fstate -> list flabel -> fstate -> Prop :=
| frun_nil st : frun dbg R st [] st
| frun_step st ls st' l st'' : frun dbg R st ls st' -> fstep dbg R st' l st'' -> frun dbg R st (l :: ls) st''.
