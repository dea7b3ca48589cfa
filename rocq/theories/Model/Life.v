(** How the server ends: the whole server of Model/Full.v with the end of [listen] (poll.rs:55, server.rs:47-66) and the drop of the
    thread pool (thread_pool.rs:58-71), on which the main thread waits for the workers.
    Simplified as in Model/Full.v. *)
From Coq Require Import List Bool Arith NArith.
From Verif.Model Require Import Bytes Io Common Parse Encode Writer Server Slab Poll Whole Full.
Import ListNotations.

(** The main thread: in the event loop; after an error of the poll (poll.rs:55), in the drop of the pool, with so many Terminate
    messages left to send (thread_pool.rs:61-63); there, joining that worker next (65-69); returned from [listen] with the error;
    ended by a panic in the drop; and the process aborted, since the pool is also dropped while a panic of [execute] (thread_pool.rs:54)
    unwinds the main thread, and its drop panics again for the same reason. *)
Inductive mphase :=
| MServing | MSending (e : ekind) (n : nat) | MJoining (e : ekind) (k : nat) | MReturned (e : ekind) | MUnwound | MAborted.

(** [l_term]: the Terminate messages in the channel, behind all jobs; [l_done]: the workers that have returned (thread_pool.rs:84), which
    are [WDead] in [l_f]. *)
Record lstate := mk_lstate { l_f : fstate; l_main : mphase; l_term : nat; l_done : list nat }.

(* server.rs:48-54 *)
Definition l_init (size : nat) : lstate := mk_lstate (f_init size) MServing 0 [].

(** poll.rs:30, 48: the slab is dropped when [listen] returns, and with it the connections that no handler has. *)
Definition drop_slab (p : pstate) : pstate :=
  mk_pstate (slab_new 0) (p_next p) (sweep (slab_new 0) (p_jobs p) (p_reg p)) (p_jobs p) [] false.

(** A worker ends. *)
(* thread_pool.rs:84 *)
Definition end_worker (st : fstate) (i : nat) : fstate :=
  mk_fstate (mk_wstate (ws_conns (f_w st)) (ws_queue (f_w st)) (wput (f_w st) i WDead)) (f_p st).

(** The receiver exists while a worker does. *)
(* thread_pool.rs:36, 41, 80 *)
Definition someone (st : fstate) : bool := existsb walive (ws_workers (f_w st)).

(* poll.rs:55, thread_pool.rs:48-71, 79-86 *)
Inductive llabel :=
| LF (l : flabel) | LStop (e : ekind) | LSend | LJoin | LTerminate (i : nat) | LOrphan (i : nat)
| LReturn (e : ekind) | LUnwind | LAbort.

(* poll.rs:55, thread_pool.rs:48-71, 79-86 *)
Inductive lstep (dbg : bool) (R : nat -> request -> lresult -> Prop) : lstate -> llabel -> lstate -> Prop :=
| ls_serve f l f' t d : fstep dbg R f l f' ->
    lstep dbg R (mk_lstate f MServing t d) (LF l) (mk_lstate f' MServing t d)
(** thread_pool.rs:54 without workers. *)
| ls_abort f t d c k b j : p_batch (f_p f) = EvSocket c k false :: b -> p_listening (f_p f) = false -> get (p_slab (f_p f)) k = Some j ->
    someone f = false ->
    lstep dbg R (mk_lstate f MServing t d) LAbort (mk_lstate f MAborted t d)
(** poll.rs:55. *)
| ls_stop f t d e : p_batch (f_p f) = [] -> p_listening (f_p f) = false ->
    lstep dbg R (mk_lstate f MServing t d) (LStop e)
      (mk_lstate (mk_fstate (f_w f) (drop_slab (f_p f))) (MSending e (List.length (ws_workers (f_w f)))) t d)
(** Workers, peers and the kernel go on. *)
| ls_work f l f' m t d : m <> MServing -> m <> MAborted -> fstep dbg R f (FW l) f' ->
    lstep dbg R (mk_lstate f m t d) (LF (FW l)) (mk_lstate f' m t d)
(** thread_pool.rs:61-63. *)
| ls_send f e n t d : someone f = true ->
    lstep dbg R (mk_lstate f (MSending e (S n)) t d) LSend (mk_lstate f (MSending e n) (S t) d)
| ls_send_fails f e n t d : someone f = false ->
    lstep dbg R (mk_lstate f (MSending e (S n)) t d) LUnwind (mk_lstate f MUnwound t d)
| ls_sent f e t d : lstep dbg R (mk_lstate f (MSending e 0) t d) LJoin (mk_lstate f (MJoining e 0) t d)
(** thread_pool.rs:65-69. *)
| ls_join f e k t d : In k d -> lstep dbg R (mk_lstate f (MJoining e k) t d) LJoin (mk_lstate f (MJoining e (S k)) t d)
| ls_join_fails f e k t d : nth_error (ws_workers (f_w f)) k = Some WDead -> ~ In k d ->
    lstep dbg R (mk_lstate f (MJoining e k) t d) LUnwind (mk_lstate f MUnwound t d)
| ls_joined f e k t d : nth_error (ws_workers (f_w f)) k = None ->
    lstep dbg R (mk_lstate f (MJoining e k) t d) (LReturn e) (mk_lstate f (MReturned e) t d)
(** thread_pool.rs:80, 84: the messages before have been taken. *)
| ls_terminate f m t d i : m <> MAborted -> nth_error (ws_workers (f_w f)) i = Some WFree -> ws_queue (f_w f) = [] ->
    lstep dbg R (mk_lstate f m (S t) d) (LTerminate i) (mk_lstate (end_worker f i) m t (i :: d))
(** thread_pool.rs:80: the sender is gone. *)
| ls_orphan f d i : nth_error (ws_workers (f_w f)) i = Some WFree -> ws_queue (f_w f) = [] ->
    lstep dbg R (mk_lstate f MUnwound 0 d) (LOrphan i) (mk_lstate (end_worker f i) MUnwound 0 d).

(** Executions, latest label first. *)
(* poll.rs:55, thread_pool.rs:48-71, 79-86 *)
Inductive lrun (dbg : bool) (R : nat -> request -> lresult -> Prop) : lstate -> list llabel -> lstate -> Prop :=
| lrun_nil st : lrun dbg R st [] st
| lrun_step st ls st' l st'' : lrun dbg R st ls st' -> lstep dbg R st' l st'' -> lrun dbg R st (l :: ls) st''.
