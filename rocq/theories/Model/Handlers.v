(** The handler jobs of all connections on the workers of the thread pool, with the per-connection mutex and
    edge-triggered readiness: server.rs:61-66 and 82-99 together with thread_pool.rs and poll.rs, as a transition
    system.
    Simplified: the channel is a queue read by free workers (Model/Pool.v has its lock); an event reaches its own
    connection (Model/Poll.v); of what a handler does with a connection only the number of bytes it reads is kept
    (Model/Server.v has the rest; C50_reads_to_block justifies [st_drain]/[st_keep]). *)
From Coq Require Import List Bool Arith.
From Verif.Model Require Import Slab.
Import ListNotations.

(** A connection: bytes waiting in its socket, a readiness event not yet dispatched, whether the Option in its mutex
    holds it (server.rs:59), whether the mutex is poisoned. *)
Record cstate := mk_cstate { c_unread : nat; c_event : bool; c_full : bool; c_poisoned : bool }.
(** Just accepted.  What arrived before shows as an arrival right after. *)
Definition cs_new : cstate := mk_cstate 0 false true false.

(** A worker: free; with a job for a connection, before [lock] (server.rs:83); serving it, with the lock (85-92);
    serving it, after the read that reported would-block; ended by a panic. *)
Inductive hworker := HFree | HWait (c : nat) | HServe (c : nat) | HDrained (c : nat) | HDead.

(* server.rs:55-65, thread_pool.rs:31-45 *)
Record hstate := mk_hstate { h_conns : list cstate; h_queue : list nat; h_workers : list hworker }.

(* server.rs:50, 58-59 *)
Definition h_init (conns size : nat) : hstate := mk_hstate (repeat cs_new conns) [] (repeat HFree size).

(** The mutex of connection [c] is held. *)
(* server.rs:83 *)
Definition holds (c : nat) (w : hworker) : bool :=
  match w with HServe d | HDrained d => d =? c | _ => false end.
(* server.rs:83 *)
Definition held (c : nat) (st : hstate) : bool := existsb (holds c) (h_workers st).

(* thread_pool.rs:79-86 *)
Definition alive (w : hworker) : bool := match w with HDead => false | _ => true end.

(** The socket is open: the connection is in its Option or taken out by a handler. *)
(* server.rs:59, 85, 95-97 *)
Definition is_open (c : nat) (st : hstate) : bool :=
  match nth_error (h_conns st) c with Some x => c_full x | None => false end || held c st.

(* server.rs:61-65, 82-99, thread_pool.rs:79-86 *)
Inductive hlabel :=
| LArrive (c n : nat) | LNotify (c : nat) | LDispatch (c : nat)
| LTake (i c : nat) | LEnter (i c : nat) | LSkip (i c : nat) | LDie (i c : nat)
| LRead (i c n : nat) | LDrain (i c : nat) | LKeep (i c : nat) | LClose (i c : nat) | LCrash (i c : nat).

(* the connection of server.rs:82, changed *)
Definition upd (st : hstate) (c : nat) (x : cstate) : list cstate := set_nth c x (h_conns st).
(* the worker of thread_pool.rs:79-86, changed *)
Definition put (st : hstate) (i : nat) (w : hworker) : list hworker := set_nth i w (h_workers st).

(* server.rs:61-65, 82-99, thread_pool.rs:79-86 *)
Inductive hstep : hstate -> hlabel -> hstate -> Prop :=
(** Bytes arrive: an edge, so an event becomes pending. *)
| st_arrive st c x n : nth_error (h_conns st) c = Some x -> is_open c st = true -> 0 < n ->
    hstep st (LArrive c n) (mk_hstate (upd st c (mk_cstate (c_unread x + n) true (c_full x) (c_poisoned x))) (h_queue st) (h_workers st))
(** Any other event, for instance that the socket is writable; or one about another socket that is taken for one about
    this (C36). *)
| st_notify st c x : nth_error (h_conns st) c = Some x ->
    hstep st (LNotify c) (mk_hstate (upd st c (mk_cstate (c_unread x) true (c_full x) (c_poisoned x))) (h_queue st) (h_workers st))
(** poll.rs:45, server.rs:61-65; [execute] needs a worker alive, see C48. *)
| st_dispatch st c x : nth_error (h_conns st) c = Some x -> c_event x = true -> existsb alive (h_workers st) = true ->
    hstep st (LDispatch c) (mk_hstate (upd st c (mk_cstate (c_unread x) false (c_full x) (c_poisoned x))) (h_queue st ++ [c]) (h_workers st))
(** thread_pool.rs:80-83. *)
| st_take st i c q : nth_error (h_workers st) i = Some HFree -> h_queue st = c :: q ->
    hstep st (LTake i c) (mk_hstate (h_conns st) q (put st i (HWait c)))
(** server.rs:83-85: with a connection, with none, with a poisoned mutex. *)
| st_enter st i c x : nth_error (h_workers st) i = Some (HWait c) -> nth_error (h_conns st) c = Some x ->
    held c st = false -> c_poisoned x = false -> c_full x = true ->
    hstep st (LEnter i c) (mk_hstate (upd st c (mk_cstate (c_unread x) (c_event x) false false)) (h_queue st) (put st i (HServe c)))
| st_skip st i c x : nth_error (h_workers st) i = Some (HWait c) -> nth_error (h_conns st) c = Some x ->
    held c st = false -> c_poisoned x = false -> c_full x = false ->
    hstep st (LSkip i c) (mk_hstate (h_conns st) (h_queue st) (put st i HFree))
| st_die st i c x : nth_error (h_workers st) i = Some (HWait c) -> nth_error (h_conns st) c = Some x ->
    held c st = false -> c_poisoned x = true ->
    hstep st (LDie i c) (mk_hstate (h_conns st) (h_queue st) (put st i HDead))
(** server.rs:92: reading, until it would block; 95-97. *)
| st_read st i c x n : nth_error (h_workers st) i = Some (HServe c) -> nth_error (h_conns st) c = Some x ->
    0 < n <= c_unread x ->
    hstep st (LRead i c n) (mk_hstate (upd st c (mk_cstate (c_unread x - n) (c_event x) (c_full x) (c_poisoned x))) (h_queue st) (h_workers st))
| st_drain st i c x : nth_error (h_workers st) i = Some (HServe c) -> nth_error (h_conns st) c = Some x ->
    c_unread x = 0 -> hstep st (LDrain i c) (mk_hstate (h_conns st) (h_queue st) (put st i (HDrained c)))
| st_keep st i c x : nth_error (h_workers st) i = Some (HDrained c) -> nth_error (h_conns st) c = Some x ->
    hstep st (LKeep i c) (mk_hstate (upd st c (mk_cstate (c_unread x) (c_event x) true (c_poisoned x))) (h_queue st) (put st i HFree))
(** server.rs:88 and 95-98 with should_close. *)
| st_close st i c x : nth_error (h_workers st) i = Some (HServe c) -> nth_error (h_conns st) c = Some x ->
    hstep st (LClose i c) (mk_hstate (h_conns st) (h_queue st) (put st i HFree))
(** A panic in the parser or in a listener, with the lock held. *)
| st_crash st i c x : nth_error (h_workers st) i = Some (HServe c) -> nth_error (h_conns st) c = Some x ->
    hstep st (LCrash i c) (mk_hstate (upd st c (mk_cstate (c_unread x) (c_event x) (c_full x) true)) (h_queue st) (put st i HDead)).

(** Executions, latest label first. *)
(* server.rs:61-65, 82-99, thread_pool.rs:79-86 *)
Inductive hrun : hstate -> list hlabel -> hstate -> Prop :=
| hrun_nil st : hrun st [] st
| hrun_step st ls st' l st'' : hrun st ls st' -> hstep st' l st'' -> hrun st (l :: ls) st''.
