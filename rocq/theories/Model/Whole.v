(** All connections of a server with the bytes they receive, served by the workers of the thread pool:
    Model/Handlers.v with the contents of Model/Server.v put back.  server.rs:45-66, 82-138, thread_pool.rs, poll.rs.
    Simplified as in Model/Handlers.v; besides, what one call of the handler writes and routes shows when the call ends
    (until then the mutex is held and no other handler can tell), and the connections are those that will be accepted,
    nothing arriving before that. *)
From Coq Require Import List Bool Arith NArith.
From Verif.Model Require Import Bytes Io Common Parse Encode Writer Server Slab.
Import ListNotations.

(** What waits in a socket: bytes, the end of the stream, an error. *)
(* the socket of server.rs:55 *)
Inductive item := IByte (b : byte) | IEnd | IFail (k : ekind).

(** What one read (Read::read, util/stream.rs:70-94) takes away. *)
Definition event_items (e : revent) : list item :=
  match e with
  | RData [] => [IEnd]
  | RData bs => map IByte bs
  | RErr k => [IFail k]
  end.

(** Nothing to read is not an error that waits, and the model's own error does not exist. *)
Definition proper (i : item) : Prop := i <> IFail WouldBlock /\ i <> IFail ModelFuel.

(** The Option<Connection> in the mutex of a connection (server.rs:59): there; taken by a handler (server.rs:85), as it
    was when taken; dropped; under a poisoned mutex.  For the last two, the bytes that had been sent. *)
Inductive wslot := WHere (k : conn) | WTaken (k : conn) | WGone (sent : bytes) | WBroken (sent : bytes).

(** A connection: what waits in its socket, a readiness event not yet dispatched, the Option, the requests routed. *)
(* server.rs:55-59 *)
Record wconn := mk_wconn { wc_sock : list item; wc_event : bool; wc_slot : wslot; wc_log : list request }.
(** server.rs:54-59. *)
Definition wc_new : wconn := mk_wconn [] false (WHere (conn_new [])) [].

(** A worker: free; with a job, before [lock] (server.rs:83); in the handler, where the output side of the socket does
    as [v] says, the router answers as [rt] says, and the reads so far gave [got]; the same after a read that reported
    would-block; ended by a panic. *)
Inductive wworker :=
| WFree | WWait (c : nat)
| WServe (c : nat) (v : visit) (rt : router) (got : stream)
| WDrained (c : nat) (v : visit) (rt : router) (got : stream)
| WDead.

(* server.rs:55-65, thread_pool.rs:31-45 *)
Record wstate := mk_wstate { ws_conns : list wconn; ws_queue : list nat; ws_workers : list wworker }.
(* server.rs:50, 58-59 *)
Definition w_init (conns size : nat) : wstate := mk_wstate (repeat wc_new conns) [] (repeat WFree size).

(* server.rs:83 *)
Definition wholds (c : nat) (w : wworker) : bool :=
  match w with WServe d _ _ _ | WDrained d _ _ _ => d =? c | _ => false end.
(* server.rs:83 *)
Definition wheld (c : nat) (st : wstate) : bool := existsb (wholds c) (ws_workers st).
(* thread_pool.rs:79-86 *)
Definition walive (w : wworker) : bool := match w with WDead => false | _ => true end.

(** The socket is open. *)
(* server.rs:59, 85, 95-97 *)
Definition wopen (x : wconn) : bool := match wc_slot x with WHere _ | WTaken _ => true | _ => false end.

(* server.rs:61-65, 82-99, thread_pool.rs:79-86 *)
Inductive wlabel :=
| AArrive (c : nat) (its : list item) | ANotify (c : nat) | ADispatch (c : nat)
| ATake (i c : nat) | AEnter (i c : nat) | ASkip (i c : nat) | ADie (i c : nat)
| ARead (i c : nat) (e : revent) | ADrain (i c : nat)
| AKeep (i c : nat) (v : visit) | AClose (i c : nat) (v : visit) | ACrash (i c : nat) (v : visit).

(* the connection of server.rs:82, changed *)
Definition wupd (st : wstate) (c : nat) (x : wconn) : list wconn := set_nth c x (ws_conns st).
(* the worker of thread_pool.rs:79-86, changed *)
Definition wput (st : wstate) (i : nat) (w : wworker) : list wworker := set_nth i w (ws_workers st).

(** server.rs:82-99 on a connection whose reads gave [got] and then would block. *)
Definition serve (dbg : bool) (rt : router) (v : visit) (x : wconn) (k : conn) (got : stream) : list request * slot :=
  handle dbg rt v (wc_log x) (Open (mk_conn (cn_in k ++ got) (cn_parser k) (cn_w k) (cn_sock k))).

(** [R c q l]: a listener may answer request q of connection c with l, whatever it has seen of this and other
    connections. *)
(* server.rs:61-65, 82-99, thread_pool.rs:79-86 *)
Inductive wstep (dbg : bool) (R : nat -> request -> lresult -> Prop) : wstate -> wlabel -> wstate -> Prop :=
| ws_arrive st c x its : nth_error (ws_conns st) c = Some x -> wopen x = true -> its <> [] -> Forall proper its ->
    wstep dbg R st (AArrive c its)
      (mk_wstate (wupd st c (mk_wconn (wc_sock x ++ its) true (wc_slot x) (wc_log x))) (ws_queue st) (ws_workers st))
| ws_notify st c x : nth_error (ws_conns st) c = Some x ->
    wstep dbg R st (ANotify c)
      (mk_wstate (wupd st c (mk_wconn (wc_sock x) true (wc_slot x) (wc_log x))) (ws_queue st) (ws_workers st))
(** poll.rs:45, server.rs:61-65. *)
| ws_dispatch st c x : nth_error (ws_conns st) c = Some x -> wc_event x = true -> existsb walive (ws_workers st) = true ->
    wstep dbg R st (ADispatch c)
      (mk_wstate (wupd st c (mk_wconn (wc_sock x) false (wc_slot x) (wc_log x))) (ws_queue st ++ [c]) (ws_workers st))
(** thread_pool.rs:80-83. *)
| ws_take st i c q : nth_error (ws_workers st) i = Some WFree -> ws_queue st = c :: q ->
    wstep dbg R st (ATake i c) (mk_wstate (ws_conns st) q (wput st i (WWait c)))
(** server.rs:83-85. *)
| ws_enter st i c x k v rt : nth_error (ws_workers st) i = Some (WWait c) -> nth_error (ws_conns st) c = Some x ->
    wheld c st = false -> wc_slot x = WHere k -> (forall h q, R c q (rt h q)) ->
    wstep dbg R st (AEnter i c)
      (mk_wstate (wupd st c (mk_wconn (wc_sock x) (wc_event x) (WTaken k) (wc_log x))) (ws_queue st) (wput st i (WServe c v rt [])))
| ws_skip st i c x sent : nth_error (ws_workers st) i = Some (WWait c) -> nth_error (ws_conns st) c = Some x ->
    wheld c st = false -> wc_slot x = WGone sent ->
    wstep dbg R st (ASkip i c) (mk_wstate (ws_conns st) (ws_queue st) (wput st i WFree))
| ws_die st i c x sent : nth_error (ws_workers st) i = Some (WWait c) -> nth_error (ws_conns st) c = Some x ->
    wheld c st = false -> wc_slot x = WBroken sent ->
    wstep dbg R st (ADie i c) (mk_wstate (ws_conns st) (ws_queue st) (wput st i WDead))
(** server.rs:92, while the handler needs more input to go on: a read that gives something, and one that would block. *)
| ws_read st i c x k v rt got e rest log' k' : nth_error (ws_workers st) i = Some (WServe c v rt got) ->
    nth_error (ws_conns st) c = Some x -> wc_slot x = WTaken k -> serve dbg rt v x k got = (log', Open k') ->
    wc_sock x = event_items e ++ rest ->
    wstep dbg R st (ARead i c e)
      (mk_wstate (wupd st c (mk_wconn rest (wc_event x) (wc_slot x) (wc_log x))) (ws_queue st) (wput st i (WServe c v rt (got ++ [e]))))
| ws_drain st i c x k v rt got log' k' : nth_error (ws_workers st) i = Some (WServe c v rt got) ->
    nth_error (ws_conns st) c = Some x -> wc_slot x = WTaken k -> serve dbg rt v x k got = (log', Open k') ->
    wc_sock x = [] ->
    wstep dbg R st (ADrain i c) (mk_wstate (ws_conns st) (ws_queue st) (wput st i (WDrained c v rt got)))
(** server.rs:95-97. *)
| ws_keep st i c x k v rt got log' k' : nth_error (ws_workers st) i = Some (WDrained c v rt got) ->
    nth_error (ws_conns st) c = Some x -> wc_slot x = WTaken k -> serve dbg rt v x k got = (log', Open k') ->
    wstep dbg R st (AKeep i c v)
      (mk_wstate (wupd st c (mk_wconn (wc_sock x) (wc_event x) (WHere k') log')) (ws_queue st) (wput st i WFree))
(** server.rs:88 and 95-98 with should_close. *)
| ws_close st i c x k v rt got log' sent : nth_error (ws_workers st) i = Some (WServe c v rt got) ->
    nth_error (ws_conns st) c = Some x -> wc_slot x = WTaken k -> serve dbg rt v x k got = (log', Gone sent) ->
    wstep dbg R st (AClose i c v)
      (mk_wstate (wupd st c (mk_wconn (wc_sock x) (wc_event x) (WGone sent) log')) (ws_queue st) (wput st i WFree))
(** A panic in the parser or in a listener, with the lock held. *)
| ws_crash st i c x k v rt got log' sent : nth_error (ws_workers st) i = Some (WServe c v rt got) ->
    nth_error (ws_conns st) c = Some x -> wc_slot x = WTaken k -> serve dbg rt v x k got = (log', Poisoned sent) ->
    wstep dbg R st (ACrash i c v)
      (mk_wstate (wupd st c (mk_wconn (wc_sock x) (wc_event x) (WBroken sent) log')) (ws_queue st) (wput st i WDead)).

(** Executions, latest label first. *)
(* server.rs:61-65, 82-99, thread_pool.rs:79-86 *)
Inductive wrun (dbg : bool) (R : nat -> request -> lresult -> Prop) : wstate -> list wlabel -> wstate -> Prop :=
| wrun_nil st : wrun dbg R st [] st
| wrun_step st ls st' l st'' : wrun dbg R st ls st' -> wstep dbg R st' l st'' -> wrun dbg R st (l :: ls) st''.
