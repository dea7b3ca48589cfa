(** All connections of a server that listens with TLS (listen_https, server.rs:40-43), served by the workers of the thread pool: Model/Whole.v with
    the streams of Model/Tls.v.  server.rs:45-66, 82-99, thread_pool.rs, poll.rs.  Simplified as in Model/Whole.v; besides, a call of the
    handler is one step: what arrives for its connection while it runs counts as having arrived before it or after it, and sockets fail
    neither reads nor writes but by blocking.  The router is a function of the connection and of the requests
    routed on it before; in one execution each such history of a connection occurs once, so that whatever the listeners share or
    depend on, what they answered in that execution is such a function. *)
From Coq Require Import List Bool Arith NArith.
From Verif.Model Require Import Bytes Io Common Parse Encode Writer Server Slab Buffered Streams Tls.
Import ListNotations.

(** A connection: the Option in its mutex (server.rs:59); what has reached its socket since the last call (what reached it
    earlier and was not read is in the stream); whether the socket has refused bytes and has not had room since; a readiness event not yet dispatched; the
    requests routed. *)
Record sconn := mk_sconn {
  sn_slot : tslot tls; sn_in : list (list record); sn_full : bool; sn_event : bool; sn_log : list request }.
(** server.rs:54-59, tls_stream.rs:15-17. *)
Definition sn_new : sconn := mk_sconn (TOpen tls (tconn_new tls tls_new)) [] false false [].

(** A worker: free; with a job (thread_pool.rs:80-83); ended by a panic. *)
Inductive sworker := SFree | SWait (c : nat) | SDead.
Record sstate := mk_sstate { ss_conns : list sconn; ss_queue : list nat; ss_workers : list sworker }.
Definition s_init (conns size : nat) : sstate := mk_sstate (repeat sn_new conns) [] (repeat SFree size).
Definition salive (w : sworker) : bool := match w with SDead => false | _ => true end.

(* server.rs:59, 85, 95-97 *)
Definition sn_open (x : sconn) : bool := match sn_slot x with TOpen _ _ => true | _ => false end.
(* server.rs:83 *)
Definition sn_poisoned (x : sconn) : bool := match sn_slot x with TPoisoned _ _ => true | _ => false end.

(** What a call finds around its stream: what has arrived, and a socket that takes [tx]. *)
(* the socket under tls_stream.rs:9 when server.rs:82 is called *)
Definition s_around (rs : list (list record)) (tx : list N) (t : tls) : tls :=
  mk_tls (ts_hs t) (ts_bad t) (ts_plain t) (ts_closed t) (ts_queue t) (ts_out t) (ts_rx t ++ map TArrive rs) (map WTake tx) (ts_seen t).
(** A write of the socket reported would-block: there is something to send and it takes no more. *)
(* tls_stream.rs:26-34 *)
Definition refused (st : tslot tls) : bool :=
  match st with
  | TOpen _ c =>
      let t := tb_in tls (tc_stream tls c) in
      match ts_queue t, ts_tx t with _ :: _, [] => true | _, _ => false end
  | _ => false
  end.

(* server.rs:61-65, 82-99, thread_pool.rs:79-86 *)
Inductive slabel :=
| XArrive (c : nat) (rs : list (list record)) | XRoom (c : nat) | XNotify (c : nat) | XDispatch (c : nat)
| XTake (i c : nat) | XHandle (i c : nat) (tx : list N) | XDie (i c : nat).

(* the connection of server.rs:82, changed *)
Definition supd (st : sstate) (c : nat) (x : sconn) : list sconn := set_nth c x (ss_conns st).
(* the worker of thread_pool.rs:79-86, changed *)
Definition sput (st : sstate) (i : nat) (w : sworker) : list sworker := set_nth i w (ss_workers st).
(* poll.rs:55 *)
Definition sn_ready (e : bool) (x : sconn) : sconn := mk_sconn (sn_slot x) (sn_in x) (sn_full x) e (sn_log x).

Section Secure.
Variable seal : bytes -> list chunk.
Variable size : bytes -> N.
Variable fuel : nat.
Variable dbg : bool.
Variable rt : nat -> router.

(* server.rs:61-65, 82-99, thread_pool.rs:79-86 *)
Inductive sstep : sstate -> slabel -> sstate -> Prop :=
(** Each element of [rs] is what one read of the socket will give. *)
| ss_arrive st c x rs : nth_error (ss_conns st) c = Some x -> sn_open x = true ->
    sstep st (XArrive c rs)
      (mk_sstate (supd st c (mk_sconn (sn_slot x) (sn_in x ++ rs) (sn_full x) true (sn_log x))) (ss_queue st) (ss_workers st))
(** The socket has room again: an event (poll.rs:39 registers for both). *)
| ss_room st c x : nth_error (ss_conns st) c = Some x -> sn_full x = true ->
    sstep st (XRoom c)
      (mk_sstate (supd st c (mk_sconn (sn_slot x) (sn_in x) false true (sn_log x))) (ss_queue st) (ss_workers st))
(** Any other event. *)
| ss_notify st c x : nth_error (ss_conns st) c = Some x ->
    sstep st (XNotify c) (mk_sstate (supd st c (sn_ready true x)) (ss_queue st) (ss_workers st))
(** poll.rs:45, server.rs:61-65. *)
| ss_dispatch st c x : nth_error (ss_conns st) c = Some x -> sn_event x = true -> existsb salive (ss_workers st) = true ->
    sstep st (XDispatch c) (mk_sstate (supd st c (sn_ready false x)) (ss_queue st ++ [c]) (ss_workers st))
(** thread_pool.rs:80-83. *)
| ss_take st i c q : nth_error (ss_workers st) i = Some SFree -> ss_queue st = c :: q ->
    sstep st (XTake i c) (mk_sstate (ss_conns st) q (sput st i (SWait c)))
(** server.rs:82-99.  A socket that is full takes nothing. *)
| ss_handle st i c x tx log' st' : nth_error (ss_workers st) i = Some (SWait c) -> nth_error (ss_conns st) c = Some x ->
    sn_poisoned x = false -> (sn_full x = true -> tx = []) ->
    t_handle tls tls_read (tls_write seal) tls_flush size READ_BUF_SIZE fuel dbg (rt c) (s_around (sn_in x) tx) (sn_log x) (sn_slot x) = Some (log', st') ->
    sstep st (XHandle i c tx)
      (mk_sstate (supd st c (mk_sconn st' [] (sn_full x || refused st') (sn_event x) log')) (ss_queue st)
        (sput st i (match st' with TPoisoned _ _ => SDead | _ => SFree end)))
(** server.rs:83 on a poisoned mutex. *)
| ss_die st i c x : nth_error (ss_workers st) i = Some (SWait c) -> nth_error (ss_conns st) c = Some x -> sn_poisoned x = true ->
    sstep st (XDie i c) (mk_sstate (ss_conns st) (ss_queue st) (sput st i SDead)).

(** Executions, latest label first. *)
(* server.rs:61-65, 82-99, thread_pool.rs:79-86 *)
Inductive srun : sstate -> list slabel -> sstate -> Prop :=
| srun_nil st : srun st [] st
| srun_step st ls st' l st'' : srun st ls st' -> sstep st' l st'' -> srun st (l :: ls) st''.

End Secure.
