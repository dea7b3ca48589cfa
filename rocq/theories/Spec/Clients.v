(** One client (client.rs:41-130), shared by any number of threads, with the whole server (Model/Full.v) at the other end of
    its streams, joined by networks that deliver in order, in any pieces, at any time (as in Spec/World.v).  Here a send is
    not one step: other threads, the networks and the server go on between its connecting, writing and reading.  Other
    clients and peers of the server are there as connections on which anything may arrive.
    Assumed: the configured time-out is not zero (otherwise connecting panics, C63). *)
From Coq Require Import List Bool Arith.
From Verif.Model Require Import Bytes Io Common Parse Encode Writer Server Client Slab Poll Whole Full Locks.
From Verif.Spec Require Import Stream Output Session Exchange Dialogue Arrivals Events World.
Import ListNotations.

(** A thread: outside of [send]; in its loop, about to try_lock connection i (client.rs:86); with connection i locked, about
    to connect (112, 117), to write (134), to read (137).  [b]: in the second attempt. *)
Inductive cthr :=
| TOut | TScan (q : request) (i : nat) | TConnect (q : request) (i : nat) (b : bool)
| TWrite (q : request) (i : nat) (b : bool) | TRead (q : request) (i : nat) (b : bool).

(** The streams are named by the numbers of the server's connections that they have or will get.  [d_stream]: the stream of
    each of the client's connections (client.rs:97); [d_opened]: all streams opened so far. *)
Record dstate := mk_dstate {
  d_world : world; d_stream : list (option nat); d_locks : list lock; d_threads : list cthr; d_opened : list nat }.

(** client.rs:68-77. *)
Definition d_init (size conns threads : nat) (socks : nat -> sock) : dstate :=
  mk_dstate (world_init size socks) (repeat None conns) (repeat Free conns) (repeat TOut threads) [].

(** What shows of the client: a call of [send]; its return, with the connection it used. *)
Inductive dlabel := DCall (t : nat) (q : request) | DReturn (t i : nat) (q : request) (r : cres).

Definition peer_of (st : dstate) (c : nat) : peer := wo_peer (d_world st) c.
Definition server_of (st : dstate) : fstate := wo_server (d_world st).
(** Another state of the server; of one stream; of one thread. *)
Definition set_server (st : dstate) (s : fstate) : dstate :=
  mk_dstate (mk_world s (wo_peer (d_world st))) (d_stream st) (d_locks st) (d_threads st) (d_opened st).
Definition set_peer (st : dstate) (c : nat) (p : peer) : dstate :=
  mk_dstate (mk_world (wo_server (d_world st)) (with_peer (d_world st) c p)) (d_stream st) (d_locks st) (d_threads st) (d_opened st).
Definition set_thread (st : dstate) (t : nat) (x : cthr) : dstate :=
  mk_dstate (d_world st) (d_stream st) (d_locks st) (set_nth t x (d_threads st)) (d_opened st).
Definition set_lock (st : dstate) (i : nat) (l : lock) : dstate :=
  mk_dstate (d_world st) (d_stream st) (set_nth i l (d_locks st)) (d_threads st) (d_opened st).
Definition set_stream (st : dstate) (i c : nat) : dstate :=
  mk_dstate (d_world st) (set_nth i (Some c) (d_stream st)) (d_locks st) (d_threads st) (c :: d_opened st).

Definition sends_more (p : peer) (b : bytes) : peer := mk_peer (pe_stream p) (pe_doing p) b (pe_heard p) (pe_ended p) (pe_done p).

(** A stream is dropped (client.rs:127 assigns another): its BufWriter tries to write what it holds. *)
Definition dropped (p p' : peer) : Prop :=
  exists d, sent (drop_stream (pe_stream p)) = sent (pe_stream p) ++ d /\
    p' = mk_peer (drop_stream (pe_stream p)) (pe_doing p) (pe_out p ++ d) (pe_heard p) (pe_ended p) (pe_done p).

(** What a thread does after an attempt with result r (client.rs:115-121; a panic poisons the lock of the connection). *)
Definition goes_on (st : dstate) (t : nat) (q : request) (i : nat) (b : bool) (r : cres) : list dlabel * dstate :=
  match r, b with
  | COk _, _ => ([DReturn t i q r], set_lock (set_thread st t TOut) i Free)
  | CPanic, _ => ([DReturn t i q r], set_lock (set_thread st t TOut) i Broken)
  | _, false => ([], set_thread st t (TConnect q i true))
  | _, true => ([DReturn t i q r], set_lock (set_thread st t TOut) i Free)
  end.

Section Clients.
Variables (dbg : bool) (R : nat -> request -> lresult -> Prop).
(** The server's connections that are streams of the client. *)
Variable ours : nat -> bool.

(** A step, with what shows of the client and of the server. *)
Inductive dstep : dstate -> list dlabel -> list flabel -> dstate -> Prop :=
| ds_server st l s' : fstep dbg R (server_of st) l s' -> (forall c its, l = FW (AArrive c its) -> ours c = false) ->
    dstep st [] [l] (set_server st s')
(** Bytes arrive at the server; the end of a dropped stream does; bytes arrive at the client; the end does. *)
| ds_arrive st c bs rest s' : ours c = true -> pe_out (peer_of st c) = bs ++ rest ->
    fstep dbg R (server_of st) (FW (AArrive c (map IByte bs))) s' ->
    dstep st [] [FW (AArrive c (map IByte bs))] (set_peer (set_server st s') c (sends_more (peer_of st c) rest))
| ds_hung_up st c s' : In c (d_opened st) -> ~ In (Some c) (d_stream st) -> pe_out (peer_of st c) = [] ->
    fstep dbg R (server_of st) (FW (AArrive c [IEnd])) s' ->
    dstep st [] [FW (AArrive c [IEnd])] (set_server st s')
| ds_hear st c p bs rest : ours c = true -> p = peer_of st c -> pe_ended p = false -> bs <> [] ->
    sent_on c (server_of st) = pe_heard p ++ bs ++ rest ->
    dstep st [] [] (set_peer st c (mk_peer (hears (pe_stream p) [RData bs]) (pe_doing p) (pe_out p) (pe_heard p ++ bs) false (pe_done p)))
| ds_end st c p : ours c = true -> p = peer_of st c -> pe_ended p = false -> ~ connected c (server_of st) ->
    dstep st [] [] (set_peer st c (mk_peer (hears (pe_stream p) [RData []]) (pe_doing p) (pe_out p) (pe_heard p) true (pe_done p)))
(** client.rs:84-88. *)
| ds_call st t q : nth_error (d_threads st) t = Some TOut ->
    dstep st [DCall t q] [] (set_thread st t (TScan q 0))
| ds_skip st t q i l : nth_error (d_threads st) t = Some (TScan q i) -> nth_error (d_locks st) i = Some l -> l <> Free ->
    dstep st [] [] (set_thread st t (TScan q (S i)))
| ds_again st t q i : nth_error (d_threads st) t = Some (TScan q i) -> nth_error (d_locks st) i = None ->
    dstep st [] [] (set_thread st t (TScan q 0))
| ds_take st t q i o : nth_error (d_threads st) t = Some (TScan q i) -> nth_error (d_locks st) i = Some Free ->
    nth_error (d_stream st) i = Some o ->
    dstep st [] [] (set_lock (set_thread st t (match o with None => TConnect q i false | Some _ => TWrite q i false end)) i Held)
(** client.rs:112, 117, 125-129. *)
| ds_connect st t q i b c : nth_error (d_threads st) t = Some (TConnect q i b) -> nth_error (d_stream st) i = Some None ->
    ours c = true -> ~ In c (d_opened st) ->
    dstep st [] [] (set_stream (set_thread st t (TWrite q i b)) i c)
| ds_reconnect st t q i b o c p : nth_error (d_threads st) t = Some (TConnect q i b) -> nth_error (d_stream st) i = Some (Some o) ->
    ours c = true -> ~ In c (d_opened st) -> dropped (peer_of st o) p ->
    dstep st [] [] (set_stream (set_thread (set_peer st o p) t (TWrite q i b)) i c)
| ds_refused st t q i b k : nth_error (d_threads st) t = Some (TConnect q i b) ->
    dstep st [DReturn t i q (CConnecting k)] [] (set_lock (set_thread st t TOut) i Free)
(** client.rs:134. *)
| ds_write st t q i b c p s d : nth_error (d_threads st) t = Some (TWrite q i b) -> nth_error (d_stream st) i = Some (Some c) ->
    p = peer_of st c -> put_request (pe_stream p) q = (WOk tt, s) -> sent s = sent (pe_stream p) ++ d ->
    dstep st [] [] (set_thread (set_peer st c (mk_peer s (Some q) (pe_out p ++ d) (pe_heard p) (pe_ended p) (pe_done p))) t (TRead q i b))
| ds_write_failed st t q i b c p s d k dl st' : nth_error (d_threads st) t = Some (TWrite q i b) -> nth_error (d_stream st) i = Some (Some c) ->
    p = peer_of st c -> put_request (pe_stream p) q = (WErr k, s) -> sent s = sent (pe_stream p) ++ d ->
    goes_on (set_peer st c (mk_peer s None (pe_out p ++ d) (pe_heard p) (pe_ended p) (pe_done p ++ [(q, CWriting k)]))) t q i b (CWriting k) = (dl, st') ->
    dstep st dl [] st'
(** client.rs:137-140: reads from what has arrived; an exhausted input reads as a time-out. *)
| ds_read st t q i b c p r inp dl st' : nth_error (d_threads st) t = Some (TRead q i b) -> nth_error (d_stream st) i = Some (Some c) ->
    p = peer_of st c -> resp_parse dbg resp_new (cs_in (pe_stream p)) = (r, inp) ->
    goes_on (set_peer st c (mk_peer (mk_cstream inp (cs_held (pe_stream p)) (cs_sock (pe_stream p))) None (pe_out p) (pe_heard p) (pe_ended p)
        (pe_done p ++ [(q, result_of r)]))) t q i b (result_of r) = (dl, st') ->
    dstep st dl [] st'.

(** Histories, with what showed of the client and of the server, latest first. *)
Inductive dhistory (d0 : dstate) : list dlabel -> list flabel -> dstate -> Prop :=
| dh_nil : dhistory d0 [] [] d0
| dh_step tr ls d dl l d' : dhistory d0 tr ls d -> dstep d dl l d' -> dhistory d0 (dl ++ tr) (l ++ ls) d'.
End Clients.

(** No send over connection i has failed. *)
Definition clean (i : nat) (tr : list dlabel) : Prop := forall t q e, In (DReturn t i q e) tr -> exists r, e = COk r.
(** What thread t did. *)
Definition by_thread (t : nat) (x : dlabel) : bool := match x with DCall u _ | DReturn u _ _ _ => u =? t end.
