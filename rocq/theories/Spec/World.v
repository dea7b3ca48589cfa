(** The whole server (Model/Full.v) with any number of clients (Model/Client.v), each on a connection of its own, joined by
    networks that deliver in order, in any pieces, at any time. *)
From Coq Require Import List Bool Arith.
From Verif.Model Require Import Bytes Io Common Parse Encode Writer Server Client Slab Poll Whole Full.
From Verif.Spec Require Import Stream Wire Output Session Exchange Dialogue Arrivals Events.
Import ListNotations.

(** A client's connection: its stream, whose input is what arrived and was not read yet; the request whose response it
    waits for; the bytes on their way to the server; all bytes that arrived from the server; whether the end of the stream
    arrived; the finished sends with their results. *)
Record peer := mk_peer {
  pe_stream : cstream; pe_doing : option request; pe_out : bytes; pe_heard : bytes; pe_ended : bool;
  pe_done : list (request * cres) }.

(** Connected to the server by a socket whose output side behaves somehow. *)
Definition new_peer (s : sock) : peer := mk_peer (mk_cstream [] [] s) None [] [] false [].

(** The result of a send by the result of the parser (client.rs:137-140). *)
Definition result_of (r : pres response resp_st) : cres :=
  match r with PDone v => COk v | PIo _ k => CReading k | PErr e => CParsing e | PPanic => CPanic end.

Definition succeeded (x : request * cres) : Prop := exists r, snd x = COk r.
(** Every request of a client so far. *)
Definition asked (p : peer) : list request := map fst (pe_done p) ++ match pe_doing p with Some q => [q] | None => [] end.

Record world := mk_world { wo_server : fstate; wo_peer : nat -> peer }.
Definition with_peer (w : world) (c : nat) (p : peer) : nat -> peer := fun d => if d =? c then p else wo_peer w d.

(** What the server has sent on connection [c]. *)
Definition sent_on (c : nat) (st : fstate) : bytes :=
  match nth_error (ws_conns (f_w st)) c with Some x => slot_sent (as_slot (wc_slot x)) | None => [] end.
(** The requests it has routed for it. *)
Definition routed (c : nat) (st : fstate) : list request :=
  match nth_error (ws_conns (f_w st)) c with Some x => wc_log x | None => [] end.

Section World.
Variables (dbg : bool) (R : nat -> request -> lresult -> Prop).
(** The connections that are clients'.  On the others anything may arrive. *)
Variable client : nat -> bool.

(** A step, with the server's label if it is one of the server. *)
Inductive happens : world -> list flabel -> world -> Prop :=
| hp_server w l st' : fstep dbg R (wo_server w) l st' -> (forall c its, l = FW (AArrive c its) -> client c = false) ->
    happens w [l] (mk_world st' (wo_peer w))
(** Bytes of a client arrive at the server. *)
| hp_arrive w c p bs rest st' : client c = true -> p = wo_peer w c -> pe_out p = bs ++ rest ->
    fstep dbg R (wo_server w) (FW (AArrive c (map IByte bs))) st' ->
    happens w [FW (AArrive c (map IByte bs))]
      (mk_world st' (with_peer w c (mk_peer (pe_stream p) (pe_doing p) rest (pe_heard p) (pe_ended p) (pe_done p))))
(** A client begins a send: it writes the request (client.rs:134-136). *)
| hp_send w c p q s d : client c = true -> p = wo_peer w c -> pe_doing p = None -> Forall succeeded (pe_done p) ->
    put_request (pe_stream p) q = (WOk tt, s) -> sent s = sent (pe_stream p) ++ d ->
    happens w [] (mk_world (wo_server w) (with_peer w c (mk_peer s (Some q) (pe_out p ++ d) (pe_heard p) (pe_ended p) (pe_done p))))
(** ... which fails. *)
| hp_send_failed w c p q s d k : client c = true -> p = wo_peer w c -> pe_doing p = None -> Forall succeeded (pe_done p) ->
    put_request (pe_stream p) q = (WErr k, s) -> sent s = sent (pe_stream p) ++ d ->
    happens w [] (mk_world (wo_server w) (with_peer w c
      (mk_peer s None (pe_out p ++ d) (pe_heard p) (pe_ended p) (pe_done p ++ [(q, CWriting k)]))))
(** Bytes that the server has sent arrive at the client. *)
| hp_hear w c p bs rest : client c = true -> p = wo_peer w c -> pe_ended p = false -> bs <> [] ->
    sent_on c (wo_server w) = pe_heard p ++ bs ++ rest ->
    happens w [] (mk_world (wo_server w) (with_peer w c
      (mk_peer (hears (pe_stream p) [RData bs]) (pe_doing p) (pe_out p) (pe_heard p ++ bs) false (pe_done p))))
(** The server's socket is closed, perhaps before all was transmitted. *)
| hp_end w c p : client c = true -> p = wo_peer w c -> pe_ended p = false -> ~ connected c (wo_server w) ->
    happens w [] (mk_world (wo_server w) (with_peer w c
      (mk_peer (hears (pe_stream p) [RData []]) (pe_doing p) (pe_out p) (pe_heard p) true (pe_done p))))
(** The client's send returns: it has read a response, or could not, in the time-out, from what has arrived
    (client.rs:137-140; an exhausted input reads as a time-out). *)
| hp_return w c p q r i : client c = true -> p = wo_peer w c -> pe_doing p = Some q ->
    resp_parse dbg resp_new (cs_in (pe_stream p)) = (r, i) ->
    happens w [] (mk_world (wo_server w) (with_peer w c
      (mk_peer (mk_cstream i (cs_held (pe_stream p)) (cs_sock (pe_stream p))) None (pe_out p) (pe_heard p) (pe_ended p)
         (pe_done p ++ [(q, result_of r)])))).

(** Histories, with the server's labels, latest first. *)
Inductive history (w0 : world) : list flabel -> world -> Prop :=
| history_nil : history w0 [] w0
| history_step ls w l w' : history w0 ls w -> happens w l w' -> history w0 (l ++ ls) w'.
End World.

(** At first: a server without connections, and clients that have not done anything. *)
Definition world_init (size : nat) (socks : nat -> sock) : world := mk_world (f_init size) (fun c => new_peer (socks c)).

(** The listeners of [c] do not panic, and answer these requests with responses a client can read. *)
Definition readable_answers (R : nat -> request -> lresult -> Prop) (c : nat) (qs : list request) : Prop :=
  (forall q l, utf8 (rq_uri q) = true -> R c q l -> l <> LPanic) /\
  forall q v l, In q qs -> same_request v q -> R c v l -> exists a, l = LSend a /\ ok_response a.
(** ... any requests. *)
Definition always_readable (R : nat -> request -> lresult -> Prop) (c : nat) : Prop :=
  forall q l, R c q l -> exists a, l = LSend a /\ ok_response a.

(** A send failed: no response came in the time-out; the stream ended (perhaps inside a character); writing failed. *)
Definition failure (e : cres) : Prop :=
  e = CReading WouldBlock \/ e = CReading UnexpectedEof \/ e = CParsing InvalidUtf8 \/ exists k, e = CWriting k.
