(** A client's connection and the server's, over as many streams as it takes. *)
From Coq Require Import List NArith Bool.
From Verif.Model Require Import Bytes Io Common Parse Encode Writer Server Client.
From Verif.Spec Require Import Batch Stream Drive Wire Output Session Exchange Dialogue.
Import ListNotations.
Local Open Scope N_scope.

(** The streams that a connection has used. *)
Definition streams_of (c : cconn) : list cstream := cc_dropped c ++ match cc_stream c with Some s => [s] | None => [] end.

(** A server that is sent some of what was put on the stream o, in any pieces, and perhaps then its end, with an unfailing
    socket, can have routed these requests for it. *)
Definition may_route (dbg : bool) (rt : router) (o : cstream) (log : list request) : Prop :=
  exists eof s vs st, live_eof eof s /\ ~ In (RErr Interrupted) s /\ prefix (pending s) (sent o) /\
    Forall visit_fine vs /\ Forall visit_steady vs /\ visits dbg rt vs [] (Open (conn_new s)) = (log, st).

(** The bytes reach the server in any pieces, with any blocking in between; its handler is called often enough, with a socket that takes
    all its answers (and a 400, if there were one). *)
Definition handled (dbg : bool) (rt : router) (sv : slot) (log : list request) (b : bytes) (log1 : list request) (sv1 : slot) : Prop :=
  exists s vs m new, live s /\ no_interrupt_in_data last_outcome s /\ pending s = b /\
    visits dbg rt vs log (fed sv s) = (log1, sv1) /\ (slot_blocks (fed sv s) < List.length vs)%nat /\
    Forall visit_fine vs /\ Forall visit_steady vs /\ Forall (visit_takes m) vs /\
    log1 = log ++ new /\ len (slot_sent sv ++ replies rt log new ++ bad_request) <= m.

(** The connection after its stream, if any, was given more input. *)
Definition heard (c : cconn) (inp : stream) : cconn :=
  mk_cconn (match cc_stream c with Some s => Some (hears s inp) | None => None end) (cc_dropped c).

(** One send.  If the server holds the connection, the request reaches it and its answer the client.  If it has dropped it, the
    client's stream has ended (and writing to it may fail or not); the server is listening, so connecting again succeeds. *)
Inductive turn (dbg : bool) (rt : router) (q : request) : cconn -> slot -> list request -> cres -> cconn -> slot -> list request -> list (list request) -> Prop :=
| turn_held c cl k log inp r c1 cl1 sv1 log1 : cc_stream c = Some cl -> flowing inp ->
    conn_send dbg false [] (heard c inp) q = (r, [], c1) -> cc_stream c1 = Some cl1 ->
    (exists b, sent cl1 = sent cl ++ b /\ handled dbg rt (Open k) log b log1 sv1) ->
    slot_sent sv1 = slot_sent (Open k) ++ pending inp ->
    turn dbg rt q c (Open k) log r c1 sv1 log1 []
| turn_new c x log new inp r c1 cl1 sv1 log1 : flowing inp ->
    csteady (cs_sock new) -> unused new -> cs_in new = [] ->
    conn_send dbg false [inr (hears new inp)] (heard c [RData []]) q = (r, [], c1) -> cc_stream c1 = Some cl1 ->
    handled dbg rt (Open (conn_new [])) [] (sent cl1) log1 sv1 -> slot_sent sv1 = pending inp ->
    turn dbg rt q c (Gone x) log r c1 sv1 log1 [log].

(** Any number of sends.  The last argument: the requests routed for each connection of the server, in order. *)
Inductive conversation (dbg : bool) (rt : router) : cconn -> slot -> list request -> list request -> list cres -> list (list request) -> Prop :=
| conversation_end c sv log : conversation dbg rt c sv log [] [] [log]
| conversation_next c sv log q r c1 sv1 log1 done qs rs logs : turn dbg rt q c sv log r c1 sv1 log1 done ->
    conversation dbg rt c1 sv1 log1 qs rs logs -> conversation dbg rt c sv log (q :: qs) (r :: rs) (done ++ logs).
