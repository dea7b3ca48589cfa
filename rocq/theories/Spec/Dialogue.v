(** A client's stream and a server's connection joined by a network. *)
From Coq Require Import List NArith Bool.
From Verif.Model Require Import Bytes Io Common Parse Encode Writer Server Client.
From Verif.Spec Require Import Batch Stream Drive Wire Output Session Exchange.
Import ListNotations.

(** More input for the server's connection; more input for the client's stream. *)
Definition fed (st : slot) (s : stream) : slot :=
  match st with Open c => Open (mk_conn (cn_in c ++ s) (cn_parser c) (cn_w c) (cn_sock c)) | _ => st end.
Definition hears (c : cstream) (inp : stream) : cstream := mk_cstream (cs_in c ++ inp) (cs_held c) (cs_sock c).

Definition slot_blocks (st : slot) : nat := match st with Open c => blocks (cn_in c) | _ => 0 end.
Definition flushed (st : slot) : Prop := match st with Open c => unsent (cn_w c) = [] | _ => True end.

(** One send: the client sends a request and reads a response.  What it has put on the wire reaches the server in any
    pieces, with any blocking in between (and signals, except in a body); the handler is called at least once more often than
    the server's input blocks, with a socket that does not fail and has in the end taken all output; what the socket has
    taken reaches the client, in any pieces. *)
Inductive exchange (dbg : bool) (rt : router) (q : request) :
  cstream -> slot -> list request -> cres -> cstream -> slot -> list request -> Prop :=
| exchange_intro cl sv log s vs inp r cl' sv' log' :
    send_request dbg (hears cl inp) q = (r, cl') ->
    sent cl' = sent cl ++ pending s -> live s -> no_interrupt_in_data last_outcome s ->
    visits dbg rt vs log (fed sv s) = (log', sv') -> (slot_blocks (fed sv s) < List.length vs)%nat ->
    Forall visit_fine vs -> Forall visit_steady vs \/ short_replies rt -> flushed sv' ->
    slot_sent sv' = slot_sent sv ++ pending inp -> flowing inp ->
    exchange dbg rt q cl sv log r cl' sv' log'.

Inductive dialogue (dbg : bool) (rt : router) : cstream -> slot -> list request -> list request -> list cres -> list request -> Prop :=
| dialogue_end cl sv log : dialogue dbg rt cl sv log [] [] log
| dialogue_next cl sv log q r cl1 sv1 log1 qs rs log2 :
    exchange dbg rt q cl sv log r cl1 sv1 log1 -> dialogue dbg rt cl1 sv1 log1 qs rs log2 ->
    dialogue dbg rt cl sv log (q :: qs) (r :: rs) log2.

(** Each result is the response of the router to the request it has received, given those received before. *)
Inductive answered (rt : router) : list request -> list request -> list cres -> Prop :=
| answered_end h : answered rt h [] []
| answered_next h v vs a r rs : rt h v = LSend a -> same_response r a -> answered rt (h ++ [v]) vs rs ->
    answered rt h (v :: vs) (COk r :: rs).
