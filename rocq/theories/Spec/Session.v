(** What a server connection should do, in terms of the flat bytes received: reference for
    Model/Server.v.  No streams, no parser states, no sockets. *)
From Coq Require Import List Ascii String NArith Bool.
From Verif.Model Require Import Bytes Io Common Parse Encode Writer Server.
From Verif.Spec Require Import Batch Stream Drive Output Unicode.
Import ListNotations.
Local Open Scope N_scope.

(** A sequence of complete requests, what follows them, and the reference outcome of that. *)
Inductive session : bytes -> list request -> bytes -> Prop :=
| session_end b : (forall v rest, batch_request b <> Complete v rest) -> session b [] b
| session_next b v rest rs e : batch_request b = Complete v rest -> session rest rs e -> session b (v :: rs) e.

(** The outcome for the last, unfinished request. *)
Fixpoint last_f (fuel : nat) (b : bytes) : outcome request :=
  match fuel with
  | O => batch_request b
  | S f => match batch_request b with Complete _ rest => last_f f rest | o => o end
  end.
Definition last_outcome (b : bytes) : outcome request := last_f (S (List.length b)) b.

(** A request asks for the connection to be closed if one of its connection headers is "close". *)
Definition asks_close (r : request) : Prop :=
  exists vs, hm_get CONNECTION (rq_headers r) = Some vs /\ In (lit "close") vs.

(** The bytes that answer a request. *)
Definition not_found : bytes := lit "HTTP/1.1 404 Not Found" ++ crlf ++ crlf.
Definition bad_request : bytes := lit "HTTP/1.1 400 Bad Request" ++ crlf ++ crlf.
Definition reply (l : lresult) : bytes :=
  match l with LSend r => write_response r | LNext => not_found | LPanic => [] end.

(** No listener panics on a request; the uri of a request is a str, so only those that are UTF-8 count. *)
Definition no_panic (rt : router) : Prop := forall h v, utf8 (rq_uri v) = true -> rt h v <> LPanic.

(** A single character. *)
Definition single_char (l : bytes) : Prop := exists n, scalar n /\ map bval l = encode_scalar n.

(** [served rt h b eof log out keep]: after the requests h have been routed, a connection that has
    received b (and then, if eof, the end of the stream) has routed the requests log, has written out,
    and is kept open or not. *)
Inductive served (rt : router) : list request -> bytes -> bool -> list request -> bytes -> bool -> Prop :=
| served_wait h b p : batch_request b = Incomplete p -> served rt h b false [] [] true
| served_closed h l : l = [] \/ single_char l -> batch_request l = Incomplete (InFirst l) ->
    served rt h l true [] [] false
| served_truncated h b p : batch_request b = Incomplete p -> b <> [] -> ~ single_char b ->
    served rt h b true [] bad_request false
| served_bad h b eof e : batch_request b = Bad e -> served rt h b eof [] bad_request false
| served_last h b eof v rest : batch_request b = Complete v rest -> asks_close v ->
    served rt h b eof [v] (reply (rt h v)) false
| served_next h b eof v rest log out keep : batch_request b = Complete v rest -> ~ asks_close v ->
    served rt (h ++ [v]) rest eof log out keep ->
    served rt h b eof (v :: log) (reply (rt h v) ++ out) keep.

(** How often a stream blocks. *)
Fixpoint blocks (s : stream) : nat :=
  match s with
  | [] => 0
  | RErr WouldBlock :: s' => S (blocks s')
  | _ :: s' => blocks s'
  end.

(** Calling read_request n times, or until it reports something else than a request or that there is
    none yet. *)
Fixpoint reads (dbg : bool) (n : nat) (s : stream) (p : option req_st) : list read_result :=
  match n with
  | O => []
  | S n' =>
      match read_request dbg s p with
      | (r, s', p') => r :: match r with Ready _ | NotReady => reads dbg n' s' p' | _ => [] end
      end
  end.
Definition requests_in (l : list read_result) : list request :=
  flat_map (fun r => match r with Ready v => [v] | _ => [] end) l.

(** The answers to a list of requests. *)
Fixpoint replies (rt : router) (h : list request) (rs : list request) : bytes :=
  match rs with
  | [] => []
  | v :: rs' => reply (rt h v) ++ replies rt (h ++ [v]) rs'
  end.

(** Responses whose strings are no larger than the write buffer. *)
Definition short_response (r : response) : Prop :=
  st_code (rs_status r) <= 65535 /\ len (st_reason (rs_status r)) <= 4096 /\ len (rs_body r) <= 4096 /\
  Forall (fun kv => len (header_str (fst kv)) <= 4096 /\ Forall (fun v => len v <= 4096) (snd kv)) (rs_headers r).
Definition short_replies (rt : router) : Prop := forall h v r, rt h v = LSend r -> short_response r.

(** During a call of the handler the socket's output side does not fail. *)
Definition visit_fine (v : visit) : Prop :=
  Forall (fun e => match e with WTake _ => True | WFail k => k = WouldBlock end) (v_events v) /\
  Forall (fun f => f = None \/ f = Some WouldBlock) (v_flushes v).
(** ... and does not take bytes again after it has blocked. *)
Definition visit_steady (v : visit) : Prop :=
  forall a b n, v_events v = a ++ WFail WouldBlock :: b -> ~ In (WTake n) b.
(** ... and takes up to n bytes without blocking, however few at a time. *)
Definition visit_takes (n : N) (v : visit) : Prop :=
  Forall (fun e => match e with WTake m => 0 < m | WFail _ => False end) (v_events v) /\
  n <= len (v_events v).

Definition slot_sent (st : slot) : bytes :=
  match st with Open c => sk_sent (cn_sock c) | Gone b => b | Poisoned b => b end.

(** Input that arrives in pieces, blocks, and is interrupted so that the current, unfinished, request
    stays within the library's limits, blocks only between characters (any place in an ASCII request
    head or in a body), and is not interrupted inside a body. *)
Definition orderly (eof : bool) (s : stream) : Prop :=
  live_eof eof s /\ blocks_in_clean_lines last_outcome s /\ no_interrupt_in_data last_outcome s /\
  always_in_limits last_outcome (pending s) /\ (eof = false -> clean (last_outcome (pending s))).

(** Everything handed to a connection's writer: what the socket took and what is still buffered. *)
Definition output (c : conn) : bytes := sk_sent (cn_sock c) ++ unsent (cn_w c).
