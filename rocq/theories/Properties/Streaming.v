(** C01, C02, C03, C05: resumable parsing of requests and responses. *)
From Coq Require Import List Ascii String NArith Bool.
From Verif.Model Require Import Bytes Io Common Parse.
From Verif.Spec Require Import Batch Stream Drive.
From Verif.Proofs Require Import DriveFacts CallFacts ParseFacts Checks.
Import ListNotations.
Local Open Scope N_scope.

(** ** C01 *)

Theorem C01_request_streaming_equals_batch : forall dbg eof s,
  live_eof eof s ->
  blocks_in_clean_lines batch_request s ->
  no_interrupt_in_data batch_request s ->
  always_in_limits batch_request (pending s) ->
  matches eof (batch_request (pending s)) (drive_request dbg s).
Proof. exact drive_request_spec. Qed.

(** Two deliveries of the same bytes give the same request and leave the same bytes unread. *)
Theorem C01_request_segmentation_independent : forall dbg1 dbg2 s1 s2 v s1',
  live s1 -> live s2 -> pending s1 = pending s2 ->
  blocks_in_clean_lines batch_request s1 -> blocks_in_clean_lines batch_request s2 ->
  no_interrupt_in_data batch_request s1 -> no_interrupt_in_data batch_request s2 ->
  always_in_limits batch_request (pending s1) ->
  drive_request dbg1 s1 = (PDone v, s1') ->
  exists s2', drive_request dbg2 s2 = (PDone v, s2') /\ pending s2' = pending s1'.
Proof.
  intros dbg1 dbg2 s1 s2 v s1' L1 L2 E B1 B2 I1 I2 Lim D.
  pose proof (drive_request_spec dbg1 false s1 (live_eof_false _ L1) B1 I1 Lim) as M1. rewrite E in Lim.
  pose proof (drive_request_spec dbg2 false s2 (live_eof_false _ L2) B2 I2 Lim) as M2.
  rewrite E, D in M1. unfold matches in *.
  destruct (batch_request (pending s2)) as [v' rest|p|v' n|e].
  - destruct M1 as (s' & H & _ & Hr). inversion H; subst. destruct M2 as (s2' & H2 & _ & Hr2).
    exists s2'. now rewrite H2, Hr2.
  - destruct M1 as (st & H); discriminate.
  - destruct M1 as (st & H); discriminate.
  - destruct M1 as (st & H); discriminate.
Qed.

(** A request with a chunked body in nine pieces, with blocks inside a line, inside a chunk and
    between CR and LF, an interrupt inside a header line, and a second request behind it. *)
Example C01_stream : stream :=
  [RData (lit "GE"); RErr WouldBlock; RData (lit "T /a HTTP/1.1" ++ [CR]); RErr WouldBlock;
   RData ([LF] ++ lit "transfer-enc"); RErr Interrupted; RData (lit "oding: chunked" ++ crlf ++ crlf ++ lit "5" ++ crlf ++ lit "he");
   RErr WouldBlock; RErr WouldBlock; RData (lit "llo" ++ crlf ++ lit "0" ++ [CR]); RErr Interrupted; RErr WouldBlock;
   RData ([LF] ++ crlf ++ lit "GET /b"); RErr WouldBlock; RData (lit " HTTP/1.1" ++ crlf)].

Example C01_hypotheses_hold :
  live_eof false C01_stream /\ blocks_in_clean_lines batch_request C01_stream /\
  no_interrupt_in_data batch_request C01_stream /\ always_in_limits batch_request (pending C01_stream).
Proof.
  split; [apply live_eof_false, live_b_ok; vm_compute; reflexivity|].
  split; [apply blocks_clean_b_ok; vm_compute; reflexivity|].
  split; [apply no_intr_b_ok; vm_compute; reflexivity|].
  apply always_in_limits_b_ok. vm_compute. reflexivity.
Qed.
Example C01_result :
  exists s', drive_request true C01_stream
    = (PDone (mk_request GET (lit "/a") [(TRANSFER_ENCODING, [lit "chunked"])] (lit "hello")), s')
    /\ pending s' = lit "GET /b HTTP/1.1" ++ crlf.
Proof. eexists. vm_compute. split; reflexivity. Qed.

(** The cleanliness condition is needed: see C12_utf8_split_loses_bytes_refuted. *)

(** ** C02 *)

Theorem C02_response_streaming_equals_batch : forall dbg eof s,
  live_eof eof s ->
  blocks_in_clean_lines batch_response s ->
  no_interrupt_in_data batch_response s ->
  always_in_limits batch_response (pending s) ->
  matches eof (batch_response (pending s)) (drive_response dbg s).
Proof. exact drive_response_spec. Qed.

(** A response whose body extends to the end of the stream. *)
Example C02_stream0 : stream :=
  [RData (lit "HTTP/1.1 200"); RErr WouldBlock; RErr Interrupted; RData (lit " OK" ++ crlf ++ lit "server: x" ++ crlf ++ crlf ++ lit "some");
   RErr Interrupted; RData (lit " bo"); RErr WouldBlock; RData (lit "dy")].
Example C02_stream : stream := C02_stream0 ++ [RData []].
Example C02_hypotheses_hold :
  live_eof true C02_stream /\ blocks_in_clean_lines batch_response C02_stream /\
  no_interrupt_in_data batch_response C02_stream /\ always_in_limits batch_response (pending C02_stream).
Proof.
  split; [exists C02_stream0; split; [apply live_b_ok; vm_compute; reflexivity|reflexivity]|].
  split; [apply blocks_clean_b_ok; vm_compute; reflexivity|].
  split; [apply no_intr_b_ok; vm_compute; reflexivity|].
  apply always_in_limits_b_ok. vm_compute. reflexivity.
Qed.
Example C02_result :
  drive_response false C02_stream
  = (PDone (mk_response STATUS_OK [(header_from (lit "server"), [lit "x"])] (lit "some body")), []).
Proof. vm_compute. reflexivity. Qed.

(** ** C03 *)

(** A call that starts a request and finishes it, on any stream whatever (with any errors in it),
    has taken from the stream exactly the bytes w of that request: w followed by anything is that
    request followed by that. *)
Theorem C03_exact_consumption : forall dbg s v s',
  req_parse dbg req_new s = (PDone v, s') ->
  exists w, pending s = w ++ pending s' /\ forall x, batch_request (w ++ x) = Complete v x.
Proof.
  intros dbg s v s' E.
  destruct (call_done _ _ _ 0 req_new _ _ _ (req_parser_ok dbg) line_inv_nil E) as [(w & H1 & H2)|(w & n & H1 & H2)].
  - exists w. split; auto.
  - exfalso. exact (batch_request_not_eof _ _ _ H2).
Qed.

(** The same over any number of resumed calls. *)
Theorem C03_exact_consumption_driven : forall dbg s v s',
  live s ->
  blocks_in_clean_lines batch_request s ->
  no_interrupt_in_data batch_request s ->
  always_in_limits batch_request (pending s) ->
  drive_request dbg s = (PDone v, s') ->
  batch_request (pending s) = Complete v (pending s').
Proof.
  intros dbg s v s' L B I Lim D.
  pose proof (drive_request_spec dbg false s (live_eof_false _ L) B I Lim) as M. rewrite D in M.
  unfold matches in M. destruct (batch_request (pending s)) as [v' rest|p|v' n|e].
  - destruct M as (s2 & H & _ & Hr). inversion H; subst. reflexivity.
  - destruct M as (st & H); discriminate.
  - destruct M as (st & H); discriminate.
  - destruct M as (st & H); discriminate.
Qed.

Example C03_case :
  req_parse true req_new [RData (lit "GET / HTTP/1.1" ++ crlf ++ crlf ++ lit "GET /2"); RErr ConnectionAborted]
  = (PDone (mk_request GET (lit "/") [] []), [RData (lit "GET /2"); RErr ConnectionAborted]).
Proof. vm_compute. reflexivity. Qed.

(** ** C05 *)

(** The model's loops are driven by fuel, and running out of fuel is the distinguished outcome
    ModelFuel.  It never happens, in any state any sequence of calls can reach: the number of
    iterations is bounded by the data in the stream, so each call returns.  (A stream containing the
    artificial event is excluded.) *)
Theorem C05_request_call_terminates : forall dbg st s st' s',
  reached (req_parse dbg) req_new st ->
  req_parse dbg st s = (PIo st' ModelFuel, s') -> In (RErr ModelFuel) s.
Proof. intros dbg. exact (no_fuel _ req_new _ _ 0 (req_parser_ok dbg) line_inv_nil). Qed.

Theorem C05_response_call_terminates : forall dbg st s st' s',
  reached (resp_parse dbg) resp_new st ->
  resp_parse dbg st s = (PIo st' ModelFuel, s') -> In (RErr ModelFuel) s.
Proof. intros dbg. exact (no_fuel _ resp_new _ _ 0 (resp_parser_ok dbg) line_inv_nil). Qed.

Example C05_reachable_state : exists st, reached (req_parse true) req_new st /\ st <> req_new.
Proof.
  exists (MFirst (lit "GE")). split; [|discriminate].
  eapply reached_call with (s := [RData (lit "GE")]); [constructor|]. vm_compute. reflexivity.
Qed.

Print Assumptions C01_request_streaming_equals_batch.
Print Assumptions C01_request_segmentation_independent.
Print Assumptions C02_response_streaming_equals_batch.
Print Assumptions C03_exact_consumption.
Print Assumptions C03_exact_consumption_driven.
Print Assumptions C05_request_call_terminates.
Print Assumptions C05_response_call_terminates.
