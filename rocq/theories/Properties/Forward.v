(** C103: passing received messages on. *)
From Coq Require Import List Ascii String Arith NArith Bool Lia Permutation.
From Coq Require Import ZifyBool ZifyNat ZifyN.
From Verif.Model Require Import Bytes Io Common Parse Encode Writer Server.
From Verif.Spec Require Import Batch Stream Drive Numerals Names Grammar Wire Unicode Output Session Forward.
From Verif.Proofs Require Import BytesFacts CommonFacts IoFacts ParseFacts DriveFacts CallFacts BatchFacts GrammarFacts LimitGrammar LimitFacts Checks EncodeFacts WriterFacts OpsFacts ServerFacts ConnFacts ForwardFacts.
From Verif.Properties Require Import RoundTrip Delivery Server.
Import ListNotations.
Local Open Scope N_scope.

(** Every request that was received, however it arrived, and whose body did not come in chunks, can be written again (its headers in any
    order): the server it is sent to reads the same request and stops at its end.  Its lines are no longer than those received. *)
Theorem C103_request_passed_on : forall dbg st s r s' h dbg2 s2 rest,
  reached (req_parse dbg) req_new st -> req_parse dbg st s = (PDone r, s') -> ~ in_chunks (rq_headers r) ->
  len (header_lines (pairs_of (rq_headers r))) + 2 <= 4096 -> 2 * len (rq_body r) <= 3145728 ->
  Permutation (rq_headers r) h ->
  live s2 -> pending s2 = write_request (mk_request (rq_method r) (rq_uri r) h (rq_body r)) ++ rest ->
  blocks_in_clean_lines batch_request s2 -> no_interrupt_in_data batch_request s2 ->
  exists r2 s2', drive_request dbg2 s2 = (PDone r2, s2') /\ live s2' /\ pending s2' = rest /\ same_request r2 r.
Proof.
  intros dbg st s r s' h dbg2 s2 rest R E C H1 H2 P L E2 B I.
  destruct (received_request _ _ _ _ _ R E) as (_ & _ & _ & G).
  eapply C13_any_header_order; eauto. eapply received_fits; eauto.
Qed.

(** Every response that was received with its length in advance can be sent on by a server in the same way. *)
Theorem C103_response_passed_on : forall dbg st s r s' h dbg2 s2 rest,
  reached (resp_parse dbg) resp_new st -> resp_parse dbg st s = (PDone r, s') -> with_length (rs_headers r) ->
  len (header_lines (pairs_of (rs_headers r))) + 2 <= 4096 -> 2 * len (rs_body r) <= 3145728 ->
  Permutation (rs_headers r) h ->
  live s2 -> pending s2 = write_response (mk_response (rs_status r) h (rs_body r)) ++ rest ->
  blocks_in_clean_lines batch_response s2 -> no_interrupt_in_data batch_response s2 ->
  exists r2 s2', drive_response dbg2 s2 = (PDone r2, s2') /\ live s2' /\ pending s2' = rest /\ same_response r2 r.
Proof.
  intros dbg st s r s' h dbg2 s2 rest R E C H1 H2 P L E2 B I.
  destruct (received_response _ _ _ _ _ R E) as (_ & _ & G & _).
  eapply C14_any_header_order; eauto.
  - eapply received_response_fits; eauto.
  - destruct C as [v ->]. discriminate.
Qed.

(** Whatever a request carries, as its uri or as the value of a header, can be put into a header of a response: the response that the
    client reads is the one that was meant, and nothing is left over. *)
Theorem C103_echo_is_safe : forall dbg st s r s' v k h code body dbg2 s2 rest,
  reached (req_parse dbg) req_new st -> req_parse dbg st s = (PDone r, s') ->
  (v = rq_uri r \/ exists name vs, hm_get (header_from name) (rq_headers r) = Some vs /\ In v vs) ->
  canonical k -> text (header_str k) -> ~ (exists a b, header_str k = a ++ lit ": " ++ b) ->
  let answer := mk_response code (add_header h k v) body in
  good_response false (mk_response code h body) -> with_length h -> response_fits answer ->
  live s2 -> pending s2 = write_response answer ++ rest ->
  blocks_in_clean_lines batch_response s2 -> no_interrupt_in_data batch_response s2 ->
  exists r2 s2', drive_response dbg2 s2 = (PDone r2, s2') /\ live s2' /\ pending s2' = rest /\ same_response r2 answer.
Proof.
  intros dbg st s r s' v k h code body dbg2 s2 rest R E V K1 K2 K3 answer (G1 & G2 & G3) W F L P B I.
  cbn [rs_status rs_headers rs_body] in *.
  destruct (received_request _ _ _ _ _ R E) as (T1 & _ & T3 & _).
  assert (Tv : text v).
  { destruct V as [-> | (name & vs & Hg & Hin)]; [exact T1|]. apply hm_get_in in Hg. destruct T3 as [_ T3].
    rewrite Forall_forall in T3. destruct (T3 _ Hg) as (_ & _ & T4). rewrite Forall_forall in T4. destruct (T4 _ Hin) as [[U N] _].
    cbn [fst snd] in U, N. set (n := header_str (header_from name)) in *. change (lit ": ") with [COLON; SP] in *. split.
    - assert (U2 : utf8 n = true) by (apply utf8_split in U; auto). rewrite utf8_app in U by assumption. now rewrite utf8_app in U.
    - intros H. apply N. apply in_or_app. right. apply in_or_app. now right. }
  assert (Gh : good_headers (add_header h k v)).
  { apply good_add; auto. split; cbn [fst snd]; auto. apply text_app; auto. apply text_app; auto. apply text_check; reflexivity. }
  assert (Fst : forall k', get_first_header_value h k' <> None ->
     get_first_header_value (add_header h k v) k' = get_first_header_value h k').
  { clear. intros k'. unfold get_first_header_value. induction h as [|[k1 vs] h IH]; cbn [add_header hm_get]; [congruence|].
    destruct (header_eqb k1 k) eqn:E1; cbn [hm_get]; destruct (header_eqb k1 k') eqn:E2; auto.
    destruct vs; cbn; auto. congruence. }
  destruct W as [w W].
  eapply C14_round_trip; eauto; cbn [answer rs_headers].
  - split; [exact G1|]. split; [exact Gh|]. cbn [rs_headers rs_body]. unfold framed in *. rewrite Fst, W by congruence. rewrite W in G3. exact G3.
  - rewrite Fst; congruence.
Qed.

(** The property is violated for bodies that came in chunks: the request is written with the header that announces chunks and the body
    without them.  No such request is ever received as it was sent: whatever follows it, and however it arrives, a server that reads a
    request and stops where it ends has read a shorter body. *)
Theorem C103_chunked_request_refuted : forall dbg st s r s' dbg2 eof s2 x r2 s2',
  reached (req_parse dbg) req_new st -> req_parse dbg st s = (PDone r, s') -> in_chunks (rq_headers r) ->
  delivers batch_request eof s2 (write_request r ++ x) -> drive_request dbg2 s2 = (PDone r2, s2') ->
  (exists wire, rq_body r ++ x = wire ++ pending s2' /\ chunked wire (rq_body r2)) /\
  (pending s2' = x -> len (rq_body r2) < len (rq_body r) /\ ~ same_request r2 r).
Proof.
  intros dbg st s r s' dbg2 eof s2 x r2 s2' R E C D Dr. destruct (received_request _ _ _ _ _ R E) as (T1 & T2 & T3 & _).
  apply (read_complete_inv _ _ _ _ _ _ D) in Dr.
  destruct (chunked_request_shrinks _ _ _ _ T1 T2 T3 C Dr) as (wire & W1 & W2 & _).
  split; [eauto|]. intros Ex. rewrite Ex in W1. apply app_inv_tail in W1. subst wire. apply chunked_longer in W2.
  split; auto. intros (_ & _ & _ & Hb). rewrite Hb in W2. lia.
Qed.

(** The same for responses that came in chunks. *)
Theorem C103_chunked_response_refuted : forall dbg st s r s' x r2 rest,
  reached (resp_parse dbg) resp_new st -> resp_parse dbg st s = (PDone r, s') -> in_chunks (rs_headers r) ->
  batch_response (write_response r ++ x) = Complete r2 rest ->
  (exists wire, rs_body r ++ x = wire ++ rest /\ chunked wire (rs_body r2)) /\
  (rest = x -> len (rs_body r2) < len (rs_body r) /\ ~ same_response r2 r).
Proof.
  intros dbg st s r s' x r2 rest R E C B. destruct (received_response _ _ _ _ _ R E) as (T1 & T2 & _).
  destruct (chunked_response_shrinks _ _ _ _ T1 T2 C B) as (wire & W1 & W2).
  split; [eauto|]. intros ->. apply app_inv_tail in W1. subst wire. apply chunked_longer in W2.
  split; auto. intros (_ & _ & Hb). rewrite Hb in W2. lia.
Qed.

(** It is also violated for responses that had no length and ended with their connection: sent on over a connection that is kept, as the
    server keeps its own, they are never complete for the client. *)
Theorem C103_response_without_length_refuted : forall dbg st s r s' dbg2 s2,
  reached (resp_parse dbg) resp_new st -> resp_parse dbg st s = (PDone r, s') ->
  ~ with_length (rs_headers r) -> ~ in_chunks (rs_headers r) ->
  delivers batch_response false s2 (write_response r) ->
  exists p, drive_response dbg2 s2 = (PIo p WouldBlock, []).
Proof.
  intros dbg st s r s' dbg2 s2 R E W C (L & P & B & I & Lim). destruct (received_response _ _ _ _ _ R E) as (_ & _ & _ & G).
  destruct (response_reads_back_eof r (G W C)) as (r2 & Er & _).
  rewrite <- P in Lim, Er. pose proof (drive_response_spec dbg2 false s2 L B I Lim) as M. rewrite Er in M. cbn [matches] in M. exact M.
Qed.

(** Chunks that hide a request: a server that receives [front] routes one request. *)
Definition hidden (w : bytes) : bytes := lit "0" ++ crlf ++ crlf ++ w.
Definition front (w : bytes) : bytes :=
  lit "POST / HTTP/1.1" ++ crlf ++ lit "transfer-encoding: chunked" ++ crlf ++ crlf ++
  hex false (len (hidden w)) ++ crlf ++ hidden w ++ crlf ++ lit "0" ++ crlf ++ crlf.
Definition front_request (w : bytes) : request := mk_request POST (lit "/") [(TRANSFER_ENCODING, [lit "chunked"])] (hidden w).

Lemma front_read w : len w <= 3145723 -> batch_request (front w) = Complete (front_request w) [].
Proof.
  intros Lw.
  assert (Lh : 0 < len (hidden w) <= 3145728).
  { unfold hidden. rewrite !len_app. change (len (lit "0")) with 1. change (len crlf) with 2. lia. }
  assert (Sy : request_syntax (front w) POST (lit "/") [(lit "transfer-encoding", lit "chunked")] (hidden w)).
  { exists (lit "POST / HTTP/1.1"), (hex false (len (hidden w)) ++ crlf ++ hidden w ++ crlf ++ lit "0" ++ crlf ++ crlf).
    split; [|split; [|split; [|split]]].
    - exists (lit "HTTP/1.1"). split; [now left|]. cbn [words]. split; [vm_compute; intuition discriminate|].
      eexists. split; [reflexivity|]. split; [vm_compute; intuition discriminate|]. eexists. split; [reflexivity|].
      split; [vm_compute; intuition discriminate|now left].
    - apply text_check; reflexivity.
    - constructor; [|constructor]. split; [apply text_check; reflexivity|apply no_colon_check; reflexivity].
    - assert (same_name (lit "transfer-encoding") (lit "transfer-encoding")) by (apply lower_same; reflexivity).
      assert (~ same_name (lit "transfer-encoding") (lit "content-length")) by (intros K; apply lower_same in K; discriminate).
      eapply body_chunked with (v := lit "chunked").
      + apply vn_other; [assumption|constructor].
      + apply vn_same; [assumption|constructor].
      + exists [], []. reflexivity.
      + rewrite <- (app_nil_r (hidden w)) at 3. eapply chunked_more; [apply hex_denotes|auto|reflexivity|].
        apply (chunked_last (lit "0")). apply zero_denotes.
    - reflexivity. }
  destruct (request_complete _ _ _ _ _ [] Sy) as (r & H & H1 & H2 & H3 & H4 & _). rewrite app_nil_r in H. rewrite H. f_equal.
  destruct r as [m u h body]. cbn in *. unfold front_request. subst. reflexivity.
Qed.

Lemma forwarded_read w : batch_request (write_request (front_request w)) = Complete (mk_request POST (lit "/") [(TRANSFER_ENCODING, [lit "chunked"])] []) w.
Proof.
  assert (Sy : request_syntax (lit "POST / HTTP/1.1" ++ crlf ++ header_lines [(lit "transfer-encoding", lit "chunked")] ++ crlf ++ lit "0" ++ crlf ++ crlf)
     POST (lit "/") [(lit "transfer-encoding", lit "chunked")] []).
  { exists (lit "POST / HTTP/1.1"), (lit "0" ++ crlf ++ crlf).
    split; [|split; [|split; [|split]]].
    - exists (lit "HTTP/1.1"). split; [now left|]. cbn [words]. split; [vm_compute; intuition discriminate|].
      eexists. split; [reflexivity|]. split; [vm_compute; intuition discriminate|]. eexists. split; [reflexivity|].
      split; [vm_compute; intuition discriminate|now left].
    - apply text_check; reflexivity.
    - constructor; [|constructor]. split; [apply text_check; reflexivity|apply no_colon_check; reflexivity].
    - assert (same_name (lit "transfer-encoding") (lit "transfer-encoding")) by (apply lower_same; reflexivity).
      assert (~ same_name (lit "transfer-encoding") (lit "content-length")) by (intros K; apply lower_same in K; discriminate).
      eapply body_chunked with (v := lit "chunked").
      + apply vn_other; [assumption|constructor].
      + apply vn_same; [assumption|constructor].
      + exists [], []. reflexivity.
      + apply (chunked_last (lit "0")). apply zero_denotes.
    - reflexivity. }
  destruct (request_complete _ _ _ _ _ w Sy) as (r & H & H1 & H2 & H3 & H4 & _).
  destruct r as [m u h body]. cbn [rq_method rq_uri rq_headers rq_body] in H1, H2, H3, H4. subst.
  rewrite write_request_eq. unfold front_request, hidden. cbn [rq_headers rq_body]. rewrite <- !app_assoc in H. exact H.
Qed.

(** It is violated in a way that lets a client choose what the second server does: for every request q there are bytes that the first server
    takes for one request, which has q inside its body, and that, sent on as received, the second server takes for two requests, the second
    of which is q; it routes and answers both. *)
Theorem C103_hidden_request_refuted : forall q, good_request q -> request_fits q -> ~ asks_close q ->
  exists b r, session b [r] [] /\ (exists a, rq_body r = a ++ write_request q) /\
  forall dbg rt s vs log st, no_panic rt -> orderly false s -> pending s = write_request r ->
    Forall visit_fine vs -> Forall visit_steady vs \/ short_replies rt -> (blocks s < List.length vs)%nat ->
    visits dbg rt vs [] (Open (conn_new s)) = (log, st) ->
    exists r1 r2 c, log = [r1; r2] /\ rq_body r1 = [] /\ same_request r2 q /\ st = Open c /\ output c = replies rt [] [r1; r2].
Proof.
  intros q G F A. set (w := write_request q).
  assert (Lw : len w <= 3145723).
  { destruct F as (F1 & _ & F2 & F3). unfold w. rewrite write_request_eq. rewrite <- len_request_first in F1.
    rewrite !len_app in *. change (len crlf) with 2. lia. }
  assert (Nil : forall v rest, batch_request [] <> Complete v rest) by (intros v rest K; vm_compute in K; discriminate).
  exists (front w), (front_request w). split; [|split].
  - eapply session_next; [now apply front_read|]. now apply session_end.
  - exists (lit "0" ++ crlf ++ crlf). unfold front_request, hidden. cbn [rq_body]. now rewrite <- !app_assoc.
  - intros dbg rt s vs log st Np O P V S B E.
    destruct (request_reads_back q [] G F) as (q' & Eq & Sq). rewrite app_nil_r in Eq. fold w in Eq.
    set (r1 := mk_request POST (lit "/") [(TRANSFER_ENCODING, [lit "chunked"])] []).
    assert (Se : session (pending s) [r1; q'] []).
    { rewrite P. eapply session_next; [apply forwarded_read|]. eapply session_next; [exact Eq|]. now apply session_end. }
    assert (U : unasking [r1; q']).
    { constructor; [|constructor; [|constructor]].
      - intros (xs & K & _). discriminate K.
      - intros (xs & K1 & K2). apply A. exists xs. destruct Sq as (_ & _ & Sq & _). rewrite <- Sq. auto. }
    assert (W : served rt [] (pending s) false [r1; q'] (replies rt [] [r1; q']) true).
    { eapply session_served_wait; eauto. exists (InFirst []). reflexivity. }
    destruct (C26_responses dbg rt false s vs log st Np O V S E) as [(c & got & -> & Pg & Sv & K)|(sent & rest & -> & Sv)].
    + destruct (K B) as [K1 _]. rewrite K1, app_nil_r in Pg. subst got.
      destruct (served_unique _ _ _ _ _ _ _ W _ _ _ Sv) as (<- & Ho & _).
      exists r1, q', c. split; auto.
    + destruct (served_unique _ _ _ _ _ _ _ W _ _ _ Sv) as (_ & _ & K). discriminate.
Qed.

(** ** Cases *)

(** A request that can be passed on, received in pieces, with a version, a trailing word, and names that are not written as received. *)
Example C103_case : exists r st s1 s2,
  reached (req_parse true) req_new st /\ req_parse true st s1 = (PDone r, s2) /\ ~ in_chunks (rq_headers r) /\
  len (header_lines (pairs_of (rq_headers r))) + 2 <= 4096 /\ 2 * len (rq_body r) <= 3145728 /\
  write_request r = lit "POST /a HTTP/1.1" ++ crlf ++ lit "content-length: +02" ++ crlf ++ lit "x-y: 1: 2" ++ crlf ++ crlf ++ lit "hi".
Proof.
  eexists _, _, [RData (lit "i")], []. split; [|split; [|split; [|split; [|split]]]].
  - eapply reached_call with (s := [RData (crlf ++ crlf ++ lit "h"); RErr WouldBlock]).
    + eapply reached_call with (s := [RData (lit "POST /a HTTP/1.0 x" ++ crlf ++ lit "Content-LENGTH: +02" ++ crlf ++ lit "X-Y: 1: 2"); RErr WouldBlock]).
      * apply reached_new.
      * vm_compute. reflexivity.
    + vm_compute. reflexivity.
  - vm_compute. reflexivity.
  - intros [K _]. vm_compute in K. discriminate.
  - vm_compute. discriminate.
  - vm_compute. discriminate.
  - vm_compute. reflexivity.
Qed.

(** A response with a length, one in chunks, and one that ends with its connection. *)
Example C103_response_case :
  (exists r, resp_parse true resp_new [RData (lit "HTTP/1.0 404 Gone" ++ crlf ++ lit "Content-Length: 2" ++ crlf ++ crlf ++ lit "hi")] = (PDone r, []) /\
     with_length (rs_headers r)) /\
  (exists r, resp_parse true resp_new [RData (lit "HTTP/1.1 200 OK" ++ crlf ++ lit "Transfer-Encoding: gzip, chunked" ++ crlf ++ crlf ++
       lit "2" ++ crlf ++ lit "hi" ++ crlf ++ lit "0" ++ crlf ++ crlf)] = (PDone r, []) /\
     in_chunks (rs_headers r) /\ batch_response (write_response r ++ lit "0" ++ crlf ++ crlf) = Bad InvalidChunkSize) /\
  (exists r, resp_parse true resp_new [RData (lit "HTTP/1.1 200 OK" ++ crlf ++ crlf ++ lit "hi"); RData []] = (PDone r, []) /\
     ~ with_length (rs_headers r) /\ ~ in_chunks (rs_headers r)).
Proof.
  split; [|split].
  - eexists. split; [vm_compute; reflexivity|]. exists (lit "2"). vm_compute. reflexivity.
  - eexists. split; [vm_compute; reflexivity|]. split; [|vm_compute; reflexivity]. split; [vm_compute; reflexivity|].
    exists (lit "gzip, chunked"). split; [vm_compute; reflexivity|]. exists (lit "gzip, "), []. reflexivity.
  - eexists. split; [vm_compute; reflexivity|]. split.
    + intros [v K]. vm_compute in K. discriminate.
    + intros (_ & v & K & _). vm_compute in K. discriminate.
Qed.

(** A value that is echoed, with a carriage return and ": " in it. *)
Definition odd_value : bytes := lit "a: b" ++ [CR] ++ lit "c: d".
Example C103_echo_case : exists r,
  req_parse true req_new [RData (lit "GET / HTTP/1.1" ++ crlf ++ lit "Origin: " ++ odd_value ++ crlf ++ crlf)] = (PDone r, []) /\
  (exists vs, hm_get (header_from (lit "origin")) (rq_headers r) = Some vs /\ In odd_value vs) /\
  good_response false (mk_response STATUS_OK [(CONTENT_LENGTH, [lit "0"])] []) /\ with_length [(CONTENT_LENGTH, [lit "0"])] /\
  response_fits (mk_response STATUS_OK (add_header [(CONTENT_LENGTH, [lit "0"])] (header_from (lit "x-echo")) odd_value) []).
Proof.
  eexists. split; [vm_compute; reflexivity|]. split; [|split; [|split]].
  - eexists. split; [vm_compute; reflexivity|]. left. reflexivity.
  - split; [vm_compute; auto|]. split.
    + split; [repeat constructor; intros []|]. constructor; [|constructor]. split; [reflexivity|]. split; [discriminate|].
      constructor; [|constructor]. split; [apply text_check; reflexivity|apply no_colon_check; reflexivity].
    + split; [reflexivity|]. exact (dec_denotes 0).
  - exists (lit "0"). reflexivity.
  - split; [vm_compute; discriminate|]. split; [repeat constructor; vm_compute; discriminate|]. split; vm_compute; discriminate.
Qed.

(** A request that is hidden: it deletes everything.  Sent on in one piece, it arrives as two requests. *)
Definition deletes : request := mk_request DELETE (lit "/all") [] [].
Example C103_hidden_case : good_request deletes /\ request_fits deletes /\ ~ asks_close deletes /\
  write_request (front_request (write_request deletes)) =
    lit "POST / HTTP/1.1" ++ crlf ++ lit "transfer-encoding: chunked" ++ crlf ++ crlf ++ lit "0" ++ crlf ++ crlf ++ lit "DELETE /all HTTP/1.1" ++ crlf ++ crlf /\
  in_chunks (rq_headers (front_request (write_request deletes))) /\
  orderly false [RData (write_request (front_request (write_request deletes)))].
Proof.
  split; [|split; [|split; [|split; [|split]]]].
  - repeat constructor; try discriminate; try (apply text_check; vm_compute; reflexivity); try (cbn; intuition discriminate); vm_compute; intuition discriminate.
  - repeat constructor; vm_compute; discriminate.
  - intros (xs & K & _). discriminate K.
  - vm_compute. reflexivity.
  - split; [reflexivity|]. exists (lit "chunked"). split; [reflexivity|]. exists [], []. reflexivity.
  - apply (orderly_one false); [discriminate| |vm_compute; reflexivity].
    assert (H : always_in_limits_b last_outcome (write_request (front_request (write_request deletes))) = true) by (vm_compute; reflexivity).
    intros w x E. apply always_in_limits_b_ok in H. exact (H _ _ E).
Qed.

Print Assumptions C103_request_passed_on.
Print Assumptions C103_response_passed_on.
Print Assumptions C103_echo_is_safe.
Print Assumptions C103_chunked_request_refuted.
Print Assumptions C103_chunked_response_refuted.
Print Assumptions C103_response_without_length_refuted.
Print Assumptions C103_hidden_request_refuted.
