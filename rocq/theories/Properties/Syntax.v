(** C04, C07, C15, C20: which byte strings are messages, and what they mean. *)
From Coq Require Import List Ascii String NArith ZArith Bool Lia.
From Coq Require Import ZifyBool ZifyNat ZifyN.
From Verif.Model Require Import Bytes Io Common Parse.
From Verif.Spec Require Import Batch Stream Drive Numerals Names Grammar.
From Verif.Proofs Require Import BytesFacts CommonFacts ParseFacts DriveFacts CallFacts GrammarFacts LimitGrammar BatchFacts Checks.
From Verif.Properties Require Import Streaming.
Import ListNotations.
Local Open Scope N_scope.

(** ** C04 *)

(** The parser, started on any stream, only accepts requests of the grammar, and what it returns is
    their meaning. *)
Theorem C04_request_sound : forall dbg s r s',
  req_parse dbg req_new s = (PDone r, s') ->
  exists w ps, pending s = w ++ pending s' /\
    request_syntax w (rq_method r) (rq_uri r) ps (rq_body r) /\ headers_are (rq_headers r) ps.
Proof.
  intros dbg s r s' E. apply C03_exact_consumption in E as (w & E1 & E2).
  specialize (E2 []). rewrite app_nil_r in E2. apply request_sound in E2 as (w' & ps & E2 & H1 & H2).
  rewrite app_nil_r in E2. subst w'. eauto.
Qed.

(** The same with resumption. *)
Theorem C04_request_sound_driven : forall dbg s r s',
  live s -> blocks_in_clean_lines batch_request s -> no_interrupt_in_data batch_request s ->
  always_in_limits batch_request (pending s) ->
  drive_request dbg s = (PDone r, s') ->
  exists w ps, pending s = w ++ pending s' /\
    request_syntax w (rq_method r) (rq_uri r) ps (rq_body r) /\ headers_are (rq_headers r) ps.
Proof.
  intros dbg s r s' L B I Lim D. apply C03_exact_consumption_driven in D; auto.
  now apply request_sound in D.
Qed.

(** Every request of the grammar that respects the size limits is accepted, in pieces or at once,
    whatever follows it, and exactly its bytes are used. *)
Theorem C04_request_complete : forall dbg w m u ps body s rest,
  small_request w m u ps body ->
  live s -> pending s = w ++ rest ->
  blocks_in_clean_lines batch_request s -> no_interrupt_in_data batch_request s ->
  exists r s', drive_request dbg s = (PDone r, s') /\ live s' /\ pending s' = rest /\
    rq_method r = m /\ rq_uri r = u /\ rq_body r = body /\ headers_are (rq_headers r) ps.
Proof.
  intros dbg w m u ps body s rest H L E B I.
  pose proof (request_always_in_limits _ _ _ _ _ rest H) as Lim. rewrite <- E in Lim.
  pose proof (drive_request_spec dbg false s (live_eof_false _ L) B I Lim) as M.
  apply small_request_syntax in H.
  destruct (request_complete _ _ _ _ _ rest H) as (r & Hr & H1 & H2 & H3 & _ & H4).
  rewrite E, Hr in M. destruct M as (s' & -> & L' & Hp). apply live_eof_false_inv in L'.
  exists r, s'. auto 10.
Qed.

(** The reference parser accepts exactly the grammar, without size limits. *)
Theorem C04_grammar_exact : forall w m u body rest,
  (exists r, batch_request (w ++ rest) = Complete r rest /\
     rq_method r = m /\ rq_uri r = u /\ rq_body r = body) <->
  (exists ps, request_syntax w m u ps body).
Proof.
  intros w m u body rest. split.
  - intros (r & E & <- & <- & <-). apply request_sound in E as (w' & ps & E & H & _).
    apply app_inv_tail in E. subst w'. eauto.
  - intros (ps & H). destruct (request_complete _ _ _ _ _ rest H) as (r & Hr & H1 & H2 & H3 & _ & _). eauto.
Qed.

(** Responses. *)
Theorem C04_response_complete : forall dbg w code ps body s rest,
  small_response w code ps body ->
  live s -> pending s = w ++ rest ->
  blocks_in_clean_lines batch_response s -> no_interrupt_in_data batch_response s ->
  exists r s', drive_response dbg s = (PDone r, s') /\ live s' /\ pending s' = rest /\
    st_code (rs_status r) = code /\ rs_body r = body /\ headers_are (rs_headers r) ps.
Proof.
  intros dbg w code ps body s rest H L E B I.
  pose proof (response_always_in_limits _ _ _ _ rest H) as Lim. rewrite <- E in Lim.
  pose proof (drive_response_spec dbg false s (live_eof_false _ L) B I Lim) as M.
  apply small_response_syntax in H.
  destruct (response_complete _ _ _ _ rest H) as (r & Hr & H1 & H2 & H3).
  rewrite E, Hr in M. destruct M as (s' & -> & L' & Hp). apply live_eof_false_inv in L'.
  exists r, s'. auto 10.
Qed.

Theorem C04_response_complete_eof : forall dbg w code ps body s,
  small_response_eof w code ps body ->
  live_eof true s -> pending s = w ->
  blocks_in_clean_lines batch_response s -> no_interrupt_in_data batch_response s ->
  exists r, drive_response dbg s = (PDone r, []) /\
    st_code (rs_status r) = code /\ rs_body r = body /\ headers_are (rs_headers r) ps.
Proof.
  intros dbg w code ps body s H L E B I.
  pose proof (response_eof_always_in_limits _ _ _ _ H) as Lim. rewrite <- E in Lim.
  pose proof (drive_response_spec dbg true s L B I Lim) as M.
  apply small_response_eof_syntax in H.
  destruct (response_complete_eof _ _ _ _ H) as (r & Hr & H1 & H2 & H3).
  rewrite E, Hr in M. exists r. auto.
Qed.

Theorem C04_response_sound : forall dbg s r s',
  resp_parse dbg resp_new s = (PDone r, s') ->
  exists w ps, pending s = w ++ pending s' /\ headers_are (rs_headers r) ps /\
    (response_syntax w (st_code (rs_status r)) ps (rs_body r) \/
     (response_syntax_eof w (st_code (rs_status r)) ps (rs_body r))).
Proof.
  intros dbg s r s' E.
  destruct (call_done _ _ _ 0 resp_new _ _ _ (resp_parser_ok dbg) line_inv_nil E) as [(w & H1 & H2)|(w & n & H1 & H2)].
  - specialize (H2 []). change (batch_response (w ++ []) = Complete r []) in H2.
    rewrite app_nil_r in H2. apply response_sound in H2 as (w' & ps & E2 & H3 & H4).
    rewrite app_nil_r in E2. subst w'. eauto 10.
  - change (batch_response w = AtEof r n) in H2. apply response_sound_eof in H2 as (ps & H3 & H4 & H5). eauto 10.
Qed.

(** ** C07 *)

(** With a head of ASCII characters every delivery in pieces will do: blocks may fall anywhere. *)
Theorem C07_small_requests_accepted : forall dbg w m u ps body s rest,
  small_request w m u ps body -> head_ascii w ps ->
  live s -> (forall s1 s2, s = s1 ++ RErr Interrupted :: s2 -> ~ in_data (batch_request (pending s1))) ->
  pending s = w ++ rest ->
  exists r s', drive_request dbg s = (PDone r, s') /\ pending s' = rest /\
    rq_method r = m /\ rq_uri r = u /\ rq_body r = body /\ headers_are (rq_headers r) ps.
Proof.
  intros dbg w m u ps body s rest H A L I E.
  destruct (C04_request_complete dbg w m u ps body s rest H L E) as (r & s' & H1 & _ & H2); eauto.
  eapply request_blocks_clean; eauto.
Qed.

(** Any beginning of such a request leaves the parser waiting for more; it does not report a limit or
    panic. *)
Theorem C07_prefixes_wait : forall dbg w m u ps body s x,
  small_request w m u ps body -> head_ascii w ps ->
  live s -> no_interrupt_in_data batch_request s ->
  w = pending s ++ x -> x <> [] ->
  exists st, drive_request dbg s = (PIo st WouldBlock, []).
Proof.
  intros dbg w m u ps body s x H A L I E Hx.
  assert (Lim : always_in_limits batch_request (pending s)).
  { intros b y Eb. eapply (request_prefixes w m u ps body [] b (y ++ x)); eauto.
    now rewrite app_nil_r, app_assoc, <- Eb. }
  assert (B : blocks_in_clean_lines batch_request s).
  { intros s1 s2 ->. rewrite DriveFacts.pending_app in E.
    apply (request_prefixes w m u ps body [] (pending s1) (pending (RErr WouldBlock :: s2) ++ x)); auto.
    now rewrite app_nil_r, app_assoc. }
  pose proof (drive_request_spec dbg false s (live_eof_false _ L) B I Lim) as M.
  destruct (batch_request (pending s)) as [r rest|p|v n|e] eqn:Eb; cbn [matches] in M; auto.
  - exfalso. apply request_sound in Eb as (w' & ps' & Eb & H' & _).
    destruct (request_complete w' _ _ _ _ (rest ++ x) H') as (r1 & Q1 & _).
    apply small_request_syntax in H. destruct (request_complete w _ _ _ _ [] H) as (r2 & Q2 & _).
    rewrite app_nil_r, E, Eb, <- app_assoc, Q1 in Q2. inversion Q2 as [[Q3 Q4]].
    apply app_eq_nil in Q4 as [_ Q4]. contradiction.
  - exfalso. apply small_request_syntax in H. destruct (request_complete w _ _ _ _ [] H) as (r2 & Q2 & _).
    rewrite app_nil_r, E in Q2.
    assert (P : forall b e y, batch_request b = Bad e -> batch_request (b ++ y) = Bad e).
    { intros. now apply batch_request_bad_ext. }
    rewrite (P _ _ x Eb) in Q2. discriminate.
Qed.

(** A POST request with a mixed-case header, a body, and a second transfer-encoding header that is
    ignored. *)
Example C04_pairs : list (bytes * bytes) :=
  [(lit "Host", lit "example.org"); (lit "CONTENT-Length", lit "+05"); (lit "transfer-encoding", lit "chunked")].
Example C04_message : bytes :=
  lit "POST /a/b HTTP/1.0" ++ crlf ++ header_lines C04_pairs ++ crlf ++ lit "hello".
Example C04_case : small_request C04_message POST (lit "/a/b") C04_pairs (lit "hello") /\ head_ascii C04_message C04_pairs.
Proof.
  assert (A : headers_ascii C04_pairs).
  { repeat constructor; vm_compute; intuition congruence. }
  split.
  - exists (lit "POST /a/b HTTP/1.0"), (lit "hello"). parts.
    + exists (lit "HTTP/1.0"). split; [right; reflexivity|]. apply words3_split. eexists. vm_compute. reflexivity.
    + split; [vm_compute; reflexivity|]. vm_compute. intuition congruence.
    + repeat constructor; try (vm_compute; reflexivity); try (vm_compute; intuition congruence);
        apply no_colon_iff; vm_compute; reflexivity.
    + apply (body_sized _ _ (lit "+05") [] 5); [| |lia|reflexivity].
      * apply vn_other; [rewrite <- lower_same; vm_compute; discriminate|].
        apply vn_same; [apply lower_same; vm_compute; reflexivity|].
        apply vn_other; [rewrite <- lower_same; vm_compute; discriminate|]. constructor.
      * apply (parse_uint_spec 10 USIZE_MAX); [lia|]. vm_compute. reflexivity.
    + reflexivity.
    + split; [vm_compute; discriminate|]. split; [|vm_compute; discriminate].
      repeat constructor; vm_compute; discriminate.
    + split.
      * intros. vm_compute. discriminate.
      * intros H. exfalso. apply values_named_values in H. vm_compute in H. discriminate.
  - split; [exact A|]. intros l r Hl E.
    assert (C : cut_line C04_message = Some (inr l, r)) by (rewrite E; now apply cut_line_text).
    vm_compute in C. injection C as <- _. repeat constructor; vm_compute; reflexivity.
Qed.

(** Split at every byte, with a block between any two bytes: still accepted. *)
Example C07_bytewise : exists r s',
  drive_request true (flat_map (fun c => [RErr WouldBlock; RData [c]]) C04_message) = (PDone r, s')
  /\ rq_body r = lit "hello".
Proof. eexists _, _. split; [vm_compute; reflexivity|reflexivity]. Qed.

(** ** C15 *)

(** Two header lists with the same values, in the same order, under every name.  In particular any
    permutation that keeps the relative order of equal names. *)
Definition same_values (ps ps' : list (bytes * bytes)) : Prop :=
  forall name vs, values_named name ps vs -> values_named name ps' vs.

Lemma same_values_equiv ps ps' : same_values ps ps' ->
  hm_equiv (from_pairs (map header_pair ps)) (from_pairs (map header_pair ps')).
Proof.
  intros H k. rewrite !hm_get_pairs. f_equal.
  destruct (header_eqb (header_from (header_str k)) k) eqn:E.
  - apply header_eqb_eq in E. rewrite <- E.
    destruct (values_named_fun (header_str k) ps) as [vs Hvs]. pose proof (H _ _ Hvs) as Hvs'.
    apply values_named_values in Hvs, Hvs'. congruence.
  - assert (G : forall l, values_of header_eqb k (map header_pair l) = []); [|now rewrite !G].
    induction l as [|[n v] l IH]; auto. unfold values_of, header_pair in *. cbn [map filter fst snd].
    destruct (header_eqb (header_from n) k) eqn:E'; auto.
    exfalso. apply header_eqb_eq in E'. subst k. apply header_eqb_neq in E. apply E.
    rewrite header_str_from. apply header_from_iff, lower_idem.
Qed.

Lemma framing_equiv h h' to_eof : hm_equiv h h' -> framing_of h to_eof = framing_of h' to_eof.
Proof.
  intros H. unfold framing_of, get_first_header_value. now rewrite !H.
Qed.

Theorem C15_order_of_different_names_is_irrelevant : forall l m u ps ps' wire r rest,
  text l -> request_line m u l -> Forall header_ok ps -> Forall header_ok ps' ->
  same_values ps ps' ->
  batch_request (l ++ crlf ++ header_lines ps ++ crlf ++ wire) = Complete r rest ->
  exists r', batch_request (l ++ crlf ++ header_lines ps' ++ crlf ++ wire) = Complete r' rest /\
    rq_method r' = rq_method r /\ rq_uri r' = rq_uri r /\ rq_body r' = rq_body r /\
    hm_equiv (rq_headers r) (rq_headers r').
Proof.
  intros l m u ps ps' wire r rest Ht Hl Hp Hp' Hs. apply parse_request_line_iff in Hl.
  unfold batch_request. rewrite !(batch_msg_head _ _ _ (m, u)) by assumption.
  unfold batch_after_headers. pose proof (same_values_equiv _ _ Hs) as Heq.
  rewrite (framing_equiv _ _ false Heq).
  destruct (framing_of (from_pairs (map header_pair ps')) false) as [e|fr]; [discriminate|].
  destruct (batch_body fr wire) as [b r0|p|v n|e]; try discriminate. cbn [omap].
  intros H; inversion H; subst. eexists. split; [reflexivity|]. cbn. auto.
Qed.

(** Repeated headers are listed in order of appearance. *)
Theorem C15_repeated_headers_in_order : forall w m u ps body rest name vs,
  request_syntax w m u ps body -> values_named name ps vs ->
  exists r, batch_request (w ++ rest) = Complete r rest /\
    hm_get (header_from name) (rq_headers r) = match vs with [] => None | _ => Some vs end.
Proof.
  intros w m u ps body rest name vs H Hv.
  destruct (request_complete _ _ _ _ _ rest H) as (r & Hr & _ & _ & _ & _ & Hh).
  exists r. split; auto. exact (Hh _ _ Hv).
Qed.

Example C15_case : same_values
  [(lit "a", lit "1"); (lit "B", lit "2"); (lit "A", lit "3")]
  [(lit "b", lit "2"); (lit "a", lit "1"); (lit "a", lit "3")].
Proof.
  intros name vs H.
  destruct (values_named_fun name [(lit "b", lit "2"); (lit "a", lit "1"); (lit "a", lit "3")]) as [vs' H'].
  assert (vs = vs') as ->; auto.
  apply values_named_values in H, H'. subst. unfold values_of, header_pair. cbn [map filter fst snd].
  change (header_from (lit "A")) with (header_from (lit "a")).
  change (header_from (lit "B")) with (header_from (lit "b")).
  destruct (header_eqb (header_from (lit "a")) (header_from name)) eqn:E1;
    destruct (header_eqb (header_from (lit "b")) (header_from name)) eqn:E2; try reflexivity.
  exfalso. apply header_eqb_eq in E1, E2. rewrite <- E2 in E1. vm_compute in E1. discriminate.
Qed.

(** ** C20 *)

(** The head is read; what follows is decided by the headers alone. *)
Theorem C20_content_length_first : forall l m u ps v vs rest,
  text l -> request_line m u l -> Forall header_ok ps ->
  values_named (lit "content-length") ps (v :: vs) ->
  let b := l ++ crlf ++ header_lines ps ++ crlf ++ rest in
  ((forall n, denotes 10 v n -> 18446744073709551615 < n) -> batch_request b = Bad InvalidHeaderValue) /\
  (forall n, denotes 10 v n -> 3145728 < n <= 18446744073709551615 -> batch_request b = Bad ContentLengthTooLarge) /\
  (forall n, denotes 10 v n -> n <= 3145728 ->
     (len rest < n -> batch_request b = Incomplete (InSized n (len rest))) /\
     (forall body rest', rest = body ++ rest' -> len body = n ->
        exists r, batch_request b = Complete r rest' /\ rq_body r = body)).
Proof.
  intros l m u ps v vs rest Ht Hl Hp Hv b. apply parse_request_line_iff in Hl.
  unfold b, batch_request. rewrite (batch_msg_head _ _ _ (m, u)) by assumption.
  unfold batch_after_headers, framing_of. rewrite CONTENT_LENGTH_from.
  rewrite (get_first_named _ _ _ _ (headers_are_pairs ps) Hv).
  split; [|split].
  - intros H. destruct (parse_uint 10 USIZE_MAX v) as [n|] eqn:E; [|reflexivity].
    exfalso. apply parse_uint_spec in E as [E1 E2]; [|lia]. apply H in E1. unfold USIZE_MAX in E2. lia.
  - intros n Hd Hn. assert (parse_uint 10 USIZE_MAX v = Some n) as ->
      by (apply parse_uint_spec; [lia|]; split; auto; unfold USIZE_MAX; lia).
    change MAX_BODY_SIZE with 3145728. replace (n <=? 3145728) with false by lia. reflexivity.
  - intros n Hd Hn. assert (parse_uint 10 USIZE_MAX v = Some n) as ->
      by (apply parse_uint_spec; [lia|]; split; auto; unfold USIZE_MAX; lia).
    change MAX_BODY_SIZE with 3145728. replace (n <=? 3145728) with true by lia. cbn [batch_body]. split.
    + intros H. replace (len rest <? n) with true by lia. reflexivity.
    + intros body rest' -> Hb. rewrite len_app. replace (_ <? n) with false by lia.
      subst n. rewrite firstn_len_app, skipn_len_app. eexists. split; reflexivity.
Qed.

Theorem C20_otherwise : forall l m u ps te rest,
  text l -> request_line m u l -> Forall header_ok ps ->
  values_named (lit "content-length") ps [] ->
  values_named (lit "transfer-encoding") ps te ->
  let b := l ++ crlf ++ header_lines ps ++ crlf ++ rest in
  (forall v vs, te = v :: vs -> (exists x y, v = x ++ lit "chunked" ++ y) ->
     forall r rest', batch_request b = Complete r rest' <->
       (exists wire, rest = wire ++ rest' /\ chunked wire (rq_body r)) /\
       rq_method r = m /\ rq_uri r = u /\ rq_headers r = from_pairs (map header_pair ps)) /\
  ((forall v vs, te = v :: vs -> ~ exists x y, v = x ++ lit "chunked" ++ y) ->
     exists r, batch_request b = Complete r rest /\ rq_body r = []).
Proof.
  intros l m u ps te rest Ht Hl Hp Hv Hte b. apply parse_request_line_iff in Hl.
  unfold b, batch_request. rewrite (batch_msg_head _ _ _ (m, u)) by assumption.
  unfold batch_after_headers. split.
  - intros v vs -> Hc r rest'.
    rewrite (framing_complete_chunked _ _ _ _ _ (headers_are_pairs ps) Hv Hte Hc). cbn [batch_body]. split.
    + destruct (batch_chunks 0 [] rest) as [bd r0|p|v0 n0|e] eqn:E; try discriminate. cbn [omap].
      intros H; inversion H; subst. apply batch_chunks_sound in E as (w & body & E1 & E2 & E3).
      cbn [app] in E2. subst. cbn [rq_body rq_method rq_uri rq_headers]. split; [exists w; auto|auto].
    + intros ((wire & -> & Hw) & H1 & H2 & H3). rewrite (batch_chunks_complete _ _ Hw). cbn [omap app].
      destruct r; cbn in *; subst; reflexivity.
  - intros Hc. rewrite (framing_complete_default _ _ _ _ (headers_are_pairs ps) Hv Hte Hc).
    eexists. split; reflexivity.
Qed.

(** Responses with neither header extend to the end of the stream. *)
Theorem C20_response_default : forall l st ps te rest,
  text l -> parse_status_line l = inr st -> Forall header_ok ps ->
  values_named (lit "content-length") ps [] ->
  values_named (lit "transfer-encoding") ps te ->
  (forall v vs, te = v :: vs -> ~ exists x y, v = x ++ lit "chunked" ++ y) ->
  exists r, batch_response (l ++ crlf ++ header_lines ps ++ crlf ++ rest) = AtEof r (len rest)
    /\ rs_body r = rest.
Proof.
  intros l st ps te rest Ht Hl Hp Hv Hte Hc.
  unfold batch_response. rewrite (batch_msg_head _ _ _ st) by assumption. unfold batch_after_headers.
  rewrite (framing_complete_default _ _ _ _ (headers_are_pairs ps) Hv Hte Hc). eexists. split; reflexivity.
Qed.

(** The real parser on such inputs: content-length wins over chunked, and errors are as stated. *)
Example C20_case :
  fst (req_parse true req_new [RData (C04_message ++ lit "rest")]) =
    PDone (mk_request POST (lit "/a/b")
      [(header_from (lit "host"), [lit "example.org"]); (CONTENT_LENGTH, [lit "+05"]);
       (TRANSFER_ENCODING, [lit "chunked"])] (lit "hello")) /\
  fst (req_parse true req_new [RData (lit "GET / HTTP/1.1" ++ crlf ++ lit "content-length: 5 " ++ crlf ++ crlf)])
    = PErr InvalidHeaderValue /\
  fst (req_parse true req_new [RData (lit "GET / HTTP/1.1" ++ crlf ++ lit "content-length: 3145729" ++ crlf ++ crlf)])
    = PErr ContentLengthTooLarge.
Proof. vm_compute. auto. Qed.

Print Assumptions C04_request_sound.
Print Assumptions C04_request_sound_driven.
Print Assumptions C04_request_complete.
Print Assumptions C04_grammar_exact.
Print Assumptions C04_response_complete.
Print Assumptions C04_response_complete_eof.
Print Assumptions C04_response_sound.
Print Assumptions C07_small_requests_accepted.
Print Assumptions C07_prefixes_wait.
Print Assumptions C15_order_of_different_names_is_irrelevant.
Print Assumptions C15_repeated_headers_in_order.
Print Assumptions C20_content_length_first.
Print Assumptions C20_otherwise.
Print Assumptions C20_response_default.
