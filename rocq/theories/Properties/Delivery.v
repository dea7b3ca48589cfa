(** C15, C16, C20, C39: what the parser makes of delivered bytes. *)
From Coq Require Import List Ascii String NArith ZArith Bool Lia.
From Coq Require Import ZifyBool ZifyNat ZifyN.
From Verif.Model Require Import Bytes Io Common Parse Encode.
From Verif.Spec Require Import Batch Stream Drive Numerals Names Grammar Wire.
From Verif.Proofs Require Import BytesFacts CommonFacts ParseFacts DriveFacts CallFacts GrammarFacts LimitGrammar BatchFacts EncodeFacts Checks.
From Verif.Properties Require Import Streaming Syntax RoundTrip.
Import ListNotations.
Local Open Scope N_scope.

Lemma read_complete dbg eof s b r rest : delivers batch_request eof s b -> batch_request b = Complete r rest ->
  exists s', drive_request dbg s = (PDone r, s') /\ pending s' = rest.
Proof.
  intros (L & <- & B & I & Lim) E. pose proof (drive_request_spec dbg eof s L B I Lim) as M. rewrite E in M.
  destruct M as (s' & H1 & _ & H2). eauto.
Qed.
Lemma read_complete_inv dbg eof s b r s' : delivers batch_request eof s b -> drive_request dbg s = (PDone r, s') ->
  batch_request b = Complete r (pending s').
Proof.
  intros (L & <- & B & I & Lim) E. pose proof (drive_request_spec dbg eof s L B I Lim) as M. rewrite E in M.
  unfold matches in M. destruct (batch_request (pending s)) as [v rest|p|v n|e] eqn:Eb.
  - destruct M as (s2 & H & _ & H2). inversion H; subst. reflexivity.
  - destruct eof; [destruct (utf8 _); [destruct M as (? & M)|]|destruct M as (? & M)]; discriminate.
  - exfalso. exact (batch_request_not_eof _ _ _ Eb).
  - destruct M as (? & M). discriminate.
Qed.
Lemma read_bad dbg eof s b e : delivers batch_request eof s b -> batch_request b = Bad e ->
  exists s', drive_request dbg s = (PErr e, s').
Proof. intros (L & <- & B & I & Lim) E. pose proof (drive_request_spec dbg eof s L B I Lim) as M. now rewrite E in M. Qed.

(** ** C15 *)

(** However the two are delivered. *)
Theorem C15_order_irrelevant_read : forall dbg eof1 eof2 s1 s2 l m u ps ps' wire r s1',
  text l -> request_line m u l -> Forall header_ok ps -> Forall header_ok ps' -> same_values ps ps' ->
  delivers batch_request eof1 s1 (l ++ crlf ++ header_lines ps ++ crlf ++ wire) ->
  delivers batch_request eof2 s2 (l ++ crlf ++ header_lines ps' ++ crlf ++ wire) ->
  drive_request dbg s1 = (PDone r, s1') ->
  exists r' s2', drive_request dbg s2 = (PDone r', s2') /\ pending s2' = pending s1' /\
    rq_method r' = rq_method r /\ rq_uri r' = rq_uri r /\ rq_body r' = rq_body r /\
    hm_equiv (rq_headers r) (rq_headers r').
Proof.
  intros dbg eof1 eof2 s1 s2 l m u ps ps' wire r s1' Ht Hl Hp Hp' Hs D1 D2 E. apply (read_complete_inv _ _ _ _ _ _ D1) in E.
  destruct (C15_order_of_different_names_is_irrelevant l m u ps ps' wire r _ Ht Hl Hp Hp' Hs E) as (r' & E' & H).
  destruct (read_complete dbg _ _ _ _ _ D2 E') as (s2' & H1 & H2). eauto 10.
Qed.
Print Assumptions C15_order_irrelevant_read.

Theorem C15_repeated_in_order_read : forall dbg eof s w m u ps body rest name vs,
  request_syntax w m u ps body -> values_named name ps vs -> delivers batch_request eof s (w ++ rest) ->
  exists r s', drive_request dbg s = (PDone r, s') /\ pending s' = rest /\
    hm_get (header_from name) (rq_headers r) = match vs with [] => None | _ => Some vs end.
Proof.
  intros dbg eof s w m u ps body rest name vs H Hv D.
  destruct (C15_repeated_headers_in_order w m u ps body rest name vs H Hv) as (r & E & Hr).
  destruct (read_complete dbg _ _ _ _ _ D E) as (s' & H1 & H2). eauto 10.
Qed.
Print Assumptions C15_repeated_in_order_read.

(** ** C16 *)

Theorem C16_exactly_the_good_read : forall dbg eof s r, typed_request r -> delivers batch_request eof s (write_request r) ->
  ((exists r' s', drive_request dbg s = (PDone r', s') /\ pending s' = [] /\ same_request r' r) <->
   good_request r /\ len (rq_body r) <= 3145728).
Proof.
  intros dbg eof s r T D. rewrite <- (C16_exactly_the_good r T). split.
  - intros (r' & s' & E & P & S). apply (read_complete_inv _ _ _ _ _ _ D) in E. rewrite P in E. eauto.
  - intros (r' & E & S). destruct (read_complete dbg _ _ _ _ _ D E) as (s' & H1 & H2). eauto.
Qed.
Print Assumptions C16_exactly_the_good_read.

(** Delivered in any pieces, with any blocks. *)
Theorem C16_request_injection_read_refuted : forall injected, exists uri, forall dbg m s,
  live s -> ~ In (RErr Interrupted) s -> pending s = write_request (mk_request m uri [] []) ->
  exists r' s', drive_request dbg s = (PDone r', s') /\ rq_uri r' = lit "/" /\
    pending s' = injected ++ lit " HTTP/1.1" ++ crlf ++ crlf.
Proof.
  intros injected. exists (lit "/ HTTP/1.1" ++ crlf ++ crlf ++ injected). intros dbg m s L I E.
  set (q := mk_request m (lit "/") [] []).
  assert (G : good_request q).
  { split; [apply text_check; reflexivity|]. split; [vm_compute; intuition discriminate|].
    split; [split; constructor|]. split; [reflexivity|]. intros; discriminate. }
  assert (F : request_fits q).
  { split; [destruct m; vm_compute; congruence|]. split; [constructor|]. split; vm_compute; congruence. }
  destruct (C13_round_trip_ascii dbg q s (injected ++ lit " HTTP/1.1" ++ crlf ++ crlf) G F) as (r' & s' & H); auto.
  - repeat constructor.
  - constructor.
  - rewrite E, !write_request_eq. unfold request_first. cbn [rq_method rq_uri rq_headers rq_body q].
    change (header_lines (pairs_of [])) with (@nil byte). do 3 (cbn [app]; rewrite <- ?app_assoc). reflexivity.
  - intros s1 s2 ->. exfalso. apply I, in_or_app. right. now left.
  - destruct H as (H1 & _ & H2 & H3). exists r', s'. split; auto. split; auto. apply H3.
Qed.
Print Assumptions C16_request_injection_read_refuted.

(** ** C20 *)

Theorem C20_content_length_first_read : forall dbg eof s l m u ps v vs rest,
  text l -> request_line m u l -> Forall header_ok ps ->
  values_named (lit "content-length") ps (v :: vs) ->
  delivers batch_request eof s (l ++ crlf ++ header_lines ps ++ crlf ++ rest) ->
  ((forall n, denotes 10 v n -> 18446744073709551615 < n) -> exists s', drive_request dbg s = (PErr InvalidHeaderValue, s')) /\
  (forall n, denotes 10 v n -> 3145728 < n <= 18446744073709551615 -> exists s', drive_request dbg s = (PErr ContentLengthTooLarge, s')) /\
  (forall n, denotes 10 v n -> n <= 3145728 ->
     (len rest < n -> exists st, drive_request dbg s = (PIo st (if eof then UnexpectedEof else WouldBlock), [])) /\
     (forall body rest', rest = body ++ rest' -> len body = n ->
        exists r s', drive_request dbg s = (PDone r, s') /\ pending s' = rest' /\ rq_body r = body)).
Proof.
  intros dbg eof s l m u ps v vs rest Ht Hl Hp Hv D.
  destruct (C20_content_length_first l m u ps v vs rest Ht Hl Hp Hv) as (A & B & C). split; [|split].
  - intros H. eapply read_bad; eauto.
  - intros n H1 H2. eapply read_bad; eauto.
  - intros n H1 H2. destruct (C n H1 H2) as [C1 C2]. split.
    + intros H. apply C1 in H. destruct D as (L & E & Bk & I & Lim).
      pose proof (drive_request_spec dbg eof s L Bk I) as M. rewrite E, H in M. specialize (M Lim). cbn [matches line_of] in M.
      destruct eof; exact M.
    + intros body rest' E1 E2. destruct (C2 _ _ E1 E2) as (r & E & Hr). destruct (read_complete dbg _ _ _ _ _ D E) as (s' & K1 & K2). eauto.
Qed.
Print Assumptions C20_content_length_first_read.

Theorem C20_otherwise_read : forall dbg eof s l m u ps te rest,
  text l -> request_line m u l -> Forall header_ok ps ->
  values_named (lit "content-length") ps [] -> values_named (lit "transfer-encoding") ps te ->
  delivers batch_request eof s (l ++ crlf ++ header_lines ps ++ crlf ++ rest) ->
  (forall v vs, te = v :: vs -> (exists x y, v = x ++ lit "chunked" ++ y) ->
     forall r rest', (exists s', drive_request dbg s = (PDone r, s') /\ pending s' = rest') <->
       (exists wire, rest = wire ++ rest' /\ chunked wire (rq_body r)) /\
       rq_method r = m /\ rq_uri r = u /\ rq_headers r = from_pairs (map header_pair ps)) /\
  ((forall v vs, te = v :: vs -> ~ exists x y, v = x ++ lit "chunked" ++ y) ->
     exists r s', drive_request dbg s = (PDone r, s') /\ pending s' = rest /\ rq_body r = []).
Proof.
  intros dbg eof s l m u ps te rest Ht Hl Hp Hv Hte D.
  destruct (C20_otherwise l m u ps te rest Ht Hl Hp Hv Hte) as (A & B). split.
  - intros v vs E C r rest'. rewrite <- (A v vs E C r rest'). split.
    + intros (s' & H & <-). exact (read_complete_inv _ _ _ _ _ _ D H).
    + intros H. exact (read_complete dbg _ _ _ _ _ D H).
  - intros H. destruct (B H) as (r & E & Hr). destruct (read_complete dbg _ _ _ _ _ D E) as (s' & K1 & K2). eauto.
Qed.
Print Assumptions C20_otherwise_read.

(** A response without either is complete only when the stream ends. *)
Theorem C20_response_default_read : forall dbg eof s l c ps te rest,
  text l -> status_line c l -> Forall header_ok ps ->
  values_named (lit "content-length") ps [] -> values_named (lit "transfer-encoding") ps te ->
  (forall v vs, te = v :: vs -> ~ exists x y, v = x ++ lit "chunked" ++ y) ->
  delivers batch_response eof s (l ++ crlf ++ header_lines ps ++ crlf ++ rest) ->
  if eof then exists r, drive_response dbg s = (PDone r, []) /\ rs_body r = rest
  else exists st, drive_response dbg s = (PIo st WouldBlock, []).
Proof.
  intros dbg eof s l c ps te rest Ht Hl Hp Hv Hte Hc (L & E & B & I & Lim).
  apply parse_status_line_iff in Hl as (st & Hl & _).
  destruct (C20_response_default l st ps te rest Ht Hl Hp Hv Hte Hc) as (r & Er & Hr).
  pose proof (drive_response_spec dbg eof s L B I) as M. rewrite E, Er in M. specialize (M Lim). cbn [matches] in M.
  destruct eof; eauto.
Qed.
Print Assumptions C20_response_default_read.

(** Responses with a content-length, or with a transfer-encoding that says chunked. *)
Theorem C20_response_framed_read : forall dbg eof s l c ps rest,
  text l -> status_line c l -> Forall header_ok ps ->
  delivers batch_response eof s (l ++ crlf ++ header_lines ps ++ crlf ++ rest) ->
  (forall v vs n, values_named (lit "content-length") ps (v :: vs) -> denotes 10 v n -> n <= 3145728 ->
     (len rest < n -> exists st, drive_response dbg s = (PIo st (if eof then UnexpectedEof else WouldBlock), [])) /\
     (forall body rest', rest = body ++ rest' -> len body = n ->
        exists r s', drive_response dbg s = (PDone r, s') /\ pending s' = rest' /\ rs_body r = body)) /\
  (forall v vs, values_named (lit "content-length") ps [] -> values_named (lit "transfer-encoding") ps (v :: vs) ->
     (exists x y, v = x ++ lit "chunked" ++ y) ->
     forall wire body rest', rest = wire ++ rest' -> chunked wire body ->
       exists r s', drive_response dbg s = (PDone r, s') /\ pending s' = rest' /\ rs_body r = body).
Proof.
  intros dbg eof s l c ps rest Ht Hl Hp (L & E & B & I & Lim).
  apply parse_status_line_iff in Hl as (st & Hl & _).
  pose proof (drive_response_spec dbg eof s L B I) as M. rewrite E in M. specialize (M Lim).
  unfold batch_response in M. rewrite (batch_msg_head _ _ _ st) in M by assumption. unfold batch_after_headers in M. split.
  - intros v vs n Hv Hd Hn. rewrite (framing_complete_sized _ _ _ _ _ n (headers_are_pairs ps) Hv Hd Hn) in M. cbn [batch_body] in M. split.
    + intros H. replace (len rest <? n) with true in M by lia. cbn [omap matches line_of] in M. destruct eof; exact M.
    + intros body rest' -> Hb. rewrite len_app in M. replace (_ <? n) with false in M by lia.
      subst n. rewrite firstn_len_app, skipn_len_app in M. destruct M as (s' & H1 & _ & H2). do 2 eexists. split; [exact H1|]. split; [exact H2|reflexivity].
  - intros v vs Hv Hte Hc wire body rest' -> Hw. rewrite (framing_complete_chunked _ _ _ _ _ (headers_are_pairs ps) Hv Hte Hc) in M.
    cbn [batch_body] in M. rewrite (batch_chunks_complete _ _ Hw 0 [] rest') in M. destruct M as (s' & H1 & _ & H2).
    do 2 eexists. split; [exact H1|]. split; [exact H2|reflexivity].
Qed.
Print Assumptions C20_response_framed_read.

(** ** C39 *)

(** The uris that the router gets. *)
Theorem C39_read_uri_is_text : forall dbg eof s b r s', delivers batch_request eof s b -> drive_request dbg s = (PDone r, s') ->
  utf8 (rq_uri r) = true.
Proof.
  intros dbg eof s b r s' D E. apply (read_complete_inv _ _ _ _ _ _ D) in E.
  apply request_sound in E as (w' & ps & _ & (l & wire & H1 & H2 & _) & _). eapply request_line_text; eauto.
Qed.
Print Assumptions C39_read_uri_is_text.

(** ** A case *)

(** In pieces, with blocks, the second header not the first to count. *)
Example delivered : stream :=
  [RData (lit "POST /a HT"); RErr WouldBlock; RData (lit "TP/1.1" ++ crlf ++ lit "content-length: 2" ++ crlf ++ lit "Content-Length: 4" ++ crlf ++ lit "transfer-encoding: chunked" ++ crlf ++ [CR]);
   RErr WouldBlock; RErr Interrupted; RData ([LF] ++ lit "h"); RErr WouldBlock; RData (lit "ello")].
Example delivered_case : delivers batch_request false delivered (pending delivered) /\
  exists s', drive_request true delivered = (PDone (mk_request POST (lit "/a")
    [(CONTENT_LENGTH, [lit "2"; lit "4"]); (TRANSFER_ENCODING, [lit "chunked"])] (lit "he")), s') /\ pending s' = lit "llo".
Proof.
  split; [|eexists; vm_compute; split; reflexivity].
  split; [apply live_eof_false, live_b_ok; vm_compute; reflexivity|]. split; [reflexivity|].
  split; [apply blocks_clean_b_ok; vm_compute; reflexivity|].
  split; [apply no_intr_b_ok; vm_compute; reflexivity|].
  apply always_in_limits_b_ok. vm_compute. reflexivity.
Qed.
