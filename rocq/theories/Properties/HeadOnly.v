(** C109: responses without a body. *)
From Coq Require Import List Ascii String NArith ZArith Bool Lia.
From Coq Require Import ZifyBool ZifyNat ZifyN.
From Verif.Model Require Import Bytes Io Common Parse Encode Writer Server Client.
From Verif.Spec Require Import Batch Stream Drive Numerals Names Grammar Wire Session Output Exchange HeadOnly.
From Verif.Proofs Require Import BytesFacts CommonFacts ParseFacts DriveFacts CallFacts GrammarFacts LimitGrammar BatchFacts EncodeFacts Checks ClientFacts.
From Verif.Properties Require Import Syntax RoundTrip Delivery Client Standard.
Import ListNotations.
Local Open Scope N_scope.

Lemma head_after h code ps rest : head_only h code ps -> exists st, st_code st = code /\
  batch_response (h ++ rest) = omap (fun x => match x with (t, h, body) => mk_response t h body end) (batch_after_headers true st (from_pairs (map header_pair ps)) rest).
Proof.
  intros (l & Sl & T & K & ->). apply parse_status_line_iff in Sl as (st & Sl & C). exists st. split; auto.
  unfold batch_response. rewrite <- !app_assoc. now rewrite (batch_msg_head _ _ _ st).
Qed.

(** What is read of a response that ends with its header lines, depending on what its headers say. *)
Lemma head_empty h code ps rest : head_only h code ps -> says_empty ps ->
  exists r, batch_response (h ++ rest) = Complete r rest /\ st_code (rs_status r) = code /\ rs_body r = [] /\ headers_are (rs_headers r) ps.
Proof.
  intros (l & Sl & T & K & ->) (v & vs & V & D).
  destruct (response_complete (l ++ crlf ++ header_lines ps ++ crlf ++ []) code ps [] rest) as (r & E & H1 & H2 & H3).
  - exists l, []. split; auto. split; auto. split; auto. split; [|reflexivity]. eapply body_sized; eauto. vm_compute. discriminate.
  - exists r. rewrite app_nil_r in E. auto.
Qed.
Lemma head_waits h code ps : head_only h code ps -> length_fine ps -> ~ says_empty ps ->
  (exists p, batch_response h = Incomplete p /\ line_of p = []) \/
  (exists r, batch_response h = AtEof r 0 /\ st_code (rs_status r) = code /\ rs_body r = [] /\ headers_are (rs_headers r) ps).
Proof.
  intros H F N. destruct (head_after h code ps [] H) as (st & C & E). rewrite app_nil_r in E. rewrite E.
  pose proof (headers_are_pairs ps) as A. unfold batch_after_headers.
  destruct (values_named_fun (lit "content-length") ps) as (vs & V). destruct vs as [|v vs].
  - destruct (values_named_fun (lit "transfer-encoding") ps) as (ts & W).
    assert (X : (exists te ts', ts = te :: ts' /\ exists a r, te = a ++ lit "chunked" ++ r) \/
                (forall te ts', ts = te :: ts' -> ~ exists a r, te = a ++ lit "chunked" ++ r)).
    { destruct ts as [|te ts]; [right; discriminate|]. destruct (contains (lit "chunked") te) eqn:Ec.
      - left. exists te, ts. split; auto. now apply contains_iff.
      - right. intros te' ts' Q. injection Q as <- <-. intros X. apply contains_iff in X. congruence. }
    destruct X as [(te & ts' & -> & X)|X].
    + rewrite (framing_complete_chunked _ _ _ _ _ A V W X). left. cbn. eauto.
    + rewrite (framing_complete_default _ _ _ _ A V W X). right. cbn. eexists. split; [reflexivity|]. auto.
  - destruct (F _ _ V) as (n & D & L). rewrite (framing_complete_sized _ _ _ _ _ _ A V D L).
    assert (n <> 0) by (intros ->; apply N; exists v, vs; auto).
    left. cbn [batch_body]. change (len (@nil byte)) with 0. replace (0 <? n) with true by lia. cbn. eauto.
Qed.

Lemma denotes_same v n m : denotes 10 v n -> denotes 10 v m -> n = m.
Proof.
  intros A B. assert (X : parse_uint 10 (n + m) v = Some n) by (apply parse_uint_spec; [lia|split; [exact A|lia]]).
  assert (Y : parse_uint 10 (n + m) v = Some m) by (apply parse_uint_spec; [lia|split; [exact B|lia]]). congruence.
Qed.

(** On a stream that stays open such a response is read exactly if its headers say that its length is zero. *)
Theorem C109_exactly : forall dbg s h code ps, head_only h code ps -> length_fine ps -> delivers batch_response false s h ->
  ((exists r s', drive_response dbg s = (PDone r, s') /\ pending s' = [] /\
      st_code (rs_status r) = code /\ rs_body r = [] /\ headers_are (rs_headers r) ps) <-> says_empty ps) /\
  (~ says_empty ps -> exists st, drive_response dbg s = (PIo st WouldBlock, [])).
Proof.
  intros dbg s h code ps H F D.
  assert (W : ~ says_empty ps -> exists st, drive_response dbg s = (PIo st WouldBlock, [])).
  { intros N. destruct D as (L & P & B & I & Lim). rewrite <- P in Lim. pose proof (drive_response_spec dbg false s L B I Lim) as M. rewrite P in M.
    destruct (head_waits h code ps H F N) as [(p & E & _)|(r & E & _)]; rewrite E in M; exact M. }
  split; auto. split.
  - intros (r & s' & E & _). destruct (values_named_fun (lit "content-length") ps) as (vs & V).
    assert (Dec : says_empty ps \/ ~ says_empty ps).
    { destruct vs as [|v vs]; [right; intros (v' & vs' & V' & _); pose proof (values_named_det _ _ _ _ V V'); discriminate|].
      destruct (F _ _ V) as (n & Dn & _). destruct (N.eq_dec n 0) as [-> |Nz]; [left; exists v, vs; auto|].
      right. intros (v' & vs' & V' & D'). pose proof (values_named_det _ _ _ _ V V') as Q. injection Q as <- <-. apply Nz. eapply denotes_same; eauto. }
    destruct Dec as [Y|N]; auto. destruct (W N) as (st & Q). rewrite Q in E. discriminate.
  - intros Y. destruct (head_empty h code ps [] H Y) as (r & E & E1 & E2 & E3). rewrite app_nil_r in E.
    destruct (got_complete dbg _ _ _ _ _ D E) as (s' & G1 & G2). exists r, s'. auto.
Qed.
Print Assumptions C109_exactly.

(** When the stream ends, a response whose headers name a length or the chunked coding is an error. *)
Theorem C109_at_end_refuted : forall dbg s h code ps, head_only h code ps -> length_fine ps -> delivers batch_response true s h ->
  ~ says_empty ps ->
  ((exists v vs, values_named (lit "content-length") ps (v :: vs)) -> exists st, drive_response dbg s = (PIo st UnexpectedEof, [])) /\
  (values_named (lit "content-length") ps [] -> values_named (lit "transfer-encoding") ps [] ->
     exists r, drive_response dbg s = (PDone r, []) /\ st_code (rs_status r) = code /\ rs_body r = [] /\ headers_are (rs_headers r) ps).
Proof.
  intros dbg s h code ps H F (L & P & B & I & Lim) N. rewrite <- P in Lim. pose proof (drive_response_spec dbg true s L B I Lim) as M. rewrite P in M.
  pose proof (headers_are_pairs ps) as A. split.
  - intros (v & vs & V). destruct (head_waits h code ps H F N) as [(p & E & El)|(r & E & _)].
    + rewrite E in M. cbn [matches] in M. rewrite El in M. exact M.
    + exfalso. destruct (head_after h code ps [] H) as (st & _ & E'). rewrite app_nil_r, E in E'. unfold batch_after_headers in E'.
      destruct (F _ _ V) as (n & D & Ln). rewrite (framing_complete_sized _ _ _ _ _ _ A V D Ln) in E'. cbn [batch_body] in E'. destruct (_ <? n); discriminate.
  - intros V W. destruct (head_waits h code ps H F N) as [(p & E & El)|(r & E & E1 & E2 & E3)].
    + exfalso. destruct (head_after h code ps [] H) as (st & _ & E'). rewrite app_nil_r, E in E'. unfold batch_after_headers in E'.
      rewrite (framing_complete_default _ _ _ _ A V W) in E' by discriminate. discriminate.
    + rewrite E in M. exists r. auto.
Qed.
Print Assumptions C109_at_end_refuted.

(** If more follows, it is taken for the body: here the next response, whole or its first bytes. *)
Theorem C109_next_taken_refuted : forall dbg eof s h code ps v vs n rest, head_only h code ps ->
  values_named (lit "content-length") ps (v :: vs) -> denotes 10 v n -> 0 < n <= len rest -> n <= 3145728 ->
  delivers batch_response eof s (h ++ rest) ->
  exists r s', drive_response dbg s = (PDone r, s') /\ st_code (rs_status r) = code /\ rest = rs_body r ++ pending s' /\ len (rs_body r) = n.
Proof.
  intros dbg eof s h code ps v vs n rest H V D Hn Ln Dl. destruct (head_after h code ps rest H) as (st & C & E).
  unfold batch_after_headers in E. rewrite (framing_complete_sized _ _ _ _ _ _ (headers_are_pairs ps) V D Ln) in E. cbn [batch_body] in E.
  replace (len rest <? n) with false in E by lia. cbn [omap] in E.
  destruct (got_complete dbg _ _ _ _ _ Dl E) as (s' & G1 & G2). eexists _, s'. split; [exact G1|]. cbn [rs_status rs_body]. split; auto.
  split; [rewrite G2; symmetry; apply firstn_skipn|]. unfold len in *. rewrite firstn_length. lia.
Qed.
Print Assumptions C109_next_taken_refuted.

(** A client: the send fails when the time-out is over, after the request was sent on two connections. *)
Theorem C109_client_refuted : forall dbg q c s i2 n h code ps h2 code2 ps2,
  head_only h code ps -> length_fine ps -> ~ says_empty ps -> always_in_limits batch_response h ->
  head_only h2 code2 ps2 -> length_fine ps2 -> ~ says_empty ps2 -> always_in_limits batch_response h2 ->
  cc_stream c = Some s -> csteady (cs_sock s) ->
  flowing (cs_in s) -> pending (cs_in s) = h -> flowing i2 -> pending i2 = h2 ->
  exists c', conn_send dbg false (inr (mk_cstream i2 [] open_sock) :: n) c q = (CReading WouldBlock, n, c').
Proof.
  intros dbg q c s i2 n h code ps h2 code2 ps2 H1 F1 N1 L1 H2 F2 N2 L2 Es St Fl1 P1 Fl2 P2.
  assert (X : forall h code ps i, head_only h code ps -> length_fine ps -> ~ says_empty ps -> always_in_limits batch_response h ->
    flowing i -> pending i = h -> exists st i', resp_parse dbg resp_new i = (PIo st WouldBlock, i')).
  { clear. intros h code ps i H Fi N Lim F P. assert (L : live i) by now apply flowing_live.
    assert (B : blocks_in_clean_lines batch_response i) by (intros a b ->; apply Forall_app in F as [_ F]; inversion F; subst; contradiction).
    pose proof (drive_response_spec dbg false i (live_eof_false _ L) B (flowing_no_interrupt _ _ F)) as M. rewrite P in M. specialize (M Lim).
    assert (M' : exists st, drive_response dbg i = (PIo st WouldBlock, [])).
    { destruct (head_waits h code ps H Fi N) as [(p & E & _)|(r & E & _)]; rewrite E in M; exact M. }
    clear M. destruct M' as (st & M). unfold drive_response, drive in M. cbn [drive_f] in M.
    destruct (resp_parse dbg resp_new i) as [w s1] eqn:Ep. destruct w as [u|st' k|e|]; try discriminate. destruct k; try discriminate. eauto. }
  destruct (X _ _ _ _ H1 F1 N1 L1 Fl1 P1) as (st1 & j1 & E1). destruct (X _ _ _ _ H2 F2 N2 L2 Fl2 P2) as (st2 & j2 & E2).
  destruct (send_times_out dbg s q _ j1 St eq_refl) as (s' & A1 & _); [eauto|].
  destruct (send_times_out dbg (mk_cstream i2 [] open_sock) q _ j2 open_steady eq_refl) as (s2 & A2 & _); [eauto|].
  destruct (C41_failure_is_retried_once dbg (inr (mk_cstream i2 [] open_sock) :: n) c q s s' _ (mk_cstream i2 [] open_sock) n [] Es A1 Logic.I eq_refl (or_introl eq_refl)) as (c' & E & _).
  rewrite A2 in E. cbn [fst] in E. eauto.
Qed.
Print Assumptions C109_client_refuted.

(** A 304 with the length of the file it is about. *)
Example not_modified : bytes := lit "HTTP/1.1 304 Not Modified" ++ crlf ++ lit "content-length: 5" ++ crlf ++ crlf.
Lemma not_modified_head : head_only not_modified 304 [(lit "content-length", lit "5")] /\ length_fine [(lit "content-length", lit "5")] /\
  ~ says_empty [(lit "content-length", lit "5")] /\ always_in_limits batch_response not_modified.
Proof.
  assert (V : values_named (lit "content-length") [(lit "content-length", lit "5")] [lit "5"]) by (apply vn_same; [now apply lower_same|constructor]).
  assert (D : denotes 10 (lit "5") 5) by (apply (proj1 (parse_uint_spec 10 USIZE_MAX (lit "5") 5 ltac:(lia))); reflexivity).
  split; [|split; [|split]].
  - exists (lit "HTTP/1.1 304 Not Modified"). split; [|split; [|split; [|reflexivity]]].
    + apply parse_status_line_iff. eexists. split; vm_compute; reflexivity.
    + apply text_check. reflexivity.
    + constructor; [|constructor]. split; [apply text_check; reflexivity|]. intros (a & r & E).
      assert (I : In SP (lit "content-length")) by (change (lit "content-length") with (fst (lit "content-length", lit "5")); rewrite E; apply in_or_app; right; right; now left).
      vm_compute in I. intuition discriminate.
  - intros v vs V'. pose proof (values_named_det _ _ _ _ V V') as Q. injection Q as <- <-. exists 5. split; [exact D|lia].
  - intros (v & vs & V' & D'). pose proof (values_named_det _ _ _ _ V V') as Q. injection Q as <- <-. pose proof (denotes_same _ _ _ D D'). discriminate.
  - apply always_in_limits_b_ok. vm_compute. reflexivity.
Qed.
Example C109_case : forall dbg (q : request) (n : list (ekind + cstream)),
  (exists st, drive_response dbg (two not_modified) = (PIo st WouldBlock, [])) /\
  (exists c', conn_send dbg false (inr (mk_cstream [RData not_modified] [] open_sock) :: n)
    (mk_cconn (Some (mk_cstream [RData (firstn 9 not_modified); RData (skipn 9 not_modified)] [] open_sock)) []) q = (CReading WouldBlock, n, c')).
Proof.
  intros dbg q n. destruct not_modified_head as (H & F & N & L). split.
  - apply (C109_exactly dbg (two not_modified) _ _ _ H F); auto.
    split; [apply live_eof_false, live_b_ok; vm_compute; reflexivity|]. split; [reflexivity|].
    split; [apply blocks_clean_b_ok; vm_compute; reflexivity|]. split; [apply no_intr_b_ok; vm_compute; reflexivity|exact L].
  - eapply (C109_client_refuted dbg q _ _ _ n not_modified _ _ not_modified); eauto; try reflexivity.
    + apply open_steady.
    + constructor; [discriminate|]. constructor; [discriminate|constructor].
    + constructor; [discriminate|constructor].
Qed.
