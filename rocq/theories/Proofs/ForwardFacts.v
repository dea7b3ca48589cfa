(** What every received message satisfies, so that it can be written again. *)
From Coq Require Import List Ascii String NArith ZArith Bool Lia.
From Coq Require Import ZifyBool ZifyNat ZifyN.
From Verif.Model Require Import Bytes Io Common Parse Encode.
From Verif.Spec Require Import Numerals Names Grammar Wire Batch Stream Drive Forward.
From Verif.Proofs Require Import BytesFacts IoFacts CommonFacts ParseFacts DriveFacts CallFacts LimitFacts GrammarFacts EncodeFacts ReachedFacts.
Import ListNotations.
Local Open Scope N_scope.

(** ** Names in lower case *)

Lemma ustep_lower st c : ugood st -> ustep st (lower_byte c) = ustep st c.
Proof.
  intros G. unfold lower_byte. destruct ((65 <=? bval c) && (bval c <=? 90)) eqn:E; [|reflexivity].
  rewrite !ustep_ascii; auto; [lia|]. rewrite bval_of; lia.
Qed.
Lemma urun_lower l : forall st, ugood st -> urun st (lower l) = urun st l.
Proof.
  unfold lower. induction l as [|c l IH]; intros st G; cbn [map urun]; auto.
  rewrite ustep_lower by assumption. destruct (ustep st c) as [st'|] eqn:E; auto.
  apply IH. eapply ustep_good; eauto.
Qed.
Lemma utf8_lower a b : utf8 (lower a ++ b) = utf8 (a ++ b).
Proof. unfold utf8. rewrite !urun_app, urun_lower by exact Logic.I. reflexivity. Qed.

Lemma header_ok_lower n v : header_ok (n, v) -> header_ok (lower n, v).
Proof.
  intros [[H1 H2] H3]. cbn [fst snd] in *.
  assert (S : same_name n (lower n)) by (apply lower_same; now rewrite lower_idem).
  split; cbn [fst snd].
  - split; [now rewrite utf8_lower|]. intros H. apply H2. apply in_app_or in H as [H|H]; apply in_or_app; auto.
    left. eapply same_name_in; eauto. reflexivity.
  - intros H. apply H3. eapply same_name_colon; eauto.
Qed.

(** ** Header maps of received messages *)

Definition first_line {T} (pf : bytes -> perr + T) (t : T) : Prop := exists line, text line /\ pf line = inr t.

Lemma good_add h k v : good_headers h -> canonical k -> header_ok (header_str k, v) -> good_headers (add_header h k v).
Proof.
  intros [N H] C K. split.
  - clear H C K. revert N. assert (A : forall k', In k' (map fst (add_header h k v)) -> k' = k \/ In k' (map fst h)).
    { intros k'. induction h as [|[k1 vs] h IH]; cbn [add_header map fst In]; [intuition|].
      destruct (header_eqb k1 k); cbn [map fst In]; intuition. }
    revert A. induction h as [|[k1 vs] h IH]; intros A N; cbn [add_header map fst]; [repeat constructor; intros []|].
    inversion N as [|? ? N1 N2]; subst. destruct (header_eqb k1 k) eqn:E; cbn [map fst]; [constructor; auto|].
    constructor.
    + intros Hin. assert (B : forall h', In k1 (map fst (add_header h' k v)) -> k1 = k \/ In k1 (map fst h')).
      { clear. induction h' as [|[k2 vs] h' IH]; cbn [add_header map fst In]; [intuition|].
        destruct (header_eqb k2 k); cbn [map fst In]; intuition. }
      apply B in Hin as [->|Hin]; [|auto]. rewrite header_eqb_refl in E. discriminate.
    + apply IH; auto. clear. intros k'. induction h as [|[k2 vs] h IH]; cbn [add_header map fst In]; [intuition|].
      destruct (header_eqb k2 k); cbn [map fst In]; intuition.
  - clear N. induction h as [|[k1 vs] h IH]; cbn [add_header].
    + constructor; [|constructor]. cbn [fst snd]. split; auto. split; [discriminate|]. repeat constructor; apply K.
    + inversion H as [|? ? (H1 & H2 & H3) H4]; subst. destruct (header_eqb k1 k) eqn:E.
      * apply header_eqb_eq in E. subst k1. constructor; auto. cbn [fst snd] in *. split; auto. split; [now destruct vs|].
        apply Forall_app. split; auto.
      * constructor; auto.
Qed.

Lemma parsed_header l k v : text l -> parse_header l = inr (k, v) -> canonical k /\ header_ok (header_str k, v).
Proof.
  unfold parse_header. intros T E. destruct (split_colon l) as [[n v']|] eqn:Ec; [|discriminate].
  inversion E; subst. apply split_colon_spec in Ec as [-> Hn]. rewrite header_str_from. split.
  - unfold canonical. rewrite header_str_from. apply header_from_iff. now rewrite lower_idem.
  - apply header_ok_lower. split; cbn [fst snd]; [exact T|]. now apply no_colon_iff.
Qed.

Lemma crlf_parse_line dbg p ls s line ls' s' : line_inv p ->
  crlf_parse dbg p ls s = (PDone line, ls', s') -> text line.
Proof.
  intros Hp E. apply crlf_parse_spec in E as (w & _ & _ & _ & _ & H & _); auto.
  specialize (H []). apply cut_line_inr in H as (_ & Hn & H). split; auto.
Qed.

Lemma hdr_loop_good fuel dbg : forall st ls s r ls' s',
  line_inv (h_line st) -> good_headers (h_map st) ->
  hdr_loop fuel dbg st ls s = (r, ls', s') ->
  match r with PDone hm => good_headers hm | PIo st' _ => good_headers (h_map st') | _ => True end.
Proof.
  induction fuel as [|f IH]; intros st ls s r ls' s' Hl Hm; cbn [hdr_loop].
  - intros H; inversion H; subst. exact Hm.
  - destruct (crlf_parse dbg (h_line st) ls s) as [[r1 ls1] s1] eqn:E.
    destruct r1 as [line|p' k|e|].
    + apply crlf_parse_line in E; [|assumption]. destruct line as [|c line].
      * intros H; inversion H; subst. exact Hm.
      * destruct (parse_header (c :: line)) as [e|[k v]] eqn:Ep; [intros H; inversion H; subst; exact Logic.I|].
        apply IH; [apply line_inv_nil|]. cbn [h_map]. apply parsed_header in Ep as [K1 K2]; [|assumption].
        now apply good_add.
    + intros H; inversion H; subst. exact Hm.
    + intros H; inversion H; subst. exact Logic.I.
    + intros H; inversion H; subst. exact Logic.I.
Qed.

Lemma hdr_parse_good dbg st ls s r ls' s' :
  line_inv (h_line st) -> good_headers (h_map st) ->
  hdr_parse dbg st ls s = (r, ls', s') ->
  match r with PDone hm => good_headers hm | PIo st' _ => good_headers (h_map st') | _ => True end.
Proof.
  intros Hl Hm. unfold hdr_parse. destruct (usub dbg MAX_HEADERS_SIZE (h_read st)) as [lim|].
  - intros H. apply with_limit_eq in H as (ls1 & H & _). eapply hdr_loop_good; eauto.
  - intros H; inversion H; subst. exact Logic.I.
Qed.

Definition good_inv {T} (pf : bytes -> perr + T) (st : msg_st T) : Prop :=
  match st with
  | MFirst p => True
  | MHeaders t h => first_line pf t /\ good_headers (h_map h)
  | MBody t hm _ | MFinished t hm _ => first_line pf t /\ good_headers hm
  end.

Lemma good_nil : good_headers [].
Proof. split; constructor. Qed.

Lemma msg_loop_good {T} (pf : bytes -> perr + T) dbg flag fuel : forall st ls s r ls' s' g,
  msg_inv g st -> good_inv pf st ->
  msg_loop fuel pf dbg flag st ls s = (r, ls', s') ->
  match r with
  | PDone (t, hm, body) => first_line pf t /\ good_headers hm
  | PIo st' _ => good_inv pf st'
  | _ => True
  end.
Proof.
  induction fuel as [|f IH]; intros st ls s r ls' s' g Hinv Hs; cbn [msg_loop].
  { intros H; inversion H; subst. exact Hs. }
  destruct st as [p|t h|t hm bs|t hm body]; cbn [msg_inv good_inv] in *.
  - unfold first_line_state, first_parse.
    destruct (crlf_parse dbg p ls s) as [[r1 ls1] s1] eqn:E.
    destruct r1 as [line|p' k|e|].
    + apply crlf_parse_line in E; [|assumption]. destruct (pf line) as [e|t] eqn:Ep.
      * intros H; inversion H; subst. exact Logic.I.
      * intros H. apply IH with (g := 0) in H; auto.
        -- split; [apply line_inv_nil|cbn; lia].
        -- split; [exists line; auto|apply good_nil].
    + intros H; inversion H; subst. exact Logic.I.
    + intros H; inversion H; subst. exact Logic.I.
    + intros H; inversion H; subst. exact Logic.I.
  - unfold headers_state. destruct (hdr_parse dbg h ls s) as [[r1 ls1] s1] eqn:E.
    apply hdr_parse_good in E; [|apply Hinv|apply Hs].
    destruct r1 as [hm|h' k|e|].
    + pose proof (framing_body_new hm flag) as F.
      destruct (body_new hm flag) as [e|bs].
      * intros H; inversion H; subst. exact Logic.I.
      * destruct F as [F _]. intros H. apply IH with (g := 0) in H; auto. cbn [good_inv]. destruct Hs. auto.
    + intros H; inversion H; subst. cbn. destruct Hs; auto.
    + intros H; inversion H; subst. exact Logic.I.
    + intros H; inversion H; subst. exact Logic.I.
  - unfold body_state. destruct (body_parse dbg bs ls s) as [[r1 ls1] s1] eqn:E.
    destruct r1 as [body|bs' k|e|].
    + intros H. apply IH with (g := 0) in H; [|exact Logic.I|cbn; auto]. exact H.
    + intros H; inversion H; subst. exact Hs.
    + intros H; inversion H; subst. exact Logic.I.
    + intros H; inversion H; subst. exact Logic.I.
  - intros H; inversion H; subst. exact Hs.
Qed.

Lemma req_reached_good dbg st : reached (req_parse dbg) req_new st ->
  (exists g, msg_inv g st) /\ good_inv parse_request_line st.
Proof.
  induction 1 as [|st s st' k s' H [[g Hg] Hs] E].
  - split; [exists 0; apply line_inv_nil|exact Logic.I].
  - split.
    + destruct (req_parser_ok dbg _ _ _ _ _ Hg E) as (w & _ & _ & H1 & _). exact H1.
    + unfold req_parse in E. destruct (msg_parse parse_request_line dbg false st [] s) as [[r ls1] s1] eqn:Em.
      unfold msg_parse in Em. eapply msg_loop_good in Em; eauto.
      destruct r as [[[[m u] hm] body]|st1 k1|e|]; inversion E; subst. exact Em.
Qed.
Lemma resp_reached_good dbg st : reached (resp_parse dbg) resp_new st ->
  (exists g, msg_inv g st) /\ good_inv parse_status_line st.
Proof.
  induction 1 as [|st s st' k s' H [[g Hg] Hs] E].
  - split; [exists 0; apply line_inv_nil|exact Logic.I].
  - split.
    + destruct (resp_parser_ok dbg _ _ _ _ _ Hg E) as (w & _ & _ & H1 & _). exact H1.
    + unfold resp_parse in E. destruct (msg_parse parse_status_line dbg true st [] s) as [[r ls1] s1] eqn:Em.
      unfold msg_parse in Em. eapply msg_loop_good in Em; eauto.
      destruct r as [[[t hm] body]|st1 k1|e|]; inversion E; subst. exact Em.
Qed.

Lemma req_done_good dbg st s r s' : reached (req_parse dbg) req_new st -> req_parse dbg st s = (PDone r, s') ->
  first_line parse_request_line (rq_method r, rq_uri r) /\ good_headers (rq_headers r).
Proof.
  intros H E. apply req_reached_good in H as [[g Hg] Hs]. unfold req_parse in E.
  destruct (msg_parse parse_request_line dbg false st [] s) as [[r1 ls1] s1] eqn:Em.
  unfold msg_parse in Em. eapply msg_loop_good in Em; eauto.
  destruct r1 as [[[[m u] hm] body]|st1 k1|e|]; inversion E; subst; cbn; auto.
Qed.
Lemma resp_done_good dbg st s r s' : reached (resp_parse dbg) resp_new st -> resp_parse dbg st s = (PDone r, s') ->
  first_line parse_status_line (rs_status r) /\ good_headers (rs_headers r).
Proof.
  intros H E. apply resp_reached_good in H as [[g Hg] Hs]. unfold resp_parse in E.
  destruct (msg_parse parse_status_line dbg true st [] s) as [[r1 ls1] s1] eqn:Em.
  unfold msg_parse in Em. eapply msg_loop_good in Em; eauto.
  destruct r1 as [[[t hm] body]|st1 k1|e|]; inversion E; subst; cbn; auto.
Qed.

(** ** Framing *)

Lemma done_framed dbg h flag body : body_size_done dbg h flag body ->
  (with_length h -> framed false h body) /\
  (~ with_length h -> ~ in_chunks h -> framed flag h body) /\
  (flag = false -> ~ in_chunks h -> framed false h body).
Proof.
  unfold body_size_done, framing_of, framed, with_length, in_chunks.
  rewrite CONTENT_LENGTH_from, TRANSFER_ENCODING_from. intros H.
  destruct (get_first_header_value h (header_from (lit "content-length"))) as [v|].
  - assert (D : denotes 10 v (len body)).
    { destruct (parse_uint 10 USIZE_MAX v) as [n|] eqn:E; [|destruct H]. apply parse_uint_spec in E as [E _]; [|lia].
      destruct (n <=? MAX_BODY_SIZE); [|destruct H]. destruct H as [-> _]. exact E. }
    split; [auto|]. split; [|auto]. intros W. exfalso. apply W. eauto.
  - assert (F : ~ (exists v, get_first_header_value h (header_from (lit "transfer-encoding")) = Some v /\
        exists a b, v = a ++ lit "chunked" ++ b) -> (flag = false -> body = []) /\
        (forall v, get_first_header_value h (header_from (lit "transfer-encoding")) = Some v -> ~ exists a b, v = a ++ lit "chunked" ++ b)).
    { intros C. split; [|intros v Hv Hc; apply C; eauto].
      intros ->. destruct (get_first_header_value h (header_from (lit "transfer-encoding"))) as [v|]; [|exact H].
      destruct (contains (lit "chunked") v) eqn:Ec; [|exact H]. exfalso. apply C. exists v. split; auto. now apply contains_iff. }
    split; [intros [v Hv]; discriminate|]. split; [|intros ->]; intros; apply F; intros C; intuition.
Qed.

Lemma first_uri m u : first_line parse_request_line (m, u) -> text u /\ ~ In SP u.
Proof.
  intros (l & T & Hp). apply parse_request_line_iff in Hp as (v & _ & W). cbn [words] in W.
  destruct W as (_ & l' & -> & Hs & l'' & -> & _). split; auto. destruct T as [T1 T2]. split.
  - assert (U : utf8 (u ++ SP :: l'') = true).
    { rewrite utf8_app in T1 by apply (text_lit_method m). change (SP :: ?x) with ([SP] ++ x) in T1. now rewrite utf8_app in T1. }
    apply utf8_split in U; auto.
  - intros H. apply T2. apply in_or_app. right. right. apply in_or_app. now left.
Qed.

Lemma first_status st : first_line parse_status_line st -> library_status st.
Proof.
  intros (l & _ & Hp). unfold parse_status_line, parse_status in Hp.
  destruct (split_sp l) as [|a [|b ws]]; try discriminate. destruct (negb (is_supported a)); [discriminate|].
  destruct (parse_uint 10 U16_MAX b) as [c|]; [|discriminate].
  destruct (status_from_code c) as [t|] eqn:E; [|discriminate]. inversion Hp; subst.
  unfold status_from_code in E. apply find_some in E as [E _]. exact E.
Qed.

Lemma received_request dbg st s r s' : reached (req_parse dbg) req_new st -> req_parse dbg st s = (PDone r, s') ->
  text (rq_uri r) /\ ~ In SP (rq_uri r) /\ good_headers (rq_headers r) /\
  (~ in_chunks (rq_headers r) -> good_request r).
Proof.
  intros R E. destruct (req_done_good _ _ _ _ _ R E) as [F G]. apply first_uri in F as [F1 F2].
  pose proof (req_reached_call _ _ _ _ _ R E) as (_ & _ & S). apply done_framed in S as (_ & _ & S).
  split; auto. split; auto. split; auto. intros C. split; auto. 
Qed.

Lemma received_response dbg st s r s' : reached (resp_parse dbg) resp_new st -> resp_parse dbg st s = (PDone r, s') ->
  library_status (rs_status r) /\ good_headers (rs_headers r) /\
  (with_length (rs_headers r) -> good_response false r) /\
  (~ with_length (rs_headers r) -> ~ in_chunks (rs_headers r) -> good_response true r).
Proof.
  intros R E. destruct (resp_done_good _ _ _ _ _ R E) as [F G]. apply first_status in F.
  pose proof (resp_reached_call _ _ _ _ _ R E) as (_ & _ & S). apply done_framed in S as (S1 & S2 & _).
  unfold good_response. auto 10.
Qed.

(** Sizes: lines are as long as they were. *)
Lemma received_lines h : hm_ok h -> Forall (fun p => len (fst p) + 2 + len (snd p) <= 510) (pairs_of h).
Proof.
  intros H. unfold pairs_of. apply Forall_flat_map. eapply Forall_impl; [|exact H].
  cbn beta. intros [k vs] Hv. cbn [fst snd] in *. apply Forall_map. exact Hv.
Qed.

Lemma received_fits dbg st s r s' : reached (req_parse dbg) req_new st -> req_parse dbg st s = (PDone r, s') ->
  len (header_lines (pairs_of (rq_headers r))) + 2 <= 4096 -> 2 * len (rq_body r) <= 3145728 -> request_fits r.
Proof.
  intros R E H1 H2. pose proof (req_reached_call _ _ _ _ _ R E) as ((l & L & Hp) & Hh & _).
  split; [|split; [now apply received_lines|auto]].
  apply parse_request_line_iff in Hp as (v & Hv & W). cbn [words] in W.
  destruct W as (_ & l' & -> & _ & l'' & -> & _ & W). rewrite !len_app, !len_cons, len_app, !len_cons in L.
  assert (8 <= len l''); [|lia].
  assert (V : len v = 8) by (destruct Hv as [-> | ->]; reflexivity).
  destruct W as [-> | (t & ->)]; [lia|]. rewrite len_app. lia.
Qed.

Lemma status_reason_short st : library_status st -> 13 + len (st_reason st) <= 510.
Proof.
  assert (H : Forall (fun st => 13 + len (st_reason st) <= 510) status_table)
    by (repeat constructor; vm_compute; discriminate).
  unfold library_status. intros Hin. rewrite Forall_forall in H. now apply H.
Qed.
Lemma received_response_fits dbg st s r s' : reached (resp_parse dbg) resp_new st -> resp_parse dbg st s = (PDone r, s') ->
  len (header_lines (pairs_of (rs_headers r))) + 2 <= 4096 -> 2 * len (rs_body r) <= 3145728 -> response_fits r.
Proof.
  intros R E H1 H2. pose proof (resp_reached_call _ _ _ _ _ R E) as (_ & Hh & _).
  destruct (received_response _ _ _ _ _ R E) as (L & _).
  split; [now apply status_reason_short|]. split; [now apply received_lines|auto].
Qed.

(** ** Chunked messages, written as they were received *)

Lemma in_chunks_named h ps : headers_are h ps -> in_chunks h ->
  values_named (lit "content-length") ps [] /\
  exists v vs, values_named (lit "transfer-encoding") ps (v :: vs) /\ exists a r, v = a ++ lit "chunked" ++ r.
Proof.
  intros H (H1 & v & H2 & H3).
  destruct (values_named_fun (lit "content-length") ps) as [cl Hcl].
  destruct (values_named_fun (lit "transfer-encoding") ps) as [te Hte].
  rewrite (get_first_named _ _ _ _ H Hcl) in H1. rewrite (get_first_named _ _ _ _ H Hte) in H2.
  destruct cl; [|discriminate]. split; auto. destruct te as [|v' te]; inversion H2; subst. eauto.
Qed.

Lemma body_syntax_chunked ps default wire body :
  values_named (lit "content-length") ps [] ->
  (exists v vs, values_named (lit "transfer-encoding") ps (v :: vs) /\ exists a r, v = a ++ lit "chunked" ++ r) ->
  body_syntax ps default wire body -> chunked wire body.
Proof.
  intros C (v & vs & T & K) B. inversion B as [v0 vs0 n w1 V1 V2 V3 V4 V5|v0 vs0 w1 body1 V1 V2 V3 V4 V5|vs0 w1 body1 V1 V2 V3 V4 V5]; subst.
  - pose proof (values_named_det _ _ _ _ C V1). discriminate.
  - exact V4.
  - pose proof (values_named_det _ _ _ _ T V2). subst vs0. exfalso. exact (V3 _ _ eq_refl K).
Qed.

Lemma chunked_request_shrinks r x r' rest : text (rq_uri r) -> ~ In SP (rq_uri r) -> good_headers (rq_headers r) ->
  in_chunks (rq_headers r) -> batch_request (write_request r ++ x) = Complete r' rest ->
  exists wire, rq_body r ++ x = wire ++ rest /\ chunked wire (rq_body r') /\
    rq_method r' = rq_method r /\ rq_uri r' = rq_uri r /\ hm_equiv (rq_headers r') (rq_headers r).
Proof.
  intros U1 U2 G C E. destruct (request_first_ok r U1 U2) as [L1 L2].
  assert (E2 := E). unfold batch_request in E2. rewrite write_request_eq, <- !app_assoc in E2.
  rewrite (batch_msg_head _ _ _ (rq_method r, rq_uri r)) in E2;
    auto using good_lines; [|now apply parse_request_line_iff].
  unfold batch_after_headers in E2.
  destruct (in_chunks_named (from_pairs (map header_pair (pairs_of (rq_headers r)))) (pairs_of (rq_headers r)) (headers_are_pairs _)) as [N1 (v & vs & N2 & N3)].
  { destruct C as (C1 & v & C2 & C3). pose proof (good_equiv _ G) as Q. unfold in_chunks, get_first_header_value in *.
    rewrite !Q. eauto. }
  rewrite (framing_complete_chunked _ _ false _ _ (headers_are_pairs _) N1 N2 N3) in E2. cbn [batch_body] in E2.
  destruct (batch_chunks 0 [] (rq_body r ++ x)) as [body rest0|p|v0 n0|e] eqn:B; try discriminate.
  cbn [omap] in E2. inversion E2; subst. apply batch_chunks_sound in B as (wire & body' & B1 & B2 & B3).
  cbn [app] in B2. subst body'. exists wire. cbn [rq_body rq_method rq_uri rq_headers]. split; auto. split; auto. split; auto. split; auto. now apply good_equiv.
Qed.

Lemma chunked_response_shrinks r x r' rest : library_status (rs_status r) -> good_headers (rs_headers r) ->
  in_chunks (rs_headers r) -> batch_response (write_response r ++ x) = Complete r' rest ->
  exists wire, rs_body r ++ x = wire ++ rest /\ chunked wire (rs_body r').
Proof.
  intros L G C E. rewrite response_batch in E by assumption. unfold batch_after_headers in E.
  destruct (in_chunks_named (from_pairs (map header_pair (pairs_of (rs_headers r)))) (pairs_of (rs_headers r)) (headers_are_pairs _)) as [N1 (v & vs & N2 & N3)].
  { destruct C as (C1 & v & C2 & C3). pose proof (good_equiv _ G) as Q. unfold in_chunks, get_first_header_value in *.
    rewrite !Q. eauto. }
  rewrite (framing_complete_chunked _ _ true _ _ (headers_are_pairs _) N1 N2 N3) in E. cbn [batch_body] in E.
  destruct (batch_chunks 0 [] (rs_body r ++ x)) as [body rest0|p|v0 n0|e] eqn:B; try discriminate.
  cbn [omap] in E. inversion E; subst. apply batch_chunks_sound in B as (wire & body' & B1 & B2 & B3).
  cbn [app] in B2. subst body'. exists wire. auto.
Qed.
