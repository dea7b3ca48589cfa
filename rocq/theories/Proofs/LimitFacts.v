(** Size limits enforced by the parsers, call by call and over all reachable states. *)
From Coq Require Import List Ascii String NArith ZArith Bool Lia.
From Coq Require Import ZifyBool ZifyNat ZifyN.
From Verif.Model Require Import Bytes Io Common Parse.
From Verif.Spec Require Import Batch Stream Drive.
From Verif.Proofs Require Import BytesFacts IoFacts CommonFacts ParseFacts DriveFacts CallFacts.
Import ListNotations.
Local Open Scope N_scope.

(** ** Lines and headers *)

Definition first_ok {T} (pf : bytes -> perr + T) (t : T) : Prop :=
  exists line, len line <= 510 /\ pf line = inr t.
Definition hm_ok (hm : header_map) : Prop :=
  Forall (fun kv => Forall (fun v => len (header_str (fst kv)) + 2 + len v <= 510) (snd kv)) hm.

Lemma hm_ok_add hm k v : hm_ok hm -> len (header_str k) + 2 + len v <= 510 -> hm_ok (add_header hm k v).
Proof.
  intros H Hv. induction hm as [|[k' vs] hm IH]; cbn [add_header].
  - repeat constructor. exact Hv.
  - inversion H as [|? ? H1 H2]; subst. destruct (header_eqb k' k) eqn:E.
    + apply header_eqb_eq in E. subst. constructor; auto. cbn [fst snd] in *. apply Forall_app. split; auto.
    + constructor; auto. now apply IH.
Qed.

Lemma hm_get_in k hm vs : hm_get k hm = Some vs -> In (k, vs) hm.
Proof.
  induction hm as [|[k' vs'] hm IH]; cbn [hm_get]; [discriminate|].
  destruct (header_eqb k' k) eqn:E.
  - apply header_eqb_eq in E. intros H; inversion H; subst. now left.
  - intros H. right. auto.
Qed.

Lemma parse_header_len l k v : parse_header l = inr (k, v) -> len (header_str k) + 2 + len v = len l.
Proof.
  unfold parse_header. destruct (split_colon l) as [[n v']|] eqn:E; [|discriminate].
  intros H; inversion H; subst. apply split_colon_spec in E as [-> _].
  rewrite header_str_from, len_lower, len_app, !len_cons. lia.
Qed.

Lemma hdr_loop_hm fuel dbg : forall st ls s r ls' s',
  line_inv (h_line st) -> hm_ok (h_map st) ->
  hdr_loop fuel dbg st ls s = (r, ls', s') ->
  match r with PDone hm => hm_ok hm | PIo st' _ => hm_ok (h_map st') | PErr _ => True | PPanic => False end.
Proof.
  induction fuel as [|f IH]; intros st ls s r ls' s' Hl Hm; cbn [hdr_loop].
  - intros H; inversion H; subst. exact Hm.
  - destruct (crlf_parse dbg (h_line st) ls s) as [[r1 ls1] s1] eqn:E.
    apply crlf_parse_spec in E as (w & -> & Fit & Hlen & Hcase); [|assumption].
    destruct r1 as [line|p' k|e|]; [| | |destruct Hcase].
    + destruct Hcase as (_ & _ & Hcount). destruct line as [|c line].
      * intros H; inversion H; subst. exact Hm.
      * destruct (parse_header (c :: line)) as [e|[k v]] eqn:Ep; [intros H; inversion H; subst; exact I|].
        apply IH; [apply line_inv_nil|]. cbn [h_map]. apply hm_ok_add; auto.
        apply parse_header_len in Ep. lia.
    + intros H; inversion H; subst. exact Hm.
    + intros H; inversion H; subst. exact I.
Qed.

Lemma hdr_parse_hm dbg st ls s r ls' s' :
  line_inv (h_line st) -> hm_ok (h_map st) ->
  hdr_parse dbg st ls s = (r, ls', s') ->
  match r with
  | PDone hm => hm_ok hm
  | PIo st' _ => hm_ok (h_map st')
  | PErr _ => True
  | PPanic => dbg = true /\ 4096 < h_read st
  end.
Proof.
  intros Hl Hm. unfold hdr_parse, usub, MAX_HEADERS_SIZE.
  assert (D : forall lim, with_limit lim ls (fun ls'' => hdr_loop (S (S (mu s))) dbg st ls'' s) = (r, ls', s') ->
    match r with PDone hm => hm_ok hm | PIo st' _ => hm_ok (h_map st') | PErr _ => True | PPanic => dbg = true /\ 4096 < h_read st end).
  { intros lim H. apply with_limit_eq in H as (ls1 & H & _). apply hdr_loop_hm in H; auto. destruct r; auto. destruct H. }
  destruct (N.leb_spec (h_read st) 4096); [apply D|]. destruct dbg eqn:Ed; [|apply D].
  intros H'; inversion H'; subst. auto.
Qed.

(** ** Bodies *)

Lemma chunks_batch_len b : forall n acc v rest, batch_chunks n acc b = Complete v rest ->
  len v + len rest <= len acc + len b.
Proof.
  induction b as [b IH] using (well_founded_induction (Wf_nat.well_founded_ltof _ (@List.length byte))).
  intros n acc v rest. rewrite batch_chunks_eq.
  destruct (cut_line b) as [[[e|l] r]|] eqn:E; try discriminate.
  assert (L := cut_line_length _ _ _ E). apply cut_line_inr in E as (-> & _ & _).
  destruct (parse_chunk_size l) as [e|size]; [discriminate|].
  unfold batch_data. cbn [app]. destruct (N.ltb_spec (len r) size) as [|Hs]; [discriminate|].
  unfold batch_tail. pose proof (firstn_skipn (N.to_nat size) r) as Hr.
  assert (Hlr : len (firstn (N.to_nat size) r) + len (skipn (N.to_nat size) r) = len r)
    by (rewrite <- len_app, Hr; reflexivity).
  destruct (cut_line (skipn (N.to_nat size) r)) as [[[e|l2] r2]|] eqn:E2; try discriminate.
  assert (L2 := cut_line_length _ _ _ E2).
  destruct l2; [|discriminate]. apply cut_line_inr in E2 as (E2 & _ & _). cbn [app] in E2.
  rewrite E2 in Hlr. rewrite !len_cons in Hlr.
  assert (Hl : len (l ++ CR :: LF :: r) = len l + len r + 2) by (rewrite len_app, !len_cons; lia).
  destruct (size =? 0).
  - intros H; inversion H; subst. rewrite len_app. lia.
  - intros H. apply IH in H.
    + rewrite len_app in H. lia.
    + unfold Wf_nat.ltof. pose proof (skipn_length_le (N.to_nat size) r). rewrite app_length. cbn [List.length]. lia.
Qed.

(** Bytes held by an unfinished chunk or line. *)
Definition chunk_held (st : chunk_state) : N :=
  match st with CData d => len (bd_got d) | CSize p | CTail p _ => len p | CFinished => 0 end.

Lemma chunk_tail_len g body last b v : batch_tail batch_chunks g body last b = Complete v [] ->
  len v <= len body + len b.
Proof.
  unfold batch_tail. destruct (cut_line b) as [[[e|l] r]|] eqn:E; try discriminate.
  destruct l; [|discriminate]. apply cut_line_inr in E as (-> & _). cbn [app]. rewrite !len_cons.
  destruct last.
  - intros H; inversion H; subst. lia.
  - intros H. apply chunks_batch_len in H. change (len (@nil byte)) with 0 in H. lia.
Qed.

Lemma chunk_cont_len g st w v : chunk_cont g st w = Complete v [] ->
  len v <= len (c_body st) + chunk_held (c_state st) + len w.
Proof.
  unfold chunk_cont. destruct st as [body [p|d|p last|]]; cbn [c_body c_state chunk_held].
  - intros H. apply chunks_batch_len in H. rewrite len_app in H. change (len (@nil byte)) with 0 in H. lia.
  - unfold batch_data. destruct (N.ltb_spec (len (bd_got d ++ w)) (bd_size d)); [discriminate|].
    intros H'. apply chunk_tail_len in H'. rewrite len_app in H'.
    pose proof (firstn_skipn (N.to_nat (bd_size d)) (bd_got d ++ w)) as Hr.
    apply (f_equal len) in Hr. rewrite !len_app in Hr. lia.
  - intros H. apply chunk_tail_len in H. rewrite len_app in H. lia.
  - intros H; inversion H; subst. lia.
Qed.

(** Chunk sizes are limited. *)
Definition chunk_small (st : chunk_state) : Prop :=
  match st with CData d => bd_size d <= 3145728 | _ => True end.


(** What is known of a body state, given the headers that led to it. *)
Definition body_size_inv (hm : header_map) (flag : bool) (bs : body_st) : Prop :=
  match bs with
  | BSized d => framing_of hm flag = inr (FSized (bd_size d)) /\ bd_size d <= 3145728 /\
                (len (bd_got d) < bd_size d \/ bd_size d = 0 /\ bd_got d = [])
  | BUntilEof d => framing_of hm flag = inr FUntilEof /\ len d <= 3145728
  | BChunked c => framing_of hm flag = inr FChunked /\ chunk_small (c_state c)
  | BEmpty => framing_of hm flag = inr FNone
  end.
Definition body_size_done (dbg : bool) (hm : header_map) (flag : bool) (body : bytes) : Prop :=
  match framing_of hm flag with
  | inr (FSized n) => len body = n /\ n < 3145728
  | inr FUntilEof => len body <= 3145728
  | inr FChunked => dbg = true -> len body <= 6291456
  | inr FNone => body = []
  | inl _ => False
  end.

Lemma body_new_size hm flag bs : body_new hm flag = inr bs -> body_size_inv hm flag bs.
Proof.
  unfold body_new, body_size_inv, framing_of, get_content_length, is_chunked.
  destruct (get_first_header_value hm CONTENT_LENGTH) as [v|].
  - destruct (parse_uint 10 USIZE_MAX v) as [n|]; [|discriminate].
    change MAX_BODY_SIZE with 3145728.
    destruct (N.ltb_spec 3145728 n); [discriminate|]. intros H'; inversion H'; subst; cbn [bd_size bd_got].
    replace (n <=? 3145728) with true by lia. split; auto. split; auto. cbn. destruct (N.eq_dec n 0); [auto|left; lia].
  - destruct (get_first_header_value hm TRANSFER_ENCODING) as [v|]; [destruct (contains (lit "chunked") v)|];
      destruct flag; intros H; inversion H; subst; cbn; try split; auto; lia.
Qed.

Lemma chunks_loop_small fuel dbg : forall body st ls s r ls' s',
  chunk_state_inv st -> chunk_small st -> chunks_loop fuel dbg body st ls s = (r, ls', s') ->
  match r with PIo c _ => chunk_small (c_state c) | PPanic => False | _ => True end.
Proof.
  induction fuel as [|f IH]; intros body st ls s r ls' s' Hinv Hsm; cbn [chunks_loop].
  - intros H; inversion H; subst. exact Hsm.
  - destruct st as [p|d|p last|]; cbn [chunk_state_inv chunk_small] in *.
    + unfold size_state. destruct (crlf_parse dbg p ls s) as [[r1 ls1] s1] eqn:E.
      apply crlf_parse_spec in E as (w & -> & _ & _ & Hcase); [|assumption].
      destruct r1 as [line|p' k|e|]; [| | |destruct Hcase].
      * destruct (parse_chunk_size line) as [e|size] eqn:Es; [intros H; inversion H; subst; exact I|].
        apply IH; [cbn; lia|]. cbn. unfold parse_chunk_size, MAX_BODY_SIZE in Es.
        destruct (parse_uint 16 USIZE_MAX line) as [n|]; [|discriminate].
        destruct (N.ltb_spec 3145728 n); inversion Es; subst. lia.
      * intros H; inversion H; subst; exact I.
      * intros H; inversion H; subst; exact I.
    + unfold data_state, bytes_deframe.
      destruct (bytes_loop (S (mu s)) (bd_size d) (bd_got d) ls s) as [[r1 ls1] s1] eqn:E.
      apply bytes_loop_spec in E as (w & -> & _ & Hcase); [|lia|assumption].
      destruct r1 as [data|d' k|e|]; [| |destruct Hcase|destruct Hcase].
      * apply IH; [apply line_inv_nil|exact I].
      * intros H; inversion H; subst. destruct Hcase as (-> & _). exact Hsm.
    + unfold tail_state. destruct (crlf_parse dbg p ls s) as [[r1 ls1] s1] eqn:E.
      apply crlf_parse_spec in E as (w & -> & _ & _ & Hcase); [|assumption].
      destruct r1 as [line|p' k|e|]; [| | |destruct Hcase].
      * destruct line; [|intros H; inversion H; subst; exact I]. apply IH.
        -- destruct last; [exact I|apply line_inv_nil].
        -- destruct last; exact I.
      * intros H; inversion H; subst; exact I.
      * intros H; inversion H; subst; exact I.
    + intros H; inversion H; subst. exact I.
Qed.

Definition body_over (bs : body_st) : Prop :=
  match bs with BChunked c => 3145728 < len (c_body c) | _ => False end.

Lemma body_parse_size dbg hm flag bs ls s r ls' s' g :
  body_inv g bs -> body_size_inv hm flag bs ->
  body_parse dbg bs ls s = (r, ls', s') ->
  match r with
  | PDone body => body_size_done dbg hm flag body
  | PIo bs' _ => body_size_inv hm flag bs'
  | PErr _ => True
  | PPanic => dbg = true /\ body_over bs
  end.
Proof.
  intros Hinv Hs. unfold body_parse.
  pose proof (usub_cases dbg MAX_BODY_SIZE (body_read_so_far bs)) as U.
  assert (Hnone : usub dbg MAX_BODY_SIZE (body_read_so_far bs) = None -> dbg = true)
    by (unfold usub; destruct (_ <=? _); [discriminate|]; destruct dbg; [auto|discriminate]).
  assert (Hsome : forall l, usub dbg MAX_BODY_SIZE (body_read_so_far bs) = Some l -> dbg = true ->
    body_read_so_far bs <= MAX_BODY_SIZE)
    by (unfold usub; intros l; destruct (N.leb_spec (body_read_so_far bs) MAX_BODY_SIZE); [auto|]; intros Hx ->; discriminate).
  unfold body_size_done. change MAX_BODY_SIZE with 3145728 in *.
  destruct (usub dbg 3145728 (body_read_so_far bs)) as [lim|].
  - clear Hnone. specialize (Hsome _ eq_refl). intros H. apply with_limit_eq in H as (ls1 & H & ->).
    destruct bs as [d|d|c|]; cbn [body_read_so_far body_inv body_size_inv] in *.
    + destruct Hs as (Hf & Hsz & Hgot). unfold bytes_deframe in H. unfold bytes_read_so_far in U.
      destruct (bytes_loop (S (mu s)) (bd_size d) (bd_got d) (lim :: ls) s) as [[r1 lsx] s1] eqn:E.
      apply bytes_loop_spec in E as (w & -> & Fit & Hcase); [|lia|destruct Hgot as [|[-> ->]]; cbn; lia].
      apply fits_cons in Fit as [Fit1 _].
      destruct r1 as [data|d' k|e|]; [| |destruct Hcase|destruct Hcase].
      * destruct Hcase as (-> & Hl & _). inversion H; subst. rewrite Hf. split; auto.
        rewrite len_app in Hl. destruct U as [[_ ->]|U]; [|lia]. lia.
      * destruct Hcase as (-> & Hl & _). inversion H; subst. cbn [body_size_inv bd_size bd_got]. auto.
    + destruct Hs as (Hf & Hd). unfold eof_deframe in H.
      destruct (read_to_end (S (mu s)) (lim :: ls) s d) as [[[r1 dd] lsx] s1] eqn:E.
      apply read_to_end_spec in E as (w & -> & -> & Fit & _); [|lia].
      apply fits_cons in Fit as [Fit1 _]. destruct U as [[_ ->]|U]; [|lia].
      destruct r1; inversion H; subst; cbn [body_size_inv]; rewrite ?Hf, len_app; [split; [auto|lia]|lia].
    + unfold chunks_parse in H. destruct (chunks_loop _ dbg (c_body c) (c_state c) (lim :: ls) s) as [[r1 lsx] s1] eqn:E.
      destruct Hs as [Hf Hsm]. pose proof E as E0.
      apply chunks_loop_small in E0; [|apply Hinv|assumption].
      destruct Hinv as [[Hi1 Hi2] Hi3].
      apply chunks_loop_spec with (g := g) in E as (w & -> & Fit & Hok);
        [|destruct (c_state c); lia|split; assumption].
      apply fits_cons in Fit as [Fit1 _].
      destruct r1 as [v|c' k|e|]; inversion H; subst; cbn [body_size_inv]; auto; [|contradiction].
      rewrite Hf. intros Hd. specialize (Hsome Hd). destruct Hok as [[_ Hc]|(_ & n & Hc)]; [|exfalso; revert Hc; apply chunk_cont_not_eof].
      specialize (Hc []). rewrite app_nil_r in Hc. apply chunk_cont_len in Hc. cbn [c_body c_state] in Hc.
      destruct U as [[U ->]|U].
      * assert (chunk_held (c_state c) <= 3145728); [|lia].
        destruct (c_state c) as [p|d|p last|]; cbn [chunk_held chunk_state_inv chunk_small] in *; try lia;
          destruct Hi1 as (_ & _ & Hi1); lia.
      * lia.
    + inversion H; subst. rewrite Hs. reflexivity.
  - intros H; inversion H; subst. split; auto.
    destruct bs as [d|d|c|]; cbn [body_read_so_far body_inv body_size_inv body_over] in *.
    + unfold bytes_read_so_far in U. lia.
    + lia.
    + exact U.
    + lia.
Qed.

(** ** Messages *)

Definition size_inv {T} (pf : bytes -> perr + T) (dbg flag : bool) (st : msg_st T) : Prop :=
  match st with
  | MFirst p => True
  | MHeaders t h => first_ok pf t /\ hm_ok (h_map h)
  | MBody t hm bs => first_ok pf t /\ hm_ok hm /\ body_size_inv hm flag bs
  | MFinished t hm body => first_ok pf t /\ hm_ok hm /\ body_size_done dbg hm flag body
  end.

(** The states in which the budget subtraction underflows. *)
Definition over {T} (st : msg_st T) : Prop :=
  match st with
  | MHeaders _ h => 4096 < h_read h
  | MBody _ _ bs => body_over bs
  | _ => False
  end.

Lemma msg_loop_size {T} (pf : bytes -> perr + T) dbg flag fuel : forall st ls s r ls' s' g,
  msg_inv g st -> size_inv pf dbg flag st ->
  msg_loop fuel pf dbg flag st ls s = (r, ls', s') ->
  match r with
  | PDone (t, hm, body) => first_ok pf t /\ hm_ok hm /\ body_size_done dbg hm flag body
  | PIo st' _ => size_inv pf dbg flag st'
  | PErr _ => True
  | PPanic => dbg = true /\ over st
  end.
Proof.
  induction fuel as [|f IH]; intros st ls s r ls' s' g Hinv Hs; cbn [msg_loop].
  { intros H; inversion H; subst. exact Hs. }
  destruct st as [p|t h|t hm bs|t hm body]; cbn [msg_inv size_inv] in *.
  - unfold first_line_state, first_parse.
    destruct (crlf_parse dbg p ls s) as [[r1 ls1] s1] eqn:E.
    apply crlf_parse_spec in E as (w & -> & Fit & Hlen & Hcase); [|assumption].
    destruct r1 as [line|p' k|e|]; [| | |destruct Hcase].
    + destruct Hcase as (_ & _ & Hcount). destruct (pf line) as [e|t] eqn:Ep.
      * intros H; inversion H; subst. exact I.
      * intros H. apply IH with (g := 0) in H.
        -- destruct r; auto. exfalso. destruct H as [_ H]. cbn in H. lia.
        -- split; [apply line_inv_nil|cbn; lia].
        -- split; [exists line; split; [lia|auto]|constructor].
    + intros H; inversion H; subst. exact I.
    + intros H; inversion H; subst. exact I.
  - unfold headers_state. destruct (hdr_parse dbg h ls s) as [[r1 ls1] s1] eqn:E.
    apply hdr_parse_hm in E; [|apply Hinv|apply Hs].
    destruct r1 as [hm|h' k|e|].
    + pose proof (framing_body_new hm flag) as F. pose proof (body_new_size hm flag) as Bn.
      destruct (body_new hm flag) as [e|bs].
      * intros H; inversion H; subst. exact I.
      * destruct F as [F _]. specialize (Bn _ eq_refl). intros H. apply IH with (g := 0) in H; auto.
        -- destruct r; auto. exfalso. destruct H as [_ H]. cbn [over] in H.
           destruct bs as [| |c|]; cbn [body_over body_inv] in *; auto. destruct F as [[_ F] _]. lia.
        -- cbn [size_inv]. destruct Hs. auto.
    + intros H; inversion H; subst. cbn. destruct Hs; auto.
    + intros H; inversion H; subst. exact I.
    + intros H; inversion H; subst. exact E.
  - unfold body_state. destruct (body_parse dbg bs ls s) as [[r1 ls1] s1] eqn:E.
    destruct Hs as (Hs1 & Hs2 & Hs3).
    eapply body_parse_size in E; eauto.
    destruct r1 as [body|bs' k|e|].
    + intros H. apply IH with (g := 0) in H; [|exact I|cbn; auto]. destruct r; auto. destruct H as [_ []].
    + intros H; inversion H; subst. cbn. auto.
    + intros H; inversion H; subst. exact I.
    + intros H; inversion H; subst. exact E.
  - intros H; inversion H; subst. exact Hs.
Qed.

Lemma req_reached_size dbg st : reached (req_parse dbg) req_new st ->
  (exists g, msg_inv g st) /\ size_inv parse_request_line dbg false st.
Proof.
  induction 1 as [|st s st' k s' H [[g Hg] Hs] E].
  - split; [exists 0; apply line_inv_nil|exact I].
  - split.
    + destruct (req_parser_ok dbg _ _ _ _ _ Hg E) as (w & _ & _ & H1 & _). exact H1.
    + unfold req_parse in E. destruct (msg_parse parse_request_line dbg false st [] s) as [[r ls1] s1] eqn:Em.
      unfold msg_parse in Em. eapply msg_loop_size in Em; eauto.
      destruct r as [[[[m u] hm] body]|st1 k1|e|]; inversion E; subst. exact Em.
Qed.

Lemma resp_reached_size dbg st : reached (resp_parse dbg) resp_new st ->
  (exists g, msg_inv g st) /\ size_inv parse_status_line dbg true st.
Proof.
  induction 1 as [|st s st' k s' H [[g Hg] Hs] E].
  - split; [exists 0; apply line_inv_nil|exact I].
  - split.
    + destruct (resp_parser_ok dbg _ _ _ _ _ Hg E) as (w & _ & _ & H1 & _). exact H1.
    + unfold resp_parse in E. destruct (msg_parse parse_status_line dbg true st [] s) as [[r ls1] s1] eqn:Em.
      unfold msg_parse in Em. eapply msg_loop_size in Em; eauto.
      destruct r as [[[t hm] body]|st1 k1|e|]; inversion E; subst. exact Em.
Qed.

Lemma req_reached_call dbg st s r s' : reached (req_parse dbg) req_new st ->
  req_parse dbg st s = (r, s') ->
  match r with
  | PDone v => first_ok parse_request_line (rq_method v, rq_uri v) /\ hm_ok (rq_headers v)
               /\ body_size_done dbg (rq_headers v) false (rq_body v)
  | PPanic => dbg = true /\ over st
  | _ => True
  end.
Proof.
  intros H E. apply req_reached_size in H as [[g Hg] Hs]. unfold req_parse in E.
  destruct (msg_parse parse_request_line dbg false st [] s) as [[r1 ls1] s1] eqn:Em.
  unfold msg_parse in Em. eapply msg_loop_size in Em; eauto.
  destruct r1 as [[[[m u] hm] body]|st1 k1|e|]; inversion E; subst; cbn; auto.
Qed.

Lemma resp_reached_call dbg st s r s' : reached (resp_parse dbg) resp_new st ->
  resp_parse dbg st s = (r, s') ->
  match r with
  | PDone v => first_ok parse_status_line (rs_status v) /\ hm_ok (rs_headers v)
               /\ body_size_done dbg (rs_headers v) true (rs_body v)
  | PPanic => dbg = true /\ over st
  | _ => True
  end.
Proof.
  intros H E. apply resp_reached_size in H as [[g Hg] Hs]. unfold resp_parse in E.
  destruct (msg_parse parse_status_line dbg true st [] s) as [[r1 ls1] s1] eqn:Em.
  unfold msg_parse in Em. eapply msg_loop_size in Em; eauto.
  destruct r1 as [[[t hm] body]|st1 k1|e|]; inversion E; subst; cbn; auto.
Qed.

(** Conversely, in a debug build those states panic. *)
Lemma over_panics {T} (pf : bytes -> perr + T) flag st ls s :
  over st -> exists ls', msg_parse pf true flag st ls s = (PPanic, ls', s).
Proof.
  intros H. unfold msg_parse. destruct st as [p|t h|t hm [|d|c|]|]; cbn [over body_over] in H; try contradiction; cbn [msg_loop].
  - unfold headers_state, hdr_parse, usub, MAX_HEADERS_SIZE. replace (h_read h <=? 4096) with false by lia. eauto.
  - unfold body_state, body_parse, usub, MAX_BODY_SIZE. cbn [body_read_so_far].
    replace (len (c_body c) <=? 3145728) with false by lia. eauto.
Qed.

(** ** A fresh call that finishes, part by part *)

Lemma body_parse_fresh dbg hm flag bs s r ls' s' :
  body_new hm flag = inr bs -> body_parse dbg bs [] s = (PDone r, ls', s') ->
  len r <= 3145728 /\
  (forall n, framing_of hm flag = inr (FSized n) -> n = 0 \/ 2 * n <= 3145728).
Proof.
  intros Hb E. pose proof (framing_body_new hm flag) as F. rewrite Hb in F.
  destruct F as [Hinv (fr & Hfr & _)]. pose proof (body_new_size _ _ _ Hb) as Hs.
  pose proof E as E0. eapply body_parse_size in E0; eauto. unfold body_size_done in E0. rewrite Hfr in *.
  destruct bs as [d|d|c|]; cbn [body_size_inv] in Hs; rewrite Hfr in Hs.
  - destruct Hs as (Hf & Hsz & Hgot). inversion Hf; subst fr. destruct E0 as [E0 E1]. split; [lia|].
    intros n Hn. inversion Hn; subst.
    unfold body_parse, usub in E. cbn [body_read_so_far] in E. unfold bytes_read_so_far, MAX_BODY_SIZE in E.
    replace (bd_size d <=? 3145728) with true in E by lia.
    apply with_limit_eq in E as (ls1 & E & _). unfold bytes_deframe in E.
    destruct (bytes_loop (S (mu s)) (bd_size d) (bd_got d) [3145728 - bd_size d] s) as [[r1 lsx] s1] eqn:El.
    cbn [body_inv] in Hinv.
    apply bytes_loop_spec in El as (w & -> & Fit & Hcase); [|lia|apply Hinv].
    apply fits_cons in Fit as [Fit1 _].
    destruct r1 as [data| | |]; inversion E; subst. destruct Hcase as (-> & Hl & _).
    unfold body_new in Hb. destruct (get_content_length hm) as [[|size]|]; try discriminate.
    + destruct (MAX_BODY_SIZE <? size); inversion Hb; subst. cbn [bd_size bd_got app] in *.
      rewrite Hl in Fit1. lia.
    + destruct (is_chunked hm); [discriminate|]. destruct flag; discriminate.
  - destruct Hs as (Hf & _). inversion Hf; subst. split; [exact E0|intros n Hn; discriminate].
  - destruct Hs as [Hs _]. inversion Hs; subst. split; [|intros n Hn; discriminate].
    unfold body_parse, usub in E. cbn [body_read_so_far] in E. cbn [body_inv] in Hinv.
    assert (c = chunks_new) as ->.
    { unfold body_new in Hb. destruct (get_content_length hm) as [[|size]|]; try discriminate;
        [destruct (MAX_BODY_SIZE <? size); discriminate|].
      destruct (is_chunked hm); [congruence|]. destruct flag; discriminate. }
    cbn [c_body chunks_new] in E. change (len (@nil byte) <=? MAX_BODY_SIZE) with true in E.
    change (MAX_BODY_SIZE - len (@nil byte)) with 3145728 in E.
    apply with_limit_eq in E as (ls1 & E & _).
    unfold chunks_parse in E. destruct (chunks_loop _ dbg _ _ _ s) as [[r1 lsx] s1] eqn:El.
    apply chunks_loop_spec with (g := 0) in El as (w & -> & Fit & Hok);
      [|cbn [c_state chunks_new]; lia|split; [apply line_inv_nil|cbn; lia]].
    apply fits_cons in Fit as [Fit1 _].
    destruct r1 as [v| | |]; inversion E; subst. destruct Hok as [[_ Hc]|(_ & n & Hc)].
    + specialize (Hc []). rewrite app_nil_r in Hc.
      change (batch_chunks 0 [] w = Complete r []) in Hc. apply chunks_batch_len in Hc.
      change (len (@nil byte)) with 0 in Hc. lia.
    + exfalso. revert Hc. apply chunk_cont_not_eof.
  - inversion Hs; subst. subst r. split; [cbn; lia|intros n Hn; discriminate].
Qed.

(** The three parts of a message read in one call. *)
Lemma msg_fresh_done {T} (pf : bytes -> perr + T) dbg flag s t hm body ls' s' :
  msg_parse pf dbg flag (MFirst []) [] s = (PDone (t, hm, body), ls', s') ->
  exists line wl s1 wh s2 bs,
    takes s wl s1 /\ (forall x, cut_line (wl ++ x) = Some (inr line, x)) /\ pf line = inr t /\
    takes s1 wh s2 /\ (forall x, batch_headers 0 [] (wh ++ x) = Complete hm x) /\ len wh <= 4096 /\
    body_new hm flag = inr bs /\ body_parse dbg bs [] s2 = (PDone body, ls', s').
Proof.
  unfold msg_parse. cbn [msg_loop].
  unfold first_line_state, first_parse.
  destruct (crlf_parse dbg [] [] s) as [[r1 ls1] s1] eqn:E1.
  apply crlf_parse_spec in E1 as (wl & -> & _ & _ & H1); [|apply line_inv_nil].
  destruct r1 as [line|p' k|e|]; try discriminate. destruct H1 as (T1 & Hcut & _).
  destruct (pf line) as [e|t0] eqn:Ep; try discriminate.
  unfold headers_state at 1. destruct (hdr_parse dbg hdr_new (dec_lims wl []) s1) as [[r2 ls2] s2] eqn:E2.
  assert (I0 : hdr_inv 0 hdr_new) by (split; [apply line_inv_nil|cbn; lia]).
  apply hdr_parse_spec with (g := 0) in E2 as (wh & -> & _ & Hok & Hlim); [|assumption].
  destruct r2 as [hm0|h' k|e|]; try discriminate.
  destruct Hok as [[T2 Hc]|(_ & n & Hc)]; [|exfalso; revert Hc; apply hdr_cont_not_eof].
  destruct (body_new hm0 flag) as [e|bs] eqn:Eb; try discriminate.
  unfold body_state at 1. change (dec_lims wh (dec_lims wl [])) with (@nil N).
  destruct (body_parse dbg bs [] s2) as [[r3 ls3] s3] eqn:E3.
  destruct r3 as [bd|b' k|e|]; try discriminate.
  intros H; inversion H; subst. exists line, wl, s1, wh, s2, bs.
  repeat split; auto. cbn [h_read hdr_new] in Hlim. lia.
Qed.

(** ** Streams that never block *)

Lemma flowing_takes s w s' : takes s w s' -> flowing s -> flowing s'.
Proof.
  induction 1; intros F; auto.
  - inversion F; subst. contradiction.
  - inversion F; subst. auto.
  - inversion F; subst. constructor; auto.
Qed.

Lemma flowing_call {T St} (parse : St -> stream -> pres T St * stream) (Inv : N -> St -> Prop) cont g st0 s v rest r s' :
  parser_ok parse Inv cont -> Inv g st0 -> flowing s -> cont g st0 (pending s) = Complete v rest ->
  parse st0 s = (r, s') ->
  r = PDone v \/ (exists st, r = PIo st LimitReached) \/ r = PPanic.
Proof.
  intros Hp Hi F E Ep. destruct (Hp _ _ _ _ _ Hi Ep) as (w & Hok).
  assert (NE : forall b, takes s w (b :: s') -> flowing_event b)
    by (intros b Hb; apply flowing_takes in Hb; auto; now inversion Hb).
  destruct r as [v'|st' k|e|]; cbn [call_ok] in Hok; auto.
  - destruct Hok as [[Ht Hc]|[Ht _]]; [|apply NE in Ht; contradiction].
    apply takes_pending in Ht. rewrite Ht, Hc in E. inversion E; subst. auto.
  - destruct Hok as (Hu & Hs & _). destruct Hs as [[[Hs|(-> & Hs & ->)] _]|[(-> & _)|(_ & Hs & _)]].
    + apply NE in Hs. contradiction.
    + exfalso. apply takes_pending in Hs. rewrite app_nil_r in Hs. subst w. rewrite E in Hu. contradiction.
    + eauto.
    + apply NE in Hs. contradiction.
  - exfalso. destruct Hok as [[Ht Hc]|(_ & _ & [[Hs|(Hd & _)]|[Hs _]])].
    + apply takes_pending in Ht. rewrite Ht, Hc in E. discriminate.
    + apply NE in Hs. contradiction.
    + discriminate.
    + apply NE in Hs. contradiction.
Qed.

(** ** Unfinished lines consist of received bytes *)

Lemma cut_line_suffix b e r (P : byte -> Prop) : cut_line b = Some (e, r) -> Forall P b -> Forall P r.
Proof.
  unfold cut_line. destruct (cut_lf b) as [[l r']|] eqn:E; [|discriminate]. intros H; inversion H; subst.
  clear H. revert l E. induction b as [|c b IH]; intros l E F; [discriminate|]. cbn [cut_lf] in E.
  inversion F; subst. destruct (Ascii.eqb c LF); [inversion E; subst; auto|].
  destruct (cut_lf b) as [[l' r'']|]; [|discriminate]. inversion E; subst. eapply IH; eauto.
Qed.

Lemma headers_line P n m b : Forall P b ->
  match batch_headers n m b with Incomplete p => Forall P (line_of p) | Complete _ r => Forall P r | _ => True end.
Proof.
  revert n m. induction b as [b IH] using (well_founded_induction (Wf_nat.well_founded_ltof _ (@List.length byte))).
  intros n m F. rewrite batch_headers_eq. destruct (cut_line b) as [[[e|l] r]|] eqn:E; auto.
  pose proof (cut_line_length _ _ _ E) as L. apply cut_line_suffix with (P := P) in E; auto.
  destruct l as [|c l]; auto. destruct (parse_header (c :: l)) as [e|[k v]]; auto. now apply IH.
Qed.

Lemma Forall_skipn {A} (P : A -> Prop) n l : Forall P l -> Forall P (skipn n l).
Proof. revert l; induction n; intros [|x l] H; cbn; auto. inversion H; auto. Qed.

Lemma chunks_line P n acc b : Forall P b ->
  match batch_chunks n acc b with Incomplete p => Forall P (line_of p) | _ => True end.
Proof.
  revert n acc. induction b as [b IH] using (well_founded_induction (Wf_nat.well_founded_ltof _ (@List.length byte))).
  intros n acc F. rewrite batch_chunks_eq. destruct (cut_line b) as [[[e|l] r]|] eqn:E; auto.
  pose proof (cut_line_length _ _ _ E) as L. apply cut_line_suffix with (P := P) in E; auto.
  destruct (parse_chunk_size l) as [e|size]; auto. unfold batch_data. cbn [app].
  destruct (len r <? size); [constructor|]. unfold batch_tail.
  apply Forall_skipn with (n := N.to_nat size) in E.
  pose proof (skipn_length_le (N.to_nat size) r) as L1.
  destruct (cut_line (skipn (N.to_nat size) r)) as [[[e|l2] r2]|] eqn:E2; auto.
  pose proof (cut_line_length _ _ _ E2) as L2. apply cut_line_suffix with (P := P) in E2; auto.
  destruct l2; auto. destruct (size =? 0); auto. apply IH; auto. unfold Wf_nat.ltof. lia.
Qed.

Lemma msg_line {T} (pf : bytes -> perr + T) flag (P : byte -> Prop) b : Forall P b ->
  match batch_msg pf flag b with Incomplete p => Forall P (line_of p) | _ => True end.
Proof.
  intros F. unfold batch_msg, batch_first. destruct (cut_line b) as [[[e|l] r]|] eqn:E; cbn [obind]; auto.
  apply cut_line_suffix with (P := P) in E; auto.
  destruct (pf l) as [e|t]; cbn [obind]; auto. apply (headers_line P 0 []) in E.
  destruct (batch_headers 0 [] r) as [hm r1|p|v n|e]; cbn [obind]; auto; [|constructor].
  unfold batch_after_headers. destruct (framing_of hm flag) as [e|fr]; auto.
  destruct fr; cbn [batch_body]; auto.
  - destruct (len r1 <? n); cbn [omap]; [constructor|auto].
  - apply (chunks_line P 0 []) in E. destruct (batch_chunks 0 [] r1); cbn [omap]; auto.
  - exact I.
  - exact I.
Qed.

Lemma ascii_clean_request b : Forall (fun c => bval c < 128) b -> clean (batch_request b).
Proof.
  intros F. apply (msg_line parse_request_line false) in F. unfold batch_request.
  destruct (batch_msg parse_request_line false b); cbn [omap clean]; auto. now apply utf8_ascii.
Qed.
Lemma ascii_clean_response b : Forall (fun c => bval c < 128) b -> clean (batch_response b).
Proof.
  intros F. apply (msg_line parse_status_line true) in F. unfold batch_response.
  destruct (batch_msg parse_status_line true b); cbn [omap clean]; auto. now apply utf8_ascii.
Qed.

