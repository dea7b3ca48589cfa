(** More about all reachable parser states: the text they hold, where signals surface, and deliveries with signals. *)
From Coq Require Import List Ascii String NArith ZArith Bool Lia.
From Coq Require Import ZifyBool ZifyNat ZifyN.
From Verif.Model Require Import Bytes Io Common Parse.
From Verif.Spec Require Import Batch Stream Drive.
From Verif.Proofs Require Import BytesFacts IoFacts CommonFacts ParseFacts DriveFacts CallFacts LimitFacts.
Import ListNotations.
Local Open Scope N_scope.

(** ** Text *)

Definition first_text {T} (pf : bytes -> perr + T) (t : T) : Prop :=
  exists line, utf8 line = true /\ pf line = inr t.
Definition hm_text (hm : header_map) : Prop :=
  Forall (fun kv => Forall (fun v => exists n, utf8 (n ++ COLON :: SP :: v) = true /\ fst kv = header_from n) (snd kv)) hm.

Lemma hm_text_add hm k v n : hm_text hm -> utf8 (n ++ COLON :: SP :: v) = true -> k = header_from n ->
  hm_text (add_header hm k v).
Proof.
  intros H Hv Hk. induction hm as [|[k' vs] hm IH]; cbn [add_header].
  - repeat constructor. exists n. auto.
  - inversion H as [|? ? H1 H2]; subst. destruct (header_eqb k' (header_from n)) eqn:E.
    + apply header_eqb_eq in E. subst. constructor; auto. cbn [fst snd] in *. apply Forall_app. split; auto.
      repeat constructor. exists n. auto.
    + constructor; auto. now apply IH.
Qed.

Lemma crlf_parse_text dbg p ls s line ls' s' : line_inv p ->
  crlf_parse dbg p ls s = (PDone line, ls', s') -> utf8 line = true.
Proof.
  intros Hp E. apply crlf_parse_spec in E as (w & _ & _ & _ & _ & H & _); auto.
  specialize (H []). apply cut_line_inr in H as (_ & _ & H). exact H.
Qed.

Lemma hdr_loop_text fuel dbg : forall st ls s r ls' s',
  line_inv (h_line st) -> hm_text (h_map st) ->
  hdr_loop fuel dbg st ls s = (r, ls', s') ->
  match r with PDone hm => hm_text hm | PIo st' _ => hm_text (h_map st') | _ => True end.
Proof.
  induction fuel as [|f IH]; intros st ls s r ls' s' Hl Hm; cbn [hdr_loop].
  - intros H; inversion H; subst. exact Hm.
  - destruct (crlf_parse dbg (h_line st) ls s) as [[r1 ls1] s1] eqn:E.
    destruct r1 as [line|p' k|e|].
    + apply crlf_parse_text in E; [|assumption]. destruct line as [|c line].
      * intros H; inversion H; subst. exact Hm.
      * destruct (parse_header (c :: line)) as [e|[k v]] eqn:Ep; [intros H; inversion H; subst; exact Logic.I|].
        apply IH; [apply line_inv_nil|]. cbn [h_map]. unfold parse_header in Ep.
        destruct (split_colon (c :: line)) as [[n v']|] eqn:Ec; [|discriminate]. inversion Ep; subst.
        apply split_colon_spec in Ec as [Ec _]. rewrite Ec in E. eapply hm_text_add; eauto.
    + intros H; inversion H; subst. exact Hm.
    + intros H; inversion H; subst. exact Logic.I.
    + intros H; inversion H; subst. exact Logic.I.
Qed.

Lemma hdr_parse_text dbg st ls s r ls' s' :
  line_inv (h_line st) -> hm_text (h_map st) ->
  hdr_parse dbg st ls s = (r, ls', s') ->
  match r with PDone hm => hm_text hm | PIo st' _ => hm_text (h_map st') | _ => True end.
Proof.
  intros Hl Hm. unfold hdr_parse. destruct (usub dbg MAX_HEADERS_SIZE (h_read st)) as [lim|].
  - intros H. apply with_limit_eq in H as (ls1 & H & _). eapply hdr_loop_text; eauto.
  - intros H; inversion H; subst. exact Logic.I.
Qed.

Definition text_inv {T} (pf : bytes -> perr + T) (st : msg_st T) : Prop :=
  match st with
  | MFirst p => True
  | MHeaders t h => first_text pf t /\ hm_text (h_map h)
  | MBody t hm _ | MFinished t hm _ => first_text pf t /\ hm_text hm
  end.

Lemma msg_loop_text {T} (pf : bytes -> perr + T) dbg flag fuel : forall st ls s r ls' s' g,
  msg_inv g st -> text_inv pf st ->
  msg_loop fuel pf dbg flag st ls s = (r, ls', s') ->
  match r with
  | PDone (t, hm, body) => first_text pf t /\ hm_text hm
  | PIo st' _ => text_inv pf st'
  | _ => True
  end.
Proof.
  induction fuel as [|f IH]; intros st ls s r ls' s' g Hinv Hs; cbn [msg_loop].
  { intros H; inversion H; subst. exact Hs. }
  destruct st as [p|t h|t hm bs|t hm body]; cbn [msg_inv text_inv] in *.
  - unfold first_line_state, first_parse.
    destruct (crlf_parse dbg p ls s) as [[r1 ls1] s1] eqn:E.
    destruct r1 as [line|p' k|e|].
    + apply crlf_parse_text in E; [|assumption]. destruct (pf line) as [e|t] eqn:Ep.
      * intros H; inversion H; subst. exact Logic.I.
      * intros H. apply IH with (g := 0) in H; auto.
        -- split; [apply line_inv_nil|cbn; lia].
        -- split; [exists line; auto|constructor].
    + intros H; inversion H; subst. exact Logic.I.
    + intros H; inversion H; subst. exact Logic.I.
    + intros H; inversion H; subst. exact Logic.I.
  - unfold headers_state. destruct (hdr_parse dbg h ls s) as [[r1 ls1] s1] eqn:E.
    apply hdr_parse_text in E; [|apply Hinv|apply Hs].
    destruct r1 as [hm|h' k|e|].
    + pose proof (framing_body_new hm flag) as F.
      destruct (body_new hm flag) as [e|bs].
      * intros H; inversion H; subst. exact Logic.I.
      * destruct F as [F _]. intros H. apply IH with (g := 0) in H; auto. cbn [text_inv]. destruct Hs. auto.
    + intros H; inversion H; subst. cbn. destruct Hs; auto.
    + intros H; inversion H; subst. exact Logic.I.
    + intros H; inversion H; subst. exact Logic.I.
  - unfold body_state. destruct (body_parse dbg bs ls s) as [[r1 ls1] s1] eqn:E.
    destruct r1 as [body|bs' k|e|].
    + intros H. apply IH with (g := 0) in H; [|exact Logic.I|cbn; auto]. exact H.
    + intros H; inversion H; subst. exact Hs.
    + intros H; inversion H; subst. exact Logic.I.
    + intros H; inversion H; subst. exact Logic.I.
  - intros H; inversion H; subst. exact Hs.
Qed.

Lemma req_reached_inv dbg st : reached (req_parse dbg) req_new st ->
  (exists g, msg_inv g st) /\ text_inv parse_request_line st.
Proof.
  induction 1 as [|st s st' k s' H [[g Hg] Hs] E].
  - split; [exists 0; apply line_inv_nil|exact Logic.I].
  - split.
    + destruct (req_parser_ok dbg _ _ _ _ _ Hg E) as (w & _ & _ & H1 & _). exact H1.
    + unfold req_parse in E. destruct (msg_parse parse_request_line dbg false st [] s) as [[r ls1] s1] eqn:Em.
      unfold msg_parse in Em. eapply msg_loop_text in Em; eauto.
      destruct r as [[[[m u] hm] body]|st1 k1|e|]; inversion E; subst. exact Em.
Qed.

Lemma resp_reached_inv dbg st : reached (resp_parse dbg) resp_new st ->
  (exists g, msg_inv g st) /\ text_inv parse_status_line st.
Proof.
  induction 1 as [|st s st' k s' H [[g Hg] Hs] E].
  - split; [exists 0; apply line_inv_nil|exact Logic.I].
  - split.
    + destruct (resp_parser_ok dbg _ _ _ _ _ Hg E) as (w & _ & _ & H1 & _). exact H1.
    + unfold resp_parse in E. destruct (msg_parse parse_status_line dbg true st [] s) as [[r ls1] s1] eqn:Em.
      unfold msg_parse in Em. eapply msg_loop_text in Em; eauto.
      destruct r as [[[t hm] body]|st1 k1|e|]; inversion E; subst. exact Em.
Qed.

Lemma req_done_text dbg st s r s' : reached (req_parse dbg) req_new st ->
  req_parse dbg st s = (PDone r, s') ->
  first_text parse_request_line (rq_method r, rq_uri r) /\ hm_text (rq_headers r).
Proof.
  intros H E. apply req_reached_inv in H as [[g Hg] Hs]. unfold req_parse in E.
  destruct (msg_parse parse_request_line dbg false st [] s) as [[r1 ls1] s1] eqn:Em.
  unfold msg_parse in Em. eapply msg_loop_text in Em; eauto.
  destruct r1 as [[[[m u] hm] body]|st1 k1|e|]; inversion E; subst; cbn; auto.
Qed.
Lemma resp_done_text dbg st s r s' : reached (resp_parse dbg) resp_new st ->
  resp_parse dbg st s = (PDone r, s') ->
  first_text parse_status_line (rs_status r) /\ hm_text (rs_headers r).
Proof.
  intros H E. apply resp_reached_inv in H as [[g Hg] Hs]. unfold resp_parse in E.
  destruct (msg_parse parse_status_line dbg true st [] s) as [[r1 ls1] s1] eqn:Em.
  unfold msg_parse in Em. eapply msg_loop_text in Em; eauto.
  destruct r1 as [[[t hm] body]|st1 k1|e|]; inversion E; subst; cbn; auto.
Qed.

(** ** Signals *)

(** A suspended parser that is inside the bytes of a sized body or of a chunk. *)
Definition in_bytes {T} (st : msg_st T) : Prop :=
  match st with
  | MBody _ _ (BSized _) => True
  | MBody _ _ (BChunked c) => match c_state c with CData _ => True | _ => False end
  | _ => False
  end.

Lemma in_data_clean {T} (o : outcome T) : in_data o -> clean o.
Proof. destruct o as [|[]| |]; cbn; try tauto; auto. Qed.

Lemma in_data_state {T} (pf : bytes -> perr + T) flag g st : msg_inv g st ->
  in_data (msg_cont pf flag g st []) -> in_bytes st.
Proof.
  destruct st as [p|t h|t hm bs|t hm body]; cbn [msg_inv msg_cont in_bytes].
  - intros (_ & Hn & _). unfold batch_msg, batch_first. rewrite app_nil_r, cut_line_none by exact Hn. cbn. auto.
  - intros [(_ & Hn & _) _]. unfold hdr_cont. rewrite batch_headers_eq, app_nil_r, cut_line_none by exact Hn. cbn. auto.
  - rewrite in_data_omap. destruct bs as [d|d|c|]; cbn [body_inv body_cont]; auto.
    intros [[Hc _] _]. unfold chunk_cont. destruct (c_state c) as [p|d|p last|]; cbn [chunk_state_inv] in Hc; auto.
    + destruct Hc as (_ & Hn & _). rewrite batch_chunks_eq, app_nil_r, cut_line_none by exact Hn. cbn. auto.
    + destruct Hc as (_ & Hn & _). unfold batch_tail. rewrite app_nil_r, cut_line_none by exact Hn. cbn. auto.
  - cbn. auto.
Qed.

Lemma req_interrupted dbg st s st' s' : reached (req_parse dbg) req_new st ->
  req_parse dbg st s = (PIo st' Interrupted, s') -> in_bytes st'.
Proof.
  intros H E. apply req_reached_inv in H as [[g Hg] _].
  destruct (req_parser_ok dbg _ _ _ _ _ Hg E) as (w & _ & Hs & _ & Hx).
  destruct Hs as [[_ Hi]|[(Hs & _)|(Hs & _)]]; try discriminate. specialize (Hi eq_refl).
  destruct (Hx ltac:(discriminate) (in_data_clean _ Hi)) as (g' & Hg' & Hc).
  specialize (Hc []). rewrite app_nil_r in Hc. rewrite Hc in Hi. unfold req_cont in Hi. rewrite in_data_omap in Hi.
  eapply in_data_state; eauto.
Qed.
Lemma resp_interrupted dbg st s st' s' : reached (resp_parse dbg) resp_new st ->
  resp_parse dbg st s = (PIo st' Interrupted, s') -> in_bytes st'.
Proof.
  intros H E. apply resp_reached_inv in H as [[g Hg] _].
  destruct (resp_parser_ok dbg _ _ _ _ _ Hg E) as (w & _ & Hs & _ & Hx).
  destruct Hs as [[_ Hi]|[(Hs & _)|(Hs & _)]]; try discriminate. specialize (Hi eq_refl).
  destruct (Hx ltac:(discriminate) (in_data_clean _ Hi)) as (g' & Hg' & Hc).
  specialize (Hc []). rewrite app_nil_r in Hc. rewrite Hc in Hi. unfold resp_cont in Hi. rewrite in_data_omap in Hi.
  eapply in_data_state; eauto.
Qed.

(** ** Deliveries with signals anywhere *)

Lemma drive_f_signals {T S} (parse : S -> stream -> pres T S * stream) Inv cont eof :
  parser_ok parse Inv cont ->
  forall fuel g st s,
  (List.length s < fuel)%nat ->
  Inv g st ->
  live_eof eof s ->
  (forall s1 s2, s = s1 ++ RErr WouldBlock :: s2 -> clean (cont g st (pending s1))) ->
  (forall w x, pending s = w ++ x -> in_limits (cont g st w)) ->
  matches eof (cont g st (pending s)) (drive_f parse fuel st s) \/
  exists st' s1 s2, drive_f parse fuel st s = (PIo st' Interrupted, s2) /\ s = s1 ++ RErr Interrupted :: s2 /\
    in_data (cont g st (pending s1)).
Proof.
  intros Hp. induction fuel as [|f IH]; intros g st s Hf Hinv Hlive Hclean Hlim; [lia|].
  cbn [drive_f]. destruct (parse st s) as [r s'] eqn:E.
  destruct (Hp _ _ _ _ _ Hinv E) as (w & Hok).
  destruct r as [v|st' k|e|].
  - left. destruct Hok as [(H1 & H2)|(H1 & n & H2)].
    + rewrite (takes_pending _ _ _ H1), H2. exists s'. repeat split; auto.
      eapply live_eof_takes; eauto.
    + destruct (takes_eof _ _ _ _ Hlive H1) as (-> & -> & ->). rewrite H2. reflexivity.
  - destruct Hok as (Hun & Hstop & _ & Hres).
    destruct Hstop as [[Hstop Hi]|[(-> & H1 & H2)|(-> & H1 & H2)]].
    + assert (k = WouldBlock \/ k = Interrupted) as [-> | ->].
      { destruct Hstop as [Hs|[Hs _]]; auto. apply (live_eof_takes _ _ _ _ Hs) in Hlive.
        apply live_eof_inv in Hlive as [[[Hs'|Hs'] _]|(_ & Hs' & _)]; [auto|auto|discriminate]. }
      * destruct Hstop as [Hs|(_ & Hs & ->)].
        -- pose proof (live_eof_takes _ _ _ _ Hs Hlive) as Hl'.
           apply live_eof_inv in Hl' as [[_ Hl']|(_ & Hl' & _)]; [|discriminate].
           pose proof (takes_length _ _ _ Hs) as Hlen. cbn [List.length] in Hlen.
           pose proof (takes_pending _ _ _ Hs) as Hpen. cbn [pending] in Hpen.
           destruct s' as [|e0 s'].
           ++ left. rewrite Hpen. cbn [pending]. rewrite app_nil_r. unfold matches.
              destruct Hl' as (s0 & _ & Hl'). destruct eof; [destruct s0; discriminate|].
              destruct (cont g st w); try destruct Hun; eauto.
           ++ destruct (takes_prefix _ _ _ _ Hs) as (s1 & -> & Hw).
              assert (Hc : clean (cont g st w)) by (rewrite <- Hw; eapply Hclean; reflexivity).
              destruct (Hres ltac:(discriminate) Hc) as (g' & Hgi & Hx).
              rewrite Hpen, Hx.
              destruct (IH g' st' (e0 :: s')) as [M|(st2 & s2 & s3 & H1 & H2 & H3)]; auto.
              ** lia.
              ** intros s2 s3 E'. rewrite <- Hx, <- Hw.
                 replace (pending s1 ++ pending s2) with (pending (s1 ++ RErr WouldBlock :: s2))
                   by now rewrite pending_app.
                 apply (Hclean _ s3). rewrite E', <- app_assoc. reflexivity.
              ** intros w' x E'. rewrite <- Hx. apply (Hlim _ x). rewrite Hpen, E'. now rewrite app_assoc.
              ** right. exists st2, (s1 ++ RErr WouldBlock :: s2), s3. split; [exact H1|]. split.
                 --- rewrite H2, <- app_assoc. reflexivity.
                 --- rewrite pending_app. cbn [pending]. rewrite Hw, Hx. exact H3.
        -- left. pose proof (live_eof_takes _ _ _ _ Hs Hlive) as Hl'.
           rewrite (takes_pending _ _ _ Hs). cbn [pending]. rewrite app_nil_r. unfold matches.
           destruct Hl' as (s0 & _ & Hl'). destruct eof; [destruct s0; discriminate|].
           destruct (cont g st w); try destruct Hun; eauto.
      * right. destruct Hstop as [Hs|(Hk & _)]; [|discriminate].
        destruct (takes_prefix _ _ _ _ Hs) as (s1 & -> & Hw).
        exists st', s1, s'. split; [reflexivity|]. split; [reflexivity|]. rewrite Hw. now apply Hi.
    + exfalso. destruct H2 as [H2|H2]; [|now apply limited_nil in H2]. apply H2.
      apply (Hlim _ (pending s')). now apply takes_pending.
    + left. destruct (takes_eof _ _ _ _ Hlive H1) as (-> & -> & ->). unfold matches.
      destruct (cont g st w) as [|p|v n|] eqn:Ec; cbn in H2; try contradiction.
      rewrite H2. eauto.
  - left. destruct Hok as [(H1 & H2)|(H1 & -> & H2)].
    + rewrite (takes_pending _ _ _ H1), H2. exists s'. auto.
    + destruct H2 as [H2|(H2 & H3)].
      * exfalso. destruct H2 as [Hs|[Hs _]]; [|discriminate]. apply (live_eof_takes _ _ _ _ Hs) in Hlive.
        apply live_eof_inv in Hlive as [[[Hs'|Hs'] _]|(_ & Hs' & _)]; discriminate.
      * destruct (takes_eof _ _ _ _ Hlive H2) as (-> & -> & ->).
        destruct (cont g st w) as [|p|v n|]; try destruct H1.
        -- cbn in *. destruct (utf8 (line_of p)); [exfalso; apply H3; reflexivity|reflexivity].
        -- cbn in H3. tauto.
  - exfalso. destruct Hok as (H1 & H2 & H3). apply H3. apply (Hlim _ (pending s')).
    now apply takes_pending.
Qed.

Lemma drive_request_signals dbg eof s :
  live_eof eof s -> blocks_in_clean_lines batch_request s -> always_in_limits batch_request (pending s) ->
  matches eof (batch_request (pending s)) (drive_request dbg s) \/
  exists st' s1 s2, drive_request dbg s = (PIo st' Interrupted, s2) /\ s = s1 ++ RErr Interrupted :: s2 /\
    in_data (batch_request (pending s1)).
Proof.
  intros. change (batch_request (pending s)) with (req_cont 0 req_new (pending s)).
  apply (drive_f_signals (req_parse dbg) msg_inv req_cont eof (req_parser_ok dbg)); auto.
  apply line_inv_nil.
Qed.
Lemma drive_response_signals dbg eof s :
  live_eof eof s -> blocks_in_clean_lines batch_response s -> always_in_limits batch_response (pending s) ->
  matches eof (batch_response (pending s)) (drive_response dbg s) \/
  exists st' s1 s2, drive_response dbg s = (PIo st' Interrupted, s2) /\ s = s1 ++ RErr Interrupted :: s2 /\
    in_data (batch_response (pending s1)).
Proof.
  intros. change (batch_response (pending s)) with (resp_cont 0 resp_new (pending s)).
  apply (drive_f_signals (resp_parse dbg) msg_inv resp_cont eof (resp_parser_ok dbg)); auto.
  apply line_inv_nil.
Qed.
