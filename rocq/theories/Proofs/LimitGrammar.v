(** Messages that respect the size limits respect them at every prefix. *)
From Coq Require Import List Ascii String NArith ZArith Bool Lia.
From Coq Require Import ZifyBool ZifyNat ZifyN.
From Verif.Model Require Import Bytes Common Parse.
From Verif.Spec Require Import Batch Stream Numerals Names Grammar Drive.
From Verif.Proofs Require Import BytesFacts ParseFacts CommonFacts GrammarFacts.
Import ListNotations.
Local Open Scope N_scope.

Lemma prefix_cases {A} (a c b x : list A) : a ++ c = b ++ x ->
  (exists y, y <> [] /\ a = b ++ y) \/ (exists b', b = a ++ b' /\ c = b' ++ x).
Proof.
  revert b; induction a as [|h a IH]; intros b H.
  - right. exists b. auto.
  - destruct b as [|g b].
    + left. exists (h :: a). split; [discriminate|reflexivity].
    + cbn in H. inversion H; subst. destruct (IH _ H2) as [(y & Hy & ->)|(b' & -> & ->)].
      * left. exists y. auto.
      * right. exists b'. auto.
Qed.

Lemma line_prefix l b y : text l -> l ++ crlf = b ++ y -> y <> [] -> noLF b /\ len b <= len l + 1.
Proof.
  intros [_ Hl] H Hy.
  assert (exists y' c, y = y' ++ [c]) as (y' & c & ->)
    by (destruct (exists_last Hy) as (y' & c & ->); eauto).
  replace (l ++ crlf) with ((l ++ [CR]) ++ [LF]) in H by (now rewrite <- app_assoc).
  rewrite app_assoc in H. apply app_inj_tail in H as [H _].
  split.
  - intros Hin. assert (In LF (l ++ [CR])) by (rewrite H; apply in_or_app; auto).
    apply in_app_or in H0 as [H0|[H0|[]]]; [contradiction|discriminate].
  - assert (len (l ++ [CR]) = len (b ++ y')) by (f_equal; assumption).
    rewrite !len_app in H0. cbn in H0. lia.
Qed.

Lemma line_prefix_ascii l b y : ascii l -> l ++ crlf = b ++ y -> utf8 b = true.
Proof.
  intros H E. apply utf8_ascii. assert (ascii (l ++ crlf)) as H1.
  { apply Forall_app. split; auto. repeat constructor; cbn; lia. }
  rewrite E in H1. apply Forall_app in H1. apply H1.
Qed.

Lemma denotes_ascii radix l n : denotes radix l n -> ascii l.
Proof.
  intros (digits & ds & Hl & _ & Hd & _).
  assert (ascii digits).
  { clear - Hd. induction Hd as [|c d digits ds H _ IH]; constructor; auto. unfold is_digit in H. lia. }
  destruct Hl as [->| ->]; auto. constructor; auto. cbn. lia.
Qed.

Lemma ascii_nil : ascii []. Proof. constructor. Qed.

Definition good {T} (asc : Prop) (o : outcome T) : Prop := in_limits o /\ (asc -> clean o).

Ltac incomplete := unfold good, in_limits, small, clean; cbn [line_of]; change (len (@nil byte)) with 0 in *; split; [|intros _].

Lemma chunks_prefix w : chunk_lines_fit w -> forall n acc b x,
  w = b ++ x -> n + len w <= 3145728 -> good True (batch_chunks n acc b).
Proof.
  induction 1 as [l Hl Hf|l k d w Hl Hf Hk Hd Hw IH]; intros n acc b x Hb Hn; rewrite batch_chunks_eq.
  - rewrite app_assoc in Hb. apply prefix_cases in Hb as [(y & Hy & Hb)|(b' & -> & Hb)].
    + destruct (line_prefix l b y (denotes_text _ _ _ Hl) Hb Hy) as [H1 H2].
      rewrite cut_line_none by assumption. rewrite !len_app in Hn. change (len crlf) with 2 in Hn.
      incomplete; [lia|]. exact (line_prefix_ascii l b y (denotes_ascii _ _ _ Hl) Hb).
    + rewrite <- app_assoc, cut_line_text by now apply denotes_text in Hl.
      rewrite (proj2 (parse_chunk_size_iff l 0)) by (split; [auto|lia]).
      unfold batch_data. cbn [app]. replace (_ <? 0) with false by lia. cbn [N.to_nat firstn skipn].
      unfold batch_tail. rewrite !len_app in Hn. change (len crlf) with 2 in Hn.
      change crlf with ([] ++ crlf) in Hb.
      replace (([] ++ crlf)) with (([] ++ crlf) ++ []) in Hb by apply app_nil_r.
      apply prefix_cases in Hb as [(y & Hy & Hb)|(b2 & -> & Hb)].
      * destruct (line_prefix [] b' y crlf_text Hb Hy) as [H1 H2].
        rewrite cut_line_none by assumption. incomplete; [lia|].
        exact (line_prefix_ascii [] b' y ascii_nil Hb).
      * rewrite <- app_assoc, cut_line_text by apply crlf_text. split; [exact I|intros _; exact I].
  - rewrite !len_app in Hn. change (len crlf) with 2 in Hn.
    rewrite app_assoc in Hb. apply prefix_cases in Hb as [(y & Hy & Hb)|(b' & -> & Hb)].
    + destruct (line_prefix l b y (denotes_text _ _ _ Hl) Hb Hy) as [H1 H2].
      rewrite cut_line_none by assumption. incomplete; [lia|].
      exact (line_prefix_ascii l b y (denotes_ascii _ _ _ Hl) Hb).
    + rewrite <- app_assoc, cut_line_text by now apply denotes_text in Hl.
      rewrite (proj2 (parse_chunk_size_iff l k)) by (split; [auto|lia]).
      unfold batch_data. cbn [app].
      apply prefix_cases in Hb as [(y & Hy & Hb)|(b2 & -> & Hb)].
      * assert (len d = len b' + len y) by (rewrite Hb; apply len_app). pose proof (len_pos y Hy).
        replace (len b' <? k) with true by lia. incomplete; [lia|reflexivity].
      * rewrite len_app. replace (_ <? k) with false by lia.
        subst k. rewrite firstn_len_app, skipn_len_app. replace (len d =? 0) with false by lia.
        unfold batch_tail.
        change crlf with ([] ++ crlf) in Hb. apply prefix_cases in Hb as [(y & Hy & Hb)|(b3 & -> & Hb)].
        -- destruct (line_prefix [] b2 y crlf_text Hb Hy) as [H1 H2].
           rewrite cut_line_none by assumption. incomplete; [lia|].
           exact (line_prefix_ascii [] b2 y ascii_nil Hb).
        -- rewrite <- app_assoc, cut_line_text by apply crlf_text. eapply IH; eauto. lia.
Qed.

Lemma headers_prefix ps : Forall header_ok ps -> Forall (fun p => len (header_line p) <= 512) ps ->
  forall n m b x, header_lines ps ++ crlf = b ++ x -> n + len (header_lines ps ++ crlf) <= 4096 ->
  (exists p, batch_headers n m b = Incomplete p /\ small p /\ (headers_ascii ps -> utf8 (line_of p) = true)) \/
  (b = header_lines ps ++ crlf /\ x = []).
Proof.
  intros H1 H2. induction H1 as [|[nm v] ps [Ht Hc] H1 IH]; intros n m b x Hb Hn; rewrite batch_headers_eq.
  - change (header_lines [] ++ crlf) with ([] ++ crlf) in *.
    replace ([] ++ crlf) with (([] ++ crlf) ++ []) in Hb by apply app_nil_r.
    apply prefix_cases in Hb as [(y & Hy & Hb)|(b' & -> & Hb)].
    + left. destruct (line_prefix [] b y crlf_text Hb Hy) as [H3 H4].
      rewrite cut_line_none by assumption. eexists. split; [reflexivity|].
      change (len ([] ++ crlf)) with 2 in *. unfold small; cbn [line_of]; change (len (@nil byte)) with 0 in *.
      split; [lia|]. intros _. exact (line_prefix_ascii [] b y ascii_nil Hb).
    + right. symmetry in Hb. apply app_eq_nil in Hb as [-> ->]. rewrite app_nil_r. auto.
  - inversion H2 as [|? ? H3 H4]; subst. specialize (IH H4).
    change (header_lines ((nm, v) :: ps)) with (header_line (nm, v) ++ header_lines ps) in *.
    assert (exists l, l = nm ++ lit ": " ++ v) as (l & Dl) by eauto.
    assert (Hl : header_line (nm, v) = l ++ crlf) by (unfold header_line; subst l; cbn [fst snd]; now rewrite <- !app_assoc).
    cbn [fst snd] in Ht, Hc. rewrite <- Dl in Ht. rewrite Hl in *. rewrite !len_app in H3. rewrite !len_app in Hn.
    change (len crlf) with 2 in Hn, H3. rewrite <- app_assoc in Hb.
    apply prefix_cases in Hb as [(y & Hy & Hb)|(b' & -> & Hb)].
    + left. destruct (line_prefix l b y Ht Hb Hy) as [H5 H6].
      rewrite cut_line_none by assumption. eexists. split; [reflexivity|]. unfold small; cbn [line_of].
      split; [lia|]. intros Ha. apply (line_prefix_ascii l b y); auto. inversion Ha as [|? ? [A1 A2] _]; subst.
      apply Forall_app; split; auto. apply Forall_app; split; auto. repeat constructor; cbn; lia.
    + rewrite <- app_assoc, cut_line_text by assumption.
      destruct l as [|c l0] eqn:El; [destruct nm; discriminate|]. rewrite <- El in *. clear El c l0.
      rewrite (proj2 (parse_header_iff l (header_from nm) v)) by (exists nm; auto).
      destruct (IH (n + len l + 2) (add_header m (header_from nm) v) b' x Hb) as [(p & P1 & P2 & P3)|(-> & ->)].
      * rewrite len_app. change (len crlf) with 2. lia.
      * left. exists p. split; auto. split; auto. intros Ha. apply P3. now inversion Ha.
      * right. rewrite <- !app_assoc. auto.
Qed.

(** Prefixes of a whole message, given what happens in the body. *)
Lemma msg_prefix {T} (pf : bytes -> perr + T) to_eof l t ps wire rest :
  text l -> pf l = inr t -> Forall header_ok ps -> head_fits l ps ->
  (forall b x, wire ++ rest = b ++ x ->
     good True (batch_after_headers to_eof t (from_pairs (map header_pair ps)) b)) ->
  forall b x, (l ++ crlf ++ header_lines ps ++ crlf ++ wire) ++ rest = b ++ x ->
  good (ascii l /\ headers_ascii ps) (batch_msg pf to_eof b).
Proof.
  intros Hl Hp Hps (F1 & F2 & F3) Hbody b x H.
  rewrite <- !app_assoc in H. rewrite (app_assoc l) in H.
  apply prefix_cases in H as [(y & Hy & Hb)|(b1 & -> & Hb)].
  - destruct (line_prefix l b y Hl Hb Hy) as [H1 H2].
    unfold batch_msg, batch_first. rewrite cut_line_none by assumption. cbn [obind].
    unfold good, in_limits, small, clean; cbn [line_of]. split; [lia|].
    intros [Ha _]. exact (line_prefix_ascii l b y Ha Hb).
  - rewrite <- app_assoc. rewrite (app_assoc _ crlf) in Hb.
    apply prefix_cases in Hb as [(y & Hy & Hb)|(b2 & -> & Hb)].
    + destruct (headers_prefix ps Hps F2 0 [] b1 y Hb F3) as [(p & E & Hs & Hu)|[-> ->]]; [|congruence].
      unfold batch_msg, batch_first. rewrite cut_line_text, Hp by assumption. cbn [obind].
      rewrite E. split; [exact Hs|]. intros [_ Ha]. exact (Hu Ha).
    + rewrite <- app_assoc. rewrite (batch_msg_head _ _ _ t) by assumption.
      destruct (Hbody _ _ Hb) as [B1 B2]. split; auto.
Qed.

Lemma good_omap {A B} (f : A -> B) P o : good P (omap f o) <-> good P o.
Proof. unfold good. now rewrite in_limits_omap, clean_omap. Qed.

Lemma body_prefix {T} to_eof (t : T) ps wire body rest b x :
  body_syntax ps (fun w body => to_eof = false /\ w = [] /\ body = []) wire body ->
  body_fits ps wire -> wire ++ rest = b ++ x ->
  good True (batch_after_headers to_eof t (from_pairs (map header_pair ps)) b).
Proof.
  intros Hb [F1 F2] H. unfold batch_after_headers.
  pose proof (headers_are_pairs ps) as Hh.
  destruct Hb as [v vs n w H1 H2 H3 H4|v vs w bd H1 H2 H3 H4|vs w bd H1 H2 H3 (-> & -> & ->)].
  - rewrite (framing_complete_sized _ _ _ _ _ _ Hh H1 H2 H3). cbn [batch_body].
    specialize (F1 _ _ H1). destruct (len b <? n); cbn [omap]; [|split; [exact I|intros _; exact I]].
    incomplete; [lia|reflexivity].
  - rewrite (framing_complete_chunked _ _ _ _ _ Hh H1 H2 H3). cbn [batch_body].
    apply good_omap. specialize (F2 H1). destruct F2 as [->|[F2 F3]].
    { exfalso. inversion H4 as [? ? E|? ? ? ? ? ? ? ? ? E]; apply (f_equal (@List.length byte)) in E; rewrite !app_length in E; cbn in E; lia. }
    apply prefix_cases in H as [(y & Hy & H)|(b' & -> & H)].
    + eapply (chunks_prefix w); eauto.
    + rewrite (batch_chunks_complete _ _ H4). split; [exact I|intros _; exact I].
  - rewrite (framing_complete_default _ _ _ _ Hh H1 H2 H3). split; [exact I|intros _; exact I].
Qed.

Lemma small_request_syntax w m u ps body : small_request w m u ps body -> request_syntax w m u ps body.
Proof. intros (l & wire & H1 & H2 & H3 & H4 & H5 & _). exists l, wire. auto. Qed.
Lemma small_response_syntax w c ps body : small_response w c ps body -> response_syntax w c ps body.
Proof. intros (l & wire & H1 & H2 & H3 & H4 & H5 & _). exists l, wire. auto. Qed.
Lemma small_response_eof_syntax w c ps body : small_response_eof w c ps body -> response_syntax_eof w c ps body.
Proof. intros (l & H1 & H2 & H3 & H4 & H5 & H6 & _). exists l. auto 10. Qed.

Lemma request_prefixes w m u ps body rest b x :
  small_request w m u ps body -> w ++ rest = b ++ x -> good (head_ascii w ps) (batch_request b).
Proof.
  intros (l & wire & H1 & H2 & H3 & H4 & -> & F1 & F2) Hb.
  unfold batch_request. apply good_omap.
  assert (good (ascii l /\ headers_ascii ps) (batch_msg parse_request_line false b)) as [G1 G2].
  { eapply (msg_prefix _ _ l (m, u) ps wire rest); eauto; [now apply parse_request_line_iff|].
    intros b' x' Hb'. eapply (body_prefix _ _ _ wire body); eauto.
    destruct H4 as [v vs n w|v vs w bd|vs w bd ? ? ? (-> & ->)].
    - econstructor 1; eauto.
    - econstructor 2; eauto.
    - econstructor 3; eauto. }
  split; auto. intros [A1 A2]. apply G2. split; auto. eapply A2; eauto.
Qed.

Lemma response_prefixes w code ps body rest b x :
  small_response w code ps body -> w ++ rest = b ++ x -> good (head_ascii w ps) (batch_response b).
Proof.
  intros (l & wire & H1 & H2 & H3 & H4 & -> & F1 & F2) Hb.
  apply parse_status_line_iff in H1 as (st & Hst & Hc).
  unfold batch_response. apply good_omap.
  assert (good (ascii l /\ headers_ascii ps) (batch_msg parse_status_line true b)) as [G1 G2].
  { eapply (msg_prefix _ _ l st ps wire rest); eauto.
    intros b' x' Hb'. eapply (body_prefix _ _ _ wire body); eauto.
    destruct H4 as [v vs n w|v vs w bd|vs w bd ? ? ? []].
    - econstructor 1; eauto.
    - econstructor 2; eauto. }
  split; auto. intros [A1 A2]. apply G2. split; auto. eapply A2; eauto.
Qed.

Lemma response_eof_prefixes w code ps body b x :
  small_response_eof w code ps body -> w = b ++ x -> good (head_ascii w ps) (batch_response b).
Proof.
  intros (l & H1 & H2 & H3 & H4 & (vs & H5 & H6) & -> & F1 & F2) Hb.
  apply parse_status_line_iff in H1 as (st & Hst & Hc).
  unfold batch_response. apply good_omap.
  assert (good (ascii l /\ headers_ascii ps) (batch_msg parse_status_line true b)) as [G1 G2].
  { apply (msg_prefix _ _ l st ps body []) with (x := x); auto; [|rewrite app_nil_r; exact Hb].
    intros b' x' Hb'. rewrite app_nil_r in Hb'. unfold batch_after_headers.
    rewrite (framing_complete_default _ _ _ _ (headers_are_pairs ps) H4 H5 H6). cbn [batch_body omap].
    split; [|intros _; exact I]. unfold in_limits. subst body. rewrite len_app in F2. lia. }
  split; auto. intros [A1 A2]. apply G2. split; auto. eapply A2; eauto.
Qed.

Lemma request_always_in_limits w m u ps body rest :
  small_request w m u ps body -> always_in_limits batch_request (w ++ rest).
Proof. intros H b x E. eapply request_prefixes; eauto. Qed.
Lemma response_always_in_limits w c ps body rest :
  small_response w c ps body -> always_in_limits batch_response (w ++ rest).
Proof. intros H b x E. eapply response_prefixes; eauto. Qed.
Lemma response_eof_always_in_limits w c ps body :
  small_response_eof w c ps body -> always_in_limits batch_response w.
Proof. intros H b x E. eapply response_eof_prefixes; eauto. Qed.

Lemma pending_app a b : pending (a ++ b) = pending a ++ pending b.
Proof. induction a as [|[bs|k] a IH]; cbn; rewrite ?IH, ?app_assoc; auto. Qed.

Lemma request_blocks_clean w m u ps body rest s :
  small_request w m u ps body -> head_ascii w ps -> pending s = w ++ rest ->
  blocks_in_clean_lines batch_request s.
Proof.
  intros H A E s1 s2 ->. rewrite pending_app in E. symmetry in E.
  apply (request_prefixes _ _ _ _ _ _ _ _ H E); auto.
Qed.
Lemma response_blocks_clean w c ps body rest s :
  small_response w c ps body -> head_ascii w ps -> pending s = w ++ rest ->
  blocks_in_clean_lines batch_response s.
Proof.
  intros H A E s1 s2 ->. rewrite pending_app in E. symmetry in E.
  apply (response_prefixes _ _ _ _ _ _ _ H E); auto.
Qed.
Lemma response_eof_blocks_clean w c ps body s :
  small_response_eof w c ps body -> head_ascii w ps -> pending s = w ->
  blocks_in_clean_lines batch_response s.
Proof.
  intros H A E s1 s2 ->. rewrite pending_app in E. symmetry in E.
  apply (response_eof_prefixes _ _ _ _ _ _ H E); auto.
Qed.
