(** One call of each parser, compared with the reference parser. *)
From Coq Require Import List Ascii String NArith ZArith Bool Lia.
From Coq Require Import ZifyBool ZifyNat ZifyN.
From Verif.Model Require Import Bytes Io Common Parse.
From Verif.Spec Require Import Batch Stream.
From Verif.Proofs Require Import BytesFacts IoFacts.
Import ListNotations.
Local Open Scope N_scope.

(** ** Lines *)

Definition line_inv (p : bytes) : Prop := utf8 p = true /\ noLF p /\ len p <= 512.

Lemma line_inv_nil : line_inv [].
Proof. repeat split; [apply noLF_nil|cbn; lia]. Qed.

Lemma with_limit_eq {T S} l ls (call : list N -> out T S) r ls' s' :
  with_limit l ls call = (r, ls', s') ->
  exists ls1, call (l :: ls) = (r, ls1, s') /\ ls' = tl ls1.
Proof.
  unfold with_limit. destruct (call (l :: ls)) as [[r1 ls1] s1]. intros H; inversion H; subst. eauto.
Qed.

Lemma fits_cons l ls w : fits w (l :: ls) -> len w <= l /\ fits w ls.
Proof. unfold fits. rewrite Forall_cons_iff. auto. Qed.

Lemma limited_cons l ls w : limited (l :: ls) w -> l = len w \/ limited ls w.
Proof. intros (x & [->|H] & E); [left|right]; auto. exists x; auto. Qed.

Lemma crlf_parse_spec dbg p ls s r ls' s' :
  line_inv p ->
  crlf_parse dbg p ls s = (r, ls', s') ->
  exists w, ls' = dec_lims w ls /\ fits w ls /\ len p + len w <= 512 /\
  match r with
  | PDone l => takes s w s' /\ (forall x, cut_line (p ++ w ++ x) = Some (inr l, x))
               /\ len p + len w = len l + 2
  | PErr e =>
      (takes s w s' /\ forall x, cut_line (p ++ w ++ x) = Some (inl e, x))
      \/ (e = InvalidUtf8 /\ noLF w /\ stops s w InvalidData s')
      \/ (e = InvalidUtf8 /\ noLF w /\ utf8 w = false /\ takes s w (RData [] :: s'))
  | PIo p' k =>
      noLF w /\
      ((((stops s w k s' /\ k <> Interrupted) \/ (k = LimitReached /\ takes s w s' /\ (len p + len w = 512 \/ limited ls w)))
        /\ p' = (if utf8 w then p ++ w else p))
       \/ (k = UnexpectedEof /\ takes s w (RData [] :: s') /\ utf8 w = true
           /\ p' = match str_pop (p ++ w) with Some (q, _) => q | None => p ++ w end))
  | PPanic => False
  end.
Proof.
  intros (Hu & Hn & Hl). unfold crlf_parse, usub, MAX_LINE_SIZE.
  replace (len p <=? 512) with true by lia.
  destruct (with_limit (512 - len p) ls (fun ls' => line_deframe p ls' s)) as [[r0 ls0] s0] eqn:E.
  apply with_limit_eq in E as (ls1 & E & ->).
  unfold line_deframe, read_line in E.
  destruct (read_until (S (mu s)) (512 - len p :: ls) s []) as [[[ru acc] lsu] su] eqn:Eu.
  apply read_until_spec in Eu as (w & -> & -> & Fit & Hr); [|lia].
  cbn [app] in E.
  apply fits_cons in Fit as [Fit1 Fit2].
  assert (tl_eq : tl (dec_lims w (512 - len p :: ls)) = dec_lims w ls) by reflexivity.
  intros H. exists w.
  assert (Haux : ls' = dec_lims w ls /\ s' = su).
  { destruct (utf8 w).
    - destruct ru as [k|].
      + inversion E; subst. destruct k; inversion H; subst; auto.
      + destruct (str_pop (p ++ w)) as [[rest ch]|]; [destruct (beqb ch [LF])|]; inversion E; subst;
          [destruct (parse_crlf_line rest)| |]; inversion H; subst; auto.
    - destruct ru as [k|]; inversion E; subst; [destruct k|]; inversion H; subst; auto. }
  destruct Haux as [-> ->]. split; auto. split; auto. split; [lia|].
  destruct ru as [k|].
  - (* read_line failed *)
    destruct Hr as (Hw & Hs & Hk).
    assert (Hs' : (stops s w k su /\ k <> Interrupted) \/ k = LimitReached /\ takes s w su /\ (len p + len w = 512 \/ limited ls w)).
    { destruct Hs as [Hs|(-> & Hs & Hlim)]; auto. right. repeat split; auto.
      apply limited_cons in Hlim as [Hlim|Hlim]; auto. left. lia. }
    assert (E' : (PIo (if utf8 w then p ++ w else p) k, dec_lims w (512 - len p :: ls), su) = (r0, ls1, s0)).
    { destruct (utf8 w); exact E. }
    inversion E'; subst. clear E E'.
    destruct k; inversion H; subst; clear H; auto.
    destruct Hs' as [[Hs' _]|(? & _)]; [|discriminate]. auto.
  - destruct Hr as [(w0 & -> & Hw0 & Htk)|(Hw & Htk)].
    + (* a line *)
      assert (Ew : forall x, p ++ (w0 ++ [LF]) ++ x = (p ++ w0) ++ LF :: x)
        by (intros; rewrite <- !app_assoc; reflexivity).
      assert (Hpw : noLF (p ++ w0)) by now apply noLF_app.
      rewrite utf8_snoc_ascii in E by (cbn; lia).
      destruct (utf8 w0) eqn:Uw.
      * rewrite app_assoc, str_pop_snoc in E by reflexivity. cbn [beqb] in E.
        rewrite Ascii.eqb_refl in E. cbn [andb] in E. inversion E; subst.
        assert (Upw : utf8 (p ++ w0) = true) by now apply utf8_app_true.
        rewrite parse_crlf_line_strip in H.
        destruct (strip_cr (p ++ w0)) as [t|] eqn:Es; inversion H; subst; clear H.
        -- split; auto. split.
           ++ intros x. rewrite Ew, cut_line_app, Upw, Es by assumption. reflexivity.
           ++ apply strip_cr_some in Es. apply (f_equal len) in Es. rewrite !len_app in *. cbn in *. lia.
        -- left. split; auto. intros x. rewrite Ew, cut_line_app, Upw, Es by assumption. reflexivity.
      * inversion E; subst. inversion H; subst. left. split; auto. intros x.
        rewrite Ew, cut_line_app by assumption. rewrite utf8_app by assumption. rewrite Uw. reflexivity.
    + (* end of stream *)
      destruct (utf8 w) eqn:Uw.
      * assert (Hpw : noLF (p ++ w)) by now apply noLF_app.
        destruct (str_pop (p ++ w)) as [[rest ch]|] eqn:Ep.
        -- destruct (beqb ch [LF]) eqn:Eb.
           ++ exfalso. apply beqb_eq in Eb. subst ch. apply str_pop_some in Ep as [Ep _].
              apply Hpw. rewrite Ep. apply in_or_app. right. now left.
           ++ inversion E; subst. inversion H; subst. split; auto.
        -- inversion E; subst. inversion H; subst. split; auto.
      * inversion E; subst. inversion H; subst. right; right; auto.
Qed.

(** The line state after a blocked call. *)
Lemma line_inv_step p w : line_inv p -> noLF w -> utf8 w = true -> len p + len w <= 512 ->
  line_inv (p ++ w).
Proof.
  intros (? & ? & ?) ? ? ?. repeat split; [now apply utf8_app_true|now apply noLF_app|rewrite len_app; lia].
Qed.

(** The line kept by a call that did not complete, whatever the reason. *)
Definition kept (p w : bytes) (p' : bytes) : Prop :=
  p' = p ++ w /\ utf8 w = true \/ p' = p \/ p' = match str_pop (p ++ w) with Some (q, _) => q | None => p ++ w end /\ utf8 w = true.

Lemma line_inv_kept p w p' : line_inv p -> noLF w -> len p + len w <= 512 -> kept p w p' -> line_inv p'.
Proof.
  intros Hp Hw Hl [[-> Hu]|[->|[-> Hu]]]; auto using line_inv_step.
  pose proof (line_inv_step p w Hp Hw Hu Hl) as Hpw.
  destruct (str_pop (p ++ w)) as [[q ch]|] eqn:E; auto.
  destruct Hpw as (Hu1 & Hn1 & Hl1). split; [eapply str_pop_utf8; eauto|].
  apply str_pop_some in E as [E _]. rewrite E in *. split; [now apply noLF_app in Hn1|].
  rewrite len_app in Hl1. lia.
Qed.

Lemma case_kept (P Q R : Prop) (p w p' : bytes) :
  (P /\ p' = (if utf8 w then p ++ w else p))
   \/ (Q /\ R /\ utf8 w = true
           /\ p' = match str_pop (p ++ w) with Some (q, _) => q | None => p ++ w end) ->
  kept p w p'.
Proof.
  intros [[_ ->]|(_ & _ & Hu & ->)].
  - destruct (utf8 w) eqn:E; [left|right; left]; auto.
  - right; right. auto.
Qed.

(** ** Reference parser: unfolding equations and counts *)

Lemma cut_line_length b t r : cut_line b = Some (t, r) -> (List.length r < List.length b)%nat.
Proof.
  unfold cut_line. destruct (cut_lf b) as [[l r0]|] eqn:E; [|discriminate].
  apply cut_lf_some in E as [-> _]. intros H; inversion H; subst. rewrite app_length. cbn. lia.
Qed.

Lemma batch_headers_fuel f1 : forall f2 n m b,
  (List.length b < f1)%nat -> (List.length b < f2)%nat ->
  batch_headers_f f1 n m b = batch_headers_f f2 n m b.
Proof.
  induction f1 as [|f1 IH]; intros [|f2] n m b H1 H2; try lia. cbn [batch_headers_f].
  destruct (cut_line b) as [[[e|l] rest]|] eqn:E; auto. destruct l as [|c l]; auto.
  destruct (parse_header (c :: l)) as [e|[k v]]; auto. apply cut_line_length in E. apply IH; lia.
Qed.

Lemma batch_headers_eq n m b : batch_headers n m b =
  match cut_line b with
  | None => Incomplete (InHeaders (n + len b) b)
  | Some (inl e, _) => Bad e
  | Some (inr [], rest) => Complete m rest
  | Some (inr line, rest) =>
      match parse_header line with
      | inl e => Bad e
      | inr (k, v) => batch_headers (n + len line + 2) (add_header m k v) rest
      end
  end.
Proof.
  unfold batch_headers at 1. cbn [batch_headers_f].
  destruct (cut_line b) as [[[e|l] rest]|] eqn:E; auto. destruct l as [|c l]; auto.
  destruct (parse_header (c :: l)) as [e|[k v]]; auto. apply cut_line_length in E.
  apply batch_headers_fuel; lia.
Qed.

Lemma skipn_length_le {A} n (l : list A) : (List.length (skipn n l) <= List.length l)%nat.
Proof. rewrite skipn_length. lia. Qed.

Lemma batch_chunks_fuel f1 : forall f2 n body b,
  (List.length b < f1)%nat -> (List.length b < f2)%nat ->
  batch_chunks_f f1 n body b = batch_chunks_f f2 n body b.
Proof.
  induction f1 as [|f1 IH]; intros [|f2] n body b H1 H2; try lia. cbn [batch_chunks_f].
  destruct (cut_line b) as [[[e|l] rest]|] eqn:E; auto.
  destruct (parse_chunk_size l) as [e|size]; auto. apply cut_line_length in E.
  unfold batch_data. destruct (_ <? _); auto. unfold batch_tail.
  destruct (cut_line (skipn _ _)) as [[[e|l2] rest2]|] eqn:E2; auto.
  apply cut_line_length in E2. pose proof (skipn_length_le (N.to_nat size) ([] ++ rest)). cbn [app] in *.
  destruct l2; auto. destruct (size =? 0); auto. apply IH; lia.
Qed.

Lemma batch_tail_ext f1 f2 n body last b :
  (forall n body r, (List.length r < List.length b)%nat -> f1 n body r = f2 n body r) ->
  batch_tail f1 n body last b = batch_tail f2 n body last b.
Proof.
  intros H. unfold batch_tail. destruct (cut_line b) as [[[e|l2] rest2]|] eqn:E2; auto.
  destruct l2; auto. destruct last; auto. apply H. now apply cut_line_length in E2.
Qed.

Lemma batch_data_ext f1 f2 n body size got b :
  (forall n body r, (List.length r < List.length (got ++ b))%nat -> f1 n body r = f2 n body r) ->
  batch_data f1 n body size got b = batch_data f2 n body size got b.
Proof.
  intros H. unfold batch_data. destruct (_ <? _); auto. apply batch_tail_ext. intros. apply H.
  pose proof (skipn_length_le (N.to_nat size) (got ++ b)). lia.
Qed.

Lemma batch_chunks_eq n body b : batch_chunks n body b =
  match cut_line b with
  | None => Incomplete (InChunkLine (n + len b) b)
  | Some (inl e, _) => Bad e
  | Some (inr line, rest) =>
      match parse_chunk_size line with
      | inl e => Bad e
      | inr size => batch_data batch_chunks (n + len line + 2) body size [] rest
      end
  end.
Proof.
  unfold batch_chunks at 1. cbn [batch_chunks_f].
  destruct (cut_line b) as [[[e|l] rest]|] eqn:E; auto.
  destruct (parse_chunk_size l) as [e|size]; auto. apply cut_line_length in E.
  apply batch_data_ext. cbn [app]. intros. apply batch_chunks_fuel; lia.
Qed.

(** The count reported for an unfinished header block / chunked body. *)
Lemma batch_headers_count b : forall n m p, batch_headers n m b = Incomplete p ->
  exists q, p = InHeaders (n + len b) q.
Proof.
  induction b as [b IH] using (well_founded_induction (Wf_nat.well_founded_ltof _ (@List.length byte))).
  intros n m p. rewrite batch_headers_eq.
  destruct (cut_line b) as [[[e|l] rest]|] eqn:E.
  - discriminate.
  - destruct l as [|c l]; [discriminate|].
    destruct (parse_header (c :: l)) as [e|[k v]]; [discriminate|].
    intros H. assert (L := cut_line_length _ _ _ E). apply IH in H as (q & ->); [|exact L].
    apply cut_line_inr in E as (-> & _). exists q. f_equal. rewrite !len_app, !len_cons. lia.
  - intros H; inversion H; subst. eauto.
Qed.

Definition wire_of (p : progress) : option N :=
  match p with InChunkLine n _ | InChunkData n => Some n | _ => None end.

Lemma batch_tail_count f n body last b p :
  (forall n body r p, (List.length r < List.length b)%nat -> f n body r = Incomplete p -> wire_of p = Some (n + len r)) ->
  batch_tail f n body last b = Incomplete p -> wire_of p = Some (n + len b).
Proof.
  intros IH. unfold batch_tail. destruct (cut_line b) as [[[e|l] rest]|] eqn:E; try discriminate.
  - assert (L := cut_line_length _ _ _ E). destruct l; [|discriminate]. destruct last; [discriminate|].
    intros H. apply IH in H; [|exact L]. rewrite H. apply cut_line_inr in E as (-> & _).
    f_equal. rewrite !len_app, !len_cons. cbn. lia.
  - intros H; inversion H; subst. reflexivity.
Qed.

Lemma batch_data_count f n body size got b p :
  (forall n body r p, (List.length r < List.length (got ++ b))%nat -> f n body r = Incomplete p -> wire_of p = Some (n + len r)) ->
  batch_data f n body size got b = Incomplete p -> wire_of p = Some (n + len (got ++ b)).
Proof.
  intros IH. unfold batch_data. destruct (N.ltb_spec (len (got ++ b)) size).
  - intros H'; inversion H'; subst. reflexivity.
  - intros H'. apply batch_tail_count in H'.
    + rewrite H'. rewrite len_skipn. f_equal. lia.
    + intros n' body' r p' Hr. apply IH.
      pose proof (skipn_length_le (N.to_nat size) (got ++ b)). lia.
Qed.

Lemma batch_chunks_count b : forall n body p, batch_chunks n body b = Incomplete p ->
  wire_of p = Some (n + len b).
Proof.
  induction b as [b IH] using (well_founded_induction (Wf_nat.well_founded_ltof _ (@List.length byte))).
  intros n body p. rewrite batch_chunks_eq.
  destruct (cut_line b) as [[[e|l] rest]|] eqn:E; try discriminate.
  - destruct (parse_chunk_size l) as [e|size]; [discriminate|].
    intros H. assert (L := cut_line_length _ _ _ E). apply batch_data_count in H.
    + rewrite H. cbn [app]. apply cut_line_inr in E as (-> & _). f_equal. rewrite !len_app, !len_cons. lia.
    + cbn [app]. intros n' body' r p' Hr Hb. apply IH in Hb; [exact Hb|]. unfold Wf_nat.ltof. lia.
  - intros H; inversion H; subst. reflexivity.
Qed.

(** ** Calls *)

(** Unfinished, and not a body that may end with the stream. *)
Definition short {T} (o : outcome T) : Prop :=
  match o with Incomplete p => utf8 (line_of p) = true | _ => False end.
Definition stop_ok {T} (o : outcome T) (ls : list N) (s : stream) (w : bytes) (k : ekind) (s' : stream) : Prop :=
  (stops s w k s' /\ (k = Interrupted -> in_data o))
  \/ (k = LimitReached /\ takes s w s' /\ (~ in_limits o \/ limited ls w))
  \/ (k = UnexpectedEof /\ takes s w (RData [] :: s') /\ short o).

(** What a call may do, for a parser state with continuation [cont g st] (g: ghost byte count). *)
Definition call_ok {T S} (Inv : N -> S -> Prop) (cont : N -> S -> bytes -> outcome T)
  (g : N) (st : S) (ls : list N) (s : stream) (r : pres T S) (s' : stream) (w : bytes) : Prop :=
  match r with
  | PDone v =>
      (takes s w s' /\ forall x, cont g st (w ++ x) = Complete v x)
      \/ (takes s w (RData [] :: s') /\ exists n, cont g st w = AtEof v n)
  | PErr e =>
      (takes s w s' /\ forall x, cont g st (w ++ x) = Bad e)
      \/ (unfinished (cont g st w) /\ e = InvalidUtf8 /\
          (stops s w InvalidData s' \/ (takes s w (RData [] :: s') /\ ~ clean (cont g st w))))
  | PIo st' k =>
      unfinished (cont g st w) /\ stop_ok (cont g st w) ls s w k s' /\
      (exists g', Inv g' st') /\
      (k <> UnexpectedEof -> clean (cont g st w) ->
       exists g', Inv g' st' /\ forall x, cont g st (w ++ x) = cont g' st' x)
  | PPanic => takes s w s' /\ unfinished (cont g st w) /\ ~ in_limits (cont g st w)
  end.

Lemma stops_step s w1 s1 w2 k s' : takes s w1 s1 -> stops s1 w2 k s' -> stops s (w1 ++ w2) k s'.
Proof.
  intros H [H2|(-> & H2 & ->)]; [left|right; repeat split; auto]; eapply takes_trans; eauto.
Qed.

Lemma stop_ok_step {T} (o : outcome T) ls s w1 s1 w2 k s' :
  takes s w1 s1 -> fits w1 ls ->
  stop_ok o (dec_lims w1 ls) s1 w2 k s' -> stop_ok o ls s (w1 ++ w2) k s'.
Proof.
  intros H F [H2|[(-> & H2 & H3)|(-> & H2 & Hc)]].
  - left. split; [eapply stops_step|]; eauto; apply H2.
  - right; left. split; auto. split; [eapply takes_trans; eauto|].
    destruct H3 as [?|?]; auto. right. now apply limited_app.
  - right; right. split; auto. split; auto. eapply takes_trans; eauto.
Qed.

Lemma call_ok_step {T S} (Inv : N -> S -> Prop) (cont : N -> S -> bytes -> outcome T)
  g st g2 st2 ls s w1 s1 r s' w2 :
  takes s w1 s1 -> fits w1 ls ->
  (forall x, cont g st (w1 ++ x) = cont g2 st2 x) ->
  call_ok Inv cont g2 st2 (dec_lims w1 ls) s1 r s' w2 ->
  call_ok Inv cont g st ls s r s' (w1 ++ w2).
Proof.
  intros Ht F E. unfold call_ok.
  assert (E0 : cont g st (w1 ++ w2) = cont g2 st2 w2) by apply E.
  assert (E1 : forall x, cont g st ((w1 ++ w2) ++ x) = cont g2 st2 (w2 ++ x))
    by (intros; rewrite <- app_assoc; apply E).
  destruct r as [v|st' k|e|].
  - intros [(H1 & H2)|(H1 & n & H2)]; [left|right].
    + split; [eapply takes_trans; eauto|]. intros. now rewrite E1.
    + split; [eapply takes_trans; eauto|]. exists n. now rewrite E0.
  - rewrite E0. intros (H1 & H2 & H2' & H3). split; auto. split; [eapply stop_ok_step; eauto|].
    split; auto. intros Hk Hc. destruct (H3 Hk Hc) as (g' & ? & ?). exists g'. split; auto. intros. now rewrite E1.
  - rewrite E0. intros [(H1 & H2)|(H1 & H2 & H3)]; [left|right].
    + split; [eapply takes_trans; eauto|]. intros. now rewrite E1.
    + split; auto. split; auto. destruct H3 as [H3|(H3 & H4)]; [left|right].
      * eapply stops_step; eauto.
      * split; auto. eapply takes_trans; eauto.
  - rewrite E0. intros (H1 & H2 & H3). split; auto. eapply takes_trans; eauto.
Qed.

(** ** Headers *)

Definition hdr_inv (g : N) (st : hdr_st) : Prop := line_inv (h_line st) /\ h_read st <= g.
Definition hdr_cont (g : N) (st : hdr_st) (b : bytes) : outcome header_map :=
  batch_headers g (h_map st) (h_line st ++ b).

(** A line parser result lifted to a parser whose current line is p and which reports
    [pr (bytes of line)] when unfinished. *)
Lemma unfinished_line {T} (f : bytes -> outcome T) (pr : bytes -> progress) p w :
  noLF p -> noLF w ->
  (forall b, cut_line b = None -> f b = Incomplete (pr b)) ->
  f (p ++ w) = Incomplete (pr (p ++ w)).
Proof. intros. apply H1. apply cut_line_none. now apply noLF_app. Qed.

Lemma hdr_cont_nolf g st w : noLF (h_line st) -> noLF w ->
  hdr_cont g st w = Incomplete (InHeaders (g + len (h_line st ++ w)) (h_line st ++ w)).
Proof.
  intros. unfold hdr_cont. rewrite batch_headers_eq, cut_line_none by now apply noLF_app. reflexivity.
Qed.

Lemma not_small_line (o : progress) : 512 <= len (line_of o) -> ~ small o.
Proof. intros H [H1 _]. lia. Qed.

Lemma hdr_loop_spec fuel dbg : forall st ls s r ls' s' g,
  (mu s < fuel)%nat -> hdr_inv g st ->
  hdr_loop fuel dbg st ls s = (r, ls', s') ->
  exists w, ls' = dec_lims w ls /\ fits w ls /\ call_ok hdr_inv hdr_cont g st ls s r s' w.
Proof.
  induction fuel as [|f IH]; intros st ls s r ls' s' g Hf Hinv; [lia|].
  cbn [hdr_loop]. destruct Hinv as [Hl Hr].
  destruct (crlf_parse dbg (h_line st) ls s) as [[r1 ls1] s1] eqn:E.
  apply crlf_parse_spec in E as (w & -> & Fit & Hlen & Hcase); [|assumption].
  destruct Hl as (Hu & Hn & Hll).
  destruct r1 as [line|p' k|e|].
  - destruct Hcase as (Htk & Hcut & Hcount).
    destruct line as [|c line].
    + intros H; inversion H; subst. exists w. split; auto. split; auto. left. split; auto.
      intros x. unfold hdr_cont. rewrite batch_headers_eq, Hcut. reflexivity.
    + destruct (parse_header (c :: line)) as [e|[hk hv]] eqn:Eh.
      * intros H; inversion H; subst. exists w. split; auto. split; auto. left. split; auto.
        intros x. unfold hdr_cont. rewrite batch_headers_eq, Hcut, Eh. reflexivity.
      * intros H. set (st2 := mk_hdr [] _ _) in H.
        assert (Hw : w <> []).
        { intros ->. specialize (Hcut []). rewrite !app_nil_r in Hcut. now rewrite cut_line_none in Hcut. }
        pose proof (takes_nil_mu _ _ _ Htk Hw).
        apply IH with (g := g + len (c :: line) + 2) in H as (w2 & -> & Fit2 & Hok); [|lia|].
        -- exists (w ++ w2). rewrite dec_lims_app. split; auto. split; [now apply fits_app|].
           eapply call_ok_step; eauto. intros x. unfold hdr_cont. cbn [h_map h_line st2 app].
           rewrite batch_headers_eq, Hcut, Eh. reflexivity.
        -- split; [apply line_inv_nil|]. cbn [h_read st2]. lia.
  - destruct Hcase as (Hw & Hcase). intros H; inversion H; subst. exists w. split; auto. split; auto.
    unfold call_ok. rewrite hdr_cont_nolf by assumption.
    split; [exact I|]. split.
    + destruct Hcase as [[[[Hs Hi]|(-> & Hs & Hlim)] _]|(-> & Hs & Uw & _)].
      * left. split; [auto|intros; congruence].
      * right; left. split; auto. split; auto. destruct Hlim as [Hlim|]; auto. left.
        apply not_small_line. cbn. rewrite len_app. lia.
      * right; right. repeat split; auto. cbn. now apply utf8_app_true.
    + split. { exists g. split; [|assumption]. apply (line_inv_kept (h_line st) w); auto.
               { repeat split; auto. } { eapply case_kept; eassumption. } }
      intros Hk Hc. cbn in Hc. rewrite utf8_app in Hc by assumption.
      destruct Hcase as [[_ ->]|(-> & _)]; [|congruence]. rewrite Hc.
      exists g. split.
      * split; [|assumption]. cbn. apply line_inv_step; auto. repeat split; auto.
      * intros x. unfold hdr_cont. cbn. now rewrite app_assoc.
  - intros H; inversion H; subst. exists w. split; auto. split; auto.
    destruct Hcase as [(Htk & Hcut)|[(-> & Hw & Hs)|(-> & Hw & Uw & Htk)]].
    + left. split; auto. intros x. unfold hdr_cont. rewrite batch_headers_eq, Hcut. reflexivity.
    + right. rewrite hdr_cont_nolf by assumption. repeat split; auto.
    + right. rewrite hdr_cont_nolf by assumption. repeat split; auto. right. split; auto.
      cbn. rewrite utf8_app by assumption. congruence.
  - destruct Hcase.
Qed.

Lemma usub_cases dbg a b :
  match usub dbg a b with
  | None => a < b
  | Some l => (b <= a /\ l = a - b) \/ a < b
  end.
Proof. unfold usub. destruct (N.leb_spec b a); [auto|]. destruct dbg; auto. Qed.

Lemma call_ok_unlimit {T S} (Inv : N -> S -> Prop) (cont : N -> S -> bytes -> outcome T)
  g st l ls s r s' w :
  (l = len w -> unfinished (cont g st w) -> ~ in_limits (cont g st w)) ->
  call_ok Inv cont g st (l :: ls) s r s' w -> call_ok Inv cont g st ls s r s' w.
Proof.
  intros Hl. unfold call_ok. destruct r as [v|st' k|e|]; auto.
  intros (H1 & H2 & H3). split; auto. split; auto.
  destruct H2 as [H2|[(-> & H2 & H4)|H2]]; [now left| |now right; right].
  right; left. split; auto. split; auto. destruct H4 as [H4|H4]; auto.
  apply limited_cons in H4 as [H4|H4]; auto.
Qed.

Lemma hdr_parse_spec dbg st ls s r ls' s' g :
  hdr_inv g st ->
  hdr_parse dbg st ls s = (r, ls', s') ->
  exists w, ls' = dec_lims w ls /\ fits w ls /\ call_ok hdr_inv hdr_cont g st ls s r s' w
  /\ (h_read st <= 4096 -> len w + h_read st <= 4096).
Proof.
  intros Hinv. unfold hdr_parse. pose proof (usub_cases dbg MAX_HEADERS_SIZE (h_read st)) as U.
  unfold MAX_HEADERS_SIZE in *.
  destruct (usub dbg 4096 (h_read st)) as [lim|].
  - intros H. apply with_limit_eq in H as (ls1 & H & ->).
    apply hdr_loop_spec with (g := g) in H as (w & -> & Fit & Hok); [|lia|assumption].
    apply fits_cons in Fit as [Fit1 Fit2]. exists w. split; [reflexivity|]. split; [assumption|].
    split; [|lia].
    eapply call_ok_unlimit; [|eassumption]. intros -> Hun.
    destruct (hdr_cont g st w) as [| |v n|] eqn:Ec; try destruct Hun.
    + apply batch_headers_count in Ec as (q & ->). cbn. intros [_ Hsm]. rewrite len_app in Hsm.
      destruct Hinv as [_ Hr]. lia.
    + unfold hdr_cont in Ec. exfalso. revert Ec. clear. generalize (h_line st ++ w) g (h_map st).
      induction l as [b IH] using (well_founded_induction (Wf_nat.well_founded_ltof _ (@List.length byte))).
      intros n0 m. rewrite batch_headers_eq.
      destruct (cut_line b) as [[[e|l] rest]|] eqn:E; try discriminate.
      destruct l; [discriminate|]. destruct (parse_header _) as [|[]]; [discriminate|].
      apply IH. now apply cut_line_length in E.
  - intros H; inversion H; subst. exists []. rewrite dec_lims_nil. split; auto. split; [apply fits_nil|].
    destruct Hinv as [(Hu & Hn & Hll) Hr]. split; [|lia].
    unfold call_ok. rewrite hdr_cont_nolf by auto using noLF_nil. repeat split; [constructor|].
    cbn. intros [_ Hsm]. lia.
Qed.

(** ** Chunked bodies *)

Definition chunk_cont (g : N) (c : chunks_st) (b : bytes) : outcome bytes :=
  match c_state c with
  | CSize p => batch_chunks g (c_body c) (p ++ b)
  | CData d => batch_data batch_chunks g (c_body c) (bd_size d) (bd_got d) b
  | CTail p last => batch_tail batch_chunks g (c_body c) last (p ++ b)
  | CFinished => Complete (c_body c) b
  end.

Definition chunk_state_inv (st : chunk_state) : Prop :=
  match st with
  | CSize p | CTail p _ => line_inv p
  | CData d => len (bd_got d) <= bd_size d
  | CFinished => True
  end.
Definition chunk_inv (g : N) (c : chunks_st) : Prop :=
  chunk_state_inv (c_state c) /\ len (c_body c) <= g.
(** Between calls the state is never a completed one. *)
Definition chunk_inv_s (g : N) (c : chunks_st) : Prop :=
  chunk_inv g c /\
  match c_state c with
  | CData d => len (bd_got d) < bd_size d
  | CFinished => False
  | _ => True
  end.

Lemma batch_data_app f n body size got b x :
  batch_data f n body size got (b ++ x) = batch_data f n body size (got ++ b) x.
Proof. unfold batch_data. now rewrite app_assoc. Qed.


Lemma chunk_line_unfinished g c p w :
  (c_state c = CSize p \/ exists last, c_state c = CTail p last) -> noLF p -> noLF w ->
  chunk_cont g c w = Incomplete (InChunkLine (g + len (p ++ w)) (p ++ w)).
Proof.
  intros Hc Hp Hw. assert (Hn : noLF (p ++ w)) by now apply noLF_app.
  unfold chunk_cont. destruct Hc as [->|(last & ->)].
  - now rewrite batch_chunks_eq, cut_line_none.
  - unfold batch_tail. now rewrite cut_line_none.
Qed.

(** A line call that does not complete, in a chunk state. *)
Lemma chunk_line_io body st st' p p' k g ls s s' w :
  line_inv p -> len body <= g ->
  (st p = CSize p \/ exists last, st p = CTail p last) ->
  st' = st p' ->
  (forall q, line_inv q -> chunk_inv_s g (mk_chunks body (st q))) ->
  (forall q x y, chunk_cont g (mk_chunks body (st q)) (x ++ y) = chunk_cont g (mk_chunks body (st (q ++ x))) y) ->
  len p + len w <= 512 -> noLF w ->
  ((((stops s w k s' /\ k <> Interrupted) \/ (k = LimitReached /\ takes s w s' /\ (len p + len w = 512 \/ limited ls w)))
        /\ p' = (if utf8 w then p ++ w else p))
   \/ (k = UnexpectedEof /\ takes s w (RData [] :: s') /\ utf8 w = true
           /\ p' = match str_pop (p ++ w) with Some (q, _) => q | None => p ++ w end)) ->
  call_ok chunk_inv_s chunk_cont g (mk_chunks body (st p)) ls s (PIo (mk_chunks body st') k) s' w.
Proof.
  intros (Hu & Hn & Hll) Hg Hst -> Hinv Happ Hlen Hw Hcase.
  assert (Ec := chunk_line_unfinished g (mk_chunks body (st p)) p w Hst Hn Hw).
  unfold call_ok. rewrite Ec. split; [exact I|]. split.
  - destruct Hcase as [[[[Hs Hi]|(-> & Hs & Hlim)] _]|(-> & Hs & Uw & _)].
    + left. split; [auto|intros; congruence].
    + right; left. split; auto. split; auto. destruct Hlim as [Hlim|]; auto. left.
      apply not_small_line. cbn. rewrite len_app. lia.
    + right; right. repeat split; auto. cbn. now apply utf8_app_true.
  - split. { exists g. apply Hinv. apply (line_inv_kept p w); auto.
             { repeat split; auto. } { eapply case_kept; eassumption. } }
    intros Hk Hc. cbn in Hc. rewrite utf8_app in Hc by assumption.
    destruct Hcase as [[_ ->]|(-> & _)]; [|congruence]. rewrite Hc.
    exists g. split.
    + apply Hinv. apply line_inv_step; auto. repeat split; auto.
    + intros x. apply Happ.
Qed.

Lemma chunk_line_err body st p e g ls s s' w :
  line_inv p ->
  (st = CSize p \/ exists last, st = CTail p last) ->
  (takes s w s' /\ forall x, cut_line (p ++ w ++ x) = Some (inl e, x))
  \/ (e = InvalidUtf8 /\ noLF w /\ stops s w InvalidData s')
  \/ (e = InvalidUtf8 /\ noLF w /\ utf8 w = false /\ takes s w (RData [] :: s')) ->
  call_ok chunk_inv_s chunk_cont g (mk_chunks body st) ls s (PErr e) s' w.
Proof.
  intros (Hu & Hn & Hll) Hst Hcase.
  destruct Hcase as [(Htk & Hcut)|Hcase].
  - left. split; auto. intros x. destruct Hst as [->|(last & ->)]; unfold chunk_cont; cbn [c_state c_body].
    + now rewrite batch_chunks_eq, Hcut.
    + unfold batch_tail. now rewrite Hcut.
  - assert (Hw : noLF w) by (destruct Hcase as [(_ & ? & _)|(_ & ? & _)]; assumption).
    right. rewrite (chunk_line_unfinished _ _ p) by assumption.
    destruct Hcase as [(-> & _ & Hs)|(-> & _ & Uw & Htk)]; repeat split; auto.
    right. split; auto. cbn. rewrite utf8_app by assumption. congruence.
Qed.

Lemma chunks_loop_spec fuel dbg : forall body st ls s r ls' s' g,
  (3 * mu s + match st with CSize _ => 3 | CData _ => 2 | CTail _ _ => 1 | CFinished => 1 end
   <= fuel)%nat ->
  chunk_inv g (mk_chunks body st) ->
  chunks_loop fuel dbg body st ls s = (r, ls', s') ->
  exists w, ls' = dec_lims w ls /\ fits w ls /\
    call_ok chunk_inv_s chunk_cont g (mk_chunks body st) ls s r s' w.
Proof.
  induction fuel as [|f IH]; intros body st ls s r ls' s' g Hf [Hinv Hg]; [destruct st; lia|].
  cbn [c_state c_body] in *. cbn [chunks_loop]. destruct st as [p|d|p last|].
  - (* size line *)
    unfold size_state. destruct (crlf_parse dbg p ls s) as [[r1 ls1] s1] eqn:E.
    apply crlf_parse_spec in E as (w & -> & Fit & Hlen & Hcase); [|assumption].
    assert (Hinv' := Hinv). destruct Hinv as (Hu & Hn & Hll).
    destruct r1 as [line|p' k|e|].
    + destruct Hcase as (Htk & Hcut & Hcount).
      destruct (parse_chunk_size line) as [e|size] eqn:Es.
      * intros H; inversion H; subst. exists w. split; auto. split; auto. left. split; auto.
        intros x. unfold chunk_cont. cbn [c_state c_body]. rewrite batch_chunks_eq, Hcut, Es. reflexivity.
      * assert (Hw : w <> []).
        { intros ->. specialize (Hcut []). rewrite !app_nil_r in Hcut. now rewrite cut_line_none in Hcut. }
        pose proof (takes_nil_mu _ _ _ Htk Hw).
        intros H0. apply IH with (g := g + len line + 2) in H0 as (w2 & -> & Fit2 & Hok); [|lia|].
        -- exists (w ++ w2). rewrite dec_lims_app. split; auto. split; [now apply fits_app|].
           eapply call_ok_step; eauto. intros x. unfold chunk_cont. cbn [c_state c_body bd_size bd_got].
           rewrite batch_chunks_eq, Hcut, Es. reflexivity.
        -- split; cbn; lia.
    + destruct Hcase as (Hw & Hcase). intros H; inversion H; subst. exists w. split; auto. split; auto.
      apply (chunk_line_io body CSize _ p p'); auto.
      * intros q Hq. repeat split; auto; apply Hq.
      * intros. unfold chunk_cont. cbn [c_state c_body]. now rewrite app_assoc.
    + intros H; inversion H; subst. exists w. split; auto. split; auto.
      eapply chunk_line_err; eauto.
    + destruct Hcase.
  - (* data *)
    unfold data_state, bytes_deframe. cbn in Hinv.
    destruct (bytes_loop (S (mu s)) (bd_size d) (bd_got d) ls s) as [[r1 ls1] s1] eqn:E.
    apply bytes_loop_spec in E as (w & -> & Fit & Hcase); [|lia|assumption].
    destruct r1 as [data|d' k|e|].
    + destruct Hcase as (-> & Hsz & Htk). intros H.
      pose proof (takes_mu _ _ _ Htk).
      set (last := match bd_got d ++ w with [] => true | _ => false end) in H.
      assert (El : (bd_size d =? 0) = last).
      { unfold last. destruct (bd_got d ++ w) eqn:Eg; rewrite <- Hsz; [reflexivity|]. rewrite len_cons. lia. }
      apply IH with (g := g + bd_size d) in H as (w2 & -> & Fit2 & Hok); [|lia|].
      * exists (w ++ w2). rewrite dec_lims_app. split; auto. split; [now apply fits_app|].
        eapply call_ok_step; eauto. intros x. unfold chunk_cont. cbn [c_state c_body app].
        rewrite batch_data_app. unfold batch_data. rewrite len_app, Hsz.
        replace (_ <? _) with false by lia. rewrite El, <- Hsz, firstn_len_app, skipn_len_app.
        reflexivity.
      * split; cbn; [apply line_inv_nil|]. rewrite len_app. lia.
    + destruct Hcase as (-> & Hlt & Hs). intros H; inversion H; subst. exists w. split; auto. split; auto.
      assert (Ec : chunk_cont g (mk_chunks body (CData d)) w
                   = Incomplete (InChunkData (g + len (bd_got d ++ w)))).
      { unfold chunk_cont, batch_data. cbn [c_state c_body]. replace (_ <? _) with true by lia. reflexivity. }
      unfold call_ok. rewrite Ec. split; [exact I|]. split.
      * destruct Hs as [Hs|[(-> & Hs & Hlim)|(-> & Hs)]]; [left|right;left|right;right]; cbn; auto.
      * split. { exists g. repeat split; cbn; [lia|assumption|assumption]. }
        intros Hk Hc. exists g. split.
        -- repeat split; cbn; [lia|assumption|assumption].
        -- intros x. unfold chunk_cont. cbn [c_state c_body]. apply batch_data_app.
    + destruct Hcase.
    + destruct Hcase.
  - (* tail *)
    unfold tail_state. destruct (crlf_parse dbg p ls s) as [[r1 ls1] s1] eqn:E.
    apply crlf_parse_spec in E as (w & -> & Fit & Hlen & Hcase); [|assumption].
    assert (Hinv' := Hinv). destruct Hinv as (Hu & Hn & Hll).
    destruct r1 as [line|p' k|e|].
    + destruct Hcase as (Htk & Hcut & Hcount).
      destruct line as [|c line].
      * assert (Hw : w <> []).
        { intros ->. specialize (Hcut []). rewrite !app_nil_r in Hcut. now rewrite cut_line_none in Hcut. }
        pose proof (takes_nil_mu _ _ _ Htk Hw).
        intros H0. apply IH with (g := g + 2) in H0 as (w2 & -> & Fit2 & Hok); [|destruct last; lia|].
        -- exists (w ++ w2). rewrite dec_lims_app. split; auto. split; [now apply fits_app|].
           eapply call_ok_step; eauto. intros x. unfold chunk_cont. cbn [c_state c_body].
           unfold batch_tail. rewrite Hcut. now destruct last.
        -- split; cbn; [|lia]. destruct last; cbn; auto using line_inv_nil.
      * intros H; inversion H; subst. exists w. split; auto. split; auto. left. split; auto.
        intros x. unfold chunk_cont, batch_tail. cbn [c_state c_body]. now rewrite Hcut.
    + destruct Hcase as (Hw & Hcase). intros H; inversion H; subst. exists w. split; auto. split; auto.
      apply (chunk_line_io body (fun q => CTail q last) _ p p'); eauto.
      * intros q Hq. repeat split; auto; apply Hq.
      * intros. unfold chunk_cont. cbn [c_state c_body]. now rewrite app_assoc.
    + intros H; inversion H; subst. exists w. split; auto. split; auto.
      eapply chunk_line_err; eauto.
    + destruct Hcase.
  - intros H; inversion H; subst. exists []. rewrite dec_lims_nil. split; auto. split; [apply fits_nil|].
    left. split; [constructor|]. reflexivity.
Qed.

Lemma chunk_cont_count g c b p : chunk_cont g c b = Incomplete p ->
  exists n, wire_of p = Some n /\ g + len b <= n.
Proof.
  unfold chunk_cont. destruct (c_state c) as [q|d|q last|]; intros H; [| | |discriminate].
  - apply batch_chunks_count in H. rewrite H. eexists; split; [reflexivity|]. rewrite len_app. lia.
  - apply batch_data_count in H. rewrite H. eexists; split; [reflexivity|]. rewrite len_app. lia.
    intros. now apply batch_chunks_count in H1.
  - apply batch_tail_count in H. rewrite H. eexists; split; [reflexivity|]. rewrite len_app. lia.
    intros. now apply batch_chunks_count in H1.
Qed.

Lemma batch_tail_not_eof f n body last b v k :
  (forall n body r, (List.length r < List.length b)%nat -> f n body r <> AtEof v k) ->
  batch_tail f n body last b <> AtEof v k.
Proof.
  intros IH. unfold batch_tail. destruct (cut_line b) as [[[e|l] rest]|] eqn:E; try discriminate.
  destruct l; try discriminate. destruct last; try discriminate. apply IH. now apply cut_line_length in E.
Qed.
Lemma batch_data_not_eof f n body size got b v k :
  (forall n body r, (List.length r < List.length (got ++ b))%nat -> f n body r <> AtEof v k) ->
  batch_data f n body size got b <> AtEof v k.
Proof.
  intros IH. unfold batch_data. destruct (_ <? _); try discriminate. apply batch_tail_not_eof.
  intros. apply IH. pose proof (skipn_length_le (N.to_nat size) (got ++ b)). lia.
Qed.
Lemma batch_chunks_not_eof b v k : forall n body, batch_chunks n body b <> AtEof v k.
Proof.
  induction b as [b IH] using (well_founded_induction (Wf_nat.well_founded_ltof _ (@List.length byte))).
  intros n body. rewrite batch_chunks_eq.
  destruct (cut_line b) as [[[e|l] rest]|] eqn:E; try discriminate.
  destruct (parse_chunk_size l); try discriminate. apply cut_line_length in E.
  apply batch_data_not_eof. cbn [app]. intros. apply IH. unfold Wf_nat.ltof. lia.
Qed.
Lemma chunk_cont_not_eof g c b v k : chunk_cont g c b <> AtEof v k.
Proof.
  unfold chunk_cont. destruct (c_state c) as [q|d|q last|]; [| | |discriminate].
  - apply batch_chunks_not_eof.
  - apply batch_data_not_eof. intros. apply batch_chunks_not_eof.
  - apply batch_tail_not_eof. intros. apply batch_chunks_not_eof.
Qed.

Lemma wire_not_small p n : wire_of p = Some n -> 3145728 <= n -> ~ small p.
Proof. destruct p; cbn; intros H; inversion H; subst; intros ? [_ ?]; lia. Qed.

(** ** Bodies *)

Definition body_cont (g : N) (st : body_st) (b : bytes) : outcome bytes :=
  match st with
  | BSized d =>
      if len (bd_got d ++ b) <? bd_size d then Incomplete (InSized (bd_size d) (len (bd_got d ++ b)))
      else Complete (firstn (N.to_nat (bd_size d)) (bd_got d ++ b))
                    (skipn (N.to_nat (bd_size d)) (bd_got d ++ b))
  | BUntilEof d => AtEof (d ++ b) (len (d ++ b))
  | BChunked c => chunk_cont g c b
  | BEmpty => Complete [] b
  end.

Definition body_inv (g : N) (st : body_st) : Prop :=
  match st with
  | BSized d => bd_size d <= MAX_BODY_SIZE /\ len (bd_got d) <= bd_size d
  | BUntilEof d => len d <= MAX_BODY_SIZE
  | BChunked c => chunk_inv_s g c
  | BEmpty => True
  end.

Lemma body_parse_spec dbg st ls s r ls' s' g :
  body_inv g st ->
  body_parse dbg st ls s = (r, ls', s') ->
  exists w, ls' = dec_lims w ls /\ fits w ls /\ call_ok body_inv body_cont g st ls s r s' w.
Proof.
  intros Hinv. unfold body_parse.
  pose proof (usub_cases dbg MAX_BODY_SIZE (body_read_so_far st)) as U.
  destruct (usub dbg MAX_BODY_SIZE (body_read_so_far st)) as [lim|].
  - intros H. apply with_limit_eq in H as (ls1 & H & ->).
    destruct st as [d|d|c|]; cbn [body_read_so_far body_inv] in *.
    + unfold bytes_deframe in H. unfold bytes_read_so_far in U. destruct Hinv as [Hsz Hgot].
      destruct (bytes_loop (S (mu s)) (bd_size d) (bd_got d) (lim :: ls) s) as [[r1 lsx] s1] eqn:E.
      apply bytes_loop_spec in E as (w & -> & Fit & Hcase); [|lia|assumption].
      apply fits_cons in Fit as [Fit1 Fit2].
      exists w. destruct r1 as [data|d' k|e|]; [| |destruct Hcase|destruct Hcase].
      * destruct Hcase as (-> & Hl & Htk). inversion H; subst. split; [reflexivity|]. split; [assumption|].
        left. split; auto. intros x. cbn [body_cont].
        rewrite app_assoc, len_app, Hl. replace (_ <? _) with false by lia.
        now rewrite <- Hl, firstn_len_app, skipn_len_app.
      * destruct Hcase as (-> & Hlt & Hs). inversion H; subst. split; [reflexivity|]. split; [assumption|].
        cbn [call_ok body_cont]. replace (len (bd_got d ++ w) <? bd_size d) with true by lia.
        split; [exact I|]. split.
        -- destruct Hs as [Hs|[(-> & Hs & Hlim)|(-> & Hs)]]; [left; split; [auto|intros; exact I]|right;left|right;right; cbn; auto].
           split; auto. split; auto. apply limited_cons in Hlim as [Hlim|Hlim]; auto. left.
           cbn. intros [_ Hsm]. rewrite len_app in Hlt. unfold MAX_BODY_SIZE in *. lia.
        -- split. { exists g. cbn; split; [assumption|lia]. }
           intros Hk _. exists g. split; [cbn; split; [assumption|lia]|].
           intros x. cbn [bd_size bd_got]. now rewrite app_assoc.
    + unfold eof_deframe in H.
      destruct (read_to_end (S (mu s)) (lim :: ls) s d) as [[[r1 d1] lsx] s1] eqn:E.
      apply read_to_end_spec in E as (w & -> & -> & Fit & Hcase); [|lia].
      apply fits_cons in Fit as [Fit1 Fit2].
      exists w. destruct r1 as [k|].
      * inversion H; subst. split; [reflexivity|]. split; [assumption|]. destruct Hcase as [Hs Hi].
        cbn [call_ok body_cont]. split; [exact I|]. split.
        -- destruct Hs as [Hs|(-> & Hs & Hlim)]; [left; split; [auto|intros; congruence]|right;left].
           split; auto. split; auto. apply limited_cons in Hlim as [Hlim|Hlim]; auto. left.
           cbn [in_limits]. rewrite len_app. unfold MAX_BODY_SIZE in *. lia.
        -- split. { exists g. cbn [body_inv]; rewrite len_app; unfold MAX_BODY_SIZE in *; lia. }
           intros Hk _. exists g. split; [cbn [body_inv]; rewrite len_app; unfold MAX_BODY_SIZE in *; lia|].
           intros x. now rewrite app_assoc.
      * inversion H; subst. split; [reflexivity|]. split; [assumption|]. right. split; auto.
        eexists. reflexivity.
    + unfold chunks_parse in H.
      destruct (chunks_loop (3 * mu s + 4) dbg (c_body c) (c_state c) (lim :: ls) s) as [[r1 lsx] s1] eqn:E.
      apply chunks_loop_spec with (g := g) in E as (w & -> & Fit & Hok);
        [|destruct (c_state c); lia|destruct c; apply Hinv].
      apply fits_cons in Fit as [Fit1 Fit2].
      replace (mk_chunks (c_body c) (c_state c)) with c in Hok by now destruct c.
      apply call_ok_unlimit in Hok.
      * exists w.
        assert (ls1 = dec_lims w (lim :: ls) /\ s' = s1) as [-> ->]
          by (destruct r1; inversion H; subst; auto).
        split; [reflexivity|]. split; [assumption|].
        destruct r1; inversion H; subst; [exact Hok| |exact Hok|exact Hok].
        destruct Hok as (H1 & H2 & H3). split; auto.
      * intros -> Hun. destruct (chunk_cont g c w) as [|p|v n|] eqn:Ec; try destruct Hun.
        -- apply chunk_cont_count in Ec as (n & Hw & Hn). cbn [in_limits].
           apply (wire_not_small _ _ Hw). destruct Hinv as [[_ Hg] _]. unfold MAX_BODY_SIZE in *. lia.
        -- exfalso. revert Ec. apply chunk_cont_not_eof.
    + inversion H; subst. exists []. rewrite dec_lims_nil. cbn [tl]. split; auto. split; [apply fits_nil|].
      left. split; [constructor|]. reflexivity.
  - intros H; inversion H; subst. exists []. rewrite dec_lims_nil. split; auto. split; [apply fits_nil|].
    destruct st as [d|d|c|]; cbn [body_read_so_far body_inv] in *; unfold bytes_read_so_far in *.
    + lia.
    + lia.
    + cbn [call_ok body_cont]. destruct Hinv as [[Hst Hg] Hs]. split; [constructor|].
      assert (Hun : exists p, chunk_cont g c [] = Incomplete p).
      { unfold chunk_cont. destruct (c_state c) as [q|d|q last|]; [| | |destruct Hs].
        - rewrite app_nil_r, batch_chunks_eq, cut_line_none by apply Hst. eauto.
        - unfold batch_data. rewrite app_nil_r. replace (_ <? _) with true by lia. eauto.
        - unfold batch_tail. rewrite app_nil_r, cut_line_none by apply Hst. eauto. }
      destruct Hun as (p & Hp). rewrite Hp. split; [exact I|]. cbn [in_limits].
      apply chunk_cont_count in Hp as (n & Hw & Hn).
      apply (wire_not_small _ _ Hw). unfold MAX_BODY_SIZE in *. lia.
    + lia.
Qed.

(** ** Messages *)

Definition msg_cont {T} (pf : bytes -> perr + T) (flag : bool) (g : N) (st : msg_st T) (b : bytes)
  : outcome (T * header_map * bytes) :=
  match st with
  | MFirst p => batch_msg pf flag (p ++ b)
  | MHeaders t h => obind (hdr_cont g h b) (fun hm b2 => batch_after_headers flag t hm b2)
  | MBody t hm bs => omap (fun body => (t, hm, body)) (body_cont g bs b)
  | MFinished t hm body => Complete (t, hm, body) b
  end.

Definition msg_inv {T} (g : N) (st : msg_st T) : Prop :=
  match st with
  | MFirst p => line_inv p
  | MHeaders t h => hdr_inv g h
  | MBody t hm bs => body_inv g bs
  | MFinished _ _ _ => True
  end.

Lemma unfinished_omap {A B} (f : A -> B) o : unfinished (omap f o) <-> unfinished o.
Proof. destruct o; cbn; tauto. Qed.
Lemma in_limits_omap {A B} (f : A -> B) o : in_limits (omap f o) <-> in_limits o.
Proof. destruct o; cbn; tauto. Qed.
Lemma clean_omap {A B} (f : A -> B) o : clean (omap f o) <-> clean o.
Proof. destruct o; cbn; tauto. Qed.

Lemma framing_body_new hm flag :
  match body_new hm flag with
  | inl e => framing_of hm flag = inl e
  | inr bs => body_inv 0 bs /\ exists fr, framing_of hm flag = inr fr /\
              forall b, body_cont 0 bs b = batch_body fr b
  end.
Proof.
  unfold body_new, framing_of, get_content_length, is_chunked.
  destruct (get_first_header_value hm CONTENT_LENGTH) as [v|].
  - destruct (parse_uint 10 USIZE_MAX v) as [n|]; [|reflexivity].
    destruct (N.ltb_spec MAX_BODY_SIZE n).
    + replace (n <=? MAX_BODY_SIZE) with false by lia. reflexivity.
    + replace (n <=? MAX_BODY_SIZE) with true by lia.
      split; [cbn [body_inv bd_size bd_got]; cbn; lia|]. eexists; split; [reflexivity|].
      intros b. reflexivity.
  - destruct (get_first_header_value hm TRANSFER_ENCODING) as [v|].
    + destruct (contains (lit "chunked") v).
      * split; [repeat split; [apply noLF_nil|cbn; lia|cbn; lia]|].
        eexists; split; [reflexivity|]. reflexivity.
      * destruct flag; cbn [body_inv]; (split; [cbn; try lia; auto|]);
        (eexists; split; [reflexivity|]; reflexivity).
    + destruct flag; cbn [body_inv]; (split; [cbn; try lia; auto|]);
        (eexists; split; [reflexivity|]; reflexivity).
Qed.

Lemma hdr_cont_not_eof g h b v n : hdr_cont g h b <> AtEof v n.
Proof.
  unfold hdr_cont. generalize (h_line h ++ b) g (h_map h). clear.
  induction l as [b IH] using (well_founded_induction (Wf_nat.well_founded_ltof _ (@List.length byte))).
  intros n0 m. rewrite batch_headers_eq.
  destruct (cut_line b) as [[[e|l] rest]|] eqn:E; try discriminate.
  destruct l; [discriminate|]. destruct (parse_header _) as [|[]]; [discriminate|].
  apply IH. now apply cut_line_length in E.
Qed.

Definition msg_rank {T} (st : msg_st T) : nat :=
  match st with MFirst _ => 4 | MHeaders _ _ => 3 | MBody _ _ _ => 2 | MFinished _ _ _ => 1 end.

Lemma msg_loop_spec {T} (pf : bytes -> perr + T) dbg flag fuel : forall st ls s r ls' s' g,
  (msg_rank st <= fuel)%nat ->
  msg_inv g st ->
  msg_loop fuel pf dbg flag st ls s = (r, ls', s') ->
  exists w, ls' = dec_lims w ls /\ fits w ls /\ call_ok msg_inv (msg_cont pf flag) g st ls s r s' w.
Proof.
  induction fuel as [|f IH]; intros st ls s r ls' s' g Hf Hinv; [destruct st; cbn in Hf; lia|].
  cbn [msg_loop]. destruct st as [p|t h|t hm bs|t hm body]; cbn [msg_rank] in Hf; cbn [msg_inv] in Hinv.
  - unfold first_line_state, first_parse.
    destruct (crlf_parse dbg p ls s) as [[r1 ls1] s1] eqn:E.
    apply crlf_parse_spec in E as (w & -> & Fit & Hlen & Hcase); [|assumption].
    destruct Hinv as (Hu & Hn & Hll).
    assert (Hun : noLF w -> msg_cont pf flag g (MFirst p) w = Incomplete (InFirst (p ++ w))).
    { intros Hw. cbn [msg_cont]. unfold batch_msg, batch_first.
      rewrite cut_line_none by now apply noLF_app. reflexivity. }
    destruct r1 as [line|p' k|e|].
    + destruct Hcase as (Htk & Hcut & Hcount).
      destruct (pf line) as [e|t] eqn:Ep.
      * intros H; inversion H; subst. exists w. split; auto. split; auto. left. split; auto.
        intros x. cbn [msg_cont]. unfold batch_msg, batch_first. now rewrite Hcut, Ep.
      * intros H. apply IH with (g := 0) in H as (w2 & -> & Fit2 & Hok);
          [|cbn [msg_rank]; lia|split; [apply line_inv_nil|cbn; lia]].
        exists (w ++ w2). rewrite dec_lims_app. split; auto. split; [now apply fits_app|].
        eapply call_ok_step; eauto. intros x. cbn [msg_cont].
        unfold batch_msg, batch_first. rewrite Hcut, Ep. reflexivity.
    + destruct Hcase as (Hw & Hcase). intros H; inversion H; subst. exists w. split; auto. split; auto.
      unfold call_ok. rewrite (Hun Hw). split; [exact I|]. split.
      * destruct Hcase as [[[[Hs Hi]|(-> & Hs & Hlim)] _]|(-> & Hs & Uw & _)].
        -- left. split; [auto|intros; congruence].
        -- right; left. split; auto. split; auto. destruct Hlim as [Hlim|]; auto. left.
           apply not_small_line. cbn. rewrite len_app. lia.
        -- right; right. repeat split; auto. cbn. now apply utf8_app_true.
      * split. { exists g. cbn. apply (line_inv_kept p w); auto.
                 { repeat split; auto. } { eapply case_kept; eassumption. } }
        intros Hk Hc. cbn in Hc. rewrite utf8_app in Hc by assumption.
        destruct Hcase as [[_ ->]|(-> & _)]; [|congruence]. rewrite Hc.
        exists g. split.
        -- cbn. apply line_inv_step; auto. repeat split; auto.
        -- intros x. cbn [msg_cont]. now rewrite app_assoc.
    + intros H; inversion H; subst. exists w. split; auto. split; auto.
      destruct Hcase as [(Htk & Hcut)|[(-> & Hw & Hs)|(-> & Hw & Uw & Htk)]].
      * left. split; auto. intros x. cbn [msg_cont]. unfold batch_msg, batch_first. now rewrite Hcut.
      * right. rewrite Hun by assumption. repeat split; auto.
      * right. rewrite Hun by assumption. repeat split; auto. right. split; auto.
        cbn. rewrite utf8_app by assumption. congruence.
    + destruct Hcase.
  - unfold headers_state.
    destruct (hdr_parse dbg h ls s) as [[r1 ls1] s1] eqn:E.
    apply hdr_parse_spec with (g := g) in E as (w & -> & Fit & Hok & _); [|assumption].
    assert (Hinc : unfinished (hdr_cont g h w) -> exists p, hdr_cont g h w = Incomplete p /\
              msg_cont pf flag g (MHeaders t h) w = Incomplete p).
    { intros Hun. cbn [msg_cont]. destruct (hdr_cont g h w) eqn:Ec; try destruct Hun.
      - eexists; split; reflexivity.
      - exfalso. revert Ec. apply hdr_cont_not_eof. }
    destruct r1 as [hm|h' k|e|].
    + destruct Hok as [(Htk & Hc)|(_ & n & Hc)]; [|exfalso; revert Hc; apply hdr_cont_not_eof].
      pose proof (framing_body_new hm flag) as Hfb.
      destruct (body_new hm flag) as [e|bs].
      * intros H; inversion H; subst. exists w. split; auto. split; auto. left. split; auto.
        intros x. cbn [msg_cont]. rewrite Hc. cbn [obind]. unfold batch_after_headers. now rewrite Hfb.
      * destruct Hfb as (Hbi & fr & Hfr & Hbc).
        intros H. apply IH with (g := 0) in H as (w2 & -> & Fit2 & Hok2);
          [|cbn [msg_rank]; lia|exact Hbi].
        exists (w ++ w2). rewrite dec_lims_app. split; auto. split; [now apply fits_app|].
        eapply call_ok_step; eauto. intros x. cbn [msg_cont]. rewrite Hc. cbn [obind].
        unfold batch_after_headers. rewrite Hfr. now rewrite Hbc.
    + intros H; inversion H; subst. exists w. split; auto. split; auto.
      destruct Hok as (H1 & H2 & H2' & H3). destruct (Hinc H1) as (p & Hp1 & Hp2).
      unfold call_ok. rewrite Hp2. rewrite Hp1 in *. split; [exact I|]. split; [exact H2|].
      split; [exact H2'|]. intros Hk Hc. destruct (H3 Hk Hc) as (g' & Hi & Hx). exists g'. split; [exact Hi|].
      intros x. cbn [msg_cont]. now rewrite Hx.
    + intros H; inversion H; subst. exists w. split; auto. split; auto.
      destruct Hok as [(H1 & H2)|(H1 & H2 & H3)].
      * left. split; auto. intros x. cbn [msg_cont]. now rewrite H2.
      * right. destruct (Hinc H1) as (p & Hp1 & Hp2). rewrite Hp2. rewrite Hp1 in *. auto.
    + intros H; inversion H; subst. exists w. split; auto. split; auto.
      destruct Hok as (H1 & H2 & H3). destruct (Hinc H2) as (p & Hp1 & Hp2).
      unfold call_ok. rewrite Hp2. rewrite Hp1 in *. auto.
  - unfold body_state.
    destruct (body_parse dbg bs ls s) as [[r1 ls1] s1] eqn:E.
    apply body_parse_spec with (g := g) in E as (w & -> & Fit & Hok); [|assumption].
    destruct r1 as [body|b' k|e|].
    + destruct f as [|f]; [lia|]. cbn [msg_loop]. intros H; inversion H; subst.
      exists w. split; auto. split; auto. cbn [call_ok msg_cont].
      destruct Hok as [(H1 & H2)|(H1 & n & H2)]; [left|right].
      * split; auto. intros x. now rewrite H2.
      * split; auto. exists n. now rewrite H2.
    + intros H; inversion H; subst. exists w. split; auto. split; auto.
      destruct Hok as (H1 & H2 & H2' & H3). cbn [call_ok msg_cont].
      rewrite unfinished_omap, clean_omap. split; auto. split; [|split; [exact H2'|]].
      * destruct H2 as [H2|[(H2 & H4 & H5)|H2]]; [left|right;left|right;right]; auto.
        -- destruct H2 as [H2 Hi]. split; auto. intros Hk. specialize (Hi Hk). now destruct (body_cont g bs w).
        -- rewrite in_limits_omap. auto.
        -- destruct H2 as (? & ? & H2). repeat split; auto. now destruct (body_cont g bs w).
      * intros Hk Hc. destruct (H3 Hk Hc) as (g' & Hi & Hx). exists g'. split; [exact Hi|].
        intros x. cbn [msg_cont]. now rewrite Hx.
    + intros H; inversion H; subst. exists w. split; auto. split; auto.
      destruct Hok as [(H1 & H2)|(H1 & H2 & H3)].
      * left. split; auto. intros x. cbn [msg_cont]. now rewrite H2.
      * right. cbn [msg_cont]. rewrite unfinished_omap, clean_omap. auto.
    + intros H; inversion H; subst. exists w. split; auto. split; auto.
      destruct Hok as (H1 & H2 & H3). cbn [call_ok msg_cont]. rewrite unfinished_omap, in_limits_omap. auto.
  - intros H; inversion H; subst. exists []. rewrite dec_lims_nil. split; auto. split; [apply fits_nil|].
    left. split; [constructor|]. reflexivity.
Qed.

Lemma msg_parse_spec {T} (pf : bytes -> perr + T) dbg flag st ls s r ls' s' g :
  msg_inv g st ->
  msg_parse pf dbg flag st ls s = (r, ls', s') ->
  exists w, ls' = dec_lims w ls /\ fits w ls /\ call_ok msg_inv (msg_cont pf flag) g st ls s r s' w.
Proof. intros H E. eapply (msg_loop_spec pf dbg flag 4); [|exact H|exact E]. destruct st; cbn; lia. Qed.
