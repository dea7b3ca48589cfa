(** Connections on which a request has a line that is too long. *)
From Coq Require Import List Ascii String NArith Bool Arith Lia.
From Coq Require Import ZifyBool ZifyNat ZifyN.
From Verif.Model Require Import Bytes Io Common Parse Encode Writer Server.
From Verif.Spec Require Import Batch Stream Drive Output Unicode Session TooLong.
From Verif.Proofs Require Import BytesFacts IoFacts ParseFacts DriveFacts CallFacts BatchFacts WriterFacts OpsFacts ClientFacts GrammarFacts LimitGrammar ServerFacts ConnFacts.
Import ListNotations.
Local Open Scope N_scope.

(** ** Lines *)

(** The limit is looked at before the stream. *)
Lemma until_room f : forall l ls s acc r acc' ls' s', read_until f (l :: ls) s acc = (r, acc', 0 :: ls', s') ->
  r = Some LimitReached \/ r = Some ModelFuel \/ (r = None /\ exists a, acc' = a ++ [LF]).
Proof.
  induction f as [|f IH]; intros l ls s acc r acc' ls' s' E; cbn [read_until] in E; [inversion E; auto|].
  destruct (fill_lim (l :: ls) s) as [[k|bs] s1] eqn:Ef.
  - assert (l = 0 -> k = LimitReached).
    { intros ->. cbn [fill_lim] in Ef. rewrite N.eqb_refl in Ef. now inversion Ef. }
    destruct k; try (inversion E; subst; left; f_equal; auto; fail). now apply IH in E.
  - assert (Hl : l <> 0).
    { intros ->. cbn [fill_lim] in Ef. rewrite N.eqb_refl in Ef. discriminate. }
    destruct (find_lf bs) as [i|] eqn:Ei.
    + destruct (consume_lim _ _ _) as [ls1 s2]. apply find_lf_some in Ei as (a & b & -> & _ & <-).
      assert (El : firstn (S (List.length a)) (a ++ LF :: b) = a ++ [LF]).
      { change (LF :: b) with ([LF] ++ b). rewrite app_assoc.
        replace (S (List.length a)) with (List.length (a ++ [LF])) by (rewrite app_length; cbn; lia).
        rewrite firstn_app, Nat.sub_diag, firstn_all. cbn. now rewrite app_nil_r. }
      rewrite El in E. inversion E; subst. right. right. split; auto. exists (acc ++ a). now rewrite app_assoc.
    + cbn [consume_lim] in E. destruct (consume_lim _ ls s1) as [ls1 s2] eqn:Ec. destruct bs as [|b bs].
      * inversion E; subst. change (len []) with 0 in *. lia.
      * now apply IH in E.
Qed.

(** What a call for a line does, and how much it has when it stops. *)
Lemma crlf_stop dbg p ls s r ls' s' : line_inv p -> crlf_parse dbg p ls s = (r, ls', s') ->
  exists w, len p + len w <= 512 /\
  match r with
  | PDone l => takes s w s' /\ (forall x, cut_line (p ++ w ++ x) = Some (inr l, x)) /\ exists w0, w = w0 ++ [LF] /\ noLF w0
  | PErr _ => True
  | PIo _ k => k = LimitReached \/ k = ModelFuel \/ (len p + len w < 512 /\ noLF w /\ (stops s w k s' \/ takes s w (RData [] :: s')))
  | PPanic => False
  end.
Proof.
  intros Hi E. pose proof (crlf_parse_spec _ _ _ _ _ _ _ Hi E) as (w & _ & Fit0 & Hw & Sp).
  destruct r as [l|q k|e|]; [|..|destruct Sp]; [| |exists w; auto].
  - exists w. split; auto. destruct Sp as (T & Hc & _). split; auto. split; auto.
    revert E. destruct Hi as (Hu & Hn & Hl). unfold crlf_parse, usub, MAX_LINE_SIZE. replace (len p <=? 512) with true by lia.
    unfold with_limit, line_deframe, read_line.
    destruct (read_until (S (mu s)) (512 - len p :: ls) s []) as [[[ru acc] lsu] su] eqn:Eu.
    apply read_until_spec in Eu as (w' & -> & -> & Fit & Hr); [|lia]. cbn [app] in *. intros H.
    destruct ru as [k|]; [destruct (utf8 w'); destruct k; inversion H|].
    destruct Hr as [(w0 & -> & Hw0 & T')|(Hw0 & T')].
    + assert (Es : s' = su).
      { destruct (utf8 (w0 ++ [LF])); [|inversion H]. rewrite app_assoc, str_pop_snoc in H by reflexivity. cbn [beqb] in H. rewrite Ascii.eqb_refl in H. cbn [andb] in H.
        destruct (parse_crlf_line (p ++ w0)); inversion H; subst; auto. }
      subst su. apply takes_pending in T, T'. rewrite T in T'. apply app_inv_tail in T'. eauto.
    + exfalso. destruct (utf8 w'); [|inversion H].
      destruct (str_pop (p ++ w')) as [[q ch]|] eqn:Ep; [destruct (beqb ch [LF]) eqn:Eb|]; try (inversion H; fail).
      apply beqb_eq in Eb. subst ch. apply str_pop_some in Ep as [Ep _].
      assert (I : In LF (p ++ w')) by (rewrite Ep; apply in_or_app; right; now left). apply in_app_or in I as [I|I]; auto.
  - destruct Sp as (Nw & Sp).
    assert (Room : k = LimitReached \/ k = ModelFuel \/ (exists w', len p + len w' < 512 /\ noLF w' /\ (stops s w' k s' \/ takes s w' (RData [] :: s')))).
    2:{ destruct Room as [R|[R|(w' & R1 & R2 & R3)]]; [exists w; auto|exists w; auto|exists w'; split; [lia|auto]]. }
    revert E. destruct Hi as (Hu & Hn & Hl). unfold crlf_parse, usub, MAX_LINE_SIZE. replace (len p <=? 512) with true by lia.
    unfold with_limit, line_deframe, read_line.
    destruct (read_until (S (mu s)) (512 - len p :: ls) s []) as [[[ru acc] lsu] su] eqn:Eu.
    assert (Room : lsu = 0 :: tl lsu -> ru = Some LimitReached \/ ru = Some ModelFuel \/ (ru = None /\ exists a, acc = a ++ [LF])).
    { intros El. rewrite El in Eu. now apply until_room in Eu. }
    apply read_until_spec in Eu as (w' & -> & -> & Fit & Hr); [|lia]. cbn [app] in *.
    apply fits_cons in Fit as [Fit _]. cbn [dec_lims map tl] in *.
    assert (Room2 : len p + len w' < 512 \/ ru = Some LimitReached \/ ru = Some ModelFuel \/ (ru = None /\ exists a, w' = a ++ [LF])).
    { destruct (N.eq_dec (len p + len w') 512) as [E|E]; [right; apply Room; f_equal; lia|left; lia]. }
    clear Room. intros H. destruct ru as [j|].
    + destruct Hr as (Hw' & Hs & Hk).
      assert (j = k /\ su = s') as [-> ->] by (destruct (utf8 w'); destruct j; inversion H; auto).
      destruct Hs as [Hs|(-> & _)]; auto. destruct Room2 as [R|[R|[R|(R & _)]]]; [|left; congruence|right; left; congruence|discriminate].
      right. right. exists w'. auto.
    + destruct Hr as [(w0 & -> & Hw0 & T)|(Hw0 & T)].
      * exfalso. destruct (utf8 (w0 ++ [LF])); [|inversion H].
        rewrite app_assoc, str_pop_snoc in H by reflexivity. cbn [beqb] in H. rewrite Ascii.eqb_refl in H. cbn [andb] in H.
        destruct (parse_crlf_line (p ++ w0)); inversion H.
      * assert (K : len p + len w' < 512).
        { destruct Room2 as [R|[R|[R|(_ & a & R)]]]; try discriminate; auto. exfalso. apply Hw0. rewrite R. apply in_or_app. right. now left. }
        destruct (utf8 w'); [|inversion H].
        destruct (str_pop (p ++ w')) as [[q' ch]|] eqn:Ep; [destruct (beqb ch [LF]) eqn:Eb|]; [|inversion H; subst; eauto 7|inversion H; subst; eauto 7].
        exfalso. destruct (parse_crlf_line q'); inversion H.
Qed.

(** ** Requests with a line that is too long *)

Lemma overflow_some z : overflow z -> 0 < len z.
Proof. intros (p & E & F). destruct z as [|a z]; [|rewrite len_cons; lia]. inversion E; subst. cbn in F. discriminate. Qed.

Lemma prefix_of {A} (a b x y : list A) : a ++ x = b ++ y -> (List.length a <= List.length b)%nat -> exists t, b = a ++ t /\ x = t ++ y.
Proof.
  revert b. induction a as [|h a IH]; intros b E L; [exists b; auto|]. destruct b as [|h' b]; [cbn in L; lia|].
  cbn [app] in E. inversion E as [[Eh Et]]; subst. cbn [List.length] in L. destruct (IH b Et ltac:(lia)) as (t & -> & ->). exists t. auto.
Qed.
Lemma len_le {A} (a b : list A) : len a <= len b -> (List.length a <= List.length b)%nat.
Proof. unfold len. lia. Qed.

Lemma stops_pending s w k s' : stops s w k s' -> pending s = w ++ pending s'.
Proof. intros [H|(_ & H & ->)]; apply takes_pending in H; exact H. Qed.
Lemma noLF_prefix a b : noLF (a ++ b) -> noLF a.
Proof. intros H I. apply H, in_or_app. auto. Qed.

(** How a call ends when a line that is too long begins at t. *)
Definition ends_full {T S} (r : pres T S) (s s' : stream) (t : bytes) : Prop :=
  match r with
  | PDone _ | PPanic => False
  | PErr _ => True
  | PIo _ k => k = LimitReached \/ k = ModelFuel \/ exists w, len w < len t /\ (stops s w k s' \/ takes s w (RData [] :: s'))
  end.
Lemma ends_later {T S T' S'} (r : pres T S) (r' : pres T' S') s s1 s' w t : takes s w s1 ->
  match r, r' with PIo _ k, PIo _ k' => k = k' | PErr _, PErr _ => True | PDone _, PDone _ => True | PPanic, PPanic => True | _, _ => False end ->
  ends_full r s1 s' t -> ends_full r' s s' (w ++ t).
Proof.
  intros Tk M H. destruct r, r'; try (destruct M; fail); cbn [ends_full] in *; auto. subst.
  destruct H as [H|[H|(v & L & H)]]; auto. right. right. exists (w ++ v). rewrite !len_app. split; [lia|].
  destruct H as [H|H]; [left; eapply stops_step; eauto|right; eapply takes_trans; eauto].
Qed.

(** A line read at p, when what follows is t. *)
Lemma line_short p w w0 t x y : w ++ y = t ++ x -> w = w0 ++ [LF] -> noLF p -> noLF w0 -> len p + len w <= 512 ->
  (noLF (p ++ t) -> len (p ++ t) = 512) -> exists t2, t = w ++ t2 /\ y = t2 ++ x.
Proof.
  intros E -> Np Nw L H. destruct (Nat.le_gt_cases (List.length (w0 ++ [LF])) (List.length t)) as [Le|Gt]; [now apply prefix_of|].
  exfalso. symmetry in E. destruct (prefix_of _ _ _ _ E (Nat.lt_le_incl _ _ Gt)) as (u & Eu & _).
  assert (Nt : noLF (p ++ t)).
  { apply noLF_app; auto. destruct (List.rev u) as [|a u'] eqn:Er.
    - apply (f_equal (@rev ascii)) in Er. rewrite rev_involutive in Er. cbn in Er. subst u. rewrite app_nil_r in Eu. rewrite Eu in Gt. lia.
    - apply (f_equal (@rev ascii)) in Er. rewrite rev_involutive in Er. cbn [rev] in Er. subst u. rewrite app_assoc in Eu.
      apply app_inj_tail in Eu as [Eu _]. rewrite Eu in Nw. now apply noLF_prefix in Nw. }
  apply H in Nt. rewrite len_app in Nt. unfold len in *. lia.
Qed.
Lemma stop_short p w t x y : w ++ y = t ++ x -> noLF p -> noLF w -> len p + len w < 512 ->
  (noLF (p ++ t) -> len (p ++ t) = 512) -> len w < len t.
Proof.
  intros E Np Nw L H. destruct (N.lt_ge_cases (len w) (len t)) as [Lt|Ge]; auto. exfalso.
  symmetry in E. destruct (prefix_of _ _ _ _ E (len_le _ _ Ge)) as (u & Eu & _).
  assert (Nt : noLF (p ++ t)) by (apply noLF_app; auto; rewrite Eu in Nw; now apply noLF_prefix in Nw).
  apply H in Nt. rewrite Eu, len_app in L. rewrite len_app in Nt. lia.
Qed.
Lemma stop_pending s w k s' : stops s w k s' \/ takes s w (RData [] :: s') -> w ++ pending s' = pending s.
Proof. intros [H|H]; [apply stops_pending in H|apply takes_pending in H]; auto. Qed.

Lemma full_headers dbg f : forall st ls s r ls' s' g t x n l, hdr_inv g st ->
  hdr_cont g st t = Incomplete (InHeaders n l) -> len l = 512 -> pending s = t ++ x ->
  hdr_loop f dbg st ls s = (r, ls', s') -> ends_full r s s' t.
Proof.
  induction f as [|f IH]; intros st ls s r ls' s' g t x n l Hi Hc Hl Ep E; cbn [hdr_loop] in E.
  { inversion E; subst. cbn. auto. }
  pose proof Hi as [Hli Hr]. pose proof Hli as (_ & Np & _).
  assert (Full : noLF (h_line st ++ t) -> len (h_line st ++ t) = 512).
  { intros Nt. rewrite hdr_cont_nolf in Hc; auto; [|intros I; apply Nt, in_or_app; auto]. congruence. }
  destruct (crlf_parse dbg (h_line st) ls s) as [[r1 l1] s1] eqn:El. apply crlf_stop in El as (w & Hw & H); [|exact Hli].
  destruct r1 as [line|q k|e|].
  - destruct H as (T & Hcut & w0 & Ew & Nw). pose proof (takes_pending _ _ _ T) as Pw. rewrite Ep in Pw. symmetry in Pw.
    destruct (line_short _ _ _ _ _ _ Pw Ew Np Nw Hw Full) as (t2 & -> & E2).
    unfold hdr_cont in Hc. rewrite batch_headers_eq, Hcut in Hc. destruct line as [|a line]; [discriminate|].
    destruct (parse_header (a :: line)) as [e|[hk hv]]; [discriminate|].
    eapply (IH _ _ _ _ _ _ (g + len (a :: line) + 2) t2 x n l) in E; auto.
    + eapply ends_later; eauto. destruct r; auto.
    + split; [apply line_inv_nil|]. cbn [h_read]. lia.
  - inversion E; subst. destruct H as [H|[H|(H1 & H2 & H3)]]; cbn [ends_full]; auto. right. right. exists w. split; auto.
    apply stop_pending in H3. rewrite Ep in H3. eapply stop_short; eauto.
  - inversion E; subst. exact Logic.I.
  - destruct H.
Qed.

Lemma headers_count b : forall n m k l, batch_headers n m b = Incomplete (InHeaders k l) -> n <= k.
Proof.
  induction b as [b IH] using (well_founded_induction (Wf_nat.well_founded_ltof _ (@List.length byte))).
  intros n m k l E. rewrite batch_headers_eq in E. destruct (cut_line b) as [[[e|line] r]|] eqn:Ec; [discriminate| |].
  - pose proof (cut_line_length _ _ _ Ec). destruct line as [|a line]; [discriminate|]. destruct (parse_header (a :: line)) as [e|[hk hv]]; [discriminate|].
    apply IH in E; [lia|]. unfold Wf_nat.ltof. lia.
  - inversion E; subst. lia.
Qed.

Lemma full_head_state {T} (pf : bytes -> perr + T) dbg flag f (d : T) h ls s r ls' s' g t x n l : hdr_inv g h ->
  hdr_cont g h t = Incomplete (InHeaders n l) -> len l = 512 -> n <= 4096 -> pending s = t ++ x ->
  msg_loop (S f) pf dbg flag (MHeaders d h) ls s = (r, ls', s') -> ends_full r s s' t.
Proof.
  intros Hi Hc Hl Hn Ep E. cbn [msg_loop] in E. unfold headers_state, hdr_parse in E.
  assert (Hr : h_read h <= 4096) by (pose proof (headers_count _ _ _ _ _ Hc); destruct Hi; lia).
  unfold usub, MAX_HEADERS_SIZE in E. replace (h_read h <=? 4096) with true in E by lia.
  destruct (with_limit _ _ _) as [[r1 l1] s1] eqn:Ew. apply with_limit_eq in Ew as (l2 & Ew & _).
  eapply full_headers in Ew; eauto. destruct r1 as [v|q k|e|]; try (destruct Ew; fail).
  - inversion E; subst. exact Ew.
  - inversion E; subst. exact Logic.I.
Qed.

Definition in_headers (p : progress) : Prop := match p with InFirst _ | InHeaders _ _ => True | _ => False end.
Lemma chunks_not_head f : forall n acc r p, batch_chunks_f f n acc r = Incomplete p -> ~ in_headers p.
Proof.
  induction f as [|f IH]; intros n acc r p; cbn [batch_chunks_f]; [intros H; inversion H; subst; cbn; auto|].
  destruct (cut_line r) as [[[e|l0] r0]|]; [discriminate| |intros H; inversion H; subst; cbn; auto].
  destruct (parse_chunk_size l0) as [e|sz]; [discriminate|]. unfold batch_data.
  destruct (len ([] ++ r0) <? sz); [intros H; inversion H; subst; cbn; auto|]. unfold batch_tail.
  destruct (cut_line _) as [[[e|[|c l1]] r1]|]; [discriminate| |discriminate|intros H; inversion H; subst; cbn; auto].
  destruct (sz =? 0); [discriminate|]. apply IH.
Qed.
Lemma tail_not_head n body last b p : batch_tail batch_chunks n body last b = Incomplete p -> ~ in_headers p.
Proof.
  unfold batch_tail. destruct (cut_line _) as [[[e|[|c l1]] r1]|]; [discriminate| |discriminate|intros H; inversion H; subst; cbn; auto].
  destruct last; [discriminate|]. apply chunks_not_head.
Qed.
Lemma after_not_head {T} (t : T) hm b p : batch_after_headers false t hm b = Incomplete p -> ~ in_headers p.
Proof.
  unfold batch_after_headers. destruct (framing_of hm false) as [e|fr]; [discriminate|].
  destruct fr; cbn [batch_body]; try discriminate.
  - destruct (len b <? n); [intros H; inversion H; subst; cbn; auto|discriminate].
  - destruct (batch_chunks 0 [] b) eqn:E; cbn [omap]; try discriminate. intros H. inversion H; subst. exact (chunks_not_head _ _ _ _ _ E).
Qed.
(** Where a parser is when the text ends in the headers. *)
Lemma cont_in_headers g st b n l : req_cont g st b = Incomplete (InHeaders n l) ->
  (exists p, st = MFirst p) \/ (exists t h, st = MHeaders t h /\ hdr_cont g h b = Incomplete (InHeaders n l)).
Proof.
  intros H. destruct st as [p|t h|t hm bs|t hm body].
  - left. eauto.
  - right. exists t, h. split; auto. apply omap_incomplete in H. cbn [msg_cont] in H.
    destruct (hdr_cont g h b) as [hm r|p|v k|e] eqn:E; cbn [obind] in H; try discriminate.
    + exfalso. apply after_not_head in H. apply H. exact Logic.I.
    + congruence.
  - exfalso. apply omap_incomplete, omap_incomplete in H. assert (N : forall p, body_cont g bs b = Incomplete p -> ~ in_headers p); [|exact (N _ H Logic.I)].
    clear H. intros p H. destruct bs as [d|d|c|]; cbn [body_cont] in H; try discriminate.
    + destruct (_ <? _); inversion H; subst; cbn; auto.
    + unfold chunk_cont in H. destruct (c_state c).
      * exact (chunks_not_head _ _ _ _ _ H).
      * unfold batch_data in H. destruct (_ <? _); [inversion H; subst; cbn; auto|]. exact (tail_not_head _ _ _ _ _ H).
      * exact (tail_not_head _ _ _ _ _ H).
      * discriminate.
  - discriminate.
Qed.

Lemma full_first pf (dbg flag : bool) f p s r ls' s' t x (q : progress) : line_inv p ->
  batch_msg (T := method * bytes) pf flag (p ++ t) = Incomplete q -> full_line q -> pending s = t ++ x -> (flag = false) ->
  msg_loop (Datatypes.S (Datatypes.S f)) pf dbg flag (MFirst p) [] s = (r, ls', s') -> ends_full r s s' t.
Proof.
  intros Hi Hq Hf Ep -> E. pose proof Hi as (_ & Np & _).
  assert (Full : noLF (p ++ t) -> len (p ++ t) = 512).
  { intros Nt. unfold batch_msg, batch_first in Hq. rewrite cut_line_none in Hq by exact Nt. inversion Hq; subst. exact Hf. }
  remember (Datatypes.S f) as f1. cbn [msg_loop] in E. unfold first_line_state, first_parse in E.
  destruct (crlf_parse dbg p [] s) as [[r0 l0] s0] eqn:El. apply crlf_stop in El as (w & Hw & H); [|exact Hi].
  destruct r0 as [l|q0 k|e|].
  - destruct H as (T & Hcut & w0 & Ew & Nw). pose proof (takes_pending _ _ _ T) as Pw. rewrite Ep in Pw. symmetry in Pw.
    destruct (line_short _ _ _ _ _ _ Pw Ew Np Nw Hw Full) as (t2 & -> & E2).
    unfold batch_msg, batch_first in Hq. rewrite Hcut in Hq.
    destruct (pf l) as [e|v]; cbn [obind] in Hq; [discriminate|]. subst f1.
    assert (Hh : hdr_cont 0 hdr_new t2 = Incomplete q /\ exists n l0, q = InHeaders n l0).
    { unfold hdr_cont. cbn [hdr_new h_map h_line app].
      destruct (batch_headers 0 [] t2) as [hm r1|p1|v1 k1|e1] eqn:Eb; cbn [obind] in Hq; try discriminate.
      - exfalso. apply after_not_head in Hq. apply Hq. destruct q; try (destruct Hf; fail); exact Logic.I.
      - assert (p1 = q) by congruence. subst p1. split; auto. destruct q as [l1|n1 l1| | |]; try (destruct Hf; fail); [|eauto].
        exfalso. exact (headers_not_first _ _ _ _ _ Eb).
      - exfalso. exact (headers_not_eof _ _ _ _ _ _ Eb). }
    destruct Hh as (Hh & n & l1 & ->). destruct Hf as [F1 F2].
    eapply (full_head_state _ dbg false f v hdr_new _ _ _ _ _ 0 t2 x n l1) in E; auto.
    + eapply ends_later; eauto. destruct r; auto.
    + split; [apply line_inv_nil|]. cbn. lia.
  - inversion E; subst. destruct H as [H|[H|(H1 & H2 & H3)]]; cbn [ends_full]; auto. right. right. exists w. split; auto.
    apply stop_pending in H3. rewrite Ep in H3. eapply stop_short; eauto.
  - inversion E; subst. exact Logic.I.
  - destruct H.
Qed.

Lemma full_call dbg p c s z x r s' : holds p c -> c ++ pending s = z ++ x -> overflow z -> len c < len z ->
  req_parse dbg (match p with Some st => st | None => req_new end) s = (r, s') ->
  match r with
  | PDone _ | PPanic => False
  | PErr _ => True
  | PIo _ k => k = LimitReached \/ k = ModelFuel \/ exists w, len c + len w < len z /\ (stops s w k s' \/ takes s w (RData [] :: s'))
  end.
Proof.
  intros (Hu & g & Hi & Hc) E (q & Hq & Hf) L Ep. set (st := match p with Some st => st | None => req_new end) in *.
  destruct (prefix_of _ _ _ _ E (len_le _ _ (N.lt_le_incl _ _ L))) as (t & -> & Et).
  assert (F : ends_full r s s' t).
  { rewrite <- Hc in Hq. unfold req_parse, msg_parse in Ep.
    destruct (msg_loop 4 parse_request_line dbg false st [] s) as [[r0 l0] s0] eqn:Em.
    assert (F : ends_full r0 s s0 t).
    { destruct q as [l|n l| | | ]; try (destruct Hf; fail).
      - pose proof Hq as Hq2. apply cont_in_first in Hq as (p1 & Es & _). rewrite Es in *. apply omap_incomplete in Hq2.
        eapply full_first in Em; eauto.
      - pose proof Hq as Hq2. apply cont_in_headers in Hq as [(p1 & Es)|(v & h & Es & Hh)]; rewrite Es in *.
        + apply omap_incomplete in Hq2. eapply full_first in Em; eauto.
        + destruct Hf. eapply full_head_state in Em; eauto. }
    destruct r0 as [v|st' k|e|]; try (destruct F; fail); inversion Ep; subst; exact F. }
  destruct r; auto. cbn [ends_full] in F. destruct F as [F|[F|(w & F1 & F2)]]; auto. right. right. exists w. rewrite len_app. split; [lia|auto].
Qed.

(** ** Streams *)

Lemma takes_split s w s' : takes s w s' -> forall s1 s2, s = s1 ++ s2 ->
  (exists s1', s' = s1' ++ s2 /\ takes s1 w s1') \/ exists w2, w = pending s1 ++ w2.
Proof.
  induction 1 as [s|s w s' H IH|bs s w s' Hb H IH|a b s Ha Hb]; intros s1 s2 E.
  - left. exists s1. split; auto. constructor.
  - destruct s1 as [|e s1]; [right; eexists; reflexivity|]. cbn [app] in E. inversion E as [[Ee Es]].
    destruct (IH s1 s2 Es) as [(s1' & -> & T)|(w2 & ->)]; [left; exists s1'; split; auto; now constructor|right; eauto].
  - destruct s1 as [|e s1]; [right; eexists; reflexivity|]. cbn [app] in E. inversion E as [[Ee Es]].
    destruct (IH s1 s2 Es) as [(s1' & -> & T)|(w2 & ->)]; [left; exists s1'; split; auto; now constructor|].
    right. exists w2. cbn [pending]. now rewrite app_assoc.
  - destruct s1 as [|e s1]; [right; eexists; reflexivity|]. cbn [app] in E. inversion E as [[Ee Es]].
    left. exists (RData b :: s1). split; auto. now constructor.
Qed.

(** Input that is live, pauses between characters and is not interrupted in data. *)
Definition loose (c : bytes) (s : stream) : Prop :=
  live s /\
  (forall s1 s2, s = s1 ++ RErr WouldBlock :: s2 -> clean (last_outcome (c ++ pending s1))) /\
  (forall s1 s2, s = s1 ++ RErr Interrupted :: s2 -> ~ in_data (last_outcome (c ++ pending s1))).

Lemma loose_takes c c' s w s' : takes s w s' ->
  (forall x, last_outcome (c ++ w ++ x) = last_outcome (c' ++ x)) -> loose c s -> loose c' s'.
Proof.
  intros T E (H1 & H2 & H3). split; [|split].
  - eapply live_takes; eauto.
  - intros s1 s2 K. destruct (takes_shift _ _ _ T _ _ _ K) as (t1 & K1 & K2). apply H2 in K1. now rewrite K2, E in K1.
  - intros s1 s2 K. destruct (takes_shift _ _ _ T _ _ _ K) as (t1 & K1 & K2). apply H3 in K1. now rewrite K2, E in K1.
Qed.
Lemma loose_tail c k s : loose c (RErr k :: s) -> loose c s.
Proof.
  intros (H1 & H2 & H3). split; [inversion H1; auto|]. split.
  - intros s1 s2 ->. apply (H2 (RErr k :: s1) s2). reflexivity.
  - intros s1 s2 ->. apply (H3 (RErr k :: s1) s2). reflexivity.
Qed.

(** [too_long b z c s]: of the current request c has been read; with what the stream s has to give this is the complete
    requests b, within the limits, and then z, which is too long. *)
Definition too_long (b z c : bytes) (s : stream) : Prop :=
  overflow z /\ (exists rs, session b rs []) /\ (forall w y, b = w ++ y -> in_limits (last_outcome w)) /\
  (b = [] -> len c < len z) /\
  exists s1 s2 x, s = s1 ++ s2 /\ loose c s1 /\ c ++ pending s1 = b ++ z ++ x.

Lemma read_too_long dbg b z c s p r s' p' : holds p c -> too_long b z c s -> read_request dbg s p = (r, s', p') ->
  match r with
  | NotReady => exists w, holds p' (c ++ w) /\ too_long b z (c ++ w) s' /\ (blocks s' < blocks s)%nat
  | Ready v => exists b', batch_request b = Complete v b' /\ p' = None /\ too_long b' z [] s' /\ (blocks s' <= blocks s)%nat /\ (mu s' < mu s)%nat
  | ParseErr _ | IoErr _ => b = []
  | Closed | RPanic => False
  end.
Proof.
  intros Hh (Z & (rs & Se) & Li & Lc & s1 & s2 & x & -> & Lo & E) Er. pose proof Hh as (Hu & g & Hi & Hc).
  unfold read_request in Er. set (st := match p with Some st => st | None => req_new end) in *.
  destruct (req_parse dbg st (s1 ++ s2)) as [r0 s0] eqn:Ep.
  destruct (req_parser_ok dbg _ _ _ _ _ Hi Ep) as (w & Hok).
  pose proof Lo as (Hlive & Hclean & Hintr). pose proof (overflow_some _ Z) as Z2.
  assert (Pen : c ++ pending (s1 ++ s2) = b ++ z ++ x ++ pending s2).
  { rewrite LimitGrammar.pending_app, app_assoc, E, <- !app_assoc. reflexivity. }
  assert (Hb : b = [] \/ exists v1 b1 rs1, batch_request b = Complete v1 b1 /\ session b1 rs1 []).
  { inversion Se; subst; eauto 6. }
  (* Where a complete request follows, nothing that is unfinished goes beyond it. *)
  assert (Sh : b <> [] -> unfinished (batch_request (c ++ w)) -> pending (s1 ++ s2) = w ++ pending s0 ->
    exists y, b = (c ++ w) ++ y /\ len w < len (pending s1)).
  { intros Nb Un Pw. destruct Hb as [Hb|(v1 & b1 & rs1 & Hb & _)]; [congruence|]. rewrite Pw in Pen.
    destruct (Nat.le_gt_cases (List.length b) (List.length (c ++ w))) as [Le|Gt].
    - exfalso. symmetry in Pen. rewrite (app_assoc c) in Pen. destruct (prefix_of _ _ _ _ Pen Le) as (t & Et & _).
      rewrite Et, (batch_request_complete_ext _ _ _ _ Hb) in Un. exact Un.
    - rewrite app_assoc in Pen. destruct (prefix_of _ _ _ _ Pen (Nat.lt_le_incl _ _ Gt)) as (t & Et & _). exists t. split; auto.
      apply (f_equal len) in E. rewrite !len_app in E. rewrite app_length in Gt. unfold len in *. lia. }
  (* A stop within the part that is looked at. *)
  assert (In1 : forall e t, len w < len (pending s1) -> takes (s1 ++ s2) w (e :: t) -> exists t1, t = t1 ++ s2 /\ takes s1 w (e :: t1)).
  { intros e t Lw T. destruct (takes_split _ _ _ T _ _ eq_refl) as [(t1 & Et & T1)|(w2 & ->)]; [|rewrite len_app in Lw; lia].
    destruct t1 as [|e1 t1]; [exfalso; apply takes_pending in T1; cbn [pending] in T1; rewrite app_nil_r in T1; rewrite T1 in Lw; lia|].
    cbn [app] in Et. inversion Et; subst. eauto. }
  assert (NoEnd : forall t, len w < len (pending s1) -> takes (s1 ++ s2) w (RData [] :: t) -> False).
  { intros t Lw T. destruct (In1 _ _ Lw T) as (t1 & _ & T1). pose proof (live_takes _ _ _ T1 Hlive) as F. inversion F as [|? ? F1 _]. exact (F1 eq_refl). }
  assert (Kinds : forall k, len w < len (pending s1) -> stops (s1 ++ s2) w k s0 ->
    exists t1, s0 = t1 ++ s2 /\ takes s1 w (RErr k :: t1) /\ (k = WouldBlock \/ k = Interrupted)).
  { intros k Lw [T|(_ & T & _)].
    - destruct (In1 _ _ Lw T) as (t1 & -> & T1). exists t1. split; auto. split; auto. pose proof (live_takes _ _ _ T1 Hlive) as F. inversion F as [|? ? F1 _]. exact F1.
    - exfalso. apply takes_pending in T. cbn [pending] in T. rewrite app_nil_r, LimitGrammar.pending_app in T. rewrite <- T, len_app in Lw. lia. }
  destruct r0 as [v|st' k|e|].
  - inversion Er; subst r s' p'. destruct Hok as [(T & H)|(T & n & H)]; [|exfalso; rewrite Hc in H; exact (batch_request_not_eof _ _ _ H)].
    destruct Hb as [Hb|(v1 & b1 & rs1 & Hb & Se1)].
    { exfalso. subst b. cbn [app] in Pen. exact (full_call dbg p c _ z _ _ _ Hh Pen Z (Lc eq_refl) Ep). }
    assert (HC : forall x, batch_request (c ++ w ++ x) = Complete v x) by (intros; rewrite <- Hc; apply H).
    pose proof (takes_pending _ _ _ T) as Pw. pose proof Pen as Pen2. rewrite Pw in Pen2.
    pose proof (HC (pending s0)) as HC1. rewrite Pen2, (batch_request_complete_ext _ _ _ _ Hb) in HC1. injection HC1 as Ev H2. subst v1.
    destruct (takes_split _ _ _ T _ _ eq_refl) as [(t1 & -> & T1)|(w2 & ->)].
    2:{ exfalso. rewrite LimitGrammar.pending_app, <- app_assoc in Pw. apply app_inv_head in Pw.
        apply (f_equal len) in Pw. rewrite <- H2, !len_app in Pw. lia. }
    pose proof (takes_pending _ _ _ T1) as P1.
    assert (E1 : pending t1 = b1 ++ z ++ x).
    { rewrite LimitGrammar.pending_app, !app_assoc in H2. apply app_inv_tail in H2. now rewrite <- H2, app_assoc. }
    assert (Eb : b = (c ++ w) ++ b1).
    { rewrite P1, E1 in E. apply (app_inv_tail (z ++ x)). rewrite <- E, <- !app_assoc. reflexivity. }
    exists b1. split; auto. split; auto. split; [|split].
    + split; auto. split; [eauto|]. split; [|split].
      * intros w' y Ew. specialize (Li ((c ++ w) ++ w') y). rewrite Eb, Ew, app_assoc in Li. specialize (Li eq_refl).
        rewrite <- app_assoc, last_unfold, HC in Li. exact Li.
      * intros _. exact Z2.
      * exists t1, s2, x. split; auto. split; auto. eapply loose_takes; eauto. intros y. rewrite last_unfold, HC. reflexivity.
    + eapply takes_blocks; eauto.
    + eapply takes_nil_mu; eauto. intros ->. specialize (HC []). cbn [app] in HC. rewrite app_nil_r in HC. rewrite HC in Hu. exact Hu.
  - destruct Hok as (Hun & Hstop & _ & Hres). rewrite Hc in *.
    assert (Hlast : last_outcome (c ++ w) = batch_request (c ++ w)) by now apply last_of_unfinished.
    (* A pause. *)
    assert (Pause : len w < len (pending s1) -> stops (s1 ++ s2) w k s0 -> (k = Interrupted -> in_data (batch_request (c ++ w))) ->
      (b = [] -> len c + len w < len z) ->
      k = WouldBlock /\ exists w, holds (Some st') (c ++ w) /\ too_long b z (c ++ w) s0 /\ (blocks s0 < blocks (s1 ++ s2))%nat).
    { intros Lw Hs Hin Lz. pose proof Hs as Hs2. destruct (Kinds k Lw Hs2) as (t1 & -> & T1 & Kk).
      assert (k = WouldBlock) as ->.
      { destruct Kk as [Kk|Kk]; auto. exfalso. subst k. destruct (takes_prefix _ _ _ _ T1) as (a1 & Ea & Hw).
        eapply Hintr; [exact Ea|]. rewrite Hw, Hlast. now apply Hin. }
      split; auto. exists w.
      assert (Hcl : clean (batch_request (c ++ w))).
      { rewrite <- Hlast. destruct (takes_prefix _ _ _ _ T1) as (a1 & Ea & <-). eapply Hclean; exact Ea. }
      split; [|split].
      - split; [exact Hun|]. destruct (Hres ltac:(discriminate) Hcl) as (g' & Hgi & Hx). exists g'. split; auto.
        intros y. rewrite <- Hx, Hc. now rewrite app_assoc.
      - split; auto. split; [eauto|]. split; auto. split; [intros; rewrite len_app; auto|]. exists t1, s2, x. split; auto. split.
        + apply (loose_tail _ WouldBlock). eapply loose_takes; eauto. intros y. now rewrite app_assoc.
        + apply takes_pending in T1. cbn [pending] in T1. rewrite T1, app_assoc in E. exact E.
      - destruct Hs as [Hs|(_ & Hs & Es0)].
        + apply takes_blocks in Hs. cbn [blocks] in Hs. lia.
        + exfalso. apply takes_pending in Hs. cbn [pending] in Hs. rewrite app_nil_r, LimitGrammar.pending_app in Hs. rewrite <- Hs, len_app in Lw. lia. }
    destruct Hb as [Hb|(v1 & b1 & rs1 & Hb & Se1)].
    + subst b. cbn [app] in Pen. pose proof (full_call dbg p c _ z _ _ _ Hh Pen Z (Lc eq_refl) Ep) as [-> |[-> |(w0 & Lz & H)]].
      * inversion Er; subst. reflexivity.
      * inversion Er; subst. reflexivity.
      * assert (Lp : len c + len (pending s1) = len z + len x) by (rewrite <- !len_app, E; reflexivity).
        assert (Ww : w0 = w).
        { assert (P0 : pending (s1 ++ s2) = w0 ++ pending s0) by (destruct H as [H|H]; [now apply stops_pending in H|now apply takes_pending in H]).
          assert (P2 : pending (s1 ++ s2) = w ++ pending s0).
          { destruct Hstop as [[Hs _]|[(_ & Hs & _)|(_ & Hs & _)]]; [now apply stops_pending in Hs|now apply takes_pending in Hs|now apply takes_pending in Hs]. }
          rewrite P0 in P2. now apply app_inv_tail in P2. }
        subst w0. assert (Lw : len w < len (pending s1)) by lia.
        destruct H as [H|H]; [|destruct (NoEnd _ Lw H)].
        destruct (Kinds k Lw H) as (_ & _ & _ & Kk).
        destruct Hstop as [[Hs Hin]|[(-> & _)|(-> & _)]]; [|destruct Kk; discriminate|destruct Kk; discriminate].
        destruct (Pause Lw Hs Hin ltac:(auto)) as (-> & Hw). inversion Er; subst. exact Hw.
    + assert (Nb : b <> []) by (intros ->; discriminate).
      assert (P2 : pending (s1 ++ s2) = w ++ pending s0).
      { destruct Hstop as [[Hs _]|[(_ & Hs & _)|(_ & Hs & _)]]; [now apply stops_pending in Hs|now apply takes_pending in Hs|now apply takes_pending in Hs]. }
      destruct (Sh Nb Hun P2) as (y & Ey & Lw).
      destruct Hstop as [[Hs Hin]|[(-> & Hs & H)|(-> & Hs & H)]].
      * destruct (Pause Lw Hs Hin ltac:(congruence)) as (-> & Hw). inversion Er; subst. exact Hw.
      * exfalso. destruct H as [H|H]; [|now apply limited_nil in H]. apply H. rewrite <- Hlast. eapply Li; eauto.
      * destruct (NoEnd _ Lw Hs).
  - inversion Er; subst r s' p'. destruct Hb as [Hb|(v1 & b1 & rs1 & Hb & Se1)]; auto. exfalso.
    assert (Nb : b <> []) by (intros ->; discriminate). cbn [call_ok] in Hok. rewrite Hc in Hok.
    destruct Hok as [(T & H)|(Hun & -> & H)].
    + specialize (H (pending s0)). rewrite <- (takes_pending _ _ _ T), Hc, Pen, (batch_request_complete_ext _ _ _ _ Hb) in H. discriminate.
    + assert (P2 : pending (s1 ++ s2) = w ++ pending s0).
      { destruct H as [Hs|[Hs _]]; [now apply stops_pending in Hs|now apply takes_pending in Hs]. }
      destruct (Sh Nb Hun P2) as (y & Ey & Lw). destruct H as [H|[H _]]; [|exact (NoEnd _ Lw H)].
      destruct (Kinds _ Lw H) as (_ & _ & _ & [K|K]); discriminate.
  - exfalso. destruct Hb as [Hb|(v1 & b1 & rs1 & Hb & Se1)].
    + subst b. cbn [app] in Pen. exact (full_call dbg p c _ z _ _ _ Hh Pen Z (Lc eq_refl) Ep).
    + assert (Nb : b <> []) by (intros ->; discriminate). cbn [call_ok] in Hok. rewrite Hc in Hok. destruct Hok as (T & Hun & H).
      destruct (Sh Nb Hun (takes_pending _ _ _ T)) as (y & Ey & Lw). apply H. rewrite <- (last_of_unfinished _ Hun). eapply Li; eauto.
Qed.

(** ** The connection *)

Lemma served_nothing rt h : served rt h [] false [] [] true.
Proof. eapply served_wait. reflexivity. Qed.

(** Of b, in full: then the connection is closed. *)
Definition cut_off (rt : router) (h : list request) (b : bytes) (new : list request) (out : bytes) : Prop :=
  exists o keep, served rt h b false new o keep /\ out = o ++ (if keep : bool then bad_request else []).

Lemma respond_too_long dbg rt z f : no_panic rt -> forall log c vd log' c' cur b,
  holds (cn_parser c) cur -> too_long b z cur (cn_in c) ->
  (need (cn_in c) (cn_parser c) < f)%nat -> writer_fine rt c -> respond f dbg rt log c = (vd, log', c') ->
  exists new out, log' = log ++ new /\ output c' = output c ++ out /\
    match vd with
    | Keep => exists b' cur', holds (cn_parser c') cur' /\ too_long b' z cur' (cn_in c') /\
        (blocks (cn_in c') < blocks (cn_in c))%nat /\
        (forall l o, cut_off rt log' b' l o -> cut_off rt log b (new ++ l) (out ++ o))
    | Close => cut_off rt log b new out
    | Unwind => False
    end.
Proof.
  intros Hrt. induction f as [|f IH]; intros log c vd log' c' cur b Hh Hc Hf W E; [lia|]. cbn [respond] in E.
  assert (Hp : parser_fine (cn_parser c)) by (destruct Hh as (_ & g & Hg & _); exists g; exact Hg).
  destruct (read_request dbg (cn_in c) (cn_parser c)) as [[r s'] p'] eqn:Er.
  destruct (read_fine _ _ _ _ _ _ Hp Er) as (Hp' & Hr).
  pose proof (read_too_long _ _ _ _ _ _ _ _ _ Hh Hc Er) as Hs.
  assert (Err : b = [] -> match run_ops (cn_w c) (cn_sock c) error_ops with (_, w1, k1) => (Close, log, mk_conn s' p' w1 k1) end = (vd, log', c') ->
    exists new out, log' = log ++ new /\ output c' = output c ++ out /\ vd = Close /\ cut_off rt log b new out).
  { intros -> X. destruct (ops_error rt c s' p' W) as (w1 & k1 & Eo & W1 & O1 & _). rewrite Eo in X. inversion X; subst.
    exists [], bad_request. rewrite app_nil_r. split; auto. split; auto. split; auto. exists [], true. split; [apply served_nothing|reflexivity]. }
  destruct r as [|v|e|k| |].
  - inversion E; subst. destruct Hs as (w & H1 & H2 & H3). exists [], []. rewrite !app_nil_r.
    split; auto. split; auto. exists b, (cur ++ w). cbn [cn_in cn_parser]. auto.
  - destruct Hr as [-> Hr]. destruct Hs as (b' & HC & _ & H2 & H3 & H4).
    assert (Nv : rt log v <> LPanic) by (apply Hrt; eapply parsed_uri_text; eauto).
    destruct (ops_reply rt c s' None log v W Nv) as (w1 & k1 & Eo & W1 & O1 & _).
    assert (E' : (if should_close_after_response v then (Close, log ++ [v], mk_conn s' None w1 k1)
                  else respond f dbg rt (log ++ [v]) (mk_conn s' None w1 k1)) = (vd, log', c')).
    { destruct (rt log v); try congruence; rewrite Eo in E; exact E. }
    clear E. destruct (should_close_after_response v) eqn:Es.
    + inversion E'; subst. exists [v], (reply (rt log v)). split; auto. split; auto.
      exists (reply (rt log v)), false. rewrite app_nil_r. split; auto. eapply served_last; [apply HC|]. now apply should_close.
    + assert (Hv : ~ asks_close v) by (rewrite <- should_close; congruence).
      assert (Step : forall l o, cut_off rt (log ++ [v]) b' l o -> cut_off rt log b (v :: l) (reply (rt log v) ++ o)).
      { intros l o (o1 & keep & Hs & ->). exists (reply (rt log v) ++ o1), keep. rewrite app_assoc. split; auto. eapply served_next; eauto. }
      apply (IH _ _ _ _ _ [] b') in E' as (new & out & -> & O2 & R); cbn [cn_in cn_parser]; auto; [| apply holds_none |lia].
      exists (v :: new), (reply (rt log v) ++ out). rewrite <- app_assoc. split; auto.
      split; [rewrite O2, O1, <- app_assoc; reflexivity|]. destruct vd.
      * destruct R as (b2 & cur' & J1 & J2 & J3 & J4). cbn [cn_in] in J3. exists b2, cur'.
        split; auto. split; auto. split; [lia|]. intros l o Hl. cbn [app]. rewrite <- app_assoc. apply Step. apply J4. rewrite <- app_assoc. exact Hl.
      * now apply Step.
      * exact R.
  - destruct (Err Hs E) as (new & out & ? & ? & -> & ?). eauto.
  - destruct (Err Hs E) as (new & out & ? & ? & -> & ?). eauto.
  - destruct Hs.
  - destruct Hs.
Qed.

(** Something is left to read. *)
Lemma too_long_left b z cur p s : holds p cur -> too_long b z cur s -> s <> [].
Proof.
  intros (Un & _) (Z & (rs & Se) & _ & Lc & s1 & s2 & x & -> & _ & E) K. apply app_eq_nil in K as [-> ->]. cbn [pending] in E. rewrite app_nil_r in E.
  inversion Se as [? H|? v rest ? ? Hb Se']; subst.
  - specialize (Lc eq_refl). cbn [app] in Lc. rewrite len_app in Lc. lia.
  - rewrite (batch_request_complete_ext _ _ _ _ Hb) in Un. exact Un.
Qed.

Lemma visits_too_long dbg rt z vs : no_panic rt -> forall log c log' st' cur b, conn_fine c ->
  holds (cn_parser c) cur -> too_long b z cur (cn_in c) -> Forall visit_fine vs -> (Forall visit_steady vs \/ short_replies rt) ->
  visits dbg rt vs log (Open c) = (log', st') ->
  exists new out, log' = log ++ new /\
    match st' with
    | Open c' => (blocks (cn_in c') + List.length vs <= blocks (cn_in c))%nat /\ exists b' cur', holds (cn_parser c') cur' /\ too_long b' z cur' (cn_in c')
    | Gone sent => cut_off rt log b new out /\ (exists rest, output c ++ out = sent ++ rest) /\
        (Forall (visit_takes (len (output c ++ out))) vs -> sent = output c ++ out)
    | Poisoned _ => False
    end.
Proof.
  intros Hrt. induction vs as [|v vs IH]; intros log c log' st' cur b Hc Hh Hs F S E; cbn [visits] in E.
  { inversion E; subst. exists [], []. rewrite app_nil_r. split; auto. cbn [List.length]. split; [lia|eauto]. }
  destruct (handle dbg rt v log (Open c)) as [l1 st1] eqn:Eh. inversion F as [|? ? F1 F2]; subst.
  assert (Sv : visit_steady v \/ short_replies rt) by (destruct S as [S|S]; [inversion S|]; auto).
  assert (Svs : Forall visit_steady vs \/ short_replies rt) by (destruct S as [S|S]; [inversion S|]; auto).
  pose proof Hc as (Hp & I & C). pose proof Eh as Eh2.
  apply handle_writes in Eh2 as (n0 & t0 & E0 & T0 & H0); auto.
  assert (Hopen : forall c1, st1 = Open c1 -> conn_fine c1) by (intros c1 ->; apply H0); clear n0 t0 E0 T0 H0. cbn [handle] in Eh.
  destruct (visit_writer_fine rt c v I C F1 Sv) as (w1 & k1 & Ef & W1 & O1 & R1). rewrite Ef in Eh.
  unfold respond_to_requests in Eh. destruct (respond _ _ _ _ _) as [[vd l] c'] eqn:Er.
  pose proof Er as Ew. apply respond_writes in Ew as (_ & _ & _ & _ & _ & _ & Rm); [|exact Hp|apply fresh_need|exact W1].
  eapply (respond_too_long dbg rt z _ Hrt _ _ _ _ _ cur b) in Er as (n1 & o1 & -> & O2 & R2); [|exact Hh|exact Hs|apply fresh_need|exact W1].
  rewrite O1 in O2. inversion Eh; subst l1 st1. clear Eh. cbn [cn_in cn_parser] in R2. destruct vd.
  - destruct R2 as (b' & cur' & J1 & J2 & J3 & J4). pose proof (Hopen _ eq_refl) as C1.
    apply (IH _ _ _ _ cur' b') in E as (n2 & o2 & -> & R); auto. exists (n1 ++ n2), (o1 ++ o2). rewrite app_assoc. split; auto.
    destruct st' as [c2|sent|sent].
    + destruct R as (R1' & R2'). split; auto. cbn [List.length]. lia.
    + rewrite O2, <- !app_assoc in R. destruct R as (R & Rr & Rt). split; [now apply J4|]. split; auto.
      intros V. apply Rt. now inversion V.
    + exact R.
  - rewrite visits_shut in E by discriminate. inversion E; subst. exists n1, o1. split; auto. split; auto.
    split; [exists (unsent (cn_w c')); rewrite <- O2; reflexivity|]. intros V. inversion V as [|? ? V1 _]; subst.
    rewrite <- O2 in *. destruct (Rm (len (output c')) (N.le_refl _)) as (_ & _ & U).
    + apply R1; auto. rewrite O2, len_app. lia.
    + unfold output. now rewrite U, app_nil_r.
  - destruct R2.
Qed.
