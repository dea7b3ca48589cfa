(** Reading a sequence of requests from one connection. *)
From Coq Require Import List Ascii String NArith ZArith Bool Lia.
From Coq Require Import ZifyBool ZifyNat ZifyN.
From Verif.Model Require Import Bytes Io Common Parse Encode Writer Server.
From Verif.Spec Require Import Batch Stream Drive Grammar Unicode Session.
From Verif.Proofs Require Import BytesFacts IoFacts ParseFacts DriveFacts CallFacts GrammarFacts BatchFacts.
From Verif.Properties Require Import Text.
Import ListNotations.
Local Open Scope N_scope.

(** ** Single characters *)

Lemma cont_only_utf8 s : utf8 s = true -> forallb is_cont s = true -> s = [].
Proof.
  intros H1 H2. destruct s as [|c s]; auto. cbn in H2. apply utf8_first in H1. rewrite H1 in H2. discriminate.
Qed.

Lemma encode_scalar_shape n : scalar n -> exists a m, encode_scalar n = a :: m /\ Forall (fun c => 128 <= c <= 191) m.
Proof.
  intros H. unfold encode_scalar.
  destruct (n <? 128); [|destruct (n <? 2048); [|destruct (n <? 65536)]]; eexists _, _; (split; [reflexivity|]);
    repeat constructor; repeat match goal with |- context [?x mod 64] =>
      let J := fresh in assert (J : x mod 64 < 64) by (apply N.mod_lt; discriminate); revert J; generalize (x mod 64) end; intros; lia.
Qed.

Lemma conts_of_bvals s m : map bval s = m -> Forall (fun c => 128 <= c <= 191) m -> forallb is_cont s = true.
Proof.
  intros <-. induction s as [|c s IH]; cbn [map]; intros H; auto. inversion H; subst. cbn [forallb].
  rewrite IH by assumption. unfold is_cont. rewrite andb_true_iff. split; auto. lia.
Qed.

Lemma pop_single l : utf8 l = true ->
  (match str_pop l with Some (q, _) => q | None => l end = [] <-> l = [] \/ single_char l).
Proof.
  intros U. destruct (str_pop l) as [[q ch]|] eqn:E.
  - apply str_pop_some in E as (-> & c & m & -> & Hc & Hm). split.
    + intros ->. cbn [app] in *. right. unfold utf8 in U.
      destruct (urun UStart (c :: m)) as [[|]|] eqn:R; try discriminate.
      apply one_char in R as (n & s' & Sc & Em & Us & Ls). exists n. split; auto.
      assert (s' = []) as ->; [|cbn [map] in Em; now rewrite app_nil_r in Em].
      apply cont_only_utf8; [unfold utf8; now rewrite Us|].
      destruct (encode_scalar_shape n Sc) as (a & t & Et & _). rewrite Et in Em. cbn [map app] in Em.
      assert (Em' : map bval m = t ++ map bval s') by congruence.
      rewrite forallb_forall in *. intros x Hx.
      assert (In (bval x) (map bval m)) as Hb by (rewrite Em'; apply in_or_app; right; now apply in_map).
      apply in_map_iff in Hb as (y & Hy & Hy2). apply Hm in Hy2. unfold is_cont in *. now rewrite <- Hy.
    + intros [H|(n & Sc & H)]; [destruct q; discriminate|]. destruct q as [|x q]; auto. exfalso.
      destruct (encode_scalar_shape n Sc) as (a & t & Et & Ft). rewrite Et in H. cbn [map app] in H.
      assert (H' : map bval (q ++ c :: m) = t) by congruence.
      pose proof (conts_of_bvals _ _ H' Ft) as K. rewrite forallb_app in K. cbn [forallb] in K. rewrite Hc in K.
      rewrite andb_false_r in K. discriminate.
  - apply str_pop_utf8_none in E; auto. subst. split; auto.
Qed.

(** ** Sequences of requests *)

Lemma complete_split b v rest : batch_request b = Complete v rest -> exists w, b = w ++ rest /\ w <> [].
Proof.
  intros H. apply request_sound in H as (w & ps & -> & (l & wire & _ & _ & _ & _ & ->) & _).
  eexists. split; [reflexivity|]. intros H. apply app_eq_nil in H as [_ H]. discriminate.
Qed.

Lemma complete_shorter b v rest : batch_request b = Complete v rest -> (List.length rest < List.length b)%nat.
Proof.
  intros H. apply complete_split in H as (w & -> & H). rewrite app_length. destruct w; [congruence|]. cbn. lia.
Qed.

Lemma last_f_fuel f : forall b, (List.length b < f)%nat -> forall g, (List.length b < g)%nat -> last_f f b = last_f g b.
Proof.
  induction f as [|f IH]; intros b Hf g Hg; [lia|]. destruct g as [|g]; [lia|]. cbn [last_f].
  destruct (batch_request b) as [v rest|p|v n|e] eqn:E; auto. apply complete_shorter in E. apply IH; lia.
Qed.

Lemma last_unfold b : last_outcome b =
  match batch_request b with Complete _ rest => last_outcome rest | o => o end.
Proof.
  unfold last_outcome at 1. cbn [last_f]. destruct (batch_request b) as [v rest|p|v n|e] eqn:E; auto.
  apply complete_shorter in E. unfold last_outcome. apply last_f_fuel; lia.
Qed.

Lemma last_of_unfinished b : unfinished (batch_request b) -> last_outcome b = batch_request b.
Proof. intros H. rewrite last_unfold. destruct (batch_request b); auto. destruct H. Qed.

Lemma session_last b rs e : session b rs e -> last_outcome b = batch_request e.
Proof.
  induction 1 as [b H|b v rest rs e H _ IH]; rewrite last_unfold.
  - destruct (batch_request b) as [v rest| | |] eqn:E; auto. destruct (H _ _ eq_refl).
  - now rewrite H.
Qed.

Lemma session_total b : exists rs e, session b rs e.
Proof.
  induction b as [b IH] using (well_founded_induction (Wf_nat.well_founded_ltof _ (@List.length byte))).
  destruct (batch_request b) as [v rest| | |] eqn:E; try (exists [], b; constructor; congruence).
  destruct (IH rest) as (rs & e & H); [unfold Wf_nat.ltof; eapply complete_shorter; eauto|].
  exists (v :: rs), e. econstructor; eauto.
Qed.

Lemma session_unique b rs e : session b rs e -> forall rs' e', session b rs' e' -> rs = rs' /\ e = e'.
Proof.
  induction 1 as [b H|b v rest rs e H _ IH]; intros rs' e' H'; inversion H'; subst; auto.
  - exfalso. eapply H; eauto.
  - exfalso. eapply H0; eauto.
  - rewrite H in H0. inversion H0; subst. apply IH in H1 as [-> ->]. auto.
Qed.

(** ** Conditions on the stream, moved along as it is read *)

(** c: the bytes received of the current request. *)
Definition calm (eof : bool) (c : bytes) (s : stream) : Prop :=
  live_eof eof s /\
  (forall s1 s2, s = s1 ++ RErr WouldBlock :: s2 -> clean (last_outcome (c ++ pending s1))) /\
  (forall s1 s2, s = s1 ++ RErr Interrupted :: s2 -> ~ in_data (last_outcome (c ++ pending s1))) /\
  (forall w x, pending s = w ++ x -> in_limits (last_outcome (c ++ w))) /\
  (eof = false -> clean (last_outcome (c ++ pending s))).

Lemma takes_shift s w s' : takes s w s' -> forall s1' k s2, s' = s1' ++ RErr k :: s2 ->
  exists s1, s = s1 ++ RErr k :: s2 /\ pending s1 = w ++ pending s1'.
Proof.
  induction 1 as [s|s w s' H IH|bs s w s' Hb H IH|a b s Ha Hb]; intros s1' k s2 E.
  - exists s1'. auto.
  - destruct (IH _ _ _ E) as (s1 & -> & P). exists (RErr Interrupted :: s1). auto.
  - destruct (IH _ _ _ E) as (s1 & -> & P). exists (RData bs :: s1). cbn [app pending]. split; auto.
    now rewrite P, app_assoc.
  - destruct s1' as [|x s1']; [discriminate|]. cbn [app] in E. inversion E; subst.
    exists (RData (a ++ b) :: s1'). cbn [app pending]. split; auto. now rewrite app_assoc.
Qed.

Lemma calm_takes eof c c' s w s' : takes s w s' ->
  (forall x, last_outcome (c ++ w ++ x) = last_outcome (c' ++ x)) -> calm eof c s -> calm eof c' s'.
Proof.
  intros T E (H1 & H2 & H3 & H4 & H5). split; [eapply live_eof_takes; eauto|]. split; [|split; [|split]].
  - intros s1 s2 K. destruct (takes_shift _ _ _ T _ _ _ K) as (t1 & K1 & K2). apply H2 in K1.
    now rewrite K2, E in K1.
  - intros s1 s2 K. destruct (takes_shift _ _ _ T _ _ _ K) as (t1 & K1 & K2). apply H3 in K1.
    now rewrite K2, E in K1.
  - intros w' x K. rewrite <- E. apply (H4 _ x). rewrite (takes_pending _ _ _ T), K. now rewrite app_assoc.
  - intros K. rewrite <- E, <- (takes_pending _ _ _ T). auto.
Qed.

Lemma calm_tail eof c k s : calm eof c (RErr k :: s) -> calm eof c s.
Proof.
  intros (H1 & H2 & H3 & H4 & H5). split; [|split; [|split; [|split; [|exact H5]]]].
  - apply live_eof_inv in H1 as [[_ H]|(_ & H & _)]; [exact H|discriminate].
  - intros s1 s2 ->. apply (H2 (RErr k :: s1) s2). reflexivity.
  - intros s1 s2 ->. apply (H3 (RErr k :: s1) s2). reflexivity.
  - intros w x E. apply (H4 w x). exact E.
Qed.

Lemma calm_start eof s : live_eof eof s -> blocks_in_clean_lines last_outcome s ->
  no_interrupt_in_data last_outcome s -> always_in_limits last_outcome (pending s) ->
  (eof = false -> clean (last_outcome (pending s))) -> calm eof [] s.
Proof. intros H1 H2 H3 H4 H5. split; auto. Qed.

(** The parser holds c of the current request. *)
Definition holds (p : option req_st) (c : bytes) : Prop :=
  unfinished (batch_request c) /\
  exists g, let st := match p with Some st => st | None => req_new end in
    msg_inv g st /\ forall x, req_cont g st x = batch_request (c ++ x).

Lemma holds_none : holds None [].
Proof. split; [exact I|]. exists 0. split; [apply line_inv_nil|]. reflexivity. Qed.
Lemma holds_new : holds (Some req_new) [].
Proof. exact holds_none. Qed.

(** ** The parser at the end of the stream *)

Lemma eof_state dbg g st s st' s' : msg_inv g st -> req_parse dbg st s = (PIo st' UnexpectedEof, s') ->
  (exists w, takes s w (RData [] :: s')) ->
  forall w, pending s = w ++ pending s' ->
  (req_has_data st' = false <->
   exists p, st = MFirst p /\ req_cont g st w = Incomplete (InFirst (p ++ w)) /\ (p ++ w = [] \/ single_char (p ++ w))).
Proof.
  intros Hinv E (w0 & Tk) w Hw.
  assert (w0 = w) as ->.
  { apply takes_pending in Tk. cbn [pending app] in Tk. rewrite Hw in Tk. now apply app_inv_tail in Tk. }
  unfold req_parse, msg_parse in E.
  destruct (msg_loop 4 parse_request_line dbg false st [] s) as [[r ls] s1] eqn:Em.
  assert (r = PIo st' UnexpectedEof /\ s1 = s') as [-> ->].
  { destruct r as [[[[m u] hm] body]|st1 k|e|]; inversion E; subst; auto. }
  clear E. 
  assert (Late : forall f st ls s r ls' s', match st with MFirst _ => False | _ => True end ->
    msg_loop f parse_request_line dbg false st ls s = (r, ls', s') ->
    match r with PIo (MFirst _) _ => False | _ => True end).
  { clear. induction f as [|f IH]; intros st ls s r ls' s' Hs E; cbn [msg_loop] in E.
    - inversion E; subst. destruct st; auto.
    - destruct st as [p|t h|t hm b|t hm b]; [destruct Hs| | |inversion E; subst; exact I].
      + unfold headers_state in E. destruct (hdr_parse dbg h ls s) as [[[hm|h' k|e|] ls1] s1].
        * destruct (body_new hm false) as [e|b]; [inversion E; subst; exact I|]. eapply IH in E; [exact E|exact I].
        * inversion E; subst. exact I.
        * inversion E; subst. exact I.
        * inversion E; subst. exact I.
      + unfold body_state in E. destruct (body_parse dbg b ls s) as [[[v|b' k|e|] ls1] s1].
        * eapply IH in E; [exact E|exact I].
        * inversion E; subst. exact I.
        * inversion E; subst. exact I.
        * inversion E; subst. exact I. }
  assert (HD : forall x : req_st, (forall p, x <> MFirst p) -> req_has_data x = true).
  { intros [p| | |] H; auto. destruct (H p); auto. }
  destruct st as [p|t h|t hm b|t hm b].
  - cbn [msg_loop] in Em. unfold first_line_state, first_parse in Em.
    destruct (crlf_parse dbg p [] s) as [[[l|p' k|e|] ls1] s1] eqn:Ec.
    + assert (Lf : forall x, cut_line (p ++ w ++ x) <> None).
      { pose proof Ec as Ec'. apply crlf_parse_spec in Ec' as (w1 & _ & _ & _ & T1 & C1 & _); [|exact Hinv].
        intros x Hn.
        destruct (parse_request_line l) as [e|t] eqn:El; [inversion Em|].
        change (msg_loop 3 parse_request_line dbg false (MHeaders t hdr_new) ls1 s1 = (PIo st' UnexpectedEof, ls, s')) in Em.
        assert (exists w2, pending s1 = w2 ++ pending s') as (w2 & P2).
        { eapply msg_loop_spec with (g := 0) in Em as (w2 & _ & _ & (_ & St & _));
            [|cbn; lia|split; [apply line_inv_nil|cbn; lia]]. exists w2.
          destruct St as [[[St|(-> & St & ->)] _]|[(_ & St & _)|(_ & St & _)]];
            apply takes_pending in St; cbn [pending app] in St; auto. }
        apply takes_pending in T1. rewrite P2 in T1. rewrite T1, app_assoc in Hw.
        apply app_inv_tail in Hw. subst w. rewrite <- app_assoc, C1 in Hn. discriminate. }
      split.
      * intros Hd. exfalso. destruct (parse_request_line l) as [e|t] eqn:El; [inversion Em|].
        change (msg_loop 3 parse_request_line dbg false (MHeaders t hdr_new) ls1 s1 = (PIo st' UnexpectedEof, ls, s')) in Em.
        apply Late in Em; [|exact I]. rewrite HD in Hd; [discriminate|]. intros q ->. exact Em.
      * intros (p0 & H0 & H1 & _). exfalso. assert (p0 = p) by congruence. subst p0.
        unfold req_cont, msg_cont, batch_msg, batch_first in H1. specialize (Lf []). rewrite app_nil_r in Lf.
        destruct (cut_line (p ++ w)) as [[[e|l'] r]|]; [discriminate| |congruence].
        destruct (parse_request_line l') as [e|t]; [discriminate|]. cbn [obind] in H1.
        destruct (batch_headers 0 [] r) as [hm r'|pr|v n|e] eqn:Eh; cbn [obind omap] in H1.
        -- unfold batch_after_headers in H1. destruct (framing_of hm false) as [e|fr] eqn:Ef; [discriminate|].
           destruct (batch_body fr r') as [v r2|pr|v n|e] eqn:Eb; cbn [omap] in H1; try discriminate.
           inversion H1; subst. destruct fr; cbn [batch_body] in Eb; try discriminate.
           ++ destruct (len r' <? n); discriminate.
           ++ clear -Eb. revert Eb. unfold batch_chunks. generalize (S (List.length r')) as f. generalize 0 at 1 as n.
              generalize (@nil byte) as acc. revert r'. 
              assert (X : forall f n acc r' l, batch_chunks_f f n acc r' <> Incomplete (InFirst l)).
              { induction f as [|f IH]; intros n acc r' l; cbn [batch_chunks_f]; [discriminate|].
                destruct (cut_line r') as [[[e|l0] r0]|]; try discriminate.
                destruct (parse_chunk_size l0) as [e|sz]; [discriminate|]. unfold batch_data.
                destruct (len ([] ++ r0) <? sz); [discriminate|]. unfold batch_tail.
                destruct (cut_line _) as [[[e|[|c l1]] r1]|]; try discriminate.
                destruct (sz =? 0); [discriminate|]. apply IH. }
              intros r' acc n f Eb. exact (X _ _ _ _ _ Eb).
        -- inversion H1; subst. revert Eh. unfold batch_headers.
           assert (X : forall f n m b l, batch_headers_f f n m b <> Incomplete (InFirst l)).
           { induction f as [|f IH]; intros n m b l0; cbn [batch_headers_f]; [discriminate|].
             destruct (cut_line b) as [[[e|[|c l1]] r0]|]; try discriminate.
             destruct (parse_header (c :: l1)) as [e|[k v]]; [discriminate|]. apply IH. }
           intros Eh. exact (X _ _ _ _ _ Eh).
        -- exfalso. revert Eh. unfold batch_headers.
           assert (X : forall f n m b v k, batch_headers_f f n m b <> AtEof v k).
           { induction f as [|f IH]; intros n0 m b v0 k0; cbn [batch_headers_f]; [discriminate|].
             destruct (cut_line b) as [[[e|[|c l1]] r0]|]; try discriminate.
             destruct (parse_header (c :: l1)) as [e|[k1 v1]]; [discriminate|]. apply IH. }
           intros Eh. exact (X _ _ _ _ _ _ Eh).
        -- discriminate.
    + inversion Em; subst. pose proof Ec as Ec'. apply crlf_parse_spec in Ec as (w1 & _ & _ & _ & Nw & Hc); [|exact Hinv].
      destruct Hc as [[Hc Hp]|(_ & T1 & Uw & Hp)].
      * (* a real UnexpectedEof error from the stream: excluded by the takes hypothesis *)
        exfalso. destruct Hc as [[Hs _]|(K & _)]; [|discriminate].
        destruct Hs as [Hs|(K & _)]; [|discriminate].
        revert Tk Hs. clear. intros H. revert w1. remember (RData [] :: s') as t eqn:Et.
        induction H as [s|s w s0 H IH|bs s w s0 Hb H IH|a b s Ha Hb]; intros w1 K; subst.
        -- inversion K; subst; congruence.
        -- inversion K; subst; eauto.
        -- inversion K; subst; eauto.
        -- inversion Et; subst. congruence.
      * assert (w1 = w) as ->.
        { apply takes_pending in T1. cbn [pending app] in T1. rewrite Hw in T1. now apply app_inv_tail in T1. }
        destruct Hinv as (Up & Np & Lp).
        assert (U : utf8 (p ++ w) = true) by now apply utf8_app_true.
        pose proof (pop_single _ U) as PS. rewrite <- Hp in PS. cbn [req_has_data]. split.
        -- intros Hd. exists p. split; auto. split; [|apply PS; apply len_0; lia].
           unfold req_cont, msg_cont, batch_msg, batch_first.
           rewrite cut_line_none by now apply noLF_app. reflexivity.
        -- intros (p0 & H0 & _ & H1). assert (p0 = p) by congruence. subst p0. apply PS in H1. rewrite H1. reflexivity.
    + inversion Em.
    + inversion Em.
  - split; [|intros (p & H & _); discriminate]. intros Hd. exfalso. apply Late in Em; [|exact I].
    rewrite HD in Hd; [discriminate|]. intros q ->. exact Em.
  - split; [|intros (p & H & _); discriminate]. intros Hd. exfalso. apply Late in Em; [|exact I].
    rewrite HD in Hd; [discriminate|]. intros q ->. exact Em.
  - inversion Em.
Qed.

(** ** Unfinished first lines *)

Lemma chunks_not_first f : forall n acc r l, batch_chunks_f f n acc r <> Incomplete (InFirst l).
Proof.
  induction f as [|f IH]; intros n acc r l; cbn [batch_chunks_f]; [discriminate|].
  destruct (cut_line r) as [[[e|l0] r0]|]; try discriminate.
  destruct (parse_chunk_size l0) as [e|sz]; [discriminate|]. unfold batch_data.
  destruct (len ([] ++ r0) <? sz); [discriminate|]. unfold batch_tail.
  destruct (cut_line _) as [[[e|[|c l1]] r1]|]; try discriminate.
  destruct (sz =? 0); [discriminate|]. apply IH.
Qed.
Lemma tail_not_first n body last b l : batch_tail batch_chunks n body last b <> Incomplete (InFirst l).
Proof.
  unfold batch_tail. destruct (cut_line _) as [[[e|[|c l1]] r1]|]; try discriminate.
  destruct last; [discriminate|]. apply chunks_not_first.
Qed.
Lemma headers_not_first f : forall n m b l, batch_headers_f f n m b <> Incomplete (InFirst l).
Proof.
  induction f as [|f IH]; intros n m b l0; cbn [batch_headers_f]; [discriminate|].
  destruct (cut_line b) as [[[e|[|c l1]] r0]|]; try discriminate.
  destruct (parse_header (c :: l1)) as [e|[k v]]; [discriminate|]. apply IH.
Qed.
Lemma headers_not_eof f : forall n m b v k, batch_headers_f f n m b <> AtEof v k.
Proof.
  induction f as [|f IH]; intros n0 m b v0 k0; cbn [batch_headers_f]; [discriminate|].
  destruct (cut_line b) as [[[e|[|c l1]] r0]|]; try discriminate.
  destruct (parse_header (c :: l1)) as [e|[k1 v1]]; [discriminate|]. apply IH.
Qed.
Lemma after_not_first {T} (t : T) hm b l : batch_after_headers false t hm b <> Incomplete (InFirst l).
Proof.
  unfold batch_after_headers. destruct (framing_of hm false) as [e|fr]; [discriminate|].
  destruct fr; cbn [batch_body]; try discriminate.
  - destruct (len b <? n); discriminate.
  - destruct (batch_chunks 0 [] b) eqn:E; cbn [omap]; try discriminate.
    intros H. assert (p = InFirst l) by congruence. subst. exact (chunks_not_first _ _ _ _ _ E).
Qed.
Lemma headers_after_not_first {T} (t : T) n m b l :
  obind (batch_headers n m b) (fun hm b2 => batch_after_headers false t hm b2) <> Incomplete (InFirst l).
Proof.
  destruct (batch_headers n m b) as [hm r|p|v k|e] eqn:E; cbn [obind]; try discriminate.
  - apply after_not_first.
  - intros H. assert (p = InFirst l) by congruence. subst. exact (headers_not_first _ _ _ _ _ E).
  - exfalso. exact (headers_not_eof _ _ _ _ _ _ E).
Qed.

Lemma omap_incomplete {A B} (f : A -> B) o p : omap f o = Incomplete p -> o = Incomplete p.
Proof. destruct o; cbn; congruence. Qed.

Lemma in_first_bytes b l : batch_request b = Incomplete (InFirst l) -> l = b /\ cut_line b = None.
Proof.
  intros H. apply omap_incomplete in H. unfold batch_msg, batch_first in H.
  destruct (cut_line b) as [[[e|l'] r]|]; [discriminate| |split; [cbn in H; congruence|reflexivity]].
  destruct (parse_request_line l') as [e|t]; [discriminate|]. cbn [obind] in H.
  exfalso. exact (headers_after_not_first _ _ _ _ _ H).
Qed.

Lemma cont_in_first g st b l : req_cont g st b = Incomplete (InFirst l) -> exists p, st = MFirst p /\ l = p ++ b.
Proof.
  intros H. destruct st as [p|t h|t hm bs|t hm body].
  - exists p. split; auto. now apply in_first_bytes in H.
  - exfalso. apply omap_incomplete in H. exact (headers_after_not_first _ _ _ _ _ H).
  - exfalso. apply omap_incomplete, omap_incomplete in H. destruct bs as [d|d|c|]; cbn [body_cont] in H; try discriminate.
    + destruct (_ <? _); discriminate.
    + unfold chunk_cont in H. destruct (c_state c).
      * exact (chunks_not_first _ _ _ _ _ H).
      * unfold batch_data in H. destruct (_ <? _); [discriminate|]. exact (tail_not_first _ _ _ _ _ H).
      * exact (tail_not_first _ _ _ _ _ H).
      * discriminate.
  - discriminate.
Qed.

Lemma single_utf8 b : single_char b -> utf8 b = true.
Proof.
  intros (n & Sc & E). apply C56_text_is_unicode. exists [n]. split; [constructor; [exact Sc|constructor]|].
  cbn [map List.concat]. now rewrite app_nil_r.
Qed.

Lemma single_incomplete b p : single_char b -> batch_request b = Incomplete p -> p = InFirst b.
Proof.
  intros (n & Sc & E) H. apply omap_incomplete in H. unfold batch_msg, batch_first in H.
  destruct (cut_line b) as [[x r]|] eqn:Ec; [|cbn in H; congruence]. exfalso.
  unfold cut_line in Ec. destruct (cut_lf b) as [[l r']|] eqn:El; [|discriminate].
  apply cut_lf_some in El as (-> & Nl).
  assert (l = [] /\ r' = []) as [-> ->].
  { rewrite map_app in E. cbn [map] in E.
    change (bval LF) with 10 in E. destruct (encode_scalar_shape n Sc) as (a & m & Em & Fm). rewrite Em in E.
    destruct l as [|c l].
    - cbn [map app] in E. assert (a = 10) by congruence. assert (Er : map bval r' = m) by congruence.
      destruct r' as [|c r']; auto. exfalso. subst a. clear Er. unfold encode_scalar in Em.
      destruct (n <? 128) eqn:J1; [|destruct (n <? 2048) eqn:J2; [|destruct (n <? 65536) eqn:J3]].
      + assert (m = []) by congruence. subst m. discriminate.
      + assert (192 + n / 64 = 10) by congruence. lia.
      + assert (224 + n / 4096 = 10) by congruence. lia.
      + assert (240 + n / 262144 = 10) by congruence. lia.
    - exfalso. cbn [map app] in E. assert (Er : map bval l ++ 10 :: map bval r' = m) by congruence.
      subst m. rewrite Forall_app in Fm. destruct Fm as [_ Fm]. inversion Fm; subst. lia. }
  cbn in Ec. inversion Ec; subst. cbn in H. discriminate.
Qed.

(** ** One call of read_request *)

Lemma takes_blocks s w s' : takes s w s' -> (blocks s' <= blocks s)%nat.
Proof. induction 1; cbn [blocks]; lia. Qed.

Lemma unfinished_cut c w : unfinished (batch_request (c ++ w)) -> unfinished (batch_request c).
Proof.
  intros H. pose proof (request_stable c w) as S. destruct (batch_request c); cbn in *; auto; rewrite S in H; exact H.
Qed.

Lemma read_step dbg eof c s p r s' p' : holds p c -> calm eof c s -> read_request dbg s p = (r, s', p') ->
  match r with
  | NotReady => exists w, pending s = w ++ pending s' /\ holds p' (c ++ w) /\ calm eof (c ++ w) s' /\
      ((s' = [] /\ eof = false) \/ (blocks s' < blocks s)%nat)
  | Ready v => exists w, pending s = w ++ pending s' /\ (forall x, batch_request (c ++ w ++ x) = Complete v x) /\
      p' = None /\ calm eof [] s' /\ (blocks s' <= blocks s)%nat /\ (mu s' < mu s)%nat
  | ParseErr e =>
      (exists w, pending s = w ++ pending s' /\ forall x, batch_request (c ++ w ++ x) = Bad e) \/
      (eof = true /\ c ++ pending s <> [] /\ ~ single_char (c ++ pending s) /\
       exists p, batch_request (c ++ pending s) = Incomplete p)
  | IoErr k => eof = true /\ c ++ pending s <> [] /\ ~ single_char (c ++ pending s) /\
       exists p, batch_request (c ++ pending s) = Incomplete p
  | Closed => eof = true /\ (c ++ pending s = [] \/ single_char (c ++ pending s)) /\
      batch_request (c ++ pending s) = Incomplete (InFirst (c ++ pending s))
  | RPanic => False
  end.
Proof.
  intros (Hu & g & Hinv & Hc) Hcalm E. unfold read_request in E.
  set (st := match p with Some st => st | None => req_new end) in *.
  destruct (req_parse dbg st s) as [r0 s0] eqn:Ep.
  destruct (req_parser_ok dbg _ _ _ _ _ Hinv Ep) as (w & Hok).
  pose proof Hcalm as (Hlive & Hclean & Hintr & Hlim & Hend).
  destruct r0 as [v|st' k|e|].
  - inversion E; subst r s' p'. destruct Hok as [(T & H)|(T & n & H)].
    + exists w. split; [now apply takes_pending|].
      assert (HC : forall x, batch_request (c ++ w ++ x) = Complete v x) by (intros; rewrite <- Hc; apply H).
      split; [exact HC|]. split; auto. split; [|split; [eapply takes_blocks; eauto|]].
      * eapply calm_takes; eauto. intros x. rewrite last_unfold, HC. reflexivity.
      * eapply takes_nil_mu; eauto. intros ->. specialize (HC []). cbn [app] in HC. rewrite app_nil_r in HC.
        rewrite HC in Hu. exact Hu.
    + exfalso. rewrite Hc in H. exact (batch_request_not_eof _ _ _ H).
  - destruct Hok as (Hun & Hstop & _ & Hres). rewrite Hc in *.
    assert (Hlast : last_outcome (c ++ w) = batch_request (c ++ w)) by now apply last_of_unfinished.
    destruct Hstop as [[Hstop Hi]|[(-> & H1 & H2)|(-> & H1 & H2)]].
    + assert (k = WouldBlock) as ->.
      { destruct Hstop as [Hs|[Hs _]]; auto. pose proof (live_eof_takes _ _ _ _ Hs Hlive) as Hl.
        apply live_eof_inv in Hl as [[[Hs'|Hs'] _]|(_ & Hs' & _)]; [exact Hs'| |discriminate].
        subst k. exfalso. destruct (takes_prefix _ _ _ _ Hs) as (s1 & -> & <-).
        eapply Hintr; [reflexivity|]. rewrite Hlast. now apply Hi. }
      inversion E; subst r s' p'. exists w.
      destruct Hstop as [Hs|(_ & Hs & ->)].
      * pose proof (takes_pending _ _ _ Hs) as Hpen. cbn [pending] in Hpen. split; [exact Hpen|].
        assert (Hcl : clean (batch_request (c ++ w))).
        { rewrite <- Hlast. destruct (takes_prefix _ _ _ _ Hs) as (s1 & -> & <-). eapply Hclean; reflexivity. }
        split; [|split].
        -- split; [exact Hun|]. destruct (Hres ltac:(discriminate) Hcl) as (g' & Hgi & Hx).
           exists g'. split; auto. intros x. rewrite <- Hx, Hc. now rewrite app_assoc.
        -- apply (calm_tail _ _ WouldBlock). eapply calm_takes; eauto. intros x. now rewrite app_assoc.
        -- right. apply takes_blocks in Hs. cbn [blocks] in Hs. lia.
      * pose proof (takes_pending _ _ _ Hs) as Hpen. split; [exact Hpen|].
        pose proof (live_eof_takes _ _ _ _ Hs Hlive) as Hl'.
        assert (eof = false) as ->.
        { destruct Hl' as (s1 & _ & Hl'). destruct eof; auto. destruct s1; discriminate. }
        assert (Hcl : clean (batch_request (c ++ w))).
        { rewrite <- Hlast. specialize (Hend eq_refl). rewrite Hpen in Hend. cbn [pending] in Hend.
          now rewrite app_nil_r in Hend. }
        split; [|split].
        -- split; [exact Hun|]. destruct (Hres ltac:(discriminate) Hcl) as (g' & Hgi & Hx).
           exists g'. split; auto. intros x. rewrite <- Hx, Hc. now rewrite app_assoc.
        -- eapply calm_takes; eauto. intros x. now rewrite app_assoc.
        -- left. auto.
    + exfalso. destruct H2 as [H2|H2]; [|now apply limited_nil in H2]. apply H2. rewrite <- Hlast.
      apply (Hlim _ (pending s0)). now apply takes_pending.
    + destruct (takes_eof _ _ _ _ Hlive H1) as (-> & -> & <-).
      assert (Hp : pending s = pending s ++ pending []) by (cbn; now rewrite app_nil_r).
      pose proof (eof_state _ _ _ _ _ _ Hinv Ep (ex_intro _ _ H1) _ Hp) as Hd.
      destruct (batch_request (c ++ pending s)) as [|pr|v n|] eqn:Eb; try (destruct Hun; fail).
      2: { exfalso. exact (batch_request_not_eof _ _ _ Eb). }
      cbn [is_closed] in E. destruct (req_has_data st') eqn:Ed; cbn [negb] in E; inversion E; subst r s' p'.
      * split; auto.
        assert (X : ~ (c ++ pending s = [] \/ single_char (c ++ pending s))).
        { intros X. apply diff_true_false. apply Hd.
          assert (Eb' : batch_request (c ++ pending s) = Incomplete (InFirst (c ++ pending s))).
          { destruct X as [X|X]; [rewrite X; reflexivity|].
            pose proof (single_incomplete _ _ X Eb). subst pr. exact Eb. }
          rewrite <- Hc in Eb'. pose proof Eb' as Eb2. apply cont_in_first in Eb' as (q & -> & Eq). exists q. rewrite <- Eq. auto. }
        split; [intros Z; apply X; now left|]. split; [intros Z; apply X; now right|]. eauto.
      * destruct Hd as [Hd _]. destruct (Hd eq_refl) as (q & -> & Hf & Hs). rewrite Hc in Hf.
        assert (q ++ pending s = c ++ pending s) as Eq by (now apply in_first_bytes in Hf).
        rewrite Eq in *. rewrite <- Hf. auto.
  - inversion E; subst r s' p'. destruct Hok as [(T & H)|(Hun & -> & H)].
    + left. exists w. split; [now apply takes_pending|]. intros x. rewrite <- Hc. apply H.
    + right. rewrite Hc in *. destruct H as [[Hs|[Hs _]]|(T & H)]; [|discriminate|].
      * exfalso. apply (live_eof_takes _ _ _ _ Hs) in Hlive.
        apply live_eof_inv in Hlive as [[[Hs'|Hs'] _]|(_ & Hs' & _)]; discriminate.
      * destruct (takes_eof _ _ _ _ Hlive T) as (-> & -> & <-). split; auto.
        destruct (batch_request (c ++ pending s)) as [|pr|v n|] eqn:Eb; try (destruct Hun; fail).
        2: { exfalso. exact (batch_request_not_eof _ _ _ Eb). }
        cbn [clean] in H. split; [|split; [|eauto]].
        -- intros Z. rewrite Z in Eb. cbn in Eb. assert (pr = InFirst []) by congruence. subst pr. apply H. reflexivity.
        -- intros Z. pose proof (single_incomplete _ _ Z Eb). subst pr. apply H. cbn [line_of]. now apply single_utf8.
  - inversion E; subst r s' p'. destruct Hok as (T & Hun & H). apply H. rewrite Hc in *. rewrite <- last_of_unfinished by assumption.
    apply (Hlim _ (pending s0)). now apply takes_pending.
Qed.
