(** Connections whose peers send any amount: the limits only refuse. *)
From Coq Require Import List Ascii String NArith Bool Arith Lia.
From Coq Require Import ZifyBool ZifyNat ZifyN.
From Verif.Model Require Import Bytes Io Common Parse Encode Writer Server.
From Verif.Spec Require Import Batch Stream Drive Output Unicode Session Oversize.
From Verif.Proofs Require Import BytesFacts IoFacts ParseFacts DriveFacts CallFacts BatchFacts WriterFacts OpsFacts ClientFacts GrammarFacts LimitGrammar ServerFacts ConnFacts.
Import ListNotations.
Local Open Scope N_scope.

(** ** Conditions on the stream, moved along as it is read *)

(** c: the bytes received of the current request. *)
Definition tame (eof : bool) (c : bytes) (s : stream) : Prop :=
  live_eof eof s /\
  (forall s1 s2, s = s1 ++ RErr WouldBlock :: s2 -> clean (last_outcome (c ++ pending s1))) /\
  (forall s1 s2, s = s1 ++ RErr Interrupted :: s2 -> ~ in_data (last_outcome (c ++ pending s1))) /\
  (eof = false -> clean (last_outcome (c ++ pending s))).

Lemma tame_takes eof c c' s w s' : takes s w s' ->
  (forall x, last_outcome (c ++ w ++ x) = last_outcome (c' ++ x)) -> tame eof c s -> tame eof c' s'.
Proof.
  intros T E (H1 & H2 & H3 & H5). split; [eapply live_eof_takes; eauto|]. split; [|split].
  - intros s1 s2 K. destruct (takes_shift _ _ _ T _ _ _ K) as (t1 & K1 & K2). apply H2 in K1. now rewrite K2, E in K1.
  - intros s1 s2 K. destruct (takes_shift _ _ _ T _ _ _ K) as (t1 & K1 & K2). apply H3 in K1. now rewrite K2, E in K1.
  - intros K. rewrite <- E, <- (takes_pending _ _ _ T). auto.
Qed.
Lemma tame_tail eof c k s : tame eof c (RErr k :: s) -> tame eof c s.
Proof.
  intros (H1 & H2 & H3 & H5). split; [|split; [|split; [|exact H5]]].
  - apply live_eof_inv in H1 as [[_ H]|(_ & H & _)]; [exact H|discriminate].
  - intros s1 s2 ->. apply (H2 (RErr k :: s1) s2). reflexivity.
  - intros s1 s2 ->. apply (H3 (RErr k :: s1) s2). reflexivity.
Qed.
Lemma any_size_tame eof s : any_size eof s -> tame eof [] s.
Proof. intros (H1 & H2 & H3 & H4). split; auto. Qed.

(** A first part of b is an unfinished request over the limits. *)
Definition over_limit (b : bytes) : Prop := exists w x p, b = w ++ x /\ batch_request w = Incomplete p /\ ~ small p.
Lemma over_prefix w x : unfinished (batch_request w) -> ~ in_limits (batch_request w) -> over_limit (w ++ x).
Proof.
  intros U L. destruct (batch_request w) as [|p|v n|] eqn:E; try (destruct U; fail).
  - exists w, x, p. auto.
  - exfalso. exact (batch_request_not_eof _ _ _ E).
Qed.
Lemma over_too_big rt h b : over_limit b -> too_big rt h b [] [].
Proof. intros (w & x & p & E & H1 & H2). eapply too_big_here; eauto. Qed.

(** ** One call of read_request *)

Lemma read_tame dbg eof c s p r s' p' : holds p c -> tame eof c s -> read_request dbg s p = (r, s', p') ->
  match r with
  | NotReady => exists w, pending s = w ++ pending s' /\ holds p' (c ++ w) /\ tame eof (c ++ w) s' /\
      ((s' = [] /\ eof = false) \/ (blocks s' < blocks s)%nat)
  | Ready v => exists w, pending s = w ++ pending s' /\ (forall x, batch_request (c ++ w ++ x) = Complete v x) /\
      p' = None /\ tame eof [] s' /\ (blocks s' <= blocks s)%nat /\ (mu s' < mu s)%nat
  | ParseErr e =>
      (exists w, pending s = w ++ pending s' /\ forall x, batch_request (c ++ w ++ x) = Bad e) \/
      (eof = true /\ c ++ pending s <> [] /\ ~ single_char (c ++ pending s) /\
       exists p, batch_request (c ++ pending s) = Incomplete p)
  | IoErr k => (k = LimitReached /\ over_limit (c ++ pending s)) \/ eof = true /\ c ++ pending s <> [] /\ ~ single_char (c ++ pending s) /\
       exists p, batch_request (c ++ pending s) = Incomplete p
  | Closed => eof = true /\ (c ++ pending s = [] \/ single_char (c ++ pending s)) /\
      batch_request (c ++ pending s) = Incomplete (InFirst (c ++ pending s))
  | RPanic => over_limit (c ++ pending s)
  end.
Proof.
  intros (Hu & g & Hinv & Hc) Htame E. unfold read_request in E.
  set (st := match p with Some st => st | None => req_new end) in *.
  destruct (req_parse dbg st s) as [r0 s0] eqn:Ep.
  destruct (req_parser_ok dbg _ _ _ _ _ Hinv Ep) as (w & Hok).
  pose proof Htame as (Hlive & Hclean & Hintr & Hend).
  destruct r0 as [v|st' k|e|].
  - inversion E; subst r s' p'. destruct Hok as [(T & H)|(T & n & H)].
    + exists w. split; [now apply takes_pending|].
      assert (HC : forall x, batch_request (c ++ w ++ x) = Complete v x) by (intros; rewrite <- Hc; apply H).
      split; [exact HC|]. split; auto. split; [|split; [eapply takes_blocks; eauto|]].
      * eapply tame_takes; eauto. intros x. rewrite last_unfold, HC. reflexivity.
      * eapply takes_nil_mu; eauto. intros ->. specialize (HC []). cbn [app] in HC. rewrite app_nil_r in HC.
        rewrite HC in Hu. exact Hu.
    + exfalso. rewrite Hc in H. exact (batch_request_not_eof _ _ _ H).
  - destruct Hok as (Hun & Hstop & _ & Hres). rewrite Hc in *.
    assert (Hlast : last_outcome (c ++ w) = batch_request (c ++ w)) by now apply last_of_unfinished.
    destruct Hstop as [[Hstop Hi]|[(-> & H1 & H2)|(-> & H1 & H2)]].
    + assert (k = WouldBlock) as ->.
      { destruct Hstop as [Hs|[Hs _]]; auto. pose proof (live_eof_takes _ _ _ _ Hs Hlive) as Hl.
        apply live_eof_inv in Hl as [[[Hs'|Hs'] _]|(_ & Hs' & _)]; [exact Hs'| |discriminate].
        subst k. exfalso. destruct (takes_prefix _ _ _ _ Hs) as (s1 & -> & <-).
        eapply Hintr; [reflexivity|]. rewrite Hlast. now apply Hi. }
      inversion E; subst r s' p'. exists w.
      destruct Hstop as [Hs|(_ & Hs & ->)].
      * pose proof (takes_pending _ _ _ Hs) as Hpen. cbn [pending] in Hpen. split; [exact Hpen|].
        assert (Hcl : clean (batch_request (c ++ w))).
        { rewrite <- Hlast. destruct (takes_prefix _ _ _ _ Hs) as (s1 & -> & <-). eapply Hclean; reflexivity. }
        split; [|split].
        -- split; [exact Hun|]. destruct (Hres ltac:(discriminate) Hcl) as (g' & Hgi & Hx).
           exists g'. split; auto. intros x. rewrite <- Hx, Hc. now rewrite app_assoc.
        -- apply (tame_tail _ _ WouldBlock). eapply tame_takes; eauto. intros x. now rewrite app_assoc.
        -- right. apply takes_blocks in Hs. cbn [blocks] in Hs. lia.
      * pose proof (takes_pending _ _ _ Hs) as Hpen. split; [exact Hpen|].
        pose proof (live_eof_takes _ _ _ _ Hs Hlive) as Hl'.
        assert (eof = false) as ->.
        { destruct Hl' as (s1 & _ & Hl'). destruct eof; auto. destruct s1; discriminate. }
        assert (Hcl : clean (batch_request (c ++ w))).
        { rewrite <- Hlast. specialize (Hend eq_refl). rewrite Hpen in Hend. cbn [pending] in Hend.
          now rewrite app_nil_r in Hend. }
        split; [|split].
        -- split; [exact Hun|]. destruct (Hres ltac:(discriminate) Hcl) as (g' & Hgi & Hx).
           exists g'. split; auto. intros x. rewrite <- Hx, Hc. now rewrite app_assoc.
        -- eapply tame_takes; eauto. intros x. now rewrite app_assoc.
        -- left. auto.
    + inversion E; subst r s' p'. left. split; auto. destruct H2 as [H2|H2]; [|now apply limited_nil in H2].
      rewrite (takes_pending _ _ _ H1), app_assoc. now apply over_prefix.
    + destruct (takes_eof _ _ _ _ Hlive H1) as (-> & -> & <-).
      assert (Hp : pending s = pending s ++ pending []) by (cbn; now rewrite app_nil_r).
      pose proof (eof_state _ _ _ _ _ _ Hinv Ep (ex_intro _ _ H1) _ Hp) as Hd.
      destruct (batch_request (c ++ pending s)) as [|pr|v n|] eqn:Eb; try (destruct Hun; fail).
      2: { exfalso. exact (batch_request_not_eof _ _ _ Eb). }
      cbn [is_closed] in E. destruct (req_has_data st') eqn:Ed; cbn [negb] in E; inversion E; subst r s' p'.
      * right. split; auto.
        assert (X : ~ (c ++ pending s = [] \/ single_char (c ++ pending s))).
        { intros X. apply diff_true_false. apply Hd.
          assert (Eb' : batch_request (c ++ pending s) = Incomplete (InFirst (c ++ pending s))).
          { destruct X as [X|X]; [rewrite X; reflexivity|].
            pose proof (single_incomplete _ _ X Eb). subst pr. exact Eb. }
          rewrite <- Hc in Eb'. pose proof Eb' as Eb2. apply cont_in_first in Eb' as (q & -> & Eq). exists q. rewrite <- Eq. auto. }
        split; [intros Z; apply X; now left|]. split; [intros Z; apply X; now right|]. eauto.
      * destruct Hd as [Hd _]. destruct (Hd eq_refl) as (q & -> & Hf & Hs). rewrite Hc in Hf.
        assert (q ++ pending s = c ++ pending s) as Eq by (now apply in_first_bytes in Hf).
        rewrite Eq in *. rewrite <- Hf. auto.
  - inversion E; subst r s' p'. destruct Hok as [(T & H)|(Hun & -> & H)].
    + left. exists w. split; [now apply takes_pending|]. intros x. rewrite <- Hc. apply H.
    + right. rewrite Hc in *. destruct H as [[Hs|[Hs _]]|(T & H)]; [|discriminate|].
      * exfalso. apply (live_eof_takes _ _ _ _ Hs) in Hlive.
        apply live_eof_inv in Hlive as [[[Hs'|Hs'] _]|(_ & Hs' & _)]; discriminate.
      * destruct (takes_eof _ _ _ _ Hlive T) as (-> & -> & <-). split; auto.
        destruct (batch_request (c ++ pending s)) as [|pr|v n|] eqn:Eb; try (destruct Hun; fail).
        2: { exfalso. exact (batch_request_not_eof _ _ _ Eb). }
        cbn [clean] in H. split; [|split; [|eauto]].
        -- intros Z. rewrite Z in Eb. cbn in Eb. assert (pr = InFirst []) by congruence. subst pr. apply H. reflexivity.
        -- intros Z. pose proof (single_incomplete _ _ Z Eb). subst pr. apply H. cbn [line_of]. now apply single_utf8.
  - inversion E; subst r s' p'. destruct Hok as (T & Hun & H). rewrite Hc in *.
    rewrite (takes_pending _ _ _ T), app_assoc. now apply over_prefix.
Qed.

(** ** The loop *)

Lemma respond_tame dbg rt eof f : no_panic rt ->
  forall log c vd log' c' cur, holds (cn_parser c) cur -> tame eof cur (cn_in c) ->
  (need (cn_in c) (cn_parser c) < f)%nat -> writer_fine rt c -> respond f dbg rt log c = (vd, log', c') ->
  exists new out, log' = log ++ new /\ output c' = output c ++ out /\
    match vd with
    | Keep => exists took cur', pending (cn_in c) = took ++ pending (cn_in c') /\
        holds (cn_parser c') cur' /\ tame eof cur' (cn_in c') /\
        (forall x e l o k, served rt log' (cur' ++ x) e l o k ->
           served rt log (cur ++ took ++ x) e (new ++ l) (out ++ o) k) /\
        (forall x l o, too_big rt log' (cur' ++ x) l o -> too_big rt log (cur ++ took ++ x) (new ++ l) (out ++ o)) /\
        (forall x l e, session (cur' ++ x) l e -> session (cur ++ took ++ x) (new ++ l) e) /\
        ((cn_in c' = [] /\ eof = false) \/ (blocks (cn_in c') < blocks (cn_in c))%nat)
    | Close => served rt log (cur ++ pending (cn_in c)) eof new out false \/
        exists o, too_big rt log (cur ++ pending (cn_in c)) new o /\ out = o ++ bad_request
    | Unwind => too_big rt log (cur ++ pending (cn_in c)) new out
    end.
Proof.
  intros Hrt. induction f as [|f IH]; intros log c vd log' c' cur Hh Hc Hf W E; [lia|]. cbn [respond] in E.
  assert (Hp : parser_fine (cn_parser c)) by (destruct Hh as (_ & g & Hg & _); exists g; exact Hg).
  destruct (read_request dbg (cn_in c) (cn_parser c)) as [[r s'] p'] eqn:Er.
  destruct (read_fine _ _ _ _ _ _ Hp Er) as (Hp' & Hr).
  pose proof (read_tame _ _ _ _ _ _ _ _ Hh Hc Er) as Hs.
  destruct r as [|v|e|k| |].
  - inversion E; subst. destruct Hs as (w & P & H1 & H2 & H3). exists [], []. rewrite !app_nil_r.
    split; auto. split; auto. exists w, (cur ++ w). cbn [cn_in cn_parser]. split; auto. split; auto. split; auto.
    split; [intros x e l o k; cbn [app]; now rewrite <- app_assoc|].
    split; [intros x l o; cbn [app]; now rewrite <- app_assoc|]. split; auto. intros x l e. cbn [app]. now rewrite <- app_assoc.
  - destruct Hr as [-> Hr]. destruct Hs as (w & P & HC & _ & H2 & H3 & H4).
    assert (Nv : rt log v <> LPanic) by (apply Hrt; specialize (HC []); eapply parsed_uri_text; eauto).
    destruct (ops_reply rt c s' None log v W Nv) as (w1 & k1 & Eo & W1 & O1 & _).
    assert (E' : (if should_close_after_response v then (Close, log ++ [v], mk_conn s' None w1 k1)
                  else respond f dbg rt (log ++ [v]) (mk_conn s' None w1 k1)) = (vd, log', c')).
    { destruct (rt log v); try congruence; rewrite Eo in E; exact E. }
    clear E. destruct (should_close_after_response v) eqn:Es.
    + inversion E'; subst. exists [v], (reply (rt log v)). split; auto. split; auto.
      left. rewrite P. eapply served_last; [apply HC|]. now apply should_close.
    + assert (Hv : ~ asks_close v) by (rewrite <- should_close; congruence).
      apply (IH _ _ _ _ _ []) in E' as (new & out & -> & O2 & R); cbn [cn_in cn_parser]; auto; [| apply holds_none |lia].
      exists (v :: new), (reply (rt log v) ++ out). rewrite <- app_assoc. split; auto.
      split; [rewrite O2, O1, <- app_assoc; reflexivity|]. destruct vd.
      * destruct R as (took & cur' & P2 & J1 & J2 & J3 & J6 & J5 & J4). cbn [cn_in] in P2, J4. exists (w ++ took), cur'.
        split; [now rewrite P, P2, app_assoc|]. split; auto. split; auto. split; [|split; [|split]].
        -- intros x e l o k Hx. specialize (J3 x e l o k). rewrite <- app_assoc in J3. specialize (J3 Hx).
           rewrite <- !app_assoc. cbn [app] in *. eapply served_next; eauto.
        -- intros x l o Hx. specialize (J6 x l o). rewrite <- app_assoc in J6. specialize (J6 Hx).
           rewrite <- !app_assoc. cbn [app] in *. eapply too_big_next; eauto.
        -- intros x l e Hx. specialize (J5 x l e Hx). rewrite <- !app_assoc. cbn [app] in *. eapply session_next; eauto.
        -- destruct J4 as [J4|J4]; auto. right. lia.
      * cbn [cn_in app] in R. rewrite P. destruct R as [R|(o & R & ->)]; [left; eapply served_next; eauto|].
        right. exists (reply (rt log v) ++ o). rewrite <- app_assoc. split; auto. eapply too_big_next; eauto.
      * cbn [cn_in app] in R. rewrite P. eapply too_big_next; eauto.
  - destruct (ops_error rt c s' p' W) as (w1 & k1 & Eo & W1 & O1 & _). rewrite Eo in E. inversion E; subst.
    exists [], bad_request. rewrite app_nil_r. split; auto. split; auto. destruct Hs as [(w & P & H)|(-> & H1 & H2 & (p & H3))].
    + left. rewrite P. eapply served_bad; eauto.
    + left. eapply served_truncated; eauto.
  - destruct (ops_error rt c s' p' W) as (w1 & k1 & Eo & W1 & O1 & _). rewrite Eo in E. inversion E; subst.
    exists [], bad_request. rewrite app_nil_r. split; auto. split; auto. destruct Hs as [(-> & Ov)|(-> & H1 & H2 & (p & H3))].
    + right. exists []. split; auto. now apply over_too_big.
    + left. eapply served_truncated; eauto.
  - inversion E; subst. exists [], []. rewrite !app_nil_r. split; auto. split; auto. destruct Hs as (-> & H1 & H2).
    left. now apply served_closed.
  - inversion E; subst. exists [], []. rewrite !app_nil_r. split; auto. split; auto. now apply over_too_big.
Qed.

(** ** The handler *)

Lemma visits_tame dbg rt eof vs : no_panic rt ->
  forall log c log' st' cur, conn_fine c -> holds (cn_parser c) cur -> tame eof cur (cn_in c) -> Forall visit_fine vs ->
  (Forall visit_steady vs \/ short_replies rt) -> visits dbg rt vs log (Open c) = (log', st') ->
  exists new out, log' = log ++ new /\
    match st' with
    | Open c' => output c' = output c ++ out /\
        exists took cur', pending (cn_in c) = took ++ pending (cn_in c') /\
        holds (cn_parser c') cur' /\ tame eof cur' (cn_in c') /\
        (forall x e l o k, served rt log' (cur' ++ x) e l o k ->
           served rt log (cur ++ took ++ x) e (new ++ l) (out ++ o) k) /\
        (forall x l o, too_big rt log' (cur' ++ x) l o -> too_big rt log (cur ++ took ++ x) (new ++ l) (out ++ o)) /\
        (forall x l e, session (cur' ++ x) l e -> session (cur ++ took ++ x) (new ++ l) e) /\
        ((pending (cn_in c') = [] /\ eof = false) \/ (blocks (cn_in c') + List.length vs <= blocks (cn_in c))%nat)
    | Gone sent => (served rt log (cur ++ pending (cn_in c)) eof new out false \/
          exists o, too_big rt log (cur ++ pending (cn_in c)) new o /\ out = o ++ bad_request) /\
        (exists rest, output c ++ out = sent ++ rest) /\ (Forall (visit_takes (len (output c ++ out))) vs -> sent = output c ++ out)
    | Poisoned sent => too_big rt log (cur ++ pending (cn_in c)) new out /\ exists rest, output c ++ out = sent ++ rest
    end.
Proof.
  intros Hrt. induction vs as [|v vs IH]; intros log c log' st' cur Hc Hh Hs F S E; cbn [visits] in E.
  - inversion E; subst. exists [], []. rewrite !app_nil_r. split; auto. split; auto. exists [], cur.
    cbn [app List.length]. split; auto. split; auto. split; auto. split; auto. split; auto. split; auto. right. lia.
  - destruct (handle dbg rt v log (Open c)) as [l1 st1] eqn:Eh. inversion F as [|? ? F1 F2]; subst.
    assert (Sv : visit_steady v \/ short_replies rt) by (destruct S as [S|S]; [inversion S|]; auto).
    assert (Svs : Forall visit_steady vs \/ short_replies rt) by (destruct S as [S|S]; [inversion S|]; auto).
    destruct Hc as (Hp & I & C). pose proof Eh as Eh2.
    apply handle_writes in Eh2 as (n0 & t0 & E0 & T0 & H0); auto; [|split; auto].
    assert (Hopen : forall c1, st1 = Open c1 -> conn_fine c1) by (intros c1 ->; apply H0); clear E0 T0 H0.
    cbn [handle] in Eh.
    destruct (visit_writer_fine rt c v I C F1 Sv) as (w1 & k1 & Ef & W1 & O1 & R1). rewrite Ef in Eh.
    unfold respond_to_requests in Eh. destruct (respond _ _ _ _ _) as [[vd l] c'] eqn:Er. pose proof Er as Ew.
    apply respond_writes in Ew as (new' & tail & _ & _ & O2' & _ & R2'); [|exact Hp|apply fresh_need|exact W1].
    eapply (respond_tame dbg rt eof _ Hrt _ _ _ _ _ cur) in Er as (n1 & o1 & -> & O2 & R2); [|exact Hh|exact Hs|apply fresh_need|exact W1].
    rewrite O1 in O2. inversion Eh; subst l1 st1. clear Eh. cbn [cn_in cn_parser] in R2. destruct vd.
    + destruct R2 as (took & cur1 & P1 & J1 & J2 & J3 & J6 & J5 & J4). pose proof (Hopen _ eq_refl) as C1.
      apply (IH _ _ _ _ cur1) in E as (n2 & o2 & -> & R); auto. exists (n1 ++ n2), (o1 ++ o2). rewrite app_assoc. split; auto.
      destruct st' as [c2|sent|sent].
      * destruct R as (O3 & took2 & cur2 & P2 & K1 & K2 & K3 & K6 & K5 & K4). split; [rewrite O3, O2, app_assoc; reflexivity|].
        exists (took ++ took2), cur2. split; [now rewrite P1, P2, app_assoc|]. split; auto. split; auto. split; [|split; [|split]].
        -- intros x e l o k Hx. rewrite <- !app_assoc. apply J3. apply K3. exact Hx.
        -- intros x l o Hx. rewrite <- !app_assoc. apply J6. apply K6. exact Hx.
        -- intros x l e Hx. rewrite <- !app_assoc. apply J5. apply K5. exact Hx.
        -- destruct K4 as [K4|K4]; auto. destruct J4 as [(J4 & J7)|J4]; [|right; cbn [List.length]; lia].
           left. split; auto. rewrite J4 in P2. cbn [pending] in P2. symmetry in P2. now apply app_eq_nil in P2.
      * destruct R as (R & (rest & R') & D). rewrite O2 in *. rewrite (app_assoc (output c)). split; [|split].
        -- rewrite P1. destruct R as [R|(o & R & ->)]; [left; now apply J3|right]. exists (o1 ++ o). split; [now apply J6|now rewrite app_assoc].
        -- exists rest. exact R'.
        -- intros V. inversion V; subst. auto.
      * destruct R as (R & rest & R'). rewrite O2 in *. rewrite (app_assoc (output c)), P1. split; [now apply J6|eauto].
    + rewrite visits_shut in E by discriminate. inversion E; subst. exists n1, o1. split; auto. split; [exact R2|]. rewrite <- O2. split.
      * unfold output. eauto.
      * intros V. inversion V as [|? ? V1 _]; subst. destruct (R2' (len (output c'))) as (_ & _ & U).
        -- apply N.le_refl.
        -- apply R1; auto. rewrite O2, len_app. lia.
        -- unfold output. now rewrite U, app_nil_r.
    + rewrite visits_shut in E by discriminate. inversion E; subst. exists n1, o1. split; auto. split; auto. rewrite <- O2. unfold output. eauto.
Qed.
