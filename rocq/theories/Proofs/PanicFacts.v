(** Connections whose listeners may panic. *)
From Coq Require Import List Ascii String NArith Bool Arith Lia.
From Coq Require Import ZifyBool ZifyNat ZifyN.
From Verif.Model Require Import Bytes Io Common Parse Encode Writer Server.
From Verif.Spec Require Import Batch Stream Drive Output Unicode Session Oversize Panics.
From Verif.Proofs Require Import BytesFacts IoFacts ParseFacts DriveFacts CallFacts BatchFacts WriterFacts OpsFacts ClientFacts GrammarFacts LimitGrammar ServerFacts ConnFacts UnwindFacts OversizeFacts.
Import ListNotations.
Local Open Scope N_scope.

Lemma unharmed_app rt a : forall h b, unharmed rt h a -> unharmed rt (h ++ a) b -> unharmed rt h (a ++ b).
Proof.
  induction a as [|v a IH]; intros h b; cbn [app unharmed]; [now rewrite app_nil_r|]. intros [H1 H2] H3. split; auto.
  apply IH; auto. now rewrite <- app_assoc.
Qed.

Lemma respond_any dbg rt eof f :
  forall log c vd log' c' cur, holds (cn_parser c) cur -> tame eof cur (cn_in c) ->
  (need (cn_in c) (cn_parser c) < f)%nat -> writer_fine rt c -> respond f dbg rt log c = (vd, log', c') ->
  exists new out, log' = log ++ new /\ output c' = output c ++ out /\
    match vd with
    | Keep => exists took cur', pending (cn_in c) = took ++ pending (cn_in c') /\
        holds (cn_parser c') cur' /\ tame eof cur' (cn_in c') /\
        (forall x e l o k, served rt log' (cur' ++ x) e l o k ->
           served rt log (cur ++ took ++ x) e (new ++ l) (out ++ o) k) /\
        (forall x l o, too_big rt log' (cur' ++ x) l o -> too_big rt log (cur ++ took ++ x) (new ++ l) (out ++ o)) /\
        (forall x l o, panics_at rt log' (cur' ++ x) l o -> panics_at rt log (cur ++ took ++ x) (new ++ l) (out ++ o)) /\
        unharmed rt log new /\
        ((cn_in c' = [] /\ eof = false) \/ (blocks (cn_in c') < blocks (cn_in c))%nat)
    | Close => unharmed rt log new /\ (served rt log (cur ++ pending (cn_in c)) eof new out false \/
        exists o, too_big rt log (cur ++ pending (cn_in c)) new o /\ out = o ++ bad_request)
    | Unwind => unharmed rt log new /\ too_big rt log (cur ++ pending (cn_in c)) new out \/ panics_at rt log (cur ++ pending (cn_in c)) new out
    end.
Proof.
  induction f as [|f IH]; intros log c vd log' c' cur Hh Hc Hf W E; [lia|]. cbn [respond] in E.
  assert (Hp : parser_fine (cn_parser c)) by (destruct Hh as (_ & g & Hg & _); exists g; exact Hg).
  destruct (read_request dbg (cn_in c) (cn_parser c)) as [[r s'] p'] eqn:Er.
  destruct (read_fine _ _ _ _ _ _ Hp Er) as (Hp' & Hr).
  pose proof (read_tame _ _ _ _ _ _ _ _ Hh Hc Er) as Hs.
  destruct r as [|v|e|k| |].
  - inversion E; subst. destruct Hs as (w & P & H1 & H2 & H3). exists [], []. rewrite !app_nil_r.
    split; auto. split; auto. exists w, (cur ++ w). cbn [cn_in cn_parser]. split; auto. split; auto. split; auto.
    split; [intros x e l o k; cbn [app]; now rewrite <- app_assoc|].
    split; [intros x l o; cbn [app]; now rewrite <- app_assoc|]. split; [intros x l o; cbn [app]; now rewrite <- app_assoc|]. split; [exact Logic.I|auto].
  - destruct Hr as [-> Hr]. destruct Hs as (w & P & HC & _ & H2 & H3 & H4).
    assert (Pv : rt log v = LPanic \/ rt log v <> LPanic) by (destruct (rt log v); [right|right|left]; congruence).
    destruct Pv as [Pv|Nv].
    { rewrite Pv in E. inversion E; subst. exists [v], []. split; auto. split; [now rewrite app_nil_r|]. right. rewrite P. eapply panics_here; eauto. }
    destruct (ops_reply rt c s' None log v W Nv) as (w1 & k1 & Eo & W1 & O1 & _).
    assert (E' : (if should_close_after_response v then (Close, log ++ [v], mk_conn s' None w1 k1)
                  else respond f dbg rt (log ++ [v]) (mk_conn s' None w1 k1)) = (vd, log', c')).
    { destruct (rt log v); try congruence; rewrite Eo in E; exact E. }
    clear E. destruct (should_close_after_response v) eqn:Es.
    + inversion E'; subst. exists [v], (reply (rt log v)). split; auto. split; auto.
      split; [cbn [unharmed]; auto|]. left. rewrite P. eapply served_last; [apply HC|]. now apply should_close.
    + assert (Hv : ~ asks_close v) by (rewrite <- should_close; congruence).
      apply (IH _ _ _ _ _ []) in E' as (new & out & -> & O2 & R); cbn [cn_in cn_parser]; auto; [| apply holds_none |lia].
      exists (v :: new), (reply (rt log v) ++ out). rewrite <- app_assoc. split; auto.
      split; [rewrite O2, O1, <- app_assoc; reflexivity|]. destruct vd.
      * destruct R as (took & cur' & P2 & J1 & J2 & J3 & J6 & J7 & J5 & J4). cbn [cn_in] in P2, J4. exists (w ++ took), cur'.
        split; [now rewrite P, P2, app_assoc|]. split; auto. split; auto. split; [|split; [|split; [|split]]].
        -- intros x e l o k Hx. specialize (J3 x e l o k). rewrite <- app_assoc in J3. specialize (J3 Hx).
           rewrite <- !app_assoc. cbn [app] in *. eapply served_next; eauto.
        -- intros x l o Hx. specialize (J6 x l o). rewrite <- app_assoc in J6. specialize (J6 Hx).
           rewrite <- !app_assoc. cbn [app] in *. eapply too_big_next; eauto.
        -- intros x l o Hx. specialize (J7 x l o). rewrite <- app_assoc in J7. specialize (J7 Hx).
           rewrite <- !app_assoc. cbn [app] in *. eapply panics_next; eauto.
        -- cbn [unharmed]. auto.
        -- destruct J4 as [J4|J4]; auto. right. lia.
      * cbn [cn_in app] in R. rewrite P. destruct R as [U R]. split; [cbn [unharmed]; auto|]. destruct R as [R|(o & R & ->)]; [left; eapply served_next; eauto|].
        right. exists (reply (rt log v) ++ o). rewrite <- app_assoc. split; auto. eapply too_big_next; eauto.
      * cbn [cn_in app] in R. rewrite P. destruct R as [[U R]|R]; [left; split; [cbn [unharmed]; auto|]; eapply too_big_next; eauto|right; eapply panics_next; eauto].
  - destruct (ops_error rt c s' p' W) as (w1 & k1 & Eo & W1 & O1 & _). rewrite Eo in E. inversion E; subst.
    exists [], bad_request. rewrite app_nil_r. split; auto. split; auto. split; [exact Logic.I|]. destruct Hs as [(w & P & H)|(-> & H1 & H2 & (p & H3))].
    + left. rewrite P. eapply served_bad; eauto.
    + left. eapply served_truncated; eauto.
  - destruct (ops_error rt c s' p' W) as (w1 & k1 & Eo & W1 & O1 & _). rewrite Eo in E. inversion E; subst.
    exists [], bad_request. rewrite app_nil_r. split; auto. split; auto. split; [exact Logic.I|]. destruct Hs as [(-> & Ov)|(-> & H1 & H2 & (p & H3))].
    + right. exists []. split; auto. now apply over_too_big.
    + left. eapply served_truncated; eauto.
  - inversion E; subst. exists [], []. rewrite !app_nil_r. split; auto. split; auto. split; [exact Logic.I|]. destruct Hs as (-> & H1 & H2).
    left. now apply served_closed.
  - inversion E; subst. exists [], []. rewrite !app_nil_r. split; auto. split; auto. left. split; [exact Logic.I|]. now apply over_too_big.
Qed.

(** ** The handler *)

Lemma visits_any dbg rt eof vs :
  forall log c log' st' cur, conn_fine c -> holds (cn_parser c) cur -> tame eof cur (cn_in c) -> Forall visit_fine vs ->
  (Forall visit_steady vs \/ short_replies rt) -> visits dbg rt vs log (Open c) = (log', st') ->
  exists new out, log' = log ++ new /\
    match st' with
    | Open c' => output c' = output c ++ out /\
        exists took cur', pending (cn_in c) = took ++ pending (cn_in c') /\
        holds (cn_parser c') cur' /\ tame eof cur' (cn_in c') /\
        (forall x e l o k, served rt log' (cur' ++ x) e l o k ->
           served rt log (cur ++ took ++ x) e (new ++ l) (out ++ o) k) /\
        (forall x l o, too_big rt log' (cur' ++ x) l o -> too_big rt log (cur ++ took ++ x) (new ++ l) (out ++ o)) /\
        (forall x l o, panics_at rt log' (cur' ++ x) l o -> panics_at rt log (cur ++ took ++ x) (new ++ l) (out ++ o)) /\
        unharmed rt log new /\
        ((pending (cn_in c') = [] /\ eof = false) \/ (blocks (cn_in c') + List.length vs <= blocks (cn_in c))%nat)
    | Gone sent => unharmed rt log new /\ (served rt log (cur ++ pending (cn_in c)) eof new out false \/
          exists o, too_big rt log (cur ++ pending (cn_in c)) new o /\ out = o ++ bad_request) /\
        (exists rest, output c ++ out = sent ++ rest) /\ (Forall (visit_takes (len (output c ++ out))) vs -> sent = output c ++ out)
    | Poisoned sent => (unharmed rt log new /\ too_big rt log (cur ++ pending (cn_in c)) new out \/ panics_at rt log (cur ++ pending (cn_in c)) new out) /\
        (exists rest, output c ++ out = sent ++ rest) /\ (Forall (visit_takes (len (output c ++ out))) vs -> sent = output c ++ out)
    end.
Proof.
  induction vs as [|v vs IH]; intros log c log' st' cur Hc Hh Hs F S E; cbn [visits] in E.
  - inversion E; subst. exists [], []. rewrite !app_nil_r. split; auto. split; auto. exists [], cur.
    cbn [app List.length unharmed]. split; auto. split; auto. split; auto. split; auto. split; auto. split; auto. split; auto. right. lia.
  - destruct (handle dbg rt v log (Open c)) as [l1 st1] eqn:Eh. inversion F as [|? ? F1 F2]; subst.
    assert (Sv : visit_steady v \/ short_replies rt) by (destruct S as [S|S]; [inversion S|]; auto).
    assert (Svs : Forall visit_steady vs \/ short_replies rt) by (destruct S as [S|S]; [inversion S|]; auto).
    destruct Hc as (Hp & I & C). pose proof Eh as Eh2.
    apply handle_writes in Eh2 as (n0 & t0 & E0 & T0 & H0); auto; [|split; auto].
    assert (Hopen : forall c1, st1 = Open c1 -> conn_fine c1) by (intros c1 ->; apply H0); clear E0 T0 H0.
    cbn [handle] in Eh.
    destruct (visit_writer_fine rt c v I C F1 Sv) as (w1 & k1 & Ef & W1 & O1 & R1). rewrite Ef in Eh.
    unfold respond_to_requests in Eh. destruct (respond _ _ _ _ _) as [[vd l] c'] eqn:Er. pose proof Er as Ew.
    apply respond_writes in Ew as (new' & tail & _ & _ & O2' & _ & R2'); [|exact Hp|apply fresh_need|exact W1].
    eapply (respond_any dbg rt eof _ _ _ _ _ _ cur) in Er as (n1 & o1 & -> & O2 & R2); [|exact Hh|exact Hs|apply fresh_need|exact W1].
    rewrite O1 in O2. inversion Eh; subst l1 st1. clear Eh. cbn [cn_in cn_parser] in R2. destruct vd.
    + destruct R2 as (took & cur1 & P1 & J1 & J2 & J3 & J6 & J8 & J5 & J4). pose proof (Hopen _ eq_refl) as C1.
      apply (IH _ _ _ _ cur1) in E as (n2 & o2 & -> & R); auto. exists (n1 ++ n2), (o1 ++ o2). rewrite app_assoc. split; auto.
      destruct st' as [c2|sent|sent].
      * destruct R as (O3 & took2 & cur2 & P2 & K1 & K2 & K3 & K6 & K8 & K5 & K4). split; [rewrite O3, O2, app_assoc; reflexivity|].
        exists (took ++ took2), cur2. split; [now rewrite P1, P2, app_assoc|]. split; auto. split; auto. split; [|split; [|split; [|split]]].
        -- intros x e l o k Hx. rewrite <- !app_assoc. apply J3. apply K3. exact Hx.
        -- intros x l o Hx. rewrite <- !app_assoc. apply J6. apply K6. exact Hx.
        -- intros x l o Hx. rewrite <- !app_assoc. apply J8. apply K8. exact Hx.
        -- now apply unharmed_app.
        -- destruct K4 as [K4|K4]; auto. destruct J4 as [(J4 & J7)|J4]; [|right; cbn [List.length]; lia].
           left. split; auto. rewrite J4 in P2. cbn [pending] in P2. symmetry in P2. now apply app_eq_nil in P2.
      * destruct R as (U & R & (rest & R') & D). rewrite O2 in *. rewrite (app_assoc (output c)). split; [now apply unharmed_app|]. split; [|split].
        -- rewrite P1. destruct R as [R|(o & R & ->)]; [left; now apply J3|right]. exists (o1 ++ o). split; [now apply J6|now rewrite app_assoc].
        -- exists rest. exact R'.
        -- intros V. inversion V; subst. auto.
      * destruct R as (R & (rest & R') & D). rewrite O2 in *. rewrite (app_assoc (output c)), P1. split; [|split; [eauto|intros V; inversion V; subst; auto]].
        destruct R as [[U R]|R]; [left; split; [now apply unharmed_app|now apply J6]|right; now apply J8].
    + rewrite visits_shut in E by discriminate. inversion E; subst. exists n1, o1. destruct R2 as [U2 R2]. split; auto. split; [exact U2|]. split; [exact R2|]. rewrite <- O2. split.
      * unfold output. eauto.
      * intros V. inversion V as [|? ? V1 _]; subst. destruct (R2' (len (output c'))) as (_ & _ & U).
        -- apply N.le_refl.
        -- apply R1; auto. rewrite O2, len_app. lia.
        -- unfold output. now rewrite U, app_nil_r.
    + rewrite visits_shut in E by discriminate. inversion E; subst. exists n1, o1. split; auto. split; [exact R2|]. rewrite <- O2. split.
      * unfold output. eauto.
      * intros V. inversion V as [|? ? V1 _]; subst. destruct (R2' (len (output c'))) as (_ & _ & U).
        -- apply N.le_refl.
        -- apply R1; auto. rewrite O2, len_app. lia.
        -- unfold output. now rewrite U, app_nil_r.
Qed.

(** ** The same router, which passes where the other panics *)

Definition calmed (rt : router) : router := fun h v => match rt h v with LPanic => LNext | l => l end.
Lemma calmed_no_panic rt : no_panic (calmed rt).
Proof. intros h v _. unfold calmed. destruct (rt h v); discriminate. Qed.

Lemma respond_calmed dbg rt f : forall log c vd log' c', respond f dbg rt log c = (vd, log', c') ->
  exists new, log' = log ++ new /\ (unharmed rt log new -> respond f dbg (calmed rt) log c = (vd, log', c')).
Proof.
  induction f as [|f IH]; intros log c vd log' c' E; cbn [respond] in *.
  { inversion E; subst. exists []. rewrite app_nil_r. auto. }
  destruct (read_request dbg (cn_in c) (cn_parser c)) as [[r s'] p'] eqn:Er.
  destruct r as [|v|e|k| |]; try (exists []; rewrite app_nil_r; split; [|auto]; try destruct (run_ops _ _ error_ops) as [[wr w1] k1]; now inversion E).
  unfold calmed at 1. destruct (rt log v) as [|r|] eqn:Ev.
  3:{ inversion E; subst. exists [v]. split; auto. intros [H _]. congruence. }
  all: destruct (run_ops _ _ _) as [[[u|k] w1] k1];
    [destruct (should_close_after_response v);
      [inversion E; subst; exists [v]; split; auto
      |apply IH in E as (new & -> & H); exists (v :: new); rewrite <- app_assoc; split; [reflexivity|intros [_ U]; rewrite <- app_assoc in H; cbn [app] in *; auto]]
    |inversion E; subst; exists [v]; split; auto].
Qed.

Lemma visits_calmed dbg rt vs : forall log st log' st', visits dbg rt vs log st = (log', st') ->
  exists new, log' = log ++ new /\ (unharmed rt log new -> visits dbg (calmed rt) vs log st = (log', st')).
Proof.
  induction vs as [|v vs IH]; intros log st log' st' E; cbn [visits] in *.
  { inversion E; subst. exists []. rewrite app_nil_r. auto. }
  destruct (handle dbg rt v log st) as [l1 st1] eqn:Eh.
  assert (H : exists n1, l1 = log ++ n1 /\ (unharmed rt log n1 -> handle dbg (calmed rt) v log st = (l1, st1))).
  { destruct st as [c|x|x]; cbn [handle] in *; try (inversion Eh; subst; exists []; rewrite app_nil_r; auto; fail).
    destruct (wr_flush _ _) as [[[u|k] w1] k1]; [|inversion Eh; subst; exists []; rewrite app_nil_r; auto].
    unfold respond_to_requests in *. destruct (respond _ _ rt _ _) as [[vd l] c'] eqn:Er. apply respond_calmed in Er as (n1 & -> & H).
    inversion Eh; subst. exists n1. split; auto. intros U. now rewrite (H U). }
  destruct H as (n1 & -> & H). apply IH in E as (n2 & -> & H2). exists (n1 ++ n2). rewrite app_assoc. split; auto.
  intros U. rewrite H; [apply H2|]; clear - U; revert log U; induction n1 as [|q n1 IH]; intros log U; cbn [app unharmed] in *; auto.
  - now rewrite app_nil_r.
  - specialize (IH _ (proj2 U)). now rewrite <- app_assoc in IH.
  - destruct U as [U1 U2]. split; auto.
Qed.

Lemma release_panics rt s vs log b : visits false rt vs [] (Open (conn_new s)) = (log, Poisoned b) -> ~ unharmed rt [] log.
Proof.
  intros E U. destruct (visits_calmed _ _ _ _ _ _ _ E) as (new & -> & H). eapply release_unpoisoned; [apply (calmed_no_panic rt)|exact (H U)].
Qed.
