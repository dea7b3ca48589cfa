(** When no call of the handler of a connection unwinds, and what that means for the workers. *)
From Coq Require Import List Ascii String NArith Bool Arith Lia.
From Verif.Model Require Import Bytes Io Common Parse Encode Writer Server Slab Whole.
From Verif.Spec Require Import Batch Stream Drive Numerals Grammar Wire Output Session Traces Arrivals.
From Verif.Proofs Require Import BytesFacts IoFacts ParseFacts LimitFacts ReachedFacts ServerFacts GrammarFacts ConnFacts SlabFacts HandlersFacts WholeFacts.
Import ListNotations.

(** ** One connection *)

Section Invariant.
Variable (dbg : bool) (rt : router) (J : option req_st -> stream -> Prop).
Hypothesis Hrt : no_panic rt.
Hypothesis Jfine : forall p s, J p s -> parser_fine p.
Hypothesis Jstep : forall s p r s' p', J p s -> read_request dbg s p = (r, s', p') ->
  match r with
  | NotReady => J p' s'
  | Ready v => J p' s' /\ utf8 (rq_uri v) = true
  | RPanic => False
  | _ => True
  end.

Lemma respond_keeps f : forall log c vd log' c', J (cn_parser c) (cn_in c) -> (need (cn_in c) (cn_parser c) < f)%nat ->
  respond f dbg rt log c = (vd, log', c') ->
  match vd with Keep => J (cn_parser c') (cn_in c') | Close => True | Unwind => False end.
Proof.
  induction f as [|f IH]; intros log c vd log' c' Hj Hf E; [lia|]. cbn [respond] in E.
  destruct (read_request dbg (cn_in c) (cn_parser c)) as [[r s'] p'] eqn:Er.
  pose proof (Jstep _ _ _ _ _ Hj Er) as Hs. destruct (read_fine _ _ _ _ _ _ (Jfine _ _ Hj) Er) as (_ & Hr).
  destruct r as [|v|e|k| |].
  - inversion E; subst. exact Hs.
  - destruct Hs as [Hs U], Hr as [-> Hr]. pose proof (Hrt log v U) as Np.
    assert (Go : forall l, match run_ops (cn_w c) (cn_sock c) (result_ops l) with
      | (wr, w1, k1) =>
          let c1 := mk_conn s' None w1 k1 in
          match wr with
          | WErr _ => (Close, log ++ [v], c1)
          | WOk _ => if should_close_after_response v then (Close, log ++ [v], c1) else respond f dbg rt (log ++ [v]) c1
          end
      end = (vd, log', c') -> match vd with Keep => J (cn_parser c') (cn_in c') | Close => True | Unwind => False end).
    { intros l X. destruct (run_ops (cn_w c) (cn_sock c) (result_ops l)) as [[[u|k] w1] k1]; cbn zeta in X.
      - destruct (should_close_after_response v).
        + inversion X; subst. exact Logic.I.
        + apply IH in X; auto. cbn [cn_in cn_parser]. lia.
      - inversion X; subst. exact Logic.I. }
    destruct (rt log v) as [|r|]; [exact (Go LNext E)|exact (Go (LSend r) E)|congruence].
  - destruct (run_ops _ _ error_ops) as [[wr w1] k1]. inversion E; subst. exact Logic.I.
  - destruct (run_ops _ _ error_ops) as [[wr w1] k1]. inversion E; subst. exact Logic.I.
  - inversion E; subst. exact Logic.I.
  - destruct Hs.
Qed.

Lemma visits_keep vs : forall log c log' st', J (cn_parser c) (cn_in c) -> visits dbg rt vs log (Open c) = (log', st') ->
  match st' with Open c' => J (cn_parser c') (cn_in c') | Gone _ => True | Poisoned _ => False end.
Proof.
  induction vs as [|v vs IH]; intros log c log' st' Hj E; cbn [visits] in E.
  - inversion E; subst. exact Hj.
  - destruct (handle dbg rt v log (Open c)) as [l1 st1] eqn:Eh. cbn [handle] in Eh.
    destruct (wr_flush _ _) as [[[u|k] w1] k1].
    + unfold respond_to_requests in Eh. destruct (respond _ _ _ _ _) as [[vd l] c'] eqn:Er.
      apply respond_keeps in Er; [|exact Hj|apply fresh_need]. inversion Eh; subst. destruct vd.
      * eapply IH; eauto.
      * rewrite visits_shut in E by discriminate. inversion E; subst. exact Logic.I.
      * destruct Er.
    + inversion Eh; subst. rewrite visits_shut in E by discriminate. inversion E; subst. exact Logic.I.
Qed.
End Invariant.

Lemma line_uri_utf8 l m u : utf8 l = true -> parse_request_line l = inr (m, u) -> utf8 u = true.
Proof.
  intros T P. apply parse_request_line_iff in P as (v & _ & _ & l1 & -> & Hu & l2 & -> & _).
  assert (A : utf8 (method_name m ++ [SP]) = true) by (destruct m; reflexivity).
  replace (method_name m ++ SP :: u ++ SP :: l2) with ((method_name m ++ [SP]) ++ u ++ SP :: l2) in T by now rewrite <- app_assoc.
  rewrite utf8_app in T by exact A. eapply utf8_split; [|exact T]. reflexivity.
Qed.

(** Release builds, on any input. *)
Lemma release_unpoisoned rt s vs log b : no_panic rt -> visits false rt vs [] (Open (conn_new s)) <> (log, Poisoned b).
Proof.
  intros Hrt E.
  apply (visits_keep false rt (fun p _ => reached (req_parse false) req_new (match p with Some st => st | None => req_new end))) in E; auto.
  - intros p _ H. apply req_reached_inv in H as [H _]. exact H.
  - clear E. intros s0 p r s' p' H E. unfold read_request in E.
    destruct (req_parse false _ s0) as [r0 s1] eqn:Ep. destruct r0 as [v|st k|e|].
    + inversion E; subst. split; [constructor|]. apply (req_done_text _ _ _ _ _ H) in Ep as [(l & U & P) _].
      eapply line_uri_utf8; eauto.
    + destruct k; try (destruct (is_closed _ _)); inversion E; subst; auto. eapply reached_call; eauto.
    + inversion E; subst. exact Logic.I.
    + apply (req_reached_call _ _ _ _ _ H) in Ep as [Ep _]. discriminate.
  - constructor.
Qed.

(** Either build, on requests within the limits. *)
Lemma calm_unpoisoned dbg rt eof s vs log b : no_panic rt -> calm eof [] s -> visits dbg rt vs [] (Open (conn_new s)) <> (log, Poisoned b).
Proof.
  intros Hrt O E.
  apply (visits_keep dbg rt (fun p s => exists cur, holds p cur /\ calm eof cur s)) in E; auto.
  - intros p s0 (cur & (_ & g & Hg & _) & _). exists g. exact Hg.
  - clear E. intros s0 p r s' p' (cur & Hh & Hc) E. pose proof (read_step _ _ _ _ _ _ _ _ Hh Hc E) as Hs. destruct r; auto.
    + destruct Hs as (w & _ & H1 & H2 & _). eauto.
    + destruct Hs as (w & _ & HC & -> & H2 & _). split; [exists []; split; [apply holds_none|auto]|].
      specialize (HC []). eapply parsed_uri_text; eauto.
  - exists []. split; [apply holds_new|exact O].
Qed.

(** ** The workers *)

Definition broken (x : wconn) : bool := match wc_slot x with WBroken _ => true | _ => false end.

Lemma Forall_nth_set {A} (P : A -> Prop) l : forall i x, Forall P l -> P x -> Forall P (set_nth i x l).
Proof. induction l as [|y l IH]; intros [|i] x F H; cbn [set_nth]; auto; inversion F; subst; constructor; auto. Qed.

(** As long as no mutex is poisoned, every worker lives. *)
Lemma alive_unless dbg R conns size (P : list wlabel -> Prop) : (forall l ls, P (l :: ls) -> P ls) ->
  (forall ls st c x, wrun dbg R (w_init conns size) ls st -> P ls -> nth_error (ws_conns st) c = Some x -> broken x = false) ->
  forall ls st, wrun dbg R (w_init conns size) ls st -> P ls -> Forall (fun w => walive w = true) (ws_workers st).
Proof.
  intros Pt Nb ls st Rn. remember (w_init conns size) as init eqn:Ei. induction Rn as [|st0 ls st1 l st2 Rn IH S]; intros Hp; subst.
  - cbn [w_init ws_workers]. apply Forall_forall. intros w Hw. apply repeat_spec in Hw. now subst.
  - pose proof (IH eq_refl Nb (Pt _ _ Hp)) as F. pose proof (wrun_step _ _ _ _ _ _ _ Rn S) as Rn2.
    destruct S as [st c x its N O Hn Hpr|st c x N|st c x N E A|st i c q W Q|st i c x k v rt W N H P0 Hr|st i c x sent W N H P0|st i c x sent W N H P0
    |st i c x k v rt got e rest log' k' W N P0 E Es|st i c x k v rt got log' k' W N P0 E Es|st i c x k v rt got log' k' W N P0 E
    |st i c x k v rt got log' sent W N P0 E|st i c x k v rt got log' sent W N P0 E];
      cbn [ws_workers] in *; auto; try (unfold wput; apply Forall_nth_set; auto; fail).
    + pose proof (Nb _ _ _ _ Rn (Pt _ _ Hp) N) as X. unfold broken in X. rewrite P0 in X. discriminate.
    + exfalso. assert (X : nth_error (wupd st c (mk_wconn (wc_sock x) (wc_event x) (WBroken sent) log')) c = Some (mk_wconn (wc_sock x) (wc_event x) (WBroken sent) log'))
        by (unfold wupd; eapply nth_set_same; eauto).
      pose proof (Nb _ _ _ _ Rn2 Hp X) as Y. discriminate.
Qed.

(** When no worker lives, nothing is routed and nothing is written any more. *)
Lemma dead_stays dbg R st ls st' : Forall (fun w => w = WDead) (ws_workers st) -> wrun dbg R st ls st' ->
  Forall (fun w => w = WDead) (ws_workers st') /\
  map (fun x => (wc_log x, wc_slot x)) (ws_conns st') = map (fun x => (wc_log x, wc_slot x)) (ws_conns st).
Proof.
  intros F Rn. induction Rn as [|st0 ls st1 l st2 Rn IH S]; auto. specialize (IH F). destruct IH as [F1 E1].
  assert (D : forall i w, nth_error (ws_workers st1) i = Some w -> w = WDead).
  { intros i w N. rewrite Forall_forall in F1. apply F1. eapply nth_error_In; eauto. }
  assert (K : forall c x s e, nth_error (ws_conns st1) c = Some x ->
    map (fun x => (wc_log x, wc_slot x)) (set_nth c (mk_wconn s e (wc_slot x) (wc_log x)) (ws_conns st1)) =
    map (fun x => (wc_log x, wc_slot x)) (ws_conns st1)).
  { intros c x s e. generalize (ws_conns st1). intros l0. revert c. induction l0 as [|y l0 IHl]; intros [|c] N; cbn [nth_error] in N; try discriminate; cbn [set_nth map].
    - inversion N; subst. reflexivity.
    - f_equal. now apply IHl. }
  destruct S; unfold wupd in *; cbn [ws_workers ws_conns] in *;
    try (match goal with W : nth_error (ws_workers _) _ = Some _ |- _ => apply D in W; discriminate end);
    (split; [auto|]); rewrite <- E1; eapply K; eauto.
Qed.
