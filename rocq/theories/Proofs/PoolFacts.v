(** The thread pool. *)
From Coq Require Import List Bool Arith Lia Permutation.
From Verif.Model Require Import Slab Pool.
From Verif.Spec Require Import Jobs.
From Verif.Proofs Require Import SlabFacts.
Import ListNotations.

Definition b2n (b : bool) : nat := if b then 1 else 0.
Definition count (p : worker -> bool) (l : list worker) : nat := List.length (filter p l).

Lemma count_set p l : forall i w w', nth_error l i = Some w ->
  count p (set_nth i w' l) + b2n (p w) = count p l + b2n (p w').
Proof.
  unfold count. induction l as [|x l IH]; intros [|i] w w' H; cbn [nth_error] in H; try discriminate; cbn [set_nth filter].
  - inversion H; subst. destruct (p w), (p w'); cbn; lia.
  - specialize (IH i w w' H). destruct (p x); cbn [List.length]; lia.
Qed.

Lemma count_pos p l : existsb p l = true <-> 0 < count p l.
Proof.
  unfold count. induction l as [|x l IH]; cbn; [split; [discriminate|lia]|]. destruct (p x); cbn [orb List.length]; [split; auto; lia|auto].
Qed.

Lemma count_le p l : count p l <= List.length l.
Proof. unfold count. induction l as [|x l IH]; cbn; auto. destruct (p x); cbn; lia. Qed.

Definition is_done (w : worker) : bool := match w with WDone => true | _ => false end.
Definition is_dead (w : worker) : bool := match w with WDead => true | _ => false end.
Definition is_run (w : worker) : bool := match w with WRun _ => true | _ => false end.
Definition is_locked (w : worker) : bool := match w with WLocked => true | _ => false end.

Lemma count_total l : count live l + count is_done l + count is_dead l = List.length l.
Proof. unfold count. induction l as [|[| |j| |] l IH]; cbn [filter live is_done is_dead List.length]; lia. Qed.

Definition job_of (w : worker) : list nat := match w with WRun j => [j] | _ => [] end.
Definition running (l : list worker) : list nat := flat_map job_of l.

Lemma running_set l : forall i w w', nth_error l i = Some w ->
  Permutation (job_of w ++ running (set_nth i w' l)) (job_of w' ++ running l).
Proof.
  unfold running. induction l as [|x l IH]; intros [|i] w w' H; cbn [nth_error] in H; try discriminate; cbn [set_nth flat_map].
  - inversion H; subst. rewrite !app_assoc. apply Permutation_app_tail. apply Permutation_app_comm.
  - specialize (IH i w w' H). rewrite !app_assoc, (Permutation_app_comm (job_of w)), (Permutation_app_comm (job_of w')), <- !app_assoc.
    now apply Permutation_app_head.
Qed.

Lemma running_length l : List.length (running l) = count is_run l.
Proof. unfold running, count. induction l as [|[| |j| |] l IH]; cbn [flat_map job_of filter is_run app List.length]; lia. Qed.

(** The invariant: [k] jobs were started, [t] Terminate messages wait. *)
Definition inv (size : nat) (ls : list plabel) (st : pool) : Prop :=
  exists k t,
    k <= po_jobs st /\
    po_queue st = map MJob (seq k (po_jobs st - k)) ++ repeat MTerm t /\
    submitted ls = seq 0 (po_jobs st) /\
    started ls = seq 0 k /\
    Permutation (running (po_workers st) ++ finished ls ++ crashed ls) (seq 0 k) /\
    List.length (po_workers st) = size /\
    po_poisoned st = false /\
    count is_dead (po_workers st) = List.length (crashed ls) /\
    count is_locked (po_workers st) <= 1 /\
    (0 < count is_done (po_workers st) -> k = po_jobs st) /\
    match po_owner st with
    | OLive => t = 0 /\ count is_done (po_workers st) = 0
    | OSending n => t + count is_done (po_workers st) + n = size
    | OJoining m => t + count is_done (po_workers st) = size /\ m <= size /\
        forall i, i < m -> nth_error (po_workers st) i = Some WDone
    | ODropped => t + count is_done (po_workers st) = size /\ count is_done (po_workers st) = size
    | OPanicked => (count live (po_workers st) = 0 \/ t + count is_done (po_workers st) = size) /\ 0 < List.length (crashed ls)
    end.

Lemma labels_cons (f : plabel -> list nat) l ls : flat_map f (rev (l :: ls)) = flat_map f (rev ls) ++ f l.
Proof. cbn [rev]. rewrite flat_map_app. cbn. now rewrite app_nil_r. Qed.

Lemma submitted_cons l ls : submitted (l :: ls) = submitted ls ++ submitted_by l.
Proof. apply labels_cons. Qed.
Lemma started_cons l ls : started (l :: ls) = started ls ++ started_by l.
Proof. apply labels_cons. Qed.
Lemma finished_cons l ls : finished (l :: ls) = finished ls ++ finished_by l.
Proof. apply labels_cons. Qed.
Lemma crashed_cons l ls : crashed (l :: ls) = crashed ls ++ crashed_by l.
Proof. apply labels_cons. Qed.

Lemma all_done l : count is_done l = List.length l -> forall i, i < List.length l -> nth_error l i = Some WDone.
Proof.
  unfold count. induction l as [|w l IH]; cbn [filter List.length]; [lia|]. intros H [|i] L.
  - destruct w; cbn [is_done] in H; auto; exfalso; pose proof (count_le is_done l) as K; unfold count in K; lia.
  - cbn [nth_error]. apply IH; [|lia]. destruct w; cbn [is_done List.length] in H; auto; pose proof (count_le is_done l) as K; unfold count in K; lia.
Qed.

Lemma done_all l m : m = List.length l -> (forall i, i < m -> nth_error l i = Some WDone) -> count is_done l = m.
Proof.
  intros ->. unfold count. induction l as [|w l IH]; intros H; auto. cbn [filter].
  pose proof (H 0 ltac:(cbn; lia)) as E. cbn in E. inversion E; subst. cbn [is_done List.length]. f_equal. apply IH.
  intros i L. apply (H (S i)). cbn; lia.
Qed.

Lemma dead_live st : receiver st = false -> count live (po_workers st) = 0.
Proof.
  unfold receiver. intros H. destruct (count live (po_workers st)) eqn:E; auto.
  assert (0 < count live (po_workers st)) as K by lia. apply count_pos in K. congruence.
Qed.

Lemma inv_new size : inv size [] (pool_new size).
Proof.
  exists 0, 0. cbn [pool_new po_queue po_jobs po_workers po_poisoned po_owner].
  assert (C : forall p n, p WIdle = false -> count p (repeat WIdle n) = 0).
  { intros p n E. unfold count. induction n; cbn; auto. rewrite E. auto. }
  split; auto. split; auto. split; auto. split; auto. split.
  { cbn. rewrite app_nil_r. replace (running (repeat WIdle size)) with (@nil nat); auto. unfold running. induction size; cbn; auto. }
  split; [apply repeat_length|]. split; auto. rewrite !C by reflexivity. cbn. repeat split; auto; lia.
Qed.

Ltac labels := rewrite ?submitted_cons, ?started_cons, ?finished_cons, ?crashed_cons;
  cbn [submitted_by started_by finished_by crashed_by]; rewrite ?app_nil_r.

Lemma inv_step size ls st l st' : 0 < size -> inv size ls st -> step st l st' -> inv size (l :: ls) st'.
Proof.
  intros Hs (k & t & Hk & Hq & Hsub & Hst & Hp & Hw & Hpo & Hdead & Hlock & Hdone & Ho) S.
  pose proof (count_total (po_workers st)) as Tot.
  destruct S as [st O R|st O R|st O|st n O R|st n O R|st O|st m O N|st m O N|st m O N|st i N L P|st i N L P|st i j q N Q|st i q N Q|st i N Q Sd|st i j N|st i j N];
    unfold inv; cbn [po_queue po_jobs po_workers po_poisoned po_owner]; labels.
  - (* submit *) rewrite O in Ho. destruct Ho as [-> Hd]. exists k, 0. split; [lia|]. split.
    { rewrite Hq. cbn [repeat]. rewrite !app_nil_r. replace (S (po_jobs st) - k) with (S (po_jobs st - k)) by lia.
      rewrite seq_S, map_app. cbn [map]. do 3 f_equal. lia. }
    split. { rewrite Hsub, seq_S. reflexivity. }
    repeat (split; [solve [auto]|]). split; [lia|]. auto.
  - (* submit fails *) rewrite O in Ho. exists k, t. repeat (split; [solve [auto]|]). apply dead_live in R. split; [now left|]. lia.
  - (* drop *) rewrite O in Ho. exists k, t. repeat (split; [solve [auto]|]). lia.
  - (* send *) rewrite O in Ho. exists k, (S t). split; auto. split.
    { rewrite Hq, <- app_assoc. f_equal. now rewrite <- repeat_cons. }
    repeat (split; [solve [auto]|]). lia.
  - (* send fails *) rewrite O in Ho. exists k, t. repeat (split; [solve [auto]|]). apply dead_live in R. split; [now left|]. lia.
  - (* all sent *) rewrite O in Ho. exists k, t. repeat (split; [solve [auto]|]). split; [lia|]. split; lia.
  - (* join *) rewrite O in Ho. destruct Ho as (H1 & H2 & H3). exists k, t. repeat (split; [solve [auto]|]).
    assert (m < List.length (po_workers st)) by (apply nth_error_Some; congruence). split; [lia|].
    intros i Hi. destruct (Nat.eq_dec i m) as [->|]; auto. apply H3. lia.
  - (* join fails *) rewrite O in Ho. destruct Ho as (H1 & H2 & H3). exists k, t. repeat (split; [solve [auto]|]).
    rewrite <- Hdead. apply count_pos. apply existsb_exists. exists WDead. split; auto. eapply nth_error_In; eauto.
  - (* dropped *) rewrite O in Ho. destruct Ho as (H1 & H2 & H3). exists k, t. repeat (split; [solve [auto]|]).
    apply nth_error_None in N. apply done_all; [lia|]. intros i Hi. apply H3. lia.
  - (* lock *)
    assert (C : forall p, p WIdle = p WLocked -> count p (set_worker st i WLocked) = count p (po_workers st)).
    { intros p E. pose proof (count_set p _ _ _ WLocked N) as K. unfold set_worker. rewrite E in K. lia. }
    assert (Per : Permutation (running (set_worker st i WLocked)) (running (po_workers st))) by apply (running_set _ _ _ WLocked N).
    exists k, t. rewrite ?(C is_dead), ?(C is_done), ?(C live) by reflexivity. repeat (split; [solve [auto]|]).
    split. { now rewrite Per. } split; [unfold set_worker; now rewrite set_nth_length|].
    repeat (split; [solve [auto]|]). split.
    { pose proof (count_set is_locked _ _ _ WLocked N) as K. cbn in K. unfold set_worker.
      assert (count is_locked (po_workers st) = 0).
      { destruct (count is_locked (po_workers st)) eqn:E; auto. unfold locked in L.
        assert (0 < count is_locked (po_workers st)) as K' by lia. apply count_pos in K'. unfold is_locked in K'. congruence. }
      lia. }
    split; auto. destruct (po_owner st) eqn:O; auto. destruct Ho as (H1 & H2 & H3). split; auto. split; auto.
    intros i0 Hi. unfold set_worker. rewrite nth_set_nth. destruct (Nat.eqb_spec i i0) as [->|]; cbn [andb]; auto.
    specialize (H3 _ Hi). congruence.
  - congruence.
  - (* start *)
    rewrite Hq in Q. destruct (po_jobs st - k) as [|r] eqn:Er.
    { cbn in Q. destruct t; discriminate. }
    cbn [seq map app] in Q. inversion Q; subst j q. clear Q.
    assert (C : forall p, p WLocked = p (WRun k) -> count p (set_worker st i (WRun k)) = count p (po_workers st)).
    { intros p E. pose proof (count_set p _ _ _ (WRun k) N) as K. unfold set_worker. rewrite E in K. lia. }
    pose proof (running_set _ _ _ (WRun k) N) as Per. cbn [job_of app] in Per.
    exists (S k), t. rewrite ?(C is_dead), ?(C is_done), ?(C live) by reflexivity. split; [lia|]. split.
    { replace (po_jobs st - S k) with r by lia. reflexivity. }
    split; auto. split. { rewrite Hst, seq_S. reflexivity. }
    split. { unfold set_worker. rewrite Per. cbn [app]. rewrite Hp, seq_S. cbn [Nat.add]. now rewrite Permutation_cons_append. }
    split; [unfold set_worker; now rewrite set_nth_length|]. repeat (split; [solve [auto]|]). split.
    { pose proof (count_set is_locked _ _ _ (WRun k) N) as K. cbn in K. unfold set_worker. lia. }
    split; [lia|]. destruct (po_owner st) eqn:O; auto. destruct Ho as (H1 & H2 & H3). split; auto. split; auto.
    intros i0 Hi. unfold set_worker. rewrite nth_set_nth. destruct (Nat.eqb_spec i i0) as [->|]; cbn [andb]; auto.
    specialize (H3 _ Hi). congruence.
  - (* stop *)
    rewrite Hq in Q. destruct (po_jobs st - k) as [|r] eqn:Er; [|discriminate]. cbn [seq map app] in Q.
    destruct t as [|t]; [discriminate|]. cbn [repeat] in Q. inversion Q; subst q. clear Q.
    pose proof (count_set is_done _ _ _ WDone N) as KD. cbn in KD.
    pose proof (count_set live _ _ _ WDone N) as KL. cbn in KL.
    pose proof (count_set is_locked _ _ _ WDone N) as KK. cbn in KK.
    assert (C : count is_dead (set_worker st i WDone) = count is_dead (po_workers st)).
    { pose proof (count_set is_dead _ _ _ WDone N) as K. cbn in K. unfold set_worker. lia. }
    assert (Per : Permutation (running (set_worker st i WDone)) (running (po_workers st))) by apply (running_set _ _ _ WDone N).
    unfold set_worker in *. exists k, t. rewrite Er. repeat (split; [solve [auto]|]).
    split. { now rewrite Per. } split; [now rewrite set_nth_length|]. repeat (split; [solve [auto]|]). split; [lia|]. split; [lia|]. split; [lia|].
    destruct (po_owner st) eqn:O; try lia.
    + destruct Ho as (H1 & H2 & H3). split; [lia|]. split; auto.
      intros i0 Hi. rewrite nth_set_nth. destruct (Nat.eqb_spec i i0) as [->|]; cbn [andb]; auto.
      assert (i0 < List.length (po_workers st)) as Hl by (apply nth_error_Some; congruence). apply Nat.ltb_lt in Hl. now rewrite Hl.
  - (* recv fails *) exfalso. rewrite Hq in Q. destruct (map MJob (seq k (po_jobs st - k))) eqn:Em; [|discriminate].
    destruct t as [|t]; [|discriminate]. unfold sender in Sd.
    assert (0 < count live (po_workers st)) as KL.
    { apply count_pos, existsb_exists. exists WLocked. split; auto. eapply nth_error_In; eauto. }
    destruct (po_owner st); try discriminate; lia.
  - (* finish *)
    assert (C : forall p, p (WRun j) = p WIdle -> count p (set_worker st i WIdle) = count p (po_workers st)).
    { intros p E. pose proof (count_set p _ _ _ WIdle N) as K. unfold set_worker. rewrite E in K. lia. }
    pose proof (running_set _ _ _ WIdle N) as Per. cbn [job_of app] in Per.
    exists k, t. rewrite ?(C is_dead), ?(C is_done), ?(C live), ?(C is_locked) by reflexivity. repeat (split; [solve [auto]|]).
    split. { rewrite <- Hp, <- Per. unfold set_worker. cbn [app]. rewrite <- !app_assoc. cbn [app]. rewrite <- (Permutation_middle (finished ls)), <- Permutation_middle. reflexivity. }
    split; [unfold set_worker; now rewrite set_nth_length|].
    repeat (split; [solve [auto]|]). destruct (po_owner st) eqn:O; auto. destruct Ho as (H1 & H2 & H3). split; auto. split; auto.
    intros i0 Hi. unfold set_worker. rewrite nth_set_nth. destruct (Nat.eqb_spec i i0) as [->|]; cbn [andb]; auto.
    specialize (H3 _ Hi). congruence.
  - (* crash *)
    assert (C : forall p, p (WRun j) = p WDead -> count p (set_worker st i WDead) = count p (po_workers st)).
    { intros p E. pose proof (count_set p _ _ _ WDead N) as K. unfold set_worker. rewrite E in K. lia. }
    pose proof (running_set _ _ _ WDead N) as Per. cbn [job_of app] in Per.
    pose proof (count_set is_dead _ _ _ WDead N) as KD. cbn in KD.
    pose proof (count_set live _ _ _ WDead N) as KL. cbn in KL.
    exists k, t. rewrite (C is_done), (C is_locked) by reflexivity. repeat (split; [solve [auto]|]).
    split. { rewrite <- Hp, <- Per. unfold set_worker. cbn [app]. rewrite !app_assoc. now rewrite <- Permutation_cons_append. }
    split; [unfold set_worker; now rewrite set_nth_length|]. split; auto.
    split. { rewrite app_length. cbn [List.length]. unfold set_worker. lia. }
    split; auto. split; auto. destruct (po_owner st) eqn:O; auto.
    + destruct Ho as (H1 & H2 & H3). split; auto. split; auto.
      intros i0 Hi. unfold set_worker. rewrite nth_set_nth. destruct (Nat.eqb_spec i i0) as [->|]; cbn [andb]; auto.
      specialize (H3 _ Hi). congruence.
    + destruct Ho as [[H1|H1] H2]; rewrite app_length; unfold set_worker; (split; [|lia]); [left; lia|now right].
Qed.

Lemma inv_run size ls st : 0 < size -> run (pool_new size) ls st -> inv size ls st.
Proof.
  intros Hs R. remember (pool_new size) as i eqn:Ei. induction R as [|st ls st1 l st2 R IH S]; subst; [apply inv_new|].
  eapply inv_step; eauto.
Qed.

(** Progress once [drop] was called. *)
Definition is_idle (w : worker) : bool := match w with WIdle => true | _ => false end.

Lemma live_cases l : 0 < count live l ->
  (exists i j, nth_error l i = Some (WRun j)) \/ (exists i, nth_error l i = Some WLocked) \/
  ((exists i, nth_error l i = Some WIdle) /\ existsb is_locked l = false).
Proof.
  intros H. apply count_pos, existsb_exists in H as (w & Hi & Hw). apply In_nth_error in Hi as [i Hi].
  destruct (existsb is_locked l) eqn:E.
  - apply existsb_exists in E as (w' & Hi' & Hw'). apply In_nth_error in Hi' as [i' Hi'].
    destruct w'; try discriminate. right. left. eauto.
  - destruct w; try discriminate; eauto.
Qed.

Definition no_crash (l : plabel) : Prop := match l with Crash _ => False | _ => True end.

Lemma workers_progress st : po_poisoned st = false -> 0 < count live (po_workers st) -> po_queue st <> [] ->
  exists l st', step st l st' /\ no_crash l.
Proof.
  intros P L Q. destruct (live_cases _ L) as [(i & j & H)|[(i & H)|((i & H) & E)]].
  - do 2 eexists. split; [eapply step_finish; eauto|exact I].
  - destruct (po_queue st) as [|[j|] q] eqn:Eq; [contradiction| |].
    + do 2 eexists. split; [eapply step_start; eauto|exact I].
    + do 2 eexists. split; [eapply step_stop; eauto|exact I].
  - do 2 eexists. split; [eapply step_lock; eauto|exact I].
Qed.

Definition ended (st : pool) : Prop :=
  (po_owner st = ODropped \/ po_owner st = OPanicked) /\ count live (po_workers st) = 0.

Lemma closing_progress size ls st : inv size ls st -> po_owner st <> OLive ->
  (exists l st', step st l st' /\ no_crash l) \/ ended st.
Proof.
  intros (k & t & Hk & Hq & Hsub & Hst & Hp & Hw & Hpo & Hdead & Hlock & Hdone & Ho) O.
  pose proof (count_total (po_workers st)) as Tot.
  assert (W : 0 < count live (po_workers st) -> 0 < t -> exists l st', step st l st' /\ no_crash l).
  { intros L T. apply workers_progress; auto. rewrite Hq. destruct t; [lia|]. destruct (map MJob _); discriminate. }
  destruct (po_owner st) as [|[|n]|m| |] eqn:Eo; [contradiction| | | | |].
  - left. do 2 eexists. split; [now apply step_sent|exact I].
  - left. destruct (receiver st) eqn:R; do 2 eexists.
    + split; [eapply step_send; eauto|exact I].
    + split; [eapply step_send_fails; eauto|exact I].
  - left. destruct Ho as (H1 & H2 & H3). destruct (nth_error (po_workers st) m) as [w|] eqn:N.
    + assert (Hl : live w = true -> 0 < count live (po_workers st)).
      { intros E. apply count_pos, existsb_exists. exists w. split; auto. eapply nth_error_In; eauto. }
      destruct w; try (apply W; [now apply Hl|specialize (Hl eq_refl); lia]).
      * do 2 eexists. split; [eapply step_join; eauto|exact I].
      * do 2 eexists. split; [eapply step_join_fails; eauto|exact I].
    + do 2 eexists. split; [eapply step_joined; eauto|exact I].
  - right. split; [auto|]. lia.
  - destruct (count live (po_workers st)) eqn:E; [right; split; auto|]. left. destruct Ho as [[H|H] _]; [lia|]. apply W; lia.
Qed.

Definition weight (w : worker) : nat := match w with WIdle => 2 | WLocked => 1 | WRun _ => 3 | _ => 0 end.
Definition weights (l : list worker) : nat := list_sum (map weight l).
Definition owner_weight (size : nat) (o : owner) : nat :=
  match o with OLive => 0 | OSending n => 5 * n + size + 2 | OJoining m => size - m + 1 | ODropped | OPanicked => 0 end.
Definition left_to_do (st : pool) : nat :=
  4 * List.length (po_queue st) + weights (po_workers st) + owner_weight (List.length (po_workers st)) (po_owner st).

Lemma weights_set l : forall i w w', nth_error l i = Some w -> weights (set_nth i w' l) + weight w = weights l + weight w'.
Proof.
  unfold weights. induction l as [|x l IH]; intros [|i] w w' H; cbn [nth_error] in H; try discriminate; cbn [set_nth map list_sum fold_right].
  - inversion H; subst. unfold list_sum. cbn. lia.
  - specialize (IH i w w' H). unfold list_sum in *. cbn. lia.
Qed.

Lemma closing_step st l st' : po_owner st <> OLive -> step st l st' -> po_owner st' <> OLive /\ left_to_do st' < left_to_do st.
Proof.
  intros O S. destruct S as [st O' R|st O' R|st O'|st n O' R|st n O' R|st O'|st m O' N|st m O' N|st m O' N|st i N L P|st i N L P|st i j q N Q|st i q N Q|st i N Q Sd|st i j N|st i j N];
    try congruence; unfold left_to_do; cbn [po_queue po_workers po_owner]; unfold set_worker; rewrite ?set_nth_length;
    try (split; [congruence|]); try rewrite O'; try rewrite Q; cbn [owner_weight];
    rewrite ?app_length; cbn [List.length];
    try (match goal with |- context [weights (set_nth i ?w _)] => pose proof (weights_set _ _ _ w N) as W; cbn [weight] in W end); try lia.
  assert (m < List.length (po_workers st)) by (apply nth_error_Some; congruence). lia.
Qed.

Lemma closing_run st ls st' : po_owner st <> OLive -> run st ls st' ->
  po_owner st' <> OLive /\ List.length ls + left_to_do st' <= left_to_do st.
Proof.
  intros O R. induction R as [|st ls st1 l st2 R IH S]; [split; auto|]. destruct (IH O) as [O1 L1].
  destruct (closing_step _ _ _ O1 S). cbn [List.length]. split; auto. lia.
Qed.

Lemma run_app st l1 st1 l2 st2 : run st l1 st1 -> run st1 l2 st2 -> run st (l2 ++ l1) st2.
Proof. intros H. induction 1; cbn; auto. econstructor; eauto. Qed.

Lemma step_owner_dropped st l st' : po_owner st = ODropped -> step st l st' -> po_owner st' = ODropped.
Proof. intros O S. destruct S; try congruence; auto. Qed.

Lemma dropped_owner size ls st : run (pool_new size) ls st -> In Dropped ls -> po_owner st = ODropped.
Proof.
  induction 1 as [|st0 ls st1 l st2 R IH S]; [intros []|]. intros [->|H].
  - inversion S; subst; reflexivity.
  - eapply step_owner_dropped; eauto.
Qed.

(** Without live workers nothing is started or submitted. *)
Lemma disabled_step st l st' : count live (po_workers st) = 0 -> step st l st' ->
  count live (po_workers st') = 0 /\ match l with Submit _ | Start _ | Finish _ | Crash _ => False | _ => True end.
Proof.
  intros L S.
  assert (N0 : forall i w, nth_error (po_workers st) i = Some w -> live w = true -> False).
  { intros i w N E. assert (0 < count live (po_workers st)); [|lia]. apply count_pos, existsb_exists. exists w. split; auto. eapply nth_error_In; eauto. }
  destruct S as [st O' R|st O' R|st O'|st n O' R|st n O' R|st O'|st m O' N|st m O' N|st m O' N|st i N L' P|st i N L' P|st i j q N Q|st i q N Q|st i N Q Sd|st i j N|st i j N];
    cbn [po_workers]; auto; try (exfalso; eapply N0; [eassumption|reflexivity]).
  exfalso. unfold receiver in R. apply count_pos in R. lia.
Qed.

Lemma disabled_run st ls st' : count live (po_workers st) = 0 -> run st ls st' ->
  count live (po_workers st') = 0 /\ forall l, In l ls -> match l with Submit _ | Start _ | Finish _ | Crash _ => False | _ => True end.
Proof.
  intros L R. induction R as [|st ls st1 l st2 R IH S]; [split; auto; intros l []|]. destruct (IH L) as [L1 H1].
  destruct (disabled_step _ _ _ L1 S) as [L2 H2]. split; [assumption|]. intros l' [<-|K]; [assumption|exact (H1 _ K)].
Qed.
