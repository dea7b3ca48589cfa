(** C46-C48: the thread pool. *)
From Coq Require Import List Bool Arith Lia Permutation.
From Verif.Model Require Import Slab Pool.
From Verif.Spec Require Import Jobs.
From Verif.Proofs Require Import SlabFacts PoolFacts.
Import ListNotations.

(** Jobs are started in the order they were submitted, each at most once. *)
Theorem C46_order size ls st : 0 < size -> run (pool_new size) ls st ->
  NoDup (submitted ls) /\ exists waiting, submitted ls = started ls ++ waiting.
Proof.
  intros Hs R. destruct (inv_run _ _ _ Hs R) as (k & t & Hk & _ & Hsub & Hst & _). rewrite Hsub, Hst.
  split; [apply seq_NoDup|]. exists (seq k (po_jobs st - k)). rewrite <- seq_app. f_equal. lia.
Qed.
Print Assumptions C46_order.

(** Every job started is in progress, has finished, or has panicked: exactly one of these, and once. *)
Theorem C46_each_once size ls st : 0 < size -> run (pool_new size) ls st ->
  Permutation (running (po_workers st) ++ finished ls ++ crashed ls) (started ls) /\ NoDup (started ls).
Proof.
  intros Hs R. destruct (inv_run _ _ _ Hs R) as (k & t & Hk & _ & Hsub & Hst & Hp & _). rewrite Hst.
  split; auto. apply seq_NoDup.
Qed.
Print Assumptions C46_each_once.

Lemma no_live_running l : count live l = 0 -> running l = [].
Proof.
  intros H. pose proof (running_length l) as E. destruct (running l) eqn:R; auto. exfalso.
  assert (count is_run l <= count live l) as K.
  { unfold count. clear. induction l as [|[| |j| |] l IH]; cbn; lia. }
  cbn in E. lia.
Qed.

(** When [drop] has returned, every job submitted has run to completion. *)
Theorem C46_dropped size ls st : 0 < size -> run (pool_new size) ls st -> In Dropped ls ->
  Permutation (finished ls) (submitted ls) /\ crashed ls = [].
Proof.
  intros Hs R D. pose proof (dropped_owner _ _ _ R D) as O.
  destruct (inv_run _ _ _ Hs R) as (k & t & Hk & Hq & Hsub & Hst & Hp & Hw & Hpo & Hdead & Hlock & Hdone & Ho).
  rewrite O in Ho. pose proof (count_total (po_workers st)) as Tot.
  assert (C : crashed ls = []) by (apply length_zero_iff_nil; lia). split; auto.
  rewrite C, app_nil_r, no_live_running in Hp by lia. cbn [app] in Hp. rewrite Hp, Hsub.
  assert (k = po_jobs st) by (apply Hdone; lia). now subst.
Qed.
Print Assumptions C46_dropped.

(** Also when jobs panicked: if the workers have all ended and not all of them by a panic, every job submitted has run. *)
Theorem C46_ended size ls st : 0 < size -> run (pool_new size) ls st -> (forall l st', ~ step st l st') ->
  List.length (crashed ls) < size -> Permutation (finished ls ++ crashed ls) (submitted ls).
Proof.
  intros Hs R N C. pose proof (inv_run _ _ _ Hs R) as I.
  destruct I as (k & t & Hk & Hq & Hsub & Hst & Hp & Hw & Hpo & Hdead & Hlock & Hdone & Ho).
  assert (O : po_owner st <> OLive). { intros O. eapply N. eapply step_drop; eauto. }
  destruct (closing_progress size ls st) as [(l & st' & S & _)|[_ L]]; [|assumption|now apply N in S|].
  { exists k, t. repeat (split; [assumption|]). assumption. }
  rewrite no_live_running in Hp by lia. cbn [app] in Hp. rewrite Hp, Hsub.
  pose proof (count_total (po_workers st)) as Tot. assert (k = po_jobs st) by (apply Hdone; lia). now subst.
Qed.
Print Assumptions C46_ended.

(** Never more than [size] jobs in progress. *)
Theorem C47_at_most_size size ls st : 0 < size -> run (pool_new size) ls st ->
  List.length (started ls) - List.length (finished ls) - List.length (crashed ls) <= size.
Proof.
  intros Hs R. destruct (inv_run _ _ _ Hs R) as (k & t & Hk & _ & Hsub & Hst & Hp & Hw & _). rewrite Hst.
  apply Permutation_length in Hp. rewrite !app_length, running_length in Hp.
  pose proof (count_le is_run (po_workers st)). lia.
Qed.
Print Assumptions C47_at_most_size.

(** From the call of [drop] on every execution is finite, and ends with all workers ended and [drop] having returned,
    or, if and only if a job panicked, having panicked. *)
Theorem C47_drop_ends size ls st : 0 < size -> run (pool_new size) ls st -> In DropCalled ls ->
  forall ls' st', run st ls' st' ->
  List.length ls' <= left_to_do st /\
  ((forall l st'', ~ step st' l st'') ->
   count live (po_workers st') = 0 /\
   (crashed (ls' ++ ls) = [] /\ po_owner st' = ODropped \/ crashed (ls' ++ ls) <> [] /\ po_owner st' = OPanicked)).
Proof.
  intros Hs R D ls' st' R'.
  assert (O : po_owner st <> OLive).
  { clear R'. remember (pool_new size) as i. induction R as [|st0 ls st1 l st2 R IH S]; [destruct D|]. destruct D as [->|D].
    - inversion S; subst; discriminate.
    - apply (closing_step _ _ _ (IH Heqi D) S). }
  destruct (closing_run _ _ _ O R') as [O' L]. split; [lia|]. intros N.
  pose proof (inv_run _ _ _ Hs (run_app _ _ _ _ _ R R')) as I.
  destruct (closing_progress _ _ _ I O') as [(l & st'' & S & _)|[E K]]; [now apply N in S|]. split; auto.
  destruct I as (k & t & Hk & Hq & Hsub & Hst & Hp & Hw & Hpo & Hdead & Hlock & Hdone & Ho).
  pose proof (count_total (po_workers st')) as Tot. destruct E as [E|E]; rewrite E in Ho.
  - left. split; auto. apply length_zero_iff_nil. lia.
  - right. split; auto. intros K'. rewrite K' in Ho. cbn in Ho. lia.
Qed.
Print Assumptions C47_drop_ends.

(** The lock around the channel is never poisoned, and never held by two workers. *)
Theorem C47_lock size ls st : 0 < size -> run (pool_new size) ls st ->
  po_poisoned st = false /\ count is_locked (po_workers st) <= 1.
Proof. intros Hs R. destruct (inv_run _ _ _ Hs R) as (k & t & Hk & _ & _ & _ & _ & _ & Hpo & _ & Hl & _). auto. Qed.
Print Assumptions C47_lock.

(** While the pool is in use each panic has cost one worker, and nothing else has. *)
Theorem C48_workers_left size ls st : 0 < size -> run (pool_new size) ls st -> po_owner st = OLive ->
  count live (po_workers st) + List.length (crashed ls) = size.
Proof.
  intros Hs R O. destruct (inv_run _ _ _ Hs R) as (k & t & Hk & Hq & Hsub & Hst & Hp & Hw & Hpo & Hdead & Hlock & Hdone & Ho).
  rewrite O in Ho. pose proof (count_total (po_workers st)). lia.
Qed.
Print Assumptions C48_workers_left.

(** With fewer than [size] panics the pool works: it accepts jobs, and the first waiting job can always be started
    within three steps (a job in progress ends, the lock is taken, the job is taken). *)
Theorem C48_still_works size ls st : 0 < size -> run (pool_new size) ls st -> po_owner st = OLive ->
  List.length (crashed ls) < size ->
  (exists st', step st (Submit (po_jobs st)) st') /\
  (forall j waiting, submitted ls = started ls ++ j :: waiting ->
     exists ls' st', run st ls' st' /\ started ls' = [j] /\ crashed ls' = [] /\ List.length ls' <= 3).
Proof.
  intros Hs R O C. pose proof (C48_workers_left _ _ _ Hs R O) as W.
  destruct (inv_run _ _ _ Hs R) as (k & t & Hk & Hq & Hsub & Hst & Hp & Hw & Hpo & Hdead & Hlock & Hdone & Ho).
  assert (L : 0 < count live (po_workers st)) by lia. split.
  - eexists. apply step_submit; auto. unfold receiver. now apply count_pos.
  - intros j waiting E. rewrite Hsub, Hst in E.
    assert (Q : exists q, po_queue st = MJob j :: q).
    { rewrite Hq. replace (seq 0 (po_jobs st)) with (seq 0 k ++ seq k (po_jobs st - k)) in E by (rewrite <- seq_app; f_equal; lia).
      apply app_inv_head in E. rewrite E. cbn. eauto. }
    destruct Q as [q Q].
    assert (Lk : forall st1, po_poisoned st1 = false -> po_queue st1 = MJob j :: q -> (exists i, nth_error (po_workers st1) i = Some WIdle) -> existsb is_locked (po_workers st1) = false ->
      exists ls' st', run st1 ls' st' /\ started ls' = [j] /\ crashed ls' = [] /\ List.length ls' <= 2).
    { intros st1 P1 Q1 [i N] E1. do 2 eexists. split; [|split; [|split]].
      - eapply run_step. 1: eapply run_step. 1: apply run_nil. 1: eapply step_lock; eauto.
        eapply (step_start _ i j q); [|exact Q1]. cbn [po_workers]. unfold set_worker. rewrite nth_set_nth, Nat.eqb_refl.
        assert (H : i < List.length (po_workers st1)) by (apply nth_error_Some; congruence). apply Nat.ltb_lt in H. now rewrite H.
      - reflexivity.
      - reflexivity.
      - cbn. lia. }
    destruct (existsb is_locked (po_workers st)) eqn:El.
    + apply existsb_exists in El as (w & Hi & Hl). destruct w; try discriminate. apply In_nth_error in Hi as [i N].
      do 2 eexists. split; [eapply run_step; [apply run_nil|]; eapply (step_start _ i j q); eauto|]. cbn. auto.
    + destruct (live_cases _ L) as [(i & j' & H)|[(i & H)|(Hi & _)]].
      * destruct (Lk (mk_pool (po_queue st) (set_worker st i WIdle) (po_owner st) (po_jobs st) (po_poisoned st))) as (ls' & st' & R' & S1 & S2 & S3); auto.
        -- exists i. cbn [po_workers]. unfold set_worker. rewrite nth_set_nth, Nat.eqb_refl.
           assert (H' : i < List.length (po_workers st)) by (apply nth_error_Some; congruence). apply Nat.ltb_lt in H'. now rewrite H'.
        -- cbn [po_workers]. unfold set_worker. pose proof (count_set is_locked _ _ _ WIdle H) as K. cbn in K.
           assert (K0 : count is_locked (po_workers st) = 0).
           { destruct (count is_locked (po_workers st)) eqn:Ec; auto. assert (K' : 0 < count is_locked (po_workers st)) by lia. apply count_pos in K'. congruence. }
           destruct (existsb is_locked (set_nth i WIdle (po_workers st))) eqn:Ec; auto. apply count_pos in Ec. lia.
        -- exists (ls' ++ [Finish j']), st'. split.
           { eapply run_app; [|exact R']. eapply run_step; [apply run_nil|]. now apply step_finish. }
           unfold started, crashed in *. rewrite rev_app_distr. cbn [rev app flat_map started_by crashed_by]. rewrite app_length. cbn. repeat split; auto. lia.
      * exfalso. assert (existsb is_locked (po_workers st) = true); [|congruence]. apply existsb_exists. exists WLocked. split; auto. eapply nth_error_In; eauto.
      * destruct (Lk st) as (ls' & st' & R' & S1 & S2 & S3); auto. exists ls', st'. repeat split; auto.
Qed.
Print Assumptions C48_still_works.

(** After [size] panics nothing runs any more, in any continuation, and no job can be submitted: [execute] panics. *)
Theorem C48_disabled size ls st : 0 < size -> run (pool_new size) ls st -> po_owner st = OLive ->
  List.length (crashed ls) = size ->
  (exists st', step st SubmitFailed st') /\
  forall ls' st', run st ls' st' -> submitted ls' = [] /\ started ls' = [].
Proof.
  intros Hs R O C. pose proof (C48_workers_left _ _ _ Hs R O) as W. assert (L : count live (po_workers st) = 0) by lia. split.
  - eexists. apply step_submit_fails; auto. unfold receiver. destruct (existsb live (po_workers st)) eqn:E; auto. apply count_pos in E. lia.
  - intros ls' st' R'. destruct (disabled_run _ _ _ L R') as [_ H]. clear - H.
    unfold submitted, started. split; induction ls' as [|l ls' IH]; auto; rewrite labels_cons, IH by (intros l' K; apply H; now right);
      specialize (H l (or_introl eq_refl)); destruct l; auto; contradiction.
Qed.
Print Assumptions C48_disabled.

(** Such executions exist for every size, with a job submitted and accepted that never runs. *)
Definition half_dead (size k : nat) : pool := mk_pool [] (repeat WDead k ++ repeat WIdle (size - k)) OLive k false.

Lemma nth_half k r w : nth_error (repeat WDead k ++ w :: r) k = Some w.
Proof. rewrite nth_error_app2; rewrite repeat_length; auto. now rewrite Nat.sub_diag. Qed.

Lemma set_half k r w w' : set_nth k w' (repeat WDead k ++ w :: r) = repeat WDead k ++ w' :: r.
Proof. induction k; cbn; auto. now f_equal. Qed.

Lemma not_locked k m : existsb is_locked (repeat WDead k ++ repeat WIdle m) = false.
Proof. rewrite existsb_app. apply orb_false_iff. split; [induction k|induction m]; cbn; auto. Qed.

Lemma alive_half k r : existsb live (repeat WDead k ++ WIdle :: r) = true.
Proof. rewrite existsb_app. apply orb_true_iff. right. reflexivity. Qed.

Lemma dead_snoc k r : repeat WDead k ++ WDead :: r = repeat WDead (S k) ++ r.
Proof. induction k; cbn; auto. now f_equal. Qed.

(** One job more that panics, with [extra] further jobs submitted before it is started. *)
Lemma kill_one size k (extra : bool) : k < size ->
  exists ls, run (half_dead size k) ls
    (mk_pool (if extra then [MJob (S k)] else []) (repeat WDead (S k) ++ repeat WIdle (size - S k)) OLive (if extra then S (S k) else S k) false) /\
    crashed ls = [k] /\ started ls = [k] /\ submitted ls = if extra then [k; S k] else [k].
Proof.
  intros L. unfold half_dead. replace (size - k) with (S (size - S k)) by lia. cbn [repeat]. set (r := repeat WIdle (size - S k)).
  assert (Lk : existsb (fun w => match w with WLocked => true | _ => false end) (repeat WDead k ++ WIdle :: r) = false) by exact (not_locked k (S (size - S k))).
  assert (T : forall q n, run (mk_pool (MJob k :: q) (repeat WDead k ++ WIdle :: r) OLive n false) [Crash k; Start k; Tau]
     (mk_pool q (repeat WDead (S k) ++ r) OLive n false)).
  { intros q n. eapply run_step. 1: eapply run_step. 1: eapply run_step. 1: apply run_nil.
    - apply (step_lock _ k); cbn [po_workers po_poisoned]; auto. apply nth_half.
    - unfold set_worker. cbn [po_workers po_queue po_owner po_jobs po_poisoned]. rewrite set_half.
      apply (step_start _ k k q); cbn [po_workers]; auto. apply nth_half.
    - unfold set_worker. cbn [po_workers po_queue po_owner po_jobs po_poisoned]. rewrite set_half.
      pose proof (step_crash (mk_pool q (repeat WDead k ++ WRun k :: r) OLive n false) k k (nth_half _ _ _)) as S.
      unfold set_worker in S. cbn [po_workers po_queue po_owner po_jobs po_poisoned] in S. rewrite set_half, dead_snoc in S. exact S. }
  destruct extra.
  - exists ([Crash k; Start k; Tau] ++ [Submit (S k); Submit k]). split; [|auto]. eapply run_app; [|apply T].
    eapply run_step. 1: eapply run_step. 1: apply run_nil.
    + apply step_submit; auto. apply alive_half.
    + apply (step_submit (mk_pool [MJob k] (repeat WDead k ++ WIdle :: r) OLive (S k) false)); auto. apply alive_half.
  - exists ([Crash k; Start k; Tau] ++ [Submit k]). split; [|auto]. eapply run_app; [|apply T].
    eapply run_step. 1: apply run_nil. apply step_submit; auto. apply alive_half.
Qed.

Lemma trace_app (f : plabel -> list nat) l1 l2 : flat_map f (rev (l2 ++ l1)) = flat_map f (rev l1) ++ flat_map f (rev l2).
Proof. now rewrite rev_app_distr, flat_map_app. Qed.

Theorem C48_pool_survives_panics_refuted size : 0 < size ->
  exists ls st j, run (pool_new size) ls st /\ po_owner st = OLive /\ List.length (crashed ls) = size /\
    In j (submitted ls) /\ ~ In j (started ls) /\
    (forall ls' st', run st ls' st' -> ~ In j (started ls')) /\
    (exists st', step st SubmitFailed st').
Proof.
  intros Hs.
  assert (K : forall k, k < size -> exists ls, run (pool_new size) ls (half_dead size k) /\ List.length (crashed ls) = k /\
    (forall j, In j (started ls) -> j < k)).
  { induction k as [|k IH]; intros L.
    - exists []. split; [|split; [auto|intros j []]]. unfold half_dead, pool_new. cbn. rewrite Nat.sub_0_r. apply run_nil.
    - destruct IH as (ls & R & C & St); [lia|]. destruct (kill_one size k false) as (l1 & R1 & C1 & S1 & _); [lia|].
      exists (l1 ++ ls). split; [eapply run_app; eauto|]. unfold crashed, started in *. rewrite !trace_app, app_length, C, C1, S1. cbn. split; [lia|].
      intros j H. apply in_app_or in H as [H|[<-|[]]]; [apply St in H|]; lia. }
  destruct (K (size - 1)) as (ls & R & C & St); [lia|]. destruct (kill_one size (size - 1) true) as (l1 & R1 & C1 & S1 & U1); [lia|].
  set (stf := mk_pool _ _ _ _ _) in R1. exists (l1 ++ ls), stf, (S (size - 1)).
  pose proof (run_app _ _ _ _ _ R R1) as RR. split; auto. split; auto.
  assert (CC : List.length (crashed (l1 ++ ls)) = size).
  { unfold crashed in *. rewrite trace_app, app_length, C, C1. cbn. lia. }
  split; auto. split. { unfold submitted in *. rewrite trace_app, U1. apply in_or_app. right. cbn. auto. }
  split. { unfold started in *. rewrite trace_app, S1. intros H. apply in_app_or in H as [H|[H|[]]]; [apply St in H|]; lia. }
  destruct (C48_disabled _ _ _ Hs RR eq_refl CC) as [E D]. split; auto.
  intros ls' st' R'. destruct (D _ _ R') as [_ ->]. intros [].
Qed.
Print Assumptions C48_pool_survives_panics_refuted.

(** Non-vacuity: two workers, two jobs in progress at once, then the pool is dropped; and one that crashes. *)
Ltac go R tac := eapply run_step in R; [|tac]; cbv in R.
Example example_pool : exists ls st, run (pool_new 2) ls st /\ In Dropped ls /\ finished ls = [1; 0] /\
  submitted ls = [0; 1] /\ started ls = [0; 1].
Proof.
  pose proof (run_nil (pool_new 2)) as R.
  go R ltac:(eapply step_submit; reflexivity).
  go R ltac:(eapply (step_lock _ 0); reflexivity). go R ltac:(eapply (step_start _ 0); reflexivity).
  go R ltac:(eapply (step_lock _ 1); reflexivity). go R ltac:(eapply step_submit; reflexivity).
  go R ltac:(eapply (step_start _ 1); reflexivity). go R ltac:(eapply step_drop; reflexivity).
  go R ltac:(eapply (step_finish _ 1); reflexivity). go R ltac:(eapply step_send; reflexivity).
  go R ltac:(eapply (step_lock _ 1); reflexivity). go R ltac:(eapply (step_stop _ 1); reflexivity).
  go R ltac:(eapply step_send; reflexivity). go R ltac:(eapply step_sent; reflexivity).
  go R ltac:(eapply (step_finish _ 0); reflexivity). go R ltac:(eapply (step_lock _ 0); reflexivity).
  go R ltac:(eapply (step_stop _ 0); reflexivity). go R ltac:(eapply step_join; reflexivity).
  go R ltac:(eapply step_join; reflexivity). go R ltac:(eapply step_joined; reflexivity).
  do 2 eexists. split; [exact R|]. split; [now left|]. auto.
Qed.
Print Assumptions example_pool.

Example example_crash : exists ls st, run (pool_new 2) ls st /\ In DropFailed ls /\ crashed ls = [0] /\
  (forall l st', ~ step st l st') /\ finished ls = [1].
Proof.
  pose proof (run_nil (pool_new 2)) as R.
  go R ltac:(eapply step_submit; reflexivity). go R ltac:(eapply step_submit; reflexivity).
  go R ltac:(eapply (step_lock _ 0); reflexivity). go R ltac:(eapply (step_start _ 0); reflexivity).
  go R ltac:(eapply (step_crash _ 0); reflexivity). go R ltac:(eapply step_drop; reflexivity).
  go R ltac:(eapply step_send; reflexivity). go R ltac:(eapply step_send; reflexivity).
  go R ltac:(eapply step_sent; reflexivity). go R ltac:(eapply step_join_fails; reflexivity).
  go R ltac:(eapply (step_lock _ 1); reflexivity). go R ltac:(eapply (step_start _ 1); reflexivity).
  go R ltac:(eapply (step_finish _ 1); reflexivity). go R ltac:(eapply (step_lock _ 1); reflexivity).
  go R ltac:(eapply (step_stop _ 1); reflexivity).
  do 2 eexists. split; [exact R|]. split; [cbn; tauto|]. split; auto. split; auto. intros l st' S.
  inversion S; subst; cbn in *; try discriminate;
    match goal with H : nth_error _ ?i = Some _ |- _ => destruct i as [|[|[|i]]]; discriminate end.
Qed.
Print Assumptions example_crash.
