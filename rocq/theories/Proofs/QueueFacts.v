(** The thread pool is a queue with several servers. *)
From Coq Require Import List Bool Arith Lia Permutation.
From Verif.Model Require Import Slab Pool.
From Verif.Spec Require Import Jobs Queue.
From Verif.Proofs Require Import SlabFacts PoolFacts.
From Verif.Proofs Require HandlersFacts.
Import ListNotations.

Definition is_free (w : worker) : bool := match w with WIdle | WLocked => true | _ => false end.

Record same (st : pool) (q : fifo) : Prop := mk_same {
  sm_next : fq_next q = po_jobs st;
  sm_queue : po_queue st = map MJob (fq_waiting q);
  sm_free : count is_free (po_workers st) = fq_free q;
  sm_run : Permutation (running (po_workers st)) (fq_running q);
  sm_fine : po_poisoned st = false;
  sm_open : po_owner st = (if fq_open q then OLive else OPanicked);
  sm_shut : fq_open q = false -> servers q = 0 }.

Lemma live_count l : count live l = count is_free l + count is_run l.
Proof. unfold count. induction l as [|[| |j| |] l IH]; cbn [filter live is_free is_run List.length]; lia. Qed.

Lemma same_servers st q : same st q -> count live (po_workers st) = servers q.
Proof. intros [_ _ F R _ _ _]. rewrite live_count, F, <- running_length. unfold servers. now rewrite (Permutation_length R). Qed.

Lemma same_receiver st q : same st q -> receiver st = (0 <? servers q).
Proof.
  intros S. unfold receiver. destruct (existsb live (po_workers st)) eqn:E.
  - apply count_pos in E. rewrite (same_servers _ _ S) in E. symmetry. now apply Nat.ltb_lt.
  - symmetry. apply Nat.ltb_ge. destruct (servers q) eqn:K; auto. rewrite <- (same_servers _ _ S) in K.
    assert (existsb live (po_workers st) = true) by (apply count_pos; lia). congruence.
Qed.

Lemma same_init size : same (pool_new size) (fifo_new size).
Proof.
  split; cbn [pool_new fifo_new fq_next fq_waiting fq_free fq_running fq_open po_jobs po_queue po_workers po_poisoned po_owner]; auto; try discriminate.
  - unfold count. induction size as [|n IH]; auto. cbn [repeat filter is_free List.length]. now rewrite IH.
  - unfold running. induction size as [|n IH]; auto.
Qed.

(** Every step of the pool is one of the queue, or is not seen. *)
Lemma same_step st q l st' : same st q -> step st l st' -> l <> DropCalled ->
  if seen l then exists q', happen q l q' /\ same st' q' else same st' q.
Proof.
  intros S St D. pose proof (same_receiver _ _ S) as Rc. destruct q as [n w f r o]. destruct S as [S1 S2 S3 S4 S5 S6 S7].
  cbn [fq_next fq_waiting fq_free fq_running fq_open] in *.
  destruct St as [st O Re|st O Re|st O|st m O Re|st m O Re|st O|st k O N|st k O N|st k O N|st i N Lk P|st i N Lk P|st i j qu N Q|st i qu N Q|st i N Q Se|st i j N|st i j N]; cbn [seen].
  - rewrite O in S6. destruct o; [|discriminate]. rewrite Re in Rc. symmetry in Rc. apply Nat.ltb_lt in Rc. rewrite <- S1.
    exists (mk_fifo (Datatypes.S n) (w ++ [n]) f r true). split; [constructor; exact Rc|]. split; cbn [fq_next fq_waiting fq_free fq_running fq_open po_jobs po_queue po_workers po_poisoned po_owner]; auto; try congruence.
    now rewrite S2, map_app, S1.
  - rewrite O in S6. destruct o; [|discriminate]. rewrite Re in Rc. symmetry in Rc. apply Nat.ltb_ge in Rc. unfold servers in Rc. cbn [fq_free fq_running] in Rc.
    destruct f as [|f]; [|lia]. destruct r as [|x r]; [|cbn [List.length] in Rc; lia]. exists (mk_fifo n w 0 [] false). split; [constructor|].
    split; cbn [fq_next fq_waiting fq_free fq_running fq_open po_jobs po_queue po_workers po_poisoned po_owner]; auto.
  - now destruct D.
  - rewrite O in S6. destruct o; discriminate.
  - rewrite O in S6. destruct o; discriminate.
  - rewrite O in S6. destruct o; discriminate.
  - rewrite O in S6. destruct o; discriminate.
  - rewrite O in S6. destruct o; discriminate.
  - rewrite O in S6. destruct o; discriminate.
  - split; cbn [fq_next fq_waiting fq_free fq_running fq_open po_jobs po_queue po_workers po_poisoned po_owner]; unfold set_worker; auto.
    + pose proof (count_set is_free _ _ _ WLocked N) as K. cbn [is_free b2n] in K. lia.
    + pose proof (running_set _ _ _ WLocked N) as K. cbn [job_of app] in K. now rewrite K.
  - congruence.
  - rewrite Q in S2. destruct w as [|j' w]; [discriminate|]. cbn [map] in S2. inversion S2; subst j'.
    pose proof (count_set is_free _ _ _ (WRun j) N) as K. cbn [is_free b2n] in K. destruct f as [|f]; [lia|].
    exists (mk_fifo n w f (j :: r) o). split; [constructor|].
    split; cbn [fq_next fq_waiting fq_free fq_running fq_open po_jobs po_queue po_workers po_poisoned po_owner]; unfold set_worker; auto.
    + lia.
    + pose proof (running_set _ _ _ (WRun j) N) as K1. cbn [job_of app] in K1. rewrite K1. now constructor.
    + intros Ho. specialize (S7 Ho). unfold servers in *. cbn [fq_free fq_running List.length] in *. lia.
  - rewrite Q in S2. destruct w; discriminate.
  - unfold sender in Se. rewrite S6 in Se. destruct o; [discriminate|]. specialize (S7 eq_refl). unfold servers in S7. cbn [fq_free fq_running] in S7.
    pose proof (count_set is_free _ _ _ WDead N) as K. cbn [is_free b2n] in K. lia.
  - pose proof (running_set _ _ _ WIdle N) as K1. cbn [job_of app] in K1.
    exists (mk_fifo n w (Datatypes.S f) (running (set_nth i WIdle (po_workers st))) o). split; [constructor; now rewrite <- S4, K1|].
    pose proof (count_set is_free _ _ _ WIdle N) as K. cbn [is_free b2n] in K.
    split; cbn [fq_next fq_waiting fq_free fq_running fq_open po_jobs po_queue po_workers po_poisoned po_owner]; unfold set_worker; auto; [lia|].
    intros Ho. specialize (S7 Ho). unfold servers in *. cbn [fq_free fq_running] in *. pose proof (Permutation_length S4) as L1. pose proof (Permutation_length K1) as L2. cbn [List.length] in L2. lia.
  - pose proof (running_set _ _ _ WDead N) as K1. cbn [job_of app] in K1.
    exists (mk_fifo n w f (running (set_nth i WDead (po_workers st))) o). split; [constructor; now rewrite <- S4, K1|].
    pose proof (count_set is_free _ _ _ WDead N) as K. cbn [is_free b2n] in K.
    split; cbn [fq_next fq_waiting fq_free fq_running fq_open po_jobs po_queue po_workers po_poisoned po_owner]; unfold set_worker; auto; [lia|].
    intros Ho. specialize (S7 Ho). unfold servers in *. cbn [fq_free fq_running] in *. pose proof (Permutation_length S4) as L1. pose proof (Permutation_length K1) as L2. cbn [List.length] in L2. lia.
Qed.

Lemma count_find p l : 0 < count p l -> exists i w, nth_error l i = Some w /\ p w = true.
Proof. intros H. apply count_pos in H. apply existsb_exists in H as (w & Hw & Hp). apply In_nth_error in Hw as [i Hi]. eauto. Qed.

(** And the pool can do every step of the queue, after taking the lock if need be. *)
Lemma same_back st q l q' : same st q -> happen q l q' -> exists ls st', run st ls st' /\ filter seen ls = [l] /\ ~ In DropCalled ls /\ same st' q'.
Proof.
  intros S H. pose proof (same_receiver _ _ S) as Rc. pose proof S as [S1 S2 S3 S4 S5 S6 S7].
  assert (one : forall l st', step st l st' -> seen l = true -> l <> DropCalled -> same st' q' -> exists ls st', run st ls st' /\ filter seen ls = [l] /\ ~ In DropCalled ls /\ same st' q').
  { intros l0 st' St Se Nd Sm. exists [l0], st'. split; [econstructor; [constructor|exact St]|]. cbn [filter]. rewrite Se. split; auto. split; auto. intros [K|[]]. congruence. }
  destruct H as [n w f r Pos|n w|n j w f r o|n w f j r r' o P|n w f j r r' o P]; cbn [fq_next fq_waiting fq_free fq_running fq_open] in *.
  - assert (Re : receiver st = true) by (rewrite Rc; apply Nat.ltb_lt; exact Pos). pose proof (step_submit st S6 Re) as St. rewrite <- S1 in St.
    apply (one _ _ St); auto; try discriminate. split; cbn [fq_next fq_waiting fq_free fq_running fq_open po_jobs po_queue po_workers po_poisoned po_owner]; auto; try discriminate.
    now rewrite S2, map_app.
  - assert (Re : receiver st = false) by (rewrite Rc; reflexivity). apply (one _ _ (step_submit_fails st S6 Re)); auto; try discriminate.
    split; cbn [fq_next fq_waiting fq_free fq_running fq_open po_jobs po_queue po_workers po_poisoned po_owner]; auto.
  - assert (two : forall st1 i, same st1 (mk_fifo n (j :: w) (Datatypes.S f) r o) -> nth_error (po_workers st1) i = Some WLocked ->
      exists st2, step st1 (Start j) st2 /\ same st2 (mk_fifo n w f (j :: r) o)).
    { intros st1 i Sm N. pose proof Sm as [T1 T2 T3 T4 T5 T6 T7]. cbn [fq_next fq_waiting fq_free fq_running fq_open map] in *.
      eexists. split; [eapply step_start; eauto|]. pose proof (count_set is_free _ _ _ (WRun j) N) as K. cbn [is_free b2n] in K.
      split; cbn [fq_next fq_waiting fq_free fq_running fq_open po_jobs po_queue po_workers po_poisoned po_owner]; unfold set_worker; auto.
      - lia.
      - pose proof (running_set _ _ _ (WRun j) N) as K1. cbn [job_of app] in K1. rewrite K1. now constructor.
      - intros Ho. specialize (T7 Ho). unfold servers in T7. cbn [fq_free fq_running] in T7. lia. }
    destruct (locked st) eqn:Lk.
    + unfold locked in Lk. apply existsb_exists in Lk as (x & Hx & Lx). destruct x; try discriminate. apply In_nth_error in Hx as [i N].
      destruct (two _ _ S N) as (st2 & St & Sm). apply (one _ _ St); auto. discriminate.
    + destruct (count_find is_free (po_workers st)) as (i & x & N & Fx); [lia|].
      assert (x = WIdle) as ->.
      { destruct x; try discriminate; auto. exfalso. unfold locked in Lk. apply nth_error_In in N.
        assert (K : existsb (fun w => match w with WLocked => true | _ => false end) (po_workers st) = true) by (apply existsb_exists; eauto). congruence. }
      pose proof (step_lock st i N Lk S5) as St1. pose proof (same_step _ _ _ _ S St1 ltac:(discriminate)) as Sm1. cbn [seen] in Sm1.
      destruct (two _ i Sm1) as (st2 & St2 & Sm2); [cbn [po_workers]; unfold set_worker; now apply HandlersFacts.nth_set_same with WIdle|].
      exists [Start j; Tau], st2. split; [econstructor; [econstructor; [constructor|exact St1]|exact St2]|]. split; auto. split; auto. intros [K|[K|[]]]; discriminate.
  - assert (Hj : In j (running (po_workers st))) by (rewrite S4, P; now left). unfold running in Hj. apply in_flat_map in Hj as (x & Hx & Jx).
    destruct x; try destruct Jx as [<-|[]]; try destruct Jx. apply In_nth_error in Hx as [i N].
    apply (one _ _ (step_finish st i j0 N)); auto; try discriminate.
    pose proof (running_set _ _ _ WIdle N) as K1. cbn [job_of app] in K1. pose proof (count_set is_free _ _ _ WIdle N) as K. cbn [is_free b2n] in K.
    assert (K2 : Permutation (running (set_nth i WIdle (po_workers st))) r') by (apply Permutation_cons_inv with j0; now rewrite K1, S4).
    split; cbn [fq_next fq_waiting fq_free fq_running fq_open po_jobs po_queue po_workers po_poisoned po_owner]; unfold set_worker; auto; [lia|].
    intros Ho. specialize (S7 Ho). unfold servers in *. cbn [fq_free fq_running] in *. pose proof (Permutation_length P) as L. cbn [List.length] in L. lia.
  - assert (Hj : In j (running (po_workers st))) by (rewrite S4, P; now left). unfold running in Hj. apply in_flat_map in Hj as (x & Hx & Jx).
    destruct x; try destruct Jx as [<-|[]]; try destruct Jx. apply In_nth_error in Hx as [i N].
    apply (one _ _ (step_crash st i j0 N)); auto; try discriminate.
    pose proof (running_set _ _ _ WDead N) as K1. cbn [job_of app] in K1. pose proof (count_set is_free _ _ _ WDead N) as K. cbn [is_free b2n] in K.
    assert (K2 : Permutation (running (set_nth i WDead (po_workers st))) r') by (apply Permutation_cons_inv with j0; now rewrite K1, S4).
    split; cbn [fq_next fq_waiting fq_free fq_running fq_open po_jobs po_queue po_workers po_poisoned po_owner]; unfold set_worker; auto; [lia|].
    intros Ho. specialize (S7 Ho). unfold servers in *. cbn [fq_free fq_running] in *. pose proof (Permutation_length P) as L. cbn [List.length] in L. lia.
Qed.

Lemma run_join a ls b : run a ls b -> forall ls' c, run b ls' c -> run a (ls' ++ ls) c.
Proof. intros R1 ls' c R2. induction R2 as [|st0 ls0 st1 l st2 R2 IH S]; auto. cbn [app]. econstructor; eauto. Qed.

Lemma same_forth size ls st : run (pool_new size) ls st -> ~ In DropCalled ls -> exists q, history (fifo_new size) (filter seen ls) q /\ same st q.
Proof.
  intros Rn. remember (pool_new size) as p. induction Rn as [|st0 ls st1 l st2 Rn IH S]; subst; intros Nd.
  - exists (fifo_new size). split; [constructor|apply same_init].
  - destruct (IH eq_refl) as (q & H & Sm); [intros K; apply Nd; now right|]. pose proof (same_step _ _ _ _ Sm S ltac:(intros ->; apply Nd; now left)) as K.
    cbn [filter]. destruct (seen l).
    + destruct K as (q' & H' & Sm'). exists q'. split; auto. econstructor; eauto.
    + exists q. auto.
Qed.

Lemma same_realised size ls q : history (fifo_new size) ls q -> exists ls' st, run (pool_new size) ls' st /\ ~ In DropCalled ls' /\ filter seen ls' = ls /\ same st q.
Proof.
  intros H. remember (fifo_new size) as p. induction H as [|q0 ls q1 l q2 H IH S]; subst.
  - exists [], (pool_new size). split; [constructor|]. split; auto. split; auto. apply same_init.
  - destruct (IH eq_refl) as (ls' & st & Rn & Nd & Fs & Sm). destruct (same_back _ _ _ _ Sm S) as (ls2 & st2 & Rn2 & Fs2 & Nd2 & Sm2).
    exists (ls2 ++ ls'), st2. split; [eapply run_join; eauto|]. split; [intros K; apply in_app_or in K as [K|K]; auto|]. split; auto. now rewrite filter_app, Fs, Fs2.
Qed.
