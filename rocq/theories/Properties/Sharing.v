(** C44, C65: threads sharing a client. *)
From Coq Require Import List Arith Bool Lia.
From Verif.Model Require Import Bytes Io Common Parse Encode Writer Client Slab Locks.
From Verif.Spec Require Import Sharing Exchange.
From Verif.Proofs Require Import SlabFacts LocksFacts.
From Verif.Properties Require Import Client RoundTrip.
Import ListNotations.

(** ** C44 *)

(** In all executions of any number of threads at most one thread uses a connection. *)
Theorem C44_one_user : forall dbg zt size threads ls st t1 t2 i, krun dbg zt (k_init size threads) ls st ->
  uses st t1 i -> uses st t2 i -> t1 = t2.
Proof.
  intros dbg zt size threads ls st t1 t2 i R (q1 & c1 & U1) (q2 & c2 & U2).
  eapply (ki_one st); eauto. eapply kinv_path; eauto. apply kinv_init.
Qed.

(** The sends on each connection take effect one after the other, each on the state the previous one left; nothing happens on a connection
    after a panic. *)
Theorem C44_sequential : forall dbg zt size threads ls st i c, krun dbg zt (k_init size threads) ls st ->
  nth_error (k_conns st) i = Some c -> sequence dbg zt cconn_new (history i ls) c /\
  (forall a q n b, history i ls = a ++ (q, n, CPanic) :: b -> b = []).
Proof. intros dbg zt size threads ls st i c R K. destruct (sequential dbg zt size threads ls st R i c K) as (H1 & _ & H2). auto. Qed.

(** A thread starts another round only after it has found each connection in use or poisoned at some time in the round. *)
Theorem C44_waits_only_for_busy : forall dbg zt size threads ls0 A q t ls B i, krun dbg zt (k_init size threads) ls0 A ->
  at_ A t (Scan q 0) -> krun dbg zt A ls B -> (exists q', at_ B t (Scan q' size)) -> i < size ->
  exists l1 l2 M, ls = l1 ++ KSkip t i :: l2 /\ krun dbg zt A l1 M /\ ~ available M i.
Proof.
  intros dbg zt size threads ls0 A q t ls B i R A0 P (q' & A1) Hi. eapply scanned; eauto. eapply kinv_path; eauto. apply kinv_init.
Qed.

(** If some connection is available and the other threads pause, a thread gets one within two rounds. *)
Theorem C44_gets_one : forall dbg zt size threads ls0 st q t i, krun dbg zt (k_init size threads) ls0 st ->
  at_ st t (Scan q i) -> (exists j, available st j) ->
  exists ls st', krun dbg zt st ls st' /\ Forall (fun l => actor l = t) ls /\ List.length ls <= 2 * List.length (k_conns st) + 1 /\ exists j, uses st' t j.
Proof. intros dbg zt size threads ls0 st q t i R A F. eapply alone; eauto. eapply kinv_path; eauto. apply kinv_init. Qed.

(** But a send may wait although at every moment some connection is available: for every k there is an execution of two connections and three
    threads in which a thread goes k times through all connections without getting one. *)
Definition one_turn (q : request) : list klabel :=
  [KCall 1 q; KTake 1 0; KCall 2 q; KSkip 2 0; KSkip 0 0; KReturn 1 0 q [] (CConnecting REFUSED); KTake 2 1; KSkip 0 1; KAgain 0;
   KReturn 2 1 q [] (CConnecting REFUSED)].

Lemma no_server dbg zt q : conn_send dbg zt [] cconn_new q = (CConnecting REFUSED, [], cconn_new).
Proof. reflexivity. Qed.

Definition st_ (l0 l1 : lock) (a b c : thr) : kstate := mk_kstate [cconn_new; cconn_new] [l0; l1] [a; b; c].

Lemma some_available l0 l1 a b c : kinv (st_ l0 l1 a b c) -> (l0 = Free \/ l1 = Free) -> exists i, available (st_ l0 l1 a b c) i.
Proof. intros I [->| ->]; [exists 0|exists 1]; apply available_free; auto. Qed.

Lemma one_round dbg zt q : kinv (st_ Free Free (Scan q 0) Out Out) ->
  kpath dbg zt (fun st => exists i, available st i) (st_ Free Free (Scan q 0) Out Out) (one_turn q) (st_ Free Free (Scan q 0) Out Out).
Proof.
  intros I.
  assert (R : kpath dbg zt (fun st => exists i, available st i) (st_ Free Free (Scan q 0) Out Out) [] (st_ Free Free (Scan q 0) Out Out)).
  { constructor. apply some_available; auto. }
  assert (Step : forall ls l l0 l1 a b c l0' l1' a' b' c', kinv (st_ l0 l1 a b c) ->
    kpath dbg zt (fun st => exists i, available st i) (st_ Free Free (Scan q 0) Out Out) ls (st_ l0 l1 a b c) ->
    kstep dbg zt (st_ l0 l1 a b c) l (st_ l0' l1' a' b' c') -> (l0' = Free \/ l1' = Free) ->
    kpath dbg zt (fun st => exists i, available st i) (st_ Free Free (Scan q 0) Out Out) (ls ++ [l]) (st_ l0' l1' a' b' c') /\ kinv (st_ l0' l1' a' b' c')).
  { intros ls l l0 l1 a b c l0' l1' a' b' c' I0 P S F. assert (I1 : kinv (st_ l0' l1' a' b' c')) by (eapply kinv_step; eauto). split; auto.
    econstructor; eauto. now apply some_available. }
  destruct (Step _ (KCall 1 q) _ _ _ _ _ Free Free (Scan q 0) (Scan q 0) Out I R) as [R1 I1]; [exact (ks_call dbg zt (st_ _ _ _ _ _) 1 q eq_refl)|auto|].
  destruct (Step _ (KTake 1 0) _ _ _ _ _ Held Free (Scan q 0) (Use q 0 cconn_new) Out I1 R1) as [R2 I2]; [exact (ks_take dbg zt (st_ _ _ _ _ _) 1 q 0 cconn_new eq_refl eq_refl eq_refl)|auto|].
  destruct (Step _ (KCall 2 q) _ _ _ _ _ Held Free (Scan q 0) (Use q 0 cconn_new) (Scan q 0) I2 R2) as [R3 I3]; [exact (ks_call dbg zt (st_ _ _ _ _ _) 2 q eq_refl)|auto|].
  assert (HF : Held <> Free) by discriminate.
  destruct (Step _ (KSkip 2 0) _ _ _ _ _ Held Free (Scan q 0) (Use q 0 cconn_new) (Scan q 1) I3 R3) as [R4 I4]; [exact (ks_skip dbg zt (st_ _ _ _ _ _) 2 q 0 Held eq_refl eq_refl HF)|auto|].
  destruct (Step _ (KSkip 0 0) _ _ _ _ _ Held Free (Scan q 1) (Use q 0 cconn_new) (Scan q 1) I4 R4) as [R5 I5]; [exact (ks_skip dbg zt (st_ _ _ _ _ _) 0 q 0 Held eq_refl eq_refl HF)|auto|].
  assert (NP : CConnecting REFUSED <> CPanic) by discriminate.
  destruct (Step _ (KReturn 1 0 q [] (CConnecting REFUSED)) _ _ _ _ _ Free Free (Scan q 1) Out (Scan q 1) I5 R5) as [R6 I6];
    [exact (ks_return dbg zt (st_ _ _ _ _ _) 1 q 0 cconn_new [] _ _ _ eq_refl (no_server dbg zt q) NP)|auto|].
  destruct (Step _ (KTake 2 1) _ _ _ _ _ Free Held (Scan q 1) Out (Use q 1 cconn_new) I6 R6) as [R7 I7]; [exact (ks_take dbg zt (st_ _ _ _ _ _) 2 q 1 cconn_new eq_refl eq_refl eq_refl)|auto|].
  destruct (Step _ (KSkip 0 1) _ _ _ _ _ Free Held (Scan q 2) Out (Use q 1 cconn_new) I7 R7) as [R8 I8]; [exact (ks_skip dbg zt (st_ _ _ _ _ _) 0 q 1 Held eq_refl eq_refl HF)|auto|].
  destruct (Step _ (KAgain 0) _ _ _ _ _ Free Held (Scan q 0) Out (Use q 1 cconn_new) I8 R8) as [R9 I9]; [exact (ks_again dbg zt (st_ _ _ _ _ _) 0 q 2 eq_refl eq_refl)|auto|].
  destruct (Step _ (KReturn 2 1 q [] (CConnecting REFUSED)) _ _ _ _ _ Free Free (Scan q 0) Out Out I9 R9) as [R10 I10];
    [exact (ks_return dbg zt (st_ _ _ _ _ _) 2 q 1 cconn_new [] _ _ _ eq_refl (no_server dbg zt q) NP)|auto|].
  exact R10.
Qed.

Theorem C44_waits_only_while_all_busy_refuted : forall dbg zt q k, exists ls st,
  kpath dbg zt (fun st => exists i, available st i) (k_init 2 3) (KCall 0 q :: ls) st /\ scans 0 ls = k /\
  (forall i, ~ In (KTake 0 i) ls) /\ at_ st 0 (Scan q 0).
Proof.
  intros dbg zt q k. assert (I0 : kinv (k_init 2 3)) by apply kinv_init.
  assert (S0 : kstep dbg zt (k_init 2 3) (KCall 0 q) (st_ Free Free (Scan q 0) Out Out)) by exact (ks_call dbg zt (k_init 2 3) 0 q eq_refl).
  assert (I1 : kinv (st_ Free Free (Scan q 0) Out Out)) by (eapply kinv_step; eauto).
  assert (K : exists ls, kpath dbg zt (fun st => exists i, available st i) (st_ Free Free (Scan q 0) Out Out) ls (st_ Free Free (Scan q 0) Out Out) /\
    scans 0 ls = k /\ forall i, ~ In (KTake 0 i) ls).
  { induction k as [|k (ls & P & Sc & N)].
    - exists []. split; [constructor; apply some_available; auto|]. split; auto.
    - exists (one_turn q ++ ls). split; [eapply kpath_app; [apply one_round; auto|exact P]|]. split.
      + unfold scans in *. rewrite filter_app, app_length, Sc. reflexivity.
      + intros i X. apply in_app_or in X as [X|X]; [|eapply N; eauto]. cbn in X. intuition discriminate. }
  destruct K as (ls & P & Sc & N). exists ls, (st_ Free Free (Scan q 0) Out Out). split; [|split; [|split]]; auto; [|reflexivity].
  change (KCall 0 q :: ls) with (([] ++ [KCall 0 q]) ++ ls). eapply kpath_app; [|exact P]. econstructor; [constructor|exact S0|].
  - exists 0. apply available_free; auto.
  - apply some_available; auto.
Qed.

(** ** C65 *)

(** A connection on which a send panicked is never used again. *)
Theorem C65_lost_for_good : forall dbg zt size threads ls0 st ls st' i, krun dbg zt (k_init size threads) ls0 st -> broken st i ->
  krun dbg zt st ls st' -> broken st' i /\ ~ available st' i /\ forall t, ~ In (KTake t i) ls.
Proof.
  intros dbg zt size threads ls0 st ls st' i R B P. assert (I : kinv st) by (eapply kinv_path; eauto; apply kinv_init).
  assert (B' : broken st' i) by (eapply broken_run; eauto). split; auto. split; [intros (_ & _ & N); auto|].
  intros t. revert I B. clear R B'. unfold krun in P. induction P as [st _|st ls st1 l st2 P IH S _]; intros I B X; [destruct X|].
  apply in_app_or in X as [X|[X|[]]]; [eapply IH; eauto|]. subst l. inversion S; subst. assert (K : broken st1 i) by (eapply broken_run; eauto).
  unfold broken in K. congruence.
Qed.

(** When that has happened to all, no send ever returns: a thread in it stays in it, in all continuations. *)
Theorem C65_all_lost : forall dbg zt size threads ls0 st ls st', krun dbg zt (k_init size threads) ls0 st ->
  (forall i, i < List.length (k_conns st) -> broken st i) -> krun dbg zt st ls st' ->
  (forall t i, ~ In (KTake t i) ls) /\ (forall t q i, at_ st t (Scan q i) -> exists j, at_ st' t (Scan q j)).
Proof.
  intros dbg zt size threads ls0 st ls st' R B P. assert (I : kinv st) by (eapply kinv_path; eauto; apply kinv_init).
  destruct (all_broken dbg zt st ls st' I B P) as (_ & H). exact H.
Qed.

Lemma set_app {A} (l r : list A) x y : set_nth (List.length l) x (l ++ y :: r) = l ++ x :: r.
Proof. induction l as [|z l IH]; cbn; [reflexivity|now rewrite IH]. Qed.
Lemma nth_app_mid {A} (l r : list A) y : nth_error (l ++ y :: r) (List.length l) = Some y.
Proof. rewrite nth_error_app2, Nat.sub_diag by auto. reflexivity. Qed.
Lemma nth_repeat {A} (x : A) n i : i < n -> nth_error (repeat x n) i = Some x.
Proof. revert i. induction n as [|n IH]; intros [|i] H; cbn; auto; try lia. apply IH. lia. Qed.
Lemma set_repeat {A} (x : A) n i : set_nth i x (repeat x n) = repeat x n.
Proof. revert i. induction n as [|n IH]; intros [|i]; cbn; auto. now rewrite IH. Qed.

(** This happens: with a time-out of zero, after as many sends as there are connections. *)
Theorem C65_zero_timeout_loses_all : forall dbg (q : request) (s : cstream) size, exists ls st, krun dbg true (k_init size 1) ls st /\
  Forall (fun l => match l with KCall _ q' => q' = q | _ => True end) ls /\
  List.length (filter (fun l => match l with KCall _ _ => true | _ => false end) ls) = size /\ List.length (k_conns st) = size /\
  forall i, i < List.length (k_conns st) -> broken st i.
Proof.
  intros dbg q s size.
  assert (K : forall m, m <= size -> exists ls, krun dbg true (k_init size 1) ls (mk_kstate (repeat cconn_new size) (repeat Broken m ++ repeat Free (size - m)) [Out]) /\
    List.length (filter (fun l => match l with KCall _ _ => true | _ => false end) ls) = m /\ Forall (fun l => match l with KCall _ q' => q' = q | _ => True end) ls).
  { induction m as [|m IH]; intros Hm.
    - exists []. cbn [repeat app]. rewrite Nat.sub_0_r. split; [constructor; exact I|]. split; [reflexivity|constructor].
    - destruct IH as (ls & P & C & Q); [lia|]. replace (size - m) with (S (size - S m)) in P by lia. cbn [repeat] in P.
      assert (Sk : forall j, j <= m -> exists l, krun dbg true (k_init size 1) (ls ++ l) (mk_kstate (repeat cconn_new size) (repeat Broken m ++ Free :: repeat Free (size - S m)) [Scan q j]) /\
        List.length (filter (fun l => match l with KCall _ _ => true | _ => false end) l) = 1 /\ Forall (fun l => match l with KCall _ q' => q' = q | _ => True end) l).
      { induction j as [|j IHj]; intros Hj.
        - exists [KCall 0 q]. split; [|split; [reflexivity|repeat constructor]]. econstructor; [exact P| |exact I]. exact (ks_call dbg true (mk_kstate _ _ [Out]) 0 q eq_refl).
        - destruct IHj as (l & Pj & Cj & Qj); [lia|]. exists (l ++ [KSkip 0 j]). split; [|split; [|apply Forall_app; split; auto]].
          + rewrite app_assoc. econstructor; [exact Pj| |exact I]. refine (ks_skip dbg true (mk_kstate _ _ [Scan q j]) 0 q j Broken eq_refl _ _); [|discriminate].
            cbn. rewrite nth_error_app1 by (rewrite repeat_length; lia). apply nth_repeat. lia.
          + rewrite filter_app, app_length, Cj. reflexivity. }
      destruct (Sk m (le_n _)) as (l & Pm & Cm & Qm).
      assert (N : nth_error (repeat Broken m ++ Free :: repeat Free (size - S m)) m = Some Free).
      { pose proof (nth_app_mid (repeat Broken m) (repeat Free (size - S m)) Free) as X. now rewrite repeat_length in X. }
      pose proof (ks_take dbg true (mk_kstate (repeat cconn_new size) (repeat Broken m ++ Free :: repeat Free (size - S m)) [Scan q m]) 0 q m cconn_new eq_refl N (nth_repeat cconn_new size m Hm)) as T.
      pose proof (ks_panic dbg true (mk_kstate (repeat cconn_new size) (set_nth m Held (repeat Broken m ++ Free :: repeat Free (size - S m))) [Use q m cconn_new])
        0 q m cconn_new [inr s] [] cconn_new eq_refl (C63_zero_timeout_panics dbg q cconn_new s [] [] eq_refl (or_introl eq_refl))) as X.
      cbn [k_conns k_locks k_threads to_ set_nth] in T, X.
      exists (((ls ++ l) ++ [KTake 0 m]) ++ [KReturn 0 m q [inr s] CPanic]). split; [|split; [|repeat (apply Forall_app; split; auto)]].
      + econstructor; [econstructor; [exact Pm|exact T|exact I]| |exact I].
        assert (Y : forall b, set_nth m b (set_nth m Held (repeat Broken m ++ Free :: repeat Free (size - S m))) = repeat Broken m ++ b :: repeat Free (size - S m)).
        { intros b. pose proof (set_app (repeat Broken m) (repeat Free (size - S m)) Held Free) as Y1. pose proof (set_app (repeat Broken m) (repeat Free (size - S m)) b Held) as Y2.
          rewrite repeat_length in Y1, Y2. now rewrite Y1, Y2. }
        rewrite Y, set_repeat in X. replace (repeat Broken (S m) ++ repeat Free (size - S m)) with (repeat Broken m ++ Broken :: repeat Free (size - S m)); [exact X|].
        replace (S m) with (m + 1) at 2 by lia. rewrite repeat_app, <- app_assoc. reflexivity.
      + rewrite !filter_app, !app_length, C, Cm. cbn. lia. }
  destruct (K size (le_n _)) as (ls & P & C & Q). rewrite Nat.sub_diag, app_nil_r in P. exists ls. eexists. split; [exact P|]. split; auto. split; auto. cbn [k_conns]. rewrite repeat_length. split; auto.
  intros i Hi. unfold broken. cbn. now apply nth_repeat.
Qed.

(** ** The hypotheses are met *)

(** Two threads at once, on two connections; a third waits. *)
Example C44_case : exists ls st, krun true false (k_init 2 3) ls st /\ uses st 0 0 /\ uses st 1 1 /\ at_ st 2 (Scan example_request 2).
Proof.
  set (q := example_request). clearbody q.
  assert (P : krun true false (k_init 2 3) [] (st_ Free Free Out Out Out)) by (constructor; exact I).
  assert (HF : Held <> Free) by discriminate.
  assert (P1 := kp_step _ _ _ _ _ _ _ _ P (ks_call _ _ (st_ _ _ _ _ _) 0 q eq_refl) I). cbn in P1.
  assert (P2 := kp_step _ _ _ _ _ _ _ _ P1 (ks_take _ _ (st_ _ _ _ _ _) 0 q 0 cconn_new eq_refl eq_refl eq_refl) I). cbn in P2.
  assert (P3 := kp_step _ _ _ _ _ _ _ _ P2 (ks_call _ _ (st_ _ _ _ _ _) 1 q eq_refl) I). cbn in P3.
  assert (P4 := kp_step _ _ _ _ _ _ _ _ P3 (ks_skip _ _ (st_ _ _ _ _ _) 1 q 0 Held eq_refl eq_refl HF) I). cbn in P4.
  assert (P5 := kp_step _ _ _ _ _ _ _ _ P4 (ks_take _ _ (st_ _ _ _ _ _) 1 q 1 cconn_new eq_refl eq_refl eq_refl) I). cbn in P5.
  assert (P6 := kp_step _ _ _ _ _ _ _ _ P5 (ks_call _ _ (st_ _ _ _ _ _) 2 q eq_refl) I). cbn in P6.
  assert (P7 := kp_step _ _ _ _ _ _ _ _ P6 (ks_skip _ _ (st_ _ _ _ _ _) 2 q 0 Held eq_refl eq_refl HF) I). cbn in P7.
  assert (P8 := kp_step _ _ _ _ _ _ _ _ P7 (ks_skip _ _ (st_ _ _ _ _ _) 2 q 1 Held eq_refl eq_refl HF) I). cbn in P8.
  eexists. eexists. split; [exact P8|]. split; [eexists; eexists; reflexivity|]. split; [eexists; eexists; reflexivity|reflexivity].
Qed.

Print Assumptions C44_one_user.
Print Assumptions C44_sequential.
Print Assumptions C44_waits_only_for_busy.
Print Assumptions C44_gets_one.
Print Assumptions C44_waits_only_while_all_busy_refuted.
Print Assumptions C65_lost_for_good.
Print Assumptions C65_all_lost.
Print Assumptions C65_zero_timeout_loses_all.
