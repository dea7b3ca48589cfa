(** Threads sharing a client. *)
From Coq Require Import List Arith Bool Lia.
From Verif.Model Require Import Bytes Io Common Parse Encode Writer Client Slab Locks.
From Verif.Spec Require Import Sharing.
From Verif.Proofs Require Import SlabFacts.
Import ListNotations.

Lemma nth_set_same {A} n (x : A) l y : nth_error l n = Some y -> nth_error (set_nth n x l) n = Some x.
Proof.
  intros H. rewrite nth_set_nth, Nat.eqb_refl. assert (n < List.length l) by (apply nth_error_Some; congruence).
  apply Nat.ltb_lt in H0. now rewrite H0.
Qed.
Lemma nth_set_other {A} n (x : A) l k : n <> k -> nth_error (set_nth n x l) k = nth_error l k.
Proof. intros H. rewrite nth_set_nth. apply Nat.eqb_neq in H. now rewrite H. Qed.
Lemma nth_set_inv {A} n (x : A) l k y : nth_error (set_nth n x l) k = Some y -> (n = k /\ y = x) \/ (n <> k /\ nth_error l k = Some y).
Proof.
  destruct (Nat.eq_dec n k) as [->|D].
  - rewrite nth_set_nth, Nat.eqb_refl. destruct (k <? List.length l) eqn:E; cbn [andb].
    + intros H. inversion H. auto.
    + intros H. apply Nat.ltb_ge in E. apply nth_error_None in E. congruence.
  - rewrite nth_set_other by auto. auto.
Qed.

Record kinv (st : kstate) : Prop := {
  ki_len : List.length (k_conns st) = List.length (k_locks st);
  ki_use : forall t q i c, at_ st t (Use q i c) -> nth_error (k_locks st) i = Some Held /\ nth_error (k_conns st) i = Some c;
  ki_one : forall t1 t2 q1 q2 i c1 c2, at_ st t1 (Use q1 i c1) -> at_ st t2 (Use q2 i c2) -> t1 = t2;
  ki_held : forall i, nth_error (k_locks st) i = Some Held -> in_use st i }.

Lemma kinv_init n m : kinv (k_init n m).
Proof.
  assert (X : forall t x, at_ (k_init n m) t x -> x = Out) by (intros t x H; unfold at_ in H; cbn in H; apply nth_error_In, repeat_spec in H; auto).
  constructor; cbn [k_init k_conns k_locks k_threads].
  - now rewrite !repeat_length.
  - intros t q i c H. apply X in H. discriminate.
  - intros t1 t2 q1 q2 i c1 c2 H. apply X in H. discriminate.
  - intros i H. apply nth_error_In, repeat_spec in H. discriminate.
Qed.

(** A step of t that is not taking or leaving a connection. *)
Lemma kinv_scan st t x y : kinv st -> at_ st t x -> (forall q i c, x <> Use q i c) -> (forall q i c, y <> Use q i c) ->
  kinv (mk_kstate (k_conns st) (k_locks st) (to_ st t y)).
Proof.
  intros [H1 H2 H3 H4] A Nx Ny.
  assert (B : forall t' q i c, at_ (mk_kstate (k_conns st) (k_locks st) (to_ st t y)) t' (Use q i c) -> at_ st t' (Use q i c)).
  { intros t' q i c H. unfold at_, to_ in H. cbn in H. apply nth_set_inv in H as [[_ H]|[_ H]]; auto. exfalso. eapply Ny. eauto. }
  constructor; cbn [k_conns k_locks k_threads]; auto.
  - intros t' q i c H. apply B in H. eauto.
  - intros t1 t2 q1 q2 i c1 c2 K1 K2. apply B in K1, K2. eauto.
  - intros i H. destruct (H4 i H) as (t' & q & c & U). exists t', q, c. cbn. unfold to_. destruct (Nat.eq_dec t t') as [->|D].
    + exfalso. unfold at_ in A. rewrite U in A. inversion A. eapply Nx. eauto.
    + now rewrite nth_set_other.
Qed.

Lemma kinv_step dbg zt st l st' : kinv st -> kstep dbg zt st l st' -> kinv st'.
Proof.
  intros I S. inversion S; subst.
  - apply (kinv_scan st t Out); auto; discriminate.
  - apply (kinv_scan st t (Scan q i)); auto; discriminate.
  - apply (kinv_scan st t (Scan q i)); auto; discriminate.
  - destruct I as [H2 H3 H4 H5]. unfold at_ in *. constructor; cbn [k_conns k_locks k_threads]; unfold at_, to_; cbn [k_threads].
    + now rewrite set_nth_length.
    + intros t' q' i' c' K. apply nth_set_inv in K as [[-> K]|[D K]].
      * inversion K; subst. split; auto. eapply nth_set_same; eauto.
      * destruct (H3 _ _ _ _ K) as [L C]. split; auto. destruct (Nat.eq_dec i i') as [->|E]; [congruence|]. now rewrite nth_set_other.
    + intros t1 t2 q1 q2 j c1 c2 K1 K2. apply nth_set_inv in K1 as [[E1 K1]|[D1 K1]]; apply nth_set_inv in K2 as [[E2 K2]|[D2 K2]]; subst; auto.
      * inversion K1; subst. destruct (H3 _ _ _ _ K2). congruence.
      * inversion K2; subst. destruct (H3 _ _ _ _ K1). congruence.
      * eauto.
    + intros j K. apply nth_set_inv in K as [[-> _]|[D K]].
      * exists t, q, c. cbn. eapply nth_set_same; eauto.
      * destruct (H5 j K) as (t' & q' & c' & U). exists t', q', c'. cbn. destruct (Nat.eq_dec t t') as [->|E]; [congruence|]. now rewrite nth_set_other.
  - destruct I as [H2 H3 H4 H5]. unfold at_ in *. destruct (H3 _ _ _ _ H) as [L C]. constructor; cbn [k_conns k_locks k_threads]; unfold at_, to_; cbn [k_threads].
    + now rewrite !set_nth_length.
    + intros t' q' i' c2 K. apply nth_set_inv in K as [[-> K]|[D K]]; [discriminate|].
      assert (E : i <> i') by (intros ->; apply D; eauto). rewrite !nth_set_other by auto. eauto.
    + intros t1 t2 q1 q2 j c1 c2 K1 K2. apply nth_set_inv in K1 as [[E1 K1]|[D1 K1]]; [discriminate|]. apply nth_set_inv in K2 as [[E2 K2]|[D2 K2]]; [discriminate|]. eauto.
    + intros j K. apply nth_set_inv in K as [[_ K]|[D K]]; [discriminate|].
      destruct (H5 j K) as (t' & q' & c2 & U). exists t', q', c2. cbn. destruct (Nat.eq_dec t t') as [->|E]; [congruence|]. now rewrite nth_set_other.
  - destruct I as [H2 H3 H4 H5]. unfold at_ in *. destruct (H3 _ _ _ _ H) as [L C]. constructor; cbn [k_conns k_locks k_threads]; unfold at_, to_; cbn [k_threads].
    + now rewrite !set_nth_length.
    + intros t' q' i' c2 K. apply nth_set_inv in K as [[-> K]|[D K]]; [discriminate|].
      assert (E : i <> i') by (intros ->; apply D; eauto). rewrite !nth_set_other by auto. eauto.
    + intros t1 t2 q1 q2 j c1 c2 K1 K2. apply nth_set_inv in K1 as [[E1 K1]|[D1 K1]]; [discriminate|]. apply nth_set_inv in K2 as [[E2 K2]|[D2 K2]]; [discriminate|]. eauto.
    + intros j K. apply nth_set_inv in K as [[_ K]|[D K]]; [discriminate|].
      destruct (H5 j K) as (t' & q' & c2 & U). exists t', q', c2. cbn. destruct (Nat.eq_dec t t') as [->|E]; [congruence|]. now rewrite nth_set_other.
Qed.

Lemma kinv_path dbg zt P st ls st' : kinv st -> kpath dbg zt P st ls st' -> kinv st'.
Proof. intros I H. revert I. induction H; intros I; eauto using kinv_step. Qed.

Lemma kpath_app dbg zt P a l1 b l2 c : kpath dbg zt P a l1 b -> kpath dbg zt P b l2 c -> kpath dbg zt P a (l1 ++ l2) c.
Proof. intros H1 H2. induction H2; [now rewrite app_nil_r|]. rewrite app_assoc. econstructor; eauto. Qed.
Lemma kpath_first dbg zt P st ls st' : kpath dbg zt P st ls st' -> P st.
Proof. induction 1; auto. Qed.
Lemma sequence_snoc dbg zt c l c1 q n r n' c2 : sequence dbg zt c l c1 -> conn_send dbg zt n c1 q = (r, n', c2) -> sequence dbg zt c (l ++ [(q, n, r)]) c2.
Proof. induction 1; intros E; cbn; econstructor; eauto. constructor. Qed.

Lemma history_app i a b : history i (a ++ b) = history i a ++ history i b.
Proof. apply flat_map_app. Qed.

(** Each connection sees a sequence of sends. *)
Lemma sequential dbg zt size threads ls st : krun dbg zt (k_init size threads) ls st ->
  forall i c, nth_error (k_conns st) i = Some c -> sequence dbg zt cconn_new (history i ls) c /\
    (~ broken st i -> forall q n, ~ In (q, n, CPanic) (history i ls)) /\
    (forall a q n b, history i ls = a ++ (q, n, CPanic) :: b -> b = []).
Proof.
  unfold krun. remember (k_init size threads) as st0 eqn:E0. induction 1 as [st _|st ls st1 l st2 H IH S _]; subst.
  - intros i c K. cbn in K. apply nth_error_In, repeat_spec in K. subst. split; [constructor|]. split; [intros _ q n []|]. intros [|? ?] ? ? ? X; discriminate X.
  - specialize (IH eq_refl). assert (I : kinv st1) by (eapply kinv_path; [apply kinv_init|exact H]).
    assert (Same : forall i, of_conn i l = [] -> k_conns st2 = k_conns st1 -> (broken st1 i -> broken st2 i) ->
      forall c, nth_error (k_conns st2) i = Some c -> sequence dbg zt cconn_new (history i (ls ++ [l])) c /\
        (~ broken st2 i -> forall q n, ~ In (q, n, CPanic) (history i (ls ++ [l]))) /\
        (forall a q n b, history i (ls ++ [l]) = a ++ (q, n, CPanic) :: b -> b = [])).
    { intros i Hn E B c K. rewrite history_app. cbn [history flat_map]. rewrite Hn, !app_nil_r. rewrite E in K. destruct (IH i c K) as (A1 & A2 & A3). split; [exact A1|]. split; [|exact A3]. intros Nb. apply A2. auto. }
    assert (Ret : forall t q i0 c0 n r n' c' lk, at_ st1 t (Use q i0 c0) -> conn_send dbg zt n c0 q = (r, n', c') ->
      l = KReturn t i0 q n r -> st2 = mk_kstate (set_nth i0 c' (k_conns st1)) (set_nth i0 lk (k_locks st1)) (to_ st1 t Out) ->
      (r = CPanic -> lk = Broken) ->
      forall i c, nth_error (k_conns st2) i = Some c -> sequence dbg zt cconn_new (history i (ls ++ [l])) c /\
        (~ broken st2 i -> forall q n, ~ In (q, n, CPanic) (history i (ls ++ [l]))) /\
        (forall a q n b, history i (ls ++ [l]) = a ++ (q, n, CPanic) :: b -> b = [])).
    { intros t q i0 c0 n r n' c' lk A E -> -> B i c K. rewrite history_app. cbn [history flat_map of_conn]. rewrite app_nil_r.
      destruct (ki_use _ I _ _ _ _ A) as [L C]. cbn [k_conns] in K. apply nth_set_inv in K as [[<- ->]|[D K]].
      - rewrite Nat.eqb_refl. destruct (IH i0 c0 C) as (A1 & A2 & _). assert (NB : ~ broken st1 i0) by (unfold broken; congruence).
        specialize (A2 NB). split; [eapply sequence_snoc; eauto|]. split.
        + intros Nb q1 n1 X. apply in_app_or in X as [X|[X|[]]]; [eapply A2; eauto|]. inversion X; subst. apply Nb. unfold broken. cbn. rewrite (B eq_refl). eapply nth_set_same; eauto.
        + intros a q1 n1 b X. destruct b as [|y b] using rev_ind; auto. exfalso. clear IHb. rewrite app_comm_cons, app_assoc in X. apply app_inj_tail in X as [X _].
          eapply (A2 q1 n1). rewrite X. apply in_or_app. right. left. reflexivity.
      - apply not_eq_sym in D. apply Nat.eqb_neq in D as D'. rewrite D', app_nil_r. destruct (IH i c K) as (A1 & A2 & A3). split; auto. split; auto.
        intros Nb. apply A2. intros X. apply Nb. unfold broken in *. cbn. rewrite nth_set_other; auto. }
    inversion S; subst; try (intros; apply Same; auto; fail).
    + intros j c2 K. apply Same; auto. unfold broken. cbn. intros X. destruct (Nat.eq_dec i j) as [->|E]; [congruence|]. now rewrite nth_set_other.
    + eapply Ret; eauto. intros ->. contradiction.
    + eapply Ret; eauto.
Qed.

Lemma available_free st i : kinv st -> (available st i <-> nth_error (k_locks st) i = Some Free).
Proof.
  intros I. unfold available, broken. split.
  - intros (L & U & B). rewrite (ki_len _ I) in L. apply nth_error_Some in L. destruct (nth_error (k_locks st) i) as [[]|] eqn:E; try congruence.
    exfalso. apply U. now apply (ki_held _ I).
  - intros E. split; [rewrite (ki_len _ I); apply nth_error_Some; congruence|]. split; [|congruence].
    intros (t & q & c & U). destruct (ki_use _ I t q i c U). congruence.
Qed.

(** A thread that has come to connection j has found all before it not available. *)
Lemma scanned dbg zt A q t ls B : kinv A -> at_ A t (Scan q 0) -> krun dbg zt A ls B -> forall q' j, at_ B t (Scan q' j) ->
  forall i, i < j -> exists l1 l2 M, ls = l1 ++ KSkip t i :: l2 /\ krun dbg zt A l1 M /\ ~ available M i.
Proof.
  intros I A0 H. revert A0 I. unfold krun in *. induction H as [st _|st ls st1 l st2 H IH S _]; intros A0 I q' j At i Hi.
  - unfold at_ in *. rewrite A0 in At. inversion At; subst. lia.
  - assert (I1 : kinv st1) by (eapply kinv_path; eauto). specialize (IH A0 I).
    assert (Old : forall q1 j1, at_ st1 t (Scan q1 j1) -> i < j1 -> exists l1 l2 M, ls ++ [l] = l1 ++ KSkip t i :: l2 /\ kpath dbg zt (fun _ => True) st l1 M /\ ~ available M i).
    { intros q1 j1 K L. destruct (IH _ _ K _ L) as (l1 & l2 & M & E & P & N). exists l1, (l2 ++ [l]), M. split; auto. rewrite E, <- app_assoc. reflexivity. }
    inversion S; subst; unfold at_, to_ in At; cbn [k_threads] in At; apply nth_set_inv in At as [[E At]|[D At]]; try (eapply Old; eauto; fail);
      inversion At; subst; try lia.
    destruct (Nat.eq_dec i i0) as [->|D].
    + exists ls, [], st1. split; auto. split; auto. rewrite available_free by auto. congruence.
    + eapply Old; eauto. lia.
Qed.

(** A thread by itself. *)
Definition only (t : nat) (ls : list klabel) : Prop := Forall (fun l => actor l = t) ls.

Lemma scan_finds dbg zt q t : forall d st i, kinv st -> at_ st t (Scan q i) -> (exists j, i <= j /\ nth_error (k_locks st) j = Some Free) -> List.length (k_locks st) - i <= d ->
  exists ls st', krun dbg zt st ls st' /\ only t ls /\ List.length ls <= d /\ exists j, uses st' t j.
Proof.
  induction d as [|d IH]; intros st i I A (j & Hj & F) Hd.
  - exfalso. assert (j < List.length (k_locks st)) by (apply nth_error_Some; congruence). lia.
  - assert (Lj : j < List.length (k_locks st)) by (apply nth_error_Some; congruence).
    destruct (nth_error (k_locks st) i) as [l|] eqn:E; [|apply nth_error_None in E; lia].
    assert (l = Free \/ l <> Free) as [->|N] by (destruct l; auto; right; discriminate).
    + assert (exists c, nth_error (k_conns st) i = Some c) as [c C].
      { destruct (nth_error (k_conns st) i) eqn:X; eauto. apply nth_error_None in X. rewrite (ki_len _ I) in X. apply nth_error_None in X. congruence. }
      exists ([] ++ [KTake t i]). eexists. split; [econstructor; [constructor; exact Logic.I|eapply ks_take; eauto|exact Logic.I]|].
      split; [repeat constructor|]. split; [cbn; lia|]. exists i, q, c. cbn. eapply nth_set_same; eauto.
    + assert (St : kstep dbg zt st (KSkip t i) (mk_kstate (k_conns st) (k_locks st) (to_ st t (Scan q (S i))))) by (eapply ks_skip; eauto).
      destruct (IH _ (S i) (kinv_step _ _ _ _ _ I St)) as (ls & st' & P & O & L & U).
      * unfold at_, to_. cbn. eapply nth_set_same; eauto.
      * exists j. cbn. split; auto. destruct (Nat.eq_dec i j) as [->|]; [congruence|lia].
      * cbn. lia.
      * exists (([] ++ [KSkip t i]) ++ ls), st'. split; [|split; [|split; [|exact U]]].
        -- eapply kpath_app; [|exact P]. econstructor; [constructor; exact Logic.I|exact St|exact Logic.I].
        -- constructor; auto.
        -- cbn. lia.
Qed.

Lemma scan_misses dbg zt q t : forall d st i, kinv st -> at_ st t (Scan q i) -> (forall j, i <= j -> nth_error (k_locks st) j <> Some Free) -> List.length (k_locks st) - i = d ->
  exists ls st' i', krun dbg zt st ls st' /\ only t ls /\ List.length ls = d /\ k_locks st' = k_locks st /\ k_conns st' = k_conns st /\ at_ st' t (Scan q i') /\ nth_error (k_locks st') i' = None /\ kinv st'.
Proof.
  induction d as [|d IH]; intros st i I A N Hd.
  - exists [], st, i. split; [constructor; exact Logic.I|]. repeat (split; [solve [auto | constructor]|]). split; auto. apply nth_error_None. lia.
  - destruct (nth_error (k_locks st) i) as [l|] eqn:E; [|apply nth_error_None in E; lia].
    assert (St : kstep dbg zt st (KSkip t i) (mk_kstate (k_conns st) (k_locks st) (to_ st t (Scan q (S i))))).
    { eapply ks_skip; eauto. intros ->. eapply N; [|exact E]. lia. }
    destruct (IH _ (S i) (kinv_step _ _ _ _ _ I St)) as (ls & st' & i' & P & O & L & X).
    + unfold at_, to_. cbn. eapply nth_set_same; eauto.
    + cbn. intros j Hj. apply N. lia.
    + cbn. lia.
    + exists (([] ++ [KSkip t i]) ++ ls), st', i'. split; [|split; [|split]].
      * eapply kpath_app; [|exact P]. econstructor; [constructor; exact Logic.I|exact St|exact Logic.I].
      * constructor; auto.
      * cbn. lia.
      * exact X.
Qed.

Lemma alone dbg zt q t st i : kinv st -> at_ st t (Scan q i) -> (exists j, available st j) ->
  exists ls st', krun dbg zt st ls st' /\ only t ls /\ List.length ls <= 2 * List.length (k_conns st) + 1 /\ exists j, uses st' t j.
Proof.
  intros I A (j & F). apply available_free in F; auto. pose proof (ki_len _ I) as Hl.
  assert (D : (exists j, i <= j /\ nth_error (k_locks st) j = Some Free) \/ (forall j, i <= j -> nth_error (k_locks st) j <> Some Free)).
  { destruct (existsb (fun k => match nth_error (k_locks st) k with Some Free => true | _ => false end) (seq i (List.length (k_locks st)))) eqn:E.
    - apply existsb_exists in E as (k & K1 & K2). apply in_seq in K1. left. exists k. split; [lia|]. destruct (nth_error (k_locks st) k) as [[]|]; congruence.
    - right. intros k Hk X. assert (existsb (fun k => match nth_error (k_locks st) k with Some Free => true | _ => false end) (seq i (List.length (k_locks st))) = true); [|congruence].
      apply existsb_exists. exists k. rewrite X. split; auto. apply in_seq. assert (k < List.length (k_locks st)) by (apply nth_error_Some; congruence). lia. }
  destruct D as [D|D].
  - destruct (scan_finds dbg zt q t _ st i I A D (le_n _)) as (ls & st' & P & O & L & U). exists ls, st'. repeat (split; [solve [auto | lia]|]). auto.
  - destruct (scan_misses dbg zt q t _ st i I A D eq_refl) as (l1 & s1 & i' & P1 & O1 & L1 & K1 & K2 & A1 & N1 & I1).
    assert (St : kstep dbg zt s1 (KAgain t) (mk_kstate (k_conns s1) (k_locks s1) (to_ s1 t (Scan q 0)))) by (eapply ks_again; eauto).
    destruct (scan_finds dbg zt q t (List.length (k_locks st)) _ 0 (kinv_step _ _ _ _ _ I1 St)) as (l2 & s2 & P2 & O2 & L2 & U).
    + unfold at_, to_. cbn. eapply nth_set_same; eauto.
    + exists j. cbn. rewrite K1. split; [lia|auto].
    + cbn. rewrite K1. lia.
    + exists ((l1 ++ [KAgain t]) ++ l2), s2. split; [|split; [|split; [|exact U]]].
      * eapply kpath_app; [|exact P2]. econstructor; [exact P1|exact St|exact Logic.I].
      * apply Forall_app. split; [apply Forall_app; split; auto; repeat constructor|auto].
      * rewrite !app_length. cbn. lia.
Qed.

(** Poisoned mutexes. *)
Lemma broken_step dbg zt st l st' i : kinv st -> kstep dbg zt st l st' -> broken st i -> broken st' i.
Proof.
  intros I S B. unfold broken in *. inversion S; subst; cbn [k_locks]; auto.
  - destruct (Nat.eq_dec i0 i) as [->|D]; [congruence|]. now rewrite nth_set_other.
  - destruct (ki_use _ I _ _ _ _ H) as [L _]. destruct (Nat.eq_dec i0 i) as [->|D]; [congruence|]. now rewrite nth_set_other.
  - destruct (ki_use _ I _ _ _ _ H) as [L _]. destruct (Nat.eq_dec i0 i) as [->|D]; [congruence|]. now rewrite nth_set_other.
Qed.
Lemma broken_run dbg zt P st ls st' i : kinv st -> kpath dbg zt P st ls st' -> broken st i -> broken st' i.
Proof.
  intros I H. revert I. induction H; intros I B; auto. exact (broken_step _ _ _ _ _ _ (kinv_path _ _ _ _ _ _ I H) H0 (IHkpath I B)).
Qed.
Lemma length_step dbg zt st l st' : kstep dbg zt st l st' -> List.length (k_locks st') = List.length (k_locks st).
Proof. inversion 1; subst; cbn; rewrite ?set_nth_length; auto. Qed.

Lemma all_broken dbg zt st ls st' : kinv st -> (forall i, i < List.length (k_conns st) -> broken st i) -> krun dbg zt st ls st' ->
  (forall i, i < List.length (k_conns st') -> broken st' i) /\ (forall t i, ~ In (KTake t i) ls) /\
  (forall t q i, at_ st t (Scan q i) -> exists j, at_ st' t (Scan q j)).
Proof.
  intros I B H. revert I B. unfold krun in H. induction H as [st _|st ls st1 l st2 H IH S _]; intros I B.
  - split; auto. split; [intros t i []|eauto].
  - destruct (IH I B) as (B1 & N1 & A1). assert (I1 : kinv st1) by (eapply kinv_path; eauto). assert (I2 : kinv st2) by (eapply kinv_step; eauto).
    split; [|split].
    + intros i Hi. refine (broken_step _ _ _ _ _ _ I1 S (B1 i _)). rewrite (ki_len _ I2), (length_step _ _ _ _ _ S), <- (ki_len _ I1) in Hi. auto.
    + intros t i K. apply in_app_or in K as [K|[K|[]]]; [eapply N1; eauto|]. subst l. inversion S; subst.
      assert (broken st1 i) by (apply B1; apply nth_error_Some; congruence). unfold broken in *. congruence.
    + intros t q i K. destruct (A1 t q i K) as (j & J). unfold at_ in *. inversion S; subst; unfold at_, to_ in *; cbn [k_threads];
        (destruct (Nat.eq_dec t0 t) as [->|D]; [|rewrite nth_set_other by auto; eauto]); try congruence; rewrite J in H0; inversion H0; subst;
        try (erewrite nth_set_same by eauto; eauto).
      exfalso. assert (broken st1 i0) by (apply B1; apply nth_error_Some; congruence). unfold broken in *. congruence.
Qed.
