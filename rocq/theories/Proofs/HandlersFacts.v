(** Handler jobs. *)
From Coq Require Import List Bool Arith Lia.
From Verif.Model Require Import Slab Handlers.
From Verif.Proofs Require Import SlabFacts.
Import ListNotations.

Definition hb2n (b : bool) : nat := if b then 1 else 0.
Definition hcount (p : hworker -> bool) (l : list hworker) : nat := List.length (filter p l).

Lemma hcount_set p l : forall i w w', nth_error l i = Some w ->
  hcount p (set_nth i w' l) + hb2n (p w) = hcount p l + hb2n (p w').
Proof.
  unfold hcount. induction l as [|x l IH]; intros [|i] w w' H; cbn [nth_error] in H; try discriminate; cbn [set_nth filter].
  - inversion H; subst. destruct (p w), (p w'); cbn; lia.
  - specialize (IH i w w' H). destruct (p x); cbn [List.length]; lia.
Qed.

Lemma hcount_pos p l : existsb p l = true <-> 0 < hcount p l.
Proof.
  unfold hcount. induction l as [|x l IH]; cbn; [split; [discriminate|lia]|]. destruct (p x); cbn [orb List.length]; [split; auto; lia|auto].
Qed.

Lemma hcount_zero p l : existsb p l = false <-> hcount p l = 0.
Proof.
  split; intros H.
  - destruct (hcount p l) eqn:E; auto. assert (0 < hcount p l) as K by lia. apply hcount_pos in K. congruence.
  - destruct (existsb p l) eqn:E; auto. apply hcount_pos in E. lia.
Qed.

Lemma hcount_in p l i w : nth_error l i = Some w -> p w = true -> 0 < hcount p l.
Proof. intros N E. apply hcount_pos, existsb_exists. exists w. split; auto. eapply nth_error_In; eauto. Qed.

Lemma nth_set_same {A} i (x : A) l y : nth_error l i = Some y -> nth_error (set_nth i x l) i = Some x.
Proof.
  intros N. rewrite nth_set_nth, Nat.eqb_refl. assert (H : i < List.length l) by (apply nth_error_Some; congruence).
  apply Nat.ltb_lt in H. now rewrite H.
Qed.

Lemma nth_set_other {A} i j (x : A) l : i <> j -> nth_error (set_nth i x l) j = nth_error l j.
Proof. intros N. rewrite nth_set_nth. destruct (Nat.eqb_spec i j); [contradiction|reflexivity]. Qed.

(** Serving or about to: a worker that will still read from the socket. *)
Definition will_read (c : nat) (w : hworker) : bool :=
  match w with HWait d | HServe d => d =? c | _ => false end.

(** For one connection: at most one holder, none if the Option is full or the mutex poisoned; no unread bytes without
    something that leads to a read. *)
Definition conn_inv (st : hstate) (c : nat) (x : cstate) : Prop :=
  hcount (holds c) (h_workers st) + hb2n (c_full x) + hb2n (c_poisoned x) <= 1 /\
  (0 < c_unread x -> is_open c st = true -> c_event x = true \/ In c (h_queue st) \/ 0 < hcount (will_read c) (h_workers st)).
Definition hinv (st : hstate) : Prop := forall c x, nth_error (h_conns st) c = Some x -> conn_inv st c x.

Lemma hinv_init n size : hinv (h_init n size).
Proof.
  intros c x H. apply nth_error_In, repeat_spec in H. subst x. split; cbn [cs_new c_full c_poisoned c_unread hb2n]; [|lia].
  replace (hcount (holds c) (h_workers (h_init n size))) with 0; [lia|]. symmetry. apply hcount_zero. cbn [h_init h_workers].
  induction size; cbn; auto.
Qed.

Lemma is_open_spec c st : is_open c st = true <->
  (exists x, nth_error (h_conns st) c = Some x /\ c_full x = true) \/ 0 < hcount (holds c) (h_workers st).
Proof.
  unfold is_open, held. rewrite orb_true_iff, hcount_pos. destruct (nth_error (h_conns st) c) as [x|].
  - split; (intros [H|H]; [left|now right]); eauto. destruct H as (y & E & H). congruence.
  - split; (intros [H|H]; [|now right]); [discriminate|]. destruct H as (y & E & H). congruence.
Qed.

Lemma hinv_step st l st' : hinv st -> hstep st l st' -> hinv st'.
Proof.
  intros I S c' x' N'.
  destruct S as [st c x n N O Hn|st c x N|st c x N E A|st i c q W Q|st i c x W N H P F|st i c x W N H P F|st i c x W N H P|st i c x n W N Hn|st i c x W N U|st i c x W N|st i c x W N|st i c x W N];
    cbn [h_conns h_queue h_workers] in *; unfold upd, put in *.
  - (* arrive *) destruct (Nat.eq_dec c c') as [<-|Ne].
    + rewrite (nth_set_same _ _ _ _ N) in N'. inversion N'; subst x'. destruct (I _ _ N) as [I1 I2].
      split; cbn [c_full c_poisoned c_unread c_event h_workers h_queue]; auto.
    + rewrite nth_set_other in N' by assumption. destruct (I _ _ N') as [I1 I2]. split; auto. intros U O'. apply I2; auto.
      apply is_open_spec in O'. apply is_open_spec. cbn [h_conns h_workers] in O'. rewrite nth_set_other in O' by assumption. exact O'.
  - (* notify *) destruct (Nat.eq_dec c c') as [<-|Ne].
    + rewrite (nth_set_same _ _ _ _ N) in N'. inversion N'; subst x'. destruct (I _ _ N) as [I1 I2].
      split; cbn [c_full c_poisoned c_unread c_event h_workers h_queue]; auto.
    + rewrite nth_set_other in N' by assumption. destruct (I _ _ N') as [I1 I2]. split; auto. intros U O'. apply I2; auto.
      apply is_open_spec in O'. apply is_open_spec. cbn [h_conns h_workers] in O'. rewrite nth_set_other in O' by assumption. exact O'.
  - (* dispatch *) destruct (Nat.eq_dec c c') as [<-|Ne].
    + rewrite (nth_set_same _ _ _ _ N) in N'. inversion N'; subst x'. destruct (I _ _ N) as [I1 I2].
      split; cbn [c_full c_poisoned c_unread c_event h_workers h_queue]; auto. intros _ _. right. left. apply in_or_app. right. now left.
    + rewrite nth_set_other in N' by assumption. destruct (I _ _ N') as [I1 I2]. split; auto. intros U O'.
      cbn [h_queue h_workers]. destruct I2 as [K|[K|K]]; auto.
      * apply is_open_spec in O'. apply is_open_spec. cbn [h_conns h_workers] in O'. rewrite nth_set_other in O' by assumption. exact O'.
      * right. left. apply in_or_app. now left.
  - (* take *) destruct (I _ _ N') as [I1 I2].
    pose proof (hcount_set (holds c') _ _ _ (HWait c) W) as K1. cbn in K1.
    pose proof (hcount_set (will_read c') _ _ _ (HWait c) W) as K2. cbn [will_read hb2n] in K2.
    split; cbn [h_workers h_queue]; [lia|]. intros U O'. destruct I2 as [K|[K|K]]; auto.
    + apply is_open_spec in O'. apply is_open_spec. cbn [h_conns h_workers] in O'. destruct O' as [O'|O']; [now left|right; lia].
    + rewrite Q in K. destruct K as [->|K]; auto. rewrite Nat.eqb_refl in K2. cbn in K2. right. right. lia.
    + right. right. lia.
  - (* enter *)
    pose proof (hcount_set (holds c') _ _ _ (HServe c) W) as K1. cbn [holds hb2n] in K1.
    pose proof (hcount_set (will_read c') _ _ _ (HServe c) W) as K2. cbn [will_read] in K2.
    unfold held in H. apply hcount_zero in H. destruct (Nat.eq_dec c c') as [<-|Ne].
    + rewrite (nth_set_same _ _ _ _ N) in N'. inversion N'; subst x'. destruct (I _ _ N) as [I1 I2].
      rewrite Nat.eqb_refl in K1, K2. cbn in K1, K2. split; cbn [c_full c_poisoned c_unread c_event h_workers h_queue hb2n].
      * lia.
      * intros _ _. right. right. pose proof (hcount_in (will_read c) _ _ _ W) as K3. cbn in K3. rewrite Nat.eqb_refl in K3. specialize (K3 eq_refl). lia.
    + rewrite nth_set_other in N' by assumption. destruct (I _ _ N') as [I1 I2].
      replace (c =? c') with false in * by (symmetry; now apply Nat.eqb_neq). cbn [hb2n] in *.
      split; cbn [h_workers h_queue]; [lia|]. intros U O'. destruct I2 as [K|[K|K]]; auto; [|right; right; lia].
      apply is_open_spec in O'. apply is_open_spec. cbn [h_conns h_workers] in O'. rewrite nth_set_other in O' by assumption.
      destruct O' as [O'|O']; [now left|right; lia].
  - (* skip *) destruct (I _ _ N') as [I1 I2].
    pose proof (hcount_set (holds c') _ _ _ HFree W) as K1. cbn in K1.
    pose proof (hcount_set (will_read c') _ _ _ HFree W) as K2. cbn [will_read hb2n] in K2.
    unfold held in H. apply hcount_zero in H.
    split; cbn [h_workers h_queue]; [lia|]. intros U O'.
    apply is_open_spec in O'. cbn [h_conns h_workers] in O'. destruct (Nat.eqb_spec c c') as [->|Ne].
    + exfalso. destruct O' as [(y & E & F')|O']; [congruence|lia].
    + cbn in K2. destruct I2 as [K|[K|K]]; auto; [|right; right; lia].
      apply is_open_spec. destruct O' as [O'|O']; [now left|right; lia].
  - (* die *) destruct (I _ _ N') as [I1 I2].
    pose proof (hcount_set (holds c') _ _ _ HDead W) as K1. cbn in K1.
    pose proof (hcount_set (will_read c') _ _ _ HDead W) as K2. cbn [will_read hb2n] in K2.
    unfold held in H. apply hcount_zero in H.
    split; cbn [h_workers h_queue]; [lia|]. intros U O'.
    apply is_open_spec in O'. cbn [h_conns h_workers] in O'. destruct (Nat.eqb_spec c c') as [->|Ne].
    + exfalso. assert (x' = x) by congruence. subst x'. rewrite P in I1. cbn in I1. destruct O' as [(y & E & F')|O']; [|lia].
      assert (y = x) by congruence. subst y. rewrite F' in I1. cbn in I1. lia.
    + cbn in K2. destruct I2 as [K|[K|K]]; auto; [|right; right; lia].
      apply is_open_spec. destruct O' as [O'|O']; [now left|right; lia].
  - (* read *) destruct (Nat.eq_dec c c') as [<-|Ne].
    + rewrite (nth_set_same _ _ _ _ N) in N'. inversion N'; subst x'. destruct (I _ _ N) as [I1 I2].
      split; cbn [c_full c_poisoned c_unread c_event h_workers h_queue]; auto.
      intros _ _. right. right. eapply hcount_in; [exact W|]. cbn. apply Nat.eqb_refl.
    + rewrite nth_set_other in N' by assumption. destruct (I _ _ N') as [I1 I2]. split; auto. intros U O'. apply I2; auto.
      apply is_open_spec in O'. apply is_open_spec. cbn [h_conns h_workers] in O'. rewrite nth_set_other in O' by assumption. exact O'.
  - (* drain *) destruct (I _ _ N') as [I1 I2].
    pose proof (hcount_set (holds c') _ _ _ (HDrained c) W) as K1. cbn in K1.
    pose proof (hcount_set (will_read c') _ _ _ (HDrained c) W) as K2. cbn [will_read hb2n] in K2.
    split; cbn [h_workers h_queue]; [lia|]. intros U' O'.
    destruct (Nat.eqb_spec c c') as [->|Ne]; [exfalso; assert (x' = x) by congruence; subst; lia|].
    cbn in K2. destruct I2 as [K|[K|K]]; auto; [|right; right; lia].
    apply is_open_spec in O'. cbn [h_conns h_workers] in O'. apply is_open_spec. destruct O' as [O'|O']; [now left|right; lia].
  - (* keep *)
    pose proof (hcount_set (holds c') _ _ _ HFree W) as K1. cbn [holds hb2n] in K1.
    pose proof (hcount_set (will_read c') _ _ _ HFree W) as K2. cbn [will_read hb2n] in K2.
    destruct (Nat.eq_dec c c') as [<-|Ne].
    + rewrite (nth_set_same _ _ _ _ N) in N'. inversion N'; subst x'. destruct (I _ _ N) as [I1 I2].
      rewrite Nat.eqb_refl in K1. cbn [hb2n] in K1. split; cbn [c_full c_poisoned c_unread c_event h_workers h_queue hb2n]; [|].
      * destruct (c_full x), (c_poisoned x); cbn [hb2n] in *; lia.
      * intros U _. destruct I2 as [K|[K|K]]; auto; [|right; right; lia]. apply is_open_spec. right.
        eapply hcount_in; [exact W|]. cbn. apply Nat.eqb_refl.
    + rewrite nth_set_other in N' by assumption. destruct (I _ _ N') as [I1 I2].
      replace (c =? c') with false in * by (symmetry; now apply Nat.eqb_neq). cbn [hb2n] in *.
      split; cbn [h_workers h_queue]; [lia|]. intros U O'. destruct I2 as [K|[K|K]]; auto; [|right; right; lia].
      apply is_open_spec in O'. apply is_open_spec. cbn [h_conns h_workers] in O'. rewrite nth_set_other in O' by assumption.
      destruct O' as [O'|O']; [now left|right; lia].
  - (* close *) destruct (I _ _ N') as [I1 I2].
    pose proof (hcount_set (holds c') _ _ _ HFree W) as K1. cbn [holds hb2n] in K1.
    pose proof (hcount_set (will_read c') _ _ _ HFree W) as K2. cbn [will_read hb2n] in K2.
    split; cbn [h_workers h_queue]; [lia|]. intros U O'.
    apply is_open_spec in O'. cbn [h_conns h_workers] in O'. destruct (Nat.eqb_spec c c') as [->|Ne].
    + exfalso. pose proof (hcount_in (holds c') _ _ _ W) as K3. cbn in K3. rewrite Nat.eqb_refl in K3. specialize (K3 eq_refl). cbn [hb2n] in K1.
      assert (x' = x) by congruence. subst x'. destruct O' as [(y & E & F')|O']; [|lia].
      assert (y = x) by congruence. subst y. rewrite F' in I1. cbn in I1. lia.
    + cbn in K1, K2. destruct I2 as [K|[K|K]]; auto; [|right; right; lia].
      apply is_open_spec. destruct O' as [O'|O']; [now left|right; lia].
  - (* crash *)
    pose proof (hcount_set (holds c') _ _ _ HDead W) as K1. cbn [holds hb2n] in K1.
    pose proof (hcount_set (will_read c') _ _ _ HDead W) as K2. cbn [will_read hb2n] in K2.
    destruct (Nat.eq_dec c c') as [<-|Ne].
    + rewrite (nth_set_same _ _ _ _ N) in N'. inversion N'; subst x'. destruct (I _ _ N) as [I1 I2].
      rewrite Nat.eqb_refl in K1, K2. cbn [hb2n] in K1, K2.
      pose proof (hcount_in (holds c) _ _ _ W) as K3. cbn in K3. rewrite Nat.eqb_refl in K3. specialize (K3 eq_refl).
      split; cbn [c_full c_poisoned c_unread c_event h_workers h_queue hb2n].
      * destruct (c_full x), (c_poisoned x); cbn [hb2n] in *; lia.
      * intros U O'. exfalso. apply is_open_spec in O'. cbn [h_conns h_workers] in O'. rewrite (nth_set_same _ _ _ _ N) in O'.
        destruct O' as [(y & E & F')|O']; [|lia]. inversion E; subst y. cbn [c_full] in F'. rewrite F' in I1. cbn in I1. lia.
    + rewrite nth_set_other in N' by assumption. destruct (I _ _ N') as [I1 I2].
      replace (c =? c') with false in * by (symmetry; now apply Nat.eqb_neq). cbn [hb2n] in *.
      split; cbn [h_workers h_queue]; [lia|]. intros U O'. destruct I2 as [K|[K|K]]; auto; [|right; right; lia].
      apply is_open_spec in O'. apply is_open_spec. cbn [h_conns h_workers] in O'. rewrite nth_set_other in O' by assumption.
      destruct O' as [O'|O']; [now left|right; lia].
Qed.

Lemma hinv_run n size ls st : hrun (h_init n size) ls st -> hinv st.
Proof.
  intros R. remember (h_init n size) as i. induction R as [|st0 ls st1 l st2 R IH S]; subst; [apply hinv_init|].
  eapply hinv_step; eauto.
Qed.

(** ** Traces *)
From Verif.Spec Require Import Traces.

Definition hvalid (st : hstate) : Prop :=
  Forall (fun c => c < List.length (h_conns st)) (h_queue st) /\
  Forall (fun w => match w with HWait c | HServe c | HDrained c => c < List.length (h_conns st) | _ => True end) (h_workers st).

Lemma Forall_set {A} (P : A -> Prop) l : forall i x, P x -> Forall P l -> Forall P (set_nth i x l).
Proof.
  induction l as [|y l IH]; intros [|i] x Hx H; cbn [set_nth]; auto; inversion H; subst; constructor; auto.
Qed.
Lemma Forall_nth {A} (P : A -> Prop) l i x : Forall P l -> nth_error l i = Some x -> P x.
Proof. intros H N. rewrite Forall_forall in H. apply H. eapply nth_error_In; eauto. Qed.

Lemma hvalid_step st l st' : hvalid st -> hstep st l st' -> hvalid st'.
Proof.
  intros [V1 V2] S.
  destruct S as [st c x n N O Hn|st c x N|st c x N E A|st i c q W Q|st i c x W N H P F|st i c x W N H P F|st i c x W N H P|st i c x n W N Hn|st i c x W N U|st i c x W N|st i c x W N|st i c x W N];
    unfold hvalid, upd, put in *; cbn [h_conns h_queue h_workers] in *; rewrite ?set_nth_length;
    try (assert (L : c < List.length (h_conns st)) by (apply nth_error_Some; congruence));
    try (split; [exact V1|]); try exact V2; try (apply Forall_set; auto; fail); auto.
  - split; auto. apply Forall_app. split; auto.
  - rewrite Q in V1. inversion V1; subst. split; auto. apply Forall_set; auto.
Qed.

Lemma hvalid_run n size ls st : hrun (h_init n size) ls st -> hvalid st.
Proof.
  intros R. remember (h_init n size) as i. induction R as [|st0 ls st1 l st2 R IH S]; subst.
  - split; cbn; [constructor|]. apply Forall_forall. intros w H. apply repeat_spec in H. now subst w.
  - eapply hvalid_step; eauto.
Qed.

Lemma conns_length st l st' : hstep st l st' -> List.length (h_conns st') = List.length (h_conns st).
Proof. intros S. destruct S; unfold upd; cbn [h_conns]; rewrite ?set_nth_length; reflexivity. Qed.

(** The only holder. *)
Lemma hcount_unique p l i j w w' : hcount p l <= 1 -> nth_error l i = Some w -> p w = true ->
  nth_error l j = Some w' -> p w' = true -> i = j.
Proof.
  unfold hcount. revert i j. induction l as [|x l IH]; intros i j H Ni Pi Nj Pj; [destruct i; discriminate|].
  assert (Some0 : forall k y, nth_error l k = Some y -> p y = true -> 0 < List.length (filter p l)).
  { intros k y Nk Pk. destruct (filter p l) eqn:E; [|cbn; lia]. exfalso.
    assert (In y (filter p l)) as K by (apply filter_In; split; auto; eapply nth_error_In; eauto). rewrite E in K. contradiction. }
  cbn [filter] in H. destruct i as [|i], j as [|j]; auto; cbn [nth_error] in *.
  - inversion Ni; subst x. rewrite Pi in H. cbn in H. specialize (Some0 _ _ Nj Pj). lia.
  - inversion Nj; subst x. rewrite Pj in H. cbn in H. specialize (Some0 _ _ Ni Pi). lia.
  - f_equal. apply (IH i j); auto. destruct (p x); cbn in H; lia.
Qed.

(** The history of connection [c]: who is active, how many bytes are unread, whether it is open. *)
Definition traced (c : nat) (ls : list hlabel) (st : hstate) (x : cstate) : Prop :=
  (forall i, In i (active c ls) <-> exists w, nth_error (h_workers st) i = Some w /\ holds c w = true) /\
  (List.length (active c ls) <= 1) /\
  (arrived c ls = consumed c ls + c_unread x) /\
  (not_dropped c ls -> is_open c st = true).

Lemma length_filter_le {A} (p : A -> bool) l : List.length (filter p l) <= List.length l.
Proof. induction l as [|x l IH]; cbn; [lia|]. destruct (p x); cbn; lia. Qed.

Lemma workers_set {A} (l : list A) i w w' j : nth_error l i = Some w ->
  nth_error (set_nth i w' l) j = if i =? j then Some w' else nth_error l j.
Proof.
  intros N. destruct (Nat.eqb_spec i j) as [<-|Ne]; [eapply nth_set_same; eauto|now apply nth_set_other].
Qed.

Lemma not_dropped_tl c l ls : not_dropped c (l :: ls) -> not_dropped c ls.
Proof. intros H i. destruct (H i) as [H1 H2]. split; intros K; [apply H1|apply H2]; now right. Qed.

Lemma traced_step c ls st x l st' x' : hinv st -> traced c ls st x -> nth_error (h_conns st) c = Some x ->
  hstep st l st' -> nth_error (h_conns st') c = Some x' -> traced c (l :: ls) st' x'.
Proof.
  intros I (T1 & T2 & T3 & T4) N0 S N'. pose proof (I _ _ N0) as [I1 _].
  assert (Same : forall i w w', nth_error (h_workers st) i = Some w -> holds c w = false -> holds c w' = false ->
    (forall j, (exists y, nth_error (set_nth i w' (h_workers st)) j = Some y /\ holds c y = true) <->
               (exists y, nth_error (h_workers st) j = Some y /\ holds c y = true)) /\
    existsb (holds c) (set_nth i w' (h_workers st)) = existsb (holds c) (h_workers st)).
  { intros i w w' W H H'. split.
    - intros j. rewrite (workers_set _ _ _ _ _ W). destruct (Nat.eqb_spec i j) as [<-|Ne]; [|tauto].
      rewrite W. split; intros (y & E & K); congruence.
    - apply eq_true_iff_eq. rewrite !hcount_pos. pose proof (hcount_set (holds c) _ _ _ w' W) as K.
      rewrite H, H' in K. cbn in K. lia. }
  destruct S as [st d y n N O Hn|st d y N|st d y N E A|st i d q W Q|st i d y W N H P F|st i d y W N H P F|st i d y W N H P|st i d y n W N Hn|st i d y W N U|st i d y W N|st i d y W N|st i d y W N];
    unfold upd, put in *; cbn [h_conns h_queue h_workers] in *; unfold traced, is_open, held in *;
    cbn [active arrived consumed h_conns h_queue h_workers] in *; rewrite N0 in T4.
  - (* arrive *) destruct (Nat.eqb_spec d c) as [->|Ne].
    + assert (y = x) by congruence. subst y. rewrite (nth_set_same _ _ _ _ N) in N' |- *. inversion N'; subst x'.
      cbn [c_unread c_full]. repeat split; try apply T1; auto; try lia. intros D. apply T4. now apply not_dropped_tl in D.
    + rewrite nth_set_other in N' |- * by assumption. rewrite N0. assert (x' = x) by congruence. subst x'.
      repeat split; try apply T1; auto; try lia. intros D. apply T4. now apply not_dropped_tl in D.
  - (* notify *) assert (K : c_unread x' = c_unread x /\ c_full x' = c_full x).
    { rewrite (workers_set _ _ _ _ _ N) in N'. destruct (Nat.eqb_spec d c) as [->|Ne].
      - assert (y = x) by congruence. inversion N'; subst. auto.
      - assert (x' = x) by congruence. subst. auto. }
    destruct K as [K1 K2]. rewrite N', K1, K2. repeat split; try apply T1; auto. intros D. apply T4. now apply not_dropped_tl in D.
  - (* dispatch *) assert (K : c_unread x' = c_unread x /\ c_full x' = c_full x).
    { rewrite (workers_set _ _ _ _ _ N) in N'. destruct (Nat.eqb_spec d c) as [->|Ne].
      - assert (y = x) by congruence. inversion N'; subst. auto.
      - assert (x' = x) by congruence. subst. auto. }
    destruct K as [K1 K2]. rewrite N', K1, K2. repeat split; try apply T1; auto. intros D. apply T4. now apply not_dropped_tl in D.
  - (* take *) destruct (Same _ _ (HWait d) W eq_refl eq_refl) as [S1 S2]. assert (x' = x) by congruence. subst x'. rewrite N0, S2.
    split; [intros j; rewrite S1; apply T1|]. split; auto. split; auto. intros D. apply T4. now apply not_dropped_tl in D.
  - (* enter *) destruct (Nat.eqb_spec d c) as [->|Ne].
    + assert (y = x) by congruence. subst y. rewrite (nth_set_same _ _ _ _ N) in N' |- *. inversion N'; subst x'.
      assert (Z : active c ls = []).
      { destruct (active c ls) as [|j a] eqn:Ea; auto. exfalso. destruct (proj1 (T1 j) (or_introl eq_refl)) as (w & Nw & Hw).
        assert (existsb (holds c) (h_workers st) = true) as K; [|congruence]. apply existsb_exists. exists w. split; auto. eapply nth_error_In; eauto. }
      rewrite Z in *. split; [|split; [cbn; lia|split; [cbn [c_unread]; lia|]]].
      * intros j. rewrite (workers_set _ _ _ _ _ W). cbn [In]. destruct (Nat.eqb_spec i j) as [<-|Ne].
        -- split; auto. intros _. exists (HServe c). split; auto. cbn. apply Nat.eqb_refl.
        -- split; [intros [->|[]]; contradiction|]. intros K. apply T1 in K. contradiction.
      * intros _. apply orb_true_iff. right. apply existsb_exists. exists (HServe c). cbn. rewrite Nat.eqb_refl. split; auto.
        eapply nth_error_In. eapply nth_set_same. exact W.
    + rewrite nth_set_other in N' |- * by assumption. assert (x' = x) by congruence. subst x'. rewrite N0.
      destruct (Same _ _ (HServe d) W eq_refl) as [S1 S2]; [cbn; now apply Nat.eqb_neq|]. rewrite S2.
      split; [intros j; rewrite S1; apply T1|]. split; auto. split; auto. intros D. apply T4. now apply not_dropped_tl in D.
  - (* skip *) destruct (Same _ _ HFree W eq_refl eq_refl) as [S1 S2]. assert (x' = x) by congruence. subst x'. rewrite N0, S2.
    split; [intros j; rewrite S1; apply T1|]. split; auto. split; auto. intros D. apply T4. now apply not_dropped_tl in D.
  - (* die *) destruct (Same _ _ HDead W eq_refl eq_refl) as [S1 S2]. assert (x' = x) by congruence. subst x'. rewrite N0, S2.
    split; [intros j; rewrite S1; apply T1|]. split; auto. split; auto. intros D. apply T4. now apply not_dropped_tl in D.
  - (* read *) destruct (Nat.eqb_spec d c) as [->|Ne].
    + assert (y = x) by congruence. subst y. rewrite (nth_set_same _ _ _ _ N) in N' |- *. inversion N'; subst x'.
      cbn [c_unread c_full]. repeat split; try apply T1; auto; try lia. intros D. apply T4. now apply not_dropped_tl in D.
    + rewrite nth_set_other in N' |- * by assumption. rewrite N0. assert (x' = x) by congruence. subst x'.
      repeat split; try apply T1; auto; try lia. intros D. apply T4. now apply not_dropped_tl in D.
  - (* drain *) assert (x' = x) by congruence. subst x'. rewrite N0.
    assert (Sm : forall j, (exists y, nth_error (set_nth i (HDrained d) (h_workers st)) j = Some y /\ holds c y = true) <->
               (exists y, nth_error (h_workers st) j = Some y /\ holds c y = true)).
    { intros j. rewrite (workers_set _ _ _ _ _ W). destruct (Nat.eqb_spec i j) as [<-|Ne]; [|tauto].
      rewrite W. split; intros (z & Ez & K); inversion Ez; subst z; [exists (HServe d)|exists (HDrained d)]; auto. }
    split; [intros j; rewrite Sm; apply T1|]. split; auto. split; auto. intros D. apply not_dropped_tl in D. specialize (T4 D).
    apply orb_true_iff in T4 as [K|K]; apply orb_true_iff; [now left|right]. apply hcount_pos. apply hcount_pos in K.
    pose proof (hcount_set (holds c) _ _ _ (HDrained d) W) as K2. cbn [holds] in K2. lia.
  - (* keep *) destruct (Nat.eqb_spec d c) as [->|Ne].
    + assert (y = x) by congruence. subst y. rewrite (nth_set_same _ _ _ _ N) in N' |- *. inversion N'; subst x'.
      cbn [c_unread c_full]. split; [|split; [pose proof (length_filter_le (fun j => negb (j =? i)) (active c ls)); lia|split; [lia|intros _; reflexivity]]].
      intros j. rewrite filter_In, (workers_set _ _ _ _ _ W), (Nat.eqb_sym j i). destruct (Nat.eqb_spec i j) as [<-|Ne]; cbn [negb].
      * split; [intros [_ K]; discriminate|]. intros (z & Ez & K). inversion Ez; subst z. discriminate.
      * rewrite T1. tauto.
    + rewrite nth_set_other in N' |- * by assumption. assert (x' = x) by congruence. subst x'. rewrite N0.
      destruct (Same _ _ HFree W) as [S1 S2]; [cbn; now apply Nat.eqb_neq|reflexivity|]. rewrite S2.
      split; [intros j; rewrite S1; apply T1|]. split; auto. split; auto. intros D. apply T4. now apply not_dropped_tl in D.
  - (* close *) assert (x' = x) by congruence. subst x'. rewrite N0. destruct (Nat.eqb_spec d c) as [->|Ne].
    + split; [|split; [pose proof (length_filter_le (fun j => negb (j =? i)) (active c ls)); lia|split; [lia|]]].
      * intros j. rewrite filter_In, (workers_set _ _ _ _ _ W), (Nat.eqb_sym j i). destruct (Nat.eqb_spec i j) as [<-|Ne]; cbn [negb].
        -- split; [intros [_ K]; discriminate|]. intros (z & Ez & K). inversion Ez; subst z. discriminate.
        -- rewrite T1. tauto.
      * intros D. exfalso. apply (proj1 (D i)). now left.
    + destruct (Same _ _ HFree W) as [S1 S2]; [cbn; now apply Nat.eqb_neq|reflexivity|]. rewrite S2.
      split; [intros j; rewrite S1; apply T1|]. split; auto. split; auto. intros D. apply T4. now apply not_dropped_tl in D.
  - (* crash *) destruct (Nat.eqb_spec d c) as [->|Ne].
    + assert (y = x) by congruence. subst y. rewrite (nth_set_same _ _ _ _ N) in N' |- *. inversion N'; subst x'.
      cbn [c_unread c_full]. split; [|split; [pose proof (length_filter_le (fun j => negb (j =? i)) (active c ls)); lia|split; [lia|]]].
      * intros j. rewrite filter_In, (workers_set _ _ _ _ _ W), (Nat.eqb_sym j i). destruct (Nat.eqb_spec i j) as [<-|Ne]; cbn [negb].
        -- split; [intros [_ K]; discriminate|]. intros (z & Ez & K). inversion Ez; subst z. discriminate.
        -- rewrite T1. tauto.
      * intros D. exfalso. apply (proj2 (D i)). now left.
    + rewrite nth_set_other in N' |- * by assumption. assert (x' = x) by congruence. subst x'. rewrite N0.
      destruct (Same _ _ HDead W) as [S1 S2]; [cbn; now apply Nat.eqb_neq|reflexivity|]. rewrite S2.
      split; [intros j; rewrite S1; apply T1|]. split; auto. split; auto. intros D. apply T4. now apply not_dropped_tl in D.
Qed.

Lemma traced_run n size ls st : hrun (h_init n size) ls st ->
  forall c x, nth_error (h_conns st) c = Some x -> traced c ls st x.
Proof.
  intros R. remember (h_init n size) as st0 eqn:E0. induction R as [|st0' ls st1 l st2 R IH S]; subst; intros c x N.
  - split; [|split; [cbn; lia|]].
    + intros i. cbn. split; [contradiction|]. intros (w & H & K). apply nth_error_In, repeat_spec in H. subst w. discriminate.
    + pose proof N as Nx. apply nth_error_In, repeat_spec in Nx. subst x. split; [reflexivity|]. intros _. unfold is_open. now rewrite N.
  - pose proof (conns_length _ _ _ S) as L. destruct (nth_error (h_conns st1) c) as [x1|] eqn:E1.
    + eapply traced_step; eauto. eapply hinv_run; eauto.
    + exfalso. apply nth_error_None in E1. assert (c < List.length (h_conns st2)) by (apply nth_error_Some; congruence). lia.
Qed.

(** ** Progress *)

Lemma settled_idle st : hvalid st -> settled st -> existsb alive (h_workers st) = true ->
  h_queue st = [] /\ Forall (fun x => c_event x = false) (h_conns st) /\ Forall (fun w => w = HFree \/ w = HDead) (h_workers st).
Proof.
  intros [V1 V2] Hs A.
  assert (Get : forall c, c < List.length (h_conns st) -> exists x, nth_error (h_conns st) c = Some x).
  { intros c Hc. destruct (nth_error (h_conns st) c) eqn:E; eauto. apply nth_error_None in E. lia. }
  assert (No : forall i w c, nth_error (h_workers st) i = Some w -> (w = HServe c \/ w = HDrained c) -> False).
  { intros i w c N K. pose proof (Forall_nth _ _ _ _ V2 N) as L.
    destruct K as [->| ->]; destruct (Get _ L) as [x Nx].
    - discriminate (Hs _ _ (st_close st i c x N Nx)).
    - discriminate (Hs _ _ (st_keep st i c x N Nx)). }
  assert (Nh : forall c, held c st = false).
  { intros c. unfold held. destruct (existsb (holds c) (h_workers st)) eqn:E; auto. exfalso.
    apply existsb_exists in E as (w & Hin & Hh). apply In_nth_error in Hin as (i & N).
    destruct w as [|d|d|d|]; try discriminate; eapply No; eauto. }
  assert (W : forall i w, nth_error (h_workers st) i = Some w -> w = HFree \/ w = HDead).
  { intros i w N. destruct w as [|d|d|d|]; auto; [|exfalso; eapply No; eauto|exfalso; eapply No; eauto]. exfalso.
    pose proof (Forall_nth _ _ _ _ V2 N) as L. destruct (Get _ L) as [x Nx].
    destruct (c_poisoned x) eqn:P; [discriminate (Hs _ _ (st_die st i d x N Nx (Nh d) P))|].
    destruct (c_full x) eqn:F; [discriminate (Hs _ _ (st_enter st i d x N Nx (Nh d) P F))|discriminate (Hs _ _ (st_skip st i d x N Nx (Nh d) P F))]. }
  split; [|split].
  - destruct (h_queue st) as [|c q] eqn:Q; auto. exfalso.
    apply existsb_exists in A as (w & Hin & Hw). apply In_nth_error in Hin as (i & N). destruct (W _ _ N) as [->| ->]; [|discriminate].
    discriminate (Hs _ _ (st_take st i c q N Q)).
  - apply Forall_forall. intros x Hin. apply In_nth_error in Hin as (c & N). destruct (c_event x) eqn:E; auto.
    discriminate (Hs _ _ (st_dispatch st c x N E A)).
  - apply Forall_forall. intros w Hin. apply In_nth_error in Hin as (i & N). eauto.
Qed.

(** ** Termination *)

Definition sum (l : list nat) : nat := fold_right Nat.add 0 l.
Definition weight (w : hworker) : nat := match w with HWait _ => 4 | HServe _ => 3 | HDrained _ => 1 | _ => 0 end.
Definition load (x : cstate) : nat := c_unread x + 6 * hb2n (c_event x).
Definition work (st : hstate) : nat :=
  sum (map load (h_conns st)) + 5 * List.length (h_queue st) + sum (map weight (h_workers st)).

Lemma sum_set {A} (f : A -> nat) l : forall i x y, nth_error l i = Some x ->
  sum (map f (set_nth i y l)) + f x = sum (map f l) + f y.
Proof.
  unfold sum. induction l as [|z l IH]; intros [|i] x y N; cbn [nth_error] in N; try discriminate; cbn [set_nth map fold_right].
  - inversion N; subst. lia.
  - specialize (IH i x y N). lia.
Qed.

Lemma work_step st l st' : hstep st l st' -> external l = false -> work st' < work st.
Proof.
  intros S X. unfold work.
  destruct S as [st c x n N O Hn|st c x N|st c x N E A|st i c q W Q|st i c x W N H P F|st i c x W N H P F|st i c x W N H P|st i c x n W N Hn|st i c x W N U|st i c x W N|st i c x W N|st i c x W N];
    try discriminate; unfold upd, put; cbn [h_conns h_queue h_workers];
    try match type of N with nth_error _ _ = _ =>
      match goal with |- context [set_nth c ?y (h_conns st)] => pose proof (sum_set load _ _ _ y N) as K1; unfold load in K1 at 2 4; cbn [c_unread c_event] in K1 end end;
    try match goal with |- context [set_nth i ?y (h_workers st)] => pose proof (sum_set weight _ _ _ y W) as K2; cbn [weight] in K2 end;
    rewrite ?app_length; cbn [List.length]; try lia.
  - rewrite E in K1. cbn [hb2n] in K1. lia.
  - rewrite Q. cbn [List.length]. lia.
Qed.
