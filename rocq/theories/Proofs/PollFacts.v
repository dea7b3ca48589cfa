(** The event loop. *)
From Coq Require Import List Bool Arith Lia.
From Verif.Model Require Import Slab Poll.
From Verif.Spec Require Import Slots.
From Verif.Proofs Require Import SlabFacts.
Import ListNotations.

Lemma in_slab_get c (s : slab nat) : in_slab c s = true <-> exists t, get s t = Some c.
Proof.
  unfold in_slab. rewrite existsb_exists. split.
  - intros ([d|] & H & E); [|discriminate]. apply Nat.eqb_eq in E as ->. apply In_nth_error in H as [t H].
    exists t. unfold get. now rewrite H.
  - intros [t H]. unfold get in H. destruct (nth_error (sl_data s) t) as [[d|]|] eqn:E; inversion H; subst.
    exists (Some c). split; [eapply nth_error_In; eassumption|apply Nat.eqb_refl].
Qed.

Lemma in_jobs c l : existsb (Nat.eqb c) l = true <-> In c l.
Proof.
  rewrite existsb_exists. split.
  - intros (d & H & E). apply Nat.eqb_eq in E. now subst.
  - intros H. exists c. split; auto. apply Nat.eqb_refl.
Qed.

Lemma sweep_in s jobs reg c t : In (c, t) (sweep s jobs reg) <->
  In (c, t) reg /\ ((exists t', get s t' = Some c) \/ In c jobs).
Proof. unfold sweep. rewrite filter_In, orb_true_iff, in_slab_get, in_jobs. cbn [fst]. reflexivity. Qed.

Lemma drop_one_in d l x : In x (drop_one d l) -> In x l.
Proof. induction l as [|y l IH]; cbn; auto. destruct (y =? d); cbn; intuition. Qed.

(** Sockets that are open or that have an event still to be dispatched. *)
Definition known (st : pstate) (c t : nat) : Prop :=
  In (c, t) (p_reg st) \/ exists w, In (EvSocket c t w) (p_batch st).

(** Invariant of all executions. *)
Definition pinv (st : pstate) : Prop :=
  slab_inv (p_slab st) /\
  (forall t c, get (p_slab st) t = Some c -> c < p_next st) /\
  (forall t t' c, get (p_slab st) t = Some c -> get (p_slab st) t' = Some c -> t = t') /\
  (forall c t, known st c t -> c < p_next st /\ t < List.length (sl_data (p_slab st))) /\
  (forall c t t', known st c t -> get (p_slab st) t' = Some c -> t' = t) /\
  NoDup (flat_map socket_of (p_batch st)) /\
  (forall d, In d (p_jobs st) -> d < p_next st).

Lemma pinv_init : pinv poll_init.
Proof.
  split; [apply slab_inv_new|].
  assert (G : forall t, get (p_slab poll_init) t = None) by (intros [|t]; reflexivity).
  split; [intros t c; rewrite G; discriminate|]. split; [intros t t' c; rewrite G; discriminate|].
  split; [intros c t [[]|[w []]]|]. split; [intros c t t'; rewrite G; discriminate|].
  split; [constructor|]. intros d [].
Qed.

Lemma get_lt {T} (s : slab T) t c : get s t = Some c -> t < List.length (sl_data s).
Proof. unfold get. intros H. apply nth_error_Some. destruct (nth_error (sl_data s) t); congruence. Qed.

Lemma insert_length {T} (s : slab T) x s' k : slab_inv s -> insert s x = Some (s', k) ->
  List.length (sl_data s) <= List.length (sl_data s').
Proof.
  intros I E. destruct (insert_spec s x I) as (s1 & E1 & _ & _ & _ & K1 & _). rewrite E in E1. inversion E1; subst. lia.
Qed.

Lemma pinv_step st l st' : pinv st -> pstep st l st' -> pinv st'.
Proof.
  intros (I & J1 & J2 & K1 & K2 & N & D) S. destruct S as [st evs B L F N'|st b B L|st ok st' L E|st L|st L|st c t b r st' B L E|st c t b r st' B L E|st d dropped H].
  - (* poll *)
    unfold pinv; cbn [p_slab p_next p_reg p_jobs p_batch p_listening]. rewrite Forall_forall in F.
    assert (KK : forall c t, known (mk_pstate (p_slab st) (p_next st) (p_reg st) (p_jobs st) evs false) c t -> known st c t).
    { intros c t [H|[w H]]; left; auto. cbn [p_batch] in H. exact (F _ H). }
    repeat (split; [solve [eauto]|]). auto.
  - (* listener event *)
    unfold pinv; cbn [p_slab p_next p_reg p_jobs p_batch p_listening].
    assert (KK : forall c t, known (mk_pstate (p_slab st) (p_next st) (p_reg st) (p_jobs st) b true) c t -> known st c t).
    { intros c t [H|[w H]]; [now left|]. right. exists w. rewrite B. now right. }
    rewrite B in N. cbn [flat_map socket_of app] in N. repeat (split; [solve [eauto]|]). auto.
  - (* accept *)
    unfold on_connection in E. destruct ok.
    + destruct (insert_spec (p_slab st) (p_next st) I) as (s1 & E1 & I1 & G0 & G1 & L1 & _ & L2).
      rewrite E1 in E. inversion E; subst st'. clear E.
      unfold pinv; cbn [p_slab p_next p_reg p_jobs p_batch p_listening].
      assert (KK : forall c t, known (mk_pstate s1 (S (p_next st)) ((p_next st, next_key (p_slab st)) :: p_reg st) (p_jobs st) (p_batch st) (p_listening st)) c t ->
                   (c = p_next st /\ t = next_key (p_slab st)) \/ known st c t).
      { intros c t [[H|H]|[w H]]; [inversion H; now left|right; now left|right; right; now exists w]. }
      split; [assumption|]. split; [|split; [|split; [|split; [|split]]]].
      * intros t c. rewrite G1. destruct (next_key (p_slab st) =? t); intros H; [inversion H; lia|]. apply J1 in H. lia.
      * intros t t' c. rewrite !G1. destruct (Nat.eqb_spec (next_key (p_slab st)) t) as [<-|]; destruct (Nat.eqb_spec (next_key (p_slab st)) t') as [<-|]; intros H H'; auto.
        -- inversion H; subst c. apply J1 in H'. lia.
        -- inversion H'; subst c. apply J1 in H. lia.
        -- eauto.
      * intros c t H. apply KK in H as [[-> ->]|H]; [lia|]. apply K1 in H. lia.
      * intros c t t' H. rewrite G1. apply KK in H as [[-> ->]|H].
        -- destruct (Nat.eqb_spec (next_key (p_slab st)) t') as [<-|]; auto. intros H. apply J1 in H. lia.
        -- destruct (Nat.eqb_spec (next_key (p_slab st)) t') as [<-|]; [|eauto].
           intros H'. inversion H'; subst c. apply K1 in H. lia.
      * assumption.
      * intros d H. apply D in H. lia.
    + inversion E; subst st'. clear E. unfold pinv; cbn [p_slab p_next p_reg p_jobs p_batch p_listening].
      split; [assumption|]. split; [intros t c H; apply J1 in H; lia|]. split; [assumption|].
      split; [intros c t H; apply K1 in H; lia|]. split; [exact K2|]. split; [assumption|]. intros d H; apply D in H; lia.
  - (* accept error *) repeat (split; [assumption|]). assumption.
  - (* would block *) unfold pinv; cbn [p_slab p_next p_reg p_jobs p_batch p_listening].
    repeat (split; [assumption|]). assumption.
  - (* write closed *)
    unfold on_write_closed in E. destruct (remove (p_slab st) t) as [r' s'] eqn:R. inversion E; subst r' st'. clear E.
    destruct (remove_spec _ _ _ _ I R) as (I1 & Hr & G1 & L1 & _).
    unfold pinv; cbn [p_slab p_next p_reg p_jobs p_batch p_listening].
    assert (GG : forall j x, get s' j = Some x -> get (p_slab st) j = Some x).
    { intros j x. rewrite G1. now destruct (t =? j). }
    assert (KK : forall c0 t0, known (mk_pstate s' (p_next st) (sweep s' (p_jobs st) (p_reg st)) (p_jobs st) b (p_listening st)) c0 t0 -> known st c0 t0).
    { intros c0 t0 [H|[w H]]; cbn [p_reg p_batch] in H.
      - apply sweep_in in H. now left.
      - right. exists w. rewrite B. now right. }
    rewrite B in N. cbn [flat_map socket_of app] in N. inversion N; subst.
    rewrite L1. repeat (split; [solve [eauto]|]). auto.
  - (* ready *)
    unfold on_ready in E. inversion E; subst r st'. clear E.
    unfold pinv; cbn [p_slab p_next p_reg p_jobs p_batch p_listening].
    assert (KK : forall c0 t0, known (mk_pstate (p_slab st) (p_next st) (p_reg st) (match get (p_slab st) t with Some d => p_jobs st ++ [d] | None => p_jobs st end) b (p_listening st)) c0 t0 -> known st c0 t0).
    { intros c0 t0 [H|[w H]]; cbn [p_reg p_batch] in H; [now left|]. right. exists w. rewrite B. now right. }
    rewrite B in N. cbn [flat_map socket_of app] in N. inversion N; subst.
    repeat (split; [solve [eauto]|]).
    intros d H. destruct (get (p_slab st) t) eqn:G; auto. apply in_app_iff in H as [H|[<-|[]]]; eauto.
  - (* a handler ends *)
    unfold pinv; cbn [p_slab p_next p_reg p_jobs p_batch p_listening].
    match goal with |- context [known ?x] => assert (KK : forall c0 t0, known x c0 t0 -> known st c0 t0) end.
    { intros c0 t0 [K|[w K]]; cbn [p_reg p_batch] in K; [|right; now exists w].
      apply sweep_in in K as [K _]. left. destruct dropped; auto. now apply filter_In in K. }
    repeat (split; [solve [eauto]|]). intros x K. apply drop_one_in in K. auto.
Qed.

Lemma pinv_run st ls st' : prun st ls st' -> pinv st -> pinv st'.
Proof.
  induction 1 as [|st ls st1 l st2 R IH S]; auto. intros P. apply (pinv_step st1 l st2); auto.
Qed.

Lemma prun_app st l1 st1 l2 st2 : prun st l1 st1 -> prun st1 l2 st2 -> prun st (l2 ++ l1) st2.
Proof. intros H. induction 1; cbn; auto. econstructor; eauto. Qed.

(** While no handler holds the connection being removed, every socket known is in the slab. *)
Definition qinv (st : pstate) : Prop :=
  (forall c t, known st c t -> get (p_slab st) t = Some c) /\
  (forall d, In d (p_jobs st) -> exists t, get (p_slab st) t = Some d).

Definition quiet (st : pstate) (l : label) : Prop :=
  match l with Closed c _ => ~ In c (p_jobs st) | _ => True end.

Inductive quiet_run : pstate -> list label -> pstate -> Prop :=
| quiet_nil st : quiet_run st [] st
| quiet_step st ls st' l st'' : quiet_run st ls st' -> pstep st' l st'' -> quiet st' l -> quiet_run st (l :: ls) st''.

Lemma quiet_prun st ls st' : quiet_run st ls st' -> prun st ls st'.
Proof. induction 1; [constructor|econstructor; eauto]. Qed.

Lemma qinv_step st l st' : pinv st -> qinv st -> pstep st l st' -> quiet st l -> qinv st'.
Proof.
  intros (I & J1 & J2 & K1 & K2 & N & D) (Q1 & Q2) S Q. destruct S as [st evs B L F N'|st b B L|st ok st' L E|st L|st L|st c t b r st' B L E|st c t b r st' B L E|st d dropped H].
  - split; auto. intros c t [H|[w H]]; apply Q1; [now left|]. rewrite Forall_forall in F. left. exact (F _ H).
  - split; auto. intros c t [H|[w H]]; apply Q1; [now left|]. right. exists w. rewrite B. now right.
  - unfold on_connection in E. destruct ok.
    + destruct (insert_spec (p_slab st) (p_next st) I) as (s1 & E1 & I1 & G0 & G1 & L1 & _ & L2).
      rewrite E1 in E. inversion E; subst st'. clear E.
      assert (GG : forall j x, get (p_slab st) j = Some x -> get s1 j = Some x).
      { intros j x H. rewrite G1. destruct (Nat.eqb_spec (next_key (p_slab st)) j) as [<-|]; congruence. }
      split; cbn [p_slab p_jobs].
      * intros c t [[H|H]|[w H]].
        -- inversion H; subst. rewrite G1, Nat.eqb_refl. reflexivity.
        -- apply GG, Q1. now left.
        -- apply GG, Q1. right. now exists w.
      * intros d H. apply Q2 in H as [t H]. eauto.
    + inversion E; subst st'. split; auto.
  - split; auto.
  - split; auto.
  - unfold on_write_closed in E. destruct (remove (p_slab st) t) as [r' s'] eqn:R. inversion E; subst r' st'. clear E.
    destruct (remove_spec _ _ _ _ I R) as (I1 & Hr & G1 & L1 & _). cbn [quiet] in Q.
    assert (Gc : get (p_slab st) t = Some c) by (apply Q1; right; exists true; rewrite B; now left).
    assert (GG : forall j x, get (p_slab st) j = Some x -> x <> c -> get s' j = Some x).
    { intros j x H Hx. rewrite G1. destruct (Nat.eqb_spec t j) as [<-|]; congruence. }
    assert (Gone : forall j, get s' j <> Some c).
    { intros j. rewrite G1. destruct (Nat.eqb_spec t j) as [->|Ne]; [discriminate|]. intros H. apply Ne. eapply J2; eauto. }
    split; cbn [p_slab p_jobs].
    + intros c0 t0 [H|[w H]]; cbn [p_reg p_batch] in H.
      * apply sweep_in in H as [H1 H2]. apply GG; [apply Q1; now left|]. intros ->. destruct H2 as [[j H2]|H2]; [eapply Gone; eauto|auto].
      * apply GG; [apply Q1; right; exists w; rewrite B; now right|]. intros ->. rewrite B in N. cbn [flat_map socket_of app] in N.
        inversion N as [|? ? N1 N2]; subst. apply N1. apply in_flat_map. exists (EvSocket c t0 w). split; auto. now left.
    + intros d H. destruct (Q2 d H) as [j Hj]. exists j. apply GG; auto. congruence.
  - unfold on_ready in E. inversion E; subst r st'. clear E. split; cbn [p_slab p_jobs].
    + intros c0 t0 [H|[w H]]; apply Q1; [now left|]. right. exists w. rewrite B. now right.
    + intros d H. destruct (get (p_slab st) t) eqn:G; auto. apply in_app_iff in H as [H|[<-|[]]]; eauto.
  - split; cbn [p_slab p_jobs].
    + intros c0 t0 [K|[w K]]; cbn [p_reg p_batch] in K; apply Q1; [|right; now exists w].
      apply sweep_in in K as [K _]. left. destruct dropped; auto. now apply filter_In in K.
    + intros x K. apply drop_one_in in K. auto.
Qed.

Lemma qinv_init : qinv poll_init.
Proof. split; [intros c t [[]|[w []]]|intros d []]. Qed.

Lemma qinv_run ls st : quiet_run poll_init ls st -> pinv st /\ qinv st.
Proof.
  intros H. remember poll_init as i eqn:Ei. induction H; subst.
  - split; [apply pinv_init|apply qinv_init].
  - destruct (IHquiet_run eq_refl) as [A B]. split; [eapply pinv_step; eauto|eapply qinv_step; eauto].
Qed.

(** A slot no open socket and no pending event refers to stays as it is. *)
Definition stuck (st : pstate) (t d : nat) : Prop :=
  get (p_slab st) t = Some d /\ forall c, ~ known st c t.

Lemma stuck_step st l st' t d : pinv st -> stuck st t d -> pstep st l st' -> stuck st' t d.
Proof.
  intros (I & J1 & J2 & K1 & K2 & N & D) (G & U) S. destruct S as [st evs B L F N'|st b B L|st ok st' L E|st L|st L|st c t0 b r st' B L E|st c t0 b r st' B L E|st d0 dropped H].
  - split; auto. intros c [H|[w H]]; apply (U c); [now left|]. rewrite Forall_forall in F. left. exact (F _ H).
  - split; auto. intros c [H|[w H]]; apply (U c); [now left|]. right. exists w. rewrite B. now right.
  - unfold on_connection in E. destruct ok.
    + destruct (insert_spec (p_slab st) (p_next st) I) as (s1 & E1 & I1 & G0 & G1 & L1 & _ & L2).
      rewrite E1 in E. inversion E; subst st'. clear E.
      assert (Ht : next_key (p_slab st) <> t) by congruence.
      split; cbn [p_slab].
      * rewrite G1. destruct (Nat.eqb_spec (next_key (p_slab st)) t); congruence.
      * intros c [[H|H]|[w H]]; [congruence| |]; apply (U c); [now left|right; now exists w].
    + inversion E; subst st'. split; auto.
  - split; auto.
  - split; auto.
  - unfold on_write_closed in E. destruct (remove (p_slab st) t0) as [r' s'] eqn:R. inversion E; subst r' st'. clear E.
    destruct (remove_spec _ _ _ _ I R) as (I1 & Hr & G1 & L1 & _).
    assert (Ht : t0 <> t). { intros ->. apply (U c). right. exists true. rewrite B. now left. }
    split; cbn [p_slab].
    + rewrite G1. destruct (Nat.eqb_spec t0 t); congruence.
    + intros c0 [H|[w H]]; cbn [p_reg p_batch] in H; apply (U c0).
      * apply sweep_in in H. now left.
      * right. exists w. rewrite B. now right.
  - unfold on_ready in E. inversion E; subst r st'. clear E. split; auto.
    intros c0 [H|[w H]]; apply (U c0); [now left|]. right. exists w. rewrite B. now right.
  - split; auto. intros c0 [K|[w K]]; cbn [p_reg p_batch] in K; apply (U c0); [|right; now exists w].
    apply sweep_in in K as [K _]. left. destruct dropped; auto. now apply filter_In in K.
Qed.

Lemma stuck_run st ls st' t d : prun st ls st' -> pinv st -> stuck st t d -> stuck st' t d.
Proof.
  induction 1 as [|st ls st1 l st2 R IH S]; auto. intros P K.
  apply (stuck_step st1 l st2); auto. apply (pinv_run st ls st1); auto.
Qed.
