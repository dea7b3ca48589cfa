(** The server with its event loop: it is the server of Model/Whole.v, with the connections it accepts. *)
From Coq Require Import List Ascii String NArith Bool Arith Lia.
From Verif.Model Require Import Bytes Io Common Parse Encode Writer Server Slab Poll Handlers Whole Full.
From Verif.Spec Require Import Traces Arrivals Events.
From Verif.Proofs Require Import SlabFacts PollFacts HandlersFacts WholeFacts.
Import ListNotations.

(** ** Lists *)

Lemma set_nth_length {A} i (x : A) l : List.length (set_nth i x l) = List.length l.
Proof. revert i. induction l as [|y l IH]; intros [|i]; cbn [set_nth List.length]; auto. Qed.

Lemma set_nth_twice {A} c (x y : A) l : set_nth c x (set_nth c y l) = set_nth c x l.
Proof. revert c. induction l as [|z l IH]; intros [|c]; cbn [set_nth]; auto. now rewrite IH. Qed.

Lemma set_nth_seq {A} (f : nat -> A) c y N : forall a,
  set_nth c y (map f (seq a N)) = map (fun d => if d =? a + c then y else f d) (seq a N).
Proof.
  revert c. induction N as [|N IH]; intros c a; [now destruct c|]. cbn [seq map]. destruct c as [|c]; cbn [set_nth].
  - rewrite Nat.add_0_r, Nat.eqb_refl. f_equal. apply map_ext_in. intros d H. apply in_seq in H.
    destruct (Nat.eqb_spec d a); [lia|reflexivity].
  - destruct (Nat.eqb_spec a (a + S c)); [lia|]. f_equal. rewrite IH. apply map_ext. intros d.
    replace (S a + c) with (a + S c) by lia. reflexivity.
Qed.

Lemma nth_map_seq {A} (f : nat -> A) N c : c < N -> nth_error (map f (seq 0 N)) c = Some (f c).
Proof.
  intros H. apply map_nth_error. rewrite nth_error_nth' with (d := 0) by (rewrite seq_length; lia). now rewrite seq_nth by lia.
Qed.

Lemma clear_nth l c d : nth_error (clear_event l c) d =
  if d =? c then option_map (with_event false) (nth_error l d) else nth_error l d.
Proof.
  unfold clear_event. destruct (nth_error l c) as [x|] eqn:E.
  - destruct (Nat.eqb_spec d c) as [->|Ne]; [|apply nth_set_other; congruence]. rewrite E. cbn. eapply nth_set_same; eauto.
  - destruct (Nat.eqb_spec d c) as [->|Ne]; auto. now rewrite E.
Qed.

Lemma clear_all_nth cs : forall l d, nth_error (fold_left clear_event cs l) d =
  if existsb (Nat.eqb d) cs then option_map (with_event false) (nth_error l d) else nth_error l d.
Proof.
  induction cs as [|c cs IH]; intros l d; auto. cbn [fold_left existsb]. rewrite IH, clear_nth.
  destruct (d =? c); cbn [orb]; auto. destruct (existsb (Nat.eqb d) cs); auto. now destruct (nth_error l d).
Qed.

Lemma clear_all_length cs : forall l, List.length (fold_left clear_event cs l) = List.length l.
Proof.
  induction cs as [|c cs IH]; intros l; auto. cbn [fold_left]. rewrite IH. unfold clear_event.
  destruct (nth_error l c); auto. apply set_nth_length.
Qed.

Notation occ := (count_occ Nat.eq_dec).

Lemma occ_jobs_set l d : forall i w w', nth_error l i = Some w ->
  occ (flat_map job_of (set_nth i w' l)) d + occ (job_of w) d = occ (flat_map job_of l) d + occ (job_of w') d.
Proof.
  induction l as [|y l IH]; intros [|i] w w' N; cbn [nth_error] in N; try discriminate; cbn [set_nth flat_map]; rewrite !count_occ_app.
  - inversion N; subst. lia.
  - specialize (IH i w w' N). lia.
Qed.

Lemma occ_drop_one d l x : occ (drop_one d l) x = occ l x - (if d =? x then 1 else 0).
Proof.
  induction l as [|y l IH]; auto. cbn [drop_one count_occ].
  destruct (Nat.eqb_spec y d) as [->|Ne].
  - destruct (Nat.eq_dec d x) as [->|Nx]; [rewrite Nat.eqb_refl; lia|]. destruct (Nat.eqb_spec d x); [congruence|lia].
  - cbn [count_occ]. rewrite IH. destruct (Nat.eq_dec y x) as [->|Nx]; auto.
    destruct (Nat.eqb_spec d x); [congruence|lia].
Qed.

(** ** The two parts agree *)

Section Full.
Variables (dbg : bool) (R : nat -> request -> lresult -> Prop).

Record finv (st : fstate) : Prop := mk_finv {
  fi_pinv : pinv (f_p st);
  fi_length : List.length (ws_conns (f_w st)) = p_next (f_p st);
  fi_jobs : forall d, occ (p_jobs (f_p st)) d = occ (jobs (f_w st)) d }.

Lemma wconns_length w l w' : wstep dbg R w l w' -> List.length (ws_conns w') = List.length (ws_conns w).
Proof. destruct 1; cbn [ws_conns]; unfold wupd; rewrite ?set_nth_length; auto. Qed.

Lemma jobs_inner w l w' : wstep dbg R w l w' -> ends l = None -> (forall c, l <> ADispatch c) ->
  forall d, occ (jobs w') d = occ (jobs w) d.
Proof.
  intros S E D d. unfold jobs. destruct S; try discriminate; try (now destruct (D c)); unfold wput; cbn [ws_queue ws_workers] in *; rewrite ?count_occ_app; auto.
  - rewrite H0. pose proof (occ_jobs_set _ d _ _ (WWait c) H) as K. cbn [job_of count_occ] in *. destruct (Nat.eq_dec c d); lia.
  - pose proof (occ_jobs_set _ d _ _ (WServe c v rt []) H) as K. cbn [job_of count_occ] in *. destruct (Nat.eq_dec c d); lia.
  - pose proof (occ_jobs_set _ d _ _ (WServe c v rt (got ++ [e])) H) as K. cbn [job_of count_occ] in *. destruct (Nat.eq_dec c d); lia.
  - pose proof (occ_jobs_set _ d _ _ (WDrained c v rt got) H) as K. cbn [job_of count_occ] in *. destruct (Nat.eq_dec c d); lia.
Qed.

Lemma jobs_end w l w' e b : wstep dbg R w l w' -> ends l = Some (e, b) ->
  In e (jobs w) /\ forall d, occ (jobs w') d = occ (jobs w) d - (if e =? d then 1 else 0).
Proof.
  intros S E. assert (K : forall i x x', nth_error (ws_workers w) i = Some x -> job_of x = [e] -> job_of x' = [] ->
    ws_queue w' = ws_queue w -> ws_workers w' = set_nth i x' (ws_workers w) ->
    In e (jobs w) /\ forall d, occ (jobs w') d = occ (jobs w) d - (if e =? d then 1 else 0)).
  { intros i x x' N J J' Q W. split.
    - unfold jobs. apply in_or_app. right. apply in_flat_map. exists x. split; [eapply nth_error_In; eauto|rewrite J; now left].
    - intros d. unfold jobs. rewrite Q, W, !count_occ_app. pose proof (occ_jobs_set _ d _ _ x' N) as K. rewrite J, J' in K.
      cbn [count_occ] in K. destruct (Nat.eq_dec e d) as [->|Ne]; [rewrite Nat.eqb_refl; lia|]. destruct (Nat.eqb_spec e d); [congruence|lia]. }
  destruct S; try discriminate; inversion E; subst; (eapply K; [eassumption|reflexivity| |reflexivity|unfold wput; cbn [ws_workers]; reflexivity]; reflexivity).
Qed.

Lemma batch_one c t b B : In (EvSocket c t b) B -> In c (flat_map socket_of B).
Proof. intros H. apply in_flat_map. exists (EvSocket c t b). split; auto. now left. Qed.

Lemma finv_init size : finv (f_init size).
Proof.
  split; [apply pinv_init|reflexivity|]. intros d. cbn. induction size as [|n IH]; auto.
Qed.

Lemma finv_step st l st' : finv st -> fstep dbg R st l st' -> finv st'.
Proof.
  intros [P L J] S. destruct S as [st c t its w' G S|st c t w' G S|st p' S F|st l p' M S|st c ok p' S|st c r p' S A|st l w' I S|st l d b w' p' E S S']; cbn [f_w f_p] in *.
  - split; cbn [f_w f_p]; auto.
    + now rewrite (wconns_length _ _ _ S).
    + intros d. rewrite J. symmetry. eapply jobs_inner; eauto; discriminate.
  - split; cbn [f_w f_p]; auto.
    + now rewrite (wconns_length _ _ _ S).
    + intros d. rewrite J. symmetry. eapply jobs_inner; eauto; discriminate.
  - split; cbn [f_w f_p]; [eapply pinv_step; eauto| |].
    + cbn [polled ws_conns]. rewrite clear_all_length, L. now inversion S.
    + intros d. change (jobs (polled (p_batch p') (f_w st))) with (jobs (f_w st)). rewrite <- J. now inversion S.
  - split; cbn [f_w f_p]; [eapply pinv_step; eauto| |].
    + rewrite L. destruct l; try discriminate; inversion S as [| | | | |? ? ? ? ? ? B Li E| |]; subst; auto.
      unfold on_write_closed in E. destruct (remove _ _). now inversion E.
    + intros d. rewrite <- J. destruct l; try discriminate; inversion S as [| | | | |? ? ? ? ? ? B Li E| |]; subst; auto.
      unfold on_write_closed in E. destruct (remove _ _). now inversion E.
  - inversion S as [| |? ? ? Li E| | | | |]; subst. unfold on_connection in E.
    destruct ok; [destruct (insert _ _) as [[s' k]|]|]; inversion E; subst; split; cbn [f_w f_p]; try (eapply pinv_step; eauto; fail);
      cbn [add_conn ws_conns p_next p_jobs]; rewrite ?app_length, ?L; cbn [List.length]; try lia; exact J.
  - inversion S as [| | | | | |? ? t bb ? ? B Li E|]; subst. unfold on_ready in E. inversion E; subst. split; cbn [f_w f_p]; [eapply pinv_step; eauto| |].
    + cbn [p_next]. destruct (get (p_slab (f_p st)) t); auto.
    + intros d. cbn [p_jobs]. destruct (get (p_slab (f_p st)) t) as [e|]; cbn [enqueue]; auto.
      unfold jobs in *. cbn [ws_queue ws_workers]. rewrite !count_occ_app in *. rewrite J, count_occ_app. lia.
  - split; cbn [f_w f_p]; auto.
    + now rewrite (wconns_length _ _ _ S).
    + intros d. rewrite J. symmetry. eapply jobs_inner; eauto; destruct l; try discriminate; reflexivity.
  - destruct (jobs_end _ _ _ _ _ S E) as [_ K]. split; cbn [f_w f_p]; [eapply pinv_step; eauto| |].
    + rewrite (wconns_length _ _ _ S), L. now inversion S'.
    + intros x. rewrite K, <- J. inversion S'; subst. cbn [p_jobs]. now rewrite occ_drop_one.
Qed.

Lemma finv_run size ls st : frun dbg R (f_init size) ls st -> finv st.
Proof. intros Rn. remember (f_init size) as i. induction Rn; subst; [apply finv_init|eapply finv_step; eauto]. Qed.

Lemma frun_prun size ls st : frun dbg R (f_init size) ls st -> prun poll_init (pparts ls) (f_p st).
Proof.
  intros Rn. remember (f_init size) as i. induction Rn as [|st0 ls st1 l st2 Rn IH S]; subst; [constructor|]. specialize (IH eq_refl).
  change (pparts (l :: ls)) with (ppart l ++ pparts ls).
  destruct S as [st c t its w' G S|st c t w' G S|st p' S F|st l p' M S|st c ok p' S|st c r p' S A|st l w' I S|st l d b w' p' E S S']; cbn [f_w f_p ppart app ends]; auto; try (econstructor; eauto; fail).
  - destruct l; try discriminate; auto.
  - rewrite E. econstructor; eauto.
Qed.

Lemma in_jobs_iff st d : finv st -> In d (p_jobs (f_p st)) <-> In d (jobs (f_w st)).
Proof. intros F. rewrite !(count_occ_In Nat.eq_dec). now rewrite (fi_jobs _ F). Qed.

Lemma tidy_frun st ls st' : tidy dbg R st ls st' -> frun dbg R st ls st'.
Proof. induction 1; [constructor|econstructor; eauto]. Qed.

Lemma tidy_quiet size ls st : tidy dbg R (f_init size) ls st -> quiet_run poll_init (pparts ls) (f_p st).
Proof.
  intros T. remember (f_init size) as i. induction T as [|st0 ls st1 l st2 T IH S Q]; subst; [constructor|]. specialize (IH eq_refl).
  pose proof (finv_run _ _ _ (tidy_frun _ _ _ T)) as F.
  change (pparts (l :: ls)) with (ppart l ++ pparts ls).
  destruct S as [st c t its w' G S|st c t w' G S|st p' S F'|st l p' M S|st c ok p' S|st c r p' S A|st l w' I S|st l d b w' p' E S S']; cbn [f_w f_p ppart app ends]; auto;
    try (econstructor; eauto; cbn [quiet]; auto; fail).
  - econstructor; eauto. destruct l; cbn [quiet]; auto. rewrite (in_jobs_iff _ _ F). eapply Q; eauto.
  - destruct l; try discriminate; auto.
  - rewrite E. econstructor; eauto. exact I.
Qed.

(** ** Projection to Model/Whole.v *)

Definition tagged (e : nat -> bool) (w : wstate) (c : nat) : wconn :=
  match nth_error (ws_conns w) c with Some x => with_event (wc_event x || e c) x | None => wc_new end.
Definition retag (e : nat -> bool) (N : nat) (w : wstate) : wstate :=
  mk_wstate (map (tagged e w) (seq 0 N)) (ws_queue w) (ws_workers w).

Lemma retag_nth e N w c x : c < N -> nth_error (ws_conns w) c = Some x ->
  nth_error (ws_conns (retag e N w)) c = Some (with_event (wc_event x || e c) x).
Proof. intros H E. cbn [retag ws_conns]. rewrite nth_map_seq by assumption. unfold tagged. now rewrite E. Qed.

Lemma retag_upd e N w c x y q ws : nth_error (ws_conns w) c = Some x ->
  mk_wstate (wupd (retag e N w) c (with_event (wc_event y || e c) y)) q ws = retag e N (mk_wstate (wupd w c y) q ws).
Proof.
  intros E. unfold retag, wupd. cbn [ws_conns ws_queue ws_workers]. f_equal. rewrite set_nth_seq. apply map_ext. intros d. cbn [Nat.add].
  unfold tagged. cbn [ws_conns]. destruct (Nat.eqb_spec d c) as [->|Ne].
  - now rewrite (nth_set_same _ _ _ _ E).
  - now rewrite nth_set_other by congruence.
Qed.

Lemma retag_same e N w q ws : mk_wstate (ws_conns (retag e N w)) q ws = retag e N (mk_wstate (ws_conns w) q ws).
Proof. reflexivity. Qed.

Lemma retag_step e N w l w' : wstep dbg R w l w' -> working l = true -> List.length (ws_conns w) <= N ->
  wstep dbg R (retag e N w) l (retag e N w').
Proof.
  intros S W L. assert (Lt : forall c x, nth_error (ws_conns w) c = Some x -> c < N).
  { intros c x E. assert (c < List.length (ws_conns w)) by (apply nth_error_Some; congruence). lia. }
  destruct S; try discriminate W; try (pose proof (Lt _ _ H0) as HN; pose proof (retag_nth e N _ _ _ HN H0) as Nx).
  - rewrite <- retag_same. eapply (ws_take dbg R (retag e N st)); eauto.
  - rewrite <- (retag_upd e N _ _ _ _ _ _ H0). eapply (ws_enter dbg R (retag e N st) i c (with_event (wc_event x || e c) x)); eauto.
  - rewrite <- retag_same. eapply (ws_skip dbg R (retag e N st) i c (with_event (wc_event x || e c) x)); eauto.
  - rewrite <- retag_same. eapply (ws_die dbg R (retag e N st) i c (with_event (wc_event x || e c) x)); eauto.
  - rewrite <- (retag_upd e N _ _ _ _ _ _ H0). eapply (ws_read dbg R (retag e N st) i c (with_event (wc_event x || e c) x)); eauto.
  - rewrite <- retag_same. eapply (ws_drain dbg R (retag e N st) i c (with_event (wc_event x || e c) x)); eauto.
  - rewrite <- (retag_upd e N _ _ _ _ _ _ H0). eapply (ws_keep dbg R (retag e N st) i c (with_event (wc_event x || e c) x)); eauto.
  - rewrite <- (retag_upd e N _ _ _ _ _ _ H0). eapply (ws_close dbg R (retag e N st) i c (with_event (wc_event x || e c) x)); eauto.
  - rewrite <- (retag_upd e N _ _ _ _ _ _ H0). eapply (ws_crash dbg R (retag e N st) i c (with_event (wc_event x || e c) x)); eauto.
Qed.

Lemma retag_ext e e' N w w' : (forall c, c < N -> tagged e w c = tagged e' w' c) -> ws_queue w = ws_queue w' -> ws_workers w = ws_workers w' ->
  retag e N w = retag e' N w'.
Proof.
  intros H Q W. unfold retag. rewrite Q, W. f_equal. apply map_ext_in. intros c Hc. apply in_seq in Hc. apply H. lia.
Qed.

Definition silent (L : list wlabel) : Prop := (forall c, received c L = []) /\ (forall c, calls c L = []).

Lemma notify_ok e e' N w c : c < List.length (ws_conns w) -> List.length (ws_conns w) <= N -> e' c = true -> (forall d, d <> c -> d < List.length (ws_conns w) -> e' d = e d) ->
  exists L, wrun dbg R (retag e N w) L (retag e' N w) /\ silent L.
Proof.
  intros Lc LN E1 E2. destruct (nth_error (ws_conns w) c) as [x|] eqn:Ex; [|apply nth_error_None in Ex; lia].
  exists [ANotify c]. split; [|split; reflexivity]. econstructor; [constructor|].
  replace (retag e' N w) with (mk_wstate (wupd (retag e N w) c (with_event true x)) (ws_queue (retag e N w)) (ws_workers (retag e N w))).
  - eapply (ws_notify dbg R (retag e N w) c (with_event (wc_event x || e c) x)). apply retag_nth; [lia|assumption].
  - unfold retag, wupd. cbn [ws_conns ws_queue ws_workers]. f_equal. rewrite set_nth_seq. apply map_ext. intros d. cbn [Nat.add].
    unfold tagged. destruct (Nat.eqb_spec d c) as [->|Ne].
    + rewrite Ex, E1, orb_true_r. reflexivity.
    + destruct (nth_error (ws_conns w) d) eqn:Ed; auto. rewrite E2; auto. apply nth_error_Some. congruence.
Qed.

Lemma dispatch_ok e e' N w c : c < List.length (ws_conns w) -> List.length (ws_conns w) <= N ->
  (forall d, d <> c -> d < List.length (ws_conns w) -> e' d = e d) -> existsb walive (ws_workers w) = true ->
  exists L, wrun dbg R (retag e N w) L (retag e' N (enqueue (Some c) w)) /\ silent L.
Proof.
  intros Lc LN E2 A. destruct (nth_error (ws_conns w) c) as [x|] eqn:Ex; [|apply nth_error_None in Ex; lia].
  destruct (notify_ok e (fun d => if d =? c then true else e d) N w c Lc LN) as (L1 & R1 & S1 & S2).
  { now rewrite Nat.eqb_refl. } { intros d Hd _. destruct (Nat.eqb_spec d c); congruence. }
  set (e1 := fun d => if d =? c then true else e d) in *.
  assert (X1 : nth_error (ws_conns (retag e1 N w)) c = Some (with_event true x)).
  { rewrite (retag_nth e1 N w c x) by (assumption || lia). unfold e1. rewrite Nat.eqb_refl, orb_true_r. reflexivity. }
  set (w1 := mk_wstate (wupd (retag e1 N w) c (with_event false x)) (ws_queue w ++ [c]) (ws_workers w)).
  assert (R2 : wrun dbg R (retag e N w) (ADispatch c :: L1) w1).
  { econstructor; [exact R1|]. apply (ws_dispatch dbg R (retag e1 N w) c (with_event true x) X1); auto. }
  assert (T : mk_wstate (wupd (retag e1 N w) c (with_event (wc_event x || e' c) x)) (ws_queue w ++ [c]) (ws_workers w) = retag e' N (enqueue (Some c) w)).
  { unfold retag, wupd. cbn [enqueue ws_conns ws_queue ws_workers]. f_equal. rewrite set_nth_seq. apply map_ext. intros d. cbn [Nat.add].
    unfold tagged. cbn [ws_conns]. destruct (Nat.eqb_spec d c) as [->|Ne].
    - now rewrite Ex.
    - destruct (nth_error (ws_conns w) d) eqn:Ed; auto. rewrite E2; auto; [|apply nth_error_Some; congruence]. unfold e1. destruct (Nat.eqb_spec d c); [congruence|reflexivity]. }
  destruct (wc_event x || e' c) eqn:F.
  - exists (ANotify c :: ADispatch c :: L1). split; [|split; intros d; cbn [received calls]; auto].
    econstructor; [exact R2|].
    replace (retag e' N (enqueue (Some c) w)) with (mk_wstate (wupd w1 c (with_event true x)) (ws_queue w1) (ws_workers w1)).
    + apply (ws_notify dbg R w1 c (with_event false x)). cbn [w1 ws_conns]. unfold wupd. eapply nth_set_same; eauto.
    + rewrite <- T. unfold w1, wupd. cbn [ws_conns ws_queue ws_workers]. now rewrite set_nth_twice.
  - exists (ADispatch c :: L1). split; [|split; intros d; cbn [received calls]; auto]. now rewrite <- T.
Qed.

Definition batched (p : pstate) (c : nat) : bool := existsb (Nat.eqb c) (flat_map socket_of (p_batch p)).
Definition extra (p : pstate) (c : nat) : bool := batched p c || negb (in_slab c (p_slab p)).
Definition proj (N : nat) (st : fstate) : wstate := retag (extra (f_p st)) N (f_w st).

Lemma in_slab_false c s : in_slab c s = false <-> forall t, get s t <> Some c.
Proof.
  split.
  - intros H t G. assert (in_slab c s = true) by (apply in_slab_get; eauto). congruence.
  - intros H. destruct (in_slab c s) eqn:E; auto. apply in_slab_get in E as [t E]. now apply H in E.
Qed.

Lemma batched_iff p c : batched p c = true <-> In c (flat_map socket_of (p_batch p)).
Proof. apply in_jobs. Qed.
Lemma batched_event p c : In c (flat_map socket_of (p_batch p)) <-> exists t b, In (EvSocket c t b) (p_batch p).
Proof.
  rewrite in_flat_map. split.
  - intros ([|d t b] & H & K); [destruct K|]. destruct K as [->|[]]. eauto.
  - intros (t & b & H). exists (EvSocket c t b). split; auto. now left.
Qed.

(** An event about a connection that is in the slab finds it. *)
Lemma own_event p c t b B : pinv p -> p_batch p = EvSocket c t b :: B -> get (p_slab p) t <> Some c -> in_slab c (p_slab p) = false.
Proof.
  intros (I & J1 & J2 & K1 & K2 & N & D) E H. apply in_slab_false. intros t' G. apply H.
  replace t with t'; auto. apply (K2 c t t'); auto. right. exists b. rewrite E. now left.
Qed.

Lemma sim N st l st' : finv st -> fstep dbg R st l st' -> p_next (f_p st') <= N ->
  exists L, wrun dbg R (proj N st) L (proj N st') /\ (forall c, received c L = received c (wpart l)) /\ (forall c, calls c L = calls c (wpart l)).
Proof.
  intros Fi S Le. pose proof (finv_step _ _ _ Fi S) as Fi'. destruct Fi as [P L J].
  assert (Quiet : forall L0, silent L0 -> wrun dbg R (proj N st) L0 (proj N st') -> wpart l = [] ->
    exists L, wrun dbg R (proj N st) L (proj N st') /\ (forall c, received c L = received c (wpart l)) /\ (forall c, calls c L = calls c (wpart l))).
  { intros L0 [S1 S2] R0 ->. exists L0. auto. }
  assert (Still : proj N st = proj N st' -> wpart l = [] ->
    exists L, wrun dbg R (proj N st) L (proj N st') /\ (forall c, received c L = received c (wpart l)) /\ (forall c, calls c L = calls c (wpart l))).
  { intros E W. apply (Quiet []); auto; [now split|]. rewrite <- E. constructor. }
  destruct S as [st c t its w' G S|st c t w' G S|st p' S F|st l p' M S|st c ok p' S|st c r p' S A|st l w' I S|st l d b w' p' E S S']; cbn [f_w f_p wpart] in *.
  - exists [AArrive c its]. split; [|split; reflexivity]. econstructor; [constructor|]. inversion S as [? ? x ? Nx O Ne Fp| | | | | | | | | | |]; subst.
    unfold proj. cbn [f_w f_p].
    replace (retag (extra (f_p st)) N (mk_wstate (wupd (f_w st) c (mk_wconn (wc_sock x ++ its) true (wc_slot x) (wc_log x))) (ws_queue (f_w st)) (ws_workers (f_w st))))
      with (mk_wstate (wupd (retag (extra (f_p st)) N (f_w st)) c (mk_wconn (wc_sock x ++ its) true (wc_slot x) (wc_log x))) (ws_queue (f_w st)) (ws_workers (f_w st))).
    + apply (ws_arrive dbg R (retag (extra (f_p st)) N (f_w st)) c (with_event (wc_event x || extra (f_p st) c) x)); auto. apply retag_nth; auto.
      assert (c < List.length (ws_conns (f_w st))) by (apply nth_error_Some; congruence). lia.
    + rewrite <- (retag_upd _ _ _ _ _ _ _ _ Nx). reflexivity.
  - exists [ANotify c]. split; [|split; reflexivity]. econstructor; [constructor|]. inversion S as [|? ? x Nx| | | | | | | | | |]; subst.
    unfold proj. cbn [f_w f_p].
    replace (retag (extra (f_p st)) N (mk_wstate (wupd (f_w st) c (mk_wconn (wc_sock x) true (wc_slot x) (wc_log x))) (ws_queue (f_w st)) (ws_workers (f_w st))))
      with (mk_wstate (wupd (retag (extra (f_p st)) N (f_w st)) c (mk_wconn (wc_sock x) true (wc_slot x) (wc_log x))) (ws_queue (f_w st)) (ws_workers (f_w st))).
    + apply (ws_notify dbg R (retag (extra (f_p st)) N (f_w st)) c (with_event (wc_event x || extra (f_p st) c) x)); auto. apply retag_nth; auto.
      assert (c < List.length (ws_conns (f_w st))) by (apply nth_error_Some; congruence). lia.
    + rewrite <- (retag_upd _ _ _ _ _ _ _ _ Nx). reflexivity.
  - apply Still; auto. inversion S as [? evs B Li Fe Nd| | | | | | |]; subst. cbn [p_batch] in F. apply retag_ext; auto. intros d Hd. cbn [f_w f_p polled ws_conns p_batch].
    unfold tagged, polled. cbn [ws_conns f_w f_p p_batch]. rewrite clear_all_nth. unfold extra, batched. rewrite B. cbn [p_batch p_slab flat_map existsb orb].
    destruct (existsb (Nat.eqb d) (flat_map socket_of evs)) eqn:Ed.
    + apply existsb_exists in Ed as (d' & Hd' & Eq). apply Nat.eqb_eq in Eq. subst d'. apply in_flat_map in Hd' as ([|d' t b] & H1 & H2); [destruct H2|]. destruct H2 as [->|[]].
      destruct (F _ _ _ H1) as (x & Nx & Ex). rewrite Nx. cbn [option_map with_event wc_event wc_sock wc_slot wc_log orb]. now rewrite Ex.
    + destruct (nth_error (ws_conns (f_w st)) d); reflexivity.
  - destruct l as [| |? ?| | |? ?|c r|? ?]; try discriminate; cbn [f_w f_p] in *.
    + apply Still; auto. inversion S as [|? bb B Li| | | | | |]; subst. apply retag_ext; auto. intros d Hd. cbn [f_p f_w]. unfold tagged, extra, batched. rewrite B. reflexivity.
    + apply Still; auto. inversion S; subst. reflexivity.
    + apply Still; auto. inversion S; subst. reflexivity.
    + inversion S as [| | | | |? ? t bb ? ? B Li E| |]; subst. pose proof (own_event _ _ _ _ _ P B) as Own.
      destruct P as (I & J1 & J2 & K1 & K2 & Nd & D).
      unfold on_write_closed in E. destruct (remove (p_slab (f_p st)) t) as [r' s'] eqn:Er. inversion E; subst r' p'. clear E.
      destruct (remove_spec _ _ _ _ I Er) as (I1 & Hr & G1 & L1 & _). cbn [p_next] in Le.
      rewrite B in Nd. cbn [flat_map socket_of app] in Nd. apply NoDup_cons_iff in Nd as [Nd1 Nd2].
      assert (Bt : forall d, batched (f_p st) d = (d =? c) || existsb (Nat.eqb d) (flat_map socket_of bb)) by (intros d; unfold batched; rewrite B; reflexivity).
      assert (Sl : forall d, in_slab d s' = true <-> in_slab d (p_slab (f_p st)) = true /\ r <> Some d).
      { intros d. rewrite !in_slab_get. split.
        - intros [t' G']. rewrite G1 in G'. destruct (Nat.eqb_spec t t') as [->|Ne]; [discriminate|]. split; [eauto|]. rewrite Hr.
          intros G''. apply Ne. eapply J2; eauto.
        - intros [[t' G'] Nr]. exists t'. rewrite G1. destruct (Nat.eqb_spec t t') as [->|Ne]; [congruence|assumption]. }
      destruct r as [d|].
      * assert (Hd : d < p_next (f_p st)) by (eapply J1; eauto).
        destruct (notify_ok (extra (f_p st)) (extra (mk_pstate s' (p_next (f_p st)) (sweep s' (p_jobs (f_p st)) (p_reg (f_p st))) (p_jobs (f_p st)) bb (p_listening (f_p st)))) N (f_w st) d) as (L0 & R0 & S0); try lia.
        -- unfold extra. cbn [p_slab]. replace (in_slab d s') with false; [apply orb_true_r|]. symmetry. apply not_true_iff_false. rewrite Sl. tauto.
        -- intros d' Nd' Ld'. unfold extra. cbn [p_slab]. rewrite Bt. unfold batched. cbn [p_batch].
           assert (in_slab d' s' = in_slab d' (p_slab (f_p st))) as ->. { apply eq_true_iff_eq. rewrite Sl. split; [tauto|]. split; auto. congruence. }
           destruct (Nat.eqb_spec d' c) as [->|Ne]; auto. rewrite Own by congruence. rewrite !orb_true_r. reflexivity.
        -- apply (Quiet L0); auto.
      * apply Still; auto. apply retag_ext; auto. intros d Hd. cbn [f_w f_p]. unfold tagged. destruct (nth_error (ws_conns (f_w st)) d); auto. f_equal. f_equal.
        unfold extra. cbn [p_slab]. rewrite Bt. unfold batched. cbn [p_batch].
        assert (in_slab d s' = in_slab d (p_slab (f_p st))) as ->. { apply eq_true_iff_eq. rewrite Sl. split; [tauto|]. split; auto. congruence. }
        destruct (Nat.eqb_spec d c) as [->|Ne]; auto. rewrite Own by congruence. now rewrite !orb_true_r.
  - inversion S as [| |? ? ? Li E| | | | |]; subst. destruct P as (I & J1 & J2 & K1 & K2 & Nd & D).
    assert (Bt : batched (f_p st) (p_next (f_p st)) = false).
    { apply not_true_iff_false. rewrite batched_iff, batched_event. intros (t & b & H). assert (known (f_p st) (p_next (f_p st)) t) as K by (right; eauto). apply K1 in K. lia. }
    unfold on_connection in E. destruct ok.
    + destruct (insert_spec (p_slab (f_p st)) (p_next (f_p st)) I) as (s1 & E1 & I1 & G0 & G1 & L1 & _ & L2).
      rewrite E1 in E. inversion E; subst p'. clear E. apply Still; auto. apply retag_ext; auto. intros d Hd. cbn [f_w f_p]. unfold tagged. cbn [add_conn ws_conns].
      assert (Sl : forall d, in_slab d s1 = true <-> in_slab d (p_slab (f_p st)) = true \/ d = p_next (f_p st)).
      { intros d'. rewrite !in_slab_get. split.
        - intros [t' G']. rewrite G1 in G'. destruct (next_key (p_slab (f_p st)) =? t'); [inversion G'; auto|left; eauto].
        - intros [[t' G'] | ->].
          + exists t'. rewrite G1. destruct (Nat.eqb_spec (next_key (p_slab (f_p st))) t') as [<-|Ne]; congruence.
          + exists (next_key (p_slab (f_p st))). now rewrite G1, Nat.eqb_refl. }
      destruct (Nat.lt_trichotomy d (p_next (f_p st))) as [Hl|[->|Hl]].
      * rewrite nth_error_app1 by lia. destruct (nth_error (ws_conns (f_w st)) d); auto. f_equal. f_equal. unfold extra, batched. cbn [p_slab p_batch]. f_equal. f_equal.
        apply eq_true_iff_eq. rewrite Sl. intuition lia.
      * rewrite nth_error_app2 by lia. rewrite L, Nat.sub_diag. cbn [nth_error]. rewrite (proj2 (nth_error_None _ _)) by lia.
        unfold with_event. cbn [wc_event wc_new wc_sock wc_slot wc_log orb]. unfold extra. cbn [p_slab]. fold wc_new.
        unfold batched in *. cbn [p_batch]. rewrite Bt. cbn [orb]. rewrite (proj2 (Sl _)) by auto. reflexivity.
      * rewrite !(proj2 (nth_error_None _ _)); auto; rewrite ?app_length; cbn [List.length]; lia.
    + inversion E; subst p'. clear E. cbn [p_next] in Le.
      destruct (notify_ok (fun d => if d =? p_next (f_p st) then false else extra (f_p st) d) (extra (f_p st)) N (add_conn (f_w st)) (p_next (f_p st))) as (L0 & R0 & S0).
      * cbn [add_conn ws_conns]. rewrite app_length. cbn. lia.
      * cbn [add_conn ws_conns]. rewrite app_length. cbn. lia.
      * unfold extra. replace (in_slab _ _) with false; [apply orb_true_r|]. symmetry. apply in_slab_false. intros t G. apply J1 in G. lia.
      * intros d Ne _. destruct (Nat.eqb_spec d (p_next (f_p st))); congruence.
      * apply (Quiet L0); auto.
        replace (proj N st) with (retag (fun d => if d =? p_next (f_p st) then false else extra (f_p st) d) N (add_conn (f_w st))); [exact R0|].
        apply retag_ext; auto. intros d Hd. unfold tagged. cbn [add_conn ws_conns].
        destruct (Nat.lt_trichotomy d (p_next (f_p st))) as [Hl|[->|Hl]].
        -- rewrite nth_error_app1 by lia. destruct (Nat.eqb_spec d (p_next (f_p st))); [lia|reflexivity].
        -- rewrite nth_error_app2 by lia. rewrite L, Nat.sub_diag. cbn [nth_error]. rewrite (proj2 (nth_error_None _ _)) by lia. now rewrite Nat.eqb_refl.
        -- rewrite !(proj2 (nth_error_None _ _)); auto; rewrite ?app_length; cbn [List.length]; lia.
  - inversion S as [| | | | | |? ? t bb ? ? B Li E|]; subst. unfold on_ready in E. inversion E; subst r p'. clear E.
    pose proof (own_event _ _ _ _ _ P B) as Own. destruct P as (I & J1 & J2 & K1 & K2 & Nd & D). cbn [p_next] in Le.
    assert (Bt : forall d, batched (f_p st) d = (d =? c) || existsb (Nat.eqb d) (flat_map socket_of bb)) by (intros d; unfold batched; rewrite B; reflexivity).
    destruct (get (p_slab (f_p st)) t) as [d|] eqn:Gt.
    + assert (Hd : d < p_next (f_p st)) by (eapply J1; eauto).
      destruct (dispatch_ok (extra (f_p st)) (extra (mk_pstate (p_slab (f_p st)) (p_next (f_p st)) (p_reg (f_p st)) (p_jobs (f_p st) ++ [d]) bb (p_listening (f_p st)))) N (f_w st) d) as (L0 & R0 & S0); try lia.
      * intros d' Ne _. unfold extra. cbn [p_slab]. rewrite Bt. unfold batched. cbn [p_batch].
        destruct (Nat.eqb_spec d' c) as [->|Ne']; auto. rewrite Own by congruence. now rewrite !orb_true_r.
      * apply A. discriminate.
      * apply (Quiet L0); auto.
    + apply Still; auto. apply retag_ext; auto. intros d Hd. cbn [f_w f_p enqueue]. unfold tagged. destruct (nth_error (ws_conns (f_w st)) d); auto. f_equal. f_equal.
      unfold extra. cbn [p_slab]. rewrite Bt. unfold batched. cbn [p_batch].
      destruct (Nat.eqb_spec d c) as [->|Ne]; auto. rewrite Own by congruence. cbn [negb]. rewrite !orb_true_r. reflexivity.
  - exists [l]. split; [|split; reflexivity]. econstructor; [constructor|]. apply (retag_step _ N _ _ _ S); [destruct l; auto; discriminate|]. cbn [f_p] in Le. lia.
  - exists [l]. split; [|split; reflexivity]. econstructor; [constructor|]. unfold proj. cbn [f_w f_p].
    assert (X : p_next p' = p_next (f_p st) /\ forall c, extra p' c = extra (f_p st) c) by (inversion S'; subst; split; reflexivity). destruct X as [X1 X2].
    replace (retag (extra p') N w') with (retag (extra (f_p st)) N w').
    + apply (retag_step _ N _ _ _ S); [destruct l; auto; discriminate|]. lia.
    + apply retag_ext; auto. intros c _. unfold tagged. now rewrite X2.
Qed.

Lemma received_app c a b : received c (a ++ b) = received c b ++ received c a.
Proof.
  induction a as [|l a IH]; cbn [app received]; [now rewrite app_nil_r|].
  destruct l; auto. now rewrite IH, app_assoc.
Qed.
Lemma calls_app c a b : calls c (a ++ b) = calls c b ++ calls c a.
Proof.
  induction a as [|l a IH]; cbn [app calls]; [now rewrite app_nil_r|].
  destruct l; auto; now rewrite IH, app_assoc.
Qed.
Lemma wrun_join a ls b : wrun dbg R a ls b -> forall ls' c, wrun dbg R b ls' c -> wrun dbg R a (ls' ++ ls) c.
Proof. intros Rn ls' c R'. induction R'; cbn [app]; auto. econstructor; eauto. Qed.

Lemma next_mono st l st' : fstep dbg R st l st' -> p_next (f_p st) <= p_next (f_p st').
Proof.
  destruct 1 as [st c t its w' G S|st c t w' G S|st p' S F|st l p' M S|st c ok p' S|st c r p' S A|st l w' I S|st l d b w' p' E S S']; cbn [f_p]; auto.
  - inversion S; subst; auto.
  - destruct l; try discriminate; inversion S as [| | | | |? ? t bb ? ? B Li E| |]; subst; auto.
    unfold on_write_closed in E. destruct (remove _ _). inversion E; subst; auto.
  - inversion S as [| |? ? ? Li E| | | | |]; subst. unfold on_connection in E.
    destruct ok; [destruct (insert _ _) as [[s' k]|]|]; inversion E; subst; cbn; lia.
  - inversion S as [| | | | | |? ? t bb ? ? B Li E|]; subst. unfold on_ready in E. inversion E; subst; auto.
  - inversion S'; subst; auto.
Qed.

Lemma proj_init N size : proj N (f_init size) = w_init N size.
Proof.
  unfold proj, retag, w_init, f_init. cbn [f_w ws_conns ws_queue ws_workers]. f_equal. generalize 0 as a.
  induction N as [|N IH]; intros a; auto. cbn [seq map repeat]. rewrite IH. f_equal. unfold tagged. cbn [ws_conns]. now destruct a.
Qed.

(** Every run is, for the connections and what is in them, a run of Model/Whole.v. *)
Lemma sim_run size ls st : frun dbg R (f_init size) ls st -> forall N, p_next (f_p st) <= N ->
  exists L, wrun dbg R (w_init N size) L (proj N st) /\
    (forall c, received c L = received c (wparts ls)) /\ (forall c, calls c L = calls c (wparts ls)).
Proof.
  intros Rn. remember (f_init size) as i. induction Rn as [|st0 ls st1 l st2 Rn IH S]; subst; intros N Le.
  - exists []. rewrite proj_init. split; [constructor|split; reflexivity].
  - pose proof (finv_run _ _ _ Rn) as F. destruct (IH eq_refl N) as (L1 & R1 & A1 & B1).
    { pose proof (next_mono _ _ _ S). lia. }
    destruct (sim N _ _ _ F S Le) as (L2 & R2 & A2 & B2). exists (L2 ++ L1). split; [eapply wrun_join; eauto|].
    change (wparts (l :: ls)) with (wpart l ++ wparts ls).
    split; intros c; rewrite ?received_app, ?calls_app; rewrite ?A1, ?A2, ?B1, ?B2; reflexivity.
Qed.

(** ** Registrations *)

Lemma open_step w l w' c x' : wstep dbg R w l w' -> nth_error (ws_conns w') c = Some x' -> wopen x' = true ->
  ends l <> Some (c, true) ->
  exists x, nth_error (ws_conns w) c = Some x /\ wopen x = true.
Proof.
  intros S N O E. destruct S; unfold wupd in N; cbn [ws_conns] in N; eauto;
    (match type of N with nth_error (set_nth ?d ?y _) _ = _ => destruct (Nat.eq_dec d c) as [->|Ne] end;
     [|rewrite nth_set_other in N by assumption; eauto]);
    (match goal with H : nth_error (ws_conns _) c = Some ?y |- _ => exists y; split; [exact H|]; rewrite (nth_set_same _ _ _ _ H) in N; inversion N; subst x'; unfold wopen in *; cbn [wc_slot] in * end);
    auto; try (match goal with H : wc_slot _ = _ |- _ => rewrite H; reflexivity end); discriminate.
Qed.

Lemma closes_slot w l w' c x' : wstep dbg R w l w' -> nth_error (ws_conns w') c = Some x' -> ends l = Some (c, true) -> wopen x' = false.
Proof.
  intros S N E. destruct S; try discriminate; inversion E; subst; unfold wupd in N; cbn [ws_conns] in N;
    rewrite (nth_set_same _ _ _ _ H0) in N; inversion N; subst x'; reflexivity.
Qed.

(** A connection in the slab that was not dropped has its socket registered. *)
Definition regs (st : fstate) : Prop := forall c x, nth_error (ws_conns (f_w st)) c = Some x -> wopen x = true ->
  in_slab c (p_slab (f_p st)) = true -> connected c st.

Lemma regs_step st l st' : finv st -> regs st -> fstep dbg R st l st' -> regs st'.
Proof.
  intros [P L J] G S. destruct S as [st c t its w' H S|st c t w' H S|st p' S F|st l p' M S|st c ok p' S|st c r p' S A|st l w' I S|st l d b w' p' E S S']; intros e y Ny Oy Sy; cbn [f_w f_p] in *.
  - destruct (open_step _ _ _ _ _ S Ny Oy) as (x & Nx & Ox); [discriminate|]. exact (G e x Nx Ox Sy).
  - destruct (open_step _ _ _ _ _ S Ny Oy) as (x & Nx & Ox); [discriminate|]. exact (G e x Nx Ox Sy).
  - cbn [polled ws_conns] in Ny. rewrite clear_all_nth in Ny.
    assert (X : exists x, nth_error (ws_conns (f_w st)) e = Some x /\ wopen x = true).
    { destruct (existsb _ _); [|eauto]. destruct (nth_error (ws_conns (f_w st)) e) as [x|]; inversion Ny; subst y. eauto. }
    destruct X as (x & Nx & Ox). inversion S; subst. exact (G e x Nx Ox Sy).
  - destruct l as [| |? ?| | |? ?|c r|? ?]; try discriminate.
    + inversion S; subst. exact (G e y Ny Oy Sy).
    + inversion S; subst. exact (G e y Ny Oy Sy).
    + inversion S; subst. exact (G e y Ny Oy Sy).
    + inversion S as [| | | | |? ? t bb ? ? B Li E| |]; subst. destruct P as (I & _).
      unfold on_write_closed in E. destruct (remove (p_slab (f_p st)) t) as [r' s'] eqn:Er. inversion E; subst r' p'. clear E.
      destruct (remove_spec _ _ _ _ I Er) as (I1 & Hr & G1 & L1 & _). cbn [p_slab] in Sy.
      assert (Sy' : in_slab e (p_slab (f_p st)) = true).
      { apply in_slab_get in Sy as [t' Sy]. rewrite G1 in Sy. destruct (t =? t'); [discriminate|]. apply in_slab_get. eauto. }
      destruct (G e y Ny Oy Sy') as [t' K]. exists t'. cbn [f_p p_reg]. apply sweep_in. split; auto. left. now apply in_slab_get.
  - inversion S as [| |? ? ? Li E| | | | |]; subst. destruct P as (I & J1 & _). unfold on_connection in E. cbn [add_conn ws_conns] in Ny.
    destruct (Nat.eq_dec e (p_next (f_p st))) as [->|Ne].
    + destruct ok; [destruct (insert _ _) as [[s' k]|]|]; inversion E; subst p'.
      * eexists. cbn [f_p p_reg]. now left.
      * exfalso. cbn [p_slab] in Sy. apply in_slab_get in Sy as [t Sy]. apply J1 in Sy. lia.
    + assert (e < p_next (f_p st)).
      { assert (e < List.length (ws_conns (f_w st) ++ [wc_new])) by (apply nth_error_Some; congruence). rewrite app_length in *. cbn in *. lia. }
      rewrite nth_error_app1 in Ny by lia. destruct ok.
      * destruct (insert_spec (p_slab (f_p st)) (p_next (f_p st)) I) as (s1 & E1 & I1 & G0 & G1 & L1 & _ & L2). rewrite E1 in E. inversion E; subst p'.
        assert (Sy' : in_slab e (p_slab (f_p st)) = true).
        { cbn [p_slab] in Sy. apply in_slab_get in Sy as [t' Sy]. rewrite G1 in Sy. destruct (next_key _ =? t'); [inversion Sy; congruence|]. apply in_slab_get. eauto. }
        destruct (G e y Ny Oy Sy') as [t' K]. exists t'. cbn [f_p p_reg]. now right.
      * inversion E; subst p'. destruct (G e y Ny Oy Sy) as [t' K]. exists t'. exact K.
  - inversion S as [| | | | | |? ? t bb ? ? B Li E|]; subst. unfold on_ready in E. inversion E; subst r p'. clear E.
    assert (Ny' : nth_error (ws_conns (f_w st)) e = Some y) by (destruct (get (p_slab (f_p st)) t); exact Ny).
    exact (G e y Ny' Oy Sy).
  - destruct (open_step _ _ _ _ _ S Ny Oy) as (x & Nx & Ox); [destruct l; discriminate|]. exact (G e x Nx Ox Sy).
  - assert (Eb : b = true -> d <> e).
    { intros -> ->. rewrite (closes_slot _ _ _ _ _ S Ny E) in Oy. discriminate. }
    destruct (open_step _ _ _ _ _ S Ny Oy) as (x & Nx & Ox).
    { rewrite E. intros K. inversion K; subst. now apply Eb. }
    inversion S'; subst. cbn [p_slab] in Sy. destruct (G e x Nx Ox Sy) as [t' K]. exists t'. cbn [f_p p_reg]. apply sweep_in.
    split; [|left; now apply in_slab_get]. destruct b; auto. apply filter_In. split; auto. cbn [fst].
    destruct (Nat.eqb_spec e d); auto. exfalso. apply (Eb eq_refl). congruence.
Qed.

Lemma regs_run size ls st : frun dbg R (f_init size) ls st -> regs st.
Proof.
  intros Rn. remember (f_init size) as i. induction Rn as [|st0 ls st1 l st2 Rn IH S]; subst.
  - intros c x N. now destruct c.
  - eapply regs_step; eauto. eapply finv_run; eauto.
Qed.

(** ** At rest *)

Lemma resting_main st : resting dbg R st -> worker_left (f_w st) = true ->
  p_batch (f_p st) = [] /\ p_listening (f_p st) = false /\ forall c t, In (c, t) (p_reg (f_p st)) -> ~ has_event (f_w st) c.
Proof.
  intros A W. assert (Li : p_listening (f_p st) = false).
  { destruct (p_listening (f_p st)) eqn:E; auto. specialize (A _ _ (fs_main dbg R st Blocked _ eq_refl (step_blocked _ E))). discriminate. }
  assert (B : p_batch (f_p st) = []).
  { destruct (p_batch (f_p st)) as [|[|c t b] B] eqn:E; auto; exfalso.
    - specialize (A _ _ (fs_main dbg R st Listening _ eq_refl (step_listen _ _ E Li))). discriminate.
    - destruct b.
      + destruct (on_write_closed (f_p st) t B) as [r p'] eqn:K.
        specialize (A _ _ (fs_main dbg R st (Closed c r) _ eq_refl (step_closed _ _ _ _ _ _ E Li K))). discriminate.
      + destruct (on_ready (f_p st) t B) as [r p'] eqn:K.
        specialize (A _ _ (fs_ready dbg R st c r _ (step_ready _ _ _ _ _ _ E Li K) (fun _ => W))). discriminate. }
  split; auto. split; auto. intros c t G H.
  assert (S : pstep (f_p st) Polled (mk_pstate (p_slab (f_p st)) (p_next (f_p st)) (p_reg (f_p st)) (p_jobs (f_p st)) [EvSocket c t false] false)).
  { apply step_poll; auto. cbn. repeat constructor. intros []. }
  assert (F : forall c' t' b, In (EvSocket c' t' b) [EvSocket c t false] -> has_event (f_w st) c').
  { intros c' t' b [K|[]]. inversion K; subst. exact H. }
  specialize (A _ _ (fs_poll dbg R st _ S F)). discriminate.
Qed.

Lemma good_event ls w w' c x b : ws_workers w' = ws_workers w -> good dbg R ls w c (with_event b x) -> good dbg R ls w' c x.
Proof. intros E [A B C D]. split; auto; rewrite E; auto. Qed.

Lemma resting_idle size ls st : (forall c, exists rt, respects R c rt) -> frun dbg R (f_init size) ls st -> resting dbg R st ->
  worker_left (f_w st) = true ->
  ws_queue (f_w st) = [] /\ Forall (fun w => w = WFree \/ w = WDead) (ws_workers (f_w st)).
Proof.
  intros Tot Rn A W. pose proof (finv_run _ _ _ Rn) as F. pose proof F as [P L J].
  destruct (sim_run _ _ _ Rn (p_next (f_p st)) (le_n _)) as (L0 & R0 & _ & _).
  destruct (no_work_idle dbg R L0 (f_w st) Tot) as [Q I]; auto.
  - intros c x N. apply (good_event _ (proj (p_next (f_p st)) st) _ _ _ (wc_event x || extra (f_p st) c)); [reflexivity|].
    apply (winv_run dbg R _ _ _ _ Tot R0). apply retag_nth; auto. rewrite <- L. apply nth_error_Some. congruence.
  - assert (K : forall d, In d (jobs (f_w st)) -> d < List.length (map hconn (ws_conns (f_w st)))).
    { intros d H. rewrite map_length, L. apply (in_jobs_iff _ _ F) in H. destruct P as (_ & _ & _ & _ & _ & _ & D). auto. }
    split; cbn [habs h_queue h_workers h_conns].
    + apply Forall_forall. intros d H. apply K. unfold jobs. apply in_or_app. now left.
    + apply Forall_forall. intros h H. apply in_map_iff in H as (w & <- & H).
      assert (K' : forall d, In d (job_of w) -> d < List.length (map hconn (ws_conns (f_w st)))).
      { intros d Hd. apply K. unfold jobs. apply in_or_app. right. apply in_flat_map. eauto. }
      destruct w; cbn [hwork job_of] in *; auto; apply K'; now left.
  - intros l w' S. destruct (working l) eqn:Ew; auto. exfalso. destruct (ends l) as [[d b]|] eqn:E.
    + destruct (jobs_end _ _ _ _ _ S E) as [Hd _]. apply (in_jobs_iff _ _ F) in Hd.
      specialize (A _ _ (fs_end dbg R st l d b _ _ E S (step_finished _ d b Hd))). destruct l; discriminate.
    + assert (I : inner l = true) by (destruct l; auto; discriminate).
      specialize (A _ _ (fs_work dbg R st l _ I S)). destruct l; discriminate.
Qed.

Lemma resting_read size ls st c x : (forall c, exists rt, respects R c rt) -> frun dbg R (f_init size) ls st -> resting dbg R st ->
  worker_left (f_w st) = true -> nth_error (ws_conns (f_w st)) c = Some x -> wopen x = true -> in_slab c (p_slab (f_p st)) = true ->
  wc_sock x = [] /\ exists k, wc_slot x = WHere k.
Proof.
  intros Tot Rn A W N O Sl. destruct (resting_idle _ _ _ Tot Rn A W) as [Q I]. destruct (resting_main _ A W) as (B & Li & E).
  pose proof (finv_run _ _ _ Rn) as F. destruct (sim_run _ _ _ Rn (p_next (f_p st)) (le_n _)) as (L0 & R0 & _ & _).
  destruct (regs_run _ _ _ Rn c x N O Sl) as [t Rg].
  assert (Ev : wc_event x = false). { destruct (wc_event x) eqn:K; auto. exfalso. apply (E c t Rg). exists x. auto. }
  destruct (idle_read dbg R _ _ _ _ c (with_event (wc_event x || extra (f_p st) c) x) Tot R0) as [K1 [k K2]].
  - cbn [proj retag ws_queue]. now rewrite Q.
  - exact I.
  - apply retag_nth; auto. destruct F as [_ L _]. rewrite <- L. apply nth_error_Some. congruence.
  - cbn [with_event wc_event]. rewrite Ev. unfold extra, batched. rewrite B, Sl. reflexivity.
  - exact O.
  - cbn [with_event wc_sock wc_slot] in *. eauto.
Qed.

(** ** Termination *)

Definition load_of (e : event) : nat := match e with EvListener => 2 | EvSocket _ _ _ => 11 end.
Definition total (st : fstate) : nat :=
  2 * work (habs (f_w st)) + sum (map load_of (p_batch (f_p st))) + (if p_listening (f_p st) then 1 else 0).

Lemma clear_work cs : forall l, NoDup cs -> (forall c, In c cs -> exists x, nth_error l c = Some x /\ wc_event x = true) ->
  sum (map load (map hconn (fold_left clear_event cs l))) + 6 * List.length cs = sum (map load (map hconn l)).
Proof.
  induction cs as [|c cs IH]; intros l Nd H; [cbn [fold_left List.length]; lia|]. inversion Nd as [|? ? N1 N2]; subst. cbn [fold_left List.length].
  destruct (H c (or_introl eq_refl)) as (x & Nx & Ex). specialize (IH (clear_event l c) N2).
  assert (Hc : clear_event l c = set_nth c (with_event false x) l) by (unfold clear_event; now rewrite Nx).
  rewrite Hc in *. rewrite map_set in IH. pose proof (sum_set load _ _ _ (hconn (with_event false x)) (map_nth_error hconn _ _ Nx)) as K.
  unfold load in K at 2 4. cbn [hconn c_unread c_event with_event wc_event wc_sock] in K. rewrite Ex in K. cbn [hb2n] in K. rewrite <- IH in K; [lia|].
  intros d Hd. destruct (H d (or_intror Hd)) as (y & Ny & Ey). exists y. split; auto. rewrite nth_set_other; auto. congruence.
Qed.

Lemma batch_load evs : existsb new_connection evs = false -> sum (map load_of evs) = 11 * List.length (flat_map socket_of evs).
Proof.
  unfold sum. induction evs as [|[|c t b] evs IH]; intros H; auto; [discriminate|]. cbn [existsb new_connection orb] in H. specialize (IH H). cbn [map load_of fold_right flat_map socket_of app List.length]. lia.
Qed.

Lemma total_step size ls st l st' : (forall c, exists rt, respects R c rt) -> frun dbg R (f_init size) ls st ->
  fstep dbg R st l st' -> from_outside l = false -> total st' < total st.
Proof.
  intros Tot Rn S X. pose proof (finv_run _ _ _ Rn) as F.
  assert (Ws : forall l w', wstep dbg R (f_w st) l w' -> outside l = false -> work (habs w') < work (habs (f_w st))).
  { intros l0 w' S0 O. destruct (sim_run _ _ _ Rn (p_next (f_p st)) (le_n _)) as (L0 & R0 & _ & _).
    apply (work_step _ (hlab l0)); [|now destruct l0]. apply (habs_step dbg R L0); auto.
    intros c x N. apply (good_event _ (proj (p_next (f_p st)) st) _ _ _ (wc_event x || extra (f_p st) c)); [reflexivity|].
    apply (winv_run dbg R _ _ _ _ Tot R0). apply retag_nth; auto. destruct F as [_ L _]. rewrite <- L. apply nth_error_Some. congruence. }
  unfold total. destruct S as [st c t its w' G S|st c t w' G S|st p' S F'|st l p' M S|st c ok p' S|st c r p' S A|st l w' I S|st l d b w' p' E S S']; cbn [f_w f_p]; try discriminate.
  - inversion S as [? evs B Li Ev Nd| | | | | | |]; subst. cbn [p_batch p_listening] in *. rewrite B, Li.
    pose proof (clear_work (flat_map socket_of evs) (ws_conns (f_w st)) Nd) as K.
    assert (X' : existsb new_connection evs = false) by (cbn [from_outside] in X; destruct evs; [discriminate|exact X]).
    rewrite (batch_load _ X'). unfold work, polled. cbn [habs h_conns h_queue h_workers ws_conns ws_queue ws_workers].
    assert (Pos : 0 < List.length (flat_map socket_of evs)) by (destruct evs as [|[|c t b] evs]; [discriminate|discriminate|cbn; lia]).
    specialize (K ltac:(intros c Hc; apply in_flat_map in Hc as ([|c' t b] & H1 & H2); [destruct H2|destruct H2 as [->|[]]; destruct (F' _ _ _ H1) as (x & H); eauto])).
    change (sum (map load_of [])) with 0. lia.
  - destruct l; try discriminate.
    + inversion S as [|? bb B Li| | | | | |]; subst. cbn [p_batch p_listening]. rewrite B, Li. change (sum (map load_of (EvListener :: bb))) with (2 + sum (map load_of bb)). lia.
    + inversion S as [| | | |? Li| | |]; subst. cbn [p_batch p_listening]. rewrite Li. lia.
    + inversion S as [| | | | |? ? t bb ? ? B Li E| |]; subst. unfold on_write_closed in E. destruct (remove _ _). inversion E; subst. cbn [p_batch p_listening].
      rewrite B, Li. match goal with |- context [EvSocket ?a ?b ?c :: ?d] => change (sum (map load_of (EvSocket a b c :: d))) with (11 + sum (map load_of d)) end. lia.
  - inversion S as [| | | | | |? ? t bb ? ? B Li E|]; subst. unfold on_ready in E. inversion E; subst. cbn [p_batch p_listening]. rewrite B, Li.
    change (sum (map load_of (EvSocket c t false :: bb))) with (11 + sum (map load_of bb)).
    destruct (get (p_slab (f_p st)) t); cbn [enqueue]; [|lia]. unfold work. cbn [habs h_conns h_queue h_workers ws_conns ws_queue ws_workers].
    rewrite app_length. cbn [List.length]. lia.
  - assert (O : outside l = false) by (destruct l; try discriminate; auto). specialize (Ws _ _ S O). lia.
  - assert (O : outside l = false) by (destruct l; try discriminate; auto). specialize (Ws _ _ S O).
    inversion S'; subst. cbn [p_batch p_listening]. lia.
Qed.

(** ** A connection that was removed *)

Lemma no_job_same w l w' c x : wstep dbg R w l w' -> ~ In c (jobs w) -> nth_error (ws_conns w) c = Some x ->
  exists x', nth_error (ws_conns w') c = Some x' /\ wc_slot x' = wc_slot x /\ wc_log x' = wc_log x.
Proof.
  intros S J N.
  assert (K : forall i y, nth_error (ws_workers w) i = Some y -> ~ In c (job_of y)).
  { intros i y Hy H. apply J. unfold jobs. apply in_or_app. right. apply in_flat_map. exists y. split; auto. eapply nth_error_In; eauto. }
  assert (U : forall d y y', nth_error (ws_conns w) d = Some y -> (d = c -> wc_slot y' = wc_slot y /\ wc_log y' = wc_log y) ->
    exists x', nth_error (set_nth d y' (ws_conns w)) c = Some x' /\ wc_slot x' = wc_slot x /\ wc_log x' = wc_log x).
  { intros d y y' Ny H. destruct (Nat.eq_dec d c) as [->|Ne]; [|rewrite nth_set_other by assumption; eauto].
    rewrite (nth_set_same _ _ _ _ Ny). assert (y = x) by congruence. subst y. destruct (H eq_refl). eauto. }
  destruct S; unfold wupd; cbn [ws_conns]; eauto; (eapply U; [eassumption|]); intros ->; auto;
    exfalso; (eapply K; [eassumption|now left]).
Qed.

Definition forgotten (c : nat) (st : fstate) : Prop :=
  in_slab c (p_slab (f_p st)) = false /\ ~ In c (jobs (f_w st)) /\ c < p_next (f_p st) /\ ~ connected c st.

Lemma forgotten_step st l st' c x : finv st -> forgotten c st -> fstep dbg R st l st' -> nth_error (ws_conns (f_w st)) c = Some x ->
  forgotten c st' /\ exists x', nth_error (ws_conns (f_w st')) c = Some x' /\ wc_slot x' = wc_slot x /\ wc_log x' = wc_log x.
Proof.
  intros F (Sl & Jb & Lt & Cn) S N. pose proof F as [P L J]. pose proof (finv_step _ _ _ F S) as F'.
  assert (no_new : forall l w', wstep dbg R (f_w st) l w' -> ends l = None -> (forall d, l <> ADispatch d) -> ~ In c (jobs w')).
  { clear - Jb. intros l w' S E D K. apply Jb. apply (count_occ_In Nat.eq_dec). apply (count_occ_In Nat.eq_dec) in K.
    now rewrite (jobs_inner _ _ _ S E D) in K. }
  destruct S as [st d t its w' G S|st d t w' G S|st p' S Fe|st l p' M S|st d ok p' S|st d r p' S A|st l w' I S|st l d b w' p' E S S']; unfold forgotten, connected; cbn [f_w f_p] in *.
  - split; [|eapply no_job_same; eauto]. split; auto. split; auto. apply (no_new _ _ S); auto; discriminate.
  - split; [|eapply no_job_same; eauto]. split; auto. split; auto. apply (no_new _ _ S); auto; discriminate.
  - split; [inversion S; subst; auto|]. cbn [polled ws_conns]. rewrite clear_all_nth, N. destruct (existsb _ _); cbn [option_map]; eauto.
  - split; [|eauto]. destruct l as [| |? ?| | |? ?|d r|? ?]; try discriminate; inversion S as [| | | | |? ? t bb ? ? B Li E| |]; subst; auto.
    destruct P as (I & _). unfold on_write_closed in E. destruct (remove (p_slab (f_p st)) t) as [r' s'] eqn:Er. inversion E; subst r' p'. cbn [p_slab p_next p_reg].
    destruct (remove_spec _ _ _ _ I Er) as (I1 & Hr & G1 & L1 & _). repeat split; auto.
    + destruct (in_slab c s') eqn:K; auto. apply in_slab_get in K as [t' K]. rewrite G1 in K. destruct (t =? t'); [discriminate|].
      assert (in_slab c (p_slab (f_p st)) = true) by (apply in_slab_get; eauto). congruence.
    + intros [t' K]. apply sweep_in in K as [K _]. apply Cn. now exists t'.
  - inversion S as [| |? ? ? Li E| | | | |]; subst. destruct P as (I & _). split.
    + unfold on_connection in E. destruct ok.
      * destruct (insert_spec (p_slab (f_p st)) (p_next (f_p st)) I) as (s1 & E1 & I1 & G0 & G1 & L1 & _ & L2). rewrite E1 in E. inversion E; subst p'. cbn [p_slab p_next p_reg].
        repeat split; auto.
        -- destruct (in_slab c s1) eqn:K; auto. apply in_slab_get in K as [t' K]. rewrite G1 in K. destruct (next_key _ =? t'); [inversion K; lia|].
           assert (in_slab c (p_slab (f_p st)) = true) by (apply in_slab_get; eauto). congruence.
        -- intros [t' [K|K]]; [inversion K; lia|]. apply Cn. now exists t'.
      * inversion E; subst p'. cbn [p_slab p_next p_reg]. repeat split; auto.
    + cbn [add_conn ws_conns]. rewrite nth_error_app1 by lia. eauto.
  - inversion S as [| | | | | |? ? t bb ? ? B Li E|]; subst. unfold on_ready in E. inversion E; subst r p'. cbn [p_slab p_next p_reg]. split.
    + repeat split; auto. destruct (get (p_slab (f_p st)) t) as [e|] eqn:K; cbn [enqueue]; auto. unfold jobs. cbn [ws_queue ws_workers].
      intros H. apply Jb. unfold jobs. rewrite !in_app_iff in H. apply in_or_app. destruct H as [[H|[->|[]]]|H]; auto.
      assert (in_slab c (p_slab (f_p st)) = true) by (apply in_slab_get; eauto). congruence.
    + destruct (get (p_slab (f_p st)) t); cbn [enqueue ws_conns]; eauto.
  - split; [|eapply no_job_same; eauto]. split; auto. split; auto. apply (no_new _ _ S); destruct l; try discriminate; auto.
  - split; [|eapply no_job_same; eauto]. destruct (jobs_end _ _ _ _ _ S E) as [_ K]. inversion S'; subst. cbn [p_slab p_next p_reg]. repeat split; auto.
    + intros H. apply Jb. apply (count_occ_In Nat.eq_dec). apply (count_occ_In Nat.eq_dec) in H. rewrite K in H. lia.
    + intros [t H]. apply sweep_in in H as [H _]. apply Cn. exists t. destruct b; auto. now apply filter_In in H.
Qed.

Lemma forgotten_run st ls st' c x : frun dbg R st ls st' -> finv st -> forgotten c st -> nth_error (ws_conns (f_w st)) c = Some x ->
  forgotten c st' /\ exists x', nth_error (ws_conns (f_w st')) c = Some x' /\ wc_slot x' = wc_slot x /\ wc_log x' = wc_log x.
Proof.
  intros Rn F G N. induction Rn as [|st ls st1 l st2 Rn IH S]; [eauto|]. destruct (IH F G N) as (G1 & x1 & N1 & A1 & B1).
  assert (F1 : finv st1).
  { clear - F Rn. induction Rn as [|? ? ? ? ? Rn IH S]; [exact F|]. eapply finv_step; [apply IH; exact F|exact S]. }
  destruct (forgotten_step _ _ _ _ _ F1 G1 S N1) as (G2 & x2 & N2 & A2 & B2). split; auto. exists x2. rewrite A2, B2. auto.
Qed.

End Full.
