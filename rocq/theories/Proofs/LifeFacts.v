(** The end of the server. *)
From Coq Require Import List Bool Arith Lia.
From Verif.Model Require Import Bytes Io Common Parse Encode Writer Server Handlers Slab Poll Whole Full Life.
From Verif.Spec Require Import Stream Output Session Arrivals Events Ending.
From Verif.Proofs Require Import HandlersFacts WholeFacts SlabFacts PollFacts FullFacts.
Import ListNotations.

Local Notation occ := (count_occ Nat.eq_dec).

Definition gone (w : wworker) : bool := negb (walive w).
Definition dead (w : wstate) : nat := List.length (filter gone (ws_workers w)).
Definition living (w : wstate) : nat := List.length (filter walive (ws_workers w)).
Definition crashes (ls : list llabel) : nat := List.length (filter panics ls).
Definition orphan (l : llabel) : bool := match l with LOrphan _ => true | _ => false end.
Definition orphans (ls : list llabel) : nat := List.length (filter orphan ls).
Definition wlabels (ls : list llabel) : list wlabel := wparts (server_parts ls).

Lemma filter_set {A} (p : A -> bool) l : forall i x y, nth_error l i = Some x ->
  List.length (filter p (set_nth i y l)) + (if p x then 1 else 0) = List.length (filter p l) + (if p y then 1 else 0).
Proof.
  induction l as [|z l IH]; intros [|i] x y H; try discriminate; cbn [nth_error set_nth filter] in *.
  - inversion H; subst. destruct (p x), (p y); cbn [List.length]; lia.
  - specialize (IH _ _ y H). destruct (p z); cbn [List.length]; lia.
Qed.

Lemma dead_living w : dead w + living w = List.length (ws_workers w).
Proof. unfold dead, living. induction (ws_workers w) as [|x l IH]; auto. cbn [filter List.length]. unfold gone in *. destruct (walive x); cbn [negb List.length]; lia. Qed.

Lemma living_zero w : living w = 0 <-> existsb walive (ws_workers w) = false.
Proof. unfold living. induction (ws_workers w) as [|x l IH]; [easy|]. cbn [filter existsb]. destruct (walive x); cbn [orb List.length]; [split; discriminate|auto]. Qed.

Section Life.
Variables (dbg : bool) (R : nat -> request -> lresult -> Prop).

Lemma wstep_dead w l w' : wstep dbg R w l w' ->
  dead w' = dead w + (if panics (LF (FW l)) then 1 else 0) /\ List.length (ws_workers w') = List.length (ws_workers w).
Proof.
  unfold dead. intros S.
  assert (K : forall n i x y, nth_error (ws_workers w) i = Some x -> gone x = false -> ws_workers w' = set_nth i y (ws_workers w) ->
    (if gone y then 1 else 0) = n -> List.length (filter gone (ws_workers w')) = List.length (filter gone (ws_workers w)) + n /\
    List.length (ws_workers w') = List.length (ws_workers w)).
  { intros n i x y N G E H. rewrite E, set_nth_length. pose proof (filter_set gone _ _ _ y N) as Q. rewrite G in Q. split; auto. lia. }
  destruct S; cbn [panics]; try (cbn [ws_workers]; split; [lia|reflexivity]);
    (eapply K; [eassumption|reflexivity|unfold wput; cbn [ws_workers]; reflexivity|reflexivity]).
Qed.

Lemma fstep_dead f l f' : fstep dbg R f l f' ->
  dead (f_w f') = dead (f_w f) + (if panics (LF l) then 1 else 0) /\ List.length (ws_workers (f_w f')) = List.length (ws_workers (f_w f)).
Proof.
  intros S. destruct S as [st c t its w' G S|st c t w' G S|st p' S F'|st l p' M S|st c ok p' S|st c r p' S A|st l w' I S|st l d b w' p' E S S'];
    cbn [f_w]; try (apply wstep_dead; assumption); cbn [panics]; unfold dead; try (cbn [polled add_conn ws_workers]; split; lia).
  destruct r; cbn [enqueue ws_workers]; split; lia.
Qed.

(** A worker that is dead stays so. *)
Lemma dead_stays w l w' i : wstep dbg R w l w' -> nth_error (ws_workers w) i = Some WDead -> nth_error (ws_workers w') i = Some WDead.
Proof.
  intros S N. destruct S; unfold wput; cbn [ws_workers]; auto;
    (rewrite nth_set_other; [assumption|intros ->; congruence]).
Qed.

(** The queue grows by dispatching alone. *)
Lemma queue_empty w l w' : wstep dbg R w l w' -> (forall c, l <> ADispatch c) -> ws_queue w = [] -> ws_queue w' = [].
Proof. intros S D Q. destruct S; cbn [ws_queue]; auto; [now destruct (D c)|congruence]. Qed.

Record base (size : nat) (ls : list llabel) (st : lstate) : Prop := mk_base {
  ba_winv : winv dbg R (wlabels ls) (f_w (l_f st));
  ba_len : List.length (ws_conns (f_w (l_f st))) = p_next (f_p (l_f st));
  ba_jobs : forall d, occ (p_jobs (f_p (l_f st))) d = occ (jobs (f_w (l_f st))) d;
  ba_bound : forall d, In d (p_jobs (f_p (l_f st))) -> d < p_next (f_p (l_f st));
  ba_size : List.length (ws_workers (f_w (l_f st))) = size;
  ba_dead : dead (f_w (l_f st)) = List.length (l_done st) + crashes ls + orphans ls;
  ba_nodup : NoDup (l_done st);
  ba_done : forall i, In i (l_done st) -> nth_error (ws_workers (f_w (l_f st))) i = Some WDead;
  ba_queue : l_done st <> [] -> ws_queue (f_w (l_f st)) = [] }.

Definition phase (size : nat) (ls : list llabel) (st : lstate) : Prop :=
  match l_main st with
  | MServing | MAborted => l_done st = [] /\ l_term st = 0 /\ orphans ls = 0 /\ frun dbg R (f_init size) (server_parts ls) (l_f st)
  | MSending e n => List.length (l_done st) + l_term st + n = size /\ orphans ls = 0 /\ In (LStop e) ls
  | MJoining e k => List.length (l_done st) + l_term st = size /\ orphans ls = 0 /\ In (LStop e) ls /\ (forall i, i < k -> In i (l_done st))
  | MReturned e => orphans ls = 0 /\ In (LStop e) ls /\ In (LReturn e) ls /\ (forall i, i < size -> In i (l_done st))
  | MUnwound => 0 < crashes ls
  end.

(** Past the event loop no socket is open but those of jobs. *)
Definition closed_down (st : lstate) : Prop :=
  ending (l_main st) = true ->
  (forall t, get (p_slab (f_p (l_f st))) t = None) /\ (forall c t, In (c, t) (p_reg (f_p (l_f st))) -> In c (p_jobs (f_p (l_f st)))).

Definition linv (size : nat) (ls : list llabel) (st : lstate) : Prop := base size ls st /\ phase size ls st /\ closed_down st.

Lemma wlabels_cons l ls : wlabels (l :: ls) = match l with LF (FW x) => x :: wlabels ls | _ => wlabels ls end.
Proof. unfold wlabels. destruct l as [[l|evs|l]|e| | |i|i|e| |]; reflexivity. Qed.

(** While it serves. *)
Lemma serving_winv size ls f : (forall c, exists rt, respects R c rt) -> frun dbg R (f_init size) ls f -> winv dbg R (wparts ls) (f_w f).
Proof.
  intros Tot Rn c x N. pose proof (finv_run dbg R _ _ _ Rn) as F. destruct (sim_run dbg R _ _ _ Rn (p_next (f_p f)) (le_n _)) as (L0 & R0 & A & B).
  apply (good_event dbg R _ (proj (p_next (f_p f)) f) _ _ _ (wc_event x || extra (f_p f) c)); [reflexivity|].
  eapply good_conn; [reflexivity|symmetry; apply B|symmetry; apply A|].
  apply (winv_run dbg R _ _ _ _ Tot R0). apply retag_nth; auto. destruct F as [_ L _]. rewrite <- L. apply nth_error_Some. congruence.
Qed.

Lemma slab_new_get n t : get (slab_new n) t = (None : option nat).
Proof. unfold get, slab_new. cbn. destruct t; reflexivity. Qed.

(** A step of a worker, of the kernel or of a peer is one of the second part. *)
Lemma fw_step f l f' : fstep dbg R f (FW l) f' -> wstep dbg R (f_w f) l (f_w f') /\ (forall c, l <> ADispatch c).
Proof.
  intros S. inversion S as [st c t its w' G W|st c t w' G W| | | | |st l0 w' I W|st l0 d b w' p' E W S']; subst; cbn [f_w]; split; auto;
    intros e K; try discriminate; subst l; discriminate.
Qed.

Lemma crash_count l ls : crashes (l :: ls) = (if panics l then 1 else 0) + crashes ls.
Proof. unfold crashes. cbn [filter]. destruct (panics l); reflexivity. Qed.
Lemma orphan_count l ls : orphans (l :: ls) = (if orphan l then 1 else 0) + orphans ls.
Proof. unfold orphans. cbn [filter]. destruct (orphan l); reflexivity. Qed.

Lemma base_serve size ls f l f' t : (forall c, exists rt, respects R c rt) -> base size ls (mk_lstate f MServing t []) ->
  frun dbg R (f_init size) (server_parts ls) f -> fstep dbg R f l f' -> base size (LF l :: ls) (mk_lstate f' MServing t []).
Proof.
  intros Tot B Rn S. assert (Rn' : frun dbg R (f_init size) (server_parts (LF l :: ls)) f').
  { cbn [server_parts flat_map server_part app]. econstructor; eauto. }
  destruct (fstep_dead _ _ _ S) as [D L]. pose proof (finv_run dbg R _ _ _ Rn') as [P Ln J].
  destruct B as [_ _ _ _ B5 B6 _ _ _]. cbn [l_f l_done] in *. split; cbn [l_f l_done]; auto.
  - unfold wlabels. apply (serving_winv size); auto.
  - apply P.
  - congruence.
  - rewrite crash_count, orphan_count, D, B6. cbn [orphan List.length]. lia.
  - constructor.
  - intros i [].
  - congruence.
Qed.

Lemma base_work size ls f l f' m t d : base size ls (mk_lstate f m t d) -> fstep dbg R f (FW l) f' ->
  base size (LF (FW l) :: ls) (mk_lstate f' m t d).
Proof.
  intros [B1 B2 B3 B4 B5 B6 B7 B8 B9] S. destruct (fstep_dead _ _ _ S) as [D L]. destruct (fw_step _ _ _ S) as [W Nd].
  cbn [l_f l_done] in *.
  assert (Pj : p_next (f_p f') = p_next (f_p f) /\ (forall x, occ (p_jobs (f_p f')) x = occ (jobs (f_w f')) x) /\
    (forall x, In x (p_jobs (f_p f')) -> In x (p_jobs (f_p f)))).
  { inversion S as [st c k its w' G W'|st c k w' G W'| | | | |st l0 w' I W'|st l0 e b w' p' E W' S']; subst; cbn [f_w f_p] in *.
    - split; auto. split; auto. intros x. now rewrite B3, (jobs_inner dbg R _ _ _ W).
    - split; auto. split; auto. intros x. now rewrite B3, (jobs_inner dbg R _ _ _ W).
    - split; auto. split; auto. intros x. rewrite B3, (jobs_inner dbg R _ _ _ W); auto. destruct l; discriminate || reflexivity.
    - inversion S'; subst. cbn [p_next p_jobs]. destruct (jobs_end dbg R _ _ _ _ _ W E) as [_ J]. split; auto. split.
      + intros x. now rewrite occ_drop_one, J, B3.
      + intros x. apply drop_one_in. }
  destruct Pj as (P1 & P2 & P3). split; cbn [l_f l_done]; auto.
  - rewrite wlabels_cons. apply (winv_step dbg R _ _ _ _ B1 W).
  - rewrite P1, (wconns_length dbg R _ _ _ W). exact B2.
  - intros x Hx. rewrite P1. auto.
  - congruence.
  - rewrite crash_count, orphan_count, D, B6. cbn [orphan]. lia.
  - intros i Hi. eapply dead_stays; eauto.
  - intros Hd. eapply queue_empty; eauto.
Qed.

Lemma closed_work size ls f l f' m t d : base size ls (mk_lstate f m t d) -> fstep dbg R f (FW l) f' ->
  closed_down (mk_lstate f m t d) -> closed_down (mk_lstate f' m t d).
Proof.
  intros _ S C E. specialize (C E). cbn [l_f] in *.
  inversion S as [st c k its w' G W'|st c k w' G W'| | | | |st l0 w' I W'|st l0 e b w' p' En W' S']; subst; cbn [f_w f_p] in *; auto.
  inversion S'; subst. cbn [p_slab p_reg p_jobs]. destruct C as [C1 C2]. split; auto. intros c k H. apply sweep_in in H as [_ [[t' H]|H]]; auto.
  now rewrite C1 in H.
Qed.

Lemma base_end size ls f m t t' i d b l : base size ls (mk_lstate f m t d) -> nth_error (ws_workers (f_w f)) i = Some WFree ->
  ws_queue (f_w f) = [] -> (l = LTerminate i /\ b = true \/ l = LOrphan i /\ b = false) ->
  base size (l :: ls) (mk_lstate (end_worker f i) m t' (if b then i :: d else d)).
Proof.
  intros [B1 B2 B3 B4 B5 B6 B7 B8 B9] N Q Hl. cbn [l_f l_done] in *.
  assert (Dd : dead (f_w (end_worker f i)) = S (dead (f_w f))).
  { unfold dead, end_worker, wput. cbn [f_w ws_workers]. pose proof (filter_set gone _ _ _ WDead N) as K. cbn [gone walive negb] in K. lia. }
  split; cbn [l_f l_done]; auto.
  - intros c x Nx. cbn [end_worker f_w ws_conns] in Nx. eapply (good_worker dbg R (wlabels ls) _ (f_w f) _ c x i WFree WDead); eauto.
    + destruct Hl as [[-> _]|[-> _]]; reflexivity.
    + destruct Hl as [[-> _]|[-> _]]; reflexivity.
  - intros x. rewrite B3. unfold jobs, end_worker, wput. cbn [f_w ws_queue ws_workers]. rewrite !count_occ_app.
    pose proof (occ_jobs_set _ x _ _ WDead N) as K. cbn [job_of count_occ] in K. lia.
  - unfold end_worker, wput. cbn [f_w ws_workers]. now rewrite set_nth_length.
  - rewrite Dd, B6, crash_count, orphan_count. destruct Hl as [[-> ->]|[-> ->]]; cbn [panics orphan List.length]; lia.
  - destruct b; auto. constructor; auto. intros Hi. apply B8 in Hi. congruence.
  - intros j Hj. unfold end_worker, wput. cbn [f_w ws_workers]. destruct (Nat.eq_dec i j) as [<-|Ne]; [now apply nth_set_same with WFree|].
    rewrite nth_set_other by auto. apply B8. destruct b; auto. destruct Hj as [Hj|Hj]; [contradiction|auto].
Qed.

(** Other steps of the main thread. *)
Lemma base_other size ls f m m' t t' d l : base size ls (mk_lstate f m t d) -> panics l = false -> orphan l = false ->
  wlabels (l :: ls) = wlabels ls -> base size (l :: ls) (mk_lstate f m' t' d).
Proof.
  intros [B1 B2 B3 B4 B5 B6 B7 B8 B9] P O W. split; cbn [l_f l_done] in *; auto.
  - now rewrite W.
  - rewrite crash_count, orphan_count, P, O. exact B6.
Qed.

Lemma base_stop size ls f m m' t d e : base size ls (mk_lstate f m t d) ->
  base size (LStop e :: ls) (mk_lstate (mk_fstate (f_w f) (drop_slab (f_p f))) m' t d).
Proof.
  intros [B1 B2 B3 B4 B5 B6 B7 B8 B9]. split; cbn [l_f l_done f_w f_p drop_slab p_jobs p_next] in *; auto.
Qed.

(** Distinct workers that returned are no more than the dead, and the dead no more than the workers. *)
Lemma all_done size ls st : base size ls st -> List.length (l_done st) = size -> forall i, i < size -> In i (l_done st).
Proof.
  intros B E i Hi. assert (K : incl (seq 0 size) (l_done st)).
  { apply NoDup_length_incl; [apply B|rewrite seq_length; lia|]. intros j Hj. apply in_seq. split; [lia|]. apply B in Hj.
    rewrite <- (ba_size _ _ _ B). apply nth_error_Some. congruence. }
  apply K, in_seq. lia.
Qed.

Lemma done_dead size ls st : base size ls st -> List.length (l_done st) + crashes ls + orphans ls <= size.
Proof. intros B. rewrite <- (ba_dead _ _ _ B), <- (ba_size _ _ _ B). pose proof (dead_living (f_w (l_f st))). lia. Qed.

Lemma dead_other size ls st k : base size ls st -> nth_error (ws_workers (f_w (l_f st))) k = Some WDead -> ~ In k (l_done st) ->
  List.length (l_done st) < dead (f_w (l_f st)).
Proof.
  intros B N Hk. unfold dead. set (ws := ws_workers (f_w (l_f st))) in *.
  assert (P : forall (l : list wworker) a, List.length (filter (fun i => match nth_error l (i - a) with Some w => gone w | None => false end) (seq a (List.length l))) =
    List.length (filter gone l)).
  { induction l as [|w l IH]; intros a; auto. cbn [List.length seq filter]. rewrite Nat.sub_diag. cbn [nth_error].
    assert (X : filter (fun i => match nth_error (w :: l) (i - a) with Some w => gone w | None => false end) (seq (S a) (List.length l)) =
      filter (fun i => match nth_error l (i - S a) with Some w => gone w | None => false end) (seq (S a) (List.length l))).
    { apply filter_ext_in. intros i Hi. apply in_seq in Hi. replace (i - a) with (S (i - S a)) by lia. reflexivity. }
    rewrite X. destruct (gone w); cbn [List.length]; now rewrite IH. }
  rewrite <- (P ws 0). change (S (List.length (l_done st)) <= List.length (filter (fun i => match nth_error ws (i - 0) with Some w => gone w | None => false end) (seq 0 (List.length ws)))).
  change (S (List.length (l_done st))) with (List.length (k :: l_done st)). apply NoDup_incl_length.
  - constructor; auto. apply B.
  - intros i Hi. assert (Ni : nth_error ws i = Some WDead). { destruct Hi as [<-|Hi]; auto. now apply B. }
    apply filter_In. split.
    + apply in_seq. split; [lia|]. apply nth_error_Some. congruence.
    + now rewrite Nat.sub_0_r, Ni.
Qed.

Lemma linv_init size : (forall c, exists rt, respects R c rt) -> linv size [] (l_init size).
Proof.
  intros Tot. pose proof (finv_init size) as [P L J]. split; [|split].
  - split; cbn [l_init l_f l_done]; auto.
    + apply (serving_winv size []); auto. constructor.
    + intros d [].
    + apply repeat_length.
    + unfold dead. cbn [f_init f_w ws_workers]. induction size as [|n IH]; auto.
    + constructor.
    + intros i [].
  - cbn. repeat split; auto. constructor.
  - intros H. discriminate.
Qed.

Lemma linv_step size ls st l st' : (forall c, exists rt, respects R c rt) -> linv size ls st -> lstep dbg R st l st' -> linv size (l :: ls) st'.
Proof.
  intros Tot (B & P & C) S.
  destruct S as [f l f' t d S|f t d c k b j Hb Li G A|f t d e Hb Li|f l f' m t d N1 N2 S|f e n t d A|f e n t d A|f e t d|f e k t d H|f e k t d H Nd|f e k t d H|f m t d i Nm N Q|f d i N Q];
    unfold linv, phase in *; cbn [l_main l_f l_done l_term] in *.
  - destruct P as (-> & -> & O & Rn). split; [eapply base_serve; eauto|]. split; [|intros E; discriminate].
    rewrite orphan_count. repeat split; auto. cbn [server_parts flat_map server_part app]. econstructor; eauto.
  - destruct P as (-> & -> & O & Rn). split; [eapply base_other; eauto|]. split; [|intros E; discriminate]. rewrite orphan_count. auto.
  - destruct P as (-> & -> & O & Rn). split; [eapply base_stop; eauto|]. rewrite orphan_count. split.
    + repeat split; [|exact O|now left]. apply (ba_size _ _ _ B).
    + intros _. cbn [l_f f_p drop_slab p_slab p_reg p_jobs]. split; [intros k; apply slab_new_get|].
      intros c k H. apply sweep_in in H as [_ [[k' H]|H]]; auto. now rewrite slab_new_get in H.
  - split; [eapply base_work; eauto|]. split; [|eapply closed_work; eauto]. rewrite orphan_count, crash_count. destruct m; try contradiction.
    + destruct P as (P1 & P2 & P3). repeat split; auto. now right.
    + destruct P as (P1 & P2 & P3 & P4). repeat split; auto. now right.
    + destruct P as (P1 & P2 & P3 & P4). repeat split; auto; now right.
    + lia.
  - destruct P as (P1 & P2 & P3). split; [eapply base_other; eauto|]. rewrite orphan_count. split; [repeat split; auto; [lia|now right]|].
    intros _. apply C. reflexivity.
  - destruct P as (P1 & P2 & P3). split; [eapply base_other; eauto|]. split; [|intros _; apply C; reflexivity].
    rewrite crash_count. cbn [panics]. pose proof (ba_dead _ _ _ B) as Bd. pose proof (ba_size _ _ _ B) as Bs. cbn [l_f l_done] in *.
    pose proof (dead_living (f_w f)) as Dl. apply living_zero in A. lia.
  - destruct P as (P1 & P2 & P3). split; [eapply base_other; eauto|]. rewrite orphan_count. split; [|intros _; apply C; reflexivity].
    repeat split; auto; [lia|now right|lia].
  - destruct P as (P1 & P2 & P3 & P4). split; [eapply base_other; eauto|]. rewrite orphan_count. split; [|intros _; apply C; reflexivity].
    repeat split; auto; [now right|]. intros i Hi. destruct (Nat.eq_dec i k) as [->|Ne]; auto. apply P4. lia.
  - destruct P as (P1 & P2 & P3 & P4). split; [eapply base_other; eauto|]. split; [|intros _; apply C; reflexivity].
    rewrite crash_count. pose proof (dead_other _ _ _ k B H Nd) as K. pose proof (ba_dead _ _ _ B) as Bd. cbn [l_f l_done panics] in *. lia.
  - destruct P as (P1 & P2 & P3 & P4). split; [eapply base_other; eauto|]. rewrite orphan_count. split; [|intros _; apply C; reflexivity].
    repeat split; auto; [now right|now left|]. intros i Hi. apply P4. apply nth_error_None in H. pose proof (ba_size _ _ _ B) as Bs. cbn [l_f] in Bs. lia.
  - split; [apply (base_end size ls f m (Datatypes.S t) t i d true (LTerminate i)); auto|]. rewrite orphan_count, crash_count. cbn [orphan panics List.length]. split; [|exact C].
    destruct m; try contradiction.
    + destruct P as (_ & P & _). discriminate.
    + destruct P as (P1 & P2 & P3). repeat split; auto; [lia|now right].
    + destruct P as (P1 & P2 & P3 & P4). repeat split; auto; [lia|now right|]. intros j Hj. right. auto.
    + destruct P as (P1 & P2 & P3 & P4). repeat split; auto; try (now right). intros j Hj. right. auto.
    + exact P.
  - split; [apply (base_end size ls f MUnwound 0 0 i d false (LOrphan i)); auto|]. split; [|exact C]. now rewrite crash_count.
Qed.

Lemma linv_run size ls st : (forall c, exists rt, respects R c rt) -> lrun dbg R (l_init size) ls st -> linv size ls st.
Proof.
  intros Tot Rn. remember (l_init size) as i. induction Rn as [|st0 ls st1 l st2 Rn IH S]; subst; [now apply linv_init|].
  eapply linv_step; eauto.
Qed.

Lemma ending_step st l st' : lstep dbg R st l st' -> ending (l_main st) = true -> ending (l_main st') = true.
Proof. intros S E. destruct S; cbn [l_main ending] in *; auto; discriminate. Qed.

Lemma panicked_crashes ls : panicked ls = false <-> crashes ls = 0.
Proof. unfold panicked, crashes. induction ls as [|l ls IH]; [easy|]. cbn [existsb filter]. destruct (panics l); cbn [orb List.length]; [split; discriminate|auto]. Qed.

(** ** When nothing more happens *)

Lemma hvalid_base size ls st : base size ls st -> hvalid (habs (f_w (l_f st))).
Proof.
  intros [_ L J Bd _ _ _ _ _].
  assert (K : forall d, In d (jobs (f_w (l_f st))) -> d < List.length (map hconn (ws_conns (f_w (l_f st))))).
  { intros d H. rewrite map_length, L. apply Bd. apply (count_occ_In Nat.eq_dec). rewrite J. now apply (count_occ_In Nat.eq_dec). }
  split; cbn [habs h_queue h_workers h_conns].
  - apply Forall_forall. intros d H. apply K. unfold jobs. apply in_or_app. now left.
  - apply Forall_forall. intros h H. apply in_map_iff in H as (w & <- & H).
    assert (K' : forall d, In d (job_of w) -> d < List.length (map hconn (ws_conns (f_w (l_f st))))).
    { intros d Hd. apply K. unfold jobs. apply in_or_app. right. apply in_flat_map. eauto. }
    destruct w; cbn [hwork job_of] in *; auto; apply K'; now left.
Qed.

Lemma work_possible size ls st l w' : base size ls st -> ending (l_main st) = true -> wstep dbg R (f_w (l_f st)) l w' -> working l = true ->
  exists st', lstep dbg R st (LF (FW l)) st'.
Proof.
  intros B E S W. destruct st as [f m t d]. cbn [l_f l_main] in *.
  assert (N1 : m <> MServing) by (intros ->; discriminate). assert (N2 : m <> MAborted) by (intros ->; discriminate).
  destruct (ends l) as [[e b]|] eqn:En.
  - destruct (jobs_end dbg R _ _ _ _ _ S En) as [Hd _]. assert (Hj : In e (p_jobs (f_p f))).
    { apply (count_occ_In Nat.eq_dec). pose proof (ba_jobs _ _ _ B e) as K. cbn [l_f] in K. rewrite K. now apply (count_occ_In Nat.eq_dec). }
    eexists. eapply ls_work; auto. eapply fs_end; eauto. apply step_finished. exact Hj.
  - eexists. eapply ls_work; auto. apply fs_work; [|exact S]. destruct l; auto; discriminate.
Qed.

Lemma stuck_over size ls st : (forall c, exists rt, respects R c rt) -> linv size ls st -> ending (l_main st) = true ->
  (forall l st', lstep dbg R st l st' -> beyond l = true) ->
  worker_left (f_w (l_f st)) = false /\ (l_main st = MUnwound \/ exists e, l_main st = MReturned e).
Proof.
  intros Tot (B & P & C) E A.
  destruct (no_work_idle dbg R (wlabels ls) (f_w (l_f st)) Tot) as [Q I].
  - apply B.
  - eapply hvalid_base; eauto.
  - intros l w' S. destruct (working l) eqn:W; auto. exfalso. destruct (work_possible _ _ _ _ _ B E S W) as [st' S'].
    apply A in S'. destruct l; discriminate.
  - destruct st as [f m t d]. unfold phase in P. pose proof (ba_size _ _ _ B) as Bs. pose proof (ba_done _ _ _ B) as Bd. cbn [l_f l_main l_done l_term] in *.
    assert (Wl : worker_left (f_w f) = false).
    { destruct (worker_left (f_w f)) eqn:Wl; auto. exfalso. specialize (Q eq_refl).
      unfold worker_left in Wl. pose proof Wl as Al. apply existsb_exists in Wl as (w & Hw & Hl). rewrite Forall_forall in I. destruct (I _ Hw) as [->| ->]; [|discriminate].
      apply In_nth_error in Hw as [i Hi]. assert (Lt : i < size) by (rewrite <- Bs; apply nth_error_Some; congruence).
      destruct t as [|t].
      - destruct m as [|e n|e k|e| |]; try discriminate.
        + destruct n as [|n].
          * specialize (A _ _ (ls_sent dbg R f e 0 d)). discriminate.
          * specialize (A _ _ (ls_send dbg R f e n 0 d Al)). discriminate.
        + destruct P as (P1 & _). pose proof (all_done _ _ _ B ltac:(cbn [l_done]; lia) i Lt) as K. cbn [l_done] in K. apply Bd in K. congruence.
        + destruct P as (_ & _ & _ & P). specialize (P i Lt). apply Bd in P. congruence.
        + specialize (A _ _ (ls_orphan dbg R f d i Hi Q)). discriminate.
      - assert (Nm : m <> MAborted) by (intros ->; discriminate). specialize (A _ _ (ls_terminate dbg R f m t d i Nm Hi Q)). discriminate. }
    split; auto. destruct m as [|e n|e k|e| |]; try discriminate; eauto; exfalso.
    + destruct n as [|n].
      * specialize (A _ _ (ls_sent dbg R f e t d)). discriminate.
      * specialize (A _ _ (ls_send_fails dbg R f e n t d Wl)). discriminate.
    + destruct (nth_error (ws_workers (f_w f)) k) as [w|] eqn:Nk.
      * assert (w = WDead) as ->.
        { destruct w; auto; exfalso; unfold worker_left in Wl; apply nth_error_In in Nk;
          (assert (K : existsb walive (ws_workers (f_w f)) = true) by (apply existsb_exists; eexists; split; [exact Nk|reflexivity])); congruence. }
        destruct (in_dec Nat.eq_dec k d) as [Hk|Hk].
        -- specialize (A _ _ (ls_join dbg R f e k t d Hk)). discriminate.
        -- specialize (A _ _ (ls_join_fails dbg R f e k t d Nk Hk)). discriminate.
      * specialize (A _ _ (ls_joined dbg R f e k t d Nk)). discriminate.
Qed.

(** ** Once returned *)

Lemma returned size ls st e : 0 < size -> linv size ls st -> l_main st = MReturned e ->
  In (LStop e) ls /\ crashes ls = 0 /\ jobs (f_w (l_f st)) = [] /\ p_jobs (f_p (l_f st)) = [] /\ p_reg (f_p (l_f st)) = [] /\
  Forall (fun w => w = WDead) (ws_workers (f_w (l_f st))).
Proof.
  intros Pos (B & P & C) M. unfold phase in P. rewrite M in P. destruct P as (O & St & _ & Dn).
  assert (Ln : size <= List.length (l_done st)).
  { rewrite <- (seq_length size 0). apply NoDup_incl_length; [apply seq_NoDup|]. intros i Hi. apply in_seq in Hi. apply Dn. lia. }
  pose proof (done_dead _ _ _ B) as K.
  assert (Al : Forall (fun w => w = WDead) (ws_workers (f_w (l_f st)))).
  { apply Forall_forall. intros w Hw. apply In_nth_error in Hw as [i Hi]. assert (Lt : i < size) by (rewrite <- (ba_size _ _ _ B); apply nth_error_Some; congruence).
    specialize (Dn i Lt). apply B in Dn. congruence. }
  assert (Q : ws_queue (f_w (l_f st)) = []) by (apply B; intros K0; rewrite K0 in Ln; cbn in Ln; lia).
  assert (J : jobs (f_w (l_f st)) = []).
  { unfold jobs. rewrite Q. clear - Al. induction Al as [|w l -> _ IH]; auto. }
  assert (Pj : p_jobs (f_p (l_f st)) = []).
  { destruct (p_jobs (f_p (l_f st))) as [|x p] eqn:Ep; auto. exfalso. pose proof (ba_jobs _ _ _ B x) as K0. rewrite Ep, J in K0. cbn [count_occ] in K0.
    destruct (Nat.eq_dec x x); [discriminate|contradiction]. }
  split; auto. split; [lia|]. split; auto. split; auto. split; auto.
  destruct (p_reg (f_p (l_f st))) as [|[c t] r] eqn:Er; auto. exfalso. destruct C as [_ C]; [now rewrite M|].
  specialize (C c t). rewrite Er, Pj in C. destruct C. now left.
Qed.

Lemma returned_over size ls st e l st' : 0 < size -> linv size ls st -> l_main st = MReturned e -> ~ lstep dbg R st l st'.
Proof.
  intros Pos I M S. destruct (returned _ _ _ _ Pos I M) as (_ & _ & J & _ & Rg & Al).
  assert (Nf : forall i w, nth_error (ws_workers (f_w (l_f st))) i = Some w -> w = WDead).
  { intros i w H. rewrite Forall_forall in Al. apply Al. eapply nth_error_In; eauto. }
  destruct S; cbn [l_main l_f] in *; try discriminate.
  - assert (K : forall c t, In (c, t) (p_reg (f_p f)) -> False) by (intros ? ? K; rewrite Rg in K; destruct K).
    match goal with X : fstep _ _ _ _ _ |- _ => destruct (fw_step _ _ _ X) as [W _];
      inversion X as [st c k its w' G W'|st c k w' G W'| | | | |st l0 w' I0 W'|st l0 e0 b w' p' En W' S']; subst; cbn [f_w f_p] in * end;
      try (eapply K; eassumption); destruct W; try discriminate;
      match goal with N : nth_error _ _ = Some _ |- _ => apply Nf in N; discriminate end.
  - match goal with N : nth_error _ _ = Some _ |- _ => apply Nf in N; discriminate end.
Qed.

(** ** The end comes *)

Definition togo (size : nat) (m : mphase) : nat :=
  match m with MSending _ n => 2 * n + size + 3 | MJoining _ k => (size - k) + 2 | _ => 0 end.
Definition rest (size : nat) (st : lstate) : nat :=
  work (habs (f_w (l_f st))) + living (f_w (l_f st)) + l_term st + togo size (l_main st).

Lemma rest_step size ls st l st' : linv size ls st -> ending (l_main st) = true -> lstep dbg R st l st' -> beyond l = false ->
  rest size st' < rest size st.
Proof.
  intros (B & P & C) E S X. pose proof (ba_size _ _ _ B) as Bs. pose proof (ba_done _ _ _ B) as Bd. unfold rest.
  assert (En : forall f i, nth_error (ws_workers (f_w f)) i = Some WFree -> work (habs (f_w (end_worker f i))) = work (habs (f_w f)) /\
    living (f_w f) = Datatypes.S (living (f_w (end_worker f i)))).
  { intros f i N. unfold end_worker, living, work, wput. cbn [f_w habs h_conns h_queue h_workers ws_conns ws_queue ws_workers]. split.
    - rewrite map_set. pose proof (sum_set weight _ _ _ (hwork WDead) (map_nth_error hwork _ _ N)) as K. cbn [hwork weight] in *. lia.
    - pose proof (filter_set walive _ _ _ WDead N) as K. cbn [walive] in K. lia. }
  destruct S as [f l f' t d S|f t d c k b j Hb Li G A|f t d e Hb Li|f l f' m t d N1 N2 S|f e n t d A|f e n t d A|f e t d|f e k t d H|f e k t d H Nd|f e k t d H|f m t d i Nm N Q|f d i N Q];
    cbn [l_f l_main l_done l_term togo ending beyond] in *; try discriminate; try lia.
  - destruct (fw_step _ _ _ S) as [W Nd]. destruct (fstep_dead _ _ _ S) as [D L].
    assert (K : work (habs (f_w f')) < work (habs (f_w f))).
    { apply (work_step _ (hlab l)); [|now destruct l]. apply (habs_step dbg R (wlabels ls)); auto. apply B. }
    pose proof (dead_living (f_w f)). pose proof (dead_living (f_w f')). lia.
  - assert (k < size) by (rewrite <- Bs; apply nth_error_Some; rewrite (Bd _ H); discriminate). lia.
  - destruct (En f i N). lia.
  - destruct (En f i N). lia.
Qed.

(** ** The jobs *)

Lemma pending_step st l st' c : lstep dbg R st l st' -> ending (l_main st) = true ->
  pending c st' + (if finishes c l then 1 else 0) = pending c st.
Proof.
  intros S E. unfold pending.
  assert (En : forall f i, nth_error (ws_workers (f_w f)) i = Some WFree -> occ (jobs (f_w (end_worker f i))) c = occ (jobs (f_w f)) c).
  { intros f i N. unfold jobs, end_worker, wput. cbn [f_w ws_queue ws_workers]. rewrite !count_occ_app.
    pose proof (occ_jobs_set _ c _ _ WDead N) as K. cbn [job_of count_occ] in K. lia. }
  destruct S as [f l f' t d S|f t d x k b j Hb Li G A|f t d e Hb Li|f l f' m t d N1 N2 S|f e n t d A|f e n t d A|f e t d|f e k t d H|f e k t d H Nd|f e k t d H|f m t d i Nm N Q|f d i N Q];
    cbn [l_f l_main l_done l_term ending finishes] in *; try discriminate; try lia.
  - destruct (fw_step _ _ _ S) as [W Nd]. destruct (ends l) as [[e b]|] eqn:Ee.
    + destruct (jobs_end dbg R _ _ _ _ _ W Ee) as [Hi J]. rewrite J. apply (count_occ_In Nat.eq_dec) in Hi. destruct (Nat.eqb_spec e c) as [->|Ne]; lia.
    + rewrite (jobs_inner dbg R _ _ _ W Ee Nd). lia.
  - rewrite (En f i N). lia.
  - rewrite (En f i N). lia.
Qed.

Lemma lrun_join a ls b : lrun dbg R a ls b -> forall ls' c, lrun dbg R b ls' c -> lrun dbg R a (ls' ++ ls) c.
Proof. intros R1 ls' c R2. induction R2 as [|st0 ls0 st1 l st2 R2 IH S]; auto. cbn [app]. econstructor; eauto. Qed.

Lemma ending_run st ls st' : lrun dbg R st ls st' -> ending (l_main st) = true -> ending (l_main st') = true.
Proof. intros Rn E. induction Rn as [|st0 ls st1 l st2 Rn IH S]; auto. eapply ending_step; eauto. Qed.

Lemma pending_run st ls st' c : lrun dbg R st ls st' -> ending (l_main st) = true ->
  pending c st' + List.length (filter (finishes c) ls) = pending c st.
Proof.
  intros Rn E. induction Rn as [|st0 ls st1 l st2 Rn IH S]; [cbn; lia|]. specialize (IH E). pose proof (pending_step _ _ _ c S (ending_run _ _ _ Rn E)) as K.
  cbn [filter]. destruct (finishes c l); cbn [List.length]; lia.
Qed.

Lemma rest_run size ls0 st ls st' : (forall c, exists rt, respects R c rt) -> linv size ls0 st -> ending (l_main st) = true ->
  lrun dbg R st ls st' -> existsb beyond ls = false -> linv size (ls ++ ls0) st' /\ List.length ls + rest size st' <= rest size st.
Proof.
  intros Tot I E Rn. induction Rn as [|st0 ls st1 l st2 Rn IH S]; intros X; [cbn; split; auto; lia|].
  cbn [existsb] in X. apply orb_false_elim in X as [X1 X2]. destruct (IH I E X2) as [I1 K1]. split.
  - cbn [app]. eapply linv_step; eauto.
  - pose proof (rest_step _ _ _ _ _ I1 (ending_run _ _ _ Rn E) S X1). cbn [List.length]. lia.
Qed.
End Life.
