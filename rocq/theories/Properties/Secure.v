(** C95: the whole server, listening with TLS. *)
From Coq Require Import List Ascii String Arith NArith ZArith Bool Lia.
From Verif.Model Require Import Bytes Io Common Parse Encode Writer Server Client Generic Buffered Slab Streams Tls Secure.
From Verif.Spec Require Import Batch Stream Drive Numerals Grammar Wire Output Unicode Session Exchange Buffering Streams.
From Verif.Proofs Require Import DriveFacts ServerFacts BufferedFacts BufferedConnFacts RecutFacts StreamsFacts TlsFacts LocksFacts SecureFacts.
From Verif.Proofs Require SlabFacts.
From Verif.Properties Require Import Streaming RoundTrip Server Client Buffered Reference Streams Tls.
From Verif.Spec Require Import Tls Secure.
Import ListNotations.
Local Open Scope nat_scope.

Section Secure.
Variable seal : bytes -> list chunk.
Variable size : bytes -> N.
Variable fuel : nat.
Variable dbg : bool.
Variable rt : nat -> router.
Notation srun := (srun seal size fuel dbg rt).
Notation sstep := (sstep seal size fuel dbg rt).
Notation run c := (t_visits tls tls_read (tls_write seal) tls_flush size READ_BUF_SIZE fuel dbg (rt c)).
Notation handle c := (t_handle tls tls_read (tls_write seal) tls_flush size READ_BUF_SIZE fuel dbg (rt c)).

Definition busy (st : sstate) (c : nat) (x : sconn) : Prop := sn_event x = true \/ In c (ss_queue st) \/ In (SWait c) (ss_workers st).
Definition settled (x : sconn) : Prop :=
  match sn_slot x with
  | TOpen _ k => let t := tb_in tls (tc_stream tls k) in
      sn_in x = [] /\ (sn_full x = true \/ (ts_rx t = [] /\ ts_plain t = [] /\ ts_queue t = [] /\ handed_on (tb_w tls (tc_stream tls k)) t))
  | _ => True
  end.
Definition has_read (R : list record) (x : sconn) : Prop :=
  Forall fine_read (ts_seen (stream_of tls (sn_slot x))) /\ exists rest, reads (ts_seen (stream_of tls (sn_slot x))) ++ rest = app_of R.
Definition conn_fits (R more : list record) (x : sconn) : Prop :=
  match sn_slot x with
  | TOpen _ k => exists all, proceeds (List.concat (sn_in x) ++ more) all (tb_in tls (tc_stream tls k)) /\ all ++ app_of (List.concat (sn_in x)) = app_of R
  | _ => has_read R x
  end.
(** What holds of connection c: [R] has reached it. *)
Definition conn_ok (st : sstate) (c : nat) (R : list record) (x : sconn) : Prop :=
  forall more, sound true (R ++ more) ->
  (exists fs, Forall goes_well fs /\ run c fs [] fresh = Some (sn_log x, sn_slot x)) /\
  conn_fits R more x /\ (busy st c x \/ settled x).

Lemma visits_snoc c fs f : forall log st l1 s1 l2 s2, run c fs log st = Some (l1, s1) -> handle c f l1 s1 = Some (l2, s2) ->
  run c (fs ++ [f]) log st = Some (l2, s2).
Proof.
  induction fs as [|g fs IH]; intros log st l1 s1 l2 s2 E H; cbn [app t_visits] in *.
  - inversion E; subst. rewrite H. reflexivity.
  - destruct (handle c g log st) as [[l s]|]; [eauto|discriminate].
Qed.

Lemma handle_ok st c R x tx log' st' : sn_poisoned x = false -> handle c (s_around (sn_in x) tx) (sn_log x) (sn_slot x) = Some (log', st') ->
  conn_ok st c R x -> forall e st2, conn_ok st2 c R (mk_sconn st' [] (sn_full x || refused st') e log').
Proof.
  intros Np E Ok e st2 more So. destruct (Ok more So) as ((fs & F & Rn) & Fit & _). unfold conn_fits in Fit. cbn [sn_slot sn_in sn_log].
  destruct (sn_slot x) as [k|t|t] eqn:Es.
  - destruct Fit as (all & P & A). pose proof (around_proceeds _ tx _ _ _ P) as P1. rewrite A in P1.
    split.
    { exists (fs ++ [decided (tb_in tls (tc_stream tls k)) (sn_in x) tx]). split.
      - apply Forall_app. split; auto. constructor; [|constructor]. split; [apply decided_around|]. apply (decided_calm _ _ _ more). apply P1.
      - eapply visits_snoc; [exact Rn|]. rewrite <- E. cbn [t_handle]. unfold tc_env. rewrite decided_same. reflexivity. }
    pose proof (handle_proceeds seal size fuel more _ dbg (rt c) _ _ _ _ _ E P1) as P2. unfold conn_fits, settled. cbn [sn_slot sn_in sn_full].
    destruct st' as [k'|t'|t']; cbn [stream_of] in P2.
    + split; [exists (app_of R); split; [exact P2|cbn; apply app_nil_r]|]. right. split; auto. cbn zeta.
      destruct (handle_on seal size fuel more _ dbg (rt c) _ _ _ _ _ E P1) as (_ & Ho & Id & _). destruct Id as [(H1 & H2 & H3)|(H1 & H2)].
      * right. auto.
      * left. cbn [refused]. rewrite H2. destruct (ts_queue (tb_in tls (tc_stream tls k'))); [contradiction|]. apply orb_true_r.
    + destruct P2 as (_ & P3 & P4). split; [split; [exact P3|eauto]|]. right. auto.
    + destruct P2 as (_ & P3 & P4). split; [split; [exact P3|eauto]|]. right. auto.
  - cbn [t_handle] in E. inversion E; subst. split; [eauto|]. unfold conn_fits, has_read in *. rewrite Es in *. cbn [sn_slot stream_of] in *. split; [exact Fit|]. right. exact Logic.I.
  - unfold sn_poisoned in Np. rewrite Es in Np. discriminate.
Qed.

(** The connection is the same but for its event and whether its socket is full. *)
Lemma ok_same st st2 c R x y : sn_slot y = sn_slot x -> sn_in y = sn_in x -> sn_log y = sn_log x ->
  (busy st c x -> busy st2 c y) -> (settled x -> busy st2 c y \/ settled y) -> conn_ok st c R x -> conn_ok st2 c R y.
Proof.
  intros E1 E2 E3 B S Ok more So. destruct (Ok more So) as (H1 & H2 & H3). rewrite E1, E3. split; auto. split.
  - unfold conn_fits, has_read in *. rewrite E1, E2. exact H2.
  - destruct H3; auto.
Qed.
Lemma in_set {A} (y x z : A) l : forall i, nth_error l i = Some z -> z <> y -> In y l -> In y (set_nth i x l).
Proof.
  induction l as [|a l IH]; intros i N Ne I; [destruct I|]. destruct i as [|i]; cbn in *.
  - inversion N; subst. destruct I as [I|I]; [contradiction|auto].
  - destruct I as [I|I]; [auto|right; eauto].
Qed.
Lemma in_set_new {A} (y z : A) l : forall i, nth_error l i = Some z -> In y (set_nth i y l).
Proof. induction l as [|a l IH]; intros [|i] N; cbn in *; try discriminate; eauto. Qed.

Lemma reached_same c l ls : match l with XArrive _ _ => False | _ => True end -> reached c (l :: ls) = reached c ls.
Proof. destruct l; cbn; tauto. Qed.

Lemma whole_inv n m ls st : srun (s_init n m) ls st ->
  forall c x, nth_error (ss_conns st) c = Some x -> conn_ok st c (reached c ls) x.
Proof.
  remember (s_init n m) as s0 eqn:E0. intros Rn. induction Rn as [s|s ls st l st' Rn IH Sp]; intros c x N; subst.
  { cbn [s_init ss_conns] in N. apply nth_error_In, repeat_spec in N. subst. intros more So. split; [exists []; split; [constructor|reflexivity]|]. split.
    - exists []. split; [|reflexivity]. cbn. split; [|split; [constructor|reflexivity]]. split; [constructor|]. split; [constructor|]. cbn. auto.
    - right. cbn. split; auto. right. split; auto. split; auto. split; auto. left. reflexivity. }
  specialize (IH eq_refl). inversion Sp; subst; cbn [ss_conns] in N.
  - apply nth_set_inv in N as [[<- ->]|[Ne N]].
    + cbn [reached]. rewrite Nat.eqb_refl. intros more So. rewrite <- app_assoc in So. destruct (IH _ _ H (List.concat rs ++ more) So) as (H1 & H2 & _).
      split; [exact H1|]. split; [|left; left; reflexivity].
      unfold conn_fits in *. cbn [sn_slot sn_in]. unfold sn_open in H0. destruct (sn_slot x0) as [k|t|t]; try discriminate.
      destruct H2 as (all & P & A). exists all. rewrite concat_app, <- app_assoc. split; [exact P|]. now rewrite !app_of_app, app_assoc, A.
    + cbn [reached]. destruct (Nat.eqb_spec c0 c); [contradiction|]. rewrite app_nil_r. eapply ok_same; [..|apply (IH _ _ N)]; auto.
  - rewrite reached_same by exact I. apply nth_set_inv in N as [[<- ->]|[Ne N]].
    + apply (ok_same st _ _ _ x0 _); [reflexivity|reflexivity|reflexivity| | |apply (IH _ _ H)]; intros _; [left; reflexivity|left; left; reflexivity].
    + eapply ok_same; [..|apply (IH _ _ N)]; auto.
  - rewrite reached_same by exact I. apply nth_set_inv in N as [[<- ->]|[Ne N]].
    + apply (ok_same st _ _ _ x0 _); [reflexivity|reflexivity|reflexivity| | |apply (IH _ _ H)]; intros _; [left; reflexivity|left; left; reflexivity].
    + eapply ok_same; [..|apply (IH _ _ N)]; auto.
  - rewrite reached_same by exact I. apply nth_set_inv in N as [[<- ->]|[Ne N]].
    + assert (B : forall y, busy (mk_sstate (supd st c0 (sn_ready false x0)) (ss_queue st ++ [c0]) (ss_workers st)) c0 y) by (intros y; right; left; cbn; apply in_or_app; right; now left).
      apply (ok_same st _ _ _ x0 _); [reflexivity|reflexivity|reflexivity| | |apply (IH _ _ H)]; intros _; [apply B|left; apply B].
    + eapply ok_same; [..|apply (IH _ _ N)]; auto. intros [B|[B|B]]; [left; auto|right; left; cbn; apply in_or_app; auto|right; right; auto].
  - rewrite reached_same by exact I. eapply ok_same; [..|apply (IH _ _ N)]; auto. intros [B|[B|B]]; [left; auto| |right; right; cbn].
    + rewrite H0 in B. destruct B as [<-|B]; [right; right; cbn; eapply in_set_new; eauto|right; left; exact B].
    + eapply in_set; [exact H| |exact B]. discriminate.
  - rewrite reached_same by exact I. apply nth_set_inv in N as [[<- ->]|[Ne N]].
    + eapply handle_ok; [exact H1|exact H3|exact (IH _ _ H0)].
    + eapply ok_same; [..|apply (IH _ _ N)]; auto. intros [B|[B|B]]; [left; auto|right; left; auto|right; right; cbn].
      eapply in_set; [exact H| |exact B]. congruence.
  - rewrite reached_same by exact I. destruct (Nat.eq_dec c c0) as [->|Ne].
    + rewrite H0 in N. inversion N; subst. assert (Se : settled x). { unfold settled. unfold sn_poisoned in H1. destruct (sn_slot x); try discriminate. exact Logic.I. }
      intros more So. destruct (IH _ _ H0 more So) as (G1 & G2 & _). auto.
    + eapply ok_same; [..|apply (IH _ _ N)]; auto. intros [B|[B|B]]; [left; auto|right; left; auto|right; right; cbn].
      eapply in_set; [exact H| |exact B]. congruence.
Qed.

(** What was read, as the events of a stream. *)
Definition events (l : list (ekind + bytes)) : stream := map (fun x => match x with inl k => RErr k | inr bs => RData bs end) l.
Lemma events_content t : gave t = content (events (ts_seen t)).
Proof. unfold gave, events, content. induction (ts_seen t) as [|x l IH]; cbn [flat_map map]; auto. rewrite IH. destruct x; reflexivity. Qed.
Lemma events_fine l : Forall fine_read l -> live (events l) /\ ~ In (RErr Interrupted) (events l) /\ pending (events l) = reads l.
Proof.
  intros F. induction F as [|x l Hx F (IH1 & IH2 & IH3)]; [repeat split; [constructor|intros []]|]. destruct x as [k|bs]; cbn [fine_read] in Hx.
  - subst. split; [constructor; [cbn; auto|exact IH1]|]. split; [intros [X|X]; [discriminate|auto]|exact IH3].
  - split; [constructor; [exact Hx|exact IH1]|]. split; [intros [X|X]; [discriminate|auto]|]. cbn. f_equal. exact IH3.
Qed.
Lemma served_nothing r h : served r h [] false [] [] true.
Proof. eapply served_wait. reflexivity. Qed.
Lemma served_nothing_inv r h l o : served r h [] false l o true -> l = [] /\ o = [].
Proof. intros S. destruct (served_unique _ _ _ _ _ _ _ S _ _ _ (served_nothing r h)) as (-> & -> & _). auto. Qed.

Lemma reads_nothing l : (forall bs, In (inr bs) l -> bs = []) -> reads l = [].
Proof.
  induction l as [|y l IH]; intros H; auto. unfold reads in *. cbn [flat_map]. rewrite IH by (intros bs X; apply H; right; exact X).
  destruct y as [e|bs]; auto. cbn. rewrite (H bs) by (left; reflexivity). reflexivity.
Qed.
Lemma out_delivered x : out_of x = delivered (stream_of tls (sn_slot x)).
Proof. unfold out_of, delivered, data_of. destruct (sn_slot x); reflexivity. Qed.

(** For every peer whose handshake goes well and who sends data: at any time, whatever the other peers do and whatever happens to the workers,
    what it can decrypt is a front part of the answers to the requests in a front part of what it sent. *)
Lemma served_so_far n m ls st c x : positive size -> seals seal -> srun (s_init n m) ls st -> nth_error (ss_conns st) c = Some x ->
  sound true (reached c ls) -> fair (app_of (reached c ls)) -> no_panic (rt c) ->
  exists rest more, reads (ts_seen (stream_of tls (sn_slot x))) ++ rest = app_of (reached c ls) /\
    served (rt c) [] (reads (ts_seen (stream_of tls (sn_slot x)))) false (sn_log x) (out_of x ++ more) (sn_open x) /\
    (sn_open x = true -> forall k, sn_slot x = TOpen tls k -> ts_queue (tb_in tls (tc_stream tls k)) = [] -> unsent (tb_w tls (tc_stream tls k)) = [] -> more = []) /\
    sn_poisoned x = false.
Proof.
  intros P Se Rn N So Fa Np.
  destruct (whole_inv _ _ _ _ Rn c x N []) as ((fs & F & V) & Fit & _); [now rewrite app_nil_r|].
  assert (H : has_read (reached c ls) x).
  { unfold conn_fits in Fit. destruct (sn_slot x) as [k|t|t] eqn:Es; [|exact Fit|exact Fit]. destruct Fit as (all & (_ & F1 & F2) & A).
    unfold has_read. rewrite Es. split; [exact F1|]. cbn [stream_of]. eexists. rewrite <- A, <- F2, <- app_assoc. reflexivity. }
  destruct H as [Fr (rest & Er)]. exists rest. rewrite out_delivered. unfold sn_open.
  destruct (events_fine _ Fr) as (E1 & E2 & E3).
  assert (O : orderly false (events (ts_seen (stream_of tls (sn_slot x))))).
  { apply (fair_orderly _ _ _ Fa); auto; [exists (events (ts_seen (stream_of tls (sn_slot x)))); split; [exact E1|now rewrite app_nil_r]|]. exists rest. now rewrite E3. }
  destruct fs as [|f fs].
  { cbn [t_visits] in V. inversion V as [[V1 V2]]. exists []. unfold sn_poisoned. rewrite <- V2 in Er |- *. split; [exact Er|]. split; [apply served_nothing|auto]. }
  pose proof (C93_responses seal size fuel dbg (rt c) (f :: fs) (sn_log x) (sn_slot x) false _ P Se F Np ltac:(discriminate) V (events_content _) O) as S.
  rewrite E3 in S. unfold sn_poisoned. destruct (sn_slot x) as [k|u|u].
  - destruct S as (more & S & Q). exists more. split; [exact Er|]. split; [exact S|]. split; [|reflexivity]. intros _ k' X. inversion X; subst. exact Q.
  - destruct S as (more & S). exists more. split; [exact Er|]. split; [exact S|]. split; [discriminate|reflexivity].
  - contradiction.
Qed.

Theorem C95_served : forall n m ls st c x, positive size -> seals seal -> srun (s_init n m) ls st -> nth_error (ss_conns st) c = Some x ->
  sound true (reached c ls) -> fair (app_of (reached c ls)) -> no_panic (rt c) ->
  exists b rest more, app_of (reached c ls) = b ++ rest /\ served (rt c) [] b false (sn_log x) (out_of x ++ more) (sn_open x).
Proof.
  intros n m ls st c x P Se Rn N So Fa Np. destruct (served_so_far _ _ _ _ _ _ P Se Rn N So Fa Np) as (rest & more & E & S & _). eauto.
Qed.

(** When nothing is left to do for a connection whose socket is not full, the server has done for that peer what the reference says of all that it
    sent: its complete requests are routed, in order, and if the connection is open all of the answers were delivered. *)
Theorem C95_quiet : forall n m ls st c x, positive size -> seals seal -> srun (s_init n m) ls st -> nth_error (ss_conns st) c = Some x ->
  sound true (reached c ls) -> fair (app_of (reached c ls)) -> no_panic (rt c) -> quiet st c -> sn_full x = false ->
  exists more, served (rt c) [] (app_of (reached c ls)) false (sn_log x) (out_of x ++ more) (sn_open x) /\ (sn_open x = true -> more = []).
Proof.
  intros n m ls st c x P Se Rn N So Fa Np (Q1 & Q2 & Q3) Full. destruct (served_so_far _ _ _ _ _ _ P Se Rn N So Fa Np) as (rest & more & E & S & M & _).
  destruct (sn_open x) eqn:Op; [|exists more; split; [rewrite <- E; exact (served_dropped _ _ _ _ _ S _ _)|discriminate]].
  destruct (whole_inv _ _ _ _ Rn c x N []) as ((fs & F & V) & Fit & B); [now rewrite app_nil_r|].
  destruct B as [[B|[B|B]]|B]; [rewrite (Q1 _ N) in B; discriminate|contradiction|contradiction|].
  unfold sn_open in Op. destruct (sn_slot x) as [k|t|t] eqn:Es; try discriminate. unfold settled in B. rewrite Es in B. destruct B as [In [B|(B1 & B2 & B3 & B4)]]; [congruence|].
  assert (Er : rest = []).
  { unfold conn_fits in Fit. rewrite Es in Fit. destruct Fit as (all & (_ & _ & A) & Ea). rewrite In in Ea. cbn in Ea. rewrite app_nil_r in Ea. rewrite Ea in A.
    unfold yet in A. rewrite B1, B2 in A. cbn in A. rewrite app_nil_r in A. cbn [stream_of] in E. rewrite <- A in E.
    rewrite <- (app_nil_r (reads _)) in E at 2. now apply app_inv_head in E. }
  subst rest. rewrite app_nil_r in E.
  assert (U : unsent (tb_w tls (tc_stream tls k)) = [] \/ out_of x ++ more = []).
  { destruct B4 as [B4|[[B4 _]|[B4 _]]]; [auto| |contradiction]. right.
    assert (Fw : Forall around fs) by (eapply Forall_impl; [|exact F]; intros f [A _]; exact A).
    destruct (C93_handshake_first seal size fuel dbg (rt c) fs _ _ Fw V B4) as [_ H].
    assert (Z : reads (ts_seen (stream_of tls (TOpen tls k))) = []).
    { apply reads_nothing. exact H. }
    rewrite Z in S. now apply served_nothing_inv in S. }
  exists more. split; [rewrite <- E; exact S|]. intros _. destruct U as [U|U]; [exact (M eq_refl k eq_refl B3 U)|now apply app_eq_nil in U].
Qed.
(** When every peer is like that and no listener panics, no worker is lost: all of them go on taking jobs. *)
Lemma sound_front a b : forall hs, sound hs (a ++ b) -> sound hs a.
Proof.
  induction a as [|r a IH]; intros hs H; [exact I|]. destruct r as [l w|d| |]; cbn [app sound] in *; try contradiction.
  - destruct H as [H1 H2]. split; eauto.
  - destruct H as [H1 H2]. split; eauto.
Qed.
Lemma fair_front a b : fair (a ++ b) -> fair a.
Proof. intros F w x E. apply (F w (x ++ b)). rewrite E. now rewrite <- app_assoc. Qed.
Lemma reached_front c l ls : exists more, reached c (l :: ls) = reached c ls ++ more.
Proof. destruct l; cbn [reached]; try (exists []; now rewrite app_nil_r). eauto. Qed.
Theorem C95_workers_survive : forall n m ls st, positive size -> seals seal -> srun (s_init n m) ls st ->
  (forall c, sound true (reached c ls) /\ fair (app_of (reached c ls)) /\ no_panic (rt c)) ->
  List.length (ss_workers st) = m /\ Forall (fun w => salive w = true) (ss_workers st).
Proof.
  intros n m ls st P Se Rn. remember (s_init n m) as st0 eqn:E0. induction Rn as [s|s ls st l st2 Rn IH Sp]; intros H.
  { subst s. cbn. split; [apply repeat_length|]. apply Forall_forall. intros w Iw. apply repeat_spec in Iw. now subst. }
  assert (H' : forall c, sound true (reached c ls) /\ fair (app_of (reached c ls)) /\ no_panic (rt c)).
  { intros c. destruct (H c) as (H1 & H2 & H3). destruct (reached_front c l ls) as (more & E). rewrite E in H1, H2. rewrite app_of_app in H2.
    split; [eapply sound_front; eauto|]. split; [eapply fair_front; eauto|exact H3]. }
  destruct (IH E0 H') as [IH1 IH2]. subst s.
  assert (Q : forall c x, nth_error (ss_conns st2) c = Some x -> sn_poisoned x = false).
  { intros c x N. destruct (H c) as (H1 & H2 & H3).
    destruct (served_so_far n m (l :: ls) st2 c x P Se (srun_step _ _ _ _ _ _ _ _ _ _ Rn Sp) N H1 H2 H3) as (rest & more & _ & _ & _ & Z). exact Z. }
  assert (Set_ok : forall i w, salive w = true -> Forall (fun w => salive w = true) (sput st i w)).
  { intros i w Hw. apply Forall_forall. intros v Iv. apply In_nth_error in Iv as [j J]. apply nth_set_inv in J as [[_ ->]|[_ J]]; auto.
    rewrite Forall_forall in IH2. apply IH2. eapply nth_error_In; eauto. }
  inversion Sp; subst; cbn [ss_workers ss_conns] in *; auto.
  - unfold sput. rewrite SlabFacts.set_nth_length. split; auto. apply Set_ok. reflexivity.
  - unfold sput. rewrite SlabFacts.set_nth_length. split; auto. apply Set_ok. destruct st' as [k|t|t]; auto. exfalso.
    assert (N : nth_error (supd st c (mk_sconn (TPoisoned tls t) [] (sn_full x || refused (TPoisoned tls t)) (sn_event x) log')) c = Some (mk_sconn (TPoisoned tls t) [] (sn_full x || refused (TPoisoned tls t)) (sn_event x) log')).
    { unfold supd. eapply nth_set_same; eauto. }
    specialize (Q _ _ N). discriminate Q.
  - specialize (Q _ _ H1). congruence.
Qed.

End Secure.

(** So what a peer gets depends on nothing but what it sent. *)
Theorem C95_own_records_only : forall seal size fuel dbg rt rt' n m ls st n' m' ls' st' c c' x x', positive size -> seals seal ->
  srun seal size fuel dbg rt (s_init n m) ls st -> nth_error (ss_conns st) c = Some x -> sound true (reached c ls) -> quiet st c -> sn_full x = false ->
  srun seal size fuel dbg rt' (s_init n' m') ls' st' -> nth_error (ss_conns st') c' = Some x' -> sound true (reached c' ls') -> quiet st' c' -> sn_full x' = false ->
  rt c = rt' c' -> no_panic (rt c) -> fair (app_of (reached c ls)) -> app_of (reached c ls) = app_of (reached c' ls') ->
  sn_log x = sn_log x' /\ sn_open x = sn_open x' /\ (sn_open x = true -> out_of x = out_of x').
Proof.
  intros seal size fuel dbg rt rt' n m ls st n' m' ls' st' c c' x x' P Se R N So Q F R' N' So' Q' F' Er Np Fa Ea.
  destruct (C95_quiet _ _ _ _ _ _ _ _ _ _ _ P Se R N So Fa Np Q F) as (more & S & M).
  rewrite Er in Np. rewrite Ea in Fa. destruct (C95_quiet _ _ _ _ _ _ _ _ _ _ _ P Se R' N' So' Fa Np Q' F') as (more' & S' & M').
  rewrite Ea, Er in S. destruct (served_unique _ _ _ _ _ _ _ S _ _ _ S') as (E1 & E2 & E3). split; auto. split; auto.
  intros Op. rewrite (M Op) in E2. rewrite E3 in Op. rewrite (M' Op) in E2. now rewrite !app_nil_r in E2.
Qed.

(** With nothing new from peers and sockets the server comes to rest, after a number of steps that it can tell beforehand. *)
Lemma count_set {A} (f : A -> bool) l : forall i x y, nth_error l i = Some x ->
  List.length (filter f (set_nth i y l)) + (if f x then 1 else 0) = List.length (filter f l) + (if f y then 1 else 0).
Proof.
  induction l as [|a l IH]; intros [|i] x y E; cbn in *; try discriminate.
  - inversion E; subst. destruct (f x), (f y); cbn; lia.
  - specialize (IH i x y E). destruct (f a); cbn; lia.
Qed.
Lemma internal_less seal size fuel dbg rt st l st' : sstep seal size fuel dbg rt st l st' -> internal l -> to_do st' < to_do st.
Proof.
  intros Sp I. unfold to_do. inversion Sp; subst; try contradiction; cbn [ss_conns ss_queue ss_workers].
  - pose proof (count_set sn_event _ _ _ (sn_ready false x) H) as X. rewrite H0 in X. cbn [sn_event sn_ready] in X. unfold supd. rewrite app_length. cbn [List.length]. lia.
  - pose proof (count_set (fun w => match w with SWait _ => true | _ => false end) _ _ _ (SWait c) H) as X. cbn in X. unfold sput. rewrite H0. cbn [List.length]. lia.
  - pose proof (count_set (fun w => match w with SWait _ => true | _ => false end) _ _ _ (match st'0 with TPoisoned _ _ => SDead | _ => SFree end) H) as X.
    pose proof (count_set sn_event _ _ _ (mk_sconn st'0 [] (sn_full x || refused st'0) (sn_event x) log') H0) as Y. cbn [sn_event] in Y. unfold sput, supd.
    destruct st'0; cbn in X; lia.
  - pose proof (count_set (fun w => match w with SWait _ => true | _ => false end) _ _ _ SDead H) as X. cbn in X. unfold sput. lia.
Qed.
Theorem C95_comes_to_rest : forall seal size fuel dbg rt st ls st', srun seal size fuel dbg rt st ls st' -> Forall internal ls -> List.length ls <= to_do st.
Proof.
  intros seal size fuel dbg rt st ls st' R F. assert (X : List.length ls + to_do st' <= to_do st); [|lia].
  induction R as [s|s ls st1 l st2 R IH Sp]; cbn [List.length]; [lia|]. inversion F; subst. specialize (IH H2). pose proof (internal_less _ _ _ _ _ _ _ _ Sp H1). lia.
Qed.

(** And rests only when nothing is left to do for any connection, unless all workers are gone. *)
Definition known (st : sstate) : Prop :=
  (forall c, In c (ss_queue st) -> c < List.length (ss_conns st)) /\ (forall c, In (SWait c) (ss_workers st) -> c < List.length (ss_conns st)).
Lemma known_run seal size fuel dbg rt n m ls st : srun seal size fuel dbg rt (s_init n m) ls st -> known st.
Proof.
  remember (s_init n m) as s0 eqn:E0. intros R. induction R as [s|s ls st l st' R IH Sp]; subst.
  { split; cbn; [intros c []|intros c I; apply repeat_spec in I; discriminate]. }
  destruct (IH eq_refl) as [K1 K2]. unfold known. inversion Sp; subst; cbn [ss_conns ss_queue ss_workers]; unfold supd, sput; rewrite ?SlabFacts.set_nth_length; auto.
  - split; auto. intros d I. apply in_app_or in I as [I|[<-|[]]]; auto. apply nth_error_Some. congruence.
  - split; intros d I; [apply K1; rewrite H0; now right|]. apply In_nth_error in I as [j J]. apply nth_set_inv in J as [[_ J]|[_ J]].
    + inversion J; subst. apply K1. rewrite H0. now left.
    + apply K2. eapply nth_error_In; eauto.
  - split; auto. intros d I. apply In_nth_error in I as [j J]. apply nth_set_inv in J as [[_ J]|[_ J]]; [destruct st'0; discriminate|]. apply K2. eapply nth_error_In; eauto.
  - split; auto. intros d I. apply In_nth_error in I as [j J]. apply nth_set_inv in J as [[_ J]|[_ J]]; [discriminate|]. apply K2. eapply nth_error_In; eauto.
Qed.
Theorem C95_rests_when_done : forall seal size fuel dbg rt n m ls st, srun seal size fuel dbg rt (s_init n m) ls st ->
  existsb salive (ss_workers st) = true -> (forall l st', internal l -> ~ sstep seal size fuel dbg rt st l st') ->
  (forall c x, nth_error (ss_conns st) c = Some x ->
     t_handle tls tls_read (tls_write seal) tls_flush size READ_BUF_SIZE fuel dbg (rt c) (s_around (sn_in x) []) (sn_log x) (sn_slot x) <> None) ->
  forall c, quiet st c.
Proof.
  intros seal size fuel dbg rt n m ls st R Al Stuck Fu. destruct (known_run _ _ _ _ _ _ _ _ _ R) as [K1 K2].
  assert (W : forall c, ~ In (SWait c) (ss_workers st)).
  { intros c I. pose proof (K2 c I) as L. apply nth_error_Some in L. destruct (nth_error (ss_conns st) c) as [x|] eqn:N; [|contradiction].
    apply In_nth_error in I as [i I]. destruct (sn_poisoned x) eqn:Po; [refine (Stuck (XDie i c) _ Logic.I _); eapply ss_die; eauto|].
    specialize (Fu c x N). destruct (t_handle tls tls_read (tls_write seal) tls_flush size READ_BUF_SIZE fuel dbg (rt c) (s_around (sn_in x) []) (sn_log x) (sn_slot x)) as [[l s]|] eqn:E; [|contradiction].
    refine (Stuck (XHandle i c []) _ Logic.I _). eapply ss_handle; eauto. }
  intros c. split; [|split; [|apply W]].
  - intros x N. destruct (sn_event x) eqn:E; auto. exfalso. refine (Stuck (XDispatch c) _ Logic.I _). eapply ss_dispatch; eauto.
  - intros I. apply existsb_exists in Al as (w & Iw & Aw). destruct w as [|d|]; [|exact (W d Iw)|discriminate].
    apply In_nth_error in Iw as [i Iw]. destruct (ss_queue st) as [|d q] eqn:Q; [destruct I|]. refine (Stuck (XTake i d) _ Logic.I _). eapply ss_take; eauto.
Qed.

(** ** A case *)

(** Steps, computed. *)
Definition s_exec (seal : bytes -> list chunk) (size : bytes -> N) (fuel : nat) (dbg : bool) (rt : nat -> router) (st : sstate) (l : slabel) : option sstate :=
  match l with
  | XArrive c rs =>
      match nth_error (ss_conns st) c with
      | Some x => if sn_open x then Some (mk_sstate (supd st c (mk_sconn (sn_slot x) (sn_in x ++ rs) (sn_full x) true (sn_log x))) (ss_queue st) (ss_workers st)) else None
      | None => None
      end
  | XRoom c =>
      match nth_error (ss_conns st) c with
      | Some x => if sn_full x then Some (mk_sstate (supd st c (mk_sconn (sn_slot x) (sn_in x) false true (sn_log x))) (ss_queue st) (ss_workers st)) else None
      | None => None
      end
  | XDispatch c =>
      match nth_error (ss_conns st) c with
      | Some x => if sn_event x && existsb salive (ss_workers st) then Some (mk_sstate (supd st c (sn_ready false x)) (ss_queue st ++ [c]) (ss_workers st)) else None
      | None => None
      end
  | XTake i c =>
      match nth_error (ss_workers st) i, ss_queue st with
      | Some SFree, d :: q => if d =? c then Some (mk_sstate (ss_conns st) q (sput st i (SWait c))) else None
      | _, _ => None
      end
  | XHandle i c tx =>
      match nth_error (ss_workers st) i, nth_error (ss_conns st) c with
      | Some (SWait d), Some x =>
          if (d =? c) && negb (sn_poisoned x) && (negb (sn_full x) || match tx with [] => true | _ => false end) then
            match t_handle tls tls_read (tls_write seal) tls_flush size READ_BUF_SIZE fuel dbg (rt c) (s_around (sn_in x) tx) (sn_log x) (sn_slot x) with
            | Some (log', st') => Some (mk_sstate (supd st c (mk_sconn st' [] (sn_full x || refused st') (sn_event x) log')) (ss_queue st)
                (sput st i (match st' with TPoisoned _ _ => SDead | _ => SFree end)))
            | None => None
            end
          else None
      | _, _ => None
      end
  | _ => None
  end.
Lemma s_exec_ok seal size fuel dbg rt st l st' : s_exec seal size fuel dbg rt st l = Some st' -> sstep seal size fuel dbg rt st l st'.
Proof.
  destruct l as [c rs|c|c|c|i c|i c tx|i c]; cbn [s_exec]; try discriminate.
  - destruct (nth_error (ss_conns st) c) as [x|] eqn:N; [|discriminate]. destruct (sn_open x) eqn:O; [|discriminate]. intros X. inversion X; subst. eapply ss_arrive; eauto.
  - destruct (nth_error (ss_conns st) c) as [x|] eqn:N; [|discriminate]. destruct (sn_full x) eqn:O; [|discriminate]. intros X. inversion X; subst. eapply ss_room; eauto.
  - destruct (nth_error (ss_conns st) c) as [x|] eqn:N; [|discriminate]. destruct (sn_event x) eqn:O; [|discriminate]. cbn [andb]. destruct (existsb salive (ss_workers st)) eqn:A; [|discriminate].
    intros X. inversion X; subst. eapply ss_dispatch; eauto.
  - destruct (nth_error (ss_workers st) i) as [[|d|]|] eqn:N; try discriminate. destruct (ss_queue st) as [|d q] eqn:Q; [discriminate|]. destruct (Nat.eqb_spec d c); [|discriminate]. subst.
    intros X. inversion X; subst. eapply ss_take; eauto.
  - destruct (nth_error (ss_workers st) i) as [[|d|]|] eqn:N; try discriminate. destruct (nth_error (ss_conns st) c) as [x|] eqn:Nc; [|discriminate].
    destruct (Nat.eqb_spec d c); [|discriminate]. subst. destruct (sn_poisoned x) eqn:Po; [discriminate|]. cbn [negb andb].
    destruct (negb (sn_full x) || match tx with [] => true | _ => false end) eqn:Fu; [|discriminate].
    destruct (t_handle tls tls_read (tls_write seal) tls_flush size READ_BUF_SIZE fuel dbg (rt c) (s_around (sn_in x) tx) (sn_log x) (sn_slot x)) as [[log' s']|] eqn:E; [|discriminate].
    intros X. inversion X; subst. eapply ss_handle; eauto. intros F. rewrite F in Fu. cbn in Fu. destruct tx; auto; discriminate.
Qed.
Fixpoint s_exec_all (seal : bytes -> list chunk) (size : bytes -> N) (fuel : nat) (dbg : bool) (rt : nat -> router) (st : sstate) (ls : list slabel) : option sstate :=
  match ls with
  | [] => Some st
  | l :: ls' => match s_exec_all seal size fuel dbg rt st ls' with Some s => s_exec seal size fuel dbg rt s l | None => None end
  end.
Lemma s_exec_all_ok seal size fuel dbg rt st ls : forall st', s_exec_all seal size fuel dbg rt st ls = Some st' -> srun seal size fuel dbg rt st ls st'.
Proof.
  induction ls as [|l ls IH]; cbn [s_exec_all]; intros st' E; [inversion E; constructor|].
  destruct (s_exec_all seal size fuel dbg rt st ls) as [s|]; [|discriminate]. eapply srun_step; [apply IH; reflexivity|now apply s_exec_ok].
Qed.

(** One worker, two peers.  The first shakes hands and sends two requests in pieces; its socket is full after a part of the first answer, then has room.
    The second sends what is no handshake. *)
Definition one_round (c : nat) (tx : list N) : list slabel := [XHandle 0 c tx; XTake 0 c; XDispatch c].
Definition two_peers : list slabel :=
  one_round 0 [300; 300; 300]%N ++ [XRoom 0] ++
  one_round 0 [] ++ [XArrive 0 [[]; [RApp (skipn 40 two_requests)]]] ++
  one_round 0 [130; 30]%N ++ one_round 1 [50]%N ++
  [XArrive 0 [[RHand true [41]%N; RApp (firstn 40 two_requests)]]; XArrive 1 [[RBad]]; XArrive 0 [[RHand false [90]%N]]].
Notation case_end := (s_exec_all seal1 (fun _ => 32%N) 400 true (fun _ => example_router) (s_init 2 1) two_peers).
Lemma app_cut a : app_of [RHand false [90%N]; RHand true [41%N]; RApp (firstn 40 a); RApp (skipn 40 a)] = a.
Proof. unfold app_of. cbn [flat_map app]. rewrite app_nil_r. apply firstn_skipn. Qed.
Lemma two_requests_fair : fair two_requests.
Proof.
  pose proof (plain_fair _ (proj1 C24_case)) as F. cbn [map] in F. unfold two_requests. revert F. generalize (write_request example_request). intros w F.
  cbn [List.concat] in F. rewrite app_nil_r in F. exact F.
Qed.
Lemma case_records : sound true (reached 0 two_peers) /\ fair (app_of (reached 0 two_peers)).
Proof.
  assert (Rc : reached 0 two_peers = [RHand false [90%N]; RHand true [41%N]; RApp (firstn 40 two_requests); RApp (skipn 40 two_requests)]) by (vm_compute; reflexivity).
  rewrite Rc, app_cut. split; [cbn [sound negb andb]; intuition discriminate|exact two_requests_fair].
Qed.
Example C95_case : exists st x y,
  srun seal1 (fun _ => 32%N) 400 true (fun _ => example_router) (s_init 2 1) two_peers st /\ nth_error (ss_conns st) 0 = Some x /\ nth_error (ss_conns st) 1 = Some y /\
  sound true (reached 0 two_peers) /\ fair (app_of (reached 0 two_peers)) /\ no_panic example_router /\ positive (fun _ => 32%N) /\ seals seal1 /\
  quiet st 0 /\ sn_full x = false /\ sn_open x = true /\ sn_open y = false /\ List.length (sn_log x) = 2 /\
  out_of x = write_response (response_of_body (lit "hello")) ++ not_found.
Proof.
  assert (H : match case_end with
    | Some st => match nth_error (ss_conns st) 0, nth_error (ss_conns st) 1 with
        | Some x, Some y => (sn_full x, sn_open x, sn_open y, List.length (sn_log x), sn_event x, ss_queue st, ss_workers st, out_of x) =
            (false, true, false, 2, false, [], [SFree], write_response (response_of_body (lit "hello")) ++ not_found)
        | _, _ => False
        end
    | None => False
    end) by (vm_compute; reflexivity).
  destruct case_end as [st|] eqn:E; [|contradiction]. pose proof (s_exec_all_ok _ _ _ _ _ _ _ _ E) as R.
  destruct (nth_error (ss_conns st) 0) as [x|] eqn:Nx; [|contradiction]. destruct (nth_error (ss_conns st) 1) as [y|] eqn:Ny; [|contradiction].
  injection H as H1 H2 H3 H4 H5 H6 H7 H8. exists st, x, y. split; [exact R|]. split; [auto|]. split; [auto|].
  split; [exact (proj1 case_records)|]. split; [exact (proj2 case_records)|].
  split; [intros [|] ?; discriminate|]. split; [intros ?; reflexivity|]. split; [exact seal1_seals|].
  split; [|auto 10]. split; [intros z Nz; rewrite Nx in Nz; inversion Nz; subst; exact H5|]. rewrite H6, H7. split; [intros []|intros [X|[]]; discriminate].
Qed.

(** That end is a rest. *)
Example C95_case_rest : exists st, srun seal1 (fun _ => 32%N) 400 true (fun _ => example_router) (s_init 2 1) two_peers st /\
  existsb salive (ss_workers st) = true /\ (forall l st', internal l -> ~ sstep seal1 (fun _ => 32%N) 400 true (fun _ => example_router) st l st') /\
  forall c x, nth_error (ss_conns st) c = Some x ->
     t_handle tls tls_read (tls_write seal1) tls_flush (fun _ => 32%N) READ_BUF_SIZE 400 true example_router (s_around (sn_in x) []) (sn_log x) (sn_slot x) <> None.
Proof.
  assert (H : match case_end with
    | Some st => (ss_queue st, ss_workers st, map sn_event (ss_conns st), forallb (fun x => match
        t_handle tls tls_read (tls_write seal1) tls_flush (fun _ => 32%N) READ_BUF_SIZE 400 true example_router (s_around (sn_in x) []) (sn_log x) (sn_slot x) with Some _ => true | None => false end) (ss_conns st)) =
          ([], [SFree], [false; false], true)
    | None => False
    end) by (vm_compute; reflexivity).
  destruct case_end as [st|] eqn:E; [|contradiction]. pose proof (s_exec_all_ok _ _ _ _ _ _ _ _ E) as R. exists st. injection H as H1 H2 H3 H4.
  split; [exact R|]. split; [rewrite H2; reflexivity|]. split.
  - intros l st' I Sp. pose proof (internal_less _ _ _ _ _ _ _ _ Sp I) as L. unfold to_do in L at 2. rewrite H1, H2 in L.
    assert (Z : filter sn_event (ss_conns st) = []).
    { clear - H3. destruct (ss_conns st) as [|a [|b [|d r]]]; try discriminate. cbn in H3. injection H3 as A B. cbn. now rewrite A, B. }
    rewrite Z in L. cbn in L. lia.
  - intros c x N. apply nth_error_In in N. rewrite forallb_forall in H4. specialize (H4 x N). intros X. rewrite X in H4. discriminate.
Qed.

(** Peers that are all like the first: two of them, two workers. *)
Definition both_like : list slabel :=
  [XHandle 1 1 [300]%N; XHandle 0 0 [300]%N; XTake 1 1; XTake 0 0; XDispatch 1; XDispatch 0;
   XArrive 1 [[RHand false [90]%N]]; XArrive 0 [[RHand false [90]%N; RHand true [41]%N; RApp (firstn 40 two_requests)]; [RApp (skipn 40 two_requests)]]].
Example C95_case_workers : exists st,
  srun seal1 (fun _ => 32%N) 400 true (fun _ => example_router) (s_init 2 2) both_like st /\ map (fun x => List.length (sn_log x)) (ss_conns st) = [2; 0] /\
  forall c, sound true (reached c both_like) /\ fair (app_of (reached c both_like)) /\ no_panic example_router.
Proof.
  assert (H : match s_exec_all seal1 (fun _ => 32%N) 400 true (fun _ => example_router) (s_init 2 2) both_like with
    | Some st => map (fun x => List.length (sn_log x)) (ss_conns st) = [2; 0] | None => False end) by (vm_compute; reflexivity).
  destruct (s_exec_all seal1 (fun _ => 32%N) 400 true (fun _ => example_router) (s_init 2 2) both_like) as [st|] eqn:E; [|contradiction].
  exists st. split; [exact (s_exec_all_ok _ _ _ _ _ _ _ _ E)|]. split; [exact H|].
  assert (Fn : fair []) by (apply (fair_front [] two_requests); exact two_requests_fair).
  intros c. split; [|split; [|intros [|] ?; discriminate]].
  - destruct c as [|[|c]]; cbn; intuition discriminate.
  - destruct c as [|[|c]].
    + assert (Rc : reached 0 both_like = [RHand false [90%N]; RHand true [41%N]; RApp (firstn 40 two_requests); RApp (skipn 40 two_requests)]) by (vm_compute; reflexivity).
      rewrite Rc, app_cut. exact two_requests_fair.
    + exact Fn.
    + exact Fn.
Qed.

Print Assumptions C95_served.
Print Assumptions C95_quiet.
Print Assumptions C95_workers_survive.
Print Assumptions C95_own_records_only.
Print Assumptions C95_comes_to_rest.
Print Assumptions C95_rests_when_done.
