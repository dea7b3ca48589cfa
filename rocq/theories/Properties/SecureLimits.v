(** C110: what peers can do to a server that listens with TLS, whatever they send. *)
From Coq Require Import List Ascii String Arith NArith ZArith Bool Lia.
From Verif.Model Require Import Bytes Io Common Parse Encode Writer Server Client Generic Buffered Slab Streams Tls Secure.
From Verif.Spec Require Import Batch Stream Drive Numerals Grammar Wire Output Unicode Session Exchange Buffering Streams Oversize.
From Verif.Proofs Require Import DriveFacts ServerFacts BufferedFacts BufferedConnFacts RecutFacts StreamsFacts TlsFacts LocksFacts SecureFacts UnwindFacts.
From Verif.Proofs Require SlabFacts.
From Verif.Properties Require Import Streaming RoundTrip Server Client Buffered Reference Streams Tls Secure Oversize Stopped.
From Verif.Spec Require Import Tls Secure.
Import ListNotations.
Local Open Scope nat_scope.

Section Any.
Variable seal : bytes -> list chunk.
Variable size : bytes -> N.
Variable fuel : nat.
Variable dbg : bool.
Variable rt : nat -> router.
Notation srun := (srun seal size fuel dbg rt).
Notation run c := (t_visits tls tls_read (tls_write seal) tls_flush size READ_BUF_SIZE fuel dbg (rt c)).
Notation handle c := (t_handle tls tls_read (tls_write seal) tls_flush size READ_BUF_SIZE fuel dbg (rt c)).

(** Whatever arrives, a connection is what calls of the handler have made of a new one. *)
Lemma history n m ls st : srun (s_init n m) ls st -> forall c x, nth_error (ss_conns st) c = Some x ->
  exists fs, Forall around fs /\ run c fs [] fresh = Some (sn_log x, sn_slot x).
Proof.
  remember (s_init n m) as s0 eqn:E0. intros Rn. induction Rn as [s|s ls st l st' Rn IH Sp]; intros c x N; subst.
  { cbn [s_init ss_conns] in N. apply nth_error_In, repeat_spec in N. subst. exists []. split; [constructor|reflexivity]. }
  specialize (IH eq_refl). inversion Sp; subst; cbn [ss_conns] in N; try (apply nth_set_inv in N as [[<- ->]|[Ne N]]); eauto; try exact (IH _ _ H).
  destruct (IH _ _ H0) as (fs & F & R). cbn [sn_log sn_slot].
  destruct (sn_slot x0) as [k|t|t] eqn:Es.
  - exists (fs ++ [decided (tb_in tls (tc_stream tls k)) (sn_in x0) tx]). split.
    + apply Forall_app. split; auto. constructor; [apply decided_around|constructor].
    + eapply visits_snoc; [exact R|]. rewrite <- H3. cbn [t_handle]. unfold tc_env. rewrite decided_same. reflexivity.
  - cbn [t_handle] in H3. inversion H3; subst. eauto.
  - unfold sn_poisoned in H1. rewrite Es in H1. discriminate.
Qed.

(** The same on a socket without buffers. *)
Lemma as_plain c fs log st : positive size -> seals seal -> Forall around fs -> run c fs [] fresh = Some (log, st) ->
  exists s vs st', visits dbg (rt c) vs [] (Open (conn_new s)) = (log, st') /\
    match st, st' with TOpen _ _, Open _ | TGone _ _, Gone _ | TPoisoned _ _, Poisoned _ => True | _, _ => False end.
Proof.
  intros P Se F E.
  assert (Fo : Forall (outside_only tls gave handed) fs) by (eapply Forall_impl; [|exact F]; apply around_outside).
  assert (La : lasts tls tls_read (tls_write seal) tls_flush (fun _ => True) fs) by (constructor; auto; apply Forall_forall; auto).
  destruct (C92_server tls tls_read (tls_write seal) tls_flush gave handed (fun _ => True) (fun _ _ _ => True) _ _ _ _ fs tls_new _ _ P (tls_honest seal Se) ltac:(constructor; auto) La Logic.I Fo eq_refl eq_refl E)
    as (rx & vs & b & V & Sm & _).
  destruct (C71_server _ _ _ _ _ _ _ P V) as (s & st' & _ & V' & Sm'). exists s, vs, st'. split; auto.
  destruct st, b, st'; cbn in Sm, Sm'; auto.
Qed.

(** The same for a peer that is sound, with what its socket does. *)
Lemma as_plain_sound c fs log st : positive size -> seals seal -> Forall goes_well fs -> run c fs [] fresh = Some (log, st) ->
  exists s vs st', visits dbg (rt c) vs [] (Open (conn_new s)) = (log, st') /\ content s = gave (stream_of tls st) /\
    Forall visit_fine vs /\ Forall visit_steady vs /\
    match st, st' with
    | TOpen _ k, Open d => pending (cn_in d) = [] /\ output d = handed (stream_of tls st) ++ unsent (tb_w tls (tc_stream tls k))
    | TGone _ u, Gone sent | TPoisoned _ u, Poisoned sent => handed u = sent
    | _, _ => False
    end.
Proof.
  intros P Se F E.
  destruct (C92_server tls tls_read (tls_write seal) tls_flush gave handed calm tls_G _ _ _ _ fs tls_new _ _ P (tls_honest seal Se) (tls_foresees seal)
    (well_lasts seal fs F) tls_new_calm (well_outside fs F) eq_refl eq_refl E) as (rx & vs & b & V & Sm & Fv).
  destruct (gentle_visits tls tls_G calm fs vs tls_gentle Fv) as (F1 & F2).
  destruct (C71_server _ _ _ _ _ _ _ P V) as (s & st' & R & V' & Sm'). exists s, vs, st'. split; [exact V'|].
  destruct st as [k|u|u], b as [d|y|y], st' as [d'|z|z]; cbn in Sm, Sm'; try contradiction; cbn [stream_of].
  - destruct Sm as ((S1 & S2 & S3 & S4) & S5 & S6), Sm' as (T1 & T2 & T3 & T4). split; [unfold recut in R; congruence|]. split; auto. split; auto. split.
    + apply still_unread in T4. rewrite T4. unfold unread. rewrite S5, <- S3. cbn [pending]. rewrite app_nil_r. destruct fs as [|f fs _] using rev_ind.
      * cbn [t_visits] in E. inversion E; subst. reflexivity.
      * eapply C92_all_used. exact E.
    + unfold output. rewrite T2, T3, S4, S2. reflexivity.
  - destruct Sm as (S1 & S2). split; [unfold recut in R; congruence|]. subst. auto.
  - destruct Sm as (S1 & S2). split; [unfold recut in R; congruence|]. subst. auto.
Qed.

(** What the server has done for a peer that sent b: as the reference says; or b goes over the limits, the requests before were answered, and
    then one 400 response was written and the connection dropped, or, in a debug build, the handler panicked.  [more] is what was not delivered. *)
Definition done_for (r : router) (b : bytes) (x : sconn) (more : bytes) : Prop :=
  match sn_slot x with
  | TOpen _ _ => served r [] b false (sn_log x) (out_of x ++ more) true
  | TGone _ _ => served r [] b false (sn_log x) (out_of x ++ more) false \/
      exists o, too_big r [] b (sn_log x) o /\ o ++ bad_request = out_of x ++ more
  | TPoisoned _ _ => dbg = true /\ too_big r [] b (sn_log x) (out_of x ++ more)
  end.

Lemma done_so_far n m ls st c x : positive size -> seals seal -> srun (s_init n m) ls st -> nth_error (ss_conns st) c = Some x ->
  sound true (reached c ls) -> whole_chars (app_of (reached c ls)) -> no_panic (rt c) ->
  exists rest more, reads (ts_seen (stream_of tls (sn_slot x))) ++ rest = app_of (reached c ls) /\
    done_for (rt c) (reads (ts_seen (stream_of tls (sn_slot x)))) x more /\
    (forall k, sn_slot x = TOpen tls k -> ts_queue (tb_in tls (tc_stream tls k)) = [] -> unsent (tb_w tls (tc_stream tls k)) = [] -> more = []).
Proof.
  intros P Se Rn N So Wc Np.
  destruct (whole_inv _ _ _ _ _ _ _ _ _ Rn c x N []) as ((fs & F & V) & Fit & _); [now rewrite app_nil_r|].
  assert (H : has_read (reached c ls) x).
  { unfold conn_fits in Fit. destruct (sn_slot x) as [k|t|t] eqn:Es; [|exact Fit|exact Fit]. destruct Fit as (all & (_ & F1 & F2) & A).
    unfold has_read. rewrite Es. split; [exact F1|]. cbn [stream_of]. eexists. rewrite <- A, <- F2, <- app_assoc. reflexivity. }
  destruct H as [Fr (rest & Er)]. exists rest. destruct (events_fine _ Fr) as (E1 & E2 & E3).
  destruct (as_plain_sound c fs _ _ P Se F V) as (s & vs & st' & V' & Cs & F1 & F2 & M). rewrite events_content in Cs. fold (recut s (events (ts_seen (stream_of tls (sn_slot x))))) in Cs.
  assert (A : any_size false s).
  { apply (chars_any_size (app_of (reached c ls))); auto.
    - apply live_eof_false. eapply recut_live; [apply recut_sym; exact Cs|exact E1].
    - intros I. apply in_split in I as (s1 & s2 & I). destruct (recut_split _ _ _ _ _ Cs I) as (t1 & t2 & I2 & _). apply E2. rewrite I2. apply in_or_app. right. now left.
    - exists rest. rewrite (recut_pending _ _ Cs), E3. auto. }
  pose proof (C106_connection dbg (rt c) false s vs _ _ Np A F1 (or_introl F2) V') as K. rewrite (recut_pending _ _ Cs), E3 in K.
  unfold done_for. rewrite out_delivered. destruct (sn_slot x) as [k|u|u] eqn:Es, st' as [d|sent|sent]; try contradiction; cbn [stream_of] in *.
  - destruct M as [M1 M2]. destruct K as (got & Eg & K & _). rewrite M1, app_nil_r in Eg. subst got.
    exists (data_of (map ch_what (ts_queue (tb_in tls (tc_stream tls k)))) ++ unsent (tb_w tls (tc_stream tls k))).
    rewrite M2 in K. unfold handed in K. rewrite <- app_assoc in K. split; [exact Er|]. split; [exact K|]. intros k' X. inversion X; subst. intros -> ->. reflexivity.
  - destruct K as (out & K & (lost & ->) & _). rewrite <- M in K. unfold handed in K. rewrite <- app_assoc in K. eexists. split; [exact Er|]. split; [|discriminate].
    destruct K as [K|(o & K & E)]; [left; exact K|]. right. exists o. split; [exact K|]. symmetry. exact E.
  - destruct K as (D & out & K & (lost & ->)). rewrite <- M in K. unfold handed in K. rewrite <- app_assoc in K. eexists. split; [exact Er|]. split; [|discriminate]. split; [exact D|exact K].
Qed.

(** For every peer whose handshake goes well and who sends bytes, of any size, of which every first part can be followed by a pause: at any time,
    whatever the other peers do and whatever happens to the workers. *)
Theorem C110_served : forall n m ls st c x, positive size -> seals seal -> srun (s_init n m) ls st -> nth_error (ss_conns st) c = Some x ->
  sound true (reached c ls) -> whole_chars (app_of (reached c ls)) -> no_panic (rt c) ->
  exists b rest more, app_of (reached c ls) = b ++ rest /\ done_for (rt c) b x more.
Proof.
  intros n m ls st c x P Se Rn N So Wc Np. destruct (done_so_far _ _ _ _ _ _ P Se Rn N So Wc Np) as (rest & more & E & D & _). eauto.
Qed.

(** When nothing is left to do for the connection and its socket is not full, that is so of all that the peer sent, and if the connection is open
    every answer was delivered. *)
Theorem C110_quiet : forall n m ls st c x, positive size -> seals seal -> srun (s_init n m) ls st -> nth_error (ss_conns st) c = Some x ->
  sound true (reached c ls) -> whole_chars (app_of (reached c ls)) -> no_panic (rt c) -> quiet st c -> sn_full x = false ->
  exists more, done_for (rt c) (app_of (reached c ls)) x more /\ (sn_open x = true -> more = []).
Proof.
  intros n m ls st c x P Se Rn N So Wc Np (Q1 & Q2 & Q3) Full. destruct (done_so_far _ _ _ _ _ _ P Se Rn N So Wc Np) as (rest & more & E & S & M).
  destruct (sn_slot x) as [k|u|u] eqn:Es.
  2:{ exists more. split; [|unfold sn_open; rewrite Es; discriminate]. unfold done_for in *. rewrite Es in *. rewrite <- E.
      destruct S as [S|(o & S & Eo)]; [left; exact (served_dropped _ _ _ _ _ S _ _)|right; exists o; split; auto; now apply too_big_longer]. }
  2:{ exists more. split; [|unfold sn_open; rewrite Es; discriminate]. unfold done_for in *. rewrite Es in *. rewrite <- E.
      destruct S as [D S]. split; auto. now apply too_big_longer. }
  destruct (whole_inv _ _ _ _ _ _ _ _ _ Rn c x N []) as ((fs & F & V) & Fit & B); [now rewrite app_nil_r|].
  destruct B as [[B|[B|B]]|B]; [rewrite (Q1 _ N) in B; discriminate|contradiction|contradiction|].
  unfold settled in B. rewrite Es in B. destruct B as [In [B|(B1 & B2 & B3 & B4)]]; [congruence|].
  assert (Er : rest = []).
  { unfold conn_fits in Fit. rewrite Es in Fit. destruct Fit as (all & (_ & _ & A) & Ea). rewrite In in Ea. cbn in Ea. rewrite app_nil_r in Ea. rewrite Ea in A.
    unfold yet in A. rewrite B1, B2 in A. cbn in A. rewrite app_nil_r in A. cbn [stream_of] in E. rewrite <- A in E.
    rewrite <- (app_nil_r (reads _)) in E at 2. now apply app_inv_head in E. }
  subst rest. rewrite app_nil_r in E. exists more. rewrite <- E. split; [exact S|]. intros _.
  destruct B4 as [B4|[[B4 _]|[B4 _]]]; [exact (M k eq_refl B3 B4)| |contradiction].
  assert (Fw : Forall around fs) by (eapply Forall_impl; [|exact F]; intros f [A _]; exact A).
  rewrite Es in V. destruct (C93_handshake_first seal size fuel dbg (rt c) fs _ _ Fw V B4) as [_ H].
  assert (Z : reads (ts_seen (stream_of tls (TOpen tls k))) = []) by (apply reads_nothing; exact H).
  unfold done_for in S. rewrite Es, Z in S. apply served_nothing_inv in S as [_ S]. now apply app_eq_nil in S.
Qed.
End Any.

(** Every worker still takes jobs, and no connection was lost to a panic. *)
Definition all_serving (st : sstate) : Prop :=
  Forall (fun w => w <> SDead) (ss_workers st) /\ (forall c x t, nth_error (ss_conns st) c = Some x -> sn_slot x <> TPoisoned tls t).

(** In a release build whose listeners do not panic: whatever records any number of peers send, good or bad, in any order, in any pieces
    and at any time, however the sockets take the answers and whatever the schedule. *)
Theorem C110_release : forall seal size fuel rt n m ls st, positive size -> seals seal -> (forall c, no_panic (rt c)) ->
  srun seal size fuel false rt (s_init n m) ls st -> all_serving st /\ List.length (ss_workers st) = m.
Proof.
  intros seal size fuel rt n m ls st P Se Np Rn.
  assert (Q : forall ls st c x t, srun seal size fuel false rt (s_init n m) ls st -> nth_error (ss_conns st) c = Some x -> sn_slot x <> TPoisoned tls t).
  { clear ls st Rn. intros ls st c x t Rn N Es. destruct (history _ _ _ _ _ _ _ _ _ Rn c x N) as (fs & F & V). rewrite Es in V.
    destruct (as_plain _ _ _ _ _ _ _ _ _ P Se F V) as (s & vs & st' & V' & M). destruct st' as [| |sent]; try contradiction.
    eapply release_unpoisoned; [|exact V']. exact (Np c). }
  split; [split|]; [|intros c x t; exact (Q _ _ _ _ _ Rn)|].
  - remember (s_init n m) as s0 eqn:E0. induction Rn as [s|s ls st l st2 Rn IH Sp]; subst.
    { apply Forall_forall. intros w Iw. apply repeat_spec in Iw. subst. discriminate. }
    specialize (IH eq_refl Q). pose proof (srun_step _ _ _ _ _ _ _ _ _ _ Rn Sp) as Rn2. inversion Sp; subst; cbn [ss_workers] in *; auto; unfold sput; apply Forall_nth_set; auto; try discriminate.
    + destruct st' as [k|t|t] eqn:E; try discriminate. exfalso. eapply (Q _ _ c _ t Rn2); [cbn [ss_conns]; unfold supd; eapply nth_set_same; eauto|reflexivity].
    + exfalso. unfold sn_poisoned in H1. destruct (sn_slot x) as [|t|t] eqn:E; try discriminate. exact (Q _ _ _ _ _ Rn H0 E).
  - clear Q. remember (s_init n m) as s0 eqn:E0. induction Rn as [s|s ls st l st2 Rn IH Sp]; subst; [apply repeat_length|]. specialize (IH eq_refl).
    inversion Sp; subst; cbn [ss_workers]; unfold sput; rewrite ?SlabFacts.set_nth_length; auto.
Qed.
Print Assumptions C110_served.
Print Assumptions C110_quiet.
Print Assumptions C110_release.

(** *** Debug builds *)

(** The attack of C104, in records. *)
Definition rs1 : list (list record) := [[RHand true []; RApp piece1]].
Definition rs2 : list (list record) := [[RApp piece2]].
Definition a_byte : list (list record) := [[RApp ["a"%char]]].
Notation call seal size f rt := (t_handle tls tls_read (tls_write seal) tls_flush size READ_BUF_SIZE (10 + f) true rt).
Definition after_call (rs : list (list record)) (k : tslot tls) : tslot tls :=
  match call (fun _ => []) (fun _ => 32%N) 0 silent (s_around rs []) [] k with Some (_, k') => k' | None => k end.
Definition slot1 : tslot tls := after_call rs1 fresh.
Definition slot2 : tslot tls := after_call rs2 slot1.
Lemma call1 seal size f rt : call seal size f rt (s_around rs1 []) [] fresh = Some ([], slot1).
Proof. vm_compute. reflexivity. Qed.
Lemma call2 seal size f rt : call seal size f rt (s_around rs2 []) [] slot1 = Some ([], slot2).
Proof. vm_compute. reflexivity. Qed.
(** The third call panics, whatever has arrived. *)
Lemma call3 seal size f rt rs : exists t, call seal size f rt (s_around rs []) [] slot2 = Some ([], TPoisoned tls t).
Proof. eexists. vm_compute. reflexivity. Qed.
Lemma slots_open : match slot1 with TOpen _ _ => true | _ => false end = true /\ match slot2 with TOpen _ _ => true | _ => false end = true.
Proof. split; vm_compute; reflexivity. Qed.
Lemma tls_stages : exists a b, forall seal size f rt,
  call seal size f rt (s_around rs1 []) [] fresh = Some ([], TOpen tls a) /\
  call seal size f rt (s_around rs2 []) [] (TOpen tls a) = Some ([], TOpen tls b) /\
  forall rs, exists t, call seal size f rt (s_around rs []) [] (TOpen tls b) = Some ([], TPoisoned tls t).
Proof.
  destruct slots_open as [O1 O2]. pose proof call1 as C1. pose proof call2 as C2. pose proof call3 as C3. revert O1 O2 C1 C2 C3. generalize slot1 slot2. intros k1 k2 O1 O2 C1 C2 C3.
  destruct k1 as [a| |]; try discriminate. destruct k2 as [b| |]; try discriminate. exists a, b. auto.
Qed.

Section Attack.
Variable (seal : bytes -> list chunk) (size : bytes -> N) (f : nat) (rt : nat -> router) (others n : nat).
Variable (a b : tconn tls) (rs1 rs2 : list (list record)).
Hypothesis C1 : call seal size f (rt 0) (s_around rs1 []) [] fresh = Some ([], TOpen tls a).
Hypothesis C2 : call seal size f (rt 0) (s_around rs2 []) [] (TOpen tls a) = Some ([], TOpen tls b).
Hypothesis C3 : forall rs, exists t, call seal size f (rt 0) (s_around rs []) [] (TOpen tls b) = Some ([], TPoisoned tls t).
Let rest := repeat sn_new others.
Notation run := (srun seal size (10 + f) true rt (s_init (S others) (S n))).

(** One job on connection 0, by worker 0. *)
Lemma tls_job ls k slot' full rs ws : call seal size f (rt 0) (s_around rs []) [] (TOpen tls k) = Some ([], slot') ->
  run ls (mk_sstate (mk_sconn (TOpen tls k) [] full false [] :: rest) [] (SFree :: ws)) ->
  exists full', run (XHandle 0 0 [] :: XTake 0 0 :: XDispatch 0 :: XArrive 0 rs :: ls)
    (mk_sstate (mk_sconn slot' [] full' false [] :: rest) [] ((match slot' with TPoisoned _ _ => SDead | _ => SFree end) :: ws)).
Proof.
  intros E Rn. eexists.
  eapply srun_step in Rn; [|eapply (ss_arrive _ _ _ _ _ _ 0 _ rs); reflexivity]. cbn [supd set_nth ss_conns ss_queue ss_workers sn_slot sn_in sn_full sn_event sn_log app] in Rn.
  eapply srun_step in Rn; [|eapply (ss_dispatch _ _ _ _ _ _ 0); reflexivity]. cbn [supd set_nth ss_conns ss_queue ss_workers sn_ready sn_slot sn_in sn_full sn_event sn_log app] in Rn.
  eapply srun_step in Rn; [|eapply (ss_take _ _ _ _ _ _ 0 0); reflexivity]. cbn [sput set_nth ss_conns ss_queue ss_workers] in Rn.
  eapply srun_step in Rn; [|eapply (ss_handle _ _ _ _ _ _ 0 0 _ []); [reflexivity|reflexivity|reflexivity|reflexivity|cbn [sn_in sn_log sn_slot]; exact E]].
  cbn [supd sput set_nth ss_conns ss_queue ss_workers sn_slot sn_in sn_full sn_event sn_log] in Rn. exact Rn.
Qed.

(** A byte for each of the others. *)
Lemma tls_gather full m : forall w ls ins, w + m = n ->
  run ls (mk_sstate (mk_sconn (TOpen tls b) ins full false [] :: rest) [] (SFree :: repeat (SWait 0) w ++ repeat SFree m)) ->
  exists ls' ins', run ls' (mk_sstate (mk_sconn (TOpen tls b) ins' full false [] :: rest) [] (SFree :: repeat (SWait 0) n)) /\
    reached 0 ls' = reached 0 ls ++ repeat (RApp ["a"%char]) m /\ (forall c, c <> 0 -> reached c ls' = reached c ls).
Proof.
  induction m as [|m IH]; intros w ls ins Hw Rn.
  - exists ls, ins. cbn [repeat] in *. rewrite app_nil_r in *. replace w with n in Rn by lia. auto.
  - cbn [repeat] in Rn.
    eapply srun_step in Rn; [|eapply (ss_arrive _ _ _ _ _ _ 0 _ a_byte); reflexivity]. cbn [supd set_nth ss_conns ss_queue ss_workers sn_slot sn_in sn_full sn_event sn_log] in Rn.
    eapply srun_step in Rn; [|eapply (ss_dispatch _ _ _ _ _ _ 0); reflexivity]. cbn [supd set_nth ss_conns ss_queue ss_workers sn_ready sn_slot sn_in sn_full sn_event sn_log app] in Rn.
    eapply srun_step in Rn; [|eapply (ss_take _ _ _ _ _ _ (S w) 0); [|reflexivity]].
    2:{ cbn [ss_workers nth_error]. pose proof (nth_mid (repeat (SWait 0) w) SFree (repeat SFree m)) as X. now rewrite repeat_length in X. }
    cbn [sput set_nth ss_conns ss_queue ss_workers] in Rn.
    pose proof (set_mid (repeat (SWait 0) w) SFree (SWait 0) (repeat SFree m)) as X. rewrite repeat_length in X. rewrite X in Rn.
    replace (repeat (SWait 0) w ++ SWait 0 :: repeat SFree m) with (repeat (SWait 0) (S w) ++ repeat SFree m) in Rn.
    2:{ replace (S w) with (w + 1) by lia. rewrite repeat_app, <- app_assoc. reflexivity. }
    destruct (IH (S w) _ _ ltac:(lia) Rn) as (ls' & ins' & R1 & R2 & R3). exists ls', ins'. split; auto. split.
    + rewrite R2. cbn [reached Nat.eqb]. rewrite <- app_assoc. reflexivity.
    + intros c Nc. rewrite R3 by exact Nc. cbn [reached]. destruct c; [congruence|]. cbn [Nat.eqb]. now rewrite app_nil_r.
Qed.

(** Those who wait for a poisoned mutex die. *)
Lemma tls_perish x m : forall w ls, sn_poisoned x = true ->
  run ls (mk_sstate (x :: rest) [] (repeat SDead (S w) ++ repeat (SWait 0) m)) ->
  exists ls', run ls' (mk_sstate (x :: rest) [] (repeat SDead (S w + m))) /\ (forall c, reached c ls' = reached c ls).
Proof.
  induction m as [|m IH]; intros w ls Hx Rn.
  - exists ls. cbn [repeat] in Rn. rewrite app_nil_r in Rn. rewrite Nat.add_0_r. auto.
  - cbn [repeat app] in Rn.
    eapply srun_step in Rn; [|eapply (ss_die _ _ _ _ _ _ (S w) 0 x); [|reflexivity|exact Hx]].
    2:{ cbn [ss_workers nth_error]. pose proof (nth_mid (repeat SDead w) (SWait 0) (repeat (SWait 0) m)) as X. now rewrite repeat_length in X. }
    cbn [sput set_nth ss_conns ss_queue ss_workers] in Rn.
    pose proof (set_mid (repeat SDead w) (SWait 0) SDead (repeat (SWait 0) m)) as X. rewrite repeat_length in X. rewrite X in Rn.
    replace (SDead :: repeat SDead w ++ SDead :: repeat (SWait 0) m) with (repeat SDead (S (S w)) ++ repeat (SWait 0) m) in Rn.
    2:{ cbn [repeat app]. f_equal. change (SDead :: repeat SDead w ++ repeat (SWait 0) m) with ((SDead :: repeat SDead w) ++ repeat (SWait 0) m).
        change (SDead :: repeat SDead w) with (repeat SDead (S w)). replace (S w) with (w + 1) by lia. rewrite repeat_app, <- app_assoc. reflexivity. }
    destruct (IH (S w) _ Hx Rn) as (ls' & R1 & R2). exists ls'. split; [|intros c; now rewrite R2].
    replace (S w + S m) with (S (S w) + m) by lia. exact R1.
Qed.

Lemma tls_attack : exists ls x, run ls (mk_sstate (x :: rest) [] (repeat SDead (S n))) /\ sn_poisoned x = true /\
  reached 0 ls = List.concat rs1 ++ List.concat rs2 ++ repeat (RApp ["a"%char]) (S n) /\ (forall c, c <> 0 -> reached c ls = []).
Proof.
  pose proof (srun_nil seal size (10 + f) true rt (s_init (S others) (S n))) as Rn.
  destruct (tls_job _ _ _ _ _ _ C1 Rn) as (f1 & R1). destruct (tls_job _ _ _ _ _ _ C2 R1) as (f2 & R2). clear Rn R1.
  destruct (tls_gather f2 n 0 _ [] eq_refl R2) as (l3 & ins & R3 & E3 & N3). clear R2.
  destruct (C3 (ins ++ a_byte)) as (t & E).
  eapply srun_step in R3; [|eapply (ss_arrive _ _ _ _ _ _ 0 _ a_byte); reflexivity]. cbn [supd set_nth ss_conns ss_queue ss_workers sn_slot sn_in sn_full sn_event sn_log] in R3.
  eapply srun_step in R3; [|eapply (ss_dispatch _ _ _ _ _ _ 0); reflexivity]. cbn [supd set_nth ss_conns ss_queue ss_workers sn_ready sn_slot sn_in sn_full sn_event sn_log app] in R3.
  eapply srun_step in R3; [|eapply (ss_take _ _ _ _ _ _ 0 0); reflexivity]. cbn [sput set_nth ss_conns ss_queue ss_workers] in R3.
  eapply srun_step in R3; [|eapply (ss_handle _ _ _ _ _ _ 0 0 _ []); [reflexivity|reflexivity|reflexivity|reflexivity|cbn [sn_in sn_log sn_slot]; exact E]].
  cbn [supd sput set_nth ss_conns ss_queue ss_workers sn_slot sn_in sn_full sn_event sn_log] in R3.
  match type of R3 with srun _ _ _ _ _ _ _ (mk_sstate (?y :: _) _ _) => destruct (tls_perish y n 0 _ eq_refl R3) as (l4 & R4 & E4) end. exists l4. eexists. split; [exact R4|]. split; [reflexivity|]. split.
  - rewrite E4. cbn [reached Nat.eqb]. rewrite E3. cbn [reached Nat.eqb app]. rewrite <- !app_assoc. do 2 f_equal.
    change (List.concat a_byte) with [RApp ["a"%char]]. change [RApp ["a"%char]] with (repeat (RApp ["a"%char]) 1). rewrite <- repeat_app. f_equal. lia.
  - intros c Nc. rewrite E4. cbn [reached]. destruct c; [congruence|]. cbn [Nat.eqb]. rewrite N3 by discriminate. cbn [reached Nat.eqb]. reflexivity.
Qed.
End Attack.

(** When no worker lives, nothing is routed and nothing is written any more. *)
Lemma tls_dead_stays seal size fuel dbg rt st ls st' : Forall (fun w => w = SDead) (ss_workers st) -> srun seal size fuel dbg rt st ls st' ->
  Forall (fun w => w = SDead) (ss_workers st') /\ map (fun x => (sn_log x, sn_slot x)) (ss_conns st') = map (fun x => (sn_log x, sn_slot x)) (ss_conns st).
Proof.
  intros F Rn. induction Rn as [|st0 ls st1 l st2 Rn IH S]; auto. specialize (IH F). destruct IH as [F1 E1].
  assert (D : forall i w, nth_error (ss_workers st1) i = Some w -> w = SDead).
  { intros i w N. rewrite Forall_forall in F1. apply F1. eapply nth_error_In; eauto. }
  assert (K : forall c x i e g, nth_error (ss_conns st1) c = Some x ->
    map (fun x => (sn_log x, sn_slot x)) (set_nth c (mk_sconn (sn_slot x) i e g (sn_log x)) (ss_conns st1)) = map (fun x => (sn_log x, sn_slot x)) (ss_conns st1)).
  { intros c x i e g. generalize (ss_conns st1). intros l0. revert c. induction l0 as [|y l0 IHl]; intros [|c] N; cbn [nth_error] in N; try discriminate; cbn [set_nth map].
    - inversion N; subst. reflexivity.
    - f_equal. now apply IHl. }
  destruct S; unfold supd, sn_ready in *; cbn [ss_workers ss_conns] in *;
    try (match goal with W : nth_error (ss_workers _) _ = Some _ |- _ => apply D in W; discriminate end);
    (split; [auto|]); rewrite <- E1; eapply K; eauto.
Qed.

Lemma app_of_repeat d n : app_of (repeat (RApp d) n) = List.concat (repeat d n).
Proof. induction n as [|n IH]; [reflexivity|]. cbn [repeat List.concat]. now rewrite <- IH. Qed.
Lemma sound_repeat d n : sound false (repeat (RApp d) n).
Proof. induction n as [|n IH]; cbn [repeat sound]; auto. Qed.
Lemma piece_lengths : len piece1 = 4100%N /\ len piece2 = 524%N.
Proof. split; vm_compute; reflexivity. Qed.

(** In a debug build one peer, whose handshake goes well, stops the server, however many workers it has, with 4624 bytes and one more for each worker,
    which make no request; no listener is called.  From then on, whatever the other peers send, no request of theirs is routed and nothing is written to them. *)
Theorem C110_debug_refuted : forall seal size f rt others n, exists ls st b,
  srun seal size (10 + f) true rt (s_init (S others) (S n)) ls st /\
  sound true (reached 0 ls) /\ app_of (reached 0 ls) = b /\ len b = (4625 + N.of_nat n)%N /\ (forall c, c <> 0 -> reached c ls = []) /\
  Forall (fun w => w = SDead) (ss_workers st) /\ List.length (ss_conns st) = S others /\
  (forall ls' st' c x, srun seal size (10 + f) true rt st ls' st' -> c <> 0 -> nth_error (ss_conns st') c = Some x ->
     sn_log x = [] /\ sn_slot x = fresh /\ out_of x = []).
Proof.
  intros seal size f rt others n. destruct tls_stages as (a & b & St). destruct (St seal size f (rt 0)) as (C1 & C2 & C3).
  destruct (tls_attack seal size f rt others n a b _ _ C1 C2 C3) as (ls & x & Rn & Po & E & N). clear C1 C2 C3 St.
  exists ls. eexists. eexists. split; [exact Rn|]. rewrite E.
  assert (F : Forall (fun w => w = SDead) (repeat SDead (S n))) by (apply Forall_forall; intros w Hw; now apply repeat_spec in Hw).
  split; [|split; [reflexivity|split; [|split; [exact N|split; [exact F|split]]]]].
  - cbn [rs1 rs2 List.concat app sound negb andb]. split; [discriminate|]. split; [reflexivity|]. split; [reflexivity|]. apply sound_repeat.
  - unfold rs1, rs2. cbn [List.concat app]. unfold app_of. cbn [flat_map app]. fold (app_of (repeat (RApp ["a"%char]) (S n))). rewrite app_of_repeat.
    destruct piece_lengths as [L1 L2]. unfold len in *. rewrite !app_length, !Nat2N.inj_add, L1, L2.
    assert (L : forall m, List.length (List.concat (repeat ["a"%char] m)) = m) by (induction m; cbn; auto). rewrite L. lia.
  - cbn [ss_conns List.length]. now rewrite repeat_length.
  - intros ls' st' c y R' Nc Ny. destruct (tls_dead_stays _ _ _ _ _ (mk_sstate _ [] (repeat SDead (S n))) ls' st' F R') as [_ M]. cbn [ss_conns map] in M.
    assert (Q : nth_error (map (fun x => (sn_log x, sn_slot x)) (ss_conns st')) c = Some (sn_log y, sn_slot y)) by (exact (map_nth_error (fun x => (sn_log x, sn_slot x)) c (ss_conns st') Ny)).
    rewrite M in Q. destruct c as [|c]; [congruence|]. cbn [nth_error] in Q. apply nth_error_In in Q. apply in_map_iff in Q as (z & Q & I). apply repeat_spec in I. subst z.
    inversion Q as [[Q1 Q2]]. split; auto. split; auto. unfold out_of. rewrite <- Q2. reflexivity.
Qed.
Print Assumptions C110_debug_refuted.

(** ** A case *)

(** A release build, one worker, two peers.  The first shakes hands and sends a request and then a head of more than 4096 bytes: the request is
    answered, then it gets its 400 and is dropped.  The second sends what is no record. *)
Definition big_peer : list slabel :=
  one_round 0 [9000; 9000]%N ++ [XArrive 0 [[RApp large_head]]] ++ one_round 0 [300; 300; 300]%N ++ one_round 1 [50]%N ++
  [XArrive 0 [[RHand true [41]%N; RApp (write_request example_request)]]; XArrive 1 [[RBad]]].
Notation big_end := (s_exec_all seal1 (fun _ => 32%N) 400 false (fun _ => example_router) (s_init 2 1) big_peer).
Lemma big_end_is : match big_end with
  | Some st => match nth_error (ss_conns st) 0, nth_error (ss_conns st) 1 with
      | Some x, Some y => (sn_full x, sn_open x, sn_poisoned x, List.length (sn_log x), sn_event x, ss_queue st, ss_workers st, out_of x, sn_open y) =
          (false, false, false, 1, false, [], [SFree], write_response (response_of_body (lit "hello")) ++ bad_request, false)
      | _, _ => False
      end
  | None => False
  end.
Proof. vm_compute. reflexivity. Qed.
Example C110_case : exists st x,
  srun seal1 (fun _ => 32%N) 400 false (fun _ => example_router) (s_init 2 1) big_peer st /\ nth_error (ss_conns st) 0 = Some x /\
  sound true (reached 0 big_peer) /\ whole_chars (app_of (reached 0 big_peer)) /\ no_panic example_router /\ positive (fun _ => 32%N) /\ seals seal1 /\
  quiet st 0 /\ sn_full x = false /\ reached 1 big_peer = [RBad] /\
  sn_open x = false /\ List.length (sn_log x) = 1 /\ out_of x = write_response (response_of_body (lit "hello")) ++ bad_request /\ ss_workers st = [SFree].
Proof.
  pose proof big_end_is as H.
  destruct big_end as [st|] eqn:E; [|contradiction]. pose proof (s_exec_all_ok _ _ _ _ _ _ _ _ E) as R.
  destruct (nth_error (ss_conns st) 0) as [x|] eqn:Nx; [|contradiction]. destruct (nth_error (ss_conns st) 1) as [y|] eqn:Ny; [|contradiction].
  injection H as H1 H2 H3 H4 H5 H6 H7 H8 H9. exists st, x. split; [exact R|]. split; [auto|].
  assert (Rc : reached 0 big_peer = [RHand true [41%N]; RApp (write_request example_request); RApp large_head]) by reflexivity.
  rewrite Rc. split; [cbn [sound negb andb]; intuition discriminate|].
  split. { apply C106_ascii, ascii_by. vm_compute. reflexivity. }
  split; [intros [|] ?; discriminate|]. split; [intros ?; reflexivity|]. split; [exact seal1_seals|].
  split. { split; [intros z Nz; rewrite Nx in Nz; inversion Nz; subst; exact H5|]. rewrite H6, H7. split; [intros []|intros [X|[]]; discriminate]. }
  split; [exact H1|]. split; [reflexivity|]. split; [exact H2|]. split; [exact H4|]. split; [exact H8|exact H7].
Qed.
