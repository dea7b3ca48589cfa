(** One client with many threads and the whole server: each of its streams alone is a client of Spec/World.v. *)
From Coq Require Import List Ascii String Arith NArith Bool Lia.
From Verif.Model Require Import Bytes Io Common Parse Encode Writer Server Client Slab Poll Whole Full Locks.
From Verif.Spec Require Import Batch Stream Drive Numerals Names Grammar Wire Unicode Output Session Exchange Dialogue Arrivals Events World Clients.
From Verif.Proofs Require Import BytesFacts SlabFacts FullFacts WorldFacts.
Import ListNotations.

(** Thread x has connection i. *)
Definition uses (i : nat) (x : cthr) : Prop :=
  match x with TConnect _ j _ | TWrite _ j _ | TRead _ j _ => j = i | _ => False end.
Definition thread_request (x : cthr) : list request :=
  match x with TOut => [] | TScan q _ | TConnect q _ _ | TWrite q _ _ | TRead q _ _ => [q] end.

Definition idle_peer (p : peer) : Prop := Forall succeeded (pe_done p) /\ pe_doing p = None.

Record dinv (tr : list dlabel) (st : dstate) : Prop := mk_dinv {
  dv_held : forall t x i, nth_error (d_threads st) t = Some x -> uses i x -> nth_error (d_locks st) i = Some Held;
  dv_one : forall t x t' x' i, nth_error (d_threads st) t = Some x -> uses i x -> nth_error (d_threads st) t' = Some x' -> uses i x' -> t = t';
  dv_first : forall t q i, nth_error (d_threads st) t = Some (TConnect q i false) -> nth_error (d_stream st) i = Some None;
  dv_cur : forall i j c, nth_error (d_stream st) i = Some (Some c) -> nth_error (d_stream st) j = Some (Some c) -> i = j;
  dv_opened : forall i c, nth_error (d_stream st) i = Some (Some c) -> In c (d_opened st);
  dv_fresh : forall c, ~ In c (d_opened st) -> pe_done (peer_of st c) = [] /\ pe_doing (peer_of st c) = None;
  dv_free : forall i c, clean i tr -> nth_error (d_locks st) i = Some Free -> nth_error (d_stream st) i = Some (Some c) -> idle_peer (peer_of st c);
  dv_write : forall t q i b c, clean i tr -> nth_error (d_threads st) t = Some (TWrite q i b) -> nth_error (d_stream st) i = Some (Some c) -> idle_peer (peer_of st c);
  dv_read : forall t q i b c, clean i tr -> nth_error (d_threads st) t = Some (TRead q i b) -> nth_error (d_stream st) i = Some (Some c) ->
    Forall succeeded (pe_done (peer_of st c)) /\ pe_doing (peer_of st c) = Some q;
  dv_len : List.length (d_locks st) = List.length (d_stream st) }.

Lemma nth_repeat {A} (x : A) n i y : nth_error (repeat x n) i = Some y -> y = x.
Proof. intros H. apply nth_error_In, repeat_spec in H. auto. Qed.

Lemma dinv_init size conns threads socks : dinv [] (d_init size conns threads socks).
Proof.
  assert (T : forall t x, nth_error (repeat TOut threads) t = Some x -> x = TOut) by (intros t x; apply nth_repeat).
  assert (S : forall i c, nth_error (repeat (@None nat) conns) i <> Some (Some c)) by (intros i c H; apply nth_repeat in H; discriminate).
  split; cbn [d_init d_threads d_locks d_stream d_opened d_world peer_of world_init wo_peer]; intros;
    repeat match goal with
    | H : nth_error (repeat TOut _) _ = Some _ |- _ => apply T in H; try (subst; cbn in *; tauto); try discriminate
    | H : nth_error (repeat None _) _ = Some (Some _) |- _ => destruct (S _ _ H)
    end; auto.
  now rewrite !repeat_length.
Qed.

Lemma clean_tail i dl tr : clean i (dl ++ tr) -> clean i tr.
Proof. intros C t q e I. apply (C t q e). apply in_or_app. now right. Qed.

(** A step that leaves the client's connections and threads alone, and what each stream has done. *)
Lemma dinv_same tr st st' : dinv tr st -> d_stream st' = d_stream st -> d_locks st' = d_locks st -> d_threads st' = d_threads st ->
  d_opened st' = d_opened st -> (forall c, pe_done (peer_of st' c) = pe_done (peer_of st c) /\ pe_doing (peer_of st' c) = pe_doing (peer_of st c)) ->
  dinv tr st'.
Proof.
  intros [A B C D E F G H I J] E1 E2 E3 E4 P. split; rewrite ?E1, ?E2, ?E3, ?E4; auto.
  - intros c N. destruct (P c) as [-> ->]. auto.
  - intros i c X1 X2 X3. unfold idle_peer. destruct (P c) as [-> ->]. eapply G; eauto.
  - intros t q i b c X1 X2 X3. unfold idle_peer. destruct (P c) as [-> ->]. eapply H; eauto.
  - intros t q i b c X1 X2 X3. destruct (P c) as [-> ->]. eapply I; eauto.
Qed.

(** A thread without a connection goes on without one. *)
Lemma dinv_thread tr st t x y : dinv tr st -> nth_error (d_threads st) t = Some x -> (forall i, ~ uses i y) -> dinv tr (set_thread st t y).
Proof.
  intros [A B C D E F G H I J] N Y.
  assert (K : forall u z, nth_error (set_nth t y (d_threads st)) u = Some z -> z = y \/ nth_error (d_threads st) u = Some z).
  { intros u z X. rewrite nth_set in X. destruct (t =? u); [rewrite N in X; inversion X; auto|auto]. }
  split; cbn [set_thread d_threads d_locks d_stream d_opened d_world peer_of]; auto.
  - intros u z i X U. apply K in X as [-> |X]; [destruct (Y i U)|eauto].
  - intros u z u' z' i X U X' U'. apply K in X as [-> |X]; [destruct (Y i U)|]. apply K in X' as [-> |X']; [destruct (Y i U')|eauto].
  - intros u q i X. apply K in X as [X|X]; [destruct (Y i); subst; reflexivity|eauto].
  - intros u q i b c Cl X. apply K in X as [X|X]; [destruct (Y i); subst; reflexivity|eauto].
  - intros u q i b c Cl X. apply K in X as [X|X]; [destruct (Y i); subst; reflexivity|eauto].
Qed.

(** The thread that has (or gets) connection i does something to it. *)
Lemma dinv_move tr dl st st' t x x' i l' : dinv tr st -> nth_error (d_threads st) t = Some x ->
  (forall u z, nth_error (d_threads st) u = Some z -> uses i z -> u = t) -> (forall j, uses j x -> j = i) -> (forall j, uses j x' -> j = i) ->
  d_threads st' = set_nth t x' (d_threads st) -> d_locks st' = set_nth i l' (d_locks st) -> i < List.length (d_locks st) ->
  (forall j, j <> i -> nth_error (d_stream st') j = nth_error (d_stream st) j) -> List.length (d_stream st') = List.length (d_stream st) ->
  (forall c, In c (d_opened st) -> In c (d_opened st')) ->
  (uses i x' -> l' = Held) ->
  (forall j c, j <> i -> nth_error (d_stream st) j = Some (Some c) ->
    pe_done (peer_of st' c) = pe_done (peer_of st c) /\ pe_doing (peer_of st' c) = pe_doing (peer_of st c)) ->
  (forall c, ~ In c (d_opened st') -> pe_done (peer_of st' c) = pe_done (peer_of st c) /\ pe_doing (peer_of st' c) = pe_doing (peer_of st c)) ->
  (forall c, nth_error (d_stream st') i = Some (Some c) -> In c (d_opened st') /\ forall j, j <> i -> nth_error (d_stream st) j <> Some (Some c)) ->
  (forall q, x' = TConnect q i false -> nth_error (d_stream st') i = Some None) ->
  (forall c, clean i (dl ++ tr) -> l' = Free -> nth_error (d_stream st') i = Some (Some c) -> idle_peer (peer_of st' c)) ->
  (forall c q b, clean i (dl ++ tr) -> x' = TWrite q i b -> nth_error (d_stream st') i = Some (Some c) -> idle_peer (peer_of st' c)) ->
  (forall c q b, clean i (dl ++ tr) -> x' = TRead q i b -> nth_error (d_stream st') i = Some (Some c) ->
    Forall succeeded (pe_done (peer_of st' c)) /\ pe_doing (peer_of st' c) = Some q) ->
  dinv (dl ++ tr) st'.
Proof.
  intros [A B C D E F G H I J] N Only Ux Ux' Et El Li Es Ls Op Hl Po Pf Cu Tc Hf Hw Hr.
  assert (K : forall u z, nth_error (d_threads st') u = Some z -> (u = t /\ z = x') \/ (u <> t /\ nth_error (d_threads st) u = Some z)).
  { intros u z X. rewrite Et, nth_set in X. destruct (Nat.eqb_spec t u) as [<-|Ne]; [rewrite N in X; inversion X; auto|auto]. }
  assert (KL : forall j l, nth_error (d_locks st') j = Some l -> (j = i /\ l = l') \/ (j <> i /\ nth_error (d_locks st) j = Some l)).
  { intros j l X. rewrite El, nth_set in X. destruct (Nat.eqb_spec i j) as [<-|Ne]; [|auto].
    destruct (nth_error (d_locks st) i); [inversion X; auto|discriminate]. }
  assert (Lk : forall j, j <> i -> nth_error (d_locks st') j = nth_error (d_locks st) j).
  { intros j Ne. rewrite El, nth_set. destruct (Nat.eqb_spec i j); [congruence|auto]. }
  assert (Other : forall u z j, u <> t -> nth_error (d_threads st) u = Some z -> uses j z -> j <> i).
  { intros u z j Ne X U ->. apply Ne. eapply Only; eauto. }
  split.
  - intros u z j X U. apply K in X as [[-> ->]|[Ne X]].
    + pose proof (Ux' _ U). subst j. rewrite El, nth_set, Nat.eqb_refl. apply nth_error_Some in Li.
      destruct (nth_error (d_locks st) i); [|congruence]. now rewrite Hl.
    + rewrite Lk by (eapply Other; eauto). eauto.
  - intros u z u' z' j X U X' U'. apply K in X as [[-> ->]|[Ne X]]; apply K in X' as [[-> ->]|[Ne' X']]; auto.
    + pose proof (Ux' _ U). subst j. exfalso. exact (Other _ _ _ Ne' X' U' eq_refl).
    + pose proof (Ux' _ U'). subst j. exfalso. exact (Other _ _ _ Ne X U eq_refl).
    + eauto.
  - intros u q j X. apply K in X as [[-> X]|[Ne X]].
    + assert (j = i) by (apply Ux'; rewrite <- X; reflexivity). subst j. eauto.
    + assert (Nj : j <> i) by (eapply Other; eauto; reflexivity). rewrite Es by exact Nj. eauto.
  - intros j j' c X X'. destruct (Nat.eq_dec j i) as [-> |Nj]; destruct (Nat.eq_dec j' i) as [-> |Nj']; auto.
    + rewrite Es in X' by auto. destruct (Cu _ X) as [_ Y]. destruct (Y _ Nj' X').
    + rewrite Es in X by auto. destruct (Cu _ X') as [_ Y]. destruct (Y _ Nj X).
    + rewrite Es in X, X' by auto. eauto.
  - intros j c X. destruct (Nat.eq_dec j i) as [-> |Nj]; [now apply Cu|]. rewrite Es in X by auto. eauto.
  - intros c X. destruct (Pf c X) as [-> ->]. apply F. intros Y. auto.
  - intros j c Cl X Y. apply KL in X as [[-> X]|[Nj X]]; [apply Hf; auto|]. rewrite Es in Y by auto. unfold idle_peer. destruct (Po j c Nj Y) as [-> ->].
    apply (G j c); auto. eapply clean_tail; eauto.
  - intros u q j b c Cl X Y. apply K in X as [[-> X]|[Ne X]].
    + assert (j = i) by (apply Ux'; rewrite <- X; reflexivity). subst j. eauto.
    + assert (Nj : j <> i) by (eapply Other; eauto; reflexivity). rewrite Es in Y by auto. unfold idle_peer. destruct (Po j c Nj Y) as [-> ->].
      apply (H u q j b c); auto. eapply clean_tail; eauto.
  - intros u q j b c Cl X Y. apply K in X as [[-> X]|[Ne X]].
    + assert (j = i) by (apply Ux'; rewrite <- X; reflexivity). subst j. eauto.
    + assert (Nj : j <> i) by (eapply Other; eauto; reflexivity). rewrite Es in Y by auto. destruct (Po j c Nj Y) as [-> ->].
      apply (I u q j b c); auto. eapply clean_tail; eauto.
  - rewrite El, Ls, set_nth_length. auto.
Qed.

Lemma peer_set st c p d : peer_of (set_peer st c p) d = if d =? c then p else peer_of st d.
Proof. reflexivity. Qed.
Lemma peer_thread st t x d : peer_of (set_thread st t x) d = peer_of st d. Proof. reflexivity. Qed.
Lemma peer_lock st i l d : peer_of (set_lock st i l) d = peer_of st d. Proof. reflexivity. Qed.
Lemma peer_stream st i c d : peer_of (set_stream st i c) d = peer_of st d. Proof. reflexivity. Qed.
Lemma peer_server st s d : peer_of (set_server st s) d = peer_of st d. Proof. reflexivity. Qed.
Ltac peers := repeat (rewrite peer_thread || rewrite peer_lock || rewrite peer_stream || rewrite peer_server || rewrite peer_set).
Ltac sets := cbn [set_thread set_lock set_stream set_peer set_server d_threads d_locks d_stream d_opened].

Lemma set_nth_same {A} (l : list A) i x : nth_error l i = Some x -> set_nth i x l = l.
Proof. revert i. induction l as [|y l IH]; intros [|i] H; cbn in *; try discriminate; [congruence|f_equal; auto]. Qed.

Lemma goes_on_peers st t q i b r dl st' : goes_on st t q i b r = (dl, st') -> forall c, peer_of st' c = peer_of st c.
Proof. unfold goes_on. intros H c. destruct r, b; inversion H; reflexivity. Qed.
Lemma goes_on_world st t q i b r dl st' : goes_on st t q i b r = (dl, st') -> d_world st' = d_world st /\ d_stream st' = d_stream st /\ d_opened st' = d_opened st.
Proof. unfold goes_on. intros H. destruct r, b; inversion H; auto. Qed.

Lemma free_unused tr st i : dinv tr st -> nth_error (d_locks st) i <> Some Held -> forall u z, nth_error (d_threads st) u = Some z -> ~ uses i z.
Proof. intros I F u z N U. apply F. eapply dv_held; eauto. Qed.

(** After an attempt with result r on stream c of connection i. *)
Lemma dinv_goes_on tr st t x q i b c p r dl st' : dinv tr st -> nth_error (d_threads st) t = Some x -> (forall j, uses j x <-> j = i) -> thread_request x = [q] ->
  nth_error (d_stream st) i = Some (Some c) -> (clean i tr -> Forall succeeded (pe_done (peer_of st c))) ->
  pe_done p = pe_done (peer_of st c) ++ [(q, r)] -> pe_doing p = None ->
  goes_on (set_peer st c p) t q i b r = (dl, st') -> dinv (dl ++ tr) st'.
Proof.
  intros D N U Q C Sc Pd Pn G.
  assert (Ui : uses i x) by now apply U.
  assert (Li : i < List.length (d_locks st)) by (apply nth_error_Some; rewrite (dv_held _ _ D _ _ _ N Ui); discriminate).
  assert (Only : forall u z, nth_error (d_threads st) u = Some z -> uses i z -> u = t) by (intros u z X V; eapply (dv_one _ _ D); eauto).
  assert (Pp : forall d, peer_of st' d = if d =? c then p else peer_of st d) by (intros d; rewrite (goes_on_peers _ _ _ _ _ _ _ _ G); reflexivity).
  assert (X : exists x' l', d_threads st' = set_nth t x' (d_threads st) /\ d_locks st' = set_nth i l' (d_locks st) /\
    ((x' = TOut /\ dl = [DReturn t i q r] /\ (l' = Free \/ l' = Broken)) \/ (x' = TConnect q i true /\ l' = Held))).
  { assert (Hh : set_nth i Held (d_locks st) = d_locks st) by (apply set_nth_same; eapply dv_held; eauto).
    unfold goes_on in G. destruct r, b; inversion G; subst; sets; first [exists TOut, Free; repeat split; auto; fail|exists TOut, Broken; repeat split; auto; fail|
      exists (TConnect q i true), Held; rewrite Hh; repeat split; auto]. }
  destruct X as (x' & l' & Et & El & Cs). destruct (goes_on_world _ _ _ _ _ _ _ _ G) as (_ & Es & Eo). cbn [set_peer d_stream d_opened] in Es, Eo.
  apply (dinv_move tr dl st st' t x x' i l'); auto.
  - intros j V. now apply U.
  - intros j V. destruct Cs as [(-> & _)|(-> & _)]; cbn in V; [destruct V|auto].
  - intros j _. now rewrite Es.
  - now rewrite Es.
  - intros d V. now rewrite Eo.
  - intros V. destruct Cs as [(-> & _)|(_ & ->)]; [destruct V|auto].
  - intros j d Nj V. rewrite Pp. destruct (Nat.eqb_spec d c) as [-> |_]; auto. exfalso. apply Nj. eapply (dv_cur _ _ D); eauto.
  - intros d V. rewrite Pp. destruct (Nat.eqb_spec d c) as [-> |_]; auto. exfalso. apply V. rewrite Eo. eapply dv_opened; eauto.
  - intros d V. rewrite Es in V. rewrite C in V. inversion V; subst d. split; [rewrite Eo; eapply dv_opened; eauto|].
    intros j Nj W. apply Nj. eapply (dv_cur _ _ D); eauto.
  - intros q0 V. destruct Cs as [(W & _)|(W & _)]; congruence.
  - intros d Cl V W. rewrite Es, C in W. inversion W; subst d. rewrite Pp, Nat.eqb_refl. split; [|auto]. rewrite Pd. apply Forall_app.
    split; [apply Sc; eapply clean_tail; eauto|]. constructor; [|constructor]. destruct Cs as [(_ & -> & _)|(_ & Y)]; [|congruence].
    destruct (Cl t q r) as (a & ->); [now left|]. exists a. reflexivity.
  - intros d q0 b0 _ V. destruct Cs as [(W & _)|(W & _)]; congruence.
  - intros d q0 b0 _ V. destruct Cs as [(W & _)|(W & _)]; congruence.
Qed.

Lemma dinv_step dbg R ours tr st dl l st' : dinv tr st -> dstep dbg R ours st dl l st' -> dinv (dl ++ tr) st'.
Proof.
  intros D S. pose proof D as [A B C0 Dc E F G H I J].
  inversion S as [? ? ? X1 X2|? c bs rest s' X1 X2 X3|? c s' X1 X2 X3 X4|? c p bs rest X1 X2 X3 X4 X5|? c p X1 X2 X3 X4|? t q X1|? t q i l0 X1 X2 X3|? t q i X1 X2|
    ? t q i o X1 X2 X3|? t q i b c X1 X2 X3 X4|? t q i b o c p X1 X2 X3 X4 X5|? t q i b k X1|? t q i b c p s d X1 X2 X3 X4 X5|
    ? t q i b c p s d k dl0 st0 X1 X2 X3 X4 X5 X6|? t q i b c p r inp dl0 st0 X1 X2 X3 X4 X5]; subst; cbn [app].
  - eapply dinv_same; eauto.
  - eapply dinv_same; eauto. intros d. peers. destruct (Nat.eqb_spec d c) as [-> |_]; auto.
  - eapply dinv_same; eauto.
  - eapply dinv_same; eauto. intros d. peers. destruct (Nat.eqb_spec d c) as [-> |_]; auto.
  - eapply dinv_same; eauto. intros d. peers. destruct (Nat.eqb_spec d c) as [-> |_]; auto.
  - assert (D' : dinv (DCall t q :: tr) st).
    { split; auto; intros; [eapply G|eapply H|eapply I]; eauto; eapply (clean_tail _ [DCall t q]); eauto. }
    eapply dinv_thread; eauto.
  - eapply dinv_thread; eauto.
  - eapply dinv_thread; eauto.
  - (* take *)
    assert (Nu : forall u z, nth_error (d_threads st) u = Some z -> ~ uses i z) by (eapply free_unused; eauto; congruence).
    apply (dinv_move tr [] st _ t (TScan q i) (match o with None => TConnect q i false | Some _ => TWrite q i false end) i Held); auto.
    + intros u z X U. destruct (Nu _ _ X U).
    + intros j [].
    + intros j U. destruct o; cbn in U; auto.
    + apply nth_error_Some. congruence.
    + intros c V. sets. split; [eauto|]. intros j Nj W. apply Nj. eapply Dc; eauto.
    + intros q0 V. sets. destruct o; [discriminate|auto].
    + intros c _ V. discriminate.
    + intros c q0 b Cl V W. peers. sets. eapply G; eauto.
    + intros c q0 b _ V. destruct o; discriminate.
  - (* connect *)
    assert (Hh : nth_error (d_locks st) i = Some Held) by (eapply A; eauto; reflexivity).
    assert (Li : i < List.length (d_stream st)) by (apply nth_error_Some; congruence).
    apply (dinv_move tr [] st _ t (TConnect q i b) (TWrite q i b) i Held); auto; sets.
    + intros u z X U. eapply B; eauto. reflexivity.
    + now rewrite set_nth_same.
    + apply nth_error_Some. congruence.
    + intros j Nj. rewrite nth_set. destruct (Nat.eqb_spec i j); [congruence|auto].
    + apply set_nth_length.
    + intros d V. now right.
    + intros d V. rewrite nth_set, Nat.eqb_refl, X2 in V. inversion V; subst d. split; [now left|]. intros j Nj W. apply X4. eauto.
    + discriminate.
    + intros d _ V. discriminate.
    + intros d q0 b0 _ V W. rewrite nth_set, Nat.eqb_refl, X2 in W. inversion W; subst d. change (idle_peer (peer_of st c)). destruct (F _ X4) as [F1 F2]. split; [rewrite F1; constructor|auto].
    + intros d q0 b0 _ V. discriminate.
  - (* reconnect *)
    assert (Hh : nth_error (d_locks st) i = Some Held) by (eapply A; eauto; reflexivity).
    destruct X5 as (d0 & _ & ->).
    assert (Pp : forall d, pe_done (peer_of (set_stream (set_thread (set_peer st o
        (mk_peer (drop_stream (pe_stream (peer_of st o))) (pe_doing (peer_of st o)) (pe_out (peer_of st o) ++ d0) (pe_heard (peer_of st o)) (pe_ended (peer_of st o)) (pe_done (peer_of st o)))) t
        (TWrite q i b)) i c) d) = pe_done (peer_of st d) /\ pe_doing (peer_of (set_stream (set_thread (set_peer st o
        (mk_peer (drop_stream (pe_stream (peer_of st o))) (pe_doing (peer_of st o)) (pe_out (peer_of st o) ++ d0) (pe_heard (peer_of st o)) (pe_ended (peer_of st o)) (pe_done (peer_of st o)))) t
        (TWrite q i b)) i c) d) = pe_doing (peer_of st d)).
    { intros d. peers. destruct (Nat.eqb_spec d o) as [-> |_]; auto. }
    apply (dinv_move tr [] st _ t (TConnect q i b) (TWrite q i b) i Held); auto; sets.
    + intros u z X U. eapply B; eauto. reflexivity.
    + now rewrite set_nth_same.
    + apply nth_error_Some. congruence.
    + intros j Nj. rewrite nth_set. destruct (Nat.eqb_spec i j); [congruence|auto].
    + apply set_nth_length.
    + intros d V. now right.
    + intros d V. rewrite nth_set, Nat.eqb_refl, X2 in V. inversion V; subst d. split; [now left|]. intros j Nj W. apply X4. eauto.
    + discriminate.
    + intros d _ V. discriminate.
    + intros d q0 b0 _ V W. rewrite nth_set, Nat.eqb_refl, X2 in W. inversion W; subst d. unfold idle_peer. destruct (Pp c) as [-> ->].
      destruct (F _ X4) as [F1 F2]. split; [rewrite F1; constructor|auto].
    + intros d q0 b0 _ V. discriminate.
  - (* refused *)
    assert (Hh : nth_error (d_locks st) i = Some Held) by (eapply A; eauto; reflexivity).
    apply (dinv_move tr [DReturn t i q (CConnecting k)] st _ t (TConnect q i b) TOut i Free); auto; sets.
    + intros u z X U. eapply B; eauto. reflexivity.
    + intros j [].
    + apply nth_error_Some. congruence.
    + intros [].
    + intros c V. split; [eauto|]. intros j Nj W. apply Nj. eapply Dc; eauto.
    + discriminate.
    + intros c Cl _ V. destruct (Cl t q (CConnecting k)) as (r & K); [now left|discriminate].
    + intros c q0 b0 _ V. discriminate.
    + intros c q0 b0 _ V. discriminate.
  - (* write *)
    assert (Hh : nth_error (d_locks st) i = Some Held) by (eapply A; eauto; reflexivity).
    apply (dinv_move tr [] st _ t (TWrite q i b) (TRead q i b) i Held); auto; sets.
    + intros u z X U. eapply B; eauto. reflexivity.
    + now rewrite set_nth_same.
    + apply nth_error_Some. congruence.
    + intros j d0 Nj V. peers. destruct (Nat.eqb_spec d0 c) as [-> |_]; auto. exfalso. apply Nj. eapply Dc; eauto.
    + intros d0 V. peers. destruct (Nat.eqb_spec d0 c) as [-> |_]; auto. exfalso. apply V. eauto.
    + intros d0 V. split; [eauto|]. intros j Nj W. apply Nj. eapply Dc; eauto.
    + discriminate.
    + intros d0 _ V. discriminate.
    + intros d0 q0 b0 _ V. discriminate.
    + intros d0 q0 b0 Cl V W. rewrite X2 in W. inversion W; subst d0. inversion V; subst q0 b0. peers. rewrite Nat.eqb_refl. cbn [pe_done pe_doing].
      split; [|auto]. eapply H; eauto.
  - eapply (dinv_goes_on tr st t (TWrite q i b)); eauto; try reflexivity.
    + intros j. cbn. split; auto.
    + intros Cl. eapply H; eauto.
  - eapply (dinv_goes_on tr st t (TRead q i b)); eauto; try reflexivity.
    + intros j. cbn. split; auto.
    + intros Cl. eapply I; eauto.
Qed.

Lemma dinv_history dbg R ours size conns threads socks tr ls st : dhistory dbg R ours (d_init size conns threads socks) tr ls st -> dinv tr st.
Proof. intros H. induction H as [|tr ls d dl l d' H IH S]; [apply dinv_init|eapply dinv_step; eauto]. Qed.

(** ** Whose requests *)
Definition called (q : request) (tr : list dlabel) : Prop := exists t, In (DCall t q) tr.
Definition all_called (tr : list dlabel) (st : dstate) : Prop :=
  (forall t x q, nth_error (d_threads st) t = Some x -> In q (thread_request x) -> called q tr) /\
  (forall c q, In q (asked (peer_of st c)) -> called q tr).

Lemma called_more q dl tr : called q tr -> called q (dl ++ tr).
Proof. intros (t & I). exists t. apply in_or_app. now right. Qed.

(** A step in which at most thread t and the stream c change, and nothing new is asked. *)
Lemma all_called_move tr dl st st' t x' c p : all_called tr st -> d_threads st' = set_nth t x' (d_threads st) ->
  (forall q, In q (thread_request x') -> called q (dl ++ tr)) ->
  (forall d, asked (peer_of st' d) = if d =? c then asked p else asked (peer_of st d)) -> (forall q, In q (asked p) -> called q (dl ++ tr)) ->
  all_called (dl ++ tr) st'.
Proof.
  intros [A B] E X P Q. split.
  - intros u y q N I. rewrite E, nth_set in N. destruct (t =? u).
    + destruct (nth_error (d_threads st) t); [|discriminate N]. inversion N; subst. auto.
    + eapply called_more, A; eauto.
  - intros d q I. rewrite P in I. destruct (d =? c); [auto|]. eapply called_more, B; eauto.
Qed.
Lemma all_called_same tr st st' : all_called tr st -> d_threads st' = d_threads st -> (forall d, asked (peer_of st' d) = asked (peer_of st d)) -> all_called tr st'.
Proof. intros [A B] E P. split; [rewrite E; auto|]. intros d q I. rewrite P in I. eauto. Qed.

Lemma all_called_goes_on tr st t x q i b c p r dl st' : all_called tr st -> nth_error (d_threads st) t = Some x -> thread_request x = [q] ->
  pe_done p = pe_done (peer_of st c) ++ [(q, r)] -> pe_doing p = None ->
  goes_on (set_peer st c p) t q i b r = (dl, st') -> all_called (dl ++ tr) st'.
Proof.
  intros A N Q Pd Pn G. assert (Cq : called q tr) by (destruct A as [A _]; eapply A; eauto; rewrite Q; now left).
  assert (X : exists x', d_threads st' = set_nth t x' (d_threads st) /\ (thread_request x' = [] \/ thread_request x' = [q])).
  { unfold goes_on in G. destruct r, b; inversion G; subst; sets; eexists; (split; [reflexivity|]); cbn [thread_request]; auto. }
  destruct X as (x' & E & Tq). apply (all_called_move tr dl st st' t x' c p); auto.
  - intros q0 I. apply called_more. destruct Tq as [Tq|Tq]; rewrite Tq in I; [destruct I|]. destruct I as [<-|[]]; auto.
  - intros d. rewrite (goes_on_peers _ _ _ _ _ _ _ _ G). peers. now destruct (d =? c).
  - intros q0 I. apply called_more. unfold asked in I. rewrite Pd, Pn, app_nil_r, map_app in I. apply in_app_or in I as [I|[<-|[]]]; auto.
    destruct A as [_ B]. apply (B c). unfold asked. apply in_or_app. now left.
Qed.

Lemma all_called_step dbg R ours tr st dl l st' : all_called tr st -> dstep dbg R ours st dl l st' -> all_called (dl ++ tr) st'.
Proof.
  intros D S. pose proof D as [A B].
  inversion S as [? ? ? X1 X2|? c bs rest s' X1 X2 X3|? c s' X1 X2 X3 X4|? c p bs rest X1 X2 X3 X4 X5|? c p X1 X2 X3 X4|? t q X1|? t q i l0 X1 X2 X3|? t q i X1 X2|
    ? t q i o X1 X2 X3|? t q i b c X1 X2 X3 X4|? t q i b o c p X1 X2 X3 X4 X5|? t q i b k X1|? t q i b c p s d X1 X2 X3 X4 X5|
    ? t q i b c p s d k dl0 st0 X1 X2 X3 X4 X5 X6|? t q i b c p r inp dl0 st0 X1 X2 X3 X4 X5]; subst.
  - eapply all_called_same; eauto.
  - eapply all_called_same; eauto. intros d. peers. destruct (Nat.eqb_spec d c) as [-> |_]; auto.
  - eapply all_called_same; eauto.
  - eapply all_called_same; eauto. intros d. peers. destruct (Nat.eqb_spec d c) as [-> |_]; auto.
  - eapply all_called_same; eauto. intros d. peers. destruct (Nat.eqb_spec d c) as [-> |_]; auto.
  - apply (all_called_move tr _ st _ t (TScan q 0) 0 (peer_of st 0)); auto.
    + intros q0 [<-|[]]. exists t. now left.
    + intros d. peers. destruct (Nat.eqb_spec d 0) as [-> |_]; auto.
    + intros q0 I. apply (called_more q0 [DCall t q]). eauto.
  - apply (all_called_move tr [] st _ t (TScan q (Datatypes.S i)) 0 (peer_of st 0)); auto.
    + intros q0 I. eapply A; eauto.
    + intros d. peers. destruct (Nat.eqb_spec d 0) as [-> |_]; auto.
    + intros q0. apply B.
  - apply (all_called_move tr [] st _ t (TScan q 0) 0 (peer_of st 0)); auto.
    + intros q0 I. eapply A; eauto.
    + intros d. peers. destruct (Nat.eqb_spec d 0) as [-> |_]; auto.
    + intros q0. apply B.
  - apply (all_called_move tr [] st _ t (match o with None => TConnect q i false | Some _ => TWrite q i false end) 0 (peer_of st 0)); auto.
    + intros q0 I. eapply A; eauto. now destruct o.
    + intros d. peers. destruct (Nat.eqb_spec d 0) as [-> |_]; auto.
    + intros q0. apply B.
  - apply (all_called_move tr [] st _ t (TWrite q i b) 0 (peer_of st 0)); auto.
    + intros q0 I. eapply A; eauto.
    + intros d. peers. destruct (Nat.eqb_spec d 0) as [-> |_]; auto.
    + intros q0. apply B.
  - destruct X5 as (d0 & _ & ->).
    apply (all_called_move tr [] st _ t (TWrite q i b) o (peer_of st o)); auto.
    + intros q0 I. eapply A; eauto.
    + intros d. peers. destruct (Nat.eqb_spec d o) as [-> |_]; auto.
    + intros q0. apply B.
  - apply (all_called_move tr _ st _ t TOut 0 (peer_of st 0)); auto.
    + intros q0 [].
    + intros d. peers. destruct (Nat.eqb_spec d 0) as [-> |_]; auto.
    + intros q0 I. apply called_more. eauto.
  - apply (all_called_move tr [] st _ t (TRead q i b) c (mk_peer s (Some q) (pe_out (peer_of st c) ++ d) (pe_heard (peer_of st c)) (pe_ended (peer_of st c)) (pe_done (peer_of st c)))); auto.
    + intros q0 I. eapply A; eauto.
    + intros e. peers. now destruct (e =? c).
    + intros q0 I. unfold asked in I. cbn [pe_done pe_doing] in I. apply in_app_or in I as [I|I].
      * apply (B c). unfold asked. apply in_or_app. now left.
      * eapply A; eauto.
  - eapply (all_called_goes_on tr st t (TWrite q i b)); eauto; reflexivity.
  - eapply (all_called_goes_on tr st t (TRead q i b)); eauto; reflexivity.
Qed.

Lemma all_called_history dbg R ours size conns threads socks tr ls st : dhistory dbg R ours (d_init size conns threads socks) tr ls st -> all_called tr st.
Proof.
  intros H. induction H as [|tr ls d dl l d' H IH S]; [|eapply all_called_step; eauto]. split.
  - intros t x q N I. apply nth_repeat in N. subst. destruct I.
  - intros c q I. destruct I.
Qed.

(** ** One stream alone *)
Definition gone (c : nat) (st : dstate) : Prop := In c (d_opened st) /\ ~ In (Some c) (d_stream st).

Lemma in_set {A} i (x y : A) l : In y (set_nth i x l) -> y = x \/ In y l.
Proof. revert i. induction l as [|z l IH]; intros [|i] H; cbn in *; auto. - destruct H as [<-|H]; auto. - destruct H as [<-|H]; auto. destruct (IH _ H); auto. Qed.

(** What a step can do to the streams of the client. *)
Lemma step_streams dbg R ours st dl l st' : dstep dbg R ours st dl l st' ->
  (d_stream st' = d_stream st /\ d_opened st' = d_opened st) \/
  exists i o c, nth_error (d_stream st) i = Some o /\ ~ In c (d_opened st) /\ d_stream st' = set_nth i (Some c) (d_stream st) /\ d_opened st' = c :: d_opened st.
Proof.
  intros S. inversion S; subst; sets; try (left; split; reflexivity);
    try (right; do 3 eexists; split; [eassumption|]; split; [eassumption|]; split; reflexivity);
    match goal with H : goes_on _ _ _ _ _ _ = _ |- _ => destruct (goes_on_world _ _ _ _ _ _ _ _ H) as (_ & Ea & Eb); left; split; [exact Ea|exact Eb] end.
Qed.

Lemma gone_stays dbg R ours st dl l st' c : dstep dbg R ours st dl l st' -> gone c st -> gone c st'.
Proof.
  intros S [A B]. destruct (step_streams _ _ _ _ _ _ _ S) as [[E1 E2]|(i & o & d & _ & N & E1 & E2)]; split; rewrite ?E1, ?E2; auto.
  - now right.
  - intros I. apply in_set in I as [I|I]; auto. inversion I; subst. auto.
Qed.

(** A stream that is used stays that of its connection, or is dropped. *)
Lemma used_stays dbg R ours tr st dl l st' i c : dinv tr st -> dstep dbg R ours st dl l st' -> nth_error (d_stream st) i = Some (Some c) ->
  nth_error (d_stream st') i = Some (Some c) \/ gone c st'.
Proof.
  intros D S N. destruct (step_streams _ _ _ _ _ _ _ S) as [[E1 E2]|(j & o & d & J & Nd & E1 & E2)]; [left; now rewrite E1|].
  pose proof (dv_opened _ _ D _ _ N) as O. destruct (Nat.eqb_spec j i) as [-> |Ne].
  - right. split; [rewrite E2; now right|]. rewrite E1. intros I. apply In_nth_error in I as (k & K). rewrite nth_set in K. destruct (Nat.eqb_spec i k) as [-> |Nk].
    + rewrite N in K. inversion K; subst. auto.
    + apply Nk. eapply (dv_cur _ _ D); eauto.
  - left. rewrite E1, nth_set. destruct (Nat.eqb_spec j i); [congruence|auto].
Qed.

Section Alone.
  Variables (dbg : bool) (R : nat -> request -> lresult -> Prop) (ours : nat -> bool).
  Variables (size conns threads : nat) (socks : nat -> sock).

  Theorem alone tr ls st c : dhistory dbg R ours (d_init size conns threads socks) tr ls st -> ours c = true -> ~ gone c st ->
    (forall i, nth_error (d_stream st) i = Some (Some c) -> clean i tr) ->
    exists w, history dbg R (Nat.eqb c) (world_init size socks) ls w /\ wo_server w = server_of st /\ wo_peer w c = peer_of st c.
  Proof.
    intros H O. induction H as [|tr ls st dl l st' H IH S]; intros Ng Cl.
    { exists (world_init size socks). split; [constructor|]. split; reflexivity. }
    pose proof (dinv_history _ _ _ _ _ _ _ _ _ _ H) as D.
    assert (Ng0 : ~ gone c st) by (intros G; apply Ng; eapply gone_stays; eauto).
    assert (Cl0 : forall i, nth_error (d_stream st) i = Some (Some c) -> clean i tr).
    { intros i N. destruct (used_stays _ _ _ _ _ _ _ _ _ _ D S N) as [N'|G]; [|destruct (Ng G)]. eapply clean_tail; eauto. }
    destruct (IH Ng0 Cl0) as (w & Hw & Es & Ep). clear IH.
    assert (Stay : forall l', l = l' -> l' = [] -> server_of st' = server_of st -> peer_of st' c = peer_of st c ->
      exists w, history dbg R (Nat.eqb c) (world_init size socks) (l ++ ls) w /\ wo_server w = server_of st' /\ wo_peer w c = peer_of st' c).
    { intros l' -> -> E1 E2. exists w. rewrite E1, E2. auto. }
    assert (Go : forall w', happens dbg R (Nat.eqb c) w l w' -> wo_server w' = server_of st' -> wo_peer w' c = peer_of st' c ->
      exists w, history dbg R (Nat.eqb c) (world_init size socks) (l ++ ls) w /\ wo_server w = server_of st' /\ wo_peer w c = peer_of st' c).
    { intros w' X E1 E2. exists w'. split; [econstructor; eauto|auto]. }
    pose proof S as S0.
    inversion S as [? ? ? X1 X2|? c0 bs rest s' X1 X2 X3|? c0 s' X1 X2 X3 X4|? c0 p bs rest X1 X2 X3 X4 X5|? c0 p X1 X2 X3 X4|? t q X1|? t q i l0 X1 X2 X3|? t q i X1 X2|
      ? t q i o X1 X2 X3|? t q i b c0 X1 X2 X3 X4|? t q i b o c0 p X1 X2 X3 X4 X5|? t q i b k X1|? t q i b c0 p s d X1 X2 X3 X4 X5|
      ? t q i b c0 p s d k dl0 st0 X1 X2 X3 X4 X5 X6|? t q i b c0 p r inp dl0 st0 X1 X2 X3 X4 X5]; subst.
    - eapply Go; [eapply hp_server; [rewrite Es; exact X1|]|reflexivity|exact Ep].
      intros d its ->. destruct (Nat.eqb_spec c d) as [<-|_]; [|reflexivity]. rewrite (X2 _ _ eq_refl) in O. discriminate.
    - destruct (Nat.eqb_spec c c0) as [<-|Ne].
      + eapply Go; [eapply hp_arrive; [apply Nat.eqb_refl|reflexivity|rewrite Ep; exact X2|rewrite Es; exact X3]|reflexivity|].
        cbn [wo_peer]. unfold with_peer. peers. rewrite Nat.eqb_refl, Ep. reflexivity.
      + eapply Go; [eapply hp_server; [rewrite Es; exact X3|]|reflexivity|].
        * intros d its E. inversion E; subst. now apply Nat.eqb_neq.
        * peers. apply Nat.eqb_neq in Ne. rewrite Ne. exact Ep.
    - eapply Go; [eapply hp_server; [rewrite Es; exact X4|]|reflexivity|exact Ep].
      intros d its E. inversion E; subst. destruct (Nat.eqb_spec c d) as [<-|_]; [|reflexivity]. destruct Ng0. split; auto.
    - destruct (Nat.eqb_spec c c0) as [<-|Ne].
      + eapply Go; [eapply hp_hear; [apply Nat.eqb_refl|reflexivity|rewrite Ep; exact X3|exact X4|rewrite Es, Ep; exact X5]|exact Es|].
        cbn [wo_peer]. unfold with_peer. peers. rewrite Nat.eqb_refl, Ep. reflexivity.
      + eapply Stay; eauto. peers. apply Nat.eqb_neq in Ne. now rewrite Ne.
    - destruct (Nat.eqb_spec c c0) as [<-|Ne].
      + eapply Go; [eapply hp_end; [apply Nat.eqb_refl|reflexivity|rewrite Ep; exact X3|rewrite Es; exact X4]|exact Es|].
        cbn [wo_peer]. unfold with_peer. peers. rewrite Nat.eqb_refl, Ep. reflexivity.
      + eapply Stay; eauto. peers. apply Nat.eqb_neq in Ne. now rewrite Ne.
    - eapply Stay; eauto.
    - eapply Stay; eauto.
    - eapply Stay; eauto.
    - eapply Stay; eauto.
    - eapply Stay; eauto.
    - assert (Ne : c <> o).
      { intros <-. apply Ng. split; [right; exact (dv_opened _ _ D _ _ X2)|]. sets. intros I. apply In_nth_error in I as (j & J). rewrite nth_set in J.
        destruct (Nat.eqb_spec i j) as [Ej|Nj].
        - rewrite X2 in J; clear Ej. inversion J; subst. apply X4. eapply dv_opened; eauto.
        - apply Nj. eapply (dv_cur _ _ D); eauto. }
      eapply Stay; eauto. peers. apply Nat.eqb_neq in Ne. now rewrite Ne.
    - eapply Stay; eauto.
    - destruct (Nat.eqb_spec c c0) as [<-|Ne].
      + destruct (dv_write _ _ D _ _ _ _ _ (Cl0 _ X2) X1 X2) as [I1 I2].
        eapply Go; [eapply hp_send; [apply Nat.eqb_refl|reflexivity|rewrite Ep; exact I2|rewrite Ep; exact I1|rewrite Ep; exact X4|rewrite Ep; exact X5]|exact Es|].
        cbn [wo_peer]. unfold with_peer. peers. rewrite Nat.eqb_refl, Ep. reflexivity.
      + eapply Stay; eauto. peers. apply Nat.eqb_neq in Ne. now rewrite Ne.
    - assert (Ew : server_of st' = server_of st) by (unfold server_of; destruct (goes_on_world _ _ _ _ _ _ _ _ X6) as (-> & _); reflexivity).
      destruct (Nat.eqb_spec c c0) as [<-|Ne].
      + destruct (dv_write _ _ D _ _ _ _ _ (Cl0 _ X2) X1 X2) as [I1 I2].
        eapply Go; [eapply hp_send_failed; [apply Nat.eqb_refl|reflexivity|rewrite Ep; exact I2|rewrite Ep; exact I1|rewrite Ep; exact X4|rewrite Ep; exact X5]|cbn [wo_server]; congruence|].
        cbn [wo_peer]. unfold with_peer. rewrite (goes_on_peers _ _ _ _ _ _ _ _ X6). peers. rewrite Nat.eqb_refl, Ep. reflexivity.
      + eapply Stay; eauto. rewrite (goes_on_peers _ _ _ _ _ _ _ _ X6). peers. apply Nat.eqb_neq in Ne. now rewrite Ne.
    - assert (Ew : server_of st' = server_of st) by (unfold server_of; destruct (goes_on_world _ _ _ _ _ _ _ _ X5) as (-> & _); reflexivity).
      destruct (Nat.eqb_spec c c0) as [<-|Ne].
      + destruct (dv_read _ _ D _ _ _ _ _ (Cl0 _ X2) X1 X2) as [I1 I2].
        eapply Go; [eapply hp_return; [apply Nat.eqb_refl|reflexivity|rewrite Ep; exact I2|rewrite Ep; exact X4]|cbn [wo_server]; congruence|].
        cbn [wo_peer]. unfold with_peer. rewrite (goes_on_peers _ _ _ _ _ _ _ _ X5). peers. rewrite Nat.eqb_refl, Ep. reflexivity.
      + eapply Stay; eauto. rewrite (goes_on_peers _ _ _ _ _ _ _ _ X5). peers. apply Nat.eqb_neq in Ne. now rewrite Ne.
  Qed.
End Alone.

(** ** What the threads show *)
Definition calling (tr : list dlabel) (st : dstate) : Prop :=
  forall t x q, nth_error (d_threads st) t = Some x -> In q (thread_request x) -> find (by_thread t) tr = Some (DCall t q).

Lemma calling_move tr dl st st' t x' : calling tr st -> d_threads st' = set_nth t x' (d_threads st) ->
  (forall q, In q (thread_request x') -> find (by_thread t) (dl ++ tr) = Some (DCall t q)) -> (forall l, In l dl -> by_thread t l = true) -> calling (dl ++ tr) st'.
Proof.
  intros C E X D u y q N I. rewrite E, nth_set in N. destruct (Nat.eqb_spec t u) as [<-|Ne].
  - destruct (nth_error (d_threads st) t); [|discriminate N]. inversion N; subst. auto.
  - specialize (C _ _ _ N I). assert (Y : forall l, In l dl -> by_thread u l = false).
    { intros l K. specialize (D l K). destruct l; cbn [by_thread] in *; apply Nat.eqb_eq in D; subst; now apply Nat.eqb_neq. }
    clear - C Y. induction dl as [|l dl IH]; auto. cbn [app find]. rewrite (Y l (or_introl eq_refl)). apply IH. intros z K. apply Y. now right.
Qed.
Lemma calling_same tr st st' : calling tr st -> d_threads st' = d_threads st -> calling tr st'.
Proof. intros C E t x q N. rewrite E in N. eauto. Qed.
Lemma calling_goes_on tr st t x q i b c p r dl st' : calling tr st -> nth_error (d_threads st) t = Some x -> thread_request x = [q] ->
  goes_on (set_peer st c p) t q i b r = (dl, st') -> calling (dl ++ tr) st'.
Proof.
  intros C N Q G. assert (X : exists x', d_threads st' = set_nth t x' (d_threads st) /\ ((x' = TOut /\ dl = [DReturn t i q r]) \/ (x' = TConnect q i true /\ dl = []))).
  { unfold goes_on in G. destruct r, b; inversion G; subst; sets; eexists; (split; [reflexivity|]); auto. }
  destruct X as (x' & E & [(-> & ->)|(-> & ->)]); eapply calling_move; eauto.
  - intros q0 [].
  - intros l [<-|[]]. apply Nat.eqb_refl.
  - intros q0 I. eapply C; eauto. now rewrite Q.
Qed.
Lemma calling_step dbg R ours tr st dl l st' : calling tr st -> dstep dbg R ours st dl l st' -> calling (dl ++ tr) st'.
Proof.
  intros C S.
  inversion S as [? ? ? X1 X2|? c bs rest s' X1 X2 X3|? c s' X1 X2 X3 X4|? c p bs rest X1 X2 X3 X4 X5|? c p X1 X2 X3 X4|? t q X1|? t q i l0 X1 X2 X3|? t q i X1 X2|
    ? t q i o X1 X2 X3|? t q i b c X1 X2 X3 X4|? t q i b o c p X1 X2 X3 X4 X5|? t q i b k X1|? t q i b c p s d X1 X2 X3 X4 X5|
    ? t q i b c p s d k dl0 st0 X1 X2 X3 X4 X5 X6|? t q i b c p r inp dl0 st0 X1 X2 X3 X4 X5]; subst;
    try (eapply calling_same; eauto; reflexivity); try (eapply calling_goes_on; [exact C|exact X1|reflexivity|eassumption]);
    (eapply calling_move; [exact C|reflexivity| |intros z Z; cbn [In] in Z; try tauto; destruct Z as [<-|[]]; apply Nat.eqb_refl]); intros q0 I;
    try (eapply C; [exact X1|try exact I]).
  - destruct I as [<-|[]]. cbn [app find by_thread]. now rewrite Nat.eqb_refl.
  - destruct o; exact I.
  - destruct I.
Qed.
Lemma calling_history dbg R ours size conns threads socks tr ls st : dhistory dbg R ours (d_init size conns threads socks) tr ls st -> calling tr st.
Proof.
  intros H. induction H as [|tr ls d dl l d' H IH S]; [|eapply calling_step; eauto].
  intros t x q N I. apply nth_repeat in N. subst. destruct I.
Qed.

(** At most one label of the client each step; so a history can be cut at one. *)
Lemma cut dbg R ours d0 later x earlier ls st : dhistory dbg R ours d0 (later ++ x :: earlier) ls st ->
  exists ls2 l ls1 st0 st1, ls = ls2 ++ l ++ ls1 /\ dhistory dbg R ours d0 earlier ls1 st0 /\ dstep dbg R ours st0 [x] l st1.
Proof.
  intros H. remember (later ++ x :: earlier) as tr eqn:E. revert later E. induction H as [|tr ls st dl l st' H IH S]; intros later E; [destruct later; discriminate|].
  assert (L : dl = [] \/ exists y, dl = [y]).
  { inversion S; subst; eauto; match goal with G : goes_on _ _ _ _ _ ?r = _ |- _ => unfold goes_on in G; destruct r, b; inversion G; eauto end. }
  destruct L as [-> |(y & ->)].
  - cbn [app] in E. destruct (IH later E) as (ls2 & l' & ls1 & st0 & st1 & -> & A & B). exists (l ++ ls2), l', ls1, st0, st1. rewrite <- app_assoc. auto.
  - destruct later as [|z later]; cbn [app] in E; inversion E; subst.
    + exists [], l, ls, st, st'. auto.
    + destruct (IH later eq_refl) as (ls2 & l' & ls1 & st0 & st1 & -> & A & B). exists (l ++ ls2), l', ls1, st0, st1. rewrite <- app_assoc. auto.
Qed.

(** The return of a send that got a response. *)
Lemma return_ok dbg R ours st t i q r l st' : dstep dbg R ours st [DReturn t i q (COk r)] l st' ->
  exists b c inp, nth_error (d_threads st) t = Some (TRead q i b) /\ nth_error (d_stream st) i = Some (Some c) /\
    resp_parse dbg resp_new (cs_in (pe_stream (peer_of st c))) = (PDone r, inp) /\ l = [] /\ d_stream st' = d_stream st /\
    In (q, COk r) (pe_done (peer_of st' c)).
Proof.
  intros S. inversion S as [| | | | | | | | | | | | |? t0 q0 i0 b c p s d k dl0 st0 X1 X2 X3 X4 X5 X6|? t0 q0 i0 b c p r0 inp dl0 st0 X1 X2 X3 X4 X5]; subst.
  - unfold goes_on in X6. destruct b; inversion X6.
  - destruct (goes_on_world _ _ _ _ _ _ _ _ X5) as (_ & Es & _). pose proof (goes_on_peers _ _ _ _ _ _ _ _ X5 c) as Ep.
    assert (E : q0 = q /\ i0 = i /\ t0 = t /\ r0 = PDone r).
    { unfold goes_on in X5. destruct r0, b; cbn [result_of] in X5; inversion X5; auto. }
    destruct E as (-> & -> & -> & ->). exists b, c, inp. split; auto. split; auto. split; auto. split; auto. split; auto.
    rewrite Ep. peers. rewrite Nat.eqb_refl. cbn [pe_done]. apply in_or_app. right. now left.
Qed.
