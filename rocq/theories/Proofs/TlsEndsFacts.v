(** A TLS stream has only finitely much to give: what has arrived, and as many outcomes of the socket as are left. *)
From Coq Require Import List Ascii String Arith NArith Bool Lia.
From Verif.Model Require Import Bytes Io Common Parse Writer Tls.
From Verif.Spec Require Import Finite.
Import ListNotations.
Local Open Scope N_scope.

Definition rec_weight (r : record) : nat := match r with RApp d => List.length d | _ => 0 end.
Definition recs_weight (rs : list record) : nat := list_sum (map rec_weight rs).
Definition rx_weight (e : tread) : nat := match e with TArrive rs => Datatypes.S (recs_weight rs) | _ => 1 end.
Fixpoint rx_total (l : list tread) : nat := match l with [] => 0 | e :: l' => rx_weight e + rx_total l' end.
Definition tls_left (t : tls) : nat :=
  (List.length (ts_plain t) + rx_total (ts_rx t) + List.length (ts_tx t))%nat.
Definition tls_sane (t : tls) : Prop :=
  (ts_hs t = true -> ts_plain t = []) /\ ~ In (TFail ModelFuel) (ts_rx t) /\ ~ In (WFail ModelFuel) (ts_tx t).

Lemma drain_left tx : forall q out e tx' q' out', drain tx q out = (e, (tx', q', out')) ->
  (exists pre, tx = pre ++ tx') /\ (forall k, e = Some k -> k = WouldBlock \/ (In (WFail k) tx /\ (List.length tx' < List.length tx)%nat)).
Proof.
  induction tx as [|w tx IH]; intros q out e tx' q' out' E; cbn [drain] in E; destruct q as [|c q].
  - inversion E; subst. split; [exists []; reflexivity|discriminate].
  - inversion E; subst. split; [exists []; reflexivity|]. intros k Q. inversion Q; auto.
  - inversion E; subst. split; [exists []; reflexivity|discriminate].
  - destruct w as [n|k].
    + destruct (take_out n (c :: q) out) as [q1 out1]. destruct (IH _ _ _ _ _ _ E) as ((pre & ->) & H). split; [exists (WTake n :: pre); reflexivity|].
      intros k Q. destruct (H k Q) as [H1|[H1 H2]]; auto. right. split; [now right|cbn; lia].
    + inversion E; subst. split; [exists [WFail k]; reflexivity|]. intros k' Q. inversion Q; subst. right. split; [now left|cbn; lia].
Qed.

(** One step of the session: nothing grows, and the errors are what they have to be. *)
Definition fine_err (t t' : tls) (k : ekind) : Prop := k <> ModelFuel /\ (k = Interrupted -> (tls_left t' < tls_left t)%nat).
Definition shrinks (t t' : tls) : Prop := tls_sane t' /\ (tls_left t' <= tls_left t)%nat /\ (List.length (ts_rx t') <= List.length (ts_rx t))%nat.

Lemma shrinks_refl t : tls_sane t -> shrinks t t.
Proof. intros H. unfold shrinks. auto. Qed.
Lemma shrinks_trans a b c : shrinks a b -> shrinks b c -> shrinks a c.
Proof. intros (A1 & A2 & A3) (B1 & B2 & B3). unfold shrinks. repeat split; try apply B1; lia. Qed.
Lemma fine_later a b c k : shrinks a b -> fine_err b c k -> fine_err a c k.
Proof. intros (_ & H & _) [H1 H2]. split; auto. intros Q. specialize (H2 Q). lia. Qed.

Lemma tls_drain_shrinks t e t' : tls_drain t = (e, t') -> tls_sane t -> shrinks t t' /\ (forall k, e = Some k -> fine_err t t' k) /\
  ts_hs t' = ts_hs t /\ ts_plain t' = ts_plain t /\ ts_rx t' = ts_rx t.
Proof.
  unfold tls_drain. intros E (S1 & S2 & S3). destruct (drain (ts_tx t) (ts_queue t) (ts_out t)) as [e1 [[tx q] out]] eqn:E1. inversion E; subst.
  destruct (drain_left _ _ _ _ _ _ _ E1) as ((pre & P) & H). unfold shrinks, tls_sane, fine_err, tls_left. cbn. rewrite P, app_length. rewrite P in S3.
  rewrite P in H. rewrite app_length in H. split; [|split; auto].
  - split; [split; [auto|split; [auto|]]|split; lia]. intros I. apply S3. apply in_or_app. now right.
  - intros k Q. destruct (H k Q) as [->|[Q1 Q2]]; [split; discriminate|]. split; [intros ->; contradiction|lia].
Qed.

Lemma absorb1_left t r : (ts_hs t = true -> ts_plain t = []) ->
  (ts_hs (absorb1 t r) = true -> ts_plain (absorb1 t r) = []) /\ ts_rx (absorb1 t r) = ts_rx t /\ ts_tx (absorb1 t r) = ts_tx t /\
  (List.length (ts_plain (absorb1 t r)) <= List.length (ts_plain t) + rec_weight r)%nat.
Proof.
  intros H. unfold absorb1. destruct (ts_bad t); [repeat split; auto; lia|]. destruct r as [last reply|d| |]; cbn; try (repeat split; auto; lia).
  - repeat split; auto; [|lia]. intros Q. apply H. destruct (ts_hs t); auto.
  - destruct (ts_hs t); cbn; [repeat split; auto; lia|]. rewrite app_length. repeat split; auto. discriminate.
Qed.
Lemma absorb_left rs : forall t, (ts_hs t = true -> ts_plain t = []) ->
  (ts_hs (absorb t rs) = true -> ts_plain (absorb t rs) = []) /\ ts_rx (absorb t rs) = ts_rx t /\ ts_tx (absorb t rs) = ts_tx t /\
  (List.length (ts_plain (absorb t rs)) <= List.length (ts_plain t) + recs_weight rs)%nat.
Proof.
  induction rs as [|r rs IH]; intros t H; [cbn; repeat split; auto; lia|].
  destruct (absorb1_left t r H) as (A1 & A2 & A3 & A4). destruct (IH _ A1) as (B1 & B2 & B3 & B4).
  change (absorb t (r :: rs)) with (absorb (absorb1 t r) rs). rewrite B2, B3. repeat split; auto.
  change (recs_weight (r :: rs)) with (rec_weight r + recs_weight rs)%nat. lia.
Qed.

Lemma last_gasp_shrinks t : tls_sane t -> shrinks t (last_gasp t).
Proof.
  intros (S1 & S2 & S3). unfold last_gasp, shrinks, tls_sane, tls_left. destruct (ts_tx t) as [|[n|k] tx] eqn:Et.
  - rewrite Et. repeat split; auto.
  - destruct (take_out n (ts_queue t) (ts_out t)) as [q out]. cbn. repeat split; auto; try lia. intros I. apply S3. now right.
  - cbn. repeat split; auto; try lia. intros I. apply S3. now right.
Qed.

Lemma io_loop_shrinks f until : forall rd t x t', io_loop f until rd t = (x, t') -> tls_sane t -> (List.length (ts_rx t) < f)%nat ->
  shrinks t t' /\ (forall k, x = inl k -> fine_err t t' k) /\
  (x = inr true -> rd = true \/ (List.length (ts_rx t') < List.length (ts_rx t))%nat).
Proof.
  induction f as [|f IH]; intros rd t x t' E Sa L; [lia|]. cbn [io_loop] in E.
  destruct (tls_drain t) as [[k|] t1] eqn:Ed; destruct (tls_drain_shrinks _ _ _ Ed Sa) as (D1 & D2 & D3 & D4 & D5).
  { inversion E; subst. split; auto. split; [|discriminate]. intros k' Q. inversion Q; subst. auto. }
  destruct (negb until && match ts_queue t with [] => false | _ :: _ => true end).
  { inversion E; subst. split; auto. split; [discriminate|]. intros Q. inversion Q. auto. }
  (* what follows a read *)
  assert (Go : forall eof rd' t2, shrinks t t2 -> (rd' = true -> rd = true \/ (List.length (ts_rx t2) < List.length (ts_rx t))%nat) ->
     (eof = true \/ (ts_hs t2 = false) \/ (List.length (ts_rx t2) < List.length (ts_rx t))%nat) ->
     (if ts_bad t2 then (inl InvalidData, last_gasp t2)
      else if negb until then (inr rd', t2)
      else if negb (ts_hs t2) then (inr rd', t2)
      else if eof then (inl UnexpectedEof, t2)
      else io_loop f until rd' t2) = (x, t') ->
     shrinks t t' /\ (forall k, x = inl k -> fine_err t t' k) /\ (x = inr true -> rd = true \/ (List.length (ts_rx t') < List.length (ts_rx t))%nat)).
  { intros eof rd' t2 S2 Hr Hp E2. destruct (ts_bad t2).
    { inversion E2; subst. split; [eapply shrinks_trans; [exact S2|apply last_gasp_shrinks; apply S2]|]. split; [|discriminate].
      intros k Q. inversion Q; subst. split; [discriminate|discriminate]. }
    assert (Z : (inr rd', t2) = (x, t') -> shrinks t t' /\ (forall k, x = inl k -> fine_err t t' k) /\ (x = inr true -> rd = true \/ (List.length (ts_rx t') < List.length (ts_rx t))%nat)).
    { intros Q. inversion Q; subst. split; auto. split; [discriminate|]. intros Q2. inversion Q2. auto. }
    destruct until; cbn [negb] in E2; [|exact (Z E2)]. destruct (ts_hs t2) eqn:Hh; cbn [negb] in E2; [|exact (Z E2)]. destruct eof.
    { inversion E2; subst. split; auto. split; [|discriminate]. intros k Q. inversion Q; subst. split; discriminate. }
    destruct Hp as [Hp|[Hp|Hp]]; [discriminate|congruence|].
    assert (L2 : (List.length (ts_rx t2) < f)%nat) by lia.
    destruct (IH _ _ _ _ E2 ltac:(apply S2) L2) as (I1 & I2 & I3). split; [eapply shrinks_trans; eauto|]. split.
    - intros k Q. eapply fine_later; eauto.
    - intros Q. right. destruct I1 as (_ & _ & I1). lia. }
  destruct D1 as (D1 & D6 & D7).
  destruct (ts_plain t1) as [|c p] eqn:Ep.
  - destruct (ts_rx t1) as [|[rs| |k] rx] eqn:Er.
    + inversion E; subst. split; [split; [exact D1|split; auto; rewrite Er; lia]|]. split; [|discriminate]. intros k Q. inversion Q; subst. split; discriminate.
    + (* bytes arrive *)
      destruct D1 as (S1 & S2 & S3). destruct (absorb_left rs (set_rx t1 rx) S1) as (A1 & A2 & A3 & A4).
      refine (Go false true _ _ _ _ E); rewrite ?A2; cbn [set_rx ts_rx].
      * unfold shrinks, tls_sane. rewrite A2, A3. cbn [set_rx ts_rx ts_tx]. split.
        { split; auto. split; [|exact S3]. intros I. apply S2. rewrite Er. now right. }
        cbn [set_rx ts_plain] in A4. rewrite Ep in A4. unfold tls_left in *. rewrite A2, A3. cbn [set_rx ts_rx ts_tx].
        rewrite Er in D6. rewrite Ep in D6. cbn [rx_total rx_weight List.length] in *.
        split; [lia|]. rewrite <- D5. cbn [List.length]. lia.
      * intros _. right. rewrite <- D5. cbn. lia.
      * right. right. rewrite <- D5. cbn. lia.
    + (* the end *)
      destruct D1 as (S1 & S2 & S3).
      refine (Go true rd (set_rx t1 rx) _ _ _ E); [|auto|auto].
      unfold shrinks, tls_sane, tls_left in *. cbn [set_rx ts_rx ts_tx ts_hs ts_plain]. rewrite Er, Ep in *. rewrite <- D5 in D6 |- *. cbn [rx_total rx_weight List.length] in *.
      repeat split; auto; try lia. intros I. apply S2. now right.
    + (* a failure *)
      destruct D1 as (S1 & S2 & S3). inversion E; subst. unfold shrinks, tls_sane, tls_left, fine_err in *. unfold tls_left. cbn [set_rx ts_rx ts_tx ts_hs ts_plain].
      rewrite Er, Ep in *. rewrite <- D5 in D6 |- *. cbn [rx_total rx_weight List.length] in *.
      split; [repeat split; auto; try lia; intros I; apply S2; now right|]. split; [|discriminate]. intros k' Q. inversion Q; subst. split.
      * intros ->. apply S2. now left.
      * intros _. lia.
  - refine (Go false rd t1 _ _ _ E); [split; auto|auto|]. right. left. destruct D1 as (S1 & _). destruct (ts_hs t1); auto. rewrite (S1 eq_refl) in Ep. discriminate.
Qed.
Lemma complete_io_shrinks t x t' : complete_io t = (x, t') -> tls_sane t ->
  shrinks t t' /\ (forall k, x = inl k -> fine_err t t' k) /\ (x = inr true -> (List.length (ts_rx t') < List.length (ts_rx t))%nat).
Proof.
  unfold complete_io. intros E Sa. destruct (io_loop_shrinks _ _ _ _ _ _ E Sa (Nat.lt_succ_diag_r _)) as (H1 & H2 & H3). split; auto. split; auto.
  intros Q. destruct (H3 Q); [discriminate|auto].
Qed.

Lemma prior_shrinks t e t' : prior t = (e, t') -> tls_sane t -> shrinks t t' /\ (forall k, e = Some k -> fine_err t t' k).
Proof.
  unfold prior. intros E Sa.
  assert (exists x t1, (if ts_hs t then complete_io t else (inr false, t)) = (x, t1) /\ shrinks t t1 /\ (forall k, x = inl k -> fine_err t t1 k)) as (x & t1 & E1 & S1 & F1).
  { destruct (ts_hs t).
    - destruct (complete_io t) as [x t1] eqn:E1. destruct (complete_io_shrinks _ _ _ E1 Sa) as (H1 & H2 & _). eauto.
    - exists (inr false), t. split; auto. split; [now apply shrinks_refl|discriminate]. }
  rewrite E1 in E. destruct x as [k|b].
  { inversion E; subst. split; auto. intros k' Q. inversion Q; subst. auto. }
  destruct (wants_write t1); [|inversion E; subst; split; [auto|discriminate]].
  destruct (complete_io t1) as [y t2] eqn:E2. destruct (complete_io_shrinks _ _ _ E2 ltac:(apply S1)) as (H1 & H2 & _).
  destruct y as [k|b']; inversion E; subst; (split; [eapply shrinks_trans; eauto|]); [|discriminate].
  intros k' Q. inversion Q; subst. eapply fine_later; eauto.
Qed.

Lemma read_loop_shrinks f : forall t e t', read_loop f t = (e, t') -> tls_sane t -> (List.length (ts_rx t) < f)%nat ->
  shrinks t t' /\ (forall k, e = Some k -> fine_err t t' k).
Proof.
  induction f as [|f IH]; intros t e t' E Sa L; [lia|]. cbn [read_loop] in E.
  destruct (ts_plain t); [|inversion E; subst; split; [now apply shrinks_refl|discriminate]].
  destruct (complete_io t) as [x t1] eqn:E1. destruct (complete_io_shrinks _ _ _ E1 Sa) as (H1 & H2 & H3).
  destruct x as [k|[|]].
  - inversion E; subst. split; auto. intros k' Q. inversion Q; subst. auto.
  - specialize (H3 eq_refl). assert (L1 : (List.length (ts_rx t1) < f)%nat) by lia.
    destruct (IH _ _ _ E ltac:(apply H1) L1) as (I1 & I2). split; [eapply shrinks_trans; eauto|]. intros k Q. eapply fine_later; eauto.
  - inversion E; subst. split; auto. discriminate.
Qed.

Lemma seen_sane t p l : tls_sane t -> (ts_plain t = [] -> p = []) -> tls_sane (set_plain t p l).
Proof. intros (S1 & S2 & S3) H. unfold tls_sane. cbn. repeat split; auto. Qed.

Lemma tls_finite seal : finite tls tls_read (tls_write seal) tls_flush tls_left tls_sane.
Proof.
  constructor.
  - intros n t x t' Hn Sa E. unfold tls_read in E.
    assert (Z : forall y t1, shrinks t t1 -> match y with inl k => fine_err t t1 k | inr bs => (tls_left t1 + List.length bs <= tls_left t)%nat end ->
      (y, set_plain t1 (ts_plain t1) (ts_seen t1 ++ [y])) = (x, t') ->
      tls_sane t' /\ (tls_left t' <= tls_left t)%nat /\
      match x with inl k => k <> ModelFuel /\ (k = Interrupted -> (tls_left t' < tls_left t)%nat) | inr bs => (tls_left t' + List.length bs <= tls_left t)%nat end).
    { intros y t1 (S1 & S2 & S3) H Q. inversion Q; subst. split; [apply seen_sane; auto|]. split; [exact S2|]. destruct x; exact H. }
    destruct (prior t) as [[k|] t1] eqn:Ep; destruct (prior_shrinks _ _ _ Ep Sa) as (P1 & P2).
    { refine (Z (inl k) t1 P1 _ E). apply P2. reflexivity. }
    destruct (read_loop (Datatypes.S (List.length (ts_rx t1))) t1) as [[k|] t2] eqn:Er;
      destruct (read_loop_shrinks _ _ _ _ Er ltac:(apply P1) (Nat.lt_succ_diag_r _)) as (R1 & R2).
    { refine (Z (inl k) t2 _ _ E); [eapply shrinks_trans; eauto|]. eapply fine_later; [exact P1|]. apply R2. reflexivity. }
    pose proof (shrinks_trans _ _ _ P1 R1) as (S1 & S2 & S3).
    destruct (ts_plain t2) as [|c p] eqn:Epl.
    + destruct (ts_closed t2).
      * refine (Z (inl ConnectionAborted) t2 _ _ E); [split; auto|split; discriminate].
      * refine (Z (inr []) t2 _ _ E); [split; auto|cbn; lia].
    + refine (Z (inr (firstn (N.to_nat n) (c :: p))) (set_plain t2 (skipn (N.to_nat n) (c :: p)) (ts_seen t2)) _ _ E).
      * split; [apply seen_sane; auto; rewrite Epl; discriminate|]. unfold tls_left in *. cbn [set_plain ts_plain ts_rx ts_tx]. rewrite skipn_length, Epl in *. split; [lia|exact S3].
      * unfold tls_left in *. cbn [set_plain ts_plain ts_rx ts_tx]. rewrite skipn_length, firstn_length, Epl in *. lia.
  - intros b t x t' Hb Sa E. unfold tls_write in E. destruct (prior t) as [[k|] t1] eqn:Ep; destruct (prior_shrinks _ _ _ Ep Sa) as ((P0 & P1 & P3) & P2).
    + inversion E; subst. split; auto. split; auto. apply P2. reflexivity.
    + destruct (complete_io (push t1 (seal b))) as [y t2] eqn:Ei. assert (Sp : tls_sane (push t1 (seal b))) by exact P0.
      destruct (complete_io_shrinks _ _ _ Ei Sp) as ((H1 & H2 & H3) & _). inversion E; subst.
      change (tls_left (push t1 (seal b))) with (tls_left t1) in H2. split; auto. split; [lia|]. intros Q. destruct b; [contradiction|]. discriminate Q.
  - intros t x t' Sa E. unfold tls_flush in E. destruct (prior t) as [[k|] t1] eqn:Ep; destruct (prior_shrinks _ _ _ Ep Sa) as (P1 & P2).
    + inversion E; subst. destruct P1 as (P0 & P1 & _). split; auto. split; auto. destruct (P2 k eq_refl). congruence.
    + destruct (wants_write t1); [|inversion E; subst; destruct P1 as (P0 & P1 & _); split; auto; split; auto; discriminate].
      destruct (complete_io t1) as [y t2] eqn:Ei. destruct (complete_io_shrinks _ _ _ Ei ltac:(apply P1)) as (H1 & H2 & _).
      pose proof (shrinks_trans _ _ _ P1 H1) as (S1 & S2 & S3). destruct y as [k|b]; inversion E; subst; split; auto; split; auto; [|discriminate].
      destruct (H2 k eq_refl). congruence.
Qed.
