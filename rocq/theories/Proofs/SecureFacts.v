(** TLS streams whose peers and sockets behave. *)
From Coq Require Import List Ascii String Arith NArith Bool Lia.
From Verif.Model Require Import Bytes Io Common Parse Encode Writer Server Generic Buffered Streams Tls Secure.
From Verif.Spec Require Import Output Session Buffering Streams Tls Secure.
From Verif.Proofs Require Import BlockedFacts StreamsFacts TlsFacts.
Import ListNotations.
Local Open Scope N_scope.

Definition is_arrive (e : tread) : Prop := exists rs, e = TArrive rs.
Definition is_take (e : wevent) : Prop := exists n, e = WTake n.
Definition recs (rx : list tread) : list record := flat_map (fun e => match e with TArrive rs => rs | _ => [] end) rx.
Lemma app_of_app a b : app_of (a ++ b) = app_of a ++ app_of b.
Proof. apply flat_map_app. Qed.

Section Fut.
(** What will still arrive. *)
Variable fut : list record.
Definition tidy (t : tls) : Prop :=
  Forall is_arrive (ts_rx t) /\ Forall is_take (ts_tx t) /\ ts_bad t = false /\ (ts_hs t = true -> ts_plain t = []) /\
  sound (ts_hs t) (recs (ts_rx t) ++ fut).
Definition yet (t : tls) : bytes := ts_plain t ++ app_of (recs (ts_rx t)).
Definition full_up (t : tls) : Prop := ts_queue t <> [] /\ ts_tx t = [].
Definition idle (t : tls) : Prop := (ts_rx t = [] /\ ts_plain t = [] /\ ts_queue t = []) \/ full_up t.

Lemma drain_takes tx : forall q out e tx' q' out', Forall is_take tx -> drain tx q out = (e, (tx', q', out')) ->
  Forall is_take tx' /\ match e with Some k => k = WouldBlock /\ q' <> [] /\ tx' = [] | None => q' = [] end.
Proof.
  induction tx as [|w tx IH]; intros q out e tx' q' out' F E; destruct q as [|c q]; cbn [drain] in E; try (inversion E; subst; auto; fail).
  - inversion E; subst. split; auto. split; auto. split; auto. discriminate.
  - inversion F as [|? ? [n ->] F']; subst. destruct (take_out n (c :: q) out) as [q1 out1]. eauto.
Qed.
Lemma tls_drain_tidy t e t' : tidy t -> tls_drain t = (e, t') ->
  tidy t' /\ ts_hs t' = ts_hs t /\ ts_plain t' = ts_plain t /\ ts_rx t' = ts_rx t /\
  match e with Some k => k = WouldBlock /\ full_up t' | None => ts_queue t' = [] end.
Proof.
  unfold tls_drain. intros (T1 & T2 & T3 & T4 & T5) E. destruct (drain (ts_tx t) (ts_queue t) (ts_out t)) as [e0 [[tx q] out]] eqn:Ed. inversion E; subst.
  destruct (drain_takes _ _ _ _ _ _ _ T2 Ed) as [F H]. split; [split; [|split; [|split; [|split]]]; auto|]. split; [|split; [|split]]; auto.
Qed.
Lemma drain_empty t : ts_queue t = [] -> tls_drain t = (None, set_out t (ts_tx t) [] (ts_out t)).
Proof. intros Q. unfold tls_drain. rewrite Q. destruct (ts_tx t); reflexivity. Qed.

Lemma absorb_sound rs : forall t more, ts_bad t = false -> (ts_hs t = true -> ts_plain t = []) -> sound (ts_hs t) (rs ++ more) ->
  ts_bad (absorb t rs) = false /\ (ts_hs (absorb t rs) = true -> ts_plain (absorb t rs) = []) /\ sound (ts_hs (absorb t rs)) more /\
  ts_plain (absorb t rs) = ts_plain t ++ app_of rs /\ ts_rx (absorb t rs) = ts_rx t /\ ts_tx (absorb t rs) = ts_tx t /\
  (ts_hs t = false -> ts_hs (absorb t rs) = false /\ ts_queue (absorb t rs) = ts_queue t).
Proof.
  induction rs as [|r rs IH]; intros t more B P S; cbn [absorb fold_left app_of flat_map]; [rewrite app_nil_r; auto 10|].
  fold (absorb (absorb1 t r) rs). fold (app_of rs). cbn [app] in S. unfold absorb1. rewrite B. destruct r as [l y|d| |]; cbn [sound] in S; try contradiction.
  - destruct S as [S1 S2].
    destruct (IH (mk_tls (ts_hs t && negb l) false (ts_plain t) (ts_closed t) (ts_queue t ++ map (fun n => mk_chunk n Hand) y) (ts_out t) (ts_rx t) (ts_tx t) (ts_seen t)) more) as (H1 & H2 & H3 & H4 & H5 & H6 & H7); auto.
    { cbn. intros X. apply andb_true_iff in X as [X _]. auto. }
    split; [exact H1|]. split; [exact H2|]. split; [exact H3|]. split; [exact H4|]. split; [exact H5|]. split; [exact H6|].
    intros X. destruct H7 as [H8 H9]; [cbn; rewrite X; reflexivity|]. split; [exact H8|]. rewrite H9. cbn. rewrite (S1 X). cbn. apply app_nil_r.
  - destruct S as [S1 S2]. rewrite S1.
    destruct (IH (mk_tls false false (ts_plain t ++ d) (ts_closed t) (ts_queue t) (ts_out t) (ts_rx t) (ts_tx t) (ts_seen t)) more) as (H1 & H2 & H3 & H4 & H5 & H6 & H7); auto.
    { cbn. discriminate. }
    { rewrite S1 in S2. exact S2. }
    split; [exact H1|]. split; [exact H2|]. split; [exact H3|]. split; [rewrite H4; cbn; now rewrite app_assoc|]. split; [exact H5|]. split; [exact H6|].
    intros _. exact (H7 eq_refl).
Qed.
Lemma arrive_tidy t rs rx : tidy t -> ts_rx t = TArrive rs :: rx ->
  tidy (absorb (set_rx t rx) rs) /\ yet (absorb (set_rx t rx) rs) = yet t /\ ts_rx (absorb (set_rx t rx) rs) = rx /\ ts_bad (absorb (set_rx t rx) rs) = false /\
  (ts_hs t = false -> ts_hs (absorb (set_rx t rx) rs) = false /\ ts_queue (absorb (set_rx t rx) rs) = ts_queue t).
Proof.
  intros (T1 & T2 & T3 & T4 & T5) E. rewrite E in *. cbn [recs flat_map] in T5. fold (recs rx) in T5. rewrite <- app_assoc in T5.
  destruct (absorb_sound rs (set_rx t rx) _ T3 T4 T5) as (H1 & H2 & H3 & H4 & H5 & H6 & H7). inversion T1 as [|? ? _ T1']; subst.
  split; [|split; [|split; [|split]]]; auto.
  - split; [rewrite H5; exact T1'|]. split; [rewrite H6; exact T2|]. split; auto. split; auto. rewrite H5. exact H3.
  - unfold yet. rewrite H4, H5, E. cbn [ts_plain set_rx ts_rx recs flat_map]. fold (recs rx). now rewrite app_of_app, app_assoc.
Qed.

Lemma io_hs_tidy n : forall rd t x t', ts_hs t = true -> tidy t -> (List.length (ts_rx t) < n)%nat -> io_loop n true rd t = (x, t') ->
  tidy t' /\ yet t' = yet t /\ match x with inl k => k = WouldBlock /\ idle t' | inr _ => ts_hs t' = false end.
Proof.
  induction n as [|n IH]; intros rd t x t' Hh T L E; [lia|]. cbn [io_loop negb andb] in E.
  destruct (tls_drain t) as [e t1] eqn:Ed. destruct (tls_drain_tidy _ _ _ T Ed) as (T1 & E1 & E2 & E3 & H).
  assert (Y : yet t1 = yet t) by (unfold yet; rewrite E2, E3; reflexivity).
  destruct e as [k|]; [inversion E; subst; destruct H as [-> H]; split; auto; split; auto; split; auto; right; exact H|].
  rewrite (proj1 (proj2 (proj2 (proj2 T1))) (eq_trans E1 Hh)) in E.
  destruct (ts_rx t1) as [|e rx] eqn:Er.
  - inversion E; subst. split; auto. split; auto. split; auto. left. split; auto. split; auto. apply T1. congruence.
  - pose proof T1 as (F & _). rewrite Er in F. inversion F as [|? ? [rs ->] _]; subst.
    destruct (arrive_tidy _ _ _ T1 Er) as (A1 & A2 & A3 & A4 & _). rewrite A4 in E.
    destruct (ts_hs (absorb (set_rx t1 rx) rs)) eqn:Eh; cbn [negb] in E.
    + destruct (IH _ _ _ _ Eh A1 ltac:(rewrite A3; rewrite <- E3 in L; cbn in L; lia) E) as (G1 & G2 & G3). split; auto. split; [congruence|auto].
    + inversion E; subst. split; auto. split; [congruence|auto].
Qed.
Lemma io_up_tidy n rd t x t' : ts_hs t = false -> tidy t -> io_loop (S n) false rd t = (x, t') ->
  tidy t' /\ yet t' = yet t /\ ts_hs t' = false /\
  match x with
  | inl k => k = WouldBlock /\ idle t'
  | inr b => (ts_queue t <> [] /\ ts_queue t' = [] /\ b = rd) \/
      (ts_queue t = [] /\ ts_queue t' = [] /\ ((ts_plain t <> [] /\ ts_plain t' = ts_plain t) \/ (b = true /\ (List.length (ts_rx t') < List.length (ts_rx t))%nat)))
  end.
Proof.
  intros Hh T E. cbn [io_loop negb andb] in E.
  destruct (tls_drain t) as [e t1] eqn:Ed. destruct (tls_drain_tidy _ _ _ T Ed) as (T1 & E1 & E2 & E3 & H).
  assert (Y : yet t1 = yet t) by (unfold yet; rewrite E2, E3; reflexivity).
  destruct e as [k|]; [inversion E; subst; destruct H as [-> H]; split; auto; split; auto; split; [congruence|]; split; auto; right; exact H|].
  destruct (ts_queue t) as [|c q] eqn:Q.
  2:{ inversion E; subst. split; auto. split; auto. split; [congruence|]. left. split; auto. discriminate. }
  destruct (ts_plain t1) as [|c p] eqn:Ep.
  2:{ rewrite (proj1 (proj2 (proj2 T1))) in E. inversion E; subst. split; auto. split; auto. split; [congruence|]. right. split; auto. split; auto. left. rewrite <- E2. split; [congruence|congruence]. }
  destruct (ts_rx t1) as [|e rx] eqn:Er.
  - inversion E; subst. split; auto. split; auto. split; [congruence|]. split; auto. left. auto.
  - pose proof T1 as (F & _). rewrite Er in F. inversion F as [|? ? [rs ->] _]; subst.
    destruct (arrive_tidy _ _ _ T1 Er) as (A1 & A2 & A3 & A4 & A5). rewrite A4 in E. inversion E; subst. destruct (A5 (eq_trans E1 Hh)) as [A6 A7].
    split; auto. split; [congruence|]. split; auto. right. split; auto. split; [congruence|]. right. split; auto. rewrite A3, <- E3. cbn. lia.
Qed.
Lemma prior_tidy t x t' : tidy t -> prior t = (x, t') ->
  tidy t' /\ yet t' = yet t /\ match x with Some k => k = WouldBlock /\ idle t' | None => ts_hs t' = false /\ ts_queue t' = [] end.
Proof.
  intros T. unfold prior. destruct (if ts_hs t then complete_io t else (inr false, t)) as [y t1] eqn:E1.
  assert (H1 : tidy t1 /\ yet t1 = yet t /\ match y with inl k => k = WouldBlock /\ idle t1 | inr _ => ts_hs t1 = false end).
  { unfold complete_io in E1. destruct (ts_hs t) eqn:Eh; [eapply io_hs_tidy; eauto|]. inversion E1; subst. auto. }
  destruct H1 as (T1 & Y1 & H1). destruct y as [k|b]; [intros E; inversion E; subst; destruct H1 as [-> H1]; auto|].
  destruct (wants_write t1) eqn:Ew.
  - unfold complete_io. rewrite H1. destruct (io_loop (S (List.length (ts_rx t1))) false false t1) as [y t2] eqn:E2.
    destruct (io_up_tidy _ _ _ _ _ H1 T1 E2) as (T2 & Y2 & Hh & H2). intros E. destruct y as [k|b2]; inversion E; subst.
    + split; auto. split; [congruence|]. destruct H2 as [-> H2]. auto.
    + split; auto. split; [congruence|]. split; auto. destruct H2 as [(_ & H2 & _)|(_ & H2 & _)]; auto.
  - intros E. inversion E; subst. split; auto. split; auto. split; auto. unfold wants_write in Ew. destruct (ts_queue t'); auto. discriminate.
Qed.
Lemma read_loop_tidy n : forall t x t', ts_hs t = false -> ts_queue t = [] -> tidy t -> (List.length (ts_rx t) < n)%nat -> read_loop n t = (x, t') ->
  tidy t' /\ yet t' = yet t /\ ts_hs t' = false /\ match x with Some k => k = WouldBlock /\ idle t' | None => ts_plain t' <> [] /\ ts_queue t' = [] end.
Proof.
  induction n as [|n IH]; intros t x t' Hh Q T L E; [lia|]. cbn [read_loop] in E. destruct (ts_plain t) as [|c p] eqn:Ep.
  - unfold complete_io in E. rewrite Hh in E. destruct (io_loop (S (List.length (ts_rx t))) false false t) as [y t1] eqn:E1.
    destruct (io_up_tidy _ _ _ _ _ Hh T E1) as (T1 & Y1 & H1 & H2). destruct y as [k|b].
    + inversion E; subst. destruct H2 as [-> H2]. auto.
    + destruct H2 as [(X & _)|(_ & Q1 & H2)]; [contradiction|]. destruct H2 as [(X & _)|(-> & L1)]; [contradiction|].
      destruct (IH _ _ _ H1 Q1 T1 ltac:(lia) E) as (G1 & G2 & G3). split; auto. split; [congruence|auto].
  - inversion E; subst. split; auto. split; auto. split; auto. split; [congruence|auto].
Qed.

Definition read_bytes (x : ekind + bytes) : bytes := match x with inr bs => bs | inl _ => [] end.
Definition fine_read (x : ekind + bytes) : Prop := match x with inr bs => bs <> [] | inl k => k = WouldBlock end.
Lemma tls_read_tidy n t x t' : 0 < n -> tidy t -> tls_read n t = (x, t') ->
  tidy t' /\ yet t = read_bytes x ++ yet t' /\ ts_seen t' = ts_seen t ++ [x] /\ fine_read x /\ (x = inl WouldBlock -> idle t').
Proof.
  intros Hn T E.
  assert (Se : ts_seen t' = ts_seen t ++ [x]). { destruct (tls_read_spec _ _ _ _ E) as (t1 & [K _] & -> & _). cbn. now rewrite K. }
  unfold tls_read in E. destruct (prior t) as [y t1] eqn:Ep. destruct (prior_tidy _ _ _ T Ep) as (T1 & Y1 & H1). destruct y as [k|].
  - inversion E; subst. destruct H1 as [-> H1]. split; [exact T1|]. split; [symmetry; exact Y1|]. split; auto. split; [reflexivity|]. intros _. exact H1.
  - destruct H1 as [Hh Q]. destruct (read_loop (S (List.length (ts_rx t1))) t1) as [y t2] eqn:Er.
    destruct (read_loop_tidy _ _ _ _ Hh Q T1 (Nat.lt_succ_diag_r _) Er) as (T2 & Y2 & H2 & H3). destruct y as [k|].
    + inversion E; subst. destruct H3 as [-> H3]. split; [exact T2|]. split; [cbn [read_bytes app]; rewrite <- Y1, <- Y2; reflexivity|]. split; auto. split; [reflexivity|]. intros _. exact H3.
    + destruct H3 as [H3 Q2]. destruct (ts_plain t2) as [|c p] eqn:Ep2; [contradiction|]. inversion E; subst. split.
      { destruct T2 as (A1 & A2 & A3 & A4 & A5). split; [|split; [|split; [|split]]]; auto. cbn. congruence. }
      split. { cbn [read_bytes]. rewrite <- Y1, <- Y2. unfold yet. cbn [ts_plain set_plain ts_rx]. rewrite Ep2, app_assoc, firstn_skipn. reflexivity. }
      split; auto. split; [|discriminate]. cbn [fine_read]. destruct (N.to_nat n) eqn:En; [lia|]. discriminate.
Qed.
Section Seal.
Variable seal : bytes -> list chunk.
Lemma push_tidy t cs : tidy t -> tidy (push t cs).
Proof. intros T. exact T. Qed.
Lemma tls_write_tidy b t x t' : tidy t -> tls_write seal b t = (x, t') ->
  tidy t' /\ yet t' = yet t /\ ts_seen t' = ts_seen t /\ match x with WErr k => k = WouldBlock /\ idle t' | WOk m => m = len b end.
Proof.
  intros T E.
  assert (Se : ts_seen t' = ts_seen t).
  { unfold tls_write in E. destruct (prior t) as [[k|] t1] eqn:Ep; pose proof (prior_keeps _ _ _ Ep) as [K _]; [inversion E; subst; auto|].
    destruct (complete_io (push t1 (seal b))) as [y t2] eqn:Ei. pose proof (io_keeps _ _ _ Ei) as [K2 _]. inversion E; subst. rewrite K2. exact K. }
  unfold tls_write in E. destruct (prior t) as [y t1] eqn:Ep. destruct (prior_tidy _ _ _ T Ep) as (T1 & Y1 & H1). destruct y as [k|].
  - inversion E; subst. auto.
  - destruct (complete_io (push t1 (seal b))) as [y t2] eqn:Ei. inversion E; subst. destruct H1 as [Hh Q].
    unfold complete_io in Ei. change (ts_hs (push t1 (seal b))) with (ts_hs t1) in Ei. rewrite Hh in Ei.
    destruct (io_up_tidy _ _ (push t1 (seal b)) _ _ Hh T1 Ei) as (T2 & Y2 & _). split; auto. split; [rewrite Y2; exact Y1|]. auto.
Qed.
End Seal.
Lemma tls_flush_tidy t x t' : tidy t -> tls_flush t = (x, t') ->
  tidy t' /\ yet t' = yet t /\ ts_seen t' = ts_seen t /\ match x with WErr k => k = WouldBlock /\ idle t' | WOk _ => True end.
Proof.
  intros T E. pose proof (flush_keeps _ _ _ E) as [Se _]. unfold tls_flush in E. destruct (prior t) as [y t1] eqn:Ep. destruct (prior_tidy _ _ _ T Ep) as (T1 & Y1 & H1). destruct y as [k|].
  - inversion E; subst. auto.
  - destruct H1 as [_ Q]. unfold wants_write in E. rewrite Q in E. inversion E; subst. auto.
Qed.

End Fut.

(** ** One call *)

Lemma sound_hands rs : forall hs more, sound hs (rs ++ more) -> exists hs', hands hs rs = Some hs' /\ sound hs' more.
Proof.
  induction rs as [|r rs IH]; intros hs more S; [exists hs; auto|]. cbn [app] in S. destruct r as [l y|d| |]; cbn [sound hands] in *; try contradiction.
  - destruct S as [_ S]. eauto.
  - destruct S as [-> S]. eauto.
Qed.
Lemma sound_shakes rx : forall fut, Forall is_arrive rx -> sound true (recs rx ++ fut) -> shakes rx.
Proof.
  induction rx as [|e rx IH]; intros fut F S; cbn [shakes]; auto. inversion F as [|? ? [rs ->] F']; subst. cbn [recs flat_map] in S. fold (recs rx) in S.
  rewrite <- app_assoc in S. destruct (sound_hands _ _ _ S) as (hs' & -> & S'). destruct hs'; auto. eauto.
Qed.
Lemma takes_calm_tx tx : Forall is_take tx -> calm_tx tx.
Proof.
  intros F. split; [eapply Forall_impl; [|exact F]; intros e [n ->]; exact I|]. intros a b n ->. apply Forall_app in F as [_ F]. inversion F as [|? ? [m X] _]. discriminate.
Qed.
Lemma tidy_calm fut t : tidy fut t -> calm t.
Proof.
  intros (T1 & T2 & T3 & T4 & T5). split; [|apply takes_calm_tx; exact T2]. intros Hh. rewrite Hh in T5. split; [auto|]. split; auto. eapply sound_shakes; eauto.
Qed.

Definition reads (l : list (ekind + bytes)) : bytes := flat_map read_bytes l.
(** All that ever arrives is [all]. *)
Definition proceeds (fut : list record) (all : bytes) (t : tls) : Prop :=
  tidy fut t /\ Forall fine_read (ts_seen t) /\ reads (ts_seen t) ++ yet t = all.

Section Call.
Variable seal : bytes -> list chunk.
Variable size : bytes -> N.
Variable fuel : nat.
Variable fut : list record.
Variable all : bytes.
Notation Inv := (proceeds fut all).

Lemma inv_read n t x t' : READ_BUF_SIZE <= n -> tls_read n t = (x, t') -> Inv t -> Inv t'.
Proof.
  intros L E (T & F & R). assert (L0 : 0 < n) by (unfold READ_BUF_SIZE in L; lia). destruct (tls_read_tidy fut n t x t' L0 T E) as (T' & Y & S & Fx & _).
  split; auto. rewrite S. split; [apply Forall_app; auto|]. unfold reads in *. rewrite flat_map_app. cbn [flat_map]. rewrite app_nil_r, <- app_assoc, <- Y. exact R.
Qed.
Lemma inv_write b t x t' : b <> [] -> tls_write seal b t = (x, t') -> Inv t -> Inv t'.
Proof. intros _ E (T & F & R). destruct (tls_write_tidy fut seal b t x t' T E) as (T' & Y & S & _). split; auto. rewrite S, Y. auto. Qed.
Lemma inv_flush t x t' : tls_flush t = (x, t') -> Inv t -> Inv t'.
Proof. intros E (T & F & R). destruct (tls_flush_tidy fut t x t' T E) as (T' & Y & S & _). split; auto. rewrite S, Y. auto. Qed.
Lemma inv_idle n t t' : READ_BUF_SIZE <= n -> tls_read n t = (inl WouldBlock, t') -> Inv t -> idle t'.
Proof. intros L E (T & _). assert (L0 : 0 < n) by (unfold READ_BUF_SIZE in L; lia). apply (tls_read_tidy fut n t _ t' L0 T E). reflexivity. Qed.

(** What the writer holds is not held because of the writer. *)
Definition handed_on (w : writer) (t : tls) : Prop := unsent w = [] \/ stuck t.

Notation wub := (t_wub tls (tls_write seal)).
Lemma wub_on n : forall t b pos a t', wub n t b pos = (WOk a, t') -> Inv t -> a = pos + len b \/ stuck t'.
Proof.
  induction n as [|n IH]; intros t b pos a t' E I; destruct b as [|c b]; cbn [t_wub] in E; try discriminate.
  1,2: inversion E; subst; left; cbn; lia.
  destruct (tls_write seal (c :: b) t) as [x t1] eqn:Ew. pose proof I as (T & _). destruct (tls_write_tidy fut seal _ _ _ _ T Ew) as (_ & _ & _ & Hx).
  destruct x as [m|k].
  - subst m. assert (I1 : Inv t1) by (eapply inv_write; [|exact Ew|exact I]; discriminate).
    assert (Es : skipn (N.to_nat (len (c :: b))) (c :: b) = []) by (apply skipn_all2; unfold len; lia). rewrite Es in E.
    destruct n; cbn [t_wub] in E; inversion E; subst; left; lia.
  - destruct Hx as [-> _]. inversion E; subst. right. destruct (tls_write_calm seal _ _ _ _ (tidy_calm _ _ T) Ew) as (_ & _ & S). exact S.
Qed.
Lemma flush_buf_on w t u w' t' : t_flush_buf tls (tls_write seal) fuel w t = (WOk u, w', t') -> Inv t -> handed_on w' t'.
Proof.
  unfold t_flush_buf. intros E I. destruct (wub fuel t (skipn (N.to_nat (wr_pos w)) (wr_buf w)) 0) as [[a|k] t1] eqn:Ew; [|discriminate].
  destruct (wub_on _ _ _ _ _ _ Ew I) as [Ha|S].
  - assert (L : len (wr_buf w) <=? wr_pos w + a = true). { apply N.leb_le. subst a. unfold len. rewrite skipn_length. lia. }
    rewrite L in E. inversion E; subst. left. reflexivity.
  - right. destruct (len (wr_buf w) <=? wr_pos w + a); inversion E; subst; exact S.
Qed.
Lemma wr_flush_on w t u w' t' : t_wr_flush tls (tls_write seal) tls_flush fuel w t = (WOk u, w', t') -> Inv t -> handed_on w' t'.
Proof.
  unfold t_wr_flush. intros E I. destruct (t_flush_buf tls (tls_write seal) fuel w t) as [[x w1] t1] eqn:Ef. destruct x as [u1|k]; [|discriminate].
  pose proof (flush_buf_on _ _ _ _ _ Ef I) as H.
  assert (I1 : Inv t1) by (eapply (t_flush_buf_inv tls (tls_write seal) fuel Inv); [exact inv_write|exact Ef|exact I]).
  unfold t_flush_inner in E. destruct (tls_flush t1) as [y t2] eqn:El. destruct (tls_flush_calm _ _ _ (tidy_calm _ _ (proj1 I1)) El) as (_ & _ & S).
  destruct H as [H|H]; [left|right].
  - destruct y as [v|k]; [|destruct k]; inversion E; subst; auto.
  - destruct y as [v|k]; [|destruct k]; inversion E; subst; auto.
Qed.
Lemma run_ops_on ops : forall w t u w' t', t_run_ops tls (tls_write seal) tls_flush fuel w t (ops ++ [SFlush]) = (WOk u, w', t') -> Inv t -> handed_on w' t'.
Proof.
  induction ops as [|op ops IH]; intros w t u w' t' E I; cbn [app] in E.
  - cbn [t_run_ops] in E. destruct (t_wr_flush tls (tls_write seal) tls_flush fuel w t) as [[x w1] t1] eqn:Ef. destruct x; [|discriminate]. inversion E; subst. eapply wr_flush_on; eauto.
  - assert (E1 : exists v w1 t1, t_run_ops tls (tls_write seal) tls_flush fuel w t [op] = (WOk v, w1, t1) /\ t_run_ops tls (tls_write seal) tls_flush fuel w1 t1 (ops ++ [SFlush]) = (WOk u, w', t')).
    { cbn [t_run_ops] in E |- *. destruct (match op with SAll b => _ | SWrite b => _ | SFlush => _ end) as [[[v|k] w1] t1]; [|discriminate]. eauto. }
    destruct E1 as (v & w1 & t1 & E1 & E2). eapply IH; [exact E2|].
    eapply (t_run_ops_inv tls (tls_write seal) tls_flush fuel Inv); [exact inv_write|exact inv_flush|exact E1|exact I].
Qed.

Notation respond := (t_respond tls tls_read (tls_write seal) tls_flush size READ_BUF_SIZE fuel).
Notation on d := (proceeds fut all (tb_in tls d) /\ handed_on (tb_w tls d) (tb_in tls d)).
Lemma fill_on d x d' : tb_fill tls tls_read READ_BUF_SIZE d = (x, d') -> on d -> on d'.
Proof.
  unfold tb_fill. intros E [I H]. destruct (tb_buf tls d); [|inversion E; subst; auto].
  destruct (tls_read READ_BUF_SIZE (tb_in tls d)) as [y t1] eqn:Er. pose proof (inv_read _ _ _ _ (N.le_refl _) Er I) as I1.
  destruct (tls_read_calm _ _ _ _ (tidy_calm _ _ (proj1 I)) Er) as [_ S].
  assert (H1 : handed_on (tb_w tls d) t1) by (destruct H as [H|H]; [left; auto|right; now apply S]).
  destruct y; inversion E; subst; cbn; auto.
Qed.
Lemma read_on n d x d' : tb_read tls tls_read READ_BUF_SIZE n d = (x, d') -> on d -> on d'.
Proof.
  unfold tb_read. intros E Hd. destruct (tb_buf tls d); [|inversion E; subst; exact Hd].
  destruct (READ_BUF_SIZE <=? n) eqn:El.
  - destruct Hd as [I H]. destruct (tls_read n (tb_in tls d)) as [y t1] eqn:Er. apply N.leb_le in El. pose proof (inv_read _ _ _ _ El Er I) as I1.
    destruct (tls_read_calm _ _ _ _ (tidy_calm _ _ (proj1 I)) Er) as [_ S].
    assert (H1 : handed_on (tb_w tls d) t1) by (destruct H as [H|H]; [left; auto|right; now apply S]). inversion E; subst. cbn. auto.
  - destruct (tb_fill tls tls_read READ_BUF_SIZE d) as [[k|bs] d1] eqn:Ef; pose proof (fill_on _ _ _ Ef Hd); inversion E; subst; auto.
Qed.
Lemma request_on dbg c rr c' : t_read_request tls tls_read size READ_BUF_SIZE fuel dbg c = (rr, c') -> on (tc_stream tls c) -> on (tc_stream tls c').
Proof.
  unfold t_read_request, t_req_parse. intros E Hd.
  destruct (g_req_parse (tbuf tls) (tb_fill tls tls_read READ_BUF_SIZE) (tb_consume tls) (tb_read tls tls_read READ_BUF_SIZE) size (fun _ => fuel) (fun _ => fuel) dbg
      (match tc_parser tls c with Some st => st | None => req_new end) (tc_stream tls c)) as [y d] eqn:Ep.
  assert (Hd' : on d).
  { refine (req_parse_inv (tbuf tls) _ _ _ _ _ _ (fun d => on d) _ _ _ _ _ _ _ _ Ep Hd); [exact fill_on|intros ? ? X; exact X|exact read_on]. }
  destruct y as [r|st k|e|]; try (inversion E; subst; exact Hd'). destruct k; inversion E; subst; exact Hd'.
Qed.
Lemma result_ops_flush l : l <> LPanic -> exists ops, result_ops l = ops ++ [SFlush].
Proof.
  intros N. destruct l as [|r|]; [| |contradiction].
  - exists [SAll NOT_FOUND_RESPONSE]. reflexivity.
  - exists (map SAll (first_line_pieces HTTP_VERSION_1_1 (dec (st_code (rs_status r))) (st_reason (rs_status r)) ++ header_pieces (rs_headers r)) ++ [SWrite crlf; SWrite (rs_body r)]).
    unfold result_ops, response_ops. now rewrite <- app_assoc.
Qed.
Lemma respond_on dbg rt n : forall log c log' c', respond n dbg rt log c = Some (Keep, log', c') -> on (tc_stream tls c) -> on (tc_stream tls c').
Proof.
  induction n as [|n IH]; intros log c log' c' E Hd; cbn [t_respond] in E; [discriminate|].
  destruct (t_read_request tls tls_read size READ_BUF_SIZE fuel dbg c) as [rr c1] eqn:Er. pose proof (request_on _ _ _ _ Er Hd) as H1.
  assert (Go : forall l r, l <> LPanic -> match tc_ops tls (tls_write seal) tls_flush fuel (result_ops l) c1 with
        | (WOk _, c2) => if should_close_after_response r then Some (Close, log ++ [r], c2) else respond n dbg rt (log ++ [r]) c2
        | (WErr k, c2) => if ran_out k then None else Some (Close, log ++ [r], c2)
        end = Some (Keep, log', c') -> on (tc_stream tls c')).
  { intros l r Nl X. destruct (tc_ops tls (tls_write seal) tls_flush fuel (result_ops l) c1) as [[u|k] c2] eqn:Eo; [|destruct (ran_out k); discriminate].
    destruct (should_close_after_response r); [discriminate|]. eapply IH; [exact X|]. destruct H1 as [I1 _].
    unfold tc_ops, tb_write in Eo. destruct (t_run_ops tls (tls_write seal) tls_flush fuel (tb_w tls (tc_stream tls c1)) (tb_in tls (tc_stream tls c1)) (result_ops l)) as [[y w] t1] eqn:Ew.
    inversion Eo; subst. cbn [tc_stream tb_in tb_w]. split.
    - eapply (t_run_ops_inv tls (tls_write seal) tls_flush fuel (proceeds fut all)); [exact inv_write|exact inv_flush|exact Ew|exact I1].
    - destruct (result_ops_flush l Nl) as [ops Eops]. rewrite Eops in Ew. eapply run_ops_on; eauto. }
  destruct rr as [|r|e|k| |]; try discriminate.
  - inversion E; subst. exact H1.
  - destruct (rt log r); [refine (Go _ _ _ E); discriminate|refine (Go _ _ _ E); discriminate|discriminate].
  - destruct (tc_ops tls (tls_write seal) tls_flush fuel error_ops c1) as [x c2]. destruct (out_of_fuel x); discriminate.
  - destruct (ran_out k); [discriminate|]. destruct (tc_ops tls (tls_write seal) tls_flush fuel error_ops c1) as [x c2]. destruct (out_of_fuel x); discriminate.
Qed.
Lemma handle_on dbg rt f log c log' c' : t_handle tls tls_read (tls_write seal) tls_flush size READ_BUF_SIZE fuel dbg rt f log (TOpen tls c) = Some (log', TOpen tls c') ->
  proceeds fut all (f (tb_in tls (tc_stream tls c))) ->
  proceeds fut all (tb_in tls (tc_stream tls c')) /\ handed_on (tb_w tls (tc_stream tls c')) (tb_in tls (tc_stream tls c')) /\ idle (tb_in tls (tc_stream tls c')) /\ tb_buf tls (tc_stream tls c') = [].
Proof.
  intros E I. cbn [t_handle] in E. destruct (tc_flush tls (tls_write seal) tls_flush fuel (tc_env tls f c)) as [x c1] eqn:Ef. destruct x as [u|k]; [|destruct (ran_out k); discriminate].
  unfold tc_flush, tb_write in Ef. destruct (t_wr_flush tls (tls_write seal) tls_flush fuel (tb_w tls (tc_stream tls (tc_env tls f c))) (tb_in tls (tc_stream tls (tc_env tls f c)))) as [[y w] t1] eqn:Ew.
  inversion Ef; subst. destruct (respond fuel dbg rt log _) as [[[vd log1] c2]|] eqn:Er; [|discriminate]. destruct vd; inversion E; subst.
  assert (I1 : proceeds fut all t1) by (eapply (t_wr_flush_inv tls (tls_write seal) tls_flush fuel (proceeds fut all)); [exact inv_write|exact inv_flush|exact Ew|exact I]).
  assert (X : on (tc_stream tls c')).
  { eapply respond_on; [exact Er|]. cbn [tc_stream tb_in tb_w]. split; [exact I1|]. eapply wr_flush_on; [exact Ew|exact I]. }
  destruct X as [X1 X2]. split; auto. split; auto. split.
  - eapply (keep_Q tls tls_read (tls_write seal) tls_flush size READ_BUF_SIZE fuel (proceeds fut all) inv_read inv_write inv_flush idle); [exact inv_idle|exact Er|exact I1].
  - apply (keep_used tls tls_read (tls_write seal) tls_flush size READ_BUF_SIZE fuel _ _ _ _ _ _ _ Er).
Qed.
(** The other ends of a call. *)
Lemma handle_proceeds dbg rt f log c log' st' : t_handle tls tls_read (tls_write seal) tls_flush size READ_BUF_SIZE fuel dbg rt f log (TOpen tls c) = Some (log', st') ->
  proceeds fut all (f (tb_in tls (tc_stream tls c))) -> proceeds fut all (stream_of tls st').
Proof.
  intros E I.
  assert (E' : t_handle tls tls_read (tls_write seal) tls_flush size READ_BUF_SIZE fuel dbg rt (fun t => t) log (TOpen tls (tc_env tls f c)) = Some (log', st')) by exact E.
  exact (t_handle_inv tls tls_read (tls_write seal) tls_flush size READ_BUF_SIZE fuel (proceeds fut all) inv_read inv_write inv_flush dbg rt _ log _ log' st' (fun t H => H) E' I).
Qed.
End Call.

Lemma recs_app a b : recs (a ++ b) = recs a ++ recs b.
Proof. apply flat_map_app. Qed.
Lemma recs_arrive rs : recs (map TArrive rs) = List.concat rs.
Proof. induction rs as [|r rs IH]; auto. cbn [map recs flat_map List.concat]. fold (recs (map TArrive rs)). now rewrite IH. Qed.
Lemma sound_less a b : forall hs, sound hs (a ++ b) -> sound hs a.
Proof.
  induction a as [|r a IH]; intros hs S; cbn; auto. cbn [app] in S. destruct r as [l y|d| |]; cbn [sound] in *; auto; destruct S as [S1 S2]; auto.
Qed.
(** What has arrived is given to the stream. *)
Lemma around_proceeds rs tx more all t : proceeds (List.concat rs ++ more) all t ->
  proceeds more (all ++ app_of (List.concat rs)) (s_around rs tx t).
Proof.
  intros ((T1 & T2 & T3 & T4 & T5) & F & R). split; [|split].
  - split; [|split; [|split; [|split]]]; auto; cbn [s_around ts_rx ts_tx ts_hs].
    + apply Forall_app. split; auto. apply Forall_forall. intros e I. apply in_map_iff in I as (r & <- & _). now exists r.
    + apply Forall_forall. intros e I. apply in_map_iff in I as (r & <- & _). now exists r.
    + rewrite recs_app, recs_arrive, <- app_assoc. exact T5.
  - exact F.
  - cbn [s_around ts_seen]. unfold yet in *. cbn [s_around ts_plain ts_rx]. rewrite recs_app, recs_arrive, app_of_app, !app_assoc. rewrite app_assoc in R. now rewrite R.
Qed.

(** As if nothing but what happens around the stream had been decided beforehand. *)
Definition decided (t0 : tls) (rs : list (list record)) (tx : list N) (t : tls) : tls :=
  mk_tls (ts_hs t) (ts_bad t) (ts_plain t) (ts_closed t) (ts_queue t) (ts_out t)
    (if Bool.eqb (ts_hs t) (ts_hs t0) then ts_rx t0 ++ map TArrive rs else []) (map WTake tx) (ts_seen t).
Lemma decided_same t0 rs tx : decided t0 rs tx t0 = s_around rs tx t0.
Proof. unfold decided, s_around. now rewrite Bool.eqb_reflx. Qed.
Lemma decided_around t0 rs tx : around (decided t0 rs tx).
Proof. intros t. eexists. eexists. reflexivity. Qed.
Lemma decided_calm t0 rs tx more : tidy more (s_around rs tx t0) -> forall t, calm t -> calm (decided t0 rs tx t).
Proof.
  intros (T1 & T2 & T3 & T4 & T5) t [C1 _]. split.
  - cbn [decided ts_hs ts_plain ts_bad ts_rx]. intros Hh. destruct (C1 Hh) as (H1 & H2 & _). split; auto. split; auto. rewrite Hh.
    cbn [s_around ts_hs ts_rx] in T5, T1. destruct (ts_hs t0); cbn [Bool.eqb]; [|exact Logic.I]. eapply sound_shakes; eauto.
  - apply takes_calm_tx. exact T2.
Qed.
