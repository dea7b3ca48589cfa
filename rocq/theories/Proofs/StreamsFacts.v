(** A connection on a stream is a connection on a socket. *)
From Coq Require Import List Ascii String Arith NArith Bool Lia.
From Verif.Model Require Import Bytes Io Common Parse Encode Writer Server Generic Buffered Streams.
From Verif.Spec Require Import Session Buffering Streams.
From Verif.Proofs Require Import BytesFacts GenericFacts FuelFacts BufferedFacts BufferedConnFacts MonoFacts BlockedFacts.
Import ListNotations.
Local Open Scope N_scope.

(** ** The socket's side: fuel of write_all *)

Lemma wub_err_len : forall evs fl sent buf pos k s', wub evs fl sent buf pos = (WErr k, s') ->
  (List.length (sk_events s') < List.length evs)%nat.
Proof.
  induction evs as [|e evs IH]; intros fl sent buf pos k s' E.
  - destruct buf; cbn in E; discriminate.
  - destruct buf as [|c buf]; [cbn in E; discriminate|]. cbn [wub] in E. destruct e as [n|k0].
    + apply IH in E. cbn. lia.
    + destruct k0; inversion E; subst; cbn; lia.
Qed.
Lemma wub_ok_len : forall evs fl sent buf pos n s', wub evs fl sent buf pos = (WOk n, s') ->
  (List.length (sk_events s') <= List.length evs)%nat.
Proof.
  induction evs as [|e evs IH]; intros fl sent buf pos n s' E.
  - destruct buf; cbn in E; inversion E; subst; cbn; lia.
  - destruct buf as [|c buf]; [cbn in E; inversion E; subst; cbn; lia|]. cbn [wub] in E. destruct e as [m|k0].
    + apply IH in E. cbn. lia.
    + destruct k0; inversion E; subst; cbn; lia.
Qed.
Lemma wr_write_len w s b r w' s' : wr_write w s b = (r, w', s') ->
  match r with WOk n => n = len b | WErr _ => (List.length (sk_events s') < List.length (sk_events s))%nat end.
Proof.
  unfold wr_write, flush_buf, write_until_blocked. intros E.
  destruct (wr_cap w <? len (wr_buf w) + len b); [|inversion E; subst; auto].
  destruct (wub (sk_events s) (sk_flushes s) (sk_sent s) (skipn (N.to_nat (wr_pos w)) (wr_buf w)) 0) as [[n|k1] s1] eqn:E1.
  - apply wub_ok_len in E1.
    destruct (len (wr_buf w) <=? wr_pos w + n); cbn [wr_pos wr_cap] in E.
    + destruct ((0 =? 0) && (wr_cap w <? len b)); [|inversion E; subst; auto].
      destruct (wub (sk_events s1) (sk_flushes s1) (sk_sent s1) b 0) as [[n2|k2] s2] eqn:E2; inversion E; subst; auto.
      apply wub_err_len in E2. lia.
    + destruct ((wr_pos w + n =? 0) && (wr_cap w <? len b)); [|inversion E; subst; auto].
      destruct (wub (sk_events s1) (sk_flushes s1) (sk_sent s1) b 0) as [[n2|k2] s2] eqn:E2; inversion E; subst; auto.
      apply wub_err_len in E2. lia.
  - apply wub_err_len in E1. inversion E; subst. auto.
Qed.

Lemma write_all_same f1 : forall f2 w s b, (List.length (sk_events s) + 1 < f1)%nat -> (List.length (sk_events s) + 1 < f2)%nat ->
  write_all_f f1 w s b = write_all_f f2 w s b.
Proof.
  induction f1 as [|f1 IH]; intros [|f2] w s b H1 H2; try lia. cbn [write_all_f]. destruct b as [|c b]; auto.
  destruct (wr_write w s (c :: b)) as [[[n|k] w1] s1] eqn:E; apply wr_write_len in E.
  - subst n. destruct (len (c :: b) =? 0); auto. rewrite skipn_full by lia. destruct f1, f2; auto; lia.
  - destruct k; auto. apply IH; lia.
Qed.
Lemma write_all_mono f : forall g w s b r w' s', (f <= g)%nat -> write_all_f f w s b = (r, w', s') -> r <> WErr ModelFuel ->
  write_all_f g w s b = (r, w', s').
Proof.
  induction f as [|f IH]; intros [|g] w s b r w' s' H E N; cbn [write_all_f] in *; try lia;
    try (destruct b; [exact E|inversion E; subst; congruence]); auto.
  destruct b as [|c b]; [exact E|].
  destruct (wr_write w s (c :: b)) as [[[n|k] w1] s1].
  - destruct (n =? 0); [exact E|]. apply IH; auto; lia.
  - destruct k; try exact E. apply IH; auto; lia.
Qed.
Lemma write_all_any f w s b r w' s' : write_all_f f w s b = (r, w', s') -> r <> WErr ModelFuel -> write_all w s b = (r, w', s').
Proof.
  intros E N. unfold write_all. set (g := (f + S (S (S (List.length (sk_events s)))))%nat).
  rewrite (write_all_same _ g) by (unfold g; lia). apply (write_all_mono f); auto. unfold g; lia.
Qed.

(** ** The simulation *)

Section Streams.
Variable T : Type.
Variable t_read : N -> T -> (ekind + bytes) * T.
Variable t_write : bytes -> T -> wres N * T.
Variable t_flush : T -> wres unit * T.
Variable size : bytes -> N.
Hypothesis size_pos : forall acc, 0 < size acc.
Variable rcap : N.
Hypothesis rcap_pos : 0 < rcap.
Variable fuel : nat.

(** Backwards: [Rel t s k] if the socket that will give s, and whose output side is k, can be in the place of t. *)
Variable Rel : T -> stream -> sock -> Prop.
Hypothesis rel_read : forall n t x t' s k, 0 < n -> t_read n t = (x, t') -> Rel t' s k ->
  exists s0, Rel t s0 k /\ raw_read n s0 = (x, s).
Hypothesis rel_write : forall b t x t' s k', b <> [] -> t_write b t = (x, t') -> Rel t' s k' ->
  exists k, Rel t s k /\ sock_write k b = (x, k').
Hypothesis rel_flush : forall t x t' s k', t_flush t = (x, t') -> Rel t' s k' ->
  exists k, Rel t s k /\ sock_flush k = (x, k').

Lemma t_wub_ok n : forall t b pos r t' s k', t_wub T t_write n t b pos = (r, t') -> r <> WErr ModelFuel -> Rel t' s k' ->
  exists k, Rel t s k /\ wub (sk_events k) (sk_flushes k) (sk_sent k) b pos = (r, k').
Proof.
  induction n as [|n IH]; intros t b pos r t' s k' E Nf Hr.
  { destruct b as [|c b]; cbn [t_wub] in E; inversion E; subst; [|congruence]. exists k'. split; auto.
    destruct k' as [ev fl se]. destruct ev; reflexivity. }
  destruct b as [|c b]; cbn [t_wub] in E.
  { inversion E; subst. exists k'. split; auto. destruct k' as [ev fl se]. destruct ev; reflexivity. }
  destruct (t_write (c :: b) t) as [[m|e] t1] eqn:Ew.
  - destruct (IH _ _ _ _ _ _ _ E Nf Hr) as (k1 & R1 & E1).
    destruct (rel_write (c :: b) t (WOk m) t1 s k1 ltac:(discriminate) Ew R1) as (k & R & Ek). exists k. split; auto.
    unfold sock_write in Ek. destruct (sk_events k) as [|[m0|e0] evs] eqn:Ev; try discriminate.
    inversion Ek; subst. cbn [wub]. cbn [sk_events sk_flushes sk_sent] in E1. exact E1.
  - assert (G : forall r0, (r0, t1) = (r, t') -> exists k, Rel t s k /\ sock_write k (c :: b) = (WErr e, k')).
    { intros r0 X. inversion X; subst. apply (rel_write _ _ _ t'); auto. discriminate. }
    assert (X : (match e with WouldBlock => WOk pos | _ => WErr e end, t1) = (r, t')) by (destruct e; exact E).
    destruct (G _ X) as (k & R & Ek). exists k. split; auto. inversion X; subst.
    unfold sock_write in Ek. destruct (sk_events k) as [|[m0|e0] evs] eqn:Ev; try discriminate.
    + inversion Ek; subst. cbn [wub]. destruct k' as [ev fl se]. cbn in *. subst. reflexivity.
    + inversion Ek; subst. cbn [wub]. destruct e; reflexivity.
Qed.

Lemma t_flush_buf_ok w t r w' t' s k' : t_flush_buf T t_write fuel w t = (r, w', t') -> r <> WErr ModelFuel -> Rel t' s k' ->
  exists k, Rel t s k /\ flush_buf w k = (r, w', k').
Proof.
  unfold t_flush_buf, flush_buf, write_until_blocked. intros E Nf Hr.
  destruct (t_wub T t_write fuel t (skipn (N.to_nat (wr_pos w)) (wr_buf w)) 0) as [[n|e] t1] eqn:Ew.
  - assert (t1 = t') by (destruct (len (wr_buf w) <=? wr_pos w + n); inversion E; auto). subst t1.
    destruct (t_wub_ok _ _ _ _ _ _ _ _ Ew ltac:(discriminate) Hr) as (k & R & Ek). exists k. split; auto. rewrite Ek.
    destruct (len (wr_buf w) <=? wr_pos w + n); inversion E; subst; auto.
  - inversion E; subst. destruct (t_wub_ok _ _ _ _ _ _ _ _ Ew ltac:(congruence) Hr) as (k & R & Ek). exists k. split; auto. rewrite Ek. auto.
Qed.

Lemma t_wr_write_ok w t b r w' t' s k' : t_wr_write T t_write fuel w t b = (r, w', t') -> r <> WErr ModelFuel -> Rel t' s k' ->
  exists k, Rel t s k /\ wr_write w k b = (r, w', k').
Proof.
  unfold t_wr_write, wr_write. intros E Nf Hr.
  destruct (wr_cap w <? len (wr_buf w) + len b); [|inversion E; subst; eauto].
  destruct (t_flush_buf T t_write fuel w t) as [[[u|e] w1] t1] eqn:Ef.
  - destruct ((wr_pos w1 =? 0) && (wr_cap w1 <? len b)) eqn:Ec.
    + unfold write_until_blocked. destruct (t_wub T t_write fuel t1 b 0) as [[n|e] t2] eqn:Ew; inversion E; subst.
      * destruct (t_wub_ok _ _ _ _ _ _ _ _ Ew ltac:(discriminate) Hr) as (k1 & R1 & E1).
        destruct (t_flush_buf_ok _ _ _ _ _ _ _ Ef ltac:(discriminate) R1) as (k & R & Ek). exists k. split; auto. rewrite Ek, Ec, E1. auto.
      * destruct (t_wub_ok _ _ _ _ _ _ _ _ Ew ltac:(congruence) Hr) as (k1 & R1 & E1).
        destruct (t_flush_buf_ok _ _ _ _ _ _ _ Ef ltac:(discriminate) R1) as (k & R & Ek). exists k. split; auto. rewrite Ek, Ec, E1. auto.
    + inversion E; subst. destruct (t_flush_buf_ok _ _ _ _ _ _ _ Ef ltac:(discriminate) Hr) as (k & R & Ek).
      exists k. split; auto. rewrite Ek, Ec. auto.
  - inversion E; subst. destruct (t_flush_buf_ok _ _ _ _ _ _ _ Ef ltac:(congruence) Hr) as (k & R & Ek). exists k. split; auto. rewrite Ek. auto.
Qed.

Lemma t_wr_flush_ok w t r w' t' s k' : t_wr_flush T t_write t_flush fuel w t = (r, w', t') -> r <> WErr ModelFuel -> Rel t' s k' ->
  exists k, Rel t s k /\ wr_flush w k = (r, w', k').
Proof.
  unfold t_wr_flush, wr_flush. intros E Nf Hr.
  destruct (t_flush_buf T t_write fuel w t) as [[[u|e] w1] t1] eqn:Ef.
  - unfold t_flush_inner in E. destruct (t_flush t1) as [x t2] eqn:Ex.
    assert (t2 = t') by (destruct x as [|[]]; inversion E; auto). subst t2.
    destruct (rel_flush _ _ _ _ _ Ex Hr) as (k1 & R1 & E1).
    destruct (t_flush_buf_ok _ _ _ _ _ _ _ Ef ltac:(discriminate) R1) as (k & R & Ek). exists k. split; auto. rewrite Ek.
    unfold flush_inner, sock_flush in *. destruct (sk_flushes k1) as [|[e0|] fl]; inversion E1; subst; inversion E; subst; auto.
    destruct e0; inversion E; subst; auto.
  - inversion E; subst. destruct (t_flush_buf_ok _ _ _ _ _ _ _ Ef ltac:(congruence) Hr) as (k & R & Ek). exists k. split; auto. rewrite Ek. auto.
Qed.

Lemma t_write_all_ok n : forall w t b r w' t' s k', t_write_all T t_write fuel n w t b = (r, w', t') -> r <> WErr ModelFuel -> Rel t' s k' ->
  exists k, Rel t s k /\ write_all_f n w k b = (r, w', k').
Proof.
  induction n as [|n IH]; intros w t b r w' t' s k' E Nf Hr; cbn [t_write_all write_all_f] in *.
  { destruct b; inversion E; subst; [eauto|congruence]. }
  destruct b as [|c b]; [inversion E; subst; eauto|].
  destruct (t_wr_write T t_write fuel w t (c :: b)) as [[[m|e] w1] t1] eqn:Ew.
  - destruct (m =? 0) eqn:Em.
    + inversion E; subst. destruct (t_wr_write_ok _ _ _ _ _ _ _ _ Ew ltac:(discriminate) Hr) as (k & R & Ek). exists k. split; auto. rewrite Ek, Em. auto.
    + destruct (IH _ _ _ _ _ _ _ _ E Nf Hr) as (k1 & R1 & E1).
      destruct (t_wr_write_ok _ _ _ _ _ _ _ _ Ew ltac:(discriminate) R1) as (k & R & Ek). exists k. split; auto. rewrite Ek, Em. auto.
  - destruct e; try (inversion E; subst; destruct (t_wr_write_ok _ _ _ _ _ _ _ _ Ew ltac:(congruence) Hr) as (k & R & Ek); exists k; split; auto; rewrite Ek; auto; fail).
    destruct (IH _ _ _ _ _ _ _ _ E Nf Hr) as (k1 & R1 & E1).
    destruct (t_wr_write_ok _ _ _ _ _ _ _ _ Ew ltac:(discriminate) R1) as (k & R & Ek). exists k. split; auto. rewrite Ek. auto.
Qed.

Lemma t_run_ops_ok ops : forall w t r w' t' s k', t_run_ops T t_write t_flush fuel w t ops = (r, w', t') -> r <> WErr ModelFuel -> Rel t' s k' ->
  exists k, Rel t s k /\ run_ops w k ops = (r, w', k').
Proof.
  induction ops as [|op ops IH]; intros w t r w' t' s k' E Nf Hr; cbn [t_run_ops run_ops] in *; [inversion E; subst; eauto|].
  set (tstep := match op with
        | SAll b => t_write_all T t_write fuel fuel w t b
        | SWrite b => match t_wr_write T t_write fuel w t b with (WOk _, w1, t1) => (WOk tt, w1, t1) | (WErr k, w1, t1) => (WErr k, w1, t1) end
        | SFlush => t_wr_flush T t_write t_flush fuel w t
        end) in E.
  assert (Step : forall x w1 t1 s k1, tstep = (x, w1, t1) -> x <> WErr ModelFuel -> Rel t1 s k1 -> exists k, Rel t s k /\
      match op with
      | SAll b => write_all w k b
      | SWrite b => match wr_write w k b with (WOk _, w1, s1) => (WOk tt, w1, s1) | (WErr k, w1, s1) => (WErr k, w1, s1) end
      | SFlush => wr_flush w k
      end = (x, w1, k1)).
  { subst tstep. intros x w1 t1 s0 k1 Ex Nx Hx. destruct op as [b|b|].
    - destruct (t_write_all_ok _ _ _ _ _ _ _ _ _ Ex Nx Hx) as (k & R & Ek). exists k. split; auto. eapply write_all_any; eauto.
    - destruct (t_wr_write T t_write fuel w t b) as [[[m|e] w2] t2] eqn:Ew; inversion Ex; subst.
      + destruct (t_wr_write_ok _ _ _ _ _ _ _ _ Ew ltac:(discriminate) Hx) as (k & R & Ek). exists k. split; auto. now rewrite Ek.
      + destruct (t_wr_write_ok _ _ _ _ _ _ _ _ Ew ltac:(congruence) Hx) as (k & R & Ek). exists k. split; auto. now rewrite Ek.
    - apply (t_wr_flush_ok _ _ _ _ _ _ _ Ex Nx Hx). }
  destruct tstep as [[[u|e] w1] t1].
  - destruct (IH _ _ _ _ _ _ _ E Nf Hr) as (k1 & R1 & E1).
    destruct (Step _ _ _ _ _ eq_refl ltac:(discriminate) R1) as (k & R & Ek). exists k. split; auto. rewrite Ek. auto.
  - inversion E; subst. destruct (Step _ _ _ _ _ eq_refl Nf Hr) as (k & R & Ek). exists k. split; auto. rewrite Ek. auto.
Qed.

(** *** reading *)

Definition pair_of (d : tbuf T) (s : stream) (k : sock) : buffered writer :=
  mk_buffered (tb_w T d) (mk_reader rcap (tb_buf T d) (mk_socket s k)).
Definition simb (k : sock) (e : buffered writer) (d : tbuf T) : Prop :=
  exists s, e = pair_of d s k /\ Rel (tb_in T d) s k.

Lemma tb_fill_err k d x d' : tb_fill T t_read rcap d = (inl x, d') -> forall e', simb k e' d' -> exists e, simb k e d /\ bf_fill e = (inl x, e').
Proof.
  unfold tb_fill. destruct d as [w buf t]. cbn [tb_buf tb_in tb_w]. destruct buf as [|c buf]; [|discriminate].
  destruct (t_read rcap t) as [[y|bs] t'] eqn:Er; [|discriminate]. intros E e' (s & -> & Hr). inversion E; subst. cbn [tb_in] in *.
  destruct (rel_read _ _ _ _ _ _ rcap_pos Er Hr) as (s0 & R0 & E0).
  exists (pair_of (mk_tbuf T w [] t) s0 k). split; [exists s0; auto|].
  unfold bf_fill, rd_fill, pair_of. cbn. rewrite E0. reflexivity.
Qed.

Lemma tb_fill_ok k d bs d' n : tb_fill T t_read rcap d = (inr bs, d') -> n <= len bs -> forall e', simb k e' (tb_consume T n d') ->
  exists e e1, simb k e d /\ bf_fill e = (inr bs, e1) /\ bf_consume n e1 = e'.
Proof.
  unfold tb_fill. destruct d as [w buf t]. cbn [tb_buf tb_in tb_w]. intros E Hn e' (s & -> & Hr). destruct buf as [|c buf].
  - destruct (t_read rcap t) as [[y|b] t'] eqn:Er; [discriminate|]. inversion E; subst. cbn [tb_consume tb_in tb_buf tb_w] in *.
    destruct (rel_read _ _ _ _ _ _ rcap_pos Er Hr) as (s0 & R0 & E0).
    exists (pair_of (mk_tbuf T w [] t) s0 k), (pair_of (mk_tbuf T w bs t') s k). split; [exists s0; auto|].
    split; [|reflexivity]. unfold bf_fill, rd_fill, pair_of. cbn. rewrite E0. reflexivity.
  - inversion E; subst. cbn [tb_consume tb_in tb_buf tb_w] in *.
    exists (pair_of (mk_tbuf T w (c :: buf) t) s k), (pair_of (mk_tbuf T w (c :: buf) t) s k).
    split; [exists s; auto|]. split; reflexivity.
Qed.

Lemma tb_read_ok k n : 0 < n -> bsim (tbuf T) (buffered writer) (simb k) (tb_read T t_read rcap n) (bf_read n).
Proof.
  intros Hn d x d' E e' Hs. unfold tb_read in E. destruct (tb_buf T d) as [|c buf] eqn:Eb.
  - destruct (rcap <=? n) eqn:El.
    + destruct d as [w b t]. cbn [tb_buf tb_in tb_w] in *. subst b. destruct (t_read n t) as [y t'] eqn:Er. inversion E; subst.
      destruct Hs as (s & -> & Hr). cbn [tb_in] in *. destruct (rel_read _ _ _ _ _ _ Hn Er Hr) as (s0 & R0 & E0).
      exists (pair_of (mk_tbuf T w [] t) s0 k). split; [exists s0; auto|].
      unfold bf_read, rd_read, pair_of. cbn [bf_r rd_buf rd_cap tb_buf tb_w]. rewrite El. cbn. rewrite E0. reflexivity.
    + destruct d as [w b t]. cbn [tb_buf] in Eb. subst b.
      destruct (tb_fill T t_read rcap (mk_tbuf T w [] t)) as [[y|bs] d1] eqn:Ef; inversion E; subst.
      * destruct (tb_fill_err k _ y d' Ef e' Hs) as (e & Se & Ee). exists e. split; auto.
        destruct Se as (s & -> & Hr). unfold bf_read, rd_read, bf_fill, pair_of in *. cbn [bf_r bf_w rd_buf rd_cap tb_buf tb_w] in *. rewrite El.
        destruct (rd_fill _) as [z r1]; inversion Ee; subst; reflexivity.
      * destruct (tb_fill_ok k _ bs d1 (N.min n (len bs)) Ef ltac:(lia) e' Hs) as (e & e1 & Se & Ee & Ec). exists e. split; auto.
        destruct Se as (s & -> & Hr). unfold bf_read, rd_read, bf_fill, pair_of in *. cbn [bf_r bf_w rd_buf rd_cap tb_buf tb_w] in *. rewrite El.
        destruct (rd_fill _) as [z r1]; inversion Ee; subst; reflexivity.
  - inversion E; subst. destruct Hs as (s & -> & Hr). destruct d as [w b t]. cbn [tb_buf tb_in tb_w tb_consume] in *. subst b.
    exists (pair_of (mk_tbuf T w (c :: buf) t) s k). split; [exists s; auto|]. reflexivity.
Qed.

Lemma tb_to_end_ok k f : forall l ls acc,
  bsim (tbuf T) (buffered writer) (simb k) (fun r => g_read_to_end (tbuf T) (tb_read T t_read rcap) size f (l :: ls) r acc)
       (fun s => g_read_to_end (buffered writer) bf_read size f (l :: ls) s acc).
Proof.
  induction f as [|f IH]; intros l ls acc r a r' E s' Sm; cbn [g_read_to_end] in *; [inversion E; subst; eauto|].
  destruct (g_read_lim (tbuf T) (tb_read T t_read rcap) (size acc) (l :: ls) r) as [[y ls1] r1] eqn:E1.
  pose proof (read_lim_ok _ _ _ _ (simb k) (fun n Hn => tb_read_ok k n Hn) (l :: ls) (size acc) (size_pos acc) r (y, ls1) r1 E1) as L.
  assert (Ls : exists l1 ls2, ls1 = l1 :: ls2).
  { rewrite g_read_lim_eq in E1. destruct (existsb (N.eqb 0) (l :: ls)); [inversion E1; subst; eauto|].
    destruct (tb_read T t_read rcap (minl (size acc) (l :: ls)) r) as [[z|z] r2]; inversion E1; subst; cbn; eauto. }
  destruct Ls as (l1 & ls2 & ->).
  destruct y as [e|[|c got]].
  - destruct e; try (inversion E; subst; destruct (L _ Sm) as (s & S1 & E2); exists s; split; auto; rewrite E2; auto; fail).
    destruct (IH _ _ _ _ _ _ E _ Sm) as (s1 & S1 & E2). destruct (L _ S1) as (s & S2 & E3). exists s. split; auto. rewrite E3. auto.
  - inversion E; subst. destruct (L _ Sm) as (s & S1 & E2). exists s. split; auto. rewrite E2. auto.
  - destruct (IH _ _ _ _ _ _ E _ Sm) as (s1 & S1 & E2). destruct (L _ S1) as (s & S2 & E3). exists s. split; auto. rewrite E3. auto.
Qed.

Lemma t_req_ok k dbg st d a d' e' : t_req_parse T t_read size rcap fuel dbg st d = (a, d') -> fueled a -> simb k e' d' ->
  exists e, simb k e d /\ b_req_parse size dbg st e = (a, e').
Proof.
  intros E Nf Hs. unfold t_req_parse in E.
  destruct (req_parse_ok _ _ _ _ _ size _ _ _ size fuel (fun _ => fuel) (fun _ => fuel) (simb k)
    (tb_fill_err k) (tb_fill_ok k) (tb_read_ok k) (fun l ls acc _ => tb_to_end_ok k (S fuel) l ls acc) dbg st d a d' E e' Hs) as (e & Se & Ee).
  exists e. split; auto. set (g := (fuel + bf_mu e)%nat).
  assert (L : (fuel <= g)%nat) by (unfold g; lia).
  pose proof (req_parse_mono _ _ _ _ size fuel g L dbg st e a e' Ee Nf) as Em.
  rewrite (b_req_fuel size size_pos g) by (unfold g; lia). rewrite <- Em.
  apply (req_parse_tail _ _ _ _ size bf_mu size_pos bf_fill_err_mu bf_fill_ok_mu bf_read_err_mu bf_read_ok_mu _ _ _ (bf_mu e)); auto.
  intros r Hr. unfold g. lia.
Qed.

(** *** the connection *)

Definition as_bconn (c : tconn T) (s : stream) (k : sock) : bconn := mk_bconn (pair_of (tc_stream T c) s k) (tc_parser T c).

Lemma t_read_request_ok dbg c rr c' s k : t_read_request T t_read size rcap fuel dbg c = (rr, c') -> rr <> IoErr ModelFuel ->
  Rel (tb_in T (tc_stream T c')) s k ->
  exists s0, Rel (tb_in T (tc_stream T c)) s0 k /\ b_read_request size dbg (as_bconn c s0 k) = (rr, as_bconn c' s k).
Proof.
  unfold t_read_request, b_read_request. intros E Nf Hr.
  destruct (t_req_parse T t_read size rcap fuel dbg (match tc_parser T c with Some st => st | None => req_new end) (tc_stream T c)) as [a d] eqn:Ep.
  assert (Ed : tc_stream T c' = d) by (destruct a as [r|st e|e|]; try destruct e; inversion E; auto).
  assert (Na : fueled a). { destruct a as [r|st e|e|]; cbn; auto. destruct e; auto. inversion E; subst. cbn in *. congruence. }
  destruct (t_req_ok k _ _ _ _ _ (pair_of d s k) Ep Na) as (e & (s0 & -> & R0) & Ee).
  { exists s. rewrite <- Ed. auto. }
  exists s0. split; auto. cbn [as_bconn bc_parser bc_stream]. rewrite Ee.
  unfold as_bconn. rewrite Ed. destruct a as [r|st e|e|]; try destruct e; inversion E; subst; reflexivity.
Qed.

Lemma tc_ops_ok ops c x c' s k' : tc_ops T t_write t_flush fuel ops c = (x, c') -> x <> WErr ModelFuel -> Rel (tb_in T (tc_stream T c')) s k' ->
  exists k, Rel (tb_in T (tc_stream T c)) s k /\ b_run_ops ops (as_bconn c s k) = (x, as_bconn c' s k').
Proof.
  unfold tc_ops, tb_write. destruct (t_run_ops T t_write t_flush fuel (tb_w T (tc_stream T c)) (tb_in T (tc_stream T c)) ops) as [[y w] t] eqn:Eo.
  intros E Nf Hr. inversion E; subst. cbn [tc_stream tb_in] in *.
  destruct (t_run_ops_ok _ _ _ _ _ _ _ _ Eo Nf Hr) as (k & R & Ek). exists k. split; auto.
  unfold b_run_ops, bf_write, as_bconn, pair_of. cbn [bc_stream bf_w bf_r rd_inner so_tx]. rewrite Ek. reflexivity.
Qed.
Lemma tc_flush_ok c x c' s k' : tc_flush T t_write t_flush fuel c = (x, c') -> x <> WErr ModelFuel -> Rel (tb_in T (tc_stream T c')) s k' ->
  exists k, Rel (tb_in T (tc_stream T c)) s k /\ b_flush (as_bconn c s k) = (x, as_bconn c' s k').
Proof.
  unfold tc_flush, tb_write. destruct (t_wr_flush T t_write t_flush fuel (tb_w T (tc_stream T c)) (tb_in T (tc_stream T c))) as [[y w] t] eqn:Eo.
  intros E Nf Hr. inversion E; subst. cbn [tc_stream tb_in] in *.
  destruct (t_wr_flush_ok _ _ _ _ _ _ _ Eo Nf Hr) as (k & R & Ek). exists k. split; auto.
  unfold b_flush, bf_write, as_bconn, pair_of. cbn [bc_stream bf_w bf_r rd_inner so_tx]. rewrite Ek. reflexivity.
Qed.

Lemma t_respond_ok dbg rt n : forall log c vd log' c' s k', t_respond T t_read t_write t_flush size rcap fuel n dbg rt log c = Some (vd, log', c') ->
  Rel (tb_in T (tc_stream T c')) s k' ->
  exists s0 k, Rel (tb_in T (tc_stream T c)) s0 k /\ forall g, (n <= g)%nat -> b_respond g size dbg rt log (as_bconn c s0 k) = (vd, log', as_bconn c' s k').
Proof.
  induction n as [|n IH]; intros log c vd log' c' s k' E Hr; cbn [t_respond] in *; [discriminate|].
  destruct (t_read_request T t_read size rcap fuel dbg c) as [rr c1] eqn:Er.
  assert (Back : rr <> IoErr ModelFuel -> forall s k, Rel (tb_in T (tc_stream T c1)) s k ->
    exists s0, Rel (tb_in T (tc_stream T c)) s0 k /\ b_read_request size dbg (as_bconn c s0 k) = (rr, as_bconn c1 s k)).
  { intros Nr s1 k1. apply t_read_request_ok; auto. }
  clear Er.
  assert (Same : rr <> IoErr ModelFuel -> c1 = c' -> exists s0, Rel (tb_in T (tc_stream T c)) s0 k' /\
    b_read_request size dbg (as_bconn c s0 k') = (rr, as_bconn c' s k')).
  { intros Nr ->. apply Back; auto. }
  assert (Err : rr <> IoErr ModelFuel -> (let (x, c2) := tc_ops T t_write t_flush fuel error_ops c1 in if out_of_fuel x then None else Some (Close, log, c2)) = Some (vd, log', c') ->
    exists s0 k, Rel (tb_in T (tc_stream T c)) s0 k /\ b_read_request size dbg (as_bconn c s0 k) = (rr, as_bconn c1 s k) /\
      (let (_, b1) := b_run_ops error_ops (as_bconn c1 s k) in (Close, log, b1)) = (vd, log', as_bconn c' s k')).
  { intros Nr X. destruct (tc_ops T t_write t_flush fuel error_ops c1) as [x c2] eqn:Eo. destruct (out_of_fuel x) eqn:Eu; [discriminate|].
    inversion X; subst. destruct (tc_ops_ok _ _ _ _ _ _ Eo ltac:(intros ->; discriminate) Hr) as (k & R & Ek).
    destruct (Back Nr _ _ R) as (s0 & R0 & E0). exists s0, k. split; auto. split; auto. rewrite Ek. reflexivity. }
  assert (Fin : forall s0 k (x : verdict * list request * bconn),
    Rel (tb_in T (tc_stream T c)) s0 k -> (forall g, (n <= g)%nat -> b_respond (S g) size dbg rt log (as_bconn c s0 k) = x) ->
    exists s0 k, Rel (tb_in T (tc_stream T c)) s0 k /\ forall g, (S n <= g)%nat -> b_respond g size dbg rt log (as_bconn c s0 k) = x).
  { intros s0 k x R X. exists s0, k. split; auto. intros [|g] Hg; [lia|]. apply X. lia. }
  destruct rr as [|r|e|e| |].
  - inversion E; subst. destruct (Same ltac:(discriminate) eq_refl) as (s0 & R0 & E0). apply (Fin s0 k'); auto. intros g Hg. cbn [b_respond]. rewrite E0. reflexivity.
  - assert (Go : forall l, match tc_ops T t_write t_flush fuel (result_ops l) c1 with
        | (WOk _, c2) => if should_close_after_response r then Some (Close, log ++ [r], c2) else t_respond T t_read t_write t_flush size rcap fuel n dbg rt (log ++ [r]) c2
        | (WErr k, c2) => if ran_out k then None else Some (Close, log ++ [r], c2)
        end = Some (vd, log', c') ->
      exists s0 s1 k, Rel (tb_in T (tc_stream T c)) s0 k /\ b_read_request size dbg (as_bconn c s0 k) = (Ready r, as_bconn c1 s1 k) /\
        forall g, (n <= g)%nat -> match b_run_ops (result_ops l) (as_bconn c1 s1 k) with
        | (WErr _, c1) => (Close, log ++ [r], c1)
        | (WOk _, c1) => if should_close_after_response r then (Close, log ++ [r], c1) else b_respond g size dbg rt (log ++ [r]) c1
        end = (vd, log', as_bconn c' s k')).
    { intros l X. destruct (tc_ops T t_write t_flush fuel (result_ops l) c1) as [[u|e] c2] eqn:Eo.
      - destruct (should_close_after_response r) eqn:Es.
        + inversion X; subst. destruct (tc_ops_ok _ _ _ _ _ _ Eo ltac:(discriminate) Hr) as (k & R & Ek).
          destruct (Back ltac:(discriminate) _ _ R) as (s0 & R0 & E0). exists s0, s, k. split; auto. split; auto. intros g Hg. rewrite Ek. reflexivity.
        + destruct (IH _ _ _ _ _ _ _ X Hr) as (s2 & k2 & R2 & E2).
          destruct (tc_ops_ok _ _ _ _ _ _ Eo ltac:(discriminate) R2) as (k & R & Ek).
          destruct (Back ltac:(discriminate) _ _ R) as (s0 & R0 & E0). exists s0, s2, k. split; auto. split; auto. intros g Hg. rewrite Ek. apply E2. auto.
      - destruct (ran_out e) eqn:Eu; [discriminate|]. inversion X; subst.
        destruct (tc_ops_ok _ _ _ _ _ _ Eo ltac:(intros Y; inversion Y; subst; discriminate) Hr) as (k & R & Ek).
        destruct (Back ltac:(discriminate) _ _ R) as (s0 & R0 & E0). exists s0, s, k. split; auto. split; auto. intros g Hg. rewrite Ek. reflexivity. }
    destruct (rt log r) as [|resp|] eqn:El.
    + destruct (Go _ E) as (s0 & s1 & k & R0 & E0 & E1). apply (Fin s0 k); auto. intros g Hg. cbn [b_respond]. rewrite E0, El. auto.
    + destruct (Go _ E) as (s0 & s1 & k & R0 & E0 & E1). apply (Fin s0 k); auto. intros g Hg. cbn [b_respond]. rewrite E0, El. auto.
    + inversion E; subst. destruct (Same ltac:(discriminate) eq_refl) as (s0 & R0 & E0). apply (Fin s0 k'); auto. intros g Hg. cbn [b_respond]. rewrite E0, El. reflexivity.
  - destruct (Err ltac:(discriminate) E) as (s0 & k & R0 & E0 & E1). apply (Fin s0 k); auto. intros g Hg. cbn [b_respond]. rewrite E0. exact E1.
  - destruct (ran_out e) eqn:Eu; [discriminate|].
    destruct (Err ltac:(intros Y; inversion Y; subst; discriminate) E) as (s0 & k & R0 & E0 & E1). apply (Fin s0 k); auto. intros g Hg. cbn [b_respond]. rewrite E0. exact E1.
  - inversion E; subst. destruct (Same ltac:(discriminate) eq_refl) as (s0 & R0 & E0). apply (Fin s0 k'); auto. intros g Hg. cbn [b_respond]. rewrite E0. reflexivity.
  - inversion E; subst. destruct (Same ltac:(discriminate) eq_refl) as (s0 & R0 & E0). apply (Fin s0 k'); auto. intros g Hg. cbn [b_respond]. rewrite E0. reflexivity.
Qed.

(** *** calls of the handler *)

Variable given : T -> bytes.
Definition idle (t : T) (s : stream) : Prop := Rel t s (mk_sock [] [] (given t)).
Definition env_ok (f : T -> T) : Prop := forall t s k, Rel (f t) s k -> idle t s /\ sk_sent k = given t.
Hypothesis rel_sent : forall t s k, Rel t s k -> sk_sent k = given t.

Definition sims (st : tslot T) (s : stream) (b : bslot) : Prop :=
  match st with
  | TOpen _ c => idle (tb_in T (tc_stream T c)) s /\ b = BOpen (as_bconn c s (mk_sock [] [] (given (tb_in T (tc_stream T c)))))
  | TGone _ t => idle t s /\ b = BGone (given t)
  | TPoisoned _ t => idle t s /\ b = BPoisoned (given t)
  end.

Lemma keep_used dbg rt n : forall log c log' c', t_respond T t_read t_write t_flush size rcap fuel n dbg rt log c = Some (Keep, log', c') ->
  tb_buf T (tc_stream T c') = [] /\ exists m t0, t_read m t0 = (inl WouldBlock, tb_in T (tc_stream T c')).
Proof.
  induction n as [|n IH]; intros log c log' c' E; cbn [t_respond] in E; [discriminate|].
  destruct (t_read_request T t_read size rcap fuel dbg c) as [rr c1] eqn:Er. destruct rr as [|r|e|k| |]; try discriminate.
  - inversion E; subst. unfold t_read_request, t_req_parse in Er.
    destruct (g_req_parse (tbuf T) (tb_fill T t_read rcap) (tb_consume T) (tb_read T t_read rcap) size (fun _ => fuel) (fun _ => fuel) dbg
      (match tc_parser T c with Some st => st | None => req_new end) (tc_stream T c)) as [[r|st k|e|] d] eqn:Ep; try discriminate.
    destruct k; try (destruct (is_closed st _) in Er; discriminate). inversion Er; subst. cbn [tc_stream].
    refine (req_parse_Q (tbuf T) _ _ _ _ _ _ (fun _ => True) _ _ _ (fun d => tb_buf T d = [] /\ exists m t0, t_read m t0 = (inl WouldBlock, tb_in T d)) _ _ _ _ _ _ _ Ep I); auto.
    + intros d0 d1 X _. unfold tb_fill in X. destruct (tb_buf T d0); [|discriminate].
      destruct (t_read rcap (tb_in T d0)) as [[k|bs] t1] eqn:Et; [|discriminate]. inversion X; subst. cbn. eauto.
    + intros m d0 d1 X _. unfold tb_read in X. destruct (tb_buf T d0) eqn:Eb; [|discriminate].
      destruct (rcap <=? m).
      * destruct (t_read m (tb_in T d0)) as [x t1] eqn:Et. inversion X; subst. cbn. eauto.
      * unfold tb_fill in X. rewrite Eb in X. destruct (t_read rcap (tb_in T d0)) as [[k|bs] t1] eqn:Et; [|discriminate]. inversion X; subst. cbn. eauto.
  - assert (Go : forall l, match tc_ops T t_write t_flush fuel (result_ops l) c1 with
        | (WOk _, c2) => if should_close_after_response r then Some (Close, log ++ [r], c2) else t_respond T t_read t_write t_flush size rcap fuel n dbg rt (log ++ [r]) c2
        | (WErr k, c2) => if ran_out k then None else Some (Close, log ++ [r], c2)
        end = Some (Keep, log', c') -> tb_buf T (tc_stream T c') = [] /\ exists m t0, t_read m t0 = (inl WouldBlock, tb_in T (tc_stream T c'))).
    { intros l X. destruct (tc_ops T t_write t_flush fuel (result_ops l) c1) as [[u|k] c2].
      - destruct (should_close_after_response r); [discriminate|eauto].
      - destruct (ran_out k); discriminate. }
    destruct (rt log r); [exact (Go _ E)|exact (Go _ E)|discriminate].
  - destruct (tc_ops T t_write t_flush fuel error_ops c1) as [x c2]. destruct (out_of_fuel x); discriminate.
  - destruct (ran_out k); [discriminate|]. destruct (tc_ops T t_write t_flush fuel error_ops c1) as [x c2]. destruct (out_of_fuel x); discriminate.
Qed.

Variable Inv : T -> Prop.
Definition call_of (f : T -> T) (v : visit) : Prop :=
  v = mk_visit [] [] \/ exists t s k, Inv (f t) /\ Rel (f t) s k /\ v = mk_visit (sk_events k) (sk_flushes k).

Hypothesis inv_read : forall n t x t', rcap <= n -> t_read n t = (x, t') -> Inv t -> Inv t'.
Hypothesis inv_write : forall b t x t', b <> [] -> t_write b t = (x, t') -> Inv t -> Inv t'.
Hypothesis inv_flush : forall t x t', t_flush t = (x, t') -> Inv t -> Inv t'.

Lemma t_wub_inv n : forall t b pos x t', t_wub T t_write n t b pos = (x, t') -> Inv t -> Inv t'.
Proof.
  induction n as [|n IH]; intros t b pos x t' E Ht; cbn [t_wub] in E; destruct b as [|c b]; try (inversion E; subst; auto; fail).
  destruct (t_write (c :: b) t) as [y t1] eqn:Ew. assert (I1 : Inv t1) by (eapply inv_write; eauto; discriminate).
  destruct y as [a|k]; [eauto|]. destruct k; inversion E; subst; auto.
Qed.
Lemma t_flush_buf_inv w t x w' t' : t_flush_buf T t_write fuel w t = (x, w', t') -> Inv t -> Inv t'.
Proof.
  unfold t_flush_buf. intros E Ht. destruct (t_wub T t_write fuel t (skipn (N.to_nat (wr_pos w)) (wr_buf w)) 0) as [y t1] eqn:Ew.
  pose proof (t_wub_inv _ _ _ _ _ _ Ew Ht). destruct y as [a|k]; [destruct (len (wr_buf w) <=? wr_pos w + a)|]; inversion E; subst; auto.
Qed.
Lemma t_wr_write_inv w t b x w' t' : t_wr_write T t_write fuel w t b = (x, w', t') -> Inv t -> Inv t'.
Proof.
  unfold t_wr_write. intros E Ht. destruct (wr_cap w <? len (wr_buf w) + len b); [|inversion E; subst; auto].
  destruct (t_flush_buf T t_write fuel w t) as [[y w1] t1] eqn:Ef. pose proof (t_flush_buf_inv _ _ _ _ _ Ef Ht) as H1.
  destruct y as [u|k]; [|inversion E; subst; auto].
  destruct ((wr_pos w1 =? 0) && (wr_cap w1 <? len b)); [|inversion E; subst; auto].
  destruct (t_wub T t_write fuel t1 b 0) as [z t2] eqn:Ew. pose proof (t_wub_inv _ _ _ _ _ _ Ew H1). destruct z; inversion E; subst; auto.
Qed.
Lemma t_wr_flush_inv w t x w' t' : t_wr_flush T t_write t_flush fuel w t = (x, w', t') -> Inv t -> Inv t'.
Proof.
  unfold t_wr_flush. intros E Ht. destruct (t_flush_buf T t_write fuel w t) as [[y w1] t1] eqn:Ef. pose proof (t_flush_buf_inv _ _ _ _ _ Ef Ht) as H1.
  destruct y as [u|k]; [|inversion E; subst; auto]. unfold t_flush_inner in E. destruct (t_flush t1) as [z t2] eqn:Efl.
  assert (Inv t2) by eauto. destruct z as [u1|k]; [|destruct k]; inversion E; subst; auto.
Qed.
Lemma t_write_all_inv n : forall w t b x w' t', t_write_all T t_write fuel n w t b = (x, w', t') -> Inv t -> Inv t'.
Proof.
  induction n as [|n IH]; intros w t b x w' t' E Ht; cbn [t_write_all] in E; destruct b as [|c b]; try (inversion E; subst; auto; fail).
  destruct (t_wr_write T t_write fuel w t (c :: b)) as [[y w1] t1] eqn:Ew. pose proof (t_wr_write_inv _ _ _ _ _ _ Ew Ht) as H1.
  destruct y as [m|k]; [destruct (m =? 0)|destruct k]; try (inversion E; subst; auto; fail); eauto.
Qed.
Lemma t_run_ops_inv ops : forall w t x w' t', t_run_ops T t_write t_flush fuel w t ops = (x, w', t') -> Inv t -> Inv t'.
Proof.
  induction ops as [|op ops IH]; intros w t x w' t' E Ht; cbn [t_run_ops] in E; [inversion E; subst; auto|].
  set (r := match op with SAll b => t_write_all T t_write fuel fuel w t b
     | SWrite b => match t_wr_write T t_write fuel w t b with (WOk _, w1, t1) => (WOk tt, w1, t1) | (WErr k, w1, t1) => (WErr k, w1, t1) end
     | SFlush => t_wr_flush T t_write t_flush fuel w t end) in E.
  assert (Hr : Inv (snd r)).
  { unfold r. destruct op as [b|b|].
    - destruct (t_write_all T t_write fuel fuel w t b) as [[y w1] t1] eqn:E1. eapply t_write_all_inv; eauto.
    - destruct (t_wr_write T t_write fuel w t b) as [[y w1] t1] eqn:E1. pose proof (t_wr_write_inv _ _ _ _ _ _ E1 Ht). destruct y; auto.
    - destruct (t_wr_flush T t_write t_flush fuel w t) as [[y w1] t1] eqn:E1. eapply t_wr_flush_inv; eauto. }
  destruct r as [[y w1] t1]. cbn [snd] in Hr. destruct y; [eauto|inversion E; subst; auto].
Qed.

Definition dinv (d : tbuf T) : Prop := Inv (tb_in T d).
Lemma tb_fill_inv d x d' : tb_fill T t_read rcap d = (x, d') -> dinv d -> dinv d'.
Proof.
  unfold tb_fill, dinv. intros E Hd. destruct (tb_buf T d); [|inversion E; subst; auto].
  destruct (t_read rcap (tb_in T d)) as [[k|bs] t1] eqn:Er; inversion E; subst; cbn; eapply inv_read; eauto; apply N.le_refl.
Qed.
Lemma tb_read_inv n d x d' : tb_read T t_read rcap n d = (x, d') -> dinv d -> dinv d'.
Proof.
  unfold tb_read. intros E Hd. destruct (tb_buf T d); [|inversion E; subst; exact Hd].
  destruct (rcap <=? n) eqn:El.
  - destruct (t_read n (tb_in T d)) as [y t1] eqn:Er. inversion E; subst. unfold dinv. cbn. eapply inv_read; eauto. now apply N.leb_le.
  - destruct (tb_fill T t_read rcap d) as [[k|bs] d1] eqn:Ef; pose proof (tb_fill_inv _ _ _ Ef Hd); inversion E; subst; auto.
Qed.
Lemma t_read_request_inv dbg c rr c' : t_read_request T t_read size rcap fuel dbg c = (rr, c') -> dinv (tc_stream T c) -> dinv (tc_stream T c').
Proof.
  unfold t_read_request, t_req_parse. intros E Hd.
  destruct (g_req_parse (tbuf T) (tb_fill T t_read rcap) (tb_consume T) (tb_read T t_read rcap) size (fun _ => fuel) (fun _ => fuel) dbg
      (match tc_parser T c with Some st => st | None => req_new end) (tc_stream T c)) as [y d] eqn:Ep.
  assert (Hd' : dinv d).
  { refine (req_parse_inv (tbuf T) _ _ _ _ _ _ dinv _ _ _ _ _ _ _ _ Ep Hd); [exact tb_fill_inv|intros ? ? X; exact X|exact tb_read_inv]. }
  destruct y as [r|st k|e|]; try (inversion E; subst; exact Hd'). destruct k; inversion E; subst; exact Hd'.
Qed.
Lemma tc_ops_inv ops c x c' : tc_ops T t_write t_flush fuel ops c = (x, c') -> dinv (tc_stream T c) -> dinv (tc_stream T c').
Proof.
  unfold tc_ops, tb_write, dinv. intros E Hd. destruct (t_run_ops T t_write t_flush fuel (tb_w T (tc_stream T c)) (tb_in T (tc_stream T c)) ops) as [[y w] t1] eqn:Eo.
  inversion E; subst. cbn. eapply t_run_ops_inv; eauto.
Qed.
Lemma t_respond_inv dbg rt n : forall log c vd log' c', t_respond T t_read t_write t_flush size rcap fuel n dbg rt log c = Some (vd, log', c') ->
  dinv (tc_stream T c) -> dinv (tc_stream T c').
Proof.
  induction n as [|n IH]; intros log c vd log' c' E Hd; cbn [t_respond] in E; [discriminate|].
  destruct (t_read_request T t_read size rcap fuel dbg c) as [rr c1] eqn:Er. pose proof (t_read_request_inv _ _ _ _ Er Hd) as H1.
  assert (Go : forall l r, match tc_ops T t_write t_flush fuel (result_ops l) c1 with
        | (WOk _, c2) => if should_close_after_response r then Some (Close, log ++ [r], c2) else t_respond T t_read t_write t_flush size rcap fuel n dbg rt (log ++ [r]) c2
        | (WErr k, c2) => if ran_out k then None else Some (Close, log ++ [r], c2)
        end = Some (vd, log', c') -> dinv (tc_stream T c')).
  { intros l r X. destruct (tc_ops T t_write t_flush fuel (result_ops l) c1) as [[u|k] c2] eqn:Eo; pose proof (tc_ops_inv _ _ _ _ Eo H1).
    - destruct (should_close_after_response r); [inversion X; subst; auto|eauto].
    - destruct (ran_out k); [discriminate|]. inversion X; subst; auto. }
  assert (Er2 : (let (x, c2) := tc_ops T t_write t_flush fuel error_ops c1 in if out_of_fuel x then None else Some (Close, log, c2)) = Some (vd, log', c') -> dinv (tc_stream T c')).
  { intros X. destruct (tc_ops T t_write t_flush fuel error_ops c1) as [x c2] eqn:Eo. pose proof (tc_ops_inv _ _ _ _ Eo H1).
    destruct (out_of_fuel x); [discriminate|]. inversion X; subst; auto. }
  destruct rr as [|r|e|k| |]; try (inversion E; subst; exact H1).
  - destruct (rt log r); [exact (Go _ _ E)|exact (Go _ _ E)|inversion E; subst; exact H1].
  - exact (Er2 E).
  - destruct (ran_out k); [discriminate|]. exact (Er2 E).
Qed.
(** A call that keeps the connection ends right after a read that would block. *)
Lemma keep_Q (Q : T -> Prop) dbg rt n : (forall m t t', rcap <= m -> t_read m t = (inl WouldBlock, t') -> Inv t -> Q t') ->
  forall log c log' c', t_respond T t_read t_write t_flush size rcap fuel n dbg rt log c = Some (Keep, log', c') -> dinv (tc_stream T c) ->
  Q (tb_in T (tc_stream T c')).
Proof.
  intros HQ. induction n as [|n IH]; intros log c log' c' E H; cbn [t_respond] in E; [discriminate|].
  destruct (t_read_request T t_read size rcap fuel dbg c) as [rr c1] eqn:Er. pose proof (t_read_request_inv _ _ _ _ Er H) as H1. destruct rr as [|r|e|k| |]; try discriminate.
  - inversion E; subst. unfold t_read_request, t_req_parse in Er.
    destruct (g_req_parse (tbuf T) (tb_fill T t_read rcap) (tb_consume T) (tb_read T t_read rcap) size (fun _ => fuel) (fun _ => fuel) dbg
      (match tc_parser T c with Some st => st | None => req_new end) (tc_stream T c)) as [[r|st k|e|] d] eqn:Ep; try discriminate.
    destruct k; try (destruct (is_closed st _) in Er; discriminate). inversion Er; subst. cbn [tc_stream].
    refine (req_parse_Q (tbuf T) _ _ _ _ _ _ dinv _ _ _ (fun d => Q (tb_in T d)) _ _ _ _ _ _ _ Ep H).
    + intros d0 x d1. apply tb_fill_inv.
    + intros m d0 X. exact X.
    + intros m d0 x d1. apply tb_read_inv.
    + intros d0 d1 X Hd. unfold tb_fill in X. destruct (tb_buf T d0); [|discriminate].
      destruct (t_read rcap (tb_in T d0)) as [[k|bs] t1] eqn:Et; [|discriminate]. inversion X; subst. cbn. eapply HQ; eauto; apply N.le_refl.
    + intros m d0 d1 X Hd. unfold tb_read in X. destruct (tb_buf T d0) eqn:Eb; [|discriminate].
      destruct (rcap <=? m) eqn:El.
      * destruct (t_read m (tb_in T d0)) as [x t1] eqn:Et. inversion X; subst. cbn. eapply HQ; eauto. now apply N.leb_le.
      * unfold tb_fill in X. rewrite Eb in X. destruct (t_read rcap (tb_in T d0)) as [[k|bs] t1] eqn:Et; [|discriminate]. inversion X; subst. cbn. eapply HQ; eauto; apply N.le_refl.
  - assert (Go : forall l, match tc_ops T t_write t_flush fuel (result_ops l) c1 with
        | (WOk _, c2) => if should_close_after_response r then Some (Close, log ++ [r], c2) else t_respond T t_read t_write t_flush size rcap fuel n dbg rt (log ++ [r]) c2
        | (WErr k, c2) => if ran_out k then None else Some (Close, log ++ [r], c2)
        end = Some (Keep, log', c') -> Q (tb_in T (tc_stream T c'))).
    { intros l X. destruct (tc_ops T t_write t_flush fuel (result_ops l) c1) as [[u|k] c2] eqn:Eo; pose proof (tc_ops_inv _ _ _ _ Eo H1).
      - destruct (should_close_after_response r); [discriminate|eauto].
      - destruct (ran_out k); discriminate. }
    destruct (rt log r); [exact (Go _ E)|exact (Go _ E)|discriminate].
  - destruct (tc_ops T t_write t_flush fuel error_ops c1) as [x c2]. destruct (out_of_fuel x); discriminate.
  - destruct (ran_out k); [discriminate|]. destruct (tc_ops T t_write t_flush fuel error_ops c1) as [x c2]. destruct (out_of_fuel x); discriminate.
Qed.

Definition sinv (st : tslot T) : Prop := Inv (stream_of T st).
Lemma t_handle_inv dbg rt f log st log' st' : (forall t, Inv t -> Inv (f t)) ->
  t_handle T t_read t_write t_flush size rcap fuel dbg rt f log st = Some (log', st') -> sinv st -> sinv st'.
Proof.
  intros Hf E Hs. destruct st as [c|t|t]; cbn [t_handle] in E; try (inversion E; subst; exact Hs).
  destruct (tc_flush T t_write t_flush fuel (tc_env T f c)) as [x c1] eqn:Efl.
  assert (H1 : dinv (tc_stream T c1)).
  { unfold tc_flush, tb_write in Efl. destruct (t_wr_flush T t_write t_flush fuel (tb_w T (tc_stream T (tc_env T f c))) (tb_in T (tc_stream T (tc_env T f c)))) as [[y w] t1] eqn:Ew.
    inversion Efl; subst. unfold dinv. cbn. eapply t_wr_flush_inv; eauto. cbn. apply Hf. exact Hs. }
  destruct x as [u|k].
  - destruct (t_respond T t_read t_write t_flush size rcap fuel fuel dbg rt log c1) as [[[vd log1] c2]|] eqn:Er; [|discriminate].
    pose proof (t_respond_inv _ _ _ _ _ _ _ _ Er H1) as H2. inversion E; subst. destruct vd; exact H2.
  - destruct (ran_out k); [discriminate|]. inversion E; subst. exact H1.
Qed.

Lemma handle_Q (Q : T -> Prop) dbg rt f log st log' c' : (forall m t t', rcap <= m -> t_read m t = (inl WouldBlock, t') -> Inv t -> Q t') ->
  (forall t, Inv t -> Inv (f t)) -> t_handle T t_read t_write t_flush size rcap fuel dbg rt f log st = Some (log', TOpen T c') -> sinv st ->
  Q (tb_in T (tc_stream T c')).
Proof.
  intros HQ Hf E Hs. destruct st as [c|t|t]; cbn [t_handle] in E; try discriminate.
  destruct (tc_flush T t_write t_flush fuel (tc_env T f c)) as [x c1] eqn:Efl.
  assert (H1 : dinv (tc_stream T c1)).
  { unfold tc_flush, tb_write in Efl. destruct (t_wr_flush T t_write t_flush fuel (tb_w T (tc_stream T (tc_env T f c))) (tb_in T (tc_stream T (tc_env T f c)))) as [[y w] t1] eqn:Ew.
    inversion Efl; subst. unfold dinv. cbn. eapply t_wr_flush_inv; eauto. cbn. apply Hf. exact Hs. }
  destruct x as [u|k]; [|destruct (ran_out k); discriminate].
  destruct (t_respond T t_read t_write t_flush size rcap fuel fuel dbg rt log c1) as [[[vd log1] c2]|] eqn:Er; [|discriminate].
  destruct vd; inversion E; subst. eapply keep_Q; eauto.
Qed.

Lemma t_handle_ok dbg rt f log st log' st' s b : (forall t, Inv t -> Inv (f t)) -> sinv st -> env_ok f ->
  t_handle T t_read t_write t_flush size rcap fuel dbg rt f log st = Some (log', st') -> sims st' s b ->
  exists v s0 b0, sims st s0 b0 /\ call_of f v /\ b_handle size dbg rt v log b0 = (log', b).
Proof.
  intros Fi Is Ef E Hs. destruct st as [c|t|t]; cbn [t_handle] in E.
  2:{ inversion E; subst. destruct Hs as [Hi ->]. exists (mk_visit [] []), s, (BGone (given t)). split; [split; auto|]. split; [left; auto|reflexivity]. }
  2:{ inversion E; subst. destruct Hs as [Hi ->]. exists (mk_visit [] []), s, (BPoisoned (given t)). split; [split; auto|]. split; [left; auto|reflexivity]. }
  destruct (tc_flush T t_write t_flush fuel (tc_env T f c)) as [x c1] eqn:Efl.
  assert (Start : forall s1 k1, x <> WErr ModelFuel -> Rel (tb_in T (tc_stream T c1)) s1 k1 ->
    exists v, sims (TOpen T c) s1 (BOpen (as_bconn c s1 (mk_sock [] [] (given (tb_in T (tc_stream T c)))))) /\ call_of f v /\
      b_flush (arm v (as_bconn c s1 (mk_sock [] [] (given (tb_in T (tc_stream T c)))))) = (x, as_bconn c1 s1 k1)).
  { intros s1 k1 Nx R1. destruct (tc_flush_ok _ _ _ _ _ Efl Nx R1) as (k & R & Ek). cbn [tc_env tc_stream tb_in] in R.
    destruct (Ef _ _ _ R) as [Hi Hk]. exists (mk_visit (sk_events k) (sk_flushes k)). split; [split; auto|]. split; [right; exists (tb_in T (tc_stream T c)), s1, k; split; [apply Fi; exact Is|auto]|].
    rewrite <- Ek. f_equal. unfold arm, as_bconn, pair_of, b_sent. cbn. rewrite <- Hk. destruct k; reflexivity. }
  destruct x as [u|e].
  - destruct (t_respond T t_read t_write t_flush size rcap fuel fuel dbg rt log c1) as [[[vd log1] c2]|] eqn:Er; [|discriminate].
    inversion E; subst. clear E.
    assert (H2 : exists k2, Rel (tb_in T (tc_stream T c2)) s k2 /\
       b = match vd with Keep => BOpen (as_bconn c2 s k2) | Close => BGone (b_sent (as_bconn c2 s k2)) | Unwind => BPoisoned (b_sent (as_bconn c2 s k2)) end).
    { destruct vd; destruct Hs as [Hi ->]; eexists; (split; [exact Hi|reflexivity]). }
    destruct H2 as (k2 & R2 & ->).
    destruct (t_respond_ok _ _ _ _ _ _ _ _ _ _ Er R2) as (s1 & k1 & R1 & E1).
    destruct (Start s1 k1 ltac:(discriminate) R1) as (v & S0 & Cv & E0). exists v, s1. eexists. split; [exact S0|]. split; auto.
    cbn [b_handle]. rewrite E0.
    rewrite (b_respond_fuel size size_pos _ _ _ (fuel + S (S (bf_mu (bc_stream (as_bconn c1 s1 k1)))))%nat).
    2,3: unfold b_need; destruct (bc_parser (as_bconn c1 s1 k1)); lia.
    rewrite E1 by lia. destruct vd; reflexivity.
  - destruct (ran_out e) eqn:Eu; [discriminate|]. inversion E; subst. destruct Hs as [Hi ->].
    destruct (Start s _ ltac:(intros Y; inversion Y; subst; discriminate) Hi) as (v & S0 & Cv & E0). exists v, s. eexists. split; [exact S0|]. split; auto.
    cbn [b_handle]. rewrite E0. reflexivity.
Qed.

Lemma t_visits_ok dbg rt fs : forall log st log' st' s b, Forall (fun f => forall t, Inv t -> Inv (f t)) fs -> sinv st -> Forall env_ok fs ->
  t_visits T t_read t_write t_flush size rcap fuel dbg rt fs log st = Some (log', st') -> sims st' s b ->
  exists vs s0 b0, sims st s0 b0 /\ Forall2 call_of fs vs /\ b_visits size dbg rt vs log b0 = (log', b).
Proof.
  induction fs as [|f fs IH]; intros log st log' st' s b Fi Is F E Hs; cbn [t_visits] in E.
  - inversion E; subst. exists [], s, b. split; [exact Hs|]. split; [constructor|reflexivity].
  - inversion F as [|? ? F1 F2]; subst. inversion Fi as [|? ? I1 I2]; subst.
    destruct (t_handle T t_read t_write t_flush size rcap fuel dbg rt f log st) as [[log1 st1]|] eqn:E1; [|discriminate].
    destruct (IH _ _ _ _ _ _ I2 (t_handle_inv _ _ _ _ _ _ _ I1 E1 Is) F2 E Hs) as (vs & s1 & b1 & S1 & C1 & V1).
    destruct (t_handle_ok _ _ _ _ _ _ _ _ _ I1 Is F1 E1 S1) as (v & s0 & b0 & S0 & C0 & V0).
    exists (v :: vs), s0, b0. split; auto. split; [constructor; auto|]. cbn [b_visits]. rewrite V0. exact V1.
Qed.

End Streams.

(** ** Honest streams *)

Section Honest.
Variable T : Type.
Variable t_read : N -> T -> (ekind + bytes) * T.
Variable t_write : bytes -> T -> wres N * T.
Variable t_flush : T -> wres unit * T.
Variable taken : T -> list what.
Variable given : T -> bytes.
Variable G : T -> list wevent -> list (option ekind) -> Prop.
Hypothesis H : honest T t_read t_write t_flush taken given.
Hypothesis FS : foresees T t_read t_write t_flush G.
Variable all : list what.

Definition stands_for (t : T) (s : stream) (k : sock) : Prop :=
  sk_sent k = given t /\ taken t ++ content s = all /\ G t (sk_events k) (sk_flushes k).

Lemma stands_read n t x t' s k : 0 < n -> t_read n t = (x, t') -> stands_for t' s k ->
  exists s0, stands_for t s0 k /\ raw_read n s0 = (x, s).
Proof.
  intros Hn E (S1 & S2 & S3). destruct (honest_read _ _ _ _ _ _ H _ _ _ _ Hn E) as (Hg & Hx).
  pose proof (foresees_read _ _ _ _ _ FS _ _ _ _ _ _ E S3) as S4. destruct x as [e|bs].
  - exists (RErr e :: s). split; [|reflexivity]. split; [congruence|]. split; auto. rewrite <- S2, Hx, <- app_assoc. reflexivity.
  - destruct Hx as [Hl Hx]. exists (RData bs :: s). split.
    + split; [congruence|]. split; auto. rewrite <- S2, Hx, <- app_assoc. reflexivity.
    + unfold raw_read. destruct bs as [|c bs]; auto. unfold len in Hl. rewrite firstn_all2, skipn_all2 by lia. reflexivity.
Qed.

Lemma stands_write b t x t' s k' : b <> [] -> t_write b t = (x, t') -> stands_for t' s k' ->
  exists k, stands_for t s k /\ sock_write k b = (x, k').
Proof.
  intros Hb E (S1 & S2 & S3). destruct (honest_write _ _ _ _ _ _ H _ _ _ _ Hb E) as (Ht & Hx).
  pose proof (foresees_write _ _ _ _ _ FS _ _ _ _ _ _ Hb E S3) as S4.
  exists (mk_sock (event_of x :: sk_events k') (sk_flushes k') (given t)). split.
  - split; auto. split; [congruence|exact S4].
  - unfold sock_write. destruct x as [n|e]; cbn [event_of sk_events sk_flushes sk_sent].
    + destruct Hx as [Hl Hx]. rewrite N.min_l by lia. rewrite <- Hx, <- S1. destruct k'; reflexivity.
    + rewrite <- Hx, <- S1. destruct k'; reflexivity.
Qed.

Lemma stands_flush t x t' s k' : t_flush t = (x, t') -> stands_for t' s k' -> exists k, stands_for t s k /\ sock_flush k = (x, k').
Proof.
  intros E (S1 & S2 & S3). destruct (honest_flush _ _ _ _ _ _ H _ _ _ E) as (Hg & Ht).
  pose proof (foresees_flush _ _ _ _ _ FS _ _ _ _ _ E S3) as S4.
  exists (mk_sock (sk_events k') (flush_of x :: sk_flushes k') (given t)). split.
  - split; auto. split; [congruence|exact S4].
  - unfold sock_flush. destruct x as [[]|e]; cbn [flush_of sk_flushes sk_events sk_sent]; rewrite <- Hg, <- S1; destruct k'; reflexivity.
Qed.

Lemma gentle_visits (Inv : T -> Prop) fs vs : gentle T Inv G ->
  Forall2 (fun (f : T -> T) v => v = mk_visit [] [] \/ exists t0, Inv (f t0) /\ G (f t0) (v_events v) (v_flushes v)) fs vs ->
  Forall visit_fine vs /\ Forall visit_steady vs.
Proof.
  intros Ge F. induction F as [|f v fs vs C F [IH1 IH2]]; [auto|].
  assert (X : visit_fine v /\ visit_steady v).
  { destruct C as [->|(t0 & Hi & Hg)].
    - split; [split; constructor|]. intros [|] ? ? X; discriminate X.
    - destruct v as [ws fl]. exact (Ge _ _ _ Hi Hg). }
  destruct X. split; constructor; auto.
Qed.

Lemma stands_env f : outside_only T taken given f -> env_ok T stands_for given f.
Proof.
  intros Hf t s k (S1 & S2 & S3). destruct (Hf t) as [Hg Ht]. split; [|congruence].
  split; [reflexivity|]. split; [congruence|]. apply (foresees_end _ _ _ _ _ FS).
Qed.
End Honest.
