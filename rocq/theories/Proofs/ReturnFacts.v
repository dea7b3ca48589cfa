(** Connections on a stream that has only finitely much to give: every call of the handler returns, and more iterations change nothing. *)
From Coq Require Import List Ascii String Arith NArith Bool Lia.
From Verif.Model Require Import Bytes Io Common Parse Encode Writer Server Generic Buffered Streams.
From Verif.Spec Require Import Finite.
From Verif.Proofs Require Import FuelFacts MonoFacts EndsFacts.
Import ListNotations.
Local Open Scope N_scope.

(** ** More iterations *)
Section More.
Variable T : Type.
Variable t_read : N -> T -> (ekind + bytes) * T.
Variable t_write : bytes -> T -> wres N * T.
Variable t_flush : T -> wres unit * T.
Variable size : bytes -> N.
Variable rcap : N.
Variables F G : nat.
Hypothesis FG : (F <= G)%nat.

Lemma wub_more n : forall g t b pos x t', (n <= g)%nat -> t_wub T t_write n t b pos = (x, t') -> x <> WErr ModelFuel ->
  t_wub T t_write g t b pos = (x, t').
Proof.
  induction n as [|n IH]; intros [|g] t b pos x t' L E N; cbn [t_wub] in *; try lia; destruct b as [|c b]; try exact E;
    try (inversion E; subst; congruence).
  destruct (t_write (c :: b) t) as [[m|k] t1]; [apply IH; auto; lia|exact E].
Qed.
Lemma flush_buf_more w t x w' t' : t_flush_buf T t_write F w t = (x, w', t') -> x <> WErr ModelFuel -> t_flush_buf T t_write G w t = (x, w', t').
Proof.
  unfold t_flush_buf. intros E N. destruct (t_wub T t_write F t (skipn (N.to_nat (wr_pos w)) (wr_buf w)) 0) as [y t1] eqn:E1.
  rewrite (wub_more F G _ _ _ _ _ FG E1); [exact E|]. intros ->. inversion E; subst. congruence.
Qed.
Lemma wr_write_more w t b x w' t' : t_wr_write T t_write F w t b = (x, w', t') -> x <> WErr ModelFuel -> t_wr_write T t_write G w t b = (x, w', t').
Proof.
  unfold t_wr_write. intros E N. destruct (wr_cap w <? len (wr_buf w) + len b); [|exact E].
  destruct (t_flush_buf T t_write F w t) as [[y w1] t1] eqn:E1.
  rewrite (flush_buf_more _ _ _ _ _ E1) by (intros ->; inversion E; subst; congruence).
  destruct y as [u|k]; [|exact E]. destruct ((wr_pos w1 =? 0) && (wr_cap w1 <? len b)); [|exact E].
  destruct (t_wub T t_write F t1 b 0) as [z t2] eqn:E2.
  rewrite (wub_more F G _ _ _ _ _ FG E2); [exact E|]. intros ->. inversion E; subst. congruence.
Qed.
Lemma wr_flush_more w t x w' t' : t_wr_flush T t_write t_flush F w t = (x, w', t') -> x <> WErr ModelFuel ->
  t_wr_flush T t_write t_flush G w t = (x, w', t').
Proof.
  unfold t_wr_flush. intros E N. destruct (t_flush_buf T t_write F w t) as [[y w1] t1] eqn:E1.
  rewrite (flush_buf_more _ _ _ _ _ E1) by (intros ->; inversion E; subst; congruence). exact E.
Qed.
Lemma write_all_more n : forall g w t b x w' t', (n <= g)%nat -> t_write_all T t_write F n w t b = (x, w', t') -> x <> WErr ModelFuel ->
  t_write_all T t_write G g w t b = (x, w', t').
Proof.
  induction n as [|n IH]; intros [|g] w t b x w' t' L E N; cbn [t_write_all] in *; try lia; destruct b as [|c b]; try exact E;
    try (inversion E; subst; congruence).
  destruct (t_wr_write T t_write F w t (c :: b)) as [[y w1] t1] eqn:E1.
  rewrite (wr_write_more _ _ _ _ _ _ E1) by (intros ->; inversion E; subst; congruence).
  destruct y as [m|k].
  - destruct (m =? 0); [exact E|]. apply IH; auto; lia.
  - destruct k; try exact E. apply IH; auto; lia.
Qed.
Lemma run_ops_more ops : forall w t x w' t', t_run_ops T t_write t_flush F w t ops = (x, w', t') -> x <> WErr ModelFuel ->
  t_run_ops T t_write t_flush G w t ops = (x, w', t').
Proof.
  induction ops as [|op ops IH]; intros w t x w' t' E N; cbn [t_run_ops] in *; [exact E|]. destruct op as [b|b|].
  - destruct (t_write_all T t_write F F w t b) as [[y w1] t1] eqn:E1.
    rewrite (write_all_more F G _ _ _ _ _ _ FG E1) by (intros ->; inversion E; subst; congruence). destruct y; [apply IH; auto|exact E].
  - destruct (t_wr_write T t_write F w t b) as [[y w1] t1] eqn:E1.
    rewrite (wr_write_more _ _ _ _ _ _ E1) by (intros ->; inversion E; subst; congruence). destruct y; [apply IH; auto|exact E].
  - destruct (t_wr_flush T t_write t_flush F w t) as [[y w1] t1] eqn:E1.
    rewrite (wr_flush_more _ _ _ _ _ E1) by (intros ->; inversion E; subst; congruence). destruct y; [apply IH; auto|exact E].
Qed.
Lemma tc_ops_more ops c x c' : tc_ops T t_write t_flush F ops c = (x, c') -> x <> WErr ModelFuel -> tc_ops T t_write t_flush G ops c = (x, c').
Proof.
  unfold tc_ops, tb_write. intros E N. destruct (t_run_ops T t_write t_flush F (tb_w T (tc_stream T c)) (tb_in T (tc_stream T c)) ops) as [[y w1] t1] eqn:E1.
  rewrite (run_ops_more _ _ _ _ _ _ E1); [exact E|]. intros ->. inversion E; subst. congruence.
Qed.
Lemma tc_flush_more c x c' : tc_flush T t_write t_flush F c = (x, c') -> x <> WErr ModelFuel -> tc_flush T t_write t_flush G c = (x, c').
Proof.
  unfold tc_flush, tb_write. intros E N. destruct (t_wr_flush T t_write t_flush F (tb_w T (tc_stream T c)) (tb_in T (tc_stream T c))) as [[y w1] t1] eqn:E1.
  rewrite (wr_flush_more _ _ _ _ _ E1); [exact E|]. intros ->. inversion E; subst. congruence.
Qed.
Lemma read_request_more dbg c rr c' : t_read_request T t_read size rcap F dbg c = (rr, c') -> rr <> IoErr ModelFuel ->
  t_read_request T t_read size rcap G dbg c = (rr, c').
Proof.
  unfold t_read_request, t_req_parse. intros E N.
  destruct (g_req_parse (tbuf T) (tb_fill T t_read rcap) (tb_consume T) (tb_read T t_read rcap) size (fun _ => F) (fun _ => F) dbg
              (match tc_parser T c with Some st => st | None => req_new end) (tc_stream T c)) as [y d] eqn:E1.
  rewrite (req_parse_mono (tbuf T) _ _ _ size F G FG _ _ _ _ _ E1); [exact E|].
  destruct y as [r|s k|e|]; cbn; auto. destruct k; auto. assert (is_closed s ModelFuel = false) as Q by (destruct s as [[|? ?]| | |]; reflexivity).
  rewrite Q in E. inversion E; subst. congruence.
Qed.
Lemma respond_more dbg rt n : forall g log c r, (n <= g)%nat -> t_respond T t_read t_write t_flush size rcap F n dbg rt log c = Some r ->
  t_respond T t_read t_write t_flush size rcap G g dbg rt log c = Some r.
Proof.
  induction n as [|n IH]; intros [|g] log c r L E; cbn [t_respond] in *; try lia; try discriminate.
  destruct (t_read_request T t_read size rcap F dbg c) as [rr c'] eqn:E1.
  rewrite (read_request_more _ _ _ _ E1) by (intros ->; discriminate E).
  destruct rr as [|q|e|k| |]; try exact E.
  - assert (O : forall l, match tc_ops T t_write t_flush F (result_ops l) c' with
                  | (WErr k, c1) => if ran_out k then None else Some (Close, log ++ [q], c1)
                  | (WOk _, c1) => if should_close_after_response q then Some (Close, log ++ [q], c1)
                      else t_respond T t_read t_write t_flush size rcap F n dbg rt (log ++ [q]) c1
                  end = Some r ->
                  match tc_ops T t_write t_flush G (result_ops l) c' with
                  | (WErr k, c1) => if ran_out k then None else Some (Close, log ++ [q], c1)
                  | (WOk _, c1) => if should_close_after_response q then Some (Close, log ++ [q], c1)
                      else t_respond T t_read t_write t_flush size rcap G g dbg rt (log ++ [q]) c1
                  end = Some r).
    { intros l El. destruct (tc_ops T t_write t_flush F (result_ops l) c') as [x c1] eqn:E2.
      rewrite (tc_ops_more _ _ _ _ E2) by (intros ->; discriminate El).
      destruct x as [u|k]; [|exact El]. destruct (should_close_after_response q); [exact El|]. apply IH; auto; lia. }
    destruct (rt log q); try exact E; apply O; exact E.
  - destruct (tc_ops T t_write t_flush F error_ops c') as [x c1] eqn:E2.
    rewrite (tc_ops_more _ _ _ _ E2) by (intros ->; discriminate E). exact E.
  - destruct (ran_out k); [discriminate|]. destruct (tc_ops T t_write t_flush F error_ops c') as [x c1] eqn:E2.
    rewrite (tc_ops_more _ _ _ _ E2) by (intros ->; discriminate E). exact E.
Qed.
Lemma handle_more dbg rt f log st r : t_handle T t_read t_write t_flush size rcap F dbg rt f log st = Some r ->
  t_handle T t_read t_write t_flush size rcap G dbg rt f log st = Some r.
Proof.
  unfold t_handle. destruct st as [c|t|t]; auto. intros E.
  destruct (tc_flush T t_write t_flush F (tc_env T f c)) as [x c1] eqn:E1. rewrite (tc_flush_more _ _ _ E1) by (intros ->; discriminate E).
  destruct x as [u|k]; [|exact E].
  destruct (t_respond T t_read t_write t_flush size rcap F F dbg rt log c1) as [y|] eqn:E2; [|discriminate].
  rewrite (respond_more _ _ _ _ _ _ _ FG E2). exact E.
Qed.
Lemma visits_more dbg rt fs : forall log st r, t_visits T t_read t_write t_flush size rcap F dbg rt fs log st = Some r ->
  t_visits T t_read t_write t_flush size rcap G dbg rt fs log st = Some r.
Proof.
  induction fs as [|f fs IH]; intros log st r E; cbn [t_visits] in *; auto.
  destruct (t_handle T t_read t_write t_flush size rcap F dbg rt f log st) as [[l s]|] eqn:E1; [|discriminate].
  rewrite (handle_more _ _ _ _ _ _ E1). apply IH; auto.
Qed.
End More.

(** ** Enough iterations *)
Definition weigh (op : sop) : nat := match op with SAll b | SWrite b => List.length b | SFlush => 0 end.
Definition weight (ops : list sop) : nat := list_sum (map weigh ops).

Section Enough.
Variable T : Type.
Variable t_read : N -> T -> (ekind + bytes) * T.
Variable t_write : bytes -> T -> wres N * T.
Variable t_flush : T -> wres unit * T.
Variable size : bytes -> N.
Variable rcap : N.
Hypothesis size_pos : forall acc, 0 < size acc.
Hypothesis rcap_pos : 0 < rcap.
Variable mu : T -> nat.
Variable ok : T -> Prop.
Hypothesis Fin : finite T t_read t_write t_flush mu ok.

Section Writes.
Variable fuel : nat.
Lemma wub_ends n : forall t b pos x t', ok t -> (List.length b + mu t < n)%nat -> t_wub T t_write n t b pos = (x, t') ->
  ok t' /\ (mu t' <= mu t)%nat /\ (forall k, x = WErr k -> k <> ModelFuel /\ (k = Interrupted -> (mu t' < mu t)%nat)).
Proof.
  induction n as [|n IH]; intros t b pos x t' K L E; [lia|]. cbn [t_wub] in E. destruct b as [|c b].
  { inversion E; subst. split; auto. split; auto. discriminate. }
  destruct (t_write (c :: b) t) as [y t1] eqn:E1.
  assert (Nn : c :: b <> []) by discriminate. destruct (finite_write _ _ _ _ _ _ Fin _ _ _ _ Nn K E1) as (H1 & H2 & H3).
  destruct y as [m|k].
  - assert (L1 : (List.length (skipn (N.to_nat m) (c :: b)) + mu t1 < n)%nat).
    { rewrite skipn_length. cbn [List.length] in *. destruct (N.eq_dec m 0) as [->|Z]; [specialize (H3 eq_refl); cbn; lia|lia]. }
    destruct (IH _ _ _ _ _ H1 L1 E) as (K1 & K2 & K3). split; auto. split; [lia|]. intros k Q. destruct (K3 k Q) as [Q1 Q2].
    split; auto. intros Q3. specialize (Q2 Q3). lia.
  - assert (Z : (WErr k, t1) = (x, t') -> ok t' /\ (mu t' <= mu t)%nat /\ (forall k, x = WErr k -> k <> ModelFuel /\ (k = Interrupted -> (mu t' < mu t)%nat))).
    { intros Q. inversion Q; subst. split; auto. split; auto. intros k' Q'. inversion Q'; subst. exact H3. }
    destruct k; try exact (Z E). inversion E; subst. split; auto. split; auto. discriminate.
Qed.

Lemma flush_buf_ends w t x w' t' : ok t -> (List.length (wr_buf w) + mu t < fuel)%nat -> t_flush_buf T t_write fuel w t = (x, w', t') ->
  ok t' /\ (mu t' <= mu t)%nat /\ (List.length (wr_buf w') <= List.length (wr_buf w))%nat /\
  (forall k, x = WErr k -> k <> ModelFuel /\ (k = Interrupted -> (mu t' < mu t)%nat)).
Proof.
  intros K L E. unfold t_flush_buf in E. destruct (t_wub T t_write fuel t (skipn (N.to_nat (wr_pos w)) (wr_buf w)) 0) as [y t1] eqn:E1.
  assert (L1 : (List.length (skipn (N.to_nat (wr_pos w)) (wr_buf w)) + mu t < fuel)%nat) by (rewrite skipn_length; lia).
  destruct (wub_ends _ _ _ _ _ _ K L1 E1) as (H1 & H2 & H3). destruct y as [a|k].
  - destruct (len (wr_buf w) <=? wr_pos w + a); inversion E; subst; (split; [auto|split; [lia|split; [cbn; lia|discriminate]]]).
  - inversion E; subst. split; [auto|split; [lia|split; [lia|intros k0 Q; inversion Q; subst; now apply H3]]].
Qed.

Lemma wr_write_ends w t b x w' t' : ok t -> (List.length (wr_buf w) + List.length b + mu t < fuel)%nat ->
  t_wr_write T t_write fuel w t b = (x, w', t') ->
  ok t' /\ (mu t' <= mu t)%nat /\
  match x with
  | WErr k => k <> ModelFuel /\ (k = Interrupted -> (mu t' < mu t)%nat) /\ (List.length (wr_buf w') <= List.length (wr_buf w))%nat
  | WOk n => n = len b /\ (List.length (wr_buf w') <= List.length (wr_buf w) + List.length b)%nat
  end.
Proof.
  intros K L E. unfold t_wr_write in E. destruct (wr_cap w <? len (wr_buf w) + len b).
  2:{ inversion E; subst. cbn. rewrite app_length. auto. }
  destruct (t_flush_buf T t_write fuel w t) as [[y w1] t1] eqn:E1.
  assert (L1 : (List.length (wr_buf w) + mu t < fuel)%nat) by lia.
  destruct (flush_buf_ends _ _ _ _ _ K L1 E1) as (H1 & H2 & H3 & H4). destruct y as [u|k].
  2:{ inversion E; subst. destruct (H4 _ eq_refl) as [Q1 Q2]. auto. }
  destruct ((wr_pos w1 =? 0) && (wr_cap w1 <? len b)).
  2:{ inversion E; subst. cbn. rewrite app_length. repeat split; auto. lia. }
  destruct (t_wub T t_write fuel t1 b 0) as [z t2] eqn:E2.
  assert (L2 : (List.length b + mu t1 < fuel)%nat) by lia.
  destruct (wub_ends _ _ _ _ _ _ H1 L2 E2) as (K1 & K2 & K3). destruct z as [a|k]; inversion E; subst.
  - cbn. rewrite app_length, skipn_length. repeat split; auto; lia.
  - destruct (K3 _ eq_refl) as [Q1 Q2]. repeat split; auto; [lia|]. intros Q. specialize (Q2 Q). lia.
Qed.

Lemma wr_flush_ends w t x w' t' : ok t -> (List.length (wr_buf w) + mu t < fuel)%nat -> t_wr_flush T t_write t_flush fuel w t = (x, w', t') ->
  ok t' /\ (mu t' <= mu t)%nat /\ x <> WErr ModelFuel /\ (List.length (wr_buf w') <= List.length (wr_buf w))%nat.
Proof.
  intros K L E. unfold t_wr_flush in E. destruct (t_flush_buf T t_write fuel w t) as [[y w1] t1] eqn:E1.
  destruct (flush_buf_ends _ _ _ _ _ K L E1) as (H1 & H2 & H3 & H4). destruct y as [u|k].
  2:{ inversion E; subst. destruct (H4 _ eq_refl) as [Q1 Q2]. repeat split; auto. congruence. }
  unfold t_flush_inner in E. destruct (t_flush t1) as [z t2] eqn:E2. destruct (finite_flush _ _ _ _ _ _ Fin _ _ _ H1 E2) as (K1 & K2 & K3).
  assert (w' = w1 /\ t' = t2 /\ x <> WErr ModelFuel) as (-> & -> & N) by (destruct z as [[]|k]; [|destruct k]; inversion E; subst; repeat split; auto; discriminate).
  repeat split; auto; lia.
Qed.

Lemma write_all_ends n : forall w t b x w' t', ok t -> (mu t < n)%nat -> (List.length (wr_buf w) + List.length b + mu t < fuel)%nat ->
  t_write_all T t_write fuel n w t b = (x, w', t') ->
  ok t' /\ (mu t' <= mu t)%nat /\ x <> WErr ModelFuel /\ (List.length (wr_buf w') <= List.length (wr_buf w) + List.length b)%nat.
Proof.
  induction n as [|n IH]; intros w t b x w' t' K L B E; [lia|]. cbn [t_write_all] in E. destruct b as [|c b].
  { inversion E; subst. repeat split; auto; [discriminate|lia]. }
  destruct (t_wr_write T t_write fuel w t (c :: b)) as [[y w1] t1] eqn:E1. destruct (wr_write_ends _ _ _ _ _ _ K B E1) as (H1 & H2 & H3).
  destruct y as [m|k].
  - destruct H3 as [-> H3]. assert (len (c :: b) =? 0 = false) as Q by (unfold len; cbn [List.length]; apply N.eqb_neq; lia). rewrite Q in E.
    assert (skipn (N.to_nat (len (c :: b))) (c :: b) = []) as Q1 by (apply skipn_all2; unfold len; lia). rewrite Q1 in E.
    assert ((WOk tt, w1, t1) = (x, w', t')) as Q2 by (destruct n; exact E). inversion Q2; subst. repeat split; auto. discriminate.
  - destruct H3 as (N & I & W).
    assert (Z : (WErr k, w1, t1) = (x, w', t') -> ok t' /\ (mu t' <= mu t)%nat /\ x <> WErr ModelFuel /\ (List.length (wr_buf w') <= List.length (wr_buf w) + List.length (c :: b))%nat).
    { intros Q. inversion Q; subst. repeat split; auto; [congruence|lia]. }
    destruct k; try exact (Z E). specialize (I eq_refl).
    assert (L1 : (mu t1 < n)%nat) by lia. assert (B1 : (List.length (wr_buf w1) + List.length (c :: b) + mu t1 < fuel)%nat) by lia.
    destruct (IH _ _ _ _ _ _ H1 L1 B1 E) as (K1 & K2 & K3 & K4). repeat split; auto; lia.
Qed.

Lemma run_ops_ends ops : forall w t x w' t', ok t -> (List.length (wr_buf w) + weight ops + mu t < fuel)%nat ->
  t_run_ops T t_write t_flush fuel w t ops = (x, w', t') -> ok t' /\ (mu t' <= mu t)%nat /\ x <> WErr ModelFuel.
Proof.
  induction ops as [|op ops IH]; intros w t x w' t' K L E; cbn [t_run_ops] in E.
  { inversion E; subst. repeat split; auto. discriminate. }
  change (weight (op :: ops)) with (weigh op + weight ops)%nat in L. destruct op as [b|b|]; cbn [weigh] in L.
  - destruct (t_write_all T t_write fuel fuel w t b) as [[y w1] t1] eqn:E1.
    assert (L1 : (mu t < fuel)%nat) by lia. assert (B1 : (List.length (wr_buf w) + List.length b + mu t < fuel)%nat) by lia.
    destruct (write_all_ends _ _ _ _ _ _ _ K L1 B1 E1) as (H1 & H2 & H3 & H4). destruct y as [u|k].
    + assert (B2 : (List.length (wr_buf w1) + weight ops + mu t1 < fuel)%nat) by lia.
      destruct (IH _ _ _ _ _ H1 B2 E) as (K1 & K2 & K3). repeat split; auto; lia.
    + inversion E; subst. auto.
  - destruct (t_wr_write T t_write fuel w t b) as [[y w1] t1] eqn:E1.
    assert (B1 : (List.length (wr_buf w) + List.length b + mu t < fuel)%nat) by lia.
    destruct (wr_write_ends _ _ _ _ _ _ K B1 E1) as (H1 & H2 & H3). destruct y as [u|k].
    + assert (B2 : (List.length (wr_buf w1) + weight ops + mu t1 < fuel)%nat) by lia.
      destruct (IH _ _ _ _ _ H1 B2 E) as (K1 & K2 & K3). repeat split; auto; lia.
    + inversion E; subst. repeat split; auto. destruct H3. congruence.
  - destruct (t_wr_flush T t_write t_flush fuel w t) as [[y w1] t1] eqn:E1.
    assert (B1 : (List.length (wr_buf w) + mu t < fuel)%nat) by lia.
    destruct (wr_flush_ends _ _ _ _ _ K B1 E1) as (H1 & H2 & H3 & H4). destruct y as [u|k].
    + assert (B2 : (List.length (wr_buf w1) + weight ops + mu t1 < fuel)%nat) by lia.
      destruct (IH _ _ _ _ _ H1 B2 E) as (K1 & K2 & K3). repeat split; auto; lia.
    + inversion E; subst. auto.
Qed.
End Writes.

(** The buffered stream. *)
Definition mb (d : tbuf T) : nat := (List.length (tb_buf T d) + mu (tb_in T d))%nat.
Definition okb (d : tbuf T) : Prop := ok (tb_in T d).

Lemma tb_fill_ends d x d' : okb d -> tb_fill T t_read rcap d = (x, d') ->
  okb d' /\ (mb d' <= mb d)%nat /\
  match x with
  | inl k => k <> ModelFuel /\ (k = Interrupted -> (mb d' < mb d)%nat)
  | inr bs => forall n, n <= len bs -> okb (tb_consume T n d') /\ (mb (tb_consume T n d') + N.to_nat n <= mb d)%nat
  end.
Proof.
  unfold okb, mb. intros K E. unfold tb_fill in E. destruct (tb_buf T d) as [|c bs] eqn:Eb.
  - destruct (t_read rcap (tb_in T d)) as [y t1] eqn:E1. destruct (finite_read _ _ _ _ _ _ Fin _ _ _ _ rcap_pos K E1) as (H1 & H2 & H3).
    destruct y as [k|bs]; inversion E; subst; cbn.
    + auto.
    + split; auto. split; [lia|]. intros n Hn. split; auto. rewrite skipn_length. unfold len in Hn. lia.
  - inversion E; subst. rewrite Eb. split; auto. split; auto. intros n Hn. cbn [tb_consume tb_in tb_buf]. split; auto.
    rewrite Eb, skipn_length. unfold len in Hn. lia.
Qed.
Lemma tb_read_ends n d x d' : 0 < n -> okb d -> tb_read T t_read rcap n d = (x, d') ->
  okb d' /\ (mb d' <= mb d)%nat /\
  match x with
  | inl k => k <> ModelFuel /\ (k = Interrupted -> (mb d' < mb d)%nat)
  | inr bs => (mb d' + List.length bs <= mb d)%nat
  end.
Proof.
  intros Hn K E. unfold tb_read in E. destruct (tb_buf T d) as [|c bs] eqn:Eb.
  - destruct (rcap <=? n).
    + destruct (t_read n (tb_in T d)) as [y t1] eqn:E1. destruct (finite_read _ _ _ _ _ _ Fin _ _ _ _ Hn K E1) as (H1 & H2 & H3).
      inversion E; subst. unfold okb, mb. rewrite Eb. cbn. auto.
    + destruct (tb_fill T t_read rcap d) as [y d1] eqn:E1. destruct (tb_fill_ends _ _ _ K E1) as (H1 & H2 & H3).
      destruct y as [k|bs]; inversion E; subst; auto.
      assert (Q : N.min n (len bs) <= len bs) by lia. destruct (H3 _ Q) as [K1 K2]. split; auto. split; [lia|].
      rewrite firstn_length. unfold len in *. lia.
  - inversion E; subst. unfold okb, mb in *. cbn [tb_consume tb_in tb_buf]. rewrite Eb. split; auto.
    rewrite firstn_length, skipn_length. unfold len. lia.
Qed.

Lemma read_request_ends F dbg c rr c' : okb (tc_stream T c) -> (mb (tc_stream T c) <= F)%nat -> t_read_request T t_read size rcap F dbg c = (rr, c') ->
  okb (tc_stream T c') /\ (mb (tc_stream T c') <= mb (tc_stream T c))%nat /\ rr <> IoErr ModelFuel /\
  (forall r, rr = Ready r -> tc_parser T c' = None /\ (tc_parser T c = None -> (mb (tc_stream T c') < mb (tc_stream T c))%nat)).
Proof.
  unfold t_read_request, t_req_parse. intros K L E.
  destruct (g_req_parse (tbuf T) (tb_fill T t_read rcap) (tb_consume T) (tb_read T t_read rcap) size (fun _ => F) (fun _ => F) dbg
              (match tc_parser T c with Some st => st | None => req_new end) (tc_stream T c)) as [y d] eqn:E1.
  destruct (req_parse_ends (tbuf T) _ _ _ size mb okb F size_pos tb_fill_ends tb_read_ends _ _ _ _ _ K L E1) as (H1 & H2 & H3 & H4).
  destruct y as [r|s k|e|].
  - inversion E; subst. cbn. repeat split; auto; [discriminate|]. intros Q. rewrite Q in H4. eapply H4; eauto.
  - assert (okb d /\ (mb d <= mb (tc_stream T c))%nat) as Z by auto.
    destruct k; try contradiction; try (destruct (is_closed s _)); inversion E; subst; cbn; repeat split; try (now apply Z); discriminate.
  - inversion E; subst. cbn. repeat split; auto; discriminate.
  - inversion E; subst. cbn. repeat split; auto; discriminate.
Qed.

Definition cost (ops : list sop) (c : tconn T) : nat :=
  Datatypes.S (List.length (wr_buf (tb_w T (tc_stream T c))) + weight ops + mu (tb_in T (tc_stream T c))).
Lemma tc_ops_ends F ops c x c' : okb (tc_stream T c) -> (cost ops c <= F)%nat -> tc_ops T t_write t_flush F ops c = (x, c') ->
  okb (tc_stream T c') /\ (mb (tc_stream T c') <= mb (tc_stream T c))%nat /\ x <> WErr ModelFuel /\ tc_parser T c' = tc_parser T c.
Proof.
  unfold tc_ops, tb_write, cost. intros K L E.
  destruct (t_run_ops T t_write t_flush F (tb_w T (tc_stream T c)) (tb_in T (tc_stream T c)) ops) as [[y w1] t1] eqn:E1.
  assert (B : (List.length (wr_buf (tb_w T (tc_stream T c))) + weight ops + mu (tb_in T (tc_stream T c)) < F)%nat) by lia.
  destruct (run_ops_ends _ _ _ _ _ _ _ K B E1) as (H1 & H2 & H3). inversion E; subst. unfold okb, mb. cbn. repeat split; auto; lia.
Qed.

Definition fresh_parser (c : tconn T) : nat := match tc_parser T c with None => 0 | Some _ => 1 end.

Lemma respond_ends dbg rt n : forall log c, okb (tc_stream T c) -> (mb (tc_stream T c) + fresh_parser c <= n)%nat ->
  exists F vd log' c', t_respond T t_read t_write t_flush size rcap F F dbg rt log c = Some (vd, log', c') /\ okb (tc_stream T c').
Proof.
  induction n as [n IH] using lt_wf_ind. intros log c K L.
  set (F1 := mb (tc_stream T c)).
  destruct (t_read_request T t_read size rcap F1 dbg c) as [rr c1] eqn:E1.
  destruct (read_request_ends _ _ _ _ _ K (le_n _) E1) as (H1 & H2 & H3 & H4).
  assert (One : forall ops F x c2, (F1 <= F)%nat -> (cost ops c1 <= F)%nat -> tc_ops T t_write t_flush F ops c1 = (x, c2) ->
    okb (tc_stream T c2) /\ (mb (tc_stream T c2) <= mb (tc_stream T c1))%nat /\ x <> WErr ModelFuel /\ tc_parser T c2 = tc_parser T c1 /\
    forall G, (F <= G)%nat -> t_read_request T t_read size rcap G dbg c = (rr, c1) /\ tc_ops T t_write t_flush G ops c1 = (x, c2)).
  { intros ops F x c2 LF LC E2. destruct (tc_ops_ends _ _ _ _ _ H1 LC E2) as (K1 & K2 & K3 & K4). repeat split; auto.
    - eapply (read_request_more T t_read size rcap F1 G); eauto. lia.
    - eapply (tc_ops_more T t_write t_flush F G); eauto. }
  assert (Rd : forall G, (F1 <= G)%nat -> t_read_request T t_read size rcap G dbg c = (rr, c1)) by (intros G LG; eapply (read_request_more T t_read size rcap F1 G); eauto).
  assert (Bad : forall ops, exists F x c2, okb (tc_stream T c2) /\ x <> WErr ModelFuel /\
     t_read_request T t_read size rcap F dbg c = (rr, c1) /\ tc_ops T t_write t_flush F ops c1 = (x, c2) /\ (0 < F)%nat).
  { intros ops. set (F := Datatypes.S (Nat.max F1 (cost ops c1))). destruct (tc_ops T t_write t_flush F ops c1) as [x c2] eqn:E2.
    destruct (One ops F x c2 ltac:(lia) ltac:(lia) E2) as (K1 & K2 & K3 & K4 & K5). exists F, x, c2. repeat split; auto; [apply K5; lia|lia]. }
  destruct rr as [|r|e|k| |].
  - exists (Datatypes.S F1), Keep, log, c1. cbn [t_respond]. rewrite Rd by lia. auto.
  - destruct (H4 r eq_refl) as [P1 P2].
    assert (Go : forall l, exists F vd log' c', okb (tc_stream T c') /\ t_read_request T t_read size rcap (Datatypes.S F) dbg c = (Ready r, c1) /\
      match tc_ops T t_write t_flush (Datatypes.S F) (result_ops l) c1 with
      | (WErr k, c2) => if ran_out k then None else Some (Close, log ++ [r], c2)
      | (WOk _, c2) => if should_close_after_response r then Some (Close, log ++ [r], c2)
          else t_respond T t_read t_write t_flush size rcap (Datatypes.S F) F dbg rt (log ++ [r]) c2
      end = Some (vd, log', c')).
    { intros l. set (F := Nat.max F1 (cost (result_ops l) c1)). destruct (tc_ops T t_write t_flush F (result_ops l) c1) as [x c2] eqn:E2.
      destruct (One (result_ops l) F x c2 ltac:(lia) ltac:(lia) E2) as (K1 & K2 & K3 & K4 & K5).
      destruct x as [u|k].
      - destruct (should_close_after_response r).
        + exists F, Close, (log ++ [r]), c2. destruct (K5 (Datatypes.S F) ltac:(lia)) as [Q1 Q2]. rewrite Q2. auto.
        + assert (L2 : (mb (tc_stream T c2) + fresh_parser c2 < n)%nat).
          { unfold fresh_parser in *. rewrite K4, P1. destruct (tc_parser T c); [lia|specialize (P2 eq_refl); lia]. }
          destruct (IH _ L2 (log ++ [r]) c2 K1 (le_n _)) as (G & vd & log' & c' & Eg & Kg).
          exists (Nat.max F G), vd, log', c'. destruct (K5 (Datatypes.S (Nat.max F G)) ltac:(lia)) as [Q1 Q2]. rewrite Q2. split; auto. split; auto.
          refine (respond_more T t_read t_write t_flush size rcap G (Datatypes.S (Nat.max F G)) _ dbg rt G (Nat.max F G) _ _ _ _ Eg); lia.
      - exists F, Close, (log ++ [r]), c2. destruct (K5 (Datatypes.S F) ltac:(lia)) as [Q1 Q2]. rewrite Q2. split; auto. split; auto.
        destruct k; auto. congruence. }
    destruct (rt log r) as [|rs|] eqn:Er.
    all: try (exists (Datatypes.S F1), Unwind, (log ++ [r]), c1; cbn [t_respond]; rewrite Rd by lia; rewrite Er; split; auto; fail).
    all: destruct (Go (rt log r)) as (F & vd & log' & c' & K1 & K2 & K3); exists (Datatypes.S F), vd, log', c'; split; auto;
      cbn [t_respond]; rewrite K2, Er; rewrite Er in K3; exact K3.
  - destruct (Bad error_ops) as (F & x & c2 & K1 & K2 & K3 & K4 & K5). exists F, Close, log, c2. split; auto. destruct F; [lia|].
    cbn [t_respond]. rewrite K3, K4. unfold out_of_fuel. destruct x as [u|k]; auto. destruct k; auto. congruence.
  - destruct (Bad error_ops) as (F & x & c2 & K1 & K2 & K3 & K4 & K5). exists F, Close, log, c2. split; auto. destruct F; [lia|].
    cbn [t_respond]. rewrite K3, K4. assert (ran_out k = false) as -> by (destruct k; auto; congruence).
    unfold out_of_fuel. destruct x as [u|j]; auto. destruct j; auto. congruence.
  - exists (Datatypes.S F1), Close, log, c1. cbn [t_respond]. rewrite Rd by lia. auto.
  - exists (Datatypes.S F1), Unwind, log, c1. cbn [t_respond]. rewrite Rd by lia. auto.
Qed.

Definition ok_slot (st : tslot T) : Prop :=
  match st with TOpen _ c => okb (tc_stream T c) | TGone _ t | TPoisoned _ t => True end.

Lemma handle_ends dbg rt f log st : (forall t, ok t -> ok (f t)) -> ok_slot st ->
  exists F log' st', ok_slot st' /\ forall G, (F <= G)%nat -> t_handle T t_read t_write t_flush size rcap G dbg rt f log st = Some (log', st').
Proof.
  intros Hf K. assert (exists F log' st', ok_slot st' /\ t_handle T t_read t_write t_flush size rcap F dbg rt f log st = Some (log', st')) as (F & l & s & K1 & E).
  2:{ exists F, l, s. split; auto. intros G L. eapply (handle_more T t_read t_write t_flush size rcap F G); eauto. }
  destruct st as [c|t|t]; [|exists 0%nat, log, (TGone T t); auto|exists 0%nat, log, (TPoisoned T t); auto]. cbn in K.
  set (F := Datatypes.S (List.length (wr_buf (tb_w T (tc_stream T (tc_env T f c)))) + mu (tb_in T (tc_stream T (tc_env T f c))))).
  destruct (tc_flush T t_write t_flush F (tc_env T f c)) as [x c1] eqn:E1.
  assert (x <> WErr ModelFuel /\ okb (tc_stream T c1)) as [N K1].
  { unfold tc_flush, tb_write in E1.
    destruct (t_wr_flush T t_write t_flush F (tb_w T (tc_stream T (tc_env T f c))) (tb_in T (tc_stream T (tc_env T f c)))) as [[y w1] t1] eqn:E2.
    assert (ok (tb_in T (tc_stream T (tc_env T f c)))) as K2 by (cbn; apply Hf; exact K).
    assert (L2 : (List.length (wr_buf (tb_w T (tc_stream T (tc_env T f c)))) + mu (tb_in T (tc_stream T (tc_env T f c))) < F)%nat) by (unfold F; lia).
    destruct (wr_flush_ends F _ _ _ _ _ K2 L2 E2) as (H1 & H2 & H3 & H4). inversion E1; subst. split; auto. }
  destruct x as [u|k].
  - destruct (respond_ends dbg rt _ log c1 K1 (le_n _)) as (G & vd & log' & c' & Eg & Kg).
    exists (Nat.max F G), log', (match vd with Keep => TOpen T c' | Close => TGone T (tb_in T (tc_stream T c')) | Unwind => TPoisoned T (tb_in T (tc_stream T c')) end).
    split; [destruct vd; cbn; auto|]. unfold t_handle.
    rewrite (tc_flush_more T t_write t_flush F (Nat.max F G) ltac:(lia) _ _ _ E1 N).
    rewrite (respond_more T t_read t_write t_flush size rcap G (Nat.max F G) ltac:(lia) dbg rt G (Nat.max F G) log c1 _ ltac:(lia) Eg). reflexivity.
  - exists F, log, (TGone T (tb_in T (tc_stream T c1))). split; [exact Logic.I|]. unfold t_handle. rewrite E1. destruct (ran_out k) eqn:Ek; auto.
    destruct k; try discriminate Ek. congruence.
Qed.

Lemma visits_ends dbg rt fs : Forall (fun f => forall t, ok t -> ok (f t)) fs -> forall log st, ok_slot st ->
  exists F log' st', ok_slot st' /\ forall G, (F <= G)%nat -> t_visits T t_read t_write t_flush size rcap G dbg rt fs log st = Some (log', st').
Proof.
  induction fs as [|f fs IH]; intros Fa log st K; cbn [t_visits].
  - exists 0%nat, log, st. auto.
  - inversion Fa as [|? ? Hf Fa']; subst. destruct (handle_ends dbg rt f log st Hf K) as (F1 & l1 & s1 & K1 & E1).
    destruct (IH Fa' l1 s1 K1) as (F2 & l2 & s2 & K2 & E2). exists (Nat.max F1 F2), l2, s2. split; auto. intros G L.
    rewrite E1 by lia. apply E2. lia.
Qed.
End Enough.
