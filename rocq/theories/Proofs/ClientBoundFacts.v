(** A client's sends on streams that are not interrupted for ever: they return, and take only so much. *)
From Coq Require Import List Ascii String Arith NArith Bool Lia.
From Verif.Model Require Import Bytes Io Common Parse Encode Writer Client Generic Buffered Streams ClientStreams.
From Verif.Spec Require Import Finite ClientStreams.
From Verif.Proofs Require Import FuelFacts MonoFacts BoundFacts.
Import ListNotations.
Local Open Scope N_scope.

(** ** More iterations *)
Section More.
Variable T : Type.
Variable t_read : N -> T -> (ekind + bytes) * T.
Variable t_write : bytes -> T -> wres N * T.
Variable t_flush : T -> wres unit * T.
Variable size : bytes -> N.
Variables F G : nat.
Hypothesis FG : (F <= G)%nat.

Lemma kflush_f_more n : forall g buf t x h t', (n <= g)%nat -> k_flush_f T t_write n buf t = (x, h, t') -> x <> WErr ModelFuel ->
  k_flush_f T t_write g buf t = (x, h, t').
Proof.
  induction n as [|n IH]; intros [|g] buf t x h t' L E N; cbn [k_flush_f] in *; try lia; destruct buf as [|c buf]; try exact E; try (inversion E; subst; congruence).
  destruct (t_write (c :: buf) t) as [[m|k] t1].
  - destruct (m =? 0); [exact E|]. apply IH; auto; lia.
  - destruct k; try exact E. apply IH; auto; lia.
Qed.
Lemma k_write_more buf t b x h t' : k_write T t_write F buf t b = (x, h, t') -> x <> WErr ModelFuel -> k_write T t_write G buf t b = (x, h, t').
Proof.
  unfold k_write. intros E N. destruct (BUF_WRITER_CAP <? len buf + len b); [|exact E].
  destruct (k_flush_f T t_write F buf t) as [[y h1] t1] eqn:E1.
  rewrite (kflush_f_more F G _ _ _ _ _ FG E1) by (intros ->; inversion E; subst; congruence). exact E.
Qed.
Lemma k_write_all_more n : forall g buf t b x h t', (n <= g)%nat -> k_write_all T t_write F n buf t b = (x, h, t') -> x <> WErr ModelFuel ->
  k_write_all T t_write G g buf t b = (x, h, t').
Proof.
  induction n as [|n IH]; intros [|g] buf t b x h t' L E N; cbn [k_write_all] in *; try lia; destruct b as [|c b]; try exact E; try (inversion E; subst; congruence).
  destruct (k_write T t_write F buf t (c :: b)) as [[y h1] t1] eqn:E1.
  assert (y <> WErr ModelFuel -> k_write T t_write G buf t (c :: b) = (y, h1, t1)) as M by (apply k_write_more; exact E1).
  destruct y as [m|k].
  - rewrite M by discriminate. destruct (m =? 0); [exact E|]. apply IH; auto; lia.
  - destruct k; try (rewrite M by (intros Q; inversion Q; subst; inversion E; subst; congruence); exact E).
    + rewrite M by discriminate. apply IH; auto; lia.
Qed.
Lemma k_flush_more buf t x h t' : k_flush T t_write t_flush F buf t = (x, h, t') -> x <> WErr ModelFuel -> k_flush T t_write t_flush G buf t = (x, h, t').
Proof.
  unfold k_flush. intros E N. destruct (k_flush_f T t_write F buf t) as [[y h1] t1] eqn:E1.
  rewrite (kflush_f_more F G _ _ _ _ _ FG E1) by (intros ->; inversion E; subst; congruence). exact E.
Qed.
Lemma k_put_pieces_more ps : forall buf t x h t', k_put_pieces T t_write t_flush F buf t ps = (x, h, t') -> x <> WErr ModelFuel ->
  k_put_pieces T t_write t_flush G buf t ps = (x, h, t').
Proof.
  induction ps as [|p ps IH]; intros buf t x h t' E N; cbn [k_put_pieces] in *; [now apply k_flush_more|].
  destruct (k_write_all T t_write F F buf t p) as [[y h1] t1] eqn:E1.
  rewrite (k_write_all_more F G _ _ _ _ _ _ FG E1) by (intros ->; inversion E; subst; congruence).
  destruct y; [now apply IH|exact E].
Qed.
Lemma k_send_request_more dbg d q r : k_send_request T t_read t_write t_flush size F dbg d q = Some r -> k_send_request T t_read t_write t_flush size G dbg d q = Some r.
Proof.
  unfold k_send_request. intros E. destruct (k_put_pieces T t_write t_flush F (kb_held T d) (kb_in T d) (request_pieces q)) as [[x h] t] eqn:E1.
  rewrite (k_put_pieces_more _ _ _ _ _ _ E1) by (intros ->; discriminate E). destruct x as [u|k]; [|exact E].
  unfold k_resp_parse in *.
  destruct (g_resp_parse (kbuf T) (kb_fill T t_read) (kb_consume T) (kb_read T t_read) size (fun _ => F) (fun _ => F) dbg resp_new (mk_kbuf T h (kb_buf T d) t)) as [y d2] eqn:E2.
  rewrite (resp_parse_mono (kbuf T) _ _ _ size F G FG _ _ _ _ _ E2); [exact E|]. destruct y as [v|s k|e|]; cbn; auto. destruct k; auto. discriminate E.
Qed.
Lemma k_drop_more d r : k_drop_stream T t_write F d = Some r -> k_drop_stream T t_write G d = Some r.
Proof.
  unfold k_drop_stream. intros E. destruct (k_flush_f T t_write F (kb_held T d) (kb_in T d)) as [[x h] t] eqn:E1.
  rewrite (kflush_f_more F G _ _ _ _ _ FG E1) by (intros ->; discriminate E). exact E.
Qed.
Lemma k_connect_more n c r : k_connect T t_write F n c = Some r -> k_connect T t_write G n c = Some r.
Proof.
  unfold k_connect. intros E. destruct (k_create T n) as [[k|s] n1]; auto. destruct (kc_stream T c) as [o|]; auto.
  destruct (k_drop_stream T t_write F o) as [o'|] eqn:E1; [|discriminate]. now rewrite (k_drop_more _ _ E1).
Qed.
Lemma k_first_more dbg c q r : k_first_attempt T t_read t_write t_flush size F dbg c q = Some r -> k_first_attempt T t_read t_write t_flush size G dbg c q = Some r.
Proof.
  unfold k_first_attempt. intros E. destruct (kc_stream T c) as [s|]; auto.
  destruct (k_send_request T t_read t_write t_flush size F dbg s q) as [[x s1]|] eqn:E1; [|discriminate]. now rewrite (k_send_request_more _ _ _ _ E1).
Qed.
Lemma k_conn_send_more dbg n c q r : k_conn_send T t_read t_write t_flush size F dbg n c q = Some r -> k_conn_send T t_read t_write t_flush size G dbg n c q = Some r.
Proof.
  unfold k_conn_send. intros E.
  assert (exists y, match kc_stream T c with Some _ => Some (None, n, c) | None => k_connect T t_write F n c end = Some y /\
            match kc_stream T c with Some _ => Some (None, n, c) | None => k_connect T t_write G n c end = Some y) as (y & Y1 & Y2).
  { destruct (kc_stream T c); [eauto|]. destruct (k_connect T t_write F n c) as [y|] eqn:Y; [|discriminate]. exists y. split; auto. now apply k_connect_more. }
  rewrite Y1 in E. rewrite Y2. destruct y as [[[e|] n1] c1]; auto.
  destruct (k_first_attempt T t_read t_write t_flush size F dbg c1 q) as [[x c2]|] eqn:E1; [|discriminate]. rewrite (k_first_more _ _ _ _ E1).
  assert (Z : match k_connect T t_write F n1 c2 with
              | None => None | Some (Some e, n2, c3) => Some (e, n2, c3)
              | Some (None, n2, c3) => match k_first_attempt T t_read t_write t_flush size F dbg c3 q with None => None | Some (r, c4) => Some (r, n2, c4) end end = Some r ->
              match k_connect T t_write G n1 c2 with
              | None => None | Some (Some e, n2, c3) => Some (e, n2, c3)
              | Some (None, n2, c3) => match k_first_attempt T t_read t_write t_flush size G dbg c3 q with None => None | Some (r, c4) => Some (r, n2, c4) end end = Some r).
  { intros E2. destruct (k_connect T t_write F n1 c2) as [[[[e|] n2] c3]|] eqn:E3; [| |discriminate]; rewrite (k_connect_more _ _ _ E3); auto.
    destruct (k_first_attempt T t_read t_write t_flush size F dbg c3 q) as [[x2 c4]|] eqn:E4; [|discriminate]. now rewrite (k_first_more _ _ _ _ E4). }
  destruct x; auto.
Qed.
Lemma k_conn_sends_more dbg qs : forall n c r, k_conn_sends T t_read t_write t_flush size F dbg n c qs = Some r -> k_conn_sends T t_read t_write t_flush size G dbg n c qs = Some r.
Proof.
  induction qs as [|q qs IH]; intros n c r E; cbn [k_conn_sends] in *; auto.
  destruct (k_conn_send T t_read t_write t_flush size F dbg n c q) as [[[x n1] c1]|] eqn:E1; [|discriminate]. rewrite (k_conn_send_more _ _ _ _ _ E1).
  destruct (k_conn_sends T t_read t_write t_flush size F dbg n1 c1 qs) as [[[xs n2] c2]|] eqn:E2; [|discriminate]. now rewrite (IH _ _ _ E2).
Qed.
End More.

(** ** Enough iterations, and how much is taken *)
Definition piece_total (ps : list bytes) : nat := fold_right (fun p n => (List.length p + n)%nat) 0%nat ps.

Section Enough.
Variable T : Type.
Variable t_read : N -> T -> (ekind + bytes) * T.
Variable t_write : bytes -> T -> wres N * T.
Variable t_flush : T -> wres unit * T.
Variable size : bytes -> N.
Hypothesis size_pos : forall acc, 0 < size acc.
Variable mu : T -> nat.
Variable ok : T -> Prop.
Hypothesis Pat : patient T t_read t_write t_flush mu ok.
(** What is counted; [pad]: what is still to be counted for what the BufReader holds, at most [top]; [u]: for a call that gives nothing. *)
Variable w : T -> N.
Variable pad : bytes -> N.
Variables top u : N.
Hypothesis w_read : forall n t x t', 0 < n -> ok t -> t_read n t = (x, t') ->
  match x with
  | inl k => w t' <= w t + u /\ (k = Interrupted -> w t' <= w t)
  | inr [] => w t' <= w t + u
  | inr bs => (n <= CLIENT_BUF_SIZE -> w t' + pad bs <= w t + pad []) /\ w t' <= w t + len bs
  end.
Hypothesis w_write : forall b t x t', b <> [] -> ok t -> t_write b t = (x, t') -> w t' <= w t.
Hypothesis w_flush : forall t x t', ok t -> t_flush t = (x, t') -> w t' <= w t.
Hypothesis pad_skip : forall b n, n <= len b -> len b <= CLIENT_BUF_SIZE -> pad (skipn (N.to_nat n) b) <= pad b + n.
Hypothesis pad_top : forall b, pad b <= top.

Definition less (t t' : T) : Prop := ok t' /\ (mu t' <= mu t)%nat /\ w t' <= w t.
Lemma less_refl t : ok t -> less t t.
Proof. unfold less. repeat split; auto. lia. Qed.
Lemma less_trans a b c : less a b -> less b c -> less a c.
Proof. intros (_ & A2 & A3) (B1 & B2 & B3). unfold less. repeat split; auto; lia. Qed.
Lemma wrote b t x t' : b <> [] -> ok t -> t_write b t = (x, t') -> less t t' /\ (forall k, x = WErr k -> k <> ModelFuel /\ (k = Interrupted -> (mu t' < mu t)%nat)).
Proof.
  intros Nb K E. destruct (patient_write _ _ _ _ _ _ Pat _ _ _ _ Nb K E) as (H1 & H2 & H3). split; [split; [auto|split; [auto|eapply w_write; eauto]]|].
  intros k ->. exact H3.
Qed.

Section Writes.
Variable fuel : nat.
Lemma kflush_f_ends n : forall buf t x h t', ok t -> (List.length buf + mu t < n)%nat -> k_flush_f T t_write n buf t = (x, h, t') ->
  less t t' /\ x <> WErr ModelFuel /\ x <> WErr Interrupted /\ (List.length h <= List.length buf)%nat.
Proof.
  induction n as [|n IH]; intros buf t x h t' K L E; [lia|]. cbn [k_flush_f] in E. destruct buf as [|c buf].
  { inversion E; subst. repeat split; auto; try discriminate. lia. }
  destruct (t_write (c :: buf) t) as [y t1] eqn:E1. assert (Nb : c :: buf <> []) by discriminate.
  destruct (wrote _ _ _ _ Nb K E1) as [H1 H2]. destruct y as [m|k].
  - destruct (N.eqb_spec m 0) as [Hm|Hm]; [inversion E; subst; repeat split; try apply H1; auto; discriminate|].
    assert (L1 : (List.length (skipn (N.to_nat m) (c :: buf)) < List.length (c :: buf))%nat) by (rewrite skipn_length; cbn [List.length]; lia).
    assert (L2 : (List.length (skipn (N.to_nat m) (c :: buf)) + mu t1 < n)%nat) by (destruct H1 as (_ & H1 & _); lia).
    destruct (IH _ _ _ _ _ (proj1 H1) L2 E) as (K1 & K2 & K3 & K4). split; [eapply less_trans; eauto|]. repeat split; auto. lia.
  - destruct (H2 k eq_refl) as [H3 H4].
    assert (Z : k <> Interrupted -> (WErr k, c :: buf, t1) = (x, h, t') -> less t t' /\ x <> WErr ModelFuel /\ x <> WErr Interrupted /\ (List.length h <= List.length (c :: buf))%nat).
    { intros Nk Q. inversion Q; subst. repeat split; try apply H1; auto; congruence. }
    destruct k; try (refine (Z _ E); discriminate). specialize (H4 eq_refl).
    assert (L2 : (List.length (c :: buf) + mu t1 < n)%nat) by lia.
    destruct (IH _ _ _ _ _ (proj1 H1) L2 E) as (K1 & K2 & K3 & K4). split; [eapply less_trans; eauto|]. repeat split; auto.
Qed.
Lemma k_write_ends buf t b x h t' : b <> [] -> ok t -> (List.length buf + mu t < fuel)%nat -> k_write T t_write fuel buf t b = (x, h, t') ->
  less t t' /\ match x with
  | WErr k => k <> ModelFuel /\ (k = Interrupted -> (mu t' < mu t)%nat) /\ (List.length h <= List.length buf)%nat
  | WOk m => (List.length h + List.length (skipn (N.to_nat m) b) <= List.length buf + List.length b)%nat
  end.
Proof.
  intros Nb K L E. unfold k_write in E.
  assert (exists y h1 t1, (if BUF_WRITER_CAP <? len buf + len b then k_flush_f T t_write fuel buf t else (WOk tt, buf, t)) = (y, h1, t1) /\
    less t t1 /\ y <> WErr ModelFuel /\ y <> WErr Interrupted /\ (List.length h1 <= List.length buf)%nat) as (y & h1 & t1 & E1 & H1 & H2 & H3 & H4).
  { destruct (BUF_WRITER_CAP <? len buf + len b).
    - destruct (k_flush_f T t_write fuel buf t) as [[y h1] t1] eqn:E1. exists y, h1, t1. split; auto. eapply kflush_f_ends; eauto.
    - exists (WOk tt), buf, t. split; auto. split; [now apply less_refl|]. repeat split; auto; discriminate. }
  rewrite E1 in E. destruct y as [v|k].
  2:{ inversion E; subst. split; auto. repeat split; auto; congruence. }
  destruct (BUF_WRITER_CAP <=? len b).
  - destruct (t_write b t1) as [z t2] eqn:E2. inversion E; subst. destruct (wrote _ _ _ _ Nb (proj1 H1) E2) as [K1 K2]. split; [eapply less_trans; eauto|].
    destruct x as [m|k]; [rewrite skipn_length; lia|]. destruct (K2 k eq_refl) as [Q1 Q2]. repeat split; auto. intros Q. specialize (Q2 Q). destruct H1 as (_ & H1 & _). lia.
  - inversion E; subst. split; auto. rewrite app_length. assert (skipn (N.to_nat (len b)) b = []) as -> by (apply skipn_all2; unfold len; lia). cbn [List.length]. lia.
Qed.
Lemma k_write_all_ends n : forall buf t b x h t', ok t -> (List.length b + mu t < n)%nat -> (List.length buf + List.length b + mu t < fuel)%nat ->
  k_write_all T t_write fuel n buf t b = (x, h, t') -> less t t' /\ x <> WErr ModelFuel /\ (List.length h <= List.length buf + List.length b)%nat.
Proof.
  induction n as [|n IH]; intros buf t b x h t' K L B E; [lia|]. cbn [k_write_all] in E. destruct b as [|c b].
  { inversion E; subst. split; [now apply less_refl|]. split; [discriminate|lia]. }
  destruct (k_write T t_write fuel buf t (c :: b)) as [[y h1] t1] eqn:E1. assert (Nb : c :: b <> []) by discriminate. assert (B1 : (List.length buf + mu t < fuel)%nat) by lia.
  destruct (k_write_ends _ _ _ _ _ _ Nb K B1 E1) as [H1 H2]. pose proof H1 as (Q1 & Q2 & _). destruct y as [m|k].
  - destruct (N.eqb_spec m 0) as [Hm|Hm].
    { inversion E; subst. split; auto. split; [discriminate|]. cbn in H2 |- *. lia. }
    assert (L1 : (List.length (skipn (N.to_nat m) (c :: b)) < List.length (c :: b))%nat) by (rewrite skipn_length; cbn [List.length]; lia).
    assert (L2 : (List.length (skipn (N.to_nat m) (c :: b)) + mu t1 < n)%nat) by lia.
    assert (L3 : (List.length h1 + List.length (skipn (N.to_nat m) (c :: b)) + mu t1 < fuel)%nat) by lia.
    destruct (IH _ _ _ _ _ _ Q1 L2 L3 E) as (K1 & K2 & K3). split; [eapply less_trans; eauto|]. split; auto. lia.
  - destruct H2 as (N1 & N2 & N3).
    assert (Z : (WErr k, h1, t1) = (x, h, t') -> less t t' /\ x <> WErr ModelFuel /\ (List.length h <= List.length buf + List.length (c :: b))%nat).
    { intros Q. inversion Q; subst. split; auto. split; [congruence|lia]. }
    destruct k; try exact (Z E). specialize (N2 eq_refl).
    assert (L2 : (List.length (c :: b) + mu t1 < n)%nat) by lia. assert (L3 : (List.length h1 + List.length (c :: b) + mu t1 < fuel)%nat) by lia.
    destruct (IH _ _ _ _ _ _ Q1 L2 L3 E) as (K1 & K2 & K3). split; [eapply less_trans; eauto|]. split; auto. lia.
Qed.
Lemma k_put_pieces_ends ps : forall buf t x h t', ok t -> (List.length buf + piece_total ps + mu t < fuel)%nat ->
  k_put_pieces T t_write t_flush fuel buf t ps = (x, h, t') -> less t t' /\ x <> WErr ModelFuel.
Proof.
  induction ps as [|p ps IH]; intros buf t x h t' K L E; cbn [k_put_pieces piece_total fold_right] in *.
  - unfold k_flush in E. destruct (k_flush_f T t_write fuel buf t) as [[y h1] t1] eqn:E1. assert (L1 : (List.length buf + mu t < fuel)%nat) by lia.
    destruct (kflush_f_ends _ _ _ _ _ _ K L1 E1) as (H1 & H2 & H3 & H4). destruct y as [v|k]; [|inversion E; subst; split; auto; congruence].
    destruct (t_flush t1) as [z t2] eqn:E2. inversion E; subst. destruct (patient_flush _ _ _ _ _ _ Pat _ _ _ (proj1 H1) E2) as (K1 & K2 & K3).
    split; auto. eapply less_trans; [exact H1|]. split; auto. split; auto. eapply w_flush; [|exact E2]. apply H1.
  - fold (piece_total ps) in L. destruct (k_write_all T t_write fuel fuel buf t p) as [[y h1] t1] eqn:E1.
    assert (L1 : (List.length p + mu t < fuel)%nat) by lia. assert (L2 : (List.length buf + List.length p + mu t < fuel)%nat) by lia.
    destruct (k_write_all_ends _ _ _ _ _ _ _ K L1 L2 E1) as (H1 & H2 & H3). destruct y as [v|k]; [|inversion E; subst; auto].
    assert (L3 : (List.length h1 + piece_total ps + mu t1 < fuel)%nat) by (destruct H1 as (_ & H1 & _); lia).
    destruct (IH _ _ _ _ _ (proj1 H1) L3 E) as [K1 K2]. split; auto. eapply less_trans; eauto.
Qed.
End Writes.

(** The BufReader. *)
Definition okk (d : kbuf T) : Prop := ok (kb_in T d) /\ len (kb_buf T d) <= CLIENT_BUF_SIZE.
Definition muk (d : kbuf T) : nat := mu (kb_in T d).
Definition wk (d : kbuf T) : N := w (kb_in T d) + pad (kb_buf T d).
Lemma cap_pos : 0 < CLIENT_BUF_SIZE.
Proof. reflexivity. Qed.

Lemma kb_fill_bound d x d' : okk d -> kb_fill T t_read d = (x, d') ->
  okk d' /\ (muk d' <= muk d)%nat /\ wk d' <= wk d + u /\
  match x with
  | inl k => k <> ModelFuel /\ (k = Interrupted -> (muk d' < muk d)%nat /\ wk d' <= wk d)
  | inr bs => (bs <> [] -> wk d' <= wk d) /\
      forall n, n <= len bs -> okk (kb_consume T n d') /\ (muk (kb_consume T n d') <= muk d')%nat /\ wk (kb_consume T n d') <= wk d' + n
  end.
Proof.
  unfold okk, muk, wk. intros [K1 K2] E. unfold kb_fill in E. destruct (kb_buf T d) as [|c bs] eqn:Eb.
  - destruct (t_read CLIENT_BUF_SIZE (kb_in T d)) as [y t1] eqn:E1. destruct (patient_read _ _ _ _ _ _ Pat _ _ _ _ cap_pos K1 E1) as (H1 & H2 & H3).
    pose proof (w_read _ _ _ _ cap_pos K1 E1) as H4. pose proof (N.le_refl CLIENT_BUF_SIZE) as Hr. destruct y as [k|bs]; inversion E; subst; cbn [kb_in kb_buf kb_consume].
    + destruct H3 as [H3 H5]. destruct H4 as [H4 H6]. repeat split; auto; try lia; try (now apply H5); specialize (H6 H); lia.
    + split; [auto|]. split; auto. split; [destruct bs; [lia|]; destruct H4 as [H4 _]; specialize (H4 Hr); lia|]. split; [intros Nb; destruct bs; [contradiction|]; destruct H4 as [H4 _]; specialize (H4 Hr); lia|].
      intros n Hn. split; [split; [auto|]|split; [auto|]].
      * unfold len in *. rewrite skipn_length. lia.
      * pose proof (pad_skip bs n Hn H3). lia.
  - inversion E; subst. rewrite Eb. split; [auto|]. split; auto. split; [lia|]. split; [intros _; lia|]. intros n Hn. cbn [kb_in kb_buf kb_consume]. rewrite Eb.
    split; [split; [auto|]|split; [auto|]].
    + unfold len in *. rewrite skipn_length. lia.
    + pose proof (pad_skip (c :: bs) n Hn K2). lia.
Qed.
Lemma kb_read_bound n d x d' : 0 < n -> okk d -> kb_read T t_read n d = (x, d') ->
  okk d' /\ (muk d' <= muk d)%nat /\
  match x with
  | inl k => wk d' <= wk d + u /\ k <> ModelFuel /\ (k = Interrupted -> (muk d' < muk d)%nat /\ wk d' <= wk d)
  | inr bs => len bs <= n /\ wk d' <= wk d + match bs with [] => u | _ => len bs end
  end.
Proof.
  intros Hn K E. unfold kb_read in E. destruct (kb_buf T d) as [|c bs] eqn:Eb.
  - destruct (CLIENT_BUF_SIZE <=? n).
    + destruct K as [K1 K2]. destruct (t_read n (kb_in T d)) as [y t1] eqn:E1. destruct (patient_read _ _ _ _ _ _ Pat _ _ _ _ Hn K1 E1) as (H1 & H2 & H3).
      pose proof (w_read _ _ _ _ Hn K1 E1) as H4. inversion E; subst. unfold okk, muk, wk. rewrite Eb. cbn [kb_in kb_buf]. split; [split; auto; rewrite Eb in K2; auto|]. split; auto.
      destruct x as [k|[|c bs]].
      * destruct H3 as [H3 H5]. destruct H4 as [H4 H6]. repeat split; auto; try lia; try (now apply H5); specialize (H6 H); lia.
      * split; auto. lia.
      * split; auto. destruct H4. lia.
    + destruct (kb_fill T t_read d) as [y d1] eqn:E1. destruct (kb_fill_bound _ _ _ K E1) as (H1 & H2 & H3 & H4).
      destruct y as [k|bs]; inversion E; subst; auto. destruct H4 as [H4 H5].
      assert (Q : N.min n (len bs) <= len bs) by lia. destruct (H5 _ Q) as (Q1 & Q2 & Q3). split; auto. split; [lia|].
      split; [unfold len; rewrite firstn_length; lia|]. destruct bs as [|c bs].
      * rewrite firstn_nil. assert (Ez : N.min n (len (@nil ascii)) = 0) by (unfold len; cbn [List.length]; lia). rewrite Ez in Q3 |- *. lia.
      * assert (wk d1 <= wk d) by (apply H4; discriminate).
        assert (exists m, N.to_nat n = Datatypes.S m) as [m Em] by (exists (pred (N.to_nat n)); lia).
        assert (len (firstn (N.to_nat n) (c :: bs)) = N.min n (len (c :: bs))) as El by (unfold len; rewrite firstn_length; lia).
        rewrite Em in *. cbn [firstn] in *. lia.
  - inversion E; subst. destruct K as [K1 K2]. rewrite Eb in K2. unfold okk, muk, wk. cbn [kb_in kb_buf kb_consume]. rewrite Eb.
    assert (Q : N.min n (len (c :: bs)) <= len (c :: bs)) by lia. pose proof (pad_skip _ _ Q K2) as Hp.
    assert (exists m, N.to_nat n = Datatypes.S m) as [m Em] by (exists (pred (N.to_nat n)); lia).
    assert (len (firstn (N.to_nat n) (c :: bs)) = N.min n (len (c :: bs))) as El by (unfold len; rewrite firstn_length; lia).
    split; [split; [auto|]|split; [auto|split; [lia|]]].
    + unfold len in *. rewrite skipn_length. lia.
    + rewrite Em in *. cbn [firstn] in *. lia.
Qed.

(** What one attempt adds. *)
Definition once : N := top + message_max + u.
Lemma k_send_request_ends dbg d q : okk d -> exists F x d', okk d' /\ (muk d' <= muk d)%nat /\ w (kb_in T d') <= w (kb_in T d) + once /\
  forall G, (F <= G)%nat -> k_send_request T t_read t_write t_flush size G dbg d q = Some (x, d').
Proof.
  intros K. pose proof K as [K1 K2].
  set (F := (List.length (kb_held T d) + piece_total (request_pieces q) + mu (kb_in T d) + N.to_nat MAX_BODY_SIZE + 1)%nat).
  assert (exists x d', okk d' /\ (muk d' <= muk d)%nat /\ w (kb_in T d') <= w (kb_in T d) + once /\ k_send_request T t_read t_write t_flush size F dbg d q = Some (x, d')) as (x & d' & H1 & H2 & H3 & H4).
  { unfold k_send_request. destruct (k_put_pieces T t_write t_flush F (kb_held T d) (kb_in T d) (request_pieces q)) as [[y h] t] eqn:E1.
    assert (L1 : (List.length (kb_held T d) + piece_total (request_pieces q) + mu (kb_in T d) < F)%nat) by (unfold F; lia).
    destruct (k_put_pieces_ends F _ _ _ _ _ _ K1 L1 E1) as [H1 H2]. pose proof H1 as (Q1 & Q2 & Q3). destruct y as [v|k].
    - unfold k_resp_parse.
      destruct (g_resp_parse (kbuf T) (kb_fill T t_read) (kb_consume T) (kb_read T t_read) size (fun _ => F) (fun _ => F) dbg resp_new (mk_kbuf T h (kb_buf T d) t)) as [z d2] eqn:E2.
      assert (Kd : okk (mk_kbuf T h (kb_buf T d) t)) by (split; auto).
      assert (Rd : room (kbuf T) muk F (mk_kbuf T h (kb_buf T d) t)) by (unfold room, muk, F; cbn [kb_in]; lia).
      destruct (resp_parse_bound (kbuf T) (kb_fill T t_read) (kb_consume T) (kb_read T t_read) size muk wk u okk F size_pos kb_fill_bound kb_read_bound dbg _ _ _ Kd Rd E2) as (J1 & J2 & J3 & J4).
      assert (W : w (kb_in T d2) <= w (kb_in T d) + once).
      { unfold wk in J4. cbn [kb_in kb_buf] in J4. pose proof (pad_top (kb_buf T d)). unfold once. lia. }
      unfold muk in J2. cbn [kb_in] in J2. assert (M : (muk d2 <= muk d)%nat) by (unfold muk; lia).
      destruct z as [r|s k|e|]; try (eexists; exists d2; split; [exact J1|split; [exact M|split; [exact W|reflexivity]]]).
      assert (ran_out k = false) as -> by (destruct k; auto; contradiction).
      eexists; exists d2; split; [exact J1|split; [exact M|split; [exact W|reflexivity]]].
    - assert (ran_out k = false) as -> by (destruct k; auto; contradiction).
      eexists. eexists. split; [|split; [|split; [|reflexivity]]]; cbn [kb_in kb_buf]; [split; auto|unfold muk; auto|lia]. }
  exists F, x, d'. repeat split; try apply H1; auto. intros G L. eapply k_send_request_more; eauto.
Qed.

(** All the streams of a connection and of its network. *)
Definition oko (o : option (kbuf T)) : Prop := match o with Some d => okk d | None => True end.
Definition okn (n : knet T) : Prop := Forall (fun x => match x with inr t => ok t | inl _ => True end) n.
Notation total := (total_of T w).
Lemma total_app (a b : list T) : total (a ++ b) = total a + total b.
Proof. induction a as [|t a IH]; cbn [app total_of]; [lia|]. rewrite IH. lia. Qed.
Notation all n c := (total (streams T n c)).

Lemma create_ok n x n' : okn n -> k_create T n = (x, n') -> okn n' /\ total (coming T n') + (match x with inr s => w s | inl _ => 0 end) <= total (coming T n) /\
  match x with inr s => ok s | inl _ => True end.
Proof.
  assert (One : forall n x n', okn n -> k_tcp_connect T n = (x, n') -> okn n' /\ total (coming T n') + (match x with inr s => w s | inl _ => 0 end) <= total (coming T n) /\
    match x with inr s => ok s | inl _ => True end).
  { intros m y m' K E. unfold k_tcp_connect in E. destruct m as [|z m]; inversion E; subst; [repeat split; auto; cbn; lia|]. inversion K; subst. split; auto.
    destruct y as [k|s]; cbn [coming flat_map app total_of]; split; auto; fold (coming T m'); lia. }
  intros K E. unfold k_create in E. destruct (k_tcp_connect T n) as [[k|s] n1] eqn:E1; destruct (One _ _ _ K E1) as (H1 & H2 & H3).
  - destruct (One _ _ _ H1 E) as (J1 & J2 & J3). repeat split; auto. lia.
  - inversion E; subst. auto.
Qed.
Lemma k_drop_ends d : okk d -> exists F d', okk d' /\ w (kb_in T d') <= w (kb_in T d) /\ forall G, (F <= G)%nat -> k_drop_stream T t_write G d = Some d'.
Proof.
  intros [K1 K2]. set (F := (List.length (kb_held T d) + mu (kb_in T d) + 1)%nat).
  destruct (k_flush_f T t_write F (kb_held T d) (kb_in T d)) as [[x h] t] eqn:E. assert (L : (List.length (kb_held T d) + mu (kb_in T d) < F)%nat) by (unfold F; lia).
  destruct (kflush_f_ends _ _ _ _ _ _ K1 L E) as ((H1 & H2 & H3) & H4 & _). exists F, (mk_kbuf T h (kb_buf T d) t). split; [split; auto|]. split; [auto|].
  intros G LG. apply (k_drop_more T t_read t_write t_flush size F G LG). unfold k_drop_stream. rewrite E. destruct x as [v|k]; auto. destruct k; auto. now contradiction H4.
Qed.
Lemma k_connect_ends n c : okn n -> oko (kc_stream T c) -> exists F e n' c', okn n' /\ oko (kc_stream T c') /\ all n' c' <= all n c /\
  (e = None -> kc_stream T c' <> None) /\ forall G, (F <= G)%nat -> k_connect T t_write G n c = Some (e, n', c').
Proof.
  intros Kn Kc. destruct (k_create T n) as [x n1] eqn:E1. destruct (create_ok _ _ _ Kn E1) as (H1 & H2 & H3). unfold k_connect. rewrite E1.
  destruct x as [k|s].
  - exists 0%nat, (Some (CConnecting k)), n1, c. repeat split; auto; [|discriminate]. unfold streams. rewrite !total_app. lia.
  - assert (O : okk (mk_kbuf T [] [] s)) by (split; auto; cbn; unfold CLIENT_BUF_SIZE, len; cbn; lia).
    destruct (kc_stream T c) as [d|] eqn:Ec.
    + destruct (k_drop_ends d Kc) as (F & d' & J1 & J2 & J3). exists F, None, n1, (mk_kconn T (Some (mk_kbuf T [] [] s)) (kc_dropped T c ++ [d'])).
      split; auto. split; [exact O|]. split; [|split; [discriminate|intros G L; now rewrite J3]].
      unfold streams, current. rewrite Ec. cbn [kc_stream kc_dropped kb_in]. rewrite map_app, !total_app. cbn [map total_of kb_in]. lia.
    + exists 0%nat, None, n1, (mk_kconn T (Some (mk_kbuf T [] [] s)) (kc_dropped T c)). split; auto. split; [exact O|]. split; [|split; [discriminate|auto]].
      unfold streams, current. rewrite Ec. cbn [kc_stream kc_dropped kb_in]. rewrite !total_app. cbn [map total_of kb_in]. lia.
Qed.
Lemma k_first_ends dbg n c q : oko (kc_stream T c) -> exists F x c', oko (kc_stream T c') /\ all n c' <= all n c + once /\
  forall G, (F <= G)%nat -> k_first_attempt T t_read t_write t_flush size G dbg c q = Some (x, c').
Proof.
  intros Kc. unfold k_first_attempt. destruct (kc_stream T c) as [d|] eqn:Ec.
  - destruct (k_send_request_ends dbg d q Kc) as (F & x & d' & H1 & _ & H2 & H3). exists F, x, (mk_kconn T (Some d') (kc_dropped T c)).
    split; [exact H1|]. split; [|intros G L; now rewrite H3]. unfold streams, current. rewrite Ec. cbn [kc_stream kc_dropped]. rewrite !total_app. cbn [total_of]. lia.
  - exists 0%nat, CPanic, c. rewrite Ec. split; [exact Logic.I|]. split; [lia|auto].
Qed.
Lemma k_conn_send_ends dbg n c q : okn n -> oko (kc_stream T c) -> exists F x n' c', okn n' /\ oko (kc_stream T c') /\ all n' c' <= all n c + 2 * once /\
  forall G, (F <= G)%nat -> k_conn_send T t_read t_write t_flush size G dbg n c q = Some (x, n', c').
Proof.
  intros Kn Kc.
  assert (exists F0 e n1 c1, okn n1 /\ oko (kc_stream T c1) /\ all n1 c1 <= all n c /\
    forall G, (F0 <= G)%nat -> match kc_stream T c with Some _ => Some (None, n, c) | None => k_connect T t_write G n c end = Some (e, n1, c1)) as (F0 & e & n1 & c1 & A1 & A2 & A3 & A4).
  { destruct (kc_stream T c) as [d|] eqn:Ec.
    - exists 0%nat, None, n, c. rewrite Ec. repeat split; auto; try apply Kc. lia.
    - assert (Kc' : oko (kc_stream T c)) by (rewrite Ec; exact Logic.I). destruct (k_connect_ends n c Kn Kc') as (F & e & n' & c' & B1 & B2 & B3 & _ & B4). exists F, e, n', c'. auto. }
  destruct e as [e|].
  { exists F0, e, n1, c1. repeat split; auto; [lia|]. intros G L. unfold k_conn_send. now rewrite A4. }
  destruct (k_first_ends dbg n1 c1 q A2) as (F1 & x & c2 & B1 & B2 & B3).
  destruct (k_connect_ends n1 c2 A1 B1) as (F2 & e2 & n2 & c3 & C1 & C2 & C3 & _ & C4).
  destruct (k_first_ends dbg n2 c3 q C2) as (F3 & x3 & c4 & D1 & D2 & D3).
  set (F := Nat.max (Nat.max F0 F1) (Nat.max F2 F3)).
  destruct (match x with COk _ | CPanic => true | _ => false end) eqn:Ex.
  - exists F, x, n1, c2. repeat split; auto; [lia|]. intros G L. unfold k_conn_send. rewrite A4, B3 by (unfold F in L; lia). destruct x; auto; discriminate.
  - destruct e2 as [e2|].
    + exists F, e2, n2, c3. repeat split; auto; [lia|]. intros G L. unfold k_conn_send. rewrite A4, B3, C4 by (unfold F in L; lia). destruct x; auto; discriminate.
    + exists F, x3, n2, c4. repeat split; auto; [lia|]. intros G L. unfold k_conn_send. rewrite A4, B3, C4, D3 by (unfold F in L; lia). destruct x; auto; discriminate.
Qed.
Lemma k_conn_sends_ends dbg qs : forall n c, okn n -> oko (kc_stream T c) -> exists F xs n' c', okn n' /\ oko (kc_stream T c') /\
  all n' c' <= all n c + 2 * once * len qs /\ forall G, (F <= G)%nat -> k_conn_sends T t_read t_write t_flush size G dbg n c qs = Some (xs, n', c').
Proof.
  induction qs as [|q qs IH]; intros n c Kn Kc; cbn [k_conn_sends].
  - exists 0%nat, [], n, c. repeat split; auto. change (len []) with 0. lia.
  - destruct (k_conn_send_ends dbg n c q Kn Kc) as (F1 & x & n1 & c1 & A1 & A2 & A3 & A4). destruct (IH n1 c1 A1 A2) as (F2 & xs & n2 & c2 & B1 & B2 & B3 & B4).
    exists (Nat.max F1 F2), (x :: xs), n2, c2. repeat split; auto.
    + assert (len (q :: qs) = 1 + len qs) as -> by (unfold len; cbn [List.length]; lia). lia.
    + intros G L. rewrite A4, B4 by lia. reflexivity.
Qed.
End Enough.
