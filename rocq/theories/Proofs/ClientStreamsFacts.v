(** A client's connection on streams is a connection on sockets. *)
From Coq Require Import List Ascii String Arith NArith Bool Lia.
From Verif.Model Require Import Bytes Io Common Parse Encode Writer Client Generic Buffered Streams ClientStreams.
From Verif.Spec Require Import Buffering Streams ClientStreams.
From Verif.Proofs Require Import BytesFacts GenericFacts FuelFacts BufferedFacts MonoFacts BlockedFacts.
Import ListNotations.
Local Open Scope N_scope.
Notation sock_write := Verif.Model.Client.sock_write.

(** ** The socket's side: fuel of BufWriter's loops *)

Lemma sock_write_len s b x s' : sock_write s b = (x, s') ->
  (sk_events s = [] /\ x = WOk (len b) /\ sk_events s' = []) \/ S (List.length (sk_events s')) = List.length (sk_events s).
Proof. unfold sock_write. destruct (sk_events s) as [|[n|k] evs]; intros E; inversion E; subst; cbn; auto. Qed.

Lemma bw_flush_same f1 : forall f2 buf s, (List.length (sk_events s) < f1)%nat -> (List.length (sk_events s) < f2)%nat ->
  bw_flush_f f1 buf s = bw_flush_f f2 buf s.
Proof.
  induction f1 as [|f1 IH]; intros [|f2] buf s H1 H2; try lia. cbn [bw_flush_f]. destruct buf as [|c buf]; auto.
  destruct (sock_write s (c :: buf)) as [x s1] eqn:E. apply sock_write_len in E as [(E1 & -> & E2)|E].
  - destruct (len (c :: buf) =? 0); auto. rewrite skipn_full by lia. destruct f1, f2; reflexivity.
  - destruct x as [n|k].
    + destruct (n =? 0); auto. apply IH; lia.
    + destruct k; auto. apply IH; lia.
Qed.
Lemma bw_flush_mono f : forall g buf s r buf' s', (f <= g)%nat -> bw_flush_f f buf s = (r, buf', s') -> r <> WErr ModelFuel ->
  bw_flush_f g buf s = (r, buf', s').
Proof.
  induction f as [|f IH]; intros [|g] buf s r buf' s' H E N; cbn [bw_flush_f] in *; try lia;
    try (destruct buf; [exact E|inversion E; subst; congruence]); auto.
  destruct buf as [|c buf]; [exact E|].
  destruct (sock_write s (c :: buf)) as [[n|k] s1].
  - destruct (n =? 0); [exact E|]. apply IH; auto; lia.
  - destruct k; try exact E. apply IH; auto; lia.
Qed.
Lemma bw_flush_any f buf s r buf' s' : bw_flush_f f buf s = (r, buf', s') -> r <> WErr ModelFuel -> bw_flush_buf buf s = (r, buf', s').
Proof.
  intros E N. unfold bw_flush_buf. set (g := (f + S (List.length (sk_events s)))%nat).
  rewrite (bw_flush_same _ g) by (unfold g; lia). apply (bw_flush_mono f); auto. unfold g; lia.
Qed.

Lemma bw_flush_f_len f : forall buf s r buf' s', bw_flush_f f buf s = (r, buf', s') ->
  (List.length (sk_events s') <= List.length (sk_events s))%nat /\
  match r with WErr ModelFuel => True | WErr _ => (List.length (sk_events s') < List.length (sk_events s))%nat | WOk _ => True end.
Proof.
  induction f as [|f IH]; intros buf s r buf' s' E; cbn [bw_flush_f] in E; (destruct buf as [|c buf]; [inversion E; subst; auto|]).
  { inversion E; subst; auto. }
  destruct (sock_write s (c :: buf)) as [x s1] eqn:Ew. apply sock_write_len in Ew.
  assert (L : (List.length (sk_events s1) <= List.length (sk_events s))%nat).
  { destruct Ew as [(-> & _ & ->)|Ew]; lia. }
  assert (Go : forall b, bw_flush_f f b s1 = (r, buf', s') -> (List.length (sk_events s') <= List.length (sk_events s))%nat /\
     match r with WErr ModelFuel => True | WErr _ => (List.length (sk_events s') < List.length (sk_events s))%nat | WOk _ => True end).
  { intros b X. apply IH in X as [A B]. split; [lia|]. destruct r as [u|[]]; auto; lia. }
  destruct x as [n|k].
  - destruct (n =? 0) eqn:E0; [|eauto]. inversion E; subst. split; auto.
    destruct Ew as [(_ & X & _)|Ew]; [|cbn; lia]. inversion X; subst. apply N.eqb_eq in E0. unfold len in E0. cbn [List.length] in E0. lia.
  - destruct Ew as [(_ & X & _)|Ew]; [discriminate|]. destruct k; eauto; inversion E; subst; split; auto; lia.
Qed.
Lemma bw_write_len buf s b r buf' s' : bw_write buf s b = (r, buf', s') ->
  match r with
  | WOk n => n = len b \/ (List.length (sk_events s') < List.length (sk_events s))%nat
  | WErr k => k = ModelFuel \/ (List.length (sk_events s') < List.length (sk_events s))%nat
  end.
Proof.
  unfold bw_write. intros E.
  destruct (if BUF_WRITER_CAP <? len buf + len b then bw_flush_buf buf s else (WOk tt, buf, s)) as [[x buf1] s1] eqn:E1.
  assert (L : (List.length (sk_events s1) <= List.length (sk_events s))%nat /\
    match x with WErr ModelFuel => True | WErr _ => (List.length (sk_events s1) < List.length (sk_events s))%nat | WOk _ => True end).
  { destruct (BUF_WRITER_CAP <? len buf + len b); [eapply bw_flush_f_len; eauto|inversion E1; subst; auto]. }
  destruct L as [L1 L2]. destruct x as [u|k].
  - destruct (BUF_WRITER_CAP <=? len b); [|inversion E; subst; auto].
    destruct (sock_write s1 b) as [y s2] eqn:Ew. inversion E; subst. apply sock_write_len in Ew as [(_ & -> & _)|Ew]; [auto|].
    destruct r as [n|k]; right; lia.
  - inversion E; subst. destruct k; auto.
Qed.

Lemma bw_write_all_same f1 : forall f2 buf s b, (List.length (sk_events s) < f1)%nat -> (List.length (sk_events s) < f2)%nat ->
  bw_write_all_f f1 buf s b = bw_write_all_f f2 buf s b.
Proof.
  induction f1 as [|f1 IH]; intros [|f2] buf s b H1 H2; try lia. cbn [bw_write_all_f]. destruct b as [|c b]; auto.
  destruct (bw_write buf s (c :: b)) as [[[n|k] buf1] s1] eqn:E; apply bw_write_len in E.
  - destruct (n =? 0); auto. destruct E as [->|E]; [|apply IH; lia]. rewrite skipn_full by lia. destruct f1, f2; reflexivity.
  - destruct k; auto. destruct E as [E|E]; [discriminate|]. apply IH; lia.
Qed.
Lemma bw_write_all_mono f : forall g buf s b r buf' s', (f <= g)%nat -> bw_write_all_f f buf s b = (r, buf', s') -> r <> WErr ModelFuel ->
  bw_write_all_f g buf s b = (r, buf', s').
Proof.
  induction f as [|f IH]; intros [|g] buf s b r buf' s' H E N; cbn [bw_write_all_f] in *; try lia;
    try (destruct b; [exact E|inversion E; subst; congruence]); auto.
  destruct b as [|c b]; [exact E|].
  destruct (bw_write buf s (c :: b)) as [[[n|k] w1] s1].
  - destruct (n =? 0); [exact E|]. apply IH; auto; lia.
  - destruct k; try exact E. apply IH; auto; lia.
Qed.
Lemma bw_write_all_any f buf s b r buf' s' : bw_write_all_f f buf s b = (r, buf', s') -> r <> WErr ModelFuel ->
  bw_write_all buf s b = (r, buf', s').
Proof.
  intros E N. unfold bw_write_all. set (g := (f + S (List.length (sk_events s)))%nat).
  rewrite (bw_write_all_same _ g) by (unfold g; lia). apply (bw_write_all_mono f); auto. unfold g; lia.
Qed.

Lemma bw_flush_eq buf s : bw_flush buf s =
  match bw_flush_buf buf s with
  | (WErr k, buf1, s1) => (WErr k, buf1, s1)
  | (WOk _, buf1, s1) => let (r, s2) := sock_flush s1 in (r, buf1, s2)
  end.
Proof.
  unfold bw_flush, sock_flush. destruct (bw_flush_buf buf s) as [[[u|k] b1] s1]; auto. destruct (sk_flushes s1) as [|[]]; auto.
Qed.

(** ** The simulation *)

Section Streams.
Variable T : Type.
Variable t_read : N -> T -> (ekind + bytes) * T.
Variable t_write : bytes -> T -> wres N * T.
Variable t_flush : T -> wres unit * T.
Variable size : bytes -> N.
Hypothesis size_pos : forall acc, 0 < size acc.
Variable fuel : nat.

(** Backwards: [Rel a t s k] if the socket that will give s, and whose output side is k, can be in the place of t; [a] stays the same. *)
Variable A : Type.
Variable Rel : A -> T -> stream -> sock -> Prop.
Hypothesis rel_read : forall a n t x t' s k, 0 < n -> t_read n t = (x, t') -> Rel a t' s k ->
  exists s0, Rel a t s0 k /\ raw_read n s0 = (x, s).
Hypothesis rel_write : forall a b t x t' s k', b <> [] -> t_write b t = (x, t') -> Rel a t' s k' ->
  exists k, Rel a t s k /\ sock_write k b = (x, k').
Hypothesis rel_flush : forall a t x t' s k', t_flush t = (x, t') -> Rel a t' s k' ->
  exists k, Rel a t s k /\ sock_flush k = (x, k').

Lemma k_flush_f_ok a n : forall buf t r buf' t' s k', k_flush_f T t_write n buf t = (r, buf', t') -> r <> WErr ModelFuel -> Rel a t' s k' ->
  exists k, Rel a t s k /\ bw_flush_f n buf k = (r, buf', k').
Proof.
  induction n as [|n IH]; intros buf t r buf' t' s k' E Nf Hr; cbn [k_flush_f bw_flush_f] in *;
    (destruct buf as [|c buf]; [inversion E; subst; eauto|]); [inversion E; subst; congruence|].
  destruct (t_write (c :: buf) t) as [x t1] eqn:Ew.
  assert (W : forall k1, Rel a t1 s k1 -> exists k, Rel a t s k /\ sock_write k (c :: buf) = (x, k1)).
  { intros k1 R1. eapply rel_write; eauto. discriminate. }
  destruct x as [m|e].
  - destruct (m =? 0) eqn:Em.
    + inversion E; subst. destruct (W _ Hr) as (k & R & Ek). exists k. split; auto. rewrite Ek, Em. auto.
    + destruct (IH _ _ _ _ _ _ _ E Nf Hr) as (k1 & R1 & E1). destruct (W _ R1) as (k & R & Ek). exists k. split; auto. rewrite Ek, Em. auto.
  - destruct e; try (inversion E; subst; destruct (W _ Hr) as (k & R & Ek); exists k; split; auto; rewrite Ek; auto; fail).
    destruct (IH _ _ _ _ _ _ _ E Nf Hr) as (k1 & R1 & E1). destruct (W _ R1) as (k & R & Ek). exists k. split; auto. rewrite Ek. auto.
Qed.

Lemma k_flush_buf_ok a buf t r buf' t' s k' : k_flush_f T t_write fuel buf t = (r, buf', t') -> r <> WErr ModelFuel -> Rel a t' s k' ->
  exists k, Rel a t s k /\ bw_flush_buf buf k = (r, buf', k').
Proof.
  intros E Nf Hr. destruct (k_flush_f_ok _ _ _ _ _ _ _ _ _ E Nf Hr) as (k & R & Ek). exists k. split; auto. eapply bw_flush_any; eauto.
Qed.

Lemma k_write_ok a buf t b r buf' t' s k' : b <> [] -> k_write T t_write fuel buf t b = (r, buf', t') -> r <> WErr ModelFuel -> Rel a t' s k' ->
  exists k, Rel a t s k /\ bw_write buf k b = (r, buf', k').
Proof.
  unfold k_write, bw_write. intros Hb E Nf Hr.
  destruct (if BUF_WRITER_CAP <? len buf + len b then k_flush_f T t_write fuel buf t else (WOk tt, buf, t)) as [[x buf1] t1] eqn:E1.
  assert (F : forall k1, x <> WErr ModelFuel -> Rel a t1 s k1 -> exists k, Rel a t s k /\
     (if BUF_WRITER_CAP <? len buf + len b then bw_flush_buf buf k else (WOk tt, buf, k)) = (x, buf1, k1)).
  { intros k1 Nx R1. destruct (BUF_WRITER_CAP <? len buf + len b); [eapply k_flush_buf_ok; eauto|]. inversion E1; subst. eauto. }
  destruct x as [u|e].
  - destruct (BUF_WRITER_CAP <=? len b) eqn:Ec.
    + destruct (t_write b t1) as [y t2] eqn:Ew. inversion E; subst. destruct (rel_write _ _ _ _ _ _ _ Hb Ew Hr) as (k1 & R1 & Ek1).
      destruct (F k1 ltac:(discriminate) R1) as (k & R & Ek). exists k. split; auto. rewrite Ek, Ek1. auto.
    + inversion E; subst. destruct (F _ ltac:(discriminate) Hr) as (k & R & Ek). exists k. split; auto. rewrite Ek. auto.
  - inversion E; subst. destruct (F _ ltac:(congruence) Hr) as (k & R & Ek). exists k. split; auto. rewrite Ek. auto.
Qed.

Lemma k_write_all_ok a n : forall buf t b r buf' t' s k', k_write_all T t_write fuel n buf t b = (r, buf', t') -> r <> WErr ModelFuel -> Rel a t' s k' ->
  exists k, Rel a t s k /\ bw_write_all_f n buf k b = (r, buf', k').
Proof.
  induction n as [|n IH]; intros buf t b r buf' t' s k' E Nf Hr; cbn [k_write_all bw_write_all_f] in *.
  { destruct b; inversion E; subst; [eauto|congruence]. }
  destruct b as [|c b]; [inversion E; subst; eauto|].
  destruct (k_write T t_write fuel buf t (c :: b)) as [[x w1] t1] eqn:Ew.
  assert (W : forall k1, x <> WErr ModelFuel -> Rel a t1 s k1 -> exists k, Rel a t s k /\ bw_write buf k (c :: b) = (x, w1, k1)).
  { intros k1 Nx R1. eapply k_write_ok; eauto. discriminate. }
  destruct x as [m|e].
  - destruct (m =? 0) eqn:Em.
    + inversion E; subst. destruct (W _ ltac:(discriminate) Hr) as (k & R & Ek). exists k. split; auto. rewrite Ek, Em. auto.
    + destruct (IH _ _ _ _ _ _ _ _ E Nf Hr) as (k1 & R1 & E1). destruct (W _ ltac:(discriminate) R1) as (k & R & Ek).
      exists k. split; auto. rewrite Ek, Em. auto.
  - destruct e; try (inversion E; subst; destruct (W _ ltac:(congruence) Hr) as (k & R & Ek); exists k; split; auto; rewrite Ek; auto; fail).
    destruct (IH _ _ _ _ _ _ _ _ E Nf Hr) as (k1 & R1 & E1). destruct (W _ ltac:(discriminate) R1) as (k & R & Ek).
    exists k. split; auto. rewrite Ek. auto.
Qed.

Lemma k_put_pieces_ok a ps : forall buf t r buf' t' s k', k_put_pieces T t_write t_flush fuel buf t ps = (r, buf', t') -> r <> WErr ModelFuel -> Rel a t' s k' ->
  exists k, Rel a t s k /\ put_pieces buf k ps = (r, buf', k').
Proof.
  induction ps as [|p ps IH]; intros buf t r buf' t' s k' E Nf Hr; cbn [k_put_pieces put_pieces] in *.
  - unfold k_flush in E. destruct (k_flush_f T t_write fuel buf t) as [[[u|e] b1] t1] eqn:Ef.
    + destruct (t_flush t1) as [y t2] eqn:Ey. inversion E; subst. destruct (rel_flush _ _ _ _ _ _ Ey Hr) as (k1 & R1 & Ek1).
      destruct (k_flush_buf_ok _ _ _ _ _ _ _ _ Ef ltac:(discriminate) R1) as (k & R & Ek). exists k. split; auto. rewrite bw_flush_eq, Ek, Ek1. auto.
    + inversion E; subst. destruct (k_flush_buf_ok _ _ _ _ _ _ _ _ Ef ltac:(congruence) Hr) as (k & R & Ek). exists k. split; auto. rewrite bw_flush_eq, Ek. auto.
  - destruct (k_write_all T t_write fuel fuel buf t p) as [[x b1] t1] eqn:Ew.
    assert (W : forall k1, x <> WErr ModelFuel -> Rel a t1 s k1 -> exists k, Rel a t s k /\ bw_write_all buf k p = (x, b1, k1)).
    { intros k1 Nx R1. destruct (k_write_all_ok _ _ _ _ _ _ _ _ _ _ Ew Nx R1) as (k & R & Ek). exists k. split; auto. eapply bw_write_all_any; eauto. }
    destruct x as [u|e].
    + destruct (IH _ _ _ _ _ _ _ E Nf Hr) as (k1 & R1 & E1). destruct (W _ ltac:(discriminate) R1) as (k & R & Ek). exists k. split; auto. rewrite Ek. auto.
    + inversion E; subst. destruct (W _ ltac:(congruence) Hr) as (k & R & Ek). exists k. split; auto. rewrite Ek. auto.
Qed.

(** *** reading *)

Notation rcap := CLIENT_BUF_SIZE.
Lemma rcap_pos : 0 < rcap. Proof. reflexivity. Qed.
Definition pair_of (d : kbuf T) (s : stream) (k : sock) : buffered bytes :=
  mk_buffered (kb_held T d) (mk_reader rcap (kb_buf T d) (mk_socket s k)).
Definition simb (a : A) (k : sock) (e : buffered bytes) (d : kbuf T) : Prop :=
  exists s, e = pair_of d s k /\ Rel a (kb_in T d) s k.

Lemma kb_fill_err a k d x d' : kb_fill T t_read d = (inl x, d') -> forall e', simb a k e' d' -> exists e, simb a k e d /\ bf_fill e = (inl x, e').
Proof.
  unfold kb_fill. destruct d as [w buf t]. cbn [kb_buf kb_in kb_held]. destruct buf as [|c buf]; [|discriminate].
  destruct (t_read rcap t) as [[y|bs] t'] eqn:Er; [|discriminate]. intros E e' (s & -> & Hr). inversion E; subst. cbn [kb_in] in *.
  destruct (rel_read _ _ _ _ _ _ _ rcap_pos Er Hr) as (s0 & R0 & E0).
  exists (pair_of (mk_kbuf T w [] t) s0 k). split; [exists s0; auto|].
  unfold bf_fill, rd_fill, pair_of. cbn -[CLIENT_BUF_SIZE]. rewrite E0. reflexivity.
Qed.

Lemma kb_fill_ok a k d bs d' n : kb_fill T t_read d = (inr bs, d') -> n <= len bs -> forall e', simb a k e' (kb_consume T n d') ->
  exists e e1, simb a k e d /\ bf_fill e = (inr bs, e1) /\ bf_consume n e1 = e'.
Proof.
  unfold kb_fill. destruct d as [w buf t]. cbn [kb_buf kb_in kb_held]. intros E Hn e' (s & -> & Hr). destruct buf as [|c buf].
  - destruct (t_read rcap t) as [[y|b] t'] eqn:Er; [discriminate|]. inversion E; subst. cbn [kb_consume kb_in kb_buf kb_held] in *.
    destruct (rel_read _ _ _ _ _ _ _ rcap_pos Er Hr) as (s0 & R0 & E0).
    exists (pair_of (mk_kbuf T w [] t) s0 k), (pair_of (mk_kbuf T w bs t') s k). split; [exists s0; auto|].
    split; [|reflexivity]. unfold bf_fill, rd_fill, pair_of. cbn -[CLIENT_BUF_SIZE]. rewrite E0. reflexivity.
  - inversion E; subst. cbn [kb_consume kb_in kb_buf kb_held] in *.
    exists (pair_of (mk_kbuf T w (c :: buf) t) s k), (pair_of (mk_kbuf T w (c :: buf) t) s k).
    split; [exists s; auto|]. split; reflexivity.
Qed.

Lemma kb_read_ok a k n : 0 < n -> bsim (kbuf T) (buffered bytes) (simb a k) (kb_read T t_read n) (bf_read n).
Proof.
  intros Hn d x d' E e' Hs. unfold kb_read in E. destruct (kb_buf T d) as [|c buf] eqn:Eb.
  - destruct (rcap <=? n) eqn:El.
    + destruct d as [w b t]. cbn [kb_buf kb_in kb_held] in *. subst b. destruct (t_read n t) as [y t'] eqn:Er. inversion E; subst.
      destruct Hs as (s & -> & Hr). cbn [kb_in] in *. destruct (rel_read _ _ _ _ _ _ _ Hn Er Hr) as (s0 & R0 & E0).
      exists (pair_of (mk_kbuf T w [] t) s0 k). split; [exists s0; auto|].
      unfold bf_read, rd_read, pair_of. cbn [bf_r bf_w rd_buf rd_cap kb_buf kb_held]. rewrite El. cbn -[CLIENT_BUF_SIZE]. rewrite E0. reflexivity.
    + destruct d as [w b t]. cbn [kb_buf] in Eb. subst b.
      destruct (kb_fill T t_read (mk_kbuf T w [] t)) as [[y|bs] d1] eqn:Ef; inversion E; subst.
      * destruct (kb_fill_err a k _ y d' Ef e' Hs) as (e & Se & Ee). exists e. split; auto.
        destruct Se as (s & -> & Hr). unfold bf_read, rd_read, bf_fill, pair_of in *. cbn [bf_r bf_w rd_buf rd_cap kb_buf kb_held] in *. rewrite El.
        destruct (rd_fill _) as [z r1]; inversion Ee; subst; reflexivity.
      * destruct (kb_fill_ok a k _ bs d1 (N.min n (len bs)) Ef ltac:(lia) e' Hs) as (e & e1 & Se & Ee & Ec). exists e. split; auto.
        destruct Se as (s & -> & Hr). unfold bf_read, rd_read, bf_fill, pair_of in *. cbn [bf_r bf_w rd_buf rd_cap kb_buf kb_held] in *. rewrite El.
        destruct (rd_fill _) as [z r1]; inversion Ee; subst; reflexivity.
  - inversion E; subst. destruct Hs as (s & -> & Hr). destruct d as [w b t]. cbn [kb_buf kb_in kb_held kb_consume] in *. subst b.
    exists (pair_of (mk_kbuf T w (c :: buf) t) s k). split; [exists s; auto|]. reflexivity.
Qed.

Lemma kb_to_end_ok a k f : forall l ls acc,
  bsim (kbuf T) (buffered bytes) (simb a k) (fun r => g_read_to_end (kbuf T) (kb_read T t_read) size f (l :: ls) r acc)
       (fun s => g_read_to_end (buffered bytes) bf_read size f (l :: ls) s acc).
Proof.
  induction f as [|f IH]; intros l ls acc r x r' E s' Sm; cbn [g_read_to_end] in *; [inversion E; subst; eauto|].
  destruct (g_read_lim (kbuf T) (kb_read T t_read) (size acc) (l :: ls) r) as [[y ls1] r1] eqn:E1.
  pose proof (read_lim_ok _ _ _ _ (simb a k) (fun n Hn => kb_read_ok a k n Hn) (l :: ls) (size acc) (size_pos acc) r (y, ls1) r1 E1) as L.
  assert (Ls : exists l1 ls2, ls1 = l1 :: ls2).
  { rewrite g_read_lim_eq in E1. destruct (existsb (N.eqb 0) (l :: ls)); [inversion E1; subst; eauto|].
    destruct (kb_read T t_read (minl (size acc) (l :: ls)) r) as [[z|z] r2]; inversion E1; subst; cbn; eauto. }
  destruct Ls as (l1 & ls2 & ->).
  destruct y as [e|[|c got]].
  - destruct e; try (inversion E; subst; destruct (L _ Sm) as (s & S1 & E2); exists s; split; auto; rewrite E2; auto; fail).
    destruct (IH _ _ _ _ _ _ E _ Sm) as (s1 & S1 & E2). destruct (L _ S1) as (s & S2 & E3). exists s. split; auto. rewrite E3. auto.
  - inversion E; subst. destruct (L _ Sm) as (s & S1 & E2). exists s. split; auto. rewrite E2. auto.
  - destruct (IH _ _ _ _ _ _ E _ Sm) as (s1 & S1 & E2). destruct (L _ S1) as (s & S2 & E3). exists s. split; auto. rewrite E3. auto.
Qed.

Lemma k_resp_ok a k dbg st d x d' e' : k_resp_parse T t_read size fuel dbg st d = (x, d') -> fueled x -> simb a k e' d' ->
  exists e, simb a k e d /\ b_resp_parse size dbg st e = (x, e').
Proof.
  intros E Nf Hs. unfold k_resp_parse in E.
  destruct (resp_parse_ok _ _ _ _ _ size _ _ _ size fuel (fun _ => fuel) (fun _ => fuel) (simb a k)
    (kb_fill_err a k) (kb_fill_ok a k) (kb_read_ok a k) (fun l ls acc _ => kb_to_end_ok a k (S fuel) l ls acc) dbg st d x d' E e' Hs) as (e & Se & Ee).
  exists e. split; auto. set (g := (fuel + bf_mu e)%nat).
  assert (L : (fuel <= g)%nat) by (unfold g; lia).
  pose proof (resp_parse_mono _ _ _ _ size fuel g L dbg st e x e' Ee Nf) as Em.
  rewrite (b_resp_fuel size size_pos g) by (unfold g; lia). rewrite <- Em.
  apply (resp_parse_tail _ _ _ _ size bf_mu size_pos bf_fill_err_mu bf_fill_ok_mu bf_read_err_mu bf_read_ok_mu _ _ _ (bf_mu e)); auto.
  intros r Hr. unfold g. lia.
Qed.

(** *** the connection *)

Definition sim (a : A) (e : buffered bytes) (d : kbuf T) : Prop := exists s k, e = pair_of d s k /\ Rel a (kb_in T d) s k.

Lemma k_send_ok a dbg d q r d' e' : k_send_request T t_read t_write t_flush size fuel dbg d q = Some (r, d') -> sim a e' d' ->
  exists e, sim a e d /\ b_send_request size dbg e q = (r, e').
Proof.
  unfold k_send_request, b_send_request. intros E Hs.
  destruct (k_put_pieces T t_write t_flush fuel (kb_held T d) (kb_in T d) (request_pieces q)) as [[x h] t] eqn:Ep.
  assert (P : forall s k, x <> WErr ModelFuel -> Rel a t s k -> exists e, sim a e d /\
     bf_write (fun buf k => put_pieces buf k (request_pieces q)) e = (x, pair_of (mk_kbuf T h (kb_buf T d) t) s k)).
  { intros s k Nx R1. destruct (k_put_pieces_ok _ _ _ _ _ _ _ _ _ Ep Nx R1) as (k0 & R & Ek). exists (pair_of d s k0).
    split; [exists s, k0; auto|]. unfold bf_write, pair_of. cbn [bf_w bf_r rd_inner so_tx rd_cap rd_buf so_rx]. rewrite Ek. reflexivity. }
  destruct x as [u|e0].
  - destruct (k_resp_parse T t_read size fuel dbg resp_new (mk_kbuf T h (kb_buf T d) t)) as [y d2] eqn:Er.
    assert (X : d2 = d' /\ fueled y /\ r = match y with PDone v => COk v | PIo _ k => CReading k | PErr e => CParsing e | PPanic => CPanic end).
    { destruct y as [v|st k|e|]; try (inversion E; subst; cbn; auto; fail). destruct (ran_out k) eqn:Eo; [discriminate|]. inversion E; subst.
      split; auto. split; auto. cbn. destruct k; auto. discriminate. }
    destruct X as (-> & Fy & ->). destruct Hs as (s & k & -> & Hr).
    destruct (k_resp_ok a k _ _ _ _ _ (pair_of d' s k) Er Fy) as (e1 & (s1 & -> & R1) & E1); [exists s; auto|]. cbn [kb_in] in R1.
    destruct (P s1 k ltac:(discriminate) R1) as (e & Se & Ee). exists e. split; auto. rewrite Ee, E1. destruct y; reflexivity.
  - destruct (ran_out e0) eqn:Eo; [discriminate|]. inversion E; subst. destruct Hs as (s & k & -> & Hr). cbn [kb_in] in Hr.
    destruct (P s k ltac:(intros X; inversion X; subst; discriminate) Hr) as (e & Se & Ee). exists e. split; auto. rewrite Ee. auto.
Qed.

Lemma k_drop_ok a o o' e' : k_drop_stream T t_write fuel o = Some o' -> sim a e' o' -> exists e, sim a e o /\ b_drop_stream e = e'.
Proof.
  unfold k_drop_stream, b_drop_stream, bf_write. intros E (s & k & -> & Hr).
  destruct (k_flush_f T t_write fuel (kb_held T o) (kb_in T o)) as [[x h] t] eqn:Ef.
  assert (X : o' = mk_kbuf T h (kb_buf T o) t /\ x <> WErr ModelFuel).
  { destruct x as [u|e]; [inversion E; split; auto; discriminate|]. destruct (ran_out e) eqn:Eo; [discriminate|]. inversion E. split; auto.
    intros Y; inversion Y; subst; discriminate. }
  destruct X as [-> Nx]. cbn [kb_in] in Hr. destruct (k_flush_buf_ok _ _ _ _ _ _ _ _ Ef Nx Hr) as (k0 & R & Ek). exists (pair_of o s k0).
  split; [exists s, k0; auto|]. unfold pair_of. cbn [bf_w bf_r rd_inner so_tx rd_cap rd_buf so_rx]. rewrite Ek. reflexivity.
Qed.

(** The streams of a connection and those it may get, in the order in which it gets them, each with its label. *)
Inductive sims : list A -> list (buffered bytes) -> list (kbuf T) -> Prop :=
  | sims_nil : sims [] [] []
  | sims_cons a l e es d ds : sim a e d -> sims l es ds -> sims (a :: l) (e :: es) (d :: ds).
Definition sim_cur (l : list A) (e : option (buffered bytes)) (d : option (kbuf T)) : Prop :=
  match e, d with Some e, Some d => exists a, l = [a] /\ sim a e d | None, None => l = [] | _, _ => False end.
Inductive sim_net : list A -> bnet -> knet T -> Prop :=
  | net_nil : sim_net [] [] []
  | net_fails k l m n : sim_net l m n -> sim_net l (inl k :: m) (inl k :: n)
  | net_stream a l s k t m n : Rel a t s k -> sim_net l m n -> sim_net (a :: l) (inr (mk_socket s k) :: m) (inr t :: n).
Definition sim_all (l : list A) (m : bnet) (b : bcconn) (n : knet T) (c : kconn T) : Prop :=
  exists l1 l2 l3, l = l1 ++ l2 ++ l3 /\ sims l1 (bcc_dropped b) (kc_dropped T c) /\
    sim_cur l2 (bcc_stream b) (kc_stream T c) /\ sim_net l3 m n.

Lemma sims_app l es ds0 ds1 : sims l es (ds0 ++ ds1) -> exists l0 l1 es0 es1, l = l0 ++ l1 /\ es = es0 ++ es1 /\ sims l0 es0 ds0 /\ sims l1 es1 ds1.
Proof.
  revert l es. induction ds0 as [|d ds0 IH]; intros l es H; cbn in H.
  - exists [], l, [], es. repeat split; auto. constructor.
  - inversion H as [|a l' e es' ? ? H1 H2]; subst. destruct (IH _ _ H2) as (l0 & l1 & es0 & es1 & -> & -> & S0 & S1).
    exists (a :: l0), l1, (e :: es0), es1. repeat split; auto. constructor; auto.
Qed.

Lemma k_create_err l k n n1 m1 : k_create T n = (inl k, n1) -> sim_net l m1 n1 -> exists m, sim_net l m n /\ b_create m = (inl k, m1).
Proof.
  unfold k_create, k_tcp_connect. intros E Hs. destruct n as [|[k0|t] n0].
  - inversion E; subst. inversion Hs; subst. exists []. split; [constructor|reflexivity].
  - destruct n0 as [|[k1|t] n0]; inversion E; subst.
    + inversion Hs; subst. exists [inl k0]. split; [repeat constructor|reflexivity].
    + exists (inl k0 :: inl k :: m1). split; [repeat constructor; auto|reflexivity].
  - discriminate.
Qed.
Lemma k_create_ok a l t n n1 m1 s k : k_create T n = (inr t, n1) -> sim_net l m1 n1 -> Rel a t s k ->
  exists m, sim_net (a :: l) m n /\ b_create m = (inr (mk_socket s k), m1).
Proof.
  unfold k_create, k_tcp_connect. intros E Hs R. destruct n as [|[k0|t0] n0]; [discriminate| |].
  - destruct n0 as [|[k1|t1] n0]; inversion E; subst. exists (inl k0 :: inr (mk_socket s k) :: m1). split; [repeat constructor; auto|reflexivity].
  - inversion E; subst. exists (inr (mk_socket s k) :: m1). split; [constructor; auto|reflexivity].
Qed.

Lemma k_connect_ok l n c e n1 c1 m1 b1 : k_connect T t_write fuel n c = Some (e, n1, c1) -> sim_all l m1 b1 n1 c1 ->
  exists m b, sim_all l m b n c /\ b_connect false m b = (e, m1, b1).
Proof.
  unfold k_connect. intros E (l1 & l2 & l3 & -> & Sd & Sc & Sn).
  destruct (k_create T n) as [[k|t] n0] eqn:Ec.
  - inversion E; subst. destruct (k_create_err _ _ _ _ _ Ec Sn) as (m & Sm & Em). exists m, b1. split; [exists l1, l2, l3; auto|].
    unfold b_connect. rewrite Em. reflexivity.
  - assert (Cur : forall drops, Some (@None cres, n0, mk_kconn T (Some (mk_kbuf T [] [] t)) drops) = Some (e, n1, c1) ->
       e = None /\ n0 = n1 /\ kc_dropped T c1 = drops /\ exists a s k, l2 = [a] /\ bcc_stream b1 = Some (bstream_new (mk_socket s k)) /\ Rel a t s k).
    { intros drops X. inversion X; subst. repeat split; auto. cbn [kc_stream] in Sc. destruct (bcc_stream b1) as [eb|]; [|contradiction].
      destruct Sc as (a & -> & s & k & -> & R). exists a, s, k. auto. }
    destruct (kc_stream T c) as [o|] eqn:Eo.
    + destruct (k_drop_stream T t_write fuel o) as [o'|] eqn:Ed; [|discriminate].
      destruct (Cur _ E) as (-> & -> & Hd & a & s & k & -> & Eb & R). rewrite Hd in Sd.
      destruct (sims_app _ _ _ _ Sd) as (la & lb & es & eo & -> & He & Sa & So).
      inversion So as [|a0 la0 e0 es0 ? ? S0 S1]; subst. inversion S1; subst.
      destruct (k_drop_ok _ _ _ _ Ed S0) as (eo & Seo & Eeo).
      destruct (k_create_ok a l3 t n n1 m1 s k Ec Sn R) as (m & Sm & Em).
      exists m, (mk_bcconn (Some eo) es). split.
      * exists la, [a0], (a :: l3). split; [rewrite <- !app_assoc; reflexivity|]. split; auto. split; auto. rewrite Eo. cbn. eauto.
      * unfold b_connect. rewrite Em. cbn [bcc_stream bcc_dropped]. rewrite Eeo, <- He, <- Eb. destruct b1; reflexivity.
    + destruct (Cur _ E) as (-> & -> & Hd & a & s & k & -> & Eb & R). rewrite Hd in Sd.
      destruct (k_create_ok a l3 t n n1 m1 s k Ec Sn R) as (m & Sm & Em).
      exists m, (mk_bcconn None (bcc_dropped b1)). split.
      * exists l1, [], (a :: l3). split; [reflexivity|]. split; auto. split; auto. now rewrite Eo.
      * unfold b_connect. rewrite Em. cbn [bcc_stream bcc_dropped]. rewrite app_nil_r, <- Eb. destruct b1; reflexivity.
Qed.

Lemma k_first_ok l dbg n c q r c1 m b1 : k_first_attempt T t_read t_write t_flush size fuel dbg c q = Some (r, c1) -> sim_all l m b1 n c1 ->
  exists b, sim_all l m b n c /\ b_first_attempt size dbg b q = (r, b1).
Proof.
  unfold k_first_attempt. intros E (l1 & l2 & l3 & -> & Sd & Sc & Sn). destruct (kc_stream T c) as [d|] eqn:Ed.
  - destruct (k_send_request T t_read t_write t_flush size fuel dbg d q) as [[x d1]|] eqn:Es; [|discriminate]. inversion E; subst.
    cbn [kc_stream kc_dropped] in *. destruct (bcc_stream b1) as [e1|] eqn:Eb; [|contradiction]. destruct Sc as (a & -> & S1).
    destruct (k_send_ok _ _ _ _ _ _ _ Es S1) as (e & Se & Ee). exists (mk_bcconn (Some e) (bcc_dropped b1)). split.
    + exists l1, [a], l3. split; auto. split; auto. split; auto. rewrite Ed. cbn. eauto.
    + unfold b_first_attempt. cbn [bcc_stream bcc_dropped]. rewrite Ee, <- Eb. destruct b1; reflexivity.
  - inversion E; subst. exists b1. split; [exists l1, l2, l3; auto|]. unfold b_first_attempt. rewrite Ed in Sc. destruct (bcc_stream b1); [contradiction|auto].
Qed.

Lemma sim_stream l m b n c : sim_all l m b n c -> match kc_stream T c, bcc_stream b with Some _, Some _ => True | None, None => True | _, _ => False end.
Proof. intros (l1 & l2 & l3 & _ & _ & Sc & _). unfold sim_cur in Sc. destruct (bcc_stream b), (kc_stream T c); auto. Qed.

Lemma k_conn_send_ok l dbg n c q r n' c' m' b' : k_conn_send T t_read t_write t_flush size fuel dbg n c q = Some (r, n', c') -> sim_all l m' b' n' c' ->
  exists m b, sim_all l m b n c /\ b_conn_send size dbg false m b q = (r, m', b').
Proof.
  unfold k_conn_send. intros E Hs.
  destruct (match kc_stream T c with None => k_connect T t_write fuel n c | Some _ => Some (None, n, c) end) as [[[e n1] c1]|] eqn:E1; [|discriminate].
  assert (S1 : forall m1 b1, sim_all l m1 b1 n1 c1 -> exists m b, sim_all l m b n c /\
     (match bcc_stream b with None => b_connect false m b | Some _ => (None, m, b) end) = (e, m1, b1)).
  { intros m1 b1 H1. destruct (kc_stream T c) as [d|] eqn:Ed.
    - inversion E1; subst. exists m1, b1. split; auto. pose proof (sim_stream _ _ _ _ _ H1) as X. rewrite Ed in X. destruct (bcc_stream b1); [auto|contradiction].
    - destruct (k_connect_ok _ _ _ _ _ _ _ _ E1 H1) as (m & b & H & K). exists m, b. split; auto.
      pose proof (sim_stream _ _ _ _ _ H) as X. rewrite Ed in X. destruct (bcc_stream b); [contradiction|auto]. }
  destruct e as [e|].
  { inversion E; subst. destruct (S1 _ _ Hs) as (m & b & H & K). exists m, b. split; auto. unfold b_conn_send. rewrite K. auto. }
  destruct (k_first_attempt T t_read t_write t_flush size fuel dbg c1 q) as [[r2 c2]|] eqn:E2; [|discriminate].
  assert (Simple : (exists v, r2 = COk v) \/ r2 = CPanic -> Some (r2, n1, c2) = Some (r, n', c') ->
     exists m b, sim_all l m b n c /\ b_conn_send size dbg false m b q = (r, m', b')).
  { intros Hr X. inversion X; subst. destruct (k_first_ok _ _ _ _ _ _ _ _ _ E2 Hs) as (b1 & H1 & K1).
    destruct (S1 _ _ H1) as (m & b & H & K). exists m, b. split; auto. unfold b_conn_send. rewrite K, K1. destruct Hr as [(v & ->)| ->]; auto. }
  assert (Again : (forall v, r2 <> COk v) -> r2 <> CPanic ->
     match k_connect T t_write fuel n1 c2 with
     | None => None
     | Some (Some e, n2, c3) => Some (e, n2, c3)
     | Some (None, n2, c3) => match k_first_attempt T t_read t_write t_flush size fuel dbg c3 q with None => None | Some (r, c4) => Some (r, n2, c4) end
     end = Some (r, n', c') -> exists m b, sim_all l m b n c /\ b_conn_send size dbg false m b q = (r, m', b')).
  { intros Hr1 Hr2 X. destruct (k_connect T t_write fuel n1 c2) as [[[e n2] c3]|] eqn:E3; [|discriminate]. destruct e as [e|].
    - inversion X; subst. destruct (k_connect_ok _ _ _ _ _ _ _ _ E3 Hs) as (m3 & b3 & H3 & K3).
      destruct (k_first_ok _ _ _ _ _ _ _ _ _ E2 H3) as (b1 & H1 & K1).
      destruct (S1 _ _ H1) as (m & b & H & K). exists m, b. split; auto. unfold b_conn_send. rewrite K, K1. destruct r2; try congruence; rewrite K3; auto.
    - destruct (k_first_attempt T t_read t_write t_flush size fuel dbg c3 q) as [[r4 c4]|] eqn:E4; [|discriminate]. inversion X; subst.
      destruct (k_first_ok _ _ _ _ _ _ _ _ _ E4 Hs) as (b4 & H4 & K4).
      destruct (k_connect_ok _ _ _ _ _ _ _ _ E3 H4) as (m3 & b3 & H3 & K3).
      destruct (k_first_ok _ _ _ _ _ _ _ _ _ E2 H3) as (b1 & H1 & K1).
      destruct (S1 _ _ H1) as (m & b & H & K). exists m, b. split; auto. unfold b_conn_send. rewrite K, K1. destruct r2; try congruence; rewrite K3, K4; auto. }
  destruct r2; [apply Simple; eauto|apply Again; auto; discriminate..|apply Simple; auto].
Qed.

Lemma k_conn_sends_ok l dbg qs : forall n c rs n' c' m' b', k_conn_sends T t_read t_write t_flush size fuel dbg n c qs = Some (rs, n', c') ->
  sim_all l m' b' n' c' -> exists m b, sim_all l m b n c /\ b_conn_sends size dbg false m b qs = (rs, m', b').
Proof.
  induction qs as [|q qs IH]; intros n c rs n' c' m' b' E Hs; cbn [k_conn_sends b_conn_sends] in *.
  - inversion E; subst. eauto.
  - destruct (k_conn_send T t_read t_write t_flush size fuel dbg n c q) as [[[r n1] c1]|] eqn:E1; [|discriminate].
    destruct (k_conn_sends T t_read t_write t_flush size fuel dbg n1 c1 qs) as [[[rs1 n2] c2]|] eqn:E2; [|discriminate]. inversion E; subst.
    destruct (IH _ _ _ _ _ _ _ E2 Hs) as (m1 & b1 & H1 & K1). destruct (k_conn_send_ok _ _ _ _ _ _ _ _ _ _ E1 H1) as (m & b & H & K).
    exists m, b. split; auto. rewrite K, K1. auto.
Qed.

End Streams.

(** ** Honest streams *)

Section Honest.
Variable T : Type.
Variable t_read : N -> T -> (ekind + bytes) * T.
Variable t_write : bytes -> T -> wres N * T.
Variable t_flush : T -> wres unit * T.
Variable taken : T -> list what.
Variable given : T -> bytes.
Variable more : T -> stream.
Hypothesis H : honest T t_read t_write t_flush taken given.

Definition stands (u t : T) (s : stream) (k : sock) : Prop :=
  sk_sent k = given t /\ taken t ++ content s = taken u ++ content (more u) /\ way T t_read t_write t_flush u t (sk_events k) (sk_flushes k).

Lemma stands_r u n t x t' s k : 0 < n -> t_read n t = (x, t') -> stands u t' s k ->
  exists s0, stands u t s0 k /\ raw_read n s0 = (x, s).
Proof.
  intros Hn E (S1 & S2 & S3). destruct (honest_read _ _ _ _ _ _ H _ _ _ _ Hn E) as (Hg & Hx).
  pose proof (way_read _ _ _ _ _ _ _ _ _ _ _ Hn E S3) as S4. destruct x as [e|bs].
  - exists (RErr e :: s). split; [|reflexivity]. split; [congruence|]. split; auto. rewrite <- S2, Hx, <- app_assoc. reflexivity.
  - destruct Hx as [Hl Hx]. exists (RData bs :: s). split.
    + split; [congruence|]. split; auto. rewrite <- S2, Hx, <- app_assoc. reflexivity.
    + unfold raw_read. destruct bs as [|c bs]; auto. unfold len in Hl. rewrite firstn_all2, skipn_all2 by lia. reflexivity.
Qed.
Lemma stands_w u b t x t' s k' : b <> [] -> t_write b t = (x, t') -> stands u t' s k' ->
  exists k, stands u t s k /\ sock_write k b = (x, k').
Proof.
  intros Hb E (S1 & S2 & S3). destruct (honest_write _ _ _ _ _ _ H _ _ _ _ Hb E) as (Ht & Hx).
  pose proof (way_write _ _ _ _ _ _ _ _ _ _ _ Hb E S3) as S4.
  exists (mk_sock (event_of x :: sk_events k') (sk_flushes k') (given t)). split.
  - split; auto. split; [congruence|exact S4].
  - unfold sock_write. destruct x as [n|e]; cbn [event_of sk_events sk_flushes sk_sent].
    + destruct Hx as [Hl Hx]. rewrite N.min_l by lia. rewrite <- Hx, <- S1. destruct k'; reflexivity.
    + rewrite <- Hx, <- S1. destruct k'; reflexivity.
Qed.
Lemma stands_f u t x t' s k' : t_flush t = (x, t') -> stands u t' s k' -> exists k, stands u t s k /\ sock_flush k = (x, k').
Proof.
  intros E (S1 & S2 & S3). destruct (honest_flush _ _ _ _ _ _ H _ _ _ E) as (Hg & Ht).
  pose proof (way_flush _ _ _ _ _ _ _ _ _ _ E S3) as S4.
  exists (mk_sock (sk_events k') (flush_of x :: sk_flushes k') (given t)). split.
  - split; auto. split; [congruence|exact S4].
  - unfold sock_flush. destruct x as [[]|e]; cbn [flush_of sk_flushes sk_events sk_sent]; rewrite <- Hg, <- S1; destruct k'; reflexivity.
Qed.

Lemma stands_end u : stands u u (more u) (mk_sock [] [] (given u)).
Proof. split; [reflexivity|]. split; [reflexivity|]. constructor. Qed.

Notation sims' := (sims T T stands).
Notation sim_net' := (sim_net T T stands).

(** At the end. *)
Lemma ends_bufs ds : exists es, sims' (map (kb_in T) ds) es ds /\ Forall2 (same_kbuf T given more) ds es.
Proof.
  induction ds as [|d ds (es & S1 & F)]; [exists []; split; constructor|].
  exists (pair_of T d (more (kb_in T d)) (mk_sock [] [] (given (kb_in T d))) :: es). split.
  - cbn [map]. constructor; auto. do 2 eexists. split; [reflexivity|apply stands_end].
  - constructor; auto. repeat split.
Qed.
Lemma ends_net n : exists m, sim_net' (coming T n) m n /\ same_knet T n m.
Proof.
  induction n as [|[k|t] n (m & S1 & F)]; cbn [coming flat_map].
  - exists []. split; constructor.
  - exists (inl k :: m). split; [constructor; auto|constructor; auto].
  - exists (inr (mk_socket (more t) (mk_sock [] [] (given t))) :: m). split; [|constructor; auto]. constructor; auto. apply stands_end.
Qed.
Lemma ends_all n c : exists m b, sim_all T T stands (streams T n c) m b n c /\ same_kconn T given more c b /\ same_knet T n m.
Proof.
  destruct (ends_net n) as (m & Sn & Fn). destruct (ends_bufs (kc_dropped T c)) as (es & Sd & Fd).
  exists m. destruct (kc_stream T c) as [d|] eqn:Ec.
  - exists (mk_bcconn (Some (pair_of T d (more (kb_in T d)) (mk_sock [] [] (given (kb_in T d))))) es). split; [|split; auto].
    + exists (map (kb_in T) (kc_dropped T c)), [kb_in T d], (coming T n). unfold streams, current. rewrite Ec. split; auto. split; auto. split; auto.
      cbn. eexists. split; [reflexivity|]. do 2 eexists. split; [reflexivity|apply stands_end].
    + split; auto. rewrite Ec. cbn. repeat split.
  - exists (mk_bcconn None es). split; [|split; auto].
    + exists (map (kb_in T) (kc_dropped T c)), [], (coming T n). unfold streams, current. rewrite Ec. split; auto. split; auto. split; auto. reflexivity.
    + split; auto. now rewrite Ec.
Qed.

Lemma net_plays us m n : sim_net' us m n -> plays T t_read t_write t_flush taken given more n m us.
Proof. induction 1 as [| |u us s k t m n (S1 & S2 & S3) S IH]; constructor; auto. Qed.

(** What holds after a flush that succeeds and stays after reading holds of the stream that a success leaves. *)
Variable Q : T -> Prop.
Hypothesis Qread : forall n t x t', t_read n t = (x, t') -> Q t -> Q t'.
Hypothesis Qflush : forall t u t', t_flush t = (WOk u, t') -> Q t'.
Variable size : bytes -> N.
Variable fuel : nat.

Lemma put_Q ps : forall buf t u buf' t', k_put_pieces T t_write t_flush fuel buf t ps = (WOk u, buf', t') -> Q t'.
Proof.
  induction ps as [|p ps IH]; intros buf t u buf' t' E; cbn [k_put_pieces] in E.
  - unfold k_flush in E. destruct (k_flush_f T t_write fuel buf t) as [[[v|k] b1] t1]; [|discriminate].
    destruct (t_flush t1) as [r t2] eqn:Ef. inversion E; subst. eauto.
  - destruct (k_write_all T t_write fuel fuel buf t p) as [[[v|k] b1] t1]; [|discriminate]. eauto.
Qed.
Lemma fill_Q d x d' : kb_fill T t_read d = (x, d') -> Q (kb_in T d) -> Q (kb_in T d').
Proof.
  unfold kb_fill. intros E Hd. destruct (kb_buf T d) eqn:Eb; [|inversion E; subst; auto].
  destruct (t_read CLIENT_BUF_SIZE (kb_in T d)) as [[k|bs] t'] eqn:Er; inversion E; subst; cbn; eauto.
Qed.
Lemma read_Q n d x d' : kb_read T t_read n d = (x, d') -> Q (kb_in T d) -> Q (kb_in T d').
Proof.
  unfold kb_read. intros E Hd. destruct (kb_buf T d) eqn:Eb; [|inversion E; subst; auto].
  destruct (CLIENT_BUF_SIZE <=? n).
  - destruct (t_read n (kb_in T d)) as [y t'] eqn:Er; inversion E; subst; cbn; eauto.
  - destruct (kb_fill T t_read d) as [[k|bs] d1] eqn:Ef; apply fill_Q in Ef; auto; inversion E; subst; auto.
Qed.
Lemma send_Q dbg d q v d' : k_send_request T t_read t_write t_flush size fuel dbg d q = Some (COk v, d') -> Q (kb_in T d').
Proof.
  unfold k_send_request. intros E. destruct (k_put_pieces T t_write t_flush fuel (kb_held T d) (kb_in T d) (request_pieces q)) as [[[u|k] h] t] eqn:Ep.
  2:{ destruct (ran_out k); discriminate. }
  apply put_Q in Ep. destruct (k_resp_parse T t_read size fuel dbg resp_new (mk_kbuf T h (kb_buf T d) t)) as [y d2] eqn:Er.
  assert (X : Q (kb_in T d2)).
  { refine (resp_parse_inv (kbuf T) _ _ _ _ _ _ (fun d => Q (kb_in T d)) _ _ _ _ _ _ _ _ Er Ep); [exact fill_Q|intros ? ? X; exact X|exact read_Q]. }
  destruct y as [w|st k|e|]; try (inversion E; subst; auto; fail). destruct (ran_out k); inversion E.
Qed.
Lemma first_Q dbg c q v c' : k_first_attempt T t_read t_write t_flush size fuel dbg c q = Some (COk v, c') -> exists d, kc_stream T c' = Some d /\ Q (kb_in T d).
Proof.
  unfold k_first_attempt. intros E. destruct (kc_stream T c) as [d|]; [|discriminate].
  destruct (k_send_request T t_read t_write t_flush size fuel dbg d q) as [[r d1]|] eqn:Es; [|discriminate]. inversion E; subst. apply send_Q in Es. cbn. eauto.
Qed.
Lemma conn_send_Q dbg n c q v n' c' : k_conn_send T t_read t_write t_flush size fuel dbg n c q = Some (COk v, n', c') -> exists d, kc_stream T c' = Some d /\ Q (kb_in T d).
Proof.
  unfold k_conn_send. intros E.
  destruct (match kc_stream T c with None => k_connect T t_write fuel n c | Some _ => Some (None, n, c) end) as [[[e n1] c1]|] eqn:E1; [|discriminate].
  destruct e as [e|].
  { exfalso. destruct (kc_stream T c) as [d|]; [discriminate|]. unfold k_connect in E1. destruct (k_create T n) as [[k|t] n0].
    - inversion E1; subst. discriminate.
    - destruct (kc_stream T c) as [o|]; [destruct (k_drop_stream T t_write fuel o)|]; inversion E1. }
  destruct (k_first_attempt T t_read t_write t_flush size fuel dbg c1 q) as [[r2 c2]|] eqn:E2; [|discriminate].
  assert (Again : match k_connect T t_write fuel n1 c2 with
     | None => None
     | Some (Some e, n2, c3) => Some (e, n2, c3)
     | Some (None, n2, c3) => match k_first_attempt T t_read t_write t_flush size fuel dbg c3 q with None => None | Some (r, c4) => Some (r, n2, c4) end
     end = Some (COk v, n', c') -> exists d, kc_stream T c' = Some d /\ Q (kb_in T d)).
  { intros X. destruct (k_connect T t_write fuel n1 c2) as [[[e n2] c3]|] eqn:E3; [|discriminate]. destruct e as [e|].
    - exfalso. unfold k_connect in E3. destruct (k_create T n1) as [[k|t] n0].
      + inversion E3; subst. discriminate.
      + destruct (kc_stream T c2) as [o|]; [destruct (k_drop_stream T t_write fuel o)|]; inversion E3.
    - destruct (k_first_attempt T t_read t_write t_flush size fuel dbg c3 q) as [[r4 c4]|] eqn:E4; [|discriminate]. inversion X; subst. eapply first_Q; eauto. }
  destruct r2; auto; [|discriminate]. inversion E; subst. eapply first_Q; eauto.
Qed.
Lemma conn_sends_Q dbg qs : forall n c vs n' c', qs <> [] ->
  k_conn_sends T t_read t_write t_flush size fuel dbg n c qs = Some (map COk vs, n', c') -> exists d, kc_stream T c' = Some d /\ Q (kb_in T d).
Proof.
  induction qs as [|q qs IH]; intros n c vs n' c' Hq E; [congruence|]. cbn [k_conn_sends] in E.
  destruct (k_conn_send T t_read t_write t_flush size fuel dbg n c q) as [[[r n1] c1]|] eqn:E1; [|discriminate].
  destruct (k_conn_sends T t_read t_write t_flush size fuel dbg n1 c1 qs) as [[[rs n2] c2]|] eqn:E2; [|discriminate].
  destruct vs as [|v vs]; [discriminate|]. cbn [map] in E. inversion E; subst. destruct qs as [|q' qs].
  - cbn [k_conn_sends] in E2. inversion E2; subst. eapply conn_send_Q; eauto.
  - eapply IH; eauto. discriminate.
Qed.
End Honest.
