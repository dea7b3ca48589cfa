(** A call that finds nothing more to read does the same, and leaves what comes later, when a would-block follows. *)
From Coq Require Import List Ascii String NArith ZArith Bool Lia.
From Coq Require Import ZifyBool ZifyNat ZifyN.
From Verif.Model Require Import Bytes Io Common Parse Encode Writer Server.
From Verif.Spec Require Import Batch Stream Drive Output Session.
From Verif.Proofs Require Import BytesFacts IoFacts ParseFacts DriveFacts CallFacts WriterFacts OpsFacts ServerFacts ConnFacts.
Import ListNotations.
Local Open Scope N_scope.

Notation B := (RErr WouldBlock).

(** Neither a would-block nor the model's own error. *)
Definition ordinary (e : revent) : Prop := e <> B /\ e <> RErr ModelFuel.
Definition isblk (k : ekind) : bool := match k with WouldBlock => true | _ => false end.
Definition after (b : bool) (s' m : stream) : stream := if b then m else s' ++ B :: m.

Definition blr {X} (r : ekind + X) : bool := match r with inl k => isblk k | inr _ => false end.
Definition blo (r : option ekind) : bool := match r with Some k => isblk k | None => false end.
Definition blp {T S} (r : pres T S) : bool := match r with PIo _ k => isblk k | _ => false end.

Lemma isblk_eq k : isblk k = true -> k = WouldBlock.
Proof. destruct k; auto; discriminate. Qed.

Lemma fill_frame s r s' m : Forall ordinary s -> fill s = (r, s') ->
  Forall ordinary s' /\ (blr r = true -> s' = []) /\ r <> inl ModelFuel /\ fill (s ++ B :: m) = (r, after (blr r) s' m).
Proof.
  intros O E. destruct s as [|[[|c bs]|k] s]; cbn [fill app] in *; inversion E; subst; cbn [blr isblk after].
  - repeat split; auto; discriminate.
  - inversion O; subst. repeat split; auto; discriminate.
  - repeat split; auto; discriminate.
  - inversion O as [|? ? [H1 H2] H3]; subst. split; auto. destruct k; cbn [isblk]; repeat split; auto; try discriminate; try congruence.
Qed.

Lemma consume_frame n s m : consume n (s ++ B :: m) = consume n s ++ B :: m.
Proof.
  unfold consume. destruct (n =? 0); auto. destruct s as [|[bs|k] s]; auto. cbn [app].
  destruct (skipn (N.to_nat n) bs); auto.
Qed.
Lemma consume_ordinary n s : Forall ordinary s -> Forall ordinary (consume n s).
Proof.
  intros O. unfold consume. destruct (n =? 0); auto. destruct s as [|[bs|k] s]; auto. inversion O; subst.
  destruct (skipn (N.to_nat n) bs); auto. constructor; auto. split; discriminate.
Qed.

Lemma fill_lim_frame ls s r s' m : Forall ordinary s -> fill_lim ls s = (r, s') ->
  Forall ordinary s' /\ (blr r = true -> s' = []) /\ r <> inl ModelFuel /\ fill_lim ls (s ++ B :: m) = (r, after (blr r) s' m).
Proof.
  revert r s'. induction ls as [|l ls IH]; intros r s' O E; [now apply fill_frame|]. cbn [fill_lim] in *.
  destruct (l =? 0); [inversion E; subst; repeat split; auto; discriminate|].
  destruct (fill_lim ls s) as [[k|bs] s1] eqn:E1; inversion E; subst; destruct (IH _ _ O eq_refl) as (H1 & H2 & H3 & H4); rewrite H4; cbn [blr] in *; repeat split; auto; discriminate.
Qed.

Lemma consume_lim_frame ls : forall n s m, consume_lim n ls (s ++ B :: m) = (fst (consume_lim n ls s), snd (consume_lim n ls s) ++ B :: m).
Proof.
  induction ls as [|l ls IH]; intros n s m; cbn [consume_lim]; [cbn [fst snd]; now rewrite consume_frame|].
  rewrite IH. destruct (consume_lim (N.min n l) ls s). reflexivity.
Qed.
Lemma consume_lim_ordinary ls : forall n s, Forall ordinary s -> Forall ordinary (snd (consume_lim n ls s)).
Proof.
  induction ls as [|l ls IH]; intros n s O; cbn [consume_lim]; [now apply consume_ordinary|].
  specialize (IH (N.min n l) s O). destruct (consume_lim (N.min n l) ls s). exact IH.
Qed.

Lemma read_lim_frame ls : forall n s r ls' s' m, Forall ordinary s -> read_lim n ls s = (r, ls', s') ->
  Forall ordinary s' /\ (blr r = true -> s' = []) /\ r <> inl ModelFuel /\ read_lim n ls (s ++ B :: m) = (r, ls', after (blr r) s' m).
Proof.
  induction ls as [|l ls IH]; intros n s r ls' s' m O E; cbn [read_lim] in *.
  - unfold read_some in *. destruct (fill s) as [[k|bs] s1] eqn:E1; destruct (fill_frame _ _ _ m O E1) as (H1 & H2 & H3 & H4); rewrite H4; inversion E; subst; cbn [blr after] in *.
    + repeat split; auto.
    + rewrite consume_frame. repeat split; auto using consume_ordinary; discriminate.
  - destruct (l =? 0); [inversion E; subst; repeat split; auto; discriminate|].
    destruct (read_lim (N.min n l) ls s) as [[[k|got] ls1] s1] eqn:E1; destruct (IH _ _ _ _ _ m O E1) as (H1 & H2 & H3 & H4);
      rewrite H4; inversion E; subst; cbn [blr] in *; repeat split; auto; discriminate.
Qed.

Lemma read_until_frame f1 : forall ls s acc r acc' ls' s' m f2, Forall ordinary s -> read_until f1 ls s acc = (r, acc', ls', s') ->
  r <> Some ModelFuel -> (f1 <= f2)%nat ->
  Forall ordinary s' /\ (blo r = true -> s' = []) /\ read_until f2 ls (s ++ B :: m) acc = (r, acc', ls', after (blo r) s' m).
Proof.
  induction f1 as [|f1 IH]; intros ls s acc r acc' ls' s' m f2 O E Nf L; [cbn in E; inversion E; subst; congruence|].
  destruct f2 as [|f2]; [lia|]. cbn [read_until] in *.
  destruct (fill_lim ls s) as [[k|bs] s1] eqn:E1; destruct (fill_lim_frame _ _ _ _ m O E1) as (H1 & H2 & H3 & H4); rewrite H4; cbn [blr after] in *.
  - assert (G : (Some k, acc, ls, s1) = (r, acc', ls', s') -> Forall ordinary s' /\ (blo r = true -> s' = []) /\
      (Some k, acc, ls, after (isblk k) s1 m) = (r, acc', ls', after (blo r) s' m)).
    { intros K. inversion K; subst. cbn [blo]. auto. }
    destruct k; try (apply G; exact E). cbn [isblk after]. apply IH; auto. lia.
  - destruct (find_lf bs) as [i|] eqn:Ef.
    + rewrite consume_lim_frame. pose proof (consume_lim_ordinary ls (N.of_nat (S i)) s1 H1) as O1.
      destruct (consume_lim (N.of_nat (S i)) ls s1) as [l2 s2]. cbn [fst snd] in *. inversion E; subst. cbn [blo after]. repeat split; auto; discriminate.
    + rewrite consume_lim_frame. pose proof (consume_lim_ordinary ls (len bs) s1 H1) as O1.
      destruct (consume_lim (len bs) ls s1) as [l2 s2]. cbn [fst snd] in *.
      destruct bs; [inversion E; subst; cbn [blo after]; repeat split; auto; discriminate|]. apply IH; auto. lia.
Qed.

Lemma mu_app a b : (mu a <= mu (a ++ b))%nat.
Proof. induction a as [|[bs|k] a IH]; cbn [mu app]; lia. Qed.

Lemma read_line_frame line ls s r l' ls' s' m : Forall ordinary s -> read_line line ls s = (r, l', ls', s') ->
  Forall ordinary s' /\ (blo r = true -> s' = []) /\ r <> Some ModelFuel /\ read_line line ls (s ++ B :: m) = (r, l', ls', after (blo r) s' m).
Proof.
  intros O E. unfold read_line in *. destruct (read_until (S (mu s)) ls s []) as [[[r0 acc] ls1] s1] eqn:E1.
  assert (Nf : r0 <> Some ModelFuel).
  { intros ->. apply read_until_spec in E1 as (w & _ & _ & _ & _ & [[K|(K & _)]|(K & _)] & _); try discriminate; [|lia].
    apply takes_in in K; [|discriminate]. rewrite Forall_forall in O. apply O in K as [_ K]. congruence. }
  destruct (read_until_frame _ _ _ _ _ _ _ _ m (S (mu (s ++ B :: m))) O E1 Nf) as (H1 & H2 & H3); [pose proof (mu_app s (B :: m)); lia|].
  rewrite H3. destruct (utf8 acc); inversion E; subst; repeat split; auto.
  - destruct r0; auto; discriminate.
  - destruct r0; [auto|discriminate].
  - destruct r0; auto.
Qed.

(** A call with fuel and a result that is not the model's own error. *)
Definition nf {T S} (r : pres T S) : Prop := match r with PIo _ ModelFuel => False | _ => True end.

Lemma line_deframe_frame line ls s r ls' s' m : Forall ordinary s -> line_deframe line ls s = (r, ls', s') ->
  Forall ordinary s' /\ (blp r = true -> s' = []) /\ nf r /\ line_deframe line ls (s ++ B :: m) = (r, ls', after (blp r) s' m).
Proof.
  intros O E. unfold line_deframe in *. destruct (read_line line ls s) as [[[r0 l0] ls1] s1] eqn:E1.
  destruct (read_line_frame _ _ _ _ _ _ _ m O E1) as (H1 & H2 & H3 & H4). rewrite H4. clear H4 E1.
  destruct r0 as [k|]; cbn [blo] in *.
  - inversion E; subst. cbn [blp]. repeat split; auto. cbn. destruct k; auto.
  - destruct (str_pop l0) as [[rest ch]|]; [destruct (beqb ch [LF])|]; inversion E; subst; cbn [blp isblk after nf]; repeat split; auto; discriminate.
Qed.

Lemma crlf_frame dbg line ls s r ls' s' m : Forall ordinary s -> crlf_parse dbg line ls s = (r, ls', s') ->
  Forall ordinary s' /\ (blp r = true -> s' = []) /\ nf r /\ crlf_parse dbg line ls (s ++ B :: m) = (r, ls', after (blp r) s' m).
Proof.
  intros O E. unfold crlf_parse, with_limit in *. destruct (usub dbg MAX_LINE_SIZE (len line)) as [lim|].
  - destruct (line_deframe line (lim :: ls) s) as [[r0 l0] s0] eqn:E1.
    destruct (line_deframe_frame _ _ _ _ _ _ m O E1) as (H1 & H2 & H3 & H4). rewrite H4. clear H4 E1.
    destruct r0 as [l|p k|e|]; cbn [blp] in *.
    + destruct (parse_crlf_line l); inversion E; subst; cbn [blp after nf]; repeat split; auto; discriminate.
    + destruct k; inversion E; subst; cbn [blp isblk after nf] in *; repeat split; auto; discriminate.
    + inversion E; subst. cbn [blp after nf]. repeat split; auto; discriminate.
    + inversion E; subst. cbn [blp after nf]. repeat split; auto; discriminate.
  - inversion E; subst. cbn [blp after nf]. repeat split; auto; discriminate.
Qed.

Lemma bytes_loop_frame size f1 : forall got ls s r ls' s' m f2, Forall ordinary s -> bytes_loop f1 size got ls s = (r, ls', s') -> nf r ->
  (f1 <= f2)%nat ->
  Forall ordinary s' /\ (blp r = true -> s' = []) /\ bytes_loop f2 size got ls (s ++ B :: m) = (r, ls', after (blp r) s' m).
Proof.
  induction f1 as [|f1 IH]; intros got ls s r ls' s' m f2 O E Nf L.
  - cbn [bytes_loop] in E. destruct (len got <? size) eqn:Lt; inversion E; subst; [contradiction|].
    destruct f2; cbn [bytes_loop]; rewrite Lt; cbn [blp after]; repeat split; auto; discriminate.
  - destruct f2 as [|f2]; [lia|]. cbn [bytes_loop] in *.
    destruct (len got <? size); [|inversion E; subst; cbn [blp after]; repeat split; auto; discriminate].
    destruct (read_lim (size - len got) ls s) as [[[k|bs] l1] s1] eqn:E1; destruct (read_lim_frame _ _ _ _ _ _ m O E1) as (H1 & H2 & H3 & H4);
      rewrite H4; cbn [blr after] in *.
    + inversion E; subst. cbn [blp]. repeat split; auto.
    + destruct bs; [inversion E; subst; cbn [blp isblk after]; repeat split; auto; discriminate|]. apply IH; auto. lia.
Qed.

Lemma bytes_frame st ls s r ls' s' m : Forall ordinary s -> bytes_deframe st ls s = (r, ls', s') -> nf r ->
  Forall ordinary s' /\ (blp r = true -> s' = []) /\ bytes_deframe st ls (s ++ B :: m) = (r, ls', after (blp r) s' m).
Proof. intros O E Nf. unfold bytes_deframe in *. eapply bytes_loop_frame; eauto. pose proof (mu_app s (B :: m)). lia. Qed.

Lemma hdr_loop_frame dbg f1 : forall st ls s r ls' s' m f2, Forall ordinary s -> hdr_loop f1 dbg st ls s = (r, ls', s') -> nf r -> (f1 <= f2)%nat ->
  Forall ordinary s' /\ (blp r = true -> s' = []) /\ hdr_loop f2 dbg st ls (s ++ B :: m) = (r, ls', after (blp r) s' m).
Proof.
  induction f1 as [|f1 IH]; intros st ls s r ls' s' m f2 O E Nf L; [inversion E; subst; contradiction|].
  destruct f2 as [|f2]; [lia|]. cbn [hdr_loop] in *.
  destruct (crlf_parse dbg (h_line st) ls s) as [[r0 l0] s0] eqn:E1. destruct (crlf_frame _ _ _ _ _ _ _ m O E1) as (H1 & H2 & H3 & H4). rewrite H4. clear H4.
  destruct r0 as [[|c line]|p k|e|]; cbn [blp] in *.
  - inversion E; subst. cbn [blp after]. repeat split; auto; discriminate.
  - cbn [after]. destruct (parse_header (c :: line)) as [e|[k v]].
    + inversion E; subst. cbn [blp after]. repeat split; auto; discriminate.
    + apply IH; auto. lia.
  - inversion E; subst. cbn [blp]. repeat split; auto.
  - inversion E; subst. cbn [blp after]. repeat split; auto; discriminate.
  - inversion E; subst. cbn [blp after]. repeat split; auto; discriminate.
Qed.

Lemma hdr_frame dbg st ls s r ls' s' m : Forall ordinary s -> hdr_parse dbg st ls s = (r, ls', s') -> nf r ->
  Forall ordinary s' /\ (blp r = true -> s' = []) /\ hdr_parse dbg st ls (s ++ B :: m) = (r, ls', after (blp r) s' m).
Proof.
  intros O E Nf. unfold hdr_parse, with_limit in *. destruct (usub dbg MAX_HEADERS_SIZE (h_read st)) as [lim|].
  - destruct (hdr_loop (S (S (mu s))) dbg st (lim :: ls) s) as [[r0 l0] s0] eqn:E1. inversion E; subst.
    destruct (hdr_loop_frame _ _ _ _ _ _ _ _ m (S (S (mu (s ++ B :: m)))) O E1 Nf) as (H1 & H2 & H3); [pose proof (mu_app s (B :: m)); lia|].
    rewrite H3. auto.
  - inversion E; subst. cbn [blp after]. repeat split; auto; discriminate.
Qed.

Lemma chunks_loop_frame dbg f1 : forall body st ls s r ls' s' m f2, Forall ordinary s -> chunks_loop f1 dbg body st ls s = (r, ls', s') -> nf r -> (f1 <= f2)%nat ->
  Forall ordinary s' /\ (blp r = true -> s' = []) /\ chunks_loop f2 dbg body st ls (s ++ B :: m) = (r, ls', after (blp r) s' m).
Proof.
  induction f1 as [|f1 IH]; intros body st ls s r ls' s' m f2 O E Nf L; [inversion E; subst; contradiction|].
  destruct f2 as [|f2]; [lia|]. cbn [chunks_loop] in *. destruct st as [line|b|line last|].
  - unfold size_state in *. destruct (crlf_parse dbg line ls s) as [[r0 l0] s0] eqn:E1. destruct (crlf_frame _ _ _ _ _ _ _ m O E1) as (H1 & H2 & H3 & H4). rewrite H4. clear H4.
    destruct r0 as [raw|p k|e|]; cbn [blp] in *; try (inversion E; subst; cbn [blp after]; repeat split; auto; discriminate).
    cbn [after]. destruct (parse_chunk_size raw); [inversion E; subst; cbn [blp after]; repeat split; auto; discriminate|]. apply IH; auto. lia.
  - unfold data_state in *. destruct (bytes_deframe b ls s) as [[r0 l0] s0] eqn:E1.
    assert (N0 : nf r0) by (destruct r0 as [|? []| |]; cbn; auto; inversion E; subst; contradiction).
    destruct (bytes_frame _ _ _ _ _ _ m O E1 N0) as (H1 & H2 & H4). rewrite H4. clear H4.
    destruct r0 as [raw|p k|e|]; cbn [blp] in *; try (inversion E; subst; cbn [blp after]; repeat split; auto; discriminate).
    cbn [after]. apply IH; auto. lia.
  - unfold tail_state in *. destruct (crlf_parse dbg line ls s) as [[r0 l0] s0] eqn:E1. destruct (crlf_frame _ _ _ _ _ _ _ m O E1) as (H1 & H2 & H3 & H4). rewrite H4. clear H4.
    destruct r0 as [raw|p k|e|]; cbn [blp] in *; try (inversion E; subst; cbn [blp after]; repeat split; auto; discriminate).
    cbn [after]. destruct raw; [|inversion E; subst; cbn [blp after]; repeat split; auto; discriminate]. apply IH; auto. lia.
  - inversion E; subst. cbn [blp after]. repeat split; auto; discriminate.
Qed.

Lemma read_to_end_frame f1 : forall ls s acc r acc' ls' s' m f2, Forall ordinary s -> read_to_end f1 ls s acc = (r, acc', ls', s') ->
  r <> Some ModelFuel -> (f1 <= f2)%nat ->
  Forall ordinary s' /\ (blo r = true -> s' = []) /\ read_to_end f2 ls (s ++ B :: m) acc = (r, acc', ls', after (blo r) s' m).
Proof.
  induction f1 as [|f1 IH]; intros ls s acc r acc' ls' s' m f2 O E Nf L; [cbn in E; inversion E; subst; congruence|].
  destruct f2 as [|f2]; [lia|]. cbn [read_to_end] in *.
  destruct (read_lim USIZE_MAX ls s) as [[[k|bs] l1] s1] eqn:E1; destruct (read_lim_frame _ _ _ _ _ _ m O E1) as (H1 & H2 & H3 & H4); rewrite H4; cbn [blr after] in *.
  - assert (G : (Some k, acc, l1, s1) = (r, acc', ls', s') -> Forall ordinary s' /\ (blo r = true -> s' = []) /\
      (Some k, acc, l1, after (isblk k) s1 m) = (r, acc', ls', after (blo r) s' m)).
    { intros K. inversion K; subst. cbn [blo]. auto. }
    destruct k; try (apply G; exact E). cbn [isblk after]. apply IH; auto. lia.
  - destruct bs; [inversion E; subst; cbn [blo after]; repeat split; auto; discriminate|]. apply IH; auto. lia.
Qed.

Lemma eof_frame d ls s r ls' s' m : Forall ordinary s -> eof_deframe d ls s = (r, ls', s') -> nf r ->
  Forall ordinary s' /\ (blp r = true -> s' = []) /\ eof_deframe d ls (s ++ B :: m) = (r, ls', after (blp r) s' m).
Proof.
  intros O E Nf. unfold eof_deframe in *. destruct (read_to_end (S (mu s)) ls s d) as [[[r0 d0] l0] s0] eqn:E1.
  assert (N0 : r0 <> Some ModelFuel) by (intros ->; inversion E; subst; contradiction).
  destruct (read_to_end_frame _ _ _ _ _ _ _ _ m (S (mu (s ++ B :: m))) O E1 N0) as (H1 & H2 & H3); [pose proof (mu_app s (B :: m)); lia|].
  rewrite H3. destruct r0; inversion E; subst; cbn [blo blp after] in *; repeat split; auto; discriminate.
Qed.

Lemma body_frame dbg st ls s r ls' s' m : Forall ordinary s -> body_parse dbg st ls s = (r, ls', s') -> nf r ->
  Forall ordinary s' /\ (blp r = true -> s' = []) /\ body_parse dbg st ls (s ++ B :: m) = (r, ls', after (blp r) s' m).
Proof.
  intros O E Nf. unfold body_parse, with_limit in *. destruct (usub dbg MAX_BODY_SIZE (body_read_so_far st)) as [lim|]; [|inversion E; subst; cbn [blp after]; repeat split; auto; discriminate].
  destruct st as [b|d|c|].
  - destruct (bytes_deframe b (lim :: ls) s) as [[r0 l0] s0] eqn:E1.
    assert (N0 : nf r0) by (destruct r0 as [|? []| |]; cbn; auto; inversion E; subst; contradiction).
    destruct (bytes_frame _ _ _ _ _ _ m O E1 N0) as (H1 & H2 & H4). rewrite H4. clear H4.
    destruct r0; inversion E; subst; cbn [blp after] in *; repeat split; auto; discriminate.
  - destruct (eof_deframe d (lim :: ls) s) as [[r0 l0] s0] eqn:E1.
    assert (N0 : nf r0) by (destruct r0 as [|? []| |]; cbn; auto; inversion E; subst; contradiction).
    destruct (eof_frame _ _ _ _ _ _ m O E1 N0) as (H1 & H2 & H4). rewrite H4. clear H4.
    destruct r0; inversion E; subst; cbn [blp after] in *; repeat split; auto; discriminate.
  - unfold chunks_parse in *. destruct (chunks_loop (3 * mu s + 4) dbg (c_body c) (c_state c) (lim :: ls) s) as [[r0 l0] s0] eqn:E1.
    assert (N0 : nf r0) by (destruct r0 as [|? []| |]; cbn; auto; inversion E; subst; contradiction).
    destruct (chunks_loop_frame _ _ _ _ _ _ _ _ _ m (3 * mu (s ++ B :: m) + 4) O E1 N0) as (H1 & H2 & H4); [pose proof (mu_app s (B :: m)); lia|].
    rewrite H4. clear H4.
    destruct r0; inversion E; subst; cbn [blp after] in *; repeat split; auto; discriminate.
  - inversion E; subst. cbn [blp after]. repeat split; auto; discriminate.
Qed.

Lemma msg_loop_frame {T} (pf : bytes -> perr + T) dbg flag f : forall st ls s r ls' s' m, Forall ordinary s ->
  msg_loop f pf dbg flag st ls s = (r, ls', s') -> nf r ->
  Forall ordinary s' /\ (blp r = true -> s' = []) /\ msg_loop f pf dbg flag st ls (s ++ B :: m) = (r, ls', after (blp r) s' m).
Proof.
  induction f as [|f IH]; intros st ls s r ls' s' m O E Nf; [inversion E; subst; contradiction|].
  cbn [msg_loop] in *. destruct st as [line|t h|t hm b|t hm body].
  - unfold first_line_state, first_parse in *. destruct (crlf_parse dbg line ls s) as [[r0 l0] s0] eqn:E1.
    destruct (crlf_frame _ _ _ _ _ _ _ m O E1) as (H1 & H2 & H3 & H4). rewrite H4. clear H4.
    destruct r0 as [raw|p k|e|]; cbn [blp] in *; try (inversion E; subst; cbn [blp after]; repeat split; auto; discriminate).
    cbn [after]. destruct (pf raw); [inversion E; subst; cbn [blp after]; repeat split; auto; discriminate|]. now apply IH.
  - unfold headers_state in *. destruct (hdr_parse dbg h ls s) as [[r0 l0] s0] eqn:E1.
    assert (N0 : nf r0) by (destruct r0 as [|? []| |]; cbn; auto; inversion E; subst; contradiction).
    destruct (hdr_frame _ _ _ _ _ _ _ m O E1 N0) as (H1 & H2 & H4). rewrite H4. clear H4.
    destruct r0 as [raw|p k|e|]; cbn [blp] in *; try (inversion E; subst; cbn [blp after]; repeat split; auto; discriminate).
    cbn [after]. destruct (body_new raw flag); [inversion E; subst; cbn [blp after]; repeat split; auto; discriminate|]. now apply IH.
  - unfold body_state in *. destruct (body_parse dbg b ls s) as [[r0 l0] s0] eqn:E1.
    assert (N0 : nf r0) by (destruct r0 as [|? []| |]; cbn; auto; inversion E; subst; contradiction).
    destruct (body_frame _ _ _ _ _ _ _ m O E1 N0) as (H1 & H2 & H4). rewrite H4. clear H4.
    destruct r0 as [raw|p k|e|]; cbn [blp] in *; try (inversion E; subst; cbn [blp after]; repeat split; auto; discriminate).
    cbn [after]. now apply IH.
  - inversion E; subst. cbn [blp after]. repeat split; auto; discriminate.
Qed.

Lemma ordinary_no_fuel s : Forall ordinary s -> ~ In (RErr ModelFuel) s.
Proof. intros O I. rewrite Forall_forall in O. apply O in I as [_ I]. congruence. Qed.

Lemma req_parse_frame dbg g st s r s' m : msg_inv g st -> Forall ordinary s -> req_parse dbg st s = (r, s') ->
  Forall ordinary s' /\ (blp r = true -> s' = []) /\ req_parse dbg st (s ++ B :: m) = (r, after (blp r) s' m).
Proof.
  intros Hi O E. assert (Nf : nf r).
  { destruct r as [|st' []| |]; cbn; auto. apply (ordinary_no_fuel _ O).
    destruct (req_parser_ok dbg _ _ _ _ _ Hi E) as (w & _ & Hs & _).
    destruct Hs as [[[Hs|[Hs _]] _]|[(Hs & _)|(Hs & _)]]; try discriminate. eapply takes_in; eauto. discriminate. }
  unfold req_parse, msg_parse in *. destruct (msg_loop 4 parse_request_line dbg false st [] s) as [[r0 l0] s0] eqn:E1.
  assert (N0 : nf r0).
  { destruct r0 as [[[[]]]|? []| |]; cbn; auto. inversion E; subst. contradiction. }
  destruct (msg_loop_frame _ _ _ _ _ _ _ _ _ _ m O E1 N0) as (H1 & H2 & H4). rewrite H4. clear H4.
  destruct r0 as [[[[mm u] hm] body]|p k|e|]; inversion E; subst; cbn [blp after] in *; repeat split; auto; discriminate.
Qed.

Definition blrr (r : read_result) : bool := match r with NotReady => true | _ => false end.

Lemma read_request_frame dbg s p r s' p' m : parser_fine p -> Forall ordinary s -> read_request dbg s p = (r, s', p') ->
  Forall ordinary s' /\ (blrr r = true -> s' = []) /\ read_request dbg (s ++ B :: m) p = (r, after (blrr r) s' m, p').
Proof.
  intros [g Hi] O E. unfold read_request in *. set (st := match p with Some st => st | None => req_new end) in *.
  destruct (req_parse dbg st s) as [r0 s0] eqn:E1.
  destruct (req_parse_frame dbg g st s r0 s0 m Hi O E1) as (H1 & H2 & H3). rewrite H3. clear H3.
  destruct r0 as [v|st' k|e|]; [inversion E; subst; cbn [blp blrr after] in *; repeat split; auto; discriminate| |inversion E; subst; cbn [blp blrr after] in *; repeat split; auto; discriminate ..].
  destruct k; cbn [blp isblk after] in *; try (inversion E; subst; cbn [blp blrr after] in *; repeat split; auto; discriminate).
  all: destruct (is_closed _ _); inversion E; subst; cbn [blp blrr after] in *; repeat split; auto; discriminate.
Qed.

Definition set_in (c : conn) (s : stream) : conn := mk_conn s (cn_parser c) (cn_w c) (cn_sock c).
Definition blv (v : verdict) : bool := match v with Keep => true | _ => false end.

Lemma respond_frame dbg rt f : forall log c vd log' c' m, parser_fine (cn_parser c) -> Forall ordinary (cn_in c) ->
  respond f dbg rt log c = (vd, log', c') ->
  (blv vd = true -> cn_in c' = []) /\
  respond f dbg rt log (set_in c (cn_in c ++ B :: m)) = (vd, log', set_in c' (after (blv vd) (cn_in c') m)).
Proof.
  induction f as [|f IH]; intros log c vd log' c' m Hp O E.
  - cbn [respond] in *. inversion E; subst. cbn [blv after]. split; [discriminate|reflexivity].
  - cbn [respond] in *. change (cn_in (set_in c (cn_in c ++ B :: m))) with (cn_in c ++ B :: m).
    change (cn_parser (set_in c (cn_in c ++ B :: m))) with (cn_parser c). change (cn_w (set_in c (cn_in c ++ B :: m))) with (cn_w c).
    change (cn_sock (set_in c (cn_in c ++ B :: m))) with (cn_sock c).
    destruct (read_request dbg (cn_in c) (cn_parser c)) as [[r s1] p1] eqn:E1.
    destruct (read_fine _ _ _ _ _ _ Hp E1) as [Hp1 _].
    destruct (read_request_frame _ _ _ _ _ _ m Hp O E1) as (H1 & H2 & H3).
    rewrite H3. clear H3.
    destruct r as [|v|e|k| |]; cbn [blrr after] in *.
    + inversion E; subst. cbn [blv after cn_in set_in]. split; auto.
    + destruct (rt log v) eqn:Er; try (inversion E; subst; cbn [blv after cn_in]; split; [discriminate|reflexivity]).
      all: destruct (run_ops (cn_w c) (cn_sock c) _) as [[[u|k] w1] k1]; [|inversion E; subst; cbn [blv after cn_in]; split; [discriminate|reflexivity]];
        destruct (should_close_after_response v); [inversion E; subst; cbn [blv after cn_in]; split; [discriminate|reflexivity]|];
        apply (IH _ (mk_conn s1 p1 w1 k1)); auto.
    + destruct (run_ops _ _ error_ops) as [[u w1] k1]. inversion E; subst. cbn [blv after cn_in]. split; [discriminate|reflexivity].
    + destruct (run_ops _ _ error_ops) as [[u w1] k1]. inversion E; subst. cbn [blv after cn_in]. split; [discriminate|reflexivity].
    + inversion E; subst. cbn [blv after cn_in]. split; [discriminate|reflexivity].
    + inversion E; subst. cbn [blv after cn_in]. split; [discriminate|reflexivity].
Qed.

(** A call of the handler that reads [got] and then finds nothing more. *)
Lemma handle_frame dbg rt v log c log' st' m : parser_fine (cn_parser c) -> Forall ordinary (cn_in c) ->
  handle dbg rt v log (Open c) = (log', st') ->
  handle dbg rt v log (Open (set_in c (cn_in c ++ B :: m))) =
    (log', match st' with Open c' => Open (set_in c' m) | _ => st' end) /\
  (forall c', st' = Open c' -> cn_in c' = []).
Proof.
  intros Hp O E. cbn [handle] in *. change (cn_w (set_in c (cn_in c ++ B :: m))) with (cn_w c).
  change (cn_sock (set_in c (cn_in c ++ B :: m))) with (cn_sock c).
  destruct (wr_flush (cn_w c) (mk_sock (v_events v) (v_flushes v) (sk_sent (cn_sock c)))) as [[[u|k] w1] k1].
  2:{ inversion E; subst. split; [reflexivity|discriminate]. }
  unfold respond_to_requests in *. change (cn_parser (set_in c (cn_in c ++ B :: m))) with (cn_parser c).
  change (cn_in (set_in c (cn_in c ++ B :: m))) with (cn_in c ++ B :: m). cbn [cn_in] in *.
  set (c0 := mk_conn (cn_in c) (cn_parser c) w1 k1) in *.
  set (F := S (S (mu (cn_in c ++ B :: m)))).
  rewrite (respond_enough dbg rt _ F) in E; auto.
  2:{ unfold need, c0. cbn [cn_in cn_parser]. destruct (cn_parser c); lia. }
  2:{ unfold need, c0, F. cbn [cn_in cn_parser]. pose proof (mu_app (cn_in c) (B :: m)). destruct (cn_parser c); lia. }
  destruct (respond F dbg rt log c0) as [[vd l1] c1] eqn:E1.
  destruct (respond_frame dbg rt F log c0 vd l1 c1 m Hp O E1) as [H1 H2].
  change (set_in c0 (cn_in c0 ++ B :: m)) with (mk_conn (cn_in c ++ B :: m) (cn_parser c) w1 k1) in H2. rewrite H2.
  inversion E; subst. destruct vd; cbn [blv after] in *.
  - split; [reflexivity|]. intros c' K. inversion K; subst. auto.
  - split; [reflexivity|discriminate].
  - split; [reflexivity|discriminate].
Qed.
