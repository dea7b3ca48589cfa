(** A call that is done with what it read does the same when more follows. *)
From Coq Require Import List Ascii String NArith ZArith Bool Lia.
From Coq Require Import ZifyBool ZifyNat ZifyN.
From Verif.Model Require Import Bytes Io Common Parse Encode Writer Server.
From Verif.Spec Require Import Batch Stream Drive Output Session.
From Verif.Proofs Require Import BytesFacts IoFacts ParseFacts DriveFacts CallFacts WriterFacts OpsFacts ServerFacts ConnFacts FrameFacts.
Import ListNotations.
Local Open Scope N_scope.

Lemma fill_more s r s' m : fill s = (r, s') -> blr r = false -> fill (s ++ m) = (r, s' ++ m).
Proof. intros E K. destruct s as [|[[|c bs]|k] s]; cbn [fill app] in *; inversion E; subst; auto; discriminate. Qed.

(** What was seen of the stream is in it. *)
Lemma fill_seen s bs s' : fill s = (inr bs, s') -> bs <> [] -> s' <> [].
Proof. intros E N. destruct s as [|[[|c b]|k] s]; cbn [fill] in E; inversion E; subst; congruence. Qed.
Lemma consume_more n s m : n = 0 \/ s <> [] -> consume n (s ++ m) = consume n s ++ m.
Proof.
  intros H. unfold consume. destruct (n =? 0) eqn:E; auto. destruct s as [|[bs|k] s]; [destruct H; [lia|congruence]| |]; auto. cbn [app].
  destruct (skipn (N.to_nat n) bs); auto.
Qed.

Lemma fill_lim_more ls s r s' m : fill_lim ls s = (r, s') -> blr r = false -> fill_lim ls (s ++ m) = (r, s' ++ m).
Proof.
  revert r s'. induction ls as [|l ls IH]; intros r s' E K; [now apply fill_more|]. cbn [fill_lim] in *.
  destruct (l =? 0); [inversion E; subst; auto|].
  destruct (fill_lim ls s) as [[k|bs] s1] eqn:E1; inversion E; subst; rewrite (IH _ _ eq_refl); auto.
Qed.
Lemma fill_lim_seen ls : forall s bs s', fill_lim ls s = (inr bs, s') -> bs <> [] -> s' <> [].
Proof.
  induction ls as [|l ls IH]; intros s bs s' E N; [eapply fill_seen; eauto|]. cbn [fill_lim] in E.
  destruct (l =? 0); [inversion E; subst; congruence|]. destruct (fill_lim ls s) as [[k|b] s1] eqn:E1; inversion E; subst.
  eapply IH; eauto. intros ->. apply N. now rewrite firstn_nil.
Qed.

Lemma consume_lim_more ls : forall n s m, n = 0 \/ s <> [] -> consume_lim n ls (s ++ m) = (fst (consume_lim n ls s), snd (consume_lim n ls s) ++ m).
Proof.
  induction ls as [|l ls IH]; intros n s m H; cbn [consume_lim]; [cbn [fst snd]; now rewrite consume_more|].
  rewrite IH by (destruct H; [left; lia|now right]). destruct (consume_lim (N.min n l) ls s). reflexivity.
Qed.

Lemma read_lim_more ls : forall n s r ls' s' m, read_lim n ls s = (r, ls', s') -> blr r = false -> read_lim n ls (s ++ m) = (r, ls', s' ++ m).
Proof.
  induction ls as [|l ls IH]; intros n s r ls' s' m E K; cbn [read_lim] in *.
  - unfold read_some in *. destruct (fill s) as [[k|bs] s1] eqn:E1.
    + inversion E; subst. now rewrite (fill_more _ _ _ m E1 K).
    + rewrite (fill_more _ _ _ m E1 eq_refl). inversion E; subst. rewrite consume_more; auto.
      destruct bs as [|c bs]; [left; now rewrite firstn_nil|right; eapply fill_seen; eauto; discriminate].
  - destruct (l =? 0); [inversion E; subst; auto|].
    destruct (read_lim (N.min n l) ls s) as [[[k|got] ls1] s1] eqn:E1; inversion E; subst.
    + now rewrite (IH _ _ _ _ _ m E1 K).
    + now rewrite (IH _ _ _ _ _ m E1 eq_refl).
Qed.

Lemma read_until_more f1 : forall ls s acc r acc' ls' s' m f2, read_until f1 ls s acc = (r, acc', ls', s') ->
  r <> Some ModelFuel -> (f1 <= f2)%nat -> blo r = false -> read_until f2 ls (s ++ m) acc = (r, acc', ls', s' ++ m).
Proof.
  induction f1 as [|f1 IH]; intros ls s acc r acc' ls' s' m f2 E Nf L K; [cbn in E; inversion E; subst; congruence|].
  destruct f2 as [|f2]; [lia|]. cbn [read_until] in *.
  destruct (fill_lim ls s) as [[k|bs] s1] eqn:E1.
  - pose proof (fill_lim_more _ _ _ _ m E1) as H4. cbn [blr] in H4.
    destruct k; try (inversion E; subst; cbn [blo isblk] in *; try discriminate; rewrite H4; auto; fail).
    rewrite H4 by reflexivity. apply IH; auto. lia.
  - rewrite (fill_lim_more _ _ _ _ m E1 eq_refl).
    assert (Se : forall n, bs <> [] \/ n = 0 -> n = 0 \/ s1 <> []) by (intros n [H|H]; [right; eapply fill_lim_seen; eauto|now left]).
    destruct (find_lf bs) as [i|] eqn:Ef.
    + assert (bs <> []) by (intros ->; discriminate).
      rewrite consume_lim_more by (apply Se; auto).
      destruct (consume_lim (N.of_nat (S i)) ls s1) as [l2 s2]. cbn [fst snd] in *. inversion E; subst. reflexivity.
    + rewrite consume_lim_more by (apply Se; destruct bs; [right; reflexivity|left; discriminate]).
      destruct (consume_lim (len bs) ls s1) as [l2 s2]. cbn [fst snd] in *.
      destruct bs; [inversion E; subst; auto|]. apply IH; auto. lia.
Qed.

Lemma read_line_more line ls s r l' ls' s' m : Forall ordinary s -> read_line line ls s = (r, l', ls', s') -> blo r = false ->
  read_line line ls (s ++ m) = (r, l', ls', s' ++ m).
Proof.
  intros O E K. pose proof (read_line_frame _ _ _ _ _ _ _ [] O E) as (_ & _ & _ & _).
  unfold read_line in *. destruct (read_until (S (mu s)) ls s []) as [[[r0 acc] ls1] s1] eqn:E1.
  assert (Nf : r0 <> Some ModelFuel).
  { intros ->. apply read_until_spec in E1 as (w & _ & _ & _ & _ & [[K1|(K1 & _)]|(K1 & _)] & _); try discriminate; [|lia].
    apply takes_in in K1; [|discriminate]. rewrite Forall_forall in O. apply O in K1 as [_ K1]. congruence. }
  assert (K0 : blo r0 = false).
  { destruct r0; auto. destruct (utf8 acc); inversion E; subst; auto. }
  rewrite (read_until_more _ _ _ _ _ _ _ _ m (S (mu (s ++ m))) E1 Nf) by (auto; pose proof (mu_app s m); lia).
  destruct (utf8 acc); inversion E; subst; auto.
Qed.

Lemma line_deframe_more line ls s r ls' s' m : Forall ordinary s -> line_deframe line ls s = (r, ls', s') -> blp r = false ->
  line_deframe line ls (s ++ m) = (r, ls', s' ++ m).
Proof.
  intros O E K. unfold line_deframe in *. destruct (read_line line ls s) as [[[r0 l0] ls1] s1] eqn:E1.
  pose proof (read_line_more _ _ _ _ _ _ _ m O E1) as H4.
  destruct r0 as [k|]; cbn [blo] in *.
  - inversion E; subst. cbn [blp] in K. now rewrite (H4 K).
  - rewrite H4 by reflexivity. destruct (str_pop l0) as [[rest ch]|]; [destruct (beqb ch [LF])|]; inversion E; subst; auto.
Qed.

Lemma crlf_more dbg line ls s r ls' s' m : Forall ordinary s -> crlf_parse dbg line ls s = (r, ls', s') -> blp r = false ->
  crlf_parse dbg line ls (s ++ m) = (r, ls', s' ++ m).
Proof.
  intros O E K. unfold crlf_parse, with_limit in *. destruct (usub dbg MAX_LINE_SIZE (len line)) as [lim|]; [|inversion E; subst; auto].
  destruct (line_deframe line (lim :: ls) s) as [[r0 l0] s0] eqn:E1.
  pose proof (line_deframe_more _ _ _ _ _ _ m O E1) as H4.
  destruct r0 as [l|p k|e|]; cbn [blp] in *.
  - rewrite H4 by reflexivity. destruct (parse_crlf_line l); inversion E; subst; auto.
  - destruct k; try (rewrite H4 by reflexivity; inversion E; subst; auto; fail). inversion E; subst; discriminate.
  - rewrite H4 by reflexivity. inversion E; subst; auto.
  - rewrite H4 by reflexivity. inversion E; subst; auto.
Qed.

Lemma bytes_loop_more size f1 : forall got ls s r ls' s' m f2, bytes_loop f1 size got ls s = (r, ls', s') -> nf r ->
  (f1 <= f2)%nat -> blp r = false -> bytes_loop f2 size got ls (s ++ m) = (r, ls', s' ++ m).
Proof.
  induction f1 as [|f1 IH]; intros got ls s r ls' s' m f2 E Nf L K.
  - cbn [bytes_loop] in E. destruct (len got <? size) eqn:Lt; inversion E; subst; [contradiction|].
    destruct f2; cbn [bytes_loop]; now rewrite Lt.
  - destruct f2 as [|f2]; [lia|]. cbn [bytes_loop] in *.
    destruct (len got <? size); [|inversion E; subst; auto].
    destruct (read_lim (size - len got) ls s) as [[[k|bs] l1] s1] eqn:E1; pose proof (read_lim_more _ _ _ _ _ _ m E1) as H4; cbn [blr] in H4.
    + inversion E; subst. cbn [blp] in K. now rewrite (H4 K).
    + rewrite H4 by reflexivity. destruct bs; [inversion E; subst; auto|]. apply IH; auto. lia.
Qed.
Lemma bytes_more st ls s r ls' s' m : bytes_deframe st ls s = (r, ls', s') -> nf r -> blp r = false ->
  bytes_deframe st ls (s ++ m) = (r, ls', s' ++ m).
Proof. intros E Nf K. unfold bytes_deframe in *. eapply bytes_loop_more; eauto. pose proof (mu_app s m). lia. Qed.

Lemma hdr_loop_more dbg f1 : forall st ls s r ls' s' m f2, Forall ordinary s -> hdr_loop f1 dbg st ls s = (r, ls', s') -> nf r -> (f1 <= f2)%nat ->
  blp r = false -> hdr_loop f2 dbg st ls (s ++ m) = (r, ls', s' ++ m).
Proof.
  induction f1 as [|f1 IH]; intros st ls s r ls' s' m f2 O E Nf L K; [inversion E; subst; contradiction|].
  destruct f2 as [|f2]; [lia|]. cbn [hdr_loop] in *.
  destruct (crlf_parse dbg (h_line st) ls s) as [[r0 l0] s0] eqn:E1.
  destruct (crlf_frame _ _ _ _ _ _ _ [] O E1) as (H1 & _ & _ & _). pose proof (crlf_more _ _ _ _ _ _ _ m O E1) as H4.
  destruct r0 as [[|c line]|p k|e|]; cbn [blp] in *.
  - rewrite H4 by reflexivity. inversion E; subst; auto.
  - rewrite H4 by reflexivity. destruct (parse_header (c :: line)) as [e|[k v]]; [inversion E; subst; auto|]. apply IH; auto. lia.
  - inversion E; subst. cbn [blp] in K. now rewrite (H4 K).
  - rewrite H4 by reflexivity. inversion E; subst; auto.
  - rewrite H4 by reflexivity. inversion E; subst; auto.
Qed.
Lemma hdr_more dbg st ls s r ls' s' m : Forall ordinary s -> hdr_parse dbg st ls s = (r, ls', s') -> nf r -> blp r = false ->
  hdr_parse dbg st ls (s ++ m) = (r, ls', s' ++ m).
Proof.
  intros O E Nf K. unfold hdr_parse, with_limit in *. destruct (usub dbg MAX_HEADERS_SIZE (h_read st)) as [lim|]; [|inversion E; subst; auto].
  destruct (hdr_loop (S (S (mu s))) dbg st (lim :: ls) s) as [[r0 l0] s0] eqn:E1. inversion E; subst.
  rewrite (hdr_loop_more _ _ _ _ _ _ _ _ m (S (S (mu (s ++ m)))) O E1 Nf) by (auto; pose proof (mu_app s m); lia). reflexivity.
Qed.

Lemma chunks_loop_more dbg f1 : forall body st ls s r ls' s' m f2, Forall ordinary s -> chunks_loop f1 dbg body st ls s = (r, ls', s') -> nf r -> (f1 <= f2)%nat ->
  blp r = false -> chunks_loop f2 dbg body st ls (s ++ m) = (r, ls', s' ++ m).
Proof.
  induction f1 as [|f1 IH]; intros body st ls s r ls' s' m f2 O E Nf L K; [inversion E; subst; contradiction|].
  destruct f2 as [|f2]; [lia|]. cbn [chunks_loop] in *. destruct st as [line|b|line last|].
  - unfold size_state in *. destruct (crlf_parse dbg line ls s) as [[r0 l0] s0] eqn:E1.
    destruct (crlf_frame _ _ _ _ _ _ _ [] O E1) as (H1 & _ & _ & _). pose proof (crlf_more _ _ _ _ _ _ _ m O E1) as H4.
    destruct r0 as [raw|p k|e|]; cbn [blp] in *; try (inversion E; subst; cbn [blp] in K; rewrite H4; auto; fail).
    rewrite H4 by reflexivity. destruct (parse_chunk_size raw); [inversion E; subst; auto|]. apply IH; auto. lia.
  - unfold data_state in *. destruct (bytes_deframe b ls s) as [[r0 l0] s0] eqn:E1.
    assert (N0 : nf r0) by (destruct r0 as [|? []| |]; cbn; auto; inversion E; subst; contradiction).
    destruct (bytes_frame _ _ _ _ _ _ [] O E1 N0) as (H1 & _ & _). pose proof (bytes_more _ _ _ _ _ _ m E1 N0) as H4.
    destruct r0 as [raw|p k|e|]; cbn [blp] in *; try (inversion E; subst; cbn [blp] in K; rewrite H4; auto; fail).
    rewrite H4 by reflexivity. apply IH; auto. lia.
  - unfold tail_state in *. destruct (crlf_parse dbg line ls s) as [[r0 l0] s0] eqn:E1.
    destruct (crlf_frame _ _ _ _ _ _ _ [] O E1) as (H1 & _ & _ & _). pose proof (crlf_more _ _ _ _ _ _ _ m O E1) as H4.
    destruct r0 as [raw|p k|e|]; cbn [blp] in *; try (inversion E; subst; cbn [blp] in K; rewrite H4; auto; fail).
    rewrite H4 by reflexivity. destruct raw; [|inversion E; subst; auto]. apply IH; auto. lia.
  - inversion E; subst; auto.
Qed.

Lemma read_to_end_more f1 : forall ls s acc r acc' ls' s' m f2, read_to_end f1 ls s acc = (r, acc', ls', s') ->
  r <> Some ModelFuel -> (f1 <= f2)%nat -> blo r = false -> read_to_end f2 ls (s ++ m) acc = (r, acc', ls', s' ++ m).
Proof.
  induction f1 as [|f1 IH]; intros ls s acc r acc' ls' s' m f2 E Nf L K; [cbn in E; inversion E; subst; congruence|].
  destruct f2 as [|f2]; [lia|]. cbn [read_to_end] in *.
  destruct (read_lim USIZE_MAX ls s) as [[[k|bs] l1] s1] eqn:E1; pose proof (read_lim_more _ _ _ _ _ _ m E1) as H4; cbn [blr] in H4.
  - destruct k; try (inversion E; subst; cbn [blo isblk] in *; try discriminate; rewrite H4; auto; fail).
    rewrite H4 by reflexivity. apply IH; auto. lia.
  - rewrite H4 by reflexivity. destruct bs; [inversion E; subst; auto|]. apply IH; auto. lia.
Qed.
Lemma eof_more d ls s r ls' s' m : eof_deframe d ls s = (r, ls', s') -> nf r -> blp r = false ->
  eof_deframe d ls (s ++ m) = (r, ls', s' ++ m).
Proof.
  intros E Nf K. unfold eof_deframe in *. destruct (read_to_end (S (mu s)) ls s d) as [[[r0 d0] l0] s0] eqn:E1.
  assert (N0 : r0 <> Some ModelFuel) by (intros ->; inversion E; subst; contradiction).
  assert (K0 : blo r0 = false) by (destruct r0; inversion E; subst; auto).
  rewrite (read_to_end_more _ _ _ _ _ _ _ _ m (S (mu (s ++ m))) E1 N0) by (auto; pose proof (mu_app s m); lia).
  destruct r0; inversion E; subst; auto.
Qed.

Lemma body_more dbg st ls s r ls' s' m : Forall ordinary s -> body_parse dbg st ls s = (r, ls', s') -> nf r -> blp r = false ->
  body_parse dbg st ls (s ++ m) = (r, ls', s' ++ m).
Proof.
  intros O E Nf K. unfold body_parse, with_limit in *. destruct (usub dbg MAX_BODY_SIZE (body_read_so_far st)) as [lim|]; [|inversion E; subst; auto].
  destruct st as [b|d|c|]; [| | |inversion E; subst; auto].
  - destruct (bytes_deframe b (lim :: ls) s) as [[r0 l0] s0] eqn:E1.
    assert (N0 : nf r0) by (destruct r0 as [|? []| |]; cbn; auto; inversion E; subst; contradiction).
    pose proof (bytes_more _ _ _ _ _ _ m E1 N0) as H4. rewrite H4 by (destruct r0; inversion E; subst; auto).
    destruct r0; inversion E; subst; auto.
  - destruct (eof_deframe d (lim :: ls) s) as [[r0 l0] s0] eqn:E1.
    assert (N0 : nf r0) by (destruct r0 as [|? []| |]; cbn; auto; inversion E; subst; contradiction).
    pose proof (eof_more _ _ _ _ _ _ m E1 N0) as H4. rewrite H4 by (destruct r0; inversion E; subst; auto).
    destruct r0; inversion E; subst; auto.
  - unfold chunks_parse in *. destruct (chunks_loop (3 * mu s + 4) dbg (c_body c) (c_state c) (lim :: ls) s) as [[r0 l0] s0] eqn:E1.
    assert (N0 : nf r0) by (destruct r0 as [|? []| |]; cbn; auto; inversion E; subst; contradiction).
    rewrite (chunks_loop_more _ _ _ _ _ _ _ _ _ m (3 * mu (s ++ m) + 4) O E1 N0) by
      (try (pose proof (mu_app s m); lia); destruct r0; inversion E; subst; auto).
    destruct r0; inversion E; subst; auto.
Qed.

Lemma msg_loop_more {T} (pf : bytes -> perr + T) dbg flag f : forall st ls s r ls' s' m, Forall ordinary s ->
  msg_loop f pf dbg flag st ls s = (r, ls', s') -> nf r -> blp r = false -> msg_loop f pf dbg flag st ls (s ++ m) = (r, ls', s' ++ m).
Proof.
  induction f as [|f IH]; intros st ls s r ls' s' m O E Nf K; [inversion E; subst; contradiction|].
  cbn [msg_loop] in *. destruct st as [line|t h|t hm b|t hm body].
  - unfold first_line_state, first_parse in *. destruct (crlf_parse dbg line ls s) as [[r0 l0] s0] eqn:E1.
    destruct (crlf_frame _ _ _ _ _ _ _ [] O E1) as (H1 & _ & _ & _). pose proof (crlf_more _ _ _ _ _ _ _ m O E1) as H4.
    destruct r0 as [raw|p k|e|]; cbn [blp] in *; try (inversion E; subst; cbn [blp] in K; rewrite H4; auto; fail).
    rewrite H4 by reflexivity. destruct (pf raw); [inversion E; subst; auto|]. now apply IH.
  - unfold headers_state in *. destruct (hdr_parse dbg h ls s) as [[r0 l0] s0] eqn:E1.
    assert (N0 : nf r0) by (destruct r0 as [|? []| |]; cbn; auto; inversion E; subst; contradiction).
    destruct (hdr_frame _ _ _ _ _ _ _ [] O E1 N0) as (H1 & _ & _). pose proof (hdr_more _ _ _ _ _ _ _ m O E1 N0) as H4.
    destruct r0 as [raw|p k|e|]; cbn [blp] in *; try (inversion E; subst; cbn [blp] in K; rewrite H4; auto; fail).
    rewrite H4 by reflexivity. destruct (body_new raw flag); [inversion E; subst; auto|]. now apply IH.
  - unfold body_state in *. destruct (body_parse dbg b ls s) as [[r0 l0] s0] eqn:E1.
    assert (N0 : nf r0) by (destruct r0 as [|? []| |]; cbn; auto; inversion E; subst; contradiction).
    destruct (body_frame _ _ _ _ _ _ _ [] O E1 N0) as (H1 & _ & _). pose proof (body_more _ _ _ _ _ _ _ m O E1 N0) as H4.
    destruct r0 as [raw|p k|e|]; cbn [blp] in *; try (inversion E; subst; cbn [blp] in K; rewrite H4; auto; fail).
    all: rewrite H4 by reflexivity; now apply IH.
  - inversion E; subst; auto.
Qed.

Lemma req_parse_more dbg g st s r s' m : msg_inv g st -> Forall ordinary s -> req_parse dbg st s = (r, s') -> blp r = false ->
  req_parse dbg st (s ++ m) = (r, s' ++ m).
Proof.
  intros Hi O E K. assert (Nf : nf r).
  { destruct r as [|st' []| |]; cbn; auto. apply (ordinary_no_fuel _ O).
    destruct (req_parser_ok dbg _ _ _ _ _ Hi E) as (w & _ & Hs & _).
    destruct Hs as [[[Hs|[Hs _]] _]|[(Hs & _)|(Hs & _)]]; try discriminate. eapply takes_in; eauto. discriminate. }
  unfold req_parse, msg_parse in *. destruct (msg_loop 4 parse_request_line dbg false st [] s) as [[r0 l0] s0] eqn:E1.
  assert (N0 : nf r0).
  { destruct r0 as [[[[]]]|? []| |]; cbn; auto. inversion E; subst. contradiction. }
  rewrite (msg_loop_more _ _ _ _ _ _ _ _ _ _ m O E1 N0) by (destruct r0 as [[[[]]]|? ?| |]; inversion E; subst; auto).
  destruct r0 as [[[[mm u] hm] body]|p k|e|]; inversion E; subst; auto.
Qed.

(** A request that was complete stays what it was. *)
Lemma read_request_more dbg s p v s' p' m : parser_fine p -> Forall ordinary s -> read_request dbg s p = (Ready v, s', p') ->
  read_request dbg (s ++ m) p = (Ready v, s' ++ m, p').
Proof.
  intros [g Hi] O E. unfold read_request in *. set (st := match p with Some st => st | None => req_new end) in *.
  destruct (req_parse dbg st s) as [r0 s0] eqn:E1.
  destruct r0 as [v0|st' k|e|].
  - rewrite (req_parse_more dbg g st s _ s0 m Hi O E1) by reflexivity. inversion E; subst; auto.
  - exfalso. destruct k; try (inversion E; fail). all: destruct (is_closed _ _); inversion E.
  - inversion E.
  - inversion E.
Qed.
