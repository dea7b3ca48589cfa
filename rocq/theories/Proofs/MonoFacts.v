(** The parsers over any reader: a run that was not out of iterations is the same with more of them. *)
From Coq Require Import List Ascii String Arith NArith Bool Lia.
From Verif.Model Require Import Bytes Io Common Parse Generic.
From Verif.Proofs Require Import FuelFacts.
Import ListNotations.
Local Open Scope N_scope.

Definition fueled {T S} (r : pres T S) : Prop := match r with PIo _ ModelFuel => False | _ => True end.

Section Mono.
Variable R : Type.
Variable fill : R -> (ekind + bytes) * R.
Variable consume : N -> R -> R.
Variable readn : N -> R -> (ekind + bytes) * R.
Variable size : bytes -> N.
Variables F G : nat.
Hypothesis FG : (F <= G)%nat.

Local Notation stF := (fun _ : R => F).
Local Notation stG := (fun _ : R => G).

Lemma read_until_mono f : forall g ls r acc x acc' ls' r', (f <= g)%nat ->
  g_read_until R fill consume f ls r acc = (x, acc', ls', r') -> x <> Some ModelFuel ->
  g_read_until R fill consume g ls r acc = (x, acc', ls', r').
Proof.
  induction f as [|f IH]; intros [|g] ls r acc x acc' ls' r' H E N; cbn [g_read_until] in *; try lia; try (inversion E; subst; congruence).
  destruct (g_fill_lim R fill ls r) as [[k|bs] r1].
  - destruct k; try exact E. apply IH; auto; lia.
  - destruct (find_lf bs); [exact E|]. destruct (g_consume_lim R consume (len bs) ls r1) as [ls1 r2].
    destruct bs; [exact E|]. apply IH; auto; lia.
Qed.

Lemma to_end_mono f : forall g ls r acc x acc' ls' r', (f <= g)%nat ->
  g_read_to_end R readn size f ls r acc = (x, acc', ls', r') -> x <> Some ModelFuel ->
  g_read_to_end R readn size g ls r acc = (x, acc', ls', r').
Proof.
  induction f as [|f IH]; intros [|g] ls r acc x acc' ls' r' H E N; cbn [g_read_to_end] in *; try lia; try (inversion E; subst; congruence).
  destruct (g_read_lim R readn (size acc) ls r) as [[y ls1] r1].
  destruct y as [k|[|c got]]; try exact E.
  - destruct k; try exact E. apply IH; auto; lia.
  - apply IH; auto; lia.
Qed.

Lemma bytes_loop_mono f : forall g n got ls r x ls' r', (f <= g)%nat ->
  g_bytes_loop R readn f n got ls r = (x, ls', r') -> fueled x -> g_bytes_loop R readn g n got ls r = (x, ls', r').
Proof.
  induction f as [|f IH]; intros [|g] n got ls r x ls' r' H E N; cbn [g_bytes_loop] in *; try lia;
    try (destruct (len got <? n); [inversion E; subst; contradiction|exact E]); auto.
  destruct (len got <? n); [|exact E].
  destruct (g_read_lim R readn (n - len got) ls r) as [[y ls1] r1].
  destruct y as [k|[|c b]]; try exact E. apply IH; auto; lia.
Qed.

Lemma crlf_parse_mono dbg line ls r x ls' r' : g_crlf_parse R fill consume stF dbg line ls r = (x, ls', r') -> fueled x ->
  g_crlf_parse R fill consume stG dbg line ls r = (x, ls', r').
Proof.
  unfold g_crlf_parse, g_with_limit, g_line_deframe, g_read_line. intros E N.
  destruct (usub dbg MAX_LINE_SIZE (len line)) as [lim|]; [|exact E].
  destruct (g_read_until R fill consume (S F) (lim :: ls) r []) as [[[y acc] ls1] r1] eqn:E1.
  rewrite (read_until_mono (S F) (S G) _ _ _ _ _ _ _ ltac:(lia) E1); [exact E|].
  intros ->. destruct (utf8 acc); inversion E; subst; contradiction.
Qed.

Lemma hdr_loop_mono f dbg : forall g h ls r x ls' r', (f <= g)%nat ->
  g_hdr_loop R fill consume stF f dbg h ls r = (x, ls', r') -> fueled x ->
  g_hdr_loop R fill consume stG g dbg h ls r = (x, ls', r').
Proof.
  induction f as [|f IH]; intros [|g] h ls r x ls' r' H E N; cbn [g_hdr_loop] in *; try lia; try (inversion E; subst; contradiction).
  destruct (g_crlf_parse R fill consume stF dbg (h_line h) ls r) as [[y ls1] r1] eqn:E1.
  assert (Ny : fueled y) by (destruct y as [l|l k|e|]; cbn; auto; destruct k; auto; inversion E; subst; contradiction).
  rewrite (crlf_parse_mono _ _ _ _ _ _ _ E1 Ny).
  destruct y as [[|c l]|l k|e|]; try exact E. destruct (parse_header (c :: l)) as [e|[a b]]; [exact E|]. apply IH; auto; lia.
Qed.

Lemma hdr_parse_mono dbg h ls r x ls' r' : g_hdr_parse R fill consume stF dbg h ls r = (x, ls', r') -> fueled x ->
  g_hdr_parse R fill consume stG dbg h ls r = (x, ls', r').
Proof.
  unfold g_hdr_parse, g_with_limit. intros E N. destruct (usub dbg MAX_HEADERS_SIZE (h_read h)) as [lim|]; [|exact E].
  destruct (g_hdr_loop R fill consume stF (S (S F)) dbg h (lim :: ls) r) as [[y ls1] r1] eqn:E1. inversion E; subst.
  assert (L : (S (S F) <= S (S G))%nat) by lia. rewrite (hdr_loop_mono _ _ _ _ _ _ _ _ _ L E1 N). reflexivity.
Qed.

Lemma bytes_deframe_mono b ls r x ls' r' : g_bytes_deframe R readn stF b ls r = (x, ls', r') -> fueled x ->
  g_bytes_deframe R readn stG b ls r = (x, ls', r').
Proof. unfold g_bytes_deframe. intros E N. refine (bytes_loop_mono (S F) _ _ _ _ _ _ _ _ _ E N); lia. Qed.

Lemma eof_deframe_mono d ls r x ls' r' : g_eof_deframe R readn size stF d ls r = (x, ls', r') -> fueled x ->
  g_eof_deframe R readn size stG d ls r = (x, ls', r').
Proof.
  unfold g_eof_deframe. intros E N. destruct (g_read_to_end R readn size (S F) ls r d) as [[[y d1] ls1] r1] eqn:E1.
  rewrite (to_end_mono (S F) (S G) _ _ _ _ _ _ _ ltac:(lia) E1); [exact E|]. intros ->. inversion E; subst. contradiction.
Qed.

Lemma chunks_loop_mono f dbg : forall g body c ls r x ls' r', (f <= g)%nat ->
  g_chunks_loop R fill consume readn stF f dbg body c ls r = (x, ls', r') -> fueled x ->
  g_chunks_loop R fill consume readn stG g dbg body c ls r = (x, ls', r').
Proof.
  induction f as [|f IH]; intros [|g] body c ls r x ls' r' H E N; cbn [g_chunks_loop] in *; try lia; try (inversion E; subst; contradiction).
  destruct c as [line|b|line last|].
  - unfold g_size_state in *. destruct (g_crlf_parse R fill consume stF dbg line ls r) as [[y ls1] r1] eqn:E1.
    assert (Ny : fueled y) by (destruct y as [l|l k|e|]; cbn; auto; destruct k; auto; inversion E; subst; contradiction).
    rewrite (crlf_parse_mono _ _ _ _ _ _ _ E1 Ny). destruct y as [l|l k|e|]; try exact E.
    destruct (parse_chunk_size l); [exact E|]. apply IH; auto; lia.
  - unfold g_data_state in *. destruct (g_bytes_deframe R readn stF b ls r) as [[y ls1] r1] eqn:E1.
    assert (Ny : fueled y) by (destruct y as [l|l k|e|]; cbn; auto; destruct k; auto; inversion E; subst; contradiction).
    rewrite (bytes_deframe_mono _ _ _ _ _ _ E1 Ny). destruct y as [l|l k|e|]; try exact E. apply IH; auto; lia.
  - unfold g_tail_state in *. destruct (g_crlf_parse R fill consume stF dbg line ls r) as [[y ls1] r1] eqn:E1.
    assert (Ny : fueled y) by (destruct y as [l|l k|e|]; cbn; auto; destruct k; auto; inversion E; subst; contradiction).
    rewrite (crlf_parse_mono _ _ _ _ _ _ _ E1 Ny). destruct y as [[|a l]|l k|e|]; try exact E. apply IH; auto; lia.
  - exact E.
Qed.

Lemma body_parse_mono dbg b ls r x ls' r' :
  g_body_parse R fill consume readn size stF stF dbg b ls r = (x, ls', r') -> fueled x ->
  g_body_parse R fill consume readn size stG stG dbg b ls r = (x, ls', r').
Proof.
  unfold g_body_parse, g_with_limit. intros E N. destruct (usub dbg MAX_BODY_SIZE (body_read_so_far b)) as [lim|]; [|exact E].
  destruct b as [b|d|c|]; try exact E.
  - destruct (g_bytes_deframe R readn stF b (lim :: ls) r) as [[y ls1] r1] eqn:E1.
    assert (Ny : fueled y) by (destruct y as [l|l k|e|]; cbn; auto; destruct k; auto; inversion E; subst; contradiction).
    rewrite (bytes_deframe_mono _ _ _ _ _ _ E1 Ny). exact E.
  - destruct (g_eof_deframe R readn size stF d (lim :: ls) r) as [[y ls1] r1] eqn:E1.
    assert (Ny : fueled y) by (destruct y as [l|l k|e|]; cbn; auto; destruct k; auto; inversion E; subst; contradiction).
    rewrite (eof_deframe_mono _ _ _ _ _ _ E1 Ny). exact E.
  - unfold g_chunks_parse in *.
    destruct (g_chunks_loop R fill consume readn stF (3 * F + 4)%nat dbg (c_body c) (c_state c) (lim :: ls) r) as [[y ls1] r1] eqn:E1.
    assert (Ny : fueled y) by (destruct y as [l|l k|e|]; cbn; auto; destruct k; auto; inversion E; subst; contradiction).
    assert (L : (3 * F + 4 <= 3 * G + 4)%nat) by lia. rewrite (chunks_loop_mono _ _ _ _ _ _ _ _ _ _ L E1 Ny). exact E.
Qed.

Lemma msg_loop_mono {T} (pf : bytes -> perr + T) f dbg flag : forall s ls r x ls' r',
  g_msg_loop R fill consume readn size stF stF f pf dbg flag s ls r = (x, ls', r') -> fueled x ->
  g_msg_loop R fill consume readn size stG stG f pf dbg flag s ls r = (x, ls', r').
Proof.
  induction f as [|f IH]; intros s ls r x ls' r' E N; cbn [g_msg_loop] in *; [exact E|].
  destruct s as [line|t h|t hm b|t hm body]; [| | |exact E].
  - unfold g_first_line_state, g_first_parse in *.
    destruct (g_crlf_parse R fill consume stF dbg line ls r) as [[y ls1] r1] eqn:E1.
    assert (Ny : fueled y) by (destruct y as [l|l k|e|]; cbn; auto; destruct k; auto; inversion E; subst; contradiction).
    rewrite (crlf_parse_mono _ _ _ _ _ _ _ E1 Ny). destruct y as [l|l k|e|]; try exact E.
    destruct (pf l); [exact E|]. apply IH; auto.
  - unfold g_headers_state in *. destruct (g_hdr_parse R fill consume stF dbg h ls r) as [[y ls1] r1] eqn:E1.
    assert (Ny : fueled y) by (destruct y as [l|l k|e|]; cbn; auto; destruct k; auto; inversion E; subst; contradiction).
    rewrite (hdr_parse_mono _ _ _ _ _ _ _ E1 Ny). destruct y as [l|l k|e|]; try exact E.
    destruct (body_new l flag); [exact E|]. apply IH; auto.
  - unfold g_body_state in *. destruct (g_body_parse R fill consume readn size stF stF dbg b ls r) as [[y ls1] r1] eqn:E1.
    assert (Ny : fueled y) by (destruct y as [l|l k|e|]; cbn; auto; destruct k; auto; inversion E; subst; contradiction).
    rewrite (body_parse_mono _ _ _ _ _ _ _ E1 Ny). destruct y as [l|l k|e|]; try exact E. apply IH; auto.
Qed.

Lemma req_parse_mono dbg st r x r' : g_req_parse R fill consume readn size stF stF dbg st r = (x, r') -> fueled x ->
  g_req_parse R fill consume readn size stG stG dbg st r = (x, r').
Proof.
  unfold g_req_parse, g_msg_parse. intros E N.
  destruct (g_msg_loop R fill consume readn size stF stF 4 parse_request_line dbg false st [] r) as [[y ls1] r1] eqn:E1.
  assert (Ny : fueled y) by (destruct y as [[[[? ?] ?] ?]|l k|e|]; cbn; auto; destruct k; auto; inversion E; subst; contradiction).
  rewrite (msg_loop_mono _ _ _ _ _ _ _ _ _ _ E1 Ny). exact E.
Qed.

Lemma resp_parse_mono dbg st r x r' : g_resp_parse R fill consume readn size stF stF dbg st r = (x, r') -> fueled x ->
  g_resp_parse R fill consume readn size stG stG dbg st r = (x, r').
Proof.
  unfold g_resp_parse, g_msg_parse. intros E N.
  destruct (g_msg_loop R fill consume readn size stF stF 4 parse_status_line dbg true st [] r) as [[y ls1] r1] eqn:E1.
  assert (Ny : fueled y) by (destruct y as [[[? ?] ?]|l k|e|]; cbn; auto; destruct k; auto; inversion E; subst; contradiction).
  rewrite (msg_loop_mono _ _ _ _ _ _ _ _ _ _ E1 Ny). exact E.
Qed.

End Mono.

(** The iterations of read_to_end. *)
Section Tail.
Variable R : Type.
Variable fill : R -> (ekind + bytes) * R.
Variable consume : N -> R -> R.
Variable readn : N -> R -> (ekind + bytes) * R.
Variable size : bytes -> N.
Variable m : R -> nat.
Hypothesis size_pos : forall acc, 0 < size acc.
Hypothesis fill_err_m : forall r k r', fill r = (inl k, r') -> (m r' <= m r)%nat /\ (k = Interrupted -> (m r' < m r)%nat).
Hypothesis fill_ok_m : forall r bs r' n, fill r = (inr bs, r') -> n <= len bs ->
  (m (consume n r') <= m r)%nat /\ (0 < n -> (m (consume n r') < m r)%nat).
Hypothesis read_err_m : forall n r k r', 0 < n -> readn n r = (inl k, r') ->
  (m r' <= m r)%nat /\ (k = Interrupted -> (m r' < m r)%nat).
Hypothesis read_ok_m : forall n r bs r', 0 < n -> readn n r = (inr bs, r') ->
  (m r' <= m r)%nat /\ (bs <> [] -> (m r' < m r)%nat).

Lemma to_end_fuel f1 : forall f2 ls r acc, (m r < f1)%nat -> (m r < f2)%nat ->
  g_read_to_end R readn size f1 ls r acc = g_read_to_end R readn size f2 ls r acc.
Proof.
  induction f1 as [|f1 IH]; intros [|f2] ls r acc H1 H2; try lia. cbn [g_read_to_end].
  destruct (g_read_lim R readn (size acc) ls r) as [[y ls1] r1] eqn:E1.
  destruct (read_lim_m R readn m read_err_m read_ok_m _ _ _ _ _ _ (size_pos acc) E1) as [H3 H4].
  destruct y as [k|[|c got]]; auto.
  - destruct k; auto. apply IH; lia.
  - apply IH; lia.
Qed.

Variable st : R -> nat.
Variables t1 t2 : R -> nat.
Variable B : nat.
Hypothesis enough1 : forall r, (m r <= B)%nat -> (m r <= t1 r)%nat.
Hypothesis enough2 : forall r, (m r <= B)%nat -> (m r <= t2 r)%nat.

Lemma body_parse_tail dbg b ls r : (m r <= B)%nat ->
  g_body_parse R fill consume readn size st t1 dbg b ls r = g_body_parse R fill consume readn size st t2 dbg b ls r.
Proof.
  intros H. unfold g_body_parse, g_with_limit. destruct (usub dbg MAX_BODY_SIZE (body_read_so_far b)) as [lim|]; auto.
  destruct b as [b|d|c|]; auto. unfold g_eof_deframe.
  rewrite (to_end_fuel (S (t1 r)) (S (t2 r))); auto; [specialize (enough1 _ H)|specialize (enough2 _ H)]; lia.
Qed.

Lemma msg_loop_tail {T} (pf : bytes -> perr + T) f dbg flag : forall s ls r, (m r <= B)%nat ->
  g_msg_loop R fill consume readn size st t1 f pf dbg flag s ls r = g_msg_loop R fill consume readn size st t2 f pf dbg flag s ls r.
Proof.
  induction f as [|f IH]; intros s ls r H; cbn [g_msg_loop]; auto.
  destruct s as [line|t h|t hm b|t hm body]; auto.
  - destruct (g_first_line_state R fill consume st pf dbg line ls r) as [[y ls1] r1] eqn:E1.
    apply (first_line_state_m R fill consume m fill_err_m fill_ok_m) in E1 as [H1 _]. destruct y; auto. apply IH. lia.
  - destruct (g_headers_state R fill consume st dbg flag t h ls r) as [[y ls1] r1] eqn:E1.
    apply (headers_state_m R fill consume m fill_err_m fill_ok_m) in E1. destruct y; auto. apply IH. lia.
  - unfold g_body_state. rewrite body_parse_tail by auto.
    destruct (g_body_parse R fill consume readn size st t2 dbg b ls r) as [[y ls1] r1] eqn:E1.
    apply (body_parse_m R fill consume readn size t2 m size_pos fill_err_m fill_ok_m read_err_m read_ok_m) in E1.
    destruct y; auto. apply IH. lia.
Qed.

Lemma req_parse_tail dbg s r : (m r <= B)%nat ->
  g_req_parse R fill consume readn size st t1 dbg s r = g_req_parse R fill consume readn size st t2 dbg s r.
Proof. intros H. unfold g_req_parse, g_msg_parse. now rewrite msg_loop_tail. Qed.
Lemma resp_parse_tail dbg s r : (m r <= B)%nat ->
  g_resp_parse R fill consume readn size st t1 dbg s r = g_resp_parse R fill consume readn size st t2 dbg s r.
Proof. intros H. unfold g_resp_parse, g_msg_parse. now rewrite msg_loop_tail. Qed.
End Tail.
