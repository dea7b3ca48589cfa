(** The parsers over any reader whose operations do not put back what was consumed: the number of iterations the loops
    are given does not matter as long as it exceeds what there is to read, and no parser puts anything back. *)
From Coq Require Import List Ascii String NArith Bool Lia.
From Verif.Model Require Import Bytes Io Common Parse Generic.
From Verif.Proofs Require Import GenericFacts.
Import ListNotations.
Local Open Scope N_scope.

Section Fuel.
Variable R : Type.
Variable fill : R -> (ekind + bytes) * R.
Variable consume : N -> R -> R.
Variable readn : N -> R -> (ekind + bytes) * R.
Variable size : bytes -> N.
Variable tsteps : R -> nat.
Variable m : R -> nat.
Hypothesis size_pos : forall acc, 0 < size acc.
Hypothesis fill_err_m : forall r k r', fill r = (inl k, r') -> (m r' <= m r)%nat /\ (k = Interrupted -> (m r' < m r)%nat).
Hypothesis fill_ok_m : forall r bs r' n, fill r = (inr bs, r') -> n <= len bs ->
  (m (consume n r') <= m r)%nat /\ (0 < n -> (m (consume n r') < m r)%nat).
Hypothesis read_err_m : forall n r k r', 0 < n -> readn n r = (inl k, r') ->
  (m r' <= m r)%nat /\ (k = Interrupted -> (m r' < m r)%nat).
Hypothesis read_ok_m : forall n r bs r', 0 < n -> readn n r = (inr bs, r') ->
  (m r' <= m r)%nat /\ (bs <> [] -> (m r' < m r)%nat).

Lemma fill_lim_err_m ls : forall r k r', g_fill_lim R fill ls r = (inl k, r') ->
  (m r' <= m r)%nat /\ (k = Interrupted -> (m r' < m r)%nat).
Proof.
  induction ls as [|l ls IH]; intros r k r' E; cbn [g_fill_lim] in *; [eapply fill_err_m; eauto|].
  destruct (l =? 0); [inversion E; subst; split; [lia|discriminate]|].
  destruct (g_fill_lim R fill ls r) as [[k1|bs] r1] eqn:E1; inversion E; subst. eauto.
Qed.

Lemma fill_lim_ok_m ls : forall r bs r' n ls' r1, g_fill_lim R fill ls r = (inr bs, r') -> n <= len bs ->
  g_consume_lim R consume n ls r' = (ls', r1) -> (m r1 <= m r)%nat /\ (0 < n -> (m r1 < m r)%nat).
Proof.
  induction ls as [|l ls IH]; intros r bs r' n ls' r1 E Hn C; cbn [g_fill_lim g_consume_lim] in *.
  - inversion C; subst. eapply fill_ok_m; eauto.
  - destruct (l =? 0) eqn:El; [discriminate|].
    destruct (g_fill_lim R fill ls r) as [[k1|bs1] r2] eqn:E1; inversion E; subst. clear E.
    destruct (g_consume_lim R consume (N.min n l) ls r') as [ls1 r3] eqn:C1. inversion C; subst. clear C.
    assert (H : N.min n l = n /\ n <= len bs1) by (unfold len in *; rewrite firstn_length in Hn; lia).
    destruct H as [H H2]. rewrite H in C1. eapply IH; eauto.
Qed.

Lemma read_lim_m ls n r x ls' r' : 0 < n -> g_read_lim R readn n ls r = (x, ls', r') ->
  (m r' <= m r)%nat /\ match x with inl Interrupted => (m r' < m r)%nat | inr (_ :: _) => (m r' < m r)%nat | _ => True end.
Proof.
  intros Hn E. rewrite g_read_lim_eq in E. destruct (existsb (N.eqb 0) ls) eqn:Ez.
  - inversion E; subst. split; auto.
  - pose proof (minl_pos n ls Hn Ez) as Hp.
    destruct (readn (minl n ls) r) as [[k|got] r1] eqn:E1; inversion E; subst.
    + destruct (read_err_m _ _ _ _ Hp E1) as [H1 H2]. split; auto. destruct k; auto.
    + destruct (read_ok_m _ _ _ _ Hp E1) as [H1 H2]. split; auto. destruct got; auto. apply H2. discriminate.
Qed.

Lemma find_lf_lt bs : forall i, find_lf bs = Some i -> (S i <= List.length bs)%nat.
Proof.
  induction bs as [|c bs IHb]; intros i Ef; cbn [find_lf] in Ef; [discriminate|].
  destruct (Ascii.eqb c LF); [inversion Ef; cbn; lia|].
  destruct (find_lf bs) as [j|]; inversion Ef; subst. specialize (IHb _ eq_refl). cbn. lia.
Qed.

Lemma read_until_m f : forall ls r acc x acc' ls' r', g_read_until R fill consume f ls r acc = (x, acc', ls', r') ->
  (m r' <= m r)%nat /\ (x = None -> (m r' < m r)%nat \/ acc' = acc).
Proof.
  induction f as [|f IH]; intros ls r acc x acc' ls' r' E; cbn [g_read_until] in *.
  { inversion E; subst. split; [lia|discriminate]. }
  destruct (g_fill_lim R fill ls r) as [[k|bs] r1] eqn:E1.
  - destruct (fill_lim_err_m _ _ _ _ E1) as [H1 H2].
    destruct k; try (inversion E; subst; split; [assumption|discriminate]).
    apply IH in E. specialize (H2 eq_refl). destruct E as [E3 E4]. split; [lia|]. intros Hx. left. lia.
  - destruct (find_lf bs) as [i|] eqn:Ef.
    + destruct (g_consume_lim R consume (N.of_nat (S i)) ls r1) as [ls1 r2] eqn:C. inversion E; subst.
      pose proof (find_lf_lt _ _ Ef).
      destruct (fill_lim_ok_m _ _ _ _ (N.of_nat (S i)) _ _ E1 ltac:(unfold len; lia) C) as [H1 H2]. split; auto. intros _. left. apply H2. lia.
    + destruct (g_consume_lim R consume (len bs) ls r1) as [ls1 r2] eqn:C.
      destruct (fill_lim_ok_m _ _ _ _ _ _ _ E1 (N.le_refl _) C) as [H1 H2].
      destruct bs as [|c bs]; [inversion E; subst; auto|].
      apply IH in E. destruct E as [E3 E4]. specialize (H2 ltac:(unfold len; cbn; lia)). split; [lia|]. intros Hx. left. lia.
Qed.

Lemma read_until_fuel f1 : forall f2 ls r acc, (m r < f1)%nat -> (m r < f2)%nat ->
  g_read_until R fill consume f1 ls r acc = g_read_until R fill consume f2 ls r acc.
Proof.
  induction f1 as [|f1 IH]; intros [|f2] ls r acc H1 H2; try lia. cbn [g_read_until].
  destruct (g_fill_lim R fill ls r) as [[k|bs] r1] eqn:E1.
  - destruct (fill_lim_err_m _ _ _ _ E1) as [H3 H4]. destruct k; auto. specialize (H4 eq_refl). apply IH; lia.
  - destruct (find_lf bs); auto. destruct (g_consume_lim R consume (len bs) ls r1) as [ls1 r2] eqn:C.
    destruct (fill_lim_ok_m _ _ _ _ _ _ _ E1 (N.le_refl _) C) as [H3 H4].
    destruct bs as [|c bs]; auto. specialize (H4 ltac:(unfold len; cbn; lia)). apply IH; lia.
Qed.

Lemma to_end_m f : forall ls r acc x acc' ls' r', g_read_to_end R readn size f ls r acc = (x, acc', ls', r') -> (m r' <= m r)%nat.
Proof.
  induction f as [|f IH]; intros ls r acc x acc' ls' r' E; cbn [g_read_to_end] in *; [inversion E; subst; lia|].
  destruct (g_read_lim R readn (size acc) ls r) as [[y ls1] r1] eqn:E1.
  destruct (read_lim_m _ _ _ _ _ _ (size_pos acc) E1) as [H1 _].
  destruct y as [k|[|c got]].
  - destruct k; try (inversion E; subst; lia). apply IH in E. lia.
  - inversion E; subst; lia.
  - apply IH in E. lia.
Qed.

Lemma bytes_loop_m f : forall n got ls r x ls' r', g_bytes_loop R readn f n got ls r = (x, ls', r') -> (m r' <= m r)%nat.
Proof.
  induction f as [|f IH]; intros n got ls r x ls' r' E; cbn [g_bytes_loop] in *.
  { destruct (len got <? n); inversion E; subst; lia. }
  destruct (N.ltb_spec (len got) n) as [Hl|Hl]; [|inversion E; subst; lia].
  destruct (g_read_lim R readn (n - len got) ls r) as [[y ls1] r1] eqn:E1.
  destruct (read_lim_m _ (n - len got) _ _ _ _ ltac:(lia) E1) as [H1 _].
  destruct y as [k|[|c bs]]; try (inversion E; subst; lia). apply IH in E. lia.
Qed.

Lemma bytes_loop_fuel f1 : forall f2 n got ls r, (m r < f1)%nat -> (m r < f2)%nat ->
  g_bytes_loop R readn f1 n got ls r = g_bytes_loop R readn f2 n got ls r.
Proof.
  induction f1 as [|f1 IH]; intros [|f2] n got ls r H1 H2; try lia. cbn [g_bytes_loop].
  destruct (N.ltb_spec (len got) n) as [Hl|Hl]; auto.
  destruct (g_read_lim R readn (n - len got) ls r) as [[y ls1] r1] eqn:E1.
  destruct (read_lim_m _ (n - len got) _ _ _ _ ltac:(lia) E1) as [H3 H4].
  destruct y as [k|[|c bs]]; auto. apply IH; lia.
Qed.

Lemma eof_deframe_m d ls r x ls' r' : g_eof_deframe R readn size tsteps d ls r = (x, ls', r') -> (m r' <= m r)%nat.
Proof.
  unfold g_eof_deframe. destruct (g_read_to_end R readn size _ ls r d) as [[[y d1] ls1] r1] eqn:E1.
  apply to_end_m in E1. intros E; destruct y; inversion E; subst; auto.
Qed.

(** *** one number of steps *)

Section Steps.
Variable st : R -> nat.

Lemma read_line_m line ls r x l' ls' r' : g_read_line R fill consume st line ls r = (x, l', ls', r') ->
  (m r' <= m r)%nat /\ (x = None -> (m r' < m r)%nat \/ l' = line).
Proof.
  unfold g_read_line. destruct (g_read_until R fill consume _ ls r []) as [[[y acc] ls1] r1] eqn:E1.
  apply read_until_m in E1 as [H1 H2]. intros E. destruct (utf8 acc).
  - inversion E; subst. split; auto. intros Hx. destruct (H2 Hx) as [?| ->]; auto. right. apply app_nil_r.
  - destruct y; inversion E; subst; split; auto; discriminate.
Qed.

Lemma line_deframe_m line ls r x ls' r' : g_line_deframe R fill consume st line ls r = (x, ls', r') ->
  (m r' <= m r)%nat /\ (line = [] -> match x with PDone _ => (m r' < m r)%nat | _ => True end).
Proof.
  unfold g_line_deframe. destruct (g_read_line R fill consume st line ls r) as [[[y l1] ls1] r1] eqn:E1.
  apply read_line_m in E1 as [H1 H2]. intros E. destruct y as [k|].
  - inversion E; subst; auto.
  - destruct (str_pop l1) as [[rest ch]|] eqn:Ep; [destruct (beqb ch [LF])|]; inversion E; subst; split; auto.
    intros ->. destruct (H2 eq_refl) as [?| ->]; auto. discriminate.
Qed.

Lemma crlf_parse_m dbg line ls r x ls' r' : g_crlf_parse R fill consume st dbg line ls r = (x, ls', r') ->
  (m r' <= m r)%nat /\ (line = [] -> match x with PDone _ => (m r' < m r)%nat | _ => True end).
Proof.
  unfold g_crlf_parse, g_with_limit. destruct (usub dbg MAX_LINE_SIZE (len line)) as [lim|]; [|intros E; inversion E; subst; auto].
  destruct (g_line_deframe R fill consume st line (lim :: ls) r) as [[y ls1] r1] eqn:E1.
  apply line_deframe_m in E1 as [H1 H2]. intros E.
  destruct y as [l|l k|e|]; [destruct (parse_crlf_line l)|destruct k| |]; inversion E; subst; auto.
Qed.

Lemma hdr_loop_m f dbg : forall h ls r x ls' r', g_hdr_loop R fill consume st f dbg h ls r = (x, ls', r') -> (m r' <= m r)%nat.
Proof.
  induction f as [|f IH]; intros h ls r x ls' r' E; cbn [g_hdr_loop] in *; [inversion E; subst; auto|].
  destruct (g_crlf_parse R fill consume st dbg (h_line h) ls r) as [[y ls1] r1] eqn:E1.
  apply crlf_parse_m in E1 as [H1 _].
  destruct y as [[|c line]|l k|e|]; try (inversion E; subst; auto; fail).
  destruct (parse_header (c :: line)) as [e|[hk hv]]; [inversion E; subst; auto|]. apply IH in E. lia.
Qed.

Lemma hdr_parse_m dbg h ls r x ls' r' : g_hdr_parse R fill consume st dbg h ls r = (x, ls', r') -> (m r' <= m r)%nat.
Proof.
  unfold g_hdr_parse, g_with_limit. destruct (usub dbg MAX_HEADERS_SIZE (h_read h)) as [lim|]; [|intros E; inversion E; subst; auto].
  destruct (g_hdr_loop R fill consume st _ dbg h (lim :: ls) r) as [[y ls1] r1] eqn:E1. apply hdr_loop_m in E1.
  intros E; inversion E; subst; auto.
Qed.

Lemma bytes_deframe_m b ls r x ls' r' : g_bytes_deframe R readn st b ls r = (x, ls', r') -> (m r' <= m r)%nat.
Proof. apply bytes_loop_m. Qed.

Lemma chunks_loop_m f dbg : forall body c ls r x ls' r',
  g_chunks_loop R fill consume readn st f dbg body c ls r = (x, ls', r') -> (m r' <= m r)%nat.
Proof.
  induction f as [|f IH]; intros body c ls r x ls' r' E; cbn [g_chunks_loop] in *; [inversion E; subst; auto|].
  destruct c as [line|b|line last|].
  - unfold g_size_state in *. destruct (g_crlf_parse R fill consume st dbg line ls r) as [[y ls1] r1] eqn:E1.
    apply crlf_parse_m in E1 as [H1 _].
    destruct y as [raw|l k|e|]; try (inversion E; subst; auto; fail).
    destruct (parse_chunk_size raw) as [e|n]; [inversion E; subst; auto|]. apply IH in E. lia.
  - unfold g_data_state in *. destruct (g_bytes_deframe R readn st b ls r) as [[y ls1] r1] eqn:E1.
    apply bytes_deframe_m in E1. destruct y as [raw|l k|e|]; try (inversion E; subst; auto; fail). apply IH in E. lia.
  - unfold g_tail_state in *. destruct (g_crlf_parse R fill consume st dbg line ls r) as [[y ls1] r1] eqn:E1.
    apply crlf_parse_m in E1 as [H1 _].
    destruct y as [[|ch raw]|l k|e|]; try (inversion E; subst; auto; fail). apply IH in E. lia.
  - inversion E; subst; auto.
Qed.

Lemma body_parse_m dbg b ls r x ls' r' :
  g_body_parse R fill consume readn size st tsteps dbg b ls r = (x, ls', r') -> (m r' <= m r)%nat.
Proof.
  unfold g_body_parse, g_with_limit. destruct (usub dbg MAX_BODY_SIZE (body_read_so_far b)) as [lim|]; [|intros E; inversion E; subst; auto].
  destruct b as [b|d|c|].
  - destruct (g_bytes_deframe R readn st b (lim :: ls) r) as [[y ls1] r1] eqn:E1. apply bytes_deframe_m in E1.
    intros E; destruct y; inversion E; subst; auto.
  - destruct (g_eof_deframe R readn size tsteps d (lim :: ls) r) as [[y ls1] r1] eqn:E1. apply eof_deframe_m in E1.
    intros E; destruct y; inversion E; subst; auto.
  - unfold g_chunks_parse. destruct (g_chunks_loop R fill consume readn st _ dbg _ _ (lim :: ls) r) as [[y ls1] r1] eqn:E1. apply chunks_loop_m in E1.
    intros E; destruct y; inversion E; subst; auto.
  - intros E; inversion E; subst; auto.
Qed.

Lemma first_line_state_m {T} (pf : bytes -> perr + T) dbg line ls r x ls' r' :
  g_first_line_state R fill consume st pf dbg line ls r = (x, ls', r') -> (m r' <= m r)%nat /\ (line = [] -> match x with PDone _ => (m r' < m r)%nat | _ => True end).
Proof.
  unfold g_first_line_state, g_first_parse. destruct (g_crlf_parse R fill consume st dbg line ls r) as [[y ls1] r1] eqn:E1.
  apply crlf_parse_m in E1 as [H1 H2]. intros E. destruct y as [l|l k|e|]; [destruct (pf l)| | |]; inversion E; subst; auto.
Qed.

Lemma headers_state_m {T} dbg flag (t : T) h ls r x ls' r' :
  g_headers_state R fill consume st dbg flag t h ls r = (x, ls', r') -> (m r' <= m r)%nat.
Proof.
  unfold g_headers_state. destruct (g_hdr_parse R fill consume st dbg h ls r) as [[y ls1] r1] eqn:E1.
  apply hdr_parse_m in E1. intros E. destruct y as [l|l k|e|]; [destruct (body_new l flag)| | |]; inversion E; subst; auto.
Qed.

Lemma body_state_m {T} dbg (t : T) hm b ls r x ls' r' :
  g_body_state R fill consume readn size st tsteps dbg t hm b ls r = (x, ls', r') -> (m r' <= m r)%nat.
Proof.
  unfold g_body_state. destruct (g_body_parse R fill consume readn size st tsteps dbg b ls r) as [[y ls1] r1] eqn:E1.
  apply body_parse_m in E1. intros E. destruct y as [l|l k|e|]; inversion E; subst; auto.
Qed.

Lemma msg_loop_m {T} (pf : bytes -> perr + T) f dbg flag : forall s ls r x ls' r',
  g_msg_loop R fill consume readn size st tsteps f pf dbg flag s ls r = (x, ls', r') -> (m r' <= m r)%nat.
Proof.
  induction f as [|f IH]; intros s ls r x ls' r' E; cbn [g_msg_loop] in *; [inversion E; subst; auto|].
  destruct s as [line|t h|t hm b|t hm body].
  - destruct (g_first_line_state R fill consume st pf dbg line ls r) as [[y ls1] r1] eqn:E1.
    apply first_line_state_m in E1 as [H1 _]. destruct y; try (inversion E; subst; auto; fail). apply IH in E. lia.
  - destruct (g_headers_state R fill consume st dbg flag t h ls r) as [[y ls1] r1] eqn:E1.
    apply headers_state_m in E1. destruct y; try (inversion E; subst; auto; fail). apply IH in E. lia.
  - destruct (g_body_state R fill consume readn size st tsteps dbg t hm b ls r) as [[y ls1] r1] eqn:E1.
    apply body_state_m in E1. destruct y; try (inversion E; subst; auto; fail). apply IH in E. lia.
  - inversion E; subst; auto.
Qed.

Lemma req_parse_m dbg s r x r' :
  g_req_parse R fill consume readn size st tsteps dbg s r = (x, r') -> (m r' <= m r)%nat.
Proof.
  unfold g_req_parse, g_msg_parse. destruct (g_msg_loop R fill consume readn size st tsteps 4 _ dbg false s [] r) as [[y ls1] r1] eqn:E1.
  apply msg_loop_m in E1. intros E. destruct y as [[[[? ?] ?] ?]|? ?|?|]; inversion E; subst; auto.
Qed.

Lemma resp_parse_m dbg s r x r' :
  g_resp_parse R fill consume readn size st tsteps dbg s r = (x, r') -> (m r' <= m r)%nat.
Proof.
  unfold g_resp_parse, g_msg_parse. destruct (g_msg_loop R fill consume readn size st tsteps 4 _ dbg true s [] r) as [[y ls1] r1] eqn:E1.
  apply msg_loop_m in E1. intros E. destruct y as [[[? ?] ?]|? ?|?|]; inversion E; subst; auto.
Qed.

(** A whole message takes something. *)
Lemma msg_start_m {T} (pf : bytes -> perr + T) f dbg flag ls r x ls' r' :
  g_msg_loop R fill consume readn size st tsteps (S f) pf dbg flag (MFirst []) ls r = (PDone x, ls', r') -> (m r' < m r)%nat.
Proof.
  cbn [g_msg_loop]. destruct (g_first_line_state R fill consume st pf dbg [] ls r) as [[y ls1] r1] eqn:E1.
  apply first_line_state_m in E1 as [H1 H2]. specialize (H2 eq_refl). intros E.
  destruct y; try discriminate. apply msg_loop_m in E. lia.
Qed.

End Steps.

(** *** two numbers of steps *)

Variables st1 st2 : R -> nat.
Variable B : nat.
Hypothesis enough1 : forall r, (m r <= B)%nat -> (m r <= st1 r)%nat.
Hypothesis enough2 : forall r, (m r <= B)%nat -> (m r <= st2 r)%nat.

Lemma crlf_parse_fuel dbg line ls r : (m r <= B)%nat ->
  g_crlf_parse R fill consume st1 dbg line ls r = g_crlf_parse R fill consume st2 dbg line ls r.
Proof.
  intros H. unfold g_crlf_parse, g_with_limit, g_line_deframe, g_read_line.
  destruct (usub dbg MAX_LINE_SIZE (len line)) as [lim|]; auto.
  rewrite (read_until_fuel (S (st1 r)) (S (st2 r))); auto; [specialize (enough1 _ H)|specialize (enough2 _ H)]; lia.
Qed.

Lemma hdr_loop_fuel f1 dbg : forall f2 h ls r, (m r <= B)%nat ->
  (m r + (match h_line h with [] => 0 | _ => 1 end) < f1)%nat -> (m r + (match h_line h with [] => 0 | _ => 1 end) < f2)%nat ->
  g_hdr_loop R fill consume st1 f1 dbg h ls r = g_hdr_loop R fill consume st2 f2 dbg h ls r.
Proof.
  induction f1 as [|f1 IH]; intros [|f2] h ls r HB H1 H2; try lia. cbn [g_hdr_loop].
  rewrite <- (crlf_parse_fuel dbg (h_line h) ls r HB).
  destruct (g_crlf_parse R fill consume st1 dbg (h_line h) ls r) as [[y ls1] r1] eqn:E1.
  apply crlf_parse_m in E1 as [H3 H4].
  destruct y as [[|c line]|l k|e|]; auto.
  destruct (parse_header (c :: line)) as [e|[hk hv]]; auto.
  destruct (h_line h) as [|c0 l0] eqn:El; [specialize (H4 eq_refl)|]; apply IH; cbn [h_line]; lia.
Qed.

Lemma hdr_parse_fuel dbg h ls r : (m r <= B)%nat ->
  g_hdr_parse R fill consume st1 dbg h ls r = g_hdr_parse R fill consume st2 dbg h ls r.
Proof.
  intros H. unfold g_hdr_parse, g_with_limit. destruct (usub dbg MAX_HEADERS_SIZE (h_read h)) as [lim|]; auto.
  pose proof (enough1 _ H). pose proof (enough2 _ H).
  rewrite (hdr_loop_fuel (S (S (st1 r))) dbg (S (S (st2 r)))); auto; destruct (h_line h); lia.
Qed.

Lemma bytes_deframe_fuel b ls r : (m r <= B)%nat ->
  g_bytes_deframe R readn st1 b ls r = g_bytes_deframe R readn st2 b ls r.
Proof.
  intros H. unfold g_bytes_deframe. pose proof (enough1 _ H). pose proof (enough2 _ H). apply bytes_loop_fuel; lia.
Qed.

Definition need (c : chunk_state) (n : nat) : nat :=
  match c with
  | CSize [] => 2 * n + 1
  | CSize _ => 2 * n + 3
  | CData _ => 2 * n + 2
  | CTail [] _ => 2 * n + 1
  | CTail _ _ => 2 * n + 2
  | CFinished => 1
  end.

Lemma chunks_loop_fuel f1 dbg : forall f2 body c ls r, (m r <= B)%nat -> (need c (m r) <= f1)%nat -> (need c (m r) <= f2)%nat ->
  g_chunks_loop R fill consume readn st1 f1 dbg body c ls r = g_chunks_loop R fill consume readn st2 f2 dbg body c ls r.
Proof.
  assert (P : forall c n, (0 < need c n)%nat) by (intros [[|]| |[|]|] n; cbn [need]; lia).
  induction f1 as [|f1 IH]; intros [|f2] body c ls r HB H1 H2; try (specialize (P c (m r)); lia).
  cbn [g_chunks_loop]. destruct c as [line|b|line last|]; auto.
  - unfold g_size_state. rewrite <- (crlf_parse_fuel dbg line ls r HB).
    destruct (g_crlf_parse R fill consume st1 dbg line ls r) as [[y ls1] r1] eqn:E1.
    apply crlf_parse_m in E1 as [H3 H4]. destruct y as [raw|l k|e|]; auto.
    destruct (parse_chunk_size raw) as [e|n]; auto.
    destruct line as [|c0 line]; cbn [need] in *; [specialize (H4 eq_refl)|]; apply IH; cbn [need]; lia.
  - unfold g_data_state. rewrite <- (bytes_deframe_fuel b ls r HB).
    destruct (g_bytes_deframe R readn st1 b ls r) as [[y ls1] r1] eqn:E1. apply bytes_deframe_m in E1.
    destruct y as [raw|l k|e|]; auto. cbn [need] in *. apply IH; cbn [need]; lia.
  - unfold g_tail_state. rewrite <- (crlf_parse_fuel dbg line ls r HB).
    destruct (g_crlf_parse R fill consume st1 dbg line ls r) as [[y ls1] r1] eqn:E1.
    apply crlf_parse_m in E1 as [H3 H4]. destruct y as [[|ch raw]|l k|e|]; auto.
    destruct line as [|c0 line]; cbn [need] in *; [specialize (H4 eq_refl)|]; destruct last; apply IH; cbn [need]; lia.
Qed.

Lemma body_parse_fuel dbg b ls r : (m r <= B)%nat ->
  g_body_parse R fill consume readn size st1 tsteps dbg b ls r = g_body_parse R fill consume readn size st2 tsteps dbg b ls r.
Proof.
  intros H. unfold g_body_parse, g_with_limit. destruct (usub dbg MAX_BODY_SIZE (body_read_so_far b)) as [lim|]; auto.
  destruct b as [b|d|c|]; auto.
  - rewrite (bytes_deframe_fuel b (lim :: ls) r H). reflexivity.
  - unfold g_chunks_parse. pose proof (enough1 _ H). pose proof (enough2 _ H).
    rewrite (chunks_loop_fuel (3 * st1 r + 4) dbg (3 * st2 r + 4)); auto; destruct (c_state c) as [[|]| |[|]|]; cbn [need]; lia.
Qed.

Lemma msg_loop_fuel {T} (pf : bytes -> perr + T) f dbg flag : forall s ls r, (m r <= B)%nat ->
  g_msg_loop R fill consume readn size st1 tsteps f pf dbg flag s ls r = g_msg_loop R fill consume readn size st2 tsteps f pf dbg flag s ls r.
Proof.
  induction f as [|f IH]; intros s ls r H; cbn [g_msg_loop]; auto.
  destruct s as [line|t h|t hm b|t hm body]; auto.
  - assert (E : g_first_line_state R fill consume st2 pf dbg line ls r = g_first_line_state R fill consume st1 pf dbg line ls r).
    { unfold g_first_line_state, g_first_parse. rewrite (crlf_parse_fuel dbg line ls r H). auto. }
    rewrite E. destruct (g_first_line_state R fill consume st1 pf dbg line ls r) as [[y ls1] r1] eqn:E1.
    apply first_line_state_m in E1 as [H1 _]. destruct y; auto. apply IH. lia.
  - assert (E : g_headers_state R fill consume st2 dbg flag t h ls r = g_headers_state R fill consume st1 dbg flag t h ls r).
    { unfold g_headers_state. rewrite (hdr_parse_fuel dbg h ls r H). auto. }
    rewrite E. destruct (g_headers_state R fill consume st1 dbg flag t h ls r) as [[y ls1] r1] eqn:E1.
    apply headers_state_m in E1. destruct y; auto. apply IH. lia.
  - assert (E : g_body_state R fill consume readn size st2 tsteps dbg t hm b ls r = g_body_state R fill consume readn size st1 tsteps dbg t hm b ls r).
    { unfold g_body_state. rewrite (body_parse_fuel dbg b ls r H). auto. }
    rewrite E. destruct (g_body_state R fill consume readn size st1 tsteps dbg t hm b ls r) as [[y ls1] r1] eqn:E1.
    apply body_state_m in E1. destruct y; auto. apply IH. lia.
Qed.

Lemma req_parse_fuel dbg s r : (m r <= B)%nat ->
  g_req_parse R fill consume readn size st1 tsteps dbg s r = g_req_parse R fill consume readn size st2 tsteps dbg s r.
Proof. intros H. unfold g_req_parse, g_msg_parse. rewrite msg_loop_fuel; auto. Qed.

Lemma resp_parse_fuel dbg s r : (m r <= B)%nat ->
  g_resp_parse R fill consume readn size st1 tsteps dbg s r = g_resp_parse R fill consume readn size st2 tsteps dbg s r.
Proof. intros H. unfold g_resp_parse, g_msg_parse. rewrite msg_loop_fuel; auto. Qed.

End Fuel.
