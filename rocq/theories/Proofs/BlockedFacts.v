(** The parsers over any reader: what the calls of the reader keep, the parsers keep; and a run that ends because the reader would block
    ends right after a call of the reader that said so. *)
From Coq Require Import List Ascii String Arith NArith Bool Lia.
From Verif.Model Require Import Bytes Io Common Parse Generic.
Import ListNotations.
Local Open Scope N_scope.

(** What the calls of the reader keep, the parsers keep. *)
Section Keep.
Variable R : Type.
Variable fill : R -> (ekind + bytes) * R.
Variable consume : N -> R -> R.
Variable readn : N -> R -> (ekind + bytes) * R.
Variable size : bytes -> N.
Variable steps tsteps : R -> nat.
Variable I : R -> Prop.
Hypothesis fill_I : forall r x r', fill r = (x, r') -> I r -> I r'.
Hypothesis consume_I : forall n r, I r -> I (consume n r).
Hypothesis read_I : forall n r x r', readn n r = (x, r') -> I r -> I r'.

Lemma fill_lim_I ls : forall r x r', g_fill_lim R fill ls r = (x, r') -> I r -> I r'.
Proof.
  induction ls as [|l ls IH]; intros r x r'; cbn [g_fill_lim]; [apply fill_I|].
  destruct (l =? 0); [intros X; inversion X; subst; auto|]. destruct (g_fill_lim R fill ls r) as [[k|bs] r1] eqn:E; intros X; inversion X; subst; eauto.
Qed.
Lemma consume_lim_I ls : forall n r ls' r', g_consume_lim R consume n ls r = (ls', r') -> I r -> I r'.
Proof.
  induction ls as [|l ls IH]; intros n r ls' r'; cbn [g_consume_lim]; [intros X; inversion X; subst; auto|].
  destruct (g_consume_lim R consume (N.min n l) ls r) as [ls1 r1] eqn:E; intros X; inversion X; subst; eauto.
Qed.
Lemma read_lim_I ls : forall n r x ls' r', g_read_lim R readn n ls r = (x, ls', r') -> I r -> I r'.
Proof.
  induction ls as [|l ls IH]; intros n r x ls' r'; cbn [g_read_lim].
  - destruct (readn n r) as [y r1] eqn:E. intros X. inversion X; subst. eauto.
  - destruct (l =? 0); [intros X; inversion X; subst; auto|]. destruct (g_read_lim R readn (N.min n l) ls r) as [[[k|bs] ls1] r1] eqn:E; intros X; inversion X; subst; eauto.
Qed.
Lemma read_until_I f : forall ls r acc x acc' ls' r', g_read_until R fill consume f ls r acc = (x, acc', ls', r') -> I r -> I r'.
Proof.
  induction f as [|f IH]; intros ls r acc x acc' ls' r'; cbn [g_read_until]; [intros X; inversion X; subst; auto|].
  destruct (g_fill_lim R fill ls r) as [y r1] eqn:E. intros X H. pose proof (fill_lim_I _ _ _ _ E H) as H1.
  destruct y as [k|bs]; [destruct k; try (inversion X; subst; auto; fail); eauto|].
  destruct (find_lf bs).
  - destruct (g_consume_lim R consume (N.of_nat (S n)) ls r1) as [ls1 r2] eqn:Ec. pose proof (consume_lim_I _ _ _ _ _ Ec H1). inversion X; subst; auto.
  - destruct (g_consume_lim R consume (len bs) ls r1) as [ls1 r2] eqn:Ec. pose proof (consume_lim_I _ _ _ _ _ Ec H1). destruct bs; [inversion X; subst; auto|eauto].
Qed.
Lemma to_end_I f : forall ls r acc x acc' ls' r', g_read_to_end R readn size f ls r acc = (x, acc', ls', r') -> I r -> I r'.
Proof.
  induction f as [|f IH]; intros ls r acc x acc' ls' r'; cbn [g_read_to_end]; [intros X; inversion X; subst; auto|].
  destruct (g_read_lim R readn (size acc) ls r) as [[y ls1] r1] eqn:E. intros X H. pose proof (read_lim_I _ _ _ _ _ _ E H) as H1.
  destruct y as [k|[|c bs]]; try (inversion X; subst; auto; fail); eauto. destruct k; try (inversion X; subst; auto; fail); eauto.
Qed.
Lemma bytes_loop_I f : forall n got ls r x ls' r', g_bytes_loop R readn f n got ls r = (x, ls', r') -> I r -> I r'.
Proof.
  induction f as [|f IH]; intros n got ls r x ls' r'; cbn [g_bytes_loop]; destruct (len got <? n); try (intros X; inversion X; subst; auto; fail).
  destruct (g_read_lim R readn (n - len got) ls r) as [[y ls1] r1] eqn:E. intros X H. pose proof (read_lim_I _ _ _ _ _ _ E H) as H1.
  destruct y as [k|[|c bs]]; try (inversion X; subst; auto; fail); eauto.
Qed.
Lemma crlf_I dbg line ls r x ls' r' : g_crlf_parse R fill consume steps dbg line ls r = (x, ls', r') -> I r -> I r'.
Proof.
  unfold g_crlf_parse, g_with_limit, g_line_deframe, g_read_line. intros E H. destruct (usub dbg MAX_LINE_SIZE (len line)) as [lim|]; [|inversion E; subst; auto].
  destruct (g_read_until R fill consume (S (steps r)) (lim :: ls) r []) as [[[y acc] ls1] r1] eqn:E1. pose proof (read_until_I _ _ _ _ _ _ _ _ E1 H) as H1.
  destruct y as [k|].
  - destruct (utf8 acc); destruct k; inversion E; subst; auto.
  - destruct (utf8 acc); [|inversion E; subst; auto]. destruct (str_pop (line ++ acc)) as [[rest ch]|]; [|inversion E; subst; auto].
    destruct (beqb ch [LF]); [|inversion E; subst; auto]. destruct (parse_crlf_line rest); inversion E; subst; auto.
Qed.
Lemma hdr_loop_I f dbg : forall h ls r x ls' r', g_hdr_loop R fill consume steps f dbg h ls r = (x, ls', r') -> I r -> I r'.
Proof.
  induction f as [|f IH]; intros h ls r x ls' r'; cbn [g_hdr_loop]; [intros X; inversion X; subst; auto|].
  destruct (g_crlf_parse R fill consume steps dbg (h_line h) ls r) as [[y ls1] r1] eqn:E. intros X H. pose proof (crlf_I _ _ _ _ _ _ _ E H) as H1.
  destruct y as [[|c l]|l k|e|]; try (inversion X; subst; auto; fail). destruct (parse_header (c :: l)) as [e|[a b]]; [inversion X; subst; auto|eauto].
Qed.
Lemma hdr_I dbg h ls r x ls' r' : g_hdr_parse R fill consume steps dbg h ls r = (x, ls', r') -> I r -> I r'.
Proof.
  unfold g_hdr_parse, g_with_limit. intros E H. destruct (usub dbg MAX_HEADERS_SIZE (h_read h)) as [lim|]; [|inversion E; subst; auto].
  destruct (g_hdr_loop R fill consume steps (S (S (steps r))) dbg h (lim :: ls) r) as [[y ls1] r1] eqn:E1. inversion E; subst. eapply hdr_loop_I; eauto.
Qed.
Lemma eof_I d ls r x ls' r' : g_eof_deframe R readn size tsteps d ls r = (x, ls', r') -> I r -> I r'.
Proof.
  unfold g_eof_deframe. intros X H. destruct (g_read_to_end R readn size (S (tsteps r)) ls r d) as [[[y d1] ls1] r1] eqn:E.
  pose proof (to_end_I _ _ _ _ _ _ _ _ E H). destruct y; inversion X; subst; auto.
Qed.
Lemma chunks_I f dbg : forall body c ls r x ls' r', g_chunks_loop R fill consume readn steps f dbg body c ls r = (x, ls', r') -> I r -> I r'.
Proof.
  induction f as [|f IH]; intros body c ls r x ls' r'; cbn [g_chunks_loop]; [intros X; inversion X; subst; auto|]. intros X H.
  destruct c as [line|b|line last|]; [| | |inversion X; subst; auto].
  - unfold g_size_state in X. destruct (g_crlf_parse R fill consume steps dbg line ls r) as [[y ls1] r1] eqn:E. pose proof (crlf_I _ _ _ _ _ _ _ E H).
    destruct y as [l|l k|e|]; try (inversion X; subst; auto; fail). destruct (parse_chunk_size l); [inversion X; subst; auto|eauto].
  - unfold g_data_state, g_bytes_deframe in X. destruct (g_bytes_loop R readn (S (steps r)) (bd_size b) (bd_got b) ls r) as [[y ls1] r1] eqn:E. pose proof (bytes_loop_I _ _ _ _ _ _ _ _ E H).
    destruct y as [l|l k|e|]; try (inversion X; subst; auto; fail). eauto.
  - unfold g_tail_state in X. destruct (g_crlf_parse R fill consume steps dbg line ls r) as [[y ls1] r1] eqn:E. pose proof (crlf_I _ _ _ _ _ _ _ E H).
    destruct y as [[|a l]|l k|e|]; try (inversion X; subst; auto; fail). eauto.
Qed.
Lemma body_I dbg b ls r x ls' r' : g_body_parse R fill consume readn size steps tsteps dbg b ls r = (x, ls', r') -> I r -> I r'.
Proof.
  unfold g_body_parse, g_with_limit. intros X H. destruct (usub dbg MAX_BODY_SIZE (body_read_so_far b)) as [lim|]; [|inversion X; subst; auto].
  destruct b as [b|d|c|]; [| | |inversion X; subst; auto].
  - unfold g_bytes_deframe in X. destruct (g_bytes_loop R readn (S (steps r)) (bd_size b) (bd_got b) (lim :: ls) r) as [[y ls1] r1] eqn:E. pose proof (bytes_loop_I _ _ _ _ _ _ _ _ E H).
    destruct y; inversion X; subst; auto.
  - destruct (g_eof_deframe R readn size tsteps d (lim :: ls) r) as [[y ls1] r1] eqn:E. pose proof (eof_I _ _ _ _ _ _ E H). destruct y; inversion X; subst; auto.
  - unfold g_chunks_parse in X. destruct (g_chunks_loop R fill consume readn steps (3 * steps r + 4) dbg (c_body c) (c_state c) (lim :: ls) r) as [[y ls1] r1] eqn:E.
    pose proof (chunks_I _ _ _ _ _ _ _ _ _ E H). destruct y; inversion X; subst; auto.
Qed.
Lemma msg_I {T} f (pf : bytes -> perr + T) dbg flag : forall m ls r x ls' r',
  g_msg_loop R fill consume readn size steps tsteps f pf dbg flag m ls r = (x, ls', r') -> I r -> I r'.
Proof.
  induction f as [|f IH]; intros m ls r x ls' r'; cbn [g_msg_loop]; [intros X; inversion X; subst; auto|]. intros X H.
  destruct m as [line|t h|t hm b|t hm body]; [| | |inversion X; subst; auto].
  - unfold g_first_line_state, g_first_parse in X. destruct (g_crlf_parse R fill consume steps dbg line ls r) as [[y ls1] r1] eqn:E. pose proof (crlf_I _ _ _ _ _ _ _ E H).
    destruct y as [l|l k|e|]; try (inversion X; subst; auto; fail). destruct (pf l); [inversion X; subst; auto|eauto].
  - unfold g_headers_state in X. destruct (g_hdr_parse R fill consume steps dbg h ls r) as [[y ls1] r1] eqn:E. pose proof (hdr_I _ _ _ _ _ _ _ E H).
    destruct y as [l|l k|e|]; try (inversion X; subst; auto; fail). destruct (body_new l flag); [inversion X; subst; auto|eauto].
  - unfold g_body_state in X. destruct (g_body_parse R fill consume readn size steps tsteps dbg b ls r) as [[y ls1] r1] eqn:E. pose proof (body_I _ _ _ _ _ _ _ E H).
    destruct y as [l|l k|e|]; try (inversion X; subst; auto; fail). eauto.
Qed.
Lemma req_parse_inv dbg m r x r' : g_req_parse R fill consume readn size steps tsteps dbg m r = (x, r') -> I r -> I r'.
Proof.
  unfold g_req_parse, g_msg_parse. intros X H. destruct (g_msg_loop R fill consume readn size steps tsteps 4 parse_request_line dbg false m [] r) as [[y ls1] r1] eqn:E.
  pose proof (msg_I _ _ _ _ _ _ _ _ _ _ E H). destruct y as [[[[a b] c] d]|l k|e|]; inversion X; subst; auto.
Qed.
Lemma resp_parse_inv dbg m r x r' : g_resp_parse R fill consume readn size steps tsteps dbg m r = (x, r') -> I r -> I r'.
Proof.
  unfold g_resp_parse, g_msg_parse. intros X H. destruct (g_msg_loop R fill consume readn size steps tsteps 4 parse_status_line dbg true m [] r) as [[y ls1] r1] eqn:E.
  pose proof (msg_I _ _ _ _ _ _ _ _ _ _ E H). destruct y as [[[a b] c]|l k|e|]; inversion X; subst; auto.
Qed.

Variable Q : R -> Prop.
Hypothesis fill_Q : forall r r', fill r = (inl WouldBlock, r') -> I r -> Q r'.
Hypothesis read_Q : forall n r r', readn n r = (inl WouldBlock, r') -> I r -> Q r'.

Lemma fill_lim_Q ls : forall r r', g_fill_lim R fill ls r = (inl WouldBlock, r') -> I r -> Q r'.
Proof.
  induction ls as [|l ls IH]; intros r r'; cbn [g_fill_lim]; [apply fill_Q|].
  destruct (l =? 0); [discriminate|]. destruct (g_fill_lim R fill ls r) as [[k|bs] r1] eqn:E; [|discriminate].
  intros X H. inversion X; subst. eauto.
Qed.
Lemma read_lim_Q ls : forall n r ls' r', g_read_lim R readn n ls r = (inl WouldBlock, ls', r') -> I r -> Q r'.
Proof.
  induction ls as [|l ls IH]; intros n r ls' r'; cbn [g_read_lim].
  - destruct (readn n r) as [x r1] eqn:E. intros X H. inversion X; subst. eauto.
  - destruct (l =? 0); [discriminate|]. destruct (g_read_lim R readn (N.min n l) ls r) as [[[k|bs] ls1] r1] eqn:E; [|discriminate].
    intros X H. inversion X; subst. eauto.
Qed.
Lemma read_until_Q f : forall ls r acc acc' ls' r', g_read_until R fill consume f ls r acc = (Some WouldBlock, acc', ls', r') -> I r -> Q r'.
Proof.
  induction f as [|f IH]; intros ls r acc acc' ls' r'; cbn [g_read_until]; [discriminate|].
  destruct (g_fill_lim R fill ls r) as [[k|bs] r1] eqn:E; intros X H; pose proof (fill_lim_I _ _ _ _ E H) as H1.
  - destruct k; try discriminate; eauto. inversion X; subst. eauto using fill_lim_Q.
  - destruct (find_lf bs).
    + destruct (g_consume_lim R consume (N.of_nat (S n)) ls r1). discriminate.
    + destruct (g_consume_lim R consume (len bs) ls r1) as [ls1 r2] eqn:Ec. pose proof (consume_lim_I _ _ _ _ _ Ec H1). destruct bs; [discriminate|eauto].
Qed.
Lemma to_end_Q f : forall ls r acc acc' ls' r', g_read_to_end R readn size f ls r acc = (Some WouldBlock, acc', ls', r') -> I r -> Q r'.
Proof.
  induction f as [|f IH]; intros ls r acc acc' ls' r'; cbn [g_read_to_end]; [discriminate|].
  destruct (g_read_lim R readn (size acc) ls r) as [[y ls1] r1] eqn:E. intros X H. pose proof (read_lim_I _ _ _ _ _ _ E H) as H1.
  destruct y as [k|[|c bs]]; try discriminate; eauto.
  destruct k; try discriminate; eauto. inversion X; subst. eauto using read_lim_Q.
Qed.
Lemma bytes_loop_Q f : forall n got ls r st ls' r', g_bytes_loop R readn f n got ls r = (PIo st WouldBlock, ls', r') -> I r -> Q r'.
Proof.
  induction f as [|f IH]; intros n got ls r st ls' r'; cbn [g_bytes_loop]; destruct (len got <? n); try discriminate.
  destruct (g_read_lim R readn (n - len got) ls r) as [[y ls1] r1] eqn:E. intros X H. pose proof (read_lim_I _ _ _ _ _ _ E H) as H1.
  destruct y as [k|[|c bs]]; try discriminate; eauto.
  inversion X; subst. eauto using read_lim_Q.
Qed.
Lemma crlf_Q dbg line ls r st ls' r' : g_crlf_parse R fill consume steps dbg line ls r = (PIo st WouldBlock, ls', r') -> I r -> Q r'.
Proof.
  unfold g_crlf_parse, g_with_limit, g_line_deframe, g_read_line. destruct (usub dbg MAX_LINE_SIZE (len line)) as [lim|]; [|discriminate].
  destruct (g_read_until R fill consume (S (steps r)) (lim :: ls) r []) as [[[y acc] ls1] r1] eqn:E. intros X Hi.
  destruct y as [k|].
  - assert (H : k = WouldBlock -> Q r1) by (intros ->; eauto using read_until_Q).
    destruct (utf8 acc); destruct k; try discriminate; inversion X; subst; auto.
  - destruct (utf8 acc); [|discriminate]. destruct (str_pop (line ++ acc)) as [[rest ch]|]; [|discriminate].
    destruct (beqb ch [LF]); [|discriminate]. destruct (parse_crlf_line rest); discriminate.
Qed.
Lemma hdr_loop_Q f dbg : forall h ls r st ls' r', g_hdr_loop R fill consume steps f dbg h ls r = (PIo st WouldBlock, ls', r') -> I r -> Q r'.
Proof.
  induction f as [|f IH]; intros h ls r st ls' r'; cbn [g_hdr_loop]; [discriminate|].
  destruct (g_crlf_parse R fill consume steps dbg (h_line h) ls r) as [[y ls1] r1] eqn:E. intros X H. pose proof (crlf_I _ _ _ _ _ _ _ E H) as H1.
  destruct y as [[|c l]|l k|e|]; try discriminate.
  - destruct (parse_header (c :: l)) as [e|[a b]]; [discriminate|]. eauto.
  - inversion X; subst. eauto using crlf_Q.
Qed.
Lemma hdr_Q dbg h ls r st ls' r' : g_hdr_parse R fill consume steps dbg h ls r = (PIo st WouldBlock, ls', r') -> I r -> Q r'.
Proof.
  unfold g_hdr_parse, g_with_limit. destruct (usub dbg MAX_HEADERS_SIZE (h_read h)) as [lim|]; [|discriminate].
  destruct (g_hdr_loop R fill consume steps (S (S (steps r))) dbg h (lim :: ls) r) as [[y ls1] r1] eqn:E.
  intros X H. inversion X; subst. eauto using hdr_loop_Q.
Qed.
Lemma deframe_Q b ls r st ls' r' : g_bytes_deframe R readn steps b ls r = (PIo st WouldBlock, ls', r') -> I r -> Q r'.
Proof. unfold g_bytes_deframe. apply bytes_loop_Q. Qed.
Lemma eof_Q d ls r st ls' r' : g_eof_deframe R readn size tsteps d ls r = (PIo st WouldBlock, ls', r') -> I r -> Q r'.
Proof.
  unfold g_eof_deframe. destruct (g_read_to_end R readn size (S (tsteps r)) ls r d) as [[[[k|] d1] ls1] r1] eqn:E; [|discriminate].
  intros X H. inversion X; subst. eauto using to_end_Q.
Qed.
Lemma chunks_Q f dbg : forall body c ls r st ls' r', g_chunks_loop R fill consume readn steps f dbg body c ls r = (PIo st WouldBlock, ls', r') -> I r -> Q r'.
Proof.
  induction f as [|f IH]; intros body c ls r st ls' r'; cbn [g_chunks_loop]; [discriminate|]. intros X H.
  destruct c as [line|b|line last|]; [| | |discriminate].
  - unfold g_size_state in X. destruct (g_crlf_parse R fill consume steps dbg line ls r) as [[y ls1] r1] eqn:E. pose proof (crlf_I _ _ _ _ _ _ _ E H).
    destruct y as [l|l k|e|]; try discriminate.
    + destruct (parse_chunk_size l); [discriminate|eauto].
    + inversion X; subst. eauto using crlf_Q.
  - unfold g_data_state in X. destruct (g_bytes_deframe R readn steps b ls r) as [[y ls1] r1] eqn:E. pose proof (bytes_loop_I _ _ _ _ _ _ _ _ E H).
    destruct y as [l|l k|e|]; try discriminate; [eauto|]. inversion X; subst. eauto using deframe_Q.
  - unfold g_tail_state in X. destruct (g_crlf_parse R fill consume steps dbg line ls r) as [[y ls1] r1] eqn:E. pose proof (crlf_I _ _ _ _ _ _ _ E H).
    destruct y as [[|a l]|l k|e|]; try discriminate; [eauto|]. inversion X; subst. eauto using crlf_Q.
Qed.
Lemma body_Q dbg b ls r st ls' r' : g_body_parse R fill consume readn size steps tsteps dbg b ls r = (PIo st WouldBlock, ls', r') -> I r -> Q r'.
Proof.
  unfold g_body_parse, g_with_limit. destruct (usub dbg MAX_BODY_SIZE (body_read_so_far b)) as [lim|]; [|discriminate].
  destruct b as [b|d|c|]; [| | |discriminate].
  - destruct (g_bytes_deframe R readn steps b (lim :: ls) r) as [[y ls1] r1] eqn:E. destruct y; try discriminate.
    intros X H. inversion X; subst. eauto using deframe_Q.
  - destruct (g_eof_deframe R readn size tsteps d (lim :: ls) r) as [[y ls1] r1] eqn:E. destruct y; try discriminate.
    intros X H. inversion X; subst. eauto using eof_Q.
  - unfold g_chunks_parse. destruct (g_chunks_loop R fill consume readn steps (3 * steps r + 4) dbg (c_body c) (c_state c) (lim :: ls) r) as [[y ls1] r1] eqn:E.
    destruct y; try discriminate. intros X H. inversion X; subst. eauto using chunks_Q.
Qed.
Lemma msg_Q {T} f (pf : bytes -> perr + T) dbg flag : forall m ls r st ls' r',
  g_msg_loop R fill consume readn size steps tsteps f pf dbg flag m ls r = (PIo st WouldBlock, ls', r') -> I r -> Q r'.
Proof.
  induction f as [|f IH]; intros m ls r st ls' r'; cbn [g_msg_loop]; [discriminate|]. intros X H.
  destruct m as [line|t h|t hm b|t hm body]; [| | |discriminate].
  - unfold g_first_line_state, g_first_parse in X. destruct (g_crlf_parse R fill consume steps dbg line ls r) as [[y ls1] r1] eqn:E. pose proof (crlf_I _ _ _ _ _ _ _ E H).
    destruct y as [l|l k|e|]; try discriminate.
    + destruct (pf l); [discriminate|eauto].
    + inversion X; subst. eauto using crlf_Q.
  - unfold g_headers_state in X. destruct (g_hdr_parse R fill consume steps dbg h ls r) as [[y ls1] r1] eqn:E. pose proof (hdr_I _ _ _ _ _ _ _ E H).
    destruct y as [l|l k|e|]; try discriminate.
    + destruct (body_new l flag); [discriminate|eauto].
    + inversion X; subst. eauto using hdr_Q.
  - unfold g_body_state in X. destruct (g_body_parse R fill consume readn size steps tsteps dbg b ls r) as [[y ls1] r1] eqn:E. pose proof (body_I _ _ _ _ _ _ _ E H).
    destruct y as [l|l k|e|]; try discriminate; [eauto|]. inversion X; subst. eauto using body_Q.
Qed.
Lemma req_parse_Q dbg m r st r' : g_req_parse R fill consume readn size steps tsteps dbg m r = (PIo st WouldBlock, r') -> I r -> Q r'.
Proof.
  unfold g_req_parse, g_msg_parse. destruct (g_msg_loop R fill consume readn size steps tsteps 4 parse_request_line dbg false m [] r) as [[y ls1] r1] eqn:E.
  destruct y as [[[[a b] c] d]|l k|e|]; try discriminate. intros X H. inversion X; subst. eauto using (@msg_Q (method * bytes)).
Qed.
Lemma resp_parse_Q dbg m r st r' : g_resp_parse R fill consume readn size steps tsteps dbg m r = (PIo st WouldBlock, r') -> I r -> Q r'.
Proof.
  unfold g_resp_parse, g_msg_parse. destruct (g_msg_loop R fill consume readn size steps tsteps 4 parse_status_line dbg true m [] r) as [[y ls1] r1] eqn:E.
  destruct y as [[[a b] c]|l k|e|]; try discriminate. intros X H. inversion X; subst. eauto using @msg_Q.
Qed.
End Keep.
