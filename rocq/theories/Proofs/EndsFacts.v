(** The parsers over a reader that has only finitely much to give: with enough iterations they never run out. *)
From Coq Require Import List Ascii String Arith NArith Bool Lia.
From Verif.Model Require Import Bytes Io Common Parse Generic.
From Verif.Proofs Require Import FuelFacts MonoFacts.
Import ListNotations.
Local Open Scope N_scope.

Section Ends.
Variable R : Type.
Variable fill : R -> (ekind + bytes) * R.
Variable consume : N -> R -> R.
Variable readn : N -> R -> (ekind + bytes) * R.
Variable size : bytes -> N.
Variable m : R -> nat.
Variable ok : R -> Prop.
Variable F : nat.
Hypothesis size_pos : forall acc, 0 < size acc.
Hypothesis fill_ends : forall r x r', ok r -> fill r = (x, r') ->
  ok r' /\ (m r' <= m r)%nat /\
  match x with
  | inl k => k <> ModelFuel /\ (k = Interrupted -> (m r' < m r)%nat)
  | inr bs => forall n, n <= len bs -> ok (consume n r') /\ (m (consume n r') + N.to_nat n <= m r)%nat
  end.
Hypothesis read_ends : forall n r x r', 0 < n -> ok r -> readn n r = (x, r') ->
  ok r' /\ (m r' <= m r)%nat /\
  match x with
  | inl k => k <> ModelFuel /\ (k = Interrupted -> (m r' < m r)%nat)
  | inr bs => (m r' + List.length bs <= m r)%nat
  end.

Local Notation stF := (fun _ : R => F).

Lemma fill_lim_ends ls : forall r x r', ok r -> g_fill_lim R fill ls r = (x, r') ->
  ok r' /\ (m r' <= m r)%nat /\
  match x with
  | inl k => k <> ModelFuel /\ (k = Interrupted -> (m r' < m r)%nat)
  | inr bs => forall n ls1 s1, n <= len bs -> g_consume_lim R consume n ls r' = (ls1, s1) -> ok s1 /\ (m s1 + N.to_nat n <= m r)%nat
  end.
Proof.
  induction ls as [|l ls IH]; intros r x r' K E; cbn [g_fill_lim] in E.
  - destruct (fill_ends _ _ _ K E) as (H1 & H2 & H3). split; auto. split; auto. destruct x as [k|bs]; auto.
    intros n ls1 s1 Hn Ec. cbn in Ec. inversion Ec; subst. apply H3; auto.
  - destruct (l =? 0) eqn:El; [inversion E; subst; repeat split; auto; discriminate|].
    destruct (g_fill_lim R fill ls r) as [[k|bs] r1] eqn:E1; inversion E; subst; destruct (IH _ _ _ K E1) as (H1 & H2 & H3).
    + auto.
    + split; auto. split; auto. intros n ls1 s1 Hn Ec. cbn [g_consume_lim] in Ec.
      assert (n <= l /\ n <= len bs) as [Hl Hb].
      { assert (len (firstn (N.to_nat (N.min l (len bs))) bs) <= N.min l (len bs)) by (unfold len; rewrite firstn_length; lia). lia. }
      replace (N.min n l) with n in Ec by lia. destruct (g_consume_lim R consume n ls r') as [ls2 s2] eqn:E2. inversion Ec; subst.
      eapply H3; eauto.
Qed.

Lemma read_lim_ends ls : forall n r x ls' r', 0 < n -> ok r -> g_read_lim R readn n ls r = (x, ls', r') ->
  ok r' /\ (m r' <= m r)%nat /\
  match x with
  | inl k => k <> ModelFuel /\ (k = Interrupted -> (m r' < m r)%nat)
  | inr bs => (m r' + List.length bs <= m r)%nat
  end.
Proof.
  induction ls as [|l ls IH]; intros n r x ls' r' Hn K E; cbn [g_read_lim] in E.
  - destruct (readn n r) as [y r1] eqn:E1. inversion E; subst. eapply read_ends; eauto.
  - destruct (N.eqb_spec l 0) as [El|El]; [inversion E; subst; repeat split; auto; discriminate|].
    assert (Hm : 0 < N.min n l) by lia.
    destruct (g_read_lim R readn (N.min n l) ls r) as [[[k|bs] ls1] r1] eqn:E1; inversion E; subst; exact (IH _ _ _ _ _ Hm K E1).
Qed.

Lemma read_until_ends f : forall ls r acc x acc' ls' r', ok r -> (m r < f)%nat ->
  g_read_until R fill consume f ls r acc = (x, acc', ls', r') ->
  ok r' /\ x <> Some ModelFuel /\ exists e, acc' = acc ++ e /\ (m r' + List.length e <= m r)%nat.
Proof.
  induction f as [|f IH]; intros ls r acc x acc' ls' r' K L E; [lia|]. cbn [g_read_until] in E.
  destruct (g_fill_lim R fill ls r) as [[k|bs] r1] eqn:E1; destruct (fill_lim_ends _ _ _ _ K E1) as (H1 & H2 & H3).
  - destruct H3 as [H3 H4].
    assert (Z : forall y, y <> Some ModelFuel -> (y, acc, ls, r1) = (x, acc', ls', r') ->
      ok r' /\ x <> Some ModelFuel /\ exists e, acc' = acc ++ e /\ (m r' + List.length e <= m r)%nat).
    { intros y Y Q. inversion Q; subst. split; auto. split; auto. exists []. rewrite app_nil_r. cbn. split; [reflexivity|lia]. }
    destruct k; try (refine (Z _ _ E); congruence).
    assert (Hf : (m r1 < f)%nat) by (specialize (H4 eq_refl); lia). destruct (IH _ _ _ _ _ _ _ H1 Hf E) as (K1 & K2 & e & K3 & K4).
    split; auto. split; auto. exists e. split; auto. lia.
  - destruct (find_lf bs) as [i|] eqn:Ef.
    + destruct (g_consume_lim R consume (N.of_nat (Datatypes.S i)) ls r1) as [ls1 s1] eqn:Ec. inversion E; subst.
      pose proof (find_lf_lt _ _ Ef) as Hl. assert (Hi : N.of_nat (Datatypes.S i) <= len bs) by (unfold len; lia).
      destruct (H3 _ _ _ Hi Ec) as [K1 K2].
      split; auto. split; [discriminate|]. exists (firstn (Datatypes.S i) bs). split; auto. rewrite firstn_length. lia.
    + destruct (g_consume_lim R consume (len bs) ls r1) as [ls1 s1] eqn:Ec. destruct (H3 _ _ _ (N.le_refl _) Ec) as [K1 K2].
      destruct bs as [|c bs].
      * inversion E; subst. split; auto. split; [discriminate|]. exists []. rewrite app_nil_r. cbn in *. split; [reflexivity|lia].
      * assert (N.to_nat (len (c :: bs)) = List.length (c :: bs)) as Hlen by (unfold len; lia).
        assert (Hf : (m s1 < f)%nat) by (cbn [List.length] in Hlen; lia). destruct (IH _ _ _ _ _ _ _ K1 Hf E) as (K3 & K4 & e & K5 & K6).
        split; auto. split; auto. exists ((c :: bs) ++ e). rewrite app_assoc. split; auto. rewrite app_length. lia.
Qed.

(** What a parser's result says about the reader: enough iterations, nothing grew, and with [fresh] something was taken. *)
Definition ends {A S} (fresh : Prop) (r : R) (y : pres A S) (r' : R) : Prop :=
  ok r' /\ (m r' <= m r)%nat /\ fueled y /\ (fresh -> forall a, y = PDone a -> (m r' < m r)%nat).

Lemma line_deframe_ends line ls r y ls' r' : ok r -> (m r <= F)%nat ->
  g_line_deframe R fill consume stF line ls r = (y, ls', r') -> ends (line = []) r y r'.
Proof.
  intros K L E. unfold g_line_deframe, g_read_line in E.
  destruct (g_read_until R fill consume (Datatypes.S F) ls r []) as [[[x acc] ls1] r1] eqn:E1.
  assert (L1 : (m r < Datatypes.S F)%nat) by lia. destruct (read_until_ends _ _ _ _ _ _ _ _ K L1 E1) as (H1 & H2 & e & -> & H4). cbn [app] in *.
  assert (Z : ok r1 /\ (m r1 <= m r)%nat) by (split; auto; lia).
  destruct (utf8 e).
  - destruct x as [k|].
    + inversion E; subst. unfold ends. repeat split; try (now apply Z).
      * cbn. destruct k; auto.
      * discriminate.
    + destruct (str_pop (line ++ e)) as [[rest ch]|] eqn:Ep.
      * assert (line = [] -> (m r1 < m r)%nat).
        { intros ->. cbn in Ep. destruct e; [discriminate Ep|]. cbn [List.length] in H4. lia. }
        destruct (beqb ch [LF]); inversion E; subst; unfold ends; repeat split; try (now apply Z); auto; discriminate.
      * inversion E; subst. unfold ends. repeat split; try (now apply Z); auto; discriminate.
  - destruct x as [k|]; inversion E; subst; unfold ends; repeat split; try (now apply Z); try discriminate; auto.
    cbn. destruct k; auto.
Qed.

Lemma crlf_parse_ends dbg line ls r y ls' r' : ok r -> (m r <= F)%nat ->
  g_crlf_parse R fill consume stF dbg line ls r = (y, ls', r') -> ends (line = []) r y r'.
Proof.
  intros K L E. unfold g_crlf_parse, g_with_limit in E. destruct (usub dbg MAX_LINE_SIZE (len line)) as [lim|].
  2:{ inversion E; subst. unfold ends. repeat split; auto; discriminate. }
  destruct (g_line_deframe R fill consume stF line (lim :: ls) r) as [[z ls1] r1] eqn:E1.
  destruct (line_deframe_ends _ _ _ _ _ _ K L E1) as (H1 & H2 & H3 & H4).
  destruct z as [l|l k|e|].
  - destruct (parse_crlf_line l); inversion E; subst; unfold ends; repeat split; auto; try discriminate. intros Hl a _. eapply H4; eauto.
  - assert (r' = r1 /\ match k with InvalidData => exists e, y = PErr e | _ => y = PIo l k end) as [-> Q]
      by (destruct k; inversion E; subst; eauto).
    unfold ends. split; auto. split; auto. split.
    + destruct k; try (rewrite Q; exact H3). destruct Q as [e ->]. cbn. auto.
    + intros _ a ->. destruct k; try discriminate Q. destruct Q as [e Q]. discriminate Q.
  - inversion E; subst. unfold ends. repeat split; auto; discriminate.
  - inversion E; subst. unfold ends. repeat split; auto; discriminate.
Qed.

Lemma hdr_loop_ends f dbg : forall h ls r y ls' r', ok r -> (m r <= F)%nat ->
  (m r + (match h_line h with [] => 0 | _ => 1 end) < f)%nat ->
  g_hdr_loop R fill consume stF f dbg h ls r = (y, ls', r') -> ends False r y r'.
Proof.
  induction f as [|f IH]; intros h ls r y ls' r' K L B E; [lia|]. cbn [g_hdr_loop] in E.
  destruct (g_crlf_parse R fill consume stF dbg (h_line h) ls r) as [[z ls1] r1] eqn:E1.
  destruct (crlf_parse_ends _ _ _ _ _ _ _ K L E1) as (H1 & H2 & H3 & H4).
  destruct z as [[|c l]|l k|e|].
  - inversion E; subst. unfold ends. repeat split; auto; intros [].
  - destruct (parse_header (c :: l)) as [e|[a b]]; [inversion E; subst; unfold ends; repeat split; auto; intros []|].
    apply IH in E; [|auto|lia|].
    + destruct E as (K1 & K2 & K3 & _). unfold ends. repeat split; auto; [lia|intros []].
    + cbn [h_line]. revert B H4. destruct (h_line h); intros B H4; [specialize (H4 eq_refl _ eq_refl)|]; lia.
  - inversion E; subst. unfold ends. repeat split; auto; intros [].
  - inversion E; subst. unfold ends. repeat split; auto; intros [].
  - inversion E; subst. unfold ends. repeat split; auto; intros [].
Qed.

Lemma hdr_parse_ends dbg h ls r y ls' r' : ok r -> (m r <= F)%nat ->
  g_hdr_parse R fill consume stF dbg h ls r = (y, ls', r') -> ends False r y r'.
Proof.
  intros K L E. unfold g_hdr_parse, g_with_limit in E. destruct (usub dbg MAX_HEADERS_SIZE (h_read h)) as [lim|].
  2:{ inversion E; subst. unfold ends. repeat split; auto; intros []. }
  destruct (g_hdr_loop R fill consume stF (Datatypes.S (Datatypes.S F)) dbg h (lim :: ls) r) as [[z ls1] r1] eqn:E1. inversion E; subst.
  refine (hdr_loop_ends _ _ _ _ _ _ _ _ K L _ E1). destruct (h_line h); lia.
Qed.

Lemma bytes_loop_ends f : forall n got ls r y ls' r', ok r -> (m r < f)%nat ->
  g_bytes_loop R readn f n got ls r = (y, ls', r') -> ends False r y r'.
Proof.
  induction f as [|f IH]; intros n got ls r y ls' r' K L E; [lia|]. cbn [g_bytes_loop] in E.
  destruct (N.ltb_spec (len got) n) as [Hn|Hn]; [|inversion E; subst; unfold ends; repeat split; auto; intros []].
  destruct (g_read_lim R readn (n - len got) ls r) as [[x ls1] r1] eqn:E1.
  assert (Hn1 : 0 < n - len got) by lia. destruct (read_lim_ends _ _ _ _ _ _ Hn1 K E1) as (H1 & H2 & H3).
  destruct x as [k|[|c bs]].
  - inversion E; subst. unfold ends. repeat split; auto; [|intros []]. cbn. destruct k; auto. now apply (proj1 H3).
  - inversion E; subst. unfold ends. repeat split; auto; intros [].
  - cbn [List.length] in H3. apply IH in E; [|auto|lia]. destruct E as (K1 & K2 & K3 & _). unfold ends. repeat split; auto; [lia|intros []].
Qed.
Lemma bytes_deframe_ends b ls r y ls' r' : ok r -> (m r <= F)%nat ->
  g_bytes_deframe R readn stF b ls r = (y, ls', r') -> ends False r y r'.
Proof. intros K L E. unfold g_bytes_deframe in E. refine (bytes_loop_ends _ _ _ _ _ _ _ _ K _ E). lia. Qed.

Lemma to_end_ends f : forall ls r acc x acc' ls' r', ok r -> (m r < f)%nat ->
  g_read_to_end R readn size f ls r acc = (x, acc', ls', r') -> ok r' /\ (m r' <= m r)%nat /\ x <> Some ModelFuel.
Proof.
  induction f as [|f IH]; intros ls r acc x acc' ls' r' K L E; [lia|]. cbn [g_read_to_end] in E.
  destruct (g_read_lim R readn (size acc) ls r) as [[z ls1] r1] eqn:E1.
  destruct (read_lim_ends _ _ _ _ _ _ (size_pos acc) K E1) as (H1 & H2 & H3).
  destruct z as [k|[|c bs]].
  - destruct H3 as [H3 H4].
    assert (Z : (Some k, acc, ls1, r1) = (x, acc', ls', r') -> ok r' /\ (m r' <= m r)%nat /\ x <> Some ModelFuel)
      by (intros Q; inversion Q; subst; repeat split; auto; congruence).
    destruct k; try (exact (Z E)). specialize (H4 eq_refl).
    assert (Hf : (m r1 < f)%nat) by lia. destruct (IH _ _ _ _ _ _ _ H1 Hf E) as (K1 & K2 & K3). repeat split; auto; lia.
  - inversion E; subst. repeat split; auto; discriminate.
  - cbn [List.length] in H3. assert (Hf : (m r1 < f)%nat) by lia. destruct (IH _ _ _ _ _ _ _ H1 Hf E) as (K1 & K2 & K3). repeat split; auto; lia.
Qed.

Definition need (c : chunk_state) (n : nat) : nat :=
  match c with
  | CSize [] => 3 * n + 1
  | CSize _ => 3 * n + 4
  | CData _ => 3 * n + 3
  | CTail _ _ => 3 * n + 2
  | CFinished => 1
  end.

Lemma chunks_loop_ends f dbg : forall body c ls r y ls' r', ok r -> (m r <= F)%nat -> (need c (m r) <= f)%nat ->
  g_chunks_loop R fill consume readn stF f dbg body c ls r = (y, ls', r') -> ends False r y r'.
Proof.
  induction f as [|f IH]; intros body c ls r y ls' r' K L B E.
  { destruct c as [[|? ?]| | |]; cbn [need] in B; lia. }
  assert (U : forall (y1 : pres bytes chunks_st) r1, ok r1 -> (m r1 <= m r)%nat -> ends False r1 y1 r' -> ends False r y1 r').
  { intros y1 r1 H1 H2 (K1 & K2 & K3 & _). unfold ends. repeat split; auto; [lia|intros []]. }
  cbn [g_chunks_loop] in E. destruct c as [line|b|line last|].
  - unfold g_size_state in E. destruct (g_crlf_parse R fill consume stF dbg line ls r) as [[z ls1] r1] eqn:E1.
    destruct (crlf_parse_ends _ _ _ _ _ _ _ K L E1) as (H1 & H2 & H3 & H4).
    destruct z as [l|l k|e|]; try (inversion E; subst; unfold ends; repeat split; auto; intros []).
    destruct (parse_chunk_size l) as [e|n]; [inversion E; subst; unfold ends; repeat split; auto; intros []|].
    apply IH in E; [eapply U; eauto|auto|lia|]. cbn [need]. destruct line as [|c line]; cbn [need] in B.
    + specialize (H4 eq_refl _ eq_refl). lia.
    + lia.
  - unfold g_data_state in E. destruct (g_bytes_deframe R readn stF b ls r) as [[z ls1] r1] eqn:E1.
    destruct (bytes_deframe_ends _ _ _ _ _ _ K L E1) as (H1 & H2 & H3 & _).
    destruct z as [l|l k|e|]; try (inversion E; subst; unfold ends; repeat split; auto; intros []).
    apply IH in E; [eapply U; eauto|auto|lia|]. cbn [need] in *. lia.
  - unfold g_tail_state in E. destruct (g_crlf_parse R fill consume stF dbg line ls r) as [[z ls1] r1] eqn:E1.
    destruct (crlf_parse_ends _ _ _ _ _ _ _ K L E1) as (H1 & H2 & H3 & H4).
    destruct z as [[|c l]|l k|e|]; try (inversion E; subst; unfold ends; repeat split; auto; intros []).
    apply IH in E; [eapply U; eauto|auto|lia|]. destruct last; cbn [need] in *; lia.
  - inversion E; subst. unfold ends. repeat split; auto; intros [].
Qed.

Lemma body_parse_ends dbg b ls r y ls' r' : ok r -> (m r <= F)%nat ->
  g_body_parse R fill consume readn size stF stF dbg b ls r = (y, ls', r') -> ends False r y r'.
Proof.
  intros K L E. unfold g_body_parse, g_with_limit in E. destruct (usub dbg MAX_BODY_SIZE (body_read_so_far b)) as [lim|].
  2:{ inversion E; subst. unfold ends. repeat split; auto; intros []. }
  destruct b as [b|d|c|].
  - destruct (g_bytes_deframe R readn stF b (lim :: ls) r) as [[z ls1] r1] eqn:E1.
    destruct (bytes_deframe_ends _ _ _ _ _ _ K L E1) as (H1 & H2 & H3 & _).
    destruct z as [l|l k|e|]; inversion E; subst; unfold ends; repeat split; auto; intros [].
  - unfold g_eof_deframe in E. destruct (g_read_to_end R readn size (Datatypes.S F) (lim :: ls) r d) as [[[z d1] ls1] r1] eqn:E1.
    assert (L1 : (m r < Datatypes.S F)%nat) by lia. destruct (to_end_ends _ _ _ _ _ _ _ _ K L1 E1) as (H1 & H2 & H3).
    destruct z as [k|]; inversion E; subst; unfold ends; repeat split; auto; try (intros []). cbn. destruct k; auto.
  - unfold g_chunks_parse in E.
    destruct (g_chunks_loop R fill consume readn stF (3 * F + 4)%nat dbg (c_body c) (c_state c) (lim :: ls) r) as [[z ls1] r1] eqn:E1.
    assert (need (c_state c) (m r) <= 3 * F + 4)%nat as B by (destruct (c_state c) as [[|? ?]| | |]; cbn [need]; lia).
    destruct (chunks_loop_ends _ _ _ _ _ _ _ _ _ K L B E1) as (H1 & H2 & H3 & _).
    destruct z as [l|l k|e|]; inversion E; subst; unfold ends; repeat split; auto; intros [].
  - inversion E; subst. unfold ends. repeat split; auto; intros [].
Qed.

Definition rank {T} (s : msg_st T) : nat :=
  match s with MFirst _ => 4 | MHeaders _ _ => 3 | MBody _ _ _ => 2 | MFinished _ _ _ => 1 end.

Lemma msg_loop_ends {T} (pf : bytes -> perr + T) f dbg flag : forall s ls r y ls' r', ok r -> (m r <= F)%nat -> (rank s <= f)%nat ->
  g_msg_loop R fill consume readn size stF stF f pf dbg flag s ls r = (y, ls', r') -> ends (s = MFirst []) r y r'.
Proof.
  induction f as [|f IH]; intros s ls r y ls' r' K L B E; [destruct s; cbn in B; lia|]. cbn [g_msg_loop] in E.
  destruct s as [line|t h|t hm b|t hm body].
  - unfold g_first_line_state, g_first_parse in E. destruct (g_crlf_parse R fill consume stF dbg line ls r) as [[z ls1] r1] eqn:E1.
    destruct (crlf_parse_ends _ _ _ _ _ _ _ K L E1) as (H1 & H2 & H3 & H4).
    destruct z as [l|l k|e|]; try (inversion E; subst; unfold ends; repeat split; auto; discriminate).
    destruct (pf l) as [e|t]; [inversion E; subst; unfold ends; repeat split; auto; discriminate|].
    apply IH in E; [|auto|lia|cbn in *; lia]. destruct E as (K1 & K2 & K3 & _). unfold ends. repeat split; auto; [lia|].
    intros Q a _. inversion Q; subst. specialize (H4 eq_refl _ eq_refl). lia.
  - unfold g_headers_state in E. destruct (g_hdr_parse R fill consume stF dbg h ls r) as [[z ls1] r1] eqn:E1.
    destruct (hdr_parse_ends _ _ _ _ _ _ _ K L E1) as (H1 & H2 & H3 & _).
    destruct z as [l|l k|e|]; try (inversion E; subst; unfold ends; repeat split; auto; discriminate).
    destruct (body_new l flag) as [e|b]; [inversion E; subst; unfold ends; repeat split; auto; discriminate|].
    apply IH in E; [|auto|lia|cbn in *; lia]. destruct E as (K1 & K2 & K3 & _). unfold ends. repeat split; auto; [lia|discriminate].
  - unfold g_body_state in E. destruct (g_body_parse R fill consume readn size stF stF dbg b ls r) as [[z ls1] r1] eqn:E1.
    destruct (body_parse_ends _ _ _ _ _ _ _ K L E1) as (H1 & H2 & H3 & _).
    destruct z as [l|l k|e|]; try (inversion E; subst; unfold ends; repeat split; auto; discriminate).
    apply IH in E; [|auto|lia|cbn in *; lia]. destruct E as (K1 & K2 & K3 & _). unfold ends. repeat split; auto; [lia|discriminate].
  - inversion E; subst. unfold ends. repeat split; auto; discriminate.
Qed.

Lemma req_parse_ends dbg s r y r' : ok r -> (m r <= F)%nat ->
  g_req_parse R fill consume readn size stF stF dbg s r = (y, r') -> ends (s = req_new) r y r'.
Proof.
  intros K L E. unfold g_req_parse, g_msg_parse in E.
  destruct (g_msg_loop R fill consume readn size stF stF 4 parse_request_line dbg false s [] r) as [[z ls1] r1] eqn:E1.
  assert (B : (rank s <= 4)%nat) by (destruct s; cbn; lia). destruct (msg_loop_ends _ _ _ _ _ _ _ _ _ _ K L B E1) as (H1 & H2 & H3 & H4).
  destruct z as [[[[? ?] ?] ?]|l k|e|]; inversion E; subst; unfold ends; repeat split; auto; try discriminate.
  intros Q a _. eapply H4; eauto.
Qed.
Lemma resp_parse_ends dbg s r y r' : ok r -> (m r <= F)%nat ->
  g_resp_parse R fill consume readn size stF stF dbg s r = (y, r') -> ends (s = resp_new) r y r'.
Proof.
  intros K L E. unfold g_resp_parse, g_msg_parse in E.
  destruct (g_msg_loop R fill consume readn size stF stF 4 parse_status_line dbg true s [] r) as [[z ls1] r1] eqn:E1.
  assert (B : (rank s <= 4)%nat) by (destruct s; cbn; lia). destruct (msg_loop_ends _ _ _ _ _ _ _ _ _ _ K L B E1) as (H1 & H2 & H3 & H4).
  destruct z as [[[? ?] ?]|l k|e|]; inversion E; subst; unfold ends; repeat split; auto; try discriminate.
  intros Q a _. eapply H4; eauto.
Qed.
End Ends.
