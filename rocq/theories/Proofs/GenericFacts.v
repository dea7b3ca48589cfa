(** The parsers over two readers, of which the second can be chosen, from the end backwards, to agree with the first. *)
From Coq Require Import List Ascii String NArith Bool Lia.
From Verif.Model Require Import Bytes Io Common Parse Generic.
Import ListNotations.
Local Open Scope N_scope.

(** At the readers of Model/Io.v: the parsers of Model/Parse.v. *)
Lemma g_request_model : g_req_parse stream fill consume read_some (fun _ => USIZE_MAX) mu mu = req_parse.
Proof. reflexivity. Qed.
Lemma g_response_model : g_resp_parse stream fill consume read_some (fun _ => USIZE_MAX) mu mu = resp_parse.
Proof. reflexivity. Qed.


(** A read through limits is a read of the least of them. *)
Fixpoint minl (n : N) (ls : list N) : N := match ls with [] => n | l :: ls' => minl (N.min n l) ls' end.

Lemma minl_min n ls : minl n ls = N.min n (minl n ls).
Proof.
  revert n; induction ls as [|l ls IH]; intros n; cbn [minl]; [lia|]. rewrite (IH (N.min n l)). lia.
Qed.

Lemma minl_pos n ls : 0 < n -> existsb (N.eqb 0) ls = false -> 0 < minl n ls.
Proof.
  revert n; induction ls as [|l ls IH]; intros n Hn E; cbn [minl existsb] in *; auto.
  apply orb_false_iff in E. destruct E as [E1 E2]. apply N.eqb_neq in E1. apply IH; auto; lia.
Qed.

Lemma minl_sub ls : forall n k, k <= minl n ls -> minl (n - k) (map (fun l => l - k) ls) = minl n ls - k.
Proof.
  induction ls as [|l ls IH]; intros n k H; cbn [minl map] in *; auto.
  rewrite <- IH by auto. f_equal. lia.
Qed.

Lemma minl_big ls : forall n m l, In l ls -> l <= n -> l <= m -> minl n ls = minl m ls.
Proof.
  induction ls as [|l0 ls IH]; intros n m l HI Hn Hm; cbn [minl] in *; [destruct HI|].
  destruct HI as [-> | HI]; [f_equal; lia|].
  destruct (N.le_gt_cases l l0).
  - apply (IH _ _ l); auto; lia.
  - f_equal. lia.
Qed.

Lemma g_read_lim_eq R readn : forall ls n (r : R),
  g_read_lim R readn n ls r =
    if existsb (N.eqb 0) ls then (inl LimitReached, ls, r)
    else match readn (minl n ls) r with
         | (inl k, r') => (inl k, ls, r')
         | (inr got, r') => (inr got, map (fun l => l - len got) ls, r')
         end.
Proof.
  induction ls as [|l ls IH]; intros n r; cbn [g_read_lim existsb minl map].
  - destruct (readn n r) as [[k|got] r']; reflexivity.
  - rewrite (N.eqb_sym 0 l). destruct (l =? 0) eqn:El; cbn [orb]; auto.
    rewrite IH. destruct (existsb (N.eqb 0) ls); [reflexivity|].
    destruct (readn (minl (N.min n l) ls) r) as [[k|got] r']; reflexivity.
Qed.

Lemma usub_max dbg a b l : usub dbg a b = Some l -> a <= USIZE_MAX -> l <= USIZE_MAX.
Proof. unfold usub, USIZE_MAX. destruct (N.leb_spec b a); [|destruct dbg; [discriminate|]]; intros E; inversion E; lia. Qed.

Section Sim.
Variables R1 R2 : Type.
Variable fill1 : R1 -> (ekind + bytes) * R1.
Variable consume1 : N -> R1 -> R1.
Variable read1 : N -> R1 -> (ekind + bytes) * R1.
Variable size1 : bytes -> N.
Variable fill2 : R2 -> (ekind + bytes) * R2.
Variable consume2 : N -> R2 -> R2.
Variable read2 : N -> R2 -> (ekind + bytes) * R2.
Variable size2 : bytes -> N.
Variable fuel : nat.
Variables tsteps1 : R1 -> nat.
Variables tsteps2 : R2 -> nat.
Variable sim : R2 -> R1 -> Prop.

Definition bsim {A} (f1 : R1 -> A * R1) (f2 : R2 -> A * R2) : Prop :=
  forall r a r', f1 r = (a, r') -> forall s', sim s' r' -> exists s, sim s r /\ f2 s = (a, s').

Hypothesis fill_err : forall r k r', fill1 r = (inl k, r') -> forall s', sim s' r' -> exists s, sim s r /\ fill2 s = (inl k, s').
Hypothesis fill_ok : forall r bs r' n, fill1 r = (inr bs, r') -> n <= len bs -> forall s', sim s' (consume1 n r') ->
  exists s s1, sim s r /\ fill2 s = (inr bs, s1) /\ consume2 n s1 = s'.
Hypothesis read_ok : forall n, 0 < n -> bsim (read1 n) (read2 n).
Hypothesis to_end_ok : forall l ls acc, l <= USIZE_MAX ->
  bsim (fun r => g_read_to_end R1 read1 size1 (S (tsteps1 r)) (l :: ls) r acc)
       (fun s => g_read_to_end R2 read2 size2 (S (tsteps2 s)) (l :: ls) s acc).

Local Notation steps1 := (fun _ : R1 => fuel).
Local Notation steps2 := (fun _ : R2 => fuel).

(** *** limits *)

Lemma fill_lim_err ls : forall r k r', g_fill_lim R1 fill1 ls r = (inl k, r') -> forall s', sim s' r' ->
  exists s, sim s r /\ g_fill_lim R2 fill2 ls s = (inl k, s').
Proof.
  induction ls as [|l ls IH]; intros r k r' E s' Sm; cbn [g_fill_lim] in *; [eapply fill_err; eauto|].
  destruct (l =? 0); [inversion E; subst; eauto|].
  destruct (g_fill_lim R1 fill1 ls r) as [[k1|bs] r1] eqn:E1; inversion E; subst.
  destruct (IH _ _ _ E1 _ Sm) as (s & ? & E2). exists s. rewrite E2. auto.
Qed.

Lemma consume_lim_fst n ls r1 r2 : fst (g_consume_lim R1 consume1 n ls r1) = fst (g_consume_lim R2 consume2 n ls r2).
Proof.
  revert n; induction ls as [|l ls IH]; intros n; cbn [g_consume_lim]; auto.
  specialize (IH (N.min n l)). destruct (g_consume_lim R1 _ _ _ _), (g_consume_lim R2 _ _ _ _). cbn in *. congruence.
Qed.

Lemma len_firstn_le (n : nat) (b : bytes) : len (firstn n b) <= len b.
Proof. unfold len. rewrite firstn_length. lia. Qed.

Lemma fill_lim_ok ls : forall r bs r' n ls' r1, g_fill_lim R1 fill1 ls r = (inr bs, r') -> n <= len bs ->
  g_consume_lim R1 consume1 n ls r' = (ls', r1) -> forall s', sim s' r1 ->
  exists s s1, sim s r /\ g_fill_lim R2 fill2 ls s = (inr bs, s1) /\ g_consume_lim R2 consume2 n ls s1 = (ls', s').
Proof.
  induction ls as [|l ls IH]; intros r bs r' n ls' r1 E Hn C s' Sm; cbn [g_fill_lim g_consume_lim] in *.
  - inversion C; subst. destruct (fill_ok _ _ _ _ E Hn _ Sm) as (s & s1 & ? & E2 & <-). exists s, s1. auto.
  - destruct (l =? 0) eqn:El; [discriminate|].
    destruct (g_fill_lim R1 fill1 ls r) as [[k1|bs1] r2] eqn:E1; inversion E; subst. clear E.
    destruct (g_consume_lim R1 consume1 (N.min n l) ls r') as [ls1 r3] eqn:C1. inversion C; subst. clear C.
    pose proof (len_firstn_le (N.to_nat (N.min l (len bs1))) bs1).
    destruct (IH _ _ _ (N.min n l) _ _ E1 ltac:(lia) C1 _ Sm) as (s & s1 & ? & E2 & C2).
    exists s, s1. rewrite E2, C2. auto.
Qed.

Lemma read_lim_ok ls : forall n, 0 < n -> bsim (g_read_lim R1 read1 n ls) (g_read_lim R2 read2 n ls).
Proof.
  induction ls as [|l ls IH]; intros n Hn r a r' E s' Sm; cbn [g_read_lim] in *.
  - destruct (read1 n r) as [x r1] eqn:E1. inversion E; subst.
    destruct (read_ok n Hn _ _ _ E1 _ Sm) as (s & ? & E2). exists s. rewrite E2. auto.
  - destruct (l =? 0) eqn:El; [inversion E; subst; eauto|]. apply N.eqb_neq in El.
    destruct (g_read_lim R1 read1 (N.min n l) ls r) as [[x ls1] r1] eqn:E1.
    assert (r1 = r') by (destruct x; inversion E; auto). subst.
    destruct (IH (N.min n l) ltac:(lia) _ _ _ E1 _ Sm) as (s & ? & E2). exists s. split; auto. rewrite E2.
    destruct x; inversion E; subst; auto.
Qed.

(** *** loops of std *)

Lemma read_until_ok f : forall ls acc,
  bsim (fun r => g_read_until R1 fill1 consume1 f ls r acc) (fun s => g_read_until R2 fill2 consume2 f ls s acc).
Proof.
  induction f as [|f IH]; intros ls acc r a r' E s' Sm; cbn [g_read_until] in *.
  { inversion E; subst. eauto. }
  destruct (g_fill_lim R1 fill1 ls r) as [[k|bs] r1] eqn:E1.
  - assert (D : k = Interrupted \/ k <> Interrupted) by (destruct k; auto; right; discriminate).
    destruct D as [-> | D].
    + destruct (IH _ _ _ _ _ E _ Sm) as (s1 & Sm1 & E2).
      destruct (fill_lim_err _ _ _ _ E1 _ Sm1) as (s & ? & E3). exists s. rewrite E3. auto.
    + assert (E' : (Some k, acc, ls, r1) = (a, r')) by (destruct k; auto; congruence). inversion E'; subst.
      destruct (fill_lim_err _ _ _ _ E1 _ Sm) as (s & ? & E2). exists s. split; auto. rewrite E2.
      destruct k; auto; congruence.
  - destruct (find_lf bs) as [i|] eqn:Ef.
    + destruct (g_consume_lim R1 consume1 (N.of_nat (S i)) ls r1) as [ls1 r2] eqn:C. inversion E; subst.
      assert (Hi : (S i <= List.length bs)%nat).
      { clear -Ef. revert i Ef; induction bs as [|c bs IHb]; intros i Ef; cbn [find_lf] in Ef; [discriminate|].
        destruct (Ascii.eqb c LF); [inversion Ef; cbn; lia|].
        destruct (find_lf bs) as [j|]; inversion Ef; subst. specialize (IHb _ eq_refl). cbn. lia. }
      destruct (fill_lim_ok _ _ _ _ (N.of_nat (S i)) _ _ E1 ltac:(unfold len; lia) C _ Sm) as (s & s1 & ? & E2 & C2).
      exists s. split; auto. rewrite E2, Ef, C2. auto.
    + destruct (g_consume_lim R1 consume1 (len bs) ls r1) as [ls1 r2] eqn:C.
      destruct bs as [|c bs].
      * inversion E; subst.
        destruct (fill_lim_ok _ _ _ _ _ _ _ E1 (N.le_refl _) C _ Sm) as (s & s1 & ? & E2 & C2).
        exists s. split; auto. rewrite E2, Ef, C2. auto.
      * destruct (IH _ _ _ _ _ E _ Sm) as (s0 & Sm0 & E0).
        destruct (fill_lim_ok _ _ _ _ _ _ _ E1 (N.le_refl _) C _ Sm0) as (s & s1 & ? & E2 & C2).
        exists s. split; auto. rewrite E2, Ef, C2. auto.
Qed.

Lemma bytes_loop_ok f : forall n got ls,
  bsim (g_bytes_loop R1 read1 f n got ls) (g_bytes_loop R2 read2 f n got ls).
Proof.
  induction f as [|f IH]; intros n got ls r a r' E s' Sm; cbn [g_bytes_loop] in *.
  { destruct (len got <? n); inversion E; subst; eauto. }
  destruct (N.ltb_spec (len got) n) as [Hl|Hl]; [|inversion E; subst; eauto].
  destruct (g_read_lim R1 read1 (n - len got) ls r) as [[x ls1] r1] eqn:E1.
  destruct x as [k|[|c bs]].
  - inversion E; subst. destruct (read_lim_ok ls (n - len got) ltac:(lia) _ _ _ E1 _ Sm) as (s & ? & E2). exists s. rewrite E2. auto.
  - inversion E; subst. destruct (read_lim_ok ls (n - len got) ltac:(lia) _ _ _ E1 _ Sm) as (s & ? & E2). exists s. rewrite E2. auto.
  - destruct (IH _ _ _ _ _ _ E _ Sm) as (s0 & Sm0 & E0).
    destruct (read_lim_ok ls (n - len got) ltac:(lia) _ _ _ E1 _ Sm0) as (s & ? & E2). exists s. rewrite E2. auto.
Qed.

(** *** parsers *)

(** The call [E1] ends at the reader of [Sm]. *)
Ltac back L E1 Sm :=
  let s := fresh "s" in let E2 := fresh "E" in
  destruct (L _ _ _ E1 _ Sm) as (s & ? & E2); exists s; split; [assumption|]; rewrite E2.

Lemma read_line_ok line ls :
  bsim (g_read_line R1 fill1 consume1 steps1 line ls) (g_read_line R2 fill2 consume2 steps2 line ls).
Proof.
  intros r a r' E s' Sm. unfold g_read_line in *.
  destruct (g_read_until R1 _ _ _ _ r []) as [[[x acc] ls1] r1] eqn:E1.
  assert (r1 = r') by (destruct (utf8 acc); inversion E; auto). subst r1.
  back (read_until_ok (S fuel) ls []) E1 Sm. destruct (utf8 acc); inversion E; subst; reflexivity.
Qed.

Lemma line_deframe_ok line ls :
  bsim (g_line_deframe R1 fill1 consume1 steps1 line ls) (g_line_deframe R2 fill2 consume2 steps2 line ls).
Proof.
  intros r a r' E s' Sm. unfold g_line_deframe in *.
  destruct (g_read_line R1 _ _ _ line ls r) as [[[x l1] ls1] r1] eqn:E1.
  assert (r1 = r').
  { destruct x; [inversion E; auto|]. destruct (str_pop l1) as [[rest ch]|]; [destruct (beqb ch [LF])|]; inversion E; auto. }
  subst r1. back (read_line_ok line ls) E1 Sm.
  destruct x; [inversion E; subst; auto|]. destruct (str_pop l1) as [[rest ch]|]; [destruct (beqb ch [LF])|]; inversion E; auto.
Qed.

Lemma crlf_parse_ok dbg line ls :
  bsim (g_crlf_parse R1 fill1 consume1 steps1 dbg line ls) (g_crlf_parse R2 fill2 consume2 steps2 dbg line ls).
Proof.
  intros r a r' E s' Sm. unfold g_crlf_parse, g_with_limit in *.
  destruct (usub dbg MAX_LINE_SIZE (len line)) as [lim|]; [|inversion E; subst; eauto].
  destruct (g_line_deframe R1 _ _ _ line (lim :: ls) r) as [[x ls1] r1] eqn:E1.
  assert (r1 = r').
  { destruct x as [l|st k|e|]; [destruct (parse_crlf_line l)|destruct k| |]; inversion E; auto. }
  subst r1. back (line_deframe_ok line (lim :: ls)) E1 Sm.
  destruct x as [l|st k|e|]; [destruct (parse_crlf_line l)|destruct k| |]; inversion E; auto.
Qed.

Lemma hdr_loop_ok f dbg : forall st ls,
  bsim (g_hdr_loop R1 fill1 consume1 steps1 f dbg st ls) (g_hdr_loop R2 fill2 consume2 steps2 f dbg st ls).
Proof.
  induction f as [|f IH]; intros st ls r a r' E s' Sm; cbn [g_hdr_loop] in *; [inversion E; subst; eauto|].
  destruct (g_crlf_parse R1 _ _ _ dbg (h_line st) ls r) as [[x ls1] r1] eqn:E1.
  destruct x as [[|c line]|st1 k|e|]; try (inversion E; subst; back (crlf_parse_ok dbg (h_line st) ls) E1 Sm; reflexivity).
  destruct (parse_header (c :: line)) as [e|[hk hv]] eqn:Eh.
  - inversion E; subst. back (crlf_parse_ok dbg (h_line st) ls) E1 Sm. rewrite Eh. reflexivity.
  - destruct (IH _ _ _ _ _ E _ Sm) as (s0 & Sm0 & E0).
    back (crlf_parse_ok dbg (h_line st) ls) E1 Sm0. rewrite Eh. exact E0.
Qed.

Lemma hdr_parse_ok dbg st ls :
  bsim (g_hdr_parse R1 fill1 consume1 steps1 dbg st ls) (g_hdr_parse R2 fill2 consume2 steps2 dbg st ls).
Proof.
  intros r a r' E s' Sm. unfold g_hdr_parse, g_with_limit in *.
  destruct (usub dbg MAX_HEADERS_SIZE (h_read st)) as [lim|]; [|inversion E; subst; eauto].
  destruct (g_hdr_loop R1 _ _ _ _ dbg st (lim :: ls) r) as [[x ls1] r1] eqn:E1. inversion E; subst.
  back (hdr_loop_ok (S (S fuel)) dbg st (lim :: ls)) E1 Sm. reflexivity.
Qed.

Lemma bytes_deframe_ok st ls :
  bsim (g_bytes_deframe R1 read1 steps1 st ls) (g_bytes_deframe R2 read2 steps2 st ls).
Proof. exact (bytes_loop_ok (S fuel) (bd_size st) (bd_got st) ls). Qed.

Lemma eof_deframe_ok d l ls : l <= USIZE_MAX ->
  bsim (g_eof_deframe R1 read1 size1 tsteps1 d (l :: ls)) (g_eof_deframe R2 read2 size2 tsteps2 d (l :: ls)).
Proof.
  intros Hl r a r' E s' Sm. unfold g_eof_deframe in *.
  destruct (g_read_to_end R1 _ _ _ (l :: ls) r d) as [[[x d1] ls1] r1] eqn:E1.
  assert (r1 = r') by (destruct x; inversion E; auto). subst r1.
  back (to_end_ok l ls d Hl) E1 Sm. destruct x; inversion E; auto.
Qed.

Lemma chunks_loop_ok f dbg : forall body st ls,
  bsim (g_chunks_loop R1 fill1 consume1 read1 steps1 f dbg body st ls) (g_chunks_loop R2 fill2 consume2 read2 steps2 f dbg body st ls).
Proof.
  induction f as [|f IH]; intros body st ls r a r' E s' Sm; cbn [g_chunks_loop] in *; [inversion E; subst; eauto|].
  destruct st as [line|b|line last|].
  - unfold g_size_state in *. destruct (g_crlf_parse R1 _ _ _ dbg line ls r) as [[x ls1] r1] eqn:E1.
    destruct x as [raw|st1 k|e|]; try (inversion E; subst; back (crlf_parse_ok dbg line ls) E1 Sm; reflexivity).
    destruct (parse_chunk_size raw) as [e|n] eqn:En.
    + inversion E; subst. back (crlf_parse_ok dbg line ls) E1 Sm. rewrite En. reflexivity.
    + destruct (IH _ _ _ _ _ _ E _ Sm) as (s0 & Sm0 & E0). back (crlf_parse_ok dbg line ls) E1 Sm0. rewrite En. exact E0.
  - unfold g_data_state in *. destruct (g_bytes_deframe R1 _ _ b ls r) as [[x ls1] r1] eqn:E1.
    destruct x as [data|st1 k|e|]; try (inversion E; subst; back (bytes_deframe_ok b ls) E1 Sm; reflexivity).
    destruct (IH _ _ _ _ _ _ E _ Sm) as (s0 & Sm0 & E0). back (bytes_deframe_ok b ls) E1 Sm0. exact E0.
  - unfold g_tail_state in *. destruct (g_crlf_parse R1 _ _ _ dbg line ls r) as [[x ls1] r1] eqn:E1.
    destruct x as [[|c raw]|st1 k|e|]; try (inversion E; subst; back (crlf_parse_ok dbg line ls) E1 Sm; reflexivity).
    destruct (IH _ _ _ _ _ _ E _ Sm) as (s0 & Sm0 & E0). back (crlf_parse_ok dbg line ls) E1 Sm0. exact E0.
  - inversion E; subst; eauto.
Qed.

Lemma body_parse_ok dbg st ls : 
  (forall c ls', bsim (g_chunks_parse R1 fill1 consume1 read1 steps1 dbg c ls') (g_chunks_parse R2 fill2 consume2 read2 steps2 dbg c ls')) ->
  bsim (g_body_parse R1 fill1 consume1 read1 size1 steps1 tsteps1 dbg st ls) (g_body_parse R2 fill2 consume2 read2 size2 steps2 tsteps2 dbg st ls).
Proof.
  intros CP r a r' E s' Sm. unfold g_body_parse, g_with_limit in *.
  destruct (usub dbg MAX_BODY_SIZE (body_read_so_far st)) as [lim|] eqn:Eu; [|inversion E; subst; eauto].
  destruct st as [b|d|c|].
  - destruct (g_bytes_deframe R1 _ _ b (lim :: ls) r) as [[x ls1] r1] eqn:E1.
    destruct x; inversion E; subst; back (bytes_deframe_ok b (lim :: ls)) E1 Sm; reflexivity.
  - destruct (g_eof_deframe R1 _ _ _ d (lim :: ls) r) as [[x ls1] r1] eqn:E1.
    destruct x; inversion E; subst; back (eof_deframe_ok d lim ls (usub_max _ _ _ _ Eu ltac:(vm_compute; discriminate))) E1 Sm; reflexivity.
  - destruct (g_chunks_parse R1 _ _ _ _ dbg c (lim :: ls) r) as [[x ls1] r1] eqn:E1.
    destruct x; inversion E; subst; back (CP c (lim :: ls)) E1 Sm; reflexivity.
  - inversion E; subst. eauto.
Qed.

Lemma msg_loop_ok {T} (pf : bytes -> perr + T) dbg flag f : forall st ls,
  bsim (g_msg_loop R1 fill1 consume1 read1 size1 steps1 tsteps1 f pf dbg flag st ls)
       (g_msg_loop R2 fill2 consume2 read2 size2 steps2 tsteps2 f pf dbg flag st ls).
Proof.
  induction f as [|f IH]; intros st ls r a r' E s' Sm; cbn [g_msg_loop] in *; [inversion E; subst; eauto|].
  destruct st as [line|t h|t hm b|t hm body].
  - unfold g_first_line_state, g_first_parse in *. destruct (g_crlf_parse R1 _ _ _ dbg line ls r) as [[x ls1] r1] eqn:E1.
    destruct x as [l|st1 k|e|]; try (inversion E; subst; back (crlf_parse_ok dbg line ls) E1 Sm; reflexivity).
    destruct (pf l) as [e|t] eqn:Ep.
    + inversion E; subst. back (crlf_parse_ok dbg line ls) E1 Sm. rewrite Ep. reflexivity.
    + destruct (IH _ _ _ _ _ E _ Sm) as (s0 & Sm0 & E0). back (crlf_parse_ok dbg line ls) E1 Sm0. rewrite Ep. exact E0.
  - unfold g_headers_state in *. destruct (g_hdr_parse R1 _ _ _ dbg h ls r) as [[x ls1] r1] eqn:E1.
    destruct x as [hm|st1 k|e|]; try (inversion E; subst; back (hdr_parse_ok dbg h ls) E1 Sm; reflexivity).
    destruct (body_new hm flag) as [e|b] eqn:Eb.
    + inversion E; subst. back (hdr_parse_ok dbg h ls) E1 Sm. rewrite Eb. reflexivity.
    + destruct (IH _ _ _ _ _ E _ Sm) as (s0 & Sm0 & E0). back (hdr_parse_ok dbg h ls) E1 Sm0. rewrite Eb. exact E0.
  - assert (BP := body_parse_ok dbg b ls (fun c ls' => chunks_loop_ok (3 * fuel + 4) dbg (c_body c) (c_state c) ls')).
    unfold g_body_state in *. destruct (g_body_parse R1 _ _ _ _ _ _ dbg b ls r) as [[x ls1] r1] eqn:E1.
    destruct x as [body|st1 k|e|]; try (inversion E; subst; back BP E1 Sm; reflexivity).
    destruct (IH _ _ _ _ _ E _ Sm) as (s0 & Sm0 & E0). back BP E1 Sm0. exact E0.
  - inversion E; subst. eauto.
Qed.

Lemma req_parse_ok dbg st :
  bsim (g_req_parse R1 fill1 consume1 read1 size1 steps1 tsteps1 dbg st) (g_req_parse R2 fill2 consume2 read2 size2 steps2 tsteps2 dbg st).
Proof.
  intros r a r' E s' Sm. unfold g_req_parse, g_msg_parse in *.
  destruct (g_msg_loop R1 _ _ _ _ _ _ 4 _ dbg false st [] r) as [[x ls1] r1] eqn:E1.
  destruct x as [[[[m u] hm] body]|st1 k|e|]; inversion E; subst; back (msg_loop_ok parse_request_line dbg false 4 st []) E1 Sm; reflexivity.
Qed.

Lemma resp_parse_ok dbg st :
  bsim (g_resp_parse R1 fill1 consume1 read1 size1 steps1 tsteps1 dbg st) (g_resp_parse R2 fill2 consume2 read2 size2 steps2 tsteps2 dbg st).
Proof.
  intros r a r' E s' Sm. unfold g_resp_parse, g_msg_parse in *.
  destruct (g_msg_loop R1 _ _ _ _ _ _ 4 _ dbg true st [] r) as [[x ls1] r1] eqn:E1.
  destruct x as [[[t hm] body]|st1 k|e|]; inversion E; subst; back (msg_loop_ok parse_status_line dbg true 4 st []) E1 Sm; reflexivity.
Qed.

End Sim.
