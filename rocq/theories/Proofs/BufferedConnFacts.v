(** The server's and the client's connections on buffered streams. *)
From Coq Require Import List Ascii String Arith NArith Bool Lia.
From Verif.Model Require Import Bytes Io Common Parse Encode Writer Server Client Generic Buffered.
From Verif.Spec Require Import Buffering.
From Verif.Proofs Require Import BytesFacts GenericFacts FuelFacts BufferedFacts.
Import ListNotations.
Local Open Scope N_scope.

Section Conns.
Variable size : bytes -> N.
Hypothesis size_pos : forall acc, 0 < size acc.

(** Writing leaves the input alone. *)
Lemma bf_write_parts {W A} (f : W -> sock -> A * W * sock) (d : buffered W) x d' : bf_write f d = (x, d') ->
  f (bf_w d) (so_tx (rd_inner (bf_r d))) = (x, bf_w d', so_tx (rd_inner (bf_r d'))) /\
  rd_cap (bf_r d') = rd_cap (bf_r d) /\ bf_mu d' = bf_mu d /\ forall s, input_of s d' <-> input_of s d.
Proof.
  unfold bf_write, input_of, bf_mu. destruct (f (bf_w d) (so_tx (rd_inner (bf_r d)))) as [[y w] k].
  intros E. inversion E; subst. cbn. tauto.
Qed.

(** ** The server *)

Definition as_conn (s : stream) (b : bconn) : conn :=
  mk_conn s (bc_parser b) (bf_w (bc_stream b)) (so_tx (rd_inner (bf_r (bc_stream b)))).
Definition capped (b : bconn) : Prop := 0 < rd_cap (bf_r (bc_stream b)).

Lemma b_read_request_ok dbg b rr b' s' : capped b -> b_read_request size dbg b = (rr, b') -> input_of s' (bc_stream b') ->
  outside (bc_stream b') = outside (bc_stream b) /\
  exists s, input_of s (bc_stream b) /\ read_request dbg s (bc_parser b) = (rr, s', bc_parser b').
Proof.
  intros Hc E I. unfold b_read_request in E.
  destruct (b_req_parse size dbg (match bc_parser b with Some st => st | None => req_new end) (bc_stream b)) as [a d] eqn:Ep.
  assert (Ed : bc_stream b' = d) by (destruct a as [r|st k|e|]; try destruct k; inversion E; auto).
  rewrite Ed in *. destruct (b_req_ok size size_pos _ _ _ _ _ s' Hc Ep I) as (O & s & I' & H).
  split; auto. exists s. split; auto. unfold read_request. rewrite H.
  destruct a as [r|st k|e|]; try destruct k; inversion E; subst; auto.
Qed.

Lemma b_read_request_mu dbg b rr b' : b_read_request size dbg b = (rr, b') ->
  (bf_mu (bc_stream b') <= bf_mu (bc_stream b))%nat /\
  (forall r, rr = Ready r -> bc_parser b' = None /\ (bc_parser b = None -> (bf_mu (bc_stream b') < bf_mu (bc_stream b))%nat)).
Proof.
  intros E. unfold b_read_request in E.
  destruct (b_req_parse size dbg (match bc_parser b with Some st => st | None => req_new end) (bc_stream b)) as [a d] eqn:Ep.
  assert (Ed : bc_stream b' = d) by (destruct a as [r|st k|e|]; try destruct k; inversion E; auto).
  rewrite Ed. split; [apply (b_req_mu size size_pos _ _ _ _ _ Ep)|].
  intros r ->. destruct a as [r0|st k|e|]; try (destruct k; try destruct (is_closed _ _)); try destruct (is_closed _ _); inversion E; subst; cbn.
  split; auto. intros Hn. rewrite Hn in Ep. apply (b_req_done size size_pos _ _ _ _ Ep).
Qed.

Lemma b_run_ops_ok ops b x b' : b_run_ops ops b = (x, b') ->
  run_ops (bf_w (bc_stream b)) (so_tx (rd_inner (bf_r (bc_stream b)))) ops = (x, bf_w (bc_stream b'), so_tx (rd_inner (bf_r (bc_stream b')))) /\
  bc_parser b' = bc_parser b /\ (capped b -> capped b') /\ bf_mu (bc_stream b') = bf_mu (bc_stream b) /\
  forall s, input_of s (bc_stream b') <-> input_of s (bc_stream b).
Proof.
  unfold b_run_ops, capped. destruct (bf_write (fun w k => run_ops w k ops) (bc_stream b)) as [y d] eqn:E.
  apply bf_write_parts in E as (H1 & H2 & H3 & H4). intros E. inversion E; subst. cbn. repeat split; auto; try apply H4. congruence.
Qed.

Lemma outside_parts {W} (d d' : buffered W) : outside d' = outside d ->
  bf_w d' = bf_w d /\ so_tx (rd_inner (bf_r d')) = so_tx (rd_inner (bf_r d)) /\ rd_cap (bf_r d') = rd_cap (bf_r d).
Proof. unfold outside. intros H. inversion H. auto. Qed.

Lemma b_respond_ok dbg rt n : forall log b vd log' b', capped b -> b_respond n size dbg rt log b = (vd, log', b') ->
  capped b' /\ forall s', input_of s' (bc_stream b') ->
    exists s, input_of s (bc_stream b) /\ respond n dbg rt log (as_conn s b) = (vd, log', as_conn s' b').
Proof.
  induction n as [|n IH]; intros log b vd log' b' Hc E; cbn [b_respond] in E.
  { inversion E; subst. split; auto. intros s' I. exists s'. split; auto. }
  destruct (b_read_request size dbg b) as [rr b1] eqn:Er.
  assert (C1 : capped b1).
  { destruct (input_exists (bc_stream b1)) as (s1 & I1). destruct (b_read_request_ok _ _ _ _ _ Hc Er I1) as (O & _).
    apply outside_parts in O as (_ & _ & O). unfold capped in *. congruence. }
  assert (Back : forall s1, input_of s1 (bc_stream b1) -> exists s, input_of s (bc_stream b) /\
     read_request dbg s (bc_parser b) = (rr, s1, bc_parser b1) /\ bf_w (bc_stream b1) = bf_w (bc_stream b) /\
     so_tx (rd_inner (bf_r (bc_stream b1))) = so_tx (rd_inner (bf_r (bc_stream b)))).
  { intros s1 I1. destruct (b_read_request_ok _ _ _ _ _ Hc Er I1) as (O & s & I & H). apply outside_parts in O as (O1 & O2 & _). eauto. }
  clear Er.
  assert (Err : rr <> Closed -> (exists e, rr = ParseErr e) \/ (exists k, rr = IoErr k) ->
    (let (_, c1) := b_run_ops error_ops b1 in (Close, log, c1)) = (vd, log', b') ->
    capped b' /\ forall s', input_of s' (bc_stream b') ->
    exists s, input_of s (bc_stream b) /\ respond (S n) dbg rt log (as_conn s b) = (vd, log', as_conn s' b')).
  { intros _ Hr X. destruct (b_run_ops error_ops b1) as [y b2] eqn:Eo. inversion X; subst.
    apply b_run_ops_ok in Eo as (O1 & O2 & O3 & _ & O4). split; auto. intros s' I. apply O4 in I.
    destruct (Back s' I) as (s & I' & H & W1 & T1). exists s. split; auto.
    cbn [respond]. unfold as_conn. cbn [cn_in cn_parser cn_w cn_sock]. rewrite H, <- W1, <- T1, O1, O2.
    destruct Hr as [(e & ->)|(k & ->)]; auto. }
  destruct rr as [|r|e|k| |].
  - inversion E; subst. split; auto. intros s' I. destruct (Back s' I) as (s & I' & H & W1 & T1). exists s. split; auto.
    cbn [respond]. unfold as_conn. cbn [cn_in cn_parser cn_w cn_sock]. rewrite H, W1, T1. auto.
  - assert (Go : forall l, l <> LPanic ->
      match b_run_ops (result_ops l) b1 with
      | (WErr _, c1) => (Close, log ++ [r], c1)
      | (WOk _, c1) => if should_close_after_response r then (Close, log ++ [r], c1) else b_respond n size dbg rt (log ++ [r]) c1
      end = (vd, log', b') ->
      capped b' /\ forall s', input_of s' (bc_stream b') ->
      exists s, input_of s (bc_stream b) /\
        (let '(rr, s1, p1) := read_request dbg s (bc_parser b) in
        match rr with Ready r => 
        match run_ops (bf_w (bc_stream b)) (so_tx (rd_inner (bf_r (bc_stream b)))) (result_ops l) with
        | (wr, w1, k1) =>
            let c1 := mk_conn s1 p1 w1 k1 in
            match wr with
            | WErr _ => (Close, log ++ [r], c1)
            | WOk _ => if should_close_after_response r then (Close, log ++ [r], c1) else respond n dbg rt (log ++ [r]) c1
            end
        end | _ => (Keep, log, as_conn s b) end) = (vd, log', as_conn s' b') /\ exists s1, read_request dbg s (bc_parser b) = (Ready r, s1, bc_parser b1)).
    { intros l Hl X. destruct (b_run_ops (result_ops l) b1) as [[u|k] b2] eqn:Eo.
      - apply b_run_ops_ok in Eo as (O1 & O2 & O3 & _ & O4). destruct (should_close_after_response r) eqn:Ec.
        + inversion X; subst. split; auto. intros s' I. apply O4 in I. destruct (Back s' I) as (s & I' & H & W1 & T1). exists s. split; auto.
          rewrite H, <- W1, <- T1, O1, Ec, <- O2. split; [reflexivity|eauto].
        + destruct (IH _ _ _ _ _ (O3 C1) X) as (C' & K). split; auto. intros s' I. destruct (K s' I) as (s2 & I2 & R2).
          apply O4 in I2. destruct (Back s2 I2) as (s & I' & H & W1 & T1). exists s. split; auto.
          rewrite H, <- W1, <- T1, O1, Ec. split; [|eauto]. rewrite <- R2. unfold as_conn. rewrite O2. reflexivity.
      - apply b_run_ops_ok in Eo as (O1 & O2 & O3 & _ & O4).
        inversion X; subst. split; auto. intros s' I. apply O4 in I. destruct (Back s' I) as (s & I' & H & W1 & T1). exists s. split; auto.
        rewrite H, <- W1, <- T1, O1, <- O2. split; [reflexivity|eauto]. }
    assert (Fin : forall l, l <> LPanic -> rt log r = l -> capped b' /\ forall s', input_of s' (bc_stream b') ->
      exists s, input_of s (bc_stream b) /\ respond (S n) dbg rt log (as_conn s b) = (vd, log', as_conn s' b')).
    { intros l Hl El. destruct (Go l Hl) as (C' & K); [rewrite El in E; destruct l; auto; congruence|].
      split; auto. intros s' I. destruct (K s' I) as (s & I' & H & s1 & H1). exists s. split; auto.
      cbn [respond]. unfold as_conn in *. cbn [cn_in cn_parser cn_w cn_sock] in *. rewrite H1 in H |- *. rewrite El.
      destruct l; try congruence; exact H. }
    destruct (rt log r) as [|resp|] eqn:El; [apply (Fin LNext); auto; discriminate|apply (Fin (LSend resp)); auto; discriminate|].
    inversion E; subst. split; auto. intros s' I. destruct (Back s' I) as (s & I' & H & W1 & T1). exists s. split; auto.
    cbn [respond]. unfold as_conn. cbn [cn_in cn_parser cn_w cn_sock]. rewrite H, W1, T1, El. auto.
  - apply Err; eauto; discriminate.
  - apply Err; eauto; discriminate.
  - inversion E; subst. split; auto. intros s' I. destruct (Back s' I) as (s & I' & H & W1 & T1). exists s. split; auto.
    cbn [respond]. unfold as_conn. cbn [cn_in cn_parser cn_w cn_sock]. rewrite H, W1, T1. auto.
  - inversion E; subst. split; auto. intros s' I. destruct (Back s' I) as (s & I' & H & W1 & T1). exists s. split; auto.
    cbn [respond]. unfold as_conn. cbn [cn_in cn_parser cn_w cn_sock]. rewrite H, W1, T1. auto.
Qed.

(** Enough iterations. *)
Definition b_need (b : bconn) : nat := bf_mu (bc_stream b) + match bc_parser b with None => 0 | Some _ => 1 end.

Lemma b_respond_fuel dbg rt n1 : forall n2 log b, (b_need b < n1)%nat -> (b_need b < n2)%nat ->
  b_respond n1 size dbg rt log b = b_respond n2 size dbg rt log b.
Proof.
  induction n1 as [|n1 IH]; intros [|n2] log b H1 H2; try lia. cbn [b_respond].
  destruct (b_read_request size dbg b) as [rr b1] eqn:Er. apply b_read_request_mu in Er as (M1 & M2).
  destruct rr as [|r|e|k| |]; auto. destruct (M2 r eq_refl) as (P1 & P2).
  assert (Hb1 : (b_need b1 < n1 /\ b_need b1 < n2)%nat).
  { unfold b_need in *. rewrite P1. destruct (bc_parser b); [|specialize (P2 eq_refl)]; lia. }
  destruct (rt log r) as [|resp|]; auto.
  - destruct (b_run_ops (result_ops LNext) b1) as [[u|k] b2] eqn:Eo; auto. destruct (should_close_after_response r); auto.
    apply b_run_ops_ok in Eo as (_ & O2 & _ & O3 & _). apply IH; unfold b_need in *; rewrite O2, O3; lia.
  - destruct (b_run_ops (result_ops (LSend resp)) b1) as [[u|k] b2] eqn:Eo; auto. destruct (should_close_after_response r); auto.
    apply b_run_ops_ok in Eo as (_ & O2 & _ & O3 & _). apply IH; unfold b_need in *; rewrite O2, O3; lia.
Qed.

Lemma s_req_done dbg s q s' : req_parse dbg req_new s = (PDone q, s') -> (mu s' < mu s)%nat.
Proof.
  rewrite <- g_request_model. unfold g_req_parse, g_msg_parse, req_new.
  destruct (g_msg_loop stream fill consume read_some (fun _ => USIZE_MAX) mu mu 4 parse_request_line dbg false (MFirst []) [] s) as [[y ls1] r1] eqn:E1.
  intros E. destruct y as [[[[? ?] ?] ?]|? ?|?|]; inversion E; subst.
  apply (msg_start_m _ _ _ _ (fun _ => USIZE_MAX) mu mu max_pos fill_err_mu fill_ok_mu read_err_mu read_ok_mu mu) in E1. auto.
Qed.

Lemma s_req_mu dbg st s a s' : req_parse dbg st s = (a, s') -> (mu s' <= mu s)%nat.
Proof.
  rewrite <- g_request_model.
  apply (req_parse_m _ _ _ _ (fun _ => USIZE_MAX) mu mu max_pos fill_err_mu fill_ok_mu read_err_mu read_ok_mu mu).
Qed.

Lemma respond_fuel dbg rt n1 : forall n2 log c,
  (mu (cn_in c) + match cn_parser c with None => 0 | Some _ => 1 end < n1)%nat ->
  (mu (cn_in c) + match cn_parser c with None => 0 | Some _ => 1 end < n2)%nat ->
  respond n1 dbg rt log c = respond n2 dbg rt log c.
Proof.
  induction n1 as [|n1 IH]; intros [|n2] log c H1 H2; try lia. cbn [respond].
  destruct (read_request dbg (cn_in c) (cn_parser c)) as [[rr s1] p1] eqn:Er.
  destruct rr as [|r|e|k| |]; auto.
  assert (H : p1 = None /\ (mu s1 < n1 /\ mu s1 < n2)%nat).
  { unfold read_request in Er. destruct (req_parse dbg (match cn_parser c with Some st => st | None => req_new end) (cn_in c)) as [a s0] eqn:Ep.
    assert (s0 = s1 /\ p1 = None /\ exists q, a = PDone q) as (-> & -> & q & ->).
    { destruct a as [q|st k|e|]; try (destruct k; try destruct (is_closed _ _)); try destruct (is_closed _ _); inversion Er; subst; eauto. }
    split; auto. pose proof (s_req_mu _ _ _ _ _ Ep). destruct (cn_parser c); [lia|]. apply s_req_done in Ep. lia. }
  destruct H as (-> & H3 & H4).
  destruct (rt log r) as [|resp|]; auto; destruct (run_ops _ _ _) as [[[u|k] w1] k1]; auto;
    destruct (should_close_after_response r); auto; apply IH; cbn [cn_in cn_parser]; lia.
Qed.

(** *** the handler *)

Definition as_slot (s : stream) (st : bslot) : slot :=
  match st with BOpen b => Open (as_conn s b) | BGone x => Gone x | BPoisoned x => Poisoned x end.
Definition slot_capped (st : bslot) : Prop := match st with BOpen b => capped b | _ => True end.
Definition slot_input (s : stream) (st : bslot) : Prop := match st with BOpen b => input_of s (bc_stream b) | _ => True end.

Lemma slot_input_exists st : exists s, slot_input s st.
Proof. destruct st as [b| |]; [apply input_exists|exists []; exact I|exists []; exact I]. Qed.

Lemma arm_parts v b : bc_parser (arm v b) = bc_parser b /\ capped (arm v b) = capped b /\
  bf_w (bc_stream (arm v b)) = bf_w (bc_stream b) /\
  so_tx (rd_inner (bf_r (bc_stream (arm v b)))) = mk_sock (v_events v) (v_flushes v) (sk_sent (so_tx (rd_inner (bf_r (bc_stream b))))) /\
  forall s, input_of s (bc_stream (arm v b)) <-> input_of s (bc_stream b).
Proof. repeat split; auto. Qed.

Lemma b_handle_ok dbg rt v log st log' st' : slot_capped st -> b_handle size dbg rt v log st = (log', st') ->
  slot_capped st' /\ forall s', slot_input s' st' ->
    exists s, slot_input s st /\ handle dbg rt v log (as_slot s st) = (log', as_slot s' st').
Proof.
  intros Hc E. destruct st as [b|x|x]; cbn [b_handle] in E; [|inversion E; subst; split; [exact I|intros s' I; exists s'; auto]..].
  unfold b_flush in E. destruct (bf_write wr_flush (bc_stream (arm v b))) as [x d] eqn:Ef.
  destruct (arm_parts v b) as (A1 & A2 & A3 & A4 & A5).
  apply bf_write_parts in Ef as (F1 & F2 & F3 & F4). rewrite A3, A4 in F1.
  cbn [slot_capped] in Hc. assert (Hc2 : capped (arm v b)) by (rewrite A2; auto).
  destruct x as [u|k].
  - destruct (b_respond (S (S (bf_mu (bc_stream (mk_bconn d (bc_parser (arm v b)))))) ) size dbg rt log (mk_bconn d (bc_parser (arm v b)))) as [[vd l1] b1] eqn:Er.
    set (b0 := mk_bconn d (bc_parser (arm v b))) in *.
    assert (C0 : capped b0) by (unfold capped in *; cbn [b0 bc_stream]; congruence).
    assert (El : log' = l1) by (inversion E; auto). subst l1.
    assert (Get : forall s1, input_of s1 (bc_stream b1) -> exists s, input_of s (bc_stream b) /\
       respond_to_requests dbg rt log (mk_conn s (bc_parser b) (bf_w d) (so_tx (rd_inner (bf_r d)))) = (vd, log', as_conn s1 b1)).
    { intros s1 I1. set (n0 := (S (S (bf_mu (bc_stream b0))) + S (S (room (bc_stream b0))))%nat).
      rewrite (b_respond_fuel dbg rt _ n0) in Er; [|unfold b_need, n0; destruct (bc_parser b0); lia|unfold b_need, n0; destruct (bc_parser b0); lia].
      destruct (b_respond_ok dbg rt _ _ _ _ _ _ C0 Er) as (C1 & K). destruct (K s1 I1) as (s & I' & H).
      exists s. split; [apply A5, F4; exact I'|]. unfold respond_to_requests. rewrite <- H. unfold as_conn, b0. cbn [bc_parser bc_stream]. rewrite A1.
      apply input_mu in I'. apply respond_fuel; cbn [cn_in cn_parser]; unfold n0; destruct (bc_parser b); lia. }
    assert (C1 : capped b1) by (apply (b_respond_ok dbg rt _ _ _ _ _ _ C0 Er)).
    split; [inversion E; subst; destruct vd; cbn; auto|]. intros s' I'.
    assert (I1 : exists s1, input_of s1 (bc_stream b1) /\ (vd = Keep -> s1 = s')).
    { inversion E; subst. destruct vd; [exists s'; auto| |]; destruct (input_exists (bc_stream b1)) as (s1 & ?); exists s1; split; auto; discriminate. }
    destruct I1 as (s1 & I1 & K1). destruct (Get s1 I1) as (s & I2 & H). exists s. split; auto.
    cbn [as_slot handle]. unfold as_conn at 1. cbn [cn_w cn_sock cn_in cn_parser]. unfold as_conn. cbn [cn_w cn_sock cn_in cn_parser]. rewrite F1, H.
    inversion E; subst. destruct vd; cbn [as_slot]; auto. rewrite (K1 eq_refl). auto.
  - inversion E; subst. split; [exact I|]. intros s' _. destruct (input_exists (bc_stream b)) as (s & Is). exists s. split; auto.
    cbn [as_slot handle]. unfold as_conn. cbn [cn_w cn_sock cn_in cn_parser]. rewrite F1. reflexivity.
Qed.

Lemma b_visits_ok dbg rt vs : forall log st log' st', slot_capped st -> b_visits size dbg rt vs log st = (log', st') ->
  forall s', slot_input s' st' -> exists s, slot_input s st /\ visits dbg rt vs log (as_slot s st) = (log', as_slot s' st').
Proof.
  induction vs as [|v vs IH]; intros log st log' st' Hc E s' I; cbn [b_visits visits] in *.
  - inversion E; subst. eauto.
  - destruct (b_handle size dbg rt v log st) as [l1 st1] eqn:Eh.
    destruct (b_handle_ok _ _ _ _ _ _ _ Hc Eh) as (C1 & K). destruct (IH _ _ _ _ C1 E s' I) as (s1 & I1 & H1).
    destruct (K s1 I1) as (s & I0 & H0). exists s. split; auto. rewrite H0. auto.
Qed.

(** What can be seen of a connection. *)
Theorem b_visits_model dbg rt vs rx log' st' :
  b_visits size dbg rt vs [] (BOpen (bconn_new (mk_socket rx (mk_sock [] [] [])))) = (log', st') ->
  exists s s', recut s rx /\ slot_input s' st' /\ visits dbg rt vs [] (Open (conn_new s)) = (log', as_slot s' st').
Proof.
  intros E. destruct (slot_input_exists st') as (s' & I').
  destruct (b_visits_ok dbg rt vs _ _ _ _ (eq_refl : slot_capped (BOpen (bconn_new (mk_socket rx (mk_sock [] [] []))))) E s' I') as (s & I0 & H).
  exists s, s'. split; auto.
Qed.

(** ** The client *)

(** A stream of Model/Client.v that is this one, its input cut in some way. *)
Definition like (c : cstream) (d : buffered bytes) : Prop :=
  cs_held c = bf_w d /\ cs_sock c = so_tx (rd_inner (bf_r d)) /\ input_of (cs_in c) d.
Definition ccapped (d : buffered bytes) : Prop := 0 < rd_cap (bf_r d).

Lemma like_exists d : exists c, like c d.
Proof. destruct (input_exists d) as (s & I). exists (mk_cstream s (bf_w d) (so_tx (rd_inner (bf_r d)))). repeat split; auto. Qed.

Lemma b_send_ok dbg d q r d' : ccapped d -> b_send_request size dbg d q = (r, d') ->
  ccapped d' /\ forall c', like c' d' -> exists c, like c d /\ send_request dbg c q = (r, c').
Proof.
  intros Hc E. unfold b_send_request in E.
  destruct (bf_write (fun buf k => put_pieces buf k (request_pieces q)) d) as [x d1] eqn:Ew.
  apply bf_write_parts in Ew as (W1 & W2 & W3 & W4). unfold ccapped in *.
  destruct x as [u|k].
  - destruct (b_resp_parse size dbg resp_new d1) as [a d2] eqn:Ep.
    assert (d2 = d') by (inversion E; auto). subst d2.
    assert (C1 : 0 < rd_cap (bf_r d1)) by congruence.
    assert (O : outside d' = outside d1).
    { destruct (input_exists d') as (s' & I'). apply (b_resp_ok size size_pos _ _ _ _ _ s' C1 Ep I'). }
    apply outside_parts in O as (O1 & O2 & O3). split; [congruence|].
    intros c' (L1 & L2 & L3). destruct (b_resp_ok size size_pos _ _ _ _ _ _ C1 Ep L3) as (_ & s & I & H).
    exists (mk_cstream s (bf_w d) (so_tx (rd_inner (bf_r d)))). split; [repeat split; auto; apply W4; auto|].
    unfold send_request, put_request. cbn [cs_held cs_sock cs_in]. rewrite W1. cbn [cs_held cs_sock cs_in]. rewrite H.
    inversion E; subst. destruct c' as [ci ch ck]. cbn in *. subst. rewrite O1, O2. reflexivity.
  - inversion E; subst. split; [congruence|]. intros c' (L1 & L2 & L3).
    exists (mk_cstream (cs_in c') (bf_w d) (so_tx (rd_inner (bf_r d)))). split; [repeat split; auto; apply W4; auto|].
    unfold send_request, put_request. cbn [cs_held cs_sock cs_in]. rewrite W1. destruct c' as [ci ch ck]. cbn in *. subst. reflexivity.
Qed.

(** The network, and a connection. *)
Definition like_sock (x : ekind + cstream) (y : ekind + socket) : Prop :=
  match x, y with
  | inl k, inl k' => k = k'
  | inr c, inr s => cs_held c = [] /\ cs_sock c = so_tx s /\ recut (cs_in c) (so_rx s)
  | _, _ => False
  end.
Definition like_net (n : net) (m : bnet) : Prop := Forall2 like_sock n m.
Definition like_conn (c : cconn) (b : bcconn) : Prop :=
  match cc_stream c, bcc_stream b with Some s, Some d => like s d | None, None => True | _, _ => False end /\
  Forall2 like (cc_dropped c) (bcc_dropped b).
Definition conn_capped (b : bcconn) : Prop := match bcc_stream b with Some d => ccapped d | None => True end.

Lemma like_conn_exists b : exists c, like_conn c b.
Proof.
  destruct b as [o l]. assert (D : exists cs, Forall2 like cs l).
  { induction l as [|d l (cs & IH)]; [exists []; auto|]. destruct (like_exists d) as (c & H). exists (c :: cs). auto. }
  destruct D as (cs & D). destruct o as [d|].
  - destruct (like_exists d) as (c & H). exists (mk_cconn (Some c) cs). split; auto.
  - exists (mk_cconn None cs). split; cbn; auto.
Qed.

Lemma like_sock_exists y : exists x, like_sock x y.
Proof. destruct y as [k|s]; [exists (inl k); reflexivity|]. exists (inr (mk_cstream (so_rx s) [] (so_tx s))). repeat split. Qed.

Lemma b_create_ok n x n1 : b_create n = (x, n1) -> forall N1, like_net N1 n1 -> forall y, like_sock y x ->
  exists N, like_net N n /\ create N = (y, N1).
Proof.
  unfold b_create. intros E N1 L1 y Ly.
  assert (T : forall n x n1, b_tcp_connect n = (x, n1) -> forall N1, like_net N1 n1 -> forall y, like_sock y x -> exists N, like_net N n /\ tcp_connect N = (y, N1)).
  { clear. intros n x n1 E N1 L1 y Ly. destruct n as [|r n]; cbn in E; inversion E; subst.
    - inversion L1; subst. destruct y; cbn in Ly; [|contradiction]. subst. exists []. split; [constructor|auto].
    - exists (y :: N1). split; auto. constructor; auto. }
  destruct (b_tcp_connect n) as [x0 n0] eqn:E0. destruct x0 as [k|s].
  - destruct (T _ _ _ E _ L1 _ Ly) as (N0 & LN0 & H0).
    destruct (T _ _ _ E0 _ LN0 (inl k) eq_refl) as (N & LN & H). exists N. split; auto. unfold create. rewrite H. auto.
  - inversion E; subst. destruct (T _ _ _ E0 _ L1 _ Ly) as (N & LN & H). exists N. split; auto. unfold create. rewrite H.
    destruct y; cbn in Ly; [contradiction|auto].
Qed.

Lemma b_drop_ok o c1 : like c1 (b_drop_stream o) -> exists c, like c o /\ drop_stream c = c1.
Proof.
  unfold b_drop_stream. destruct (bf_write bw_flush_buf o) as [x d] eqn:E. cbn [snd].
  apply bf_write_parts in E as (W1 & W2 & W3 & W4). intros (L1 & L2 & L3).
  exists (mk_cstream (cs_in c1) (bf_w o) (so_tx (rd_inner (bf_r o)))). split; [repeat split; auto; apply W4; auto|].
  unfold drop_stream. cbn [cs_held cs_sock cs_in]. rewrite W1. destruct c1. cbn in *. congruence.
Qed.

Lemma b_connect_ok z n b e n1 b1 : conn_capped b -> b_connect z n b = (e, n1, b1) ->
  conn_capped b1 /\ (e = None -> exists d, bcc_stream b1 = Some d) /\
  forall N1 C1, like_net N1 n1 -> like_conn C1 b1 -> exists N C, like_net N n /\ like_conn C b /\ connect z N C = (e, N1, C1).
Proof.
  intros Hc E. unfold b_connect in E. destruct (b_create n) as [[k|s] n0] eqn:Ec.
  - inversion E; subst. split; auto. split; [discriminate|]. intros N1 C1 LN LC.
    destruct (b_create_ok _ _ _ Ec _ LN (inl k) eq_refl) as (N & LN' & H). exists N, C1. repeat split; auto; try apply LC.
    unfold connect. rewrite H. auto.
  - destruct z.
    + inversion E; subst. split; auto. split; [discriminate|]. intros N1 C1 LN LC.
      destruct (like_sock_exists (inr s)) as (y & Ly). destruct (b_create_ok _ _ _ Ec _ LN y Ly) as (N & LN' & H).
      exists N, C1. repeat split; auto; try apply LC. unfold connect. rewrite H. destruct y; [cbn in Ly; contradiction|auto].
    + inversion E; subst. cbn [bcc_stream]. split; [reflexivity|]. split; [eauto|]. intros N1 C1 LN [LC1 LC2]. cbn [bcc_stream bcc_dropped] in *.
      destruct C1 as [[cs|] cd]; cbn [cc_stream cc_dropped] in *; [|contradiction]. destruct LC1 as (K1 & K2 & K3).
      destruct (b_create_ok _ _ _ Ec _ LN (inr cs)) as (N & LN' & H); [repeat split; auto|].
      apply Forall2_app_inv_r in LC2 as (cd1 & cd2 & F1 & F2 & ->).
      destruct (bcc_stream b) as [o|] eqn:Eo.
      * inversion F2 as [|c1 ? cd3 ? Lk F3]; subst. inversion F3; subst. destruct (b_drop_ok _ _ Lk) as (c & Lc & Dc).
        exists N, (mk_cconn (Some c) cd1). split; auto. split; [split; cbn; [rewrite Eo|]; auto|].
        unfold connect. rewrite H. cbn. rewrite Dc. auto.
      * inversion F2; subst. exists N, (mk_cconn None cd1). split; auto. split; [split; cbn; [rewrite Eo|]; auto|].
        unfold connect. rewrite H. cbn. auto.
Qed.

Lemma b_first_ok dbg b q r b1 : conn_capped b -> b_first_attempt size dbg b q = (r, b1) ->
  conn_capped b1 /\ forall C1, like_conn C1 b1 -> exists C, like_conn C b /\ first_attempt dbg C q = (r, C1).
Proof.
  intros Hc E. unfold b_first_attempt in E. unfold conn_capped in *. destruct (bcc_stream b) as [d|] eqn:Ed.
  - destruct (b_send_request size dbg d q) as [x d1] eqn:Es. inversion E; subst. cbn [bcc_stream].
    destruct (b_send_ok _ _ _ _ _ Hc Es) as (C' & K). split; auto. intros [[c1|] cd] [L1 L2]; cbn [bcc_stream bcc_dropped cc_stream cc_dropped] in *; [|contradiction].
    destruct (K c1 L1) as (c & Lc & H). exists (mk_cconn (Some c) cd). split; [split; cbn; [rewrite Ed|]; auto|].
    unfold first_attempt. cbn. rewrite H. auto.
  - inversion E; subst. rewrite Ed. split; auto. intros C1 L. exists C1. split; auto. destruct L as [L _]. rewrite Ed in L.
    unfold first_attempt. destruct (cc_stream C1); [contradiction|auto].
Qed.

Lemma b_conn_send_ok dbg z n b q r n' b' : conn_capped b -> b_conn_send size dbg z n b q = (r, n', b') ->
  conn_capped b' /\ forall N' C', like_net N' n' -> like_conn C' b' ->
    exists N C, like_net N n /\ like_conn C b /\ conn_send dbg z N C q = (r, N', C').
Proof.
  intros Hc E. unfold b_conn_send in E.
  destruct (match bcc_stream b with None => b_connect z n b | Some _ => (None, n, b) end) as [[e n1] b1] eqn:E1.
  assert (S1 : conn_capped b1 /\ forall N1 C1, like_net N1 n1 -> like_conn C1 b1 -> exists N C, like_net N n /\ like_conn C b /\
     (match cc_stream C with None => connect z N C | Some _ => (None, N, C) end) = (e, N1, C1)).
  { destruct (bcc_stream b) as [d|] eqn:Ed.
    - inversion E1; subst. split; auto. intros N1 C1 L1 L2. exists N1, C1. repeat split; auto; try apply L2.
      destruct L2 as [L2 _]. rewrite Ed in L2. destruct (cc_stream C1); [auto|contradiction].
    - destruct (b_connect_ok _ _ _ _ _ _ Hc E1) as (C1 & _ & K). split; auto. intros N1 C1' L1 L2.
      destruct (K N1 C1' L1 L2) as (N & C & LN & LC & H). exists N, C. repeat split; auto; try apply LC.
      destruct LC as [LC _]. rewrite Ed in LC. destruct (cc_stream C); [contradiction|auto]. }
  destruct S1 as (C1 & K1). destruct e as [e|].
  { inversion E; subst. split; auto. intros N' C' LN LC. destruct (K1 N' C' LN LC) as (N & C & LN1 & LC1 & H).
    exists N, C. repeat split; auto; try apply LC1. unfold conn_send. rewrite H. auto. }
  destruct (b_first_attempt size dbg b1 q) as [r2 b2] eqn:E2. destruct (b_first_ok _ _ _ _ _ C1 E2) as (C2 & K2).
  assert (Simple : (exists v, r2 = COk v) \/ r2 = CPanic -> (r2, n1, b2) = (r, n', b') ->
    conn_capped b' /\ forall N' C', like_net N' n' -> like_conn C' b' -> exists N C, like_net N n /\ like_conn C b /\ conn_send dbg z N C q = (r, N', C')).
  { intros Hr X. inversion X; subst. split; auto. intros N' C' LN LC. destruct (K2 C' LC) as (Ca & La & Ha).
    destruct (K1 N' Ca LN La) as (N & C & LN1 & LC1 & H). exists N, C. split; auto. split; auto. unfold conn_send. rewrite H, Ha.
    destruct Hr as [(v & ->)| ->]; auto. }
  assert (Again : (forall v, r2 <> COk v) -> r2 <> CPanic ->
     match b_connect z n1 b2 with
     | (Some e, n2, c3) => (e, n2, c3)
     | (None, n2, c3) => let (r, c4) := b_first_attempt size dbg c3 q in (r, n2, c4)
     end = (r, n', b') ->
    conn_capped b' /\ forall N' C', like_net N' n' -> like_conn C' b' -> exists N C, like_net N n /\ like_conn C b /\ conn_send dbg z N C q = (r, N', C')).
  { intros Hr1 Hr2 X. destruct (b_connect z n1 b2) as [[e n2] b3] eqn:E3. destruct (b_connect_ok _ _ _ _ _ _ C2 E3) as (C3 & _ & K3).
    destruct e as [e|].
    - inversion X; subst. split; auto. intros N' C' LN LC. destruct (K3 N' C' LN LC) as (Nb & Cb & LNb & LCb & Hb).
      destruct (K2 Cb LCb) as (Ca & La & Ha). destruct (K1 Nb Ca LNb La) as (N & C & LN1 & LC1 & H).
      exists N, C. split; auto. split; auto. unfold conn_send. rewrite H, Ha.
      destruct r2; try congruence; rewrite Hb; auto.
    - destruct (b_first_attempt size dbg b3 q) as [r4 b4] eqn:E4. inversion X; subst. destruct (b_first_ok _ _ _ _ _ C3 E4) as (C4 & K4).
      split; auto. intros N' C' LN LC. destruct (K4 C' LC) as (Cc & Lc & Hc4). destruct (K3 N' Cc LN Lc) as (Nb & Cb & LNb & LCb & Hb).
      destruct (K2 Cb LCb) as (Ca & La & Ha). destruct (K1 Nb Ca LNb La) as (N & C & LN1 & LC1 & H).
      exists N, C. split; auto. split; auto. unfold conn_send. rewrite H, Ha.
      destruct r2; try congruence; rewrite Hb, Hc4; auto. }
  destruct r2; [apply Simple; eauto|apply Again; auto; discriminate..|apply Simple; auto].
Qed.

Lemma b_conn_sends_ok dbg z qs : forall n b rs n' b', conn_capped b -> b_conn_sends size dbg z n b qs = (rs, n', b') ->
  forall N' C', like_net N' n' -> like_conn C' b' -> exists N C, like_net N n /\ like_conn C b /\ conn_sends dbg z N C qs = (rs, N', C').
Proof.
  induction qs as [|q qs IH]; intros n b rs n' b' Hc E N' C' LN LC; cbn [b_conn_sends conn_sends] in *.
  - inversion E; subst. eauto.
  - destruct (b_conn_send size dbg z n b q) as [[r n1] b1] eqn:E1. destruct (b_conn_sends size dbg z n1 b1 qs) as [[rs1 n2] b2] eqn:E2.
    inversion E; subst. destruct (b_conn_send_ok _ _ _ _ _ _ _ _ Hc E1) as (C1 & K1).
    destruct (IH _ _ _ _ _ C1 E2 N' C' LN LC) as (N2 & C2 & LN2 & LC2 & H2).
    destruct (K1 N2 C2 LN2 LC2) as (N & C & LN1 & LC1 & H1). exists N, C. split; auto. split; auto. rewrite H1, H2. auto.
Qed.

Lemma like_net_exists n : exists N, like_net N n.
Proof.
  induction n as [|y n (N & IH)]; [exists []; constructor|]. destruct (like_sock_exists y) as (x & H). exists (x :: N). constructor; auto.
Qed.

(** What a connection returns and sends. *)
Theorem b_conn_sends_model dbg z qs n rs n' b' : b_conn_sends size dbg z n bcconn_new qs = (rs, n', b') ->
  exists N N' C', like_net N n /\ like_net N' n' /\ like_conn C' b' /\ conn_sends dbg z N cconn_new qs = (rs, N', C').
Proof.
  intros E. destruct (like_net_exists n') as (N' & LN'). destruct (like_conn_exists b') as (C' & LC').
  destruct (b_conn_sends_ok dbg z qs _ _ _ _ _ (Logic.I : conn_capped bcconn_new) E N' C' LN' LC') as (N & C & LN & LC & H).
  exists N, N', C'. repeat split; auto; try apply LC'. destruct C as [[c|] l]; destruct LC as [L1 L2]; cbn in *; [contradiction|].
  inversion L2; subst. exact H.
Qed.
End Conns.
