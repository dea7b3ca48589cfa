(** A handler that keeps its connection has used its socket until it blocked, in both directions. *)
From Coq Require Import List NArith Bool Lia ZifyBool ZifyNat ZifyN.
From Verif.Model Require Import Bytes Io Common Parse Encode Writer Server.
From Verif.Spec Require Import Batch Stream Drive Output Session.
From Verif.Proofs Require Import BytesFacts IoFacts ParseFacts DriveFacts CallFacts WriterFacts OpsFacts ServerFacts ConnFacts.
Import ListNotations.
Local Open Scope N_scope.

Lemma run_ops_any ops : forall w s r w' s', wr_inv w -> run_ops w s ops = (r, w', s') ->
  wr_inv w' /\ exists used, sk_events s = used ++ sk_events s'.
Proof.
  assert (All : forall f w s b r w' s', wr_inv w -> write_all_f f w s b = (r, w', s') ->
    wr_inv w' /\ exists used, sk_events s = used ++ sk_events s').
  { induction f as [|f IH]; intros w s b r w' s' I E; cbn [write_all_f] in E; destruct b as [|c b];
      try (inversion E; subst; split; [auto|exists []; reflexivity]; fail).
    destruct (wr_write w s (c :: b)) as [[r1 w1] s1] eqn:Ew. apply wr_write_spec in Ew as (u & d & H1 & _ & _ & I1 & _ & _); auto.
    assert (Next : forall b', write_all_f f w1 s1 b' = (r, w', s') -> wr_inv w' /\ exists used, sk_events s = used ++ sk_events s').
    { intros b' E'. apply IH in E' as (I' & u' & H'); auto. split; auto. exists (u ++ u'). now rewrite H1, H', app_assoc. }
    destruct r1 as [n|k].
    - destruct (n =? 0); [inversion E; subst; eauto|]. eapply Next; eauto.
    - destruct k; try (eapply Next; exact E); inversion E; subst; eauto. }
  induction ops as [|op ops IH]; intros w s r w' s' I E; cbn [run_ops] in E.
  - inversion E; subst. split; [auto|exists []; reflexivity].
  - assert (St : forall r1 w1 s1,
      match op with
      | SAll b => write_all w s b
      | SWrite b => match wr_write w s b with (WOk _, w1, s1) => (WOk tt, w1, s1) | (WErr k, w1, s1) => (WErr k, w1, s1) end
      | SFlush => wr_flush w s
      end = (r1, w1, s1) -> wr_inv w1 /\ exists used, sk_events s = used ++ sk_events s1).
    { intros r1 w1 s1 E1. destruct op as [b|b|].
      - eapply All; [exact I|exact E1].
      - destruct (wr_write w s b) as [[r2 w2] s2] eqn:Ew. apply wr_write_spec in Ew as (u & d & H1 & _ & _ & I1 & _ & _); auto.
        destruct r2; inversion E1; subst; eauto.
      - apply wr_flush_spec in E1 as (u & d & H1 & _ & _ & I1 & _); auto. eauto. }
    destruct (match op with SAll b => write_all w s b | SWrite b => _ | SFlush => wr_flush w s end) as [[r1 w1] s1].
    destruct (St _ _ _ eq_refl) as (I1 & u & H1). destruct r1 as [t|k].
    + apply IH in E as (I' & u' & H'); auto. split; auto. exists (u ++ u'). now rewrite H1, H', app_assoc.
    + inversion E; subst. eauto.
Qed.

(** The writer holds nothing, or the last write on the socket, of those with the results [evs], blocked. *)
Definition write_blocked (evs : list wevent) (w : writer) (s : sock) : Prop :=
  unsent w = [] \/ sk_events s = [] \/ exists u, evs = u ++ WFail WouldBlock :: sk_events s.

Lemma flush_blocked w s t w' s' : wr_inv w -> wr_flush w s = (WOk t, w', s') -> write_blocked (sk_events s) w' s'.
Proof.
  intros I E. apply wr_flush_spec in E as (u & d & H1 & _ & _ & _ & _ & _ & H2); auto.
  destruct H2 as [H|[H|[x H]]]; [now left|right; now left|]. right. right. exists x. rewrite H1, H, <- app_assoc. reflexivity.
Qed.

Lemma run_ops_blocked ops w s w' s' : wr_inv w -> run_ops w s (ops ++ [SFlush]) = (WOk tt, w', s') ->
  write_blocked (sk_events s) w' s'.
Proof.
  intros I E. rewrite run_ops_app in E. destruct (run_ops w s ops) as [[[t|k] w1] s1] eqn:E1; [|discriminate].
  apply run_ops_any in E1 as (I1 & u & H); auto. cbn [run_ops] in E.
  destruct (wr_flush w1 s1) as [[[t2|k] w2] s2] eqn:E2; [|discriminate]. inversion E; subst.
  apply flush_blocked in E2 as [K|[K|[x K]]]; auto; [now left|right; now left|]. right. right. exists (u ++ x). now rewrite H, K, <- app_assoc.
Qed.

(** The results of reads [s], used up to [s'], end with a would-block. *)
Definition read_to_block (s s' : stream) : Prop :=
  s' = [] \/ exists pre, s = pre ++ RErr WouldBlock :: s'.

Lemma takes_block s w s' s2 : takes s w s' -> read_to_block s' s2 -> read_to_block s s2.
Proof.
  intros T [H|[pre H]]; [now left|right]. destruct (takes_shift _ _ _ T _ _ _ H) as (x & E & _). eauto.
Qed.

Lemma read_blocked dbg s p s' p' : parser_fine p -> read_request dbg s p = (NotReady, s', p') ->
  read_to_block s s'.
Proof.
  intros [g Hinv] E. unfold read_request in E.
  set (st := match p with Some st => st | None => req_new end) in *.
  destruct (req_parse dbg st s) as [r0 s0] eqn:Ep.
  destruct (req_parser_ok dbg _ _ _ _ _ Hinv Ep) as (w & Hok).
  destruct r0 as [v|st' k|e|]; try discriminate.
  destruct Hok as (_ & Hs & _).
  assert (k = WouldBlock /\ s' = s0) as [-> ->].
  { destruct k; try (destruct (is_closed _ _)); inversion E; auto. }
  destruct Hs as [[Hs _]|[(Hs & _)|(Hs & _)]]; [|discriminate|discriminate].
  destruct Hs as [Hs|(_ & _ & Hs)]; [|now left]. eapply takes_block; [exact Hs|]. right. exists []. reflexivity.
Qed.

Lemma read_ready dbg s p v s' p' s2 : parser_fine p -> read_request dbg s p = (Ready v, s', p') ->
  read_to_block s' s2 -> read_to_block s s2.
Proof.
  intros [g Hinv] E B. unfold read_request in E.
  set (st := match p with Some st => st | None => req_new end) in *.
  destruct (req_parse dbg st s) as [r0 s0] eqn:Ep.
  destruct (req_parser_ok dbg _ _ _ _ _ Hinv Ep) as (w & Hok).
  destruct r0 as [v0|st' k|e|]; try discriminate.
  2:{ destruct k; try (destruct (is_closed _ _)); discriminate. }
  assert (s' = s0) by congruence. subst. destruct Hok as [(T & _)|(T & n & H)]; [eapply takes_block; eauto|].
  eapply takes_block; [exact T|]. destruct B as [B|[pre B]]; [now left|right]. exists (RData [] :: pre). now rewrite B.
Qed.

Lemma respond_blocked dbg rt f : forall log c evs log' c', parser_fine (cn_parser c) -> wr_inv (cn_w c) ->
  respond f dbg rt log c = (Keep, log', c') ->
  (exists u, evs = u ++ sk_events (cn_sock c)) -> write_blocked evs (cn_w c) (cn_sock c) ->
  read_to_block (cn_in c) (cn_in c') /\ write_blocked evs (cn_w c') (cn_sock c').
Proof.
  induction f as [|f IH]; intros log c evs log' c' Hp I E U B; [discriminate|]. cbn [respond] in E.
  destruct (read_request dbg (cn_in c) (cn_parser c)) as [[r s'] p'] eqn:Er.
  destruct (read_fine _ _ _ _ _ _ Hp Er) as (Hp' & Hr).
  assert (Go : forall v l ops, r = Ready v -> result_ops l = ops ++ [SFlush] ->
    match run_ops (cn_w c) (cn_sock c) (result_ops l) with
      | (wr, w1, k1) =>
          let c1 := mk_conn s' p' w1 k1 in
          match wr with
          | WErr _ => (Close, log ++ [v], c1)
          | WOk _ => if should_close_after_response v then (Close, log ++ [v], c1) else respond f dbg rt (log ++ [v]) c1
          end
      end = (Keep, log', c') ->
    read_to_block (cn_in c) (cn_in c') /\ write_blocked evs (cn_w c') (cn_sock c')).
  { intros v l ops -> Ho E'. clear E. rewrite Ho in E'. destruct (run_ops (cn_w c) (cn_sock c) (ops ++ [SFlush])) as [[wr w1] k1] eqn:Eo. cbn zeta in E'.
    destruct wr as [[]|k]; [|discriminate]. destruct (should_close_after_response v); [discriminate|].
    destruct (run_ops_any _ _ _ _ _ _ I Eo) as (I1 & u1 & H1).
    pose proof (run_ops_blocked _ _ _ _ _ I Eo) as B1.
    apply (IH _ _ evs) in E'; cbn [cn_parser cn_w cn_sock cn_in] in *; [|exact Hp'|exact I1| |].
    - destruct E' as [E1 E2]. split; [exact (read_ready _ _ _ _ _ _ _ Hp Er E1)|exact E2].
    - destruct U as [u U]. exists (u ++ u1). now rewrite U, H1, app_assoc.
    - destruct B1 as [K|[K|[x K]]]; [now left|right; now left|right; right]. destruct U as [u U]. exists (u ++ x). now rewrite U, K, app_assoc. }
  destruct r as [|v|e|k| |]; try discriminate.
  - inversion E; subst. cbn [cn_in cn_w cn_sock]. split; [exact (read_blocked _ _ _ _ _ Hp Er)|exact B].
  - destruct (rt log v) as [|resp|] eqn:Ert; [| |discriminate].
    + destruct (result_flush LNext) as (ops & Ho & _); [discriminate|]. eapply (Go v LNext); eauto.
    + destruct (result_flush (LSend resp)) as (ops & Ho & _); [discriminate|]. eapply (Go v (LSend resp)); eauto.
  - destruct (run_ops _ _ error_ops) as [[wr w1] k1]. discriminate.
  - destruct (run_ops _ _ error_ops) as [[wr w1] k1]. discriminate.
Qed.

Lemma handle_blocked dbg rt v log c log' c' : parser_fine (cn_parser c) -> wr_inv (cn_w c) ->
  handle dbg rt v log (Open c) = (log', Open c') ->
  read_to_block (cn_in c) (cn_in c') /\ write_blocked (v_events v) (cn_w c') (cn_sock c').
Proof.
  intros Hp I E. unfold handle in E.
  destruct (wr_flush (cn_w c) _) as [[[t|k] w1] k1] eqn:Ef; [|discriminate].
  pose proof (flush_blocked _ _ _ _ _ I Ef) as B. cbn [sk_events] in B.
  apply wr_flush_spec in Ef as (u & d & H1 & _ & _ & I1 & _); auto. cbn [sk_events] in H1.
  unfold respond_to_requests in E. destruct (respond _ dbg rt log _) as [[vd log1] c1] eqn:Er.
  destruct vd; try discriminate. inversion E; subst.
  eapply (respond_blocked dbg rt _ log _ (v_events v)) in Er; eauto.
Qed.

(** Connections that can arise. *)
Lemma visits_fine dbg rt vs : forall log c log' c', parser_fine (cn_parser c) -> wr_inv (cn_w c) ->
  visits dbg rt vs log (Open c) = (log', Open c') -> parser_fine (cn_parser c') /\ wr_inv (cn_w c').
Proof.
  assert (R : forall f log c log' c', parser_fine (cn_parser c) -> wr_inv (cn_w c) ->
    respond f dbg rt log c = (Keep, log', c') -> parser_fine (cn_parser c') /\ wr_inv (cn_w c')).
  { induction f as [|f IH]; intros log c log' c' Hp I E; [discriminate|]. cbn [respond] in E.
    destruct (read_request dbg (cn_in c) (cn_parser c)) as [[r s'] p'] eqn:Er.
    destruct (read_fine _ _ _ _ _ _ Hp Er) as (Hp' & _).
    destruct r as [|v|e|k| |]; try discriminate.
    - inversion E; subst. auto.
    - destruct (rt log v) as [|resp|]; [| |discriminate];
        destruct (run_ops _ _ _) as [[wr w1] k1] eqn:Eo; destruct wr as [[]|k]; try discriminate;
        (destruct (should_close_after_response v); [discriminate|]);
        apply run_ops_any in Eo as [I1 _]; auto; apply IH in E; auto.
    - destruct (run_ops _ _ error_ops) as [[wr w1] k1]. discriminate.
    - destruct (run_ops _ _ error_ops) as [[wr w1] k1]. discriminate. }
  induction vs as [|v vs IH]; intros log c log' c' Hp I E; cbn [visits] in E.
  - inversion E; subst. auto.
  - destruct (handle dbg rt v log (Open c)) as [log1 st1] eqn:Eh. destruct st1 as [c1|b|b].
    + apply IH in E; auto.
      * unfold handle in Eh. destruct (wr_flush (cn_w c) _) as [[[t|k] w1] k1] eqn:Ef; [|discriminate].
        apply wr_flush_spec in Ef as (u & d & _ & _ & _ & I1 & _); auto.
        unfold respond_to_requests in Eh. destruct (respond _ dbg rt log _) as [[vd log2] c2] eqn:Er.
        destruct vd; try discriminate. inversion Eh; subst. apply R in Er; auto. tauto.
      * unfold handle in Eh. destruct (wr_flush (cn_w c) _) as [[[t|k] w1] k1] eqn:Ef; [|discriminate].
        apply wr_flush_spec in Ef as (u & d & _ & _ & _ & I1 & _); auto.
        unfold respond_to_requests in Eh. destruct (respond _ dbg rt log _) as [[vd log2] c2] eqn:Er.
        destruct vd; try discriminate. inversion Eh; subst. apply R in Er; auto. tauto.
    + rewrite visits_shut in E by discriminate. discriminate.
    + rewrite visits_shut in E by discriminate. discriminate.
Qed.

(** The socket only gets more. *)
Lemma run_ops_sent ops : forall w s r w' s', wr_inv w -> run_ops w s ops = (r, w', s') ->
  wr_inv w' /\ exists d, sk_sent s' = sk_sent s ++ d.
Proof.
  assert (All : forall f w s b r w' s', wr_inv w -> write_all_f f w s b = (r, w', s') ->
    wr_inv w' /\ exists d, sk_sent s' = sk_sent s ++ d).
  { induction f as [|f IH]; intros w s b r w' s' I E; cbn [write_all_f] in E; destruct b as [|c b];
      try (inversion E; subst; split; [auto|exists []; now rewrite app_nil_r]; fail).
    destruct (wr_write w s (c :: b)) as [[r1 w1] s1] eqn:Ew. apply wr_write_spec in Ew as (u & d & _ & _ & H1 & I1 & _ & _); auto.
    assert (Next : forall b', write_all_f f w1 s1 b' = (r, w', s') -> wr_inv w' /\ exists d, sk_sent s' = sk_sent s ++ d).
    { intros b' E'. apply IH in E' as (I' & u' & H'); auto. split; auto. exists (d ++ u'). now rewrite H', H1, app_assoc. }
    destruct r1 as [n|k].
    - destruct (n =? 0); [inversion E; subst; eauto|]. eapply Next; eauto.
    - destruct k; try (eapply Next; exact E); inversion E; subst; eauto. }
  induction ops as [|op ops IH]; intros w s r w' s' I E; cbn [run_ops] in E.
  - inversion E; subst. split; [auto|exists []; now rewrite app_nil_r].
  - assert (St : forall r1 w1 s1,
      match op with
      | SAll b => write_all w s b
      | SWrite b => match wr_write w s b with (WOk _, w1, s1) => (WOk tt, w1, s1) | (WErr k, w1, s1) => (WErr k, w1, s1) end
      | SFlush => wr_flush w s
      end = (r1, w1, s1) -> wr_inv w1 /\ exists d, sk_sent s1 = sk_sent s ++ d).
    { intros r1 w1 s1 E1. destruct op as [b|b|].
      - eapply All; [exact I|exact E1].
      - destruct (wr_write w s b) as [[r2 w2] s2] eqn:Ew. apply wr_write_spec in Ew as (u & d & _ & _ & H1 & I1 & _ & _); auto.
        destruct r2; inversion E1; subst; eauto.
      - apply wr_flush_spec in E1 as (u & d & _ & H1 & _ & I1 & _); auto. eauto. }
    destruct (match op with SAll b => write_all w s b | SWrite b => _ | SFlush => wr_flush w s end) as [[r1 w1] s1].
    destruct (St _ _ _ eq_refl) as (I1 & d & H1). destruct r1 as [t|k].
    + apply IH in E as (I' & u' & H'); auto. split; auto. exists (d ++ u'). now rewrite H', H1, app_assoc.
    + inversion E; subst. eauto.
Qed.

Lemma respond_sent dbg rt f : forall log c vd log' c', wr_inv (cn_w c) -> respond f dbg rt log c = (vd, log', c') ->
  exists d, sk_sent (cn_sock c') = sk_sent (cn_sock c) ++ d.
Proof.
  induction f as [|f IH]; intros log c vd log' c' I E; cbn [respond] in E.
  - inversion E; subst. exists []. now rewrite app_nil_r.
  - destruct (read_request dbg (cn_in c) (cn_parser c)) as [[r s'] p'] eqn:Er.
    assert (Stop : forall (c0 : conn), c0 = c' -> sk_sent (cn_sock c0) = sk_sent (cn_sock c) -> exists d, sk_sent (cn_sock c') = sk_sent (cn_sock c) ++ d).
    { intros c0 -> H. exists []. now rewrite app_nil_r. }
    destruct r as [|v|e|k| |].
    + inversion E; subst. eapply Stop; reflexivity.
    + destruct (rt log v) as [|resp|] eqn:Ert.
      3:{ inversion E; subst. eapply Stop; reflexivity. }
      all: destruct (run_ops _ _ _) as [[wr w1] k1] eqn:Eo; apply run_ops_sent in Eo as (I1 & d & H1); auto;
        destruct wr as [[]|k]; [destruct (should_close_after_response v)|]; try (inversion E; subst; cbn [cn_sock]; eauto; fail);
        apply IH in E as (d' & H'); auto; cbn [cn_sock] in H'; exists (d ++ d'); now rewrite H', H1, app_assoc.
    + destruct (run_ops _ _ _) as [[wr w1] k1] eqn:Eo. apply run_ops_sent in Eo as (I1 & d & H1); auto. inversion E; subst. cbn [cn_sock]. eauto.
    + destruct (run_ops _ _ _) as [[wr w1] k1] eqn:Eo. apply run_ops_sent in Eo as (I1 & d & H1); auto. inversion E; subst. cbn [cn_sock]. eauto.
    + inversion E; subst. eapply Stop; reflexivity.
    + inversion E; subst. eapply Stop; reflexivity.
Qed.

Lemma handle_sends_first dbg rt v log c n evs log' st' : wr_inv (cn_w c) -> v_events v = WTake n :: evs ->
  handle dbg rt v log (Open c) = (log', st') ->
  exists d, slot_sent st' = sk_sent (cn_sock c) ++ firstn (N.to_nat n) (unsent (cn_w c)) ++ d.
Proof.
  intros I Ev E. unfold handle in E. destruct (wr_flush (cn_w c) _) as [[r w] k] eqn:Ef. pose proof Ef as Ef0.
  apply wr_flush_spec in Ef0 as (_ & _ & _ & _ & _ & I1 & _ & _); auto.
  assert (K : exists d, sk_sent k = sk_sent (cn_sock c) ++ firstn (N.to_nat n) (unsent (cn_w c)) ++ d).
  { unfold wr_flush, flush_buf, write_until_blocked in Ef. cbn [sk_events sk_flushes sk_sent] in Ef. rewrite Ev in Ef.
    change (skipn (N.to_nat (wr_pos (cn_w c))) (wr_buf (cn_w c))) with (unsent (cn_w c)) in Ef.
    destruct (unsent (cn_w c)) as [|x b].
    + rewrite firstn_nil. exists []. cbn [wub] in Ef.
      destruct (len (wr_buf (cn_w c)) <=? wr_pos (cn_w c) + 0); unfold flush_inner in Ef; cbn [sk_flushes] in Ef;
        (destruct (v_flushes v); [inversion Ef; subst; cbn [sk_sent]; now rewrite !app_nil_r|]);
        inversion Ef; subst; cbn [sk_sent]; now rewrite !app_nil_r.
    + cbn [wub] in Ef.
      match type of Ef with context [wub ?a ?f ?s ?bb ?p] => destruct (wub a f s bb p) as [r1 s1] eqn:Ew end.
      apply wub_spec in Ew as (u & d & rest & _ & _ & H3 & _).
      assert (K : firstn (N.to_nat (N.min n (len (x :: b)))) (x :: b) = firstn (N.to_nat n) (x :: b)).
      { destruct (N.le_ge_cases n (len (x :: b))) as [L|L]; [now rewrite N.min_l|]. rewrite N.min_r by assumption.
        rewrite !firstn_all2; auto; unfold len in *; lia. }
      exists d. rewrite app_assoc, <- K, <- H3. destruct r1 as [m|kk].
      * destruct (len (wr_buf (cn_w c)) <=? wr_pos (cn_w c) + m); unfold flush_inner in Ef;
          (destruct (sk_flushes s1); inversion Ef; subst; reflexivity).
      * inversion Ef; subst. reflexivity. }
  destruct r as [t|e].
  - unfold respond_to_requests in E. destruct (respond _ dbg rt log _) as [[vd log1] c1] eqn:Er.
    apply respond_sent in Er as (d' & H'); auto. cbn [cn_sock] in H'. destruct K as [d K].
    exists (d ++ d'). destruct vd; inversion E; subst; cbn [slot_sent]; now rewrite H', K, !app_assoc.
  - inversion E; subst. cbn [slot_sent]. exact K.
Qed.
