(** A connection whose socket takes nothing, or not everything: what its writer keeps. *)
From Coq Require Import List Ascii String Arith NArith Bool Lia.
From Coq Require Import ZifyBool ZifyNat ZifyN.
From Verif.Model Require Import Bytes Io Common Parse Encode Writer Server.
From Verif.Spec Require Import Batch Stream Output Session.
From Verif.Proofs Require Import BytesFacts IoFacts WriterFacts OpsFacts ConnFacts.
Import ListNotations.
Local Open Scope N_scope.

(** The socket only blocks from now on. *)
Definition stuck (s : sock) : Prop := dead (sk_events s) /\ wfine s.
(** The writer has been handed b, and the socket has taken nothing. *)
Definition kept (w : writer) (s : sock) (b : bytes) (w' : writer) (s' : sock) : Prop :=
  stuck s' /\ wr_inv w' /\ wr_buf w' = wr_buf w ++ b /\ wr_pos w' = wr_pos w /\ sk_sent s' = sk_sent s.

Lemma stuck_events s : stuck s -> sk_events s = [] \/ exists evs, sk_events s = WFail WouldBlock :: evs.
Proof.
  intros [D [F _]]. destruct (sk_events s) as [|[n|k] evs] eqn:E; auto.
  - exfalso. apply (D n). now left.
  - right. inversion F; subst. cbn in *. subst k. eauto.
Qed.
Lemma stuck_suffix s s' : suffix s s' -> stuck s -> stuck s'.
Proof.
  intros Sf [D F]. split; [|eapply wfine_suffix; eauto]. destruct Sf as [(a & E) _]. rewrite E in D. eapply dead_suffix; eauto.
Qed.

Lemma kept_nil w s : stuck s -> wr_inv w -> kept w s [] w s.
Proof. intros S I. split; auto. split; auto. rewrite app_nil_r. auto. Qed.
Lemma kept_trans w s a w1 s1 b w2 s2 : kept w s a w1 s1 -> kept w1 s1 b w2 s2 -> kept w s (a ++ b) w2 s2.
Proof. intros (S1 & I1 & B1 & P1 & E1) (S2 & I2 & B2 & P2 & E2). split; auto. split; auto. split; [now rewrite B2, B1, app_assoc|]. split; congruence. Qed.

Lemma wub_stuck s b : stuck s -> exists s', write_until_blocked s b = (WOk 0, s') /\ stuck s' /\ sk_sent s' = sk_sent s.
Proof.
  intros S. unfold write_until_blocked. destruct b as [|c b].
  - cbn [wub]. destruct (sk_events s) eqn:E; cbn [wub]; eexists; (split; [reflexivity|]); (split; [|reflexivity]);
      destruct S as [D F]; split; auto; unfold wfine in *; cbn [sk_events sk_flushes]; rewrite ?E in *; auto.
  - destruct (stuck_events _ S) as [E|(evs & E)]; rewrite E; cbn [wub]; eexists; (split; [reflexivity|]); (split; [|reflexivity]).
    + eapply stuck_suffix; [|exact S]. split; [exists []; rewrite E; reflexivity|exists []; reflexivity].
    + eapply stuck_suffix; [|exact S]. split; [exists [WFail WouldBlock]; rewrite E; reflexivity|exists []; reflexivity].
Qed.

Lemma flush_buf_stuck w s : wr_inv w -> stuck s -> exists s', flush_buf w s = (WOk tt, w, s') /\ stuck s' /\ sk_sent s' = sk_sent s.
Proof.
  intros I S. unfold flush_buf. destruct (wub_stuck s (skipn (N.to_nat (wr_pos w)) (wr_buf w)) S) as (s' & E & S' & Es). rewrite E.
  exists s'. split; auto. rewrite N.add_0_r. destruct I as [[I|[P B]] _].
  - replace (len (wr_buf w) <=? wr_pos w) with false by lia. destruct w; reflexivity.
  - rewrite B, P. destruct w; cbn in *; subst. reflexivity.
Qed.

Lemma append_kept w s b : wr_inv w -> stuck s -> kept w s b (append w b) s.
Proof.
  intros I S. destruct (append_spec w b I) as (I' & _). split; [exact S|]. split; [exact I'|]. repeat split.
Qed.

Lemma write_stuck w s b : wr_inv w -> stuck s -> exists w' s', wr_write w s b = (WOk (len b), w', s') /\ kept w s b w' s'.
Proof.
  intros I S. unfold wr_write. destruct (wr_cap w <? len (wr_buf w) + len b).
  - destruct (flush_buf_stuck w s I S) as (s1 & -> & S1 & E1). destruct ((wr_pos w =? 0) && (wr_cap w <? len b)).
    + destruct (wub_stuck s1 b S1) as (s2 & -> & S2 & E2). eexists _, _. split; [reflexivity|].
      destruct (append_kept w s2 b I S2) as (K1 & K2 & K3 & K4 & _). split; auto. split; auto. split; auto. split; auto. congruence.
    + eexists _, _. split; [reflexivity|]. destruct (append_kept w s1 b I S1) as (K1 & K2 & K3 & K4 & _). split; auto.
  - eexists _, _. split; [reflexivity|]. now apply append_kept.
Qed.

Lemma flush_stuck w s : wr_inv w -> stuck s -> exists w' s', wr_flush w s = (WOk tt, w', s') /\ kept w s [] w' s'.
Proof.
  intros I S. unfold wr_flush. destruct (flush_buf_stuck w s I S) as (s1 & -> & S1 & E1). unfold flush_inner.
  destruct (sk_flushes s1) as [|f fl] eqn:E.
  - eexists _, _. split; [reflexivity|]. split; auto. split; auto. rewrite app_nil_r. auto.
  - destruct S1 as [D [F G]]. rewrite E in G. inversion G as [|? ? [-> | ->] G']; subst; (eexists _, _; split; [reflexivity|]);
      (split; [split; [exact D|split; [exact F|exact G']]|]); (split; [exact I|]); rewrite app_nil_r; auto.
Qed.

Lemma write_all_stuck w s b : wr_inv w -> stuck s -> exists w' s', write_all w s b = (WOk tt, w', s') /\ kept w s b w' s'.
Proof.
  intros I S. destruct b as [|c b].
  - rewrite write_all_nil. eexists _, _. split; [reflexivity|]. now apply kept_nil.
  - destruct (write_stuck w s (c :: b) I S) as (w' & s' & E & K). exists w', s'. split; auto. apply write_all_once; auto. discriminate.
Qed.

Lemma ops_stuck ops : forall w s, wr_inv w -> stuck s -> exists w' s', run_ops w s ops = (WOk tt, w', s') /\ kept w s (payload ops) w' s'.
Proof.
  induction ops as [|op ops IH]; intros w s I S.
  - eexists _, _. split; [reflexivity|]. now apply kept_nil.
  - assert (X : exists w1 s1,
      match op with
      | SAll b => write_all w s b
      | SWrite b => match wr_write w s b with (WOk _, w1, s1) => (WOk tt, w1, s1) | (WErr k, w1, s1) => (WErr k, w1, s1) end
      | SFlush => wr_flush w s
      end = (WOk tt, w1, s1) /\ kept w s (op_data op) w1 s1).
    { destruct op as [b|b|]; cbn [op_data].
      - now apply write_all_stuck.
      - destruct (write_stuck w s b I S) as (w1 & s1 & -> & K). eauto.
      - now apply flush_stuck. }
    destruct X as (w1 & s1 & E & K). cbn [run_ops]. rewrite E.
    destruct (IH w1 s1) as (w2 & s2 & E2 & K2); [apply K|apply K|]. exists w2, s2. split; auto.
    unfold payload. cbn [map List.concat]. eapply kept_trans; eauto.
Qed.

Lemma respond_stuck dbg rt f : forall log c vd log' c', wr_inv (cn_w c) -> stuck (cn_sock c) -> respond f dbg rt log c = (vd, log', c') ->
  exists b, kept (cn_w c) (cn_sock c) b (cn_w c') (cn_sock c').
Proof.
  induction f as [|f IH]; intros log c vd log' c' I S E; cbn [respond] in E.
  - inversion E; subst. exists []. now apply kept_nil.
  - destruct (read_request dbg (cn_in c) (cn_parser c)) as [[rr s'] p']. destruct rr as [|r|e|k| |].
    + inversion E; subst. exists []. now apply kept_nil.
    + destruct (rt log r) as [|resp|].
      * destruct (ops_stuck (result_ops LNext) (cn_w c) (cn_sock c) I S) as (w1 & k1 & E1 & K1). rewrite E1 in E.
        destruct (should_close_after_response r); [inversion E; subst; eauto|]. apply IH in E as (b & K); [|apply K1|apply K1].
        eexists. eapply kept_trans; eauto.
      * destruct (ops_stuck (result_ops (LSend resp)) (cn_w c) (cn_sock c) I S) as (w1 & k1 & E1 & K1). rewrite E1 in E.
        destruct (should_close_after_response r); [inversion E; subst; eauto|]. apply IH in E as (b & K); [|apply K1|apply K1].
        eexists. eapply kept_trans; eauto.
      * inversion E; subst. exists []. now apply kept_nil.
    + destruct (ops_stuck error_ops (cn_w c) (cn_sock c) I S) as (w1 & k1 & E1 & K1). rewrite E1 in E. inversion E; subst. eauto.
    + destruct (ops_stuck error_ops (cn_w c) (cn_sock c) I S) as (w1 & k1 & E1 & K1). rewrite E1 in E. inversion E; subst. eauto.
    + inversion E; subst. exists []. now apply kept_nil.
    + inversion E; subst. exists []. now apply kept_nil.
Qed.

(** A call during which the socket takes nothing. *)
Definition visit_dead (v : visit) : Prop := forall n, ~ In (WTake n) (v_events v).
Lemma handle_dead dbg rt v log c log' c' : conn_fine c -> visit_fine v -> visit_dead v -> handle dbg rt v log (Open c) = (log', Open c') ->
  exists b, wr_inv (cn_w c') /\ wr_buf (cn_w c') = wr_buf (cn_w c) ++ b /\ wr_pos (cn_w c') = wr_pos (cn_w c) /\ sk_sent (cn_sock c') = sk_sent (cn_sock c).
Proof.
  intros (_ & I & _) F D E. cbn [handle] in E.
  assert (S : stuck (mk_sock (v_events v) (v_flushes v) (sk_sent (cn_sock c)))) by (split; [exact D|exact F]).
  destruct (flush_stuck _ _ I S) as (w1 & k1 & E1 & K1). rewrite E1 in E. unfold respond_to_requests in E.
  destruct (respond _ dbg rt log (mk_conn (cn_in c) (cn_parser c) w1 k1)) as [[vd l1] c1] eqn:Er.
  apply respond_stuck in Er as (b & K); [|apply K1|apply K1]. inversion E as [[El Ev]]. destruct vd; try discriminate. inversion Ev; subst.
  pose proof (kept_trans _ _ _ _ _ _ _ _ K1 K) as (X1 & X2 & X3 & X4 & X5). exists b. split; auto.
Qed.

(** A call in which the socket takes a part of what is held, once. *)
Lemma handle_lagging dbg rt n log c log' c' : conn_fine c -> n < len (unsent (cn_w c)) ->
  handle dbg rt (mk_visit [WTake n] []) log (Open c) = (log', Open c') ->
  exists b, wr_inv (cn_w c') /\ wr_buf (cn_w c') = wr_buf (cn_w c) ++ b /\ wr_pos (cn_w c') = wr_pos (cn_w c) + n /\
    len (sk_sent (cn_sock c')) = len (sk_sent (cn_sock c)) + n.
Proof.
  intros (_ & I & _) L E. cbn [handle v_events v_flushes] in E. unfold wr_flush, flush_buf, write_until_blocked in E. cbn [sk_events sk_flushes sk_sent] in E.
  unfold unsent in L. set (u := skipn (N.to_nat (wr_pos (cn_w c))) (wr_buf (cn_w c))) in *.
  assert (Lu : len u + wr_pos (cn_w c) = len (wr_buf (cn_w c)) /\ u <> []).
  { split; [|destruct u; [cbn in L; lia|discriminate]]. unfold u, len in *. rewrite skipn_length in *. lia. }
  destruct u as [|d u'] eqn:Eu; [destruct Lu; congruence|]. rewrite <- Eu in *. destruct Lu as [Lu _].
  assert (Ew : wub [WTake n] [] (sk_sent (cn_sock c)) u 0 =
    (WOk n, mk_sock [] [] (sk_sent (cn_sock c) ++ firstn (N.to_nat n) u))).
  { rewrite Eu. cbn [wub]. rewrite <- Eu. replace (N.min n (len u)) with n by lia.
    destruct (skipn (N.to_nat n) u) as [|y z] eqn:Es; [exfalso; apply (f_equal (@List.length _)) in Es; rewrite skipn_length in Es; cbn in Es; unfold len in L; lia|].
    cbn [wub]. now rewrite N.add_0_l. }
  rewrite Ew in E. replace (len (wr_buf (cn_w c)) <=? wr_pos (cn_w c) + n) with false in E by lia. cbn [flush_inner sk_flushes] in E.
  unfold respond_to_requests in E. set (w1 := mk_writer (wr_buf (cn_w c)) (wr_pos (cn_w c) + n) (wr_cap (cn_w c))) in *.
  set (k1 := mk_sock [] [] (sk_sent (cn_sock c) ++ firstn (N.to_nat n) u)) in *.
  destruct (respond _ dbg rt log (mk_conn (cn_in c) (cn_parser c) w1 k1)) as [[vd l1] c1] eqn:Er.
  assert (I1 : wr_inv w1) by (split; [left; cbn [w1 wr_pos wr_buf]; lia|apply I]).
  assert (S1 : stuck k1) by (split; [intros m []|split; constructor]).
  apply respond_stuck in Er as (b & K); auto. inversion E as [[El Ev]]. destruct vd; try discriminate. inversion Ev; subst.
  destruct K as (X1 & X2 & X3 & X4 & X5). exists b. split; auto. split; auto. split; auto. rewrite X5. cbn [cn_sock k1 sk_sent].
  unfold len in *. rewrite app_length, firstn_length. lia.
Qed.

(** As long as the socket takes nothing, it has taken nothing. *)
Lemma visits_dead dbg rt vs : forall log c log' c', conn_fine c -> Forall visit_fine vs -> Forall visit_dead vs ->
  visits dbg rt vs log (Open c) = (log', Open c') -> wr_pos (cn_w c') = wr_pos (cn_w c) /\ sk_sent (cn_sock c') = sk_sent (cn_sock c).
Proof.
  induction vs as [|v vs IH]; intros log c log' c' Cf F D E; cbn [visits] in E; [inversion E; auto|].
  inversion F; subst. inversion D; subst. destruct (handle dbg rt v log (Open c)) as [l1 [c1|x|x]] eqn:Eh;
    [|rewrite visits_shut in E by discriminate; discriminate|rewrite visits_shut in E by discriminate; discriminate].
  pose proof (handle_dead _ _ _ _ _ _ _ Cf H1 H3 Eh) as (b & _ & _ & P & Q).
  assert (Sd : visit_steady v) by (intros x y n Ex I; apply (H3 n); rewrite Ex; apply in_or_app; right; now right).
  destruct (handle_writes dbg rt v log c l1 _ Cf H1 (or_introl Sd) Eh) as (new & tail & _ & _ & Cf1).
  destruct (IH _ _ _ _ (proj1 Cf1) H2 H4 E) as [P1 Q1]. split; congruence.
Qed.
