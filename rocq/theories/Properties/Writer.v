(** C30, C31, C32, C33, C57: the non-blocking writer. *)
From Coq Require Import List Ascii String NArith ZArith Bool Lia Permutation.
From Coq Require Import ZifyBool ZifyNat ZifyN.
From Verif.Model Require Import Bytes Io Writer.
From Verif.Spec Require Import Output.
From Verif.Proofs Require Import BytesFacts WriterFacts.
Import ListNotations.
Local Open Scope N_scope.

Lemma do_calls_app w sent a b : do_calls w sent (a ++ b) =
  match do_calls w sent a with (rs, w1, s1) =>
    match do_calls w1 s1 b with (rs', w2, s2) => (rs ++ rs', w2, s2) end end.
Proof.
  revert w sent; induction a as [|c a IH]; intros w sent; cbn [do_calls app].
  - destruct (do_calls w sent b) as [[rs' w2] s2]. reflexivity.
  - destruct (do_call w sent c) as [[r w1] s1]. rewrite IH.
    destruct (do_calls w1 s1 a) as [[rs w2] s2]. destruct (do_calls w2 s2 b) as [[rs' w3] s3]. reflexivity.
Qed.

Lemma do_call_inv w sent c r w' sent' : wr_inv w -> do_call w sent c = (r, w', sent') ->
  wr_inv w' /\ wr_cap w <= wr_cap w'.
Proof.
  intros I E. unfold do_call in E. destruct (wc_op c) as [b|].
  - destruct (wr_write _ _ b) as [[r0 w0] s0] eqn:Ew. inversion E; subst.
    apply wr_write_spec in Ew as (u & d & _ & _ & _ & H1 & H2 & _); auto.
  - destruct (wr_flush _ _) as [[[[]|k] w0] s0] eqn:Ew; inversion E; subst;
      apply wr_flush_spec in Ew as (u & d & _ & _ & _ & H1 & H2 & _); auto; split; auto; lia.
Qed.

Lemma do_calls_inv cs : forall w sent rs w' sent', wr_inv w -> do_calls w sent cs = (rs, w', sent') ->
  wr_inv w' /\ wr_cap w <= wr_cap w'.
Proof.
  induction cs as [|c cs IH]; intros w sent rs w' sent' I E; cbn [do_calls] in E.
  - inversion E; subst. split; auto; lia.
  - destruct (do_call w sent c) as [[r w1] s1] eqn:E1. apply do_call_inv in E1 as [I1 C1]; auto.
    destruct (do_calls w1 s1 cs) as [[rs' w2] s2] eqn:E2. inversion E; subst.
    apply IH in E2 as [I2 C2]; auto. split; auto; lia.
Qed.

(** ** C30 *)

(** A write is harmless if it is no larger than the capacity the writer was made with, or if the socket
    does not start to take bytes again, within that write, after it has blocked. *)
Definition harmless (cap : N) (c : wcall) : Prop :=
  match wc_op c with OWrite b => len b <= cap \/ stays_blocked c | OFlush => True end.

Lemma no_failure_write w sent c b r w' s' : wr_inv w -> no_failure c ->
  wr_write w (mk_sock (wc_events c) (wc_flushes c) sent) b = (r, w', s') -> exists n, r = WOk n.
Proof.
  intros I [F _] E. apply wr_write_spec in E as (u & d & _ & _ & _ & _ & _ & H); auto.
  destruct r as [n|k]; [eauto|]. destruct H as (H1 & H2 & _). exfalso. apply H1. eapply fine_fail; eauto.
Qed.

Lemma no_failure_flush w sent c r w' s' : wr_inv w -> no_failure c ->
  wr_flush w (mk_sock (wc_events c) (wc_flushes c) sent) = (r, w', s') -> r = WOk tt.
Proof.
  intros I [F1 F2] E. apply wr_flush_spec in E as (u & d & _ & _ & _ & _ & _ & H); auto.
  destruct r as [[]|k]; auto. destruct H as (H1 & [(H2 & _)|(H2 & _)]); exfalso; apply H1.
  - eapply fine_fail; eauto.
  - rewrite Forall_forall in F2. destruct (F2 _ H2); congruence.
Qed.

Lemma conserved_step cap w sent c r w' sent' : wr_inv w -> cap <= wr_cap w ->
  no_failure c -> harmless cap c -> do_call w sent c = (r, w', sent') ->
  sent' ++ unsent w' = sent ++ unsent w ++ op_bytes c /\ op_ok c r.
Proof.
  intros I C F H E. unfold do_call, op_bytes, op_ok, harmless in *. destruct (wc_op c) as [b|].
  - destruct (wr_write _ _ b) as [[r0 w0] s0] eqn:Ew. inversion E; subst.
    destruct (no_failure_write _ _ _ _ _ _ _ I F Ew) as (n & ->).
    apply wr_write_spec in Ew as (u & d & H1 & _ & H2 & H3 & H4 & -> & H5); auto. cbn [sk_sent] in H2.
    split; [|reflexivity]. rewrite H2, <- app_assoc. f_equal.
    destruct H5 as [H5|(x & y & K1 & K2 & K3 & K4 & K5 & K6 & K7 & K8)]; auto.
    exfalso. destruct H as [H|H]; [lia|]. apply K8. exact H.
  - destruct (wr_flush _ _) as [[r0 w0] s0] eqn:Ew. pose proof (no_failure_flush _ _ _ _ _ _ I F Ew). subst r0.
    inversion E; subst. apply wr_flush_spec in Ew as (u & d & _ & H2 & _ & _ & _ & H5 & _); auto.
    cbn [sk_sent] in H2. split; [|reflexivity]. rewrite H2, app_nil_r, H5, <- app_assoc. reflexivity.
Qed.

(** The bytes the socket has taken, followed by those still held, are the bytes written, in order; and
    every operation succeeds and reports the full length. *)
Theorem C30_conserved : forall cap cs rs w sent,
  Forall no_failure cs -> Forall (harmless cap) cs ->
  do_calls (wr_new cap) [] cs = (rs, w, sent) ->
  sent ++ unsent w = written cs /\ Forall2 op_ok cs rs.
Proof.
  intros cap cs rs w sent F H E.
  assert (G : forall cs w0 sent0 rs w sent, wr_inv w0 -> cap <= wr_cap w0 ->
    Forall no_failure cs -> Forall (harmless cap) cs -> do_calls w0 sent0 cs = (rs, w, sent) ->
    sent ++ unsent w = sent0 ++ unsent w0 ++ written cs /\ Forall2 op_ok cs rs).
  { clear. induction cs as [|c cs IH]; intros w0 sent0 rs w sent I C F H E; cbn [do_calls] in E.
    - inversion E; subst. cbn. rewrite app_nil_r. auto.
    - inversion F; subst. inversion H; subst. destruct (do_call w0 sent0 c) as [[r w1] s1] eqn:E1.
      destruct (do_calls w1 s1 cs) as [[rs' w2] s2] eqn:E2. inversion E; subst.
      pose proof (do_call_inv _ _ _ _ _ _ I E1) as [I1 C1].
      eapply conserved_step in E1 as [K1 K2]; eauto.
      apply IH in E2 as [K3 K4]; auto; [|lia]. split; [|constructor; auto].
      rewrite K3, app_assoc, K1. unfold written. cbn [map List.concat]. now rewrite <- !app_assoc. }
  apply (G cs (wr_new cap) [] rs w sent); auto; [apply wr_new_inv|cbn; lia].
Qed.

(** In particular what the socket has taken is always a prefix of what was written. *)
Theorem C30_prefix : forall cap cs rs w sent,
  Forall no_failure cs -> Forall (harmless cap) cs ->
  do_calls (wr_new cap) [] cs = (rs, w, sent) -> exists rest, written cs = sent ++ rest.
Proof.
  intros cap cs rs w sent F H E. apply C30_conserved in E as [E _]; auto. eauto.
Qed.

(** ** C31 *)

Lemma wub_all fl sent buf n evs pos : len buf <= n ->
  wub (WTake n :: evs) fl sent buf pos =
  (WOk (pos + len buf), mk_sock (match buf with [] => WTake n :: evs | _ => evs end) fl (sent ++ buf)).
Proof.
  intros H. destruct buf as [|c buf]; [cbn; now rewrite N.add_0_r, app_nil_r|].
  cbn [wub]. rewrite N.min_r by assumption. rewrite firstn_full, skipn_full by lia.
  destruct evs; reflexivity.
Qed.

Lemma write_small cap sent a evs fl : len a <= cap ->
  do_call (wr_new cap) sent (mk_wcall (OWrite a) evs fl) = (WOk (len a), mk_writer a 0 cap, sent).
Proof.
  intros H. unfold do_call, wr_write, wr_new. cbn [wc_op wr_cap wr_buf wc_events wc_flushes].
  rewrite len_nil. replace (cap <? 0 + len a) with false by lia. unfold append, vec_cap.
  cbn [wr_buf wr_pos wr_cap app]. change (len []) with 0. replace (0 + len a <=? cap) with true by lia. reflexivity.
Qed.

Lemma unsent_0 b c : unsent (mk_writer b 0 c) = b.
Proof. reflexivity. Qed.

(** Any buffered bytes a can be overtaken by any write b larger than the capacity. *)
Theorem C31_in_order_refuted : forall cap a b,
  a <> [] -> len a <= cap -> cap < len b ->
  exists cs rs w, Forall no_failure cs /\ written cs = a ++ b /\
    do_calls (wr_new cap) [] cs = (rs, w, b ++ a) /\ Forall2 op_ok cs rs /\ unsent w = [].
Proof.
  intros cap a b Ha Hc Hb.
  exists [mk_wcall (OWrite a) [] []; mk_wcall (OWrite b) [WFail WouldBlock; WTake (len b)] [];
          mk_wcall OFlush [WTake (len a)] []].
  exists [WOk (len a); WOk (len b); WOk 0], (mk_writer [] 0 cap).
  split; [repeat constructor|]. split; [unfold written; cbn; now rewrite app_nil_r|]. split.
  - cbn [do_calls]. 
    assert (E1 : do_call (wr_new cap) [] (mk_wcall (OWrite a) [] []) = (WOk (len a), mk_writer a 0 cap, [])).
    { now apply write_small. }
    rewrite E1.
    assert (E2 : do_call (mk_writer a 0 cap) [] (mk_wcall (OWrite b) [WFail WouldBlock; WTake (len b)] []) =
                 (WOk (len b), mk_writer a 0 cap, b)).
    { unfold do_call, wr_write. cbn [wc_op wr_cap wr_buf wc_events wc_flushes].
      replace (cap <? len a + len b) with true by lia. unfold flush_buf, write_until_blocked.
      cbn [wr_pos wr_buf N.to_nat skipn sk_events sk_flushes sk_sent].
      destruct a as [|x a]; [congruence|]. cbn [wub]. rewrite N.add_0_r.
      replace (len (x :: a) <=? 0) with false by (rewrite len_cons; lia). cbn [wr_pos wr_cap].
      replace ((0 =? 0) && (cap <? len b)) with true by lia. cbn [sk_events sk_flushes sk_sent].
      rewrite wub_all by lia. cbn [N.add app sk_sent]. rewrite skipn_full by lia.
      unfold append, vec_cap. cbn [wr_buf wr_pos wr_cap]. rewrite app_nil_r. change (len []) with 0.
      replace (len (x :: a) + 0 <=? cap) with true by lia. reflexivity. }
    rewrite E2.
    assert (E3 : do_call (mk_writer a 0 cap) b (mk_wcall OFlush [WTake (len a)] []) = (WOk 0, mk_writer [] 0 cap, b ++ a)).
    { unfold do_call, wr_flush, flush_buf, write_until_blocked. cbn [wc_op wr_cap wr_buf wc_events wc_flushes wr_pos N.to_nat skipn sk_events sk_flushes sk_sent].
      rewrite wub_all by lia. rewrite !N.add_0_l. replace (len a <=? len a) with true by lia.
      unfold flush_inner. cbn [sk_flushes sk_sent]. reflexivity. }
    rewrite E3. reflexivity.
  - split; [repeat constructor|reflexivity].
Qed.

(** But whatever the socket does short of failing, no byte is lost or sent twice. *)
Theorem C31_only_reordered : forall cap cs rs w sent,
  Forall no_failure cs -> do_calls (wr_new cap) [] cs = (rs, w, sent) ->
  Permutation (sent ++ unsent w) (written cs).
Proof.
  intros cap cs rs w sent F E.
  assert (G : forall cs w0 sent0 rs w sent, wr_inv w0 -> Forall no_failure cs ->
    do_calls w0 sent0 cs = (rs, w, sent) ->
    Permutation (sent ++ unsent w) (sent0 ++ unsent w0 ++ written cs)).
  { clear. induction cs as [|c cs IH]; intros w0 sent0 rs w sent I F E; cbn [do_calls] in E.
    - inversion E; subst. cbn. now rewrite app_nil_r.
    - inversion F as [|? ? F1 F2]; subst. destruct (do_call w0 sent0 c) as [[r w1] s1] eqn:E1.
      destruct (do_calls w1 s1 cs) as [[rs' w2] s2] eqn:E2. inversion E; subst.
      pose proof (do_call_inv _ _ _ _ _ _ I E1) as [I1 _]. apply IH in E2; auto.
      eapply Permutation_trans; [exact E2|]. unfold written. cbn [map List.concat].
      assert (P : Permutation (s1 ++ unsent w1) (sent0 ++ unsent w0 ++ op_bytes c)).
      { unfold do_call, op_bytes in *. destruct (wc_op c) as [b|].
        - destruct (wr_write _ _ b) as [[r0 w'] s'] eqn:Ew. inversion E1; subst.
          destruct (no_failure_write _ _ _ _ _ _ _ I F1 Ew) as (n & ->).
          apply wr_write_spec in Ew as (u & d & _ & _ & H2 & _ & _ & -> & H5); auto. cbn [sk_sent] in H2.
          rewrite H2, <- app_assoc. apply Permutation_app_head.
          destruct H5 as [->|(x & y & -> & K2 & K3 & K4 & K5 & K6 & K7 & K8)]; [apply Permutation_refl|].
          rewrite K7, K2, app_assoc, app_assoc. apply Permutation_app_tail, Permutation_app_comm.
        - destruct (wr_flush _ _) as [[r0 w'] s'] eqn:Ew. pose proof (no_failure_flush _ _ _ _ _ _ I F1 Ew). subst r0.
          inversion E1; subst. apply wr_flush_spec in Ew as (u & d & _ & H2 & _ & _ & _ & H5 & _); auto.
          cbn [sk_sent] in H2. rewrite H2, app_nil_r, H5, <- app_assoc. apply Permutation_refl. }
      rewrite !app_assoc in *. now apply Permutation_app_tail. }
  apply (G cs (wr_new cap) [] rs w sent); auto. apply wr_new_inv.
Qed.

(** ** C32 *)

(** Whatever the socket does, would-block is never reported, and a successful write reports the full
    length. *)
Theorem C32_never_would_block : forall cap cs rs w sent,
  do_calls (wr_new cap) [] cs = (rs, w, sent) ->
  Forall2 (fun c r => op_ok c r \/ exists k, r = WErr k /\ k <> WouldBlock) cs rs.
Proof.
  intros cap cs rs w sent. generalize (@nil byte). generalize (wr_new_inv cap). generalize (wr_new cap).
  revert rs w sent. induction cs as [|c cs IH]; intros rs w sent w0 I sent0 E; cbn [do_calls] in E.
  - inversion E; subst. constructor.
  - destruct (do_call w0 sent0 c) as [[r w1] s1] eqn:E1.
    destruct (do_calls w1 s1 cs) as [[rs' w2] s2] eqn:E2. inversion E; subst.
    pose proof (do_call_inv _ _ _ _ _ _ I E1) as [I1 _]. constructor; [|eapply IH; eauto].
    unfold do_call, op_ok in *. destruct (wc_op c) as [b|].
    + destruct (wr_write _ _ b) as [[r0 w'] s'] eqn:Ew. inversion E1; subst.
      apply wr_write_spec in Ew as (u & d & _ & _ & _ & _ & _ & H); auto.
      destruct r as [n|k]; [left; now destruct H as [-> _]|]. right. destruct H as [H _]. eauto.
    + destruct (wr_flush _ _) as [[[[]|k] w'] s'] eqn:Ew; inversion E1; subst; [now left|].
      apply wr_flush_spec in Ew as (u & d & _ & _ & _ & _ & _ & [H _]); auto. right. eauto.
Qed.

(** A flush on a socket that takes all it is given empties the writer. *)
Theorem C32_flush_drains : forall cap cs rs w sent n evs,
  do_calls (wr_new cap) [] cs = (rs, w, sent) -> len (unsent w) <= n ->
  exists w', do_calls (wr_new cap) [] (cs ++ [mk_wcall OFlush (WTake n :: evs) []]) =
    (rs ++ [WOk 0], w', sent ++ unsent w) /\ unsent w' = [].
Proof.
  intros cap cs rs w sent n evs E H. rewrite do_calls_app, E. cbn [do_calls].
  pose proof (do_calls_inv _ _ _ _ _ _ (wr_new_inv cap) E) as [[I _] _].
  unfold do_call, wr_flush, flush_buf, write_until_blocked. cbn [wc_op wc_events wc_flushes sk_events sk_flushes sk_sent].
  change (skipn (N.to_nat (wr_pos w)) (wr_buf w)) with (unsent w). rewrite wub_all by assumption. rewrite N.add_0_l.
  assert (L : len (unsent w) = len (wr_buf w) - wr_pos w) by (unfold unsent; apply len_skipn).
  replace (len (wr_buf w) <=? wr_pos w + len (unsent w)) with true by lia.
  unfold flush_inner. cbn [sk_flushes sk_sent]. eexists. split; reflexivity.
Qed.

(** If the socket takes at least one byte in each flush, as many flushes as there are bytes left deliver
    them all. *)
Definition takes_one (c : wcall) : Prop :=
  no_failure c /\ wc_op c = OFlush /\ exists n evs, wc_events c = WTake n :: evs /\ 0 < n.

Theorem C32_flushes_deliver : forall cap cs rs w sent fs,
  do_calls (wr_new cap) [] cs = (rs, w, sent) -> Forall takes_one fs -> len (unsent w) <= len fs ->
  exists rs' w', do_calls (wr_new cap) [] (cs ++ fs) = (rs ++ rs', w', sent ++ unsent w) /\ unsent w' = [].
Proof.
  intros cap cs rs w sent fs E F H. rewrite do_calls_app, E.
  pose proof (do_calls_inv _ _ _ _ _ _ (wr_new_inv cap) E) as [I _]. clear E cs.
  assert (G : exists rs' w', do_calls w sent fs = (rs', w', sent ++ unsent w) /\ unsent w' = []).
  { clear rs. revert w sent I H. induction F as [|c fs [F1 (F2 & n & evs & F3 & F4)] _ IH]; intros w sent I H.
    - rewrite len_nil in H. assert (unsent w = []) as U by (apply len_0; lia).
      exists [], w. cbn [do_calls]. rewrite U, app_nil_r. auto.
    - cbn [do_calls]. unfold do_call at 1. rewrite F2.
      destruct (wr_flush w _) as [[r w1] s1] eqn:Ew. pose proof (no_failure_flush _ _ _ _ _ _ I F1 Ew). subst r.
      assert (D : unsent w <> [] -> len (unsent w1) < len (unsent w)).
      { intros Hne. unfold wr_flush, flush_buf, write_until_blocked in Ew.
        change (skipn (N.to_nat (wr_pos w)) (wr_buf w)) with (unsent w) in Ew. rewrite F3 in Ew.
        cbn [sk_events sk_flushes sk_sent] in Ew. destruct (unsent w) as [|x u] eqn:U; [congruence|].
        cbn [wub] in Ew.
        destruct (wub _ _ _ _ _) as [[m|k] s2] eqn:Ewu in Ew.
        - apply wub_spec in Ewu as (u1 & d1 & rest & _ & K2 & _ & _ & [K3 _] & _).
          assert (Lu : len (wr_buf w) = wr_pos w + len (x :: u)).
          { rewrite <- U. unfold unsent. rewrite len_skipn. destruct I as [[I|[I1 I2]] _]; [lia|].
            unfold unsent in U. rewrite I2, skipn_nil in U. discriminate. }
          destruct (len (wr_buf w) <=? wr_pos w + m) eqn:Cm; destruct (flush_inner _) as [r3 s3]; inversion Ew; subst.
          + change (0 < len (x :: u)). rewrite len_cons. lia.
          + unfold unsent. cbn [wr_pos wr_buf]. rewrite len_skipn. rewrite len_cons in *. lia.
        - inversion Ew. }
      apply wr_flush_spec in Ew as (u & d & _ & H2 & _ & I1 & _ & H5 & _); auto. cbn [sk_sent] in H2.
      destruct (IH w1 (sk_sent s1) I1) as (rs' & w' & K1 & K2).
      { rewrite len_cons in H. destruct (unsent w) as [|x u'] eqn:U.
        - symmetry in H5. apply app_eq_nil in H5 as [_ ->]. rewrite len_nil. lia.
        - specialize (D ltac:(discriminate)). lia. }
      rewrite K1. exists (WOk 0 :: rs'), w'. split; auto. rewrite H2, H5, app_assoc. reflexivity. }
  destruct G as (rs' & w' & -> & K). eauto.
Qed.

(** ** C33 *)

(** If a flush fails in a write call, what the socket had taken during that flush is not accounted for:
    the writer is unchanged, and these bytes will be sent again. *)
Theorem C33_failed_flush_forgets : forall cap cs rs w sent evs k w' sent',
  do_calls (wr_new cap) [] cs = (rs, w, sent) ->
  do_call w sent (mk_wcall OFlush evs []) = (WErr k, w', sent') ->
  w' = w /\ exists d rest, unsent w = d ++ rest /\ sent' = sent ++ d.
Proof.
  intros cap cs rs w sent evs k w' sent' E E1.
  pose proof (do_calls_inv _ _ _ _ _ _ (wr_new_inv cap) E) as [I _].
  unfold do_call in E1. cbn [wc_op wc_events wc_flushes] in E1.
  destruct (wr_flush _ _) as [[[[]|k0] w0] s0] eqn:Ew; inversion E1; subst.
  apply wr_flush_spec in Ew as (u & d & _ & H2 & _ & _ & _ & [_ [(_ & H3 & rest & H4)|([] & _)]]); auto.
  split; auto. exists d, rest. auto.
Qed.

(** So bytes are sent twice: any non-empty part d of the buffered bytes d ++ a can be. *)
Theorem C33_sent_once_refuted : forall cap d a k,
  d <> [] -> a <> [] -> len (d ++ a) <= cap -> k <> WouldBlock ->
  exists cs rs w, written cs = d ++ a /\ do_calls (wr_new cap) [] cs = (rs, w, d ++ d ++ a) /\
    rs = [WOk (len (d ++ a)); WErr k; WOk 0] /\ unsent w = [].
Proof.
  intros cap d a k Hd Ha Hc Hk.
  exists [mk_wcall (OWrite (d ++ a)) [] []; mk_wcall OFlush [WTake (len d); WFail k] [];
          mk_wcall OFlush [WTake (len (d ++ a))] []].
  exists [WOk (len (d ++ a)); WErr k; WOk 0], (mk_writer [] 0 cap).
  split; [unfold written; cbn; now rewrite app_nil_r|]. split; [|auto]. cbn [do_calls].
  assert (E1 : do_call (wr_new cap) [] (mk_wcall (OWrite (d ++ a)) [] []) = (WOk (len (d ++ a)), mk_writer (d ++ a) 0 cap, [])).
  { now apply write_small. }
  rewrite E1.
  assert (E2 : do_call (mk_writer (d ++ a) 0 cap) [] (mk_wcall OFlush [WTake (len d); WFail k] []) =
               (WErr k, mk_writer (d ++ a) 0 cap, d)).
  { unfold do_call, wr_flush, flush_buf, write_until_blocked.
    cbn [wc_op wr_cap wr_buf wc_events wc_flushes wr_pos N.to_nat skipn sk_events sk_flushes sk_sent].
    assert (W : forall evs, wub (WTake (len d) :: evs) [] [] (d ++ a) 0 = wub evs [] d a (len d)).
    { intros evs. destruct (d ++ a) as [|x l] eqn:El; [destruct d; [congruence|discriminate]|].
      cbn [wub]. rewrite <- El, N.min_l by (rewrite len_app; lia).
      rewrite firstn_len_app, skipn_len_app. reflexivity. }
    rewrite W. destruct a as [|x a]; [congruence|]. cbn [wub]. destruct k; congruence || reflexivity. }
  rewrite E2.
  assert (E3 : do_call (mk_writer (d ++ a) 0 cap) d (mk_wcall OFlush [WTake (len (d ++ a))] []) =
               (WOk 0, mk_writer [] 0 cap, d ++ d ++ a)).
  { unfold do_call, wr_flush, flush_buf, write_until_blocked.
    cbn [wc_op wr_cap wr_buf wc_events wc_flushes wr_pos N.to_nat skipn sk_events sk_flushes sk_sent].
    rewrite wub_all by lia. rewrite !N.add_0_l. replace (len (d ++ a) <=? len (d ++ a)) with true by lia.
    unfold flush_inner. cbn [sk_flushes sk_sent]. reflexivity. }
  rewrite E3. reflexivity.
Qed.

(** And the caller need not notice: a single [write_all], which retries after a signal, succeeds and
    sends bytes twice. *)
Theorem C33_write_all_refuted : forall cap d a b,
  d <> [] -> a <> [] -> b <> [] -> len b <= cap -> len (d ++ a) <= cap -> cap < len (d ++ a) + len b ->
  exists evs w' s',
    write_all (mk_writer (d ++ a) 0 cap) (mk_sock evs [] []) b = (WOk tt, w', s') /\
    sk_sent s' = d ++ d ++ a /\ unsent w' = b.
Proof.
  intros cap d a b Hd Ha Hb Hb' Hc Hbig.
  exists [WTake (len d); WFail Interrupted; WTake (len (d ++ a))], (mk_writer b 0 cap), (mk_sock [] [] (d ++ d ++ a)).
  split; [|auto]. unfold write_all. cbn [sk_events List.length]. destruct b as [|x b]; [congruence|].
  assert (E2 : wr_write (mk_writer (d ++ a) 0 cap) (mk_sock [WTake (len d); WFail Interrupted; WTake (len (d ++ a))] [] []) (x :: b) =
               (WErr Interrupted, mk_writer (d ++ a) 0 cap, mk_sock [WTake (len (d ++ a))] [] d)).
  { unfold wr_write. cbn [wr_cap wr_buf]. replace (cap <? len (d ++ a) + len (x :: b)) with true by lia.
    unfold flush_buf, write_until_blocked. cbn [wr_pos wr_buf N.to_nat skipn sk_events sk_flushes sk_sent].
    assert (W : forall evs, wub (WTake (len d) :: evs) [] [] (d ++ a) 0 = wub evs [] d a (len d)).
    { intros evs. destruct (d ++ a) as [|y l] eqn:El; [destruct d; [congruence|discriminate]|].
      cbn [wub]. rewrite <- El, N.min_l by (rewrite len_app; lia).
      rewrite firstn_len_app, skipn_len_app. reflexivity. }
    rewrite W. destruct a as [|y a]; [congruence|]. reflexivity. }
  assert (E3 : wr_write (mk_writer (d ++ a) 0 cap) (mk_sock [WTake (len (d ++ a))] [] d) (x :: b) =
               (WOk (len (x :: b)), mk_writer (x :: b) 0 cap, mk_sock [] [] (d ++ d ++ a))).
  { unfold wr_write. cbn [wr_cap wr_buf]. replace (cap <? len (d ++ a) + len (x :: b)) with true by lia.
    unfold flush_buf, write_until_blocked. cbn [wr_pos wr_buf N.to_nat skipn sk_events sk_flushes sk_sent].
    rewrite wub_all by lia. rewrite !N.add_0_l. replace (len (d ++ a) <=? len (d ++ a)) with true by lia.
    cbn [wr_pos wr_cap]. replace ((0 =? 0) && (cap <? len (x :: b))) with false by lia.
    unfold append, vec_cap. cbn [wr_buf wr_pos wr_cap app]. change (len []) with 0.
    replace (0 + len (x :: b) <=? cap) with true by lia.
    destruct (d ++ a) eqn:El; [destruct d; [congruence|discriminate]|]. reflexivity. }
  cbn [write_all_f]. rewrite E2, E3.
  replace (len (x :: b) =? 0) with false by (rewrite len_cons; lia).
  rewrite skipn_full by lia. reflexivity.
Qed.

(** ** C57 *)

(** When nothing is left to send the buffer is empty. *)
Theorem C57_empty_when_drained : forall cap cs rs w sent,
  do_calls (wr_new cap) [] cs = (rs, w, sent) -> unsent w = [] -> wr_buf w = [].
Proof.
  intros cap cs rs w sent E U. pose proof (do_calls_inv _ _ _ _ _ _ (wr_new_inv cap) E) as [I _].
  now apply unsent_nil in U.
Qed.

(** But otherwise the buffer also keeps bytes already sent: it can grow beyond any bound while only one
    byte is left to send. *)
Theorem C57_bounded_by_unsent_refuted : forall cap n, exists cs rs w sent,
  Forall no_failure cs /\ do_calls (wr_new cap) [] cs = (rs, w, sent) /\
  len (unsent w) = 1 /\ n <= len (wr_buf w).
Proof.
  intros cap n.
  set (c0 := mk_wcall (OWrite (lit "xx")) [] []). set (c1 := mk_wcall OFlush [WTake 1] []).
  set (c2 := mk_wcall (OWrite (lit "x")) [] []).
  assert (G : forall m : nat, exists cs rs w sent, Forall no_failure cs /\
    do_calls (wr_new cap) [] cs = (rs, w, sent) /\ len (unsent w) = 1 /\ 0 < wr_pos w /\ N.of_nat m <= len (wr_buf w)).
  { induction m as [|m (cs & rs & w & sent & F & E & U & P & L)].
    - exists [c0; c1]. cbn [do_calls]. 
      destruct (do_call (wr_new cap) [] c0) as [[r1 w1] s1] eqn:E1.
      assert (U1 : wr_buf w1 = lit "xx" /\ wr_pos w1 = 0).
      { unfold do_call, c0, wr_write in E1. cbn [wc_op wr_new wr_cap wr_buf wc_events wc_flushes] in E1.
        destruct (cap <? len [] + len (lit "xx")); [|inversion E1; subst; auto].
        unfold flush_buf, write_until_blocked in E1. cbn in E1.
        destruct (cap <? 2); inversion E1; subst; auto. }
      destruct U1 as [U1 U2]. destruct w1 as [b1 p1 cp1]. cbn in U1, U2. subst b1 p1.
      unfold c1. cbn. eexists _, _, _. split; [repeat constructor|]. split; [reflexivity|]. repeat split; vm_compute; congruence.
    - exists (cs ++ [c2; c1]). rewrite do_calls_app, E. cbn [do_calls].
      pose proof (do_calls_inv _ _ _ _ _ _ (wr_new_inv cap) E) as [I _].
      assert (Lu : len (wr_buf w) = wr_pos w + 1).
      { unfold unsent in U. rewrite len_skipn in U. lia. }
      assert (E2 : exists cp, do_call w sent c2 = (WOk 1, mk_writer (wr_buf w ++ lit "x") (wr_pos w) cp, sent)).
      { unfold do_call, c2, wr_write. cbn [wc_op wc_events wc_flushes].
        destruct (wr_cap w <? _); [|eexists; reflexivity].
        unfold flush_buf, write_until_blocked. cbn [sk_events sk_flushes sk_sent].
        change (skipn (N.to_nat (wr_pos w)) (wr_buf w)) with (unsent w).
        destruct (unsent w) as [|y u]; [discriminate|]. cbn [wub]. rewrite N.add_0_r.
        replace (len (wr_buf w) <=? wr_pos w) with false by lia. cbn [wr_pos wr_cap].
        replace (wr_pos w =? 0) with false by lia. cbn [andb]. eexists; reflexivity. }
      destruct E2 as (cp & ->).
      unfold do_call, c1, wr_flush, flush_buf, write_until_blocked. cbn [wc_op wc_events wc_flushes sk_events sk_flushes sk_sent wr_pos wr_buf wr_cap].
      assert (Sk : exists y, skipn (N.to_nat (wr_pos w)) (wr_buf w ++ lit "x") = [y; "x"%char]).
      { rewrite skipn_app. change (skipn (N.to_nat (wr_pos w)) (wr_buf w)) with (unsent w).
        destruct (unsent w) as [|y [|]]; try discriminate; [|rewrite !len_cons in U; lia].
        replace (N.to_nat (wr_pos w) - List.length (wr_buf w))%nat with 0%nat by (unfold len in Lu; lia).
        exists y. reflexivity. }
      destruct Sk as (y & ->). cbn [wub]. change (N.min 1 (len [y; "x"%char])) with 1. change (skipn (N.to_nat 1) [y; "x"%char]) with ["x"%char]. cbn [wub].
      rewrite len_app. change (len (lit "x")) with 1.
      replace (len (wr_buf w) + 1 <=? wr_pos w + (0 + 1)) with false by lia.
      unfold flush_inner. cbn [sk_flushes sk_sent].
      eexists _, _, _. split; [apply Forall_app; split; [exact F|repeat constructor]|]. split; [reflexivity|].
      unfold unsent. cbn [wr_pos wr_buf]. rewrite len_skipn, len_app. change (len (lit "x")) with 1. lia. }
  destruct (G (N.to_nat n)) as (cs & rs & w & sent & F & E & U & P & L).
  exists cs, rs, w, sent. split; auto. split; auto. split; auto. lia.
Qed.

(** ** Cases *)

(** Two small writes, a partial flush, and a write larger than the buffer on a socket that stays
    blocked: a history to which C30 applies. *)
Definition example_calls : list wcall :=
  [mk_wcall (OWrite (lit "hello ")) [] []; mk_wcall (OWrite (lit "world")) [WTake 3; WFail WouldBlock] [];
   mk_wcall OFlush [WTake 2] [Some WouldBlock]; mk_wcall (OWrite (lit "0123456789")) [WTake 4] []].
Example C30_case : Forall no_failure example_calls /\ Forall (harmless 8) example_calls /\
  exists rs w, do_calls (wr_new 8) [] example_calls = (rs, w, lit "hello wor") /\ unsent w = lit "ld0123456789".
Proof.
  split; [repeat (constructor; auto)|]. split.
  - repeat apply Forall_cons; try apply Forall_nil; cbn [harmless wc_op].
    + left. vm_compute. congruence.
    + left. vm_compute. congruence.
    + exact Logic.I.
    + right. intros a b n H. cbn in H. destruct a as [|? [|]]; discriminate.
  - eexists _, _. vm_compute. split; reflexivity.
Qed.
Example C32_case : takes_one (mk_wcall OFlush [WTake 2; WFail WouldBlock] []).
Proof. split; [repeat constructor|]. split; [reflexivity|]. eexists _, _. split; [reflexivity|lia]. Qed.
Example C33_case : exists w', do_call (mk_writer (lit "abc") 0 8) [] (mk_wcall OFlush [WTake 2; WFail Interrupted] []) =
  (WErr Interrupted, w', lit "ab").
Proof. eexists. vm_compute. reflexivity. Qed.

Print Assumptions C30_conserved.
Print Assumptions C30_prefix.
Print Assumptions C31_in_order_refuted.
Print Assumptions C31_only_reordered.
Print Assumptions C32_never_would_block.
Print Assumptions C32_flush_drains.
Print Assumptions C32_flushes_deliver.
Print Assumptions C33_failed_flush_forgets.
Print Assumptions C33_sent_once_refuted.
Print Assumptions C33_write_all_refuted.
Print Assumptions C57_empty_when_drained.
Print Assumptions C57_bounded_by_unsent_refuted.
