(** Sequences of writes on a connection's writer. *)
From Coq Require Import List Ascii String NArith ZArith Bool Lia.
From Coq Require Import ZifyBool ZifyNat ZifyN.
From Verif.Model Require Import Bytes Io Common Encode Writer Server.
From Verif.Spec Require Import Output.
From Verif.Proofs Require Import BytesFacts WriterFacts.
Import ListNotations.
Local Open Scope N_scope.

(** A socket that does not fail. *)
Definition wfine (s : sock) : Prop :=
  Forall fine (sk_events s) /\ Forall (fun f => f = None \/ f = Some WouldBlock) (sk_flushes s).

Definition suffix (s s' : sock) : Prop :=
  (exists u, sk_events s = u ++ sk_events s') /\ (exists u, sk_flushes s = u ++ sk_flushes s').

Lemma suffix_refl s : suffix s s.
Proof. split; exists []; reflexivity. Qed.
Lemma suffix_trans a b c : suffix a b -> suffix b c -> suffix a c.
Proof.
  intros [[u1 H1] [u2 H2]] [[u3 H3] [u4 H4]]. split.
  - exists (u1 ++ u3). now rewrite H1, H3, app_assoc.
  - exists (u2 ++ u4). now rewrite H2, H4, app_assoc.
Qed.
Lemma wfine_suffix s s' : suffix s s' -> wfine s -> wfine s'.
Proof.
  intros [[u H] [u' H']] [F1 F2]. split.
  - rewrite H in F1. now apply Forall_app in F1.
  - rewrite H' in F2. now apply Forall_app in F2.
Qed.
Lemma sticky_suff s s' : suffix s s' -> sticky (sk_events s) -> sticky (sk_events s').
Proof. intros [[u H] _] K. rewrite H in K. now apply sticky_suffix in K. Qed.

Lemma write_ok K w s b : wr_inv w -> K <= wr_cap w -> wfine s -> (sticky (sk_events s) \/ len b <= K) ->
  exists w' s', wr_write w s b = (WOk (len b), w', s') /\ wr_inv w' /\ K <= wr_cap w' /\ suffix s s' /\
    sk_sent s' ++ unsent w' = sk_sent s ++ unsent w ++ b.
Proof.
  intros I C [F F2] H. destruct (wr_write w s b) as [[r w'] s'] eqn:E. exists w', s'.
  apply wr_write_spec in E as (u & d & H1 & H2 & H3 & H4 & H5 & H6); auto.
  destruct r as [n|k].
  - destruct H6 as [-> H6]. split; auto. split; auto. split; [lia|]. split; [split; [eauto|exists []; auto]|].
    rewrite H3, <- app_assoc. f_equal. destruct H6 as [H6|(x & y & K1 & K2 & K3 & K4 & K5 & K6 & K7 & K8)]; auto.
    exfalso. destruct H as [H|H]; [auto|lia].
  - exfalso. destruct H6 as (H6 & H7 & _). apply H6. eapply fine_fail; eauto.
Qed.

Lemma flush_ok w s : wr_inv w -> wfine s ->
  exists w' s', wr_flush w s = (WOk tt, w', s') /\ wr_inv w' /\ wr_cap w' = wr_cap w /\ suffix s s' /\
    sk_sent s' ++ unsent w' = sk_sent s ++ unsent w.
Proof.
  intros I [F F2]. destruct (wr_flush w s) as [[r w'] s'] eqn:E. exists w', s'.
  apply wr_flush_spec in E as (u & d & H1 & H2 & H3 & H4 & H5 & H6); auto.
  destruct r as [[]|k].
  - split; auto. split; auto. split; auto. split; [split; eauto|].
    destruct H6 as [H6 _]. now rewrite H2, H6, <- app_assoc.
  - exfalso. destruct H6 as (H6 & [(H7 & _)|(H7 & _)]); apply H6.
    + eapply fine_fail; eauto.
    + rewrite Forall_forall in F2. destruct (F2 _ H7); congruence.
Qed.

Lemma write_all_nil w s : write_all w s [] = (WOk tt, w, s).
Proof. reflexivity. Qed.

Lemma write_all_once w s b w' s' : b <> [] -> wr_write w s b = (WOk (len b), w', s') ->
  write_all w s b = (WOk tt, w', s').
Proof.
  intros Hb E. unfold write_all. destruct b as [|c b]; [congruence|]. cbn [write_all_f]. rewrite E.
  replace (len (c :: b) =? 0) with false by (rewrite len_cons; lia).
  rewrite skipn_full by lia. reflexivity.
Qed.

Lemma write_all_ok K w s b : wr_inv w -> K <= wr_cap w -> wfine s -> (sticky (sk_events s) \/ len b <= K) ->
  exists w' s', write_all w s b = (WOk tt, w', s') /\ wr_inv w' /\ K <= wr_cap w' /\ suffix s s' /\
    sk_sent s' ++ unsent w' = sk_sent s ++ unsent w ++ b.
Proof.
  intros I C F H. destruct b as [|c b].
  - exists w, s. rewrite app_nil_r. split; auto. split; auto. split; auto. split; [apply suffix_refl|auto].
  - destruct (write_ok K w s (c :: b) I C F H) as (w' & s' & E & R). exists w', s'. split; [|exact R].
    apply write_all_once; [discriminate|exact E].
Qed.

(** [write_all] never runs out of fuel. *)
Lemma wr_write_uses w s b k w' s' : wr_inv w -> wr_write w s b = (WErr k, w', s') ->
  wr_inv w' /\ (List.length (sk_events s') < List.length (sk_events s))%nat.
Proof.
  intros I E. pose proof E as E0. apply wr_write_spec in E as (u & d & H1 & _ & _ & H4 & _ & _); auto.
  split; auto. rewrite H1, app_length. destruct u as [|x u]; [|cbn; lia]. exfalso. cbn [app] in H1.
  assert (W : forall evs fl sent buf pos k s', wub evs fl sent buf pos = (WErr k, s') ->
            (List.length (sk_events s') < List.length evs)%nat).
  { clear. induction evs as [|e evs IH]; intros fl sent buf pos k s' E.
    - destruct buf; cbn in E; discriminate.
    - destruct buf as [|c buf]; [cbn in E; discriminate|]. cbn [wub] in E. destruct e as [n|k0].
      + apply IH in E. cbn. lia.
      + destruct k0; inversion E; subst; cbn; lia. }
  assert (V : forall evs fl sent buf pos n s', wub evs fl sent buf pos = (WOk n, s') ->
            (List.length (sk_events s') <= List.length evs)%nat).
  { intros evs fl sent buf pos n s1 Ew. apply wub_spec in Ew as (u1 & d1 & r1 & Ew & _). rewrite Ew, app_length. lia. }
  unfold wr_write in E0. destruct (wr_cap w <? len (wr_buf w) + len b); [|discriminate].
  unfold flush_buf, write_until_blocked in E0.
  destruct (wub (sk_events s) (sk_flushes s) (sk_sent s) (skipn (N.to_nat (wr_pos w)) (wr_buf w)) 0) as [[n|k1] s1] eqn:E1.
  - apply V in E1.
    destruct (len (wr_buf w) <=? wr_pos w + n); cbn [wr_pos wr_cap] in E0.
    + destruct ((0 =? 0) && (wr_cap w <? len b)); [|discriminate].
      destruct (wub (sk_events s1) (sk_flushes s1) (sk_sent s1) b 0) as [[n2|k2] s2] eqn:E2; [discriminate|].
      apply W in E2. inversion E0; subst. rewrite H1 in E1. lia.
    + destruct ((wr_pos w + n =? 0) && (wr_cap w <? len b)); [|discriminate].
      destruct (wub (sk_events s1) (sk_flushes s1) (sk_sent s1) b 0) as [[n2|k2] s2] eqn:E2; [discriminate|].
      apply W in E2. inversion E0; subst. rewrite H1 in E1. lia.
  - apply W in E1. inversion E0; subst. rewrite H1 in E1. lia.
Qed.

Lemma write_all_fuel f : forall w s b w' s', wr_inv w -> (List.length (sk_events s) + 1 < f)%nat ->
  write_all_f f w s b = (WErr ModelFuel, w', s') -> In (WFail ModelFuel) (sk_events s).
Proof.
  induction f as [|f IH]; intros w s b w' s' I Hf E; [lia|].
  cbn [write_all_f] in E. destruct b as [|c b]; [discriminate|].
  destruct (wr_write w s (c :: b)) as [[r w1] s1] eqn:Ew. pose proof Ew as Ew2.
  apply wr_write_spec in Ew as (u & d & H1 & _ & _ & I1 & _ & H); auto.
  destruct r as [n|k].
  - destruct H as [-> _]. replace (len (c :: b) =? 0) with false in E by (rewrite len_cons; lia).
    rewrite skipn_full in E by lia. destruct f; cbn in E; discriminate.
  - destruct H as (H & H2 & _). destruct k; try discriminate.
    + apply wr_write_uses in Ew2 as [_ Ew2]; auto. apply IH in E; auto; [|lia].
      rewrite H1. apply in_or_app. now right.
    + exact H2.
Qed.

(** ** Whole sequences *)

Definition op_data (op : sop) : bytes := match op with SAll b | SWrite b => b | SFlush => [] end.
Definition payload (ops : list sop) : bytes := List.concat (map op_data ops).

Lemma run_ops_ok K ops : forall w s, wr_inv w -> K <= wr_cap w -> wfine s ->
  (sticky (sk_events s) \/ Forall (fun op => len (op_data op) <= K) ops) ->
  exists w' s', run_ops w s ops = (WOk tt, w', s') /\ wr_inv w' /\ K <= wr_cap w' /\ suffix s s' /\
    sk_sent s' ++ unsent w' = sk_sent s ++ unsent w ++ payload ops.
Proof.
  induction ops as [|op ops IH]; intros w s I C F H.
  - exists w, s. unfold payload. cbn. rewrite app_nil_r. split; auto. split; auto. split; auto. split; [apply suffix_refl|auto].
  - assert (Ho : sticky (sk_events s) \/ len (op_data op) <= K) by (destruct H as [H|H]; [auto|inversion H; auto]).
    assert (St : exists w1 s1,
      match op with
      | SAll b => write_all w s b
      | SWrite b => match wr_write w s b with (WOk _, w1, s1) => (WOk tt, w1, s1) | (WErr k, w1, s1) => (WErr k, w1, s1) end
      | SFlush => wr_flush w s
      end = (WOk tt, w1, s1) /\ wr_inv w1 /\ K <= wr_cap w1 /\ suffix s s1 /\
      sk_sent s1 ++ unsent w1 = sk_sent s ++ unsent w ++ op_data op).
    { destruct op as [b|b|]; cbn [op_data] in *.
      - now apply write_all_ok.
      - destruct (write_ok K w s b I C F Ho) as (w1 & s1 & E & R). exists w1, s1. rewrite E. split; [reflexivity|exact R].
      - destruct (flush_ok w s I F) as (w1 & s1 & E & R1 & R2 & R3 & R4). exists w1, s1. split; auto. split; auto.
        split; [lia|]. split; auto. rewrite app_nil_r. exact R4. }
    destruct St as (w1 & s1 & E & I1 & C1 & S1 & R1). cbn [run_ops]. rewrite E.
    destruct (IH w1 s1 I1 C1 (wfine_suffix _ _ S1 F)) as (w2 & s2 & E2 & I2 & C2 & S2 & R2).
    { destruct H as [H|H]; [left; eapply sticky_suff; eauto|right; inversion H; auto]. }
    exists w2, s2. split; auto. split; auto. split; auto. split; [eapply suffix_trans; eauto|].
    rewrite R2, app_assoc, R1. unfold payload. cbn [map List.concat]. now rewrite <- !app_assoc.
Qed.

(** ** Sockets that take something each time *)

Definition gives (e : wevent) : Prop := match e with WTake n => 0 < n | WFail _ => False end.

Definition budget (s : sock) : N := len (sk_sent s) + len (sk_events s).

Lemma wub_budget evs : forall fl sent buf pos, Forall gives evs ->
  exists n s', wub evs fl sent buf pos = (WOk n, s') /\ sk_flushes s' = fl /\ Forall gives (sk_events s') /\
    len sent + len evs <= budget s' /\
    (len buf <= len evs -> n = pos + len buf /\ sk_sent s' = sent ++ buf).
Proof.
  induction evs as [|e evs IH]; intros fl sent buf pos G.
  - exists pos, (mk_sock [] fl sent). destruct buf as [|c buf]; cbn [wub sk_flushes sk_events]; (split; [reflexivity|]); (split; [reflexivity|]);
      (split; [constructor|]); unfold budget; cbn [sk_sent sk_events]; (split; [apply N.le_refl|]).
    + intros _. change (len []) with 0. rewrite app_nil_r. split; [lia|auto].
    + intros H. rewrite len_cons in H. change (@len wevent []) with 0 in H. lia.
  - inversion G as [|? ? G1 G2]; subst. destruct e as [n|k]; [|destruct G1]. cbn [gives] in G1.
    destruct buf as [|c buf]; cbn [wub].
    + exists pos, (mk_sock (WTake n :: evs) fl sent). split; auto. split; auto. split; auto. split; [unfold budget; cbn [sk_sent sk_events]; lia|].
      intros _. change (len []) with 0. rewrite app_nil_r. split; [lia|auto].
    + set (m := N.min n (len (c :: buf))). assert (Hm : 0 < m <= len (c :: buf)) by (unfold m; rewrite len_cons; lia).
      destruct (IH fl (sent ++ firstn (N.to_nat m) (c :: buf)) (skipn (N.to_nat m) (c :: buf)) (pos + m) G2)
        as (n' & s' & E & H1 & H2 & H3 & H4). exists n', s'. rewrite E. split; auto. split; auto. split; auto.
      rewrite len_app, len_firstn in H3. split; [rewrite len_cons; lia|]. intros H. rewrite !len_cons in H.
      rewrite len_skipn in H4. destruct H4 as [H4 H5]; [rewrite !len_cons in *; lia|].
      split; [lia|]. rewrite H5, <- app_assoc, firstn_skipn. reflexivity.
Qed.

Lemma flush_buf_budget w s : wr_inv w -> Forall gives (sk_events s) ->
  exists w' s', flush_buf w s = (WOk tt, w', s') /\ sk_flushes s' = sk_flushes s /\ Forall gives (sk_events s') /\
    budget s <= budget s' /\ (len (unsent w) <= len (sk_events s) -> unsent w' = []).
Proof.
  intros I G. unfold flush_buf, write_until_blocked. change (skipn (N.to_nat (wr_pos w)) (wr_buf w)) with (unsent w).
  destruct (wub_budget _ (sk_flushes s) (sk_sent s) (unsent w) 0 G) as (n & s' & E & H1 & H2 & H3 & H4). rewrite E.
  destruct (len (wr_buf w) <=? wr_pos w + n) eqn:C; eexists _, s'; (split; [reflexivity|]); (split; [exact H1|]); (split; [exact H2|]);
    (split; [exact H3|]); intros H.
  - reflexivity.
  - exfalso. destruct (H4 H) as [-> _]. destruct I as [I _].
    assert (len (unsent w) = len (wr_buf w) - wr_pos w) by (unfold unsent; apply len_skipn). lia.
Qed.

Lemma write_budget w s b w' s' n : wr_inv w -> Forall gives (sk_events s) -> wr_write w s b = (WOk n, w', s') ->
  sk_flushes s' = sk_flushes s /\ Forall gives (sk_events s') /\ budget s <= budget s'.
Proof.
  intros I G. unfold wr_write. destruct (wr_cap w <? len (wr_buf w) + len b).
  - destruct (flush_buf_budget w s I G) as (w1 & s1 & -> & H1 & H2 & H3 & _).
    destruct ((wr_pos w1 =? 0) && (wr_cap w1 <? len b)).
    + unfold write_until_blocked. destruct (wub_budget _ (sk_flushes s1) (sk_sent s1) b 0 H2) as (m & s2 & -> & K1 & K2 & K3 & _).
      intros E. inversion E; subst. split; [congruence|]. split; auto. unfold budget in *. lia.
    + intros E. inversion E; subst. auto.
  - intros E. inversion E; subst. split; auto. split; auto. lia.
Qed.

Lemma flush_budget w s w' s' : wr_inv w -> Forall gives (sk_events s) -> wr_flush w s = (WOk tt, w', s') ->
  Forall gives (sk_events s') /\ budget s <= budget s' /\ (len (unsent w) <= len (sk_events s) -> unsent w' = []).
Proof.
  intros I G. unfold wr_flush. destruct (flush_buf_budget w s I G) as (w1 & s1 & -> & H1 & H2 & H3 & H4).
  unfold flush_inner. destruct (sk_flushes s1) as [|f fl].
  - intros E. inversion E; subst. auto.
  - intros E. assert (w1 = w' /\ mk_sock (sk_events s1) fl (sk_sent s1) = s') as [-> <-] by (split; congruence).
    unfold budget in *. cbn [sk_events sk_sent]. auto.
Qed.

Lemma run_ops_budget ops : forall w s w' s', wr_inv w -> Forall gives (sk_events s) ->
  run_ops w s ops = (WOk tt, w', s') -> Forall gives (sk_events s') /\ budget s <= budget s'.
Proof.
  induction ops as [|op ops IH]; intros w s w' s' I G E; cbn [run_ops] in E.
  - inversion E; subst. split; auto. lia.
  - assert (St : forall w1 s1,
      match op with
      | SAll b => write_all w s b
      | SWrite b => match wr_write w s b with (WOk _, w1, s1) => (WOk tt, w1, s1) | (WErr k, w1, s1) => (WErr k, w1, s1) end
      | SFlush => wr_flush w s
      end = (WOk tt, w1, s1) -> wr_inv w1 /\ Forall gives (sk_events s1) /\ budget s <= budget s1).
    { assert (Fine : Forall fine (sk_events s)).
      { revert G. apply Forall_impl. intros [n|k] H; [exact Logic.I|destruct H]. }
      assert (NoErr : forall b k w1 s1, wr_write w s b <> (WErr k, w1, s1)).
      { intros b k w1 s1 Ew. apply wr_write_spec in Ew as (u & d & _ & _ & _ & _ & _ & H & H2 & _); auto.
        apply H. eapply fine_fail; eauto. }
      assert (Wr : forall b w1 s1 n, wr_write w s b = (WOk n, w1, s1) -> wr_inv w1 /\ Forall gives (sk_events s1) /\ budget s <= budget s1).
      { intros b w1 s1 n Ew. pose proof Ew as Ew2. apply wr_write_spec in Ew as (u & d & _ & _ & _ & I1 & _); auto.
        apply write_budget in Ew2 as (_ & G1 & B1); auto. }
      intros w1 s1 Eo. destruct op as [b|b|].
      - destruct b as [|c b]; [rewrite write_all_nil in Eo; inversion Eo; subst; split; auto; split; auto; lia|].
        destruct (wr_write w s (c :: b)) as [[[n|k] w2] s2] eqn:Ew; [|destruct (NoErr _ _ _ _ Ew)].
        assert (n = len (c :: b)) as ->.
        { apply wr_write_spec in Ew as (u & d & _ & _ & _ & _ & _ & Hn & _); auto. }
        assert (Hne : c :: b <> []) by discriminate. rewrite (write_all_once _ _ _ _ _ Hne Ew) in Eo. inversion Eo; subst. eapply Wr; eauto.
      - destruct (wr_write w s b) as [[[n|k] w2] s2] eqn:Ew; [|discriminate]. inversion Eo; subst. eapply Wr; eauto.
      - pose proof Eo as Eo2. apply wr_flush_spec in Eo as (u & d & _ & _ & _ & I1 & _); auto.
        apply flush_budget in Eo2 as (G1 & B1 & _); auto. }
    destruct (match op with SAll b => write_all w s b | SWrite b => _ | SFlush => wr_flush w s end) as [[[[]|k] w1] s1] eqn:Eo; [|discriminate].
    destruct (St _ _ eq_refl) as (I1 & G1 & B1). destruct (IH _ _ _ _ I1 G1 E) as (G2 & B2). split; auto. lia.
Qed.

Lemma run_ops_app a : forall w s b, run_ops w s (a ++ b) =
  match run_ops w s a with (WOk _, w1, s1) => run_ops w1 s1 b | r => r end.
Proof.
  induction a as [|op a IH]; intros w s b; cbn [run_ops app]; auto.
  destruct (match op with SAll b => write_all w s b | SWrite b => _ | SFlush => wr_flush w s end) as [[[u|k] w1] s1]; auto.
Qed.

Lemma payload_app a b : payload (a ++ b) = payload a ++ payload b.
Proof. unfold payload. now rewrite map_app, concat_app. Qed.

(** If the socket never blocks, a sequence that ends with a flush leaves nothing behind. *)
Lemma run_ops_drain K ops w s : wr_inv w -> K <= wr_cap w -> wfine s -> Forall gives (sk_events s) ->
  len (unsent w) + len (payload ops) <= len (sk_events s) ->
  exists w' s', run_ops w s (ops ++ [SFlush]) = (WOk tt, w', s') /\ wr_inv w' /\ K <= wr_cap w' /\ suffix s s' /\
    Forall gives (sk_events s') /\ budget s <= budget s' /\
    unsent w' = [] /\ sk_sent s' = sk_sent s ++ unsent w ++ payload ops.
Proof.
  intros I C F G H.
  assert (St : sticky (sk_events s)).
  { intros a b n E. exfalso. rewrite E in G. apply Forall_app in G as [_ G]. inversion G as [|? ? G1]. destruct G1. }
  destruct (run_ops_ok K ops w s I C F (or_introl St)) as (w1 & s1 & E1 & I1 & C1 & S1 & R1).
  pose proof (run_ops_budget _ _ _ _ _ I G E1) as (G1 & B1).
  destruct (flush_ok w1 s1 I1 (wfine_suffix _ _ S1 F)) as (w2 & s2 & E2 & I2 & C2 & S2 & R2).
  pose proof (flush_budget _ _ _ _ I1 G1 E2) as (G2 & B2 & D2).
  exists w2, s2. rewrite run_ops_app, E1. cbn [run_ops]. rewrite E2. split; auto. split; auto. split; [lia|].
  split; [eapply suffix_trans; eauto|]. split; auto. split; [lia|].
  assert (unsent w2 = []) as U.
  { apply D2. apply (f_equal (@len byte)) in R1. rewrite !len_app in R1. unfold budget in B1. lia. }
  split; auto. rewrite U, app_nil_r in R2. congruence.
Qed.
