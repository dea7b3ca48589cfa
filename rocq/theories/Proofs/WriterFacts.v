(** Facts about the non-blocking writer. *)
From Coq Require Import List Ascii String NArith ZArith Bool Lia Permutation.
From Coq Require Import ZifyBool ZifyNat ZifyN.
From Verif.Model Require Import Bytes Io Writer.
From Verif.Spec Require Import Output.
From Verif.Proofs Require Import BytesFacts.
Import ListNotations.
Local Open Scope N_scope.

Definition fine (e : wevent) : Prop := match e with WTake _ => True | WFail k => k = WouldBlock end.
Definition sticky (evs : list wevent) : Prop :=
  forall a b n, evs = a ++ WFail WouldBlock :: b -> ~ In (WTake n) b.
Definition dead (evs : list wevent) : Prop := forall n, ~ In (WTake n) evs.

Lemma sticky_suffix a b : sticky (a ++ b) -> sticky b.
Proof. intros H x y n ->. apply (H (a ++ x) y n). now rewrite app_assoc. Qed.
Lemma dead_suffix a b : dead (a ++ b) -> dead b.
Proof. intros H n K. apply (H n). apply in_or_app. now right. Qed.

Lemma skipn_plus {A} (x y : nat) (l : list A) : skipn x (skipn y l) = skipn (x + y) l.
Proof.
  revert l; induction y as [|y IH]; intros l; [now rewrite Nat.add_0_r|].
  rewrite Nat.add_succ_r. destruct l; cbn [skipn]; [now rewrite skipn_nil|apply IH].
Qed.

(** What [write_until_blocked] does. *)
Lemma wub_spec evs : forall fl sent buf pos r s', wub evs fl sent buf pos = (r, s') ->
  exists used d rest, evs = used ++ sk_events s' /\ buf = d ++ rest /\
    sk_sent s' = sent ++ d /\ sk_flushes s' = fl /\
    match r with
    | WOk n => n = pos + len d /\
        (rest = [] \/ sk_events s' = [] \/ exists u, used = u ++ [WFail WouldBlock])
    | WErr k => k <> WouldBlock /\ In (WFail k) evs
    end /\ (dead evs -> d = []).
Proof.
  induction evs as [|e evs IH]; intros fl sent buf pos r s' E.
  - destruct buf as [|c buf]; cbn in E; inversion E; subst.
    + exists [], [], []. cbn. rewrite app_nil_r. repeat split; auto; lia.
    + exists [], [], (c :: buf). cbn. rewrite app_nil_r. repeat split; auto; lia.
  - destruct buf as [|c buf].
    + cbn in E. inversion E; subst. exists [], [], []. cbn. rewrite app_nil_r. repeat split; auto; try lia.
    + destruct e as [n|k].
      * cbn [wub] in E. apply IH in E as (used & d & rest & H1 & H2 & H3 & H4 & H5 & H6).
        set (m := N.min n (len (c :: buf))) in *.
        exists (WTake n :: used), (firstn (N.to_nat m) (c :: buf) ++ d), rest. cbn [app]. rewrite <- H1.
        split; [reflexivity|]. split; [now rewrite <- app_assoc, <- H2, firstn_skipn|].
        split; [now rewrite H3, app_assoc|]. split; [exact H4|]. split.
        -- destruct r as [a|k].
           ++ destruct H5 as [H5 H7]. split.
              ** rewrite len_app, len_firstn. unfold m in *. lia.
              ** destruct H7 as [H7|[H7|(u & ->)]]; auto. right. right. exists (WTake n :: u). reflexivity.
           ++ destruct H5. split; auto. now right.
        -- intros D. exfalso. apply (D n). now left.
      * assert (K : (k = WouldBlock /\ E = E) \/ k <> WouldBlock) by (destruct k; (now left) || (right; discriminate)).
        destruct K as [[-> _]|K].
        -- cbn in E. inversion E; subst. exists [WFail WouldBlock], [], (c :: buf). cbn. rewrite app_nil_r.
           repeat split; auto; try lia. right. right. now exists [].
        -- assert (E' : (WErr k, mk_sock evs fl sent) = (r, s')) by (destruct k; cbn in E; congruence).
           inversion E'; subst. exists [WFail k], [], (c :: buf). cbn. rewrite app_nil_r. repeat split; auto.
Qed.

Lemma fine_suffix a b : Forall fine (a ++ b) -> Forall fine b.
Proof. intros H. apply Forall_app in H. tauto. Qed.

Lemma fine_fail evs k : Forall fine evs -> In (WFail k) evs -> k = WouldBlock.
Proof. intros F H. rewrite Forall_forall in F. exact (F _ H). Qed.

(** ** Invariant of the writer *)

Definition wr_inv (w : writer) : Prop :=
  (wr_pos w < len (wr_buf w) \/ (wr_pos w = 0 /\ wr_buf w = [])) /\ len (wr_buf w) <= wr_cap w.

Lemma wr_new_inv cap : wr_inv (wr_new cap).
Proof. split; [right; auto|]. cbn. lia. Qed.

Lemma unsent_new cap : unsent (wr_new cap) = [].
Proof. reflexivity. Qed.

Lemma unsent_nil w : wr_inv w -> unsent w = [] -> wr_buf w = [] /\ wr_pos w = 0.
Proof.
  intros [[H|[H1 H2]] _] E; auto. exfalso. unfold unsent in E. apply (f_equal len) in E.
  rewrite len_skipn, len_nil in E. lia.
Qed.

Lemma flush_buf_spec w s r w' s' : wr_inv w -> flush_buf w s = (r, w', s') ->
  exists used d, sk_events s = used ++ sk_events s' /\ sk_flushes s' = sk_flushes s /\
    sk_sent s' = sk_sent s ++ d /\ wr_inv w' /\ wr_cap w' = wr_cap w /\
    (dead (sk_events s) -> d = []) /\
    match r with
    | WOk _ => unsent w = d ++ unsent w' /\
        (unsent w' = [] \/ sk_events s' = [] \/ exists u, used = u ++ [WFail WouldBlock]) /\
        (wr_pos w' = 0 -> unsent w' = [] \/ (d = [] /\ w' = w))
    | WErr k => k <> WouldBlock /\ In (WFail k) (sk_events s) /\ w' = w /\ exists rest, unsent w = d ++ rest
    end.
Proof.
  intros I E. unfold flush_buf in E. change (skipn _ (wr_buf w)) with (unsent w) in E.
  destruct (write_until_blocked s (unsent w)) as [[n|k] s1] eqn:Ew.
  - unfold write_until_blocked in Ew. apply wub_spec in Ew as (used & d & rest & H1 & H2 & H3 & H4 & [H5 H7] & H6).
    assert (L : len (unsent w) = len (wr_buf w) - wr_pos w) by (unfold unsent; now rewrite len_skipn).
    assert (L2 : len (unsent w) = len d + len rest) by (rewrite H2, len_app; reflexivity).
    destruct I as [I1 I2].
    destruct (len (wr_buf w) <=? wr_pos w + n) eqn:C; inversion E; subst r w' s1; exists used, d.
    + assert (rest = []) by (apply len_0; lia). subst rest. rewrite app_nil_r in H2.
      split; [exact H1|]. split; [exact H4|]. split; [exact H3|].
      split; [split; [right; auto|cbn; lia]|]. split; [reflexivity|]. split; [exact H6|].
      change (unsent (mk_writer [] 0 (wr_cap w))) with (@nil byte). rewrite app_nil_r. auto.
    + assert (U : unsent (mk_writer (wr_buf w) (wr_pos w + n) (wr_cap w)) = rest).
      { unfold unsent in *. cbn [wr_pos wr_buf] in *. 
        replace (N.to_nat (wr_pos w + n)) with (N.to_nat (len d) + N.to_nat (wr_pos w))%nat by lia.
        rewrite <- skipn_plus, H2. apply skipn_len_app. }
      split; [exact H1|]. split; [exact H4|]. split; [exact H3|].
      split; [split; [left; cbn; lia|cbn; lia]|]. split; [reflexivity|]. split; [exact H6|].
      rewrite U. split; [exact H2|]. split; [exact H7|]. cbn [wr_pos]. intros Hz. right.
      assert (d = []) by (apply len_0; lia). split; auto.
      destruct w as [b p c]. cbn in *. f_equal. lia.
  - inversion E; subst. unfold write_until_blocked in Ew.
    apply wub_spec in Ew as (used & d & rest & H1 & H2 & H3 & H4 & [H5 H7] & H6).
    exists used, d. split; [exact H1|]. split; [exact H4|]. split; [exact H3|]. split; [exact I|].
    split; [reflexivity|]. split; [exact H6|]. eauto 10.
Qed.

Lemma vec_cap_ge cap n : n <= vec_cap cap n /\ cap <= vec_cap cap n.
Proof. unfold vec_cap. destruct (n <=? cap) eqn:E; lia. Qed.

Lemma append_spec w b : wr_inv w -> wr_inv (append w b) /\ unsent (append w b) = unsent w ++ b /\
  wr_cap w <= wr_cap (append w b).
Proof.
  intros [I1 I2]. pose proof (vec_cap_ge (wr_cap w) (len (wr_buf w) + len b)). unfold append, wr_inv, unsent.
  cbn [wr_buf wr_pos wr_cap]. rewrite len_app. split; [|split; [|lia]].
  - split; [|lia]. destruct I1 as [I1|[I1 I3]]; [left; lia|]. rewrite I1, I3. cbn [app].
    destruct b; [right; auto|left; rewrite len_cons; lia].
  - rewrite skipn_app. f_equal. replace (N.to_nat (wr_pos w) - _)%nat with 0%nat; [reflexivity|].
    destruct I1 as [I1|[I1 I3]]; unfold len in *; lia.
Qed.

(** ** A write *)

(** The bytes sent and held after a write, in every case. *)
Lemma wr_write_spec w s b r w' s' : wr_inv w -> wr_write w s b = (r, w', s') ->
  exists used sent, sk_events s = used ++ sk_events s' /\ sk_flushes s' = sk_flushes s /\
    sk_sent s' = sk_sent s ++ sent /\ wr_inv w' /\ wr_cap w <= wr_cap w' /\
    match r with
    | WOk n => n = len b /\
        ((sent ++ unsent w' = unsent w ++ b) \/
         (exists d rest, sent = d /\ b = d ++ rest /\ d <> [] /\ wr_pos w = 0 /\ wr_cap w < len b /\
            unsent w <> [] /\ unsent w' = unsent w ++ rest /\ ~ sticky (sk_events s)))
    | WErr k => k <> WouldBlock /\ In (WFail k) (sk_events s) /\
        ((w' = w /\ exists rest, unsent w = sent ++ rest) \/
         (unsent w' = [] /\ exists d rest, sent = unsent w ++ d /\ b = d ++ rest) \/
         (w' = w /\ wr_pos w = 0 /\ wr_cap w < len b /\ exists rest, b = sent ++ rest))
    end.
Proof.
  intros I E. unfold wr_write in E. destruct (wr_cap w <? len (wr_buf w) + len b) eqn:C.
  2:{ inversion E; subst. destruct (append_spec w b I) as (A1 & A2 & A3).
      exists [], []. rewrite app_nil_r. cbn [app]. split; [reflexivity|]. split; [reflexivity|]. split; [reflexivity|].
      split; [exact A1|]. split; [exact A3|]. auto. }
  destruct (flush_buf w s) as [[[[]|k] w1] s1] eqn:Ef; apply flush_buf_spec in Ef; auto;
    destruct Ef as (used & d & H1 & H2 & H3 & H4 & H5 & H6 & H7).
  2:{ inversion E; subst. destruct H7 as (K1 & K2 & -> & K3). exists used, d.
      split; [exact H1|]. split; [exact H2|]. split; [exact H3|]. split; [exact H4|]. split; [lia|]. auto 10. }
  destruct H7 as (K1 & K2 & K3).
  destruct ((wr_pos w1 =? 0) && (wr_cap w1 <? len b)) eqn:Z.
  2:{ inversion E; subst. destruct (append_spec w1 b H4) as (A1 & A2 & A3). exists used, d.
      split; [exact H1|]. split; [exact H2|]. split; [exact H3|]. split; [exact A1|]. split; [lia|].
      split; [reflexivity|]. left. rewrite A2, K1. now rewrite app_assoc. }
  apply andb_true_iff in Z as [Z1 Z2]. assert (Hz : wr_pos w1 = 0) by lia. specialize (K3 Hz).
  destruct (write_until_blocked s1 b) as [[n|k] s2] eqn:Ew; unfold write_until_blocked in Ew;
    apply wub_spec in Ew as (used2 & d2 & rest & G1 & G2 & G3 & G4 & G5 & G6).
  - inversion E; subst r w' s2. destruct G5 as [G5 G7]. rewrite N.add_0_l in G5. subst n.
    assert (Sk : skipn (N.to_nat (len d2)) b = rest) by (rewrite G2; apply skipn_len_app). rewrite Sk in *.
    destruct (append_spec w1 rest H4) as (A1 & A2 & A3).
    exists (used ++ used2), (d ++ d2). rewrite <- app_assoc, <- G1. split; [exact H1|].
    split; [congruence|]. split; [now rewrite G3, H3, app_assoc|]. split; [exact A1|]. split; [lia|].
    split; [reflexivity|]. rewrite A2. destruct K3 as [K3|[-> K3]].
    + left. rewrite K3 in *. rewrite app_nil_r in K1. cbn [app]. now rewrite K1, <- app_assoc, <- G2.
    + subst w1. cbn [app] in *. destruct (unsent w) as [|u0 u] eqn:U.
      * left. cbn [app]. now rewrite <- G2.
      * destruct d2 as [|x d2]; [left; cbn [app]; rewrite G2; reflexivity|]. right.
        exists (x :: d2), rest. split; [reflexivity|]. split; [exact G2|]. split; [discriminate|]. split; [exact Hz|].
        split; [lia|]. split; [discriminate|]. split; [reflexivity|].
        destruct K2 as [K2|[K2|(u' & ->)]]; [discriminate| |].
        -- exfalso. rewrite K2 in G6. assert (x :: d2 = []); [apply G6; intros n []|discriminate].
        -- intros St. assert (x :: d2 = []); [|discriminate]. apply G6. intros n Hn.
           rewrite H1, <- app_assoc in St. cbn [app] in St. exact (St u' (sk_events s1) n eq_refl Hn).
  - inversion E; subst r w' s2. destruct G5 as [G5 G7].
    exists (used ++ used2), (d ++ d2). rewrite <- app_assoc, <- G1. split; [exact H1|].
    split; [congruence|]. split; [now rewrite G3, H3, app_assoc|]. split; [exact H4|]. split; [lia|].
    split; [exact G5|]. split; [rewrite H1; apply in_or_app; now right|].
    destruct K3 as [K3|[-> K3]].
    + right. left. split; [exact K3|]. exists d2, rest. rewrite K3, app_nil_r in K1. rewrite K1. auto.
    + subst w1. right. right. cbn [app]. split; [reflexivity|]. split; [exact Hz|]. split; [lia|]. eauto.
Qed.

Lemma wr_flush_spec w s r w' s' : wr_inv w -> wr_flush w s = (r, w', s') ->
  exists used d, sk_events s = used ++ sk_events s' /\ sk_sent s' = sk_sent s ++ d /\
    (exists uf, sk_flushes s = uf ++ sk_flushes s') /\ wr_inv w' /\ wr_cap w' = wr_cap w /\
    match r with
    | WOk _ => unsent w = d ++ unsent w' /\
               (unsent w' = [] \/ sk_events s' = [] \/ exists u, used = u ++ [WFail WouldBlock])
    | WErr k => k <> WouldBlock /\
        ((In (WFail k) (sk_events s) /\ w' = w /\ exists rest, unsent w = d ++ rest) \/
         (In (Some k) (sk_flushes s) /\ unsent w = d ++ unsent w'))
    end.
Proof.
  intros I E. unfold wr_flush in E.
  destruct (flush_buf w s) as [[[[]|k] w1] s1] eqn:Ef; apply flush_buf_spec in Ef; auto;
    destruct Ef as (used & d & H1 & H2 & H3 & H4 & H5 & H6 & H7).
  - destruct H7 as (K1 & K2 & _). unfold flush_inner in E. rewrite H2 in E.
    destruct (sk_flushes s) as [|f fl] eqn:F.
    + inversion E; subst. exists used, d. rewrite H2. split; [exact H1|]. split; [exact H3|].
      split; [now exists []|]. auto.
    + destruct f as [k|].
      * assert (Ks : k = WouldBlock \/ k <> WouldBlock) by (destruct k; (now left) || (right; discriminate)).
        destruct Ks as [->|Ks].
        -- inversion E; subst. exists used, d. cbn [sk_events sk_sent sk_flushes]. split; [exact H1|].
           split; [exact H3|]. split; [now exists [Some WouldBlock]|]. auto.
        -- assert (E' : (WErr k, w1, mk_sock (sk_events s1) fl (sk_sent s1)) = (r, w', s')) by (destruct k; congruence).
           inversion E'; subst. exists used, d. cbn [sk_events sk_sent sk_flushes]. split; [exact H1|].
           split; [exact H3|]. split; [now exists [Some k]|]. split; [exact H4|]. split; [exact H5|]. split; [exact Ks|].
           right. split; [now left|exact K1].
      * inversion E; subst. exists used, d. cbn [sk_events sk_sent sk_flushes]. split; [exact H1|].
        split; [exact H3|]. split; [now exists [None]|]. auto.
  - inversion E; subst. destruct H7 as (K1 & K2 & -> & K3). exists used, d. split; [exact H1|]. split; [exact H3|].
    split; [exists []; now rewrite H2|]. split; [exact H4|]. split; [exact H5|]. split; [exact K1|]. left. auto.
Qed.
