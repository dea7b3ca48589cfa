(** What does not depend on the pieces in which a stream delivers. *)
From Coq Require Import List Ascii String NArith ZArith Bool Lia.
From Verif.Model Require Import Bytes Io Common Parse Encode Writer Server.
From Verif.Spec Require Import Batch Stream Drive Session Buffering.
Import ListNotations.

Definition byte_of (w : what) : bytes := match w with Byte b => [b] | _ => [] end.
Definition event_of (w : what) : option revent :=
  match w with Byte _ => None | End => Some (RData []) | Failure k => Some (RErr k) end.

Lemma content_app a b : content (a ++ b) = content a ++ content b.
Proof. apply flat_map_app. Qed.

Lemma bytes_map bs : flat_map byte_of (map Byte bs) = bs.
Proof. induction bs; cbn; congruence. Qed.

Lemma pending_content s : pending s = flat_map byte_of (content s).
Proof.
  induction s as [|x s IH]; [reflexivity|].
  change (content (x :: s)) with (content_of x ++ content s). rewrite flat_map_app, <- IH.
  destruct x as [[|b bs]|k]; [reflexivity| |reflexivity].
  change (content_of (RData (b :: bs))) with (map Byte (b :: bs)). rewrite bytes_map. reflexivity.
Qed.

Lemma recut_pending s s' : recut s s' -> pending s = pending s'.
Proof. unfold recut. intros H. now rewrite !pending_content, H. Qed.

Lemma past_bytes l : forall rest A w B e, event_of w = Some e -> map Byte l ++ rest = A ++ w :: B ->
  exists C, A = map Byte l ++ C /\ rest = C ++ w :: B.
Proof.
  induction l as [|b l IH]; intros rest A w B e He E; [exists A; auto|].
  destruct A as [|a A]; cbn [map app] in E; inversion E; subst; [discriminate|].
  destruct (IH _ _ _ _ _ He H1) as (C & -> & ->). exists C. auto.
Qed.

(** An end or an error stands at the same place. *)
Lemma content_split s : forall A w B e, event_of w = Some e -> content s = A ++ w :: B ->
  exists s1 s2, s = s1 ++ e :: s2 /\ content s1 = A /\ content s2 = B.
Proof.
  induction s as [|x s IH]; intros A w B e He E; [destruct A; discriminate|].
  change (content (x :: s)) with (content_of x ++ content s) in E.
  assert (Step : forall C, A = content_of x ++ C -> content s = C ++ w :: B ->
    exists s1 s2, x :: s = s1 ++ e :: s2 /\ content s1 = A /\ content s2 = B).
  { intros C -> E'. destruct (IH C w B e He E') as (s1 & s2 & -> & <- & <-). exists (x :: s1), s2. auto. }
  destruct x as [[|b bs]|k].
  - destruct A as [|a A]; cbn [content_of app] in E; inversion E; subst; [|apply (Step A); auto].
    cbn in He. inversion He; subst. exists [], s. auto.
  - destruct (past_bytes (b :: bs) _ _ _ _ _ He E) as (C & H1 & H2). apply (Step C); auto.
  - destruct A as [|a A]; cbn [content_of app] in E; inversion E; subst; [|apply (Step A); auto].
    cbn in He. inversion He; subst. exists [], s. auto.
Qed.

Lemma recut_split s s' s1 k s2 : recut s s' -> s = s1 ++ RErr k :: s2 ->
  exists s1' s2', s' = s1' ++ RErr k :: s2' /\ recut s1 s1' /\ recut s2 s2'.
Proof.
  unfold recut. intros E ->. rewrite content_app in E. symmetry in E.
  change (content (RErr k :: s2)) with (Failure k :: content s2) in E.
  destruct (content_split s' _ (Failure k) _ (RErr k) eq_refl E) as (a & b & -> & <- & <-). exists a, b. auto.
Qed.

Lemma recut_sym s s' : recut s s' -> recut s' s.
Proof. unfold recut. auto. Qed.

Definition live_what (w : what) : Prop :=
  match w with Byte _ => True | End => False | Failure k => k = WouldBlock \/ k = Interrupted end.

Lemma live_content s : live s <-> Forall live_what (content s).
Proof.
  unfold live. induction s as [|x s IH]; [split; intros; apply Forall_nil|].
  change (content (x :: s)) with (content_of x ++ content s). rewrite Forall_app, Forall_cons_iff, IH.
  assert (live_event x <-> Forall live_what (content_of x)) as ->; [|tauto].
  destruct x as [[|b bs]|k]; cbn [live_event content_of].
  - split; [intros []; auto|intros H; inversion H; subst; contradiction].
  - split; [intros _; apply Forall_map, Forall_forall; cbn; auto|discriminate].
  - split; [intros; constructor; auto|intros H; now inversion H].
Qed.

Lemma recut_live s s' : recut s s' -> live s -> live s'.
Proof. unfold recut. intros E. now rewrite !live_content, E. Qed.

Definition flowing_what (w : what) : Prop := match w with Byte _ => True | _ => False end.

Lemma flowing_content s : flowing s <-> Forall flowing_what (content s).
Proof.
  unfold flowing. induction s as [|x s IH]; [split; intros; apply Forall_nil|].
  change (content (x :: s)) with (content_of x ++ content s). rewrite Forall_app, Forall_cons_iff, IH.
  assert (flowing_event x <-> Forall flowing_what (content_of x)) as ->; [|tauto].
  destruct x as [[|b bs]|k]; cbn [flowing_event content_of].
  - split; [intros []; auto|intros H; inversion H; subst; contradiction].
  - split; [intros _; apply Forall_map, Forall_forall; cbn; auto|discriminate].
  - split; [intros []|intros H; inversion H; subst; contradiction].
Qed.

Lemma recut_flowing s s' : recut s s' -> flowing s -> flowing s'.
Proof. unfold recut. intros E. now rewrite !flowing_content, E. Qed.

Lemma recut_live_eof eof s s' : recut s s' -> live_eof eof s -> live_eof eof s'.
Proof.
  intros E (s0 & L & ->). destruct eof.
  - unfold recut in E. rewrite content_app in E. symmetry in E.
    destruct (content_split s' _ End [] (RData []) eq_refl E) as (a & b & -> & Ea & Eb).
    assert (b = []) as -> by (destruct b as [|[[|]|] b]; auto; discriminate Eb).
    exists a. split; auto. apply (recut_live s0); auto. unfold recut. auto.
  - rewrite app_nil_r in E. exists s'. rewrite app_nil_r. split; auto. now apply (recut_live s0).
Qed.

Definition is_block (w : what) : bool := match w with Failure WouldBlock => true | _ => false end.
Lemma blocks_content s : blocks s = List.length (filter is_block (content s)).
Proof.
  induction s as [|x s IH]; [reflexivity|].
  change (content (x :: s)) with (content_of x ++ content s). rewrite filter_app, app_length, <- IH.
  assert (Hb : forall l, filter is_block (map Byte l) = []) by (induction l; cbn; auto).
  destruct x as [[|b bs]|k]; [reflexivity| |destruct k; reflexivity].
  change (content_of (RData (b :: bs))) with (map Byte (b :: bs)). rewrite Hb. reflexivity.
Qed.

Lemma recut_blocks s s' : recut s s' -> blocks s = blocks s'.
Proof. unfold recut. intros E. now rewrite !blocks_content, E. Qed.

Lemma recut_clean {T} (batch : bytes -> outcome T) s s' : recut s s' ->
  blocks_in_clean_lines batch s -> blocks_in_clean_lines batch s'.
Proof.
  intros E H s1 s2 E'. destruct (recut_split s' s s1 WouldBlock s2 (recut_sym _ _ E) E') as (a & b & Ea & R & _).
  rewrite (recut_pending _ _ R). eauto.
Qed.

Lemma recut_interrupt {T} (batch : bytes -> outcome T) s s' : recut s s' ->
  no_interrupt_in_data batch s -> no_interrupt_in_data batch s'.
Proof.
  intros E H s1 s2 E'. destruct (recut_split s' s s1 Interrupted s2 (recut_sym _ _ E) E') as (a & b & Ea & R & _).
  rewrite (recut_pending _ _ R). eauto.
Qed.

Lemma recut_orderly eof s s' : recut s s' -> orderly eof s -> orderly eof s'.
Proof.
  intros E (H1 & H2 & H3 & H4 & H5). unfold orderly. rewrite <- (recut_pending _ _ E).
  repeat split; eauto using recut_live_eof, recut_clean, recut_interrupt.
Qed.
