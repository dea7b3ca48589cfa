(** Boolean checks of the hypotheses of the streaming theorems, for concrete examples. *)
From Coq Require Import List Ascii String NArith ZArith Bool Lia.
From Coq Require Import ZifyBool ZifyNat ZifyN.
From Verif.Model Require Import Bytes Io Common Parse.
From Verif.Spec Require Import Batch Stream Drive.
Import ListNotations.
Local Open Scope N_scope.

Definition small_b (p : progress) : bool :=
  (len (line_of p) <? 512) &&
  match p with
  | InFirst _ => true
  | InHeaders n _ => n <? 4096
  | InSized size _ => 2 * size <=? 3145728
  | InChunkLine n _ => n <? 3145728
  | InChunkData n => n <? 3145728
  end.
Definition in_limits_b {T} (o : outcome T) : bool :=
  match o with Incomplete p => small_b p | AtEof _ n => n <? 3145728 | _ => true end.
Lemma in_limits_b_ok {T} (o : outcome T) : in_limits_b o = true -> in_limits o.
Proof.
  destruct o as [|p| |]; cbn [in_limits_b in_limits]; auto; [|intros; lia].
  unfold small_b, small. intros H. apply andb_true_iff in H as [H1 H2].
  destruct p; split; try exact I; lia.
Qed.

Fixpoint prefixes (b : bytes) : list bytes :=
  match b with [] => [[]] | c :: b' => [] :: map (cons c) (prefixes b') end.
Lemma prefixes_ok w x : In w (prefixes (w ++ x)).
Proof.
  induction w as [|c w IH]; cbn; [destruct x; cbn; auto|]. right. now apply in_map.
Qed.

Definition always_in_limits_b {T} (batch : bytes -> outcome T) (b : bytes) : bool :=
  forallb (fun w => in_limits_b (batch w)) (prefixes b).
Lemma always_in_limits_b_ok {T} (batch : bytes -> outcome T) b :
  always_in_limits_b batch b = true -> always_in_limits batch b.
Proof.
  intros H w x ->. unfold always_in_limits_b in H. rewrite forallb_forall in H.
  apply in_limits_b_ok, H, prefixes_ok.
Qed.

Definition clean_b {T} (o : outcome T) : bool :=
  match o with Incomplete p => utf8 (line_of p) | _ => true end.
Definition in_data_b {T} (o : outcome T) : bool :=
  match o with Incomplete (InSized _ _) | Incomplete (InChunkData _) => true | _ => false end.

Fixpoint cuts_b {T} (k : ekind -> bool) (test : outcome T -> bool) (batch : bytes -> outcome T)
  (pre : bytes) (s : stream) : bool :=
  match s with
  | [] => true
  | RData bs :: s' => cuts_b k test batch (pre ++ bs) s'
  | RErr e :: s' => (if k e then test (batch pre) else true) && cuts_b k test batch pre s'
  end.
Lemma cuts_b_ok {T} k test (batch : bytes -> outcome T) s : forall pre,
  cuts_b k test batch pre s = true ->
  forall s1 e s2, k e = true -> s = s1 ++ RErr e :: s2 -> test (batch (pre ++ pending s1)) = true.
Proof.
  induction s as [|[bs|e] s IH]; intros pre H s1 e' s2 Hk E; destruct s1 as [|e1 s1]; inversion E; subst.
  - cbn. rewrite app_assoc. eapply IH; eauto.
  - cbn in H. rewrite Hk in H. apply andb_true_iff in H as [H _]. cbn. now rewrite app_nil_r.
  - cbn in H. apply andb_true_iff in H as [_ H]. cbn. eapply IH; eauto.
Qed.

Definition is_wb (k : ekind) : bool := match k with WouldBlock => true | _ => false end.
Definition is_intr (k : ekind) : bool := match k with Interrupted => true | _ => false end.

Lemma blocks_clean_b_ok {T} (batch : bytes -> outcome T) s :
  cuts_b is_wb clean_b batch [] s = true -> blocks_in_clean_lines batch s.
Proof.
  intros H s1 s2 E. pose proof (cuts_b_ok _ _ _ _ _ H _ _ _ (eq_refl : is_wb WouldBlock = true) E) as H1.
  cbn in H1. destruct (batch (pending s1)); cbn in *; auto.
Qed.
Lemma no_intr_b_ok {T} (batch : bytes -> outcome T) s :
  cuts_b is_intr (fun o => negb (in_data_b o)) batch [] s = true -> no_interrupt_in_data batch s.
Proof.
  intros H s1 s2 E. pose proof (cuts_b_ok _ _ _ _ _ H _ _ _ (eq_refl : is_intr Interrupted = true) E) as H1.
  cbn in H1. destruct (batch (pending s1)) as [|[]| |]; cbn in *; auto; discriminate.
Qed.

Definition live_b (s : stream) : bool :=
  forallb (fun e => match e with
                    | RData [] => false | RData _ => true
                    | RErr WouldBlock => true | RErr Interrupted => true | RErr _ => false end) s.
Lemma live_b_ok s : live_b s = true -> live s.
Proof.
  unfold live_b. intros H. apply Forall_forall. rewrite forallb_forall in H. intros e He.
  specialize (H e He). destruct e as [[|]|[]]; cbn; try discriminate; auto.
Qed.
