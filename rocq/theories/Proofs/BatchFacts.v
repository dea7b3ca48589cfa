(** The reference parser's final outcomes do not depend on what follows. *)
From Coq Require Import List Ascii String NArith ZArith Bool Lia.
From Coq Require Import ZifyBool ZifyNat ZifyN.
From Verif.Model Require Import Bytes Common Parse.
From Verif.Spec Require Import Batch.
From Verif.Proofs Require Import BytesFacts ParseFacts.
Import ListNotations.
Local Open Scope N_scope.

Definition stable {T} (x : bytes) (o o' : outcome T) : Prop :=
  match o with
  | Complete v r => o' = Complete v (r ++ x)
  | Bad e => o' = Bad e
  | _ => True
  end.

Lemma headers_stable x b : forall n m, stable x (batch_headers n m b) (batch_headers n m (b ++ x)).
Proof.
  induction b as [b IH] using (well_founded_induction (Wf_nat.well_founded_ltof _ (@List.length byte))).
  intros n m. rewrite !batch_headers_eq.
  destruct (cut_line b) as [[[e|l] r]|] eqn:E; [| |exact I].
  - apply cut_line_ext with (x := x) in E. now rewrite E.
  - assert (L := cut_line_length _ _ _ E). apply cut_line_ext with (x := x) in E. rewrite E.
    destruct l as [|c l]; [reflexivity|]. destruct (parse_header (c :: l)) as [e|[k v]]; [reflexivity|].
    apply IH. exact L.
Qed.

Lemma chunks_stable x b : forall n body, stable x (batch_chunks n body b) (batch_chunks n body (b ++ x)).
Proof.
  induction b as [b IH] using (well_founded_induction (Wf_nat.well_founded_ltof _ (@List.length byte))).
  intros n body. rewrite !batch_chunks_eq.
  destruct (cut_line b) as [[[e|l] r]|] eqn:E; [| |exact I].
  - apply cut_line_ext with (x := x) in E. now rewrite E.
  - assert (L := cut_line_length _ _ _ E). apply cut_line_ext with (x := x) in E. rewrite E.
    destruct (parse_chunk_size l) as [e|size]; [reflexivity|].
    unfold batch_data. cbn [app]. rewrite len_app.
    destruct (N.ltb_spec (len r) size) as [H|H]; [exact I|]. replace (_ <? size) with false by lia.
    rewrite firstn_app, skipn_app.
    replace (N.to_nat size - List.length r)%nat with 0%nat by (unfold len in H; lia).
    cbn [firstn skipn]. rewrite app_nil_r.
    unfold batch_tail. pose proof (skipn_length_le (N.to_nat size) r) as L2.
    destruct (cut_line (skipn (N.to_nat size) r)) as [[[e|l2] r2]|] eqn:E2; [| |exact I].
    + apply cut_line_ext with (x := x) in E2. now rewrite E2.
    + assert (L3 := cut_line_length _ _ _ E2). apply cut_line_ext with (x := x) in E2. rewrite E2.
      destruct l2; [|reflexivity]. destruct (size =? 0); [reflexivity|].
      apply IH. unfold Wf_nat.ltof. lia.
Qed.

Lemma stable_omap {A B} (f : A -> B) x o o' : stable x o o' -> stable x (omap f o) (omap f o').
Proof. destruct o; cbn; intros H; rewrite ?H; auto. Qed.

Lemma stable_obind {A B} (f : A -> bytes -> outcome B) x o o' :
  stable x o o' -> (forall a r, stable x (f a r) (f a (r ++ x))) -> stable x (obind o f) (obind o' f).
Proof. intros H Hf. destruct o; cbn in H |- *; subst; cbn; auto. Qed.

Lemma msg_stable {T} (pf : bytes -> perr + T) to_eof b x :
  stable x (batch_msg pf to_eof b) (batch_msg pf to_eof (b ++ x)).
Proof.
  unfold batch_msg. apply stable_obind.
  - unfold batch_first. destruct (cut_line b) as [[[e|l] r]|] eqn:E; [| |exact I].
    + apply cut_line_ext with (x := x) in E. now rewrite E.
    + apply cut_line_ext with (x := x) in E. rewrite E. now destruct (pf l).
  - intros t r. apply stable_obind; [apply headers_stable|]. intros h r2.
    unfold batch_after_headers. destruct (framing_of h to_eof) as [e|[n| | |]]; [reflexivity|..]; apply stable_omap; cbn [batch_body].
    + rewrite len_app. destruct (N.ltb_spec (len r2) n); [exact I|]. replace (_ <? n) with false by lia.
      cbn [stable]. rewrite firstn_app, skipn_app.
      replace (N.to_nat n - List.length r2)%nat with 0%nat by (unfold len in *; lia).
      cbn [firstn skipn]. now rewrite app_nil_r.
    + apply chunks_stable.
    + exact I.
    + reflexivity.
Qed.

Lemma request_stable b x : stable x (batch_request b) (batch_request (b ++ x)).
Proof. apply stable_omap, msg_stable. Qed.
Lemma response_stable b x : stable x (batch_response b) (batch_response (b ++ x)).
Proof. apply stable_omap, msg_stable. Qed.

Lemma batch_request_bad_ext b e x : batch_request b = Bad e -> batch_request (b ++ x) = Bad e.
Proof. intros H. pose proof (request_stable b x) as S. now rewrite H in S. Qed.
Lemma batch_request_complete_ext b v r x :
  batch_request b = Complete v r -> batch_request (b ++ x) = Complete v (r ++ x).
Proof. intros H. pose proof (request_stable b x) as S. now rewrite H in S. Qed.
Lemma batch_response_complete_ext b v r x :
  batch_response b = Complete v r -> batch_response (b ++ x) = Complete v (r ++ x).
Proof. intros H. pose proof (response_stable b x) as S. now rewrite H in S. Qed.
