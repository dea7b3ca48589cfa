(** Single calls and reachable states. *)
From Coq Require Import List Ascii String NArith ZArith Bool Lia.
From Coq Require Import ZifyBool ZifyNat ZifyN.
From Verif.Model Require Import Bytes Io Common Parse.
From Verif.Spec Require Import Batch Stream Drive.
From Verif.Proofs Require Import BytesFacts IoFacts ParseFacts DriveFacts.
Import ListNotations.
Local Open Scope N_scope.

Lemma reached_inv {T St} (parse : St -> stream -> pres T St * stream) st0 (Inv : N -> St -> Prop) cont g0 :
  parser_ok parse Inv cont -> Inv g0 st0 ->
  forall st, reached parse st0 st -> exists g, Inv g st.
Proof.
  intros Hp H0 st. induction 1 as [|st s st' k s' _ [g Hg] E]; eauto.
  destruct (Hp _ _ _ _ _ Hg E) as (w & _ & _ & H & _). exact H.
Qed.

Lemma takes_in s w s' e : takes s w (e :: s') -> (forall bs, e <> RData bs) -> In e s.
Proof.
  remember (e :: s') as t. intros H Hn. induction H; subst; cbn; auto.
  inversion Heqt; subst. exfalso. eapply Hn; reflexivity.
Qed.

Lemma no_fuel {T St} (parse : St -> stream -> pres T St * stream) st0 (Inv : N -> St -> Prop) cont g0 :
  parser_ok parse Inv cont -> Inv g0 st0 ->
  forall st s st' s', reached parse st0 st -> parse st s = (PIo st' ModelFuel, s') ->
  In (RErr ModelFuel) s.
Proof.
  intros Hp H0 st s st' s' Hr E. destruct (reached_inv _ _ _ _ _ Hp H0 _ Hr) as [g Hg].
  destruct (Hp _ _ _ _ _ Hg E) as (w & _ & Hs & _).
  destruct Hs as [[[Hs|[Hs _]] _]|[(Hs & _)|(Hs & _)]]; try discriminate.
  eapply takes_in; eauto. discriminate.
Qed.

(** A finished call has read exactly a message, whatever it was fed before it. *)
Lemma call_done {T St} (parse : St -> stream -> pres T St * stream) (Inv : N -> St -> Prop) cont g st s v s' :
  parser_ok parse Inv cont -> Inv g st -> parse st s = (PDone v, s') ->
  (exists w, pending s = w ++ pending s' /\ forall x, cont g st (w ++ x) = Complete v x)
  \/ (exists w n, pending s = w ++ pending s' /\ cont g st w = AtEof v n).
Proof.
  intros Hp Hi E. destruct (Hp _ _ _ _ _ Hi E) as (w & [(H1 & H2)|(H1 & n & H2)]); [left|right].
  - exists w. split; auto. now apply takes_pending.
  - exists w, n. split; auto. now apply takes_pending in H1.
Qed.

Lemma batch_request_not_eof b v n : batch_request b <> AtEof v n.
Proof.
  unfold batch_request, batch_msg, batch_first.
  destruct (cut_line b) as [[[e|l] rest]|]; try discriminate.
  destruct (parse_request_line l) as [e|t]; try discriminate. cbn [obind].
  destruct (batch_headers 0 [] rest) as [hm r|p|v0 n0|e] eqn:E; try discriminate.
  cbn [obind]. unfold batch_after_headers. destruct (framing_of hm false) as [e|fr] eqn:Ef; try discriminate.
  destruct fr; cbn [batch_body].
  - destruct (_ <? _); discriminate.
  - destruct (batch_chunks 0 [] r) eqn:Ec; try discriminate. exfalso. revert Ec. apply batch_chunks_not_eof.
  - exfalso. unfold framing_of in Ef.
    repeat match goal with H : context [match ?x with _ => _ end] |- _ => destruct x end; discriminate.
  - discriminate.
Qed.

(** The bytes of a stream determine nothing else: appending to a decided input does not matter. *)
Lemma cut_line_some_app b e r x : cut_line b = Some (e, r) -> cut_line (b ++ x) = Some (e, r ++ x).
Proof. apply cut_line_ext. Qed.
