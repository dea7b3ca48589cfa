(** Streams that have only finitely much to give before they block, end or fail. *)
From Coq Require Import List NArith.
From Verif.Model Require Import Bytes Io Common Parse Writer.
Import ListNotations.
Local Open Scope N_scope.

Section Finite.
Variable T : Type.
Variable t_read : N -> T -> (ekind + bytes) * T.
Variable t_write : bytes -> T -> wres N * T.
Variable t_flush : T -> wres unit * T.

(** How much is left of what a stream can give, and which streams this is about.  A call uses up what it gives; no call makes more; a call that is
    interrupted uses something up, so that a stream cannot interrupt for ever; a write that takes nothing and does not block does too. *)
Variable left : T -> nat.
Variable sane : T -> Prop.
Record finite : Prop := mk_finite {
  finite_read : forall n t x t', 0 < n -> sane t -> t_read n t = (x, t') ->
    sane t' /\ (left t' <= left t)%nat /\
    match x with
    | inl k => k <> ModelFuel /\ (k = Interrupted -> (left t' < left t)%nat)
    | inr bs => (left t' + List.length bs <= left t)%nat
    end;
  finite_write : forall b t x t', b <> [] -> sane t -> t_write b t = (x, t') ->
    sane t' /\ (left t' <= left t)%nat /\
    match x with
    | WOk n => n = 0 -> (left t' < left t)%nat
    | WErr k => k <> ModelFuel /\ (k = Interrupted -> (left t' < left t)%nat)
    end;
  finite_flush : forall t x t', sane t -> t_flush t = (x, t') -> sane t' /\ (left t' <= left t)%nat /\ x <> WErr ModelFuel }.
End Finite.

Section Patient.
Variable T : Type.
Variable t_read : N -> T -> (ekind + bytes) * T.
Variable t_write : bytes -> T -> wres N * T.
Variable t_flush : T -> wres unit * T.

(** Streams, also such as never end, that are interrupted only so often: [left] bounds how often.  A read gives no more than was asked for. *)
Variable left : T -> nat.
Variable sane : T -> Prop.
Record patient : Prop := mk_patient {
  patient_read : forall n t x t', 0 < n -> sane t -> t_read n t = (x, t') ->
    sane t' /\ (left t' <= left t)%nat /\
    match x with inl k => k <> ModelFuel /\ (k = Interrupted -> (left t' < left t)%nat) | inr bs => len bs <= n end;
  patient_write : forall b t x t', b <> [] -> sane t -> t_write b t = (x, t') ->
    sane t' /\ (left t' <= left t)%nat /\ match x with WOk _ => True | WErr k => k <> ModelFuel /\ (k = Interrupted -> (left t' < left t)%nat) end;
  patient_flush : forall t x t', sane t -> t_flush t = (x, t') -> sane t' /\ (left t' <= left t)%nat /\ x <> WErr ModelFuel }.

(** Counters that go up by one at most with a call of read; that go up by no more than what a read gave.  Among them are those that count exactly. *)
Record counts_reads (count : T -> N) : Prop := mk_counts_reads {
  cr_read : forall n t x t', t_read n t = (x, t') -> count t' <= count t + 1;
  cr_write : forall b t x t', t_write b t = (x, t') -> count t' <= count t;
  cr_flush : forall t x t', t_flush t = (x, t') -> count t' <= count t }.
Record counts_bytes (count : T -> N) : Prop := mk_counts_bytes {
  cb_read : forall n t x t', t_read n t = (x, t') -> count t' <= count t + match x with inl _ => 0 | inr bs => len bs end;
  cb_write : forall b t x t', t_write b t = (x, t') -> count t' <= count t;
  cb_flush : forall t x t', t_flush t = (x, t') -> count t' <= count t }.
End Patient.

(** The sum over several streams. *)
Fixpoint total_of (T : Type) (f : T -> N) (l : list T) : N := match l with [] => 0 | t :: r => f t + total_of T f r end.
