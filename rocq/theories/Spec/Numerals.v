(** What digit strings denote. *)
From Coq Require Import List Ascii String NArith Bool.
From Verif.Model Require Import Bytes.
Import ListNotations.
Local Open Scope N_scope.

(** The character c is the digit d of the given radix (at most 16). *)
Definition is_digit (radix : N) (c : byte) (d : N) : Prop :=
  d < radix /\
  ((48 <= bval c <= 57 /\ d = bval c - 48)          (* 0-9 *)
   \/ (97 <= bval c <= 102 /\ d = 10 + (bval c - 97)) (* a-f *)
   \/ (65 <= bval c <= 70 /\ d = 10 + (bval c - 65))). (* A-F *)

(** Positional value, most significant digit first. *)
Fixpoint positional (radix : N) (ds : list N) : N :=
  match ds with
  | [] => 0
  | d :: ds' => d * radix ^ len ds' + positional radix ds'
  end.

(** An optional plus sign followed by at least one digit. *)
Definition denotes (radix : N) (s : bytes) (n : N) : Prop :=
  exists digits ds,
    (s = digits \/ s = "+"%char :: digits) /\ digits <> [] /\
    Forall2 (is_digit radix) digits ds /\ n = positional radix ds.
