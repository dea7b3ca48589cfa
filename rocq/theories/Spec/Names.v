(** Header names and header multimaps, stated without the library's representation. *)
From Coq Require Import List Ascii String NArith Bool.
From Verif.Model Require Import Bytes Common.
Import ListNotations.
Local Open Scope N_scope.

(** Equal ignoring ASCII case: byte by byte equal, or the two cases of one of the letters A-Z. *)
Definition ci_byte (c d : byte) : Prop :=
  c = d \/ exists n, 65 <= n <= 90 /\
    ((bval c = n /\ bval d = n + 32) \/ (bval c = n + 32 /\ bval d = n)).
Definition same_name (a b : bytes) : Prop := Forall2 ci_byte a b.

(** Equality of header maps as maps: equal lookups. *)
Definition hm_equiv (a b : header_map) : Prop := forall k, hm_get k a = hm_get k b.

(** The values listed under k, in order. *)
Definition values_of {K V} (eqb : K -> K -> bool) (k : K) (ps : list (K * V)) : list V :=
  map snd (filter (fun p => eqb (fst p) k) ps).

Definition nonempty {A} (l : list A) : option (list A) :=
  match l with [] => None | _ => Some l end.
