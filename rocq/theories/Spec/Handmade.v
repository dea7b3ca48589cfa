(** Messages whose headers were made in any way the types allow. *)
From Coq Require Import List Ascii String NArith Bool.
From Verif.Model Require Import Bytes Common.
From Verif.Spec Require Import Numerals Names Grammar.
Import ListNotations.
Local Open Scope N_scope.

(** The first header line named content-length, in any spelling, states the length of the body; or there is no body, no
    such line, and the first line named transfer-encoding does not speak of chunks. *)
Definition says_length (ps : list (bytes * bytes)) (body : bytes) : Prop :=
  (exists v vs, values_named (lit "content-length") ps (v :: vs) /\ denotes 10 v (len body)) \/
  (values_named (lit "content-length") ps [] /\ body = [] /\
   exists vs, values_named (lit "transfer-encoding") ps vs /\
     forall v vs', vs = v :: vs' -> ~ exists a r, v = a ++ lit "chunked" ++ r).

(** The text contains one of the letters A-Z. *)
Definition has_capital (n : bytes) : Prop := exists c, In c n /\ 65 <= bval c <= 90.
