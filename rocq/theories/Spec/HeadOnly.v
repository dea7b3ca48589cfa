(** Responses that end with their header lines: by RFC 7230 section 3.3.3 those with the statuses 204 and 304 (and 1xx, see
    C82), whatever their headers say of a length.  The theorems hold for every status. *)
From Coq Require Import List Ascii String NArith Bool.
From Verif.Model Require Import Bytes Common.
From Verif.Spec Require Import Numerals Names Grammar.
Import ListNotations.
Local Open Scope N_scope.

Definition head_only (h : bytes) (code : N) (ps : list (bytes * bytes)) : Prop :=
  exists l, status_line code l /\ text l /\ Forall header_ok ps /\ h = l ++ crlf ++ header_lines ps ++ crlf.
(** The first content-length is zero. *)
Definition says_empty (ps : list (bytes * bytes)) : Prop :=
  exists v vs, values_named (lit "content-length") ps (v :: vs) /\ denotes 10 v 0.
(** The headers are in order: a first content-length is a number that a body may have. *)
Definition length_fine (ps : list (bytes * bytes)) : Prop :=
  forall v vs, values_named (lit "content-length") ps (v :: vs) -> exists n, denotes 10 v n /\ n <= 3145728.
