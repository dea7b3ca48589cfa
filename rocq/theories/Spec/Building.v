(** What a program wrote when it built a message. *)
From Coq Require Import List Ascii String NArith Bool.
From Verif.Model Require Import Bytes Common Convert.
From Verif.Spec Require Import Numerals Names Grammar.
Import ListNotations.
Local Open Scope N_scope.

(** The name the program wrote: its text, in the spelling used, or the name of the constant. *)
Definition written_name (a : header_arg) : bytes :=
  match a with
  | ByText s | ByString s => s
  | ByHeader (Standard s) | ByHeader (Custom s) => s
  end.
Definition written (l : list (header_arg * bytes)) : list (bytes * bytes) := map (fun p => (written_name (fst p), snd p)) l.

(** Names are texts in any spelling or the constants of the library. *)
Definition named (a : header_arg) : Prop :=
  match a with
  | ByText _ | ByString _ => True
  | ByHeader h => exists n, In n standard_names /\ h = Standard (lit n)
  end.

(** The size limits, of what the program wrote. *)
Definition sizes_fit (first : N) (ps : list (bytes * bytes)) (body : bytes) : Prop :=
  first <= 510 /\ Forall (fun p => len (fst p) + 2 + len (snd p) <= 510) ps /\
  len (header_lines ps) + 2 <= 4096 /\ 2 * len body <= 3145728.
