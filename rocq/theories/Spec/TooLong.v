(** Requests with a line that is too long. *)
From Coq Require Import List Ascii NArith.
From Verif.Model Require Import Bytes Io Common Parse.
From Verif.Spec Require Import Batch Session.
Import ListNotations.
Local Open Scope N_scope.

(** A line of the head that has reached the limit of 512 bytes, in a head of at most 4096 bytes. *)
Definition full_line (p : progress) : Prop :=
  match p with InFirst l => len l = 512 | InHeaders n l => len l = 512 /\ n <= 4096 | _ => False end.
(** The bytes z are the beginning of a request up to a byte where a line reaches the limit. *)
Definition overflow (z : bytes) : Prop := exists p, batch_request z = Incomplete p /\ full_line p.

(** Every first part of the bytes, without the last of them, leaves a request within the limits and can be followed by a pause. *)
Definition nearly_fair (b : bytes) : Prop :=
  forall w x, b = w ++ x -> x <> [] -> clean (last_outcome w) /\ in_limits (last_outcome w).
