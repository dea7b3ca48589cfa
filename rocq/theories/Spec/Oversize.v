(** What becomes of peers that send more than the limits allow: no streams, no parser states, no sockets. *)
From Coq Require Import List Ascii NArith Bool.
From Verif.Model Require Import Bytes Io Common Parse Encode Writer Server.
From Verif.Spec Require Import Batch Stream Drive Output Session.
Import ListNotations.

(** [too_big rt h b log out]: after the requests h have been routed, the bytes b begin with the complete requests log, to
    which out is the answer, none of which asks to close; and then with an unfinished request that is over the limits. *)
Inductive too_big (rt : router) : list request -> bytes -> list request -> bytes -> Prop :=
| too_big_here h b w x p : b = w ++ x -> batch_request w = Incomplete p -> ~ small p -> too_big rt h b [] []
| too_big_next h b v rest log out : batch_request b = Complete v rest -> ~ asks_close v ->
    too_big rt (h ++ [v]) rest log out -> too_big rt h b (v :: log) (reply (rt h v) ++ out).

(** Input of any size that arrives in pieces, blocks only between characters (any place in an ASCII head or in a body), and
    is not interrupted inside a body. *)
Definition any_size (eof : bool) (s : stream) : Prop :=
  live_eof eof s /\ blocks_in_clean_lines last_outcome s /\ no_interrupt_in_data last_outcome s /\
  (eof = false -> clean (last_outcome (pending s))).

(** Bytes of any size of which every first part can be followed by a pause (which after any part of an ASCII head or of a
    body is so). *)
Definition whole_chars (b : bytes) : Prop := forall w x, b = w ++ x -> clean (last_outcome w).
