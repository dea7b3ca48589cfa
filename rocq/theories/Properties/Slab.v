(** C34-C35: the slab of connections. *)
From Coq Require Import List Bool Arith Lia.
From Verif.Model Require Import Slab.
From Verif.Spec Require Import Slots.
From Verif.Proofs Require Import SlabFacts.
Import ListNotations.

(** Non-vacuity: three insertions, two removals, a removal that finds nothing, an insertion that reuses a key. *)
Definition example_acts : list (act nat) :=
  [Put 1 40; Missed 7; Took 1 20; Took 0 10; Put 2 30; Put 1 20; Put 0 10].
Example example_history : exists s, history s example_acts /\ get s 1 = Some 40 /\ get s 0 = None.
Proof.
  eexists. split; [|split].
  - unfold example_acts.
    eapply history_insert.
    1: eapply (history_remove _ _ 7 None).
    1: eapply (history_remove _ _ 1 (Some 20)).
    1: eapply (history_remove _ _ 0 (Some 10)).
    1: eapply history_insert.
    1: eapply history_insert.
    1: eapply history_insert.
    1: apply (history_new 2).
    all: reflexivity.
  - reflexivity.
  - reflexivity.
Qed.
Print Assumptions example_history.

(** After any history, [get] finds under every key the element last inserted there and not removed since. *)
Theorem C34_get {T} (s : slab T) h k : history s h -> get s k = stored h k.
Proof. intros H. apply (history_inv s h H). Qed.
Print Assumptions C34_get.

(** Insertion never panics; it gives the element the key [next_key] announced, under which nothing was stored. *)
Theorem C34_insert {T} (s : slab T) h x : history s h ->
  exists s', insert s x = Some (s', next_key s) /\ stored h (next_key s) = None.
Proof.
  intros H. destruct (history_inv s h H) as (I & G & _). destruct (insert_spec s x I) as (s' & E & _ & N & _).
  exists s'. split; auto. now rewrite <- G.
Qed.
Print Assumptions C34_insert.

(** Removal returns what was stored under the key and leaves nothing there; the other keys keep theirs.
    The key removed is the next to be given out. *)
Theorem C34_remove {T} (s : slab T) h k : history s h ->
  exists s', remove s k = (stored h k, s') /\ get s' k = None /\ (forall j, j <> k -> get s' j = get s j) /\
    (stored h k <> None -> next_key s' = k).
Proof.
  intros H. destruct (history_inv s h H) as (I & G & _). destruct (remove s k) as [r s'] eqn:R. exists s'.
  destruct (remove_spec s k r s' I R) as (_ & Hr & G1 & _ & _ & NK). rewrite G in Hr. subst r.
  split; auto. split; [rewrite G1; now rewrite Nat.eqb_refl|]. split; auto.
  intros j Hj. rewrite G1. destruct (Nat.eqb_spec k j); congruence.
Qed.
Print Assumptions C34_remove.

(** As many slots are allocated as elements were ever stored at the same time, and every key is below that. *)
Theorem C35_slots {T} (s : slab T) h : history s h -> List.length (sl_data s) = most h.
Proof. intros H. apply (history_inv s h H). Qed.
Print Assumptions C35_slots.

Theorem C35_keys {T} (s : slab T) h x s' k : history s h -> insert s x = Some (s', k) -> k < most (Put k x :: h).
Proof.
  intros H E. pose proof (history_inv _ _ (history_insert _ _ _ _ _ H E)) as (_ & _ & _ & L).
  destruct (history_inv s h H) as (I & _). destruct (insert_spec s x I) as (s1 & E1 & _ & _ & _ & _ & _ & K).
  rewrite E in E1. inversion E1; subst. lia.
Qed.
Print Assumptions C35_keys.

(** The free keys are exactly the allocated ones with nothing stored: a slot is never lost. *)
Theorem C35_no_slot_lost {T} (s : slab T) h k : history s h -> k < most h -> stored h k = None -> In k (sl_open s).
Proof.
  intros H L E. destruct (history_inv s h H) as ((_ & F) & G & _ & M). rewrite <- G in E. apply F. unfold get in E.
  rewrite <- M in L. apply nth_error_Some in L. destruct (nth_error (sl_data s) k) as [[y|]|]; congruence.
Qed.
Print Assumptions C35_no_slot_lost.

Example example_slots : most example_acts = 3.
Proof. reflexivity. Qed.
