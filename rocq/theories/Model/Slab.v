(** /repo/src/server/slab.rs.  Keys are [nat]: the size of usize and allocation failure are left out. *)
From Coq Require Import List Bool Arith.
Import ListNotations.

(** slab.rs:5-8. *)
Record slab (T : Type) := mk_slab { sl_data : list (option T); sl_open : list nat }.
Arguments mk_slab {T} _ _.
Arguments sl_data {T} _.
Arguments sl_open {T} _.

(** slab.rs:12-14 [with_capacity]: no elements, whatever the capacity. *)
Definition slab_new {T} (capacity : nat) : slab T := mk_slab [] [].

(** slab.rs:17-19 [next_key]. *)
Definition next_key {T} (s : slab T) : nat :=
  match sl_open s with k :: _ => k | [] => List.length (sl_data s) end.

(** Assignment to an element of a Vec. *)
(* such as slab.rs:25, 43 *)
Fixpoint set_nth {A} (n : nat) (x : A) (l : list A) : list A :=
  match l, n with
  | [], _ => []
  | _ :: l', O => x :: l'
  | y :: l', S n' => y :: set_nth n' x l'
  end.

(** slab.rs:23-31 [insert].  [None]: the unwrap of get_mut panics. *)
Definition insert {T} (s : slab T) (x : T) : option (slab T * nat) :=
  match sl_open s with
  | k :: open' =>
      match nth_error (sl_data s) k with
      | Some _ => Some (mk_slab (set_nth k (Some x) (sl_data s)) open', k)
      | None => None
      end
  | [] => Some (mk_slab (sl_data s ++ [Some x]) [], List.length (sl_data s))
  end.

(** slab.rs:34-36 [get]. *)
Definition get {T} (s : slab T) (k : nat) : option T :=
  match nth_error (sl_data s) k with Some e => e | None => None end.

(** slab.rs:39-47 [remove]. *)
Definition remove {T} (s : slab T) (k : nat) : option T * slab T :=
  match nth_error (sl_data s) k with
  | Some (Some x) => (Some x, mk_slab (set_nth k None (sl_data s)) (k :: sl_open s))
  | _ => (None, s)
  end.
