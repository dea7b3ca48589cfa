(** Histories of a keyed store, with the results its operations gave: reference for Model/Slab.v. *)
From Coq Require Import List Bool Arith.
From Verif.Model Require Import Slab.
Import ListNotations.

(** Operations with their results: an insertion under a key, a removal that found an element or not. *)
Inductive act (T : Type) := Put (k : nat) (x : T) | Took (k : nat) (x : T) | Missed (k : nat).
Arguments Put {T} _ _.
Arguments Took {T} _ _.
Arguments Missed {T} _.

(** The element under a key after a history (latest action first). *)
Fixpoint stored {T} (h : list (act T)) (k : nat) : option T :=
  match h with
  | [] => None
  | Put k' x :: h' => if k' =? k then Some x else stored h' k
  | Took k' _ :: h' => if k' =? k then None else stored h' k
  | Missed _ :: h' => stored h' k
  end.

(** How many elements there are, and how many there were at most. *)
Fixpoint alive {T} (h : list (act T)) : nat :=
  match h with
  | [] => 0
  | Put _ _ :: h' => S (alive h')
  | Took _ _ :: h' => alive h' - 1
  | Missed _ :: h' => alive h'
  end.
Fixpoint most {T} (h : list (act T)) : nat :=
  match h with [] => 0 | a :: h' => Nat.max (alive h) (most h') end.

(** The histories of the slab: any sequence of insertions and removals. *)
Inductive history {T} : slab T -> list (act T) -> Prop :=
| history_new c : history (slab_new c) []
| history_insert s h x s' k : history s h -> insert s x = Some (s', k) -> history s' (Put k x :: h)
| history_remove s h k r s' : history s h -> remove s k = (r, s') ->
    history s' (match r with Some x => Took k x | None => Missed k end :: h).
