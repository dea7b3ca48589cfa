(** What a trace of threads sharing a client says. *)
From Coq Require Import List Arith.
From Verif.Model Require Import Bytes Io Common Parse Encode Writer Client Locks.
Import ListNotations.

(** A thread is sending on connection i. *)
Definition uses (st : kstate) (t i : nat) : Prop := exists q c, nth_error (k_threads st) t = Some (Use q i c).
Definition in_use (st : kstate) (i : nat) : Prop := exists t, uses st t i.

(** The sends on connection i, in order: request, network, result. *)
Definition of_conn (i : nat) (l : klabel) : list (request * net * cres) :=
  match l with KReturn _ j q n r => if i =? j then [(q, n, r)] else [] | _ => [] end.
Definition history (i : nat) (ls : list klabel) : list (request * net * cres) := flat_map (of_conn i) ls.

(** One after the other on one connection. *)
Inductive sequence (dbg zt : bool) : cconn -> list (request * net * cres) -> cconn -> Prop :=
| seq_nil c : sequence dbg zt c [] c
| seq_next c q n r n' c1 l c2 : conn_send dbg zt n c q = (r, n', c1) -> sequence dbg zt c1 l c2 -> sequence dbg zt c ((q, n, r) :: l) c2.

(** A panic has happened on connection i. *)
Definition broken (st : kstate) (i : nat) : Prop := nth_error (k_locks st) i = Some Broken.

(** Connection i could be used. *)
Definition available (st : kstate) (i : nat) : Prop := i < List.length (k_conns st) /\ ~ in_use st i /\ ~ broken st i.

(** The thread a step belongs to. *)
Definition actor (l : klabel) : nat :=
  match l with KCall t _ | KSkip t _ | KAgain t | KTake t _ | KReturn t _ _ _ _ => t end.
Definition is_again (t : nat) (l : klabel) : bool := match l with KAgain u => t =? u | _ => false end.
Definition scans (t : nat) (ls : list klabel) : nat := List.length (filter (is_again t) ls).
