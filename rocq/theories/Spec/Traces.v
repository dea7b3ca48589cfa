(** Specification of handler executions, by their labels alone (latest first). *)
From Coq Require Import List Bool Arith.
From Verif.Model Require Import Handlers.
Import ListNotations.

(** The workers that are inside a handler of connection [c]. *)
Fixpoint active (c : nat) (ls : list hlabel) : list nat :=
  match ls with
  | [] => []
  | l :: ls' =>
      let a := active c ls' in
      match l with
      | LEnter i d => if d =? c then i :: a else a
      | LKeep i d | LClose i d | LCrash i d => if d =? c then filter (fun j => negb (j =? i)) a else a
      | _ => a
      end
  end.

(** Bytes that arrived for [c], and bytes of [c] that were read. *)
Fixpoint arrived (c : nat) (ls : list hlabel) : nat :=
  match ls with
  | [] => 0
  | LArrive d n :: ls' => (if d =? c then n else 0) + arrived c ls'
  | _ :: ls' => arrived c ls'
  end.
Fixpoint consumed (c : nat) (ls : list hlabel) : nat :=
  match ls with
  | [] => 0
  | LRead _ d n :: ls' => (if d =? c then n else 0) + consumed c ls'
  | _ :: ls' => consumed c ls'
  end.

(** The server never dropped [c]. *)
Definition not_dropped (c : nat) (ls : list hlabel) : Prop :=
  forall i, ~ In (LClose i c) ls /\ ~ In (LCrash i c) ls.

(** What the peers and the kernel do, as opposed to the server. *)
Definition external (l : hlabel) : bool := match l with LArrive _ _ | LNotify _ => true | _ => false end.

(** The server can do nothing more until something arrives. *)
Definition settled (st : hstate) : Prop := forall l st', hstep st l st' -> external l = true.

(** Workers ended by a panic. *)
Fixpoint panics (ls : list hlabel) : nat :=
  match ls with
  | [] => 0
  | LDie _ _ :: ls' | LCrash _ _ :: ls' => S (panics ls')
  | _ :: ls' => panics ls'
  end.
