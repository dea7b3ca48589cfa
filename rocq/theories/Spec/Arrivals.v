(** Vocabulary for runs of the whole server, by their labels alone (latest first). *)
From Coq Require Import List Bool Arith.
From Verif.Model Require Import Bytes Io Common Writer Server Whole.
Import ListNotations.

(** Everything that arrived on connection [c], in order. *)
Fixpoint received (c : nat) (ls : list wlabel) : list item :=
  match ls with
  | [] => []
  | AArrive d its :: ls' => received c ls' ++ (if d =? c then its else [])
  | _ :: ls' => received c ls'
  end.

(** What the output side of the socket of [c] did in each finished call of its handler, in order. *)
Fixpoint calls (c : nat) (ls : list wlabel) : list visit :=
  match ls with
  | [] => []
  | AKeep _ d v :: ls' | AClose _ d v :: ls' | ACrash _ d v :: ls' => calls c ls' ++ (if d =? c then [v] else [])
  | _ :: ls' => calls c ls'
  end.

(** What a connection is given to read, without the would-blocks. *)
Definition items (s : stream) : list item :=
  flat_map (fun e => match e with RErr WouldBlock => [] | _ => event_items e end) s.

(** What the peers and the kernel do, as opposed to the server. *)
Definition outside (l : wlabel) : bool := match l with AArrive _ _ | ANotify _ => true | _ => false end.
(** The server can do nothing more until something arrives. *)
Definition at_rest (dbg : bool) (R : nat -> request -> lresult -> Prop) (st : wstate) : Prop :=
  forall l st', wstep dbg R st l st' -> outside l = true.
Definition worker_left (st : wstate) : bool := existsb walive (ws_workers st).

(** A connection as one server connection (Model/Server.v). *)
Definition as_slot (s : wslot) : slot :=
  match s with WHere k | WTaken k => Open k | WGone b => Gone b | WBroken b => Poisoned b end.
