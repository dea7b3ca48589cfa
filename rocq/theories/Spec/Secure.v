(** What the peers of a server with TLS may be assumed to send, and what it owes them. *)
From Coq Require Import List NArith Bool.
From Verif.Model Require Import Bytes Io Common Parse Server Streams Tls Secure.
From Verif.Spec Require Import Session.
Import ListNotations.

(** The records of a peer whose handshake goes well and who then sends data, and other messages that need no reply, and has not said that it closes. *)
Fixpoint sound (hs : bool) (rs : list record) : Prop :=
  match rs with
  | [] => True
  | RHand last reply :: r => (hs = false -> reply = []) /\ sound (hs && negb last) r
  | RApp _ :: r => hs = false /\ sound hs r
  | RClose :: _ => False
  | RBad :: _ => False
  end.
(** The bytes of its requests. *)
Definition app_of (rs : list record) : bytes := flat_map (fun r => match r with RApp d => d | _ => [] end) rs.
(** What reached connection c in an execution. *)
Fixpoint reached (c : nat) (ls : list slabel) : list record :=
  match ls with
  | [] => []
  | XArrive d rs :: l => reached c l ++ (if Nat.eqb d c then List.concat rs else [])
  | _ :: l => reached c l
  end.

(** What the peer can decrypt of connection c, the requests routed on it, whether it is open, and whether its socket is full. *)
Definition out_of (x : sconn) : bytes :=
  match sn_slot x with
  | TOpen _ c => flat_map (fun p => match p with Data d => d | _ => [] end) (ts_out (tb_in tls (tc_stream tls c)))
  | TGone _ t | TPoisoned _ t => flat_map (fun p => match p with Data d => d | _ => [] end) (ts_out t)
  end.

(** Nothing is left to do for connection c: no event, no job. *)
Definition quiet (st : sstate) (c : nat) : Prop :=
  (forall x, nth_error (ss_conns st) c = Some x -> sn_event x = false) /\ ~ In c (ss_queue st) /\ ~ In (SWait c) (ss_workers st).

(** The server's own steps: all but what peers and sockets do. *)
Definition internal (l : slabel) : Prop :=
  match l with XDispatch _ | XTake _ _ | XHandle _ _ _ | XDie _ _ => True | _ => False end.
(** What it has to do: events, jobs in the queue, jobs taken. *)
Definition to_do (st : sstate) : nat :=
  3 * List.length (filter sn_event (ss_conns st)) + 2 * List.length (ss_queue st) +
  List.length (filter (fun w => match w with SWait _ => true | _ => false end) (ss_workers st)).
