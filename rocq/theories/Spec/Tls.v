(** What a TLS stream has given and taken, and what it may be assumed to do. *)
From Coq Require Import List NArith Bool.
From Verif.Model Require Import Bytes Io Common Parse Writer Server Tls.
From Verif.Spec Require Import Session Buffering.
Import ListNotations.
Local Open Scope N_scope.

(** The bytes of the application in records. *)
Definition data_of (ps : list payload) : bytes := flat_map (fun p => match p with Data d => d | _ => [] end) ps.

(** Encryption keeps the bytes. *)
Definition seals (seal : bytes -> list chunk) : Prop :=
  forall b, data_of (map ch_what (seal b)) = b /\ (b <> [] -> seal b <> []) /\ ~ In Notify (map ch_what (seal b)).

(** What the peer can decrypt: the data of the records that the socket has taken whole. *)
Definition delivered (t : tls) : bytes := data_of (ts_out t).
(** What was handed to the stream, and what reading it has given. *)
Definition handed (t : tls) : bytes := delivered t ++ data_of (map ch_what (ts_queue t)).
Definition gave (t : tls) : list what := flat_map (fun x => match x with inl k => [Failure k] | inr bs => content_of (RData bs) end) (ts_seen t).

(** Between two calls of the handler only what the socket will do changes. *)
Definition around (f : tls -> tls) : Prop :=
  forall t, exists rx tx, f t = mk_tls (ts_hs t) (ts_bad t) (ts_plain t) (ts_closed t) (ts_queue t) (ts_out t) rx tx (ts_seen t).

(** Whether the records are ones that a handshake can go on with, and then whether it still goes on. *)
Fixpoint hands (hs : bool) (rs : list record) : option bool :=
  match rs with
  | [] => Some hs
  | RHand last _ :: r => hands (hs && negb last) r
  | RApp _ :: r => if hs then None else hands hs r
  | RClose :: r => hands hs r
  | RBad :: _ => None
  end.
(** Until the handshake is over its reads do not fail, and after one has blocked nothing more arrives before the call of the handler ends. *)
Fixpoint shakes (rx : list tread) : Prop :=
  match rx with
  | [] => True
  | TFail k :: r => k = WouldBlock /\ Forall (fun e => e = TFail WouldBlock) r
  | TEnd :: _ => False
  | TArrive rs :: r => match hands true rs with None => False | Some true => shakes r | Some false => True end
  end.

(** A TLS stream that works: its handshake goes well, and its socket, for writing, only takes or blocks, and takes nothing more once it
    has blocked, before the call of the handler ends. *)
Definition takes_or_blocks (e : wevent) : Prop := match e with WTake _ => True | WFail k => k = WouldBlock end.
Definition calm (t : tls) : Prop :=
  (ts_hs t = true -> ts_plain t = [] /\ ts_bad t = false /\ shakes (ts_rx t)) /\
  Forall takes_or_blocks (ts_tx t) /\
  forall a b n, ts_tx t = a ++ WFail WouldBlock :: b -> ~ In (WTake n) b.

(** A TLS stream whose socket takes nothing although there is something to send. *)
Definition blocked (t : tls) : Prop :=
  ts_hs t = false /\ ts_queue t <> [] /\ Forall (fun e => e = WFail WouldBlock) (ts_tx t).

(** A socket that, for writing, only takes or blocks, and that once it has blocked goes on blocking before the call of the handler ends. *)
Definition steady (t : tls) : Prop :=
  Forall takes_or_blocks (ts_tx t) /\ (forall a b n, ts_tx t = a ++ WFail WouldBlock :: b -> ~ In (WTake n) b) /\
  forall a b, ts_rx t = a ++ TFail WouldBlock :: b -> Forall (fun e => e = TFail WouldBlock) b.

(** A stream that waits for its socket: everything that has arrived was given, or there is something to send and the socket takes nothing. *)
Definition waits (t : tls) : Prop :=
  (ts_plain t = [] /\ Forall (fun e => e = TFail WouldBlock) (ts_rx t)) \/
  (ts_queue t <> [] /\ forall n, ~ In (WTake n) (ts_tx t)).

(** A stream whose handshake is over and whose socket would take more. *)
Definition working (t : tls) : Prop := ts_hs t = false /\ exists n, In (WTake n) (ts_tx t).
