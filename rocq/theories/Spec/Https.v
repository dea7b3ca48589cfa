(** A client and a server with TLS, joined by a network. *)
From Coq Require Import List NArith Bool.
From Verif.Model Require Import Bytes Io Common Parse Server Streams Tls.
Import ListNotations.

(** A record sent, and the same record as the other side decrypts it. *)
Inductive carries : payload -> record -> Prop :=
| carries_hand last reply : carries Hand (RHand last reply)
| carries_data d : carries (Data d) (RApp d)
| carries_notify : carries Notify RClose
| carries_alert : carries Alert RBad.
(** What has arrived of what was sent: a front part, in order. *)
Definition wire (out : list payload) (rs : list record) : Prop :=
  exists a b, out = a ++ b /\ Forall2 carries a rs.

(** The records that a socket will give. *)
Definition arrivals (rx : list tread) : list record :=
  flat_map (fun e => match e with TArrive rs => rs | _ => [] end) rx.
