(** What may be said to a peer: the answers to its own requests and, after the last, one 400 if what follows it is no request. *)
From Coq Require Import List Bool Arith.
From Verif.Model Require Import Bytes Io Common Parse Encode Writer Server.
From Verif.Spec Require Import Batch Stream Grammar Output Session.
Import ListNotations.

(** What follows the requests [log] in the bytes [b] is wrong: it is no request, or over the limits, or its end is missing. *)
Definition faulty (b : bytes) (ended : bool) (log : list request) : Prop :=
  exists w x e, b = w ++ x /\ session w log e /\
    ((exists er, batch_request e = Bad er) \/
     exists p, batch_request e = Incomplete p /\ (~ small p \/ ended = true /\ x = [] /\ e <> [])).

(** All that may ever be said for the requests [log] of the bytes [b]. *)
Definition sayable (rt : router) (b : bytes) (ended : bool) (log : list request) (out : bytes) : Prop :=
  out = replies rt [] log \/ out = replies rt [] log ++ bad_request /\ faulty b ended log.
