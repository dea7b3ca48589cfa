(** What a connection does when listeners may panic: as the reference up to the request at which one does. *)
From Coq Require Import List Bool Arith.
From Verif.Model Require Import Bytes Io Common Parse Encode Writer Server.
From Verif.Spec Require Import Batch Stream Output Session.
Import ListNotations.

(** None of the requests [log], routed after [h], made a listener panic. *)
Fixpoint unharmed (rt : router) (h log : list request) : Prop :=
  match log with
  | [] => True
  | v :: l => rt h v <> LPanic /\ unharmed rt (h ++ [v]) l
  end.

(** The requests of [b] up to the first, with it, at which a listener panics, and the answers to those before it. *)
Inductive panics_at (rt : router) : list request -> bytes -> list request -> bytes -> Prop :=
| panics_here h b v rest : batch_request b = Complete v rest -> rt h v = LPanic -> panics_at rt h b [v] []
| panics_next h b v rest log out : batch_request b = Complete v rest -> rt h v <> LPanic -> ~ asks_close v ->
    panics_at rt (h ++ [v]) rest log out -> panics_at rt h b (v :: log) (reply (rt h v) ++ out).
