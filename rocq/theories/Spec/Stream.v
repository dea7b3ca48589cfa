(** Vocabulary for streams used in statements. *)
From Coq Require Import List NArith.
From Verif.Model Require Import Bytes Io.
Import ListNotations.
Local Open Scope N_scope.

(** All bytes a stream delivers. *)
Fixpoint pending (s : stream) : bytes :=
  match s with
  | [] => []
  | RData bs :: s' => bs ++ pending s'
  | RErr _ :: s' => pending s'
  end.

(** A stream that delivers data in arbitrary non-empty pieces, blocks and is interrupted by signals
    in arbitrary places, and does not fail or end. *)
Definition live_event (e : revent) : Prop :=
  match e with RData bs => bs <> [] | RErr k => k = WouldBlock \/ k = Interrupted end.
Definition live (s : stream) : Prop := Forall live_event s.

(** A live stream that moreover never blocks and is never interrupted. *)
Definition flowing_event (e : revent) : Prop :=
  match e with RData bs => bs <> [] | RErr _ => False end.
Definition flowing (s : stream) : Prop := Forall flowing_event s.

(** A live stream that then, if [eof], ends. *)
Definition live_eof (eof : bool) (s : stream) : Prop :=
  exists s0, live s0 /\ s = s0 ++ (if eof then [RData []] else []).
