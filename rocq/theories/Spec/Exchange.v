(** Vocabulary for the client's properties. *)
From Coq Require Import List Ascii String NArith Bool.
From Verif.Model Require Import Bytes Io Common Parse Encode Writer Client.
From Verif.Spec Require Import Batch Stream Numerals Names Grammar Wire.
Import ListNotations.
Local Open Scope N_scope.

Definition prefix (d b : bytes) : Prop := exists rest, b = d ++ rest.

(** What the server's side of a stream has been sent. *)
Definition sent (c : cstream) : bytes := sk_sent (cs_sock c).

(** Streams not used before. *)
Definition unused (c : cstream) : Prop := sent c = [] /\ cs_held c = [].
Definition fresh_net (n : net) : Prop := Forall (fun x => match x with inr s => unused s | inl _ => True end) n.

(** [added old req new]: since [old] (no stream: nothing) a prefix of the bytes buffered then and of req
    was transmitted; [all_added]: all of that. *)
Definition sent_of (o : option cstream) : bytes := match o with Some s => sent s | None => [] end.
Definition held_of (o : option cstream) : bytes := match o with Some s => cs_held s | None => [] end.
Definition added (old : option cstream) (req : bytes) (new : cstream) : Prop :=
  exists d, sent new = sent_of old ++ d /\ prefix d (held_of old ++ req).
Definition all_added (old : option cstream) (req : bytes) (new : cstream) : Prop :=
  sent new = sent_of old ++ held_of old ++ req.

(** The output side of a stream does not fail: it takes bytes, however few, or is interrupted. *)
Definition csteady (s : sock) : Prop :=
  Forall (fun e => match e with WTake n => 0 < n | WFail k => k = Interrupted end) (sk_events s) /\
  Forall (fun f => f = None) (sk_flushes s).

(** Responses that a client can read off an open stream. *)
Definition ok_response (r : response) : Prop :=
  good_response false r /\ response_fits r /\
  get_first_header_value (rs_headers r) (header_from (lit "content-length")) <> None.

(** The input does not block before a whole response has arrived. *)
Definition in_time (s : stream) : Prop :=
  forall s1 s2, s = s1 ++ RErr WouldBlock :: s2 -> exists v rest, batch_response (pending s1) = Complete v rest.

(** Reading fails or times out. *)
Definition is_error (r : cres) : Prop :=
  match r with COk _ | CPanic => False | _ => True end.
