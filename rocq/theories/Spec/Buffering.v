(** What a peer sent, whatever the pieces in which it arrives, and what of it is still to be read. *)
From Coq Require Import List.
From Verif.Model Require Import Bytes Io Common Parse Writer Server Client Buffered.
From Verif.Spec Require Import Stream Output.
Import ListNotations.

(** The bytes, the ends of the stream and the errors, in order. *)
Inductive what := Byte (b : byte) | End | Failure (k : ekind).
Definition content_of (e : revent) : list what :=
  match e with
  | RErr k => [Failure k]
  | RData [] => [End]
  | RData bs => map Byte bs
  end.
Definition content (s : stream) : list what := flat_map content_of s.

(** The same, cut differently. *)
Definition recut (s s' : stream) : Prop := content s = content s'.

(** What a buffered stream has still to give: what it holds, then what the socket gives. *)
Definition still {W} (d : buffered W) : list what := map Byte (rd_buf (bf_r d)) ++ content (so_rx (rd_inner (bf_r d))).
Definition unread {W} (d : buffered W) : bytes := rd_buf (bf_r d) ++ pending (so_rx (rd_inner (bf_r d))).

(** The output side of its socket. *)
Definition out_side {W} (d : buffered W) : sock := so_tx (rd_inner (bf_r d)).

(** The same connection of a server, without a buffer in front of the socket and with one. *)
Definition same_slot (st : slot) (b : bslot) : Prop :=
  match st, b with
  | Open c, BOpen d =>
      cn_parser c = bc_parser d /\ cn_w c = bf_w (bc_stream d) /\ cn_sock c = out_side (bc_stream d) /\
      content (cn_in c) = still (bc_stream d)
  | Gone x, BGone y => x = y
  | Poisoned x, BPoisoned y => x = y
  | _, _ => False
  end.

(** Everything handed to a connection's writer: what the socket took and what is still held. *)
Definition b_output (c : bconn) : bytes := b_sent c ++ unsent (bf_w (bc_stream c)).

(** The same stream of a client. *)
Definition same_stream (c : cstream) (d : buffered bytes) : Prop :=
  cs_held c = bf_w d /\ cs_sock c = out_side d /\ content (cs_in c) = still d.
Definition same_connect (x : ekind + cstream) (y : ekind + socket) : Prop :=
  match x, y with
  | inl k, inl k' => k = k'
  | inr c, inr s => cs_held c = [] /\ cs_sock c = so_tx s /\ recut (cs_in c) (so_rx s)
  | _, _ => False
  end.
Definition same_client (c : cconn) (b : bcconn) : Prop :=
  match cc_stream c, bcc_stream b with Some s, Some d => same_stream s d | None, None => True | _, _ => False end /\
  Forall2 same_stream (cc_dropped c) (bcc_dropped b).
