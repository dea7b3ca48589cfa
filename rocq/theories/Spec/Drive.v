(** A caller of a resumable parser: it calls the parser again, with the state it got back, each time
    the parser reports WouldBlock, until the stream has nothing more to deliver.  This is what
    server/connection.rs:52-65 together with the poll loop does for requests. *)
From Coq Require Import List NArith.
From Verif.Model Require Import Bytes Io Common Parse.
From Verif.Spec Require Import Batch Stream.
Import ListNotations.

Fixpoint drive_f {T St} (parse : St -> stream -> pres T St * stream) (fuel : nat) (st : St) (s : stream)
  : pres T St * stream :=
  match fuel with
  | O => (PIo st ModelFuel, s)
  | S f =>
      match parse st s with
      | (PIo st' WouldBlock, s') =>
          match s' with
          | [] => (PIo st' WouldBlock, [])
          | _ => drive_f parse f st' s'
          end
      | r => r
      end
  end.

(** Every WouldBlock uses up an event, so this is enough calls (see drive_f_enough). *)
Definition drive {T St} (parse : St -> stream -> pres T St * stream) (st : St) (s : stream)
  : pres T St * stream := drive_f parse (S (List.length s)) st s.

Definition drive_request (dbg : bool) (s : stream) := drive (req_parse dbg) req_new s.
Definition drive_response (dbg : bool) (s : stream) := drive (resp_parse dbg) resp_new s.

(** The result of driving a parser over a stream, against the outcome of the reference parser on the
    bytes of that stream. *)
Definition matches {T St} (eof : bool) (o : outcome T) (res : pres T St * stream) : Prop :=
  match o with
  | Complete v rest => exists s', res = (PDone v, s') /\ live_eof eof s' /\ pending s' = rest
  | Bad e => exists s', res = (PErr e, s')
  | AtEof v n => if eof then res = (PDone v, []) else exists st, res = (PIo st WouldBlock, [])
  | Incomplete p =>
      if eof then
        if utf8 (line_of p) then exists st, res = (PIo st UnexpectedEof, [])
        else res = (PErr InvalidUtf8, [])
      else exists st, res = (PIo st WouldBlock, [])
  end.

(** Conditions on where a stream blocks or is interrupted, in terms of the reference parser. *)
Definition blocks_in_clean_lines {T} (batch : bytes -> outcome T) (s : stream) : Prop :=
  forall s1 s2, s = s1 ++ RErr WouldBlock :: s2 -> clean (batch (pending s1)).
Definition no_interrupt_in_data {T} (batch : bytes -> outcome T) (s : stream) : Prop :=
  forall s1 s2, s = s1 ++ RErr Interrupted :: s2 -> ~ in_data (batch (pending s1)).
Definition always_in_limits {T} (batch : bytes -> outcome T) (b : bytes) : Prop :=
  forall w x, b = w ++ x -> in_limits (batch w).

(** Parser states reachable by any number of calls on any streams. *)
Inductive reached {T St} (parse : St -> stream -> pres T St * stream) (st0 : St) : St -> Prop :=
| reached_new : reached parse st0 st0
| reached_call st s st' k s' :
    reached parse st0 st -> parse st s = (PIo st' k, s') -> reached parse st0 st'.

(** The stream delivers the bytes b and then ends or waits, in any pieces, as long as it blocks only where a line is whole
    characters, is interrupted only outside of bodies, and the limits are kept (C09, C11, C12, C55 are about the rest). *)
Definition delivers {T} (batch : bytes -> outcome T) (eof : bool) (s : stream) (b : bytes) : Prop :=
  live_eof eof s /\ pending s = b /\ blocks_in_clean_lines batch s /\ no_interrupt_in_data batch s /\
  always_in_limits batch b.
