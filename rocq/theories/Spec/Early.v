(** Clients that hear the bytes of a call of the handler while it still runs (Spec/World.v lets them hear them after it). *)
From Coq Require Import List Bool Arith.
From Verif.Model Require Import Bytes Io Common Parse Encode Writer Server Client Slab Poll Whole Full.
From Verif.Spec Require Import Stream Wire Output Session Exchange Dialogue Arrivals Events World.
Import ListNotations.

Section Early.
Variables (dbg : bool) (R : nat -> request -> lresult -> Prop).

(** The bytes that connection [c]'s socket has taken by now and the requests routed for it by now: in a call, those of a
    call that has read the same so far. *)
Inductive shows (c : nat) (st : wstate) : bytes -> list request -> Prop :=
| shows_none : nth_error (ws_conns st) c = None -> shows c st [] []
| shows_between x : nth_error (ws_conns st) c = Some x -> (forall k, wc_slot x <> WTaken k) ->
    shows c st (slot_sent (as_slot (wc_slot x))) (wc_log x)
| shows_during x k i v rt got log s : nth_error (ws_conns st) c = Some x -> wc_slot x = WTaken k ->
    nth_error (ws_workers st) i = Some (WServe c v rt got) \/ nth_error (ws_workers st) i = Some (WDrained c v rt got) ->
    serve dbg rt v x k got = (log, s) -> shows c st (slot_sent s) log.

(** How the output side of the socket behaves in the calls that run. *)
Definition in_call (c : nat) (w : wworker) : list visit :=
  match w with WServe d v _ _ | WDrained d v _ _ => if d =? c then [v] else [] | _ => [] end.
Definition all_calls (c : nat) (ls : list flabel) (st : fstate) : list visit :=
  calls c (wparts ls) ++ flat_map (in_call c) (ws_workers (f_w st)).

Variable client : nat -> bool.
(** As in Spec/World.v; besides, a client hears what a call that runs has sent. *)
Inductive happens_early : world -> list flabel -> world -> Prop :=
| he_as_before w l w' : happens dbg R client w l w' -> happens_early w l w'
| he_hear w c p bs rest log : client c = true -> p = wo_peer w c -> pe_ended p = false -> bs <> [] ->
    shows c (f_w (wo_server w)) (pe_heard p ++ bs ++ rest) log ->
    happens_early w [] (mk_world (wo_server w) (with_peer w c
      (mk_peer (hears (pe_stream p) [RData bs]) (pe_doing p) (pe_out p) (pe_heard p ++ bs) false (pe_done p)))).

(** Histories, with the server's labels, latest first. *)
Inductive early_history (w0 : world) : list flabel -> world -> Prop :=
| early_nil : early_history w0 [] w0
| early_step ls w l w' : early_history w0 ls w -> happens_early w l w' -> early_history w0 (l ++ ls) w'.
End Early.
