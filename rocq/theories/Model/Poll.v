(** /repo/src/server/poll.rs with the part of /repo/src/server/server.rs that hands events to the thread
    pool, as a transition system.  Connections are numbered in the order accepted. *)
From Coq Require Import List Bool Arith.
From Verif.Model Require Import Slab.
Import ListNotations.

(** An event of mio: for the listener, or for a socket, with the token it was registered with.  The
    socket itself ([c]) is what the event is about; the code sees only the token and the flag
    (poll.rs:35,44). *)
Inductive event := EvListener | EvSocket (c t : nat) (write_closed : bool).

(** State of the main thread, of the handler jobs and of the operating system:
    [p_slab]: poll.rs:30 [connections], holding connection numbers for the Arcs of server.rs:59;
    [p_next]: how many connections have been accepted;
    [p_reg]: the open sockets with the tokens they are registered under (poll.rs:39);
    [p_jobs]: for each handler queued or running the connection whose Arc it holds (server.rs:61-65);
    [p_batch]: the events of the last poll still to be dispatched (poll.rs:57);
    [p_listening]: the main thread is inside listen_until_blocked (poll.rs:37).
    Several handlers may hold the same connection. *)
Record pstate := mk_pstate {
  p_slab : slab nat; p_next : nat; p_reg : list (nat * nat); p_jobs : list nat;
  p_batch : list event; p_listening : bool }.

(** poll.rs:30. *)
Definition poll_init : pstate := mk_pstate (slab_new 128) 0 [] [] [] false.

(** The connections an Arc for which is in the slab. *)
(* poll.rs:30 *)
Definition in_slab (c : nat) (s : slab nat) : bool :=
  existsb (fun e => match e with Some d => d =? c | None => false end) (sl_data s).

(** Dropping the last Arc of a connection closes its socket, which removes its registration. *)
(* poll.rs:44, server.rs:62-64 (where an Arc is dropped) *)
Definition sweep (s : slab nat) (jobs : list nat) (reg : list (nat * nat)) : list (nat * nat) :=
  filter (fun r => in_slab (fst r) s || existsb (Nat.eqb (fst r)) jobs) reg.

(** One occurrence less. *)
(* a job of server.rs:64 that ended *)
Fixpoint drop_one (d : nat) (l : list nat) : list nat :=
  match l with [] => [] | x :: l' => if x =? d then l' else x :: drop_one d l' end.

(** poll.rs:37-42, the closure given to listen_until_blocked.  [registered]: whether [register] succeeds;
    if not, the stream is dropped (poll.rs:39, 68-70).  [None]: insert panics. *)
Definition on_connection (st : pstate) (registered : bool) : option pstate :=
  let c := p_next st in
  if registered then
    let token := next_key (p_slab st) in
    match insert (p_slab st) c with
    | Some (s', _) => Some (mk_pstate s' (S c) ((c, token) :: p_reg st) (p_jobs st) (p_batch st) (p_listening st))
    | None => None
    end
  else Some (mk_pstate (p_slab st) (S c) (p_reg st) (p_jobs st) (p_batch st) (p_listening st)).

(** poll.rs:44: the element taken out is dropped. *)
Definition on_write_closed (st : pstate) (t : nat) (batch : list event) : option nat * pstate :=
  let '(r, s') := remove (p_slab st) t in
  (r, mk_pstate s' (p_next st) (sweep s' (p_jobs st) (p_reg st)) (p_jobs st) batch (p_listening st)).

(** poll.rs:45 with server.rs:61-65: a job with a clone of the Arc is given to the pool. *)
Definition on_ready (st : pstate) (t : nat) (batch : list event) : option nat * pstate :=
  let r := get (p_slab st) t in
  (r, mk_pstate (p_slab st) (p_next st) (p_reg st)
        (match r with Some d => p_jobs st ++ [d] | None => p_jobs st end) batch (p_listening st)).

(** What a step shows: an event about socket [c] was given to the handler of the connection found, or made
    the connection found be removed. *)
(* poll.rs:34-46 *)
Inductive label :=
| Polled | Listening | Accepted (c : nat) (registered : bool) | AcceptFailed | Blocked
| Ready (c : nat) (found : option nat) | Closed (c : nat) (removed : option nat)
| Finished (d : nat) (dropped : bool).

(** What an event returned by the poll may be: about an open socket, under the token it is registered with. *)
(* poll.rs:55 *)
Definition event_of (reg : list (nat * nat)) (e : event) : Prop :=
  match e with EvListener => True | EvSocket c t _ => In (c, t) reg end.
(* poll.rs:57 *)
Definition socket_of (e : event) : list nat := match e with EvListener => [] | EvSocket c _ _ => [c] end.

(** One step.  The main thread runs poll.rs:54-60, 35-46 and 65-75; handlers finish at any time between,
    with the connection dropped (server.rs:85-98, also by a panic) or put back.  Assumed of mio: one poll returns at most
    one event for each socket. *)
Inductive pstep : pstate -> label -> pstate -> Prop :=
| step_poll st evs : p_batch st = [] -> p_listening st = false ->
    Forall (event_of (p_reg st)) evs -> NoDup (flat_map socket_of evs) ->
    pstep st Polled (mk_pstate (p_slab st) (p_next st) (p_reg st) (p_jobs st) evs false)
| step_listen st b : p_batch st = EvListener :: b -> p_listening st = false ->
    pstep st Listening (mk_pstate (p_slab st) (p_next st) (p_reg st) (p_jobs st) b true)
| step_accept st ok st' : p_listening st = true -> on_connection st ok = Some st' ->
    pstep st (Accepted (p_next st) ok) st'
| step_accept_error st : p_listening st = true -> pstep st AcceptFailed st
| step_blocked st : p_listening st = true ->
    pstep st Blocked (mk_pstate (p_slab st) (p_next st) (p_reg st) (p_jobs st) (p_batch st) false)
| step_closed st c t b r st' : p_batch st = EvSocket c t true :: b -> p_listening st = false ->
    on_write_closed st t b = (r, st') -> pstep st (Closed c r) st'
| step_ready st c t b r st' : p_batch st = EvSocket c t false :: b -> p_listening st = false ->
    on_ready st t b = (r, st') -> pstep st (Ready c r) st'
| step_finished st d (dropped : bool) : In d (p_jobs st) ->
    pstep st (Finished d dropped)
      (let jobs := drop_one d (p_jobs st) in
       let reg := if dropped then filter (fun r => negb (fst r =? d)) (p_reg st) else p_reg st in
       mk_pstate (p_slab st) (p_next st) (sweep (p_slab st) jobs reg) jobs (p_batch st) (p_listening st)).

(** Executions, latest label first. *)
(* poll.rs:22-75 *)
Inductive prun : pstate -> list label -> pstate -> Prop :=
| prun_nil st : prun st [] st
| prun_step st ls st' l st'' : prun st ls st' -> pstep st' l st'' -> prun st (l :: ls) st''.

(** poll.rs:64-76 [listen_until_blocked] alone, for any callback.  [env n]: the [n]-th result of accept.
    [None]: still looping when the fuel is used up. *)
Inductive accepted (C : Type) := AConn (c : C) | ABlock | AFail.
Arguments AConn {C} _.
Arguments ABlock {C}.
Arguments AFail {C}.
Fixpoint listen_until_blocked {C S} (fuel : nat) (env : nat -> accepted C) (n : nat)
    (callback : S -> C -> S) (st : S) : option (S * nat) :=
  match fuel with
  | O => None
  | Datatypes.S fuel' =>
      match env n with
      | AConn c => listen_until_blocked fuel' env (1 + n) callback (callback st c)
      | ABlock => Some (st, 1 + n)
      | AFail => listen_until_blocked fuel' env (1 + n) callback st
      end
  end.

(** poll.rs:51-61 [poll_events], for any callback.  [env n]: what the [n]-th poll returns; [inr]: its error. *)
Fixpoint poll_events {E S X} (fuel : nat) (env : nat -> list E + X) (n : nat) (on_event : S -> E -> S) (st : S)
    : option (X * S) :=
  match fuel with
  | O => None
  | Datatypes.S fuel' =>
      match env n with
      | inl evs => poll_events fuel' env (1 + n) on_event (fold_left on_event evs st)
      | inr e => Some (e, st)
      end
  end.
