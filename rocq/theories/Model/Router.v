(** /repo/src/server/router.rs. *)
From Coq Require Import List Ascii NArith Bool.
From Verif.Model Require Import Bytes Common Server.
Import ListNotations.

(** An element of Router.listeners (router.rs:20), by the method that registered it; [l] names the function of
    the user.
    [OnPrefix]: router.rs:32-34; [OnExact]: router.rs:37-46; [Mount]: router.rs:61-67. *)
Inductive route := OnPrefix (uri : bytes) (l : nat) | OnExact (uri : bytes) (l : nat) | Mount (uri : bytes) (rs : list route).

(** A call of a function of the user, with the router-local uri it gets. *)
(* the listeners of router.rs, as called in router.rs:61-67 *)
Definition call := (nat * bytes)%type.

(** The functions of the user: their result may depend on all calls made before. *)
(* the listeners of router.rs, as called in router.rs:61-67 *)
Definition behaviour := list call -> call -> request -> lresult.

(** The String stored beside the closure: router.rs:33, 45, 66. *)
Definition prefix_of (r : route) : bytes :=
  match r with OnPrefix u _ => u | OnExact _ _ => [] | Mount u _ => u end.

(** [&s[n..]] (router.rs:64): panics ([None]) unless [n] is at most the length and a character boundary. *)
Definition slice_from (n : nat) (s : bytes) : option bytes :=
  if Nat.leb n (List.length s) then
    match skipn n s with
    | [] => Some []
    | c :: _ => if is_cont c then None else Some (skipn n s)
    end
  else None.

(** router.rs:70-76 [result_internal] on the elements from one position on, given how to call one; the iterator
    is lazy, so the element after the first that is not Next is not called.  The log gets the calls. *)
Fixpoint find_result (call_one : route -> list call -> list call * lresult) (uri : bytes) (rs : list route)
    (log : list call) : list call * lresult :=
  match rs with
  | [] => (log, LNext)
  | r :: rs' =>
      if starts_with (prefix_of r) uri then
        match call_one r log with
        | (log1, LNext) => find_result call_one uri rs' log1
        | other => other
        end
      else find_result call_one uri rs' log
  end.

(** Calling the closure stored by [on_prefix] (router.rs:33), by [on] (router.rs:39-44) or by [route]
    (router.rs:63-65). *)
Fixpoint call_route (b : behaviour) (rq : request) (uri : bytes) (r : route) (log : list call) {struct r}
    : list call * lresult :=
  match r with
  | OnPrefix _ l => (log ++ [(l, uri)], b log (l, uri) rq)
  | OnExact u l => if beqb u uri then (log ++ [(l, uri)], b log (l, uri) rq) else (log, LNext)
  | Mount u rs =>
      match slice_from (List.length u) uri with
      | None => (log, LPanic)
      | Some uri' =>
          (fix find (rs : list route) (log : list call) : list call * lresult :=
             match rs with
             | [] => (log, LNext)
             | r :: rs' =>
                 if starts_with (prefix_of r) uri' then
                   match call_route b rq uri' r log with
                   | (log1, LNext) => find rs' log1
                   | other => other
                   end
                 else find rs' log
             end) rs log
      end
  end.

(** router.rs:70-76. *)
Definition result_internal (b : behaviour) (rs : list route) (uri : bytes) (rq : request) (log : list call)
    : list call * lresult :=
  find_result (call_route b rq uri) uri rs log.

(** router.rs:81-83 [result]. *)
Definition router_result (b : behaviour) (rs : list route) (rq : request) (log : list call) : list call * lresult :=
  result_internal b rs (rq_uri rq) rq log.

(** server.rs:121: the router as the server calls it, one request after the other. *)
Definition calls_of (b : behaviour) (rs : list route) (h : list request) : list call :=
  fold_left (fun log rq => fst (router_result b rs rq log)) h [].
Definition router_of (b : behaviour) (rs : list route) : router :=
  fun h rq => snd (router_result b rs rq (calls_of b rs h)).
