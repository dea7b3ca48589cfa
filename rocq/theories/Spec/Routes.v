(** What a tree of routers means: reference for Model/Router.v. *)
From Coq Require Import List Ascii Bool.
From Verif.Model Require Import Bytes Common Server Router.
Import ListNotations.

(** Tree recursion with the list of all functions of the user, in order of registration, with the uris of the
    routers above joined. *)
Record flat := mk_flat { f_above : bytes; f_exact : bool; f_uri : bytes; f_listener : nat }.
Fixpoint flatten (above : bytes) (r : route) : list flat :=
  match r with
  | OnPrefix u l => [mk_flat above false u l]
  | OnExact u l => [mk_flat above true u l]
  | Mount u rs => flat_map (flatten (above ++ u)) rs
  end.
Definition flat_router (rs : list route) : list flat := flat_map (flatten []) rs.

(** A function is concerned with the uri [above ++ local] if [local] is its own uri, or begins with it. *)
Definition concerns (f : flat) (uri local : bytes) : Prop :=
  uri = f_above f ++ local /\
  if f_exact f then local = f_uri f else exists rest, local = f_uri f ++ rest.

(** The calls made for [uri], in order, and the answer: functions not concerned are passed over; the others are
    called until one does not answer Next. *)
Inductive routed (b : behaviour) (rq : request) (uri : bytes) : list flat -> list call -> list call -> lresult -> Prop :=
| routed_end log : routed b rq uri [] log [] LNext
| routed_other f fs log calls x : (forall local, ~ concerns f uri local) ->
    routed b rq uri fs log calls x -> routed b rq uri (f :: fs) log calls x
| routed_next f fs log local calls x : concerns f uri local -> b log (f_listener f, local) rq = LNext ->
    routed b rq uri fs (log ++ [(f_listener f, local)]) calls x ->
    routed b rq uri (f :: fs) log ((f_listener f, local) :: calls) x
| routed_answer f fs log local x : concerns f uri local -> b log (f_listener f, local) rq = x -> x <> LNext ->
    routed b rq uri (f :: fs) log [(f_listener f, local)] x.

(** All uris given to the router are text. *)
Fixpoint text_route (r : route) : Prop :=
  match r with
  | OnPrefix u _ | OnExact u _ => utf8 u = true
  | Mount u rs => utf8 u = true /\ (fix all l := match l with [] => True | r :: l' => text_route r /\ all l' end) rs
  end.
Definition text_router (rs : list route) : Prop := Forall text_route rs.
