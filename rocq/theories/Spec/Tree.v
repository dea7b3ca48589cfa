(** Vocabulary for the example program's properties. *)
From Coq Require Import List Ascii String NArith Bool.
From Verif.Model Require Import Bytes Common Server Router Files.
Import ListNotations.

(** [at_path n names m]: m is reached from n by descending through the names. *)
Inductive at_path : node -> list bytes -> node -> Prop :=
| at_here n : at_path n [] n
| at_below es name n names m : entry name es = Some n -> at_path n names m -> at_path (NDir es) (name :: names) m.

(** A name of a file or directory, as they occur in directories. *)
Definition proper (name : bytes) : Prop :=
  name <> [] /\ name <> lit "." /\ name <> lit ".." /\ ~ In SLASH name /\ ~ In Ascii.zero name.

(** The absolute path of a directory, with a final slash; the path of a file in a directory. *)
Definition dir_path (names : list bytes) : bytes := SLASH :: List.concat (map (fun n => n ++ [SLASH]) names).
Fixpoint sub_path (names : list bytes) : bytes :=
  match names with [] => [] | [n] => n | n :: ns => n ++ SLASH :: sub_path ns end.

(** The way up. *)
Definition ups (n : nat) : bytes := List.concat (repeat (lit "../") n).

(** The segments of a uri, those between slashes. *)
Definition has_segment (s u : bytes) : Prop :=
  ~ In SLASH s /\ exists l r, u = l ++ s ++ r /\ (l = [] \/ exists l', l = l' ++ [SLASH]) /\ (r = [] \/ exists r', r = SLASH :: r').

(** The content type by the end of the path. *)
Definition types : list (bytes * bytes) :=
  [(lit ".ico", lit "image/x-icon"); (lit ".js", lit "application/javascript"); (lit ".svg", lit "image/svg+xml");
   (lit ".html", lit "text/html"); (lit ".css", lit "text/css")].
Definition type_of (path ty : bytes) : Prop :=
  (exists stem suf, path = stem ++ suf /\ In (suf, ty) types) \/
  ((forall stem suf t, path = stem ++ suf -> ~ In (suf, t) types) /\ ty = lit "text/plain").

(** A response that describes its body, or a 404. *)
Definition describes (path : bytes) (r : response) : Prop :=
  (rs_status r = mk_status 200 (lit "OK") /\
   hm_get (header_from (lit "content-length")) (rs_headers r) = Some [dec (len (rs_body r))] /\
   exists ty, type_of path ty /\ hm_get (header_from (lit "content-type")) (rs_headers r) = Some [ty]) \/
  (rs_status r = mk_status 404 (lit "NOT FOUND") /\
   hm_get (header_from (lit "content-length")) (rs_headers r) = Some [lit "0"] /\ rs_body r = []).

(** A call returned r for a path. *)
Definition returns (path : bytes) (r : response) (l : flabel) : Prop :=
  exists t, l = FHit t path r \/ l = FStore t path r.

(** The file system after a number of steps. *)
Fixpoint disk (f : fsys) (ls : list flabel) : fsys :=
  match ls with [] => f | FChange f' :: ls' => disk f' ls' | _ :: ls' => disk f ls' end.

(** No call is about to store something for a path. *)
Definition idle_for (path : bytes) (s : ffile) : Prop :=
  forall t, ff_thr s t <> Missed path /\ forall r, ff_thr s t <> Loaded path r.

(** How often a path was read. *)
Definition reads_of (path : bytes) (ls : list flabel) : nat :=
  List.length (filter (fun l => match l with FRead _ p _ => beqb p path | _ => false end) ls).

(** Only one call at a time: the labels are all of one thread. *)
Definition by_thread (t : nat) (l : flabel) : Prop :=
  match l with FChange _ => True | FHit t' _ _ | FMiss t' _ | FRead t' _ _ | FStore t' _ _ => t' = t end.
