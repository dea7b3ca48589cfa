(** What the example program (Model/Files.v) should answer, and what a client should get from it. *)
From Coq Require Import List Ascii String NArith Bool.
From Verif.Model Require Import Bytes Common Server Router Files.
From Verif.Spec Require Import Tree.
Import ListNotations.

Definition message_uri : bytes := lit "/secret/message/path".
Definition first_site : bytes := lit "/my/middleton/website/".

(** The file that a request asks for: the rest of the uri in one of two directories; a final slash means an index. *)
Inductive asks_file (q : request) : bytes -> Prop :=
| asks_first u : rq_uri q = first_site ++ u -> asks_file q (file_path (lit "/Users/Ben/Code/middletonSite/") u)
| asks_second u : rq_uri q = SLASH :: u -> rq_uri q <> message_uri -> (forall v, rq_uri q <> first_site ++ v) ->
    asks_file q (file_path (lit "/Users/Ben/Code/ReactTetris/tetris-app/build/") u).

(** The answers of the program, the files being those of one of [F] when they were read. *)
Inductive serves (F : fsys -> Prop) (q : request) : lresult -> Prop :=
| serves_message : rq_uri q = message_uri -> serves F q (LSend secret_response)
| serves_file f path : F f -> asks_file q path -> serves F q (LSend (file_response f path))
| serves_nothing : (forall u, rq_uri q <> SLASH :: u) -> serves F q LNext.

(** A response with a file as it is, or a 404. *)
Definition gives (f : fsys) (path : bytes) (r : response) : Prop :=
  match fs_read f path with
  | Some b => rs_status r = mk_status 200 (lit "OK") /\ rs_body r = b /\
      exists ty, type_of path ty /\ hm_get (header_from (lit "content-type")) (rs_headers r) = Some [ty]
  | None => rs_status r = mk_status 404 (lit "NOT FOUND") /\ rs_body r = []
  end.

(** The right result of a request. *)
Definition right_result (F : fsys -> Prop) (q : request) (r : response) : Prop :=
  (rq_uri q = message_uri -> rs_status r = mk_status 200 (lit "OK") /\ rs_body r = lit "You found the secret message!") /\
  (forall path, asks_file q path -> exists f, F f /\ gives f path r).
