(** The conversions with which applications make headers, header maps, methods and responses. *)
From Coq Require Import List Ascii String NArith Bool.
From Verif.Model Require Import Bytes Common.
Import ListNotations.

(** common/header.rs:60-65 [From<&str> for Header]: a copy of the text is converted (45-56). *)
Definition header_from_text (s : bytes) : header := header_from s.

(** common/header.rs:23-30, Display for Header; [to_string] gives what it writes. *)
Definition header_display (h : header) : bytes :=
  match h with
  | Standard s => s
  | Custom s => s
  end.

(** What a program can write as the name of a header in [header_map!] (common/header.rs:172-174, [$header.into()]): a text
    literal, a [String], or a [Header] such as the constants (whose conversion is the identity). *)
Inductive header_arg :=
| ByText (s : bytes)
| ByString (s : bytes)
| ByHeader (h : header).
(** common/header.rs:174 [$header.into()]. *)
Definition header_into (a : header_arg) : header :=
  match a with
  | ByText s => header_from_text s
  | ByString s => header_from s
  | ByHeader h => h
  end.

(** common/header.rs:170-178 [header_map!]: the empty map, or [from_pairs] of the converted pairs.  Values are texts. *)
Definition header_map_of (l : list (header_arg * bytes)) : header_map :=
  match l with
  | [] => []
  | _ => from_pairs (map (fun p => (header_into (fst p), snd p)) l)
  end.

(** common/method.rs:36-44 [try_from_bytes]. *)
Definition method_from_bytes (s : bytes) : option method :=
  if beqb s (lit "GET") then Some GET
  else if beqb s (lit "POST") then Some POST
  else if beqb s (lit "DELETE") then Some DELETE
  else if beqb s (lit "PUT") then Some PUT
  else None.

(** common/response.rs:28-33 [From<String> for Response]: the bytes of the text are converted (42-51). *)
Definition response_of_string (body : bytes) : response := response_of_body body.
(** common/response.rs:35-40 [From<&str> for Response]: by a copy of the text. *)
Definition response_of_text (body : bytes) : response := response_of_string body.
