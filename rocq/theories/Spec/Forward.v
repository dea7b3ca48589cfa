(** Passing a received message on: what its headers say about its body. *)
From Coq Require Import List String.
From Verif.Model Require Import Bytes Common.
Import ListNotations.

(** The body was received in chunks: no content-length, and the first transfer-encoding mentions them. *)
Definition in_chunks (h : header_map) : Prop :=
  get_first_header_value h (header_from (lit "content-length")) = None /\
  exists v, get_first_header_value h (header_from (lit "transfer-encoding")) = Some v /\
    exists a b, v = a ++ lit "chunked" ++ b.

(** The body was received with its length given in advance. *)
Definition with_length (h : header_map) : Prop :=
  exists v, get_first_header_value h (header_from (lit "content-length")) = Some v.
