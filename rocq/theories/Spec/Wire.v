(** Which requests and responses can be written so that they read back. *)
From Coq Require Import List Ascii String NArith Bool.
From Verif.Model Require Import Bytes Common.
From Verif.Spec Require Import Numerals Names Grammar.
Import ListNotations.
Local Open Scope N_scope.

(** A header as the conversion from a string yields it. *)
Definition canonical (k : header) : Prop := k = header_from (header_str k).

(** A header map as the library's operations build it: one entry per header, with at least one value,
    whose lines can be told apart: no newline, and no ": " in names. *)
Definition good_headers (h : header_map) : Prop :=
  NoDup (map fst h) /\
  Forall (fun kv => canonical (fst kv) /\ snd kv <> [] /\
                    Forall (fun v => header_ok (header_str (fst kv), v)) (snd kv)) h.

(** The header lines that are written. *)
Definition pairs_of (h : header_map) : list (bytes * bytes) :=
  flat_map (fun kv => map (fun v => (header_str (fst kv), v)) (snd kv)) h.

(** The first content-length, if any, states the length of the body; otherwise there is no body
    ([eof = false]) or it ends with the stream ([eof = true]), and the message does not claim to be
    chunked. *)
Definition framed (eof : bool) (h : header_map) (body : bytes) : Prop :=
  match get_first_header_value h (header_from (lit "content-length")) with
  | Some v => eof = false /\ denotes 10 v (len body)
  | None => (eof = false -> body = []) /\
      forall v, get_first_header_value h (header_from (lit "transfer-encoding")) = Some v ->
        ~ exists a b, v = a ++ lit "chunked" ++ b
  end.

Definition good_request (r : request) : Prop :=
  text (rq_uri r) /\ ~ In SP (rq_uri r) /\ good_headers (rq_headers r) /\
  framed false (rq_headers r) (rq_body r).

(** The size limits: lines of 510 bytes, a header block of 4096 bytes, a body of 1.5 MiB. *)
Definition fits_limits (first : N) (h : header_map) (body : bytes) : Prop :=
  first <= 510 /\
  Forall (fun p => len (fst p) + 2 + len (snd p) <= 510) (pairs_of h) /\
  len (header_lines (pairs_of h)) + 2 <= 4096 /\ 2 * len body <= 3145728.

Definition request_fits (r : request) : Prop :=
  fits_limits (len (method_name (rq_method r)) + 1 + len (rq_uri r) + 9) (rq_headers r) (rq_body r).

(** The statuses of the library. *)
Definition library_status (st : status) : Prop := In st status_table.

Definition good_response (eof : bool) (r : response) : Prop :=
  library_status (rs_status r) /\ good_headers (rs_headers r) /\ framed eof (rs_headers r) (rs_body r).

Definition response_fits (r : response) : Prop :=
  fits_limits (13 + len (st_reason (rs_status r))) (rs_headers r) (rs_body r).

(** Equal requests, with header maps compared as maps. *)
Definition same_request (a b : request) : Prop :=
  rq_method a = rq_method b /\ rq_uri a = rq_uri b /\ hm_equiv (rq_headers a) (rq_headers b) /\
  rq_body a = rq_body b.
Definition same_response (a b : response) : Prop :=
  rs_status a = rs_status b /\ hm_equiv (rs_headers a) (rs_headers b) /\ rs_body a = rs_body b.

(** What the types guarantee about a request: strings are UTF-8, and the header map has one entry per
    header, with values, under names as converted from strings. *)
Definition typed_request (r : request) : Prop :=
  utf8 (rq_uri r) = true /\ NoDup (map fst (rq_headers r)) /\
  Forall (fun kv => canonical (fst kv) /\ snd kv <> [] /\ utf8 (header_str (fst kv)) = true /\
                    Forall (fun v => utf8 v = true) (snd kv)) (rq_headers r).

(** Hexadecimal numerals in lower or upper case. *)
Definition hex_digit (up : bool) (n : N) : byte :=
  ascii_of_N (if n <? 10 then 48 + n else (if up then 65 else 97) + (n - 10)).
Fixpoint hex_aux (up : bool) (fuel : nat) (n : N) (acc : bytes) : bytes :=
  match fuel with
  | O => acc
  | S f => let acc' := hex_digit up (n mod 16) :: acc in
           if n <? 16 then acc' else hex_aux up f (n / 16) acc'
  end.
Definition hex (up : bool) (n : N) : bytes := hex_aux up (S (N.size_nat n)) n [].

(** The chunked encoding of a list of chunks, with the case of each size chosen freely. *)
Definition encode_chunk (c : bool * bytes) : bytes :=
  hex (fst c) (len (snd c)) ++ crlf ++ snd c ++ crlf.
Definition encode_chunks (cs : list (bool * bytes)) : bytes :=
  List.concat (map encode_chunk cs) ++ lit "0" ++ crlf ++ crlf.
