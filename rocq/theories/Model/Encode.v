(** How requests and responses are written (/repo/src/client/client.rs, /repo/src/server/server.rs):
    the sequence of buffers handed to the writer.  [write!] hands over one buffer per literal piece
    and per argument (core::fmt::write).  An empty piece is listed here too: the adapter of write_fmt
    makes no write call for it, and Model/Writer.v skips it likewise. *)
From Coq Require Import List Ascii String NArith Bool.
From Verif.Model Require Import Bytes Common.
Import ListNotations.

(** write!(writer, "{} {} {}\r\n", a, b, c). *)
(* client/client.rs:145, server/server.rs:143 *)
Definition first_line_pieces (a b c : bytes) : list bytes := [a; lit " "; b; lit " "; c; crlf].

(** write!(writer, "{}: {}\r\n", header, value) for every value of every header
    (client.rs:146-150, server.rs:144-148).  The order of the entries of the list is the iteration
    order of the HashMap. *)
Definition header_pieces (h : header_map) : list bytes :=
  flat_map (fun kv => flat_map (fun v => [header_str (fst kv); lit ": "; v; crlf]) (snd kv)) h.

(** client.rs:144-155 [write_request], without the final flush. *)
Definition request_pieces (r : request) : list bytes :=
  first_line_pieces (method_str (rq_method r)) (rq_uri r) HTTP_VERSION_1_1 ++
  header_pieces (rq_headers r) ++ [crlf; rq_body r].

(** server.rs:141-153 [write_response], without the final flush. *)
Definition response_pieces (r : response) : list bytes :=
  first_line_pieces HTTP_VERSION_1_1 (dec (st_code (rs_status r))) (st_reason (rs_status r)) ++
  header_pieces (rs_headers r) ++ [crlf; rs_body r].

(** The bytes written to a writer that takes everything, such as a Vec or a BufWriter that is
    flushed. *)
(* client/client.rs:144-155 *)
Definition write_request (r : request) : bytes := List.concat (request_pieces r).
(* server/server.rs:141-153 *)
Definition write_response (r : response) : bytes := List.concat (response_pieces r).

(** server.rs:24. *)
Definition REQUEST_PARSING_ERROR_RESPONSE : bytes := lit "HTTP/1.1 400 Bad Request" ++ crlf ++ crlf.
(** server.rs:27. *)
Definition NOT_FOUND_RESPONSE : bytes := lit "HTTP/1.1 404 Not Found" ++ crlf ++ crlf.
