(** Reference parser: what a complete, flat byte string means.  No streams, no states, no resumption,
    no size limits.  It shares with the model only the data types and the functions on single lines
    (header line, chunk-size line, first line), which are specified on their own elsewhere
    (Spec/Grammar.v, Spec/Numerals.v). *)
From Coq Require Import List Ascii String NArith Bool.
From Verif.Model Require Import Bytes Common Parse.
Import ListNotations.
Local Open Scope N_scope.

(** Where an incomplete message stops, with the amount received of the current part. *)
Inductive progress :=
| InFirst (line : bytes)                   (* inside the first line; the bytes of it so far *)
| InHeaders (block : N) (line : bytes)     (* bytes of the header block so far; current line *)
| InSized (size got : N)                   (* inside a body with a content-length *)
| InChunkLine (wire : N) (line : bytes)    (* bytes of the chunked body so far; current line *)
| InChunkData (wire : N).                  (* inside the data of a chunk *)

Inductive outcome (T : Type) :=
| Complete (v : T) (rest : bytes)   (* the message v, followed by unread bytes *)
| Incomplete (p : progress)         (* a proper beginning of a message *)
| AtEof (v : T) (n : N)             (* v, with a body of n bytes, if the stream ends here *)
| Bad (e : perr).                   (* no message begins like this *)
Arguments Complete {T} _ _.
Arguments Incomplete {T} _.
Arguments AtEof {T} _ _.
Arguments Bad {T} _.

(** The bytes before and after the first newline. *)
Fixpoint cut_lf (b : bytes) : option (bytes * bytes) :=
  match b with
  | [] => None
  | c :: b' => if Ascii.eqb c LF then Some ([], b')
               else match cut_lf b' with
                    | Some (l, r) => Some (c :: l, r)
                    | None => None
                    end
  end.

(** Remove a final carriage return. *)
Fixpoint strip_cr (l : bytes) : option bytes :=
  match l with
  | [] => None
  | [c] => if Ascii.eqb c CR then Some [] else None
  | c :: l' => match strip_cr l' with Some r => Some (c :: r) | None => None end
  end.

(** The first line of b: [None] if b has no newline; otherwise its text or the error, and the
    bytes after the line. *)
Definition cut_line (b : bytes) : option ((perr + bytes) * bytes) :=
  match cut_lf b with
  | None => None
  | Some (l, rest) =>
      Some (if utf8 l then match strip_cr l with Some t => inr t | None => inl BadSyntax end
            else inl InvalidUtf8, rest)
  end.

(** The header block.  [n] bytes of it precede b; m holds the headers before b. *)
Fixpoint batch_headers_f (fuel : nat) (n : N) (m : header_map) (b : bytes) : outcome header_map :=
  match fuel with
  | O => Incomplete (InHeaders n [])
  | S f =>
      match cut_line b with
      | None => Incomplete (InHeaders (n + len b) b)
      | Some (inl e, _) => Bad e
      | Some (inr [], rest) => Complete m rest
      | Some (inr line, rest) =>
          match parse_header line with
          | inl e => Bad e
          | inr (k, v) => batch_headers_f f (n + len line + 2) (add_header m k v) rest
          end
      end
  end.
Definition batch_headers (n : N) (m : header_map) (b : bytes) : outcome header_map :=
  batch_headers_f (S (List.length b)) n m b.

(** A chunked body.  [n] bytes of it precede b; [body] is the data before b. *)
Definition batch_tail (next : N -> bytes -> bytes -> outcome bytes)
  (n : N) (body : bytes) (last : bool) (b : bytes) : outcome bytes :=
  match cut_line b with
  | None => Incomplete (InChunkLine (n + len b) b)
  | Some (inl e, _) => Bad e
  | Some (inr [], rest) => if last then Complete body rest else next (n + 2) body rest
  | Some (inr _, _) => Bad BadSyntax
  end.

Definition batch_data (next : N -> bytes -> bytes -> outcome bytes)
  (n : N) (body : bytes) (size : N) (got : bytes) (b : bytes) : outcome bytes :=
  if len (got ++ b) <? size then Incomplete (InChunkData (n + len (got ++ b)))
  else batch_tail next (n + size) (body ++ firstn (N.to_nat size) (got ++ b)) (size =? 0)
         (skipn (N.to_nat size) (got ++ b)).

Fixpoint batch_chunks_f (fuel : nat) (n : N) (body : bytes) (b : bytes) : outcome bytes :=
  match fuel with
  | O => Incomplete (InChunkData n)
  | S f =>
      match cut_line b with
      | None => Incomplete (InChunkLine (n + len b) b)
      | Some (inl e, _) => Bad e
      | Some (inr line, rest) =>
          match parse_chunk_size line with
          | inl e => Bad e
          | inr size => batch_data (batch_chunks_f f) (n + len line + 2) body size [] rest
          end
      end
  end.
Definition batch_chunks (n : N) (body : bytes) (b : bytes) : outcome bytes :=
  batch_chunks_f (S (List.length b)) n body b.

(** How the body of a message is delimited. *)
Inductive framing := FSized (n : N) | FChunked | FUntilEof | FNone.

(** content-length first, then chunked, then the default of the message kind
    ([true]: to the end of the stream, for responses). *)
Definition framing_of (h : header_map) (to_eof : bool) : perr + framing :=
  match get_first_header_value h CONTENT_LENGTH with
  | Some v =>
      match parse_uint 10 USIZE_MAX v with
      | None => inl InvalidHeaderValue
      | Some n => if n <=? MAX_BODY_SIZE then inr (FSized n) else inl ContentLengthTooLarge
      end
  | None =>
      match get_first_header_value h TRANSFER_ENCODING with
      | Some v => if contains (lit "chunked") v then inr FChunked
                  else inr (if to_eof then FUntilEof else FNone)
      | None => inr (if to_eof then FUntilEof else FNone)
      end
  end.

Definition batch_body (fr : framing) (b : bytes) : outcome bytes :=
  match fr with
  | FSized n => if len b <? n then Incomplete (InSized n (len b))
                else Complete (firstn (N.to_nat n) b) (skipn (N.to_nat n) b)
  | FChunked => batch_chunks 0 [] b
  | FUntilEof => AtEof b (len b)
  | FNone => Complete [] b
  end.

Definition omap {A B} (f : A -> B) (o : outcome A) : outcome B :=
  match o with
  | Complete v rest => Complete (f v) rest
  | Incomplete p => Incomplete p
  | AtEof v n => AtEof (f v) n
  | Bad e => Bad e
  end.

Definition obind {A B} (o : outcome A) (f : A -> bytes -> outcome B) : outcome B :=
  match o with
  | Complete v rest => f v rest
  | Incomplete p => Incomplete p
  | AtEof v n => Incomplete (InFirst []) (* not used: only bodies end at EOF *)
  | Bad e => Bad e
  end.

(** A whole message; [pf] interprets the first line. *)
Definition batch_first {T} (pf : bytes -> perr + T) (b : bytes) : outcome T :=
  match cut_line b with
  | None => Incomplete (InFirst b)
  | Some (inl e, _) => Bad e
  | Some (inr line, rest) =>
      match pf line with inl e => Bad e | inr t => Complete t rest end
  end.

Definition batch_after_headers {T} (to_eof : bool) (t : T) (h : header_map) (b : bytes)
  : outcome (T * header_map * bytes) :=
  match framing_of h to_eof with
  | inl e => Bad e
  | inr fr => omap (fun body => (t, h, body)) (batch_body fr b)
  end.

Definition batch_msg {T} (pf : bytes -> perr + T) (to_eof : bool) (b : bytes)
  : outcome (T * header_map * bytes) :=
  obind (batch_first pf b) (fun t b1 =>
  obind (batch_headers 0 [] b1) (fun h b2 =>
  batch_after_headers to_eof t h b2)).

Definition batch_request (b : bytes) : outcome request :=
  omap (fun x => match x with (m, u, h, body) => mk_request m u h body end)
       (batch_msg parse_request_line false b).

Definition batch_response (b : bytes) : outcome response :=
  omap (fun x => match x with (t, h, body) => mk_response t h body end)
       (batch_msg parse_status_line true b).

(** The unfinished line, if the message stops inside a line. *)
Definition line_of (p : progress) : bytes :=
  match p with
  | InFirst l | InHeaders _ l | InChunkLine _ l => l
  | InSized _ _ | InChunkData _ => []
  end.

(** The documented size limits, for an unfinished message: lines of at most 512 bytes (so fewer
    than 512 before the final newline), a header block of at most 4096 bytes, a chunked body of at
    most 3145728 bytes on the wire, and a sized body of at most half of that (see C11). *)
Definition small (p : progress) : Prop :=
  len (line_of p) < 512 /\
  match p with
  | InFirst _ => True
  | InHeaders n _ => n < 4096
  | InSized size _ => 2 * size <= 3145728
  | InChunkLine n _ => n < 3145728
  | InChunkData n => n < 3145728
  end.

(** An outcome that more bytes may change. *)
Definition unfinished {T} (o : outcome T) : Prop :=
  match o with Incomplete _ | AtEof _ _ => True | _ => False end.

(** An unfinished outcome within the size limits (a body that ends with the stream has fewer than
    3145728 bytes). *)
Definition in_limits {T} (o : outcome T) : Prop :=
  match o with
  | Incomplete p => small p
  | AtEof _ n => n < 3145728
  | _ => True
  end.

(** The unfinished line, if any, is valid UTF-8. *)
Definition clean {T} (o : outcome T) : Prop :=
  match o with Incomplete p => utf8 (line_of p) = true | _ => True end.

(** Inside the bytes of a sized body or of a chunk. *)
Definition in_data {T} (o : outcome T) : Prop :=
  match o with Incomplete (InSized _ _) | Incomplete (InChunkData _) => True | _ => False end.
