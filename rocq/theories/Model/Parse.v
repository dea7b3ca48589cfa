(** The parsers (/repo/src/parse), call by call.  A parser call takes the parser state, the limits
    of the enclosing [error_take]s and the stream, and returns an outcome, the limits as they are
    afterwards, and the stream as it is afterwards.
    [dbg] is the build profile: in debug builds an unsigned subtraction that underflows panics, in
    release builds it wraps modulo 2^64. *)
From Coq Require Import List Ascii String NArith Bool.
From Verif.Model Require Import Bytes Io Common.
Import ListNotations.
Local Open Scope N_scope.

(** parse/error.rs. *)
Inductive perr :=
| BadSyntax | InvalidHttpVersion | InvalidHeaderValue | InvalidChunkSize
| ContentLengthTooLarge | UnrecognizedMethod | InvalidStatusCode | InvalidUtf8.

(** parse/parse.rs:8 [ParseResult] and 19-24 [ParseStatus]: Ok(Done v) | Ok(IoErr(state, kind)) |
    Err(e); plus a panic. *)
Inductive pres (T S : Type) :=
| PDone (v : T) | PIo (st : S) (k : ekind) | PErr (e : perr) | PPanic.
Arguments PDone {T S} _.
Arguments PIo {T S} _ _.
Arguments PErr {T S} _.
Arguments PPanic {T S}.

(** Outcome of a call together with the reader it leaves behind. *)
(* parse/parse.rs:8, parse/error_take.rs *)
Definition out (T S : Type) : Type := pres T S * list N * stream.

(** usize subtraction in the given build profile. *)
(* parse/crlf_line.rs:28, parse/headers.rs:29-47, parse/body.rs *)
Definition usub (dbg : bool) (a b : N) : option N :=
  if b <=? a then Some (a - b)
  else if dbg then None else Some (a + 18446744073709551616 - b).

(** reader.error_take(limit) around a call (parse/error_take.rs:9-13): push a limit, drop it after. *)
Definition with_limit {T S} (l : N) (ls : list N) (call : list N -> out T S) : out T S :=
  match call (l :: ls) with (r, ls1, s1) => (r, tl ls1, s1) end.

(** ** Deframers *)

(** parse/deframe/line.rs:18-29 [LineDeframer::read]; the state is the line read so far.
    On Ok the last character is popped; if it was not '\n' the popped character is lost. *)
Definition line_deframe (line : bytes) (ls : list N) (s : stream) : out bytes bytes :=
  match read_line line ls s with
  | (None, line1, ls1, s1) =>
      match str_pop line1 with
      | Some (rest, ch) => if beqb ch [LF] then (PDone rest, ls1, s1)
                           else (PIo rest UnexpectedEof, ls1, s1)
      | None => (PIo line1 UnexpectedEof, ls1, s1)
      end
  | (Some k, line1, ls1, s1) => (PIo line1 k, ls1, s1)
  end.

(** parse/deframe/bytes.rs:6-16 [BytesDeframer]: the requested size and the bytes received so far
    (the Rust struct keeps them in a zero-filled vector of that size with a fill position). *)
Record bytes_st := mk_bytes { bd_size : N; bd_got : bytes }.

(** parse/deframe/bytes.rs:19-33 [BytesDeframer::read].  Interrupted is not retried. *)
Fixpoint bytes_loop (fuel : nat) (size : N) (got : bytes) (ls : list N) (s : stream)
  : out bytes bytes_st :=
  if len got <? size then
    match fuel with
    | O => (PIo (mk_bytes size got) ModelFuel, ls, s)
    | S f =>
        match read_lim (size - len got) ls s with
        | (inr [], ls1, s1) => (PIo (mk_bytes size got) UnexpectedEof, ls1, s1)
        | (inr bs, ls1, s1) => bytes_loop f size (got ++ bs) ls1 s1
        | (inl k, ls1, s1) => (PIo (mk_bytes size got) k, ls1, s1)
        end
    end
  else (PDone got, ls, s).

(* parse/deframe/bytes.rs:19-33 *)
Definition bytes_deframe (st : bytes_st) (ls : list N) (s : stream) : out bytes bytes_st :=
  bytes_loop (S (mu s)) (bd_size st) (bd_got st) ls s.

(** parse/deframe/bytes.rs:35-37: the total size, not the amount received. *)
Definition bytes_read_so_far (st : bytes_st) : N := bd_size st.

(** parse/deframe/bytes.rs:53-58 [BytesUntilEofDeframer::read]. *)
Definition eof_deframe (data : bytes) (ls : list N) (s : stream) : out bytes bytes :=
  match read_to_end (S (mu s)) ls s data with
  | (None, d, ls1, s1) => (PDone d, ls1, s1)
  | (Some k, d, ls1, s1) => (PIo d k, ls1, s1)
  end.

(** ** CRLF lines *)

(** parse/crlf_line.rs:10. *)
Definition MAX_LINE_SIZE : N := 512.

(** parse/crlf_line.rs:39-45 [parse_crlf_line]. *)
Definition parse_crlf_line (line : bytes) : perr + bytes :=
  match str_pop line with
  | Some (rest, ch) => if beqb ch [CR] then inr rest else inl BadSyntax
  | None => inl BadSyntax
  end.

(** parse/crlf_line.rs:27-36 [CrlfLineParser::parse]; the state is the line read so far. *)
Definition crlf_parse (dbg : bool) (line : bytes) (ls : list N) (s : stream) : out bytes bytes :=
  match usub dbg MAX_LINE_SIZE (len line) with
  | None => (PPanic, ls, s)
  | Some lim =>
      match with_limit lim ls (fun ls' => line_deframe line ls' s) with
      | (PDone l, ls1, s1) =>
          match parse_crlf_line l with
          | inr l' => (PDone l', ls1, s1)
          | inl e => (PErr e, ls1, s1)
          end
      | (PIo _ InvalidData, ls1, s1) => (PErr InvalidUtf8, ls1, s1)
      | (r, ls1, s1) => (r, ls1, s1)
      end
  end.

(** ** Headers *)

(** parse/headers.rs:12. *)
Definition MAX_HEADERS_SIZE : N := 4096.

(** parse/headers.rs:15-19 [HeadersParser]. *)
Record hdr_st := mk_hdr { h_line : bytes; h_map : header_map; h_read : N }.

(** parse/headers.rs:23-25 [HeadersParser::new]. *)
Definition hdr_new : hdr_st := mk_hdr [] [] 0.

(** parse/headers.rs:50-57 [parse_header]. *)
Definition parse_header (raw : bytes) : perr + (header * bytes) :=
  match split_colon raw with
  | Some (n, v) => inr (header_from n, v)
  | None => inl BadSyntax
  end.

(** parse/headers.rs:34-46, the loop of [HeadersParser::parse].  The addition to [read] cannot
    overflow before 2^64 bytes have been received and is unbounded here. *)
Fixpoint hdr_loop (fuel : nat) (dbg : bool) (st : hdr_st) (ls : list N) (s : stream)
  : out header_map hdr_st :=
  match fuel with
  | O => (PIo st ModelFuel, ls, s)
  | S f =>
      match crlf_parse dbg (h_line st) ls s with
      | (PDone [], ls1, s1) => (PDone (h_map st), ls1, s1)
      | (PDone line, ls1, s1) =>
          match parse_header line with
          | inl e => (PErr e, ls1, s1)
          | inr (k, v) =>
              hdr_loop f dbg (mk_hdr [] (add_header (h_map st) k v) (h_read st + len line)) ls1 s1
          end
      | (PIo line k, ls1, s1) => (PIo (mk_hdr line (h_map st) (h_read st)) k, ls1, s1)
      | (PErr e, ls1, s1) => (PErr e, ls1, s1)
      | (PPanic, ls1, s1) => (PPanic, ls1, s1)
      end
  end.

(** parse/headers.rs:29-47 [HeadersParser::parse]. *)
Definition hdr_parse (dbg : bool) (st : hdr_st) (ls : list N) (s : stream) : out header_map hdr_st :=
  match usub dbg MAX_HEADERS_SIZE (h_read st) with
  | None => (PPanic, ls, s)
  | Some lim => with_limit lim ls (fun ls' => hdr_loop (S (S (mu s))) dbg st ls' s)
  end.

(** ** Bodies *)

(** parse/body.rs:15. *)
Definition MAX_BODY_SIZE : N := 3145728.

(** parse/body.rs:105-114 [chunked::State]. *)
Inductive chunk_state :=
| CSize (line : bytes) | CData (st : bytes_st) | CTail (line : bytes) (is_last : bool) | CFinished.

(** parse/body.rs:99-102 [ChunksParser]. *)
Record chunks_st := mk_chunks { c_body : bytes; c_state : chunk_state }.

(** parse/body.rs:118-120 [ChunksParser::new]. *)
Definition chunks_new : chunks_st := mk_chunks [] (CSize []).

(** parse/body.rs:180-186 [parse_chunk_size]. *)
Definition parse_chunk_size (raw : bytes) : perr + N :=
  match parse_uint 16 USIZE_MAX raw with
  | None => inl InvalidChunkSize
  | Some size => if MAX_BODY_SIZE <? size then inl InvalidChunkSize else inr size
  end.

(** parse/body.rs:149-154 [size_state]. *)
Definition size_state (dbg : bool) (line : bytes) (ls : list N) (s : stream)
  : out chunk_state chunk_state :=
  match crlf_parse dbg line ls s with
  | (PDone raw, ls1, s1) =>
      match parse_chunk_size raw with
      | inr n => (PDone (CData (mk_bytes n [])), ls1, s1)
      | inl e => (PErr e, ls1, s1)
      end
  | (PIo l k, ls1, s1) => (PIo (CSize l) k, ls1, s1)
  | (PErr e, ls1, s1) => (PErr e, ls1, s1)
  | (PPanic, ls1, s1) => (PPanic, ls1, s1)
  end.

(** parse/body.rs:157-166 [data_state]; also returns the body with the chunk appended. *)
Definition data_state (st : bytes_st) (body : bytes) (ls : list N) (s : stream)
  : out (bytes * chunk_state) chunk_state :=
  match bytes_deframe st ls s with
  | (PDone data, ls1, s1) =>
      (PDone (body ++ data, CTail [] (match data with [] => true | _ => false end)), ls1, s1)
  | (PIo b k, ls1, s1) => (PIo (CData b) k, ls1, s1)
  | (PErr e, ls1, s1) => (PErr e, ls1, s1)
  | (PPanic, ls1, s1) => (PPanic, ls1, s1)
  end.

(** parse/body.rs:170-177 [tailing_crlf_state]. *)
Definition tail_state (dbg : bool) (line : bytes) (is_last : bool) (ls : list N) (s : stream)
  : out chunk_state chunk_state :=
  match crlf_parse dbg line ls s with
  | (PDone [], ls1, s1) => (PDone (if is_last then CFinished else CSize []), ls1, s1)
  | (PDone _, ls1, s1) => (PErr BadSyntax, ls1, s1)
  | (PIo l k, ls1, s1) => (PIo (CTail l is_last) k, ls1, s1)
  | (PErr e, ls1, s1) => (PErr e, ls1, s1)
  | (PPanic, ls1, s1) => (PPanic, ls1, s1)
  end.

(** parse/body.rs:129-145 [ChunksParser::parse]. *)
Fixpoint chunks_loop (fuel : nat) (dbg : bool) (body : bytes) (st : chunk_state)
  (ls : list N) (s : stream) : out bytes chunks_st :=
  match fuel with
  | O => (PIo (mk_chunks body st) ModelFuel, ls, s)
  | S f =>
      match st with
      | CSize line =>
          match size_state dbg line ls s with
          | (PDone st', ls1, s1) => chunks_loop f dbg body st' ls1 s1
          | (PIo st' k, ls1, s1) => (PIo (mk_chunks body st') k, ls1, s1)
          | (PErr e, ls1, s1) => (PErr e, ls1, s1)
          | (PPanic, ls1, s1) => (PPanic, ls1, s1)
          end
      | CData b =>
          match data_state b body ls s with
          | (PDone (body', st'), ls1, s1) => chunks_loop f dbg body' st' ls1 s1
          | (PIo st' k, ls1, s1) => (PIo (mk_chunks body st') k, ls1, s1)
          | (PErr e, ls1, s1) => (PErr e, ls1, s1)
          | (PPanic, ls1, s1) => (PPanic, ls1, s1)
          end
      | CTail line is_last =>
          match tail_state dbg line is_last ls s with
          | (PDone st', ls1, s1) => chunks_loop f dbg body st' ls1 s1
          | (PIo st' k, ls1, s1) => (PIo (mk_chunks body st') k, ls1, s1)
          | (PErr e, ls1, s1) => (PErr e, ls1, s1)
          | (PPanic, ls1, s1) => (PPanic, ls1, s1)
          end
      | CFinished => (PDone body, ls, s)
      end
  end.

(* parse/body.rs:129-145 *)
Definition chunks_parse (dbg : bool) (st : chunks_st) (ls : list N) (s : stream)
  : out bytes chunks_st :=
  chunks_loop (3 * mu s + 4)%nat dbg (c_body st) (c_state st) ls s.

(** parse/body.rs:18-23 [BodyParser]. *)
Inductive body_st :=
| BSized (st : bytes_st) | BUntilEof (data : bytes) | BChunked (st : chunks_st) | BEmpty.

(** parse/body.rs:57-60 [get_content_length]. *)
Definition get_content_length (h : header_map) : option (perr + N) :=
  match get_first_header_value h CONTENT_LENGTH with
  | None => None
  | Some v => Some (match parse_uint 10 USIZE_MAX v with
                    | Some n => inr n
                    | None => inl InvalidHeaderValue
                    end)
  end.

(** parse/body.rs:63-66 [is_chunked_transfer_encoding]. *)
Definition is_chunked (h : header_map) : bool :=
  match get_first_header_value h TRANSFER_ENCODING with
  | Some v => contains (lit "chunked") v
  | None => false
  end.

(** parse/body.rs:28-42 [BodyParser::new]. *)
Definition body_new (h : header_map) (read_if_no_content_length : bool) : perr + body_st :=
  match get_content_length h with
  | Some (inl e) => inl e
  | Some (inr size) =>
      if MAX_BODY_SIZE <? size then inl ContentLengthTooLarge
      else inr (BSized (mk_bytes size []))
  | None =>
      if is_chunked h then inr (BChunked chunks_new)
      else if read_if_no_content_length then inr (BUntilEof [])
      else inr BEmpty
  end.

(** parse/body.rs:45-52 [BodyParser::read_so_far]. *)
Definition body_read_so_far (st : body_st) : N :=
  match st with
  | BSized b => bytes_read_so_far b
  | BUntilEof d => len d
  | BChunked c => len (c_body c)
  | BEmpty => 0
  end.

(** parse/body.rs:69-78 [BodyParser::parse]. *)
Definition body_parse (dbg : bool) (st : body_st) (ls : list N) (s : stream) : out bytes body_st :=
  match usub dbg MAX_BODY_SIZE (body_read_so_far st) with
  | None => (PPanic, ls, s)
  | Some lim =>
      with_limit lim ls (fun ls' =>
        match st with
        | BSized b =>
            match bytes_deframe b ls' s with
            | (PDone v, ls1, s1) => (PDone v, ls1, s1)
            | (PIo b' k, ls1, s1) => (PIo (BSized b') k, ls1, s1)
            | (PErr e, ls1, s1) => (PErr e, ls1, s1)
            | (PPanic, ls1, s1) => (PPanic, ls1, s1)
            end
        | BUntilEof d =>
            match eof_deframe d ls' s with
            | (PDone v, ls1, s1) => (PDone v, ls1, s1)
            | (PIo d' k, ls1, s1) => (PIo (BUntilEof d') k, ls1, s1)
            | (PErr e, ls1, s1) => (PErr e, ls1, s1)
            | (PPanic, ls1, s1) => (PPanic, ls1, s1)
            end
        | BChunked c =>
            match chunks_parse dbg c ls' s with
            | (PDone v, ls1, s1) => (PDone v, ls1, s1)
            | (PIo c' k, ls1, s1) => (PIo (BChunked c') k, ls1, s1)
            | (PErr e, ls1, s1) => (PErr e, ls1, s1)
            | (PPanic, ls1, s1) => (PPanic, ls1, s1)
            end
        | BEmpty => (PDone [], ls', s)
        end)
  end.

(** ** Messages *)

(** parse/message.rs:38-47 [State<R, T>].  Both uses of MessageParser (request.rs:37-53,
    response.rs:32-48) take as R a CRLF-line parser followed by a function on the line, so the
    first-line state is the line read so far and the function is the argument [pf] below. *)
Inductive msg_st (T : Type) :=
| MFirst (line : bytes)
| MHeaders (t : T) (st : hdr_st)
| MBody (t : T) (h : header_map) (st : body_st)
| MFinished (t : T) (h : header_map) (body : bytes).
Arguments MFirst {T} _.
Arguments MHeaders {T} _ _.
Arguments MBody {T} _ _ _.
Arguments MFinished {T} _ _ _.

(** The first-line parsers (parse/request.rs:46-53, parse/response.rs:41-48). *)
Definition first_parse {T} (pf : bytes -> perr + T) (dbg : bool) (line : bytes)
  (ls : list N) (s : stream) : out T bytes :=
  match crlf_parse dbg line ls s with
  | (PDone l, ls1, s1) =>
      match pf l with inr t => (PDone t, ls1, s1) | inl e => (PErr e, ls1, s1) end
  | (PIo l k, ls1, s1) => (PIo l k, ls1, s1)
  | (PErr e, ls1, s1) => (PErr e, ls1, s1)
  | (PPanic, ls1, s1) => (PPanic, ls1, s1)
  end.

(** parse/message.rs:70-75 [first_line_state]. *)
Definition first_line_state {T} (pf : bytes -> perr + T) dbg line ls s : out (msg_st T) (msg_st T) :=
  match first_parse pf dbg line ls s with
  | (PDone t, ls1, s1) => (PDone (MHeaders t hdr_new), ls1, s1)
  | (PIo l k, ls1, s1) => (PIo (MFirst l) k, ls1, s1)
  | (PErr e, ls1, s1) => (PErr e, ls1, s1)
  | (PPanic, ls1, s1) => (PPanic, ls1, s1)
  end.

(** parse/message.rs:78-86 [headers_state]. *)
Definition headers_state {T} dbg (flag : bool) (t : T) (h : hdr_st) ls s
  : out (msg_st T) (msg_st T) :=
  match hdr_parse dbg h ls s with
  | (PDone hm, ls1, s1) =>
      match body_new hm flag with
      | inr b => (PDone (MBody t hm b), ls1, s1)
      | inl e => (PErr e, ls1, s1)
      end
  | (PIo h' k, ls1, s1) => (PIo (MHeaders t h') k, ls1, s1)
  | (PErr e, ls1, s1) => (PErr e, ls1, s1)
  | (PPanic, ls1, s1) => (PPanic, ls1, s1)
  end.

(** parse/message.rs:89-94 [body_state]. *)
Definition body_state {T} dbg (t : T) (hm : header_map) (b : body_st) ls s
  : out (msg_st T) (msg_st T) :=
  match body_parse dbg b ls s with
  | (PDone body, ls1, s1) => (PDone (MFinished t hm body), ls1, s1)
  | (PIo b' k, ls1, s1) => (PIo (MBody t hm b') k, ls1, s1)
  | (PErr e, ls1, s1) => (PErr e, ls1, s1)
  | (PPanic, ls1, s1) => (PPanic, ls1, s1)
  end.

(** parse/message.rs:50-66 [MessageParser::parse]; [flag] is read_body_if_no_content_length. *)
Fixpoint msg_loop {T} (fuel : nat) (pf : bytes -> perr + T) (dbg flag : bool) (st : msg_st T)
  (ls : list N) (s : stream) : out (T * header_map * bytes) (msg_st T) :=
  match fuel with
  | O => (PIo st ModelFuel, ls, s)
  | S f =>
      match st with
      | MFinished t hm body => (PDone (t, hm, body), ls, s)
      | _ =>
          let step :=
            match st with
            | MFirst line => first_line_state pf dbg line ls s
            | MHeaders t h => headers_state dbg flag t h ls s
            | MBody t hm b => body_state dbg t hm b ls s
            | MFinished t hm body => (PPanic, ls, s) (* not reached *)
            end in
          match step with
          | (PDone st', ls1, s1) => msg_loop f pf dbg flag st' ls1 s1
          | (PIo st' k, ls1, s1) => (PIo st' k, ls1, s1)
          | (PErr e, ls1, s1) => (PErr e, ls1, s1)
          | (PPanic, ls1, s1) => (PPanic, ls1, s1)
          end
      end
  end.

(** The state advances at most three times. *)
(* parse/message.rs:50-66 *)
Definition msg_parse {T} (pf : bytes -> perr + T) (dbg flag : bool) (st : msg_st T)
  (ls : list N) (s : stream) : out (T * header_map * bytes) (msg_st T) :=
  msg_loop 4 pf dbg flag st ls s.

(** ** Requests *)

(** parse/request.rs:56-73 [parse_first_line], [parse_method]. *)
Definition parse_request_line (line : bytes) : perr + (method * bytes) :=
  match split_sp line with
  | m :: u :: v :: _ =>
      if negb (is_supported v) then inl InvalidHttpVersion
      else match method_from_str m with
           | Some m' => inr (m', u)
           | None => inl UnrecognizedMethod
           end
  | _ => inl BadSyntax
  end.

(* parse/request.rs:18-34 *)
Definition req_st := msg_st (method * bytes).

(** parse/request.rs:17-19 [RequestParser::new]. *)
Definition req_new : req_st := MFirst [].

(** parse/request.rs:22-24 [RequestParser::has_data]. *)
Definition req_has_data (st : req_st) : bool :=
  match st with MFirst line => 0 <? len line | _ => true end.

(** parse/request.rs:28-33 [RequestParser::parse], called on a stream without enclosing limits
    (server/connection.rs:55). *)
Definition req_parse (dbg : bool) (st : req_st) (s : stream) : pres request req_st * stream :=
  match msg_parse parse_request_line dbg false st [] s with
  | (PDone (m, u, hm, body), _, s1) => (PDone (mk_request m u hm body), s1)
  | (PIo st' k, _, s1) => (PIo st' k, s1)
  | (PErr e, _, s1) => (PErr e, s1)
  | (PPanic, _, s1) => (PPanic, s1)
  end.

(** ** Responses *)

(** parse/response.rs:65-68 [parse_status]. *)
Definition parse_status (code : bytes) : perr + status :=
  match parse_uint 10 U16_MAX code with
  | None => inl InvalidStatusCode
  | Some c => match status_from_code c with
              | Some st => inr st
              | None => inl InvalidStatusCode
              end
  end.

(** parse/response.rs:51-62 [parse_first_line]. *)
Definition parse_status_line (line : bytes) : perr + status :=
  match split_sp line with
  | v :: c :: _ => if negb (is_supported v) then inl InvalidHttpVersion else parse_status c
  | _ => inl BadSyntax
  end.

(* parse/response.rs:13-29 *)
Definition resp_st := msg_st status.

(** parse/response.rs:17-19 [ResponseParser::new]. *)
Definition resp_new : resp_st := MFirst [].

(** parse/response.rs:23-28 [ResponseParser::parse]. *)
Definition resp_parse (dbg : bool) (st : resp_st) (s : stream) : pres response resp_st * stream :=
  match msg_parse parse_status_line dbg true st [] s with
  | (PDone (t, hm, body), _, s1) => (PDone (mk_response t hm body), s1)
  | (PIo st' k, _, s1) => (PIo st' k, s1)
  | (PErr e, _, s1) => (PErr e, s1)
  | (PPanic, _, s1) => (PPanic, s1)
  end.
