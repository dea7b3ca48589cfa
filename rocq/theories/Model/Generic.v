(** The parsers of Model/Parse.v over any reader: the same definitions, with the BufRead interface (parse/parse.rs:15
    has [impl BufRead]) as a parameter.  At the readers of Model/Io.v they are those of Model/Parse.v, see
    [g_request_model] and [g_response_model] in Proofs/GenericFacts.v; at the readers of Model/Buffered.v they are the parsers
    as the server and the client run them. *)
From Coq Require Import List Ascii String NArith Bool.
From Verif.Model Require Import Bytes Io Common Parse.
Import ListNotations.
Local Open Scope N_scope.

Section Reader.

(** A reader: BufRead::fill_buf, BufRead::consume, Read::read with a buffer of that many bytes; the size of the buffer
    std's read_to_end offers when it has read that much; how many iterations the
    loops, and that of read_to_end, are given (fuel). *)
Variable R : Type.
Variable fill : R -> (ekind + bytes) * R.
Variable consume : N -> R -> R.
Variable readn : N -> R -> (ekind + bytes) * R.
Variable size : bytes -> N.
Variable steps tsteps : R -> nat.

(** As [out] in Model/Parse.v. *)
Definition gout (T S : Type) : Type := pres T S * list N * R.

(** parse/error_take.rs:42-45. *)
Fixpoint g_fill_lim (ls : list N) (s : R) : (ekind + bytes) * R :=
  match ls with
  | [] => fill s
  | l :: ls' =>
      if l =? 0 then (inl LimitReached, s)
      else match g_fill_lim ls' s with
           | (inr bs, s') => (inr (firstn (N.to_nat (N.min l (len bs))) bs), s')
           | (inl k, s') => (inl k, s')
           end
  end.

(** parse/error_take.rs:47-49. *)
Fixpoint g_consume_lim (n : N) (ls : list N) (s : R) : list N * R :=
  match ls with
  | [] => ([], consume n s)
  | l :: ls' =>
      let amt := N.min n l in
      let (ls1, s1) := g_consume_lim amt ls' s in
      (l - amt :: ls1, s1)
  end.

(** parse/error_take.rs:34-38. *)
Fixpoint g_read_lim (n : N) (ls : list N) (s : R) : (ekind + bytes) * list N * R :=
  match ls with
  | [] =>
      match readn n s with (r, s') => (r, [], s') end
  | l :: ls' =>
      if l =? 0 then (inl LimitReached, ls, s)
      else match g_read_lim (N.min n l) ls' s with
           | (inr got, ls1, s1) => (inr got, l - len got :: ls1, s1)
           | (inl k, ls1, s1) => (inl k, l :: ls1, s1)
           end
  end.

(** std::io::read_until. *)
Fixpoint g_read_until (fuel : nat) (ls : list N) (s : R) (acc : bytes)
  : option ekind * bytes * list N * R :=
  match fuel with
  | O => (Some ModelFuel, acc, ls, s)
  | S f =>
      match g_fill_lim ls s with
      | (inl Interrupted, s') => g_read_until f ls s' acc
      | (inl k, s') => (Some k, acc, ls, s')
      | (inr bs, s') =>
          match find_lf bs with
          | Some i =>
              let '(ls1, s1) := g_consume_lim (N.of_nat (S i)) ls s' in
              (None, acc ++ firstn (S i) bs, ls1, s1)
          | None =>
              let '(ls1, s1) := g_consume_lim (len bs) ls s' in
              match bs with
              | [] => (None, acc, ls1, s1)
              | _ => g_read_until f ls1 s1 (acc ++ bs)
              end
          end
      end
  end.

(** std::io::BufRead::read_line. *)
Definition g_read_line (line : bytes) (ls : list N) (s : R)
  : option ekind * bytes * list N * R :=
  let '(r, acc, ls1, s1) := g_read_until (S (steps s)) ls s [] in
  if utf8 acc then (r, line ++ acc, ls1, s1)
  else (match r with None => Some InvalidData | Some k => Some k end, line, ls1, s1).

(** std::io::Read::read_to_end. *)
Fixpoint g_read_to_end (fuel : nat) (ls : list N) (s : R) (acc : bytes)
  : option ekind * bytes * list N * R :=
  match fuel with
  | O => (Some ModelFuel, acc, ls, s)
  | S f =>
      match g_read_lim (size acc) ls s with
      | (inl Interrupted, ls1, s1) => g_read_to_end f ls1 s1 acc
      | (inl k, ls1, s1) => (Some k, acc, ls1, s1)
      | (inr [], ls1, s1) => (None, acc, ls1, s1)
      | (inr got, ls1, s1) => g_read_to_end f ls1 s1 (acc ++ got)
      end
  end.

(** parse/error_take.rs:9-13. *)
Definition g_with_limit {T S} (l : N) (ls : list N) (call : list N -> gout T S) : gout T S :=
  match call (l :: ls) with (r, ls1, s1) => (r, tl ls1, s1) end.

(** parse/deframe/line.rs:18-29. *)
Definition g_line_deframe (line : bytes) (ls : list N) (s : R) : gout bytes bytes :=
  match g_read_line line ls s with
  | (None, line1, ls1, s1) =>
      match str_pop line1 with
      | Some (rest, ch) => if beqb ch [LF] then (PDone rest, ls1, s1)
                           else (PIo rest UnexpectedEof, ls1, s1)
      | None => (PIo line1 UnexpectedEof, ls1, s1)
      end
  | (Some k, line1, ls1, s1) => (PIo line1 k, ls1, s1)
  end.

(** parse/deframe/bytes.rs:19-33. *)
Fixpoint g_bytes_loop (fuel : nat) (size : N) (got : bytes) (ls : list N) (s : R)
  : gout bytes bytes_st :=
  if len got <? size then
    match fuel with
    | O => (PIo (mk_bytes size got) ModelFuel, ls, s)
    | S f =>
        match g_read_lim (size - len got) ls s with
        | (inr [], ls1, s1) => (PIo (mk_bytes size got) UnexpectedEof, ls1, s1)
        | (inr bs, ls1, s1) => g_bytes_loop f size (got ++ bs) ls1 s1
        | (inl k, ls1, s1) => (PIo (mk_bytes size got) k, ls1, s1)
        end
    end
  else (PDone got, ls, s).

(* parse/deframe/bytes.rs:19-33 *)
Definition g_bytes_deframe (st : bytes_st) (ls : list N) (s : R) : gout bytes bytes_st :=
  g_bytes_loop (S (steps s)) (bd_size st) (bd_got st) ls s.

(** parse/deframe/bytes.rs:53-58. *)
Definition g_eof_deframe (data : bytes) (ls : list N) (s : R) : gout bytes bytes :=
  match g_read_to_end (S (tsteps s)) ls s data with
  | (None, d, ls1, s1) => (PDone d, ls1, s1)
  | (Some k, d, ls1, s1) => (PIo d k, ls1, s1)
  end.

(** parse/crlf_line.rs:27-36. *)
Definition g_crlf_parse (dbg : bool) (line : bytes) (ls : list N) (s : R) : gout bytes bytes :=
  match usub dbg MAX_LINE_SIZE (len line) with
  | None => (PPanic, ls, s)
  | Some lim =>
      match g_with_limit lim ls (fun ls' => g_line_deframe line ls' s) with
      | (PDone l, ls1, s1) =>
          match parse_crlf_line l with
          | inr l' => (PDone l', ls1, s1)
          | inl e => (PErr e, ls1, s1)
          end
      | (PIo _ InvalidData, ls1, s1) => (PErr InvalidUtf8, ls1, s1)
      | (r, ls1, s1) => (r, ls1, s1)
      end
  end.

(** parse/headers.rs:34-46. *)
Fixpoint g_hdr_loop (fuel : nat) (dbg : bool) (st : hdr_st) (ls : list N) (s : R)
  : gout header_map hdr_st :=
  match fuel with
  | O => (PIo st ModelFuel, ls, s)
  | S f =>
      match g_crlf_parse dbg (h_line st) ls s with
      | (PDone [], ls1, s1) => (PDone (h_map st), ls1, s1)
      | (PDone line, ls1, s1) =>
          match parse_header line with
          | inl e => (PErr e, ls1, s1)
          | inr (k, v) =>
              g_hdr_loop f dbg (mk_hdr [] (add_header (h_map st) k v) (h_read st + len line)) ls1 s1
          end
      | (PIo line k, ls1, s1) => (PIo (mk_hdr line (h_map st) (h_read st)) k, ls1, s1)
      | (PErr e, ls1, s1) => (PErr e, ls1, s1)
      | (PPanic, ls1, s1) => (PPanic, ls1, s1)
      end
  end.

(** parse/headers.rs:29-47. *)
Definition g_hdr_parse (dbg : bool) (st : hdr_st) (ls : list N) (s : R) : gout header_map hdr_st :=
  match usub dbg MAX_HEADERS_SIZE (h_read st) with
  | None => (PPanic, ls, s)
  | Some lim => g_with_limit lim ls (fun ls' => g_hdr_loop (S (S (steps s))) dbg st ls' s)
  end.

(** parse/body.rs:149-154. *)
Definition g_size_state (dbg : bool) (line : bytes) (ls : list N) (s : R)
  : gout chunk_state chunk_state :=
  match g_crlf_parse dbg line ls s with
  | (PDone raw, ls1, s1) =>
      match parse_chunk_size raw with
      | inr n => (PDone (CData (mk_bytes n [])), ls1, s1)
      | inl e => (PErr e, ls1, s1)
      end
  | (PIo l k, ls1, s1) => (PIo (CSize l) k, ls1, s1)
  | (PErr e, ls1, s1) => (PErr e, ls1, s1)
  | (PPanic, ls1, s1) => (PPanic, ls1, s1)
  end.

(** parse/body.rs:157-166. *)
Definition g_data_state (st : bytes_st) (body : bytes) (ls : list N) (s : R)
  : gout (bytes * chunk_state) chunk_state :=
  match g_bytes_deframe st ls s with
  | (PDone data, ls1, s1) =>
      (PDone (body ++ data, CTail [] (match data with [] => true | _ => false end)), ls1, s1)
  | (PIo b k, ls1, s1) => (PIo (CData b) k, ls1, s1)
  | (PErr e, ls1, s1) => (PErr e, ls1, s1)
  | (PPanic, ls1, s1) => (PPanic, ls1, s1)
  end.

(** parse/body.rs:170-177. *)
Definition g_tail_state (dbg : bool) (line : bytes) (is_last : bool) (ls : list N) (s : R)
  : gout chunk_state chunk_state :=
  match g_crlf_parse dbg line ls s with
  | (PDone [], ls1, s1) => (PDone (if is_last then CFinished else CSize []), ls1, s1)
  | (PDone _, ls1, s1) => (PErr BadSyntax, ls1, s1)
  | (PIo l k, ls1, s1) => (PIo (CTail l is_last) k, ls1, s1)
  | (PErr e, ls1, s1) => (PErr e, ls1, s1)
  | (PPanic, ls1, s1) => (PPanic, ls1, s1)
  end.

(** parse/body.rs:129-145. *)
Fixpoint g_chunks_loop (fuel : nat) (dbg : bool) (body : bytes) (st : chunk_state)
  (ls : list N) (s : R) : gout bytes chunks_st :=
  match fuel with
  | O => (PIo (mk_chunks body st) ModelFuel, ls, s)
  | S f =>
      match st with
      | CSize line =>
          match g_size_state dbg line ls s with
          | (PDone st', ls1, s1) => g_chunks_loop f dbg body st' ls1 s1
          | (PIo st' k, ls1, s1) => (PIo (mk_chunks body st') k, ls1, s1)
          | (PErr e, ls1, s1) => (PErr e, ls1, s1)
          | (PPanic, ls1, s1) => (PPanic, ls1, s1)
          end
      | CData b =>
          match g_data_state b body ls s with
          | (PDone (body', st'), ls1, s1) => g_chunks_loop f dbg body' st' ls1 s1
          | (PIo st' k, ls1, s1) => (PIo (mk_chunks body st') k, ls1, s1)
          | (PErr e, ls1, s1) => (PErr e, ls1, s1)
          | (PPanic, ls1, s1) => (PPanic, ls1, s1)
          end
      | CTail line is_last =>
          match g_tail_state dbg line is_last ls s with
          | (PDone st', ls1, s1) => g_chunks_loop f dbg body st' ls1 s1
          | (PIo st' k, ls1, s1) => (PIo (mk_chunks body st') k, ls1, s1)
          | (PErr e, ls1, s1) => (PErr e, ls1, s1)
          | (PPanic, ls1, s1) => (PPanic, ls1, s1)
          end
      | CFinished => (PDone body, ls, s)
      end
  end.

(* parse/body.rs:129-145 *)
Definition g_chunks_parse (dbg : bool) (st : chunks_st) (ls : list N) (s : R)
  : gout bytes chunks_st :=
  g_chunks_loop (3 * steps s + 4)%nat dbg (c_body st) (c_state st) ls s.

(** parse/body.rs:69-78. *)
Definition g_body_parse (dbg : bool) (st : body_st) (ls : list N) (s : R) : gout bytes body_st :=
  match usub dbg MAX_BODY_SIZE (body_read_so_far st) with
  | None => (PPanic, ls, s)
  | Some lim =>
      g_with_limit lim ls (fun ls' =>
        match st with
        | BSized b =>
            match g_bytes_deframe b ls' s with
            | (PDone v, ls1, s1) => (PDone v, ls1, s1)
            | (PIo b' k, ls1, s1) => (PIo (BSized b') k, ls1, s1)
            | (PErr e, ls1, s1) => (PErr e, ls1, s1)
            | (PPanic, ls1, s1) => (PPanic, ls1, s1)
            end
        | BUntilEof d =>
            match g_eof_deframe d ls' s with
            | (PDone v, ls1, s1) => (PDone v, ls1, s1)
            | (PIo d' k, ls1, s1) => (PIo (BUntilEof d') k, ls1, s1)
            | (PErr e, ls1, s1) => (PErr e, ls1, s1)
            | (PPanic, ls1, s1) => (PPanic, ls1, s1)
            end
        | BChunked c =>
            match g_chunks_parse dbg c ls' s with
            | (PDone v, ls1, s1) => (PDone v, ls1, s1)
            | (PIo c' k, ls1, s1) => (PIo (BChunked c') k, ls1, s1)
            | (PErr e, ls1, s1) => (PErr e, ls1, s1)
            | (PPanic, ls1, s1) => (PPanic, ls1, s1)
            end
        | BEmpty => (PDone [], ls', s)
        end)
  end.

(** parse/request.rs:46-53, parse/response.rs:41-48. *)
Definition g_first_parse {T} (pf : bytes -> perr + T) (dbg : bool) (line : bytes)
  (ls : list N) (s : R) : gout T bytes :=
  match g_crlf_parse dbg line ls s with
  | (PDone l, ls1, s1) =>
      match pf l with inr t => (PDone t, ls1, s1) | inl e => (PErr e, ls1, s1) end
  | (PIo l k, ls1, s1) => (PIo l k, ls1, s1)
  | (PErr e, ls1, s1) => (PErr e, ls1, s1)
  | (PPanic, ls1, s1) => (PPanic, ls1, s1)
  end.

(** parse/message.rs:70-75. *)
Definition g_first_line_state {T} (pf : bytes -> perr + T) dbg line ls s : gout (msg_st T) (msg_st T) :=
  match g_first_parse pf dbg line ls s with
  | (PDone t, ls1, s1) => (PDone (MHeaders t hdr_new), ls1, s1)
  | (PIo l k, ls1, s1) => (PIo (MFirst l) k, ls1, s1)
  | (PErr e, ls1, s1) => (PErr e, ls1, s1)
  | (PPanic, ls1, s1) => (PPanic, ls1, s1)
  end.

(** parse/message.rs:78-86. *)
Definition g_headers_state {T} dbg (flag : bool) (t : T) (h : hdr_st) ls s
  : gout (msg_st T) (msg_st T) :=
  match g_hdr_parse dbg h ls s with
  | (PDone hm, ls1, s1) =>
      match body_new hm flag with
      | inr b => (PDone (MBody t hm b), ls1, s1)
      | inl e => (PErr e, ls1, s1)
      end
  | (PIo h' k, ls1, s1) => (PIo (MHeaders t h') k, ls1, s1)
  | (PErr e, ls1, s1) => (PErr e, ls1, s1)
  | (PPanic, ls1, s1) => (PPanic, ls1, s1)
  end.

(** parse/message.rs:89-94. *)
Definition g_body_state {T} dbg (t : T) (hm : header_map) (b : body_st) ls s
  : gout (msg_st T) (msg_st T) :=
  match g_body_parse dbg b ls s with
  | (PDone body, ls1, s1) => (PDone (MFinished t hm body), ls1, s1)
  | (PIo b' k, ls1, s1) => (PIo (MBody t hm b') k, ls1, s1)
  | (PErr e, ls1, s1) => (PErr e, ls1, s1)
  | (PPanic, ls1, s1) => (PPanic, ls1, s1)
  end.

(** parse/message.rs:50-66. *)
Fixpoint g_msg_loop {T} (fuel : nat) (pf : bytes -> perr + T) (dbg flag : bool) (st : msg_st T)
  (ls : list N) (s : R) : gout (T * header_map * bytes) (msg_st T) :=
  match fuel with
  | O => (PIo st ModelFuel, ls, s)
  | S f =>
      match st with
      | MFinished t hm body => (PDone (t, hm, body), ls, s)
      | _ =>
          let step :=
            match st with
            | MFirst line => g_first_line_state pf dbg line ls s
            | MHeaders t h => g_headers_state dbg flag t h ls s
            | MBody t hm b => g_body_state dbg t hm b ls s
            | MFinished t hm body => (PPanic, ls, s) (* not reached *)
            end in
          match step with
          | (PDone st', ls1, s1) => g_msg_loop f pf dbg flag st' ls1 s1
          | (PIo st' k, ls1, s1) => (PIo st' k, ls1, s1)
          | (PErr e, ls1, s1) => (PErr e, ls1, s1)
          | (PPanic, ls1, s1) => (PPanic, ls1, s1)
          end
      end
  end.

(* parse/message.rs:50-66 *)
Definition g_msg_parse {T} (pf : bytes -> perr + T) (dbg flag : bool) (st : msg_st T)
  (ls : list N) (s : R) : gout (T * header_map * bytes) (msg_st T) :=
  g_msg_loop 4 pf dbg flag st ls s.

(** parse/request.rs:28-33. *)
Definition g_req_parse (dbg : bool) (st : req_st) (s : R) : pres request req_st * R :=
  match g_msg_parse parse_request_line dbg false st [] s with
  | (PDone (m, u, hm, body), _, s1) => (PDone (mk_request m u hm body), s1)
  | (PIo st' k, _, s1) => (PIo st' k, s1)
  | (PErr e, _, s1) => (PErr e, s1)
  | (PPanic, _, s1) => (PPanic, s1)
  end.

(** parse/response.rs:23-28. *)
Definition g_resp_parse (dbg : bool) (st : resp_st) (s : R) : pres response resp_st * R :=
  match g_msg_parse parse_status_line dbg true st [] s with
  | (PDone (t, hm, body), _, s1) => (PDone (mk_response t hm body), s1)
  | (PIo st' k, _, s1) => (PIo st' k, s1)
  | (PErr e, _, s1) => (PErr e, s1)
  | (PPanic, _, s1) => (PPanic, s1)
  end.

End Reader.
