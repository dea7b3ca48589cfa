(** The client: /repo/src/client/client.rs, /repo/src/client/stream_factory.rs, and the standard library's BufWriter. *)
From Coq Require Import List Ascii String NArith Bool.
From Verif.Model Require Import Bytes Io Common Parse Encode Writer.
Import ListNotations.
Local Open Scope N_scope.

(** ** The stream (client.rs:127; util/stream.rs only forwards) *)

(** A [write] of the blocking socket with a non-empty buffer.  Other than on the server side (Model/Writer.v) an
    exhausted list takes everything. *)
Definition sock_write (s : sock) (b : bytes) : wres N * sock :=
  match sk_events s with
  | [] => (WOk (len b), mk_sock [] (sk_flushes s) (sk_sent s ++ b))
  | WTake n :: evs =>
      let m := N.min n (len b) in (WOk m, mk_sock evs (sk_flushes s) (sk_sent s ++ firstn (N.to_nat m) b))
  | WFail k :: evs => (WErr k, mk_sock evs (sk_flushes s) (sk_sent s))
  end.

(** std::io::BufWriter: what is buffered.  Its capacity (DEFAULT_BUF_SIZE). *)
Definition BUF_WRITER_CAP : N := 8192.

(** BufWriter::flush_buf: writes until the buffer is empty; retries on Interrupted; a write of 0 bytes is an error; what
    was written is removed from the buffer in any case.  Returns what is left. *)
(* the writer of client/client.rs:127 *)
Fixpoint bw_flush_f (fuel : nat) (buf : bytes) (s : sock) : wres unit * bytes * sock :=
  match buf with
  | [] => (WOk tt, [], s)
  | _ =>
    match fuel with
    | O => (WErr ModelFuel, buf, s)
    | S f =>
        match sock_write s buf with
        | (WOk n, s1) => if n =? 0 then (WErr WRITE_ZERO, buf, s1) else bw_flush_f f (skipn (N.to_nat n) buf) s1
        | (WErr Interrupted, s1) => bw_flush_f f buf s1
        | (WErr k, s1) => (WErr k, buf, s1)
        end
    end
  end.
(** Each iteration uses up an event, or, when there is none left, empties the buffer. *)
Definition bw_flush_buf (buf : bytes) (s : sock) : wres unit * bytes * sock :=
  bw_flush_f (S (List.length (sk_events s))) buf s.

(** BufWriter::write. *)
(* the writer of client/client.rs:127 *)
Definition bw_write (buf : bytes) (s : sock) (b : bytes) : wres N * bytes * sock :=
  match (if BUF_WRITER_CAP <? len buf + len b then bw_flush_buf buf s else (WOk tt, buf, s)) with
  | (WErr k, buf1, s1) => (WErr k, buf1, s1)
  | (WOk _, buf1, s1) =>
      if BUF_WRITER_CAP <=? len b then let (r, s2) := sock_write s1 b in (r, buf1, s2)
      else (WOk (len b), buf1 ++ b, s1)
  end.

(** Write::write_all (ReadableWriter, util/stream.rs:50-58, has the default one).  Each iteration that does not finish
    uses up an event. *)
Fixpoint bw_write_all_f (fuel : nat) (buf : bytes) (s : sock) (b : bytes) : wres unit * bytes * sock :=
  match b with
  | [] => (WOk tt, buf, s)
  | _ =>
    match fuel with
    | O => (WErr ModelFuel, buf, s)
    | S f =>
        match bw_write buf s b with
        | (WOk n, buf1, s1) =>
            if n =? 0 then (WErr WRITE_ZERO, buf1, s1) else bw_write_all_f f buf1 s1 (skipn (N.to_nat n) b)
        | (WErr Interrupted, buf1, s1) => bw_write_all_f f buf1 s1 b
        | (WErr k, buf1, s1) => (WErr k, buf1, s1)
        end
    end
  end.
Definition bw_write_all (buf : bytes) (s : sock) (b : bytes) : wres unit * bytes * sock :=
  bw_write_all_f (S (List.length (sk_events s))) buf s b.

(** BufWriter::flush. *)
(* the writer of client/client.rs:127, called at 153 *)
Definition bw_flush (buf : bytes) (s : sock) : wres unit * bytes * sock :=
  match bw_flush_buf buf s with
  | (WErr k, buf1, s1) => (WErr k, buf1, s1)
  | (WOk _, buf1, s1) =>
      match sk_flushes s1 with
      | Some k :: fl => (WErr k, buf1, mk_sock (sk_events s1) fl (sk_sent s1))
      | None :: fl => (WOk tt, buf1, mk_sock (sk_events s1) fl (sk_sent s1))
      | [] => (WOk tt, buf1, s1)
      end
  end.

(** A stream to the server: what its reader will deliver (an exhausted list times out), what its BufWriter holds, and
    the output side of its socket. *)
(* client/client.rs:97 *)
Record cstream := mk_cstream { cs_in : stream; cs_held : bytes; cs_sock : sock }.

(** client.rs:144-155 [write_request]. *)
Fixpoint put_pieces (buf : bytes) (s : sock) (ps : list bytes) : wres unit * bytes * sock :=
  match ps with
  | [] => bw_flush buf s
  | p :: ps' =>
      match bw_write_all buf s p with
      | (WOk _, buf1, s1) => put_pieces buf1 s1 ps'
      | r => r
      end
  end.
Definition put_request (c : cstream) (q : request) : wres unit * cstream :=
  match put_pieces (cs_held c) (cs_sock c) (request_pieces q) with
  | (r, buf1, s1) => (r, mk_cstream (cs_in c) buf1 s1)
  end.

(** client.rs:23-32 [RequestError] and success.  [CPanic]: a panic in the parser (C09) or of line stream_factory.rs:38. *)
Inductive cres := COk (r : response) | CParsing (e : perr) | CConnecting (k : ekind) | CReading (k : ekind) | CWriting (k : ekind) | CPanic.

(** client.rs:133-141 [send_request]. *)
Definition send_request (dbg : bool) (c : cstream) (q : request) : cres * cstream :=
  match put_request c q with
  | (WErr k, c1) => (CWriting k, c1)
  | (WOk _, c1) =>
      match resp_parse dbg resp_new (cs_in c1) with
      | (r, s') =>
          (match r with
           | PDone v => COk v
           | PIo _ k => CReading k
           | PErr e => CParsing e
           | PPanic => CPanic
           end, mk_cstream s' (cs_held c1) (cs_sock c1))
      end
  end.

(** ** Connecting *)

(** The next results of TcpStream::connect; an exhausted list refuses. *)
(* client/stream_factory.rs:33-36 *)
Definition net := list (ekind + cstream).
(* client/stream_factory.rs:33-36 *)
Definition REFUSED : ekind := OtherKind 1.
(* client/stream_factory.rs:33-36 *)
Definition tcp_connect (n : net) : (ekind + cstream) * net :=
  match n with [] => (inl REFUSED, []) | r :: n' => (r, n') end.

(** stream_factory.rs:31-42 [create]: one more try.  Line 38 panics on a read_timeout of zero.  The TLS factory
    (65-71) does the same and wraps the stream. *)
Definition create (n : net) : (ekind + cstream) * net :=
  match tcp_connect n with
  | (inr s, n1) => (inr s, n1)
  | (inl _, n1) => tcp_connect n1
  end.

(** client.rs:96-98: a connection.  Ghost: the streams it has dropped. *)
Record cconn := mk_cconn { cc_stream : option cstream; cc_dropped : list cstream }.
Definition cconn_new : cconn := mk_cconn None [].

(** Dropping a stream drops its BufWriter, which tries to write what it holds. *)
(* client/client.rs:127 (the assignment drops the old stream) *)
Definition drop_stream (c : cstream) : cstream :=
  match bw_flush_buf (cs_held c) (cs_sock c) with (_, buf1, s1) => mk_cstream (cs_in c) buf1 s1 end.

(** client.rs:125-129 [connect]: on an error the old stream stays.  [None]: no error. *)
Definition connect (zero_timeout : bool) (n : net) (c : cconn) : option cres * net * cconn :=
  match create n with
  | (inl k, n1) => (Some (CConnecting k), n1, c)
  | (inr s, n1) =>
      if zero_timeout then (Some CPanic, n1, c)
      else (None, n1, mk_cconn (Some s) (cc_dropped c ++ match cc_stream c with Some o => [drop_stream o] | None => [] end))
  end.

(** client.rs:110-122 [Connection::send]. *)
Definition first_attempt (dbg : bool) (c : cconn) (q : request) : cres * cconn :=
  match cc_stream c with
  | None => (CPanic, c)
  | Some s => let (r, s1) := send_request dbg s q in (r, mk_cconn (Some s1) (cc_dropped c))
  end.
Definition conn_send (dbg zero_timeout : bool) (n : net) (c : cconn) (q : request) : cres * net * cconn :=
  match (match cc_stream c with None => connect zero_timeout n c | Some _ => (None, n, c) end) with
  | (Some e, n1, c1) => (e, n1, c1)
  | (None, n1, c1) =>
      match first_attempt dbg c1 q with
      | (COk r, c2) => (COk r, n1, c2)
      | (CPanic, c2) => (CPanic, n1, c2)
      | (_, c2) =>
          match connect zero_timeout n1 c2 with
          | (Some e, n2, c3) => (e, n2, c3)
          | (None, n2, c3) => let (r, c4) := first_attempt dbg c3 q in (r, n2, c4)
          end
      end
  end.

(** A sequence of sends on one connection. *)
(* client/client.rs:110-122, called again and again *)
Fixpoint conn_sends (dbg zero_timeout : bool) (n : net) (c : cconn) (qs : list request) : list cres * net * cconn :=
  match qs with
  | [] => ([], n, c)
  | q :: qs' =>
      match conn_send dbg zero_timeout n c q with
      | (r, n1, c1) => match conn_sends dbg zero_timeout n1 c1 qs' with (rs, n2, c2) => (r :: rs, n2, c2) end
      end
  end.
