(** The buffered streams the server and the client put between a socket and their parsers and writers:
    /repo/src/util/stream.rs with the standard library's BufReader, and the connection handling of
    /repo/src/server/connection.rs and server.rs, /repo/src/client/client.rs on top of them. *)
From Coq Require Import List Ascii String NArith Bool.
From Verif.Model Require Import Bytes Io Common Parse Encode Writer Server Client Generic.
Import ListNotations.
Local Open Scope N_scope.

(** A socket: what its reads will give, and its output side.  (TlsStream, util/tls_stream.rs, is a stream like it.) *)
Record socket := mk_socket { so_rx : stream; so_tx : sock }.

(** Read::read on the socket, with a buffer of n > 0 bytes: the pieces of [so_rx] are what is there to be had at a time;
    what does not fit stays. *)
(* the inner read of BufReader, called through util/stream.rs:70-74 *)
Definition raw_read (n : N) (s : stream) : (ekind + bytes) * stream :=
  match s with
  | [] => (inl WouldBlock, [])
  | RErr k :: s' => (inl k, s')
  | RData [] :: s' => (inr [], s')
  | RData bs :: s' =>
      (inr (firstn (N.to_nat n) bs),
       match skipn (N.to_nat n) bs with [] => s' | r => RData r :: s' end)
  end.

(** util/stream.rs:42 [WriteableReader] of a std::io::BufReader: its capacity, the part of its buffer not yet
    consumed, the socket. *)
Record reader := mk_reader { rd_cap : N; rd_buf : bytes; rd_inner : socket }.

(** BufReader::with_capacity. *)
(* server/server.rs:71; BufReader::new, client/client.rs:127 *)
Definition rd_new (cap : N) (s : socket) : reader := mk_reader cap [] s.

(* the reader of util/stream.rs:42 with another buffer and socket *)
Definition set_rx (r : reader) (buf : bytes) (s : stream) : reader :=
  mk_reader (rd_cap r) buf (mk_socket s (so_tx (rd_inner r))).

(** BufReader::fill_buf (util/stream.rs:87-89): a read of the socket, only if nothing is buffered. *)
Definition rd_fill (r : reader) : (ekind + bytes) * reader :=
  match rd_buf r with
  | [] =>
      match raw_read (rd_cap r) (so_rx (rd_inner r)) with
      | (inl k, s') => (inl k, set_rx r [] s')
      | (inr bs, s') => (inr bs, set_rx r bs s')
      end
  | bs => (inr bs, r)
  end.

(** BufReader::consume (util/stream.rs:91-93). *)
Definition rd_consume (n : N) (r : reader) : reader :=
  set_rx r (skipn (N.to_nat n) (rd_buf r)) (so_rx (rd_inner r)).

(** BufReader::read (util/stream.rs:71-73): past the buffer if it is empty and the caller's is not smaller. *)
Definition rd_read (n : N) (r : reader) : (ekind + bytes) * reader :=
  match rd_buf r with
  | [] =>
      if rd_cap r <=? n then
        match raw_read n (so_rx (rd_inner r)) with (x, s') => (x, set_rx r [] s') end
      else
        match rd_fill r with
        | (inl k, r') => (inl k, r')
        | (inr bs, r') => (inr (firstn (N.to_nat n) bs), rd_consume (N.min n (len bs)) r')
        end
  | bs => (inr (firstn (N.to_nat n) bs), rd_consume (N.min n (len bs)) r)
  end.

(** util/stream.rs:39 [ReadableWriter] of a writer W (NonBlockingBufWriter, BufWriter) of that reader: the writer's own
    state, and the reader inside it. *)
Record buffered (W : Type) := mk_buffered { bf_w : W; bf_r : reader }.
Arguments mk_buffered {W} _ _.
Arguments bf_w {W} _.
Arguments bf_r {W} _.

(** util/stream.rs:17-27. *)
Definition with_buf_reader_and_writer {W} (cap : N) (w : W) (s : socket) : buffered W := mk_buffered w (rd_new cap s).

(** util/stream.rs:44-48, 60-68: reads go to the reader inside the writer. *)
Definition bf_fill {W} (d : buffered W) : (ekind + bytes) * buffered W :=
  let (x, r) := rd_fill (bf_r d) in (x, mk_buffered (bf_w d) r).
Definition bf_consume {W} (n : N) (d : buffered W) : buffered W := mk_buffered (bf_w d) (rd_consume n (bf_r d)).
Definition bf_read {W} (n : N) (d : buffered W) : (ekind + bytes) * buffered W :=
  let (x, r) := rd_read n (bf_r d) in (x, mk_buffered (bf_w d) r).

(** util/stream.rs:50-58, 76-84: writes go to the writer, which writes to the socket inside the reader, past the
    reader's buffer.  [f]: what the writer does with the output side of the socket. *)
Definition bf_write {W A} (f : W -> sock -> A * W * sock) (d : buffered W) : A * buffered W :=
  match f (bf_w d) (so_tx (rd_inner (bf_r d))) with
  | (x, w, k) => (x, mk_buffered w (mk_reader (rd_cap (bf_r d)) (rd_buf (bf_r d)) (mk_socket (so_rx (rd_inner (bf_r d))) k)))
  end.

(** What there is to read.  Enough iterations for each loop, see [b_req_fuel] in Proofs/BufferedFacts.v. *)
(* bound for the loops over util/stream.rs:60-68 *)
Definition bf_mu {W} (d : buffered W) : nat := List.length (rd_buf (bf_r d)) + mu (so_rx (rd_inner (bf_r d))).

(** The parsers on such a stream.  [size]: the sizes read_to_end reads by. *)
(* parse/request.rs:27-34 on the stream of server/server.rs:69-79 *)
Definition b_req_parse {W} (size : bytes -> N) :=
  g_req_parse (buffered W) bf_fill bf_consume bf_read size bf_mu bf_mu.
(* parse/response.rs:22-29 on the stream of client/client.rs:127 *)
Definition b_resp_parse {W} (size : bytes -> N) :=
  g_resp_parse (buffered W) bf_fill bf_consume bf_read size bf_mu bf_mu.

(** ** The server's connections, as in Model/Server.v *)

(** connection.rs:34-39. *)
Record bconn := mk_bconn { bc_stream : buffered writer; bc_parser : option req_st }.

(** server.rs:30. *)
Definition READ_BUF_SIZE : N := 4096.

(** connection.rs:43-49 and server.rs:69-79 [new_buffered_stream]. *)
Definition bconn_new (s : socket) : bconn :=
  mk_bconn (with_buf_reader_and_writer READ_BUF_SIZE (wr_new WRITE_BUF_SIZE) s) (Some req_new).

(** connection.rs:52-65 [read_request]. *)
Definition b_read_request (size : bytes -> N) (dbg : bool) (c : bconn) : read_result * bconn :=
  match b_req_parse size dbg (match bc_parser c with Some st => st | None => req_new end) (bc_stream c) with
  | (PDone r, d) => (Ready r, mk_bconn d None)
  | (PIo st k, d) =>
      match k with
      | WouldBlock => (NotReady, mk_bconn d (Some st))
      | _ => (if is_closed st k then Closed else IoErr k, mk_bconn d None)
      end
  | (PErr e, d) => (ParseErr e, mk_bconn d None)
  | (PPanic, d) => (RPanic, mk_bconn d None)
  end.

(** connection.rs:68-76: the connection's stream is written to. *)
Definition b_run_ops (ops : list sop) (c : bconn) : wres unit * bconn :=
  let (x, d) := bf_write (fun w k => run_ops w k ops) (bc_stream c) in (x, mk_bconn d (bc_parser c)).
Definition b_flush (c : bconn) : wres unit * bconn :=
  let (x, d) := bf_write wr_flush (bc_stream c) in (x, mk_bconn d (bc_parser c)).
Definition b_sent (c : bconn) : bytes := sk_sent (so_tx (rd_inner (bf_r (bc_stream c)))).

(** server.rs:102-117 [respond_to_requests]. *)
Fixpoint b_respond (n : nat) (size : bytes -> N) (dbg : bool) (rt : router) (log : list request) (c : bconn)
  : verdict * list request * bconn :=
  match n with
  | O => (Unwind, log, c)
  | S n' =>
      match b_read_request size dbg c with
      | (rr, c') =>
          match rr with
          | Ready r =>
              match rt log r with
              | LPanic => (Unwind, log ++ [r], c')
              | l =>
                  match b_run_ops (result_ops l) c' with
                  | (WErr _, c1) => (Close, log ++ [r], c1)
                  | (WOk _, c1) =>
                      if should_close_after_response r then (Close, log ++ [r], c1)
                      else b_respond n' size dbg rt (log ++ [r]) c1
                  end
              end
          | NotReady => (Keep, log, c')
          | Closed => (Close, log, c')
          | ParseErr _ | IoErr _ => let (_, c1) := b_run_ops error_ops c' in (Close, log, c1)
          | RPanic => (Unwind, log, c')
          end
      end
  end.

(** server.rs:59. *)
Inductive bslot := BOpen (c : bconn) | BGone (sent : bytes) | BPoisoned (sent : bytes).

(** What the output side of the socket does during the next call. *)
(* the socket of server/server.rs:55-57 between two calls of the handler *)
Definition arm (v : visit) (c : bconn) : bconn :=
  let d := bc_stream c in
  let r := bf_r d in
  mk_bconn (mk_buffered (bf_w d) (mk_reader (rd_cap r) (rd_buf r)
    (mk_socket (so_rx (rd_inner r)) (mk_sock (v_events v) (v_flushes v) (b_sent c))))) (bc_parser c).

(** server.rs:82-99 [handle_io_ready_connection]. *)
Definition b_handle (size : bytes -> N) (dbg : bool) (rt : router) (v : visit) (log : list request) (st : bslot)
  : list request * bslot :=
  match st with
  | BOpen c =>
      match b_flush (arm v c) with
      | (WErr _, c1) => (log, BGone (b_sent c1))
      | (WOk _, c1) =>
          match b_respond (S (S (bf_mu (bc_stream c1)))) size dbg rt log c1 with
          | (vd, log', c') =>
              (log', match vd with
                     | Keep => BOpen c'
                     | Close => BGone (b_sent c')
                     | Unwind => BPoisoned (b_sent c')
                     end)
          end
      end
  | _ => (log, st)
  end.

(** One call per readiness event. *)
(* server/server.rs:61-65, 82-99 *)
Fixpoint b_visits (size : bytes -> N) (dbg : bool) (rt : router) (vs : list visit) (log : list request) (st : bslot)
  : list request * bslot :=
  match vs with
  | [] => (log, st)
  | v :: vs' => let (log', st') := b_handle size dbg rt v log st in b_visits size dbg rt vs' log' st'
  end.

(** ** The client's streams, as in Model/Client.v *)

(** std's DEFAULT_BUF_SIZE, the capacity of BufReader::new (client.rs:127). *)
Definition CLIENT_BUF_SIZE : N := 8192.

(** client.rs:127: what the BufWriter holds, and the reader inside it. *)
Definition bstream_new (s : socket) : buffered bytes := with_buf_reader_and_writer CLIENT_BUF_SIZE [] s.

(** client.rs:133-141 [send_request]. *)
Definition b_send_request (size : bytes -> N) (dbg : bool) (d : buffered bytes) (q : request)
  : cres * buffered bytes :=
  match bf_write (fun buf k => put_pieces buf k (request_pieces q)) d with
  | (WErr k, d1) => (CWriting k, d1)
  | (WOk _, d1) =>
      match b_resp_parse size dbg resp_new d1 with
      | (r, d2) =>
          (match r with
           | PDone v => COk v
           | PIo _ k => CReading k
           | PErr e => CParsing e
           | PPanic => CPanic
           end, d2)
      end
  end.

(** As [net] in Model/Client.v, with sockets. *)
Definition bnet := list (ekind + socket).
Definition b_tcp_connect (n : bnet) : (ekind + socket) * bnet :=
  match n with [] => (inl REFUSED, []) | r :: n' => (r, n') end.

(** stream_factory.rs:31-42 [create]. *)
Definition b_create (n : bnet) : (ekind + socket) * bnet :=
  match b_tcp_connect n with
  | (inr s, n1) => (inr s, n1)
  | (inl _, n1) => b_tcp_connect n1
  end.

(** client.rs:96-98. *)
Record bcconn := mk_bcconn { bcc_stream : option (buffered bytes); bcc_dropped : list (buffered bytes) }.
Definition bcconn_new : bcconn := mk_bcconn None [].

(** Dropping a stream drops its BufWriter, which tries to write what it holds. *)
(* client/client.rs:127 (the assignment drops the old stream) *)
Definition b_drop_stream (d : buffered bytes) : buffered bytes := snd (bf_write bw_flush_buf d).

(** client.rs:125-129 [connect]. *)
Definition b_connect (zero_timeout : bool) (n : bnet) (c : bcconn) : option cres * bnet * bcconn :=
  match b_create n with
  | (inl k, n1) => (Some (CConnecting k), n1, c)
  | (inr s, n1) =>
      if zero_timeout then (Some CPanic, n1, c)
      else (None, n1, mk_bcconn (Some (bstream_new s))
                        (bcc_dropped c ++ match bcc_stream c with Some o => [b_drop_stream o] | None => [] end))
  end.

(** client.rs:110-122 [Connection::send]. *)
Definition b_first_attempt (size : bytes -> N) (dbg : bool) (c : bcconn) (q : request) : cres * bcconn :=
  match bcc_stream c with
  | None => (CPanic, c)
  | Some s => let (r, s1) := b_send_request size dbg s q in (r, mk_bcconn (Some s1) (bcc_dropped c))
  end.
Definition b_conn_send (size : bytes -> N) (dbg zero_timeout : bool) (n : bnet) (c : bcconn) (q : request)
  : cres * bnet * bcconn :=
  match (match bcc_stream c with None => b_connect zero_timeout n c | Some _ => (None, n, c) end) with
  | (Some e, n1, c1) => (e, n1, c1)
  | (None, n1, c1) =>
      match b_first_attempt size dbg c1 q with
      | (COk r, c2) => (COk r, n1, c2)
      | (CPanic, c2) => (CPanic, n1, c2)
      | (_, c2) =>
          match b_connect zero_timeout n1 c2 with
          | (Some e, n2, c3) => (e, n2, c3)
          | (None, n2, c3) => let (r, c4) := b_first_attempt size dbg c3 q in (r, n2, c4)
          end
      end
  end.

(** A sequence of sends on one connection. *)
(* client/client.rs:110-122, called again and again *)
Fixpoint b_conn_sends (size : bytes -> N) (dbg zero_timeout : bool) (n : bnet) (c : bcconn) (qs : list request)
  : list cres * bnet * bcconn :=
  match qs with
  | [] => ([], n, c)
  | q :: qs' =>
      match b_conn_send size dbg zero_timeout n c q with
      | (r, n1, c1) => match b_conn_sends size dbg zero_timeout n1 c1 qs' with (rs, n2, c2) => (r :: rs, n2, c2) end
      end
  end.
