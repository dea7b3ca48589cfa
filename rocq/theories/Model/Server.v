(** One server connection: /repo/src/server/connection.rs and the connection handling part of
    /repo/src/server/server.rs. *)
From Coq Require Import List Ascii String NArith Bool.
From Verif.Model Require Import Bytes Io Common Parse Encode Writer.
Import ListNotations.
Local Open Scope N_scope.

(** ** connection.rs *)

(** connection.rs:13-31 [ReadRequestResult], [ReadRequestError].  [RPanic]: the parser panicked (see
    C09); the caller unwinds. *)
Inductive read_result :=
| NotReady
| Ready (r : request)
| ParseErr (e : perr)
| IoErr (k : ekind)
| Closed
| RPanic.

(** connection.rs:79-84 [is_closed]. *)
Definition is_closed (st : req_st) (k : ekind) : bool :=
  match k with
  | UnexpectedEof => negb (req_has_data st)
  | ConnectionAborted => true
  | _ => false
  end.

(** connection.rs:52-65 [read_request].  The parser is taken out of the connection and put back only
    when the stream blocked. *)
Definition read_request (dbg : bool) (s : stream) (p : option req_st)
  : read_result * stream * option req_st :=
  match req_parse dbg (match p with Some st => st | None => req_new end) s with
  | (PDone r, s') => (Ready r, s', None)
  | (PIo st k, s') =>
      match k with
      | WouldBlock => (NotReady, s', Some st)
      | _ => (if is_closed st k then Closed else IoErr k, s', None)
      end
  | (PErr e, s') => (ParseErr e, s', None)
  | (PPanic, s') => (RPanic, s', None)
  end.

(** connection.rs:34-49: the connection.  The address is left out.  The buffered stream is split into
    what its reader still delivers and its writer with the socket's output side; util/stream.rs only
    forwards reads to the one and writes to the other. *)
Record conn := mk_conn { cn_in : stream; cn_parser : option req_st; cn_w : writer; cn_sock : sock }.

(** server.rs:32. *)
Definition WRITE_BUF_SIZE : N := 4096.

(** connection.rs:43-49 and server.rs:69-79 [new_buffered_stream]. *)
Definition conn_new (s : stream) : conn :=
  mk_conn s (Some req_new) (wr_new WRITE_BUF_SIZE) (mk_sock [] [] []).

(** ** Writing *)

(** One use of the Write interface: write_all, a single write whose count is ignored, flush. *)
(* the calls of server.rs:124, 131-132, 143-152 *)
Inductive sop := SAll (b : bytes) | SWrite (b : bytes) | SFlush.

(** A sequence of these, each followed by the operator [?]. *)
(* server.rs:124, 131-132, 143-152 *)
Fixpoint run_ops (w : writer) (s : sock) (ops : list sop) : wres unit * writer * sock :=
  match ops with
  | [] => (WOk tt, w, s)
  | op :: ops' =>
      match
        match op with
        | SAll b => write_all w s b
        | SWrite b =>
            match wr_write w s b with
            | (WOk _, w1, s1) => (WOk tt, w1, s1)
            | (WErr k, w1, s1) => (WErr k, w1, s1)
            end
        | SFlush => wr_flush w s
        end
      with
      | (WOk _, w1, s1) => run_ops w1 s1 ops'
      | r => r
      end
  end.

(** server.rs:141-153 [write_response]: each [write!] is one write_all per piece; the empty line and
    the body are single writes. *)
Definition response_ops (r : response) : list sop :=
  map SAll (first_line_pieces HTTP_VERSION_1_1 (dec (st_code (rs_status r))) (st_reason (rs_status r))
            ++ header_pieces (rs_headers r))
  ++ [SWrite crlf; SWrite (rs_body r); SFlush].

(** What calling the router on a request gives (router.rs:9-16; SendResponse and SendResponseArc are
    treated alike by server.rs:121-124).  [LPanic]: a listener panicked. *)
Inductive lresult := LNext | LSend (r : response) | LPanic.

(** server.rs:120-126 [write_response_from_router], except for the call of the router. *)
Definition result_ops (l : lresult) : list sop :=
  match l with
  | LSend r => response_ops r
  | LNext => [SAll NOT_FOUND_RESPONSE; SFlush]
  | LPanic => []
  end.

(** server.rs:129-133 [write_error_response], without the println. *)
Definition error_ops : list sop := [SAll REQUEST_PARSING_ERROR_RESPONSE; SFlush].

(** server.rs:136-138 [should_close_after_response]. *)
Definition should_close_after_response (r : request) : bool :=
  contains_header_value (rq_headers r) CONNECTION (lit "close").

(** ** server.rs *)

(** A router together with everything its listeners depend on: the result for a request, given the
    requests already routed. *)
(* server.rs:121 *)
Definition router := list request -> request -> lresult.

(* the result of server.rs:102-117 *)
Inductive verdict := Keep | Close | Unwind.

(** server.rs:102-117 [respond_to_requests].  [log]: the requests routed so far.  Every Ready uses up
    input, so [fuel] is enough (see respond_enough). *)
Fixpoint respond (fuel : nat) (dbg : bool) (rt : router) (log : list request) (c : conn)
  : verdict * list request * conn :=
  match fuel with
  | O => (Unwind, log, c)
  | S f =>
      match read_request dbg (cn_in c) (cn_parser c) with
      | (rr, s', p') =>
          let c' := mk_conn s' p' (cn_w c) (cn_sock c) in
          match rr with
          | Ready r =>
              match rt log r with
              | LPanic => (Unwind, log ++ [r], c')
              | l =>
                  match run_ops (cn_w c) (cn_sock c) (result_ops l) with
                  | (wr, w1, k1) =>
                      let c1 := mk_conn s' p' w1 k1 in
                      match wr with
                      | WErr _ => (Close, log ++ [r], c1)
                      | WOk _ =>
                          if should_close_after_response r then (Close, log ++ [r], c1)
                          else respond f dbg rt (log ++ [r]) c1
                      end
                  end
              end
          | NotReady => (Keep, log, c')
          | Closed => (Close, log, c')
          | ParseErr _ | IoErr _ =>
              match run_ops (cn_w c) (cn_sock c) error_ops with
              | (_, w1, k1) => (Close, log, mk_conn s' p' w1 k1)
              end
          | RPanic => (Unwind, log, c')
          end
      end
  end.
Definition respond_to_requests (dbg : bool) (rt : router) (log : list request) (c : conn) :=
  respond (S (S (mu (cn_in c)))) dbg rt log c.

(** The Arc<Mutex<Option<Connection>>> of a connection (server.rs:59): holding it, empty, or poisoned
    by a panic while it was locked.  For the last two, the bytes that had been sent. *)
Inductive slot := Open (c : conn) | Gone (sent : bytes) | Poisoned (sent : bytes).

(** What the socket's output side does during one call of the handler. *)
(* the socket under server.rs:82 *)
Record visit := mk_visit { v_events : list wevent; v_flushes : list (option ekind) }.

(** server.rs:82-99 [handle_io_ready_connection].  A connection that is not put back is dropped, with
    what its writer still holds (NonBlockingBufWriter has no Drop).  On a poisoned mutex line 83
    panics. *)
Definition handle (dbg : bool) (rt : router) (v : visit) (log : list request) (st : slot)
  : list request * slot :=
  match st with
  | Open c =>
      match wr_flush (cn_w c) (mk_sock (v_events v) (v_flushes v) (sk_sent (cn_sock c))) with
      | (WErr _, _, k) => (log, Gone (sk_sent k))
      | (WOk _, w1, k1) =>
          match respond_to_requests dbg rt log (mk_conn (cn_in c) (cn_parser c) w1 k1) with
          | (vd, log', c') =>
              (log', match vd with
                     | Keep => Open c'
                     | Close => Gone (sk_sent (cn_sock c'))
                     | Unwind => Poisoned (sk_sent (cn_sock c'))
                     end)
          end
      end
  | Gone _ | Poisoned _ => (log, st)
  end.

(** The handler is called once per readiness event of the connection. *)
(* server.rs:61-65, 82-99 *)
Fixpoint visits (dbg : bool) (rt : router) (vs : list visit) (log : list request) (st : slot)
  : list request * slot :=
  match vs with
  | [] => (log, st)
  | v :: vs' => let (log', st') := handle dbg rt v log st in visits dbg rt vs' log' st'
  end.
