(** The server's connections on any stream.  /repo/src/server/server.rs:48, connection.rs:34, nonblocking_buf_writer.rs:8 and
    util/stream.rs are generic in the stream T (Read + Write); Model/Writer.v, Server.v and Buffered.v have it as a socket
    given by what its calls will do.  Here it is a parameter: any state with the three calls.  The other uses are
    Model/Tls.v (the stream of listen_https) and the sockets of Model/Buffered.v themselves. *)
From Coq Require Import List Ascii String NArith Bool.
From Verif.Model Require Import Bytes Io Common Parse Encode Writer Server Generic Buffered.
Import ListNotations.
Local Open Scope N_scope.

(** The iterations that the loops are given.  A run in which one of them had too few is not a run: see [ran_out]; the
    results below say [None] then. *)
Definition ran_out (k : ekind) : bool := match k with ModelFuel => true | _ => false end.

Section Streams.

(** util/stream.rs:7 [Stream]: Read::read with a buffer of that many bytes, Write::write, Write::flush. *)
Variable T : Type.
Variable t_read : N -> T -> (ekind + bytes) * T.
Variable t_write : bytes -> T -> wres N * T.
Variable t_flush : T -> wres unit * T.
(** The sizes read_to_end reads by, the capacity of the read buffer (READ_BUF_SIZE, server.rs:30), and the iterations. *)
Variable size : bytes -> N.
Variable rcap : N.
Variable fuel : nat.

(** ** nonblocking_buf_writer.rs *)

(** nonblocking_buf_writer.rs:67-77 [write_until_blocked]. *)
Fixpoint t_wub (n : nat) (t : T) (buf : bytes) (pos : N) : wres N * T :=
  match buf with
  | [] => (WOk pos, t)
  | _ =>
      match n with
      | O => (WErr ModelFuel, t)
      | S n' =>
          match t_write buf t with
          | (WOk amount, t') => t_wub n' t' (skipn (N.to_nat amount) buf) (pos + amount)
          | (WErr WouldBlock, t') => (WOk pos, t')
          | (WErr k, t') => (WErr k, t')
          end
      end
  end.

(** nonblocking_buf_writer.rs:22-33. *)
Definition t_flush_buf (w : writer) (t : T) : wres unit * writer * T :=
  match t_wub fuel t (skipn (N.to_nat (wr_pos w)) (wr_buf w)) 0 with
  | (WErr k, t') => (WErr k, w, t')
  | (WOk amount, t') =>
      let pos := wr_pos w + amount in
      if len (wr_buf w) <=? pos then (WOk tt, mk_writer [] 0 (wr_cap w), t')
      else (WOk tt, mk_writer (wr_buf w) pos (wr_cap w), t')
  end.

(** nonblocking_buf_writer.rs:37-42. *)
Definition t_flush_inner (t : T) : wres unit * T :=
  match t_flush t with
  | (WErr WouldBlock, t') => (WOk tt, t')
  | r => r
  end.

(** nonblocking_buf_writer.rs:46-58. *)
Definition t_wr_write (w : writer) (t : T) (b : bytes) : wres N * writer * T :=
  if wr_cap w <? len (wr_buf w) + len b then
    match t_flush_buf w t with
    | (WErr k, w1, t1) => (WErr k, w1, t1)
    | (WOk _, w1, t1) =>
        if (wr_pos w1 =? 0) && (wr_cap w1 <? len b) then
          match t_wub fuel t1 b 0 with
          | (WErr k, t2) => (WErr k, w1, t2)
          | (WOk amount, t2) => (WOk (len b), append w1 (skipn (N.to_nat amount) b), t2)
          end
        else (WOk (len b), append w1 b, t1)
    end
  else (WOk (len b), append w b, t).

(** nonblocking_buf_writer.rs:60-63. *)
Definition t_wr_flush (w : writer) (t : T) : wres unit * writer * T :=
  match t_flush_buf w t with
  | (WErr k, w1, t1) => (WErr k, w1, t1)
  | (WOk _, w1, t1) => let (r, t2) := t_flush_inner t1 in (r, w1, t2)
  end.

(** Write::write_all, as [write_all_f] in Model/Writer.v. *)
Fixpoint t_write_all (n : nat) (w : writer) (t : T) (b : bytes) : wres unit * writer * T :=
  match b with
  | [] => (WOk tt, w, t)
  | _ =>
    match n with
    | O => (WErr ModelFuel, w, t)
    | S f =>
        match t_wr_write w t b with
        | (WErr Interrupted, w1, t1) => t_write_all f w1 t1 b
        | (WErr k, w1, t1) => (WErr k, w1, t1)
        | (WOk m, w1, t1) =>
            if m =? 0 then (WErr WRITE_ZERO, w1, t1) else t_write_all f w1 t1 (skipn (N.to_nat m) b)
        end
    end
  end.

(** As [run_ops] in Model/Server.v. *)
Fixpoint t_run_ops (w : writer) (t : T) (ops : list sop) : wres unit * writer * T :=
  match ops with
  | [] => (WOk tt, w, t)
  | op :: ops' =>
      match
        match op with
        | SAll b => t_write_all fuel w t b
        | SWrite b =>
            match t_wr_write w t b with
            | (WOk _, w1, t1) => (WOk tt, w1, t1)
            | (WErr k, w1, t1) => (WErr k, w1, t1)
            end
        | SFlush => t_wr_flush w t
        end
      with
      | (WOk _, w1, t1) => t_run_ops w1 t1 ops'
      | r => r
      end
  end.

(** ** util/stream.rs with the standard library's BufReader, as in Model/Buffered.v *)

(** util/stream.rs:39-42: the writer's own state, and the reader inside it: what is buffered, stream. *)
Record tbuf := mk_tbuf { tb_w : writer; tb_buf : bytes; tb_in : T }.

(** BufReader::fill_buf (util/stream.rs:60-64, 87-89). *)
Definition tb_fill (d : tbuf) : (ekind + bytes) * tbuf :=
  match tb_buf d with
  | [] =>
      match t_read rcap (tb_in d) with
      | (inl k, t') => (inl k, mk_tbuf (tb_w d) [] t')
      | (inr bs, t') => (inr bs, mk_tbuf (tb_w d) bs t')
      end
  | bs => (inr bs, d)
  end.

(** BufReader::consume (util/stream.rs:65-68, 91-93). *)
Definition tb_consume (n : N) (d : tbuf) : tbuf :=
  mk_tbuf (tb_w d) (skipn (N.to_nat n) (tb_buf d)) (tb_in d).

(** BufReader::read (util/stream.rs:44-48, 71-73). *)
Definition tb_read (n : N) (d : tbuf) : (ekind + bytes) * tbuf :=
  match tb_buf d with
  | [] =>
      if rcap <=? n then
        match t_read n (tb_in d) with (x, t') => (x, mk_tbuf (tb_w d) [] t') end
      else
        match tb_fill d with
        | (inl k, d') => (inl k, d')
        | (inr bs, d') => (inr (firstn (N.to_nat n) bs), tb_consume (N.min n (len bs)) d')
        end
  | bs => (inr (firstn (N.to_nat n) bs), tb_consume (N.min n (len bs)) d)
  end.

(** util/stream.rs:50-58, 76-84: writes go to the writer, which writes to the stream, past the reader's buffer. *)
Definition tb_write (f : writer -> T -> wres unit * writer * T) (d : tbuf) : wres unit * tbuf :=
  match f (tb_w d) (tb_in d) with (x, w, t) => (x, mk_tbuf w (tb_buf d) t) end.

(** The parser on it. *)
(* parse/request.rs:27-34, called in server/connection.rs *)
Definition t_req_parse :=
  g_req_parse tbuf tb_fill tb_consume tb_read size (fun _ => fuel) (fun _ => fuel).

(** ** connection.rs and server.rs, as in Model/Buffered.v *)

(** connection.rs:34-39. *)
Record tconn := mk_tconn { tc_stream : tbuf; tc_parser : option req_st }.

(** connection.rs:43-49 and server.rs:69-79 [new_buffered_stream]. *)
Definition tconn_new (t : T) : tconn :=
  mk_tconn (mk_tbuf (wr_new WRITE_BUF_SIZE) [] t) (Some req_new).

(** connection.rs:52-65 [read_request]. *)
Definition t_read_request (dbg : bool) (c : tconn) : read_result * tconn :=
  match t_req_parse dbg (match tc_parser c with Some st => st | None => req_new end) (tc_stream c) with
  | (PDone r, d) => (Ready r, mk_tconn d None)
  | (PIo st k, d) =>
      match k with
      | WouldBlock => (NotReady, mk_tconn d (Some st))
      | _ => (if is_closed st k then Closed else IoErr k, mk_tconn d None)
      end
  | (PErr e, d) => (ParseErr e, mk_tconn d None)
  | (PPanic, d) => (RPanic, mk_tconn d None)
  end.

(** connection.rs:68-76. *)
Definition tc_ops (ops : list sop) (c : tconn) : wres unit * tconn :=
  let (x, d) := tb_write (fun w t => t_run_ops w t ops) (tc_stream c) in (x, mk_tconn d (tc_parser c)).
Definition tc_flush (c : tconn) : wres unit * tconn :=
  let (x, d) := tb_write t_wr_flush (tc_stream c) in (x, mk_tconn d (tc_parser c)).

(* whether a loop of the code would go on, of server/nonblocking_buf_writer.rs:67-75 *)
Definition out_of_fuel (x : wres unit) : bool := match x with WErr k => ran_out k | WOk _ => false end.

(** server.rs:102-117 [respond_to_requests]. *)
Fixpoint t_respond (n : nat) (dbg : bool) (rt : router) (log : list request) (c : tconn)
  : option (verdict * list request * tconn) :=
  match n with
  | O => None
  | S n' =>
      match t_read_request dbg c with
      | (rr, c') =>
          match rr with
          | Ready r =>
              match rt log r with
              | LPanic => Some (Unwind, log ++ [r], c')
              | l =>
                  match tc_ops (result_ops l) c' with
                  | (WErr k, c1) => if ran_out k then None else Some (Close, log ++ [r], c1)
                  | (WOk _, c1) =>
                      if should_close_after_response r then Some (Close, log ++ [r], c1)
                      else t_respond n' dbg rt (log ++ [r]) c1
                  end
              end
          | NotReady => Some (Keep, log, c')
          | Closed => Some (Close, log, c')
          | ParseErr _ => let (x, c1) := tc_ops error_ops c' in if out_of_fuel x then None else Some (Close, log, c1)
          | IoErr k =>
              if ran_out k then None
              else let (x, c1) := tc_ops error_ops c' in if out_of_fuel x then None else Some (Close, log, c1)
          | RPanic => Some (Unwind, log, c')
          end
      end
  end.

(** server.rs:59.  A connection that is gone keeps its stream as it was when it was dropped: by the handler returning without putting
    it back (server.rs:88, 95-97), or by unwinding. *)
Inductive tslot := TOpen (c : tconn) | TGone (t : T) | TPoisoned (t : T).

(** What happens around the stream before the next call. *)
(* the stream of server/server.rs:56-58 between two calls *)
Definition tc_env (f : T -> T) (c : tconn) : tconn :=
  let d := tc_stream c in mk_tconn (mk_tbuf (tb_w d) (tb_buf d) (f (tb_in d))) (tc_parser c).

(** server.rs:82-99 [handle_io_ready_connection]. *)
Definition t_handle (dbg : bool) (rt : router) (f : T -> T) (log : list request) (st : tslot)
  : option (list request * tslot) :=
  match st with
  | TOpen c =>
      match tc_flush (tc_env f c) with
      | (WErr k, c1) => if ran_out k then None else Some (log, TGone (tb_in (tc_stream c1)))
      | (WOk _, c1) =>
          match t_respond fuel dbg rt log c1 with
          | None => None
          | Some (vd, log', c') =>
              Some (log', match vd with
                          | Keep => TOpen c'
                          | Close => TGone (tb_in (tc_stream c'))
                          | Unwind => TPoisoned (tb_in (tc_stream c'))
                          end)
          end
      end
  | _ => Some (log, st)
  end.

(** One call per readiness event, each after what happened around the stream. *)
(* server/server.rs:61-65, 82-99 *)
Fixpoint t_visits (dbg : bool) (rt : router) (fs : list (T -> T)) (log : list request) (st : tslot)
  : option (list request * tslot) :=
  match fs with
  | [] => Some (log, st)
  | f :: fs' =>
      match t_handle dbg rt f log st with
      | None => None
      | Some (log', st') => t_visits dbg rt fs' log' st'
      end
  end.

End Streams.
