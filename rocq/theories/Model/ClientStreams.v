(** The client's connections on any stream.  /repo/src/client/client.rs:96-155 and util/stream.rs are generic in the stream S (Read +
    Write) and in the factory of streams; Model/Client.v and Buffered.v have it as a socket given by what its calls will do.  Here it is a
    parameter, as in Model/Streams.v: any state with the three calls.  As there, the loops are given a number of iterations, and a run in which one of
    them had too few is not a run: [None].  A read_timeout of zero, which panics (stream_factory.rs:38, C63), is left out. *)
From Coq Require Import List Ascii String NArith Bool.
From Verif.Model Require Import Bytes Io Common Parse Encode Writer Client Generic Buffered Streams.
Import ListNotations.
Local Open Scope N_scope.

Section ClientStreams.

(** util/stream.rs:7 [Stream]. *)
Variable T : Type.
Variable t_read : N -> T -> (ekind + bytes) * T.
Variable t_write : bytes -> T -> wres N * T.
Variable t_flush : T -> wres unit * T.
(** The sizes read_to_end reads by, and the iterations. *)
Variable size : bytes -> N.
Variable fuel : nat.

(** ** std::io::BufWriter, as in Model/Client.v *)

(** BufWriter::flush_buf. *)
(* the writer of client/client.rs:127 *)
Fixpoint k_flush_f (n : nat) (buf : bytes) (t : T) : wres unit * bytes * T :=
  match buf with
  | [] => (WOk tt, [], t)
  | _ =>
    match n with
    | O => (WErr ModelFuel, buf, t)
    | S n' =>
        match t_write buf t with
        | (WOk m, t1) => if m =? 0 then (WErr WRITE_ZERO, buf, t1) else k_flush_f n' (skipn (N.to_nat m) buf) t1
        | (WErr Interrupted, t1) => k_flush_f n' buf t1
        | (WErr k, t1) => (WErr k, buf, t1)
        end
    end
  end.

(** BufWriter::write. *)
(* the writer of client/client.rs:127 *)
Definition k_write (buf : bytes) (t : T) (b : bytes) : wres N * bytes * T :=
  match (if BUF_WRITER_CAP <? len buf + len b then k_flush_f fuel buf t else (WOk tt, buf, t)) with
  | (WErr k, buf1, t1) => (WErr k, buf1, t1)
  | (WOk _, buf1, t1) =>
      if BUF_WRITER_CAP <=? len b then let (r, t2) := t_write b t1 in (r, buf1, t2)
      else (WOk (len b), buf1 ++ b, t1)
  end.

(** Write::write_all. *)
(* the writer of client/client.rs:127, called at 145-152 *)
Fixpoint k_write_all (n : nat) (buf : bytes) (t : T) (b : bytes) : wres unit * bytes * T :=
  match b with
  | [] => (WOk tt, buf, t)
  | _ =>
    match n with
    | O => (WErr ModelFuel, buf, t)
    | S n' =>
        match k_write buf t b with
        | (WOk m, buf1, t1) =>
            if m =? 0 then (WErr WRITE_ZERO, buf1, t1) else k_write_all n' buf1 t1 (skipn (N.to_nat m) b)
        | (WErr Interrupted, buf1, t1) => k_write_all n' buf1 t1 b
        | (WErr k, buf1, t1) => (WErr k, buf1, t1)
        end
    end
  end.

(** BufWriter::flush. *)
(* the writer of client/client.rs:127, called at 153 *)
Definition k_flush (buf : bytes) (t : T) : wres unit * bytes * T :=
  match k_flush_f fuel buf t with
  | (WErr k, buf1, t1) => (WErr k, buf1, t1)
  | (WOk _, buf1, t1) => let (r, t2) := t_flush t1 in (r, buf1, t2)
  end.

(** client.rs:144-155 [write_request]. *)
Fixpoint k_put_pieces (buf : bytes) (t : T) (ps : list bytes) : wres unit * bytes * T :=
  match ps with
  | [] => k_flush buf t
  | p :: ps' =>
      match k_write_all fuel buf t p with
      | (WOk _, buf1, t1) => k_put_pieces buf1 t1 ps'
      | r => r
      end
  end.

(** ** util/stream.rs with the standard library's BufReader, as in Model/Buffered.v *)

(** util/stream.rs:39-42, client.rs:127: what the BufWriter holds, what the BufReader holds, the stream. *)
Record kbuf := mk_kbuf { kb_held : bytes; kb_buf : bytes; kb_in : T }.

(** BufReader::fill_buf (util/stream.rs:60-64, 87-89). *)
Definition kb_fill (d : kbuf) : (ekind + bytes) * kbuf :=
  match kb_buf d with
  | [] =>
      match t_read CLIENT_BUF_SIZE (kb_in d) with
      | (inl k, t') => (inl k, mk_kbuf (kb_held d) [] t')
      | (inr bs, t') => (inr bs, mk_kbuf (kb_held d) bs t')
      end
  | bs => (inr bs, d)
  end.

(** BufReader::consume (util/stream.rs:65-68, 91-93). *)
Definition kb_consume (n : N) (d : kbuf) : kbuf :=
  mk_kbuf (kb_held d) (skipn (N.to_nat n) (kb_buf d)) (kb_in d).

(** BufReader::read (util/stream.rs:44-48, 71-73). *)
Definition kb_read (n : N) (d : kbuf) : (ekind + bytes) * kbuf :=
  match kb_buf d with
  | [] =>
      if CLIENT_BUF_SIZE <=? n then
        match t_read n (kb_in d) with (x, t') => (x, mk_kbuf (kb_held d) [] t') end
      else
        match kb_fill d with
        | (inl k, d') => (inl k, d')
        | (inr bs, d') => (inr (firstn (N.to_nat n) bs), kb_consume (N.min n (len bs)) d')
        end
  | bs => (inr (firstn (N.to_nat n) bs), kb_consume (N.min n (len bs)) d)
  end.

(** The parser on it. *)
(* parse/response.rs:22-29, called at client/client.rs:137 *)
Definition k_resp_parse :=
  g_resp_parse kbuf kb_fill kb_consume kb_read size (fun _ => fuel) (fun _ => fuel).

(** client.rs:133-141 [send_request]. *)
Definition k_send_request (dbg : bool) (d : kbuf) (q : request) : option (cres * kbuf) :=
  match k_put_pieces (kb_held d) (kb_in d) (request_pieces q) with
  | (WErr k, h, t) => if ran_out k then None else Some (CWriting k, mk_kbuf h (kb_buf d) t)
  | (WOk _, h, t) =>
      match k_resp_parse dbg resp_new (mk_kbuf h (kb_buf d) t) with
      | (PDone v, d2) => Some (COk v, d2)
      | (PIo _ k, d2) => if ran_out k then None else Some (CReading k, d2)
      | (PErr e, d2) => Some (CParsing e, d2)
      | (PPanic, d2) => Some (CPanic, d2)
      end
  end.

(** ** Connecting *)

(** The next results of TcpStream::connect, with what the factory makes of the socket; an exhausted list refuses. *)
(* client/stream_factory.rs:33-36, 65-71 *)
Definition knet := list (ekind + T).
(* client/stream_factory.rs:33-36, 65-71 *)
Definition k_tcp_connect (n : knet) : (ekind + T) * knet :=
  match n with [] => (inl REFUSED, []) | r :: n' => (r, n') end.

(** stream_factory.rs:31-42 and 65-71 [create]. *)
Definition k_create (n : knet) : (ekind + T) * knet :=
  match k_tcp_connect n with
  | (inr s, n1) => (inr s, n1)
  | (inl _, n1) => k_tcp_connect n1
  end.

(** client.rs:96-98.  The streams dropped are kept as they were when their own destructor began. *)
Record kconn := mk_kconn { kc_stream : option kbuf; kc_dropped : list kbuf }.
Definition kconn_new : kconn := mk_kconn None [].

(** Dropping a stream drops its BufWriter, which tries to write what it holds; errors are ignored. *)
(* client/client.rs:127 (the assignment drops the old stream) *)
Definition k_drop_stream (d : kbuf) : option kbuf :=
  match k_flush_f fuel (kb_held d) (kb_in d) with
  | (WErr k, h, t) => if ran_out k then None else Some (mk_kbuf h (kb_buf d) t)
  | (WOk _, h, t) => Some (mk_kbuf h (kb_buf d) t)
  end.

(** client.rs:125-129 [connect]. *)
Definition k_connect (n : knet) (c : kconn) : option (option cres * knet * kconn) :=
  match k_create n with
  | (inl k, n1) => Some (Some (CConnecting k), n1, c)
  | (inr s, n1) =>
      match kc_stream c with
      | None => Some (None, n1, mk_kconn (Some (mk_kbuf [] [] s)) (kc_dropped c))
      | Some o =>
          match k_drop_stream o with
          | None => None
          | Some o' => Some (None, n1, mk_kconn (Some (mk_kbuf [] [] s)) (kc_dropped c ++ [o']))
          end
      end
  end.

(** client.rs:110-122 [Connection::send]. *)
Definition k_first_attempt (dbg : bool) (c : kconn) (q : request) : option (cres * kconn) :=
  match kc_stream c with
  | None => Some (CPanic, c)
  | Some s =>
      match k_send_request dbg s q with
      | None => None
      | Some (r, s1) => Some (r, mk_kconn (Some s1) (kc_dropped c))
      end
  end.
Definition k_conn_send (dbg : bool) (n : knet) (c : kconn) (q : request) : option (cres * knet * kconn) :=
  match (match kc_stream c with None => k_connect n c | Some _ => Some (None, n, c) end) with
  | None => None
  | Some (Some e, n1, c1) => Some (e, n1, c1)
  | Some (None, n1, c1) =>
      match k_first_attempt dbg c1 q with
      | None => None
      | Some (COk r, c2) => Some (COk r, n1, c2)
      | Some (CPanic, c2) => Some (CPanic, n1, c2)
      | Some (_, c2) =>
          match k_connect n1 c2 with
          | None => None
          | Some (Some e, n2, c3) => Some (e, n2, c3)
          | Some (None, n2, c3) =>
              match k_first_attempt dbg c3 q with
              | None => None
              | Some (r, c4) => Some (r, n2, c4)
              end
          end
      end
  end.

(** A sequence of sends on one connection. *)
(* client/client.rs:110-122, called again and again *)
Fixpoint k_conn_sends (dbg : bool) (n : knet) (c : kconn) (qs : list request) : option (list cres * knet * kconn) :=
  match qs with
  | [] => Some ([], n, c)
  | q :: qs' =>
      match k_conn_send dbg n c q with
      | None => None
      | Some (r, n1, c1) =>
          match k_conn_sends dbg n1 c1 qs' with
          | None => None
          | Some (rs, n2, c2) => Some (r :: rs, n2, c2)
          end
      end
  end.

End ClientStreams.
