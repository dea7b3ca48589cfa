(** The stream of listen_https and of the https client: /repo/src/util/tls_stream.rs, which hands everything to rustls.
    rustls is not part of the repository.  What is modelled of it is what the documentation and the sources of version 0.18
    (Cargo.toml) say about [StreamOwned] and [Session]: which calls of the socket a read, a write and a flush make, in which order, and when
    they end.  Nothing is said about what the encryption protects.  What the other side sends is any sequence of
    records, what the socket does is any sequence of outcomes. *)
From Coq Require Import List Ascii String NArith Bool.
From Verif.Model Require Import Bytes Io Common Parse Writer.
Import ListNotations.
Local Open Scope N_scope.

(** A record of the other side, decrypted.  [RHand last reply]: a message of the handshake; whether the handshake is over with it;
    the sizes of the records sent in reply.  After the handshake: a message that is not data, such as a new key.  [RBad]: anything that
    rustls refuses. *)
(* what read_tls and process_new_packets find; called through tls_stream.rs:20-34 *)
Inductive record := RHand (last : bool) (reply : list N) | RApp (data : bytes) | RClose | RBad.

(** What one read of the socket does: bytes arrive that complete these records (maybe none), the stream is at its end, or the
    read fails.  When none is left, it would block. *)
(* the read of the socket, called through tls_stream.rs:20-34 *)
Inductive tread := TArrive (rs : list record) | TEnd | TFail (k : ekind).

(** Records to send: how many of their bytes the socket has still to take, and what they are. *)
(* what write_tls sends; called through tls_stream.rs:26-41 *)
Inductive payload := Hand | Data (d : bytes) | Notify | Alert.
(* what write_tls sends; called through tls_stream.rs:26-41 *)
Record chunk := mk_chunk { ch_left : N; ch_what : payload }.

(** tls_stream.rs:9 [TlsStream]: the session (is_handshaking, an error found, decrypted bytes not read yet, whether the other side said that it
    closes, the records to send) and the socket (the records it has taken whole, what its reads and writes will do).  [ts_seen] is what the
    calls of read have returned so far; the code has no such thing. *)
Record tls := mk_tls {
  ts_hs : bool; ts_bad : bool; ts_plain : bytes; ts_closed : bool; ts_queue : list chunk;
  ts_out : list payload; ts_rx : list tread; ts_tx : list wevent; ts_seen : list (ekind + bytes) }.

(* the stream of tls_stream.rs:9, changed *)
Definition set_out (t : tls) (tx : list wevent) (q : list chunk) (out : list payload) : tls :=
  mk_tls (ts_hs t) (ts_bad t) (ts_plain t) (ts_closed t) q out (ts_rx t) tx (ts_seen t).
(* the stream of tls_stream.rs:9, changed *)
Definition set_rx (t : tls) (rx : list tread) : tls :=
  mk_tls (ts_hs t) (ts_bad t) (ts_plain t) (ts_closed t) (ts_queue t) (ts_out t) rx (ts_tx t) (ts_seen t).
(* the stream of tls_stream.rs:9, changed *)
Definition set_plain (t : tls) (p : bytes) (seen : list (ekind + bytes)) : tls :=
  mk_tls (ts_hs t) (ts_bad t) p (ts_closed t) (ts_queue t) (ts_out t) (ts_rx t) (ts_tx t) seen.
(* the stream of tls_stream.rs:9, with more to send *)
Definition push (t : tls) (cs : list chunk) : tls := set_out t (ts_tx t) (ts_queue t ++ cs) (ts_out t).

(** tls_stream.rs:15-17 and server.rs:42-43: a new server session. *)
Definition tls_new : tls := mk_tls true false [] false [] [] [] [] [].

(** ** rustls: Session *)

(** write_tls: the socket takes n bytes of the records to send. *)
(* called through tls_stream.rs:20-41 *)
Fixpoint take_out (n : N) (q : list chunk) (out : list payload) : list chunk * list payload :=
  match q with
  | [] => ([], out)
  | c :: q' =>
      if ch_left c <=? n then take_out (n - ch_left c) q' (out ++ [ch_what c])
      else (mk_chunk (ch_left c - n) (ch_what c) :: q', out)
  end.

(** complete_io's first loop: write_tls while wants_write. *)
(* called through tls_stream.rs:20-41 *)
Fixpoint drain (tx : list wevent) (q : list chunk) (out : list payload) : option ekind * (list wevent * list chunk * list payload) :=
  match q with
  | [] => (None, (tx, [], out))
  | _ =>
      match tx with
      | [] => (Some WouldBlock, ([], q, out))
      | WFail k :: tx' => (Some k, (tx', q, out))
      | WTake n :: tx' => let (q', out') := take_out n q out in drain tx' q' out'
      end
  end.
(* called through tls_stream.rs:20-41 *)
Definition tls_drain (t : tls) : option ekind * tls :=
  let '(e, (tx, q, out)) := drain (ts_tx t) (ts_queue t) (ts_out t) in (e, set_out t tx q out).

(** process_new_packets, on one record.  A session that has found an error does nothing more. *)
(* called through tls_stream.rs:20-41 *)
Definition absorb1 (t : tls) (r : record) : tls :=
  if ts_bad t then t else
  let bad := mk_tls (ts_hs t) true (ts_plain t) (ts_closed t) (ts_queue t ++ [mk_chunk 1 Alert]) (ts_out t) (ts_rx t) (ts_tx t) (ts_seen t) in
  match r with
  | RHand last reply =>
      mk_tls (ts_hs t && negb last) false (ts_plain t) (ts_closed t) (ts_queue t ++ map (fun n => mk_chunk n Hand) reply)
        (ts_out t) (ts_rx t) (ts_tx t) (ts_seen t)
  | RApp d =>
      if ts_hs t then bad
      else mk_tls false false (ts_plain t ++ d) (ts_closed t) (ts_queue t) (ts_out t) (ts_rx t) (ts_tx t) (ts_seen t)
  | RClose => mk_tls (ts_hs t) false (ts_plain t) true (ts_queue t) (ts_out t) (ts_rx t) (ts_tx t) (ts_seen t)
  | RBad => bad
  end.
(* called through tls_stream.rs:20-41 *)
Definition absorb (t : tls) (rs : list record) : tls := fold_left absorb1 rs t.

(** The last write_tls before an error is returned. *)
(* called through tls_stream.rs:20-41 *)
Definition last_gasp (t : tls) : tls :=
  match ts_tx t with
  | [] => t
  | WFail _ :: tx => set_out t tx (ts_queue t) (ts_out t)
  | WTake n :: tx => let (q, out) := take_out n (ts_queue t) (ts_out t) in set_out t tx q out
  end.

(** complete_io.  Returns an error or whether bytes were read.  That something was written is taken from there having been something to
    write (a record has at least one byte). *)
(* called through tls_stream.rs:20-41 *)
Fixpoint io_loop (fuel : nat) (until : bool) (rd : bool) (t : tls) : (ekind + bool) * tls :=
  match fuel with
  | O => (inl ModelFuel, t)
  | S f =>
      let wrote := match ts_queue t with [] => false | _ => true end in
      match tls_drain t with
      | (Some k, t1) => (inl k, t1)
      | (None, t1) =>
          if negb until && wrote then (inr rd, t1)
          else
            let go (eof rd' : bool) (t2 : tls) :=
              if ts_bad t2 then (inl InvalidData, last_gasp t2)
              else if negb until then (inr rd', t2)
              else if negb (ts_hs t2) then (inr rd', t2)
              else if eof then (inl UnexpectedEof, t2)
              else io_loop f until rd' t2 in
            match ts_plain t1, ts_rx t1 with
            | _ :: _, _ => go false rd t1
            | [], [] => (inl WouldBlock, t1)
            | [], TFail k :: rx => (inl k, set_rx t1 rx)
            | [], TEnd :: rx => go true rd (set_rx t1 rx)
            | [], TArrive rs :: rx => go false true (absorb (set_rx t1 rx) rs)
            end
      end
  end.
Definition complete_io (t : tls) : (ekind + bool) * tls := io_loop (S (List.length (ts_rx t))) (ts_hs t) false t.

(** ** rustls: StreamOwned *)

(* called through tls_stream.rs:20-41 *)
Definition wants_write (t : tls) : bool := match ts_queue t with [] => false | _ => true end.

(** complete_prior_io. *)
(* called through tls_stream.rs:20-34 *)
Definition prior (t : tls) : option ekind * tls :=
  match (if ts_hs t then complete_io t else (inr false, t)) with
  | (inl k, t1) => (Some k, t1)
  | (inr _, t1) =>
      if wants_write t1 then
        match complete_io t1 with
        | (inl k, t2) => (Some k, t2)
        | (inr _, t2) => (None, t2)
        end
      else (None, t1)
  end.

(** Stream::read's loop: complete_io while there is nothing to give and bytes were read. *)
(* called through tls_stream.rs:21-23 *)
Fixpoint read_loop (fuel : nat) (t : tls) : option ekind * tls :=
  match ts_plain t with
  | _ :: _ => (None, t)
  | [] =>
      match fuel with
      | O => (Some ModelFuel, t)
      | S f =>
          match complete_io t with
          | (inl k, t1) => (Some k, t1)
          | (inr true, t1) => read_loop f t1
          | (inr false, t1) => (None, t1)
          end
      end
  end.

(** tls_stream.rs:20-24. *)
Definition tls_read (n : N) (t : tls) : (ekind + bytes) * tls :=
  let '(x, t1) :=
    match prior t with
    | (Some k, t1) => (inl k, t1)
    | (None, t1) =>
        match read_loop (S (List.length (ts_rx t1))) t1 with
        | (Some k, t2) => (inl k, t2)
        | (None, t2) =>
            match ts_plain t2 with
            | [] => (if ts_closed t2 then inl ConnectionAborted else inr [], t2)
            | p => (inr (firstn (N.to_nat n) p), set_plain t2 (skipn (N.to_nat n) p) (ts_seen t2))
            end
        end
    end in
  (x, set_plain t1 (ts_plain t1) (ts_seen t1 ++ [x])).

Section Seal.
(** How rustls cuts the bytes it is given into records: any way that keeps them, see [seals] in Spec/Tls.v. *)
Variable seal : bytes -> list chunk.

(** tls_stream.rs:26-29.  The session takes everything (its buffer has no limit unless one is set); an error of the socket after that is
    not returned. *)
Definition tls_write (b : bytes) (t : tls) : wres N * tls :=
  match prior t with
  | (Some k, t1) => (WErr k, t1)
  | (None, t1) => let (_, t2) := complete_io (push t1 (seal b)) in (WOk (len b), t2)
  end.
End Seal.

(** tls_stream.rs:31-33. *)
Definition tls_flush (t : tls) : wres unit * tls :=
  match prior t with
  | (Some k, t1) => (WErr k, t1)
  | (None, t1) =>
      if wants_write t1 then
        match complete_io t1 with
        | (inl k, t2) => (WErr k, t2)
        | (inr _, t2) => (WOk tt, t2)
        end
      else (WOk tt, t1)
  end.

(** tls_stream.rs:36-41. *)
Definition tls_drop (t : tls) : tls := snd (tls_flush (push t [mk_chunk 1 Notify])).

(** client/stream_factory.rs:65-71: a new client session, which starts with the records [hello], on a socket that will do [rx] and [tx]. *)
Definition tls_client (hello : list N) (rx : list tread) (tx : list wevent) : tls :=
  mk_tls true false [] false (map (fun n => mk_chunk n Hand) hello) [] rx tx [].
