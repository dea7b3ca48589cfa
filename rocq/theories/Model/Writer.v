(** The output side of a server connection: /repo/src/server/nonblocking_buf_writer.rs and the
    standard library functions used on top of it (Write::write_all, Write::write_fmt). *)
From Coq Require Import List Ascii String NArith Bool.
From Verif.Model Require Import Bytes Io.
Import ListNotations.
Local Open Scope N_scope.

(** The result of one call of [write] on the socket with a non-empty buffer: it takes up to n bytes
    (all of the buffer if that is shorter), or fails. *)
(* Write::write, called at nonblocking_buf_writer.rs:70 *)
Inductive wevent := WTake (n : N) | WFail (k : ekind).

(** The socket: what its next [write] calls will do (an exhausted list blocks), what its next [flush]
    calls will do (an exhausted list succeeds), and the bytes it has taken so far. *)
(* the inner writer of nonblocking_buf_writer.rs:11 *)
Record sock := mk_sock { sk_events : list wevent; sk_flushes : list (option ekind); sk_sent : bytes }.

(* std::io::Result, nonblocking_buf_writer.rs:1 *)
Inductive wres (A : Type) := WOk (a : A) | WErr (k : ekind).
Arguments WOk {A}. Arguments WErr {A}.

(** nonblocking_buf_writer.rs:8-12: buf, its capacity, and pos. *)
Record writer := mk_writer { wr_buf : bytes; wr_pos : N; wr_cap : N }.

(** nonblocking_buf_writer.rs:16-18 (Vec::with_capacity on bytes gives exactly that capacity). *)
Definition wr_new (cap : N) : writer := mk_writer [] 0 cap.

(** nonblocking_buf_writer.rs:67-77 [write_until_blocked].  Returns the amount, which is also how many
    of the bytes of buf the socket has taken.  On an error the amount taken so far is not reported to
    the caller; it shows only in [sk_sent]. *)
Fixpoint wub (evs : list wevent) (fl : list (option ekind)) (sent buf : bytes) (pos : N) : wres N * sock :=
  match buf with
  | [] => (WOk pos, mk_sock evs fl sent)
  | _ =>
      match evs with
      | [] => (WOk pos, mk_sock [] fl sent)
      | WTake n :: evs' =>
          let m := N.min n (len buf) in
          wub evs' fl (sent ++ firstn (N.to_nat m) buf) (skipn (N.to_nat m) buf) (pos + m)
      | WFail WouldBlock :: evs' => (WOk pos, mk_sock evs' fl sent)
      | WFail k :: evs' => (WErr k, mk_sock evs' fl sent)
      end
  end.
Definition write_until_blocked (s : sock) (buf : bytes) : wres N * sock :=
  wub (sk_events s) (sk_flushes s) (sk_sent s) buf 0.

(** nonblocking_buf_writer.rs:22-33. *)
Definition flush_buf (w : writer) (s : sock) : wres unit * writer * sock :=
  match write_until_blocked s (skipn (N.to_nat (wr_pos w)) (wr_buf w)) with
  | (WErr k, s') => (WErr k, w, s')
  | (WOk amount, s') =>
      let pos := wr_pos w + amount in
      if len (wr_buf w) <=? pos then (WOk tt, mk_writer [] 0 (wr_cap w), s')
      else (WOk tt, mk_writer (wr_buf w) pos (wr_cap w), s')
  end.

(** nonblocking_buf_writer.rs:37-42. *)
Definition flush_inner (s : sock) : wres unit * sock :=
  match sk_flushes s with
  | [] => (WOk tt, s)
  | r :: fl => (match r with
                | None | Some WouldBlock => WOk tt
                | Some k => WErr k
                end, mk_sock (sk_events s) fl (sk_sent s))
  end.

(** Appending to a Vec<u8> (line 56, Write for Vec): when it does not fit, the capacity becomes the
    largest of twice the capacity, what is needed, and 8 (RawVec::grow_amortized).  Running out of
    memory is not modelled. *)
Definition vec_cap (cap needed : N) : N :=
  if needed <=? cap then cap else N.max (N.max (2 * cap) needed) 8.
Definition append (w : writer) (b : bytes) : writer :=
  mk_writer (wr_buf w ++ b) (wr_pos w) (vec_cap (wr_cap w) (len (wr_buf w) + len b)).

(** nonblocking_buf_writer.rs:46-58. *)
Definition wr_write (w : writer) (s : sock) (b : bytes) : wres N * writer * sock :=
  if wr_cap w <? len (wr_buf w) + len b then
    match flush_buf w s with
    | (WErr k, w1, s1) => (WErr k, w1, s1)
    | (WOk _, w1, s1) =>
        if (wr_pos w1 =? 0) && (wr_cap w1 <? len b) then
          match write_until_blocked s1 b with
          | (WErr k, s2) => (WErr k, w1, s2)
          | (WOk amount, s2) => (WOk (len b), append w1 (skipn (N.to_nat amount) b), s2)
          end
        else (WOk (len b), append w1 b, s1)
    end
  else (WOk (len b), append w b, s).

(** nonblocking_buf_writer.rs:60-63. *)
Definition wr_flush (w : writer) (s : sock) : wres unit * writer * sock :=
  match flush_buf w s with
  | (WErr k, w1, s1) => (WErr k, w1, s1)
  | (WOk _, w1, s1) => let (r, s2) := flush_inner s1 in (r, w1, s2)
  end.

(** ErrorKind::WriteZero. *)
(* of Write::write_all, called at server.rs:124-152 *)
Definition WRITE_ZERO : ekind := OtherKind 0.

(** Write::write_all of the standard library: nothing for an empty buffer; Interrupted is retried; a
    write of 0 bytes is an error (it does not occur, [wr_write] reports the whole length).  Every retry
    uses up an event, so [fuel] is enough (see write_all_fuel). *)
(* called at server.rs:124, 131, 149-152 *)
Fixpoint write_all_f (fuel : nat) (w : writer) (s : sock) (b : bytes) : wres unit * writer * sock :=
  match b with
  | [] => (WOk tt, w, s)
  | _ =>
    match fuel with
    | O => (WErr ModelFuel, w, s)
    | S f =>
        match wr_write w s b with
        | (WErr Interrupted, w1, s1) => write_all_f f w1 s1 b
        | (WErr k, w1, s1) => (WErr k, w1, s1)
        | (WOk n, w1, s1) =>
            if n =? 0 then (WErr WRITE_ZERO, w1, s1) else write_all_f f w1 s1 (skipn (N.to_nat n) b)
        end
    end
  end.
Definition write_all (w : writer) (s : sock) (b : bytes) : wres unit * writer * sock :=
  write_all_f (S (S (List.length (sk_events s)))) w s b.

(** Write::write_fmt: one [write_all] per piece. *)
(* called at server.rs:143-146 *)
Fixpoint write_pieces (w : writer) (s : sock) (ps : list bytes) : wres unit * writer * sock :=
  match ps with
  | [] => (WOk tt, w, s)
  | p :: ps' =>
      match write_all w s p with
      | (WOk _, w1, s1) => write_pieces w1 s1 ps'
      | r => r
      end
  end.
