(** Readers: the stream below a connection, [error_take] limits, and the std::io loops
    [read_until], [read_line], [read_to_end] that the deframers call. *)
From Coq Require Import List NArith Bool.
From Verif.Model Require Import Bytes.
Import ListNotations.
Local Open Scope N_scope.

(** std::io::ErrorKind, as far as the code distinguishes it.  [LimitReached] is the error
    ErrorKind::Other "read limit reached" of parse/error_take.rs:28.  [ModelFuel] is an artefact of
    the model: a loop that ran out of fuel.  It is proved unreachable (Properties, C05). *)
Inductive ekind :=
| WouldBlock | Interrupted | UnexpectedEof | InvalidData | ConnectionAborted
| LimitReached | OtherKind (n : N) | ModelFuel.

(** One result of reading the underlying stream (a TcpStream or TlsStream, util/stream.rs:70-94):
    data (an empty list is Ok(0), end of stream) or an error.  The sizes of the pieces are arbitrary,
    which covers every behaviour of BufReader's buffer (server/server.rs:70-72) and of the kernel. *)
Inductive revent := RData (bs : bytes) | RErr (k : ekind).
(** Everything the stream will return from now on.  After the last event every read would block
    (on the client side: times out). *)
Definition stream := list revent.

(** BufReader::fill_buf on the unlimited stream. *)
(* called through util/stream.rs:61-63 by parse/error_take.rs *)
Definition fill (s : stream) : (ekind + bytes) * stream :=
  match s with
  | [] => (inl WouldBlock, [])
  | RErr k :: s' => (inl k, s')
  | RData [] :: s' => (inr [], s')
  | RData bs :: s' => (inr bs, s)
  end.

(** BufReader::consume on the unlimited stream. *)
(* called through util/stream.rs:65-67 by parse/error_take.rs *)
Definition consume (n : N) (s : stream) : stream :=
  if n =? 0 then s else
  match s with
  | RData bs :: s' =>
      match skipn (N.to_nat n) bs with
      | [] => s'
      | r => RData r :: s'
      end
  | _ => s
  end.

(** ErrorTake::fill_buf over Take::fill_buf (parse/error_take.rs:42-45 and std), for a stack of
    limits, outermost wrapper first. *)
Fixpoint fill_lim (ls : list N) (s : stream) : (ekind + bytes) * stream :=
  match ls with
  | [] => fill s
  | l :: ls' =>
      if l =? 0 then (inl LimitReached, s)
      else match fill_lim ls' s with
           | (inr bs, s') => (inr (firstn (N.to_nat (N.min l (len bs))) bs), s')
           | (inl k, s') => (inl k, s')
           end
  end.

(** ErrorTake::consume (parse/error_take.rs:47-49): each Take clamps and decrements its limit. *)
Fixpoint consume_lim (n : N) (ls : list N) (s : stream) : list N * stream :=
  match ls with
  | [] => ([], consume n s)
  | l :: ls' =>
      let amt := N.min n l in
      let (ls1, s1) := consume_lim amt ls' s in
      (l - amt :: ls1, s1)
  end.

(** BufReader::read with a buffer of n > 0 bytes on the unlimited stream: at most n of the available bytes. *)
(* called through util/stream.rs:44-48 by parse/error_take.rs *)
Definition read_some (n : N) (s : stream) : (ekind + bytes) * stream :=
  match fill s with
  | (inr bs, s') =>
      let got := firstn (N.to_nat (N.min n (len bs))) bs in (inr got, consume (len got) s')
  | (inl k, s') => (inl k, s')
  end.

(** ErrorTake::read over Take::read (parse/error_take.rs:34-38 and std) with a buffer of n > 0 bytes. *)
Fixpoint read_lim (n : N) (ls : list N) (s : stream) : (ekind + bytes) * list N * stream :=
  match ls with
  | [] => match read_some n s with (r, s') => (r, [], s') end
  | l :: ls' =>
      if l =? 0 then (inl LimitReached, ls, s)
      else match read_lim (N.min n l) ls' s with
           | (inr got, ls1, s1) => (inr got, l - len got :: ls1, s1)
           | (inl k, ls1, s1) => (inl k, l :: ls1, s1)
           end
  end.

(** memchr: position of the first newline. *)
(* inside read_line, called at parse/deframe/line.rs:19 *)
Fixpoint find_lf (bs : bytes) : option nat :=
  match bs with
  | [] => None
  | c :: bs' => if Ascii.eqb c LF then Some O
                else match find_lf bs' with Some i => Some (S i) | None => None end
  end.

(** Upper bound on the number of iterations of the reading loops. *)
(* for the loops of read_line and read_to_end, parse/deframe *)
Fixpoint mu (s : stream) : nat :=
  match s with
  | [] => 0
  | RData bs :: s' => S (List.length bs) + mu s'
  | RErr _ :: s' => S (mu s')
  end%nat.

(** std::io::read_until(b'\n'): result ([None] = Ok), bytes appended so far, limits, stream. *)
Fixpoint read_until (fuel : nat) (ls : list N) (s : stream) (acc : bytes)
  : option ekind * bytes * list N * stream :=
  match fuel with
  | O => (Some ModelFuel, acc, ls, s)
  | S f =>
      match fill_lim ls s with
      | (inl Interrupted, s') => read_until f ls s' acc
      | (inl k, s') => (Some k, acc, ls, s')
      | (inr bs, s') =>
          match find_lf bs with
          | Some i =>
              let '(ls1, s1) := consume_lim (N.of_nat (S i)) ls s' in
              (None, acc ++ firstn (S i) bs, ls1, s1)
          | None =>
              let '(ls1, s1) := consume_lim (len bs) ls s' in
              match bs with
              | [] => (None, acc, ls1, s1)
              | _ => read_until f ls1 s1 (acc ++ bs)
              end
          end
      end
  end.

(** BufRead::read_line (std, append_to_string): appends to [line]; if the newly read bytes are not
    valid UTF-8 they are dropped (though consumed), and an Ok becomes an InvalidData error. *)
Definition read_line (line : bytes) (ls : list N) (s : stream)
  : option ekind * bytes * list N * stream :=
  let '(r, acc, ls1, s1) := read_until (S (mu s)) ls s [] in
  if utf8 acc then (r, line ++ acc, ls1, s1)
  else (match r with None => Some InvalidData | Some k => Some k end, line, ls1, s1).

(** Read::read_to_end (std): appends everything up to end of stream, retrying on Interrupted; the
    bytes read before an error stay in the vector.  The size of each read is std's choice; here each
    read takes the whole available piece. *)
Fixpoint read_to_end (fuel : nat) (ls : list N) (s : stream) (acc : bytes)
  : option ekind * bytes * list N * stream :=
  match fuel with
  | O => (Some ModelFuel, acc, ls, s)
  | S f =>
      match read_lim USIZE_MAX ls s with
      | (inl Interrupted, ls1, s1) => read_to_end f ls1 s1 acc
      | (inl k, ls1, s1) => (Some k, acc, ls1, s1)
      | (inr [], ls1, s1) => (None, acc, ls1, s1)
      | (inr got, ls1, s1) => read_to_end f ls1 s1 (acc ++ got)
      end
  end.
