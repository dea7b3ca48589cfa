(** Vocabulary for statements about the non-blocking writer. *)
From Coq Require Import List NArith Bool.
From Verif.Model Require Import Bytes Io Writer.
Import ListNotations.
Local Open Scope N_scope.

(** What a program does with the writer. *)
Inductive wop := OWrite (b : bytes) | OFlush.

(** One operation, with what the socket does during it: its write calls, one event each and would-block
    when they are used up, and its flush calls. *)
Record wcall := mk_wcall { wc_op : wop; wc_events : list wevent; wc_flushes : list (option ekind) }.

Definition do_call (w : writer) (sent : bytes) (c : wcall) : wres N * writer * bytes :=
  let s := mk_sock (wc_events c) (wc_flushes c) sent in
  match wc_op c with
  | OWrite b => match wr_write w s b with (r, w', s') => (r, w', sk_sent s') end
  | OFlush =>
      match wr_flush w s with
      | (WOk _, w', s') => (WOk 0, w', sk_sent s')
      | (WErr k, w', s') => (WErr k, w', sk_sent s')
      end
  end.

(** A history of operations: the results, the writer, and everything the socket has taken. *)
Fixpoint do_calls (w : writer) (sent : bytes) (cs : list wcall) : list (wres N) * writer * bytes :=
  match cs with
  | [] => ([], w, sent)
  | c :: cs' =>
      match do_call w sent c with
      | (r, w', sent') => match do_calls w' sent' cs' with (rs, w'', sent'') => (r :: rs, w'', sent'') end
      end
  end.

(** The bytes handed to the writer, in order. *)
Definition op_bytes (c : wcall) : bytes := match wc_op c with OWrite b => b | OFlush => [] end.
Definition written (cs : list wcall) : bytes := List.concat (map op_bytes cs).

(** The bytes the writer still holds for sending. *)
Definition unsent (w : writer) : bytes := skipn (N.to_nat (wr_pos w)) (wr_buf w).

(** A socket that takes arbitrary amounts and blocks at arbitrary times, but does not fail. *)
Definition no_failure (c : wcall) : Prop :=
  Forall (fun e => match e with WTake _ => True | WFail k => k = WouldBlock end) (wc_events c) /\
  Forall (fun f => f = None \/ f = Some WouldBlock) (wc_flushes c).

(** During one operation the socket does not block and then take something after all. *)
Definition stays_blocked (c : wcall) : Prop :=
  forall a b n, wc_events c = a ++ WFail WouldBlock :: b -> ~ In (WTake n) b.

Definition op_ok (c : wcall) (r : wres N) : Prop :=
  r = WOk (match wc_op c with OWrite b => len b | OFlush => 0 end).
