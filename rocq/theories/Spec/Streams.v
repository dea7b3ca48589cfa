(** What a stream has to be like for a connection on it to be a connection on a socket. *)
From Coq Require Import List NArith.
From Verif.Model Require Import Bytes Io Common Parse Writer Server Buffered Streams.
From Verif.Spec Require Import Output Session Buffering.
Import ListNotations.
Local Open Scope N_scope.

(** One call of write, with a non-empty buffer, and one of flush on the output side of a socket. *)
Definition sock_write (k : sock) (b : bytes) : wres N * sock :=
  match sk_events k with
  | [] => (WErr WouldBlock, k)
  | WTake n :: evs =>
      let m := N.min n (len b) in
      (WOk m, mk_sock evs (sk_flushes k) (sk_sent k ++ firstn (N.to_nat m) b))
  | WFail e :: evs => (WErr e, mk_sock evs (sk_flushes k) (sk_sent k))
  end.
Definition sock_flush (k : sock) : wres unit * sock :=
  match sk_flushes k with
  | [] => (WOk tt, k)
  | None :: fl => (WOk tt, mk_sock (sk_events k) fl (sk_sent k))
  | Some e :: fl => (WErr e, mk_sock (sk_events k) fl (sk_sent k))
  end.

Section Honest.
Variable T : Type.
Variable t_read : N -> T -> (ekind + bytes) * T.
Variable t_write : bytes -> T -> wres N * T.
Variable t_flush : T -> wres unit * T.

(** What reading has given so far, and the bytes that writing has taken so far. *)
Variable taken : T -> list what.
Variable given : T -> bytes.

(** Read and Write as std documents them: a read gives at most what fits into the buffer, a write takes a front part of the buffer;
    a write that fails takes nothing; flush takes nothing. *)
Record honest : Prop := mk_honest {
  honest_read : forall n t x t', 0 < n -> t_read n t = (x, t') ->
    given t' = given t /\
    match x with
    | inr bs => len bs <= n /\ taken t' = taken t ++ content_of (RData bs)
    | inl k => taken t' = taken t ++ [Failure k]
    end;
  honest_write : forall b t x t', b <> [] -> t_write b t = (x, t') ->
    taken t' = taken t /\
    match x with
    | WOk n => n <= len b /\ given t' = given t ++ firstn (N.to_nat n) b
    | WErr _ => given t' = given t
    end;
  honest_flush : forall t x t', t_flush t = (x, t') -> given t' = given t /\ taken t' = taken t }.

(** What happens around a stream between two calls of the handler neither reads nor writes. *)
Definition outside_only (f : T -> T) : Prop := forall t, given (f t) = given t /\ taken (f t) = taken t.

(** [G t ws fs]: from t on, [ws] and [fs] are possible as what its writes and its flushes do, until the call of the handler ends. *)
Definition event_of (x : wres N) : wevent := match x with WOk n => WTake n | WErr k => WFail k end.
Definition flush_of (x : wres unit) : option ekind := match x with WOk _ => None | WErr k => Some k end.
Record foresees (G : T -> list wevent -> list (option ekind) -> Prop) : Prop := mk_foresees {
  foresees_end : forall t, G t [] [];
  foresees_read : forall n t x t' ws fs, t_read n t = (x, t') -> G t' ws fs -> G t ws fs;
  foresees_write : forall b t x t' ws fs, b <> [] -> t_write b t = (x, t') -> G t' ws fs -> G t (event_of x :: ws) fs;
  foresees_flush : forall t x t' ws fs, t_flush t = (x, t') -> G t' ws fs -> G t ws (flush_of x :: fs) }.

(** The same connection, on such a stream and on a socket, [all] being what was read from the stream. *)
Definition same_conn (c : tconn T) (b : bconn) : Prop :=
  tc_parser T c = bc_parser b /\ tb_w T (tc_stream T c) = bf_w (bc_stream b) /\
  tb_buf T (tc_stream T c) = rd_buf (bf_r (bc_stream b)) /\ given (tb_in T (tc_stream T c)) = b_sent b.
Definition same_end (st : tslot T) (b : bslot) (all : list what) : Prop :=
  match st, b with
  | TOpen _ c, BOpen d => same_conn c d /\ so_rx (rd_inner (bf_r (bc_stream d))) = [] /\ taken (tb_in T (tc_stream T c)) = all
  | TGone _ t, BGone sent => given t = sent /\ taken t = all
  | TPoisoned _ t, BPoisoned sent => given t = sent /\ taken t = all
  | _, _ => False
  end.

(** The stream of a connection, open or not; everything handed to its writer. *)
Definition stream_of (st : tslot T) : T :=
  match st with TOpen _ c => tb_in T (tc_stream T c) | TGone _ t => t | TPoisoned _ t => t end.
Definition t_output (c : tconn T) : bytes := given (tb_in T (tc_stream T c)) ++ unsent (tb_w T (tc_stream T c)).

(** What holds of the stream all the time. *)
Record lasts (Inv : T -> Prop) (fs : list (T -> T)) : Prop := mk_lasts {
  lasts_read : forall n t x t', t_read n t = (x, t') -> Inv t -> Inv t';
  lasts_write : forall b t x t', b <> [] -> t_write b t = (x, t') -> Inv t -> Inv t';
  lasts_flush : forall t x t', t_flush t = (x, t') -> Inv t -> Inv t';
  lasts_around : Forall (fun f => forall t, Inv t -> Inv (f t)) fs }.

(** Then no write or flush on it fails but by blocking, and after a blocked write no other is taken before the call ends. *)
Definition gentle (Inv : T -> Prop) (G : T -> list wevent -> list (option ekind) -> Prop) : Prop :=
  forall t ws fs, Inv t -> G t ws fs -> visit_fine (mk_visit ws fs) /\ visit_steady (mk_visit ws fs).

End Honest.
