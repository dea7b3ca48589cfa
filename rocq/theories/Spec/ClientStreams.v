(** A client's connection on streams and the same connection on sockets. *)
From Coq Require Import List NArith.
From Verif.Model Require Import Bytes Io Common Parse Writer Client Buffered Streams ClientStreams.
From Verif.Spec Require Import Output Exchange Buffering Streams.
Import ListNotations.
Local Open Scope N_scope.

Section ClientStreams.
Variable T : Type.
Variable t_read : N -> T -> (ekind + bytes) * T.
Variable t_write : bytes -> T -> wres N * T.
Variable t_flush : T -> wres unit * T.
Variable taken : T -> list what.
Variable given : T -> bytes.

(** All the streams there are, in the order in which the connection gets them: those dropped, the current one, those it may still get. *)
Definition coming (n : knet T) : list T := flat_map (fun x => match x with inr t => [t] | inl _ => [] end) n.
Definition current (c : kconn T) : list T := match kc_stream T c with Some d => [kb_in T d] | None => [] end.
Definition streams (n : knet T) (c : kconn T) : list T := map (kb_in T) (kc_dropped T c) ++ current c ++ coming n.

(** Streams on which nothing was read or written. *)
Definition untouched (t : T) : Prop := taken t = [] /\ given t = [].

(** Calls of read, write and flush lead from t to u; [ws] and [fs] are what the writes and the flushes did. *)
Inductive way (u : T) : T -> list wevent -> list (option ekind) -> Prop :=
  | way_end : way u u [] []
  | way_read n t x t' ws fs : 0 < n -> t_read n t = (x, t') -> way u t' ws fs -> way u t ws fs
  | way_write b t x t' ws fs : b <> [] -> t_write b t = (x, t') -> way u t' ws fs -> way u t (event_of x :: ws) fs
  | way_flush t x t' ws fs : t_flush t = (x, t') -> way u t' ws fs -> way u t ws (flush_of x :: fs).

(** The network n of streams and m of sockets: the same connects fail; a stream that ends as u is a socket that will give what was read from
    u, and then [more u], and whose writes and flushes do what those of the stream did. *)
Variable more : T -> stream.
Inductive plays : knet T -> bnet -> list T -> Prop :=
  | plays_nil : plays [] [] []
  | plays_fails k n m us : plays n m us -> plays (inl k :: n) (inl k :: m) us
  | plays_stream t n s k m u us : sk_sent k = given t -> way u t (sk_events k) (sk_flushes k) -> taken t ++ content s = taken u ++ content (more u) ->
      plays n m us -> plays (inr t :: n) (inr (mk_socket s k) :: m) (u :: us).

(** The same at the end. *)
Definition same_kbuf (d : kbuf T) (e : buffered bytes) : Prop :=
  kb_held T d = bf_w e /\ kb_buf T d = rd_buf (bf_r e) /\ given (kb_in T d) = sk_sent (out_side e) /\ so_rx (rd_inner (bf_r e)) = more (kb_in T d).
Definition same_kconn (c : kconn T) (b : bcconn) : Prop :=
  match kc_stream T c, bcc_stream b with Some d, Some e => same_kbuf d e | None, None => True | _, _ => False end /\
  Forall2 same_kbuf (kc_dropped T c) (bcc_dropped b).
Definition same_knet (n : knet T) (m : bnet) : Prop :=
  Forall2 (fun x y => match x, y with inl k, inl k' => k = k' | inr _, inr _ => True | _, _ => False end) n m.

(** Since [old] a front part of what was buffered then and of the request was transmitted; or all of it. *)
Definition given_of (o : option (kbuf T)) : bytes := match o with Some d => given (kb_in T d) | None => [] end.
Definition kept_of (o : option (kbuf T)) : bytes := match o with Some d => kb_held T d | None => [] end.
Definition k_added (old : option (kbuf T)) (req : bytes) (new : kbuf T) : Prop :=
  exists d, given (kb_in T new) = given_of old ++ d /\ prefix d (kept_of old ++ req).
Definition k_all_added (old : option (kbuf T)) (req : bytes) (new : kbuf T) : Prop :=
  given (kb_in T new) = given_of old ++ kept_of old ++ req.

(** From t to u no write or flush fails but by an interruption, and a write takes something. *)
Definition willing (u t : T) : Prop := forall ws fs, way u t ws fs ->
  Forall (fun e => match e with WTake n => 0 < n | WFail k => k = Interrupted end) ws /\ Forall (fun f => f = None) fs.
End ClientStreams.
