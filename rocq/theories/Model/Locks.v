(** /repo/src/client/client.rs:66-92: threads that share a client, as a transition system. *)
From Coq Require Import List Bool Arith.
From Verif.Model Require Import Bytes Io Common Parse Encode Writer Client Slab.
Import ListNotations.

(** The mutex around a connection (client.rs:45). *)
Inductive lock := Free | Held | Broken.

(** A thread: outside of [send]; in its loop (client.rs:85-90), about to call try_lock on connection i (line 86; i may be
    past the last one); in [Connection::send] on connection i, whose state it found to be c (line 88). *)
Inductive thr := Out | Scan (q : request) (i : nat) | Use (q : request) (i : nat) (c : cconn).

(* client.rs:41-48 *)
Record kstate := mk_kstate { k_conns : list cconn; k_locks : list lock; k_threads : list thr }.

(** client.rs:68-77 [new]; line 69 asserts that size is positive.  Any number of threads. *)
Definition k_init (size threads : nat) : kstate := mk_kstate (repeat cconn_new size) (repeat Free size) (repeat Out threads).

(* client.rs:84-91 *)
Inductive klabel :=
| KCall (t : nat) (q : request) | KSkip (t i : nat) | KAgain (t : nat) | KTake (t i : nat)
| KReturn (t i : nat) (q : request) (n : net) (r : cres).

(* a thread in client.rs:84-91 *)
Definition at_ (st : kstate) (t : nat) (x : thr) : Prop := nth_error (k_threads st) t = Some x.
(* a thread in client.rs:84-91 *)
Definition to_ (st : kstate) (t : nat) (x : thr) : list thr := set_nth t x (k_threads st).

(** [dbg], [zt]: build profile and whether the configured time-out is zero (Model/Client.v). *)
Inductive kstep (dbg zt : bool) : kstate -> klabel -> kstate -> Prop :=
| ks_call st t q : at_ st t Out ->
    kstep dbg zt st (KCall t q) (mk_kstate (k_conns st) (k_locks st) (to_ st t (Scan q 0)))
(** Line 86: try_lock fails on a held and on a poisoned mutex. *)
| ks_skip st t q i l : at_ st t (Scan q i) -> nth_error (k_locks st) i = Some l -> l <> Free ->
    kstep dbg zt st (KSkip t i) (mk_kstate (k_conns st) (k_locks st) (to_ st t (Scan q (S i))))
(** Line 87: none; line 85. *)
| ks_again st t q i : at_ st t (Scan q i) -> nth_error (k_locks st) i = None ->
    kstep dbg zt st (KAgain t) (mk_kstate (k_conns st) (k_locks st) (to_ st t (Scan q 0)))
| ks_take st t q i c : at_ st t (Scan q i) -> nth_error (k_locks st) i = Some Free -> nth_error (k_conns st) i = Some c ->
    kstep dbg zt st (KTake t i) (mk_kstate (k_conns st) (set_nth i Held (k_locks st)) (to_ st t (Use q i c)))
(** Line 88: the network n is chosen freely; what the send leaves is written back; the guard is dropped, after a panic
    poisoning the mutex. *)
| ks_return st t q i c n r n' c' : at_ st t (Use q i c) -> conn_send dbg zt n c q = (r, n', c') -> r <> CPanic ->
    kstep dbg zt st (KReturn t i q n r) (mk_kstate (set_nth i c' (k_conns st)) (set_nth i Free (k_locks st)) (to_ st t Out))
| ks_panic st t q i c n n' c' : at_ st t (Use q i c) -> conn_send dbg zt n c q = (CPanic, n', c') ->
    kstep dbg zt st (KReturn t i q n CPanic) (mk_kstate (set_nth i c' (k_conns st)) (set_nth i Broken (k_locks st)) (to_ st t Out)).

(** Executions during which P holds; the trace has the latest label last. *)
(* client.rs:84-91 *)
Inductive kpath (dbg zt : bool) (P : kstate -> Prop) : kstate -> list klabel -> kstate -> Prop :=
| kp_nil st : P st -> kpath dbg zt P st [] st
| kp_step st ls st1 l st2 : kpath dbg zt P st ls st1 -> kstep dbg zt st1 l st2 -> P st2 -> kpath dbg zt P st (ls ++ [l]) st2.
(* client.rs:84-91 *)
Definition krun (dbg zt : bool) := kpath dbg zt (fun _ => True).
