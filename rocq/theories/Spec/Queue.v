(** A queue, first come first served, with a number of servers that take jobs when they are free and may break down. *)
From Coq Require Import List Bool Arith Permutation.
From Verif.Model Require Import Pool.
Import ListNotations.

(** The number of the next job; the jobs that wait; how many servers are free; the jobs in progress; whether the shop is open. *)
Record fifo := mk_fifo { fq_next : nat; fq_waiting : list nat; fq_free : nat; fq_running : list nat; fq_open : bool }.
Definition fifo_new (size : nat) : fifo := mk_fifo 0 [] size [] true.
Definition servers (q : fifo) : nat := fq_free q + List.length (fq_running q).

Inductive happen : fifo -> plabel -> fifo -> Prop :=
| happen_submit n w f r : 0 < f + List.length r ->
    happen (mk_fifo n w f r true) (Submit n) (mk_fifo (S n) (w ++ [n]) f r true)
| happen_refuse n w : happen (mk_fifo n w 0 [] true) SubmitFailed (mk_fifo n w 0 [] false)
| happen_start n j w f r o : happen (mk_fifo n (j :: w) (S f) r o) (Start j) (mk_fifo n w f (j :: r) o)
| happen_finish n w f j r r' o : Permutation r (j :: r') -> happen (mk_fifo n w f r o) (Finish j) (mk_fifo n w (S f) r' o)
| happen_crash n w f j r r' o : Permutation r (j :: r') -> happen (mk_fifo n w f r o) (Crash j) (mk_fifo n w f r' o).

(** Histories, latest first. *)
Inductive history : fifo -> list plabel -> fifo -> Prop :=
| history_nil q : history q [] q
| history_step q ls q' l q'' : history q ls q' -> happen q' l q'' -> history q (l :: ls) q''.

(** What a user of the pool sees. *)
Definition seen (l : plabel) : bool := match l with Tau => false | _ => true end.
