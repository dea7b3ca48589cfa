(** C46: the thread pool is a queue with as many servers as it has workers. *)
From Coq Require Import List Bool Arith Permutation.
From Verif.Model Require Import Slab Pool.
From Verif.Spec Require Import Jobs Queue.
From Verif.Proofs Require Import QueueFacts.
Import ListNotations.

(** Until the pool is dropped, what a user sees of it (submissions, starts, ends and panics of jobs, in order) is exactly
    what such a queue shows: the lock around the receiver cannot be noticed. *)
Theorem C46_is_a_queue : forall size tr,
  (exists ls st, run (pool_new size) ls st /\ ~ In DropCalled ls /\ filter seen ls = tr) <->
  (exists q, history (fifo_new size) tr q).
Proof.
  intros size tr. split.
  - intros (ls & st & R & D & <-). destruct (same_forth _ _ _ R D) as (q & H & _). eauto.
  - intros (q & H). destruct (same_realised _ _ _ H) as (ls & st & R & D & E & _). eauto.
Qed.
Print Assumptions C46_is_a_queue.

(** And it never gets stuck: in each of its states the pool can go on to show whatever the queue can show next. *)
Theorem C46_keeps_up : forall size ls st, run (pool_new size) ls st -> ~ In DropCalled ls ->
  exists q, history (fifo_new size) (filter seen ls) q /\
    forall l q', happen q l q' -> exists ls' st', run st ls' st' /\ ~ In DropCalled ls' /\ filter seen ls' = [l].
Proof.
  intros size ls st R D. destruct (same_forth _ _ _ R D) as (q & H & S). exists q. split; auto. intros l q' Hl.
  destruct (same_back _ _ _ _ S Hl) as (ls' & st' & R' & E & D' & _). eauto.
Qed.
Print Assumptions C46_keeps_up.

(** Two workers, three jobs, one of which panics; the second is started before the first ends. *)
Example C46_queue_case : exists q, history (fifo_new 2)
  [Start 2; Finish 1; Crash 0; Submit 2; Start 1; Start 0; Submit 1; Submit 0] q /\ servers q = 1 /\ fq_waiting q = [].
Proof.
  exists (mk_fifo 3 [] 0 [2] true). split; [|split; reflexivity].
  eapply history_step; [eapply history_step; [eapply history_step; [eapply history_step; [eapply history_step; [eapply history_step; [eapply history_step; [eapply history_step; [constructor|]|]|]|]|]|]|]|];
      [apply (happen_submit 0 [] 2 []); auto with arith
      |apply (happen_submit 1 [0] 2 []); auto with arith
      |apply (happen_start 2 0 [1] 1 [])
      |apply (happen_start 2 1 [] 0 [0])
      |apply (happen_submit 2 [] 0 [1; 0]); auto with arith
      |apply (happen_crash 3 [2] 0 0 [1; 0] [1]); apply perm_swap
      |apply (happen_finish 3 [2] 0 1 [1] []); apply Permutation_refl
      |apply (happen_start 3 2 [] 0 [])].
Qed.
