(** C78: how the server ends. *)
From Coq Require Import List Ascii String NArith Bool Arith Lia.
From Verif.Model Require Import Bytes Io Common Parse Encode Writer Server Slab Poll Handlers Whole Full Life.
From Verif.Spec Require Import Batch Stream Drive Numerals Grammar Wire Output Session Slots Traces Arrivals Events Ending.
From Verif.Proofs Require Import BytesFacts SlabFacts PollFacts HandlersFacts WholeFacts FullFacts LifeFacts.
From Verif.Properties Require Import Streaming RoundTrip Server Poll Handlers Whole Full.
Import ListNotations.

(** The call that runs the server returns no other error than the one of the poll.  When it returns, no handler has
    panicked ever, every job has run to its end, no socket is open, and nothing happens any more. *)
Theorem C78_returned : forall dbg R size ls st e, has_router R -> 0 < size ->
  lrun dbg R (l_init size) ls st -> l_main st = MReturned e ->
  In (LStop e) ls /\ panicked ls = false /\ jobs (f_w (l_f st)) = [] /\ worker_left (f_w (l_f st)) = false /\
  (forall c, ~ connected c (l_f st)) /\ forall l st', ~ lstep dbg R st l st'.
Proof.
  intros dbg R size ls st e Tot Pos Rn M. pose proof (linv_run dbg R _ _ _ Tot Rn) as I.
  destruct (returned dbg R _ _ _ _ Pos I M) as (H1 & H2 & H3 & _ & H5 & H6). split; auto. split; [now apply panicked_crashes|]. split; auto. split; [|split].
  - unfold worker_left. clear - H6. induction H6 as [|w l -> _ IH]; auto.
  - intros c [t H]. rewrite H5 in H. destruct H.
  - intros l st'. apply (returned_over dbg R size ls st e); auto.
Qed.
Print Assumptions C78_returned.

(** When the poll fails, the sockets without a job are closed at once, and every job that waits or runs is run to its
    end, exactly once, before the call returns. *)
Theorem C78_jobs_finish : forall dbg R size ls st0 e st1 ls' st2, has_router R -> 0 < size ->
  lrun dbg R (l_init size) ls st0 -> lstep dbg R st0 (LStop e) st1 ->
  (forall c, connected c (l_f st1) <-> connected c (l_f st0) /\ 0 < pending c st0) /\
  (lrun dbg R st1 ls' st2 -> l_main st2 = MReturned e -> forall c, List.length (filter (finishes c) ls') = pending c st0).
Proof.
  intros dbg R size ls st0 e st1 ls' st2 Tot Pos Rn S. pose proof (linv_run dbg R _ _ _ Tot Rn) as [B _].
  inversion S as [| |f t d e' Hb Li| | | | | | | | |]; subst. split.
  - intros c. unfold connected, pending. cbn [l_f f_p f_w drop_slab p_reg]. pose proof (ba_jobs _ _ _ _ _ B c) as J. cbn [l_f] in J. rewrite <- J.
    split.
    + intros [k H]. apply sweep_in in H as [H [[k' K]|K]]; [now rewrite slab_new_get in K|]. split; eauto. now apply (count_occ_In Nat.eq_dec).
    + intros [[k H] K]. exists k. apply sweep_in. split; auto. right. now apply (count_occ_In Nat.eq_dec).
  - intros R' M c. pose proof (pending_run dbg R _ _ _ c R' eq_refl) as K.
    assert (Rn2 : lrun dbg R (l_init size) (ls' ++ LStop e :: ls) st2) by (eapply lrun_join; [econstructor; eauto|exact R']).
    destruct (C78_returned _ _ _ _ _ _ Tot Pos Rn2 M) as (_ & _ & J & _).
    unfold pending in K at 1. rewrite J in K. cbn [count_occ] in K. exact K.
Qed.
Print Assumptions C78_jobs_finish.

(** Unless more input arrives all the time, it comes to an end, with all threads ended: the call returns the error if
    no handler has panicked, and panics itself if one has. *)
Theorem C78_ends : forall dbg R size ls st, has_router R -> 0 < size ->
  lrun dbg R (l_init size) ls st -> ending (l_main st) = true ->
  exists n, forall ls' st', lrun dbg R st ls' st' -> existsb beyond ls' = false -> List.length ls' <= n /\
    ((forall l st'', lstep dbg R st' l st'' -> beyond l = true) -> worker_left (f_w (l_f st')) = false /\
      if panicked (ls' ++ ls) then l_main st' = MUnwound else exists e, l_main st' = MReturned e /\ In (LStop e) ls).
Proof.
  intros dbg R size ls st Tot Pos Rn E. pose proof (linv_run dbg R _ _ _ Tot Rn) as I. exists (rest size st). intros ls' st' R' X.
  destruct (rest_run dbg R _ _ _ _ _ Tot I E R' X) as [I' K]. split; [lia|]. intros A.
  destruct (stuck_over dbg R _ _ _ Tot I' (ending_run dbg R _ _ _ R' E) A) as [W F]. split; auto.
  assert (Ns : forall e, ~ In (LStop e) ls').
  { clear - R' E. intros e. induction R' as [|st0 ls st1 l st2 Rn IH S]; [intros []|]. intros [->|H]; [|now apply IH].
    pose proof (ending_run dbg R _ _ _ Rn E) as E1. inversion S; subst. discriminate. }
  destruct (panicked (ls' ++ ls)) eqn:P.
  - destruct F as [F|[e F]]; auto. destruct (returned dbg R _ _ _ _ Pos I' F) as (_ & C & _). apply panicked_crashes in C. congruence.
  - destruct F as [F|[e F]].
    + destruct I' as (_ & Ph & _). unfold phase in Ph. rewrite F in Ph. apply panicked_crashes in P. lia.
    + exists e. split; auto. destruct (returned dbg R _ _ _ _ Pos I' F) as (H & _). apply in_app_or in H as [H|H]; auto. now apply Ns in H.
Qed.
Print Assumptions C78_ends.

(** After as many panics as there are workers, the next event about a connection in the slab ends the process: then the
    main thread can do nothing else.  Nothing but that many panics leads there. *)
Theorem C78_aborts : forall dbg R size ls st, has_router R -> lrun dbg R (l_init size) ls st ->
  (l_main st = MAborted -> List.length (filter panics ls) = size /\ forall l st', ~ lstep dbg R st l st') /\
  (forall c k b d, l_main st = MServing -> List.length (filter panics ls) = size ->
    p_batch (f_p (l_f st)) = EvSocket c k false :: b -> p_listening (f_p (l_f st)) = false -> get (p_slab (f_p (l_f st))) k = Some d ->
    (exists st', lstep dbg R st LAbort st' /\ l_main st' = MAborted) /\
    forall l st', lstep dbg R st l st' -> l = LAbort \/ beyond l = true /\ l_main st' = MServing /\ f_p (l_f st') = f_p (l_f st)).
Proof.
  intros dbg R size ls st Tot Rn. pose proof (linv_run dbg R _ _ _ Tot Rn) as (B & P & C).
  pose proof (ba_dead _ _ _ _ _ B) as D. pose proof (ba_size _ _ _ _ _ B) as Sz. pose proof (dead_living (f_w (l_f st))) as Dl. split.
  - intros M. split; [|intros l st' S; inversion S; subst; cbn [l_main] in *; congruence].
    unfold phase in P. rewrite M in P. destruct P as (P1 & _ & P3 & _). rewrite P1, P3 in D. cbn [List.length] in D.
    assert (Z : living (f_w (l_f st)) = 0).
    { apply living_zero. clear - Rn M. inversion Rn as [|st0 ls0 st1 l st2 Rn0 S]; subst; [cbn [l_init l_main] in M; discriminate M|]. inversion S; subst; cbn [l_main l_f] in *; try congruence; assumption. }
    unfold crashes in D. lia.
  - intros c k b d M Cr Hb Li G. unfold phase in P. rewrite M in P. destruct P as (P1 & P2 & P3 & _). destruct st as [f m t dn]. cbn [l_f l_main l_done l_term] in *. subst m dn t.
    assert (Z : existsb walive (ws_workers (f_w f)) = false).
    { apply living_zero. unfold crashes in D. cbn [List.length] in D. lia. }
    assert (Nw : forall i w, nth_error (ws_workers (f_w f)) i = Some w -> walive w = false).
    { intros i w N. destruct (walive w) eqn:Ew; auto. rewrite <- Z. symmetry. apply existsb_exists. exists w. split; auto. eapply nth_error_In; eauto. }
    split.
    + eexists. split; [eapply ls_abort; eauto|reflexivity].
    + intros l st' S. inversion S as [f0 l0 f' t d0 S0| | | | | | | | | | |]; subst; cbn [l_main l_f] in *; try congruence; auto.
      right. split; [|split; auto]; destruct S0 as [st e t its w' Ge W|st e t w' Ge W|st p' W F'|st l p' Mo W|st e ok p' W|st e r p' W A|st l w' I W|st l e b0 w' p' E W S'];
        cbn [f_w f_p beyond] in *; auto; exfalso.
      * inversion W; subst. congruence.
      * destruct l; try discriminate; inversion W; subst; congruence.
      * inversion W; subst. congruence.
      * inversion W as [| | | | | |? ? t b' ? ? B' Li' E|]; subst. rewrite Hb in B'. inversion B'; subst. unfold on_ready in E. rewrite G in E. inversion E; subst.
        rewrite Z in A. discriminate A. discriminate.
      * inversion W; subst; try discriminate; match goal with N : nth_error (ws_workers _) _ = Some _ |- _ => apply Nw in N; discriminate end.
      * inversion W; subst; try discriminate; match goal with N : nth_error (ws_workers _) _ = Some _ |- _ => apply Nw in N; discriminate end.
      * inversion W; subst. congruence.
      * destruct l; try discriminate; inversion W; subst; congruence.
      * inversion W; subst. congruence.
      * inversion W as [| | | | | |? ? t b' ? ? B' Li' E|]; subst. rewrite Hb in B'. inversion B'; subst. unfold on_ready in E. rewrite G in E. inversion E; subst.
        rewrite Z in A. discriminate A. discriminate.
      * inversion W; subst; try discriminate; match goal with N : nth_error (ws_workers _) _ = Some _ |- _ => apply Nw in N; discriminate end.
Qed.
Print Assumptions C78_aborts.

(** ** Cases *)

Lemma serving_lrun dbg R size ls f : frun dbg R (f_init size) ls f -> lrun dbg R (l_init size) (map LF ls) (mk_lstate f MServing 0 []).
Proof.
  intros Rn. remember (f_init size) as i. induction Rn as [st|st ls st' l st'' Rn IH S]; subst; [constructor|]. cbn [map].
  eapply lrun_step; [exact (IH eq_refl)|]. now apply ls_serve.
Qed.

Ltac lgo Rn tac := eapply lrun_step in Rn; [|tac];
  cbv [f_w f_p wupd wput set_nth ws_conns ws_queue ws_workers wc_sock wc_event wc_slot wc_log app end_worker drop_slab sweep filter in_slab existsb
       p_batch p_slab p_next p_reg p_jobs p_listening slab_new fst orb Nat.eqb sl_data List.length drop_one] in Rn.
Ltac lwork tac := eapply ls_work; [discriminate|discriminate|tac].

(** Two peers are connected and one has sent a request when the poll fails.  The other is cut off; the request is
    answered; then the call returns the error. *)
Example C78_case : exists ls st0 st1 ls' st2 x, lrun true nobody (l_init 1) ls st0 /\ lstep true nobody st0 (LStop Interrupted) st1 /\
  lrun true nobody st1 ls' st2 /\ l_main st2 = MReturned Interrupted /\
  pending 0 st0 = 1 /\ pending 1 st0 = 0 /\ connected 0 (l_f st0) /\ connected 1 (l_f st0) /\
  nth_error (ws_conns (f_w (l_f st2))) 0 = Some x /\ slot_sent (as_slot (wc_slot x)) = not_found.
Proof.
  pose proof (frun_nil true nobody (f_init 1)) as Fn.
  fgo Fn ltac:(fpoll [EvListener]).
  fgo Fn ltac:(fmain Listening ltac:(apply step_listen; reflexivity)).
  fgo Fn ltac:(faccept 0).
  fgo Fn ltac:(faccept 1).
  fgo Fn ltac:(fmain Blocked ltac:(apply step_blocked; reflexivity)).
  fgo Fn ltac:(farrive 0 (write_request get_root)).
  fgo Fn ltac:(fpoll [EvSocket 0 0 false]).
  fgo Fn ltac:(fready 0 (Some 0)).
  apply (serving_lrun true nobody 1) in Fn.
  match type of Fn with lrun _ _ _ _ ?s => assert (S : exists s1, lstep true nobody s (LStop Interrupted) s1) by (eexists; apply ls_stop; reflexivity) end.
  destruct S as [s1 S]. pose proof S as S0. inversion S0; subst s1. clear S0. subst.
  match type of S with lstep _ _ _ _ ?s => pose proof (lrun_nil true nobody s) as Rn end.
  lgo Rn ltac:(apply ls_send; reflexivity).
  lgo Rn ltac:(lwork ltac:(eapply fs_work; [|eapply (ws_take _ _ _ 0 0); reflexivity]; reflexivity)).
  lgo Rn ltac:(apply ls_sent).
  lgo Rn ltac:(lwork ltac:(eapply fs_work; [|eapply (ws_enter _ _ _ 0 0 _ _ ample peer0); reflexivity]; reflexivity)).
  lgo Rn ltac:(lwork ltac:(eapply fs_work; [|eapply (ws_read _ _ _ 0 0 _ _ _ _ _ (RData (write_request get_root)) []); [reflexivity|reflexivity|reflexivity|served|reflexivity]]; reflexivity)).
  lgo Rn ltac:(lwork ltac:(eapply fs_work; [|eapply (ws_drain _ _ _ 0 0); [reflexivity|reflexivity|reflexivity|served|reflexivity]]; reflexivity)).
  lgo Rn ltac:(lwork ltac:(eapply fs_end; [|eapply (ws_keep _ _ _ 0 0); [reflexivity|reflexivity|reflexivity|served]|eapply (step_finished _ 0 false); cbn; auto]; reflexivity)).
  lgo Rn ltac:(eapply (ls_terminate _ _ _ _ _ _ 0); [discriminate|reflexivity|reflexivity]).
  lgo Rn ltac:(apply ls_join; now left).
  lgo Rn ltac:(apply ls_joined; reflexivity).
  do 6 eexists. split; [exact Fn|]. split; [exact S|]. split; [exact Rn|]. split; [reflexivity|]. split; [reflexivity|]. split; [reflexivity|].
  split; [eexists; cbn; eauto|]. split; [eexists; cbn; eauto|]. split; [reflexivity|]. vm_compute. reflexivity.
Qed.

Definition panicking (c : nat) (q : request) (l : lresult) : Prop := l = LPanic.
Lemma panicking_router : has_router panicking.
Proof. intros c. exists (fun _ _ => LPanic). intros h q. reflexivity. Qed.

Lemma one_panic : exists ls0 f0 ls f, frun true panicking (f_init 1) ls0 f0 /\ panicked (map LF ls0) = true /\ p_batch (f_p f0) = [] /\ p_listening (f_p f0) = false /\
  frun true panicking (f_init 1) ls f /\ ws_workers (f_w f) = [WDead] /\ p_batch (f_p f) = [EvSocket 1 1 false] /\ p_listening (f_p f) = false /\ get (p_slab (f_p f)) 1 = Some 1.
Proof.
  pose proof (frun_nil true panicking (f_init 1)) as Fn.
  fgo Fn ltac:(fpoll [EvListener]).
  fgo Fn ltac:(fmain Listening ltac:(apply step_listen; reflexivity)).
  fgo Fn ltac:(faccept 0).
  fgo Fn ltac:(faccept 1).
  fgo Fn ltac:(fmain Blocked ltac:(apply step_blocked; reflexivity)).
  fgo Fn ltac:(farrive 0 (write_request get_root)).
  fgo Fn ltac:(fpoll [EvSocket 0 0 false]).
  fgo Fn ltac:(fready 0 (Some 0)).
  fgo Fn ltac:(eapply fs_work; [|eapply (ws_take _ _ _ 0 0); reflexivity]; reflexivity).
  fgo Fn ltac:(eapply fs_work; [|eapply (ws_enter _ _ _ 0 0 _ _ ample peer1); reflexivity]; reflexivity).
  fgo Fn ltac:(eapply fs_work; [|eapply (ws_read _ _ _ 0 0 _ _ _ _ _ (RData (write_request get_root)) []); [reflexivity|reflexivity|reflexivity|served|reflexivity]]; reflexivity).
  fgo Fn ltac:(eapply fs_end; [|eapply (ws_crash _ _ _ 0 0); [reflexivity|reflexivity|reflexivity|served]|eapply (step_finished _ 0 true); cbn; auto]; reflexivity).
  pose proof Fn as Fn0.
  fgo Fn ltac:(eapply (fs_notify _ _ _ 1 1); [cbn; auto|eapply ws_notify; reflexivity]).
  fgo Fn ltac:(fpoll [EvSocket 1 1 false]).
  do 4 eexists. split; [exact Fn0|]. split; [reflexivity|]. split; [reflexivity|]. split; [reflexivity|]. split; [exact Fn|]. repeat split.
Qed.

(** One request whose listener panics, then a readiness event of another peer: the process is aborted. *)
Example C78_abort_case : exists ls st, lrun true panicking (l_init 1) ls st /\ l_main st = MAborted.
Proof.
  destruct one_panic as (_ & _ & ls & f & _ & _ & _ & _ & Rn & W & Hb & Li & G). apply serving_lrun in Rn.
  exists (LAbort :: map LF ls), (mk_lstate f MAborted 0 []). split; [|reflexivity]. eapply lrun_step; [exact Rn|]. eapply ls_abort; eauto. unfold someone. now rewrite W.
Qed.

(** That the call returns the error of the poll is false of this server: after a panic of a handler it panics instead. *)
Theorem C78_error_returned_refuted : exists ls st0 e st1, lrun true panicking (l_init 1) ls st0 /\ lstep true panicking st0 (LStop e) st1 /\
  forall ls' st', lrun true panicking st1 ls' st' -> (forall e', l_main st' <> MReturned e') /\
    (existsb beyond ls' = false -> (forall l st'', lstep true panicking st' l st'' -> beyond l = true) -> l_main st' = MUnwound).
Proof.
  destruct one_panic as (ls & f & _ & _ & Rn & P & Hb & Li & _). apply serving_lrun in Rn.
  pose proof (ls_stop true panicking f 0 [] Interrupted Hb Li) as S. do 4 eexists. split; [exact Rn|]. split; [exact S|]. intros ls' st' R'.
  pose proof (lrun_step _ _ _ _ _ _ _ Rn S) as Rn1. split.
  - intros e' M. destruct (C78_returned _ _ _ _ _ _ panicking_router Nat.lt_0_1 (lrun_join _ _ _ _ _ Rn1 _ _ R') M) as (_ & K & _).
    unfold panicked in *. rewrite existsb_app in K. cbn [existsb panics orb] in K. rewrite P, orb_true_r in K. discriminate.
  - intros X A. destruct (C78_ends _ _ _ _ _ panicking_router Nat.lt_0_1 Rn1 eq_refl) as [n K]. destruct (K _ _ R' X) as [_ K1]. destruct (K1 A) as [_ K2].
    unfold panicked in *. rewrite existsb_app in K2. cbn [existsb panics orb] in K2. rewrite P, orb_true_r in K2. exact K2.
Qed.
Print Assumptions C78_error_returned_refuted.
