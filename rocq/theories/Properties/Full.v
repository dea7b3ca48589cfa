(** The whole server with its event loop: C69, C70. *)
From Coq Require Import List Ascii String NArith Bool Arith Lia.
From Verif.Model Require Import Bytes Io Common Parse Encode Writer Server Slab Poll Handlers Whole Full.
From Verif.Spec Require Import Batch Stream Drive Numerals Grammar Wire Output Session Slots Traces Arrivals Events.
From Verif.Proofs Require Import BytesFacts SlabFacts PollFacts HandlersFacts WholeFacts FullFacts.
From Verif.Properties Require Import Streaming RoundTrip Server Poll Handlers Whole.
Import ListNotations.

Lemma frun_app dbg R a ls b : frun dbg R a ls b -> forall ls' c, frun dbg R b ls' c -> frun dbg R a (ls' ++ ls) c.
Proof. intros Rn ls' c R'. induction R'; cbn [app]; auto. econstructor; eauto. Qed.

Lemma conn_lt dbg R size ls st c x : frun dbg R (f_init size) ls st -> nth_error (ws_conns (f_w st)) c = Some x ->
  c < p_next (f_p st).
Proof. intros Rn N. destruct (finv_run _ _ _ _ _ Rn) as [_ L _]. rewrite <- L. apply nth_error_Some. congruence. Qed.

(** ** C69 *)

(** With the slab, the tokens and the polls: a connection still is served as by a server that has only this connection
    -- however events are mixed up (C36), they only cause calls that find nothing to read. *)
Theorem C69_with_event_loop : forall dbg R size ls st c x, has_router R ->
  frun dbg R (f_init size) ls st -> nth_error (ws_conns (f_w st)) c = Some x ->
  exists rt s busy, (forall h q, R c q (rt h q)) /\
    received c (wparts ls) = items s ++ items busy ++ wc_sock x /\
    visits dbg rt (calls c (wparts ls)) [] (Open (conn_new s)) = (wc_log x, as_slot (wc_slot x)) /\
    ((forall k, wc_slot x <> WTaken k) -> busy = []).
Proof.
  intros dbg R size ls st c x Tot Rn N. pose proof (conn_lt _ _ _ _ _ _ _ Rn N) as Lt.
  destruct (sim_run dbg R _ _ _ Rn _ (le_n _)) as (L & RL & Er & Ec). rewrite <- Er, <- Ec.
  exact (C69_isolation dbg R _ _ L _ c _ Tot RL (retag_nth _ _ _ _ _ Lt N)).
Qed.
Print Assumptions C69_with_event_loop.

(** ** C70 *)

Lemma pparts_in l ls : In (FP l) ls -> In l (pparts ls).
Proof. intros H. apply in_flat_map. exists (FP l). split; auto. now left. Qed.
Lemma closed_pparts c r ls : In (Closed c r) (pparts ls) -> In (FP (Closed c r)) ls.
Proof.
  intros H. apply in_flat_map in H as (l & H1 & H2). destruct l as [l|evs|l]; cbn [ppart] in H2.
  - destruct (ends l) as [[d b]|]; [destruct H2 as [H2|[]]; discriminate|destruct H2].
  - destruct H2 as [H2|[]]; discriminate.
  - destruct H2 as [->|[]]. exact H1.
Qed.

Lemma not_removed_held dbg R size ls st c : frun dbg R (f_init size) ls st -> accepted_here c ls -> never_removed c ls ->
  in_slab c (p_slab (f_p st)) = true.
Proof.
  intros Rn A N. apply in_slab_get. apply (C36_slab (pparts ls)); [exact (frun_prun _ _ _ _ _ Rn)|]. split.
  - now apply pparts_in.
  - intros c' H. apply closed_pparts in H. exact (N c' H).
Qed.

(** A peer that sends requests, none of which asks to close, keeps its connection, unless an event makes the server
    remove it. *)
Theorem C70_event_loop_keeps : forall dbg R size ls st c x rs b b', has_router R ->
  frun dbg R (f_init size) ls st -> accepted_here c ls -> never_removed c ls -> nth_error (ws_conns (f_w st)) c = Some x ->
  calm_listeners R c -> Forall visit_fine (calls c (wparts ls)) ->
  Forall visit_steady (calls c (wparts ls)) \/ short_listeners R c ->
  Forall plain_request rs -> (forall r, In r rs -> ~ asks_close r) ->
  received c (wparts ls) = map IByte b -> b ++ b' = List.concat (map write_request rs) ->
  connected c st /\ exists k, wc_slot x = WHere k \/ wc_slot x = WTaken k.
Proof.
  intros dbg R size ls st c x rs b b' Tot Rn Ac Nr N Cl V Sh F A Rc E. pose proof (conn_lt _ _ _ _ _ _ _ Rn N) as Lt.
  destruct (sim_run dbg R _ _ _ Rn _ (le_n _)) as (L & RL & Er & Ec). rewrite <- Er in *. rewrite <- Ec in *.
  destruct (C70_never_dropped dbg R _ _ L _ c _ rs b b' Tot RL (retag_nth _ _ _ _ _ Lt N) Cl V Sh F A Rc E) as (k & K).
  cbn [with_event wc_slot] in K. split; [|eauto]. apply (regs_run _ _ _ _ _ Rn c x N).
  - unfold wopen. destruct K as [-> | ->]; reflexivity.
  - eapply not_removed_held; eauto.
Qed.
Print Assumptions C70_event_loop_keeps.

(** Its own hang-up is the only event that removes it, if no connection is ever removed while a job for it is queued or
    running. *)
Theorem C70_only_own_event_removes : forall dbg R size ls st c, tidy dbg R (f_init size) ls st -> never_hung_up c ls -> never_removed c ls.
Proof.
  intros dbg R size ls st c T. remember (f_init size) as i. induction T as [|st0 ls st1 l st2 T IH S Q]; subst; intros H c' K; [destruct K|].
  assert (H' : never_hung_up c ls) by (intros r Hr; apply (H r); now right).
  destruct K as [-> |K]; [|exact (IH eq_refl H' c' K)].
  assert (E : Some c = Some c').
  { apply (C36_every_event _ _ c' (Some c) (f_p st2) (tidy_quiet _ _ _ _ _ T)). right. now inversion S; subst. }
  inversion E; subst c'. apply (H (Some c)). now left.
Qed.
Print Assumptions C70_only_own_event_removes.

(** When the server has nothing more to do and a worker is left, every request that arrived on such a connection has
    been routed, once and in order, and answered, in order. *)
Theorem C70_event_loop_answers : forall dbg R size ls st c x rs, has_router R ->
  frun dbg R (f_init size) ls st -> accepted_here c ls -> never_removed c ls -> nth_error (ws_conns (f_w st)) c = Some x ->
  calm_listeners R c -> Forall visit_fine (calls c (wparts ls)) ->
  Forall visit_steady (calls c (wparts ls)) \/ short_listeners R c ->
  Forall plain_request rs -> (forall r, In r rs -> ~ asks_close r) ->
  received c (wparts ls) = map IByte (List.concat (map write_request rs)) ->
  resting dbg R st -> worker_left (f_w st) = true ->
  Forall2 same_request (wc_log x) rs /\
  exists k rt, wc_slot x = WHere k /\ (forall h q, R c q (rt h q)) /\ output k = replies rt [] (wc_log x) /\
    (Forall visit_steady (calls c (wparts ls)) -> Forall (visit_takes (len (replies rt [] (wc_log x)))) (calls c (wparts ls)) ->
     sk_sent (cn_sock k) = replies rt [] (wc_log x)).
Proof.
  intros dbg R size ls st c x rs Tot Rn Ac Nr N Cl V Sh F A Rc Rest Left. pose proof (conn_lt _ _ _ _ _ _ _ Rn N) as Lt.
  destruct (C70_event_loop_keeps dbg R size ls st c x rs _ [] Tot Rn Ac Nr N Cl V Sh F A Rc (app_nil_r _)) as (_ & k0 & K0).
  assert (O : wopen x = true) by (unfold wopen; destruct K0 as [-> | ->]; reflexivity).
  destruct (resting_read dbg R _ _ _ _ _ Tot Rn Rest Left N O) as (Es & k & P); [eapply not_removed_held; eauto|].
  destruct (sim_run dbg R _ _ _ Rn _ (le_n _)) as (L & RL & Er & Ec). rewrite <- Er in *. rewrite <- Ec in *.
  destruct (answered_when_read dbg R _ _ L _ c _ k rs Tot RL (retag_nth _ _ _ _ _ Lt N) Cl V Sh F A Rc Es P) as (H1 & rt & H2 & H3 & H4).
  split; auto. exists k, rt. auto.
Qed.
Print Assumptions C70_event_loop_answers.

(** The server does come to rest. *)
Theorem C70_event_loop_rests : forall dbg R size ls st, has_router R -> frun dbg R (f_init size) ls st ->
  exists n, forall ls' st', frun dbg R st ls' st' -> forallb (fun l => negb (from_outside l)) ls' = true -> List.length ls' <= n.
Proof.
  intros dbg R size ls st Tot Rn. exists (total st). intros ls' st' R' H.
  assert (K : List.length ls' + total st' <= total st); [|lia].
  induction R' as [|st ls' st1 l st2 R' IH S]; [cbn; lia|]. cbn [forallb] in H. apply andb_true_iff in H as [H1 H2].
  apply negb_true_iff in H1. specialize (IH Rn H2).
  pose proof (total_step dbg R _ _ _ _ _ Tot (frun_app _ _ _ _ _ Rn _ _ R') S H1). cbn [List.length]. lia.
Qed.
Print Assumptions C70_event_loop_rests.

(** ** Cases *)

Ltac fgo Rn tac := eapply frun_step in Rn; [|tac];
  cbv [f_init f_w f_p wupd wput set_nth ws_conns ws_queue ws_workers wc_sock wc_event wc_slot wc_log app repeat wc_new polled
       flat_map socket_of fold_left clear_event nth_error with_event add_conn enqueue
       p_batch p_slab p_next p_reg p_jobs p_listening poll_init slab_new] in Rn.
Ltac tgo Rn tac := eapply tidy_step in Rn; [|tac|first [discriminate|intros c r H; inversion H; subst; cbn; intuition discriminate]];
  cbv [f_init f_w f_p wupd wput set_nth ws_conns ws_queue ws_workers wc_sock wc_event wc_slot wc_log app repeat wc_new polled
       flat_map socket_of fold_left clear_event nth_error with_event add_conn enqueue
       p_batch p_slab p_next p_reg p_jobs p_listening poll_init slab_new] in Rn.
Ltac fpoll evs := eapply (fs_poll _ _ _ (mk_pstate _ _ _ _ evs _));
  [constructor; [reflexivity|reflexivity|repeat (constructor; cbn; auto)|cbn; repeat (constructor; cbn; intuition)]
  |cbn [p_batch f_w]; intros c t b H; cbn in H; repeat (destruct H as [H|H]; [try discriminate H; inversion H; subst; eexists; split; reflexivity|]); destruct H].
Ltac fmain l tac := eapply (fs_main _ _ _ l); [reflexivity|tac].
Ltac faccept c := eapply (fs_accept _ _ _ c true); apply step_accept; [reflexivity|vm_compute; reflexivity].
Ltac fready c r := eapply (fs_ready _ _ _ c r); [eapply step_ready; [reflexivity|reflexivity|vm_compute; reflexivity]|reflexivity].
Ltac fclosed c r := fmain (Closed c r) ltac:(eapply step_closed; [reflexivity|reflexivity|vm_compute; reflexivity]).
Ltac farrive c its := eapply (fs_arrive _ _ _ c 0 (map IByte its)); [cbn; auto|eapply ws_arrive; [reflexivity|reflexivity|discriminate|apply all_proper]].
Ltac fnotify c := eapply (fs_notify _ _ _ c 0); [cbn; auto|eapply ws_notify; reflexivity].

Definition nobody (c : nat) (q : request) (l : lresult) : Prop := l = LNext.
Lemma nobody_router : has_router nobody.
Proof. intros c. exists (fun _ _ => LNext). intros h q. reflexivity. Qed.

(** C70 as stated without regard to events is false of this server.  Peer 1 sends a request and does not hang up.  But
    while a handler has connection 0 (or it waits in the queue), its peer hangs up; connection 0 is removed, connection 1
    gets its token; a second event about socket 0 then removes connection 1 and closes its socket.  The request is never
    answered, whatever happens later. *)
Theorem C70_hangup_elsewhere_refuted : exists ls st, frun true nobody (f_init 1) ls st /\ accepted_here 1 ls /\ never_hung_up 1 ls /\
  received 1 (wparts ls) = map IByte (write_request get_root) /\
  forall ls' st', frun true nobody st ls' st' ->
    ~ connected 1 st' /\ exists x, nth_error (ws_conns (f_w st')) 1 = Some x /\ wc_slot x = WHere (conn_new []) /\ wc_log x = [].
Proof.
  pose proof (frun_nil true nobody (f_init 1)) as Rn.
  fgo Rn ltac:(fpoll [EvListener]).
  fgo Rn ltac:(fmain Listening ltac:(apply step_listen; reflexivity)).
  fgo Rn ltac:(faccept 0).
  fgo Rn ltac:(fmain Blocked ltac:(apply step_blocked; reflexivity)).
  fgo Rn ltac:(farrive 0 part1).
  fgo Rn ltac:(fpoll [EvSocket 0 0 false]).
  fgo Rn ltac:(fready 0 (Some 0)).
  fgo Rn ltac:(fnotify 0).
  fgo Rn ltac:(fpoll [EvSocket 0 0 true]).
  fgo Rn ltac:(fclosed 0 (Some 0)).
  fgo Rn ltac:(fpoll [EvListener]).
  fgo Rn ltac:(fmain Listening ltac:(apply step_listen; reflexivity)).
  fgo Rn ltac:(faccept 1).
  fgo Rn ltac:(fmain Blocked ltac:(apply step_blocked; reflexivity)).
  fgo Rn ltac:(farrive 1 (write_request get_root)).
  fgo Rn ltac:(fnotify 0).
  fgo Rn ltac:(fpoll [EvSocket 0 0 true]).
  fgo Rn ltac:(fclosed 0 (Some 1)).
  do 2 eexists. split; [exact Rn|]. split; [unfold accepted_here; cbn [In]; intuition|].
  split; [intros r H; cbn [In] in H; intuition discriminate|]. split; [vm_compute; reflexivity|].
  intros ls' st' R'.
  destruct (forgotten_run true nobody _ _ _ 1 _ R' (finv_run true nobody 1 _ _ Rn)
    ltac:(split; [reflexivity|split; [cbn; intuition discriminate|split; [cbn; lia|intros [t H]; cbn in H; intuition discriminate]]]) eq_refl)
    as ((_ & _ & _ & H) & x & N & P & L).
  split; auto. exists x. auto.
Qed.
Print Assumptions C70_hangup_elsewhere_refuted.

(** A server with one worker.  Peer 0 connects and hangs up; peer 1 sends a request and is answered. *)
Example C70_event_loop_case : exists ls st x k, tidy true nobody (f_init 1) ls st /\ accepted_here 1 ls /\ never_hung_up 1 ls /\
  nth_error (ws_conns (f_w st)) 1 = Some x /\ calm_listeners nobody 1 /\
  Forall visit_fine (calls 1 (wparts ls)) /\ Forall visit_steady (calls 1 (wparts ls)) /\
  received 1 (wparts ls) = map IByte (List.concat (map write_request [get_root])) /\
  resting true nobody st /\ worker_left (f_w st) = true /\
  wc_slot x = WHere k /\ sk_sent (cn_sock k) = not_found /\ In (FP (Closed 0 (Some 0))) ls.
Proof.
  pose proof (tidy_nil true nobody (f_init 1)) as Rn.
  tgo Rn ltac:(fpoll [EvListener]).
  tgo Rn ltac:(fmain Listening ltac:(apply step_listen; reflexivity)).
  tgo Rn ltac:(faccept 0).
  tgo Rn ltac:(faccept 1).
  tgo Rn ltac:(fmain Blocked ltac:(apply step_blocked; reflexivity)).
  tgo Rn ltac:(fnotify 0).
  tgo Rn ltac:(eapply (fs_arrive _ _ _ 1 1 (map IByte (write_request get_root))); [cbn; auto|eapply ws_arrive; [reflexivity|reflexivity|discriminate|apply all_proper]]).
  tgo Rn ltac:(fpoll [EvSocket 0 0 true; EvSocket 1 1 false]).
  tgo Rn ltac:(fclosed 0 (Some 0)).
  tgo Rn ltac:(fready 1 (Some 1)).
  tgo Rn ltac:(eapply fs_work; [|eapply (ws_take _ _ _ 0 1); reflexivity]; reflexivity).
  tgo Rn ltac:(eapply fs_work; [|eapply (ws_enter _ _ _ 0 1 _ _ ample peer0); reflexivity]; reflexivity).
  tgo Rn ltac:(eapply fs_work; [|eapply (ws_read _ _ _ 0 1 _ _ _ _ _ (RData (write_request get_root)) []); [reflexivity|reflexivity|reflexivity|served|reflexivity]]; reflexivity).
  tgo Rn ltac:(eapply fs_work; [|eapply (ws_drain _ _ _ 0 1); [reflexivity|reflexivity|reflexivity|served|reflexivity]]; reflexivity).
  tgo Rn ltac:(eapply fs_end; [|eapply (ws_keep _ _ _ 0 1); [reflexivity|reflexivity|reflexivity|served]|eapply (step_finished _ 1 false); cbn; auto]; reflexivity).
  assert (V : visit_fine ample) by (split; [apply Forall_forall; intros e H; apply repeat_spec in H; subst; exact I|constructor]).
  assert (Vs : visit_steady ample).
  { intros a b n E. exfalso. assert (K : In (WFail WouldBlock) (v_events ample)) by (rewrite E; apply in_or_app; right; now left).
    apply repeat_spec in K. discriminate. }
  do 4 eexists. split; [exact Rn|]. split; [unfold accepted_here; cbn [In]; intuition|].
  split; [intros r H; cbn [In] in H; intuition discriminate|]. split; [reflexivity|].
  split; [intros q l _ ->; discriminate|]. split; [repeat (constructor; auto)|]. split; [repeat (constructor; auto)|]. split; [reflexivity|].
  split; [|split; [reflexivity|split; [reflexivity|split; [reflexivity|cbn [In]; intuition]]]].
  intros l st' S'.
  match type of S' with fstep _ _ ?s _ _ =>
    assert (Qw : forall l w', wstep true nobody (f_w s) l w' -> outside l = true);
    [|assert (Qp : forall l p', pstep (f_p s) l p' -> l = Polled \/ exists d b, l = Finished d b)] end.
  - clear. intros l w' S. inversion S; subst; auto; cbn [f_w ws_conns ws_queue ws_workers] in *; exfalso;
      repeat match goal with
      | H : nth_error _ ?i = Some _ |- _ => is_var i; destruct i as [|i]; cbn [nth_error] in H; try discriminate; try (injection H as <-; cbn in *)
      end; try discriminate; try congruence.
  - clear. intros l p' S. inversion S; subst; try discriminate; eauto.
  - inversion S' as [? ? ? ? ? G S|? ? ? ? G S|? p' S F|? l0 p' M S|? c ok p' S|? c r p' S A|? l0 w' I S|? l0 d b w' p' E S S0]; subst; auto.
    + inversion S; subst. cbn [p_batch from_outside]. destruct evs as [|[|c t b] evs]; auto. exfalso.
      destruct (F c t b (or_introl eq_refl)) as (x & N & Ex). destruct c as [|[|c]]; cbn in N; [| |destruct c; discriminate]; injection N as <-; discriminate.
    + destruct (Qp _ _ S) as [-> |(d & b & ->)]; discriminate.
    + destruct (Qp _ _ S) as [H|(d & b & H)]; discriminate.
    + specialize (Qw _ _ S). destruct l0; discriminate.
    + specialize (Qw _ _ S). destruct l0; discriminate.
Qed.
