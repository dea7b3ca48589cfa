(** The server and the places where a line is cut by a pause: C90. *)
From Coq Require Import List Ascii String NArith Bool Arith Lia.
From Verif.Model Require Import Bytes Io Common Parse Encode Writer Server Slab Poll Handlers Whole Full.
From Verif.Spec Require Import Batch Stream Drive Numerals Grammar Wire Output Session Slots Traces Arrivals Events World Unicode.
From Verif.Proofs Require Import BytesFacts HandlersFacts WholeFacts FullFacts.
From Verif.Properties Require Import Streaming RoundTrip Server Poll Handlers Whole Full Peers Failures Closing Reference.
Import ListNotations.

(** A correct request with the header "[C3 A9]host". *)
Definition start : bytes := lit "GET / HTTP/1.1" ++ crlf ++ ["195"%char].
Definition middle : bytes := ["169"%char].
Definition finish : bytes := lit "host: evil" ++ crlf ++ crlf.
Definition accented : bytes := start ++ middle ++ finish.

(** Without [fair], which of the lines asks for ASCII: two peers of one server, without a panic or a failing socket, have
    sent the same correct request.  For the one it is routed as sent; the other's arrived with pauses, and a request with
    another header is routed for it. *)
Theorem C90_any_text_refuted : exists ls st r r', frun true nobody (f_init 1) ls st /\ resting true nobody st /\ worker_left (f_w st) = true /\
  (forall c, c < 2 -> accepted_here c ls /\ never_removed c ls /\ works_for nobody c (calls c (wparts ls)) /\ received c (wparts ls) = map IByte accented) /\
  batch_request accented = Complete r [] /\ routed 0 st = [r] /\ routed 1 st = [r'] /\
  hm_get (header_from (lit "host")) (rq_headers r) = None /\ hm_get (header_from (lit "host")) (rq_headers r') = Some [lit "evil"].
Proof.
  pose proof (frun_nil true nobody (f_init 1)) as Rn.
  fgo Rn ltac:(fpoll [EvListener]).
  fgo Rn ltac:(fmain Listening ltac:(apply step_listen; reflexivity)).
  fgo Rn ltac:(faccept 0).
  fgo Rn ltac:(faccept 1).
  fgo Rn ltac:(fmain Blocked ltac:(apply step_blocked; reflexivity)).
  fgo Rn ltac:(farrive 0 accented).
  fgo Rn ltac:(eapply (fs_arrive _ _ _ 1 1 (map IByte start)); [cbn; auto|eapply ws_arrive; [reflexivity|reflexivity|discriminate|apply all_proper]]).
  fgo Rn ltac:(fpoll [EvSocket 0 0 false; EvSocket 1 1 false]).
  fgo Rn ltac:(fready 0 (Some 0)).
  fgo Rn ltac:(fready 1 (Some 1)).
  fgo Rn ltac:(eapply fs_work; [|eapply (ws_take _ _ _ 0 0); reflexivity]; reflexivity).
  fgo Rn ltac:(eapply fs_work; [|eapply (ws_enter _ _ _ 0 0 _ _ ample peer0); reflexivity]; reflexivity).
  fgo Rn ltac:(eapply fs_work; [|eapply (ws_read _ _ _ 0 0 _ _ _ _ _ (RData accented) []); [reflexivity|reflexivity|reflexivity|served|reflexivity]]; reflexivity).
  fgo Rn ltac:(eapply fs_work; [|eapply (ws_drain _ _ _ 0 0); [reflexivity|reflexivity|reflexivity|served|reflexivity]]; reflexivity).
  fgo Rn ltac:(eapply fs_end; [|eapply (ws_keep _ _ _ 0 0); [reflexivity|reflexivity|reflexivity|served]|eapply (step_finished _ 0 false); cbn; auto]; reflexivity).
  fgo Rn ltac:(eapply fs_work; [|eapply (ws_take _ _ _ 0 1); reflexivity]; reflexivity).
  fgo Rn ltac:(eapply fs_work; [|eapply (ws_enter _ _ _ 0 1 _ _ ample peer0); reflexivity]; reflexivity).
  fgo Rn ltac:(eapply fs_work; [|eapply (ws_read _ _ _ 0 1 _ _ _ _ _ (RData start) []); [reflexivity|reflexivity|reflexivity|served|reflexivity]]; reflexivity).
  fgo Rn ltac:(eapply fs_work; [|eapply (ws_drain _ _ _ 0 1); [reflexivity|reflexivity|reflexivity|served|reflexivity]]; reflexivity).
  fgo Rn ltac:(eapply fs_end; [|eapply (ws_keep _ _ _ 0 1); [reflexivity|reflexivity|reflexivity|served]|eapply (step_finished _ 1 false); cbn; auto]; reflexivity).
  fgo Rn ltac:(eapply (fs_arrive _ _ _ 1 1 (map IByte middle)); [cbn; auto|eapply ws_arrive; [reflexivity|reflexivity|discriminate|apply all_proper]]).
  fgo Rn ltac:(fpoll [EvSocket 1 1 false]).
  fgo Rn ltac:(fready 1 (Some 1)).
  fgo Rn ltac:(eapply fs_work; [|eapply (ws_take _ _ _ 0 1); reflexivity]; reflexivity).
  fgo Rn ltac:(eapply fs_work; [|eapply (ws_enter _ _ _ 0 1 _ _ ample peer0); reflexivity]; reflexivity).
  fgo Rn ltac:(eapply fs_work; [|eapply (ws_read _ _ _ 0 1 _ _ _ _ _ (RData middle) []); [reflexivity|reflexivity|reflexivity|served|reflexivity]]; reflexivity).
  fgo Rn ltac:(eapply fs_work; [|eapply (ws_drain _ _ _ 0 1); [reflexivity|reflexivity|reflexivity|served|reflexivity]]; reflexivity).
  fgo Rn ltac:(eapply fs_end; [|eapply (ws_keep _ _ _ 0 1); [reflexivity|reflexivity|reflexivity|served]|eapply (step_finished _ 1 false); cbn; auto]; reflexivity).
  fgo Rn ltac:(eapply (fs_arrive _ _ _ 1 1 (map IByte finish)); [cbn; auto|eapply ws_arrive; [reflexivity|reflexivity|discriminate|apply all_proper]]).
  fgo Rn ltac:(fpoll [EvSocket 1 1 false]).
  fgo Rn ltac:(fready 1 (Some 1)).
  fgo Rn ltac:(eapply fs_work; [|eapply (ws_take _ _ _ 0 1); reflexivity]; reflexivity).
  fgo Rn ltac:(eapply fs_work; [|eapply (ws_enter _ _ _ 0 1 _ _ ample peer0); reflexivity]; reflexivity).
  fgo Rn ltac:(eapply fs_work; [|eapply (ws_read _ _ _ 0 1 _ _ _ _ _ (RData finish) []); [reflexivity|reflexivity|reflexivity|served|reflexivity]]; reflexivity).
  fgo Rn ltac:(eapply fs_work; [|eapply (ws_drain _ _ _ 0 1); [reflexivity|reflexivity|reflexivity|served|reflexivity]]; reflexivity).
  fgo Rn ltac:(eapply fs_end; [|eapply (ws_keep _ _ _ 0 1); [reflexivity|reflexivity|reflexivity|served]|eapply (step_finished _ 1 false); cbn; auto]; reflexivity).
  assert (V : visit_fine ample) by (split; [apply Forall_forall; intros e H; apply repeat_spec in H; subst; exact I|constructor]).
  assert (Vs : visit_steady ample).
  { intros a b n E. exfalso. assert (K : In (WFail WouldBlock) (v_events ample)) by (rewrite E; apply in_or_app; right; now left).
    apply repeat_spec in K. discriminate. }
  do 4 eexists. split; [exact Rn|]. split; [|split; [reflexivity|split; [|
    split; [vm_compute; reflexivity|split; [vm_compute; reflexivity|split; [vm_compute; reflexivity|split; vm_compute; reflexivity]]]]]].
  2:{ intros c H. assert (Hc : c = 0 \/ c = 1) by lia.
      destruct Hc as [-> | ->]; (split; [unfold accepted_here; cbn [In]; intuition|split; [intros r H'; cbn [In] in H'; intuition discriminate|]]);
        (split; [|vm_compute; reflexivity]);
        (split; [intros q l _ ->; discriminate|split; [repeat (constructor; auto)|left; repeat (constructor; auto)]]). }
  intros l st' S'.
  match type of S' with fstep _ _ ?s _ _ =>
    assert (Qw : forall l w', wstep true nobody (f_w s) l w' -> outside l = true);
    [|assert (Qp : forall l p', pstep (f_p s) l p' -> l = Polled \/ exists d b, l = Finished d b)] end.
  - clear. intros l w' S. inversion S; subst; auto; cbn [f_w ws_conns ws_queue ws_workers] in *; exfalso;
      repeat match goal with
      | H : nth_error _ ?i = Some _ |- _ => is_var i; destruct i as [|i]; cbn [nth_error] in H; try discriminate; try (injection H as <-; cbn in *)
      end; try discriminate; try congruence.
  - clear. intros l p' S. inversion S; subst; try discriminate; eauto.
  - inversion S' as [? ? ? ? ? G S|? ? ? ? G S|? p' S F|? l0 p' M S|? c ok p' S|? c r p' S A|? l0 w' I S|? l0 d b w' p' E S S0]; subst; auto.
    + inversion S; subst. cbn [p_batch from_outside]. destruct evs as [|[|c t b] evs]; auto. exfalso.
      destruct (F c t b (or_introl eq_refl)) as (x & N & Ex). destruct c as [|[|c]]; cbn in N; [| |destruct c; discriminate]; injection N as <-; discriminate.
    + destruct (Qp _ _ S) as [-> |(d & b & ->)]; discriminate.
    + destruct (Qp _ _ S) as [H|(d & b & H)]; discriminate.
    + specialize (Qw _ _ S). destruct l0; discriminate.
    + specialize (Qw _ _ S). destruct l0; discriminate.
Qed.
Print Assumptions C90_any_text_refuted.
