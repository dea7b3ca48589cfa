(** At every moment, also in a call of the handler, a peer has been sent a first part of the answers to its own requests, and
    of one 400 after them if it sent something else.  C113. *)
From Coq Require Import List Ascii String NArith Bool Arith Lia.
From Verif.Model Require Import Bytes Io Common Parse Encode Writer Server Slab Poll Handlers Whole Full.
From Verif.Spec Require Import Batch Stream Drive Numerals Grammar Wire Output Session Slots Traces Arrivals Events World Unicode Oversize Early Spoken.
From Verif.Proofs Require Import BytesFacts IoFacts ParseFacts BatchFacts GrammarFacts LimitGrammar EncodeFacts ServerFacts ConnFacts WholeFacts FullFacts UnwindFacts OversizeFacts EarlyFacts DriveFacts.
From Verif.Properties Require Import Streaming RoundTrip Limits Server Poll Handlers Whole Full Peers Failures Closing Reference LongLines Oversize Early.
Import ListNotations.

Lemma complete_front b v w x : batch_request b = Complete v (w ++ x) ->
  exists y, b = (y ++ w) ++ x /\ batch_request (y ++ w) = Complete v w.
Proof.
  intros E. pose proof E as E0. apply request_sound in E0 as (y & ps & -> & Sy & _). exists y. split; [apply app_assoc|].
  destruct (request_complete _ _ _ _ _ [] Sy) as (r & H & _). rewrite app_nil_r in H.
  pose proof (batch_request_complete_ext _ _ _ (w ++ x) H) as K. cbn [app] in K. rewrite E in K. inversion K; subst.
  exact (batch_request_complete_ext _ _ _ w H).
Qed.

Lemma faulty_next b v rest ended log : batch_request b = Complete v rest -> faulty rest ended log -> faulty b ended (v :: log).
Proof.
  intros E (w & x & e & -> & S & H). destruct (complete_front _ _ _ _ E) as (y & -> & K). exists (y ++ w), x, e.
  split; auto. split; auto. eapply session_next; eauto.
Qed.

Lemma faulty_more b x ended log : faulty b false log -> faulty (b ++ x) ended log.
Proof.
  intros (w & y & e & -> & S & H). exists w, (y ++ x), e. split; [now rewrite <- app_assoc|]. split; auto.
  destruct H as [H|(p & H & [K|(K & _)])]; [auto| |discriminate]. right. exists p. auto.
Qed.

Lemma served_says rt h b eof log out keep : served rt h b eof log out keep ->
  out = replies rt h log \/ keep = false /\ out = replies rt h log ++ bad_request /\ faulty b eof log.
Proof.
  induction 1 as [h b p E|h l Hl E|h b p E N S|h b eof e E|h b eof v rest E A|h b eof v rest log out keep E A S IH]; auto.
  - right. split; auto. split; auto. exists b, [], b. rewrite app_nil_r. split; auto.
    split; [apply session_end; intros v r K; congruence|]. right. exists p. split; auto.
  - right. split; auto. split; auto. exists b, [], b. rewrite app_nil_r. split; auto.
    split; [apply session_end; intros v r K; congruence|]. left. eauto.
  - left. cbn [replies]. now rewrite app_nil_r.
  - cbn [replies]. destruct IH as [-> |(-> & -> & F)]; [now left|right]. split; auto. split; [apply app_assoc|]. eapply faulty_next; eauto.
Qed.

Lemma too_big_says rt h b log out : too_big rt h b log out -> out = replies rt h log /\ faulty b false log.
Proof.
  induction 1 as [h b w x p -> Hp Hs|h b v rest log out E A S (-> & F)].
  - split; auto. exists w, x, w. split; auto. split; [apply session_end; intros v r K; congruence|]. right. eauto.
  - split; auto. eapply faulty_next; eauto.
Qed.

(** For every peer, every moment of every execution, and either build: the bytes that the peer's socket has taken are a
    first part of something sayable for the requests that were routed; and these are the first of its requests. *)
Theorem C113_always : forall dbg R size ls st c b (eof : bool) said log, has_router R ->
  frun dbg R (f_init size) ls st -> works_for R c (all_calls c ls st) ->
  whole_chars b -> received c (wparts ls) = map IByte b ++ (if eof then [IEnd] else []) ->
  shows dbg c (f_w st) said log ->
  first_of b log /\
  exists rt out later, (forall h q, R c q (rt h q)) /\ sayable rt b eof log out /\ out = said ++ later.
Proof.
  intros dbg R size ls st c b eof said log Tot Rn Wk F Rc Sh.
  destruct (C112_reference _ _ _ _ _ _ _ _ Tot Rn Sh) as (rt & s & sl & vs & rest & H1 & H2 & H3 & H4 & H5).
  assert (Wv : works_for R c vs).
  { destruct Wk as (Cl & V & S). split; auto. split; [rewrite Forall_forall in *; auto|]. destruct S as [S|S]; auto. left. rewrite Forall_forall in *; auto. }
  destruct (works_replies _ _ _ _ Wv H1) as [Np S]. destruct Wv as (_ & V & _). rewrite Rc in H2.
  assert (G : forall e s' st', any_size e s' -> visits dbg rt vs [] (Open (conn_new s')) = (log, st') -> said = slot_sent st' ->
    (exists b1, b = pending s' ++ b1 /\ (e = true -> b1 = [] /\ eof = true)) ->
    first_of b log /\ exists rt out later, (forall h q, R c q (rt h q)) /\ sayable rt b eof log out /\ out = said ++ later).
  { intros e s' st' A E -> (b1 & -> & He). pose proof (C106_connection dbg rt e s' _ _ _ Np A V S E) as K.
    assert (Up : faulty (pending s') e log -> faulty (pending s' ++ b1) eof log).
    { destruct e; [destruct (He eq_refl) as [-> ->]; now rewrite app_nil_r|apply faulty_more]. }
    assert (Un : faulty (pending s') false log -> faulty (pending s' ++ b1) eof log) by apply faulty_more.
    destruct st' as [k|sent|sent].
    - destruct K as (got & Eg & K & _). rewrite Eg, <- app_assoc. split; [apply first_of_more; eapply served_first; eauto|].
      exists rt, (output k), (unsent (cn_w k)). split; auto. split; [|reflexivity].
      destruct (served_says _ _ _ _ _ _ _ K) as [Ho|(Hk & _)]; [now left|discriminate].
    - destruct K as (out & K & (lost & Hl) & _). cbn [slot_sent]. split.
      + apply first_of_more. destruct K as [K|(o & K & _)]; [eapply served_first; eauto|eapply too_big_first; eauto].
      + exists rt, out, lost. split; auto. split; auto. destruct K as [K|(o & K & ->)].
        * destruct (served_says _ _ _ _ _ _ _ K) as [Ho|(_ & Ho & Hf)]; [now left|right; auto].
        * destruct (too_big_says _ _ _ _ _ K) as (-> & Hf). right. auto.
    - destruct K as (_ & out & K & lost & Hl). cbn [slot_sent]. split; [apply first_of_more; eapply too_big_first; eauto|].
      destruct (too_big_says _ _ _ _ _ K) as (-> & Hf). exists rt, (replies rt [] log), lost. split; auto. split; auto. now left. }
  assert (Part : forall b1, b = pending s ++ b1 -> live s -> ~ In (RErr Interrupted) s ->
    first_of b log /\ exists rt out later, (forall h q, R c q (rt h q)) /\ sayable rt b eof log out /\ out = said ++ later).
  { intros b1 Eb L I. eapply (G false); eauto; [apply (chars_any_size b); eauto using live_eof_false|]. exists b1. split; auto. discriminate. }
  destruct eof.
  2:{ rewrite app_nil_r in H2. apply items_bytes in H2 as (b1 & Eb & Er & L & I). eauto. }
  destruct (items_ended _ _ _ H2) as [(b' & Eb & Er & L & I)|(Er & s0 & s1 & -> & P & L & I & Z)]; eauto.
  assert (A : any_size true (s0 ++ [RData []])).
  { apply (chars_any_size b); auto.
    - exists s0. auto.
    - intros K. apply in_app_or in K as [K|[K|[]]]; [exact (I K)|discriminate].
    - exists []. rewrite LimitGrammar.pending_app. cbn [pending]. now rewrite !app_nil_r. }
  assert (Pb : exists b1, b = pending (s0 ++ [RData []]) ++ b1 /\ (true = true -> b1 = [] /\ true = true)).
  { exists []. rewrite LimitGrammar.pending_app. cbn [pending]. rewrite !app_nil_r. auto. }
  destruct (visits dbg rt vs [] (Open (conn_new (s0 ++ [RData []])))) as [log' st'] eqn:E.
  assert (El : log' = log /\ slot_sent st' = slot_sent sl).
  { destruct (no_items _ Z) as [-> |(m & ->)]; [rewrite H3 in E; inversion E; auto|].
    pose proof (visits_more_any m dbg rt _ Np _ _ [] _ _ (conn_new_fine _) holds_new (any_size_tame _ _ A) V S E) as E'.
    change (more m (conn_new (s0 ++ [RData []]))) with (conn_new ((s0 ++ [RData []]) ++ RErr WouldBlock :: m)) in E'.
    rewrite <- app_assoc in E'. cbn [app] in E'. rewrite H3 in E'. inversion E'. split; auto. destruct st'; reflexivity. }
  destruct El as [-> El]. eapply (G true); eauto. congruence.
Qed.
Print Assumptions C113_always.

(** Before a peer's first request is complete, or known to be wrong, it has been told nothing. *)
Theorem C113_silent : forall dbg R size ls st c b (eof : bool) said log, has_router R ->
  frun dbg R (f_init size) ls st -> works_for R c (all_calls c ls st) ->
  whole_chars b -> received c (wparts ls) = map IByte b ++ (if eof then [IEnd] else []) ->
  (forall v rest, batch_request b <> Complete v rest) -> ~ faulty b eof [] ->
  shows dbg c (f_w st) said log -> said = [] /\ log = [].
Proof.
  intros dbg R size ls st c b eof said log Tot Rn Wk F Rc N Fn Sh.
  destruct (C113_always _ _ _ _ _ _ _ _ _ _ Tot Rn Wk F Rc Sh) as ((rs & e & Fo) & rt & out & later & _ & Sy & Eo).
  assert (log = []) as ->.
  { destruct log as [|v log]; auto. exfalso. cbn [app] in Fo. inversion Fo; subst. eapply N; eauto. }
  split; auto. destruct Sy as [-> |(_ & K)]; [|contradiction]. cbn [replies] in Eo. symmetry in Eo. apply app_eq_nil in Eo as [-> _]. auto.
Qed.
Print Assumptions C113_silent.

(** ** Cases *)

(** In a call of a release build, which still runs: the peer's request has been answered, and the line that follows it, which is
    too long, has been refused. *)
Example C113_case : exists ls st said log, frun false nobody (f_init 1) ls st /\ works_for nobody 0 (all_calls 0 ls st) /\
  whole_chars long_sent /\ received 0 (wparts ls) = map IByte long_sent ++ [IEnd] /\
  shows false 0 (f_w st) said log /\ said = not_found ++ bad_request /\ List.length log = 1 /\
  exists i v rt got, nth_error (ws_workers (f_w st)) i = Some (WServe 0 v rt got).
Proof.
  pose proof (frun_nil false nobody (f_init 1)) as Rn.
  fgo Rn ltac:(fpoll [EvListener]).
  fgo Rn ltac:(fmain Listening ltac:(apply step_listen; reflexivity)).
  fgo Rn ltac:(faccept 0).
  fgo Rn ltac:(fmain Blocked ltac:(apply step_blocked; reflexivity)).
  fgo Rn ltac:(eapply (fs_arrive _ _ _ 0 0 (map IByte long_input ++ [IByte "b"%char; IEnd])); [cbn; auto|eapply ws_arrive;
    [reflexivity|reflexivity|discriminate|apply Forall_app; split; [apply all_proper|repeat constructor; discriminate]]]).
  fgo Rn ltac:(fpoll [EvSocket 0 0 false]).
  fgo Rn ltac:(fready 0 (Some 0)).
  fgo Rn ltac:(eapply fs_work; [|eapply (ws_take _ _ _ 0 0); reflexivity]; reflexivity).
  fgo Rn ltac:(eapply fs_work; [|eapply (ws_enter _ _ _ 0 0 _ _ ample peer0); reflexivity]; reflexivity).
  fgo Rn ltac:(eapply fs_work; [|eapply (ws_read _ _ _ 0 0 _ _ _ _ _ (RData long_input) [IByte "b"%char; IEnd]); [reflexivity|reflexivity|reflexivity|served|reflexivity]]; reflexivity).
  assert (V : visit_fine ample) by (split; [apply Forall_forall; intros e H; apply repeat_spec in H; subst; exact I|constructor]).
  assert (Vs : visit_steady ample).
  { intros a b n E. exfalso. assert (K : In (WFail WouldBlock) (v_events ample)) by (rewrite E; apply in_or_app; right; now left).
    apply repeat_spec in K. discriminate. }
  do 2 eexists. exists (not_found ++ bad_request). eexists. split; [exact Rn|].
  split; [split; [intros q l _ ->; discriminate|split; [repeat (constructor; auto)|left; repeat (constructor; auto)]]|].
  split; [apply C106_ascii, ascii_by; vm_compute; reflexivity|]. split; [reflexivity|].
  split; [eapply shows_as; [reflexivity|reflexivity|apply (eq_refl : nth_error [_] 0 = Some _)|served|reflexivity]|].
  split; [reflexivity|]. split; [reflexivity|]. exists 0. do 3 eexists. reflexivity.
Qed.

(** A request line that has not ended is not wrong. *)
Example C113_silent_case : (forall v rest, batch_request (lit "GET / HT") <> Complete v rest) /\ ~ faulty (lit "GET / HT") false [].
Proof.
  split; [intros v rest K; vm_compute in K; discriminate|].
  intros (w & x & e & E & S & H). inversion S as [b N|]; subst.
  assert (L : (List.length e <= 8)%nat) by (apply (f_equal (@List.length _)) in E; rewrite app_length in E; change (List.length (lit "GET / HT")) with 8 in E; lia).
  assert (Ee : e = firstn (List.length e) (lit "GET / HT")) by (rewrite E, firstn_app, firstn_all, Nat.sub_diag; cbn [firstn]; now rewrite app_nil_r).
  assert (Pe : exists n, e = firstn n (lit "GET / HT") /\ (n <= 8)%nat) by eauto. clear - Pe H. destruct Pe as (n & -> & L).
  assert (Ip : exists p, batch_request (firstn n (lit "GET / HT")) = Incomplete p /\ small p).
  { do 9 (destruct n as [|n]; [eexists; split; [vm_compute; reflexivity|vm_compute; auto]|]). lia. }
  destruct Ip as (p & Ep & Sp). destruct H as [(er & K)|(p' & K & [Q|(Q & _)])]; rewrite Ep in K; try discriminate.
  inversion K; subst. contradiction.
Qed.
