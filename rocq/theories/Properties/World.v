(** Any number of clients of the whole server: C72. *)
From Coq Require Import List Ascii String NArith Bool Arith Lia.
From Verif.Model Require Import Bytes Io Common Parse Encode Writer Server Client Slab Poll Whole Full.
From Verif.Spec Require Import Batch Stream Drive Numerals Grammar Wire Output Session Exchange Dialogue Arrivals Events World.
From Verif.Proofs Require Import BytesFacts IoFacts LimitGrammar EncodeFacts ClientFacts WholeFacts FullFacts WorldFacts.
From Verif.Properties Require Import Streaming RoundTrip Server Client Poll Handlers Whole Full.
Import ListNotations.

(** The two halves of a send in a history are one call of the model's send (Model/Client.v). *)
Theorem C72_halves : forall dbg s q s1 inp r i, put_request s q = (WOk tt, s1) -> resp_parse dbg resp_new (cs_in s1 ++ inp) = (r, i) ->
  send_request dbg (hears s inp) q = (result_of r, mk_cstream i (cs_held s1) (cs_sock s1)).
Proof.
  intros dbg s q s1 inp r i P E. unfold send_request, put_request, hears in *. cbn [cs_held cs_sock cs_in].
  destruct (put_pieces (cs_held s) (cs_sock s) (request_pieces q)) as [[rw b1] k1]. inversion P; subst. cbn [cs_held cs_sock cs_in] in *. rewrite E. now destruct r.
Qed.
Print Assumptions C72_halves.

Lemma Forall2_firsts {A B} (P : A -> B -> Prop) a1 : forall a2 b c d, Forall2 P (a1 ++ a2) b -> b ++ d = c -> List.length a1 <= List.length c ->
  Forall2 P a1 (firstn (List.length a1) c).
Proof.
  induction a1 as [|x a1 IH]; intros a2 b c d F E L; cbn [List.length firstn]; [constructor|].
  cbn [app] in F. inversion F as [|? y ? b' H1 H2]; subst. cbn [app] in *. constructor; auto. eapply IH; eauto. cbn in L. lia.
Qed.

Lemma answered_length rt h log rs : answered rt h log rs -> List.length log = List.length rs.
Proof. induction 1; cbn; auto. Qed.

(** Whatever the server's other peers do and however its threads and the networks are scheduled: the results of a
    client's sends are, in order, the answers of its own listeners to its own requests, whole and unchanged; only the last may be a
    failure instead.  So no client ever gets a wrong response, or one meant for another, or a part of one. *)
Theorem C72_right : forall dbg R client size socks ls w c p, has_router R ->
  history dbg R client (world_init size socks) ls w -> client c = true -> p = wo_peer w c -> readable_answers R c (asked p) ->
  Forall visit_fine (calls c (wparts ls)) -> Forall visit_steady (calls c (wparts ls)) \/ short_listeners R c ->
  Forall plain_request (asked p) -> (forall q, In q (asked p) -> ~ asks_close q) ->
  exists rt ok bad log1 log2, (forall h q, R c q (rt h q)) /\ pe_done p = ok ++ bad /\ routed c (wo_server w) = log1 ++ log2 /\
    Forall2 same_request log1 (map fst ok) /\ answered rt [] log1 (map snd ok) /\
    (bad = [] \/ exists q e, bad = [(q, e)] /\ failure e).
Proof.
  intros dbg R client size socks ls w c p Tot H Cl -> Ok V Sh F A.
  destruct (pinv_history dbg R client size socks ls w c Tot Cl H (conj Ok (conj V (conj Sh (conj F A)))))
    as (ok & bad & rs & rest & b & more & D & M & Hh & Hg & Hb & (d & G) & Rc & E).
  destruct (server_side dbg R size ls _ c _ b _ Tot (history_run _ _ _ _ _ _ _ H) Ok V Sh F A Rc E) as (rt & rs1 & rs2 & y & H1 & H2 & H3 & H4).
  assert (Of : out_of (asked (wo_peer w c)) (routed c (wo_server w))) by (rewrite H2; now apply out_of_first).
  rewrite G, <- app_assoc in H4. destruct (heard_answers R c rt _ Ok H1 _ _ _ Hh _ _ _ Of H4) as (log1 & log2 & El & An & _).
  exists rt, ok, bad, log1, log2. split; auto. split; auto. split; auto. rewrite M. split; [|split; auto].
  - assert (Len : List.length log1 = List.length (map fst ok)).
    { rewrite (answered_length _ _ _ _ An), <- M, !map_length. reflexivity. }
    rewrite El in H3. symmetry in H2. unfold asked in H2. rewrite D, map_app, <- app_assoc in H2.
    assert (K : Forall2 same_request log1 (firstn (List.length log1) (map fst ok ++ map fst bad ++ match pe_doing (wo_peer w c) with Some q => [q] | None => [] end))).
    { eapply Forall2_firsts; eauto. rewrite app_length. lia. }
    rewrite Len, firstn_app, Nat.sub_diag, firstn_all, app_nil_r in K. exact K.
  - destruct Hb as [Hb|(q & e & Hb & Hf & _)]; eauto.
Qed.
Print Assumptions C72_right.

(** Each response that a client got answers its request, and was made for it. *)
Theorem C72_own : forall dbg R client size socks ls w c p q r, has_router R ->
  history dbg R client (world_init size socks) ls w -> client c = true -> p = wo_peer w c -> readable_answers R c (asked p) ->
  Forall visit_fine (calls c (wparts ls)) -> Forall visit_steady (calls c (wparts ls)) \/ short_listeners R c ->
  Forall plain_request (asked p) -> (forall q, In q (asked p) -> ~ asks_close q) ->
  In (q, COk r) (pe_done p) -> exists v a, same_request v q /\ R c v (LSend a) /\ same_response r a.
Proof.
  intros dbg R client size socks ls w c p q r Tot H Cl Ep Ok V Sh F A I.
  destruct (C72_right dbg R client size socks ls w c p Tot H Cl Ep Ok V Sh F A) as (rt & ok & bad & log1 & log2 & H1 & H2 & _ & H3 & H4 & H5).
  rewrite H2 in I. apply in_app_or in I as [I|I].
  - clear H2 H5. revert H3 H4 I. generalize (@nil request) as h. revert ok. induction log1 as [|v log1 IH]; intros ok h H3 H4 I.
    + destruct ok; [destruct I|inversion H3].
    + destruct ok as [|[q0 e0] ok]; [inversion H3|]. cbn [map fst snd] in *.
      inversion H3 as [|? ? ? ? Sv F2]; subst. inversion H4 as [|? ? ? a r0 rs0 Ra Sa An]; subst. destruct I as [I|I].
      * inversion I; subst. exists v, a. split; auto. split; auto. rewrite <- Ra. apply H1.
      * eapply IH; eauto.
  - exfalso. destruct H5 as [-> |(q0 & e & -> & Fe)]; [destruct I|]. destruct I as [I|[]]. inversion I; subst.
    eapply failure_not_ok; eauto.
Qed.
Print Assumptions C72_own.

(** A client that waits for a response gets it: when the server has nothing more to do, has a worker left and has sent
    what it wrote, and the networks have delivered everything, reading succeeds. *)
Theorem C72_answered : forall dbg R client size socks ls w c p x q, has_router R ->
  history dbg R client (world_init size socks) ls w -> client c = true -> p = wo_peer w c -> readable_answers R c (asked p) ->
  Forall visit_fine (calls c (wparts ls)) -> Forall visit_steady (calls c (wparts ls)) \/ short_listeners R c ->
  Forall plain_request (asked p) -> (forall q, In q (asked p) -> ~ asks_close q) ->
  accepted_here c ls -> never_removed c ls -> nth_error (ws_conns (f_w (wo_server w))) c = Some x ->
  resting dbg R (wo_server w) -> worker_left (f_w (wo_server w)) = true -> flushed (as_slot (wc_slot x)) ->
  pe_doing p = Some q -> pe_out p = [] -> pe_heard p = sent_on c (wo_server w) ->
  exists r i v a, resp_parse dbg resp_new (cs_in (pe_stream p)) = (PDone r, i) /\
    same_request v q /\ R c v (LSend a) /\ same_response r a.
Proof.
  intros dbg R client size socks ls w c p x q Tot H Cl -> Ok V Sh F A Ac Nr N Rest Left Fl Dq Po Ph.
  destruct (pinv_history dbg R client size socks ls w c Tot Cl H (conj Ok (conj V (conj Sh (conj F A)))))
    as (ok & bad & rs & rest & b & more & D & M & Hh & Hg & Hb & G & Rc & E).
  assert (bad = []) as -> by (destruct Hb as [Hb|(q0 & e & _ & _ & K)]; [auto|congruence]).
  destruct (Hg eq_refl) as (-> & Sm & _ & ->). rewrite Po, !app_nil_r in E. rewrite app_nil_r in D. subst b.
  pose proof (history_run _ _ _ _ _ _ _ H) as Rn.
  assert (Calm : calm_listeners R c) by exact (proj1 Ok).
  destruct (C70_event_loop_answers dbg R size ls _ c x _ Tot Rn Ac Nr N Calm V Sh F A Rc Rest Left) as (Sr & k & rt & P & Rt & Out & _).
  assert (Sent : sent_on c (wo_server w) = replies rt [] (wc_log x)).
  { unfold sent_on. rewrite N, P. cbn [as_slot slot_sent]. rewrite P in Fl. cbn [as_slot flushed] in Fl. unfold output in Out. rewrite Fl, app_nil_r in Out. exact Out. }
  assert (Of : out_of (asked (wo_peer w c)) (wc_log x)) by (rewrite <- (app_nil_r (asked _)); now apply out_of_first).
  rewrite Ph, Sent in Hh. destruct (heard_answers R c rt _ Ok Rt _ _ _ Hh [] (wc_log x) [] Of) as (log1 & log2 & El & An & He); [apply app_nil_r|].
  rewrite app_nil_r in He. cbn [app] in He. unfold asked in Sr. rewrite Dq, D, El in Sr.
  assert (Len : List.length log1 = List.length (map fst ok)) by (rewrite (answered_length _ _ _ _ An), <- M, !map_length; reflexivity).
  apply Forall2_app_inv_l in Sr as (m1 & m2 & S1 & S2 & Em).
  assert (m2 = [q]) as ->.
  { assert (L1 : List.length m1 = List.length (map fst ok)) by (rewrite <- Len; symmetry; clear - S1; induction S1; cbn; auto).
    clear - Em L1. revert m1 Em L1. induction (map fst ok) as [|y l IH]; intros [|z m1] Em L1; try discriminate; cbn [app] in Em; [auto|].
    inversion Em; subst. apply (IH m1); auto. }
  inversion S2 as [|v ? l2 ? Sv S2']; subst. inversion S2'; subst. cbn [replies] in He. rewrite app_nil_r in He.
  assert (Iq : In q (asked (wo_peer w c))) by (unfold asked; rewrite Dq; apply in_or_app; right; now left).
  destruct (proj2 Ok _ _ _ Iq Sv (Rt log1 v)) as (a & Ha & Oka). rewrite Ha in He. cbn [reply] in He.
  destruct (resp_parse dbg resp_new (cs_in (pe_stream (wo_peer w c)))) as [r i] eqn:Er.
  destruct (client_reads dbg _ _ [a] [] r i Sm (Forall_cons _ Oka (Forall_nil _))) as [(r' & a' & l' & -> & K & Sa & _)|[_ Bad]]; auto.
  - rewrite He. reflexivity.
  - inversion K; subst. exists r', i, v, a'. split; auto. split; auto. split; auto. rewrite <- Ha. apply Rt.
  - exfalso. destruct Oka as (G1 & G2 & G3). destruct (response_reads_back a [] G1 G2 G3) as (a' & Hr & _). rewrite app_nil_r, <- He in Hr. eapply Bad; eauto.
Qed.
Print Assumptions C72_answered.

(** ** A case *)

(** Two clients and one worker.  Both clients ask for "/"; client 0 has got its response, client 1's has arrived. *)
Definition greeting (c : nat) : response := response_of_body (if c =? 0 then lit "zero" else lit "one").
Definition greets (c : nat) (q : request) (l : lresult) : Prop := l = LSend (greeting c).
Definition greeter (c : nat) : router := fun _ _ => LSend (greeting c).
Definition two_clients (c : nat) : bool := c <? 2.
Definition willing (c : nat) : sock := mk_sock (repeat (WTake 100) 4) [] [].

Lemma greets_router : has_router greets.
Proof. intros c. exists (greeter c). intros h q. reflexivity. Qed.
Lemma always_readable_answers R c qs : always_readable R c -> readable_answers R c qs.
Proof. intros H. split; [intros q l _ K ->; destruct (H _ _ K) as (a & K' & _); discriminate|intros q v l _ _ K; exact (H _ _ K)]. Qed.
Lemma greets_readable c : always_readable greets c.
Proof. intros q l ->. exists (greeting c). split; auto. apply ok_body. unfold greeting. destruct (c =? 0); vm_compute; discriminate. Qed.

Ltac hgo Rn tac := eapply history_step in Rn; [|tac];
  cbv [f_init f_w f_p wupd wput set_nth ws_conns ws_queue ws_workers wc_sock wc_event wc_slot wc_log app repeat wc_new polled
       flat_map socket_of fold_left clear_event nth_error with_event add_conn enqueue world_init wo_server wo_peer with_peer
       hears pe_stream pe_doing pe_out pe_heard pe_ended pe_done cs_in cs_held cs_sock new_peer
       p_batch p_slab p_next p_reg p_jobs p_listening poll_init slab_new] in Rn.
Ltac hsrv Rn tac := hgo Rn ltac:(eapply hp_server; [cbn [wo_server]; tac|discriminate]).
Ltac hsend c q := eapply (hp_send _ _ _ _ c _ q _ (write_request q)); [reflexivity|vm_compute; reflexivity|reflexivity|constructor|vm_compute; reflexivity|vm_compute; reflexivity].
Ltac harrive c t b := eapply (hp_arrive _ _ _ _ c _ b []); [reflexivity|vm_compute; reflexivity|vm_compute; reflexivity|
  eapply (fs_arrive _ _ _ c t (map IByte b)); [cbn; auto|eapply ws_arrive; [reflexivity|reflexivity|discriminate|apply all_proper]]].
Ltac hhear c b r := eapply (hp_hear _ _ _ _ c _ b r); [reflexivity|vm_compute; reflexivity|reflexivity|discriminate|vm_compute; reflexivity].

Definition greet1 : bytes := Eval vm_compute in firstn 20 (write_response (greeting 0)).
Definition greet2 : bytes := Eval vm_compute in skipn 20 (write_response (greeting 0)).

Example C72_case : exists ls w x q r, history true greets two_clients (world_init 1 willing) ls w /\
  (forall c, Forall visit_fine (calls c (wparts ls)) /\ Forall visit_steady (calls c (wparts ls))) /\
  (forall c, c < 2 -> Forall plain_request (asked (wo_peer w c)) /\ forall q, In q (asked (wo_peer w c)) -> ~ asks_close q) /\
  accepted_here 1 ls /\ never_removed 1 ls /\ nth_error (ws_conns (f_w (wo_server w))) 1 = Some x /\
  resting true greets (wo_server w) /\ worker_left (f_w (wo_server w)) = true /\ flushed (as_slot (wc_slot x)) /\
  pe_done (wo_peer w 0) = [(q, COk r)] /\ rs_body r = lit "zero" /\
  pe_doing (wo_peer w 1) = Some q /\ pe_out (wo_peer w 1) = [] /\ pe_heard (wo_peer w 1) = sent_on 1 (wo_server w).
Proof.
  pose proof (history_nil true greets two_clients (world_init 1 willing)) as Rn.
  hsrv Rn ltac:(fpoll [EvListener]).
  hsrv Rn ltac:(fmain Listening ltac:(apply step_listen; reflexivity)).
  hsrv Rn ltac:(faccept 0).
  hsrv Rn ltac:(faccept 1).
  hsrv Rn ltac:(fmain Blocked ltac:(apply step_blocked; reflexivity)).
  hgo Rn ltac:(hsend 0 get_root).
  hgo Rn ltac:(hsend 1 get_root).
  hgo Rn ltac:(harrive 1 1 (write_request get_root)).
  hgo Rn ltac:(harrive 0 0 (write_request get_root)).
  hsrv Rn ltac:(fpoll [EvSocket 0 0 false; EvSocket 1 1 false]).
  hsrv Rn ltac:(fready 0 (Some 0)).
  hsrv Rn ltac:(fready 1 (Some 1)).
  hsrv Rn ltac:(eapply fs_work; [|eapply (ws_take _ _ _ 0 0); reflexivity]; reflexivity).
  hsrv Rn ltac:(eapply fs_work; [|eapply (ws_enter _ _ _ 0 0 _ _ ample (greeter 0)); reflexivity]; reflexivity).
  hsrv Rn ltac:(eapply fs_work; [|eapply (ws_read _ _ _ 0 0 _ _ _ _ _ (RData (write_request get_root)) []); [reflexivity|reflexivity|reflexivity|served|reflexivity]]; reflexivity).
  hsrv Rn ltac:(eapply fs_work; [|eapply (ws_drain _ _ _ 0 0); [reflexivity|reflexivity|reflexivity|served|reflexivity]]; reflexivity).
  hsrv Rn ltac:(eapply fs_end; [|eapply (ws_keep _ _ _ 0 0); [reflexivity|reflexivity|reflexivity|served]|eapply (step_finished _ 0 false); cbn; auto]; reflexivity).
  hsrv Rn ltac:(eapply fs_work; [|eapply (ws_take _ _ _ 0 1); reflexivity]; reflexivity).
  hsrv Rn ltac:(eapply fs_work; [|eapply (ws_enter _ _ _ 0 1 _ _ ample (greeter 1)); reflexivity]; reflexivity).
  hsrv Rn ltac:(eapply fs_work; [|eapply (ws_read _ _ _ 0 1 _ _ _ _ _ (RData (write_request get_root)) []); [reflexivity|reflexivity|reflexivity|served|reflexivity]]; reflexivity).
  hsrv Rn ltac:(eapply fs_work; [|eapply (ws_drain _ _ _ 0 1); [reflexivity|reflexivity|reflexivity|served|reflexivity]]; reflexivity).
  hsrv Rn ltac:(eapply fs_end; [|eapply (ws_keep _ _ _ 0 1); [reflexivity|reflexivity|reflexivity|served]|eapply (step_finished _ 1 false); cbn; auto]; reflexivity).
  hgo Rn ltac:(hhear 0 greet1 greet2).
  hgo Rn ltac:(hhear 1 (write_response (greeting 1)) (@nil byte)).
  hgo Rn ltac:(hhear 0 greet2 (@nil byte)).
  hgo Rn ltac:(eapply (hp_return _ _ _ _ 0); [reflexivity|vm_compute; reflexivity|reflexivity|vm_compute; reflexivity]).
  assert (V : visit_fine ample) by (split; [apply Forall_forall; intros e H; apply repeat_spec in H; subst; exact Logic.I|constructor]).
  assert (Vs : visit_steady ample).
  { intros a b n E. exfalso. assert (K : In (WFail WouldBlock) (v_events ample)) by (rewrite E; apply in_or_app; right; now left).
    apply repeat_spec in K. discriminate. }
  do 5 eexists. split; [exact Rn|]. split.
  { intros [|[|c]]; split; repeat (constructor; auto). }
  split.
  { intros [|[|c]] L; [| |lia]; (split; [repeat (constructor; [exact (proj1 get_root_plain)|]); constructor|
      intros q [<- |[]]; exact (proj1 (proj2 get_root_plain))]). }
  split; [unfold accepted_here; cbn [In app]; intuition|].
  split; [intros c' K; cbn [In app] in K; intuition discriminate|]. split; [reflexivity|].
  split; [|repeat split; vm_compute; reflexivity].
  intros l st' S'. cbn [wo_server] in S'.
  match type of S' with fstep _ _ ?s _ _ =>
    assert (Qw : forall l w', wstep true greets (f_w s) l w' -> outside l = true);
    [|assert (Qp : forall l p', pstep (f_p s) l p' -> l = Polled \/ exists d b, l = Finished d b)] end.
  - clear. intros l w' S. inversion S; subst; auto; cbn [f_w ws_conns ws_queue ws_workers] in *; exfalso;
      repeat match goal with
      | H : nth_error _ ?i = Some _ |- _ => is_var i; destruct i as [|i]; cbn [nth_error] in H; try discriminate; try (injection H as <-; cbn in *)
      end; try discriminate; try congruence.
  - clear. intros l p' S. inversion S; subst; try discriminate; eauto.
  - inversion S' as [? ? ? ? ? G S|? ? ? ? G S|? p' S F|? l0 p' M S|? c ok p' S|? c r p' S A|? l0 w' I S|? l0 d b w' p' E S S0]; subst; auto.
    + inversion S; subst. cbn [p_batch from_outside]. destruct evs as [|[|c t b] evs]; auto. exfalso.
      destruct (F c t b (or_introl eq_refl)) as (x & N & Ex). destruct c as [|[|c]]; cbn in N; [| |destruct c; discriminate]; injection N as <-; discriminate.
    + destruct (Qp _ _ S) as [-> |(d & b & ->)]; discriminate.
    + destruct (Qp _ _ S) as [H|(d & b & H)]; discriminate.
    + specialize (Qw _ _ S). destruct l0; discriminate.
    + specialize (Qw _ _ S). destruct l0; discriminate.
Qed.
