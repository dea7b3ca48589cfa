(** Clients that hear the server's bytes while the handler is still at work: C112. *)
From Coq Require Import List Ascii String NArith Bool Arith Lia.
From Verif.Model Require Import Bytes Io Common Parse Encode Writer Server Client Slab Poll Whole Full.
From Verif.Spec Require Import Batch Stream Drive Numerals Grammar Wire Output Session Exchange Dialogue Arrivals Events World Early.
From Verif.Proofs Require Import BytesFacts IoFacts LimitGrammar EncodeFacts ClientFacts WholeFacts FullFacts WorldFacts ConnFacts FrameFacts EarlyFacts.
From Verif.Properties Require Import Streaming RoundTrip Server Client Poll Handlers Whole Full World.
Import ListNotations.

(** At every moment of every execution, also inside a call, the bytes that a connection's socket has taken and the
    requests routed for it are determined ... *)
Theorem C112_determined : forall dbg R size ls st c, has_router R -> frun dbg R (f_init size) ls st ->
  exists b log, shows dbg c (f_w st) b log /\ forall b' log', shows dbg c (f_w st) b' log' -> b' = b /\ log' = log.
Proof.
  intros dbg R size ls st c Tot Rn. destruct (shows_exists _ _ _ _ _ c Tot Rn) as (b & log & S). exists b, log. split; auto.
  intros b' log' S'. exact (shows_one _ _ _ _ _ _ _ _ _ _ Tot Rn S' S).
Qed.
Print Assumptions C112_determined.

(** ... and only grow: nothing that a call reads later changes what it did before. *)
Theorem C112_grows : forall dbg R size ls st c, has_router R -> frun dbg R (f_init size) ls st -> forall ls' st', frun dbg R st ls' st' ->
  forall b log b' log', shows dbg c (f_w st) b log -> shows dbg c (f_w st') b' log' -> exists d e, b' = b ++ d /\ log' = log ++ e.
Proof.
  intros dbg R size ls st c Tot Rn ls' st' R'. induction R' as [st|st ls' st1 l st2 R' IH S]; intros b log b' log' S1 S2.
  - destruct (shows_one _ _ _ _ _ _ _ _ _ _ Tot Rn S1 S2) as [-> ->]. exists [], []. now rewrite !app_nil_r.
  - assert (Rn' : frun dbg R (f_init size) (ls' ++ ls) st1) by (eapply frun_app; eauto).
    destruct (shows_exists _ _ _ _ _ c Tot Rn') as (b1 & log1 & S3). destruct (IH Rn _ _ _ _ S1 S3) as (d & e & -> & ->).
    destruct (fstep_further _ _ _ _ _ _ _ _ _ _ _ _ Tot Rn' S S3 S2) as [(d' & ->) (e' & ->)]. exists (d ++ d'), (e ++ e'). now rewrite !app_assoc.
Qed.
Print Assumptions C112_grows.

(** At every moment a connection shows what a server with this connection only would have sent and routed, for the bytes
    that were read of it (Model/Server.v), whatever its peer sent. *)
Theorem C112_reference : forall dbg R size ls st c b log, has_router R -> frun dbg R (f_init size) ls st -> shows dbg c (f_w st) b log ->
  exists rt s sl vs rest, (forall h q, R c q (rt h q)) /\ received c (wparts ls) = items s ++ rest /\
    visits dbg rt vs [] (Open (conn_new s)) = (log, sl) /\ b = slot_sent sl /\ (forall v, In v vs -> In v (all_calls c ls st)).
Proof. exact shows_story. Qed.
Print Assumptions C112_reference.

(** As C72, for clients that hear bytes, and send their next requests, while the call that answers them still runs: the
    results of a client's sends are, in order, the answers of its own listeners to its own requests; only the last may be
    a failure instead. *)
Theorem C112_right : forall dbg R client size socks ls w c p sent log, has_router R ->
  early_history dbg R client (world_init size socks) ls w -> client c = true -> p = wo_peer w c -> readable_answers R c (asked p) ->
  Forall visit_fine (all_calls c ls (wo_server w)) -> Forall visit_steady (all_calls c ls (wo_server w)) \/ short_listeners R c ->
  Forall plain_request (asked p) -> (forall q, In q (asked p) -> ~ asks_close q) -> shows dbg c (f_w (wo_server w)) sent log ->
  exists rt ok bad log1 log2, (forall h q, R c q (rt h q)) /\ pe_done p = ok ++ bad /\ log = log1 ++ log2 /\
    Forall2 same_request log1 (map fst ok) /\ answered rt [] log1 (map snd ok) /\
    (bad = [] \/ exists q e, bad = [(q, e)] /\ failure e).
Proof.
  intros dbg R client size socks ls w c p sent log Tot H Cl -> Ok V Sh F A Sn.
  destruct (epinv_history dbg R client size socks ls w c Tot Cl H (conj Ok (conj V (conj Sh (conj F A)))))
    as (ok & bad & rs & rest & b & more & D & M & Hh & Hg & Hb & G & Rc & E). destruct (G _ _ Sn) as (d & ->).
  destruct (early_server_side dbg R size ls _ c _ b _ _ _ Tot (early_run _ _ _ _ _ _ _ H) Sn Ok V Sh F A Rc E) as (rt & rs1 & rs2 & y & H1 & H2 & H3 & H4).
  assert (Of : out_of (asked (wo_peer w c)) log) by (rewrite H2; now apply out_of_first).
  rewrite <- app_assoc in H4. destruct (heard_answers R c rt _ Ok H1 _ _ _ Hh _ _ _ Of H4) as (log1 & log2 & El & An & _).
  exists rt, ok, bad, log1, log2. split; auto. split; auto. split; auto. rewrite M. split; [|split; auto].
  - assert (Len : List.length log1 = List.length (map fst ok)).
    { rewrite (answered_length _ _ _ _ An), <- M, !map_length. reflexivity. }
    rewrite El in H3. symmetry in H2. unfold asked in H2. rewrite D, map_app, <- app_assoc in H2.
    assert (K : Forall2 same_request log1 (firstn (List.length log1) (map fst ok ++ map fst bad ++ match pe_doing (wo_peer w c) with Some q => [q] | None => [] end))).
    { eapply Forall2_firsts; eauto. rewrite app_length. lia. }
    rewrite Len, firstn_app, Nat.sub_diag, firstn_all, app_nil_r in K. exact K.
  - destruct Hb as [Hb|(q & e & Hb & Hf & _)]; eauto.
Qed.
Print Assumptions C112_right.

(** At every moment the requests routed for a client's connection are the first of those that it asked, in order, each of
    them once, and all to which it has got a response are among them. *)
Theorem C112_once : forall dbg R client size socks ls w c p sent log, has_router R ->
  early_history dbg R client (world_init size socks) ls w -> client c = true -> p = wo_peer w c -> readable_answers R c (asked p) ->
  Forall visit_fine (all_calls c ls (wo_server w)) -> Forall visit_steady (all_calls c ls (wo_server w)) \/ short_listeners R c ->
  Forall plain_request (asked p) -> (forall q, In q (asked p) -> ~ asks_close q) -> shows dbg c (f_w (wo_server w)) sent log ->
  (exists rs1 rs2, asked p = rs1 ++ rs2 /\ Forall2 same_request log rs1) /\
  exists ok bad, pe_done p = ok ++ bad /\ (List.length ok <= List.length log)%nat /\
    (bad = [] \/ exists q e, bad = [(q, e)] /\ failure e).
Proof.
  intros dbg R client size socks ls w c p sent log Tot H Cl Ep Ok V Sh F A Sn. split.
  - subst p. destruct (epinv_history dbg R client size socks ls w c Tot Cl H (conj Ok (conj V (conj Sh (conj F A)))))
      as (ok & bad & rs & rest & b & more & D & M & Hh & Hg & Hb & G & Rc & E).
    destruct (early_server_side dbg R size ls _ c _ b _ _ _ Tot (early_run _ _ _ _ _ _ _ H) Sn Ok V Sh F A Rc E) as (rt & rs1 & rs2 & y & H1 & H2 & H3 & H4).
    eauto.
  - destruct (C112_right _ _ _ _ _ _ _ _ _ _ _ Tot H Cl Ep Ok V Sh F A Sn) as (rt & ok & bad & log1 & log2 & _ & H2 & -> & H3 & _ & H5).
    exists ok, bad. split; auto. split; auto. rewrite app_length.
    assert (L : List.length log1 = List.length (map fst ok)) by (clear - H3; induction H3; cbn; auto).
    rewrite map_length in L. lia.
Qed.
Print Assumptions C112_once.

(** Each response that a client got answers its request, and was made for it. *)
Theorem C112_own : forall dbg R client size socks ls w c p q r, has_router R ->
  early_history dbg R client (world_init size socks) ls w -> client c = true -> p = wo_peer w c -> readable_answers R c (asked p) ->
  Forall visit_fine (all_calls c ls (wo_server w)) -> Forall visit_steady (all_calls c ls (wo_server w)) \/ short_listeners R c ->
  Forall plain_request (asked p) -> (forall q, In q (asked p) -> ~ asks_close q) ->
  In (q, COk r) (pe_done p) -> exists v a, same_request v q /\ R c v (LSend a) /\ same_response r a.
Proof.
  intros dbg R client size socks ls w c p q r Tot H Cl Ep Ok V Sh F A I.
  destruct (shows_exists _ _ _ _ _ c Tot (early_run _ _ _ _ _ _ _ H)) as (sent & log & Sn).
  destruct (C112_right dbg R client size socks ls w c p _ _ Tot H Cl Ep Ok V Sh F A Sn) as (rt & ok & bad & log1 & log2 & H1 & H2 & _ & H3 & H4 & H5).
  rewrite H2 in I. apply in_app_or in I as [I|I].
  - clear H2 H5. revert H3 H4 I. generalize (@nil request) as h. revert ok. induction log1 as [|v log1 IH]; intros ok h H3 H4 I.
    + destruct ok; [destruct I|inversion H3].
    + destruct ok as [|[q0 e0] ok]; [inversion H3|]. cbn [map fst snd] in *.
      inversion H3 as [|? ? ? ? Sv F2]; subst. inversion H4 as [|? ? ? a r0 rs0 Ra Sa An]; subst. destruct I as [I|I].
      * inversion I; subst. exists v, a. split; auto. split; auto. rewrite <- Ra. apply H1.
      * eapply IH; eauto.
  - exfalso. destruct H5 as [-> |(q0 & e & -> & Fe)]; [destruct I|]. destruct I as [I|[]]. inversion I; subst.
    eapply failure_not_ok; eauto.
Qed.
Print Assumptions C112_own.

(** A client gets its response without the end of the call: when the call has read all that the client sent and its
    socket has taken all that it wrote, and the networks have delivered everything, reading succeeds -- though the worker
    may wait, for as long as it takes, for more. *)
Theorem C112_sooner : forall dbg R client size socks ls w c p x k i v rt0 got log k' q, has_router R ->
  early_history dbg R client (world_init size socks) ls w -> client c = true -> p = wo_peer w c -> readable_answers R c (asked p) ->
  Forall visit_fine (all_calls c ls (wo_server w)) -> Forall visit_steady (all_calls c ls (wo_server w)) \/ short_listeners R c ->
  Forall plain_request (asked p) -> (forall q, In q (asked p) -> ~ asks_close q) ->
  nth_error (ws_conns (f_w (wo_server w))) c = Some x -> wc_slot x = WTaken k -> wc_sock x = [] ->
  nth_error (ws_workers (f_w (wo_server w))) i = Some (WServe c v rt0 got) -> serve dbg rt0 v x k got = (log, Open k') ->
  flushed (Open k') -> pe_doing p = Some q -> pe_out p = [] -> pe_heard p = sk_sent (cn_sock k') ->
  exists r i v a, resp_parse dbg resp_new (cs_in (pe_stream p)) = (PDone r, i) /\
    same_request v q /\ R c v (LSend a) /\ same_response r a.
Proof.
  intros dbg R client size socks ls w c p x k i v rt0 got log k' q Tot H Cl -> Ok V Sh F A N P Es W E0 Fl Dq Po Ph.
  pose proof (early_run _ _ _ _ _ _ _ H) as Rn.
  assert (Sn : shows dbg c (f_w (wo_server w)) (sk_sent (cn_sock k')) log) by exact (shows_during _ _ _ _ _ _ _ _ _ _ _ N P (or_introl W) E0).
  destruct (epinv_history dbg R client size socks ls w c Tot Cl H (conj Ok (conj V (conj Sh (conj F A)))))
    as (ok & bad & rs & rest & b & more & D & M & Hh & Hg & Hb & G & Rc & E).
  assert (bad = []) as -> by (destruct Hb as [Hb|(q0 & e & _ & _ & K)]; [auto|congruence]).
  destruct (Hg eq_refl) as (-> & Sm & _ & ->). rewrite Po, !app_nil_r in E. rewrite app_nil_r in D. subst b.
  destruct (full_good _ _ _ _ _ _ _ Tot Rn N) as (L & Gd & Er & Ec). destruct (holder _ _ _ _ _ _ _ _ _ _ _ Gd P (or_introl W)) as (O & Hr & St).
  destruct (story_call _ _ _ _ _ _ _ _ _ _ _ St Hr O E0) as (rt & s & Rt & H2 & H3 & H4). specialize (H2 []). specialize (H4 _ eq_refl).
  rewrite app_nil_r in H2. rewrite Er, Rc, Es in H3. apply items_bytes in H3 as (b1 & Eb & Hb1 & Lv & I). symmetry in Hb1. apply map_eq_nil in Hb1. subst b1.
  rewrite app_nil_r in Eb. symmetry in Eb.
  assert (Od : orderly false s) by (eapply plain_orderly_part with (x := []); eauto; now rewrite app_nil_r).
  assert (Np : no_panic rt) by (intros h u U; exact (proj1 Ok u _ U (Rt h u))).
  assert (Sub : forall P : visit -> Prop, Forall P (all_calls c ls (wo_server w)) -> Forall P (calls c L ++ [v])).
  { intros Q. rewrite !Forall_forall. intros K u Iu. apply K. unfold all_calls. rewrite Ec in Iu. apply in_app_or in Iu as [Iu|[<- |[]]]; apply in_or_app; auto.
    right. apply in_flat_map. eexists. split; [eapply nth_error_In; exact W|]. cbn [in_call]. rewrite Nat.eqb_refl. now left. }
  assert (S : Forall visit_steady (calls c L ++ [v]) \/ short_replies rt).
  { destruct Sh as [Sh|Sh]; [left; auto|right]. intros h u r K. eapply Sh. rewrite <- K. apply Rt. }
  destruct (plain_session _ F) as (rs' & Q1 & Q2). rewrite <- Eb in Q2.
  assert (U : unasking rs').
  { clear - A Q1. induction Q1 as [|r' r rs' rs (_ & _ & Hm & _) H IH]; constructor; [|apply IH; intros; apply A; now right].
    intros (vs & G & K). apply (A r); [now left|]. exists vs. rewrite <- Hm. auto. }
  pose proof (session_served_wait rt _ _ _ Q2 U (ex_intro _ (InFirst []) eq_refl) []) as Ref.
  destruct (C26_responses dbg rt false s _ _ _ Np Od (Sub _ V) S H2) as [(c0 & got0 & K & Pg & Sv & _)|(sent & rest & K & Sv)]; [|discriminate].
  inversion K; subst c0. cbn [set_in cn_in pending] in Pg. rewrite app_nil_r in Pg. rewrite Pg in Ref.
  destruct (served_unique _ _ _ _ _ _ _ Sv _ _ _ Ref) as (El & O2 & _). rewrite <- El in O2, Q1. clear Ref Sv K Pg Q2 U.
  assert (Sent : sk_sent (cn_sock k') = replies rt [] log).
  { cbn [flushed] in Fl. unfold output in O2. cbn [set_in cn_sock cn_w] in O2. rewrite Fl, app_nil_r in O2. exact O2. }
  assert (Of : out_of (asked (wo_peer w c)) log) by (rewrite <- (app_nil_r (asked _)); now apply out_of_first).
  rewrite Ph, Sent in Hh. destruct (heard_answers R c rt _ Ok Rt _ _ _ Hh [] log [] Of) as (log1 & log2 & El2 & An & He); [apply app_nil_r|].
  rewrite app_nil_r in He. cbn [app] in He. rewrite El2 in Q1. unfold asked in Q1. rewrite Dq, D in Q1.
  assert (Len : List.length log1 = List.length (map fst ok)) by (rewrite (answered_length _ _ _ _ An), <- M, !map_length; reflexivity).
  apply Forall2_app_inv_l in Q1 as (m1 & m2 & S1 & S2 & Em).
  assert (m2 = [q]) as ->.
  { assert (L1 : List.length m1 = List.length (map fst ok)) by (rewrite <- Len; symmetry; clear - S1; induction S1; cbn; auto).
    clear - Em L1. revert m1 Em L1. induction (map fst ok) as [|y l IH]; intros [|z m1] Em L1; try discriminate; cbn [app] in Em; [auto|].
    inversion Em; subst. apply (IH m1); auto. }
  inversion S2 as [|u ? l2 ? Sv S2']; subst. inversion S2'; subst. cbn [replies] in He. rewrite app_nil_r in He.
  assert (Iq : In q (asked (wo_peer w c))) by (unfold asked; rewrite Dq; apply in_or_app; right; now left).
  destruct (proj2 Ok _ _ _ Iq Sv (Rt log1 u)) as (a & Ha & Oka). rewrite Ha in He. cbn [reply] in He.
  destruct (resp_parse dbg resp_new (cs_in (pe_stream (wo_peer w c)))) as [r j] eqn:Erp.
  destruct (client_reads dbg _ _ [a] [] r j Sm (Forall_cons _ Oka (Forall_nil _))) as [(r' & a' & l' & -> & K & Sa & _)|[_ Bad]]; auto.
  - rewrite He. reflexivity.
  - inversion K; subst. exists r', j, u, a'. split; auto. split; auto. split; auto. rewrite <- Ha. apply Rt.
  - exfalso. destruct Oka as (G1 & G2 & G3). destruct (response_reads_back a [] G1 G2 G3) as (a' & Hr' & _). rewrite app_nil_r, <- He in Hr'. eapply Bad; eauto.
Qed.
Print Assumptions C112_sooner.

(** ** A case *)

(** One client and one worker.  The client asks twice.  The call that reads the first request answers it, the client gets
    this response and sends its second request, and the same call, which did not end, reads and answers this, too: its
    response has arrived, and the call still runs. *)
Ltac ego Rn tac := eapply early_step in Rn; [|tac];
  cbv [f_init f_w f_p wupd wput set_nth ws_conns ws_queue ws_workers wc_sock wc_event wc_slot wc_log app repeat wc_new polled
       flat_map socket_of fold_left clear_event nth_error with_event add_conn enqueue world_init wo_server wo_peer with_peer
       hears pe_stream pe_doing pe_out pe_heard pe_ended pe_done cs_in cs_held cs_sock new_peer
       p_batch p_slab p_next p_reg p_jobs p_listening poll_init slab_new] in Rn.
Ltac ehist Rn tac := ego Rn ltac:(eapply he_as_before; tac).
Ltac esrv Rn tac := ehist Rn ltac:(eapply hp_server; [cbn [wo_server]; tac|discriminate]).
Lemma shows_as dbg c st x k i v rt got log s b : nth_error (ws_conns st) c = Some x -> wc_slot x = WTaken k ->
  nth_error (ws_workers st) i = Some (WServe c v rt got) -> serve dbg rt v x k got = (log, s) -> slot_sent s = b -> shows dbg c st b log.
Proof. intros N P W E <-. eapply shows_during; eauto. Qed.
Ltac ehear c b r := eapply (he_hear _ _ _ _ c _ b r); [reflexivity|vm_compute; reflexivity|reflexivity|discriminate|].

Example C112_case : exists ls w x k v rt got log k' q r, early_history true greets two_clients (world_init 1 willing) ls w /\
  Forall visit_fine (all_calls 0 ls (wo_server w)) /\ Forall visit_steady (all_calls 0 ls (wo_server w)) /\
  Forall plain_request (asked (wo_peer w 0)) /\ (forall q, In q (asked (wo_peer w 0)) -> ~ asks_close q) /\
  nth_error (ws_conns (f_w (wo_server w))) 0 = Some x /\ wc_slot x = WTaken k /\ wc_sock x = [] /\
  nth_error (ws_workers (f_w (wo_server w))) 0 = Some (WServe 0 v rt got) /\ List.length got = 2 /\
  serve true rt v x k got = (log, Open k') /\ List.length log = 2 /\ flushed (Open k') /\ calls 0 (wparts ls) = [] /\
  pe_done (wo_peer w 0) = [(q, COk r)] /\ rs_body r = lit "zero" /\
  pe_doing (wo_peer w 0) = Some q /\ pe_out (wo_peer w 0) = [] /\ pe_heard (wo_peer w 0) = sk_sent (cn_sock k').
Proof.
  pose proof (early_nil true greets two_clients (world_init 1 willing)) as Rn.
  esrv Rn ltac:(fpoll [EvListener]).
  esrv Rn ltac:(fmain Listening ltac:(apply step_listen; reflexivity)).
  esrv Rn ltac:(faccept 0).
  esrv Rn ltac:(fmain Blocked ltac:(apply step_blocked; reflexivity)).
  ehist Rn ltac:(hsend 0 get_root).
  ehist Rn ltac:(harrive 0 0 (write_request get_root)).
  esrv Rn ltac:(fpoll [EvSocket 0 0 false]).
  esrv Rn ltac:(fready 0 (Some 0)).
  esrv Rn ltac:(eapply fs_work; [|eapply (ws_take _ _ _ 0 0); reflexivity]; reflexivity).
  esrv Rn ltac:(eapply fs_work; [|eapply (ws_enter _ _ _ 0 0 _ _ ample (greeter 0)); reflexivity]; reflexivity).
  esrv Rn ltac:(eapply fs_work; [|eapply (ws_read _ _ _ 0 0 _ _ _ _ _ (RData (write_request get_root)) []); [reflexivity|reflexivity|reflexivity|served|reflexivity]]; reflexivity).
  ego Rn ltac:(ehear 0 greet1 greet2; eapply (shows_as _ 0 _ _ _ 0 ample (greeter 0)); [reflexivity|reflexivity|reflexivity|served|vm_compute; reflexivity]).
  ego Rn ltac:(ehear 0 greet2 (@nil byte); eapply (shows_as _ 0 _ _ _ 0 ample (greeter 0)); [reflexivity|reflexivity|reflexivity|served|vm_compute; reflexivity]).
  ehist Rn ltac:(eapply (hp_return _ _ _ _ 0); [reflexivity|vm_compute; reflexivity|reflexivity|vm_compute; reflexivity]).
  ehist Rn ltac:(eapply (hp_send _ _ _ _ 0 _ get_root _ (write_request get_root)); [reflexivity|vm_compute; reflexivity|reflexivity|constructor; [eexists; reflexivity|constructor]|vm_compute; reflexivity|vm_compute; reflexivity]).
  ehist Rn ltac:(harrive 0 0 (write_request get_root)).
  esrv Rn ltac:(eapply fs_work; [|eapply (ws_read _ _ _ 0 0 _ _ _ _ _ (RData (write_request get_root)) []); [reflexivity|reflexivity|reflexivity|served|reflexivity]]; reflexivity).
  ego Rn ltac:(ehear 0 (write_response (greeting 0)) (@nil byte); eapply (shows_as _ 0 _ _ _ 0 ample (greeter 0)); [reflexivity|reflexivity|reflexivity|served|vm_compute; reflexivity]).
  assert (V : visit_fine ample) by (split; [apply Forall_forall; intros e H; apply repeat_spec in H; subst; exact Logic.I|constructor]).
  assert (Vs : visit_steady ample).
  { intros a b n E. exfalso. assert (K : In (WFail WouldBlock) (v_events ample)) by (rewrite E; apply in_or_app; right; now left).
    apply repeat_spec in K. discriminate. }
  do 11 eexists. split; [exact Rn|].
  split; [repeat (constructor; auto)|]. split; [repeat (constructor; auto)|].
  split; [repeat (constructor; [exact (proj1 get_root_plain)|]); constructor|].
  split; [intros q [<- |[<- |[]]]; exact (proj1 (proj2 get_root_plain))|].
  split; [reflexivity|]. split; [reflexivity|]. split; [reflexivity|]. split; [reflexivity|]. split; [reflexivity|].
  split; [served|]. repeat split; vm_compute; reflexivity.
Qed.
