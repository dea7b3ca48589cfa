(** The whole server: C69, C70. *)
From Coq Require Import List Ascii String NArith Bool Arith Lia.
From Verif.Model Require Import Bytes Io Common Parse Encode Writer Server Slab Handlers Whole.
From Verif.Spec Require Import Batch Stream Drive Numerals Grammar Wire Output Session Traces Arrivals.
From Verif.Proofs Require Import BytesFacts IoFacts ParseFacts LimitGrammar BatchFacts ServerFacts GrammarFacts EncodeFacts ConnFacts HandlersFacts DriveFacts CallFacts FrameFacts WholeFacts.
From Verif.Properties Require Import Streaming RoundTrip Server Handlers.
Import ListNotations.

(** There is a router: each request of each connection has some answer. *)
Definition has_router (R : nat -> request -> lresult -> Prop) : Prop :=
  forall c, exists rt : router, forall h q, R c q (rt h q).

(** ** C69 *)

(** For any number of connections and workers, any schedule, any arrivals and any answers: the requests routed for a
    connection, what was written to it, and whether it is kept, are those of a server that has only this connection
    and reads from it the same items in the same order.  (While a handler is busy with it: as of before that call;
    [busy] is what the call has read.)  So C24 to C29 hold of every connection, whatever the others do. *)
Theorem C69_isolation : forall dbg R conns size ls st c x, has_router R ->
  wrun dbg R (w_init conns size) ls st -> nth_error (ws_conns st) c = Some x ->
  exists rt s busy, (forall h q, R c q (rt h q)) /\
    received c ls = items s ++ items busy ++ wc_sock x /\
    visits dbg rt (calls c ls) [] (Open (conn_new s)) = (wc_log x, as_slot (wc_slot x)) /\
    ((forall k, wc_slot x <> WTaken k) -> busy = []).
Proof.
  intros dbg R conns size ls st c x Tot Rn N. destruct (winv_run dbg R _ _ _ _ Tot Rn c x N) as [_ _ _ G].
  assert (K : forall k got, story dbg R c ls x k got -> exists rt s, (forall h q, R c q (rt h q)) /\
    received c ls = items s ++ items got ++ wc_sock x /\ visits dbg rt (calls c ls) [] (Open (conn_new s)) = (wc_log x, Open k)).
  { intros k got (H0 & rt & s & H1 & H2 & H3). exists rt, s. split; auto. split; auto. specialize (H2 []). rewrite app_nil_r in H2.
    rewrite H2. unfold set_in. rewrite <- H0. destruct k; reflexivity. }
  destruct (wc_slot x) as [k|k|b|b]; cbn [as_slot].
  - destruct (K _ _ G) as (rt & s & H1 & H2 & H3). exists rt, s, []. auto.
  - destruct G as (i & v & rt0 & got & _ & _ & G & _). destruct (K _ _ G) as (rt & s & H1 & H2 & H3). exists rt, s, got. split; auto. split; auto. split; auto.
    intros H. now destruct (H k).
  - destruct G as (rt & s & H1 & H2 & H3). exists rt, s, []. auto.
  - destruct G as (rt & s & H1 & H2 & H3). exists rt, s, []. auto.
Qed.
Print Assumptions C69_isolation.

(** ** C70 *)

Lemma items_bytes s : forall b r, map IByte b = items s ++ r ->
  exists b', b = pending s ++ b' /\ r = map IByte b' /\ live s /\ ~ In (RErr Interrupted) s.
Proof.
  induction s as [|e s IH]; intros b r E.
  - exists b. cbn in *. repeat split; auto. constructor.
  - change (e :: s) with ([e] ++ s) in E. rewrite items_app, <- app_assoc in E.
    assert (K : forall bs, map IByte b = map IByte bs ++ items s ++ r -> exists b0, b = bs ++ b0 /\ map IByte b0 = items s ++ r).
    { clear. intros bs. revert b. induction bs as [|y bs IH]; intros b E; cbn [map app] in E; [exists b; auto|].
      destruct b as [|z b]; [discriminate|]. cbn [map] in E. inversion E; subst. destruct (IH _ H1) as (b0 & -> & H). exists b0. cbn [app]. auto. }
    destruct e as [[|y bs]|k].
    + exfalso. destruct b; discriminate.
    + unfold items in E at 1. cbn [flat_map event_items] in E. rewrite app_nil_r in E.
      destruct (K (y :: bs) E) as (b0 & -> & E'). destruct (IH _ _ E') as (b' & -> & H1 & H2 & H3). exists b'. cbn [pending].
      rewrite <- app_assoc. repeat split; auto.
      * constructor; auto. discriminate.
      * intros [I|I]; [discriminate|auto].
    + destruct k; try (exfalso; destruct b; discriminate). cbn [items flat_map app] in E.
      destruct (IH _ _ E) as (b' & -> & H1 & H2 & H3). exists b'. cbn [pending]. repeat split; auto.
      * constructor; auto. now left.
      * intros [I|I]; [discriminate|auto].
Qed.

Lemma plain_orderly_part rs s x : Forall plain_request rs -> live s -> pending s ++ x = List.concat (map write_request rs) ->
  ~ In (RErr Interrupted) s -> orderly false s.
Proof.
  intros F L P I. split; [now apply live_eof_false|]. split; [|split; [|split]].
  - intros s1 s2 ->. rewrite LimitGrammar.pending_app, <- app_assoc in P. symmetry in P. exact (proj1 (plain_prefix _ F _ _ P)).
  - intros s1 s2 ->. exfalso. apply I, in_or_app. right. now left.
  - intros w y E. rewrite E, <- app_assoc in P. symmetry in P. exact (proj2 (plain_prefix _ F _ _ P)).
  - intros _. symmetry in P. exact (proj1 (plain_prefix _ F _ _ P)).
Qed.

(** A first part of the requests: it is served and kept. *)
Lemma plain_part_kept rt rs : Forall plain_request rs -> (forall r, In r rs -> ~ asks_close r) ->
  forall b x, List.concat (map write_request rs) = b ++ x -> forall h, exists l o, served rt h b false l o true.
Proof.
  induction rs as [|r rs IH]; intros F A b x E h.
  - cbn in E. symmetry in E. apply app_eq_nil in E as [-> _]. exists [], []. eapply served_wait. reflexivity.
  - inversion F as [|? ? F1 F2]; subst. cbn [map List.concat] in E.
    destruct F1 as (G & Fi & Asc) eqn:Ef. clear Ef. destruct (request_reads_back r [] G Fi) as (r' & Hr & Sr). rewrite app_nil_r in Hr.
    assert (Un : ~ asks_close r').
    { intros (vs & K1 & K2). apply (A r); [now left|]. destruct Sr as (_ & _ & Hm & _). exists vs. rewrite <- Hm. auto. }
    destruct (plain_small r (conj G (conj Fi Asc))) as (ps & S1 & S2).
    pose proof (request_prefixes _ _ _ _ _ _ _ _ S1 E) as [L C].
    apply prefix_cases in E as [(y & Hy & E)|(b' & -> & E)].
    + destruct (batch_request b) as [v rest|p|v n|e] eqn:Eb.
      * exfalso. apply (batch_request_complete_ext _ _ _ y) in Eb. rewrite <- E, Hr in Eb. inversion Eb.
        symmetry in H1. apply app_eq_nil in H1 as [_ ->]. congruence.
      * exists [], []. eapply served_wait; eauto.
      * exfalso. exact (batch_request_not_eof _ _ _ Eb).
      * exfalso. apply (batch_request_bad_ext _ _ y) in Eb. rewrite <- E, Hr in Eb. discriminate.
    + apply (batch_request_complete_ext _ _ _ b') in Hr. cbn [app] in Hr.
      destruct (IH F2 (fun r I => A r (or_intror I)) b' x E (h ++ [r'])) as (l & o & Sv).
      exists (r' :: l), (reply (rt h r') ++ o). eapply served_next; eauto.
Qed.

(** The listeners of [c] do not panic, and all their answers are short. *)
Definition calm_listeners (R : nat -> request -> lresult -> Prop) (c : nat) : Prop :=
  forall q l, utf8 (rq_uri q) = true -> R c q l -> l <> LPanic.
Definition short_listeners (R : nat -> request -> lresult -> Prop) (c : nat) : Prop :=
  forall q r, R c q (LSend r) -> short_response r.

(** A peer that sends requests, none of which asks to close, is never cut off (if the socket works), whatever happens
    on other connections: other peers may send anything, other listeners may panic, workers may die. *)
Theorem C70_never_dropped : forall dbg R conns size ls st c x rs b b', has_router R ->
  wrun dbg R (w_init conns size) ls st -> nth_error (ws_conns st) c = Some x ->
  calm_listeners R c -> Forall visit_fine (calls c ls) -> Forall visit_steady (calls c ls) \/ short_listeners R c ->
  Forall plain_request rs -> (forall r, In r rs -> ~ asks_close r) ->
  received c ls = map IByte b -> b ++ b' = List.concat (map write_request rs) ->
  exists k, wc_slot x = WHere k \/ wc_slot x = WTaken k.
Proof.
  intros dbg R conns size ls st c x rs b b' Tot Rn N Cl V Sh F A Rc E.
  destruct (C69_isolation _ _ _ _ _ _ _ _ Tot Rn N) as (rt & s & busy & H1 & H2 & H3 & _). rewrite Rc in H2.
  apply items_bytes in H2 as (b1 & -> & _ & L & I). rewrite <- app_assoc in E.
  assert (O : orderly false s) by (eapply plain_orderly_part; eauto).
  assert (Np : no_panic rt) by (intros h v U; eapply Cl; eauto).
  assert (S : Forall visit_steady (calls c ls) \/ short_replies rt).
  { destruct Sh as [Sh|Sh]; [now left|right]. intros h v r K. eapply Sh. rewrite <- K. apply H1. }
  destruct (C26_responses dbg rt false s _ _ _ Np O V S H3) as [(k & got & K & _)|(sent & rest & K & Sv)].
  - exists k. destruct (wc_slot x); inversion K; subst; auto.
  - exfalso. symmetry in E. destruct (plain_part_kept rt rs F A _ _ E []) as (l & o & Sv').
    destruct (served_unique _ _ _ _ _ _ _ Sv _ _ _ Sv') as (_ & _ & X). discriminate.
Qed.
Print Assumptions C70_never_dropped.

(** On a connection of which everything was read and which no handler has. *)
Lemma answered_when_read : forall dbg R conns size ls st c x k rs, has_router R ->
  wrun dbg R (w_init conns size) ls st -> nth_error (ws_conns st) c = Some x ->
  calm_listeners R c -> Forall visit_fine (calls c ls) -> Forall visit_steady (calls c ls) \/ short_listeners R c ->
  Forall plain_request rs -> (forall r, In r rs -> ~ asks_close r) ->
  received c ls = map IByte (List.concat (map write_request rs)) -> wc_sock x = [] -> wc_slot x = WHere k ->
  Forall2 same_request (wc_log x) rs /\
  exists rt, (forall h q, R c q (rt h q)) /\ output k = replies rt [] (wc_log x) /\
    (Forall visit_steady (calls c ls) -> Forall (visit_takes (len (replies rt [] (wc_log x)))) (calls c ls) ->
     sk_sent (cn_sock k) = replies rt [] (wc_log x)).
Proof.
  intros dbg R conns size ls st c x k rs Tot Rn N Cl V Sh F A Rc Es P.
  destruct (C69_isolation _ _ _ _ _ _ _ _ Tot Rn N) as (rt & s & busy & H1 & H2 & H3 & H4).
  rewrite H4 in H2 by (rewrite P; discriminate). rewrite Rc, Es in H2. cbn [items flat_map app] in H2.
  apply items_bytes in H2 as (b1 & Eb & Hb1 & L & I). symmetry in Hb1. apply map_eq_nil in Hb1. subst b1.
  rewrite app_nil_r in Eb. symmetry in Eb. rewrite P in H3. cbn [as_slot] in H3.
  assert (Od : orderly false s) by (eapply plain_orderly_part with (x := []); eauto; now rewrite app_nil_r).
  assert (Np : no_panic rt) by (intros h v U; eapply Cl; eauto).
  assert (S : Forall visit_steady (calls c ls) \/ short_replies rt).
  { destruct Sh as [Sh|Sh]; [now left|right]. intros h v r K. eapply Sh. rewrite <- K. apply H1. }
  assert (In0 : cn_in k = []).
  { destruct (winv_run dbg R _ _ _ _ Tot Rn c x N) as [_ _ _ G]. rewrite P in G. apply G. }
  destruct (plain_session rs F) as (rs' & Q1 & Q2). rewrite <- Eb in Q2.
  assert (U : unasking rs').
  { clear - A Q1. induction Q1 as [|r' r rs' rs (_ & _ & Hm & _) H IH]; constructor; [|apply IH; intros; apply A; now right].
    intros (vs & G & K). apply (A r); [now left|]. exists vs. rewrite <- Hm. auto. }
  pose proof (session_served_wait rt _ _ _ Q2 U (ex_intro _ (InFirst []) eq_refl) []) as Ref.
  destruct (C26_responses dbg rt false s _ _ _ Np Od V S H3) as [(c0 & got & K & Pg & Sv & _)|(sent & rest & K & Sv)]; [|discriminate].
  inversion K; subst c0. rewrite In0 in Pg. cbn [pending] in Pg. rewrite app_nil_r in Pg. rewrite Pg in Ref.
  destruct (served_unique _ _ _ _ _ _ _ Sv _ _ _ Ref) as (El & O2 & _). rewrite <- El in O2. split; [now rewrite El|].
  exists rt. split; auto. split; auto. intros St T. eapply C29_delivered_so_far; eauto.
Qed.

(** When the server has nothing more to do and a worker is left: every request that arrived on such a connection has
    been routed, once and in order, and answered, in order. *)
Theorem C70_all_answered : forall dbg R conns size ls st c x rs, has_router R ->
  wrun dbg R (w_init conns size) ls st -> nth_error (ws_conns st) c = Some x ->
  calm_listeners R c -> Forall visit_fine (calls c ls) -> Forall visit_steady (calls c ls) \/ short_listeners R c ->
  Forall plain_request rs -> (forall r, In r rs -> ~ asks_close r) ->
  received c ls = map IByte (List.concat (map write_request rs)) ->
  at_rest dbg R st -> worker_left st = true ->
  Forall2 same_request (wc_log x) rs /\
  exists k rt, wc_slot x = WHere k /\ (forall h q, R c q (rt h q)) /\ output k = replies rt [] (wc_log x) /\
    (Forall visit_steady (calls c ls) -> Forall (visit_takes (len (replies rt [] (wc_log x)))) (calls c ls) ->
     sk_sent (cn_sock k) = replies rt [] (wc_log x)).
Proof.
  intros dbg R conns size ls st c x rs Tot Rn N Cl V Sh F A Rc Rest Left.
  destruct (C70_never_dropped dbg R conns size ls st c x rs _ [] Tot Rn N Cl V Sh F A Rc (app_nil_r _)) as (k0 & K0).
  assert (O : wopen x = true) by (unfold wopen; destruct K0 as [-> | ->]; reflexivity).
  destruct (at_rest_read dbg R _ _ _ _ _ _ Tot Rn Rest Left N O) as (Es & k & P).
  destruct (answered_when_read _ _ _ _ _ _ _ _ _ _ Tot Rn N Cl V Sh F A Rc Es P) as (H1 & rt & H2 & H3 & H4).
  split; auto. exists k, rt. auto.
Qed.
Print Assumptions C70_all_answered.

Lemma wrun_app dbg R a ls b : wrun dbg R a ls b -> forall ls' c, wrun dbg R b ls' c -> wrun dbg R a (ls' ++ ls) c.
Proof. intros Rn ls' c R'. induction R'; cbn [app]; auto. econstructor; eauto. Qed.

(** The server does come to rest: from any reachable state there is a bound on how many steps it can make before
    something else arrives. *)
Theorem C70_comes_to_rest : forall dbg R conns size ls st, has_router R -> wrun dbg R (w_init conns size) ls st ->
  exists n, forall ls' st', wrun dbg R st ls' st' -> forallb (fun l => negb (outside l)) ls' = true -> List.length ls' <= n.
Proof.
  intros dbg R conns size ls st Tot Rn. exists (work (habs st)). intros ls' st' R' H.
  rewrite <- (map_length hlab). apply (C50_settles _ _ (habs st')).
  - clear H. induction R' as [|st ls' st1 l st2 R' IH S]; [constructor|]. cbn [map]. econstructor; [now apply IH|].
    eapply habs_step; eauto. eapply (winv_run dbg R); [exact Tot|]. eapply wrun_app; eauto.
  - clear - H. induction ls' as [|l ls' IH]; auto. cbn [forallb map] in *. apply andb_true_iff in H as [H1 H2].
    rewrite IH, andb_true_r by assumption. destruct l; auto.
Qed.
Print Assumptions C70_comes_to_rest.

(** ** A case *)

(** Two connections and two workers.  The listener for connection 1 panics and takes a worker with it; connection 0
    sends a request in two pieces, the second while its handler is at work. *)
Definition get_root : request := mk_request GET (lit "/") [] [].
Definition two_peers (c : nat) (q : request) (l : lresult) : Prop := l = if c =? 0 then LNext else LPanic.
Definition part1 : bytes := lit "GET / HT".
Definition part2 : bytes := lit "TP/1.1" ++ crlf ++ crlf.
Definition ample : visit := mk_visit (repeat (WTake 100) 26) [].

Lemma two_peers_router : has_router two_peers.
Proof. intros c. exists (fun _ _ => if c =? 0 then LNext else LPanic). intros h q. reflexivity. Qed.

Lemma get_root_plain : plain_request get_root /\ ~ asks_close get_root /\ write_request get_root = part1 ++ part2.
Proof.
  split; [|split; [|reflexivity]].
  - split; [|split; [|split]].
    + split; [apply text_check; reflexivity|]. split; [vm_compute; intuition discriminate|]. split.
      * split; constructor.
      * cbn. intuition discriminate.
    + split; [vm_compute; congruence|]. split; [constructor|]. split; vm_compute; congruence.
    + repeat constructor.
    + constructor.
  - intros (vs & H & _). discriminate.
Qed.

(** The number of a state that the next label leads to. *)
Ltac go R tac := eapply wrun_step in R; [|tac];
  cbv [wupd wput set_nth ws_conns ws_queue ws_workers wc_sock wc_event wc_slot wc_log app repeat w_init wc_new] in R.
Ltac served := vm_compute; reflexivity.

Definition peer0 : router := fun _ _ => LNext.
Definition peer1 : router := fun _ _ => LPanic.
Lemma all_proper b : Forall proper (map IByte b).
Proof. induction b; constructor; auto. split; discriminate. Qed.

Example C70_case : exists ls st x k, wrun true two_peers (w_init 2 2) ls st /\ nth_error (ws_conns st) 0 = Some x /\
  calm_listeners two_peers 0 /\ Forall visit_fine (calls 0 ls) /\ Forall visit_steady (calls 0 ls) /\
  received 0 ls = map IByte (List.concat (map write_request [get_root])) /\
  at_rest true two_peers st /\ worker_left st = true /\ wc_slot x = WHere k /\ sk_sent (cn_sock k) = not_found /\
  List.length (calls 0 ls) = 2 /\ exists sent, option_map wc_slot (nth_error (ws_conns st) 1) = Some (WBroken sent).
Proof.
  pose proof (wrun_nil true two_peers (w_init 2 2)) as Rn.
  go Rn ltac:(eapply (ws_arrive _ _ _ 1 _ (map IByte (part1 ++ part2))); [reflexivity|reflexivity|discriminate|apply all_proper]).
  go Rn ltac:(eapply (ws_dispatch _ _ _ 1); reflexivity).
  go Rn ltac:(eapply (ws_take _ _ _ 0 1); reflexivity).
  go Rn ltac:(eapply (ws_enter _ _ _ 0 1 _ _ ample peer1); reflexivity).
  go Rn ltac:(eapply (ws_read _ _ _ 0 1 _ _ _ _ _ (RData (part1 ++ part2)) []); [reflexivity|reflexivity|reflexivity|served|reflexivity]).
  go Rn ltac:(eapply (ws_crash _ _ _ 0 1); [reflexivity|reflexivity|reflexivity|served]).
  go Rn ltac:(eapply (ws_arrive _ _ _ 0 _ (map IByte part1)); [reflexivity|reflexivity|discriminate|apply all_proper]).
  go Rn ltac:(eapply (ws_dispatch _ _ _ 0); reflexivity).
  go Rn ltac:(eapply (ws_take _ _ _ 1 0); reflexivity).
  go Rn ltac:(eapply (ws_enter _ _ _ 1 0 _ _ ample peer0); reflexivity).
  go Rn ltac:(eapply (ws_arrive _ _ _ 0 _ (map IByte part2)); [reflexivity|reflexivity|discriminate|apply all_proper]).
  go Rn ltac:(eapply (ws_read _ _ _ 1 0 _ _ _ _ _ (RData part1) (map IByte part2)); [reflexivity|reflexivity|reflexivity|served|reflexivity]).
  go Rn ltac:(eapply (ws_read _ _ _ 1 0 _ _ _ _ _ (RData part2) []); [reflexivity|reflexivity|reflexivity|served|reflexivity]).
  go Rn ltac:(eapply (ws_drain _ _ _ 1 0); [reflexivity|reflexivity|reflexivity|served|reflexivity]).
  go Rn ltac:(eapply (ws_keep _ _ _ 1 0); [reflexivity|reflexivity|reflexivity|served]).
  go Rn ltac:(eapply (ws_dispatch _ _ _ 0); reflexivity).
  go Rn ltac:(eapply (ws_take _ _ _ 1 0); reflexivity).
  go Rn ltac:(eapply (ws_enter _ _ _ 1 0 _ _ ample peer0); reflexivity).
  go Rn ltac:(eapply (ws_drain _ _ _ 1 0); [reflexivity|reflexivity|reflexivity|served|reflexivity]).
  go Rn ltac:(eapply (ws_keep _ _ _ 1 0); [reflexivity|reflexivity|reflexivity|served]).
  do 4 eexists. split; [exact Rn|]. split; [reflexivity|].
  split; [intros q l _ ->; discriminate|].
  assert (V : visit_fine ample) by (split; [apply Forall_forall; intros e H; apply repeat_spec in H; subst; exact I|constructor]).
  assert (S : visit_steady ample).
  { intros a b n E. exfalso. assert (K : In (WFail WouldBlock) (v_events ample)) by (rewrite E; apply in_or_app; right; now left).
    apply repeat_spec in K. discriminate. }
  split; [repeat (constructor; auto)|]. split; [repeat (constructor; auto)|]. split; [reflexivity|].
  split; [|repeat split; exists []; reflexivity].
  intros l st' S'. inversion S'; subst; auto; cbn [ws_conns ws_queue ws_workers] in *; exfalso;
    repeat match goal with
    | H : nth_error _ ?i = Some _ |- _ => is_var i; destruct i as [|i]; cbn [nth_error] in H; try discriminate; try (injection H as <-; cbn in *)
    end; try discriminate; try congruence.
Qed.
