(** C111: what peers can do to the whole server, up to its end, by what they send alone. *)
From Coq Require Import List Ascii String NArith Bool Arith Lia.
From Verif.Model Require Import Bytes Io Common Parse Encode Writer Server Slab Poll Whole Full Life.
From Verif.Spec Require Import Batch Stream Drive Numerals Grammar Wire Output Session Traces Arrivals Events Ending.
From Verif.Proofs Require Import BytesFacts IoFacts ParseFacts ServerFacts ConnFacts SlabFacts HandlersFacts FrameFacts WholeFacts UnwindFacts FullFacts LifeFacts.
From Verif.Properties Require Import Server Whole Full Stopped Life.
Import ListNotations.

(** ** C111 *)

(** What the peers sent and what the sockets did, in an execution. *)
Definition sent_by (c : nat) (ls : list llabel) : list item := received c (wparts (server_parts ls)).
Definition calls_for (c : nat) (ls : list llabel) : list visit := calls c (wparts (server_parts ls)).

(** Also after the poll has failed, each connection is served as by the reference, whatever the others do. *)
Theorem C111_reference : forall dbg R size ls st c x, has_router R ->
  lrun dbg R (l_init size) ls st -> nth_error (ws_conns (f_w (l_f st))) c = Some x ->
  exists rt s busy, (forall h q, R c q (rt h q)) /\
    sent_by c ls = items s ++ items busy ++ wc_sock x /\
    visits dbg rt (calls_for c ls) [] (Open (conn_new s)) = (wc_log x, as_slot (wc_slot x)) /\
    ((forall k, wc_slot x <> WTaken k) -> busy = []).
Proof.
  intros dbg R size ls st c x Tot Rn N. destruct (linv_run dbg R _ _ _ Tot Rn) as (B & _ & _).
  destruct (ba_winv _ _ _ _ _ B c x N) as [_ _ _ G]. fold (wlabels ls) in *. unfold sent_by, calls_for. fold (wlabels ls).
  assert (K : forall k got, story dbg R c (wlabels ls) x k got -> exists rt s, (forall h q, R c q (rt h q)) /\
    received c (wlabels ls) = items s ++ items got ++ wc_sock x /\ visits dbg rt (calls c (wlabels ls)) [] (Open (conn_new s)) = (wc_log x, Open k)).
  { intros k got (H0 & rt & s & H1 & H2 & H3). exists rt, s. split; auto. split; auto. specialize (H2 []). rewrite app_nil_r in H2.
    rewrite H2. unfold set_in. rewrite <- H0. destruct k; reflexivity. }
  destruct (wc_slot x) as [k|k|b|b]; cbn [as_slot].
  - destruct (K _ _ G) as (rt & s & H1 & H2 & H3). exists rt, s, []. auto.
  - destruct G as (i & v & rt0 & got & _ & _ & G & _). destruct (K _ _ G) as (rt & s & H1 & H2 & H3). exists rt, s, got. split; auto. split; auto. split; auto.
    intros H. now destruct (H k).
  - destruct G as (rt & s & H1 & H2 & H3). exists rt, s, []. auto.
  - destruct G as (rt & s & H1 & H2 & H3). exists rt, s, []. auto.
Qed.
Print Assumptions C111_reference.

Lemma crash_breaks dbg R w i c v w' : wstep dbg R w (ACrash i c v) w' -> exists x, nth_error (ws_conns w') c = Some x /\ broken x = true.
Proof. intros W. inversion W; subst. eexists. split; [cbn [ws_conns]; unfold wupd; eapply nth_set_same; eauto|reflexivity]. Qed.

(** As long as no mutex is poisoned, nothing panics. *)
Lemma unbroken_unpanicked dbg R size (P : list llabel -> Prop) : (forall l ls, P (l :: ls) -> P ls) ->
  (forall ls st c x, lrun dbg R (l_init size) ls st -> P ls -> nth_error (ws_conns (f_w (l_f st))) c = Some x -> broken x = false) ->
  forall ls st, lrun dbg R (l_init size) ls st -> P ls -> panicked ls = false.
Proof.
  intros Pt Nb ls st Rn. remember (l_init size) as init eqn:Ei. induction Rn as [|st0 ls st1 l st2 Rn IH S]; intros Hp; subst; auto.
  change (panics l || panicked ls = false). rewrite (IH eq_refl Nb (Pt _ _ Hp)), orb_false_r.
  destruct (panics l) eqn:Ep; auto. exfalso. pose proof (lrun_step _ _ _ _ _ _ _ Rn S) as Rn2.
  destruct l as [[l|evs|l]|e| | |i|i|e| |]; try discriminate Ep.
  assert (W : wstep dbg R (f_w (l_f st1)) l (f_w (l_f st2))).
  { inversion S as [f l0 f' t d F| | |f l0 f' m t d M M' F| | | | | | | |]; subst; cbn [l_f]; now apply fw_step in F as [F _]. }
  destruct l as [| | | | | |i c| | | | |i c v]; try discriminate Ep.
  - inversion W; subst. match goal with N : nth_error (ws_conns _) c = Some ?x, P0 : wc_slot ?x = WBroken _ |- _ =>
      pose proof (Nb _ _ _ _ Rn (Pt _ _ Hp) N) as X; unfold broken in X; rewrite P0 in X; discriminate end.
  - destruct (crash_breaks _ _ _ _ _ _ _ W) as (x & N & X). rewrite (Nb _ _ _ _ Rn2 Hp N) in X. discriminate.
Qed.

(** The server goes on, or ends because the poll failed and returns that error: it does not panic and is not aborted, and
    while it serves all its workers do. *)
Definition holds_out (size : nat) (ls : list llabel) (st : lstate) : Prop :=
  panicked ls = false /\ l_main st <> MAborted /\ l_main st <> MUnwound /\
  (l_main st = MServing -> List.length (ws_workers (f_w (l_f st))) = size /\ Forall (fun w => w <> WDead) (ws_workers (f_w (l_f st)))).

Lemma unpanicked_holds dbg R size ls st : has_router R -> 0 < size -> lrun dbg R (l_init size) ls st -> panicked ls = false -> holds_out size ls st.
Proof.
  intros Tot Pos Rn P. split; [exact P|]. pose proof (linv_run dbg R _ _ _ Tot Rn) as (B & Ph & _).
  apply panicked_crashes in P as C. split; [|split].
  - intros M. destruct (C78_aborts _ _ _ _ _ Tot Rn) as [A _]. destruct (A M) as [A1 _]. unfold crashes in C. lia.
  - intros M. unfold phase in Ph. rewrite M in Ph. lia.
  - intros M. unfold phase in Ph. rewrite M in Ph. destruct Ph as (P1 & _ & P3 & _). split; [apply B|].
    pose proof (ba_dead _ _ _ _ _ B) as D. rewrite P1, P3, C in D. cbn [List.length] in D.
    unfold dead in D. apply Forall_forall. intros w Hw ->.
    assert (X : In WDead (filter gone (ws_workers (f_w (l_f st))))) by (apply filter_In; split; auto).
    destruct (filter gone _); [destruct X|discriminate D].
Qed.

(** In a release build whose listeners do not panic: whatever any number of peers send, in any pieces and at any time,
    also half requests, errors and ends, however the sockets take the answers and whatever the schedule. *)
Theorem C111_release : forall R size ls st, has_router R -> (forall c, calm_listeners R c) -> 0 < size ->
  lrun false R (l_init size) ls st -> holds_out size ls st.
Proof.
  intros R size ls st Tot Cl Pos Rn. eapply unpanicked_holds; eauto.
  apply (unbroken_unpanicked false R size (fun _ => True)) with (st := st); auto.
  clear ls st Rn. intros ls st c x Rn _ N.
  destruct (C111_reference _ _ _ _ _ _ _ Tot Rn N) as (rt & s & busy & H1 & _ & H3 & _).
  unfold broken. destruct (wc_slot x) eqn:Es; auto. exfalso. cbn [as_slot] in H3.
  eapply release_unpoisoned; [|exact H3]. intros h v U. eapply Cl; eauto.
Qed.
Print Assumptions C111_release.

(** In either build, if every peer sends requests within the limits, or a part of them, in any pieces. *)
Theorem C111_requests : forall dbg R size ls st, has_router R -> (forall c, calm_listeners R c) -> 0 < size ->
  lrun dbg R (l_init size) ls st ->
  (forall c, exists rs b b', Forall plain_request rs /\ sent_by c ls = map IByte b /\ b ++ b' = List.concat (map write_request rs)) ->
  holds_out size ls st.
Proof.
  intros dbg R size ls st Tot Cl Pos Rn Hall. eapply unpanicked_holds; eauto.
  apply (unbroken_unpanicked dbg R size (fun ls => forall c, exists rs b b', Forall plain_request rs /\ sent_by c ls = map IByte b /\
     b ++ b' = List.concat (map write_request rs))) with (st := st); auto.
  - clear. intros l ls H c. destruct (H c) as (rs & b & b' & F & Rc & E).
    assert (K : exists y, sent_by c (l :: ls) = sent_by c ls ++ y).
    { unfold sent_by. change (wparts (server_parts (l :: ls))) with (wlabels (l :: ls)). rewrite wlabels_cons. fold (wlabels ls).
      destruct l as [[l|evs|l]|e| | |i|i|e| |]; try (exists []; now rewrite app_nil_r).
      destruct l; cbn [received]; try (exists []; now rewrite app_nil_r). eexists. reflexivity. }
    destruct K as (y & K). rewrite K in Rc. symmetry in Rc. apply map_eq_app in Rc as (b1 & b2 & -> & E1 & _).
    exists rs, b1, (b2 ++ b'). split; auto. split; auto. now rewrite app_assoc.
  - clear ls st Rn Hall. intros ls st c x Rn Hall N.
    destruct (C111_reference _ _ _ _ _ _ _ Tot Rn N) as (rt & s & busy & H1 & H2 & H3 & _).
    destruct (Hall c) as (rs & b & b' & F & Rc & E). rewrite Rc in H2.
    apply items_bytes in H2 as (b1 & -> & _ & L & I). rewrite <- app_assoc in E.
    assert (O : orderly false s) by (eapply plain_orderly_part; eauto).
    unfold broken. destruct (wc_slot x) eqn:Es; auto. exfalso. cbn [as_slot] in H3.
    eapply calm_unpoisoned; [|exact (orderly_calm _ _ O)|exact H3]. intros h v U. eapply Cl; eauto.
Qed.
Print Assumptions C111_requests.

(** When the poll fails, the call comes to an end unless input arrives all the time, and returns that error, with all
    threads ended. *)
Theorem C111_returns : forall R size ls st, has_router R -> (forall c, calm_listeners R c) -> 0 < size ->
  lrun false R (l_init size) ls st -> ending (l_main st) = true ->
  exists n, forall ls' st', lrun false R st ls' st' -> existsb beyond ls' = false -> List.length ls' <= n /\
    ((forall l st'', lstep false R st' l st'' -> beyond l = true) ->
       worker_left (f_w (l_f st')) = false /\ exists e, l_main st' = MReturned e /\ In (LStop e) ls).
Proof.
  intros R size ls st Tot Cl Pos Rn E. destruct (C78_ends _ _ _ _ _ Tot Pos Rn E) as (n & H). exists n. intros ls' st' R' X.
  destruct (H ls' st' R' X) as [H1 H2]. split; auto. intros K. destruct (H2 K) as [H3 H4]. split; auto.
  destruct (C111_release _ _ _ _ Tot Cl Pos (lrun_join _ _ _ _ _ Rn _ _ R')) as (P & _). now rewrite P in H4.
Qed.
Print Assumptions C111_returns.

(** *** Debug builds *)

(** A server with two connections; on the second nothing has happened. *)
Definition slab_of2 : slab nat :=
  match insert (slab_new 128) 0 with Some (s, _) => match insert s 1 with Some (s, _) => s | None => s end | None => slab_new 128 end.
Definition both : list (nat * nat) := [(1, 1); (0, 0)].
Definition at2 (x : wconn) (q : list nat) (ws : list wworker) (reg : list (nat * nat)) (js : list nat) : fstate :=
  mk_fstate (mk_wstate [x; wc_new] q ws) (mk_pstate slab_of2 2 reg js [] false).

Section Fell.
Variable (R : nat -> request -> lresult -> Prop) (rt : router) (n : nat).
Variable (conn1 conn2 : conn) (piece1 piece2 : bytes).
Hypothesis Hrt : forall h q, R 0 q (rt h q).
Hypothesis Hne : piece1 <> [] /\ piece2 <> [].
Hypothesis St : forall x, wc_log x = [] ->
  (exists k, serve true rt idle_visit x (conn_new []) [] = ([], Open k)) /\
  serve true rt idle_visit x (conn_new []) [RData piece1] = ([], Open conn1) /\
  (exists k, serve true rt idle_visit x conn1 [] = ([], Open k)) /\
  serve true rt idle_visit x conn1 [RData piece2] = ([], Open conn2) /\
  serve true rt idle_visit x conn2 [] = ([], Poisoned []).
Let run := frun true R (f_init (S n)).

Lemma two_start : exists ls, run ls (at2 wc_new [] (WFree :: repeat WFree n) both []) /\ wparts ls = [].
Proof.
  pose proof (frun_nil true R (f_init (S n))) as Rn.
  eapply frun_step in Rn; [|fpoll [EvListener]].
  eapply frun_step in Rn; [|fmain Listening ltac:(apply step_listen; reflexivity)].
  eapply frun_step in Rn; [|faccept 0].
  eapply frun_step in Rn; [|faccept 1].
  eapply frun_step in Rn; [|fmain Blocked ltac:(apply step_blocked; reflexivity)].
  eexists. split; [exact Rn|reflexivity].
Qed.

Lemma dispatched ls its slot js ws : run ls (at2 (mk_wconn its true slot []) [] ws both js) -> existsb walive ws = true ->
  exists ls', run ls' (at2 (mk_wconn its false slot []) [0] ws both (js ++ [0])) /\ wparts ls' = wparts ls.
Proof.
  intros Rn A. unfold at2 in Rn.
  eapply frun_step in Rn; [|fpoll [EvSocket 0 0 false]].
  eapply frun_step in Rn; [|eapply (fs_ready _ _ _ 0 (Some 0)); [eapply step_ready; [reflexivity|reflexivity|reflexivity]|intros _; exact A]].
  eexists. split; [exact Rn|reflexivity].
Qed.

Lemma arrives ls its slot js ws b : (exists k, slot = WHere k \/ slot = WTaken k) -> b <> [] ->
  run ls (at2 (mk_wconn its false slot []) [] ws both js) ->
  run (FW (AArrive 0 (map IByte b)) :: ls) (at2 (mk_wconn (its ++ map IByte b) true slot []) [] ws both js).
Proof.
  intros O Hb Rn. assert (Ne : map IByte b <> []) by (destruct b; [congruence|discriminate]).
  eapply frun_step in Rn; [|eapply (fs_arrive _ _ _ 0 0 (map IByte b)); [cbn; auto|eapply ws_arrive; [reflexivity| |exact Ne|apply all_proper]]].
  - exact Rn.
  - destruct O as (k & [-> | ->]); reflexivity.
Qed.

(** One job on connection 0, by worker 0, that reads one piece. *)
Lemma one_piece ls k0 k1 b its : 
  (forall y, wc_log y = [] -> exists k', serve true rt idle_visit y k0 [] = ([], Open k')) ->
  (forall y, wc_log y = [] -> serve true rt idle_visit y k0 [RData b] = ([], Open k1)) -> b <> [] ->
  run ls (at2 (mk_wconn [] false (WHere k0) []) [] (WFree :: repeat WFree n) both []) ->
  received 0 (wparts ls) = its -> (forall c, c <> 0 -> received c (wparts ls) = []) ->
  exists ls', run ls' (at2 (mk_wconn [] false (WHere k1) []) [] (WFree :: repeat WFree n) both []) /\
    received 0 (wparts ls') = its ++ map IByte b /\ (forall c, c <> 0 -> received c (wparts ls') = []).
Proof.
  intros S0 S1 Hb Rn Hr Hc.
  apply arrives with (b := b) in Rn; [|eauto|exact Hb].
  apply dispatched in Rn as (l1 & Rn & E); [|reflexivity].
  assert (Ot : existsb (wholds 0) (repeat WFree n) = false) by apply none_held.
  revert Rn Ot. generalize (repeat WFree n). intros others Rn Ot. unfold at2, run in *. cbn [app] in Rn.
  eapply frun_step in Rn; [|eapply (fs_work _ _ _ (ATake 0 0)); [reflexivity|eapply (ws_take _ _ _ 0 0); reflexivity]].
  cbn [wput set_nth f_w f_p ws_conns ws_queue ws_workers] in Rn.
  eapply frun_step in Rn; [|eapply (fs_work _ _ _ (AEnter 0 0)); [reflexivity|eapply (ws_enter _ _ _ 0 0 _ k0 idle_visit rt); [reflexivity|reflexivity|exact Ot|reflexivity|exact Hrt]]].
  cbn [wupd wput set_nth f_w f_p ws_conns ws_queue ws_workers wc_sock wc_event wc_slot wc_log app] in Rn.
  destruct (S0 (mk_wconn (map IByte b) false (WTaken k0) []) eq_refl) as (k' & E0).
  eapply frun_step in Rn; [|eapply (fs_work _ _ _ (ARead 0 0 (RData b))); [reflexivity|
    eapply (ws_read _ _ _ 0 0 _ _ _ _ _ (RData b) []); [reflexivity|reflexivity|reflexivity|exact E0|]]].
  2:{ cbn [wc_sock]. rewrite app_nil_r. destruct b; [congruence|reflexivity]. }
  cbn [wupd wput set_nth f_w f_p ws_conns ws_queue ws_workers wc_sock wc_event wc_slot wc_log app] in Rn.
  pose proof (S1 (mk_wconn [] false (WTaken k0) []) eq_refl) as E1.
  eapply frun_step in Rn; [|eapply (fs_work _ _ _ (ADrain 0 0)); [reflexivity|eapply (ws_drain _ _ _ 0 0); [reflexivity|reflexivity|reflexivity|exact E1|reflexivity]]].
  cbn [wupd wput set_nth f_w f_p ws_conns ws_queue ws_workers wc_sock wc_event wc_slot wc_log app] in Rn.
  eapply frun_step in Rn; [|eapply (fs_end _ _ _ (AKeep 0 0 idle_visit) 0 false); [reflexivity|eapply (ws_keep _ _ _ 0 0); [reflexivity|reflexivity|reflexivity|exact E1]|
    apply step_finished; now left]].
  cbn [wupd wput set_nth f_w f_p ws_conns ws_queue ws_workers wc_sock wc_event wc_slot wc_log app] in Rn.
  eexists. split; [exact Rn|]. split.
  - cbn [wparts flat_map wpart app received]. fold (wparts l1). rewrite E. cbn [wparts flat_map wpart app received Nat.eqb]. fold (wparts ls). now rewrite Hr.
  - intros c Nc. cbn [wparts flat_map wpart app received]. fold (wparts l1). rewrite E. cbn [wparts flat_map wpart app received]. fold (wparts ls).
    destruct c; [congruence|]. cbn [Nat.eqb]. rewrite app_nil_r. now apply Hc.
Qed.

(** While worker 0 is in the handler, a byte for each of the others. *)
Lemma all_wait v m : forall w ls its js, w + m = n ->
  run ls (at2 (mk_wconn its false (WTaken conn2) []) [] (WServe 0 v rt [] :: repeat (WWait 0) w ++ repeat WFree m) both js) ->
  (forall c, c <> 0 -> received c (wparts ls) = []) ->
  exists ls' its', run ls' (at2 (mk_wconn its' false (WTaken conn2) []) [] (WServe 0 v rt [] :: repeat (WWait 0) n) both (js ++ repeat 0 m)) /\
    received 0 (wparts ls') = received 0 (wparts ls) ++ map IByte (repeat "a"%char m) /\ (forall c, c <> 0 -> received c (wparts ls') = []).
Proof.
  induction m as [|m IH]; intros w ls its js Hw Rn Hc.
  - exists ls, its. cbn [repeat] in *. rewrite !app_nil_r in *. replace w with n in Rn by lia. auto.
  - cbn [repeat] in Rn.
    apply arrives with (b := ["a"%char]) in Rn; [|eauto|discriminate].
    apply dispatched in Rn as (l1 & Rn & E); [|reflexivity]. unfold at2, run in *.
    eapply frun_step in Rn; [|eapply (fs_work _ _ _ (ATake (S w) 0)); [reflexivity|eapply (ws_take _ _ _ (S w) 0); [|reflexivity]]].
    2:{ cbn [f_w ws_workers nth_error]. pose proof (nth_mid (repeat (WWait 0) w) WFree (repeat WFree m)) as X. now rewrite repeat_length in X. }
    cbn [wput set_nth f_w f_p ws_conns ws_queue ws_workers] in Rn.
    pose proof (set_mid (repeat (WWait 0) w) WFree (WWait 0) (repeat WFree m)) as X. rewrite repeat_length in X. rewrite X in Rn.
    replace (repeat (WWait 0) w ++ WWait 0 :: repeat WFree m) with (repeat (WWait 0) (S w) ++ repeat WFree m) in Rn.
    2:{ replace (S w) with (w + 1) by lia. rewrite repeat_app, <- app_assoc. reflexivity. }
    destruct (IH (S w) _ _ _ ltac:(lia) Rn) as (ls' & its' & R1 & R2 & R3).
    { intros c Nc. cbn [wparts flat_map wpart app received]. fold (wparts l1). rewrite E. cbn [wparts flat_map wpart app received]. fold (wparts ls).
      destruct c; [congruence|]. cbn [Nat.eqb]. rewrite app_nil_r. now apply Hc. }
    exists ls', its'. split; [now rewrite <- app_assoc in R1|]. split; auto. rewrite R2.
    cbn [wparts flat_map wpart app received]. fold (wparts l1). rewrite E. cbn [wparts flat_map wpart app received Nat.eqb]. fold (wparts ls).
    rewrite <- app_assoc. reflexivity.
Qed.

(** Those who wait for a poisoned mutex die. *)
Lemma all_die x sent m : forall w ls, wc_slot x = WBroken sent ->
  run ls (at2 x [] (repeat WDead (S w) ++ repeat (WWait 0) m) [(1, 1)] (repeat 0 m)) ->
  exists ls', run ls' (at2 x [] (repeat WDead (S w + m)) [(1, 1)] []) /\ (forall c, received c (wparts ls') = received c (wparts ls)).
Proof.
  induction m as [|m IH]; intros w ls Hx Rn.
  - exists ls. cbn [repeat] in Rn. rewrite app_nil_r in Rn. rewrite Nat.add_0_r. auto.
  - cbn [repeat app] in Rn.
    assert (Hh : existsb (wholds 0) (WDead :: repeat WDead w ++ WWait 0 :: repeat (WWait 0) m) = false).
    { cbn [existsb wholds orb]. rewrite existsb_app. cbn [existsb wholds orb].
      assert (A : forall u, wholds 0 u = false -> forall j, existsb (wholds 0) (repeat u j) = false) by (intros u Hu; induction j; cbn [repeat existsb]; [|rewrite Hu]; auto).
      rewrite (A WDead), (A (WWait 0)) by reflexivity. reflexivity. }
    unfold at2, run in *.
    eapply frun_step in Rn; [|eapply (fs_end _ _ _ (ADie (S w) 0) 0 false); [reflexivity|eapply (ws_die _ _ _ (S w) 0 x sent); [|reflexivity|exact Hh|exact Hx]|
      apply step_finished; now left]].
    2:{ cbn [f_w ws_workers nth_error]. pose proof (nth_mid (repeat WDead w) (WWait 0) (repeat (WWait 0) m)) as X. now rewrite repeat_length in X. }
    cbn [wput set_nth f_w f_p ws_conns ws_queue ws_workers p_slab p_next p_reg p_jobs p_batch p_listening drop_one Nat.eqb] in Rn.
    pose proof (set_mid (repeat WDead w) (WWait 0) WDead (repeat (WWait 0) m)) as X. rewrite repeat_length in X. rewrite X in Rn.
    replace (WDead :: repeat WDead w ++ WDead :: repeat (WWait 0) m) with (repeat WDead (S (S w)) ++ repeat (WWait 0) m) in Rn.
    2:{ cbn [repeat app]. f_equal. change (WDead :: repeat WDead w ++ repeat (WWait 0) m) with ((WDead :: repeat WDead w) ++ repeat (WWait 0) m).
        change (WDead :: repeat WDead w) with (repeat WDead (S w)). replace (S w) with (w + 1) by lia. rewrite repeat_app, <- app_assoc. reflexivity. }
    assert (Sw : sweep slab_of2 (repeat 0 m) [(1, 1)] = [(1, 1)]) by reflexivity. rewrite Sw in Rn.
    destruct (IH (S w) _ Hx Rn) as (ls' & R1 & R2). exists ls'. split; [|intros c; now rewrite R2].
    replace (S w + S m) with (S (S w) + m) by lia. exact R1.
Qed.

Lemma fell : exists ls its, run ls (at2 (mk_wconn its false (WBroken []) []) [] (repeat WDead (S n)) [(1, 1)] []) /\
  received 0 (wparts ls) = map IByte (piece1 ++ piece2 ++ repeat "a"%char (S n)) /\ (forall c, c <> 0 -> received c (wparts ls) = []).
Proof.
  destruct two_start as (l0 & R0 & E0).
  destruct (one_piece l0 (conn_new []) conn1 piece1 []) as (l1 & R1 & E1 & N1); auto; try apply Hne.
  { intros y L. now destruct (St y L). }
  { intros y L. now destruct (St y L) as (_ & H & _). }
  { now rewrite E0. }
  { intros c _. now rewrite E0. }
  destruct (one_piece l1 conn1 conn2 piece2 (map IByte piece1)) as (l2 & Rn & E2 & N2); auto; try apply Hne.
  { intros y L. now destruct (St y L) as (_ & _ & H & _). }
  { intros y L. now destruct (St y L) as (_ & _ & _ & H & _). }
  apply arrives with (b := ["a"%char]) in Rn; [|eauto|discriminate].
  apply dispatched in Rn as (l3 & Rn & E3); [|reflexivity]. unfold at2, run in *. cbn [app] in Rn.
  eapply frun_step in Rn; [|eapply (fs_work _ _ _ (ATake 0 0)); [reflexivity|eapply (ws_take _ _ _ 0 0); reflexivity]].
  cbn [wput set_nth f_w f_p ws_conns ws_queue ws_workers] in Rn.
  eapply frun_step in Rn; [|eapply (fs_work _ _ _ (AEnter 0 0)); [reflexivity|eapply (ws_enter _ _ _ 0 0 _ conn2 idle_visit rt); [reflexivity|reflexivity| |reflexivity|exact Hrt]]].
  2:{ unfold wheld. cbn [f_w ws_workers existsb wholds orb]. apply none_held. }
  cbn [wupd wput set_nth f_w f_p ws_conns ws_queue ws_workers wc_sock wc_event wc_slot wc_log app] in Rn.
  destruct (all_wait idle_visit n 0 _ _ [0] eq_refl Rn) as (l4 & its & R4 & E4 & N4).
  { intros c Nc. cbn [wparts flat_map wpart app received]. fold (wparts l3). rewrite E3. cbn [wparts flat_map wpart app received]. fold (wparts l2).
    destruct c; [congruence|]. cbn [Nat.eqb]. rewrite app_nil_r. now apply N2. }
  clear Rn. rename R4 into Rn.
  destruct (St (mk_wconn its false (WTaken conn2) []) eq_refl) as (_ & _ & _ & _ & Ep). unfold at2, run in Rn. cbn [app] in Rn.
  eapply frun_step in Rn; [|eapply (fs_end _ _ _ (ACrash 0 0 idle_visit) 0 true); [reflexivity|eapply (ws_crash _ _ _ 0 0); [reflexivity|reflexivity|reflexivity|exact Ep]|
    apply step_finished; now left]].
  cbn [wupd wput set_nth f_w f_p ws_conns ws_queue ws_workers wc_sock wc_event wc_slot wc_log p_slab p_next p_reg p_jobs p_batch p_listening drop_one Nat.eqb] in Rn.
  assert (Sw : sweep slab_of2 (repeat 0 n) (filter (fun r => negb (fst r =? 0)) both) = [(1, 1)]) by reflexivity. rewrite Sw in Rn.
  destruct (all_die (mk_wconn its false (WBroken []) []) [] n 0 _ eq_refl Rn) as (l5 & R5 & E5).
  exists l5, its. split; [exact R5|]. split.
  - rewrite E5. cbn [wparts flat_map wpart app received]. fold (wparts l4). rewrite E4. cbn [wparts flat_map wpart app received]. fold (wparts l3). rewrite E3.
    cbn [wparts flat_map wpart app received Nat.eqb]. fold (wparts l2). rewrite E2. cbn [repeat].
    change [IByte "a"%char] with (map IByte ["a"%char]). rewrite <- !map_app, <- !app_assoc. reflexivity.
  - intros c Nc. rewrite E5. cbn [wparts flat_map wpart app received]. fold (wparts l4). now apply N4.
Qed.
End Fell.

Lemma serving_parts ls : server_parts (map LF ls) = ls.
Proof. unfold server_parts. induction ls as [|l ls IH]; auto. cbn [map flat_map server_part app]. now rewrite IH. Qed.

(** In a debug build one peer ends the process, however many workers it has: with 4624 bytes and one more for each
    worker, which make no request, and then anything at all on another connection, be it its own or another peer's.
    No listener is called, nothing is written, and nothing happens any more. *)
Theorem C111_debug_refuted : forall R n b1, has_router R -> b1 <> [] -> exists ls st b,
  lrun true R (l_init (S n)) ls st /\ l_main st = MAborted /\
  sent_by 0 ls = map IByte b /\ len b = (4625 + N.of_nat n)%N /\ sent_by 1 ls = map IByte b1 /\ (forall c, 1 < c -> sent_by c ls = []) /\
  (forall c x, nth_error (ws_conns (f_w (l_f st))) c = Some x -> wc_log x = [] /\ slot_sent (as_slot (wc_slot x)) = []) /\
  (forall l st', ~ lstep true R st l st').
Proof.
  intros R n b1 Tot Hb. destruct (Tot 0) as (rt & Hrt). destruct stages as (k1 & k2 & St).
  destruct (fell R rt n k1 k2 piece1 piece2 Hrt) as (ls & its & Rn & E & N).
  { split; discriminate. }
  { intros x L. now apply St. }
  assert (Ne : map IByte b1 <> []) by (destruct b1; [congruence|discriminate]).
  unfold at2 in Rn.
  eapply frun_step in Rn; [|eapply (fs_arrive _ _ _ 1 1 (map IByte b1)); [cbn; auto|eapply ws_arrive; [reflexivity|reflexivity|exact Ne|apply all_proper]]].
  cbn [wupd set_nth f_w f_p ws_conns ws_queue ws_workers wc_sock wc_event wc_slot wc_log wc_new app] in Rn.
  eapply frun_step in Rn; [|fpoll [EvSocket 1 1 false]].
  cbn [f_w f_p p_batch p_slab p_next p_reg p_jobs p_listening] in Rn.
  apply serving_lrun in Rn. set (w := polled _ _) in Rn.
  assert (D : existsb walive (ws_workers w) = false).
  { subst w. cbn [polled ws_workers]. clear. induction (S n); auto. }
  eexists (LAbort :: map LF _), _, (piece1 ++ piece2 ++ repeat "a"%char (S n)). split; [|split].
  { eapply lrun_step; [exact Rn|]. eapply (ls_abort _ _ _ 0 [] 1 1 [] 1); [reflexivity|reflexivity|reflexivity|exact D]. }
  { reflexivity. }
  assert (K : forall c, sent_by c (LAbort :: map LF (FPolled [EvSocket 1 1 false] :: FW (AArrive 1 (map IByte b1)) :: ls)) =
    received c (wparts ls) ++ (if 1 =? c then map IByte b1 else [])).
  { intros c. unfold sent_by. change (server_parts (LAbort :: ?l)) with (server_parts l). rewrite serving_parts. reflexivity. }
  split; [|split; [|split; [|split; [|split]]]].
  - etransitivity; [apply (K 0)|]. cbn [Nat.eqb]. now rewrite app_nil_r.
  - rewrite !len_app. assert (L : len (repeat "a"%char (S n)) = (1 + N.of_nat n)%N) by (unfold len; rewrite repeat_length; lia).
    rewrite L. replace (len piece1) with 4100%N by (vm_compute; reflexivity). replace (len piece2) with 524%N by (vm_compute; reflexivity). lia.
  - etransitivity; [apply (K 1)|]. cbn [Nat.eqb]. now rewrite N.
  - intros c Hc. etransitivity; [apply (K c)|]. destruct c as [|[|c]]; [lia|lia|]. cbn [Nat.eqb]. now rewrite N.
  - intros c x Nx. subst w. destruct c as [|[|c]]; cbn in Nx; [| |destruct c; discriminate Nx]; injection Nx as <-; split; reflexivity.
  - intros l st' S. inversion S; subst; try congruence; match goal with H : MAborted <> MAborted |- _ => now apply H end.
Qed.
Print Assumptions C111_debug_refuted.

(** The hypotheses are met: the same bytes, sent to a release build, are refused; the poll fails then, and the call
    returns the error. *)
Definition all_of_it : bytes := piece1 ++ piece2.
Definition refusal : bytes := match serve false silent ample wc_new (conn_new []) [RData all_of_it] with (_, Gone b) => b | _ => [] end.
Lemma it_is_refused x : wc_log x = [] -> serve false silent ample x (conn_new []) [RData all_of_it] = ([], Gone refusal).
Proof. intros L. unfold serve. rewrite L. vm_compute. reflexivity. Qed.
Lemma it_waits x : wc_log x = [] -> exists k, serve false silent ample x (conn_new []) [] = ([], Open k).
Proof. intros L. unfold serve. rewrite L. eexists. vm_compute. reflexivity. Qed.

Example C111_case : has_router nobody /\ (forall c, calm_listeners nobody c) /\
  exists ls st x, lrun false nobody (l_init 1) ls st /\ l_main st = MReturned Interrupted /\ sent_by 0 ls = map IByte all_of_it /\
    nth_error (ws_conns (f_w (l_f st))) 0 = Some x /\ wc_log x = [] /\ wc_slot x = WGone refusal /\ refusal = bad_request.
Proof.
  split; [exact nobody_router|]. split; [intros c q l _ ->; discriminate|].
  pose proof (frun_nil false nobody (f_init 1)) as Fn.
  fgo Fn ltac:(fpoll [EvListener]).
  fgo Fn ltac:(fmain Listening ltac:(apply step_listen; reflexivity)).
  fgo Fn ltac:(faccept 0).
  fgo Fn ltac:(fmain Blocked ltac:(apply step_blocked; reflexivity)).
  fgo Fn ltac:(farrive 0 all_of_it).
  fgo Fn ltac:(fpoll [EvSocket 0 0 false]).
  fgo Fn ltac:(fready 0 (Some 0)).
  fgo Fn ltac:(eapply fs_work; [|eapply (ws_take _ _ _ 0 0); reflexivity]; reflexivity).
  fgo Fn ltac:(eapply fs_work; [|eapply (ws_enter _ _ _ 0 0 _ (conn_new []) ample silent); reflexivity]; reflexivity).
  destruct (it_waits (mk_wconn (map IByte all_of_it) false (WTaken (conn_new [])) []) eq_refl) as (k & E0).
  fgo Fn ltac:(eapply fs_work; [|eapply (ws_read _ _ _ 0 0 _ _ _ _ _ (RData all_of_it) []); [reflexivity|reflexivity|reflexivity|exact E0|]]; [reflexivity|rewrite app_nil_r; reflexivity]).
  pose proof (it_is_refused (mk_wconn [] false (WTaken (conn_new [])) []) eq_refl) as E1.
  fgo Fn ltac:(eapply fs_end; [|eapply (ws_close _ _ _ 0 0); [reflexivity|reflexivity|reflexivity|exact E1]|eapply (step_finished _ 0 true); cbn; auto]; reflexivity).
  apply (serving_lrun false nobody 1) in Fn. rename Fn into Rn.
  lgo Rn ltac:(apply (ls_stop _ _ _ _ _ Interrupted); reflexivity).
  lgo Rn ltac:(apply ls_send; reflexivity).
  lgo Rn ltac:(apply ls_sent).
  lgo Rn ltac:(eapply (ls_terminate _ _ _ _ _ _ 0); [discriminate|reflexivity|reflexivity]).
  lgo Rn ltac:(apply ls_join; now left).
  lgo Rn ltac:(apply ls_joined; reflexivity).
  do 3 eexists. split; [exact Rn|]. split; [reflexivity|]. split; [reflexivity|]. split; [reflexivity|]. split; [reflexivity|]. split; [reflexivity|].
  vm_compute. reflexivity.
Qed.
