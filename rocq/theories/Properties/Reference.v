(** The whole server, for each peer, is a function of the bytes that peer sends: C90. *)
From Coq Require Import List Ascii String NArith Bool Arith Lia.
From Verif.Model Require Import Bytes Io Common Parse Encode Writer Server Slab Poll Handlers Whole Full.
From Verif.Spec Require Import Batch Stream Drive Numerals Grammar Wire Output Session Slots Traces Arrivals Events World Unicode.
From Verif.Proofs Require Import BytesFacts IoFacts ParseFacts DriveFacts CallFacts BatchFacts LimitGrammar EncodeFacts Checks WriterFacts OpsFacts ServerFacts ConnFacts FailFacts FailConnFacts SlabFacts PollFacts HandlersFacts WholeFacts FullFacts.
From Verif.Properties Require Import Streaming RoundTrip Server Poll Handlers Whole Full Peers Failures Closing.
Import ListNotations.

(** Bytes of which every first part leaves a request within the library's limits and can be followed by a pause (which
    after any part of an ASCII head or of a body is so). *)
Definition fair (b : bytes) : Prop := forall w x, b = w ++ x -> clean (last_outcome w) /\ in_limits (last_outcome w).

Lemma fair_orderly b eof s : fair b -> live_eof eof s -> ~ In (RErr Interrupted) s -> (exists x, b = pending s ++ x) -> orderly eof s.
Proof.
  intros F L I (x & E). split; auto. split; [|split; [|split]].
  - intros s1 s2 ->. rewrite LimitGrammar.pending_app, <- app_assoc in E. exact (proj1 (F _ _ E)).
  - intros s1 s2 ->. exfalso. apply I, in_or_app. right. now left.
  - intros w y K. rewrite K, <- app_assoc in E. exact (proj2 (F _ _ E)).
  - intros _. exact (proj1 (F _ _ E)).
Qed.

(** What made the server drop a connection stays so, whatever follows. *)
Lemma served_dropped rt h b l o : served rt h b false l o false -> forall x eof, served rt h (b ++ x) eof l o false.
Proof.
  assert (K : forall e k, served rt h b e l o k -> e = false -> k = false -> forall x eof, served rt h (b ++ x) eof l o false); [|intros S; exact (K _ _ S eq_refl eq_refl)].
  intros e k S. induction S as [h b p E|h l Hl E|h b p E N S|h b eof e' E|h b eof v rest E A|h b eof v rest log out keep E A S IH]; intros He Hk x eof'; try discriminate.
  - eapply served_bad. apply batch_request_bad_ext; eauto.
  - eapply served_last; eauto. apply batch_request_complete_ext; eauto.
  - subst. eapply served_next; eauto. apply batch_request_complete_ext; eauto.
Qed.

Lemma resting_here dbg R size ls st c x : has_router R -> frun dbg R (f_init size) ls st -> resting dbg R st -> worker_left (f_w st) = true ->
  nth_error (ws_conns (f_w st)) c = Some x -> accepted_here c ls -> never_removed c ls -> wopen x = true ->
  wc_sock x = [] /\ exists k, wc_slot x = WHere k /\ cn_in k = [].
Proof.
  intros Tot Rn Rest Left N Ac Nr O. destruct (resting_read dbg R _ _ _ _ _ Tot Rn Rest Left N O) as (Es & k & P); [eapply not_removed_held; eauto|].
  split; auto. exists k. split; auto.
  destruct (sim_run dbg R _ _ _ Rn _ (le_n _)) as (L0 & RL & _ & _).
  destruct (winv_run dbg R _ _ _ _ Tot RL c _ (retag_nth _ _ _ _ _ (conn_lt _ _ _ _ _ _ _ Rn N) N)) as [_ _ _ G].
  cbn [with_event wc_slot] in G. rewrite P in G. apply G.
Qed.

Lemma served_kept rt h b e l o : served rt h b e l o true -> o = replies rt h l.
Proof.
  assert (G : forall k, served rt h b e l o k -> k = true -> o = replies rt h l); [|intros S; exact (G _ S eq_refl)].
  intros k S. induction S as [h b p E|h l Hl E|h b p E N S|h b eof e' E|h b eof v rest E A|h b eof v rest log out keep E A S IH]; intros K; try discriminate; auto.
  cbn [replies]. now rewrite IH.
Qed.

(** What is held for connection c, and not yet taken by its socket. *)
Definition held_for (c : nat) (st : fstate) : bytes :=
  match nth_error (ws_conns (f_w st)) c with
  | Some x => match as_slot (wc_slot x) with Open k => unsent (cn_w k) | _ => [] end
  | None => []
  end.

(** In every execution, with any number of peers and workers: when the server has nothing more to do, a worker is left, and
    what a peer sent is b and perhaps the end of its stream, then for that peer the server has done what the reference says
    of b and nothing else: routed these requests in this order, written these bytes, kept the connection or closed it. *)
Theorem C90_reference : forall dbg R size ls st c b (eof : bool), has_router R ->
  frun dbg R (f_init size) ls st -> accepted_here c ls -> never_removed c ls -> works_for R c (calls c (wparts ls)) ->
  fair b -> received c (wparts ls) = map IByte b ++ (if eof then [IEnd] else []) ->
  resting dbg R st -> worker_left (f_w st) = true ->
  exists rt out (keep : bool), (forall h q, R c q (rt h q)) /\ served rt [] b eof (routed c st) out keep /\
    (if keep then connected c st /\ out = sent_on c st ++ held_for c st
     else ~ connected c st /\ exists lost, out = sent_on c st ++ lost) /\
    (Forall visit_steady (calls c (wparts ls)) -> Forall (visit_takes (len out)) (calls c (wparts ls)) -> sent_on c st = out).
Proof.
  intros dbg R size ls st c b eof Tot Rn Ac Nr Wk F Rc Rest Left.
  destruct (accepted_conn _ _ _ _ _ _ Rn Ac) as (x & N). unfold routed, sent_on, held_for. rewrite N.
  destruct (C69_with_event_loop _ _ _ _ _ _ _ Tot Rn N) as (rt & s & busy & H1 & H2 & H3 & H4).
  destruct (works_replies _ _ _ _ Wk H1) as [Np S]. destruct Wk as (_ & V & _). rewrite Rc in H2. exists rt.
  pose proof (resting_here _ _ _ _ _ _ _ Tot Rn Rest Left N Ac Nr) as Here.
  (* The connection has been dropped while a first part had been read. *)
  assert (Part : forall b1, b = pending s ++ b1 -> live s -> ~ In (RErr Interrupted) s -> wopen x = false ->
    exists out keep, (forall h q, R c q (rt h q)) /\ served rt [] b eof (wc_log x) out keep /\
    (if keep : bool then connected c st /\ out = slot_sent (as_slot (wc_slot x)) ++ match as_slot (wc_slot x) with Open k => unsent (cn_w k) | _ => [] end
     else ~ connected c st /\ exists lost, out = slot_sent (as_slot (wc_slot x)) ++ lost) /\
    (Forall visit_steady (calls c (wparts ls)) -> Forall (visit_takes (len out)) (calls c (wparts ls)) -> slot_sent (as_slot (wc_slot x)) = out)).
  { intros b1 -> L I O.
    assert (Od : orderly false s) by (apply (fair_orderly _ false s F); eauto using live_eof_false).
    destruct (as_slot (wc_slot x)) as [k|sent|sent] eqn:K; [unfold wopen in O; destruct (wc_slot x); discriminate| |].
    2:{ exfalso. destruct (C26_responses dbg rt false s _ _ _ Np Od V S H3) as [(? & ? & X & _)|(? & ? & X & _)]; discriminate. }
    destruct (visits_delivered dbg rt false _ Np _ _ _ _ [] (conn_new_fine s) holds_new (orderly_calm _ _ Od) V S H3) as (l & o & El & Sv & Rst & D).
    cbn [app] in El. subst l. rewrite conn_new_output in *. cbn [app cn_in conn_new] in *.
    exists o, false. split; auto. split; [now apply served_dropped|]. split; [|auto]. split; [exact (C89_ended _ _ _ _ _ _ _ Rn N O)|exact Rst]. }
  destruct eof.
  - destruct (items_ended _ _ _ H2) as [(b' & Eb & Er & L & I)|(Er & s0 & s1 & -> & P & L & I & Z)].
    { destruct (open_or_shut x) as [O|O]; [exfalso|eauto].
      destruct (Here O) as (Es & k & P & In0). rewrite H4, Es in Er by (rewrite P; discriminate). destruct b'; discriminate. }
    clear Part.
    assert (Od : orderly true (s0 ++ [RData []])).
    { apply (fair_orderly b); auto.
      - exists s0. auto.
      - intros K. apply in_app_or in K as [K|[K|[]]]; [exact (I K)|discriminate].
      - exists []. rewrite LimitGrammar.pending_app. cbn [pending]. now rewrite !app_nil_r. }
    destruct (visits dbg rt (calls c (wparts ls)) [] (Open (conn_new (s0 ++ [RData []])))) as [log' st'] eqn:E.
    assert (K : (log' = wc_log x /\ st' = as_slot (wc_slot x)) \/ exists m, log' = wc_log x /\ more_slot m st' = as_slot (wc_slot x)).
    { destruct (no_items _ Z) as [-> |(m & ->)]; [left; rewrite H3 in E; inversion E; auto|right]. exists m.
      pose proof (visits_more m dbg rt _ Np _ _ [] _ _ (conn_new_fine _) holds_new (orderly_calm _ _ Od) V S E) as E'.
      change (more m (conn_new (s0 ++ [RData []]))) with (conn_new ((s0 ++ [RData []]) ++ RErr WouldBlock :: m)) in E'.
      rewrite <- app_assoc in E'. cbn [app] in E'. rewrite H3 in E'. inversion E'. auto. }
    pose proof (visits_served dbg rt true _ Np _ _ _ _ [] (conn_new_fine _) holds_new (orderly_calm _ _ Od) V S E) as (new & out & El & Sv).
    assert (G : exists sent, st' = Gone sent /\ as_slot (wc_slot x) = Gone sent /\ log' = wc_log x).
    { destruct st' as [k|sent|sent]; [|exists sent; destruct K as [[K1 K2]|(m & K1 & K2)]; auto|destruct Sv].
      exfalso. destruct (open_or_shut x) as [O|O].
      - destruct (Here O) as (_ & k0 & P0 & In0).
        rewrite P0 in K. cbn [as_slot] in K. destruct K as [[_ K]|(m & _ & K)]; inversion K; subst k0.
        + destruct Sv as (_ & took & cur' & _ & _ & ((s2 & _ & Es1) & _) & _). rewrite In0 in Es1. destruct s2; discriminate.
        + cbn [more cn_in] in In0. destruct (cn_in k); discriminate.
      - unfold wopen in O. destruct (wc_slot x); try discriminate; destruct K as [[_ K]|(m & _ & K)]; discriminate. }
    destruct G as (sent & -> & G & ->). rewrite G. cbn [slot_sent].
    assert (O : wopen x = false) by (unfold wopen; destruct (wc_slot x); try discriminate; reflexivity).
    clear new out El Sv.
    destruct (visits_delivered dbg rt true _ Np _ _ _ _ [] (conn_new_fine _) holds_new (orderly_calm _ _ Od) V S E) as (l & o & El & Sv & Rst & D).
    cbn [app] in El. subst l. rewrite conn_new_output in *. cbn [app cn_in conn_new] in *.
    rewrite LimitGrammar.pending_app in Sv. cbn [pending] in Sv. rewrite app_nil_r, P in Sv.
    exists o, false. split; auto. split; auto. split; [|auto]. split; [exact (C89_ended _ _ _ _ _ _ _ Rn N O)|exact Rst].
  - rewrite app_nil_r in H2. apply items_bytes in H2 as (b1 & Eb & Er & L & I).
    destruct (open_or_shut x) as [O|O]; [|eauto]. clear Part.
    destruct (Here O) as (Es & k & P & In0). rewrite H4, Es in Er by (rewrite P; discriminate). cbn in Er. symmetry in Er. apply map_eq_nil in Er. subst b1.
    assert (Od : orderly false s) by (apply (fair_orderly _ false s F); eauto using live_eof_false). rewrite app_nil_r in Eb. subst b.
    rewrite P in *. cbn [as_slot slot_sent] in *.
    destruct (C26_responses dbg rt false s _ _ _ Np Od V S H3) as [(c0 & got & K & Pg & Sv & _)|(sent & rest & K & Sv)]; [|discriminate].
    inversion K; subst c0. rewrite In0 in Pg. cbn [pending] in Pg. rewrite app_nil_r in Pg. rewrite <- Pg in Sv.
    exists (output k), true. split; auto. split; auto. split; [split; [|reflexivity]|].
    + apply (regs_run _ _ _ _ _ Rn c x N); auto. eapply not_removed_held; eauto.
    + intros St Tk. rewrite (served_kept _ _ _ _ _ _ Sv) in *. eapply C29_delivered_so_far; eauto.
Qed.
Print Assumptions C90_reference.

(** Requests followed by bytes that no request begins with: these requests are routed and answered, then a 400 response is
    written, and the connection is closed; nothing after the first byte that cannot be matters. *)
Theorem C90_malformed : forall dbg R size ls st c b (eof : bool) rs e x, has_router R ->
  frun dbg R (f_init size) ls st -> accepted_here c ls -> never_removed c ls -> works_for R c (calls c (wparts ls)) ->
  fair b -> received c (wparts ls) = map IByte b ++ (if eof then [IEnd] else []) ->
  session b rs e -> (forall r, In r rs -> ~ asks_close r) -> batch_request e = Bad x ->
  resting dbg R st -> worker_left (f_w st) = true ->
  ~ connected c st /\ routed c st = rs /\
  exists rt, (forall h q, R c q (rt h q)) /\ (exists lost, replies rt [] rs ++ bad_request = sent_on c st ++ lost) /\
    (Forall visit_steady (calls c (wparts ls)) -> Forall (visit_takes (len (replies rt [] rs ++ bad_request))) (calls c (wparts ls)) ->
     sent_on c st = replies rt [] rs ++ bad_request).
Proof.
  intros dbg R size ls st c b eof rs e x Tot Rn Ac Nr Wk F Rc Hs A Hb Rest Left.
  destruct (C90_reference _ _ _ _ _ _ _ _ Tot Rn Ac Nr Wk F Rc Rest Left) as (rt & out & keep & H1 & Sv & K & D).
  assert (U : unasking rs) by (apply Forall_forall; exact A).
  destruct (served_unique _ _ _ _ _ _ _ Sv _ _ _ (session_served_bad rt _ _ _ eof x Hs U Hb [])) as (El & -> & ->).
  destruct K as (K & L). split; auto. split; auto. exists rt. auto.
Qed.
Print Assumptions C90_malformed.

(** A request cut short by the end of the stream, after more than one character, gets the same. *)
Theorem C90_truncated : forall dbg R size ls st c b rs e p, has_router R ->
  frun dbg R (f_init size) ls st -> accepted_here c ls -> never_removed c ls -> works_for R c (calls c (wparts ls)) ->
  fair b -> received c (wparts ls) = map IByte b ++ [IEnd] ->
  session b rs e -> (forall r, In r rs -> ~ asks_close r) -> batch_request e = Incomplete p -> e <> [] -> ~ single_char e ->
  resting dbg R st -> worker_left (f_w st) = true ->
  ~ connected c st /\ routed c st = rs /\
  exists rt, (forall h q, R c q (rt h q)) /\ (exists lost, replies rt [] rs ++ bad_request = sent_on c st ++ lost) /\
    (Forall visit_steady (calls c (wparts ls)) -> Forall (visit_takes (len (replies rt [] rs ++ bad_request))) (calls c (wparts ls)) ->
     sent_on c st = replies rt [] rs ++ bad_request).
Proof.
  intros dbg R size ls st c b rs e p Tot Rn Ac Nr Wk F Rc Hs A Hb He1 He2 Rest Left.
  destruct (C90_reference _ _ _ _ _ _ _ true Tot Rn Ac Nr Wk F Rc Rest Left) as (rt & out & keep & H1 & Sv & K & D).
  assert (U : unasking rs) by (apply Forall_forall; exact A).
  destruct (served_unique _ _ _ _ _ _ _ Sv _ _ _ (session_served_truncated rt _ _ _ Hs U He1 He2 (ex_intro _ _ Hb) [])) as (El & -> & ->).
  destruct K as (K & L). split; auto. split; auto. exists rt. auto.
Qed.
Print Assumptions C90_truncated.

(** ** Reads that fail *)

Lemma items_failed k s : k <> WouldBlock -> forall b r, map IByte b ++ [IFail k] = items s ++ r ->
  (exists b', b = pending s ++ b' /\ r = map IByte b' ++ [IFail k] /\ live s /\ ~ In (RErr Interrupted) s) \/
  (r = [] /\ exists s0 s1, s = s0 ++ RErr k :: s1 /\ pending s0 = b /\ live s0 /\ ~ In (RErr Interrupted) s0).
Proof.
  intros Hk. induction s as [|e s IH]; intros b r E.
  - left. exists b. cbn in *. repeat split; auto. constructor.
  - change (e :: s) with ([e] ++ s) in E. rewrite items_app, <- app_assoc in E.
    assert (K : forall bs, map IByte b ++ [IFail k] = map IByte bs ++ items s ++ r -> exists b0, b = bs ++ b0 /\ map IByte b0 ++ [IFail k] = items s ++ r).
    { clear. intros bs. revert b. induction bs as [|y bs IH]; intros b E; cbn [map app] in E; [exists b; auto|].
      destruct b as [|z b]; [discriminate|]. cbn [map app] in E. inversion E; subst. destruct (IH _ H1) as (b0 & -> & H). exists b0. cbn [app]. auto. }
    destruct e as [[|y bs]|j].
    + exfalso. destruct b as [|z b]; discriminate.
    + unfold items in E at 1. cbn [flat_map event_items] in E. rewrite app_nil_r in E.
      destruct (K (y :: bs) E) as (b0 & -> & E'). destruct (IH _ _ E') as [(b' & -> & H1 & H2 & H3)|(H0 & s0 & s1 & -> & H1 & H2 & H3)].
      * left. exists b'. cbn [pending]. rewrite <- app_assoc. repeat split; auto.
        -- constructor; auto. discriminate.
        -- intros [I|I]; [discriminate|auto].
      * right. split; auto. exists (RData (y :: bs) :: s0), s1. cbn [pending]. rewrite H1. repeat split; auto.
        -- constructor; auto. discriminate.
        -- intros [I|I]; [discriminate|auto].
    + assert (J : j = WouldBlock \/ items [RErr j] = [IFail j]) by (destruct j; auto). destruct J as [-> |J].
      * cbn [items flat_map app] in E. destruct (IH _ _ E) as [(b' & -> & H1 & H2 & H3)|(H0 & s0 & s1 & -> & H1 & H2 & H3)].
        -- left. exists b'. cbn [pending]. repeat split; auto.
           ++ constructor; auto. now left.
           ++ intros [I|I]; [discriminate|auto].
        -- right. split; auto. exists (RErr WouldBlock :: s0), s1. cbn [pending]. repeat split; auto.
           ++ constructor; auto. now left.
           ++ intros [I|I]; [discriminate|auto].
      * right. rewrite J in E. destruct b as [|z b]; [|discriminate]. cbn in E. inversion E as [[E1 E2]].
        symmetry in E2. apply app_eq_nil in E2 as [_ ->]. split; auto. subst j. exists [], s. cbn [app pending]. repeat split; auto. constructor.
Qed.

(** The same for a peer whose connection fails (such as by a reset) after b: what the reference says of b is done; if the
    connection was not closed by that it is closed now, after the last words that go with the failure. *)
Theorem C90_failed : forall dbg R size ls st c b k, has_router R ->
  frun dbg R (f_init size) ls st -> accepted_here c ls -> never_removed c ls -> works_for R c (calls c (wparts ls)) ->
  k <> WouldBlock -> k <> InvalidData -> k <> UnexpectedEof -> k <> Interrupted ->
  fair b -> received c (wparts ls) = map IByte b ++ [IFail k] ->
  resting dbg R st -> worker_left (f_w st) = true ->
  ~ connected c st /\
  exists rt out (keep : bool), (forall h q, R c q (rt h q)) /\ served rt [] b false (routed c st) out keep /\
    let all := out ++ (if keep then last_words k else []) in
    (exists lost, all = sent_on c st ++ lost) /\
    (Forall visit_steady (calls c (wparts ls)) -> Forall (visit_takes (len all)) (calls c (wparts ls)) -> sent_on c st = all).
Proof.
  intros dbg R size ls st c b k Tot Rn Ac Nr Wk K1 K2 K3 K4 F Rc Rest Left.
  destruct (accepted_conn _ _ _ _ _ _ Rn Ac) as (x & N). unfold routed, sent_on. rewrite N.
  destruct (C69_with_event_loop _ _ _ _ _ _ _ Tot Rn N) as (rt & s & busy & H1 & H2 & H3 & H4).
  destruct (works_replies _ _ _ _ Wk H1) as [Np S]. destruct Wk as (_ & V & _). rewrite Rc in H2.
  pose proof (resting_here _ _ _ _ _ _ _ Tot Rn Rest Left N Ac Nr) as Here.
  assert (Gone_before : forall s0 sent x0, b = pending s0 ++ x0 -> live s0 -> ~ In (RErr Interrupted) s0 ->
    visits dbg rt (calls c (wparts ls)) [] (Open (conn_new s0)) = (wc_log x, Gone sent) -> as_slot (wc_slot x) = Gone sent ->
    ~ connected c st /\ exists rt out (keep : bool), (forall h q, R c q (rt h q)) /\ served rt [] b false (wc_log x) out keep /\
    let all := out ++ (if keep then last_words k else []) in
    (exists lost, all = slot_sent (as_slot (wc_slot x)) ++ lost) /\
    (Forall visit_steady (calls c (wparts ls)) -> Forall (visit_takes (len all)) (calls c (wparts ls)) -> slot_sent (as_slot (wc_slot x)) = all)).
  { intros s0 sent x0 -> L I E G.
    assert (Od : orderly false s0) by (apply (fair_orderly _ false s0 F); eauto using live_eof_false).
    assert (O : wopen x = false) by (unfold wopen; destruct (wc_slot x); try discriminate; reflexivity).
    split; [exact (C89_ended _ _ _ _ _ _ _ Rn N O)|]. rewrite G. cbn [slot_sent].
    destruct (visits_delivered dbg rt false _ Np _ _ _ _ [] (conn_new_fine s0) holds_new (orderly_calm _ _ Od) V S E) as (l & o & El & Sv & Rst & D).
    cbn [app] in El. subst l. rewrite conn_new_output in *. cbn [app cn_in conn_new] in *.
    exists rt, o, false. rewrite app_nil_r. split; auto. split; [now apply served_dropped|]. cbn zeta. auto. }
  destruct (items_failed k s K1 _ _ H2) as [(b' & Eb & Er & L & I)|(Er & s0 & s1 & -> & P & L & I)].
  - destruct (open_or_shut x) as [O|O].
    { exfalso. destruct (Here O) as (Es & k0 & P & In0). rewrite H4, Es in Er by (rewrite P; discriminate). destruct b'; discriminate. }
    assert (Od : orderly false s) by (apply (fair_orderly b false s F); eauto using live_eof_false).
    destruct (as_slot (wc_slot x)) as [k0|sent|sent] eqn:K; [unfold wopen in O; destruct (wc_slot x); discriminate| |].
    2:{ exfalso. destruct (C26_responses dbg rt false s _ _ _ Np Od V S H3) as [(? & ? & X & _)|(? & ? & X & _)]; discriminate. }
    eapply Gone_before; eauto.
  - assert (Od : orderly false s0) by (apply (fair_orderly b false s0 F); eauto using live_eof_false; exists []; now rewrite app_nil_r).
    destruct (visits dbg rt (calls c (wparts ls)) [] (Open (conn_new s0))) as [l1 st1] eqn:E1.
    change (conn_new (s0 ++ RErr k :: s1)) with (longer k s1 (conn_new s0)) in H3.
    destruct (visits_fails k s1 K2 K1 K3 dbg rt _ Np [] (conn_new s0) _ _ [] (conn_new_fine s0) holds_new (orderly_calm _ _ Od) V S (or_introl K4) E1)
      as [Q|(c' & new & sent & rest & (-> & Z) & En & Q1 & Q2 & Q3)].
    + rewrite Q in H3. injection H3 as El Es. subst l1. destruct st1 as [k0|sent|sent].
      * exfalso. assert (O : wopen x = true) by (unfold wopen; destruct (wc_slot x); auto; discriminate).
        destruct (Here O) as (_ & k1 & P0 & In0). rewrite P0 in Es. cbn [as_slot] in Es. inversion Es; subst k1.
        cbn [longer cn_in] in In0. destruct (cn_in k0); discriminate.
      * eapply (Gone_before s0 sent []); eauto. now rewrite app_nil_r.
      * exfalso. destruct (C26_responses dbg rt false s0 _ _ _ Np Od V S E1) as [(? & ? & X & _)|(? & ? & X & _)]; discriminate.
    + cbn [app] in En. subst l1. rewrite Q1 in H3. injection H3 as El Es. subst new. rewrite <- Es. cbn [slot_sent].
      assert (O : wopen x = false) by (unfold wopen; destruct (wc_slot x); try discriminate; reflexivity).
      split; [exact (C89_ended _ _ _ _ _ _ _ Rn N O)|].
      destruct (C26_responses dbg rt false s0 _ _ _ Np Od V S E1) as [(c0 & got & K & Pg & Sv & _)|(sent' & rest' & K & Sv)]; [|discriminate].
      inversion K; subst c0. rewrite Z in Pg. cbn [pending] in Pg. rewrite app_nil_r in Pg. rewrite <- Pg, P in Sv.
      exists rt, (output c'), true. split; auto. split; auto. rewrite conn_new_output in *. cbn [app] in *. rewrite (served_kept _ _ _ _ _ _ Sv). cbn zeta.
      assert (Ep : FailConnFacts.parting k = last_words k) by (destruct k; reflexivity || congruence). rewrite Ep in *.
      split; [eauto|]. intros _ T. rewrite (Q3 T), app_nil_r in Q2. auto.
Qed.
Print Assumptions C90_failed.

(** ** The same bytes, the same answers *)

(** Take two executions, of servers of any sizes and with any other peers, with listeners that are functions of the request.
    If peer c of the one and peer c' of the other send the same, then, when both servers have nothing more to do, the same
    requests have been routed for them, both connections are kept or both are closed, and (if the sockets take it) the same
    bytes have been sent. *)
Theorem C90_same_bytes_same_answers : forall dbg dbg' f R R' size size' ls ls' st st' c c' b (eof : bool),
  (forall q l, R c q l <-> l = f q) -> (forall q l, R' c' q l <-> l = f q) -> has_router R -> has_router R' ->
  frun dbg R (f_init size) ls st -> accepted_here c ls -> never_removed c ls -> works_for R c (calls c (wparts ls)) ->
  frun dbg' R' (f_init size') ls' st' -> accepted_here c' ls' -> never_removed c' ls' -> works_for R' c' (calls c' (wparts ls')) ->
  fair b -> received c (wparts ls) = map IByte b ++ (if eof then [IEnd] else []) ->
  received c' (wparts ls') = map IByte b ++ (if eof then [IEnd] else []) ->
  resting dbg R st -> worker_left (f_w st) = true -> resting dbg' R' st' -> worker_left (f_w st') = true ->
  routed c st = routed c' st' /\ (connected c st <-> connected c' st') /\
  exists out, (exists more, out = sent_on c st ++ more) /\ (exists more, out = sent_on c' st' ++ more) /\
    (Forall visit_steady (calls c (wparts ls)) -> Forall (visit_takes (len out)) (calls c (wparts ls)) ->
     Forall visit_steady (calls c' (wparts ls')) -> Forall (visit_takes (len out)) (calls c' (wparts ls')) -> sent_on c st = sent_on c' st').
Proof.
  intros dbg dbg' f R R' size size' ls ls' st st' c c' b eof D D' Tot Tot' Rn Ac Nr Wk Rn' Ac' Nr' Wk' F Rc Rc' Rest Left Rest' Left'.
  destruct (C90_reference _ _ _ _ _ _ _ _ Tot Rn Ac Nr Wk F Rc Rest Left) as (rt & out & keep & H1 & Sv & K & T).
  destruct (C90_reference _ _ _ _ _ _ _ _ Tot' Rn' Ac' Nr' Wk' F Rc' Rest' Left') as (rt' & out' & keep' & H1' & Sv' & K' & T').
  assert (E : forall h q, rt h q = rt' h q) by (intros h q; rewrite (proj1 (D _ _) (H1 h q)), (proj1 (D' _ _) (H1' h q)); reflexivity).
  assert (Sv2 : served rt [] b eof (routed c' st') out' keep').
  { revert Sv' E. generalize (@nil request). clear. intros h S E. induction S as [h b p G|h l Hl G|h b p G N S|h b eof e' G|h b eof v rest G A|h b eof v rest log out keep G A S IH].
    - eapply served_wait; eauto.
    - eapply served_closed; eauto.
    - eapply served_truncated; eauto.
    - eapply served_bad; eauto.
    - rewrite <- E. eapply served_last; eauto.
    - rewrite <- E. eapply served_next; eauto. }
  destruct (served_unique _ _ _ _ _ _ _ Sv _ _ _ Sv2) as (El & Eo & Ek). subst out' keep'. split; auto. split.
  - destruct keep, K, K'; tauto.
  - exists out. split; [destruct keep, K as [_ K]; eauto|]. split; [destruct keep, K' as [_ K']; eauto|].
    intros S1 T1 S2 T2. rewrite (T S1 T1), (T' S2 T2). reflexivity.
Qed.
Print Assumptions C90_same_bytes_same_answers.

(** ** What is fair *)

(** Well-formed requests are. *)
Lemma plain_fair rs : Forall plain_request rs -> fair (List.concat (map write_request rs)).
Proof. intros F w x E. exact (plain_prefix rs F w x E). Qed.

(** Others can be checked. *)
Definition small_b (p : progress) : bool :=
  (len (line_of p) <? 512)%N &&
  match p with
  | InFirst _ => true
  | InHeaders n _ => n <? 4096
  | InSized size _ => 2 * size <=? 3145728
  | InChunkLine n _ => n <? 3145728
  | InChunkData n => n <? 3145728
  end%N.
Definition fine_b (o : outcome request) : bool :=
  match o with Incomplete p => utf8 (line_of p) && small_b p | AtEof _ n => (n <? 3145728)%N | _ => true end.
Lemma fine_checked o : fine_b o = true -> clean o /\ in_limits o.
Proof.
  destruct o as [v r|p|v n|e]; cbn [fine_b clean in_limits]; auto.
  - intros H. apply andb_true_iff in H as [H1 H2]. split; auto. unfold small_b in H2. apply andb_true_iff in H2 as [H2 H3]. split; [now apply N.ltb_lt|].
    destruct p; auto; first [now apply N.ltb_lt|now apply N.leb_le].
  - intros H. apply N.ltb_lt in H. auto.
Qed.
Fixpoint fair_check (n : nat) (b : bytes) : bool :=
  fine_b (last_outcome (firstn n b)) && match n with O => true | Datatypes.S n' => fair_check n' b end.
Lemma fair_checked b : fair_check (List.length b) b = true -> fair b.
Proof.
  assert (K : forall n, fair_check n b = true -> forall m, m <= n -> fine_b (last_outcome (firstn m b)) = true).
  { induction n as [|n IH]; intros H m L; cbn [fair_check] in H; apply andb_true_iff in H as [H1 H2].
    - assert (m = 0) as -> by lia. exact H1.
    - destruct (Nat.eq_dec m (Datatypes.S n)) as [-> |Ne]; [exact H1|apply IH; auto; lia]. }
  intros H w x E. apply fine_checked. specialize (K _ H (List.length w)). subst b. rewrite firstn_app, firstn_all, Nat.sub_diag, firstn_O, app_nil_r in K.
  apply K. rewrite app_length. lia.
Qed.

(** ** A case *)

(** One worker.  Peer 0 sends what is no request, and more; peer 1 ends its stream within a request; the connection of peer
    2 fails within a request; peer 3 sends a request and the beginning of another. *)
Definition no_request : bytes := lit "x" ++ crlf ++ lit "y".
Definition begun : bytes := lit "GE".
Definition one_and_more : bytes := write_request get_root ++ lit "P".

Lemma two_chars : ~ single_char begun.
Proof.
  intros (n & Hn & E). unfold encode_scalar in E.
  destruct (n <? 128)%N; [discriminate|]. destruct (n <? 2048)%N eqn:E1; [|destruct (n <? 65536)%N; discriminate].
  change (map bval begun) with [71; 69]%N in E. revert E. generalize (n / 64)%N (n mod 64)%N. intros a b E. assert (71 = 192 + a)%N by congruence. lia.
Qed.

Example C90_case : exists ls st x p, frun true nobody (f_init 1) ls st /\ resting true nobody st /\ worker_left (f_w st) = true /\
  (forall c, c < 4 -> accepted_here c ls /\ never_removed c ls /\ works_for nobody c (calls c (wparts ls))) /\
  fair no_request /\ fair begun /\ fair one_and_more /\
  received 0 (wparts ls) = map IByte no_request /\ batch_request no_request = Bad x /\
  received 1 (wparts ls) = map IByte begun ++ [IEnd] /\ batch_request begun = Incomplete p /\ ~ single_char begun /\
  received 2 (wparts ls) = map IByte begun ++ [IFail (OtherKind 104)] /\
  received 3 (wparts ls) = map IByte one_and_more /\
  sent_on 0 st = bad_request /\ sent_on 1 st = bad_request /\ sent_on 2 st = bad_request /\ sent_on 3 st = not_found /\ connected 3 st.
Proof.
  pose proof (frun_nil true nobody (f_init 1)) as Rn.
  fgo Rn ltac:(fpoll [EvListener]).
  fgo Rn ltac:(fmain Listening ltac:(apply step_listen; reflexivity)).
  fgo Rn ltac:(faccept 0).
  fgo Rn ltac:(faccept 1).
  fgo Rn ltac:(faccept 2).
  fgo Rn ltac:(faccept 3).
  fgo Rn ltac:(fmain Blocked ltac:(apply step_blocked; reflexivity)).
  fgo Rn ltac:(farrive 0 no_request).
  fgo Rn ltac:(eapply (fs_arrive _ _ _ 1 1 (map IByte begun ++ [IEnd])); [cbn; auto|eapply ws_arrive;
    [reflexivity|reflexivity|discriminate|apply Forall_app; split; [apply all_proper|repeat constructor; discriminate]]]).
  fgo Rn ltac:(eapply (fs_arrive _ _ _ 2 2 (map IByte begun ++ [IFail (OtherKind 104)])); [cbn; auto|eapply ws_arrive;
    [reflexivity|reflexivity|discriminate|apply Forall_app; split; [apply all_proper|repeat constructor; discriminate]]]).
  fgo Rn ltac:(eapply (fs_arrive _ _ _ 3 3 (map IByte one_and_more)); [cbn; auto|eapply ws_arrive; [reflexivity|reflexivity|discriminate|apply all_proper]]).
  fgo Rn ltac:(fpoll [EvSocket 0 0 false; EvSocket 1 1 false; EvSocket 2 2 false; EvSocket 3 3 false]).
  fgo Rn ltac:(fready 0 (Some 0)).
  fgo Rn ltac:(fready 1 (Some 1)).
  fgo Rn ltac:(fready 2 (Some 2)).
  fgo Rn ltac:(fready 3 (Some 3)).
  fgo Rn ltac:(eapply fs_work; [|eapply (ws_take _ _ _ 0 0); reflexivity]; reflexivity).
  fgo Rn ltac:(eapply fs_work; [|eapply (ws_enter _ _ _ 0 0 _ _ ample peer0); reflexivity]; reflexivity).
  fgo Rn ltac:(eapply fs_work; [|eapply (ws_read _ _ _ 0 0 _ _ _ _ _ (RData no_request) []); [reflexivity|reflexivity|reflexivity|served|reflexivity]]; reflexivity).
  fgo Rn ltac:(eapply fs_end; [|eapply (ws_close _ _ _ 0 0); [reflexivity|reflexivity|reflexivity|served]|eapply (step_finished _ 0 true); cbn; auto]; reflexivity).
  fgo Rn ltac:(eapply fs_work; [|eapply (ws_take _ _ _ 0 1); reflexivity]; reflexivity).
  fgo Rn ltac:(eapply fs_work; [|eapply (ws_enter _ _ _ 0 1 _ _ ample peer0); reflexivity]; reflexivity).
  fgo Rn ltac:(eapply fs_work; [|eapply (ws_read _ _ _ 0 1 _ _ _ _ _ (RData begun) [IEnd]); [reflexivity|reflexivity|reflexivity|served|reflexivity]]; reflexivity).
  fgo Rn ltac:(eapply fs_work; [|eapply (ws_read _ _ _ 0 1 _ _ _ _ _ (RData []) []); [reflexivity|reflexivity|reflexivity|served|reflexivity]]; reflexivity).
  fgo Rn ltac:(eapply fs_end; [|eapply (ws_close _ _ _ 0 1); [reflexivity|reflexivity|reflexivity|served]|eapply (step_finished _ 1 true); cbn; auto]; reflexivity).
  fgo Rn ltac:(eapply fs_work; [|eapply (ws_take _ _ _ 0 2); reflexivity]; reflexivity).
  fgo Rn ltac:(eapply fs_work; [|eapply (ws_enter _ _ _ 0 2 _ _ ample peer0); reflexivity]; reflexivity).
  fgo Rn ltac:(eapply fs_work; [|eapply (ws_read _ _ _ 0 2 _ _ _ _ _ (RData begun) [IFail (OtherKind 104)]); [reflexivity|reflexivity|reflexivity|served|reflexivity]]; reflexivity).
  fgo Rn ltac:(eapply fs_work; [|eapply (ws_read _ _ _ 0 2 _ _ _ _ _ (RErr (OtherKind 104)) []); [reflexivity|reflexivity|reflexivity|served|reflexivity]]; reflexivity).
  fgo Rn ltac:(eapply fs_end; [|eapply (ws_close _ _ _ 0 2); [reflexivity|reflexivity|reflexivity|served]|eapply (step_finished _ 2 true); cbn; auto]; reflexivity).
  fgo Rn ltac:(eapply fs_work; [|eapply (ws_take _ _ _ 0 3); reflexivity]; reflexivity).
  fgo Rn ltac:(eapply fs_work; [|eapply (ws_enter _ _ _ 0 3 _ _ ample peer0); reflexivity]; reflexivity).
  fgo Rn ltac:(eapply fs_work; [|eapply (ws_read _ _ _ 0 3 _ _ _ _ _ (RData one_and_more) []); [reflexivity|reflexivity|reflexivity|served|reflexivity]]; reflexivity).
  fgo Rn ltac:(eapply fs_work; [|eapply (ws_drain _ _ _ 0 3); [reflexivity|reflexivity|reflexivity|served|reflexivity]]; reflexivity).
  fgo Rn ltac:(eapply fs_end; [|eapply (ws_keep _ _ _ 0 3); [reflexivity|reflexivity|reflexivity|served]|eapply (step_finished _ 3 false); cbn; auto]; reflexivity).
  assert (V : visit_fine ample) by (split; [apply Forall_forall; intros e H; apply repeat_spec in H; subst; exact I|constructor]).
  assert (Vs : visit_steady ample).
  { intros a b n E. exfalso. assert (K : In (WFail WouldBlock) (v_events ample)) by (rewrite E; apply in_or_app; right; now left).
    apply repeat_spec in K. discriminate. }
  do 4 eexists. split; [exact Rn|]. split; [|split; [reflexivity|split; [|
    split; [apply fair_checked; vm_compute; reflexivity|split; [apply fair_checked; vm_compute; reflexivity|split; [apply fair_checked; vm_compute; reflexivity|
    split; [reflexivity|split; [vm_compute; reflexivity|split; [reflexivity|split; [vm_compute; reflexivity|split; [exact two_chars|
    split; [reflexivity|split; [reflexivity|split; [reflexivity|split; [reflexivity|split; [reflexivity|split; [reflexivity|exists 3; cbn; auto]]]]]]]]]]]]]]]]].
  2:{ intros c H. assert (Hc : c = 0 \/ c = 1 \/ c = 2 \/ c = 3) by lia.
      destruct Hc as [-> |[-> |[-> | ->]]]; (split; [unfold accepted_here; cbn [In]; intuition|split; [intros r H'; cbn [In] in H'; intuition discriminate|]]);
        (split; [intros q l _ ->; discriminate|split; [repeat (constructor; auto)|left; repeat (constructor; auto)]]). }
  intros l st' S'.
  match type of S' with fstep _ _ ?s _ _ =>
    assert (Qw : forall l w', wstep true nobody (f_w s) l w' -> outside l = true);
    [|assert (Qp : forall l p', pstep (f_p s) l p' -> l = Polled \/ exists d b, l = Finished d b)] end.
  - clear. intros l w' S. inversion S; subst; auto; cbn [f_w ws_conns ws_queue ws_workers] in *; exfalso;
      repeat match goal with
      | H : nth_error _ ?i = Some _ |- _ => is_var i; destruct i as [|i]; cbn [nth_error] in H; try discriminate; try (injection H as <-; cbn in *)
      end; try discriminate; try congruence.
  - clear. intros l p' S. inversion S; subst; try discriminate; eauto.
  - inversion S' as [? ? ? ? ? G S|? ? ? ? G S|? p' S F|? l0 p' M S|? c ok p' S|? c r p' S A|? l0 w' I S|? l0 d b w' p' E S S0]; subst; auto.
    + inversion S; subst. cbn [p_batch from_outside]. destruct evs as [|[|c t b] evs]; auto. exfalso.
      destruct (F c t b (or_introl eq_refl)) as (x & N & Ex). destruct c as [|[|[|[|c]]]]; cbn in N; [| | | |destruct c; discriminate]; injection N as <-; discriminate.
    + destruct (Qp _ _ S) as [-> |(d & b & ->)]; discriminate.
    + destruct (Qp _ _ S) as [H|(d & b & H)]; discriminate.
    + specialize (Qw _ _ S). destruct l0; discriminate.
    + specialize (Qw _ _ S). destruct l0; discriminate.
Qed.
