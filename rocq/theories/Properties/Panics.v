(** Listeners that may panic: up to the request at which one does, a connection is served as ever.  C114. *)
From Coq Require Import List Ascii String NArith Bool Arith Lia.
From Verif.Model Require Import Bytes Io Common Parse Encode Writer Server Slab Poll Handlers Whole Full.
From Verif.Spec Require Import Batch Stream Drive Numerals Grammar Wire Output Session Slots Traces Arrivals Events World Unicode Oversize Early Spoken Panics.
From Verif.Proofs Require Import BytesFacts IoFacts ParseFacts DriveFacts CallFacts BatchFacts GrammarFacts LimitGrammar EncodeFacts ServerFacts ConnFacts WholeFacts FullFacts UnwindFacts OversizeFacts EarlyFacts PanicFacts.
From Verif.Properties Require Import Streaming RoundTrip Limits Server Poll Handlers Whole Full Peers Failures Closing Reference LongLines Oversize Early Spoken.
Import ListNotations.

(** Input of any size, and any listeners.  While the connection is kept, or when it was dropped in order, no listener has
    panicked and what was done is what the reference says.  When a call unwound, a listener has panicked at the last of the
    requests routed and those before it were answered, or (in a debug build) the next request is over the limits. *)
Theorem C114_connection : forall dbg rt eof s vs log st,
  any_size eof s -> Forall visit_fine vs -> Forall visit_steady vs \/ short_replies rt ->
  visits dbg rt vs [] (Open (conn_new s)) = (log, st) ->
  match st with
  | Open c => unharmed rt [] log /\ exists got, pending s = got ++ pending (cn_in c) /\ served rt [] got false log (output c) true /\
      ((blocks s < List.length vs)%nat -> pending (cn_in c) = [] /\ eof = false)
  | Gone sent => unharmed rt [] log /\ exists out, (served rt [] (pending s) eof log out false \/
        exists o, too_big rt [] (pending s) log o /\ out = o ++ bad_request) /\
      (exists lost, out = sent ++ lost) /\ (Forall (visit_takes (len out)) vs -> sent = out)
  | Poisoned sent => exists out, (panics_at rt [] (pending s) log out \/ dbg = true /\ unharmed rt [] log /\ too_big rt [] (pending s) log out) /\
      (exists lost, out = sent ++ lost) /\ (Forall (visit_takes (len out)) vs -> sent = out)
  end.
Proof.
  intros dbg rt eof s vs log st O F S E.
  destruct (visits_any dbg rt eof vs [] (conn_new s) log st [] (conn_new_fine s) holds_new (any_size_tame _ _ O) F S E)
    as (new & out & El & R). cbn [app] in El. subst new. rewrite conn_new_output in R. cbn [app cn_in conn_new] in R. destruct st as [c|sent|sent].
  - destruct R as (R1 & took & cur & P & (H1 & _) & _ & H3 & _ & _ & U & B). split; auto. exists took. split; auto. split.
    + specialize (H3 [] false [] [] true). rewrite !app_nil_r in H3. cbn [app] in H3. rewrite R1. apply H3.
      destruct (batch_request cur) as [v rest|p|v n|x] eqn:Eb; try destruct H1; [eapply served_wait; eauto|].
      exfalso. exact (batch_request_not_eof _ _ _ Eb).
    + intros L. destruct B as [B|B]; auto. lia.
  - destruct R as (U & R). split; auto. exists out. tauto.
  - destruct R as ([[U R]|R] & R'); exists out; split; auto. right. split; auto. destruct dbg; auto. exfalso. exact (release_panics _ _ _ _ _ E U).
Qed.
Print Assumptions C114_connection.

Lemma panics_says rt h b log out : panics_at rt h b log out ->
  exists l v, log = l ++ [v] /\ unharmed rt h l /\ rt (h ++ l) v = LPanic /\ out = replies rt h l.
Proof.
  induction 1 as [h b v rest E P|h b v rest log out E N A S (l & u & -> & U & P & ->)].
  - exists [], v. rewrite app_nil_r. cbn [unharmed]. auto.
  - exists (v :: l), u. rewrite <- app_assoc in P. cbn [unharmed replies]. auto.
Qed.
Lemma panics_first rt h b log out : panics_at rt h b log out -> first_of b log.
Proof.
  induction 1 as [h b v rest E P|h b v rest log out E N A S (rs & e & IH)].
  - destruct (session_total rest) as (rs & e & H). exists rs, e. eapply session_next; eauto.
  - exists rs, e. eapply session_next; eauto.
Qed.

Lemma visits_more_panics m dbg rt vs : forall log c cur log' st', conn_fine c -> holds (cn_parser c) cur -> tame true cur (cn_in c) ->
  Forall visit_fine vs -> (Forall visit_steady vs \/ short_replies rt) -> visits dbg rt vs log (Open c) = (log', st') ->
  visits dbg rt vs log (Open (more m c)) = (log', more_slot m st').
Proof.
  induction vs as [|v vs IH]; intros log c cur log' st' Hc Hh Hs F S E; cbn [visits] in *; [inversion E; subst; reflexivity|].
  inversion F as [|? ? F1 F2]; subst.
  assert (Sv : visit_steady v \/ short_replies rt) by (destruct S as [S|S]; [inversion S|]; auto).
  assert (Svs : Forall visit_steady vs \/ short_replies rt) by (destruct S as [S|S]; [inversion S|]; auto).
  destruct (handle dbg rt v log (Open c)) as [l1 st1] eqn:Eh.
  assert (Eh1 : visits dbg rt [v] log (Open c) = (l1, st1)) by (cbn [visits]; now rewrite Eh).
  destruct (visits_any dbg rt true [v] _ _ _ _ _ Hc Hh Hs (Forall_cons _ F1 (Forall_nil _))
    ltac:(destruct Sv; [left; repeat constructor|right]; auto) Eh1) as (n1 & o1 & _ & R).
  pose proof Eh as Ew. apply handle_writes in Ew as (n0 & t0 & _ & _ & H0); auto.
  assert (Ne : forall c', st1 = Open c' -> cn_in c' <> []).
  { intros c' ->. destruct R as (_ & took & cur' & _ & _ & ((s0 & _ & Es) & _) & _). rewrite Es. destruct s0; discriminate. }
  destruct Hc as (Hp & Hc). destruct (handle_more m dbg rt v log c l1 st1 Hp Eh) as [-> |(c' & K1 & K2)]; [|exfalso; exact (Ne _ K1 K2)].
  destruct st1 as [c1|x|x]; cbn [more_slot].
  - destruct R as (_ & took & cur' & _ & J1 & J2 & _). eapply IH; eauto. apply H0.
  - rewrite visits_shut in * by discriminate. inversion E; subst. reflexivity.
  - rewrite visits_shut in * by discriminate. inversion E; subst. reflexivity.
Qed.

(** What may be said when listeners may panic: as Spec/Spoken.v if none has; else the answers to the requests before the
    last that was routed, at which one did. *)
Definition sayable_or_panic (rt : router) (b : bytes) (ended : bool) (log : list request) (out : bytes) : Prop :=
  (unharmed rt [] log /\ sayable rt b ended log out) \/
  exists l v, log = l ++ [v] /\ unharmed rt [] l /\ rt l v = LPanic /\ out = replies rt [] l.

(** As C113_always, for any listeners: at every moment of every execution, in either build. *)
Theorem C114_always : forall dbg R size ls st c b (eof : bool) said log, has_router R ->
  frun dbg R (f_init size) ls st -> Forall visit_fine (all_calls c ls st) -> Forall visit_steady (all_calls c ls st) \/ short_listeners R c ->
  whole_chars b -> received c (wparts ls) = map IByte b ++ (if eof then [IEnd] else []) ->
  shows dbg c (f_w st) said log ->
  first_of b log /\
  exists rt out later, (forall h q, R c q (rt h q)) /\ sayable_or_panic rt b eof log out /\ out = said ++ later.
Proof.
  intros dbg R size ls st c b eof said log Tot Rn V0 S0 F Rc Sh.
  destruct (C112_reference _ _ _ _ _ _ _ _ Tot Rn Sh) as (rt & s & sl & vs & rest & H1 & H2 & H3 & H4 & H5).
  assert (V : Forall visit_fine vs) by (rewrite Forall_forall in *; auto).
  assert (S : Forall visit_steady vs \/ short_replies rt).
  { destruct S0 as [S|S]; [left; rewrite Forall_forall in *; auto|right]. intros h u r K. eapply S. rewrite <- K. apply H1. }
  clear V0 S0. rewrite Rc in H2.
  assert (G : forall e s' st', any_size e s' -> visits dbg rt vs [] (Open (conn_new s')) = (log, st') -> said = slot_sent st' ->
    (exists b1, b = pending s' ++ b1 /\ (e = true -> b1 = [] /\ eof = true)) ->
    first_of b log /\ exists rt out later, (forall h q, R c q (rt h q)) /\ sayable_or_panic rt b eof log out /\ out = said ++ later).
  { intros e s' st' A E -> (b1 & -> & He). pose proof (C114_connection dbg rt e s' _ _ _ A V S E) as K.
    assert (Up : faulty (pending s') e log -> faulty (pending s' ++ b1) eof log).
    { destruct e; [destruct (He eq_refl) as [-> ->]; now rewrite app_nil_r|apply faulty_more]. }
    assert (Un : faulty (pending s') false log -> faulty (pending s' ++ b1) eof log) by apply faulty_more.
    destruct st' as [k|sent|sent].
    - destruct K as (U & got & Eg & K & _). rewrite Eg, <- app_assoc. split; [apply first_of_more; eapply served_first; eauto|].
      exists rt, (output k), (unsent (cn_w k)). split; auto. split; [|reflexivity]. left. split; auto.
      destruct (served_says _ _ _ _ _ _ _ K) as [Ho|(Hk & _)]; [now left|discriminate].
    - destruct K as (U & out & K & (lost & Hl) & _). cbn [slot_sent]. split.
      + apply first_of_more. destruct K as [K|(o & K & _)]; [eapply served_first; eauto|eapply too_big_first; eauto].
      + exists rt, out, lost. split; auto. split; auto. left. split; auto. destruct K as [K|(o & K & ->)].
        * destruct (served_says _ _ _ _ _ _ _ K) as [Ho|(_ & Ho & Hf)]; [now left|right; auto].
        * destruct (too_big_says _ _ _ _ _ K) as (-> & Hf). right. auto.
    - destruct K as (out & [K|(_ & U & K)] & (lost & Hl) & _); cbn [slot_sent].
      + split; [apply first_of_more; eapply panics_first; eauto|]. exists rt, out, lost. split; auto. split; auto. right. exact (panics_says _ _ _ _ _ K).
      + split; [apply first_of_more; eapply too_big_first; eauto|].
        destruct (too_big_says _ _ _ _ _ K) as (-> & Hf). exists rt, (replies rt [] log), lost. split; auto. split; auto. left. split; auto. now left. }
  assert (Part : forall b1, b = pending s ++ b1 -> live s -> ~ In (RErr Interrupted) s ->
    first_of b log /\ exists rt out later, (forall h q, R c q (rt h q)) /\ sayable_or_panic rt b eof log out /\ out = said ++ later).
  { intros b1 Eb L I. eapply (G false); eauto; [apply (chars_any_size b); eauto using live_eof_false|]. exists b1. split; auto. discriminate. }
  destruct eof.
  2:{ rewrite app_nil_r in H2. apply items_bytes in H2 as (b1 & Eb & Er & L & I). eauto. }
  destruct (items_ended _ _ _ H2) as [(b' & Eb & Er & L & I)|(Er & s0 & s1 & -> & P & L & I & Z)]; eauto.
  assert (A : any_size true (s0 ++ [RData []])).
  { apply (chars_any_size b); auto.
    - exists s0. auto.
    - intros K. apply in_app_or in K as [K|[K|[]]]; [exact (I K)|discriminate].
    - exists []. rewrite LimitGrammar.pending_app. cbn [pending]. now rewrite !app_nil_r. }
  assert (Pb : exists b1, b = pending (s0 ++ [RData []]) ++ b1 /\ (true = true -> b1 = [] /\ true = true)).
  { exists []. rewrite LimitGrammar.pending_app. cbn [pending]. rewrite !app_nil_r. auto. }
  destruct (visits dbg rt vs [] (Open (conn_new (s0 ++ [RData []])))) as [log' st'] eqn:E.
  assert (El : log' = log /\ slot_sent st' = slot_sent sl).
  { destruct (no_items _ Z) as [-> |(m & ->)]; [rewrite H3 in E; inversion E; auto|].
    pose proof (visits_more_panics m dbg rt _ _ _ [] _ _ (conn_new_fine _) holds_new (any_size_tame _ _ A) V S E) as E'.
    change (more m (conn_new (s0 ++ [RData []]))) with (conn_new ((s0 ++ [RData []]) ++ RErr WouldBlock :: m)) in E'.
    rewrite <- app_assoc in E'. cbn [app] in E'. rewrite H3 in E'. inversion E'. split; auto. destruct st'; reflexivity. }
  destruct El as [-> El]. eapply (G true); eauto. congruence.
Qed.
Print Assumptions C114_always.

(** A request at which the listeners panic is the last that is ever routed for its connection, and is not answered. *)
Theorem C114_last : forall dbg R size ls st c b (eof : bool) said log a v l, has_router R ->
  frun dbg R (f_init size) ls st -> Forall visit_fine (all_calls c ls st) -> Forall visit_steady (all_calls c ls st) \/ short_listeners R c ->
  whole_chars b -> received c (wparts ls) = map IByte b ++ (if eof then [IEnd] else []) ->
  shows dbg c (f_w st) said log -> log = a ++ v :: l -> (forall r, R c v r -> r = LPanic) ->
  l = [] /\ exists rt later, (forall h q, R c q (rt h q)) /\ replies rt [] a = said ++ later.
Proof.
  intros dbg R size ls st c b eof said log a v l Tot Rn V S F Rc Sh El Pv.
  destruct (C114_always _ _ _ _ _ _ _ _ _ _ Tot Rn V S F Rc Sh) as (_ & rt & out & later & H1 & Sy & Eo). subst log.
  assert (Hu : forall rest h, unharmed rt h (a ++ v :: rest) -> False).
  { clear - Pv H1. induction a as [|q a IH]; intros rest h U; cbn [app unharmed] in U; [apply (proj1 U); auto|]. destruct U as [_ U]. eapply IH; eauto. }
  destruct Sy as [[U _]|(l0 & v0 & E & U & _ & ->)]; [destruct (Hu _ _ U)|].
  assert (K : l = [] \/ exists l1 x, l = l1 ++ [x]) by (destruct l using rev_ind; eauto).
  destruct K as [-> |(l1 & x & ->)].
  - apply app_inj_tail in E as [-> ->]. split; auto. exists rt, later. auto.
  - exfalso. rewrite app_comm_cons, app_assoc in E. apply app_inj_tail in E as [<- _]. exact (Hu _ _ U).
Qed.
Print Assumptions C114_last.

Lemma panics_longer rt h b l o : panics_at rt h b l o -> forall x, panics_at rt h (b ++ x) l o.
Proof.
  induction 1 as [h b v rest E P|h b v rest log out E N A S IH]; intros x.
  - apply (panics_here _ _ _ v (rest ++ x)); auto. now apply batch_request_complete_ext.
  - apply (panics_next _ _ _ v (rest ++ x)); auto. now apply batch_request_complete_ext.
Qed.

(** What the server did for a connection that it has closed. *)
Definition ended_as (rt : router) (dbg : bool) (b : bytes) (eof : bool) (log : list request) (out : bytes) : Prop :=
  (unharmed rt [] log /\ (served rt [] b eof log out false \/ exists o, too_big rt [] b log o /\ out = o ++ bad_request)) \/
  panics_at rt [] b log out \/
  (dbg = true /\ unharmed rt [] log /\ too_big rt [] b log out).

(** When the server, of either build and with any listeners, has nothing more to do and a worker is left: either a peer's
    connection is kept, no listener has panicked on it, and all of its complete requests were routed and answered; or it was
    closed, after it was served as the reference says, or up to a request at which a listener panicked, or up to one over
    the limits. *)
Theorem C114_rest : forall dbg R size ls st c b (eof : bool), has_router R ->
  frun dbg R (f_init size) ls st -> accepted_here c ls -> never_removed c ls ->
  Forall visit_fine (calls c (wparts ls)) -> Forall visit_steady (calls c (wparts ls)) \/ short_listeners R c ->
  whole_chars b -> received c (wparts ls) = map IByte b ++ (if eof then [IEnd] else []) ->
  resting dbg R st -> worker_left (f_w st) = true ->
  exists rt out, (forall h q, R c q (rt h q)) /\
    (connected c st /\ eof = false /\ unharmed rt [] (routed c st) /\ served rt [] b false (routed c st) out true /\ out = sent_on c st ++ held_for c st \/
     ~ connected c st /\ ended_as rt dbg b eof (routed c st) out /\ (exists lost, out = sent_on c st ++ lost) /\
       (Forall (visit_takes (len out)) (calls c (wparts ls)) -> sent_on c st = out)).
Proof.
  intros dbg R size ls st c b eof Tot Rn Ac Nr V S0 F Rc Rest Left.
  destruct (accepted_conn _ _ _ _ _ _ Rn Ac) as (x & N). unfold routed, sent_on, held_for. rewrite N.
  destruct (C69_with_event_loop _ _ _ _ _ _ _ Tot Rn N) as (rt & s & busy & H1 & H2 & H3 & H4).
  assert (S : Forall visit_steady (calls c (wparts ls)) \/ short_replies rt).
  { destruct S0 as [S|S]; [now left|right]. intros h u r K. eapply S. rewrite <- K. apply H1. }
  clear S0. rewrite Rc in H2.
  pose proof (resting_here _ _ _ _ _ _ _ Tot Rn Rest Left N Ac Nr) as Here.
  (* The connection has been dropped. *)
  assert (Drop : forall e s' sl, any_size e s' -> wopen x = false -> as_slot (wc_slot x) = sl -> (forall k, sl <> Open k) ->
    visits dbg rt (calls c (wparts ls)) [] (Open (conn_new s')) = (wc_log x, sl) ->
    (exists b1, b = pending s' ++ b1 /\ (e = true -> b1 = [] /\ eof = true)) ->
    exists out, ~ connected c st /\ ended_as rt dbg b eof (wc_log x) out /\ (exists lost, out = slot_sent (as_slot (wc_slot x)) ++ lost) /\
       (Forall (visit_takes (len out)) (calls c (wparts ls)) -> slot_sent (as_slot (wc_slot x)) = out)).
  { intros e s' sl A O G No Vs (b1 & -> & Be). pose proof (C89_ended _ _ _ _ _ _ _ Rn N O) as Nc.
    pose proof (C114_connection dbg rt e s' _ _ _ A V S Vs) as K. rewrite G. destruct sl as [k|sent|sent]; [destruct (No k eq_refl)| |]; cbn [slot_sent].
    - destruct K as (U & out & K & Rst & D). exists out. split; auto. split; [|auto]. left. split; auto. destruct K as [K|(o & K & ->)].
      + left. destruct e.
        * destruct (Be eq_refl) as [-> ->]. rewrite app_nil_r. exact K.
        * now apply served_dropped.
      + right. exists o. split; auto. now apply too_big_longer.
    - destruct K as (out & K & Rst & D). exists out. split; auto. split; [|auto]. right. destruct K as [K|(D1 & U & K)]; [left; now apply panics_longer|].
      right. split; auto. split; auto. now apply too_big_longer. }
  assert (Fin : forall out, ~ connected c st /\ ended_as rt dbg b eof (wc_log x) out /\ (exists lost, out = slot_sent (as_slot (wc_slot x)) ++ lost) /\
       (Forall (visit_takes (len out)) (calls c (wparts ls)) -> slot_sent (as_slot (wc_slot x)) = out) ->
    exists rt out, (forall h q, R c q (rt h q)) /\
    (connected c st /\ eof = false /\ unharmed rt [] (wc_log x) /\ served rt [] b false (wc_log x) out true /\
       out = slot_sent (as_slot (wc_slot x)) ++ match as_slot (wc_slot x) with Open k => unsent (cn_w k) | _ => [] end \/
     ~ connected c st /\ ended_as rt dbg b eof (wc_log x) out /\ (exists lost, out = slot_sent (as_slot (wc_slot x)) ++ lost) /\
       (Forall (visit_takes (len out)) (calls c (wparts ls)) -> slot_sent (as_slot (wc_slot x)) = out))).
  { intros out H. exists rt, out. split; [exact H1|]. right. exact H. }
  assert (Shut : wopen x = false -> forall k, as_slot (wc_slot x) <> Open k) by (intros O k; unfold wopen in O; destruct (wc_slot x); discriminate).
  assert (Part : forall b1, b = pending s ++ b1 -> live s -> ~ In (RErr Interrupted) s -> wopen x = false ->
    any_size false s /\ exists b1, b = pending s ++ b1 /\ (false = true -> b1 = [] /\ eof = true)).
  { intros b1 -> L I O. split; [apply (chars_any_size _ false s F); eauto using live_eof_false|]. exists b1. split; auto. discriminate. }
  destruct eof.
  - destruct (items_ended _ _ _ H2) as [(b' & Eb & Er & L & I)|(Er & s0 & s1 & -> & P & L & I & Z)].
    { destruct (open_or_shut x) as [O|O].
      - exfalso. destruct (Here O) as (Es & k & P & In0). rewrite H4, Es in Er by (rewrite P; discriminate). destruct b'; discriminate.
      - destruct (Part _ Eb L I O) as (A & Q). destruct (Drop _ _ _ A O eq_refl (Shut O) H3 Q) as (out & H). exact (Fin out H). }
    assert (A : any_size true (s0 ++ [RData []])).
    { apply (chars_any_size b); auto.
      - exists s0. auto.
      - intros K. apply in_app_or in K as [K|[K|[]]]; [exact (I K)|discriminate].
      - exists []. rewrite LimitGrammar.pending_app. cbn [pending]. now rewrite !app_nil_r. }
    destruct (visits dbg rt (calls c (wparts ls)) [] (Open (conn_new (s0 ++ [RData []])))) as [log' st'] eqn:E.
    assert (K : (log' = wc_log x /\ st' = as_slot (wc_slot x)) \/ exists m, log' = wc_log x /\ more_slot m st' = as_slot (wc_slot x)).
    { destruct (no_items _ Z) as [-> |(m & ->)]; [left; rewrite H3 in E; inversion E; auto|right]. exists m.
      pose proof (visits_more_panics m dbg rt _ _ _ [] _ _ (conn_new_fine _) holds_new (any_size_tame _ _ A) V S E) as E'.
      change (more m (conn_new (s0 ++ [RData []]))) with (conn_new ((s0 ++ [RData []]) ++ RErr WouldBlock :: m)) in E'.
      rewrite <- app_assoc in E'. cbn [app] in E'. rewrite H3 in E'. inversion E'. auto. }
    pose proof (visits_any dbg rt true _ _ _ _ _ [] (conn_new_fine _) holds_new (any_size_tame _ _ A) V S E) as (new & out & El & Sv).
    assert (G : as_slot (wc_slot x) = st' /\ (forall k, st' <> Open k) /\ log' = wc_log x).
    { destruct st' as [k|sent|sent]; [|split; [|split; [discriminate|]]; destruct K as [[K1 K2]|(m & K1 & K2)]; auto|
        split; [|split; [discriminate|]]; destruct K as [[K1 K2]|(m & K1 & K2)]; auto].
      exfalso. destruct (open_or_shut x) as [O|O].
      - destruct (Here O) as (_ & k0 & P0 & In0).
        rewrite P0 in K. cbn [as_slot] in K. destruct K as [[_ K]|(m & _ & K)]; inversion K; subst k0.
        + destruct Sv as (_ & took & cur' & _ & _ & ((s2 & _ & Es1) & _) & _). rewrite In0 in Es1. destruct s2; discriminate.
        + cbn [more cn_in] in In0. destruct (cn_in k); discriminate.
      - unfold wopen in O. destruct (wc_slot x); try discriminate; destruct K as [[_ K]|(m & _ & K)]; discriminate. }
    destruct G as (G & No & ->).
    assert (O : wopen x = false) by (unfold wopen; destruct (wc_slot x) as [k|k|y|y]; cbn [as_slot] in G; try reflexivity; destruct (No k); auto).
    destruct (Drop true _ _ A O G No E) as (o & H); [|exact (Fin o H)].
    exists []. rewrite LimitGrammar.pending_app. cbn [pending]. rewrite !app_nil_r. auto.
  - rewrite app_nil_r in H2. apply items_bytes in H2 as (b1 & Eb & Er & L & I).
    destruct (open_or_shut x) as [O|O].
    2:{ destruct (Part _ Eb L I O) as (A & Q). destruct (Drop _ _ _ A O eq_refl (Shut O) H3 Q) as (out & H). exact (Fin out H). }
    destruct (Here O) as (Es & k & P & In0). rewrite H4, Es in Er by (rewrite P; discriminate). cbn in Er. symmetry in Er. apply map_eq_nil in Er. subst b1.
    assert (A : any_size false s) by (apply (chars_any_size _ false s F); eauto using live_eof_false). rewrite app_nil_r in Eb. subst b.
    rewrite P in *. cbn [as_slot slot_sent] in *.
    destruct (C114_connection dbg rt false s _ _ _ A V S H3) as (U & got & Pg & Sv & _).
    rewrite In0 in Pg. cbn [pending] in Pg. rewrite app_nil_r in Pg. rewrite <- Pg in Sv.
    exists rt, (output k). split; auto. left. split; [|split; [reflexivity|split; [exact U|split; [exact Sv|reflexivity]]]].
    apply (regs_run _ _ _ _ _ Rn c x N); auto. eapply not_removed_held; eauto.
Qed.
Print Assumptions C114_rest.

(** ** A case *)

(** Listeners that pass on requests for / and panic at others. *)
Definition fussy_router : router := fun _ q => if beqb (rq_uri q) (lit "/") then LNext else LPanic.
Definition fussy (c : nat) (q : request) (l : lresult) : Prop := l = fussy_router [] q.
Definition two_requests : bytes := lit "GET / HTTP/1.1" ++ crlf ++ crlf ++ lit "GET /x HTTP/1.1" ++ crlf ++ crlf.
Lemma shows_then dbg c st x b log : nth_error (ws_conns st) c = Some x -> (forall k, wc_slot x <> WTaken k) ->
  slot_sent (as_slot (wc_slot x)) = b -> wc_log x = log -> shows dbg c st b log.
Proof. intros N P <- <-. now apply shows_between. Qed.
(** A peer asks for / and then for something else: it was answered once, and then the call unwound. *)
Example C114_case : exists ls st said log a v, has_router fussy /\ frun false fussy (f_init 1) ls st /\
  Forall visit_fine (all_calls 0 ls st) /\ Forall visit_steady (all_calls 0 ls st) /\
  whole_chars two_requests /\ received 0 (wparts ls) = map IByte two_requests /\
  shows false 0 (f_w st) said log /\ said = not_found /\ log = a ++ [v] /\ List.length a = 1 /\ (forall r, fussy 0 v r -> r = LPanic) /\
  ws_workers (f_w st) = [WDead].
Proof.
  pose proof (frun_nil false fussy (f_init 1)) as Rn.
  fgo Rn ltac:(fpoll [EvListener]).
  fgo Rn ltac:(fmain Listening ltac:(apply step_listen; reflexivity)).
  fgo Rn ltac:(faccept 0).
  fgo Rn ltac:(fmain Blocked ltac:(apply step_blocked; reflexivity)).
  fgo Rn ltac:(farrive 0 two_requests).
  fgo Rn ltac:(fpoll [EvSocket 0 0 false]).
  fgo Rn ltac:(fready 0 (Some 0)).
  fgo Rn ltac:(eapply fs_work; [|eapply (ws_take _ _ _ 0 0); reflexivity]; reflexivity).
  fgo Rn ltac:(eapply fs_work; [|eapply (ws_enter _ _ _ 0 0 _ _ ample fussy_router); reflexivity]; reflexivity).
  fgo Rn ltac:(eapply fs_work; [|eapply (ws_read _ _ _ 0 0 _ _ _ _ _ (RData two_requests) []); [reflexivity|reflexivity|reflexivity|served|reflexivity]]; reflexivity).
  fgo Rn ltac:(eapply fs_end; [|eapply (ws_crash _ _ _ 0 0); [reflexivity|reflexivity|reflexivity|served]|eapply (step_finished _ 0 true); cbn; auto]; reflexivity).
  assert (V : visit_fine ample) by (split; [apply Forall_forall; intros e H; apply repeat_spec in H; subst; exact I|constructor]).
  assert (Vs : visit_steady ample).
  { intros a b n E. exfalso. assert (K : In (WFail WouldBlock) (v_events ample)) by (rewrite E; apply in_or_app; right; now left).
    apply repeat_spec in K. discriminate. }
  do 2 eexists. exists not_found. eexists. eexists [_]. eexists. split; [intros c; exists fussy_router; intros h q; reflexivity|]. split; [exact Rn|].
  split; [repeat (constructor; auto)|]. split; [repeat (constructor; auto)|].
  split; [apply C106_ascii, ascii_by; vm_compute; reflexivity|]. split; [reflexivity|].
  split; [eapply shows_then; [reflexivity|discriminate|reflexivity|reflexivity]|].
  split; [reflexivity|]. split; [reflexivity|]. split; [reflexivity|]. split; [intros r ->; vm_compute; reflexivity|reflexivity].
Qed.

(** The same with two workers, at rest: one worker is left, and the connection was closed after the first answer. *)
Example C114_rest_case : exists ls st, has_router fussy /\ frun false fussy (f_init 2) ls st /\ resting false fussy st /\ worker_left (f_w st) = true /\
  accepted_here 0 ls /\ never_removed 0 ls /\ Forall visit_fine (calls 0 (wparts ls)) /\ Forall visit_steady (calls 0 (wparts ls)) /\
  whole_chars two_requests /\ received 0 (wparts ls) = map IByte two_requests /\ ~ connected 0 st /\ sent_on 0 st = not_found /\
  List.length (routed 0 st) = 2 /\ ws_workers (f_w st) = [WDead; WFree].
Proof.
  pose proof (frun_nil false fussy (f_init 2)) as Rn.
  fgo Rn ltac:(fpoll [EvListener]).
  fgo Rn ltac:(fmain Listening ltac:(apply step_listen; reflexivity)).
  fgo Rn ltac:(faccept 0).
  fgo Rn ltac:(fmain Blocked ltac:(apply step_blocked; reflexivity)).
  fgo Rn ltac:(farrive 0 two_requests).
  fgo Rn ltac:(fpoll [EvSocket 0 0 false]).
  fgo Rn ltac:(fready 0 (Some 0)).
  fgo Rn ltac:(eapply fs_work; [|eapply (ws_take _ _ _ 0 0); reflexivity]; reflexivity).
  fgo Rn ltac:(eapply fs_work; [|eapply (ws_enter _ _ _ 0 0 _ _ ample fussy_router); reflexivity]; reflexivity).
  fgo Rn ltac:(eapply fs_work; [|eapply (ws_read _ _ _ 0 0 _ _ _ _ _ (RData two_requests) []); [reflexivity|reflexivity|reflexivity|served|reflexivity]]; reflexivity).
  fgo Rn ltac:(eapply fs_end; [|eapply (ws_crash _ _ _ 0 0); [reflexivity|reflexivity|reflexivity|served]|eapply (step_finished _ 0 true); cbn; auto]; reflexivity).
  assert (V : visit_fine ample) by (split; [apply Forall_forall; intros e H; apply repeat_spec in H; subst; exact I|constructor]).
  assert (Vs : visit_steady ample).
  { intros a b n E. exfalso. assert (K : In (WFail WouldBlock) (v_events ample)) by (rewrite E; apply in_or_app; right; now left).
    apply repeat_spec in K. discriminate. }
  do 2 eexists. split; [intros c; exists fussy_router; intros h q; reflexivity|]. split; [exact Rn|]. split; [|split; [reflexivity|]].
  2:{ split; [unfold accepted_here; cbn [In]; intuition|]. split; [intros r H'; cbn [In] in H'; intuition discriminate|].
      split; [repeat (constructor; auto)|]. split; [repeat (constructor; auto)|].
      split; [apply C106_ascii, ascii_by; vm_compute; reflexivity|]. split; [reflexivity|].
      split; [eapply (C89_ended false fussy 2); [exact Rn|reflexivity|reflexivity]|]. repeat split; reflexivity. }
  intros l st' S'.
  match type of S' with fstep _ _ ?s _ _ =>
    assert (Qw : forall l w', wstep false fussy (f_w s) l w' -> outside l = true);
    [|assert (Qp : forall l p', pstep (f_p s) l p' -> l = Polled \/ exists d b, l = Finished d b)] end.
  - clear. intros l w' S. inversion S; subst; auto; cbn [f_w ws_conns ws_queue ws_workers] in *; exfalso;
      repeat match goal with
      | H : nth_error _ ?i = Some _ |- _ => is_var i; destruct i as [|i]; cbn [nth_error] in H; try discriminate; try (injection H as <-; cbn in *)
      end; try discriminate; try congruence.
  - clear. intros l p' S. inversion S; subst; try discriminate; eauto.
  - inversion S' as [? ? ? ? ? G S|? ? ? ? G S|? p' S F|? l0 p' M S|? c ok p' S|? c r p' S A|? l0 w' I S|? l0 d b w' p' E S S0]; subst; auto.
    + inversion S; subst. cbn [p_batch from_outside]. destruct evs as [|[|c t b] evs]; auto. exfalso.
      destruct (F c t b (or_introl eq_refl)) as (x & N & Ex). destruct c as [|c]; cbn in N; [|destruct c; discriminate]; injection N as <-; discriminate.
    + destruct (Qp _ _ S) as [-> |(d & b & ->)]; discriminate.
    + destruct (Qp _ _ S) as [H|(d & b & H)]; discriminate.
    + specialize (Qw _ _ S). destruct l0; discriminate.
    + specialize (Qw _ _ S). destruct l0; discriminate.
Qed.
