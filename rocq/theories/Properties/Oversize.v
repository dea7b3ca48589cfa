(** Peers that send any amount: the limits refuse, and change nothing else.  C106. *)
From Coq Require Import List Ascii String NArith Bool Arith Lia.
From Verif.Model Require Import Bytes Io Common Parse Encode Writer Server Slab Poll Handlers Whole Full.
From Verif.Spec Require Import Batch Stream Drive Numerals Grammar Wire Output Session Slots Traces Arrivals Events World Unicode Oversize.
From Verif.Proofs Require Import BytesFacts IoFacts ParseFacts DriveFacts CallFacts BatchFacts GrammarFacts LimitGrammar LimitFacts EncodeFacts Checks WriterFacts OpsFacts ServerFacts ConnFacts SlabFacts PollFacts HandlersFacts WholeFacts FullFacts UnwindFacts OversizeFacts.
From Verif.Properties Require Import Streaming RoundTrip Limits Server Poll Handlers Whole Full Peers Failures Closing Reference LongLines.
Import ListNotations.

(** ** The parser *)

(** The caller gets what the reference says, or the call failed at the limit, or it panicked; and the last two only if the
    message goes over the limits. *)
Definition refused_at {T St} (batch : bytes -> outcome T) (b : bytes) (res : pres T St * stream) : Prop :=
  (exists w x, b = w ++ x /\ unfinished (batch w) /\ ~ in_limits (batch w)) /\
  ((exists st s', res = (PIo st LimitReached, s')) \/ exists s', res = (PPanic, s')).

Lemma refused_later {T S} (c c' : bytes -> outcome T) w b (res : pres T S * stream) :
  (forall x, c (w ++ x) = c' x) -> refused_at c' b res -> refused_at c (w ++ b) res.
Proof.
  intros E ((w' & x & -> & U & L) & H). split; auto. exists (w ++ w'), x. rewrite app_assoc, E. auto.
Qed.

Lemma drive_f_any {T S} (parse : S -> stream -> pres T S * stream) Inv cont eof :
  parser_ok parse Inv cont ->
  forall fuel g st s,
  (List.length s < fuel)%nat ->
  Inv g st ->
  live_eof eof s ->
  (forall s1 s2, s = s1 ++ RErr WouldBlock :: s2 -> clean (cont g st (pending s1))) ->
  (forall s1 s2, s = s1 ++ RErr Interrupted :: s2 -> ~ in_data (cont g st (pending s1))) ->
  matches eof (cont g st (pending s)) (drive_f parse fuel st s) \/ refused_at (cont g st) (pending s) (drive_f parse fuel st s).
Proof.
  intros Hp. induction fuel as [|f IH]; intros g st s Hf Hinv Hlive Hclean Hintr; [lia|].
  cbn [drive_f]. destruct (parse st s) as [r s'] eqn:E.
  destruct (Hp _ _ _ _ _ Hinv E) as (w & Hok).
  destruct r as [v|st' k|e|].
  - left. destruct Hok as [(H1 & H2)|(H1 & n & H2)].
    + rewrite (takes_pending _ _ _ H1), H2. exists s'. split; auto. split; auto.
      eapply live_eof_takes; eauto.
    + destruct (takes_eof _ _ _ _ Hlive H1) as (-> & -> & ->). rewrite H2. reflexivity.
  - destruct Hok as (Hun & Hstop & _ & Hres).
    destruct Hstop as [[Hstop Hi]|[(-> & H1 & H2)|(-> & H1 & H2)]].
    + assert (k = WouldBlock) as ->.
      { destruct Hstop as [Hs|[Hs _]]; auto. apply (live_eof_takes _ _ _ _ Hs) in Hlive.
        apply live_eof_inv in Hlive as [[[Hs'|Hs'] _]|(_ & Hs' & _)]; [exact Hs'| |discriminate].
        subst k. exfalso. destruct (takes_prefix _ _ _ _ Hs) as (s1 & -> & <-).
        eapply Hintr; [reflexivity|]. now apply Hi. }
      destruct Hstop as [Hs|(_ & Hs & ->)].
      * pose proof (live_eof_takes _ _ _ _ Hs Hlive) as Hl'.
        apply live_eof_inv in Hl' as [[_ Hl']|(_ & Hl' & _)]; [|discriminate].
        pose proof (takes_length _ _ _ Hs) as Hlen. cbn [List.length] in Hlen.
        pose proof (takes_pending _ _ _ Hs) as Hpen. cbn [pending] in Hpen.
        destruct s' as [|e0 s'].
        -- left. rewrite Hpen. cbn [pending]. rewrite app_nil_r. unfold matches.
           destruct Hl' as (s0 & _ & Hl'). destruct eof; [destruct s0; discriminate|].
           destruct (cont g st w); try destruct Hun; eauto.
        -- destruct (takes_prefix _ _ _ _ Hs) as (s1 & -> & Hw).
           assert (Hc : clean (cont g st w)) by (rewrite <- Hw; eapply Hclean; reflexivity).
           destruct (Hres ltac:(discriminate) Hc) as (g' & Hgi & Hx).
           assert (K : matches eof (cont g' st' (pending (e0 :: s'))) (drive_f parse f st' (e0 :: s')) \/
             refused_at (cont g' st') (pending (e0 :: s')) (drive_f parse f st' (e0 :: s'))).
           { apply IH; [lia|assumption|assumption| |].
             - intros s2 s3 E'. rewrite <- Hx, <- Hw.
               replace (pending s1 ++ pending s2) with (pending (s1 ++ RErr WouldBlock :: s2))
                 by now rewrite DriveFacts.pending_app.
               apply (Hclean _ s3). rewrite E', <- app_assoc. reflexivity.
             - intros s2 s3 E'. rewrite <- Hx, <- Hw.
               replace (pending s1 ++ pending s2) with (pending (s1 ++ RErr WouldBlock :: s2))
                 by now rewrite DriveFacts.pending_app.
               apply (Hintr _ s3). rewrite E', <- app_assoc. reflexivity. }
           rewrite Hpen. destruct K as [K|K]; [left; rewrite Hx; exact K|right; exact (refused_later _ _ _ _ _ Hx K)].
      * left. pose proof (live_eof_takes _ _ _ _ Hs Hlive) as Hl'.
        rewrite (takes_pending _ _ _ Hs). cbn [pending]. rewrite app_nil_r. unfold matches.
        destruct Hl' as (s0 & _ & Hl'). destruct eof; [destruct s0; discriminate|].
        destruct (cont g st w); try destruct Hun; eauto.
    + right. destruct H2 as [H2|H2]; [|now apply limited_nil in H2]. split; [|left; eauto].
      exists w, (pending s'). split; [now apply takes_pending|auto].
    + left. destruct (takes_eof _ _ _ _ Hlive H1) as (-> & -> & ->). unfold matches.
      destruct (cont g st w) as [|p|v n|] eqn:Ec; cbn in H2; try contradiction.
      rewrite H2. eauto.
  - left. destruct Hok as [(H1 & H2)|(H1 & -> & H2)].
    + rewrite (takes_pending _ _ _ H1), H2. exists s'. auto.
    + destruct H2 as [H2|(H2 & H3)].
      * exfalso. destruct H2 as [Hs|[Hs _]]; [|discriminate]. apply (live_eof_takes _ _ _ _ Hs) in Hlive.
        apply live_eof_inv in Hlive as [[[Hs'|Hs'] _]|(_ & Hs' & _)]; discriminate.
      * destruct (takes_eof _ _ _ _ Hlive H2) as (-> & -> & ->).
        destruct (cont g st w) as [|p|v n|]; try destruct H1.
        -- cbn in *. destruct (utf8 (line_of p)); [exfalso; apply H3; reflexivity|reflexivity].
        -- cbn in H3. tauto.
  - right. destruct Hok as (H1 & H2 & H3). split; [|right; eauto]. exists w, (pending s'). split; [now apply takes_pending|auto].
Qed.

Lemma drive_panics {T St} (parse : St -> stream -> pres T St * stream) st0 (dbg : bool) :
  (forall st s, reached parse st0 st -> fst (parse st s) = PPanic -> dbg = true) ->
  forall fuel st s s', reached parse st0 st -> drive_f parse fuel st s = (PPanic, s') -> dbg = true.
Proof.
  intros H. induction fuel as [|f IH]; intros st s s' R E; cbn [drive_f] in E; [discriminate|].
  destruct (parse st s) as [r s1] eqn:Ep. destruct r as [v|st' k|e|]; try discriminate.
  - assert (R' : reached parse st0 st') by (eapply reached_call; eauto). destruct k; try discriminate.
    destruct s1; [discriminate|]. eapply IH; eauto.
  - eapply H; eauto. now rewrite Ep.
Qed.

(** Whatever the size of a request and however it arrives: the parser gives what the reference says, or, only for a request
    that is over the limits, an error for its size; in a debug build it may panic instead. *)
Theorem C106_request : forall dbg eof s,
  live_eof eof s -> blocks_in_clean_lines batch_request s -> no_interrupt_in_data batch_request s ->
  matches eof (batch_request (pending s)) (drive_request dbg s) \/
  ((exists w x, pending s = w ++ x /\ unfinished (batch_request w) /\ ~ in_limits (batch_request w)) /\
   ((exists st s', drive_request dbg s = (PIo st LimitReached, s')) \/ dbg = true /\ exists s', drive_request dbg s = (PPanic, s'))).
Proof.
  intros dbg eof s L B I.
  destruct (drive_f_any (req_parse dbg) msg_inv req_cont eof (req_parser_ok dbg) (S (List.length s)) 0 req_new s (Nat.lt_succ_diag_r _) (line_inv_nil) L B I) as [H|[H1 H2]]; auto.
  right. split; auto. destruct H2 as [H2|(s' & H2)]; auto. right. split; [|eauto].
  eapply (drive_panics (req_parse dbg) req_new); [|apply reached_new|exact H2]. intros st s0 R P. now apply C09_panic_exactly in P.
Qed.
Print Assumptions C106_request.

Theorem C106_response : forall dbg eof s,
  live_eof eof s -> blocks_in_clean_lines batch_response s -> no_interrupt_in_data batch_response s ->
  matches eof (batch_response (pending s)) (drive_response dbg s) \/
  ((exists w x, pending s = w ++ x /\ unfinished (batch_response w) /\ ~ in_limits (batch_response w)) /\
   ((exists st s', drive_response dbg s = (PIo st LimitReached, s')) \/ dbg = true /\ exists s', drive_response dbg s = (PPanic, s'))).
Proof.
  intros dbg eof s L B I.
  destruct (drive_f_any (resp_parse dbg) msg_inv resp_cont eof (resp_parser_ok dbg) (S (List.length s)) 0 resp_new s (Nat.lt_succ_diag_r _) (line_inv_nil) L B I) as [H|[H1 H2]]; auto.
  right. split; auto. destruct H2 as [H2|(s' & H2)]; auto. right. split; [|eauto].
  eapply (drive_panics (resp_parse dbg) resp_new); [|apply reached_new|exact H2]. intros st s0 R P. now apply C09_panic_exactly_response in P.
Qed.
Print Assumptions C106_response.

(** ** One connection *)

(** The requests that were routed are the first of those that the reference reads from the bytes. *)
Definition first_of (b : bytes) (log : list request) : Prop := exists rs e, session b (log ++ rs) e.
Lemma first_of_none b : first_of b [].
Proof. destruct (session_total b) as (rs & e & H). exists rs, e. exact H. Qed.
Lemma served_first rt h b eof log out keep : served rt h b eof log out keep -> first_of b log.
Proof.
  induction 1 as [h b p E|h l Hl E|h b p E N S|h b eof e' E|h b eof v rest E A|h b eof v rest log out keep E A S (rs & e & IH)]; try apply first_of_none.
  - destruct (session_total rest) as (rs & e & H). exists rs, e. eapply session_next; eauto.
  - exists rs, e. eapply session_next; eauto.
Qed.
Lemma too_big_first rt h b log out : too_big rt h b log out -> first_of b log.
Proof.
  induction 1 as [h b w x p E Hp Hs|h b v rest log out E A S (rs & e & IH)]; [apply first_of_none|].
  exists rs, e. eapply session_next; eauto.
Qed.
Lemma first_of_more b x log : first_of b log -> first_of (b ++ x) log.
Proof.
  intros (rs & e & H). revert b H. induction log as [|v log IH]; intros b H; [apply first_of_none|].
  cbn [app] in H. inversion H as [|? ? rest ? ? E S]; subst. destruct (IH _ S) as (rs' & e' & H'). exists rs', e'. eapply session_next; eauto.
  now apply batch_request_complete_ext.
Qed.

(** Input of any size.  While the connection is kept, what was done is what the reference says of the part that was read.
    When it has been dropped, it is what the reference says of everything; or the last request is over the limits, and the
    requests before it were answered and then one 400 was written.  When a call panicked, the build is a debug build, the
    last request is over the limits, and the requests before it were answered. *)
Theorem C106_connection : forall dbg rt eof s vs log st,
  no_panic rt -> any_size eof s -> Forall visit_fine vs -> Forall visit_steady vs \/ short_replies rt ->
  visits dbg rt vs [] (Open (conn_new s)) = (log, st) ->
  match st with
  | Open c => exists got, pending s = got ++ pending (cn_in c) /\ served rt [] got false log (output c) true /\
      ((blocks s < List.length vs)%nat -> pending (cn_in c) = [] /\ eof = false)
  | Gone sent => exists out, (served rt [] (pending s) eof log out false \/
        exists o, too_big rt [] (pending s) log o /\ out = o ++ bad_request) /\
      (exists lost, out = sent ++ lost) /\ (Forall (visit_takes (len out)) vs -> sent = out)
  | Poisoned sent => dbg = true /\ exists out, too_big rt [] (pending s) log out /\ exists lost, out = sent ++ lost
  end.
Proof.
  intros dbg rt eof s vs log st Hrt O F S E.
  destruct (visits_tame dbg rt eof vs Hrt [] (conn_new s) log st [] (conn_new_fine s) holds_new (any_size_tame _ _ O) F S E)
    as (new & out & El & R). cbn [app] in El. subst new. rewrite conn_new_output in R. cbn [app cn_in conn_new] in R. destruct st as [c|sent|sent].
  - destruct R as (R1 & took & cur & P & (H1 & _) & _ & H3 & _ & _ & H4). exists took. split; auto. split.
    + specialize (H3 [] false [] [] true). rewrite !app_nil_r in H3. cbn [app] in H3. rewrite R1. apply H3.
      destruct (batch_request cur) as [v rest|p|v n|x] eqn:Eb; try destruct H1; [eapply served_wait; eauto|].
      exfalso. exact (batch_request_not_eof _ _ _ Eb).
    + intros B. destruct H4 as [H4|H4]; auto. lia.
  - exists out. auto.
  - destruct R as (R1 & R2). split; eauto. destruct dbg; auto. exfalso. eapply release_unpoisoned; eauto.
Qed.
Print Assumptions C106_connection.

(** ** The whole server *)

Lemma chars_any_size b eof s : whole_chars b -> live_eof eof s -> ~ In (RErr Interrupted) s -> (exists x, b = pending s ++ x) -> any_size eof s.
Proof.
  intros F L I (x & E). split; auto. split; [|split].
  - intros s1 s2 ->. rewrite LimitGrammar.pending_app, <- app_assoc in E. exact (F _ _ E).
  - intros s1 s2 ->. exfalso. apply I, in_or_app. right. now left.
  - intros _. exact (F _ _ E).
Qed.

Lemma too_big_longer rt h b l o : too_big rt h b l o -> forall x, too_big rt h (b ++ x) l o.
Proof.
  induction 1 as [h b w x p E Hp Hs|h b v rest log out E A S IH]; intros y.
  - eapply (too_big_here _ _ _ w (x ++ y)); eauto. now rewrite E, <- app_assoc.
  - apply (too_big_next _ _ _ v (rest ++ y)); auto. now apply batch_request_complete_ext.
Qed.

(** Input that ends is not used up while the connection is kept. *)
Lemma visits_more_any m dbg rt vs : no_panic rt -> forall log c cur log' st', conn_fine c -> holds (cn_parser c) cur -> tame true cur (cn_in c) ->
  Forall visit_fine vs -> (Forall visit_steady vs \/ short_replies rt) -> visits dbg rt vs log (Open c) = (log', st') ->
  visits dbg rt vs log (Open (more m c)) = (log', more_slot m st').
Proof.
  intros Hrt. induction vs as [|v vs IH]; intros log c cur log' st' Hc Hh Hs F S E; cbn [visits] in *; [inversion E; subst; reflexivity|].
  inversion F as [|? ? F1 F2]; subst.
  assert (Sv : visit_steady v \/ short_replies rt) by (destruct S as [S|S]; [inversion S|]; auto).
  assert (Svs : Forall visit_steady vs \/ short_replies rt) by (destruct S as [S|S]; [inversion S|]; auto).
  destruct (handle dbg rt v log (Open c)) as [l1 st1] eqn:Eh.
  assert (Eh1 : visits dbg rt [v] log (Open c) = (l1, st1)) by (cbn [visits]; now rewrite Eh).
  destruct (visits_tame dbg rt true [v] Hrt _ _ _ _ _ Hc Hh Hs (Forall_cons _ F1 (Forall_nil _))
    ltac:(destruct Sv; [left; repeat constructor|right]; auto) Eh1) as (n1 & o1 & _ & R).
  pose proof Eh as Ew. apply handle_writes in Ew as (n0 & t0 & _ & _ & H0); auto.
  assert (Ne : forall c', st1 = Open c' -> cn_in c' <> []).
  { intros c' ->. destruct R as (_ & took & cur' & _ & _ & ((s0 & _ & Es) & _) & _). rewrite Es. destruct s0; discriminate. }
  destruct Hc as (Hp & Hc). destruct (handle_more m dbg rt v log c l1 st1 Hp Eh) as [-> |(c' & K1 & K2)]; [|exfalso; exact (Ne _ K1 K2)].
  destruct st1 as [c1|x|x]; cbn [more_slot].
  - destruct R as (_ & took & cur' & _ & J1 & J2 & _). eapply IH; eauto. apply H0.
  - rewrite visits_shut in * by discriminate. inversion E; subst. reflexivity.
  - rewrite visits_shut in * by discriminate. inversion E; subst. reflexivity.
Qed.

(** What the server has done for connection c, by the reference. *)
Definition as_reference (R : nat -> request -> lresult -> Prop) (c : nat) (b : bytes) (eof : bool) (vs : list visit) (st : fstate) : Prop :=
  exists rt out (keep : bool), (forall h q, R c q (rt h q)) /\ served rt [] b eof (routed c st) out keep /\
    (if keep then connected c st /\ out = sent_on c st ++ held_for c st
     else ~ connected c st /\ exists lost, out = sent_on c st ++ lost) /\
    (Forall visit_steady vs -> Forall (visit_takes (len out)) vs -> sent_on c st = out).
(** It has answered the requests before one that is over the limits, sent one 400, and closed. *)
Definition as_too_big (R : nat -> request -> lresult -> Prop) (c : nat) (b : bytes) (vs : list visit) (st : fstate) : Prop :=
  ~ connected c st /\ exists rt out, (forall h q, R c q (rt h q)) /\ too_big rt [] b (routed c st) out /\
    (exists lost, out ++ bad_request = sent_on c st ++ lost) /\
    (Forall (visit_takes (len (out ++ bad_request))) vs -> sent_on c st = out ++ bad_request).

(** In every execution of a server of a release build, with any number of peers and workers: when the server has nothing
    more to do, a worker is left, and a peer sent b, of any size, and perhaps the end of its stream, then the server has
    done what the reference says of b; or b has a request over the limits, and the server has answered the requests before
    it, has written one 400 response, and has closed the connection. *)
Theorem C106_server : forall R size ls st c b (eof : bool), has_router R ->
  frun false R (f_init size) ls st -> accepted_here c ls -> never_removed c ls -> works_for R c (calls c (wparts ls)) ->
  whole_chars b -> received c (wparts ls) = map IByte b ++ (if eof then [IEnd] else []) ->
  resting false R st -> worker_left (f_w st) = true ->
  as_reference R c b eof (calls c (wparts ls)) st \/ as_too_big R c b (calls c (wparts ls)) st.
Proof.
  intros R size ls st c b eof Tot Rn Ac Nr Wk F Rc Rest Left. unfold as_reference, as_too_big.
  destruct (accepted_conn _ _ _ _ _ _ Rn Ac) as (x & N). unfold routed, sent_on, held_for. rewrite N.
  destruct (C69_with_event_loop _ _ _ _ _ _ _ Tot Rn N) as (rt & s & busy & H1 & H2 & H3 & H4).
  destruct (works_replies _ _ _ _ Wk H1) as [Np S]. destruct Wk as (_ & V & _). rewrite Rc in H2.
  pose proof (resting_here _ _ _ _ _ _ _ Tot Rn Rest Left N Ac Nr) as Here.
  (* The connection has been dropped. *)
  assert (Drop : forall e s' sent, any_size e s' -> wopen x = false -> as_slot (wc_slot x) = Gone sent ->
    visits false rt (calls c (wparts ls)) [] (Open (conn_new s')) = (wc_log x, Gone sent) ->
    (exists b1, b = pending s' ++ b1 /\ (e = true -> b1 = [] /\ eof = true)) ->
    (exists rt out (keep : bool), (forall h q, R c q (rt h q)) /\ served rt [] b eof (wc_log x) out keep /\
      (if keep then connected c st /\ out = slot_sent (as_slot (wc_slot x)) ++ match as_slot (wc_slot x) with Open k => unsent (cn_w k) | _ => [] end
       else ~ connected c st /\ exists lost, out = slot_sent (as_slot (wc_slot x)) ++ lost) /\
      (Forall visit_steady (calls c (wparts ls)) -> Forall (visit_takes (len out)) (calls c (wparts ls)) -> slot_sent (as_slot (wc_slot x)) = out)) \/
    (~ connected c st /\ exists rt out, (forall h q, R c q (rt h q)) /\ too_big rt [] b (wc_log x) out /\
      (exists lost, out ++ bad_request = slot_sent (as_slot (wc_slot x)) ++ lost) /\
      (Forall (visit_takes (len (out ++ bad_request))) (calls c (wparts ls)) -> slot_sent (as_slot (wc_slot x)) = out ++ bad_request))).
  { intros e s' sent A O G Vs (b1 & -> & Be). pose proof (C89_ended _ _ _ _ _ _ _ Rn N O) as Nc.
    destruct (C106_connection false rt e s' _ _ _ Np A V S Vs) as (out & K & Rst & D). rewrite G. cbn [slot_sent].
    destruct K as [K|(o & K & ->)].
    - left. exists rt, out, false. split; auto. split; [|auto]. destruct e.
      + destruct (Be eq_refl) as [-> ->]. rewrite app_nil_r. exact K.
      + now apply served_dropped.
    - right. split; auto. exists rt, o. split; auto. split; [now apply too_big_longer|auto]. }
  assert (Shut : wopen x = false -> exists sent, as_slot (wc_slot x) = Gone sent).
  { intros O. destruct (as_slot (wc_slot x)) as [k|sent|sent] eqn:K; [unfold wopen in O; destruct (wc_slot x); discriminate|eauto|].
    exfalso. eapply release_unpoisoned; eauto. }
  assert (Part : forall b1, b = pending s ++ b1 -> live s -> ~ In (RErr Interrupted) s -> wopen x = false -> exists sent,
    any_size false s /\ as_slot (wc_slot x) = Gone sent /\ exists b1, b = pending s ++ b1 /\ (false = true -> b1 = [] /\ eof = true)).
  { intros b1 -> L I O. destruct (Shut O) as (sent & G). exists sent. split; [apply (chars_any_size _ false s F); eauto using live_eof_false|].
    split; auto. exists b1. split; auto. discriminate. }
  destruct eof.
  - destruct (items_ended _ _ _ H2) as [(b' & Eb & Er & L & I)|(Er & s0 & s1 & -> & P & L & I & Z)].
    { destruct (open_or_shut x) as [O|O].
      - exfalso. destruct (Here O) as (Es & k & P & In0). rewrite H4, Es in Er by (rewrite P; discriminate). destruct b'; discriminate.
      - destruct (Part _ Eb L I O) as (sent & A & G & Q). rewrite G in H3. eapply Drop; eauto. }
    assert (A : any_size true (s0 ++ [RData []])).
    { apply (chars_any_size b); auto.
      - exists s0. auto.
      - intros K. apply in_app_or in K as [K|[K|[]]]; [exact (I K)|discriminate].
      - exists []. rewrite LimitGrammar.pending_app. cbn [pending]. now rewrite !app_nil_r. }
    destruct (visits false rt (calls c (wparts ls)) [] (Open (conn_new (s0 ++ [RData []])))) as [log' st'] eqn:E.
    assert (K : (log' = wc_log x /\ st' = as_slot (wc_slot x)) \/ exists m, log' = wc_log x /\ more_slot m st' = as_slot (wc_slot x)).
    { destruct (no_items _ Z) as [-> |(m & ->)]; [left; rewrite H3 in E; inversion E; auto|right]. exists m.
      pose proof (visits_more_any m false rt _ Np _ _ [] _ _ (conn_new_fine _) holds_new (any_size_tame _ _ A) V S E) as E'.
      change (more m (conn_new (s0 ++ [RData []]))) with (conn_new ((s0 ++ [RData []]) ++ RErr WouldBlock :: m)) in E'.
      rewrite <- app_assoc in E'. cbn [app] in E'. rewrite H3 in E'. inversion E'. auto. }
    pose proof (visits_tame false rt true _ Np _ _ _ _ [] (conn_new_fine _) holds_new (any_size_tame _ _ A) V S E) as (new & out & El & Sv).
    assert (G : exists sent, st' = Gone sent /\ as_slot (wc_slot x) = Gone sent /\ log' = wc_log x).
    { destruct st' as [k|sent|sent]; [|exists sent; destruct K as [[K1 K2]|(m & K1 & K2)]; auto|exfalso; eapply release_unpoisoned; eauto].
      exfalso. destruct (open_or_shut x) as [O|O].
      - destruct (Here O) as (_ & k0 & P0 & In0).
        rewrite P0 in K. cbn [as_slot] in K. destruct K as [[_ K]|(m & _ & K)]; inversion K; subst k0.
        + destruct Sv as (_ & took & cur' & _ & _ & ((s2 & _ & Es1) & _) & _). rewrite In0 in Es1. destruct s2; discriminate.
        + cbn [more cn_in] in In0. destruct (cn_in k); discriminate.
      - unfold wopen in O. destruct (wc_slot x); try discriminate; destruct K as [[_ K]|(m & _ & K)]; discriminate. }
    destruct G as (sent & -> & G & ->).
    assert (O : wopen x = false) by (unfold wopen; destruct (wc_slot x); try discriminate; reflexivity).
    eapply (Drop true); eauto. exists []. rewrite LimitGrammar.pending_app. cbn [pending]. rewrite !app_nil_r. auto.
  - rewrite app_nil_r in H2. apply items_bytes in H2 as (b1 & Eb & Er & L & I).
    destruct (open_or_shut x) as [O|O].
    2:{ destruct (Part _ Eb L I O) as (sent & A & G & Q). rewrite G in H3. eapply Drop; eauto. }
    destruct (Here O) as (Es & k & P & In0). rewrite H4, Es in Er by (rewrite P; discriminate). cbn in Er. symmetry in Er. apply map_eq_nil in Er. subst b1.
    assert (A : any_size false s) by (apply (chars_any_size _ false s F); eauto using live_eof_false). rewrite app_nil_r in Eb. subst b.
    rewrite P in *. cbn [as_slot slot_sent] in *. left.
    destruct (C106_connection false rt false s _ _ _ Np A V S H3) as (got & Pg & Sv & _).
    rewrite In0 in Pg. cbn [pending] in Pg. rewrite app_nil_r in Pg. rewrite <- Pg in Sv.
    exists rt, (output k), true. split; auto. split; auto. split; [split; [|reflexivity]|].
    + apply (regs_run _ _ _ _ _ Rn c x N); auto. eapply not_removed_held; eauto.
    + intros St Tk. rewrite (served_kept _ _ _ _ _ _ Sv) in *. eapply C29_delivered_so_far; eauto.
Qed.
Print Assumptions C106_server.

(** In every execution of either build, at all times: what was routed for a peer are the first of the requests that the
    reference reads from the bytes it sent, each once and in order, whatever their size, and whatever it does after them. *)
Theorem C106_routed : forall dbg R size ls st c b more, has_router R ->
  frun dbg R (f_init size) ls st -> accepted_here c ls -> works_for R c (calls c (wparts ls)) ->
  whole_chars b -> received c (wparts ls) = map IByte b ++ more -> (more = [] \/ more = [IEnd]) ->
  first_of b (routed c st).
Proof.
  intros dbg R size ls st c b more0 Tot Rn Ac Wk F Rc M.
  destruct (accepted_conn _ _ _ _ _ _ Rn Ac) as (x & N). unfold routed. rewrite N.
  destruct (C69_with_event_loop _ _ _ _ _ _ _ Tot Rn N) as (rt & s & busy & H1 & H2 & H3 & H4).
  destruct (works_replies _ _ _ _ Wk H1) as [Np S]. destruct Wk as (_ & V & _). rewrite Rc in H2.
  assert (G : forall e s' st', any_size e s' -> visits dbg rt (calls c (wparts ls)) [] (Open (conn_new s')) = (wc_log x, st') ->
    (exists b1, b = pending s' ++ b1) -> first_of b (wc_log x)).
  { intros e s' st' A E (b1 & ->). pose proof (C106_connection dbg rt e s' _ _ _ Np A V S E) as K. destruct st' as [k|sent|sent].
    - destruct K as (got & -> & K & _). rewrite <- app_assoc. apply first_of_more. eapply served_first; eauto.
    - destruct K as (out & [K|(o & K & _)] & _); apply first_of_more; [eapply served_first; eauto|eapply too_big_first; eauto].
    - destruct K as (_ & out & K & _). apply first_of_more. eapply too_big_first; eauto. }
  assert (Part : forall b1, b = pending s ++ b1 -> live s -> ~ In (RErr Interrupted) s -> first_of b (wc_log x)).
  { intros b1 Eb L I. eapply (G false); eauto. apply (chars_any_size b); eauto using live_eof_false. }
  destruct M as [-> | ->].
  - rewrite app_nil_r in H2. apply items_bytes in H2 as (b1 & Eb & Er & L & I). eauto.
  - destruct (items_ended _ _ _ H2) as [(b' & Eb & Er & L & I)|(Er & s0 & s1 & -> & P & L & I & Z)]; eauto.
    assert (A : any_size true (s0 ++ [RData []])).
    { apply (chars_any_size b); auto.
      - exists s0. auto.
      - intros K. apply in_app_or in K as [K|[K|[]]]; [exact (I K)|discriminate].
      - exists []. rewrite LimitGrammar.pending_app. cbn [pending]. now rewrite !app_nil_r. }
    assert (Pb : exists b1, b = pending (s0 ++ [RData []]) ++ b1).
    { exists []. rewrite LimitGrammar.pending_app. cbn [pending]. now rewrite !app_nil_r. }
    destruct (visits dbg rt (calls c (wparts ls)) [] (Open (conn_new (s0 ++ [RData []])))) as [log' st'] eqn:E.
    assert (El : log' = wc_log x).
    { destruct (no_items _ Z) as [-> |(m & ->)]; [rewrite H3 in E; inversion E; auto|].
      pose proof (visits_more_any m dbg rt _ Np _ _ [] _ _ (conn_new_fine _) holds_new (any_size_tame _ _ A) V S E) as E'.
      change (more m (conn_new (s0 ++ [RData []]))) with (conn_new ((s0 ++ [RData []]) ++ RErr WouldBlock :: m)) in E'.
      rewrite <- app_assoc in E'. cbn [app] in E'. rewrite H3 in E'. inversion E'. auto. }
    subst log'. eapply (G true); eauto.
Qed.
Print Assumptions C106_routed.

(** All of this holds of every peer that sends ASCII, whatever it sends. *)
Theorem C106_ascii : forall b, Forall (fun c => (bval c < 128)%N) b -> whole_chars b.
Proof.
  intros b H w x ->. apply Forall_app in H as [H _]. destruct (session_total w) as (rs & e & S).
  rewrite (session_last _ _ _ S). apply ascii_clean_request. clear x. revert H. induction S as [b E|b v rest rs e E S IH]; intros H; auto.
  apply IH. apply complete_split in E as (y & -> & _). now apply Forall_app in H.
Qed.
Print Assumptions C106_ascii.

(** ** Cases *)

Lemma ascii_by b : forallb (fun c => (bval c <? 128)%N) b = true -> Forall (fun c => (bval c < 128)%N) b.
Proof. intros H. apply Forall_forall. intros c I. rewrite forallb_forall in H. apply N.ltb_lt. auto. Qed.

Definition long_field : bytes := lit "x: " ++ repeat "a"%char 500 ++ crlf.
Definition many_fields : bytes := List.concat (repeat long_field 9).
Definition large_head : bytes := lit "GET / HTTP/1.1" ++ crlf ++ many_fields.
Definition large_input : stream := [RData large_head].


(** A head of more than 4096 bytes, each line of which is short: refused in either build. *)
Example C106_connection_case : any_size false large_input /\
  (forall dbg, visits dbg peer0 [ample; ample] [] (Open (conn_new large_input)) = ([], Gone bad_request)) /\
  too_big peer0 [] (pending large_input) [] [].
Proof.
  split; [|split].
  - apply (chars_any_size large_head).
    + apply C106_ascii, ascii_by. vm_compute. reflexivity.
    + apply live_eof_false. repeat constructor; discriminate.
    + intros [K|[]]. discriminate.
    + exists []. unfold large_input. cbn [pending]. now rewrite !app_nil_r.
  - intros []; vm_compute; reflexivity.
  - eapply (too_big_here _ _ _ large_head []); [unfold large_input; cbn [pending]; now rewrite !app_nil_r|vm_compute; reflexivity|].
    intros [_ K]. vm_compute in K. discriminate.
Qed.

(** One worker of a release build.  The peer sends a request, then a line that is too long, more, and the end. *)
Definition long_sent : bytes := long_input ++ ["b"%char].
Example C106_case : exists ls st, frun false nobody (f_init 1) ls st /\ resting false nobody st /\ worker_left (f_w st) = true /\
  accepted_here 0 ls /\ never_removed 0 ls /\ works_for nobody 0 (calls 0 (wparts ls)) /\
  whole_chars long_sent /\ received 0 (wparts ls) = map IByte long_sent ++ [IEnd] /\ sent_on 0 st = not_found ++ bad_request.
Proof.
  pose proof (frun_nil false nobody (f_init 1)) as Rn.
  fgo Rn ltac:(fpoll [EvListener]).
  fgo Rn ltac:(fmain Listening ltac:(apply step_listen; reflexivity)).
  fgo Rn ltac:(faccept 0).
  fgo Rn ltac:(fmain Blocked ltac:(apply step_blocked; reflexivity)).
  fgo Rn ltac:(eapply (fs_arrive _ _ _ 0 0 (map IByte long_input ++ [IByte "b"%char; IEnd])); [cbn; auto|eapply ws_arrive;
    [reflexivity|reflexivity|discriminate|apply Forall_app; split; [apply all_proper|repeat constructor; discriminate]]]).
  fgo Rn ltac:(fpoll [EvSocket 0 0 false]).
  fgo Rn ltac:(fready 0 (Some 0)).
  fgo Rn ltac:(eapply fs_work; [|eapply (ws_take _ _ _ 0 0); reflexivity]; reflexivity).
  fgo Rn ltac:(eapply fs_work; [|eapply (ws_enter _ _ _ 0 0 _ _ ample peer0); reflexivity]; reflexivity).
  fgo Rn ltac:(eapply fs_work; [|eapply (ws_read _ _ _ 0 0 _ _ _ _ _ (RData long_input) [IByte "b"%char; IEnd]); [reflexivity|reflexivity|reflexivity|served|reflexivity]]; reflexivity).
  fgo Rn ltac:(eapply fs_end; [|eapply (ws_close _ _ _ 0 0); [reflexivity|reflexivity|reflexivity|served]|eapply (step_finished _ 0 true); cbn; auto]; reflexivity).
  assert (V : visit_fine ample) by (split; [apply Forall_forall; intros e H; apply repeat_spec in H; subst; exact I|constructor]).
  assert (Vs : visit_steady ample).
  { intros a b n E. exfalso. assert (K : In (WFail WouldBlock) (v_events ample)) by (rewrite E; apply in_or_app; right; now left).
    apply repeat_spec in K. discriminate. }
  do 2 eexists. split; [exact Rn|]. split; [|split; [reflexivity|]].
  2:{ split; [unfold accepted_here; cbn [In]; intuition|]. split; [intros r H'; cbn [In] in H'; intuition discriminate|].
      split; [split; [intros q l _ ->; discriminate|split; [repeat (constructor; auto)|left; repeat (constructor; auto)]]|].
      split; [apply C106_ascii, ascii_by; vm_compute; reflexivity|split; reflexivity]. }
  intros l st' S'.
  match type of S' with fstep _ _ ?s _ _ =>
    assert (Qw : forall l w', wstep false nobody (f_w s) l w' -> outside l = true);
    [|assert (Qp : forall l p', pstep (f_p s) l p' -> l = Polled \/ exists d b, l = Finished d b)] end.
  - clear. intros l w' S. inversion S; subst; auto; cbn [f_w ws_conns ws_queue ws_workers] in *; exfalso;
      repeat match goal with
      | H : nth_error _ ?i = Some _ |- _ => is_var i; destruct i as [|i]; cbn [nth_error] in H; try discriminate; try (injection H as <-; cbn in *)
      end; try discriminate; try congruence.
  - clear. intros l p' S. inversion S; subst; try discriminate; eauto.
  - inversion S' as [? ? ? ? ? G S|? ? ? ? G S|? p' S F|? l0 p' M S|? c ok p' S|? c r p' S A|? l0 w' I S|? l0 d b w' p' E S S0]; subst; auto.
    + inversion S; subst. cbn [p_batch from_outside]. destruct evs as [|[|c t b] evs]; auto. exfalso.
      destruct (F c t b (or_introl eq_refl)) as (x & N & Ex). destruct c as [|c]; cbn in N; [|destruct c; discriminate]; injection N as <-; discriminate.
    + destruct (Qp _ _ S) as [-> |(d & b & ->)]; discriminate.
    + destruct (Qp _ _ S) as [H|(d & b & H)]; discriminate.
    + specialize (Qw _ _ S). destruct l0; discriminate.
    + specialize (Qw _ _ S). destruct l0; discriminate.
Qed.

