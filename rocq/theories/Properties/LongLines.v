(** Lines that are too long, at the server: C102. *)
From Coq Require Import List Ascii String NArith Bool Arith Lia.
From Verif.Model Require Import Bytes Io Common Parse Encode Writer Server Slab Poll Handlers Whole Full.
From Verif.Spec Require Import Batch Stream Drive Numerals Grammar Wire Output Session Slots Traces Arrivals Events World Unicode TooLong.
From Verif.Proofs Require Import BytesFacts IoFacts ParseFacts DriveFacts CallFacts BatchFacts GrammarFacts LimitGrammar EncodeFacts Checks WriterFacts OpsFacts ServerFacts ConnFacts SlabFacts PollFacts HandlersFacts WholeFacts FullFacts LongFacts.
From Verif.Properties Require Import Streaming RoundTrip Server Poll Handlers Whole Full Peers Failures Closing Reference.
Import ListNotations.

(** ** One connection *)

(** Complete requests b, then z, which has a line that reaches the limit; after that anything (x, and s2 of any kind: errors,
    the end, nothing).  After more events than pauses the requests of b have been routed and answered and then, if none of
    them asked to close, one 400 response has been written; and the connection is closed. *)
Theorem C102_connection : forall dbg rt b rs z x s1 s2 vs log st, no_panic rt ->
  session b rs [] -> overflow z -> always_in_limits last_outcome b ->
  live s1 -> blocks_in_clean_lines last_outcome s1 -> no_interrupt_in_data last_outcome s1 -> pending s1 = b ++ z ++ x ->
  Forall visit_fine vs -> Forall visit_steady vs \/ short_replies rt -> blocks (s1 ++ s2) < List.length vs ->
  visits dbg rt vs [] (Open (conn_new (s1 ++ s2))) = (log, st) ->
  exists sent out (keep : bool), st = Gone sent /\ served rt [] b false log out keep /\
    let all := out ++ (if keep then bad_request else []) in
    (exists rest, all = sent ++ rest) /\ (Forall (visit_takes (len all)) vs -> sent = all).
Proof.
  intros dbg rt b rs z x s1 s2 vs log st Np Se Z Li Lv Cl In0 P V S B E.
  assert (TL : too_long b z [] (s1 ++ s2)).
  { split; auto. split; [eauto|]. split; [exact Li|]. split; [intros _; exact (overflow_some _ Z)|].
    exists s1, s2, x. split; auto. split; [split; auto|exact P]. }
  destruct (visits_too_long dbg rt z vs Np [] (conn_new (s1 ++ s2)) log st [] b (conn_new_fine _) holds_new TL V S E) as (new & all & El & R).
  cbn [app] in El. subst new. rewrite conn_new_output in R. cbn [app cn_in conn_new] in R. destruct st as [c|sent|sent].
  - exfalso. destruct R as [R _]. lia.
  - destruct R as ((o & keep & Sv & ->) & R2 & R3). exists sent, o, keep. auto.
  - destruct R.
Qed.
Print Assumptions C102_connection.

(** ** The whole server *)

Lemma items_long s : forall b more r, b <> [] -> map IByte b ++ more = items s ++ r ->
  (exists y, b = pending s ++ y /\ y <> [] /\ r = map IByte y ++ more /\ live s /\ ~ In (RErr Interrupted) s) \/
  (exists s1 s2 x, s = s1 ++ s2 /\ pending s1 = b ++ x /\ live s1 /\ ~ In (RErr Interrupted) s1 /\
     forall a k c, s1 = a ++ RErr k :: c -> exists y, b = pending a ++ y /\ y <> []).
Proof.
  induction s as [|e s IH]; intros b more r Nb E.
  - left. exists b. cbn in *. repeat split; auto. constructor.
  - change (e :: s) with ([e] ++ s) in E. rewrite items_app, <- app_assoc in E.
    destruct e as [[|y bs]|j].
    + exfalso. destruct b as [|z b]; [congruence|discriminate].
    + unfold items in E at 1. cbn [flat_map event_items] in E. rewrite app_nil_r in E.
      assert (K : forall bs b, map IByte b ++ more = map IByte bs ++ items s ++ r ->
        (exists b0, b = bs ++ b0 /\ map IByte b0 ++ more = items s ++ r) \/ exists x, bs = b ++ x).
      { clear. intros bs. induction bs as [|y bs IH]; intros b E; cbn [map app] in E; [left; exists b; auto|].
        destruct b as [|z b]; [right; eexists; reflexivity|]. cbn [map app] in E. inversion E; subst.
        destruct (IH _ H1) as [(b0 & -> & H)|(x & ->)]; [left; exists b0; cbn [app]; auto|right; exists x; reflexivity]. }
      assert (Last : (exists x, y :: bs = b ++ x) -> exists s1 s2 x, RData (y :: bs) :: s = s1 ++ s2 /\ pending s1 = b ++ x /\ live s1 /\
        ~ In (RErr Interrupted) s1 /\ forall a k c, s1 = a ++ RErr k :: c -> exists y, b = pending a ++ y /\ y <> []).
      { intros (x & Ex). exists [RData (y :: bs)], s, x. cbn [pending app]. rewrite app_nil_r. split; auto. split; auto. split; [|split].
        - constructor; [discriminate|constructor].
        - intros [I|[]]; discriminate.
        - intros a k c Ea. destruct a as [|e a]; [discriminate|]. cbn [app] in Ea. inversion Ea. destruct a; discriminate. }
      destruct (K (y :: bs) b E) as [(b0 & -> & E')|Ex]; [|right; auto].
      destruct b0 as [|z0 b0]; [right; apply Last; exists []; now rewrite !app_nil_r|].
      destruct (IH (z0 :: b0) more r ltac:(discriminate) E') as [(y' & Eb & H0 & H1 & H2 & H3)|(s1 & s2 & x & -> & H1 & H2 & H3 & H4)].
      * left. exists y'. cbn [pending]. rewrite Eb, <- app_assoc. repeat split; auto.
        -- constructor; auto. discriminate.
        -- intros [I|I]; [discriminate|auto].
      * right. exists (RData (y :: bs) :: s1), s2, x. cbn [pending]. rewrite H1, <- app_assoc. repeat split; auto.
        -- constructor; auto. discriminate.
        -- intros [I|I]; [discriminate|auto].
        -- intros a k c Ea. destruct a as [|e a]; [discriminate|]. cbn [app] in Ea. injection Ea as <- Ea. destruct (H4 _ _ _ Ea) as (y' & Ey & Hy).
           exists y'. cbn [pending]. rewrite Ey, <- app_assoc. auto.
    + assert (J : j = WouldBlock \/ items [RErr j] = [IFail j]) by (destruct j; auto). destruct J as [-> |J].
      * cbn [items flat_map app] in E. destruct (IH _ _ _ Nb E) as [(y' & Eb & H0 & H1 & H2 & H3)|(s1 & s2 & x & -> & H1 & H2 & H3 & H4)].
        -- left. exists y'. cbn [pending]. repeat split; auto.
           ++ constructor; auto. now left.
           ++ intros [I|I]; [discriminate|auto].
        -- right. exists (RErr WouldBlock :: s1), s2, x. cbn [pending]. repeat split; auto.
           ++ constructor; auto. now left.
           ++ intros [I|I]; [discriminate|auto].
           ++ intros a k c Ea. destruct a as [|e a]; [exists b; cbn; auto|]. cbn [app] in Ea. injection Ea as <- Ea. destruct (H4 _ _ _ Ea) as (y' & Ey & Hy).
              exists y'. auto.
      * rewrite J in E. destruct b as [|z b]; [congruence|]. discriminate.
Qed.

(** A request that asks to close is in b. *)
Lemma served_before rt b rs z : session b rs [] -> (exists p, batch_request z = Incomplete p) ->
  forall h l o, served rt h (b ++ z) false l o false -> served rt h b false l o false.
Proof.
  intros Se (p & Z). remember (@nil byte) as e eqn:Ee. induction Se as [b Hb|b v rest rs e Hb Se IH]; intros h l o Sv.
  - subst b. cbn [app] in Sv. inversion Sv; subst; congruence.
  - apply (batch_request_complete_ext _ _ _ z) in Hb as Hx. inversion Sv; subst; try congruence.
    + rewrite Hx in H. injection H as <- <-. eapply served_last; eauto.
    + rewrite Hx in H. injection H as <- <-. eapply served_next; eauto.
Qed.

(** In every execution, with any number of peers and workers: when the server has nothing more to do, a worker is left, and
    a peer sent complete requests b and then z, which has a line that reaches the limit, and then anything at all, then the
    requests of b have been routed and answered, nothing else has been routed, if none of them asked to close one 400
    response has been written, and the connection is closed. *)
Theorem C102_server : forall dbg R size ls st c b rs z more, has_router R ->
  frun dbg R (f_init size) ls st -> accepted_here c ls -> never_removed c ls -> works_for R c (calls c (wparts ls)) ->
  session b rs [] -> overflow z -> nearly_fair (b ++ z) -> received c (wparts ls) = map IByte (b ++ z) ++ more ->
  resting dbg R st -> worker_left (f_w st) = true ->
  ~ connected c st /\
  exists rt out (keep : bool), (forall h q, R c q (rt h q)) /\ served rt [] b false (routed c st) out keep /\
    let all := out ++ (if keep then bad_request else []) in
    (exists lost, all = sent_on c st ++ lost) /\
    (Forall visit_steady (calls c (wparts ls)) -> Forall (visit_takes (len all)) (calls c (wparts ls)) -> sent_on c st = all).
Proof.
  intros dbg R size ls st c b rs z more Tot Rn Ac Nr Wk Se Z F Rc Rest Left.
  destruct (accepted_conn _ _ _ _ _ _ Rn Ac) as (x & N). unfold routed, sent_on. rewrite N.
  destruct (C69_with_event_loop _ _ _ _ _ _ _ Tot Rn N) as (rt & s & busy & H1 & H2 & H3 & H4).
  destruct (works_replies _ _ _ _ Wk H1) as [Np S]. destruct Wk as (_ & V & _). rewrite Rc in H2.
  pose proof (resting_here _ _ _ _ _ _ _ Tot Rn Rest Left N Ac Nr) as Here.
  assert (Nz : z <> []) by (intros ->; pose proof (overflow_some _ Z); discriminate).
  assert (Nbz : b ++ z <> []) by (intros K; apply app_eq_nil in K as [_ K]; congruence).
  destruct (items_long s _ _ _ Nbz H2) as [(y & Eb & Ny & Er & L & I)|(s1 & s2 & y & -> & P & L & I & Q)].
  - (* The connection was dropped before. *)
    destruct (open_or_shut x) as [O|O].
    { exfalso. destruct (Here O) as (Es & k & P & In0). rewrite H4, Es in Er by (rewrite P; discriminate). destruct y; [congruence|discriminate]. }
    assert (Od : orderly false s).
    { split; [now apply live_eof_false|]. split; [|split; [|split]].
      - intros a a' ->. rewrite LimitGrammar.pending_app, <- app_assoc in Eb. refine (proj1 (F _ _ Eb _)). intros K. apply app_eq_nil in K as [_ K]. auto.
      - intros a a' ->. exfalso. apply I, in_or_app. right. now left.
      - intros w a K. rewrite K, <- app_assoc in Eb. refine (proj2 (F _ _ Eb _)). intros K'. apply app_eq_nil in K' as [_ K']. auto.
      - intros _. exact (proj1 (F _ _ Eb Ny)). }
    split; [exact (C89_ended _ _ _ _ _ _ _ Rn N O)|].
    destruct (as_slot (wc_slot x)) as [k0|sent|sent] eqn:K; [unfold wopen in O; destruct (wc_slot x); discriminate| |].
    2:{ exfalso. destruct (C26_responses dbg rt false s _ _ _ Np Od V S H3) as [(? & ? & X & _)|(? & ? & X & _)]; discriminate. }
    destruct (visits_delivered dbg rt false _ Np _ _ _ _ [] (conn_new_fine s) holds_new (orderly_calm _ _ Od) V S H3) as (l & o & El & Sv & Rst & D).
    cbn [app] in El. subst l. rewrite conn_new_output in *. cbn [app cn_in conn_new slot_sent] in *.
    exists rt, o, false. rewrite app_nil_r. split; auto. split; [|cbn zeta; auto].
    destruct Z as (p & Z & _). eapply served_before; eauto. rewrite Eb. now apply served_dropped.
  - assert (TL : too_long b z [] (s1 ++ s2)).
    { split; auto. split; [eauto|]. split; [|split; [intros _; exact (overflow_some _ Z)|]].
      - intros w a ->. rewrite <- app_assoc in F. refine (proj2 (F w _ eq_refl _)). intros K. apply app_eq_nil in K as [_ K]. auto.
      - exists s1, s2, y. split; auto. split; [|now rewrite app_assoc]. split; auto. split.
        + intros a a' Ea. destruct (Q _ _ _ Ea) as (t & Et & Nt). exact (proj1 (F _ _ Et Nt)).
        + intros a a' ->. exfalso. apply I, in_or_app. right. now left. }
    destruct (visits_too_long dbg rt z _ Np [] (conn_new (s1 ++ s2)) _ _ [] b (conn_new_fine _) holds_new TL V S H3) as (new & all & El & R0).
    cbn [app] in El. subst new. rewrite conn_new_output in R0. cbn [app cn_in conn_new] in R0.
    destruct (as_slot (wc_slot x)) as [k0|sent|sent] eqn:K; [| |destruct R0].
    + exfalso. assert (O : wopen x = true) by (unfold wopen; destruct (wc_slot x); auto; discriminate).
      destruct (Here O) as (_ & k1 & P0 & In0). rewrite P0 in K. cbn [as_slot] in K. injection K as ->.
      destruct R0 as (_ & b' & cur' & Hh & TL'). exact (too_long_left _ _ _ _ _ Hh TL' In0).
    + assert (O : wopen x = false) by (unfold wopen; destruct (wc_slot x); try discriminate; reflexivity).
      split; [exact (C89_ended _ _ _ _ _ _ _ Rn N O)|]. cbn [slot_sent].
      destruct R0 as ((o & keep & Sv & ->) & R2 & R3). exists rt, o, keep. cbn zeta. auto.
Qed.
Print Assumptions C102_server.

(** The requests do not ask to close: all of them are routed, and all are answered before the 400. *)
Theorem C102_server_answers : forall dbg R size ls st c b rs z more, has_router R ->
  frun dbg R (f_init size) ls st -> accepted_here c ls -> never_removed c ls -> works_for R c (calls c (wparts ls)) ->
  session b rs [] -> (forall r, In r rs -> ~ asks_close r) -> overflow z -> nearly_fair (b ++ z) ->
  received c (wparts ls) = map IByte (b ++ z) ++ more ->
  resting dbg R st -> worker_left (f_w st) = true ->
  ~ connected c st /\ routed c st = rs /\
  exists rt, (forall h q, R c q (rt h q)) /\ (exists lost, replies rt [] rs ++ bad_request = sent_on c st ++ lost) /\
    (Forall visit_steady (calls c (wparts ls)) -> Forall (visit_takes (len (replies rt [] rs ++ bad_request))) (calls c (wparts ls)) ->
     sent_on c st = replies rt [] rs ++ bad_request).
Proof.
  intros dbg R size ls st c b rs z more Tot Rn Ac Nr Wk Se A Z F Rc Rest Left.
  destruct (C102_server _ _ _ _ _ _ _ _ _ _ Tot Rn Ac Nr Wk Se Z F Rc Rest Left) as (Nc & rt & out & keep & H1 & Sv & H2).
  assert (U : unasking rs) by (apply Forall_forall; exact A).
  destruct (served_unique _ _ _ _ _ _ _ Sv _ _ _ (session_served_wait rt _ _ _ Se U (ex_intro _ (InFirst []) eq_refl) [])) as (El & -> & ->).
  cbn zeta in H2. destruct H2 as [H2 H3]. split; auto. split; auto. exists rt. auto.
Qed.
Print Assumptions C102_server_answers.

(** ** Which bytes these are *)

(** A first line: 512 bytes without a line feed.  A header line: the same, after a line that is a first line. *)
Lemma long_first l : len l = 512%N -> ~ In LF l -> overflow l.
Proof. intros L N. exists (InFirst l). split; [|exact L]. unfold batch_request, batch_msg, batch_first. now rewrite cut_line_none by exact N. Qed.

Lemma header_begun line t l : text line -> parse_request_line line = inr t -> ~ In LF l ->
  batch_request (line ++ crlf ++ l) = Incomplete (InHeaders (len l) l).
Proof.
  intros T P N. unfold batch_request, batch_msg, batch_first. rewrite cut_line_text by exact T. rewrite P. cbn [obind].
  rewrite batch_headers_eq, cut_line_none by exact N. reflexivity.
Qed.
Lemma long_header line t l : text line -> parse_request_line line = inr t -> len l = 512%N -> ~ In LF l -> overflow (line ++ crlf ++ l).
Proof. intros T P L N. eexists. split; [eapply header_begun; eauto|]. cbn [full_line]. split; [exact L|lia]. Qed.

Lemma session_then b rs w : session b rs [] -> last_outcome (b ++ w) = last_outcome w.
Proof.
  intros Se. remember (@nil byte) as e eqn:Ee. induction Se as [b Hb|b v rest rs e Hb Se IH]; [now subst|].
  rewrite last_unfold, (batch_request_complete_ext _ _ _ w Hb). auto.
Qed.
Lemma nearly_after b rs z : session b rs [] -> fair b -> nearly_fair z -> nearly_fair (b ++ z).
Proof.
  intros Se F Z w x E Nx. destruct (Nat.le_gt_cases (List.length w) (List.length b)) as [L|L].
  - symmetry in E. destruct (prefix_of _ _ _ _ E L) as (t & -> & _). now apply (F w t).
  - destruct (prefix_of _ _ _ _ E (Nat.lt_le_incl _ _ L)) as (t & -> & Et). rewrite (session_then _ _ _ Se). eapply Z; eauto.
Qed.

Lemma shorter {A} (w x : list A) n : len (w ++ x) = n -> x <> [] -> (len w < n)%N.
Proof. intros <- Nx. rewrite len_app. destruct x; [congruence|]. rewrite len_cons. lia. Qed.
Lemma nearly_first l : len l = 512%N -> ~ In LF l -> ascii l -> nearly_fair l.
Proof.
  intros L N A w x -> Nx. apply shorter in L; auto.
  assert (E : batch_request w = Incomplete (InFirst w)).
  { unfold batch_request, batch_msg, batch_first. rewrite cut_line_none; [reflexivity|]. intros I. apply N, in_or_app. auto. }
  rewrite last_of_unfinished by (rewrite E; exact Logic.I). rewrite E. split; [|split; [exact L|exact Logic.I]].
  cbn [clean line_of]. apply utf8_ascii. apply Forall_app in A as [A _]. exact A.
Qed.
Lemma nearly_header line t l : text line -> ascii line -> (len line + 2 <= 512)%N -> parse_request_line line = inr t ->
  len l = 512%N -> ~ In LF l -> ascii l -> nearly_fair (line ++ crlf ++ l).
Proof.
  intros T A1 L1 P L N A w x E Nx. rewrite app_assoc in E.
  destruct (Nat.le_gt_cases (List.length (line ++ crlf)) (List.length w)) as [Le|Gt].
  - destruct (prefix_of _ _ _ _ E Le) as (l1 & -> & ->). apply shorter in L; auto. apply Forall_app in A as [A _].
    assert (E1 : batch_request ((line ++ crlf) ++ l1) = Incomplete (InHeaders (len l1) l1)).
    { rewrite <- app_assoc. eapply header_begun; eauto. intros I. apply N, in_or_app. auto. }
    rewrite last_of_unfinished by (rewrite E1; exact Logic.I). rewrite E1. split; [now apply utf8_ascii|].
    split; [exact L|cbn [line_of small]; lia].
  - symmetry in E. destruct (prefix_of _ _ _ _ E (Nat.lt_le_incl _ _ Gt)) as (u & Eu & _).
    assert (K : exists v, line ++ [CR] = w ++ v).
    { change crlf with ([CR] ++ [LF]) in Eu. rewrite app_assoc in Eu. destruct (List.rev u) as [|a u'] eqn:Er.
      - apply (f_equal (@rev Ascii.ascii)) in Er. rewrite rev_involutive in Er. cbn in Er. subst u. rewrite app_nil_r in Eu.
        rewrite <- Eu, !app_length in Gt. cbn in Gt. lia.
      - apply (f_equal (@rev Ascii.ascii)) in Er. rewrite rev_involutive in Er. cbn [rev] in Er. subst u. rewrite app_assoc in Eu.
        apply app_inj_tail in Eu as [Eu _]. exists (rev u'). exact Eu. }
    destruct K as (v & K). destruct T as [_ Nl].
    assert (Nw : ~ In LF w).
    { intros I. assert (I2 : In LF (line ++ [CR])) by (rewrite K; apply in_or_app; auto). apply in_app_or in I2 as [I2|[I2|[]]]; [auto|discriminate]. }
    assert (Aw : ascii w).
    { assert (A2 : ascii (line ++ [CR])) by (apply Forall_app; split; [exact A1|repeat constructor; vm_compute; reflexivity]).
      rewrite K in A2. apply Forall_app in A2 as [A2 _]. exact A2. }
    assert (Lw : (len w < 512)%N) by (apply (f_equal len) in K; rewrite !len_app in K; change (len [CR]) with 1%N in K; lia).
    assert (E1 : batch_request w = Incomplete (InFirst w)) by (unfold batch_request, batch_msg, batch_first; now rewrite cut_line_none).
    rewrite last_of_unfinished by (rewrite E1; exact Logic.I). rewrite E1. split; [now apply utf8_ascii|split; [exact Lw|exact Logic.I]].
Qed.

(** Text in ASCII of 512 bytes, in place of the request line or as a header line. *)
Definition long_line (z : bytes) : Prop :=
  exists l, len l = 512%N /\ ~ In LF l /\ ascii l /\
    (z = l \/ exists line t, text line /\ ascii line /\ (len line + 2 <= 512)%N /\ parse_request_line line = inr t /\ z = line ++ crlf ++ l).

(** All of these, after any well-formed requests. *)
Theorem C102_lines : forall rs z, Forall plain_request rs -> long_line z ->
  let b := List.concat (map write_request rs) in
  exists rs', Forall2 same_request rs' rs /\ session b rs' [] /\ overflow z /\ nearly_fair (b ++ z).
Proof.
  intros rs z F (l & L & N & A & K) b. destruct (plain_session rs F) as (rs' & H1 & H2). exists rs'. split; auto. split; auto.
  destruct K as [-> |(line & t & T & A1 & L1 & P & ->)].
  - split; [now apply long_first|]. eapply nearly_after; eauto using plain_fair, nearly_first.
  - split; [eapply long_header; eauto|]. eapply nearly_after; eauto using plain_fair, nearly_header.
Qed.
Print Assumptions C102_lines.

(** ** A case *)

(** One worker.  The peer sends a request, then a line that is too long, and more. *)
Definition endless : bytes := repeat "a"%char 512.
Definition long_input : bytes := write_request get_root ++ endless.

Lemma endless_line : long_line endless.
Proof.
  exists endless. split; [vm_compute; reflexivity|]. split; [intros I; apply repeat_spec in I; discriminate|]. split; [|now left].
  apply Forall_forall. intros c H. apply repeat_spec in H. subst. vm_compute. reflexivity.
Qed.

Example C102_case : exists ls st rs', frun true nobody (f_init 1) ls st /\ resting true nobody st /\ worker_left (f_w st) = true /\
  accepted_here 0 ls /\ never_removed 0 ls /\ works_for nobody 0 (calls 0 (wparts ls)) /\
  session (write_request get_root) rs' [] /\ (forall r, In r rs' -> ~ asks_close r) /\ overflow endless /\ nearly_fair (write_request get_root ++ endless) /\
  received 0 (wparts ls) = map IByte (write_request get_root ++ endless) ++ [IByte "b"%char; IEnd] /\
  sent_on 0 st = not_found ++ bad_request.
Proof.
  destruct (C102_lines [get_root] endless (Forall_cons _ (proj1 get_root_plain) (Forall_nil _)) endless_line) as (rs' & H1 & H2 & H3 & H4).
  cbn [map List.concat] in H2, H4. rewrite app_nil_r in H2, H4.
  pose proof (frun_nil true nobody (f_init 1)) as Rn.
  fgo Rn ltac:(fpoll [EvListener]).
  fgo Rn ltac:(fmain Listening ltac:(apply step_listen; reflexivity)).
  fgo Rn ltac:(faccept 0).
  fgo Rn ltac:(fmain Blocked ltac:(apply step_blocked; reflexivity)).
  fgo Rn ltac:(eapply (fs_arrive _ _ _ 0 0 (map IByte long_input ++ [IByte "b"%char; IEnd])); [cbn; auto|eapply ws_arrive;
    [reflexivity|reflexivity|discriminate|apply Forall_app; split; [apply all_proper|repeat constructor; discriminate]]]).
  fgo Rn ltac:(fpoll [EvSocket 0 0 false]).
  fgo Rn ltac:(fready 0 (Some 0)).
  fgo Rn ltac:(eapply fs_work; [|eapply (ws_take _ _ _ 0 0); reflexivity]; reflexivity).
  fgo Rn ltac:(eapply fs_work; [|eapply (ws_enter _ _ _ 0 0 _ _ ample peer0); reflexivity]; reflexivity).
  fgo Rn ltac:(eapply fs_work; [|eapply (ws_read _ _ _ 0 0 _ _ _ _ _ (RData long_input) [IByte "b"%char; IEnd]); [reflexivity|reflexivity|reflexivity|served|reflexivity]]; reflexivity).
  fgo Rn ltac:(eapply fs_end; [|eapply (ws_close _ _ _ 0 0); [reflexivity|reflexivity|reflexivity|served]|eapply (step_finished _ 0 true); cbn; auto]; reflexivity).
  assert (V : visit_fine ample) by (split; [apply Forall_forall; intros e H; apply repeat_spec in H; subst; exact I|constructor]).
  assert (Vs : visit_steady ample).
  { intros a b n E. exfalso. assert (K : In (WFail WouldBlock) (v_events ample)) by (rewrite E; apply in_or_app; right; now left).
    apply repeat_spec in K. discriminate. }
  do 2 eexists. exists rs'. split; [exact Rn|]. split; [|split; [reflexivity|]].
  2:{ split; [unfold accepted_here; cbn [In]; intuition|]. split; [intros r H'; cbn [In] in H'; intuition discriminate|].
      split; [split; [intros q l _ ->; discriminate|split; [repeat (constructor; auto)|left; repeat (constructor; auto)]]|].
      split; [exact H2|]. split; [|split; [exact H3|split; [exact H4|split; reflexivity]]].
      intros r Hr (vs & G & K). inversion H1 as [|r' r0 ? ? (_ & _ & Hm & _) H1']; subst. inversion H1'; subst. destruct Hr as [<-|[]].
      apply (proj1 (proj2 get_root_plain)). exists vs. rewrite <- Hm. auto. }
  intros l st' S'.
  match type of S' with fstep _ _ ?s _ _ =>
    assert (Qw : forall l w', wstep true nobody (f_w s) l w' -> outside l = true);
    [|assert (Qp : forall l p', pstep (f_p s) l p' -> l = Polled \/ exists d b, l = Finished d b)] end.
  - clear. intros l w' S. inversion S; subst; auto; cbn [f_w ws_conns ws_queue ws_workers] in *; exfalso;
      repeat match goal with
      | H : nth_error _ ?i = Some _ |- _ => is_var i; destruct i as [|i]; cbn [nth_error] in H; try discriminate; try (injection H as <-; cbn in *)
      end; try discriminate; try congruence.
  - clear. intros l p' S. inversion S; subst; try discriminate; eauto.
  - inversion S' as [? ? ? ? ? G S|? ? ? ? G S|? p' S F|? l0 p' M S|? c ok p' S|? c r p' S A|? l0 w' I S|? l0 d b w' p' E S S0]; subst; auto.
    + inversion S; subst. cbn [p_batch from_outside]. destruct evs as [|[|c t b] evs]; auto. exfalso.
      destruct (F c t b (or_introl eq_refl)) as (x & N & Ex). destruct c as [|c]; cbn in N; [|destruct c; discriminate]; injection N as <-; discriminate.
    + destruct (Qp _ _ S) as [-> |(d & b & ->)]; discriminate.
    + destruct (Qp _ _ S) as [H|(d & b & H)]; discriminate.
    + specialize (Qw _ _ S). destruct l0; discriminate.
    + specialize (Qw _ _ S). destruct l0; discriminate.
Qed.

(** One connection: a header line that is too long, in two pieces, before an error. *)
Definition begun_get : bytes := lit "GET / HTTP/1.1" ++ crlf.
Definition long_head : stream := [RData begun_get; RErr WouldBlock; RData endless].
Example C102_header_case : overflow (begun_get ++ endless) /\ session [] [] [] /\ live long_head /\
  blocks_in_clean_lines last_outcome long_head /\ no_interrupt_in_data last_outcome long_head /\
  pending long_head = [] ++ (begun_get ++ endless) ++ [] /\
  exists log, visits true peer0 [ample; ample; ample] [] (Open (conn_new (long_head ++ [RErr (OtherKind 104)]))) = (log, Gone bad_request).
Proof.
  split. { unfold begun_get. rewrite <- app_assoc. eapply long_header; [split; [vm_compute; reflexivity|]|vm_compute; reflexivity|vm_compute; reflexivity|].
    - intros I. assert (K : existsb (Ascii.eqb LF) (lit "GET / HTTP/1.1") = true) by (apply existsb_exists; exists LF; split; [exact I|apply Ascii.eqb_refl]). vm_compute in K. discriminate.
    - intros I. apply repeat_spec in I. discriminate. }
  split; [constructor; discriminate|]. split; [repeat constructor; try discriminate; auto|]. split; [|split; [|split]].
  - intros s1 s2 E. destruct s1 as [|e1 s1]; [discriminate|]. cbn [app long_head] in E. unfold long_head in E. injection E as <- E.
    destruct s1 as [|e2 s1]; [vm_compute; reflexivity|]. injection E as <- E. destruct s1 as [|e3 s1]; [discriminate|]. injection E as _ E. destruct s1; discriminate.
  - intros s1 s2 E. exfalso. assert (K : In (RErr Interrupted) long_head) by (rewrite E; apply in_or_app; right; now left).
    destruct K as [K|[K|[K|[]]]]; discriminate.
  - vm_compute. reflexivity.
  - eexists. vm_compute. reflexivity.
Qed.
