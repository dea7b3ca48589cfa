(** How the server ends a connection: C89. *)
From Coq Require Import List Ascii String NArith Bool Arith Lia.
From Verif.Model Require Import Bytes Io Common Parse Encode Writer Server Slab Poll Handlers Whole Full.
From Verif.Spec Require Import Batch Stream Drive Numerals Grammar Wire Output Session Slots Traces Arrivals Events World.
From Verif.Proofs Require Import BytesFacts IoFacts ParseFacts DriveFacts CallFacts BatchFacts LimitGrammar EncodeFacts Checks WriterFacts OpsFacts ServerFacts ConnFacts FailFacts FailConnFacts SlabFacts PollFacts HandlersFacts WholeFacts FullFacts.
From Verif.Properties Require Import Streaming RoundTrip Server Poll Handlers Whole Full Peers.
Import ListNotations.

(** ** What the server has dropped is closed *)

Lemma shut_before dbg R w l w' c x' : wstep dbg R w l w' -> nth_error (ws_conns w') c = Some x' -> wopen x' = false ->
  ends l = Some (c, true) \/ exists x, nth_error (ws_conns w) c = Some x /\ wopen x = false.
Proof.
  intros S N O. destruct S; unfold wupd in N; cbn [ws_conns] in N; eauto;
    (match type of N with nth_error (set_nth ?d ?y _) _ = _ => destruct (Nat.eq_dec d c) as [->|Ne] end;
     [|rewrite nth_set_other in N by assumption; eauto]);
    (match goal with H : nth_error (ws_conns _) c = Some ?y |- _ => rewrite (nth_set_same _ _ _ _ H) in N; inversion N; subst x' end);
    unfold wopen in *; cbn [wc_slot] in *; try discriminate; auto;
    (right; eexists; split; [eassumption|]; assumption).
Qed.

Definition shut (st : fstate) : Prop := forall c x, nth_error (ws_conns (f_w st)) c = Some x -> wopen x = false -> ~ connected c st.

Lemma shut_step dbg R st l st' : finv st -> shut st -> fstep dbg R st l st' -> shut st'.
Proof.
  intros [P L J] G S. destruct S as [st c t its w' H S|st c t w' H S|st p' S F|st l p' M S|st c ok p' S|st c r p' S A|st l w' I S|st l d b w' p' E S S'];
    intros e y Ny Oy [u Hu]; cbn [f_w f_p] in *.
  - destruct (shut_before _ _ _ _ _ _ _ S Ny Oy) as [K|(x & Nx & Ox)]; [discriminate|]. apply (G e x Nx Ox). now exists u.
  - destruct (shut_before _ _ _ _ _ _ _ S Ny Oy) as [K|(x & Nx & Ox)]; [discriminate|]. apply (G e x Nx Ox). now exists u.
  - cbn [polled ws_conns] in Ny. rewrite clear_all_nth in Ny.
    assert (X : exists x, nth_error (ws_conns (f_w st)) e = Some x /\ wopen x = false).
    { destruct (existsb _ _); [|eauto]. destruct (nth_error (ws_conns (f_w st)) e) as [x|]; inversion Ny; subst y. eauto. }
    destruct X as (x & Nx & Ox). apply (G e x Nx Ox). exists u. inversion S; subst. exact Hu.
  - apply (G e y Ny Oy). exists u. destruct l as [| |? ?| | |? ?|c r|? ?]; try discriminate; inversion S as [| | | | |? ? t bb ? ? B Li E| |]; subst; auto.
    unfold on_write_closed in E. destruct (remove _ _). inversion E; subst. cbn [p_reg] in Hu. apply sweep_in in Hu. apply Hu.
  - inversion S as [| |? ? ? Li E| | | | |]; subst. unfold on_connection in E. cbn [add_conn ws_conns] in Ny.
    destruct (Nat.eq_dec e (p_next (f_p st))) as [->|Ne].
    + rewrite nth_error_app2 in Ny by lia. rewrite L, Nat.sub_diag in Ny. inversion Ny; subst y. discriminate.
    + assert (e < List.length (ws_conns (f_w st))).
      { assert (e < List.length (ws_conns (f_w st) ++ [wc_new])) by (apply nth_error_Some; congruence). rewrite app_length in *. cbn in *. lia. }
      rewrite nth_error_app1 in Ny by lia. apply (G e y Ny Oy). exists u.
      destruct ok; [destruct (insert _ _) as [[s' k]|]; [|discriminate]|]; inversion E; subst p'; cbn [p_reg] in Hu; auto.
      destruct Hu as [Hu|Hu]; auto. inversion Hu; congruence.
  - inversion S as [| | | | | |? ? t bb ? ? B Li E|]; subst. unfold on_ready in E. inversion E; subst r p'. clear E.
    assert (Ny' : nth_error (ws_conns (f_w st)) e = Some y) by (destruct (get (p_slab (f_p st)) t); exact Ny).
    apply (G e y Ny' Oy). now exists u.
  - destruct (shut_before _ _ _ _ _ _ _ S Ny Oy) as [K|(x & Nx & Ox)]; [destruct l; discriminate|]. apply (G e x Nx Ox). now exists u.
  - inversion S'; subst. cbn [p_reg] in Hu. apply sweep_in in Hu as [Hu _].
    destruct (shut_before _ _ _ _ _ _ _ S Ny Oy) as [K|(x & Nx & Ox)].
    + rewrite E in K. inversion K; subst. apply filter_In in Hu as [_ Hu]. cbn [fst] in Hu. now rewrite Nat.eqb_refl in Hu.
    + apply (G e x Nx Ox). exists u. destruct b; auto. now apply filter_In in Hu.
Qed.

(** In every execution: a connection that a handler has dropped, or that went down with a panic, has its socket closed. *)
Theorem C89_ended : forall dbg R size ls st c x, frun dbg R (f_init size) ls st ->
  nth_error (ws_conns (f_w st)) c = Some x -> wopen x = false -> ~ connected c st.
Proof.
  intros dbg R size ls st c x Rn. revert c x. change (shut st). remember (f_init size) as i.
  induction Rn as [|st0 ls st1 l st2 Rn IH S]; subst.
  - intros c x N. now destruct c.
  - eapply shut_step; eauto. eapply finv_run; eauto.
Qed.
Print Assumptions C89_ended.

(** ** Peers that ask for the end *)

(** A first part of requests of which the [1 + length rs]-th is the first to ask for closing: if that request is not in
    it completely the connection is kept, else it is dropped after that request. *)
Lemma closing_part rt rs q more : Forall plain_request (rs ++ q :: more) -> (forall r, In r rs -> ~ asks_close r) -> asks_close q ->
  forall b x, List.concat (map write_request (rs ++ q :: more)) = b ++ x -> forall h,
  (exists l o, served rt h b false l o true) \/
  (exists l, Forall2 same_request l (rs ++ [q]) /\ served rt h b false l (replies rt h l) false).
Proof.
  induction rs as [|r rs IH]; intros F A Q b x E h.
  - cbn [app] in *. inversion F as [|? ? F1 F2]; subst. cbn [map List.concat] in E.
    destruct F1 as (G & Fi & Asc) eqn:Ef. clear Ef. destruct (request_reads_back q [] G Fi) as (q' & Hr & Sr). rewrite app_nil_r in Hr.
    assert (Un : asks_close q').
    { destruct Q as (vs & K1 & K2). destruct Sr as (_ & _ & Hm & _). exists vs. rewrite Hm. auto. }
    apply prefix_cases in E as [(y & Hy & E)|(b' & -> & E)].
    + left. exists [], []. destruct (batch_request b) as [v rest|p|v n|e] eqn:Eb.
      * exfalso. apply (batch_request_complete_ext _ _ _ y) in Eb. rewrite <- E, Hr in Eb. inversion Eb.
        symmetry in H1. apply app_eq_nil in H1 as [_ ->]. congruence.
      * eapply served_wait; eauto.
      * exfalso. exact (batch_request_not_eof _ _ _ Eb).
      * exfalso. apply (batch_request_bad_ext _ _ y) in Eb. rewrite <- E, Hr in Eb. discriminate.
    + right. apply (batch_request_complete_ext _ _ _ b') in Hr. cbn [app] in Hr. exists [q']. split; [repeat constructor; apply Sr|].
      cbn [replies]. rewrite app_nil_r. eapply served_last; eauto.
  - cbn [app] in *. inversion F as [|? ? F1 F2]; subst. cbn [map List.concat] in E.
    destruct F1 as (G & Fi & Asc) eqn:Ef. clear Ef. destruct (request_reads_back r [] G Fi) as (r' & Hr & Sr). rewrite app_nil_r in Hr.
    assert (Un : ~ asks_close r').
    { intros (vs & K1 & K2). apply (A r); [now left|]. destruct Sr as (_ & _ & Hm & _). exists vs. rewrite <- Hm. auto. }
    apply prefix_cases in E as [(y & Hy & E)|(b' & -> & E)].
    + left. exists [], []. destruct (batch_request b) as [v rest|p|v n|e] eqn:Eb.
      * exfalso. apply (batch_request_complete_ext _ _ _ y) in Eb. rewrite <- E, Hr in Eb. inversion Eb.
        symmetry in H1. apply app_eq_nil in H1 as [_ ->]. congruence.
      * eapply served_wait; eauto.
      * exfalso. exact (batch_request_not_eof _ _ _ Eb).
      * exfalso. apply (batch_request_bad_ext _ _ y) in Eb. rewrite <- E, Hr in Eb. discriminate.
    + apply (batch_request_complete_ext _ _ _ b') in Hr. cbn [app] in Hr.
      destruct (IH F2 (fun r I => A r (or_intror I)) Q b' x E (h ++ [r'])) as [(l & o & Sv)|(l & Fl & Sv)].
      * left. exists (r' :: l), (reply (rt h r') ++ o). eapply served_next; eauto.
      * right. exists (r' :: l). split; [constructor; auto|]. cbn [replies]. eapply served_next; eauto.
Qed.

(** Everything the reference says was written is on the socket of a dropped connection, if each call could have taken
    that much. *)
Lemma visits_delivered dbg rt eof vs : no_panic rt ->
  forall log c log' sent cur, conn_fine c -> holds (cn_parser c) cur -> calm eof cur (cn_in c) -> Forall visit_fine vs ->
  (Forall visit_steady vs \/ short_replies rt) -> visits dbg rt vs log (Open c) = (log', Gone sent) ->
  exists new out, log' = log ++ new /\ served rt log (cur ++ pending (cn_in c)) eof new out false /\
    (exists rest, output c ++ out = sent ++ rest) /\ (Forall (visit_takes (len (output c ++ out))) vs -> sent = output c ++ out).
Proof.
  intros Hrt. induction vs as [|v vs IH]; intros log c log' sent cur Hc Hh Hs F S E; cbn [visits] in E; [discriminate|].
  destruct (handle dbg rt v log (Open c)) as [l1 st1] eqn:Eh. inversion F as [|? ? F1 F2]; subst.
  assert (Sv : visit_steady v \/ short_replies rt) by (destruct S as [S|S]; [inversion S|]; auto).
  assert (Svs : Forall visit_steady vs \/ short_replies rt) by (destruct S as [S|S]; [inversion S|]; auto).
  destruct Hc as (Hp & I & C). pose proof Eh as Eh2.
  apply handle_writes in Eh2 as (n0 & t0 & E0 & T0 & H0); auto; [|split; auto].
  assert (Hopen : forall c1, st1 = Open c1 -> conn_fine c1) by (intros c1 ->; apply H0); clear E0 T0 H0.
  cbn [handle] in Eh.
  destruct (visit_writer_fine rt c v I C F1 Sv) as (w1 & k1 & Ef & W1 & O1 & R1). rewrite Ef in Eh.
  unfold respond_to_requests in Eh. destruct (respond _ _ _ _ _) as [[vd l] c'] eqn:Er. pose proof Er as Ew.
  apply respond_writes in Ew as (new' & tail & _ & _ & O2' & _ & R2'); [|exact Hp|apply fresh_need|exact W1].
  eapply (respond_served dbg rt eof _ Hrt _ _ _ _ _ cur) in Er as (n1 & o1 & -> & O2 & R2); [|exact Hh|exact Hs|apply fresh_need|exact W1].
  rewrite O1 in O2. inversion Eh; subst l1 st1. clear Eh. cbn [cn_in cn_parser] in R2. destruct vd.
  - destruct R2 as (took & cur1 & P1 & J1 & J2 & J3 & J5 & J4). pose proof (Hopen _ eq_refl) as C1.
    apply (IH _ _ _ _ cur1) in E as (n2 & o2 & -> & R & (rest & R') & D); auto. exists (n1 ++ n2), (o1 ++ o2). rewrite !app_assoc. rewrite O2 in *. split; auto. split; [|split].
    + rewrite P1. apply J3. exact R.
    + exists rest. exact R'.
    + intros V. inversion V; subst. auto.
  - rewrite visits_shut in E by discriminate. inversion E; subst. exists n1, o1. split; auto. split; auto. rewrite <- O2. split.
    + unfold output. eauto.
    + intros V. inversion V as [|? ? V1 _]; subst. destruct (R2' (len (output c'))) as (_ & _ & U).
      * apply N.le_refl.
      * apply R1; auto. rewrite O2, len_app. lia.
      * unfold output. now rewrite U, app_nil_r.
  - destruct R2.
Qed.

(** What the router of [c] and the sockets are assumed to do, as in C70. *)
Definition works_for (R : nat -> request -> lresult -> Prop) (c : nat) (vs : list visit) : Prop :=
  calm_listeners R c /\ Forall visit_fine vs /\ (Forall visit_steady vs \/ short_listeners R c).

Lemma works_replies R c vs rt : works_for R c vs -> (forall h q, R c q (rt h q)) ->
  no_panic rt /\ (Forall visit_steady vs \/ short_replies rt).
Proof.
  intros (Cl & V & Sh) H1. split; [intros h v U; eapply Cl; eauto|]. destruct Sh as [Sh|Sh]; [now left|right].
  intros h v r K. eapply Sh. rewrite <- K. apply H1.
Qed.

Lemma open_or_shut x : wopen x = true \/ wopen x = false.
Proof. destruct (wopen x); auto. Qed.

(** A peer sends requests one of which asks to close, and perhaps more.  When the server has nothing more to do and a
    worker is left: exactly the requests up to that one have been routed, once and in order; the socket is closed; what
    was sent on it is a first part of the answers to them, all if the socket took that much. *)
Theorem C89_asked : forall dbg R size ls st c rs q more, has_router R ->
  frun dbg R (f_init size) ls st -> accepted_here c ls -> never_removed c ls -> works_for R c (calls c (wparts ls)) ->
  Forall plain_request (rs ++ q :: more) -> (forall r, In r rs -> ~ asks_close r) -> asks_close q ->
  received c (wparts ls) = map IByte (List.concat (map write_request (rs ++ q :: more))) ->
  resting dbg R st -> worker_left (f_w st) = true ->
  ~ connected c st /\ Forall2 same_request (routed c st) (rs ++ [q]) /\
  exists rt, (forall h q, R c q (rt h q)) /\ (exists lost, replies rt [] (routed c st) = sent_on c st ++ lost) /\
    (Forall visit_steady (calls c (wparts ls)) -> Forall (visit_takes (len (replies rt [] (routed c st)))) (calls c (wparts ls)) ->
     sent_on c st = replies rt [] (routed c st)).
Proof.
  intros dbg R size ls st c rs q more Tot Rn Ac Nr Wk F A Q Rc Rest Left.
  destruct (accepted_conn _ _ _ _ _ _ Rn Ac) as (x & N). unfold routed, sent_on. rewrite N.
  destruct (C69_with_event_loop _ _ _ _ _ _ _ Tot Rn N) as (rt & s & busy & H1 & H2 & H3 & H4).
  destruct (works_replies _ _ _ _ Wk H1) as [Np S]. destruct Wk as (_ & V & _).
  rewrite Rc in H2. pose proof H2 as H2'. apply items_bytes in H2 as (b1 & Eb & Er & L & I).
  assert (Od : orderly false s) by (eapply plain_orderly_part; eauto).
  destruct (open_or_shut x) as [O|O].
  - exfalso. destruct (resting_read dbg R _ _ _ _ _ Tot Rn Rest Left N O) as (Es & k & P); [eapply not_removed_held; eauto|].
    assert (In0 : cn_in k = []).
    { destruct (sim_run dbg R _ _ _ Rn _ (le_n _)) as (L0 & RL & _ & _).
      destruct (winv_run dbg R _ _ _ _ Tot RL c _ (retag_nth _ _ _ _ _ (conn_lt _ _ _ _ _ _ _ Rn N) N)) as [_ _ _ G].
      cbn [with_event wc_slot] in G. rewrite P in G. apply G. }
    rewrite H4, Es in Er by (rewrite P; discriminate). cbn in Er. symmetry in Er. apply map_eq_nil in Er. subst b1. rewrite app_nil_r in Eb.
    destruct (plain_session _ F) as (rs' & Q1 & Q2). apply Forall2_app_inv_r in Q1 as (rs1 & rs2 & Q3 & Q4 & ->).
    inversion Q4 as [|q' ? more' ? Sq Q5]; subst.
    assert (U : unasking rs1).
    { clear - A Q3. induction Q3 as [|r' r rs' rs (_ & _ & Hm & _) H IH]; constructor; [|apply IH; intros; apply A; now right].
      intros (vs & G & K). apply (A r); [now left|]. exists vs. rewrite <- Hm. auto. }
    assert (Q' : asks_close q') by (destruct Q as (vs & K1 & K2); destruct Sq as (_ & _ & Hm & _); exists vs; rewrite Hm; auto).
    pose proof (session_served_last rt _ _ _ _ _ false Q2 U Q' []) as Ref. rewrite P in H3. cbn [as_slot] in H3.
    destruct (C26_responses dbg rt false s _ _ _ Np Od V S H3) as [(c0 & got & K & Pg & Sv & _)|(sent & rest & K & Sv)]; [|discriminate].
    inversion K; subst c0. rewrite In0 in Pg. cbn [pending] in Pg. rewrite app_nil_r in Pg. rewrite Eb, Pg in Ref.
    destruct (served_unique _ _ _ _ _ _ _ Sv _ _ _ Ref) as (_ & _ & X). discriminate.
  - split; [exact (C89_ended _ _ _ _ _ _ _ Rn N O)|].
    destruct (as_slot (wc_slot x)) as [k|sent|sent] eqn:K; [unfold wopen in O; destruct (wc_slot x); discriminate| |].
    2:{ exfalso. destruct (C26_responses dbg rt false s _ _ _ Np Od V S H3) as [(? & ? & X & _)|(? & ? & X & _)]; discriminate. }
    destruct (visits_delivered dbg rt false _ Np _ _ _ _ [] (conn_new_fine s) holds_new (orderly_calm _ _ Od) V S H3) as (l & o & El & Sv & Rst & D).
    cbn [app] in El. subst l. rewrite conn_new_output in *. cbn [app cn_in conn_new] in *.
    destruct (closing_part rt rs q more F A Q _ _ Eb []) as [(l & o' & Sv')|(l & Fl & Sv')];
      destruct (served_unique _ _ _ _ _ _ _ Sv _ _ _ Sv') as (El & Eo & X); [discriminate|]. subst l o.
    split; auto. exists rt. auto.
Qed.
Print Assumptions C89_asked.

Lemma items_ended s : forall b r, map IByte b ++ [IEnd] = items s ++ r ->
  (exists b', b = pending s ++ b' /\ r = map IByte b' ++ [IEnd] /\ live s /\ ~ In (RErr Interrupted) s) \/
  (r = [] /\ exists s0 s1, s = s0 ++ RData [] :: s1 /\ pending s0 = b /\ live s0 /\ ~ In (RErr Interrupted) s0 /\ items s1 = []).
Proof.
  induction s as [|e s IH]; intros b r E.
  - left. exists b. cbn in *. repeat split; auto. constructor.
  - change (e :: s) with ([e] ++ s) in E. rewrite items_app, <- app_assoc in E.
    assert (K : forall bs, map IByte b ++ [IEnd] = map IByte bs ++ items s ++ r -> exists b0, b = bs ++ b0 /\ map IByte b0 ++ [IEnd] = items s ++ r).
    { clear. intros bs. revert b. induction bs as [|y bs IH]; intros b E; cbn [map app] in E; [exists b; auto|].
      destruct b as [|z b]; [discriminate|]. cbn [map app] in E. inversion E; subst. destruct (IH _ H1) as (b0 & -> & H). exists b0. cbn [app]. auto. }
    destruct e as [[|y bs]|k].
    + right. destruct b as [|z b]; [|discriminate]. cbn in E. inversion E as [E']. symmetry in E'. apply app_eq_nil in E' as [E1 ->]. split; auto.
      exists [], s. cbn [app pending]. repeat split; auto. constructor.
    + unfold items in E at 1. cbn [flat_map event_items] in E. rewrite app_nil_r in E.
      destruct (K (y :: bs) E) as (b0 & -> & E'). destruct (IH _ _ E') as [(b' & -> & H1 & H2 & H3)|(H0 & s0 & s1 & -> & H1 & H2 & H3 & H4)].
      * left. exists b'. cbn [pending]. rewrite <- app_assoc. repeat split; auto.
        -- constructor; auto. discriminate.
        -- intros [I|I]; [discriminate|auto].
      * right. split; auto. exists (RData (y :: bs) :: s0), s1. cbn [pending]. rewrite H1. repeat split; auto.
        -- constructor; auto. discriminate.
        -- intros [I|I]; [discriminate|auto].
    + destruct k; try (exfalso; destruct b; discriminate). cbn [items flat_map app] in E.
      destruct (IH _ _ E) as [(b' & -> & H1 & H2 & H3)|(H0 & s0 & s1 & -> & H1 & H2 & H3 & H4)].
      * left. exists b'. cbn [pending]. repeat split; auto.
        -- constructor; auto. now left.
        -- intros [I|I]; [discriminate|auto].
      * right. split; auto. exists (RErr WouldBlock :: s0), s1. cbn [pending]. repeat split; auto.
        -- constructor; auto. now left.
        -- intros [I|I]; [discriminate|auto].
Qed.

(** *** Input that is not used up: what follows it does not matter. *)

Section More.
Variable m : stream.
Notation X := (RErr WouldBlock :: m).
Definition more (c : conn) : conn := mk_conn (cn_in c ++ X) (cn_parser c) (cn_w c) (cn_sock c).
Definition more_slot (st : slot) : slot := match st with Open c => Open (more c) | x => x end.

Lemma read_more dbg s p r s' p' : read_request dbg s p = (r, s', p') ->
  read_request dbg (s ++ X) p = (r, s' ++ X, p') \/ (s' = [] /\ r = NotReady).
Proof.
  unfold read_request. set (st := match p with Some st => st | None => req_new end). intros E.
  destruct (req_parse dbg st s) as [r0 s0] eqn:Ep. destruct (req_fails dbg WouldBlock m _ _ _ _ ltac:(discriminate) Ep) as [-> | (-> & st' & -> & H)].
  - left. destruct r0 as [v|st' j|e|]; try (inversion E; subst; reflexivity).
    destruct j; try (destruct (is_closed _ _)); inversion E; subst; reflexivity.
  - right. inversion E; subst. auto.
Qed.

Lemma respond_more dbg rt f : forall log c vd log' c', respond f dbg rt log c = (vd, log', c') ->
  respond f dbg rt log (more c) = (vd, log', more c') \/ (vd = Keep /\ cn_in c' = []).
Proof.
  induction f as [|f IH]; intros log c vd log' c' E; cbn [respond] in *.
  { left. inversion E; subst. reflexivity. }
  change (cn_in (more c)) with (cn_in c ++ X). change (cn_parser (more c)) with (cn_parser c).
  change (cn_w (more c)) with (cn_w c). change (cn_sock (more c)) with (cn_sock c).
  destruct (read_request dbg (cn_in c) (cn_parser c)) as [[r s'] p'] eqn:Er.
  destruct (read_more _ _ _ _ _ _ Er) as [-> | (-> & ->)].
  - destruct r as [|v|e|j| |].
    + inversion E; subst. left. reflexivity.
    + destruct (rt log v) as [|rp|].
      * destruct (run_ops (cn_w c) (cn_sock c) (result_ops LNext)) as [[[u|j] w1] k1]; [|inversion E; subst; left; reflexivity].
        destruct (should_close_after_response v); [inversion E; subst; left; reflexivity|]. apply IH in E. exact E.
      * destruct (run_ops (cn_w c) (cn_sock c) (result_ops (LSend rp))) as [[[u|j] w1] k1]; [|inversion E; subst; left; reflexivity].
        destruct (should_close_after_response v); [inversion E; subst; left; reflexivity|]. apply IH in E. exact E.
      * inversion E; subst. left. reflexivity.
    + destruct (run_ops _ _ error_ops) as [[wr w1] k1]. inversion E; subst. left. reflexivity.
    + destruct (run_ops _ _ error_ops) as [[wr w1] k1]. inversion E; subst. left. reflexivity.
    + inversion E; subst. left. reflexivity.
    + inversion E; subst. left. reflexivity.
  - right. inversion E; subst. auto.
Qed.

Lemma handle_more dbg rt v log c log' st' : parser_fine (cn_parser c) -> handle dbg rt v log (Open c) = (log', st') ->
  handle dbg rt v log (Open (more c)) = (log', more_slot st') \/ (exists c', st' = Open c' /\ cn_in c' = []).
Proof.
  intros Hp E. cbn [handle] in *. change (cn_w (more c)) with (cn_w c). change (cn_sock (more c)) with (cn_sock c).
  destruct (wr_flush _ _) as [[[u|k] w1] k1]; [|inversion E; subst; left; reflexivity].
  set (c1 := mk_conn (cn_in c) (cn_parser c) w1 k1) in *.
  change (mk_conn (cn_in (more c)) (cn_parser (more c)) w1 k1) with (more c1).
  destruct (respond_to_requests dbg rt log c1) as [[vd l] c'] eqn:Er.
  assert (K : respond_to_requests dbg rt log (more c1) = (vd, l, more c') \/ (vd = Keep /\ cn_in c' = [])).
  { unfold respond_to_requests in *. apply respond_more. rewrite <- Er. apply respond_enough; [exact Hp| |apply fresh_need].
    unfold more. cbn [cn_in]. rewrite mu_app. unfold need. destruct (cn_parser c1); lia. }
  destruct K as [-> |(-> & K)]; inversion E; subst; [left|right; eauto]. destruct vd; reflexivity.
Qed.

(** Input that ends is not used up while the connection is kept. *)
Lemma visits_more dbg rt vs : no_panic rt -> forall log c cur log' st', conn_fine c -> holds (cn_parser c) cur -> calm true cur (cn_in c) ->
  Forall visit_fine vs -> (Forall visit_steady vs \/ short_replies rt) -> visits dbg rt vs log (Open c) = (log', st') ->
  visits dbg rt vs log (Open (more c)) = (log', more_slot st').
Proof.
  intros Hrt. induction vs as [|v vs IH]; intros log c cur log' st' Hc Hh Hs F S E; cbn [visits] in *; [inversion E; subst; reflexivity|].
  inversion F as [|? ? F1 F2]; subst.
  assert (Sv : visit_steady v \/ short_replies rt) by (destruct S as [S|S]; [inversion S|]; auto).
  assert (Svs : Forall visit_steady vs \/ short_replies rt) by (destruct S as [S|S]; [inversion S|]; auto).
  destruct (handle dbg rt v log (Open c)) as [l1 st1] eqn:Eh.
  assert (Eh1 : visits dbg rt [v] log (Open c) = (l1, st1)) by (cbn [visits]; now rewrite Eh).
  destruct (visits_served dbg rt true [v] Hrt _ _ _ _ _ Hc Hh Hs (Forall_cons _ F1 (Forall_nil _))
    ltac:(destruct Sv; [left; repeat constructor|right]; auto) Eh1) as (n1 & o1 & _ & R).
  pose proof Eh as Ew. apply handle_writes in Ew as (n0 & t0 & _ & _ & H0); auto.
  assert (Ne : forall c', st1 = Open c' -> cn_in c' <> []).
  { intros c' ->. destruct R as (_ & took & cur' & _ & _ & ((s0 & _ & Es) & _) & _). rewrite Es. destruct s0; discriminate. }
  destruct Hc as (Hp & Hc). destruct (handle_more dbg rt v log c l1 st1 Hp Eh) as [-> |(c' & K1 & K2)]; [|exfalso; exact (Ne _ K1 K2)].
  destruct st1 as [c1|x|x]; cbn [more_slot].
  - destruct R as (_ & took & cur' & _ & J1 & J2 & _). eapply IH; eauto. apply H0.
  - rewrite visits_shut in * by discriminate. inversion E; subst. reflexivity.
  - rewrite visits_shut in * by discriminate. inversion E; subst. reflexivity.
Qed.
End More.

Lemma no_items s : items s = [] -> s = [] \/ exists m, s = RErr WouldBlock :: m.
Proof. destruct s as [|[[|y bs]|[]] s]; auto; try discriminate. right. eauto. Qed.

(** A peer sends requests, none of which asks to close, and then ends its half of the stream.  When the server has nothing
    more to do and a worker is left: all requests have been routed, once and in order; the socket is closed; what was sent
    on it is a first part of the answers, all if the socket took that much. *)
Theorem C89_half_closed : forall dbg R size ls st c rs, has_router R ->
  frun dbg R (f_init size) ls st -> accepted_here c ls -> never_removed c ls -> works_for R c (calls c (wparts ls)) ->
  Forall plain_request rs -> (forall r, In r rs -> ~ asks_close r) ->
  received c (wparts ls) = map IByte (List.concat (map write_request rs)) ++ [IEnd] ->
  resting dbg R st -> worker_left (f_w st) = true ->
  ~ connected c st /\ Forall2 same_request (routed c st) rs /\
  exists rt, (forall h q, R c q (rt h q)) /\ (exists lost, replies rt [] (routed c st) = sent_on c st ++ lost) /\
    (Forall visit_steady (calls c (wparts ls)) -> Forall (visit_takes (len (replies rt [] (routed c st)))) (calls c (wparts ls)) ->
     sent_on c st = replies rt [] (routed c st)).
Proof.
  intros dbg R size ls st c rs Tot Rn Ac Nr Wk F A Rc Rest Left.
  destruct (accepted_conn _ _ _ _ _ _ Rn Ac) as (x & N). unfold routed, sent_on. rewrite N.
  destruct (C69_with_event_loop _ _ _ _ _ _ _ Tot Rn N) as (rt & s & busy & H1 & H2 & H3 & H4).
  destruct (works_replies _ _ _ _ Wk H1) as [Np S]. destruct Wk as (_ & V & _). rewrite Rc in H2.
  (* What was read is the whole input: otherwise something would be left to do. *)
  assert (Ended : exists s0, pending s0 = List.concat (map write_request rs) /\ live s0 /\ ~ In (RErr Interrupted) s0 /\
    exists log' st', visits dbg rt (calls c (wparts ls)) [] (Open (conn_new (s0 ++ [RData []]))) = (log', st') /\
      ((log' = wc_log x /\ st' = as_slot (wc_slot x)) \/ exists m, log' = wc_log x /\ more_slot m st' = as_slot (wc_slot x))).
  { destruct (items_ended _ _ _ H2) as [(b' & Eb & Er & L & I)|(Er & s0 & s1 & -> & P & L & I & Z)].
    - exfalso. assert (Od : orderly false s) by (eapply plain_orderly_part; eauto).
      assert (O : wopen x = true).
      { destruct (C26_responses dbg rt false s _ _ _ Np Od V S H3) as [(c0 & got & K & _)|(sent & rest & K & Sv)].
        - unfold wopen. destruct (wc_slot x); auto; discriminate.
        - exfalso. destruct (plain_part_kept rt rs F A _ _ Eb []) as (l & o & Sv').
          destruct (served_unique _ _ _ _ _ _ _ Sv _ _ _ Sv') as (_ & _ & X). discriminate. }
      destruct (resting_read dbg R _ _ _ _ _ Tot Rn Rest Left N O) as (Es & k & P); [eapply not_removed_held; eauto|].
      rewrite H4, Es in Er by (rewrite P; discriminate). destruct b'; discriminate.
    - exists s0. split; auto. split; auto. split; auto.
      destruct (visits dbg rt (calls c (wparts ls)) [] (Open (conn_new (s0 ++ [RData []])))) as [log' st'] eqn:E.
      exists log', st'. split; auto.
      assert (Od : orderly true (s0 ++ [RData []])).
      { apply (plain_orderly rs); auto.
        - exists s0. auto.
        - rewrite LimitGrammar.pending_app. cbn [pending]. rewrite app_nil_r. exact P.
        - intros a b Eab. exfalso. apply I. assert (K : In (RErr Interrupted) (s0 ++ [RData []])) by (rewrite Eab; apply in_or_app; right; now left).
          apply in_app_or in K as [K|[K|[]]]; [exact K|discriminate]. }
      destruct (no_items _ Z) as [-> |(m & ->)]; [left; rewrite H3 in E; inversion E; auto|right]. exists m.
      pose proof (visits_more m dbg rt _ Np _ _ [] _ _ (conn_new_fine _) holds_new (orderly_calm _ _ Od) V S E) as E'.
      change (more m (conn_new (s0 ++ [RData []]))) with (conn_new ((s0 ++ [RData []]) ++ RErr WouldBlock :: m)) in E'.
      rewrite <- app_assoc in E'. cbn [app] in E'. rewrite H3 in E'. inversion E'. auto. }
  destruct Ended as (s0 & P & L & I & log' & st' & E & K).
  assert (Od : orderly true (s0 ++ [RData []])).
  { apply (plain_orderly rs); auto.
    - exists s0. auto.
    - rewrite LimitGrammar.pending_app. cbn [pending]. rewrite app_nil_r. exact P.
    - intros a b Eab. exfalso. apply I. assert (X : In (RErr Interrupted) (s0 ++ [RData []])) by (rewrite Eab; apply in_or_app; right; now left).
      apply in_app_or in X as [X|[X|[]]]; [exact X|discriminate]. }
  pose proof (visits_served dbg rt true _ Np _ _ _ _ [] (conn_new_fine _) holds_new (orderly_calm _ _ Od) V S E) as (new & out & El & Sv).
  assert (G : exists sent, st' = Gone sent /\ as_slot (wc_slot x) = Gone sent /\ log' = wc_log x).
  { destruct st' as [k|sent|sent]; [|exists sent; destruct K as [[K1 K2]|(m & K1 & K2)]; auto|destruct Sv].
    exfalso. destruct (open_or_shut x) as [O|O].
    - destruct (resting_read dbg R _ _ _ _ _ Tot Rn Rest Left N O) as (Es & k0 & P0); [eapply not_removed_held; eauto|].
      assert (In0 : cn_in k0 = []).
      { destruct (sim_run dbg R _ _ _ Rn _ (le_n _)) as (L0 & RL & _ & _).
        destruct (winv_run dbg R _ _ _ _ Tot RL c _ (retag_nth _ _ _ _ _ (conn_lt _ _ _ _ _ _ _ Rn N) N)) as [_ _ _ G].
        cbn [with_event wc_slot] in G. rewrite P0 in G. apply G. }
      rewrite P0 in K. cbn [as_slot] in K. destruct K as [[_ K]|(m & _ & K)]; inversion K; subst k0.
      + destruct Sv as (_ & took & cur' & _ & _ & ((s1 & _ & Es1) & _) & _). rewrite In0 in Es1. destruct s1; discriminate.
      + cbn [more cn_in] in In0. destruct (cn_in k); discriminate.
    - unfold wopen in O. destruct (wc_slot x); try discriminate; destruct K as [[_ K]|(m & _ & K)]; discriminate. }
  destruct G as (sent & -> & G & ->). rewrite G. cbn [slot_sent].
  assert (O : wopen x = false) by (unfold wopen; destruct (wc_slot x); try discriminate; reflexivity).
  split; [exact (C89_ended _ _ _ _ _ _ _ Rn N O)|]. clear new out El Sv.
  destruct (visits_delivered dbg rt true _ Np _ _ _ _ [] (conn_new_fine _) holds_new (orderly_calm _ _ Od) V S E) as (l & o & El & Sv & Rst & D).
  cbn [app] in El. subst l. rewrite conn_new_output in *. cbn [app cn_in conn_new] in *.
  rewrite LimitGrammar.pending_app in Sv. cbn [pending] in Sv. rewrite app_nil_r, P in Sv.
  destruct (plain_session rs F) as (rs' & Q1 & Q2).
  assert (U : unasking rs').
  { clear - A Q1. induction Q1 as [|r' r rs' rs (_ & _ & Hm & _) H IH]; constructor; [|apply IH; intros; apply A; now right].
    intros (vs & G & K). apply (A r); [now left|]. exists vs. rewrite <- Hm. auto. }
  pose proof (session_served_closed rt _ _ _ Q2 U (or_introl eq_refl) eq_refl []) as Ref.
  destruct (served_unique _ _ _ _ _ _ _ Sv _ _ _ Ref) as (El & Eo & _). rewrite <- El in Eo. subst o. split; [now rewrite El|].
  exists rt. auto.
Qed.
Print Assumptions C89_half_closed.

(** ** A case *)

(** One worker.  Peer 0 sends a request that asks to close; peer 1 sends a request and ends its half of the stream. *)
Definition bye : request := mk_request GET (lit "/bye") (from_pairs [(CONNECTION, lit "close")]) [].
Lemma bye_plain : plain_request bye /\ asks_close bye.
Proof.
  split; [split; [|split; [|split]]|].
  - split; [apply text_check; reflexivity|]. split; [vm_compute; intuition discriminate|]. split.
    + split; [repeat constructor; cbn; intuition discriminate|].
      repeat constructor; try discriminate; try (apply text_check; vm_compute; reflexivity); apply no_colon_check; reflexivity.
    + split; [reflexivity|]. intros; discriminate.
  - split; [vm_compute; congruence|]. split; [repeat constructor; vm_compute; congruence|]. split; vm_compute; congruence.
  - repeat constructor.
  - repeat constructor.
  - eexists. split; [vm_compute; reflexivity|now left].
Qed.

Example C89_case : exists ls st, frun true nobody (f_init 1) ls st /\ resting true nobody st /\ worker_left (f_w st) = true /\
  (forall c, c < 2 -> accepted_here c ls /\ never_removed c ls /\ works_for nobody c (calls c (wparts ls))) /\
  received 0 (wparts ls) = map IByte (List.concat (map write_request ([] ++ bye :: []))) /\
  received 1 (wparts ls) = map IByte (List.concat (map write_request [get_root])) ++ [IEnd] /\
  sent_on 0 st = not_found /\ sent_on 1 st = not_found.
Proof.
  pose proof (frun_nil true nobody (f_init 1)) as Rn.
  fgo Rn ltac:(fpoll [EvListener]).
  fgo Rn ltac:(fmain Listening ltac:(apply step_listen; reflexivity)).
  fgo Rn ltac:(faccept 0).
  fgo Rn ltac:(faccept 1).
  fgo Rn ltac:(fmain Blocked ltac:(apply step_blocked; reflexivity)).
  fgo Rn ltac:(farrive 0 (write_request bye)).
  fgo Rn ltac:(eapply (fs_arrive _ _ _ 1 1 (map IByte (write_request get_root) ++ [IEnd])); [cbn; auto|eapply ws_arrive;
    [reflexivity|reflexivity|discriminate|apply Forall_app; split; [apply all_proper|repeat constructor; discriminate]]]).
  fgo Rn ltac:(fpoll [EvSocket 0 0 false; EvSocket 1 1 false]).
  fgo Rn ltac:(fready 0 (Some 0)).
  fgo Rn ltac:(fready 1 (Some 1)).
  fgo Rn ltac:(eapply fs_work; [|eapply (ws_take _ _ _ 0 0); reflexivity]; reflexivity).
  fgo Rn ltac:(eapply fs_work; [|eapply (ws_enter _ _ _ 0 0 _ _ ample peer0); reflexivity]; reflexivity).
  fgo Rn ltac:(eapply fs_work; [|eapply (ws_read _ _ _ 0 0 _ _ _ _ _ (RData (write_request bye)) []); [reflexivity|reflexivity|reflexivity|served|reflexivity]]; reflexivity).
  fgo Rn ltac:(eapply fs_end; [|eapply (ws_close _ _ _ 0 0); [reflexivity|reflexivity|reflexivity|served]|eapply (step_finished _ 0 true); cbn; auto]; reflexivity).
  fgo Rn ltac:(eapply fs_work; [|eapply (ws_take _ _ _ 0 1); reflexivity]; reflexivity).
  fgo Rn ltac:(eapply fs_work; [|eapply (ws_enter _ _ _ 0 1 _ _ ample peer0); reflexivity]; reflexivity).
  fgo Rn ltac:(eapply fs_work; [|eapply (ws_read _ _ _ 0 1 _ _ _ _ _ (RData (write_request get_root)) [IEnd]); [reflexivity|reflexivity|reflexivity|served|reflexivity]]; reflexivity).
  fgo Rn ltac:(eapply fs_work; [|eapply (ws_read _ _ _ 0 1 _ _ _ _ _ (RData []) []); [reflexivity|reflexivity|reflexivity|served|reflexivity]]; reflexivity).
  fgo Rn ltac:(eapply fs_end; [|eapply (ws_close _ _ _ 0 1); [reflexivity|reflexivity|reflexivity|served]|eapply (step_finished _ 1 true); cbn; auto]; reflexivity).
  assert (V : visit_fine ample) by (split; [apply Forall_forall; intros e H; apply repeat_spec in H; subst; exact I|constructor]).
  assert (Vs : visit_steady ample).
  { intros a b n E. exfalso. assert (K : In (WFail WouldBlock) (v_events ample)) by (rewrite E; apply in_or_app; right; now left).
    apply repeat_spec in K. discriminate. }
  do 2 eexists. split; [exact Rn|]. split; [|split; [reflexivity|split; [|split; [reflexivity|split; [reflexivity|split; reflexivity]]]]].
  2:{ intros c H. assert (Hc : c = 0 \/ c = 1) by lia.
      destruct Hc as [-> | ->]; (split; [unfold accepted_here; cbn [In]; intuition|split; [intros r H'; cbn [In] in H'; intuition discriminate|]]);
        (split; [intros q l _ ->; discriminate|split; [repeat (constructor; auto)|left; repeat (constructor; auto)]]). }
  intros l st' S'.
  match type of S' with fstep _ _ ?s _ _ =>
    assert (Qw : forall l w', wstep true nobody (f_w s) l w' -> outside l = true);
    [|assert (Qp : forall l p', pstep (f_p s) l p' -> l = Polled \/ exists d b, l = Finished d b)] end.
  - clear. intros l w' S. inversion S; subst; auto; cbn [f_w ws_conns ws_queue ws_workers] in *; exfalso;
      repeat match goal with
      | H : nth_error _ ?i = Some _ |- _ => is_var i; destruct i as [|i]; cbn [nth_error] in H; try discriminate; try (injection H as <-; cbn in *)
      end; try discriminate; try congruence.
  - clear. intros l p' S. inversion S; subst; try discriminate; eauto.
  - inversion S' as [? ? ? ? ? G S|? ? ? ? G S|? p' S F|? l0 p' M S|? c ok p' S|? c r p' S A|? l0 w' I S|? l0 d b w' p' E S S0]; subst; auto.
    + inversion S; subst. cbn [p_batch from_outside]. destruct evs as [|[|c t b] evs]; auto. exfalso.
      destruct (F c t b (or_introl eq_refl)) as (x & N & Ex). destruct c as [|[|c]]; cbn in N; [| |destruct c; discriminate]; injection N as <-; discriminate.
    + destruct (Qp _ _ S) as [-> |(d & b & ->)]; discriminate.
    + destruct (Qp _ _ S) as [H|(d & b & H)]; discriminate.
    + specialize (Qw _ _ S). destruct l0; discriminate.
    + specialize (Qw _ _ S). destruct l0; discriminate.
Qed.
