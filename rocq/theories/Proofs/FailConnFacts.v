(** Server connections whose stream fails after some input. *)
From Coq Require Import List Ascii String NArith Bool Lia.
From Coq Require Import ZifyBool ZifyNat ZifyN.
From Verif.Model Require Import Bytes Io Common Parse Encode Writer Server.
From Verif.Spec Require Import Batch Stream Drive Output Unicode Session.
From Verif.Proofs Require Import BytesFacts IoFacts ParseFacts DriveFacts CallFacts BatchFacts WriterFacts OpsFacts ServerFacts ConnFacts FailFacts.
Import ListNotations.
Local Open Scope N_scope.

(** A parser that is inside data when its input stops. *)
Lemma data_of_cont {T} (pf : bytes -> perr + T) flag g m : msg_inv g m -> in_data (msg_cont pf flag g m []) -> msg_data m.
Proof.
  intros Hi H. destruct m as [p|t h|t hm b|t hm body]; cbn [msg_cont msg_data msg_inv] in *.
  - destruct Hi as (_ & Hp & _). unfold batch_msg, batch_first in H. rewrite app_nil_r, cut_line_none in H by exact Hp. destruct H.
  - destruct Hi as ((_ & Hp & _) & _). rewrite hdr_cont_nolf in H by (auto; apply noLF_nil). destruct H.
  - destruct b as [d|d|c|]; cbn [body_cont body_data body_inv] in *.
    + exact I.
    + destruct H.
    + destruct c as [body cs]. unfold chunk_cont in H. unfold chunk_data. cbn [c_state c_body] in *. destruct Hi as ((Hi & _) & _). cbn [c_state] in Hi.
      destruct cs as [p|d|p last|]; cbn [chunk_state_inv] in Hi; [|eauto| |destruct H].
      * destruct Hi as (_ & Hp & _). rewrite app_nil_r in H. unfold batch_chunks in H. cbn [batch_chunks_f] in H.
        rewrite cut_line_none in H by exact Hp. destruct H.
      * destruct Hi as (_ & Hp & _). rewrite app_nil_r in H. unfold batch_tail in H. rewrite cut_line_none in H by exact Hp. destruct H.
    + destruct H.
  - destruct H.
Qed.

(** ** How often a stream has blocked, on any input *)

Lemma read_blocks dbg s p r s' p' : parser_fine p -> read_request dbg s p = (r, s', p') ->
  match r with
  | NotReady => s' = [] \/ (blocks s' < blocks s)%nat
  | Ready _ => (blocks s' <= blocks s)%nat
  | _ => True
  end.
Proof.
  intros [g Hinv] E. unfold read_request in E.
  set (st := match p with Some st => st | None => req_new end) in *.
  destruct (req_parse dbg st s) as [r0 s0] eqn:Ep.
  destruct (req_parser_ok dbg _ _ _ _ _ Hinv Ep) as (w & Hok).
  destruct r0 as [v|st' k|e|]; [|destruct Hok as (_ & Hs & _)| |]; try (inversion E; subst; exact I).
  - inversion E; subst. destruct Hok as [(T & _)|(T & _)]; apply takes_blocks in T; cbn [blocks] in T; lia.
  - destruct k; try (destruct (is_closed _ _)); inversion E; subst; auto.
    destruct Hs as [[[Hs|(_ & _ & Hs)] _]|[(Hs & _)|(Hs & _)]]; try discriminate; auto.
    right. apply takes_blocks in Hs. cbn [blocks] in Hs. lia.
Qed.

Lemma respond_blocks dbg rt f : forall log c log' c', parser_fine (cn_parser c) ->
  respond (S f) dbg rt log c = (Keep, log', c') -> (need (cn_in c) (cn_parser c) < S f)%nat ->
  cn_in c' = [] \/ (blocks (cn_in c') < blocks (cn_in c))%nat.
Proof.
  induction f as [|f IH]; intros log c log' c' Hp E Hn.
  - cbn [respond] in E. destruct (read_request dbg (cn_in c) (cn_parser c)) as [[r s'] p'] eqn:Er.
    destruct (read_fine _ _ _ _ _ _ Hp Er) as (_ & Hr). pose proof (read_blocks _ _ _ _ _ _ Hp Er) as Hb.
    destruct r as [|v|x|j| |]; try discriminate; try (destruct (run_ops _ _ error_ops) as [[? ?] ?]; discriminate).
    + inversion E; subst. exact Hb.
    + destruct Hr as [_ Hr]. lia.
  - set (f1 := S f) in *. cbn [respond] in E. destruct (read_request dbg (cn_in c) (cn_parser c)) as [[r s'] p'] eqn:Er.
    destruct (read_fine _ _ _ _ _ _ Hp Er) as (Hp' & Hr). pose proof (read_blocks _ _ _ _ _ _ Hp Er) as Hb.
    destruct r as [|v|x|j| |]; try discriminate; try (destruct (run_ops _ _ error_ops) as [[? ?] ?]; discriminate).
    + inversion E; subst. exact Hb.
    + destruct Hr as [-> Hr].
      destruct (rt log v); try discriminate; destruct (run_ops _ _ _) as [[[u|j] w1] k1]; try discriminate;
        destruct (should_close_after_response v); try discriminate; apply IH in E; auto; cbn [cn_in cn_parser] in *; try lia;
        (destruct E as [E|E]; [auto|right; lia]).
Qed.

Lemma visits_blocks dbg rt vs : forall log c log' c', conn_fine c -> Forall visit_fine vs ->
  (Forall visit_steady vs \/ short_replies rt) -> visits dbg rt vs log (Open c) = (log', Open c') ->
  cn_in c' = [] \/ (blocks (cn_in c') + List.length vs <= blocks (cn_in c))%nat.
Proof.
  induction vs as [|v vs IH]; intros log c log' c' Hc F S E; cbn [visits List.length] in *.
  { inversion E; subst. right. lia. }
  inversion F as [|? ? F1 F2]; subst.
  assert (Sv : visit_steady v \/ short_replies rt) by (destruct S as [S|S]; [inversion S|]; auto).
  assert (Svs : Forall visit_steady vs \/ short_replies rt) by (destruct S as [S|S]; [inversion S|]; auto).
  destruct (handle dbg rt v log (Open c)) as [l1 st1] eqn:Eh. pose proof Eh as Ew.
  apply handle_writes in Ew as (n0 & t0 & E0 & T0 & H0); auto.
  destruct st1 as [c1|x|x]; [|rewrite visits_shut in E by discriminate; discriminate|rewrite visits_shut in E by discriminate; discriminate].
  cbn zeta in H0. destruct H0 as (C1 & _). pose proof E as E2. apply IH in E2; auto.
  destruct Hc as (Hp & I & C). cbn [handle] in Eh.
  destruct (visit_writer_fine rt c v I C F1 Sv) as (w1 & k1 & Ef & _). rewrite Ef in Eh.
  unfold respond_to_requests in Eh. destruct (respond _ _ _ _ _) as [[vd l] c2] eqn:Er.
  destruct vd; try discriminate. assert (c2 = c1) by (inversion Eh; auto). subst c2.
  apply respond_blocks in Er; auto; [|apply fresh_need]. cbn [cn_in] in Er.
  destruct Er as [Er|Er]; [|destruct E2; [auto|right; lia]].
  rewrite Er in E2. cbn [blocks] in E2. destruct E2 as [E2|E2]; auto. left. destruct vs; [|cbn [List.length] in E2; lia].
  cbn [visits] in E. inversion E; subst. exact Er.
Qed.

Section Fail.
Variable k : ekind.
Variable s2 : stream.
Hypothesis k_data : k <> InvalidData.
Hypothesis k_block : k <> WouldBlock.
Notation X := (RErr k :: s2).
Definition surfaces (st : req_st) : Prop := k <> Interrupted \/ msg_data st.
Definition report (st : req_st) : read_result := if is_closed st k then Closed else IoErr k.
Definition longer (c : conn) : conn := mk_conn (cn_in c ++ X) (cn_parser c) (cn_w c) (cn_sock c).

Lemma read_fails dbg s p r s' p' : read_request dbg s p = (r, s', p') ->
  read_request dbg (s ++ X) p = (r, s' ++ X, p') \/
  (s' = [] /\ r = NotReady /\ exists st, p' = Some st /\
     (surfaces st -> read_request dbg (s ++ X) p = (report st, s2, None))).
Proof.
  unfold read_request. set (st := match p with Some st => st | None => req_new end). intros E.
  destruct (req_parse dbg st s) as [r0 s0] eqn:Ep. destruct (req_fails dbg k s2 _ _ _ _ k_data Ep) as [-> | (-> & st' & -> & H)].
  - left. destruct r0 as [v|st' j|e|]; try (inversion E; subst; reflexivity).
    destruct j; try (destruct (is_closed _ _)); inversion E; subst; reflexivity.
  - right. inversion E; subst. split; auto. split; auto. exists st'. split; auto. intros Hs. rewrite (H Hs). unfold report.
    destruct k; try reflexivity; congruence.
Qed.

Lemma respond_fails dbg rt f : forall log c vd log' c', respond f dbg rt log c = (vd, log', c') ->
  respond f dbg rt log (longer c) = (vd, log', longer c') \/
  (vd = Keep /\ cn_in c' = [] /\ exists st, cn_parser c' = Some st /\
     (surfaces st -> respond f dbg rt log (longer c) =
        match report st with
        | Closed => (Close, log', mk_conn s2 None (cn_w c') (cn_sock c'))
        | _ => match run_ops (cn_w c') (cn_sock c') error_ops with (_, w1, k1) => (Close, log', mk_conn s2 None w1 k1) end
        end)).
Proof.
  induction f as [|f IH]; intros log c vd log' c' E; cbn [respond] in *.
  { left. inversion E; subst. reflexivity. }
  change (cn_in (longer c)) with (cn_in c ++ X). change (cn_parser (longer c)) with (cn_parser c).
  change (cn_w (longer c)) with (cn_w c). change (cn_sock (longer c)) with (cn_sock c).
  destruct (read_request dbg (cn_in c) (cn_parser c)) as [[r s'] p'] eqn:Er.
  destruct (read_fails _ _ _ _ _ _ Er) as [-> | (-> & -> & st & -> & H)].
  - destruct r as [|v|e|j| |].
    + inversion E; subst. left. reflexivity.
    + destruct (rt log v) as [|rp|].
      * destruct (run_ops (cn_w c) (cn_sock c) (result_ops LNext)) as [[[u|j] w1] k1]; [|inversion E; subst; left; reflexivity].
        destruct (should_close_after_response v); [inversion E; subst; left; reflexivity|]. apply IH in E. exact E.
      * destruct (run_ops (cn_w c) (cn_sock c) (result_ops (LSend rp))) as [[[u|j] w1] k1]; [|inversion E; subst; left; reflexivity].
        destruct (should_close_after_response v); [inversion E; subst; left; reflexivity|]. apply IH in E. exact E.
      * inversion E; subst. left. reflexivity.
    + destruct (run_ops _ _ error_ops) as [[wr w1] k1]. inversion E; subst. left. reflexivity.
    + destruct (run_ops _ _ error_ops) as [[wr w1] k1]. inversion E; subst. left. reflexivity.
    + inversion E; subst. left. reflexivity.
    + inversion E; subst. left. reflexivity.
  - right. inversion E; subst. cbn [cn_in cn_parser cn_w cn_sock]. split; auto. split; auto. exists st. split; auto. intros Hs.
    rewrite (H Hs). unfold report. destruct (is_closed st k); reflexivity.
Qed.

Lemma respond_to_fails dbg rt log c vd log' c' : parser_fine (cn_parser c) -> respond_to_requests dbg rt log c = (vd, log', c') ->
  respond_to_requests dbg rt log (longer c) = (vd, log', longer c') \/
  (vd = Keep /\ cn_in c' = [] /\ exists st, cn_parser c' = Some st /\
     (surfaces st -> respond_to_requests dbg rt log (longer c) =
        match report st with
        | Closed => (Close, log', mk_conn s2 None (cn_w c') (cn_sock c'))
        | _ => match run_ops (cn_w c') (cn_sock c') error_ops with (_, w1, k1) => (Close, log', mk_conn s2 None w1 k1) end
        end)).
Proof.
  intros Hp E. unfold respond_to_requests in *. apply respond_fails.
  rewrite <- E. apply respond_enough; auto; [|apply fresh_need].
  unfold longer. cbn [cn_in]. rewrite mu_app. unfold need. destruct (cn_parser c); lia.
Qed.

(** What is written because of the failure. *)
Definition parting : bytes := match k with ConnectionAborted => [] | _ => bad_request end.
Hypothesis k_end : k <> UnexpectedEof.

Lemma handle_fails dbg rt v log c log' st' : conn_fine c -> visit_fine v -> (visit_steady v \/ short_replies rt) ->
  handle dbg rt v log (Open c) = (log', st') ->
  handle dbg rt v log (Open (longer c)) = (log', match st' with Open c' => Open (longer c') | x => x end) \/
  exists c' st, st' = Open c' /\ cn_in c' = [] /\ cn_parser c' = Some st /\
    (surfaces st -> exists sent rest, handle dbg rt v log (Open (longer c)) = (log', Gone sent) /\
       output c' ++ parting = sent ++ rest /\ (visit_takes (len (output c' ++ parting)) v -> rest = [])).
Proof.
  intros (Hp & I & C) F S E. cbn [handle] in *.
  change (cn_w (longer c)) with (cn_w c). change (cn_sock (longer c)) with (cn_sock c).
  destruct (visit_writer_fine rt c v I C F S) as (w1 & k1 & Ef & W1 & O1 & R1). rewrite Ef in *.
  set (c1 := mk_conn (cn_in c) (cn_parser c) w1 k1) in *.
  change (mk_conn (cn_in (longer c)) (cn_parser (longer c)) w1 k1) with (longer c1).
  destruct (respond_to_requests dbg rt log c1) as [[vd l] c'] eqn:Er.
  assert (Hp1 : parser_fine (cn_parser c1)) by exact Hp.
  pose proof Er as Ew. unfold respond_to_requests in Ew.
  apply respond_writes in Ew as (new & tail & -> & W2 & O2 & T & R2); [|exact Hp1|apply fresh_need|exact W1].
  destruct (respond_to_fails _ _ _ _ _ _ _ Hp1 Er) as [H|(-> & Hin & st & Hst & H)].
  - left. rewrite H. inversion E; subst. destruct vd; reflexivity.
  - right. inversion E; subst. exists c', st. split; auto. split; auto. split; auto. intros Hs. rewrite (H Hs).
    assert (Rm : forall b, len (output c') <= b -> visit_takes b v -> roomy b c').
    { intros b Hb Hv. apply R2; auto. apply R1; auto. rewrite <- O1. rewrite O2, len_app in Hb. lia. }
    destruct (ops_error rt c' s2 None W2) as (w2 & k2 & Eo & W3 & O3 & R3).
    assert (Cl : k = ConnectionAborted -> report st = Closed) by (intros Hk; unfold report; rewrite Hk; reflexivity).
    assert (Op : k <> ConnectionAborted -> report st = IoErr k) by (intros Hk; unfold report; destruct k; cbn; congruence).
    assert (Pt : (k = ConnectionAborted /\ parting = []) \/ (k <> ConnectionAborted /\ parting = bad_request)).
    { unfold parting. destruct k; auto; right; split; auto; discriminate. }
    destruct Pt as [[Hk Pt]|[Hk Pt]]; rewrite Pt.
    + rewrite (Cl Hk). cbn [cn_sock]. exists (sk_sent (cn_sock c')), (unsent (cn_w c')). split; auto. rewrite app_nil_r. split; auto.
      intros Hv. apply Rm in Hv; [apply Hv|lia].
    + rewrite (Op Hk), Eo. cbn [cn_sock]. exists (sk_sent k2), (unsent w2). split; auto. split; [rewrite <- O3; reflexivity|].
      intros Hv. assert (Hr : roomy (len (output c' ++ bad_request)) c') by (apply Rm; auto; rewrite len_app; lia).
      apply R3 in Hr; [apply Hr|lia].
Qed.

(** A connection whose input is used up. *)
Lemma visits_idle dbg rt vs : forall log c cur log' st', conn_fine c -> Forall visit_fine vs ->
  (Forall visit_steady vs \/ short_replies rt) -> holds (cn_parser c) cur -> calm false cur [] -> cn_in c = [] ->
  visits dbg rt vs log (Open c) = (log', st') -> log' = log /\ exists c', st' = Open c' /\ cn_in c' = [].
Proof.
  induction vs as [|v vs IH]; intros log c cur log' st' Hc F S Hh Hs Hin E; cbn [visits] in E.
  { inversion E; subst. eauto. }
  inversion F as [|? ? F1 F2]; subst.
  assert (Sv : visit_steady v \/ short_replies rt) by (destruct S as [S|S]; [inversion S|]; auto).
  assert (Svs : Forall visit_steady vs \/ short_replies rt) by (destruct S as [S|S]; [inversion S|]; auto).
  pose proof Hc as (Hp & I & C).
  destruct (handle dbg rt v log (Open c)) as [l1 st1] eqn:Eh. pose proof Eh as Eh2.
  apply handle_writes in Eh2 as (n0 & t0 & E0 & T0 & H0); auto. cbn [handle] in Eh.
  destruct (visit_writer_fine rt c v I C F1 Sv) as (w1 & k1 & Ef & _). rewrite Ef in Eh.
  unfold respond_to_requests in Eh. cbn [respond cn_in cn_parser] in Eh. rewrite Hin in Eh.
  destruct (read_request dbg [] (cn_parser c)) as [[r s'] p'] eqn:Er.
  pose proof (read_step _ _ _ _ _ _ _ _ Hh Hs Er) as R. destruct r as [|x|e|j| |].
  - destruct R as (w & P & H1 & H2 & H3). symmetry in P. apply app_eq_nil in P. destruct P as [-> P2]. rewrite app_nil_r in *.
    assert (Eq : l1 = log /\ st1 = Open (mk_conn s' p' w1 k1)) by (inversion Eh; auto). destruct Eq as [-> ->]. clear Eh E0. cbn zeta in H0.
    assert (s' = []) as ->. { destruct H3 as [[H3 _]|H3]; auto. cbn [blocks] in H3. lia. }
    eapply (IH log _ cur); [apply H0| | | | | |exact E]; cbn [cn_parser cn_in]; auto.
  - exfalso. destruct R as (w & _ & _ & _ & _ & _ & H). cbn [mu] in H. lia.
  - exfalso. destruct R as [(w & P & H)|(H & _)]; [|discriminate]. symmetry in P. apply app_eq_nil in P. destruct P as [-> _].
    specialize (H []). cbn [app] in H. rewrite app_nil_r in H. destruct Hh as [Hu _]. rewrite H in Hu. exact Hu.
  - destruct R as [H _]. discriminate.
  - destruct R as [H _]. discriminate.
  - destruct R.
Qed.

Lemma visits_fails dbg rt vs : no_panic rt -> forall log c log' st' cur, conn_fine c -> holds (cn_parser c) cur -> calm false cur (cn_in c) ->
  Forall visit_fine vs -> (Forall visit_steady vs \/ short_replies rt) ->
  (k <> Interrupted \/ in_data (last_outcome (cur ++ pending (cn_in c)))) ->
  visits dbg rt vs log (Open c) = (log', st') ->
  visits dbg rt vs log (Open (longer c)) = (log', match st' with Open c' => Open (longer c') | x => x end) \/
  exists c' new sent rest, (st' = Open c' /\ cn_in c' = []) /\ log' = log ++ new /\ visits dbg rt vs log (Open (longer c)) = (log', Gone sent) /\
    output c ++ replies rt log new ++ parting = sent ++ rest /\
    (Forall (visit_takes (len (output c ++ replies rt log new ++ parting))) vs -> rest = []).
Proof.
  intros Hrt. induction vs as [|v vs IH]; intros log c log' st' cur Hc Hh Hs F S K E; cbn [visits] in *.
  { left. inversion E; subst. reflexivity. }
  inversion F as [|? ? F1 F2]; subst.
  assert (Sv : visit_steady v \/ short_replies rt) by (destruct S as [S|S]; [inversion S|]; auto).
  assert (Svs : Forall visit_steady vs \/ short_replies rt) by (destruct S as [S|S]; [inversion S|]; auto).
  destruct (handle dbg rt v log (Open c)) as [l1 st1] eqn:Eh.
  pose proof Eh as Ew. apply handle_writes in Ew as (n0 & t0 & -> & T0 & H0); auto.
  assert (Ev : visits dbg rt [v] log (Open c) = (log ++ n0, st1)) by (cbn [visits]; rewrite Eh; reflexivity).
  destruct (visits_served dbg rt false [v] Hrt _ _ _ _ cur Hc Hh Hs ltac:(constructor; auto)
    ltac:(destruct Sv; [left; constructor; auto|right; auto]) Ev) as (n1 & o1 & En & R).
  apply app_inv_head in En. subst n1.
  destruct (handle_fails dbg rt v log c _ _ Hc F1 Sv Eh) as [-> | (c1 & st & -> & Hin & Hst & H)].
  - destruct st1 as [c1|x|x].
    + cbn zeta in H0. destruct H0 as (C1 & O1 & _). destruct R as (R0 & took & cur1 & P1 & J1 & J2 & J3 & J5 & J4).
      assert (Lo : last_outcome (cur ++ pending (cn_in c)) = last_outcome (cur1 ++ pending (cn_in c1))).
      { destruct (session_total (cur1 ++ pending (cn_in c1))) as (rs & e & Hse). rewrite (session_last _ _ _ Hse).
        rewrite P1. apply J5 in Hse. now rewrite (session_last _ _ _ Hse). }
      destruct T0 as [->|[_ [x T0]]]; [|discriminate]. rewrite app_nil_r in O1.
      destruct (IH (log ++ n0) c1 log' st' cur1 C1 J1 J2 F2 Svs) as [Q|(c' & new & sent & rest & (-> & Z) & -> & Q1 & Q2 & Q3)]; auto.
      * rewrite <- Lo. exact K.
      * right. exists c', (n0 ++ new), sent, rest. rewrite replies_app. rewrite O1 in *. rewrite <- !app_assoc in *. split; auto. split; auto. split; auto. split; auto.
        intros Hv. apply Q3. inversion Hv; auto.
    + left. rewrite visits_shut in * by discriminate. inversion E; subst. reflexivity.
    + left. rewrite visits_shut in * by discriminate. inversion E; subst. reflexivity.
  - cbn zeta in H0. destruct H0 as (C1 & O1 & _). destruct R as (R0 & took & cur1 & P1 & J1 & J2 & J3 & J5 & J4).
    destruct T0 as [->|[_ [x T0]]]; [|discriminate]. rewrite app_nil_r in O1.
    assert (Hs1 : surfaces st).
    { destruct K as [K|K]; [left; exact K|right]. destruct J1 as (U & g & Gi & Gc). rewrite Hst in Gi, Gc.
      apply (data_of_cont parse_request_line false g); auto. specialize (Gc []). unfold req_cont in Gc.
      rewrite <- (in_data_omap (fun x => match x with (m, u, h, body) => mk_request m u h body end)), Gc, app_nil_r.
      rewrite P1, Hin in K. cbn [pending] in K. rewrite app_nil_r in K.
      assert (Hse : session (cur1 ++ []) [] cur1).
      { rewrite app_nil_r. constructor. intros v0 r0 Eb. rewrite Eb in U. exact U. }
      apply J5 in Hse. rewrite app_nil_r in Hse. rewrite (session_last _ _ _ Hse) in K. exact K. }
    destruct (H Hs1) as (sent & rest & -> & Hr & Ht). rewrite Hin in J2.
    apply (visits_idle dbg rt vs _ _ cur1) in E as (-> & c' & -> & Z); auto.
    right. exists c', n0, sent, rest. split; auto. split; auto. split; [apply visits_shut; discriminate|].
    rewrite app_assoc, <- O1. split; auto. intros Hv. apply Ht. inversion Hv; auto.
Qed.

(** Up to the failure the connection has done what it does on the input before it. *)
Lemma failing_connection dbg rt s vs log st : no_panic rt -> orderly false s -> Forall visit_fine vs ->
  (Forall visit_steady vs \/ short_replies rt) -> (blocks s < List.length vs)%nat ->
  (k <> Interrupted \/ in_data (last_outcome (pending s))) ->
  visits dbg rt vs [] (Open (conn_new (s ++ X))) = (log, st) ->
  exists out keep sent rest, served rt [] (pending s) false log out keep /\ st = Gone sent /\
    out ++ (if keep then parting else []) = sent ++ rest /\
    (keep = true -> Forall (visit_takes (len (out ++ parting))) vs -> rest = []).
Proof.
  intros Hrt O F S B K E. destruct (visits dbg rt vs [] (Open (conn_new s))) as [l1 st1] eqn:E1.
  assert (Hs : calm false [] s) by (destruct O as (O1 & O2 & O3 & O4 & O5); now apply calm_start).
  destruct (visits_served dbg rt false vs Hrt [] (conn_new s) _ _ [] (conn_new_fine s) holds_new Hs F S E1) as (new & out & El & R).
  cbn [app] in El. subst l1.
  change (conn_new (s ++ X)) with (longer (conn_new s)) in E.
  destruct (visits_fails dbg rt vs Hrt [] (conn_new s) new st1 [] (conn_new_fine s) holds_new Hs F S K E1)
    as [Q|(c' & n2 & sent & rest & (-> & Zc) & En & Q1 & Q2 & Q3)].
  - destruct st1 as [c1|x|x].
    + exfalso. assert (Hc : conn_fine (longer (conn_new s))) by exact (conn_new_fine (s ++ X)).
      apply (visits_blocks dbg rt vs) in Q; auto. unfold longer in Q. cbn [cn_in conn_new] in Q.
      assert (Hb : forall a, blocks (a ++ X) = (blocks a + blocks X)%nat).
      { induction a as [|y a IHa]; auto. cbn [app blocks]. destruct y as [d|j]; [exact IHa|]. destruct j; rewrite IHa; reflexivity. }
      destruct Q as [Q|Q]; [destruct (cn_in c1); discriminate|]. rewrite !Hb in Q. cbn [blocks] in Q. lia.
    + rewrite Q in E. inversion E; subst. destruct R as (R1 & rest & R2). rewrite conn_new_output in R2. cbn [app] in R1, R2.
      exists out, false, x, rest. rewrite app_nil_r. split; auto. split; auto. split; auto. discriminate.
    + destruct R.
  - cbn [app] in En. subst n2. rewrite Q1 in E. inversion E; subst. destruct R as (R1 & took & cur & P & (H1 & _) & _ & H3 & H5 & H4).
    rewrite conn_new_output in *. cbn [app] in *.
    destruct H4 as [[Z _]|H4]; [|cbn [cn_in conn_new] in H4; lia].
    rewrite Z, app_nil_r in P. cbn [cn_in conn_new] in P. rewrite P.
    assert (Sv : served rt [] took false log out true).
    { specialize (H3 [] false [] [] true). rewrite !app_nil_r in H3. apply H3.
      destruct (batch_request cur) as [v r|p|v n|x] eqn:Eb; try destruct H1.
      - eapply served_wait; eauto.
      - exfalso. exact (batch_request_not_eof _ _ _ Eb). }
    assert (So : out = replies rt [] log).
    { clear - Sv. remember true as kp. induction Sv; try discriminate; cbn [replies app]; auto. rewrite IHSv; auto. }
    exists out, true, sent, rest. rewrite So in *. auto.
Qed.

End Fail.

(** ** Driving a parser over a stream that fails *)

Lemma data_clean {T} (o : outcome T) : in_data o -> clean o.
Proof. destruct o as [v r|p|v n|e]; try (intros []; fail). destruct p; intros H; try destruct H; reflexivity. Qed.

Lemma drive_f_fails {T S} (parse : S -> stream -> pres T S * stream) Inv cont (D : S -> Prop) k s2 :
  k <> WouldBlock ->
  parser_ok parse Inv cont ->
  (forall g st, Inv g st -> in_data (cont g st []) -> D st) ->
  (forall st s r s', parse st s = (r, s') ->
     parse st (s ++ RErr k :: s2) = (r, s' ++ RErr k :: s2) \/
     (s' = [] /\ exists st', r = PIo st' WouldBlock /\
       (k <> Interrupted \/ D st' -> parse st (s ++ RErr k :: s2) = (PIo st' k, s2)))) ->
  forall fuel g st s,
  (List.length s < fuel)%nat ->
  Inv g st ->
  live_eof false s ->
  (forall s1 s2, s = s1 ++ RErr WouldBlock :: s2 -> clean (cont g st (pending s1))) ->
  (forall s1 s2, s = s1 ++ RErr Interrupted :: s2 -> ~ in_data (cont g st (pending s1))) ->
  (forall w x, pending s = w ++ x -> in_limits (cont g st w)) ->
  unfinished (cont g st (pending s)) ->
  (k <> Interrupted \/ in_data (cont g st (pending s))) ->
  exists st', drive_f parse (Datatypes.S fuel) st (s ++ RErr k :: s2) = (PIo st' k, s2).
Proof.
  intros Kb Hp HD HF. induction fuel as [|f IH]; intros g st s Hf Hinv Hlive Hclean Hintr Hlim Hun K; [lia|].
  set (f1 := Datatypes.S f) in *. cbn [drive_f]. destruct (parse st s) as [r s'] eqn:E.
  destruct (HF _ _ _ _ E) as [E2|(-> & st' & -> & E2)].
  - rewrite E2. destruct (Hp _ _ _ _ _ Hinv E) as (w & Hok). destruct r as [v|st' j|e|].
    + exfalso. destruct Hok as [(H1 & H2)|(H1 & n & H2)].
      * rewrite (takes_pending _ _ _ H1), H2 in Hun. exact Hun.
      * destruct (takes_eof _ _ _ _ Hlive H1) as (C & _). discriminate.
    + destruct Hok as (Hu & Hstop & _ & Hres).
      destruct Hstop as [[Hstop Hi]|[(-> & H1 & H2)|(-> & H1 & H2)]].
      * assert (j = WouldBlock) as ->.
        { destruct Hstop as [Hs|[Hs _]]; auto. apply (live_eof_takes _ _ _ _ Hs) in Hlive.
          apply live_eof_inv in Hlive as [[[Hs'|Hs'] _]|(_ & Hs' & _)]; [exact Hs'| |discriminate].
          subst j. exfalso. destruct (takes_prefix _ _ _ _ Hs) as (s1 & -> & <-).
          eapply Hintr; [reflexivity|]. now apply Hi. }
        assert (Ex : exists st0, drive_f parse f1 st' (s' ++ RErr k :: s2) = (PIo st0 k, s2));
          [|destruct Ex as [st0 Ex]; exists st0; destruct s'; exact Ex].
        destruct (Hp _ _ _ _ _ Hinv E2) as (w2 & _ & Hstop2 & _ & Hres2).
        destruct Hstop2 as [[[Hs|(_ & _ & C)] _]|[(C & _)|(C & _)]]; try discriminate; [|destruct s'; discriminate].
        destruct (takes_prefix _ _ _ _ Hs) as (s1 & Es & Hw).
        assert (Es1 : s = s1 ++ RErr WouldBlock :: s') by (apply (app_inv_tail (RErr k :: s2)); rewrite Es, <- app_assoc; reflexivity).
        subst s. clear Es Hs Hstop Hi Hres Hu w.
        assert (Hc : clean (cont g st w2)) by (rewrite <- Hw; eapply Hclean; reflexivity).
        destruct (Hres2 ltac:(discriminate) Hc) as (g' & Hgi & Hx).
        assert (Hpen : pending (s1 ++ RErr WouldBlock :: s') = w2 ++ pending s') by now rewrite pending_app, Hw.
        rewrite Hpen, Hx in Hun, K. apply (IH g').
        ++ rewrite app_length in Hf. cbn [List.length] in Hf. unfold f1 in Hf. lia.
        ++ assumption.
        ++ destruct Hlive as (s0 & L & El). exists s'. split; [|rewrite app_nil_r; reflexivity].
           rewrite app_nil_r in El. subst s0. apply Forall_app in L as [_ L]. inversion L; auto.
        ++ intros s3 s4 E'. rewrite <- Hx, <- Hw.
           replace (pending s1 ++ pending s3) with (pending (s1 ++ RErr WouldBlock :: s3))
             by now rewrite pending_app.
           apply (Hclean _ s4). rewrite E', <- app_assoc. reflexivity.
        ++ intros s3 s4 E'. rewrite <- Hx, <- Hw.
           replace (pending s1 ++ pending s3) with (pending (s1 ++ RErr WouldBlock :: s3))
             by now rewrite pending_app.
           apply (Hintr _ s4). rewrite E', <- app_assoc. reflexivity.
        ++ intros w' x E'. rewrite <- Hx. apply (Hlim _ x). rewrite Hpen, E'. now rewrite app_assoc.
        ++ exact Hun.
        ++ exact K.
      * exfalso. destruct H2 as [H2|H2]; [|now apply limited_nil in H2]. apply H2.
        apply (Hlim _ (pending s')). now apply takes_pending.
      * destruct (takes_eof _ _ _ _ Hlive H1) as (C & _). discriminate.
    + exfalso. destruct Hok as [(H1 & H2)|(H1 & -> & H2)].
      * specialize (H2 (pending s')). rewrite (takes_pending _ _ _ H1), H2 in Hun. exact Hun.
      * destruct H2 as [H2|(H2 & H3)].
        -- destruct H2 as [Hs|[Hs _]]; [|discriminate]. apply (live_eof_takes _ _ _ _ Hs) in Hlive.
           apply live_eof_inv in Hlive as [[[Hs'|Hs'] _]|(_ & Hs' & _)]; discriminate.
        -- destruct (takes_eof _ _ _ _ Hlive H2) as (C & _). discriminate.
    + exfalso. destruct Hok as (H1 & H2 & H3). apply H3. apply (Hlim _ (pending s')). now apply takes_pending.
  - exists st'. rewrite E2; [destruct k; try reflexivity; congruence|]. destruct K as [K|K]; [auto|right].
    destruct (Hp _ _ _ _ _ Hinv E) as (w & Hu & Hstop & _ & Hres).
    assert (pending s = w) as Pw.
    { destruct Hstop as [[[Hs|(_ & Hs & _)] _]|[(C & _)|(C & _)]]; try discriminate; apply takes_pending in Hs; cbn [pending] in Hs; now rewrite app_nil_r in Hs. }
    rewrite Pw in K. destruct (Hres ltac:(discriminate) (data_clean _ K)) as (g' & Hg & Hx).
    apply (HD g'); auto. rewrite <- Hx, app_nil_r. exact K.
Qed.

Lemma drive_request_fails dbg k s s2 : k <> InvalidData -> k <> WouldBlock -> live s ->
  blocks_in_clean_lines batch_request s -> no_interrupt_in_data batch_request s -> always_in_limits batch_request (pending s) ->
  unfinished (batch_request (pending s)) -> (k <> Interrupted \/ in_data (batch_request (pending s))) ->
  exists st, drive_request dbg (s ++ RErr k :: s2) = (PIo st k, s2).
Proof.
  intros K1 K2 L B I A U K. unfold drive_request, drive.
  destruct (drive_f_fails (req_parse dbg) msg_inv req_cont msg_data k s2 K2 (req_parser_ok dbg)) with
    (fuel := List.length (s ++ RErr k :: s2)) (g := 0) (st := req_new) (s := s) as [st E]; eauto using live_eof_false, line_inv_nil.
  - intros g st Hi Hd. apply (data_of_cont parse_request_line false g); auto. unfold req_cont in Hd. now apply in_data_omap in Hd.
  - intros. now apply req_fails.
  - rewrite app_length. cbn [List.length]. lia.
  - apply line_inv_nil.
Qed.

Lemma drive_response_fails dbg k s s2 : k <> InvalidData -> k <> WouldBlock -> live s ->
  blocks_in_clean_lines batch_response s -> no_interrupt_in_data batch_response s -> always_in_limits batch_response (pending s) ->
  unfinished (batch_response (pending s)) -> (k <> Interrupted \/ in_data (batch_response (pending s))) ->
  exists st, drive_response dbg (s ++ RErr k :: s2) = (PIo st k, s2).
Proof.
  intros K1 K2 L B I A U K. unfold drive_response, drive.
  destruct (drive_f_fails (resp_parse dbg) msg_inv resp_cont msg_data k s2 K2 (resp_parser_ok dbg)) with
    (fuel := List.length (s ++ RErr k :: s2)) (g := 0) (st := resp_new) (s := s) as [st E]; eauto using live_eof_false, line_inv_nil.
  - intros g st Hi Hd. apply (data_of_cont parse_status_line true g); auto. unfold resp_cont in Hd. now apply in_data_omap in Hd.
  - intros. now apply resp_fails.
  - rewrite app_length. cbn [List.length]. lia.
  - apply line_inv_nil.
Qed.
