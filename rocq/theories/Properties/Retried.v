(** Requests at which a listener panics, sent by a client.  C116. *)
From Coq Require Import List Ascii String Arith NArith Bool Lia.
From Coq Require Import ZifyBool ZifyNat ZifyN.
From Verif.Model Require Import Bytes Io Common Parse Encode Writer Server Client.
From Verif.Spec Require Import Batch Stream Drive Numerals Names Grammar Wire Unicode Output Session Exchange Dialogue Reconnect Oversize Panics.
From Verif.Proofs Require Import BytesFacts CommonFacts IoFacts ParseFacts DriveFacts CallFacts BatchFacts LimitGrammar LimitFacts EncodeFacts WriterFacts OpsFacts ServerFacts ConnFacts ClientFacts HttpsFacts PanicFacts HttpsLive.
From Verif.Properties Require Import RoundTrip Server Client Compose Reconnect Oversize Panics.
Import ListNotations.
Local Open Scope N_scope.

Lemma orderly_any eof s : orderly eof s -> any_size eof s.
Proof. intros (A & B & C & _ & D). split; [|split; [|split]]; auto. Qed.

Lemma plain_not_too_big rt rs : Forall plain_request rs -> forall h l o, ~ too_big rt h (List.concat (map write_request rs)) l o.
Proof.
  induction rs as [|r rs IH]; intros F h l o T; inversion T as [? ? w x p E Hp Hs|? ? v rest log out E A T2]; subst.
  - cbn in E. symmetry in E. apply app_eq_nil in E as [-> ->]. injection Hp as <-. apply Hs. split; [reflexivity|exact Logic.I].
  - discriminate.
  - pose proof (proj2 (plain_prefix _ F _ _ E)) as L. rewrite last_unfold, Hp in L. exact (Hs L).
  - inversion F as [|? ? (G & Fi & _) F2]; subst. destruct (request_reads_back r (List.concat (map write_request rs)) G Fi) as (r' & Hr & Sr).
    cbn [map List.concat] in E. rewrite Hr in E. injection E as -> <-. exact (IH F2 _ _ _ T2).
Qed.

(** What the server routes of a stream, also if listeners panic. *)
Lemma routes_any dbg rt o log rs : Forall plain_request rs -> prefix (sent o) (List.concat (map write_request rs)) ->
  may_route dbg rt o log -> exists rs1 rs2, rs = rs1 ++ rs2 /\ Forall2 same_request log rs1.
Proof.
  intros F (y & Hy) (eof & s & vs & st & L & I & (x & Hx) & V & S & E). rewrite Hx, <- app_assoc in Hy.
  pose proof (orderly_any _ _ (plain_orderly_some rs eof s _ F L (eq_sym Hy) I)) as O.
  assert (K : first_of (pending s) log).
  { pose proof (C114_connection dbg rt eof s vs log st O V (or_introl S) E) as K. destruct st as [k|sn|sn].
    - destruct K as (_ & got & -> & Sv & _). apply first_of_more. eapply served_first; eauto.
    - destruct K as (_ & out & [Sv|(o' & T & _)] & _); [eapply served_first; eauto|eapply too_big_first; eauto].
    - destruct K as (out & [P|(_ & _ & T)] & _); [eapply panics_first; eauto|eapply too_big_first; eauto]. }
  apply (first_of_more _ (x ++ y)) in K. rewrite <- Hy in K. destruct K as (more & e & K).
  destruct (plain_session rs F) as (rs' & F2 & Se). destruct (session_unique _ _ _ K _ _ Se) as [<- _].
  apply Forall2_app_inv_l in F2 as (rs1 & rs2 & A & B & ->). eauto.
Qed.

(** As C73_at_most_twice, for listeners that may panic. *)
Theorem C116_at_most_twice : forall dbg zt n c q prev r n' c', fresh_net n -> Forall plain_request (prev ++ [q]) ->
  match cc_stream c with None => prev = [] | Some s => cs_held s = [] /\ sent s = List.concat (map write_request prev) end ->
  conn_send dbg zt n c q = (r, n', c') ->
  exists first second, streams_of c' = cc_dropped c ++ first ++ second /\ (List.length first <= 1)%nat /\ (List.length second <= 1)%nat /\
    (forall o rt log, In o first -> may_route dbg rt o log -> exists rs1 rs2, prev ++ [q] = rs1 ++ rs2 /\ Forall2 same_request log rs1) /\
    (forall o rt log, In o second -> may_route dbg rt o log -> log = [] \/ exists q', log = [q'] /\ same_request q' q).
Proof.
  intros dbg zt n c q prev r n' c' Fr F Hs E. destruct (C41_at_most_twice _ _ _ _ _ _ _ _ Fr E) as (used & _ & _ & H).
  assert (A1 : forall o, added (cc_stream c) (write_request q) o -> prefix (sent o) (List.concat (map write_request (prev ++ [q])))).
  { intros o (d & Hd & y & Hy). exists y. rewrite map_app, concat_app. cbn [map]. rewrite concat_one, Hd.
    destruct (cc_stream c) as [s|]; cbn [sent_of held_of] in *; [destruct Hs as [H1 ->]; rewrite H1 in Hy|subst prev]; cbn [app map List.concat] in *; rewrite <- ?app_assoc, Hy; reflexivity. }
  assert (A2 : forall o, added None (write_request q) o -> prefix (sent o) (List.concat (map write_request [q]))).
  { intros o (d & Hd & y & Hy). cbn [sent_of held_of app] in *. exists y. cbn [map]. rewrite concat_one, Hd. exact Hy. }
  assert (R1 : forall o rt log, added (cc_stream c) (write_request q) o -> may_route dbg rt o log ->
    exists rs1 rs2, prev ++ [q] = rs1 ++ rs2 /\ Forall2 same_request log rs1) by (intros; eapply routes_any; eauto).
  assert (R2 : forall o rt log, added None (write_request q) o -> may_route dbg rt o log -> log = [] \/ exists q', log = [q'] /\ same_request q' q).
  { intros o rt log A M. apply Forall_app in F as [_ F]. destruct (routes_any dbg rt o log [q] F (A2 _ A) M) as (rs1 & rs2 & E1 & F2).
    destruct F2 as [|q' q0 l l' S F2]; [now left|right]. cbn [app] in E1. injection E1 as -> E1. symmetry in E1. apply app_eq_nil in E1 as [-> ->]. inversion F2; subst. eauto. }
  destruct H as [(D & A & _)|(o & s & D & Es & A & B & _)].
  - exists (match cc_stream c' with Some s => [s] | None => [] end), []. unfold streams_of. rewrite D, app_nil_r. split; auto.
    split; [destruct (cc_stream c'); cbn; lia|]. split; [cbn; lia|]. split; [|intros o rt log []].
    intros o rt log K. destruct (cc_stream c') as [s|]; [destruct K as [<-|[]]; apply R1; exact A|destruct K].
  - exists [o], [s]. unfold streams_of. rewrite D, Es, <- app_assoc. split; auto. split; [cbn; lia|]. split; [cbn; lia|].
    split; intros o' rt log [<-|[]]; [apply R1|apply R2]; auto.
Qed.
Print Assumptions C116_at_most_twice.

(** The server that is given all of these requests, and panics at the last of them. *)
Lemma panics_at_last dbg rt prev q s vs log st : Forall plain_request (prev ++ [q]) -> (forall p, In p prev -> ~ asks_close p) ->
  (forall h v, same_request v q -> rt h v = LPanic) -> live s -> ~ In (RErr Interrupted) s ->
  pending s = List.concat (map write_request (prev ++ [q])) ->
  Forall visit_fine vs -> Forall visit_steady vs -> (blocks s < List.length vs)%nat ->
  visits dbg rt vs [] (Open (conn_new s)) = (log, st) ->
  exists sn, st = Poisoned sn /\ ((forall h v p, In p prev -> same_request v p -> rt h v <> LPanic) -> Forall2 same_request log (prev ++ [q])).
Proof.
  intros F Nc Hp L I Ps V S B E.
  assert (O : any_size false s).
  { apply orderly_any. apply (plain_orderly_some (prev ++ [q]) false s []); auto using live_eof_false. now rewrite app_nil_r. }
  destruct (plain_session _ F) as (rs' & F2 & Se). apply Forall2_app_inv_r in F2 as (l1 & l2 & A1 & A2 & ->).
  inversion A2 as [|q' ? l' ? Sq A3]; subst. inversion A3; subst. clear A2 A3. rewrite <- Ps in Se.
  assert (Un : forall l h, unharmed rt h (l ++ [q']) -> False).
  { induction l as [|v l IH]; intros h U; cbn [app unharmed] in U; [destruct U as [U _]; exact (U (Hp _ _ Sq))|exact (IH _ (proj2 U))]. }
  (* what is routed in order are all the requests *)
  assert (All : forall b h rs e, session b rs e -> forall eof l o k, served rt h b eof l o k -> (forall v, In v rs -> v = q' \/ ~ asks_close v) -> unharmed rt h l ->
    forall l0, rs = l0 ++ [q'] -> e = [] -> False).
  { intros b h rs e Sb. revert h. induction Sb as [b N|b v rest rs e Ev Sb IH]; intros h eof l o k Sv Cl U l0 El Ee; [destruct l0; discriminate|].
    inversion Sv; subst; try congruence.
    - match goal with X : batch_request b = Complete ?u ?z |- _ => assert (u = v /\ z = rest) as [-> ->] by (rewrite X in Ev; injection Ev; auto) end.
      destruct (Cl v (or_introl eq_refl)) as [-> |K]; [|contradiction]. destruct U as [U _]. exact (U (Hp _ _ Sq)).
    - match goal with X : batch_request b = Complete ?u ?z |- _ => assert (u = v /\ z = rest) as [-> ->] by (rewrite X in Ev; injection Ev; auto) end.
      destruct U as [U1 U2]. destruct l0 as [|v0 l0].
      + injection El as -> _. exact (U1 (Hp _ _ Sq)).
      + injection El as -> El. eapply IH; eauto. intros u Iu. apply Cl. now right. }
  assert (Cl : forall v, In v (l1 ++ [q']) -> v = q' \/ ~ asks_close v).
  { intros v Iv. apply in_app_or in Iv as [Iv|[<-|[]]]; [right|now left]. clear - A1 Nc Iv.
    induction A1 as [|a b l l' S A1 IH]; [contradiction|]. destruct Iv as [<-|Iv].
    - destruct S as (_ & _ & Hh & _). unfold asks_close. rewrite Hh. apply (Nc b). now left.
    - apply IH; auto. intros p Ip. apply Nc. now right. }
  pose proof (C114_connection dbg rt false s vs log st O V (or_introl S) E) as K. destruct st as [k|sn|sn].
  - exfalso. destruct K as (U & got & Pg & Sv & D). destruct (D B) as [D1 _]. rewrite D1, app_nil_r in Pg. rewrite <- Pg in Sv. exact (All _ _ _ _ Se _ _ _ _ Sv Cl U _ eq_refl eq_refl).
  - exfalso. destruct K as (U & out & [Sv|(o & T & _)] & _); [exact (All _ _ _ _ Se _ _ _ _ Sv Cl U _ eq_refl eq_refl)|]. rewrite Ps in T. exact (plain_not_too_big _ _ F _ _ _ T).
  - exists sn. split; auto. intros Np. destruct K as (out & [P|(_ & _ & T)] & _); [|exfalso; rewrite Ps in T; exact (plain_not_too_big _ _ F _ _ _ T)].
    assert (X : log = l1 ++ [q']).
    { assert (Np1 : forall h v, In v l1 -> rt h v <> LPanic).
      { intros h v Iv. clear - A1 Np Iv. induction A1 as [|a b l l' S A1 IH]; [contradiction|]. destruct Iv as [<-|Iv]; [apply (Np h a b); auto; now left|].
        apply IH; auto. intros h0 v0 p Ip. apply Np. now right. }
      clear - P Se Np1 Hp Sq. remember (l1 ++ [q']) as rs eqn:Er. remember [] as h eqn:Eh in P. clear Eh. revert l1 rs Np1 Se Er. induction P as [h b v rest E P|h b v rest log out E N A P IH]; intros l1 rs Np1 Se Er.
      - destruct Se as [b N|b v1 rest1 rs1 e1 E1 S1]; [destruct l1; discriminate|]. rewrite E in E1. injection E1 as <- <-.
        destruct l1 as [|a l1]; injection Er as -> X1; [subst; reflexivity|]. exfalso. apply (Np1 h a (or_introl eq_refl) P).
      - destruct Se as [b N0|b v1 rest1 rs1 e1 E1 S1]; [destruct l1; discriminate|]. rewrite E in E1. injection E1 as <- <-.
        destruct l1 as [|a l1]; injection Er as -> X1; [exfalso; exact (N (Hp _ _ Sq))|]. f_equal. apply (IH l1); auto. intros h0 u Iu. apply Np1. now right. }
    subst. apply Forall2_app; auto.
Qed.

(** A stream on which nothing is answered: reading it times out, or it has ended. *)
Definition unanswered (s : cstream) : Prop := cs_in s = [] \/ cs_in s = [RData []].

Lemma unanswered_fails dbg s q : unanswered s -> csteady (cs_sock s) -> cs_held s = [] ->
  exists e s', send_request dbg s q = (e, s') /\ is_error e /\ sent s' = sent s ++ write_request q /\ cs_held s' = [].
Proof.
  intros U St Hh. destruct (send_request dbg s q) as [e s'] eqn:E. exists e, s'. split; auto. pose proof (put_all _ _ _ _ _ St Hh E) as Ps.
  split; [|split; auto].
  - destruct U as [U|U].
    + unfold send_request in E. destruct (put_request s q) as [rw s1] eqn:Eq. apply put_request_spec in Eq as (Hin & _).
      destruct rw as [u|k]; [|inversion E; exact Logic.I]. rewrite Hin, U in E.
      assert (Ee : resp_parse dbg resp_new [] = (PIo (MFirst []) WouldBlock, [])) by (destruct dbg; vm_compute; reflexivity).
      rewrite Ee in E. inversion E. exact Logic.I.
    + destruct (ended_fails dbg s q U) as (e1 & s1 & E1 & K). rewrite E in E1. inversion E1; subst. exact K.
  - unfold send_request in E. destruct (put_request s q) as [rw s1] eqn:Eq. apply put_request_spec in Eq as (_ & _ & _ & b1 & b2 & _ & _ & R).
    destruct rw as [u|k]; [|contradiction]. destruct R as [_ R]. destruct (resp_parse dbg resp_new (cs_in s1)) as [r1 x]. inversion E; subst. exact R.
Qed.

(** The wanted: one call of send makes a listener panic at most once.  Refuted, for every request at which a listener panics (which is then not
    answered): the call fails, both the stream held and the new one carry the request, and each of the two makes the server panic there. *)
Theorem C116_panics_once_refuted : forall dbg rt prev q c old new, Forall plain_request (prev ++ [q]) -> (forall p, In p prev -> ~ asks_close p) ->
  (forall h v, same_request v q -> rt h v = LPanic) -> (forall h v p, In p prev -> same_request v p -> rt h v <> LPanic) ->
  cc_stream c = Some old -> sent old = List.concat (map write_request prev) -> cs_held old = [] -> unused new ->
  csteady (cs_sock old) -> csteady (cs_sock new) -> unanswered old -> unanswered new ->
  exists r o k, conn_send dbg false [inr new] c q = (r, [], mk_cconn (Some k) (cc_dropped c ++ [o])) /\ is_error r /\
    (forall s vs log st, live s -> ~ In (RErr Interrupted) s -> pending s = sent o ->
      Forall visit_fine vs -> Forall visit_steady vs -> (blocks s < List.length vs)%nat -> visits dbg rt vs [] (Open (conn_new s)) = (log, st) ->
      (exists sn, st = Poisoned sn) /\ Forall2 same_request log (prev ++ [q])) /\
    (forall s vs log st, live s -> ~ In (RErr Interrupted) s -> pending s = sent k ->
      Forall visit_fine vs -> Forall visit_steady vs -> (blocks s < List.length vs)%nat -> visits dbg rt vs [] (Open (conn_new s)) = (log, st) ->
      (exists sn, st = Poisoned sn) /\ Forall2 same_request log [q]).
Proof.
  intros dbg rt prev q c old new F Nc Hp Np Ec So Ho [Sn Hn] St1 St2 U1 U2.
  destruct (unanswered_fails dbg old q U1 St1 Ho) as (e1 & o & E1 & K1 & S1 & H1).
  destruct (unanswered_fails dbg new q U2 St2 Hn) as (e2 & k & E2 & K2 & S2 & H2).
  destruct (C41_failure_is_retried_once dbg [inr new] c q old o e1 new [] [] Ec E1 K1 eq_refl (or_introl eq_refl)) as (c' & E & A & D).
  rewrite E2 in E, A. cbn [fst snd] in E, A. destruct c' as [x d]. cbn [cc_stream cc_dropped] in A, D. subst x d.
  exists e2, (drop_stream o), k. split; auto. split; auto. rewrite (HttpsLive.drop_sent o H1), S1, So, S2, Sn. cbn [app]. split.
  - intros s vs log st L I Ps V S B Ev. destruct (panics_at_last dbg rt prev q s vs log st F Nc Hp L I) as (sn & -> & X); auto.
    + rewrite Ps, map_app, concat_app. cbn [map]. now rewrite concat_one.
    + split; [eauto|]. apply X. exact Np.
  - intros s vs log st L I Ps V S B Ev. apply Forall_app in F as [_ F]. destruct (panics_at_last dbg rt [] q s vs log st F) as (sn & -> & X); auto.
    + rewrite Ps. cbn [app map]. now rewrite concat_one.
    + split; [eauto|]. apply X. intros h v p [].
Qed.
Print Assumptions C116_panics_once_refuted.

Lemma example_panics : forall h v, same_request v example_request -> (fun (_ : list request) r => if beqb (rq_uri r) (rq_uri example_request) then LPanic else LNext) h v = LPanic.
Proof. intros h v (_ & U & _). cbn beta. rewrite U. now rewrite beqb_refl. Qed.

(** Such a send, by a connection that was not used before; both servers do call their listeners with the request, and the positive theorem
    allows exactly that. *)
Example C116_case : exists rt r o k, conn_send true false [inr (mk_cstream [] [] open_sock)] (mk_cconn (Some (mk_cstream [] [] open_sock)) []) example_request =
    (r, [], mk_cconn (Some k) [o]) /\ is_error r /\ forall x, x = o \/ x = k -> exists q' sn, same_request q' example_request /\
    visits true rt [taking 4; taking 4] [] (Open (conn_new [RData (sent x)])) = ([q'], Poisoned sn) /\ may_route true rt x [q'].
Proof.
  exists (fun _ r => if beqb (rq_uri r) (rq_uri example_request) then LPanic else LNext).
  destruct (C116_panics_once_refuted true (fun _ r => if beqb (rq_uri r) (rq_uri example_request) then LPanic else LNext) [] example_request
    (mk_cconn (Some (mk_cstream [] [] open_sock)) []) (mk_cstream [] [] open_sock) (mk_cstream [] [] open_sock)) as (r & o & k & E & He & A & B);
    try reflexivity; try apply open_steady; try (left; reflexivity).
  - constructor; [apply example_plain|constructor].
  - intros p [].
  - exact example_panics.
  - intros h v p [].
  - split; reflexivity.
  - exists r, o, k. split; [exact E|]. split; [exact He|]. destruct (taking_fine 4) as (T1 & T2 & T3).
    assert (Sx : forall x, x = o \/ x = k -> sent x <> []).
    { vm_compute in E. inversion E; subst. intros x [-> | ->]; discriminate. }
    intros x Hx. pose proof (Sx x Hx) as Nx.
    destruct (visits true (fun _ r => if beqb (rq_uri r) (rq_uri example_request) then LPanic else LNext) [taking 4; taking 4] [] (Open (conn_new [RData (sent x)]))) as [log st] eqn:Ev.
    assert (L : live [RData (sent x)]) by (constructor; [exact Nx|constructor]).
    assert (Ni : ~ In (RErr Interrupted) [RData (sent x)]) by (intros [K|[]]; discriminate).
    assert (R : (exists sn, st = Poisoned sn) /\ Forall2 same_request log [example_request]).
    { destruct Hx as [-> | ->]; [apply (A _ _ _ _ L Ni) in Ev|apply (B _ _ _ _ L Ni) in Ev]; auto; try (cbn [pending]; now rewrite app_nil_r); try (repeat constructor; auto); cbn; lia. }
    destruct R as ((sn & ->) & F2). inversion F2 as [|q' ? l ? Sq F3]; subst. inversion F3; subst. exists q', sn. split; [exact Sq|]. split; [reflexivity|].
    exists false, [RData (sent x)], [taking 4; taking 4], (Poisoned sn). split; [now apply live_eof_false|]. split; [exact Ni|]. split; [exists []; cbn [pending]; now rewrite !app_nil_r|].
    split; [repeat constructor; auto|]. split; [repeat constructor; auto|exact Ev].
Qed.
Print Assumptions C116_case.
