(** C73, C74: sends over several streams. *)
From Coq Require Import List Ascii String Arith NArith Bool Lia.
From Coq Require Import ZifyBool ZifyNat ZifyN.
From Verif.Model Require Import Bytes Io Common Parse Encode Writer Server Client.
From Verif.Spec Require Import Batch Stream Drive Numerals Names Grammar Wire Unicode Output Session Exchange Dialogue Reconnect.
From Verif.Proofs Require Import BytesFacts CommonFacts IoFacts ParseFacts DriveFacts CallFacts BatchFacts LimitGrammar LimitFacts EncodeFacts WriterFacts OpsFacts ServerFacts ConnFacts ClientFacts.
From Verif.Properties Require Import RoundTrip Server Client Compose.
Import ListNotations.
Local Open Scope N_scope.

(** ** C73 *)

Lemma served_plain rt : forall h b eof log out keep, served rt h b eof log out keep -> forall rs x, Forall plain_request rs ->
  List.concat (map write_request rs) = b ++ x -> exists rs1 rs2, rs = rs1 ++ rs2 /\ Forall2 same_request log rs1.
Proof.
  assert (First : forall rs b x v rest, Forall plain_request rs -> List.concat (map write_request rs) = b ++ x ->
    batch_request b = Complete v rest -> exists r rs', rs = r :: rs' /\ same_request v r /\ List.concat (map write_request rs') = rest ++ x).
  { intros rs b x v rest F E Hb. destruct rs as [|r rs].
    - cbn in E. symmetry in E. apply app_eq_nil in E as [-> _]. discriminate Hb.
    - inversion F as [|? ? (G & Fi & _) F2]; subst. exists r, rs. split; auto. cbn [map List.concat] in E.
      destruct (request_reads_back r (List.concat (map write_request rs)) G Fi) as (r' & Hr & Sr).
      apply (batch_request_complete_ext _ _ _ x) in Hb. rewrite <- E, Hr in Hb. inversion Hb; subst. auto. }
  induction 1 as [h b p E|h l Hl E|h b p E N S|h b eof e E|h b eof v rest E A|h b eof v rest log out keep E A _ IH]; intros rs x F Hc.
  1-4: exists [], rs; split; auto.
  - destruct (First _ _ _ _ _ F Hc E) as (r & rs' & -> & Sr & _). exists [r], rs'. split; auto.
  - destruct (First _ _ _ _ _ F Hc E) as (r & rs' & -> & Sr & Hc'). inversion F; subst.
    destruct (IH rs' x) as (rs1 & rs2 & -> & H); auto. exists (r :: rs1), rs2. split; auto.
Qed.

Lemma plain_orderly_some rs eof s x : Forall plain_request rs -> live_eof eof s -> pending s ++ x = List.concat (map write_request rs) ->
  ~ In (RErr Interrupted) s -> orderly eof s.
Proof.
  intros F L P I. split; [auto|]. split; [|split; [|split]].
  - intros s1 s2 ->. rewrite LimitGrammar.pending_app, <- app_assoc in P. symmetry in P. exact (proj1 (plain_prefix _ F _ _ P)).
  - intros s1 s2 ->. exfalso. apply I, in_or_app. right. now left.
  - intros w y E. rewrite E, <- app_assoc in P. symmetry in P. exact (proj2 (plain_prefix _ F _ _ P)).
  - intros _. symmetry in P. apply (plain_prefix _ F _ _ P).
Qed.

Lemma routes_prefix dbg rt o log rs : no_panic rt -> Forall plain_request rs -> prefix (sent o) (List.concat (map write_request rs)) ->
  may_route dbg rt o log -> exists rs1 rs2, rs = rs1 ++ rs2 /\ Forall2 same_request log rs1.
Proof.
  intros Np F (y & Hy) (eof & s & vs & st & L & I & (x & Hx) & V & S & E). rewrite Hx, <- app_assoc in Hy.
  pose proof (plain_orderly_some rs eof s _ F L (eq_sym Hy) I) as O.
  destruct (C26_responses dbg rt eof s vs log st Np O V (or_introl S) E) as [(k & got & -> & Pg & Sv & _)|(out & rest & -> & Sv)].
  - rewrite Pg, <- app_assoc in Hy. eapply served_plain; eauto.
  - eapply served_plain; eauto.
Qed.

Lemma concat_one A (l : list A) : List.concat [l] = l.
Proof. apply app_nil_r. Qed.

(** A connection that has so far sent complete requests on its stream, if it has one.  One more send uses at most one more stream (two if it had
    none).  Whatever the server has received of the streams, and however it was called: for the first it has routed the earlier requests and then at
    most this one, and for the second this one at most; so this request is routed at most twice, whatever the result of the send. *)
Theorem C73_at_most_twice : forall dbg zt n c q prev r n' c', fresh_net n -> Forall plain_request (prev ++ [q]) ->
  match cc_stream c with None => prev = [] | Some s => cs_held s = [] /\ sent s = List.concat (map write_request prev) end ->
  conn_send dbg zt n c q = (r, n', c') ->
  exists first second, streams_of c' = cc_dropped c ++ first ++ second /\ (List.length first <= 1)%nat /\ (List.length second <= 1)%nat /\
    (forall o rt log, In o first -> no_panic rt -> may_route dbg rt o log -> exists rs1 rs2, prev ++ [q] = rs1 ++ rs2 /\ Forall2 same_request log rs1) /\
    (forall o rt log, In o second -> no_panic rt -> may_route dbg rt o log -> log = [] \/ exists q', log = [q'] /\ same_request q' q).
Proof.
  intros dbg zt n c q prev r n' c' Fr F Hs E. destruct (C41_at_most_twice _ _ _ _ _ _ _ _ Fr E) as (used & _ & _ & H).
  assert (A1 : forall o, added (cc_stream c) (write_request q) o -> prefix (sent o) (List.concat (map write_request (prev ++ [q])))).
  { intros o (d & Hd & y & Hy). exists y. rewrite map_app, concat_app. cbn [map]. rewrite concat_one, Hd.
    destruct (cc_stream c) as [s|]; cbn [sent_of held_of] in *; [destruct Hs as [H1 ->]; rewrite H1 in Hy|subst prev]; cbn [app map List.concat] in *; rewrite <- ?app_assoc, Hy; reflexivity. }
  assert (A2 : forall o, added None (write_request q) o -> prefix (sent o) (List.concat (map write_request [q]))).
  { intros o (d & Hd & y & Hy). cbn [sent_of held_of app] in *. exists y. cbn [map]. rewrite concat_one, Hd. exact Hy. }
  assert (R1 : forall o rt log, added (cc_stream c) (write_request q) o -> no_panic rt -> may_route dbg rt o log ->
    exists rs1 rs2, prev ++ [q] = rs1 ++ rs2 /\ Forall2 same_request log rs1) by (intros; eapply routes_prefix; eauto).
  assert (R2 : forall o rt log, added None (write_request q) o -> no_panic rt -> may_route dbg rt o log -> log = [] \/ exists q', log = [q'] /\ same_request q' q).
  { intros o rt log A N M. apply Forall_app in F as [_ F]. destruct (routes_prefix dbg rt o log [q] N F (A2 _ A) M) as (rs1 & rs2 & E1 & F2).
    destruct F2 as [|q' q0 l l' S F2]; [now left|right]. cbn [app] in E1. injection E1 as -> E1. symmetry in E1. apply app_eq_nil in E1 as [-> ->]. inversion F2; subst. eauto. }
  destruct H as [(D & A & _)|(o & s & D & Es & A & B & _)].
  - exists (match cc_stream c' with Some s => [s] | None => [] end), []. unfold streams_of. rewrite D, app_nil_r. split; auto.
    split; [destruct (cc_stream c'); cbn; lia|]. split; [cbn; lia|]. split; [|intros o rt log []].
    intros o rt log K. destruct (cc_stream c') as [s|]; [destruct K as [<-|[]]; apply R1; exact A|destruct K].
  - exists [o], [s]. unfold streams_of. rewrite D, Es, <- app_assoc. split; auto. split; [cbn; lia|]. split; [cbn; lia|].
    split; intros o' rt log [<-|[]]; [apply R1|apply R2]; auto.
Qed.

(** The server's part: a request is delivered to a connection that waits for one, and its handler is called often enough. *)
Definition waiting (c : conn) : Prop := conn_fine c /\ holds (cn_parser c) [] /\ live (cn_in c) /\ pending (cn_in c) = [] /\ unsent (cn_w c) = [].
Lemma waiting_new : waiting (conn_new []).
Proof. split; [apply conn_new_fine|]. split; [apply holds_new|]. split; [constructor|]. split; reflexivity. Qed.

Lemma server_turn dbg rt q c log b log' sv' :
  (forall h v, exists a, rt h v = LSend a /\ ok_response a) -> plain_request q -> waiting c -> b = write_request q ->
  handled dbg rt (Open c) log b log' sv' ->
  exists q' a, log' = log ++ [q'] /\ same_request q' q /\ rt log q' = LSend a /\ ok_response a /\
    slot_sent sv' = slot_sent (Open c) ++ write_response a /\
    ((exists c', sv' = Open c' /\ waiting c' /\ ~ asks_close q) \/ (exists x, sv' = Gone x /\ asks_close q)).
Proof.
  intros Hrt Hq (Fc & Hp & Lc & Pc & Uc) -> (s & vs & m & new0 & L & I & Ps & V & B & F & W & T & En & Hm).
  assert (NP : no_panic rt) by (intros h v _ K; destruct (Hrt h v) as (a & A & _); congruence).
  cbn [fed slot_blocks slot_sent] in *. set (c0 := mk_conn (cn_in c ++ s) (cn_parser c) (cn_w c) (cn_sock c)) in *. cbn [cn_in] in B.
  assert (Pall : pending (cn_in c0) = write_request q) by (cbn [c0 cn_in]; now rewrite LimitGrammar.pending_app, Pc, Ps).
  assert (Lall : live (cn_in c0)) by (apply Forall_app; auto).
  assert (Or : orderly false (cn_in c0)).
  { apply (plain_orderly [q]); [constructor; auto|now apply live_eof_false| |now apply silent_before]. rewrite Pall. cbn. now rewrite app_nil_r. }
  destruct Hq as (G & Fi & As). destruct (request_reads_back q [] G Fi) as (q' & Hb & Sq). rewrite app_nil_r in Hb.
  assert (Hs : session (write_request q) [q'] []) by (econstructor; [exact Hb|constructor; discriminate]).
  assert (Hc : asks_close q' <-> asks_close q).
  { destruct Sq as (_ & _ & Hh & _). unfold asks_close. rewrite Hh. tauto. }
  pose proof V as V1. apply visits_writes in V1 as (n0 & t0 & En0 & Tl & R0); [|exact Fc|exact F|now left].
  assert (n0 = new0) by (rewrite En in En0; now apply app_inv_head in En0). subst n0. clear En0.
  destruct (visits_served dbg rt false vs NP log c0 log' sv' [] Fc Hp (orderly_calm _ _ Or) F (or_introl W) V) as (new & out & En1 & R).
  assert (new = new0) by (rewrite En in En1; now apply app_inv_head in En1). subst new. clear En1.
  destruct (Hrt log q') as (a & Ea & Oka).
  assert (Oc : output c0 = sk_sent (cn_sock c)) by (unfold output; cbn [c0 cn_sock cn_w]; now rewrite Uc, app_nil_r).
  exists q', a. destruct sv' as [c'|x|x]; [| |destruct R].
  - destruct Tl as [->|[_ [z Z]]]; [|discriminate]. cbn zeta in R0. rewrite app_nil_r in R0. destruct R0 as (F' & O' & U').
    destruct R as (O1 & took & cur' & P1 & J1 & J2 & J3 & J4 & J5).
    assert (Pz : pending (cn_in c') = []).
    { destruct J5 as [[J5 _]|J5]; auto. cbn [c0 cn_in] in *. lia. }
    rewrite Pz, app_nil_r, Pall in P1. subst took.
    assert (Hcur : session (cur' ++ []) [] cur').
    { rewrite app_nil_r. constructor. intros v rest K. destruct J1 as (J1 & _). rewrite K in J1. exact J1. }
    specialize (J4 _ _ _ Hcur). cbn [app] in J4. rewrite !app_nil_r in J4.
    destruct (session_unique _ _ _ J4 _ _ Hs) as [-> ->].
    specialize (J3 [] false [] [] true (served_wait _ _ [] (InFirst []) eq_refl)). cbn [app] in J3. rewrite !app_nil_r in J3.
    assert (Un : ~ asks_close q').
    { intros K. assert (Ref : served rt log (write_request q) false [q'] (reply (rt log q')) false) by (eapply served_last; eauto).
      destruct (served_unique _ _ _ _ _ _ _ J3 _ _ _ Ref) as (_ & _ & X). discriminate. }
    cbn [replies] in O', U', Hm. rewrite Ea in O', U', Hm. cbn [reply] in O', U', Hm. rewrite app_nil_r in O', U', Hm. rewrite !len_app in Hm.
    assert (Uz : unsent (cn_w c') = []).
    { apply U'; [|right; exact Uc]. rewrite Oc. eapply Forall_impl; [|exact T]. intros v [T1 T2]. split; auto. rewrite len_app. lia. }
    split; auto. split; auto. split; auto. split; auto. split.
    + cbn [slot_sent]. unfold output in O'. rewrite Uz, app_nil_r in O'. rewrite O'. cbn [c0 cn_sock cn_w]. now rewrite Uc, app_nil_r.
    + left. exists c'. split; auto. split; [|tauto]. split; auto. split; auto.
      destruct J2 as ((s0 & L0 & Es0) & _). rewrite app_nil_r in Es0. subst s0. split; auto.
  - destruct R as (R & Rr). cbn [app] in R. rewrite Pall in R.
    assert (Cl : asks_close q').
    { inversion R; subst; try congruence. rewrite Hb in H. inversion H; subst. match goal with K : served _ _ [] false _ _ false |- _ => inversion K; subst; try discriminate end. }
    assert (Ref : served rt log (write_request q) false [q'] (reply (rt log q')) false) by (eapply served_last; eauto).
    destruct (served_unique _ _ _ _ _ _ _ R _ _ _ Ref) as (-> & Eo & _). subst out.
    split; auto. split; auto. split; auto. split; auto. split; [|right; exists x; split; [auto|tauto]].
    cbn zeta in R0. cbn [replies] in R0, Hm. rewrite Ea in R0, Hm. cbn [reply] in R0, Hm. rewrite app_nil_r in R0, Hm. rewrite Oc in R0.
    destruct R0 as [_ R0]. assert (Ex : x = sk_sent (cn_sock c) ++ write_response a ++ t0).
    { apply R0. eapply Forall_impl; [|exact T]. intros v [T1 T2]. split; auto. rewrite !len_app in *. destruct Tl as [->|[-> _]]; change (len []) with 0; lia. }
    destruct Rr as (rest & Rr). rewrite Oc, Ea in Rr. cbn [reply] in Rr. cbn [slot_sent]. rewrite Ex, <- !app_assoc in Rr.
    apply app_inv_head in Rr. rewrite <- (app_nil_r (write_response a)) in Rr at 1. apply app_inv_head in Rr.
    symmetry in Rr. apply app_eq_nil in Rr as [-> _]. rewrite app_nil_r in Ex. exact Ex.
Qed.

(** The outcome of a complete exchange on a new stream, whatever the calls of the handler. *)
Definition ample (n : N) (vs : list visit) : Prop := Forall visit_fine vs /\ Forall visit_steady vs /\ Forall (visit_takes n) vs /\ vs <> [].

(** "A send that succeeds has its request processed once" fails: for every request that does not ask to close and every router that answers readably, if
    the first answer is late, the request is routed on both streams, the answer to the second is returned, and nothing tells the caller. *)
Theorem C73_processed_once_refuted : forall dbg rt q, (forall h v, exists a, rt h v = LSend a /\ ok_response a) ->
  plain_request q -> ~ asks_close q ->
  exists q' a r' o k, same_request q' q /\ rt [] q' = LSend a /\ same_response r' a /\
    conn_send dbg false [inr (mk_cstream [] [] open_sock); inr (mk_cstream [RData (write_response a)] [] open_sock)] cconn_new q =
      (COk r', [], mk_cconn (Some k) [o]) /\
    forall x, x = o \/ x = k -> sent x = write_request q /\
      forall vs n, len (write_response a) <= n -> ample n vs ->
        exists c, visits dbg rt vs [] (Open (conn_new [RData (sent x)])) = ([q'], Open c) /\ sk_sent (cn_sock c) = write_response a.
Proof.
  intros dbg rt q Hrt Hq Ha. pose proof Hq as (G & Fi & _). destruct (request_reads_back q [] G Fi) as (q' & Hb & Sq). rewrite app_nil_r in Hb.
  destruct (Hrt [] q') as (a & Ea & Oka). destruct (nothing_yet dbg) as (st1 & P1).
  destruct (send_times_out dbg (mk_cstream [] [] open_sock) q [] [] open_steady eq_refl) as (s1 & E1 & S1 & H1 & _); [eauto|].
  set (k0 := mk_cstream [RData (write_response a)] [] open_sock).
  assert (Fl : flowing (cs_in k0)) by apply one_piece_flows, write_response_nonempty.
  destruct (send_reads dbg k0 q a [] open_steady Oka (flowing_live _ Fl) (flowing_in_time _ Fl) (flowing_no_interrupt _ _ Fl) eq_refl)
    as (r' & s2 & E2 & Sr & S2 & _).
  exists q', a, r', (drop_stream s1), s2. split; auto. split; auto. split; auto. split.
  { unfold conn_send. cbn [cconn_new cc_stream connect create tcp_connect cc_dropped app first_attempt]. rewrite E1.
    cbn [connect create tcp_connect cc_stream cc_dropped app first_attempt]. fold k0. rewrite E2. reflexivity. }
  assert (Sd : sent (drop_stream s1) = write_request q).
  { unfold drop_stream. rewrite H1. unfold bw_flush_buf. cbn [bw_flush_f]. exact S1. }
  intros x Hx. assert (Sx : sent x = write_request q) by (destruct Hx as [-> | ->]; auto). split; auto. rewrite Sx.
  intros vs n Hn (V1 & V2 & V3 & V4).
  assert (NP : no_panic rt) by (intros h v _ K; destruct (Hrt h v) as (a' & A & _); congruence).
  assert (Ls : live [RData (write_request q)]).
  { constructor; [|constructor]. cbn [live_event]. intros K. rewrite K in Hb. discriminate. }
  assert (Ps : pending [RData (write_request q)] = List.concat (map write_request [q])) by reflexivity.
  assert (Is : no_interrupt_in_data last_outcome [RData (write_request q)]).
  { intros i1 i2 E. destruct i1 as [|? [|]]; discriminate E. }
  destruct (visits dbg rt vs [] (Open (conn_new [RData (write_request q)]))) as [log st] eqn:Ev.
  assert (B : (blocks [RData (write_request q)] < List.length vs)%nat) by (destruct vs; [congruence|cbn; lia]).
  pose proof Ev as Ev2.
  apply (C26_one_response_each dbg rt [q]) in Ev as (F2 & c & -> & Oc); auto; [|intros z [<-|[]]; auto].
  inversion F2 as [|v z l l' Sv F3]; subst. inversion F3; subst.
  assert (v = q').
  { pose proof (plain_orderly [q] false _ (Forall_cons _ Hq (Forall_nil _)) (live_eof_false _ Ls) Ps Is) as O.
    destruct (C26_responses dbg rt false _ vs _ _ NP O V1 (or_introl V2) Ev2) as [(c' & got & Ec & Pg & Sv' & Dn)|(? & ? & X & _)]; [|discriminate].
    destruct (Dn B) as [Z _]. rewrite Z, app_nil_r in Pg. rewrite <- Pg in Sv'. cbn [pending] in Sv'. rewrite app_nil_r in Sv'.
    inversion Sv'; subst; congruence. }
  subst v. exists c. split; auto. cbn [replies] in Oc. rewrite Ea, app_nil_r in Oc. cbn [reply] in Oc.
  rewrite (C29_delivered_so_far _ _ _ _ _ _ V1 Ev2 V2); cbn [replies]; rewrite Ea, app_nil_r; cbn [reply]; auto.
  eapply Forall_impl; [|exact V3]. intros u [T1 T2]. split; auto. lia.
Qed.

(** ** C74 *)

(** A client's connection and what the server still has of it. *)
Definition together (c : cconn) (sv : slot) : Prop :=
  match sv with
  | Open k => waiting k /\ exists cl, cc_stream c = Some cl /\ csteady (cs_sock cl) /\ cs_held cl = [] /\ cs_in cl = []
  | Gone _ => match cc_stream c with Some cl => cs_in cl = [] | None => True end
  | Poisoned _ => False
  end.

Lemma ended_fails dbg s q : cs_in s = [RData []] -> exists e s', send_request dbg s q = (e, s') /\ is_error e.
Proof.
  intros Hi. unfold send_request. destruct (put_request s q) as [rw s1] eqn:Eq. apply put_request_spec in Eq as (Hin & _).
  destruct rw as [u|k]; [|eexists _, _; split; [reflexivity|exact I]].
  rewrite Hin, Hi. assert (Ee : resp_parse dbg resp_new [RData []] = (PIo (MFirst []) UnexpectedEof, [])) by (destruct dbg; vm_compute; reflexivity).
  rewrite Ee. eexists _, _. split; [reflexivity|exact I].
Qed.

Lemma put_all dbg cl q r cl' : csteady (cs_sock cl) -> cs_held cl = [] -> send_request dbg cl q = (r, cl') -> sent cl' = sent cl ++ write_request q.
Proof.
  intros St Hh. unfold send_request. destruct (put_request cl q) as [rw c1] eqn:Eq.
  apply put_request_spec in Eq as (Hin & Sf & _ & b1 & b2 & Hw & Hs & R). destruct rw as [[]|k]; [|contradiction].
  destruct R as [-> Hh1]. destruct (resp_parse dbg resp_new (cs_in c1)) as [r1 s1]. intros E. inversion E; subst. clear E.
  unfold sent in *. cbn [cs_sock]. rewrite Hh1, Hh, !app_nil_r in Hs. cbn [app] in Hs. rewrite Hs, Hw, app_nil_r. reflexivity.
Qed.

Lemma turn_works dbg rt q c sv log r c1 sv1 log1 done :
  (forall h v, exists a, rt h v = LSend a /\ ok_response a) -> plain_request q -> together c sv ->
  turn dbg rt q c sv log r c1 sv1 log1 done ->
  exists h q' a r', log1 = h ++ [q'] /\ same_request q' q /\ rt h q' = LSend a /\ r = COk r' /\ same_response r' a /\
    together c1 sv1 /\ ((h = log /\ done = [] /\ exists k, sv = Open k) \/ (h = [] /\ done = [log] /\ exists x, sv = Gone x)).
Proof.
  intros Hrt Hq I T. destruct T as [c cl k log inp r c1 cl1 sv1 log1 Ec Fi E Ec1 (b & Hb & Hd) Hs|c x log new inp r c1 cl1 sv1 log1 Fi Sn Un Hn E Ec1 Hd Hs].
  - destruct I as (Wk & cl0 & E0 & St & Hh & Hi). rewrite Ec in E0. inversion E0; subst cl0. clear E0.
    (* the first attempt, whatever its outcome, transmits the request *)
    destruct (send_request dbg (hears cl inp) q) as [r1 cl2] eqn:Es.
    pose proof (put_all dbg (hears cl inp) q r1 cl2 St Hh Es) as Ps.
    assert (Eh : heard c inp = mk_cconn (Some (hears cl inp)) (cc_dropped c)) by (unfold heard; now rewrite Ec). rewrite Eh in E.
    assert (cl1 = cl2).
    { unfold conn_send in E. cbn [cc_stream first_attempt] in E. rewrite Es in E. cbn [cc_dropped] in E.
      destruct r1; cbn [connect create tcp_connect] in E; inversion E; subst c1; cbn [cc_stream] in Ec1; congruence. }
    subst cl2. unfold sent in Ps, Hb. cbn [hears cs_sock] in Ps. rewrite Ps in Hb. apply app_inv_head in Hb.
    destruct (server_turn dbg rt q k log b log1 sv1 Hrt Hq Wk (eq_sym Hb) Hd) as (q' & a & -> & Sq & Ea & Oka & So & Next).
    rewrite So in Hs. apply app_inv_head in Hs.
    assert (Pin : pending (cs_in (hears cl inp)) = write_response a ++ []) by (cbn [hears cs_in]; rewrite Hi, app_nil_r; cbn [app]; congruence).
    assert (Fin : flowing (cs_in (hears cl inp))) by (cbn [hears cs_in]; rewrite Hi; exact Fi).
    destruct (send_reads dbg (hears cl inp) q a [] St Oka (flowing_live _ Fin) (flowing_in_time _ Fin) (flowing_no_interrupt _ _ Fin) Pin)
      as (r' & s' & E2 & Sr & _ & Hh1 & St1 & _ & Pcl & w & Tk).
    rewrite Es in E2. inversion E2; subst r1 s'. pose proof (C41_success_is_final dbg false [] (mk_cconn (Some (hears cl inp)) (cc_dropped c)) q _ _ _ eq_refl Es) as E3.
    rewrite E3 in E. injection E as <- <-.
    exists log, q', a, r'. do 5 (split; [auto|]). split; [|left; eauto].
    assert (Hi1 : cs_in cl1 = []) by (apply flowing_nil; auto; eapply flowing_takes; eauto).
    destruct Next as [(c' & -> & Wk' & _)|(x & -> & _)]; cbn [together cc_stream]; auto.
    split; auto. exists cl1. auto.
  - destruct Un as [U1 U2].
    destruct (send_request dbg (hears new inp) q) as [r1 cl2] eqn:Es.
    pose proof (put_all dbg (hears new inp) q r1 cl2 Sn U2 Es) as Ps. unfold sent in Ps, U1. cbn [hears cs_sock] in Ps. rewrite U1 in Ps. cbn [app] in Ps.
    (* the result is that of the new stream *)
    assert (R : cc_stream c1 = Some cl2 /\ forall v, r1 = COk v -> r = COk v).
    { cbn [together] in I. destruct (cc_stream c) as [cl|] eqn:Ec.
      - assert (Eh : heard c [RData []] = mk_cconn (Some (hears cl [RData []])) (cc_dropped c)) by (unfold heard; now rewrite Ec). rewrite Eh in E.
        destruct (ended_fails dbg (hears cl [RData []]) q) as (e & s' & Ee & He); [cbn [hears cs_in]; now rewrite I|].
        destruct (C41_failure_is_retried_once dbg [inr (hears new inp)] (mk_cconn (Some (hears cl [RData []])) (cc_dropped c)) q _ s' e (hears new inp) [] [] eq_refl Ee He eq_refl (or_introl eq_refl))
          as (c' & E' & K & _). rewrite E' in E. rewrite Es in E, K. inversion E; subst. auto.
      - assert (Eh : heard c [RData []] = mk_cconn None (cc_dropped c)) by (unfold heard; now rewrite Ec). rewrite Eh in E.
        unfold conn_send in E. cbn [cc_stream connect create tcp_connect cc_dropped first_attempt] in E. rewrite Es in E.
        destruct r1; cbn [connect create tcp_connect] in E; inversion E; subst c1 r; (split; [reflexivity|intros v K; try discriminate; congruence]). }
    destruct R as [Rc Rv]. rewrite Ec1 in Rc. inversion Rc; subst cl2. clear Rc.
    destruct (server_turn dbg rt q (conn_new []) [] (sent cl1) log1 sv1 Hrt Hq waiting_new Ps Hd) as (q' & a & -> & Sq & Ea & Oka & So & Next).
    cbn [slot_sent conn_new cn_sock sk_sent app] in So. rewrite So in Hs.
    assert (Pin : pending (cs_in (hears new inp)) = write_response a ++ []) by (cbn [hears cs_in]; rewrite Hn, app_nil_r; cbn [app]; congruence).
    assert (Fin : flowing (cs_in (hears new inp))) by (cbn [hears cs_in]; rewrite Hn; exact Fi).
    destruct (send_reads dbg (hears new inp) q a [] Sn Oka (flowing_live _ Fin) (flowing_in_time _ Fin) (flowing_no_interrupt _ _ Fin) Pin)
      as (r' & s' & E2 & Sr & _ & Hh1 & St1 & _ & Pcl & w & Tk).
    rewrite Es in E2. inversion E2; subst r1 s'. exists [], q', a, r'. do 3 (split; [auto|]). split; [now apply Rv|]. split; auto.
    assert (Hi1 : cs_in cl1 = []) by (apply flowing_nil; auto; eapply flowing_takes; eauto).
    split; [|right; eauto].
    destruct Next as [(c' & -> & Wk' & _)|(y & -> & _)]; cbn [together]; [|now rewrite Ec1].
    split; auto. exists cl1. auto.
Qed.

(** For every sequence of requests, whether or not some ask to close, every router that answers with responses a client can read, every fragmentation in
    both directions and every number of short writes, whatever happens when the client writes to a connection that the server has dropped:
    every send succeeds; its result is the router's response to the request as the server has received it; every request is routed once, in order. *)
Theorem C74_every_send_answered : forall dbg rt qs rs logs,
  (forall h v, exists a, rt h v = LSend a /\ ok_response a) -> Forall plain_request qs ->
  conversation dbg rt cconn_new (Gone []) [] qs rs logs ->
  Forall2 same_request (List.concat logs) qs /\ exists rss, rs = List.concat rss /\ Forall2 (answered rt []) logs rss.
Proof.
  intros dbg rt qs rs logs Hrt Hq D.
  enough (G : forall c sv log, together c sv -> conversation dbg rt c sv log qs rs logs ->
    exists l rs0 more rss, logs = (log ++ l) :: more /\ rs = rs0 ++ List.concat rss /\ answered rt log l rs0 /\
      Forall2 (answered rt []) more rss /\ Forall2 same_request (l ++ List.concat more) qs).
  { destruct (G cconn_new (Gone []) []) as (l & rs0 & more & rss & -> & -> & A & B & C); [exact Logic.I|exact D|].
    split; [exact C|]. exists (rs0 :: rss). split; auto. }
  clear D. revert rs logs Hq. induction qs as [|q qs IH]; intros rs logs Hq c sv log I D;
    inversion D as [|? ? ? ? ? ? ? ? done ? rs1 logs1 T D1]; subst.
  - exists [], [], [], []. rewrite app_nil_r. repeat split; auto; constructor.
  - inversion Hq as [|? ? Q1 Q2]; subst.
    destruct (turn_works _ _ _ _ _ _ _ _ _ _ _ Hrt Q1 I T) as (h & q' & a & r' & -> & Sq & Ea & -> & Sr & I1 & [(-> & -> & _)|(-> & -> & _)]);
      destruct (IH _ _ Q2 _ _ _ I1 D1) as (l & rs0 & more & rss & -> & -> & A & B & C).
    + exists (q' :: l), (COk r' :: rs0), more, rss. rewrite <- app_assoc. cbn [app]. split; auto. split; auto. split; [econstructor; eauto|]. split; auto.
    + cbn [app] in *. exists [], [], ((q' :: l) :: more), ((COk r' :: rs0) :: rss). rewrite app_nil_r. split; auto. split; auto. split; [constructor|].
      split; [constructor; auto|]. { econstructor; eauto. } cbn [List.concat app]. constructor; auto.
Qed.

Lemma server_logs dbg rt q c log s vs log' sv' :
  (forall h v, exists a, rt h v = LSend a /\ ok_response a) -> plain_request q -> waiting c ->
  live s -> no_interrupt_in_data last_outcome s -> pending s = write_request q ->
  visits dbg rt vs log (fed (Open c) s) = (log', sv') -> (slot_blocks (fed (Open c) s) < List.length vs)%nat ->
  Forall visit_fine vs -> Forall visit_steady vs ->
  exists q', log' = log ++ [q'] /\ batch_request (write_request q) = Complete q' [].
Proof.
  intros Hrt Hq (Fc & Hp & Lc & Pc & Uc) L I Ps V B F W.
  assert (NP : no_panic rt) by (intros h v _ K; destruct (Hrt h v) as (a & A & _); congruence).
  cbn [fed slot_blocks] in *. set (c0 := mk_conn (cn_in c ++ s) (cn_parser c) (cn_w c) (cn_sock c)) in *. cbn [cn_in] in B.
  assert (Pall : pending (cn_in c0) = write_request q) by (cbn [c0 cn_in]; now rewrite LimitGrammar.pending_app, Pc, Ps).
  assert (Or : orderly false (cn_in c0)).
  { apply (plain_orderly [q]); [constructor; auto|apply live_eof_false, Forall_app; auto| |now apply silent_before]. rewrite Pall. cbn. now rewrite app_nil_r. }
  destruct Hq as (G & Fi & As). destruct (request_reads_back q [] G Fi) as (q' & Hb & Sq). rewrite app_nil_r in Hb.
  assert (Hs : session (write_request q) [q'] []) by (econstructor; [exact Hb|constructor; discriminate]).
  destruct (visits_served dbg rt false vs NP log c0 log' sv' [] Fc Hp (orderly_calm _ _ Or) F (or_introl W) V) as (new & out & -> & R).
  exists q'. split; auto. f_equal. destruct sv' as [c'|x|x]; [| |destruct R].
  - destruct R as (O1 & took & cur' & P1 & J1 & J2 & J3 & J4 & J5).
    assert (Pz : pending (cn_in c') = []).
    { destruct J5 as [[J5 _]|J5]; auto. cbn [c0 cn_in] in *. lia. }
    rewrite Pz, app_nil_r, Pall in P1. subst took.
    assert (Hcur : session (cur' ++ []) [] cur').
    { rewrite app_nil_r. constructor. intros v rest K. destruct J1 as (J1 & _). rewrite K in J1. exact J1. }
    specialize (J4 _ _ _ Hcur). cbn [app] in J4. rewrite !app_nil_r in J4. apply (session_unique _ _ _ J4 _ _ Hs).
  - destruct R as (R & _). cbn [app] in R. rewrite Pall in R. inversion R as [| |? ? ? ? ? ?|? ? ? ? H|? ? ? ? ? H ?|? ? ? ? ? ? ? ? H ? K]; subst; try congruence.
    rewrite Hb in H. inversion H; subst. inversion K; subst; discriminate.
Qed.

Lemma turn_possible dbg rt q c sv log : (forall h v, exists a, rt h v = LSend a /\ ok_response a) -> plain_request q -> together c sv ->
  exists r c1 sv1 log1 done, turn dbg rt q c sv log r c1 sv1 log1 done.
Proof.
  intros Hrt Hq I.
  pose proof Hq as (G & Fi & _). destruct (request_reads_back q [] G Fi) as (q' & Hb & _). rewrite app_nil_r in Hb.
  assert (Srv : forall k h, waiting k -> exists log1 sv1 a, handled dbg rt (Open k) h (write_request q) log1 sv1 /\ ok_response a /\
    slot_sent sv1 = slot_sent (Open k) ++ write_response a).
  { intros k h Wk. destruct (Hrt h q') as (a & Ea & Oka). set (s := [RData (write_request q)]).
    set (m := len (slot_sent (Open k) ++ replies rt h [q'] ++ bad_request)).
    set (vs := repeat (taking m) (S (slot_blocks (fed (Open k) s)))).
    assert (Vs : forall v, In v vs -> v = taking m) by (intros v; apply repeat_spec).
    destruct (taking_fine m) as (T1 & T2 & T3).
    assert (V1 : Forall visit_fine vs) by (apply Forall_forall; intros v K; rewrite (Vs _ K); auto).
    assert (V2 : Forall visit_steady vs) by (apply Forall_forall; intros v K; rewrite (Vs _ K); auto).
    assert (V3 : Forall (visit_takes m) vs) by (apply Forall_forall; intros v K; rewrite (Vs _ K); auto).
    assert (V4 : (slot_blocks (fed (Open k) s) < List.length vs)%nat) by (unfold vs; rewrite repeat_length; lia).
    assert (Ls : live s).
    { constructor; [|constructor]. cbn [live_event]. intros K. rewrite K in Hb. discriminate. }
    assert (Ps : pending s = write_request q) by (cbn [s pending]; apply app_nil_r).
    assert (Is : no_interrupt_in_data last_outcome s).
    { intros s1 s2 E. destruct s1 as [|? [|]]; discriminate E. }
    destruct (visits dbg rt vs h (fed (Open k) s)) as [log1 sv1] eqn:Ev.
    destruct (server_logs dbg rt q k h s vs log1 sv1 Hrt Hq Wk Ls Is Ps Ev V4 V1 V2) as (q2 & -> & B2). rewrite Hb in B2. inversion B2; subst q2.
    assert (Hd : handled dbg rt (Open k) h (write_request q) (h ++ [q']) sv1).
    { exists s, vs, m, [q']. do 9 (split; [auto; fail|]). unfold m. lia. }
    destruct (server_turn dbg rt q k h _ _ sv1 Hrt Hq Wk eq_refl Hd) as (q3 & a' & E3 & _ & _ & Oka' & So & _).
    exists (h ++ [q']), sv1, a'. auto. }
  destruct sv as [k|x|x]; [| |destruct I].
  - destruct I as (Wk & cl & Ec & St & Hh & Hi). destruct (Srv k log Wk) as (log1 & sv1 & a & Hd & Oka & So).
    set (inp := [RData (write_response a)]).
    assert (Fin : flowing inp) by (constructor; [apply write_response_nonempty|constructor]).
    assert (Fin' : flowing (cs_in (hears cl inp))) by (cbn [hears cs_in]; rewrite Hi; exact Fin).
    assert (Pin : pending (cs_in (hears cl inp)) = write_response a ++ []) by (cbn [hears cs_in inp]; rewrite Hi; reflexivity).
    destruct (send_reads dbg (hears cl inp) q a [] St Oka (flowing_live _ Fin') (flowing_in_time _ Fin') (flowing_no_interrupt _ _ Fin') Pin)
      as (r' & cl1 & E1 & Sr & S1 & _).
    exists (COk r'), (mk_cconn (Some cl1) (cc_dropped c)), sv1, log1, [].
    apply (turn_held dbg rt q c cl k log inp (COk r') _ cl1 sv1 log1 Ec Fin); auto.
    + assert (Eh : heard c inp = mk_cconn (Some (hears cl inp)) (cc_dropped c)) by (unfold heard; now rewrite Ec). rewrite Eh.
      exact (C41_success_is_final dbg false [] (mk_cconn (Some (hears cl inp)) (cc_dropped c)) q _ _ _ eq_refl E1).
    + exists (write_request q). split; auto. rewrite S1. unfold sent. cbn [hears cs_sock cs_held]. now rewrite Hh.
    + rewrite So. cbn [inp pending]. now rewrite app_nil_r.
  - destruct (Srv (conn_new []) [] waiting_new) as (log1 & sv1 & a & Hd & Oka & So). cbn [slot_sent conn_new cn_sock sk_sent app] in So.
    set (inp := [RData (write_response a)]). set (new := mk_cstream [] [] open_sock).
    assert (Fin : flowing inp) by (constructor; [apply write_response_nonempty|constructor]).
    assert (Pin : pending (cs_in (hears new inp)) = write_response a ++ []) by reflexivity.
    destruct (send_reads dbg (hears new inp) q a [] open_steady Oka (flowing_live _ Fin) (flowing_in_time _ Fin) (flowing_no_interrupt _ _ Fin) Pin)
      as (r' & cl1 & E1 & Sr & S1 & _).
    assert (Ec : exists d, conn_send dbg false [inr (hears new inp)] (heard c [RData []]) q = (COk r', [], mk_cconn (Some cl1) d)).
    { cbn [together] in I. destruct (cc_stream c) as [cl|] eqn:Ec.
      - assert (Eh : heard c [RData []] = mk_cconn (Some (hears cl [RData []])) (cc_dropped c)) by (unfold heard; now rewrite Ec). rewrite Eh.
        destruct (ended_fails dbg (hears cl [RData []]) q) as (e & s' & Ee & He); [cbn [hears cs_in]; now rewrite I|].
        destruct (C41_failure_is_retried_once dbg [inr (hears new inp)] (mk_cconn (Some (hears cl [RData []])) (cc_dropped c)) q _ s' e (hears new inp) [] [] eq_refl Ee He eq_refl (or_introl eq_refl))
          as (c' & E' & K & D). rewrite E1 in E', K. cbn [fst snd] in E', K. rewrite E'. destruct c' as [o d]. cbn [cc_stream] in K. subst o. eauto.
      - assert (Eh : heard c [RData []] = mk_cconn None (cc_dropped c)) by (unfold heard; now rewrite Ec). rewrite Eh.
        unfold conn_send. cbn [cc_stream connect create tcp_connect cc_dropped first_attempt]. rewrite E1. eauto. }
    destruct Ec as (d & Ec). exists (COk r'), (mk_cconn (Some cl1) d), sv1, log1, [log].
    apply (turn_new dbg rt q c x log new inp (COk r') _ cl1 sv1 log1); auto.
    + exact open_steady.
    + split; reflexivity.
    + rewrite S1. exact Hd.
    + rewrite So. cbn [inp pending]. now rewrite app_nil_r.
Qed.

(** Such a conversation is possible for every sequence of requests. *)
Theorem C74_possible : forall dbg rt qs, (forall h v, exists a, rt h v = LSend a /\ ok_response a) -> Forall plain_request qs ->
  exists rs logs, conversation dbg rt cconn_new (Gone []) [] qs rs logs.
Proof.
  intros dbg rt qs Hrt Hq.
  enough (G : forall c sv log, together c sv -> exists rs logs, conversation dbg rt c sv log qs rs logs) by (apply G; exact Logic.I).
  induction qs as [|q qs IH]; intros c sv log I; [exists [], [log]; constructor|]. inversion Hq as [|? ? Q1 Q2]; subst.
  destruct (turn_possible dbg rt q c sv log Hrt Q1 I) as (r & c1 & sv1 & log1 & done & T).
  destruct (turn_works _ _ _ _ _ _ _ _ _ _ _ Hrt Q1 I T) as (_ & _ & _ & _ & _ & _ & _ & _ & _ & I1 & _).
  destruct (IH Q2 c1 sv1 log1 I1) as (rs & logs & D). exists (r :: rs), (done ++ logs). econstructor; eauto.
Qed.

(** A request that asks to close: the server drops the connection after it, and the next is routed on another one. *)
Definition closing_request : request :=
  mk_request (rq_method example_request) (lit "/bye") (from_pairs [(CONNECTION, lit "close")]) [].
Example C74_case : Forall plain_request [closing_request; example_request] /\ asks_close closing_request /\ ~ asks_close example_request /\
  (forall h v, exists a, counting h v = LSend a /\ ok_response a).
Proof.
  split; [|split; [|exact (conj (proj2 (proj2 C43_case)) (proj1 C43_case))]].
  - constructor; [|constructor; [apply example_plain|constructor]].
    split; [|split; [|split]].
    + split; [apply text_check; reflexivity|]. split; [vm_compute; intuition discriminate|]. split.
      * split; [repeat constructor; cbn; intuition discriminate|].
        repeat constructor; try discriminate; try (apply text_check; vm_compute; reflexivity); apply no_colon_check; reflexivity.
      * split; [reflexivity|]. intros; discriminate.
    + split; [vm_compute; congruence|]. split; [repeat constructor; vm_compute; congruence|]. split; vm_compute; congruence.
    + repeat constructor.
    + repeat constructor.
  - eexists. split; [vm_compute; reflexivity|now left].
Qed.

(** One send of a new connection that succeeds, after which the server has routed the request on both streams. *)
Example C73_case : exists (n : net) (q' : request) (r' : response) (o k : cstream), fresh_net n /\ conn_send true false n cconn_new example_request = (COk r', [], mk_cconn (Some k) [o]) /\
  may_route true counting o [q'] /\ may_route true counting k [q'].
Proof.
  destruct (C73_processed_once_refuted true counting example_request (proj1 C43_case) example_plain (proj2 (proj2 C43_case)))
    as (q' & a & r' & o & k & _ & _ & _ & E & H).
  eexists _, q', r', o, k. split; [|split; [exact E|]].
  { repeat constructor. }
  assert (R : forall x, x = o \/ x = k -> may_route true counting x [q']).
  { intros x Hx. destruct (H x Hx) as (Sx & Hv). set (n := len (write_response a)). destruct (taking_fine n) as (T1 & T2 & T3).
    destruct (Hv [taking n] n) as (c & Ev & _); [unfold n; lia| |].
    { split; [now constructor|]. split; [now constructor|]. split; [now constructor|discriminate]. }
    exists false, [RData (sent x)], [taking n], (Open c). split; [|split; [|split; [|split; [now constructor|split; [now constructor|exact Ev]]]]].
    - apply live_eof_false. constructor; [|constructor]. cbn [live_event]. rewrite Sx. discriminate.
    - intros [K|[]]; discriminate.
    - exists []. cbn [pending]. now rewrite !app_nil_r. }
  split; apply R; auto.
Qed.

Print Assumptions C73_at_most_twice.
Print Assumptions C73_processed_once_refuted.
Print Assumptions C74_every_send_answered.
Print Assumptions C74_possible.
