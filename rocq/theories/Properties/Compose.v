(** C43: the client and the server together. *)
From Coq Require Import List Ascii String Arith NArith Bool Lia.
From Coq Require Import ZifyBool ZifyNat ZifyN.
From Verif.Model Require Import Bytes Io Common Parse Encode Writer Server Client.
From Verif.Spec Require Import Batch Stream Drive Numerals Names Grammar Wire Unicode Output Session Exchange Dialogue.
From Verif.Proofs Require Import BytesFacts CommonFacts IoFacts ParseFacts DriveFacts CallFacts BatchFacts LimitGrammar LimitFacts EncodeFacts WriterFacts OpsFacts ServerFacts ConnFacts ClientFacts.
From Verif.Properties Require Import RoundTrip Server Client.
Import ListNotations.
Local Open Scope N_scope.

Definition in_step (cl : cstream) (c : conn) : Prop :=
  csteady (cs_sock cl) /\ cs_held cl = [] /\ cs_in cl = [] /\
  conn_fine c /\ holds (cn_parser c) [] /\ live (cn_in c) /\ pending (cn_in c) = [] /\ unsent (cn_w c) = [].

Lemma flowing_nil s : flowing s -> pending s = [] -> s = [].
Proof. intros F P. destruct F as [|[b|k] s H F]; auto; [|contradiction]. cbn in P. apply app_eq_nil in P as [P _]. contradiction. Qed.

Lemma last_nil_not_data : ~ in_data (last_outcome []).
Proof. intros H. exact H. Qed.

Lemma silent_before s t : pending s = [] -> no_interrupt_in_data last_outcome t -> no_interrupt_in_data last_outcome (s ++ t).
Proof.
  intros P H s1 s2 E.
  assert (C : (exists u, s1 = s ++ u /\ t = u ++ RErr Interrupted :: s2) \/ exists u, s = s1 ++ u).
  { clear - E. revert s1 E. induction s as [|e s IH]; intros s1 E; cbn in *; [left; eauto|].
    destruct s1 as [|e' s1]; [right; exists (e :: s); reflexivity|]. injection E as E1 E2; subst e'. destruct (IH _ E2) as [(u & -> & K)|(u & ->)]; [left|right]; exists u; auto. }
  destruct C as [(u & -> & ->)|(u & ->)].
  - rewrite LimitGrammar.pending_app, P. apply (H u s2); auto.
  - rewrite LimitGrammar.pending_app in P. apply app_eq_nil in P as [-> _]. exact last_nil_not_data.
Qed.

Lemma in_step_exchange dbg rt q cl c log r cl' sv' log' :
  (forall h v, exists a, rt h v = LSend a /\ ok_response a) -> plain_request q -> ~ asks_close q ->
  in_step cl c -> exchange dbg rt q cl (Open c) log r cl' sv' log' ->
  exists q' a r' c', log' = log ++ [q'] /\ same_request q' q /\ rt log q' = LSend a /\ r = COk r' /\ same_response r' a /\
    sv' = Open c' /\ in_step cl' c'.
Proof.
  intros Hrt Hq Ha (St & Hh & Hi & Fc & Hp & Lc & Pc & Uc) X. inversion X as [? ? ? s vs inp ? ? ? ? E S L I V B F W Fl O Fw]; subst. clear X.
  assert (NP : no_panic rt) by (intros h v _ K; destruct (Hrt h v) as (a & A & _); congruence).
  (* what was sent *)
  assert (Ps : pending s = write_request q).
  { revert E. unfold send_request. destruct (put_request (hears cl inp) q) as [rw c1] eqn:Eq.
    apply put_request_spec in Eq as (Hin & Sf & _ & b1 & b2 & Hw & Hs & R). destruct rw as [[]|k]; [|contradiction].
    destruct R as [-> Hh1]. destruct (resp_parse dbg resp_new (cs_in c1)) as [r1 s1]. intros E. inversion E; subst. clear E.
    unfold sent in *. cbn [cs_sock hears cs_held] in *. rewrite Hh1, Hh, !app_nil_r in Hs. cbn [app] in Hs. rewrite Hs in S.
    apply app_inv_head in S. rewrite <- S, Hw, app_nil_r. reflexivity. }
  (* what the server did *)
  cbn [fed slot_blocks slot_sent] in *. set (c0 := mk_conn (cn_in c ++ s) (cn_parser c) (cn_w c) (cn_sock c)) in *. cbn [cn_in] in B.
  assert (Pall : pending (cn_in c0) = write_request q) by (cbn [c0 cn_in]; now rewrite LimitGrammar.pending_app, Pc, Ps).
  assert (Lall : live (cn_in c0)) by (apply Forall_app; auto).
  assert (Or : orderly false (cn_in c0)).
  { apply (plain_orderly [q]); [constructor; auto|now apply live_eof_false| |now apply silent_before]. rewrite Pall. cbn. now rewrite app_nil_r. }
  destruct Hq as (G & Fi & As). destruct (request_reads_back q [] G Fi) as (q' & Hb & Sq). rewrite app_nil_r in Hb.
  assert (Hs : session (write_request q) [q'] []) by (econstructor; [exact Hb|constructor; discriminate]).
  assert (Ha' : ~ asks_close q').
  { destruct Sq as (_ & _ & Hm & _). intros (xs & K1 & K2). apply Ha. exists xs. now rewrite <- Hm. }
  pose proof V as V1. apply visits_writes in V1 as (n0 & t0 & _ & _ & R0); [|exact Fc|exact F|exact W].
  destruct (visits_served dbg rt false vs NP log c0 log' sv' [] Fc Hp (orderly_calm _ _ Or) F W V) as (new & out & -> & R).
  assert (Ref : served rt log (write_request q) false [q'] (reply (rt log q') ++ []) true).
  { eapply served_next; eauto. eapply served_wait. reflexivity. }
  destruct sv' as [c'|x|x]; [| |destruct R].
  2:{ destruct R as (R & _). cbn [app] in R. rewrite Pall in R. destruct (served_unique _ _ _ _ _ _ _ R _ _ _ Ref) as (_ & _ & K). discriminate. }
  destruct R as (O1 & took & cur' & P1 & J1 & J2 & J3 & J4 & J5).
  assert (Pz : pending (cn_in c') = []).
  { destruct J5 as [[J5 _]|J5]; auto. lia. }
  rewrite Pz, app_nil_r, Pall in P1. subst took.
  assert (Hcur : session (cur' ++ []) [] cur').
  { rewrite app_nil_r. constructor. intros v rest K. destruct J1 as (J1 & _). rewrite K in J1. exact J1. }
  specialize (J4 _ _ _ Hcur). cbn [app] in J4. rewrite !app_nil_r in J4.
  destruct (session_unique _ _ _ J4 _ _ Hs) as [-> ->].
  specialize (J3 [] false [] [] true (served_wait _ _ [] (InFirst []) eq_refl)). cbn [app] in J3. rewrite !app_nil_r in J3. 
  destruct (served_unique _ _ _ _ _ _ _ J3 _ _ _ Ref) as (_ & Eo & _). rewrite app_nil_r in Eo.
  destruct (Hrt log q') as (a & Ea & Oka). rewrite Ea in Eo. cbn [reply] in Eo.
  (* what the client read *)
  cbn [flushed] in Fl. cbn [slot_sent] in O. unfold output in O1. cbn [c0 cn_sock cn_w] in O1. rewrite Fl, Uc, !app_nil_r, O in O1. apply app_inv_head in O1.
  assert (Pin : pending (cs_in (hears cl inp)) = write_response a ++ []) by (cbn [hears cs_in]; rewrite Hi, app_nil_r; cbn [app]; congruence).
  assert (Fin : flowing (cs_in (hears cl inp))) by (cbn [hears cs_in]; rewrite Hi; exact Fw).
  destruct (send_reads dbg (hears cl inp) q a [] St Oka (flowing_live _ Fin) (flowing_in_time _ Fin) (flowing_no_interrupt _ _ Fin) Pin)
    as (r' & cl1 & E2 & Sr & _ & Hh1 & St1 & _ & Pcl & w & Tk).
  rewrite E in E2. inversion E2; subst cl1 r. exists q', a, r', c'. do 6 (split; [auto|]).
  split; auto. split; auto. split; [apply flowing_nil; auto; eapply flowing_takes; eauto|]. split; [apply R0|]. split; auto.
  destruct J2 as ((s0 & L0 & Es0) & _). rewrite app_nil_r in Es0. subst s0. split; auto.
Qed.

(** For every sequence of requests of which none asks to close, every router that answers with responses a client can read
    (whatever it does with the requests it has seen), every fragmentation in both directions and every number of short
    writes: every send succeeds, and its result is the router's response to the request as the server has received it, which
    is the one sent; the server has routed these requests and no others, in order. *)
Theorem C43_compose : forall dbg rt qs rs cl log,
  (forall h v, exists a, rt h v = LSend a /\ ok_response a) ->
  Forall plain_request qs -> (forall q, In q qs -> ~ asks_close q) ->
  csteady (cs_sock cl) -> unused cl -> cs_in cl = [] ->
  dialogue dbg rt cl (Open (conn_new [])) [] qs rs log ->
  Forall2 same_request log qs /\ answered rt [] log rs.
Proof.
  intros dbg rt qs rs cl log Hrt Hq Ha St (U1 & U2) Hi D.
  assert (I : in_step cl (conn_new [])).
  { split; auto. split; auto. split; auto. split; [apply conn_new_fine|]. split; [apply holds_new|]. split; [constructor|]. split; reflexivity. }
  clear St U1 U2 Hi.
  enough (G : forall c h, in_step cl c -> dialogue dbg rt cl (Open c) h qs rs log ->
    exists l, log = h ++ l /\ Forall2 same_request l qs /\ answered rt h l rs).
  { destruct (G _ _ I D) as (l & -> & H). exact H. }
  clear I D. revert cl rs Hq Ha. induction qs as [|q qs IH]; intros cl rs Hq Ha c h I D; inversion D as [|? ? ? ? ? ? ? ? ? ? ? X1 X2]; subst.
  - exists []. rewrite app_nil_r. repeat constructor.
  - inversion Hq; subst.
    destruct (in_step_exchange _ _ _ _ _ _ _ _ _ _ Hrt H1 (Ha _ (or_introl eq_refl)) I X1) as (q' & a & r' & c' & -> & Sq & Ea & -> & Sr & -> & I').
    destruct (IH _ _ H2 (fun x K => Ha x (or_intror K)) _ _ I' X2) as (l & -> & F2 & An).
    exists (q' :: l). rewrite <- app_assoc. split; auto. split; [constructor; auto|]. econstructor; eauto.
Qed.

(** The server's part, for any delivery of a request and any calls of the handler whose socket takes the output. *)
Lemma server_answers dbg rt q cl c log s vs log' sv' :
  (forall h v, exists a, rt h v = LSend a /\ ok_response a) -> plain_request q -> ~ asks_close q -> in_step cl c ->
  live s -> pending s = write_request q -> no_interrupt_in_data last_outcome s ->
  (slot_blocks (fed (Open c) s) < List.length vs)%nat -> Forall visit_fine vs -> Forall visit_steady vs \/ short_replies rt ->
  visits dbg rt vs log (fed (Open c) s) = (log', sv') ->
  exists q' a c', batch_request (write_request q) = Complete q' [] /\ rt log q' = LSend a /\ ok_response a /\ sv' = Open c' /\
    output c' = output c ++ write_response a /\
    (Forall (visit_takes (len (output c') )) vs -> unsent (cn_w c') = []).
Proof.
  intros Hrt Hq Ha (St & Hh & Hi & Fc & Hp & Lc & Pc & Uc) L Ps I B F W V.
  assert (NP : no_panic rt) by (intros h v _ K; destruct (Hrt h v) as (a & A & _); congruence).
  cbn [fed slot_blocks slot_sent] in *. set (c0 := mk_conn (cn_in c ++ s) (cn_parser c) (cn_w c) (cn_sock c)) in *.
  assert (Pall : pending (cn_in c0) = write_request q) by (cbn [c0 cn_in]; now rewrite LimitGrammar.pending_app, Pc, Ps).
  assert (Lall : live (cn_in c0)) by (apply Forall_app; auto).
  assert (Or : orderly false (cn_in c0)).
  { apply (plain_orderly [q]); [constructor; auto|now apply live_eof_false| |now apply silent_before]. rewrite Pall. cbn. now rewrite app_nil_r. }
  destruct Hq as (G & Fi & As). destruct (request_reads_back q [] G Fi) as (q' & Hb & Sq). rewrite app_nil_r in Hb.
  assert (Ha' : ~ asks_close q').
  { destruct Sq as (_ & _ & Hm & _). intros (xs & K1 & K2). apply Ha. exists xs. now rewrite <- Hm. }
  pose proof V as V1. apply visits_writes in V1 as (n0 & t0 & En & T0 & R0); [|exact Fc|exact F|exact W].
  destruct (visits_served dbg rt false vs NP log c0 log' sv' [] Fc Hp (orderly_calm _ _ Or) F W V) as (new & out & En' & R).
  assert (Ref : served rt log (write_request q) false [q'] (reply (rt log q') ++ []) true).
  { eapply served_next; eauto. eapply served_wait. reflexivity. }
  destruct sv' as [c'|x|x]; [| |destruct R].
  2:{ destruct R as (R & _). cbn [app] in R. rewrite Pall in R. destruct (served_unique _ _ _ _ _ _ _ R _ _ _ Ref) as (_ & _ & K). discriminate. }
  destruct R as (O1 & took & cur' & P1 & J1 & J2 & J3 & J4 & J5).
  assert (Pz : pending (cn_in c') = []).
  { destruct J5 as [[J5 _]|J5]; auto. lia. }
  rewrite Pz, app_nil_r, Pall in P1. subst took.
  destruct J1 as (J1 & _). destruct (batch_request cur') as [v rest|p|v n|e] eqn:Eb; try destruct J1.
  2:{ exfalso. exact (batch_request_not_eof _ _ _ Eb). }
  specialize (J3 [] false [] [] true). rewrite !app_nil_r in J3. specialize (J3 (served_wait _ _ _ _ Eb)).
  destruct (served_unique _ _ _ _ _ _ _ J3 _ _ _ Ref) as (_ & Eo & _). rewrite app_nil_r in Eo.
  destruct (Hrt log q') as (a & Ea & Oka). rewrite Ea in Eo. cbn [reply] in Eo. exists q', a, c'. split; auto. split; auto.
  split; auto. split; auto. split; [rewrite O1, Eo; reflexivity|]. cbn zeta in R0. destruct R0 as (_ & R1 & R2). rewrite R1.
  intros V'. apply R2; auto.
Qed.

(** A socket that takes up to n bytes during a call. *)
Definition taking (n : N) : visit := mk_visit (repeat (WTake 1) (N.to_nat n)) [].
Lemma taking_fine n : visit_fine (taking n) /\ visit_steady (taking n) /\ visit_takes n (taking n).
Proof.
  unfold taking. assert (A : forall e, In e (repeat (WTake 1) (N.to_nat n)) -> e = WTake 1) by (intros e; apply repeat_spec).
  split; [|split].
  - split; [|constructor]. cbn [v_events]. apply Forall_forall. intros e He. rewrite (A _ He). exact I.
  - intros a b m E. cbn [v_events] in E. assert (K : In (WFail WouldBlock) (repeat (WTake 1) (N.to_nat n))) by (rewrite E; apply in_or_app; right; now left).
    apply A in K. discriminate.
  - split; cbn [v_events].
    + apply Forall_forall. intros e He. rewrite (A _ He). reflexivity.
    + unfold len. rewrite repeat_length. lia.
Qed.

(** Such a dialogue is possible for every sequence of requests: the client does not wait for ever. *)
Theorem C43_possible : forall dbg rt qs cl,
  (forall h v, exists a, rt h v = LSend a /\ ok_response a) ->
  Forall plain_request qs -> (forall q, In q qs -> ~ asks_close q) ->
  csteady (cs_sock cl) -> unused cl -> cs_in cl = [] ->
  exists rs log, dialogue dbg rt cl (Open (conn_new [])) [] qs rs log.
Proof.
  intros dbg rt qs cl Hrt Hq Ha St (U1 & U2) Hi.
  assert (I0 : in_step cl (conn_new [])).
  { split; auto. split; auto. split; auto. split; [apply conn_new_fine|]. split; [apply holds_new|]. split; [constructor|]. split; reflexivity. }
  clear St U1 U2 Hi. revert I0. generalize (conn_new []) as c. generalize (@nil request) as log. revert cl Hq Ha.
  induction qs as [|q qs IH]; intros cl Hq Ha log c I0; [exists [], log; constructor|].
  inversion Hq as [|? ? Q1 Q2]; subst. pose proof (Ha _ (or_introl eq_refl)) as A1.
  pose proof Q1 as (G & Fi & As). destruct (request_reads_back q [] G Fi) as (q' & Hb & Sq). rewrite app_nil_r in Hb.
  destruct (Hrt log q') as (a & Ea & Oka).
  set (s := [RData (write_request q)]). set (n := len (output c ++ write_response a)).
  set (vs := repeat (taking n) (S (slot_blocks (fed (Open c) s)))).
  assert (Vs : forall v, In v vs -> v = taking n) by (intros v; apply repeat_spec).
  destruct (taking_fine n) as (T1 & T2 & T3).
  assert (V1 : Forall visit_fine vs) by (apply Forall_forall; intros v K; rewrite (Vs _ K); auto).
  assert (V2 : Forall visit_steady vs) by (apply Forall_forall; intros v K; rewrite (Vs _ K); auto).
  assert (V3 : Forall (visit_takes n) vs) by (apply Forall_forall; intros v K; rewrite (Vs _ K); auto).
  assert (V4 : (slot_blocks (fed (Open c) s) < List.length vs)%nat) by (unfold vs; rewrite repeat_length; lia).
  assert (Ls : live s).
  { constructor; [|constructor]. cbn [live_event]. intros K. rewrite K in Hb. discriminate. }
  assert (Ps : pending s = write_request q) by (cbn [s pending]; apply app_nil_r).
  assert (Is : no_interrupt_in_data last_outcome s).
  { intros s1 s2 E. destruct s1 as [|? [|]]; discriminate E. }
  destruct (visits dbg rt vs log (fed (Open c) s)) as [log1 sv1] eqn:Ev.
  destruct (server_answers dbg rt q cl c log s vs log1 sv1 Hrt Q1 A1 I0 Ls Ps Is V4 V1 (or_introl V2) Ev) as (q2 & a2 & c1 & B2 & E2 & _ & -> & O2 & U).
  rewrite Hb in B2. inversion B2; subst q2. rewrite Ea in E2. inversion E2; subst a2. clear B2 E2. rewrite O2 in U. specialize (U V3).
  destruct I0 as (St & Hh & Hi & Fc & Hp & Lc & Pc & Uc).
  set (inp := [RData (write_response a)]).
  assert (Fin : flowing inp) by (constructor; [apply write_response_nonempty|constructor]).
  assert (Fin' : flowing (cs_in (hears cl inp))) by (cbn [hears cs_in]; rewrite Hi; exact Fin).
  assert (Pin : pending (cs_in (hears cl inp)) = write_response a ++ []) by (cbn [hears cs_in inp]; rewrite Hi; reflexivity).
  destruct (send_reads dbg (hears cl inp) q a [] St Oka (flowing_live _ Fin') (flowing_in_time _ Fin') (flowing_no_interrupt _ _ Fin') Pin)
    as (r' & cl1 & E1 & Sr & S1 & _). cbn [hears cs_held] in S1. rewrite Hh in S1.
  assert (X : exchange dbg rt q cl (Open c) log (COk r') cl1 (Open c1) log1).
  { apply (exchange_intro dbg rt q cl (Open c) log s vs inp); auto.
    - rewrite Ps. exact S1.
    - cbn [slot_sent]. unfold output in O2. rewrite U, Uc, !app_nil_r in O2. rewrite O2. cbn [inp pending]. now rewrite app_nil_r. }
  destruct (in_step_exchange _ _ _ _ _ _ _ _ _ _ Hrt Q1 A1 (conj St (conj Hh (conj Hi (conj Fc (conj Hp (conj Lc (conj Pc Uc))))))) X)
    as (q3 & a3 & r3 & c3 & -> & _ & _ & _ & _ & Ec & I1).
  inversion Ec; subst c3. destruct (IH cl1 Q2 (fun x K => Ha x (or_intror K)) (log ++ [q3]) _ I1) as (rs & log2 & D). exists (COk r' :: rs), log2.
  econstructor; eauto.
Qed.

(** A router that answers differently each time. *)
Definition counting : router := fun h _ => LSend (response_of_body (repeat "x"%char (Nat.min 9 (List.length h)))).
Example C43_case : (forall h v, exists a, counting h v = LSend a /\ ok_response a) /\
  Forall plain_request [example_request; example_request] /\ ~ asks_close example_request.
Proof.
  split; [|split].
  - intros h v. eexists. split; [reflexivity|]. apply ok_body. unfold len. rewrite repeat_length. lia.
  - constructor; [|constructor; [|constructor]]; apply example_plain.
  - intros (vs & H & K). vm_compute in H. inversion H; subst; repeat (destruct K as [K|K]; try discriminate); destruct K.
Qed.

Print Assumptions C43_compose.
Print Assumptions C43_possible.
