(** C24 to C29: one server connection. *)
From Coq Require Import List Ascii String NArith ZArith Bool Lia.
From Coq Require Import ZifyBool ZifyNat ZifyN.
From Verif.Model Require Import Bytes Io Common Parse Encode Writer Server.
From Verif.Spec Require Import Batch Stream Drive Numerals Grammar Wire Output Unicode Session.
From Verif.Proofs Require Import BytesFacts IoFacts ParseFacts DriveFacts CallFacts BatchFacts LimitGrammar EncodeFacts Checks WriterFacts OpsFacts ServerFacts ConnFacts.
From Verif.Properties Require Import Streaming RoundTrip.
Import ListNotations.
Local Open Scope N_scope.

(** ** Facts about the reference *)

Lemma served_unique rt h b eof l o k : served rt h b eof l o k ->
  forall l' o' k', served rt h b eof l' o' k' -> l = l' /\ o = o' /\ k = k'.
Proof.
  induction 1 as [h b p E|h l Hl E|h b p E N S|h b eof e E|h b eof v rest E A|h b eof v rest log out keep E A _ IH];
    intros l' o' k' H'; inversion H'; subst; try congruence; auto.
  all: try (exfalso; tauto).
  all: try (match goal with H : batch_request _ = Complete ?a ?b, K : batch_request _ = Complete ?c ?d |- _ =>
              rewrite H in K; inversion K; subst end); auto; try (exfalso; tauto).
  destruct (IH _ _ _ H1) as (-> & -> & ->). auto.
Qed.

Lemma session_served_wait rt b rs e : session b rs e -> unasking rs -> (exists p, batch_request e = Incomplete p) ->
  forall h, served rt h b false rs (replies rt h rs) true.
Proof.
  induction 1 as [b H|b v rest rs e H _ IH]; intros U E h.
  - destruct E as [p E]. cbn [replies]. eapply served_wait; eauto.
  - inversion U; subst. cbn [replies]. eapply served_next; eauto.
Qed.

Lemma session_served_bad rt b rs e eof x : session b rs e -> unasking rs -> batch_request e = Bad x ->
  forall h, served rt h b eof rs (replies rt h rs ++ bad_request) false.
Proof.
  induction 1 as [b H|b v rest rs e H _ IH]; intros U E h.
  - cbn [replies app]. eapply served_bad; eauto.
  - inversion U; subst. cbn [replies]. rewrite <- app_assoc. eapply served_next; eauto.
Qed.

Lemma session_served_closed rt b rs e : session b rs e -> unasking rs -> e = [] \/ single_char e ->
  batch_request e = Incomplete (InFirst e) ->
  forall h, served rt h b true rs (replies rt h rs) false.
Proof.
  induction 1 as [b H|b v rest rs e H _ IH]; intros U E K h.
  - cbn [replies]. now apply served_closed.
  - inversion U; subst. cbn [replies]. eapply served_next; eauto.
Qed.

Lemma session_served_truncated rt b rs e : session b rs e -> unasking rs -> e <> [] -> ~ single_char e ->
  (exists p, batch_request e = Incomplete p) ->
  forall h, served rt h b true rs (replies rt h rs ++ bad_request) false.
Proof.
  induction 1 as [b H|b v rest rs e H _ IH]; intros U E1 E2 [p E] h.
  - cbn [replies app]. eapply served_truncated; eauto.
  - inversion U; subst. cbn [replies]. rewrite <- app_assoc. eapply served_next; eauto.
Qed.

Lemma session_served_last rt b rs v rest e eof : session b (rs ++ v :: rest) e -> unasking rs -> asks_close v ->
  forall h, served rt h b eof (rs ++ [v]) (replies rt h (rs ++ [v])) false.
Proof.
  revert b. induction rs as [|r rs IH]; intros b S U A h; inversion S; subst; cbn [app replies].
  - rewrite app_nil_r. eapply served_last; eauto.
  - inversion U; subst. eapply served_next; eauto.
Qed.

(** ** Requests that may be delivered in any way *)

Definition plain_request (r : request) : Prop :=
  good_request r /\ request_fits r /\ ascii (rq_uri r) /\ ascii_headers (rq_headers r).

Lemma plain_small r : plain_request r ->
  exists ps, small_request (write_request r) (rq_method r) (rq_uri r) ps (rq_body r) /\ head_ascii (write_request r) ps.
Proof.
  intros (G & F & A1 & A2). exists (pairs_of (rq_headers r)). split; [now apply good_request_small|].
  rewrite write_request_eq. destruct G as (G1 & G2 & _). destruct (request_first_ok r G1 G2).
  apply head_ascii_first; auto using request_first_ascii, ascii_pairs.
Qed.

Lemma plain_prefix rs : Forall plain_request rs -> forall b x, List.concat (map write_request rs) = b ++ x ->
  clean (last_outcome b) /\ in_limits (last_outcome b).
Proof.
  induction rs as [|r rs IH]; intros F b x E.
  - cbn in E. symmetry in E. apply app_eq_nil in E as [-> _]. split; [reflexivity|vm_compute; first [reflexivity|discriminate|auto]].
  - inversion F as [|? ? F1 F2]; subst. cbn [map List.concat] in E.
    destruct F1 as (G & Fi & A) eqn:Ef. clear Ef. destruct (request_reads_back r [] G Fi) as (r' & Hr & _). rewrite app_nil_r in Hr.
    destruct (plain_small r (conj G (conj Fi A))) as (ps & S1 & S2).
    pose proof (request_prefixes _ _ _ _ _ _ _ _ S1 E) as [L C].
    rewrite last_unfold. destruct (batch_request b) as [v rest|p|v n|e] eqn:Eb; auto.
    apply prefix_cases in E as [(y & Hy & E)|(b' & -> & E)].
    + exfalso. apply (batch_request_complete_ext _ _ _ y) in Eb. rewrite <- E, Hr in Eb. inversion Eb.
      symmetry in H1. apply app_eq_nil in H1 as [_ ->]. congruence.
    + apply (batch_request_complete_ext _ _ _ b') in Hr. rewrite Hr in Eb. inversion Eb; subst. cbn [app].
      eapply IH; eauto.
Qed.

Lemma plain_orderly rs eof s : Forall plain_request rs -> live_eof eof s -> pending s = List.concat (map write_request rs) ->
  no_interrupt_in_data last_outcome s -> orderly eof s.
Proof.
  intros F L P I. split; auto. split; [|split; [auto|split]].
  - intros s1 s2 ->. rewrite LimitGrammar.pending_app in P. symmetry in P. exact (proj1 (plain_prefix _ F _ _ P)).
  - intros w x E. rewrite P in E. exact (proj2 (plain_prefix _ F _ _ E)).
  - intros _. rewrite P. apply (plain_prefix _ F _ []). now rewrite app_nil_r.
Qed.

Lemma plain_session rs : Forall plain_request rs ->
  exists rs', Forall2 same_request rs' rs /\ session (List.concat (map write_request rs)) rs' [].
Proof.
  induction rs as [|r rs IH]; intros F.
  - exists []. split; constructor. discriminate.
  - inversion F as [|? ? (G & Fi & A) F2]; subst. destruct (IH F2) as (rs' & H1 & H2). cbn [map List.concat].
    destruct (request_reads_back r (List.concat (map write_request rs)) G Fi) as (r' & Hr & Sr).
    exists (r' :: rs'). split; [constructor; auto|]. econstructor; eauto.
Qed.

Lemma orderly_calm eof s : orderly eof s -> calm eof [] s.
Proof. intros (H1 & H2 & H3 & H4 & H5). now apply calm_start. Qed.

(** ** C24 *)

Definition ongoing (r : read_result) : Prop := match r with Ready _ | NotReady => True | _ => False end.

(** What the last, unfinished, part e of the input is reported as. *)
Definition final (eof : bool) (e : bytes) (r : read_result) : Prop :=
  match r with
  | Closed => eof = true /\ (e = [] \/ single_char e)
  | IoErr _ => eof = true /\ e <> [] /\ ~ single_char e /\ exists p, batch_request e = Incomplete p
  | ParseErr x => batch_request e = Bad x \/
      (eof = true /\ e <> [] /\ ~ single_char e /\ exists p, batch_request e = Incomplete p)
  | _ => False
  end.

Lemma reads_spec dbg eof n : forall s p cur rs e, holds p cur -> calm eof cur s -> session (cur ++ pending s) rs e ->
  exists rest, rs = requests_in (reads dbg n s p) ++ rest /\
    ((Forall ongoing (reads dbg n s p) /\ ((List.length rs + blocks s < n)%nat -> rest = [] /\ eof = false)) \/
     (rest = [] /\ exists l r, reads dbg n s p = l ++ [r] /\ Forall ongoing l /\ final eof e r)).
Proof.
  induction n as [|n IH]; intros s p cur rs e Hh Hc Hs.
  - exists rs. cbn. split; auto. left. split; [constructor|]. lia.
  - cbn [reads]. destruct (read_request dbg s p) as [[r s'] p'] eqn:Er.
    pose proof (read_step _ _ _ _ _ _ _ _ Hh Hc Er) as Hr.
    assert (Fin : rs = [] -> final eof e r -> ~ ongoing r ->
      exists rest, rs = requests_in [r] ++ rest /\
      ((Forall ongoing [r] /\ ((List.length rs + blocks s < S n)%nat -> rest = [] /\ eof = false)) \/
       (rest = [] /\ exists l r0, [r] = l ++ [r0] /\ Forall ongoing l /\ final eof e r0))).
    { intros -> H O. exists []. split; [destruct r; auto; exfalso; apply O; exact I|]. right. split; auto.
      exists [], r. split; auto. }
    destruct r as [|v|x|k| |].
    + destruct Hr as (w & P & H1 & H2 & H3). rewrite P, app_assoc in Hs.
      destruct (IH _ _ _ _ _ H1 H2 Hs) as (rest & R1 & R2). exists rest. split; [exact R1|].
      destruct R2 as [[R2 R3]|(R2 & l & r & R3 & R4 & R5)].
      * left. split; [constructor; auto; exact I|]. intros L. destruct H3 as [[-> ->]|H3]; [|apply R3; lia]. split; auto.
        cbn [pending] in Hs. rewrite app_nil_r in Hs. destruct H1 as (H1 & _).
        assert (Z : [] = requests_in (reads dbg n [] p') ++ rest).
        { rewrite <- R1. inversion Hs as [|b v' rest' rs' e' Hn Hs']; auto. rewrite Hn in H1. destruct H1. }
        symmetry in Z. now apply app_eq_nil in Z.
      * right. split; auto. exists (NotReady :: l), r. rewrite R3. split; auto. split; auto. constructor; auto. exact I.
    + destruct Hr as (w & P & HC & -> & H2 & H3 & H4). rewrite P in Hs.
      inversion Hs as [b Hn|b v' rest' rs' e' Hn Hs']; subst; [exfalso; eapply Hn; apply HC|].
      rewrite HC in Hn. inversion Hn; subst.
      destruct (IH _ _ [] _ _ holds_none H2 Hs') as (rest & R1 & R2). exists rest.
      cbn [requests_in flat_map app]. split; [f_equal; exact R1|]. destruct R2 as [[R2 R3]|(R2 & l & r & R3 & R4 & R5)].
      * left. split; [constructor; auto; exact I|]. cbn [List.length]. intros L. apply R3. lia.
      * right. split; auto. exists (Ready v' :: l), r. rewrite R3. split; auto. split; auto. constructor; auto. exact I.
    + apply Fin; [| |auto].
      * destruct Hr as [(w & P & H)|(-> & _ & _ & p0 & H)]; inversion Hs as [|b v' rest' rs' e' Hn Hs']; subst; auto.
        -- rewrite P, H in Hn. discriminate.
        -- rewrite H in Hn. discriminate.
      * destruct Hr as [(w & P & H)|(-> & K1 & K2 & p0 & H)]; inversion Hs as [|b v' rest' rs' e' Hn Hs']; subst.
        -- left. rewrite P. apply H.
        -- rewrite P, H in Hn. discriminate.
        -- right. eauto.
        -- rewrite H in Hn. discriminate.
    + destruct Hr as (-> & K1 & K2 & p0 & H). inversion Hs as [|b v' rest' rs' e' Hn Hs']; subst; [|rewrite H in Hn; discriminate].
      apply Fin; [auto| |auto]. split; eauto.
    + destruct Hr as (-> & K1 & H). inversion Hs as [|b v' rest' rs' e' Hn Hs']; subst; [|rewrite H in Hn; discriminate].
      apply Fin; [auto| |auto]. split; eauto.
    + destruct Hr.
Qed.

(** Any number of calls, on any orderly input, with the session of its bytes: the requests returned are
    an initial part of the requests of the session, and all of them once there were as many calls as
    requests and blocks; until then nothing else than requests and NotReady is reported. *)
Theorem C24_pipelined : forall dbg eof s rs e n,
  orderly eof s -> session (pending s) rs e ->
  let results := reads dbg n s (Some req_new) in
  exists rest, rs = requests_in results ++ rest /\
    ((Forall ongoing results /\ ((List.length rs + blocks s < n)%nat -> rest = [] /\ eof = false)) \/
     (rest = [] /\ exists l r, results = l ++ [r] /\ Forall ongoing l /\ final eof e r)).
Proof. intros dbg eof s rs e n O S. apply (reads_spec dbg eof n s _ [] rs e holds_new); auto using orderly_calm. Qed.

(** The reference session exists, and is determined by the bytes. *)
Theorem C24_session_exists : forall b, exists rs e, session b rs e.
Proof. exact session_total. Qed.
Theorem C24_session_unique : forall b rs e rs' e', session b rs e -> session b rs' e' -> rs = rs' /\ e = e'.
Proof. intros. eapply session_unique; eauto. Qed.

(** In particular the requests written by a client, one after the other, however they are cut up. *)
Theorem C24_written_requests : forall dbg rs s n,
  Forall plain_request rs -> live s -> pending s = List.concat (map write_request rs) ->
  no_interrupt_in_data last_outcome s ->
  let results := reads dbg n s (Some req_new) in
  Forall ongoing results /\
  (exists rs1 rs2, rs = rs1 ++ rs2 /\ Forall2 same_request (requests_in results) rs1) /\
  ((List.length rs + blocks s < n)%nat -> Forall2 same_request (requests_in results) rs).
Proof.
  intros dbg rs s n F L P I. cbn zeta. destruct (plain_session rs F) as (rs' & H1 & H2). rewrite <- P in H2.
  pose proof (plain_orderly rs false s F (live_eof_false _ L) P I) as O.
  destruct (C24_pipelined dbg false s rs' [] n O H2) as (rest & R1 & R2).
  destruct R2 as [[R2 R3]|(_ & l & r & _ & _ & R)].
  - split; auto. split.
    + rewrite R1 in H1. apply Forall2_app_inv_l in H1 as (a & b & J1 & J2 & ->). eauto.
    + intros Ln. assert (List.length rs' = List.length rs) by (clear - H1; induction H1; cbn; auto).
      destruct R3 as [-> _]; [lia|]. rewrite app_nil_r in R1. now rewrite <- R1.
  - exfalso. destruct r; cbn [final] in R; try exact R.
    + destruct R as [R|(R & _)]; discriminate.
    + destruct R; discriminate.
    + destruct R; discriminate.
Qed.

(** ** C25 *)

(** End of stream with nothing of a further request is reported as Closed; with a part of one that is
    more than a single character, as an error. *)
Theorem C25_end_of_stream : forall dbg s rs e p n,
  orderly true s -> session (pending s) rs e -> batch_request e = Incomplete p ->
  (List.length rs + blocks s < n)%nat ->
  exists l r, reads dbg n s (Some req_new) = l ++ [r] /\ Forall ongoing l /\ requests_in l = rs /\
    (e = [] -> r = Closed) /\
    (e <> [] -> ~ single_char e -> (exists k, r = IoErr k) \/ exists x, r = ParseErr x) /\
    (single_char e -> r = Closed).
Proof.
  intros dbg s rs e p n O S E Ln. destruct (C24_pipelined dbg true s rs e n O S) as (rest & R1 & R2).
  destruct R2 as [[_ R2]|(-> & l & r & R2 & R3 & R4)]; [destruct (R2 Ln); discriminate|].
  exists l, r. split; auto. split; auto. rewrite app_nil_r, R2 in R1. unfold requests_in in R1. rewrite flat_map_app in R1.
  assert (flat_map (fun r => match r with Ready v => [v] | _ => [] end) [r] = []) as Z.
  { destruct r; auto. destruct R4. }
  rewrite Z, app_nil_r in R1. split; auto.
  destruct r as [|v|x|k| |]; try (destruct R4; fail); cbn [final] in R4.
  - destruct R4 as [R4|(_ & K1 & K2 & _)]; [congruence|]. split; [congruence|]. split; [eauto|tauto].
  - destruct R4 as (_ & K1 & K2 & _). split; [congruence|]. split; [eauto|tauto].
  - destruct R4 as (_ & K). split; auto. split; auto. tauto.
Qed.

(** A stream that ends after a single character of a request, whichever it is, is taken for one closed
    between requests. *)
Theorem C25_truncation_reported_refuted : forall dbg u l n,
  scalar u -> u <> 10 -> map bval l = encode_scalar u ->
  reads dbg (S n) [RData l; RData []] (Some req_new) = [Closed] /\
  batch_request l = Incomplete (InFirst l) /\ l <> [].
Proof.
  intros dbg u l n Hu H10 El.
  assert (Hs : single_char l) by (exists u; auto).
  assert (Hne : l <> []).
  { intros ->. destruct (encode_scalar_shape u Hu) as (a & t & K & _). rewrite K in El. discriminate. }
  assert (Hlen : len l <= 4).
  { rewrite <- (len_map bval), El. unfold encode_scalar. repeat destruct (_ <? _); vm_compute; discriminate. }
  assert (Hno : noLF l).
  { intros H. apply (in_map bval) in H. rewrite El in H. change (bval LF) with 10 in H. unfold encode_scalar in H.
    destruct (N.ltb_spec u 128); [|destruct (N.ltb_spec u 2048); [|destruct (N.ltb_spec u 65536)]]; cbn [In] in H;
      repeat (destruct H as [H|H]; [try congruence; revert H; generalize (u / 64) (u mod 64) (u / 4096) (u / 262144); intros; lia|]); auto. }
  assert (Pw : forall w x, l = w ++ x -> batch_request w = Incomplete (InFirst w)).
  { intros w x ->. unfold batch_request, batch_msg, batch_first. rewrite cut_line_none; auto.
    intros K. apply Hno, in_or_app. now left. }
  assert (O : orderly true [RData l; RData []]).
  { split; [exists [RData l]; split; auto; constructor; auto|]. split; [|split; [|split; [|discriminate]]].
    - intros s1 s2 E. destruct s1 as [|a [|b [|c s1]]]; discriminate E.
    - intros s1 s2 E. destruct s1 as [|a [|b [|c s1]]]; discriminate E.
    - cbn [pending]. rewrite app_nil_r. intros w x E. rewrite last_of_unfinished; rewrite (Pw w x E); [|exact I].
      split; [|exact I]. cbn [line_of]. apply (f_equal (@len byte)) in E. rewrite len_app in E. lia. }
  assert (Eb : batch_request l = Incomplete (InFirst l)) by (apply (Pw l []); now rewrite app_nil_r).
  assert (Ss : session (pending [RData l; RData []]) [] l).
  { cbn [pending]. rewrite app_nil_r. constructor. congruence. }
  assert (B : (List.length (@nil request) + blocks [RData l; RData []] < S n)%nat) by (cbn; lia).
  destruct (C25_end_of_stream dbg _ [] l (InFirst l) (S n) O Ss Eb B) as (rl & r & R1 & R2 & R3 & R4 & R5 & R6).
  split; auto. specialize (R6 Hs). subst r. destruct rl as [|x rl]; auto.
  exfalso. cbn [reads] in R1. destruct (read_request dbg [RData l; RData []] (Some req_new)) as [[y s'] p'] eqn:Er.
  pose proof (read_step _ _ _ _ _ _ _ _ holds_new (orderly_calm _ _ O) Er) as St. inversion R2 as [|? ? Hx _]; subst.
  assert (x = y) as -> by (cbn [app] in R1; congruence).
  destruct y as [|v| | | |]; try (destruct Hx; fail).
  - destruct St as (w & _ & _ & _ & [[_ St]|St]); [discriminate|cbn in St; lia].
  - cbn [requests_in flat_map app] in R3. discriminate.
Qed.

(** ** C26 *)

(** For every router whose listeners do not panic, every orderly input, every number of readiness
    events and every socket that does not fail (and, unless all responses are short, does not take bytes
    again within a call after it has blocked): what the connection has written and routed is what the
    reference says for the bytes received so far, and it is all on the socket or in the buffer; if the
    connection is gone it is what the reference says for the whole input, and a first part of it is on
    the socket.  After more events than the input has blocks, the whole input has been dealt with. *)
Theorem C26_responses : forall dbg rt eof s vs log st,
  no_panic rt -> orderly eof s -> Forall visit_fine vs ->
  Forall visit_steady vs \/ short_replies rt ->
  visits dbg rt vs [] (Open (conn_new s)) = (log, st) ->
  (exists c got, st = Open c /\ pending s = got ++ pending (cn_in c) /\
     served rt [] got false log (output c) true /\
     ((blocks s < List.length vs)%nat -> pending (cn_in c) = [] /\ eof = false)) \/
  (exists sent rest, st = Gone sent /\ served rt [] (pending s) eof log (sent ++ rest) false).
Proof.
  intros dbg rt eof s vs log st Hrt O F S E.
  destruct (visits_served dbg rt eof vs Hrt [] (conn_new s) log st [] (conn_new_fine s) holds_new (orderly_calm _ _ O) F S E)
    as (new & out & -> & R). destruct st as [c|sent|sent].
  - left. destruct R as (R1 & took & cur & P & (H1 & _) & _ & H3 & _ & H4). exists c, took. split; auto. split; auto. split.
    + specialize (H3 [] false [] [] true). rewrite !app_nil_r in H3. rewrite R1. apply H3.
      destruct (batch_request cur) as [v rest|p|v n|x] eqn:Eb; try destruct H1.
      * eapply served_wait; eauto.
      * exfalso. exact (batch_request_not_eof _ _ _ Eb).
    + intros L. destruct H4 as [H4|H4]; auto. cbn [cn_in conn_new] in H4. lia.
  - right. destruct R as (R1 & rest & R2). exists sent, rest. split; auto. cbn [app cn_in conn_new] in *. 
    rewrite conn_new_output in R2. cbn [app] in R2. rewrite <- R2. exact R1.
  - destruct R.
Qed.

(** The reference determines what is routed and written, and whether the connection is kept. *)
Theorem C26_reference_unique : forall rt h b eof l o k l' o' k',
  served rt h b eof l o k -> served rt h b eof l' o' k' -> l = l' /\ o = o' /\ k = k'.
Proof. intros. eapply served_unique; eauto. Qed.

(** In particular: requests written by a client, none asking to close. *)
Theorem C26_one_response_each : forall dbg rt rs s vs log st,
  no_panic rt -> Forall plain_request rs -> (forall r, In r rs -> ~ asks_close r) ->
  live s -> pending s = List.concat (map write_request rs) -> no_interrupt_in_data last_outcome s ->
  Forall visit_fine vs -> Forall visit_steady vs \/ short_replies rt -> (blocks s < List.length vs)%nat ->
  visits dbg rt vs [] (Open (conn_new s)) = (log, st) ->
  Forall2 same_request log rs /\ exists c, st = Open c /\ output c = replies rt [] log.
Proof.
  intros dbg rt rs s vs log st Hrt F A L P I V S B E.
  pose proof (plain_orderly rs false s F (live_eof_false _ L) P I) as O.
  destruct (plain_session rs F) as (rs' & H1 & H2). rewrite <- P in H2.
  assert (U : unasking rs').
  { clear - A H1. induction H1 as [|r' r rs' rs (_ & _ & Hm & _) H IH]; constructor; [|apply IH; intros; apply A; now right].
    intros (vs & G & K). apply (A r); [now left|]. exists vs. rewrite <- Hm. auto. }
  pose proof (session_served_wait rt _ _ _ H2 U (ex_intro _ (InFirst []) eq_refl) []) as Ref.
  destruct (C26_responses dbg rt false s vs log st Hrt O V S E) as [(c & got & -> & Pg & Sv & Done)|(sent & rest & -> & Sv)].
  - destruct (Done B) as [Z _]. rewrite Z, app_nil_r in Pg. rewrite Pg in Ref.
    destruct (served_unique _ _ _ _ _ _ _ Sv _ _ _ Ref) as (-> & O2 & _). split; auto. exists c. auto.
  - destruct (served_unique _ _ _ _ _ _ _ Sv _ _ _ Ref) as (_ & _ & X). discriminate.
Qed.

(** On any input whatsoever (errors, interrupts, malformed bytes, any fragmentation): what has been
    written is the answers to the routed requests, in order, and then possibly one 400. *)
Theorem C26_any_input : forall dbg rt s vs log st,
  Forall visit_fine vs -> Forall visit_steady vs \/ short_replies rt ->
  visits dbg rt vs [] (Open (conn_new s)) = (log, st) ->
  exists tail, (tail = [] \/ (tail = bad_request /\ exists x, st = Gone x)) /\
    match st with
    | Open c => output c = replies rt [] log ++ tail
    | Gone sent | Poisoned sent => exists rest, replies rt [] log ++ tail = sent ++ rest
    end.
Proof.
  intros dbg rt s vs log st F S E.
  apply visits_writes in E as (new & tail & -> & T & R); auto using conn_new_fine.
  exists tail. split; auto. cbn zeta in R. rewrite conn_new_output in R. cbn [app] in *.
  destruct st; [apply R|apply R|apply R].
Qed.

(** ** C27 *)

(** On any input and any socket: a request that asks to close is the last one routed, and the
    connection is gone after it. *)
Theorem C27_close_is_last : forall dbg rt s vs log st a v b,
  visits dbg rt vs [] (Open (conn_new s)) = (log, st) ->
  log = a ++ v :: b -> asks_close v -> b = [] /\ forall c, st <> Open c.
Proof.
  intros dbg rt s vs log st a v b E El Hv. apply visits_log in E as (new & -> & R); [|apply parser_fine_new].
  cbn [app] in El. subst new.
  assert (Un : forall x y, a ++ v :: b = x ++ y -> unasking x -> (List.length y <= 1)%nat -> b = [] /\ y <> []).
  { clear - Hv. revert a. intros a x. revert a. induction x as [|z x IH]; intros a y E U L; cbn [app] in E.
    - subst y. rewrite app_length in L. cbn in L. destruct b; [|cbn in L; lia]. split; auto.
      destruct a; [discriminate|]. discriminate.
    - inversion U; subst. destruct a as [|w a]; cbn [app] in E.
      + inversion E; subst. contradiction.
      + inversion E; subst. eapply IH; eauto. }
  assert (No : ~ unasking (a ++ v :: b)).
  { intros K. apply Forall_app in K as [_ K]. inversion K. contradiction. }
  destruct st as [c|x|x].
  - exfalso. destruct R as [R _]. contradiction.
  - destruct R as (p & q & R1 & R2 & R3). destruct (Un p q R1 R2 R3). split; auto. discriminate.
  - split; [|discriminate]. destruct R as [(p & q & R1 & R2 & _)|(R1 & _)].
    + destruct (Un p [q] R1 R2); auto.
    + contradiction.
Qed.

(** Once a connection is gone, or its handler has panicked, no event changes anything. *)
Theorem C27_gone_for_good : forall dbg rt vs more log0 st0 log st,
  visits dbg rt vs log0 st0 = (log, st) -> (forall c, st <> Open c) ->
  visits dbg rt (vs ++ more) log0 st0 = (log, st).
Proof. intros dbg rt vs more log0 st0 log st E H. rewrite visits_app, E. now apply visits_shut. Qed.

(** When it is dropped: a request that asks to close, malformed input, or the end of the stream, and on
    orderly input with an unfailing socket nothing else. *)
Theorem C27_dropped_iff : forall dbg rt eof s vs log st,
  no_panic rt -> orderly eof s -> Forall visit_fine vs ->
  Forall visit_steady vs \/ short_replies rt -> (blocks s < List.length vs)%nat ->
  visits dbg rt vs [] (Open (conn_new s)) = (log, st) ->
  forall rs e, session (pending s) rs e ->
  ((forall c, st <> Open c) <->
   (eof = true \/ (exists r, In r rs /\ asks_close r) \/ (exists x, batch_request e = Bad x))).
Proof.
  intros dbg rt eof s vs log st Hrt O F S B E rs e Hs.
  destruct (C26_responses dbg rt eof s vs log st Hrt O F S E) as [(c & got & -> & Pg & Sv & Done)|(sent & rest & -> & Sv)].
  - destruct (Done B) as [Z ->]. rewrite Z, app_nil_r in Pg. rewrite <- Pg in *. split; [intros H; destruct (H c); auto|].
    intros H. exfalso. clear - H Hs Sv. revert Sv. generalize (output c) as out. generalize (@nil request) as h. revert log.
    induction Hs as [b Hb|b v r rs e Hb Hs IH]; intros log h out Sv.
    + destruct H as [H|[(r & [] & _)|(x & H)]]; [discriminate|]. inversion Sv; subst; congruence.
    + inversion Sv; subst; try congruence.
      rewrite Hb in H0. inversion H0; subst. eapply IH; [|eassumption].
      destruct H as [H|[(z & [<-|Hz] & Hc)|H]]; [discriminate|contradiction| |].
      * right. left. eauto.
      * auto.
  - split; [intros _|discriminate]. destruct eof; auto. right. clear - Hs Sv. revert Sv. generalize (sent ++ rest) as out.
    generalize (@nil request) as h. revert log.
    induction Hs as [b Hb|b v r rs e Hb Hs IH]; intros log h out Sv; inversion Sv; subst; try congruence; try (exfalso; eapply Hb; eassumption).
    + right. eauto.
    + rewrite Hb in H. inversion H; subst. left. exists v0. split; auto. now left.
    + rewrite Hb in H. inversion H; subst. destruct (IH _ _ _ H1) as [(z & K1 & K2)|K]; auto. left. exists z. split; auto. now right.
Qed.

(** ** C28 *)

Theorem C28_malformed : forall dbg rt eof s vs log st rs e x,
  no_panic rt -> orderly eof s -> Forall visit_fine vs ->
  Forall visit_steady vs \/ short_replies rt -> (blocks s < List.length vs)%nat ->
  session (pending s) rs e -> (forall r, In r rs -> ~ asks_close r) -> batch_request e = Bad x ->
  visits dbg rt vs [] (Open (conn_new s)) = (log, st) ->
  log = rs /\ exists sent rest, st = Gone sent /\ replies rt [] rs ++ bad_request = sent ++ rest.
Proof.
  intros dbg rt eof s vs log st rs e x Hrt O F S B Hs U Hb E.
  assert (U' : unasking rs) by (apply Forall_forall; exact U).
  destruct (C26_responses dbg rt eof s vs log st Hrt O F S E) as [(c & got & -> & Pg & Sv & Done)|(sent & rest & -> & Sv)].
  - destruct (Done B) as [Z ->]. rewrite Z, app_nil_r in Pg. subst got.
    pose proof (session_served_bad rt _ _ _ false x Hs U' Hb []) as Ref.
    destruct (served_unique _ _ _ _ _ _ _ Sv _ _ _ Ref) as (_ & _ & X). discriminate.
  - pose proof (session_served_bad rt _ _ _ eof x Hs U' Hb []) as Ref.
    destruct (served_unique _ _ _ _ _ _ _ Sv _ _ _ Ref) as (-> & X & _). split; auto. exists sent, rest. auto.
Qed.

(** A request cut short by the end of the stream (after more than one character) is malformed too. *)
Theorem C28_truncated : forall dbg rt s vs log st rs e p,
  no_panic rt -> orderly true s -> Forall visit_fine vs ->
  Forall visit_steady vs \/ short_replies rt -> (blocks s < List.length vs)%nat ->
  session (pending s) rs e -> (forall r, In r rs -> ~ asks_close r) ->
  batch_request e = Incomplete p -> e <> [] -> ~ single_char e ->
  visits dbg rt vs [] (Open (conn_new s)) = (log, st) ->
  log = rs /\ exists sent rest, st = Gone sent /\ replies rt [] rs ++ bad_request = sent ++ rest.
Proof.
  intros dbg rt s vs log st rs e p Hrt O F S B Hs U Hb He1 He2 E.
  assert (U' : unasking rs) by (apply Forall_forall; exact U).
  destruct (C26_responses dbg rt true s vs log st Hrt O F S E) as [(c & got & -> & Pg & Sv & Done)|(sent & rest & -> & Sv)].
  - destruct (Done B) as [_ X]. discriminate.
  - pose proof (session_served_truncated rt _ _ _ Hs U' He1 He2 (ex_intro _ _ Hb) []) as Ref.
    destruct (served_unique _ _ _ _ _ _ _ Sv _ _ _ Ref) as (-> & X & _). split; auto. exists sent, rest. auto.
Qed.

(** ** C29 *)

(** On any input, if during every call the socket takes as many bytes as there are to send without
    blocking (however few at a time), everything written was on the socket when the connection was
    dropped. *)
Theorem C29_delivered : forall dbg rt s vs log sent,
  Forall visit_fine vs -> visits dbg rt vs [] (Open (conn_new s)) = (log, Gone sent) ->
  Forall visit_steady vs ->
  exists tail, (tail = [] \/ tail = bad_request) /\ (exists rest, replies rt [] log ++ tail = sent ++ rest) /\
    (Forall (visit_takes (len (replies rt [] log ++ tail))) vs -> sent = replies rt [] log ++ tail).
Proof.
  intros dbg rt s vs log sent F E S.
  apply visits_writes in E as (new & tail & -> & T & R); auto using conn_new_fine.
  exists tail. split; [tauto|]. cbn zeta in R. rewrite conn_new_output in R. cbn [app] in *. exact R.
Qed.

(** While the connection is kept, too: after such calls nothing is left in the buffer. *)
Theorem C29_delivered_so_far : forall dbg rt s vs log c,
  Forall visit_fine vs -> visits dbg rt vs [] (Open (conn_new s)) = (log, Open c) ->
  Forall visit_steady vs -> Forall (visit_takes (len (replies rt [] log))) vs ->
  sk_sent (cn_sock c) = replies rt [] log.
Proof.
  intros dbg rt s vs log c F E S T.
  apply visits_writes in E as (new & tail & -> & Tl & R); auto using conn_new_fine.
  destruct Tl as [->|[_ [x X]]]; [|discriminate]. cbn zeta in R. rewrite conn_new_output, app_nil_r in R. cbn [app] in *.
  destruct R as (_ & R & U). rewrite <- R. unfold output. rewrite U, app_nil_r; auto.
Qed.

(** Otherwise the end of the last answer is lost: here all of it, though the socket only blocks once. *)
Definition close_request : bytes := lit "GET / HTTP/1.1" ++ crlf ++ lit "connection: close" ++ crlf ++ crlf.
Theorem C29_delivered_refuted : forall dbg more,
  exists r, visits dbg (fun _ _ => LNext) (mk_visit [WFail WouldBlock] [] :: more) [] (Open (conn_new [RData close_request]))
    = ([r], Gone []) /\ reply LNext <> [].
Proof.
  intros dbg more.
  assert (H : forall d, exists r, visits d (fun _ _ => LNext) [mk_visit [WFail WouldBlock] []] [] (Open (conn_new [RData close_request]))
    = ([r], Gone [])).
  { intros d. eexists. destruct d; vm_compute; reflexivity. }
  destruct (H dbg) as [r Hr]. exists r. split; [|discriminate].
  apply (C27_gone_for_good dbg _ _ more) in Hr; [exact Hr|discriminate].
Qed.
(** The same with part of a 400 answer. *)
Theorem C29_error_answer_refuted : forall dbg,
  visits dbg (fun _ _ => LNext) [mk_visit [WTake 8] []] [] (Open (conn_new [RData (lit "x" ++ crlf)]))
    = ([], Gone (lit "HTTP/1.1")).
Proof. intros dbg. destruct dbg; vm_compute; reflexivity. Qed.

(** ** Cases *)

Definition two_requests : bytes := write_request example_request ++ write_request example_request.
Definition two_cut : stream :=
  [RData (firstn 40 two_requests); RErr WouldBlock; RErr Interrupted; RData (skipn 40 two_requests)].

Lemma example_plain : plain_request example_request.
Proof. destruct C13_case as (H1 & H2 & H3 & H4 & _). split; auto. Qed.

Lemma two_interrupt : no_interrupt_in_data last_outcome two_cut.
Proof.
  intros s1 s2 E. destruct s1 as [|a [|b [|c [|d [|? s1]]]]]; try discriminate E.
  assert (pending [a; b] = firstn 40 two_requests) as ->.
  { assert (a = RData (firstn 40 two_requests) /\ b = RErr WouldBlock) as [-> ->] by (unfold two_cut in E; cbn [app] in E; split; congruence).
    cbn [pending]. now rewrite app_nil_r. }
  vm_compute. intros H. exact H.
Qed.

Example C24_case :
  Forall plain_request [example_request; example_request] /\ live two_cut /\
  pending two_cut = List.concat (map write_request [example_request; example_request]) /\
  no_interrupt_in_data last_outcome two_cut /\ orderly false two_cut /\ blocks two_cut = 1%nat /\
  List.length (requests_in (reads true 4 two_cut (Some req_new))) = 2%nat.
Proof.
  assert (F : Forall plain_request [example_request; example_request]) 
    by (apply Forall_cons; [exact example_plain|apply Forall_cons; [exact example_plain|apply Forall_nil]]).
  assert (L : live two_cut).
  { unfold live, two_cut. repeat apply Forall_cons; try apply Forall_nil; cbn [live_event]; auto; vm_compute; discriminate. }
  assert (P : pending two_cut = List.concat (map write_request [example_request; example_request])) by (vm_compute; reflexivity).
  pose proof two_interrupt as I.
  split; auto. split; auto. split; auto. split; auto.
  split; [exact (plain_orderly _ false _ F (live_eof_false _ L) P I)|]. split; [reflexivity|]. vm_compute. reflexivity.
Qed.

(** A router that answers the first request and passes on the others. *)
Definition example_router : router := fun h _ => match h with [] => LSend (response_of_body (lit "hello")) | _ => LNext end.

Example C26_case : exists r1 r2 c,
  no_panic example_router /\ short_replies example_router /\ (forall r, In r [example_request] -> ~ asks_close r) /\
  Forall visit_fine [mk_visit [] []; mk_visit [WTake 3; WFail WouldBlock; WTake 30; WTake 100] []] /\
  visits true example_router [mk_visit [] []; mk_visit [WTake 3; WFail WouldBlock; WTake 30; WTake 100] []] [] (Open (conn_new two_cut))
    = ([r1; r2], Open c) /\
  output c = write_response (response_of_body (lit "hello")) ++ not_found /\ output c <> [].
Proof.
  eexists. eexists. eexists. split; [intros [|] ?; discriminate|]. split.
  { intros [|? ?] ? z H; inversion H; subst. split; [vm_compute; discriminate|]. split; [vm_compute; discriminate|].
    split; [vm_compute; discriminate|]. repeat constructor; vm_compute; discriminate. }
  split. { intros r [<-|[]] (vs & H & _). discriminate H. }
  split; [repeat constructor|]. split; [vm_compute; reflexivity|]. split; [vm_compute; reflexivity|vm_compute; discriminate].
Qed.

Lemma orderly_one eof b : b <> [] -> (forall w x, b = w ++ x -> in_limits (last_outcome w)) ->
  clean (last_outcome b) -> orderly eof (RData b :: if eof then [RData []] else []).
Proof.
  intros Hb Hl Hc. split; [exists [RData b]; split; [repeat constructor; auto|destruct eof; reflexivity]|].
  split; [intros s1 s2 E; destruct eof; destruct s1 as [|? [|? [|? s1]]]; discriminate E|].
  split; [intros s1 s2 E; destruct eof; destruct s1 as [|? [|? [|? s1]]]; discriminate E|].
  assert (P : pending (RData b :: if eof then [RData []] else []) = b) by (destruct eof; cbn [pending]; rewrite ?app_nil_r; reflexivity).
  rewrite P. split; auto.
Qed.

Example C28_case : exists x, orderly false [RData (lit "x" ++ crlf)] /\ session (lit "x" ++ crlf) [] (lit "x" ++ crlf) /\
  batch_request (lit "x" ++ crlf) = Bad x /\
  visits true example_router [mk_visit [WTake 100] []] [] (Open (conn_new [RData (lit "x" ++ crlf)])) = ([], Gone bad_request).
Proof.
  eexists. split; [|split; [|split; vm_compute; reflexivity]].
  - apply (orderly_one false); [discriminate| |vm_compute; exact I]. intros w x E.
    destruct w as [|a [|b [|c [|d w]]]]; inversion E; subst; vm_compute; auto.
  - constructor. vm_compute. discriminate.
Qed.

Example C25_case : orderly true [RData (lit "GE"); RData []] /\ ~ single_char (lit "GE") /\
  (exists p, batch_request (lit "GE") = Incomplete p) /\ session (lit "GE") [] (lit "GE") /\
  reads true 1 [RData (lit "GE"); RData []] (Some req_new) = [IoErr UnexpectedEof] /\
  visits true example_router [mk_visit [WTake 1000] []] [] (Open (conn_new [RData (lit "GE"); RData []])) = ([], Gone bad_request) /\
  scalar 8364 /\ map bval (map ascii_of_N [226; 130; 172]) = encode_scalar 8364.
Proof.
  split. { apply (orderly_one true); [discriminate| |vm_compute; reflexivity]. intros w x E.
    destruct w as [|a [|b [|c w]]]; inversion E; subst; vm_compute; auto. }
  split. { intros (n & Hn & E). unfold encode_scalar in E.
    destruct (n <? 128); [discriminate|]. destruct (n <? 2048) eqn:E1; [|destruct (n <? 65536); discriminate].
    change (map bval (lit "GE")) with [71; 69] in E. revert E. generalize (n / 64) (n mod 64). intros. assert (71 = 192 + n0) by congruence. lia. }
  split; [eexists; vm_compute; reflexivity|]. split; [constructor; vm_compute; discriminate|].
  split; [vm_compute; reflexivity|]. split; [vm_compute; reflexivity|]. split; [vm_compute; intuition discriminate|reflexivity].
Qed.

Example C27_case : exists r, asks_close r /\
  visits true (fun _ _ => LNext) [mk_visit [WTake 1000] []] [] (Open (conn_new [RData (close_request ++ close_request)])) = ([r], Gone not_found).
Proof.
  eexists. split; [|vm_compute; reflexivity]. exists [lit "close"]. split; [vm_compute; reflexivity|now left].
Qed.

Example C29_case : Forall (visit_takes 26) [mk_visit (repeat (WTake 1) 26) []] /\ len not_found = 26 /\
  exists r, visits true (fun _ _ => LNext) [mk_visit (repeat (WTake 1) 26) []] [] (Open (conn_new [RData close_request])) = ([r], Gone not_found).
Proof.
  split; [|split; [reflexivity|eexists; vm_compute; reflexivity]].
  repeat constructor. vm_compute. discriminate.
Qed.

Print Assumptions C24_pipelined.
Print Assumptions C24_session_exists.
Print Assumptions C24_session_unique.
Print Assumptions C24_written_requests.
Print Assumptions C25_end_of_stream.
Print Assumptions C25_truncation_reported_refuted.
Print Assumptions C26_responses.
Print Assumptions C26_reference_unique.
Print Assumptions C26_one_response_each.
Print Assumptions C26_any_input.
Print Assumptions C27_close_is_last.
Print Assumptions C27_gone_for_good.
Print Assumptions C27_dropped_iff.
Print Assumptions C28_malformed.
Print Assumptions C28_truncated.
Print Assumptions C29_delivered.
Print Assumptions C29_delivered_so_far.
Print Assumptions C29_delivered_refuted.
Print Assumptions C29_error_answer_refuted.
