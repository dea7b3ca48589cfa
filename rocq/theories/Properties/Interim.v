(** C82, C83: interim responses. *)
From Coq Require Import List Ascii String Arith NArith Bool Lia.
From Coq Require Import ZifyBool ZifyNat ZifyN.
From Verif.Model Require Import Bytes Io Common Parse Encode Writer Server Client Whole Full.
From Verif.Spec Require Import Batch Stream Drive Numerals Names Grammar Wire Session Exchange Output Arrivals Events.
From Verif.Proofs Require Import BytesFacts CommonFacts IoFacts ParseFacts DriveFacts CallFacts BatchFacts GrammarFacts LimitGrammar LimitFacts
  EncodeFacts ClientFacts WholeFacts FullFacts.
From Verif.Properties Require Import Tables RoundTrip Client Server Whole Full Peers.
Import ListNotations.
Local Open Scope N_scope.

(** ** C82 *)

(** A status line with a code from 100 to 199, of a length that the library accepts. *)
Definition interim_line (l : bytes) : Prop :=
  text l /\ len l <= 510 /\ exists v c code, supported_version v /\ words [v; c] l /\ denotes 10 c code /\ 100 <= code < 200.

Lemma denotes_unique s n m : denotes 10 s n -> denotes 10 s m -> n = m.
Proof.
  intros A B. pose proof (proj2 (parse_uint_spec 10 (N.max n m) s n eq_refl) (conj A (N.le_max_l _ _))) as P.
  pose proof (proj2 (parse_uint_spec 10 (N.max n m) s m eq_refl) (conj B (N.le_max_r _ _))) as Q. congruence.
Qed.

Lemma interim_bad l x : interim_line l -> batch_response (l ++ crlf ++ x) = Bad InvalidStatusCode.
Proof.
  intros (T & _ & v & c & code & V & W & D & R). unfold batch_response, batch_msg, batch_first. rewrite (cut_line_text _ _ T).
  destruct (C22_status_line_errors l) as (_ & _ & H). destruct (H v c W) as (_ & K & _). rewrite K; auto.
  intros c' I D'. assert (c' = code) by (eapply denotes_unique; eauto). subst c'.
  assert (X : Forall (fun c => 200 <= c) known_codes) by (repeat constructor; vm_compute; discriminate).
  rewrite Forall_forall in X. specialize (X _ I). lia.
Qed.

Lemma interim_limits l x : interim_line l -> always_in_limits batch_response (l ++ crlf ++ x).
Proof.
  intros H w y E. pose proof H as (T & Le & _).
  assert (E' : (l ++ [CR]) ++ LF :: x = w ++ y) by (rewrite <- E, <- app_assoc; reflexivity).
  apply prefix_cases in E' as [(z & Hz & E')|(b' & -> & E')].
  - assert (Nl : cut_line w = None).
    { apply cut_line_none. intros I. destruct T as [_ T]. assert (J : In LF (l ++ [CR])) by (rewrite E'; apply in_or_app; now left).
      apply in_app_or in J as [J|[J|[]]]; [auto|discriminate]. }
    unfold batch_response, batch_msg, batch_first. rewrite Nl. cbn [obind omap in_limits small line_of]. split; auto.
    apply (f_equal len) in E'. rewrite !len_app in E'. change (len [CR]) with 1 in E'. change (len w < 512). lia.
  - destruct b' as [|d b'].
    + assert (Nl : cut_line ((l ++ [CR]) ++ []) = None).
      { rewrite app_nil_r. apply cut_line_none. intros I. destruct T as [_ T]. apply in_app_or in I as [J|[J|[]]]; [auto|discriminate]. }
      unfold batch_response, batch_msg, batch_first. rewrite Nl. cbn [obind omap in_limits small line_of]. split; auto.
      change (len ((l ++ [CR]) ++ []) < 512). rewrite app_nil_r, len_app. change (len [CR]) with 1. lia.
    + cbn [app] in E'. inversion E'; subst. rewrite <- app_assoc. change ([CR] ++ LF :: b') with (crlf ++ b').
      rewrite interim_bad by exact H. exact I.
Qed.

Lemma send_refuses dbg s q i e j : csteady (cs_sock s) -> cs_in s = i -> resp_parse dbg resp_new i = (PErr e, j) ->
  exists s', send_request dbg s q = (CParsing e, s') /\ sent s' = sent s ++ cs_held s ++ write_request q.
Proof.
  intros St E Ep. unfold send_request. destruct (put_request s q) as [rw s1] eqn:Eq.
  apply put_request_spec in Eq as (Hin & Sf & _ & b1 & b2 & Hw & Hs & R). destruct rw as [[]|k]; [|contradiction].
  destruct R as [-> Hh]. rewrite Hin, E, Ep. eexists. split; [reflexivity|]. unfold sent in *. cbn [cs_sock cs_held cs_in].
  rewrite Hh, app_nil_r in Hs. rewrite Hs, Hw, app_nil_r. reflexivity.
Qed.

(** A server that sends an interim response before the final one, as RFC 7231 (6.2) allows for every request and a client must be able to parse:
    whatever follows it, in any fragmentation, the send fails; the request was sent twice, on two streams. *)
Theorem C82_interim_refuted : forall dbg q c s l1 x1 i2 l2 x2 n, cc_stream c = Some s -> csteady (cs_sock s) ->
  interim_line l1 -> flowing (cs_in s) -> pending (cs_in s) = l1 ++ crlf ++ x1 ->
  interim_line l2 -> flowing i2 -> pending i2 = l2 ++ crlf ++ x2 ->
  exists o s2, conn_send dbg false (inr (mk_cstream i2 [] open_sock) :: n) c q =
    (CParsing InvalidStatusCode, n, mk_cconn (Some s2) (cc_dropped c ++ [drop_stream o])) /\
    sent o = sent s ++ cs_held s ++ write_request q /\ sent s2 = write_request q.
Proof.
  intros dbg q c s l1 x1 i2 l2 x2 n Es St H1 F1 P1 H2 F2 P2.
  assert (X : forall i l x, interim_line l -> flowing i -> pending i = l ++ crlf ++ x -> exists j, resp_parse dbg resp_new i = (PErr InvalidStatusCode, j)).
  { intros i l x H F P. assert (L : live i) by now apply flowing_live.
    assert (B : blocks_in_clean_lines batch_response i) by (intros a b ->; apply Forall_app in F as [_ F]; inversion F; subst; contradiction).
    pose proof (drive_response_spec dbg false i (live_eof_false _ L) B (flowing_no_interrupt _ _ F)) as M. rewrite P in M.
    specialize (M (interim_limits _ _ H)). rewrite (interim_bad _ _ H) in M. destruct M as (j & M). unfold drive_response, drive in M. cbn [drive_f] in M.
    destruct (resp_parse dbg resp_new i) as [r s1] eqn:Ep. destruct r as [v|st' k|e|]; try discriminate.
    - exfalso. assert (Hi : msg_inv 0 resp_new) by apply line_inv_nil. destruct (resp_parser_ok dbg 0 _ _ _ _ Hi Ep) as (w & Hu & Hs & _).
      destruct k; try discriminate M.
      destruct Hs as [[[Hs|(_ & Hs & ->)] _]|[(Hk & _)|(Hk & _)]]; try discriminate.
      destruct (takes_prefix _ _ _ _ Hs) as (s2 & -> & <-). apply Forall_app in F as [_ F]. inversion F; subst. contradiction.
    - inversion M; subst. eauto. }
  destruct (X _ _ _ H1 F1 P1) as (j1 & E1). destruct (X _ _ _ H2 F2 P2) as (j2 & E2).
  destruct (send_refuses dbg s q _ _ j1 St eq_refl E1) as (s' & A1 & S1).
  destruct (send_refuses dbg (mk_cstream i2 [] open_sock) q _ _ j2 open_steady eq_refl E2) as (s2 & A2 & S2).
  exists s', s2. split; [|split; auto]. unfold conn_send. rewrite Es. unfold first_attempt. rewrite Es, A1.
  cbn [connect create tcp_connect cc_stream cc_dropped]. rewrite A2. reflexivity.
Qed.
Print Assumptions C82_interim_refuted.

(** There are such lines, with any reason phrase. *)
Example C82_case : interim_line (lit "HTTP/1.1 100 Continue") /\ interim_line (lit "HTTP/1.1 103 Early Hints").
Proof.
  assert (D : forall c n, parse_uint 10 U16_MAX c = Some n -> denotes 10 c n) by (intros c n H; apply (parse_uint_spec 10 U16_MAX c n eq_refl) in H; tauto).
  split; (split; [apply text_check; reflexivity|]; split; [vm_compute; discriminate|]).
  - exists (lit "HTTP/1.1"), (lit "100"), 100. split; [now left|]. split; [|split; [apply D; reflexivity|lia]].
    split; [vm_compute; intuition discriminate|]. eexists. split; [reflexivity|]. split; [vm_compute; intuition discriminate|]. right. eexists. reflexivity.
  - exists (lit "HTTP/1.1"), (lit "103"), 103. split; [now left|]. split; [|split; [apply D; reflexivity|lia]].
    split; [vm_compute; intuition discriminate|]. eexists. split; [reflexivity|]. split; [vm_compute; intuition discriminate|]. right. eexists. reflexivity.
Qed.

(** ** C83 *)

(** Nothing happens before a request is complete: in every execution of the whole server, while only a proper beginning of a request has arrived on a
    connection, the connection is kept, nothing is routed for it, and nothing is written. *)
Theorem C83_nothing_before_complete : forall dbg R size ls st c x q b b', has_router R ->
  frun dbg R (f_init size) ls st -> nth_error (ws_conns (f_w st)) c = Some x ->
  calm_listeners R c -> Forall visit_fine (calls c (wparts ls)) -> Forall visit_steady (calls c (wparts ls)) \/ short_listeners R c ->
  plain_request q -> received c (wparts ls) = map IByte b -> write_request q = b ++ b' -> b' <> [] ->
  wc_log x = [] /\ exists k, (wc_slot x = WHere k \/ wc_slot x = WTaken k) /\ output k = [].
Proof.
  intros dbg R size ls st c x q b b' Tot Rn N Cl V Sh Q Rc E Ne.
  destruct (C69_with_event_loop _ _ _ _ _ _ _ Tot Rn N) as (rt & s & busy & H1 & H2 & H3 & _). rewrite Rc in H2.
  apply items_bytes in H2 as (b1 & -> & _ & L & I). rewrite <- app_assoc in E.
  assert (E1 : pending s ++ b1 ++ b' = List.concat (map write_request [q])) by (cbn [map List.concat]; rewrite app_nil_r; auto).
  assert (O : orderly false s) by (eapply (plain_orderly_part [q]); eauto).
  assert (Np : no_panic rt) by (intros h v U; eapply Cl; eauto).
  assert (S : Forall visit_steady (calls c (wparts ls)) \/ short_replies rt).
  { destruct Sh as [Sh|Sh]; [now left|right]. intros h v r K. eapply Sh. rewrite <- K. apply H1. }
  assert (Inc : forall g y, write_request q = g ++ y -> y <> [] -> exists p, batch_request g = Incomplete p).
  { intros g y Eg Hy. destruct Q as (G & Fi & _). destruct (request_reads_back q [] G Fi) as (r' & Hr & _). rewrite app_nil_r in Hr.
    destruct (batch_request g) as [v rest|p|v n|e] eqn:Eb; eauto; exfalso.
    - apply (batch_request_complete_ext _ _ _ y) in Eb. rewrite <- Eg, Hr in Eb. injection Eb as _ Er. symmetry in Er. apply app_eq_nil in Er as [_ ->]. congruence.
    - exact (batch_request_not_eof _ _ _ Eb).
    - apply (batch_request_bad_ext _ _ y) in Eb. rewrite <- Eg, Hr in Eb. discriminate. }
  assert (Fin : forall g y l o keep, write_request q = g ++ y -> y <> [] -> served rt [] g false l o keep -> l = [] /\ o = [] /\ keep = true).
  { intros g y l o keep Eg Hy Sv. destruct (Inc g y Eg Hy) as (p & Hp). eapply served_unique; [exact Sv|]. eapply served_wait; eauto. }
  destruct (C26_responses dbg rt false s _ _ _ Np O V S H3) as [(k & got & K & Pg & Sv & _)|(sent & rest & K & Sv)].
  - rewrite Pg, <- app_assoc in E. eapply Fin in Sv as (Hl & Ho & _); [|exact E|].
    + split; auto. exists k. split; auto. destruct (wc_slot x); inversion K; subst; auto.
    + intros Z. apply app_eq_nil in Z as [_ Z]. apply app_eq_nil in Z as [_ Z]. auto.
  - exfalso. eapply Fin in Sv as (_ & _ & X); [discriminate|exact E|]. intros Z. apply app_eq_nil in Z as [_ Z]. auto.
Qed.
Print Assumptions C83_nothing_before_complete.

(** The head of a request. *)
Definition head_of (q : request) (b : bytes) : Prop := write_request q = b ++ rq_body q.
Definition expects_continue (q : request) : Prop :=
  exists vs, hm_get (header_from (lit "Expect")) (rq_headers q) = Some vs /\ In (lit "100-continue") vs.

(** So a client that, as RFC 7231 (5.1.1) has it, sends the head of a request that expects 100 (Continue) and waits for an interim or final answer
    before it sends the body, waits for ever: for every such request there is an execution in which its head arrived, and in every continuation in which
    nothing more arrives on the connection, however long, nothing is written on it (and it stays open unless an event removes it). *)
Theorem C83_continue_refuted : forall dbg R size q b, has_router R -> (forall c, calm_listeners R c) ->
  plain_request q -> ~ asks_close q -> expects_continue q -> rq_body q <> [] -> head_of q b ->
  exists ls st, frun dbg R (f_init size) ls st /\ accepted_here 0 ls /\ received 0 (wparts ls) = map IByte b /\
    forall ls' st', frun dbg R st ls' st' -> received 0 (wparts ls') = [] ->
      Forall visit_fine (calls 0 (wparts ls')) -> Forall visit_steady (calls 0 (wparts ls')) \/ short_listeners R 0 ->
      (exists x k, nth_error (ws_conns (f_w st')) 0 = Some x /\ wc_log x = [] /\ (wc_slot x = WHere k \/ wc_slot x = WTaken k) /\
         sk_sent (cn_sock k) = []) /\
      (never_removed 0 ls' -> connected 0 st').
Proof.
  intros dbg R size q b Tot Cl Pl Op _ Ne Hd.
  assert (Hb : b <> []).
  { intros ->. unfold head_of in Hd. cbn [app] in Hd. apply (f_equal (@List.length byte)) in Hd. rewrite write_request_eq, app_length in Hd.
    unfold request_first in Hd. rewrite !app_length in Hd. cbn [List.length lit] in Hd. lia. }
  assert (Ec : b ++ rq_body q = List.concat (map write_request [q])) by (cbn [map List.concat]; now rewrite app_nil_r).
  assert (Fp : Forall plain_request [q]) by auto.
  assert (Fo : forall r, In r [q] -> ~ asks_close r) by (intros r [<-|[]]; auto).
  destruct (begin_many dbg R size 1 b Hb Cl Tot [q] (rq_body q) Fp Fo Ec 1) as (ls & st & Rn & Ac & Kp & Ca & Rc); auto.
  assert (Rc0 : received 0 (wparts ls) = map IByte b) by exact (Rc 0%nat ltac:(lia)).
  exists ls, st. split; auto. split; [apply Ac; lia|]. split; auto.
  intros ls' st' R' Rs V1 V2. pose proof (frun_app _ _ _ _ _ Rn _ _ R') as Rn'.
  assert (Cs : calls 0 (wparts (ls' ++ ls)) = calls 0 (wparts ls')) by (rewrite wparts_app, calls_app, Ca; reflexivity).
  assert (Rt : received 0 (wparts (ls' ++ ls)) = map IByte b) by (rewrite wparts_app, received_app, Rs, Rc0; apply app_nil_r).
  split.
  - destruct (accepted_conn _ _ _ _ _ _ Rn' (in_or_app _ _ _ (or_intror (Ac 0%nat ltac:(lia))))) as (x & N).
    rewrite <- Cs in V1, V2.
    destruct (C83_nothing_before_complete _ _ _ _ _ _ _ _ _ _ Tot Rn' N (Cl 0%nat) V1 V2 Pl Rt Hd Ne) as (H & k & K & O).
    exists x, k. repeat (split; auto). unfold output in O. apply app_eq_nil in O. tauto.
  - intros Kp'. apply (quiet_connected dbg R size (ls' ++ ls) st' 0 b [q] Tot Rn'). rewrite Cs. apply mk_quiet_peer; auto.
    + apply in_or_app. right. apply Ac. lia.
    + intros c' H. apply in_app_or in H as [H|H]; [exact (Kp' _ H)|exact (Kp _ _ H)].
    + exists (rq_body q). exact Ec.
Qed.
Print Assumptions C83_continue_refuted.

(** Such a request, and listeners. *)
Definition upload : request :=
  mk_request PUT (lit "/up") [(header_from (lit "Expect"), [lit "100-continue"]); (CONTENT_LENGTH, [lit "5"])] (lit "hello").
Example C83_case : plain_request upload /\ ~ asks_close upload /\ expects_continue upload /\ rq_body upload <> [] /\ exists b, head_of upload b.
Proof.
  split.
  - split; [|split; [|split]].
    + split; [apply text_check; reflexivity|]. split; [vm_compute; intuition discriminate|]. split.
      * split; [repeat constructor; cbn; intuition discriminate|].
        repeat constructor; try discriminate; try (apply text_check; vm_compute; reflexivity); apply no_colon_check; reflexivity.
      * split; [reflexivity|]. exact (dec_denotes 5).
    + split; [vm_compute; congruence|]. split; [repeat constructor; vm_compute; congruence|]. split; vm_compute; congruence.
    + repeat constructor.
    + repeat constructor.
  - split; [intros (vs & H & _); discriminate|]. split; [exists [lit "100-continue"]; split; [reflexivity|now left]|]. split; [discriminate|].
    exists (firstn (List.length (write_request upload) - 5) (write_request upload)). vm_compute. reflexivity.
Qed.
