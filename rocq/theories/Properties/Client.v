(** C41, C42, C45, C63 to C65: one connection of the client. *)
From Coq Require Import List Ascii String Arith NArith Bool Lia.
From Coq Require Import ZifyBool ZifyNat ZifyN.
From Verif.Model Require Import Bytes Io Common Parse Encode Writer Server Client.
From Verif.Spec Require Import Batch Stream Drive Numerals Names Grammar Wire Session Exchange.
From Verif.Proofs Require Import BytesFacts CommonFacts IoFacts ParseFacts DriveFacts CallFacts BatchFacts LimitGrammar LimitFacts EncodeFacts ClientFacts.
From Verif.Properties Require Import RoundTrip.
Import ListNotations.
Local Open Scope N_scope.

(** ** C41 *)

(** One send uses at most two streams: the connection's current one, if any, then at most one new one (two if there was
    none), and tries to connect at most four times (at most twice if there was a stream).  On each of the streams only a
    prefix of the request is transmitted (after what an earlier failed send left in the buffer of the current one).  On
    success the request was transmitted completely on the stream that is kept. *)
Theorem C41_at_most_twice : forall dbg zt n c q r n' c', fresh_net n -> conn_send dbg zt n c q = (r, n', c') ->
  exists used, n = used ++ n' /\ (List.length used <= match cc_stream c with Some _ => 2 | None => 4 end)%nat /\
  ((cc_dropped c' = cc_dropped c /\
    match cc_stream c' with Some s => added (cc_stream c) (write_request q) s | None => is_error r \/ r = CPanic end /\
    (forall v, r = COk v -> exists s, cc_stream c' = Some s /\ all_added (cc_stream c) (write_request q) s)) \/
   (exists o s, cc_dropped c' = cc_dropped c ++ [o] /\ cc_stream c' = Some s /\
    added (cc_stream c) (write_request q) o /\ added None (write_request q) s /\
    (forall v, r = COk v -> all_added None (write_request q) s))).
Proof.
  intros dbg zt n c q r n' c' F E. destruct (cc_stream c) as [s0|] eqn:Es.
  - destruct (send_with_stream _ _ _ _ _ _ _ _ _ F Es E) as (used & H1 & H2 & _ & [(D & A & K)|(o & s & H)]); exists used; split; auto; split; auto.
    + left. split; auto. split; auto. destruct (cc_stream c') eqn:Ec; auto.
      destruct r; cbn [is_error]; auto. destruct (K _ eq_refl) as (x & X & _). discriminate.
    + right. eauto.
  - destruct (connect zt n c) as [[[e|] n1] c1] eqn:Ec.
    + unfold conn_send in E. rewrite Es, Ec in E. inversion E; subst. apply connect_spec in Ec as (used & H1 & H2 & _ & -> & _ & H3); auto.
      exists used. split; auto. split; [lia|]. left. rewrite Es. split; auto. split; [|intros v K; exfalso; now apply (H3 v)].
      destruct r; cbn [is_error]; auto. exfalso. now apply (H3 r).
    + pose proof Ec as Ec2. apply connect_spec in Ec2 as (used & H1 & H2 & F1 & s & Hs & U1 & U2 & Hi & Hd); auto. rewrite Es, app_nil_r in Hd.
      rewrite (conn_send_after_connect _ _ _ _ _ _ _ _ Es Ec Hs) in E.
      destruct (send_with_stream _ _ _ _ _ _ _ _ _ F1 Hs E) as (used2 & H3 & H4 & _ & H). exists (used ++ used2).
      split; [now rewrite H1, H3, app_assoc|]. split; [rewrite app_length; lia|].
      assert (U : unused s) by (split; auto). unfold sent_once, sent_again in H. rewrite Hd in H. destruct H as [(D & A & K)|(o & s2 & D & S2 & A & B & K)].
      * left. split; auto. split.
        -- destruct (cc_stream c') as [s2|]; [eapply attempt_fresh; eauto|]. destruct r; cbn [is_error]; auto. destruct (K _ eq_refl) as (x & X & _). discriminate.
        -- intros v Kv. destruct (K v Kv) as (x & X & Y). exists x. split; auto. eapply attempt_fresh_all; eauto.
      * right. exists o, s2. split; auto. split; auto. split; [eapply attempt_fresh; eauto|]. auto.
Qed.

(** If the attempt on the current stream succeeds, its response is the result, and no connection is made. *)
Theorem C41_success_is_final : forall dbg zt n c q s s' v, cc_stream c = Some s -> send_request dbg s q = (COk v, s') ->
  conn_send dbg zt n c q = (COk v, n, mk_cconn (Some s') (cc_dropped c)).
Proof. intros dbg zt n c q s s' v Es E. unfold conn_send. rewrite Es. unfold first_attempt at 1. now rewrite Es, E. Qed.

(** If it fails, a new stream (from the first or second try to connect) is used, whose outcome, good or bad, is the result. *)
Theorem C41_failure_is_retried_once : forall dbg n c q s s' e new n' tries, cc_stream c = Some s -> send_request dbg s q = (e, s') -> is_error e ->
  n = tries ++ inr new :: n' -> (tries = [] \/ exists k, tries = [inl k]) ->
  exists c', conn_send dbg false n c q = (fst (send_request dbg new q), n', c') /\ cc_stream c' = Some (snd (send_request dbg new q)) /\
    cc_dropped c' = cc_dropped c ++ [drop_stream s'].
Proof.
  intros dbg n c q s s' e new n' tries Es E He Hn Ht. unfold conn_send. rewrite Es. unfold first_attempt. rewrite Es, E.
  assert (Ec : connect false n (mk_cconn (Some s') (cc_dropped c)) = (None, n', mk_cconn (Some new) (cc_dropped c ++ [drop_stream s']))).
  { unfold connect, create, tcp_connect. subst n. destruct Ht as [->|(k & ->)]; reflexivity. }
  exists (mk_cconn (Some (snd (send_request dbg new q))) (cc_dropped c ++ [drop_stream s'])).
  destruct e; try contradiction; rewrite Ec; cbn [cc_stream cc_dropped]; destruct (send_request dbg new q) as [r2 s2]; auto.
Qed.

(** If both tries to connect fail, the result is that error, and the old stream is kept (see C42, C64). *)
Theorem C41_no_connection : forall dbg zt c q s s' e k1 k2 n', cc_stream c = Some s -> send_request dbg s q = (e, s') -> is_error e ->
  conn_send dbg zt (inl k1 :: inl k2 :: n') c q = (CConnecting k2, n', mk_cconn (Some s') (cc_dropped c)).
Proof. intros dbg zt c q s s' e k1 k2 n' Es E He. unfold conn_send. rewrite Es. unfold first_attempt. rewrite Es, E. destruct e; try contradiction; reflexivity. Qed.

(** ** C42 *)

Lemma reads_flow dbg zt n : forall qs rs c s rest, cc_stream c = Some s -> List.length qs = List.length rs ->
  csteady (cs_sock s) -> cs_held s = [] -> Forall ok_response rs -> flowing (cs_in s) ->
  pending (cs_in s) = List.concat (map write_response rs) ++ rest ->
  exists rs' c' s', conn_sends dbg zt n c qs = (map COk rs', n, c') /\ Forall2 same_response rs' rs /\
    cc_stream c' = Some s' /\ cc_dropped c' = cc_dropped c /\ sent s' = sent s ++ List.concat (map write_request qs) /\ cs_held s' = [] /\ pending (cs_in s') = rest.
Proof.
  induction qs as [|q qs IH]; intros rs c s rest Es Hl St Hh Ok Fl Hp; destruct rs as [|r rs]; try discriminate.
  - exists [], c, s. cbn. rewrite app_nil_r. repeat split; auto.
  - inversion Ok; subst. cbn [map List.concat] in Hp. rewrite <- app_assoc in Hp.
    destruct (send_reads dbg s q r _ St H1 (flowing_live _ Fl) (flowing_in_time _ Fl) (flowing_no_interrupt _ _ Fl) Hp)
      as (r' & s1 & E & S & Sent & Held & St1 & L1 & P1 & w & Tk).
    pose proof (C41_success_is_final dbg zt n c q s s1 r' Es E) as Ec.
    destruct (IH rs (mk_cconn (Some s1) (cc_dropped c)) s1 rest eq_refl) as (rs' & c' & s' & E2 & F2 & Es' & Hd & Sent2 & Hh2 & P2); auto.
    { eapply flowing_takes; eauto. }
    exists (r' :: rs'), c', s'. cbn [conn_sends map]. rewrite Ec, E2. split; auto. split; [constructor; auto|]. split; auto. split; auto.
    split; auto. rewrite Sent2, Sent, Hh. cbn [app List.concat]. now rewrite app_assoc.
Qed.

(** As long as every attempt succeeds, the i-th send on a stream gets the i-th response on that stream: no response is lost, duplicated, cut,
    or given to another send, whatever the fragmentation; all requests are sent on that stream, in order and complete. *)
Theorem C42_in_order : forall dbg zt n qs rs c s rest, cc_stream c = Some s -> List.length qs = List.length rs ->
  csteady (cs_sock s) -> cs_held s = [] -> Forall ok_response rs -> flowing (cs_in s) ->
  pending (cs_in s) = List.concat (map write_response rs) ++ rest ->
  exists rs' c' s', conn_sends dbg zt n c qs = (map COk rs', n, c') /\ Forall2 same_response rs' rs /\
    cc_stream c' = Some s' /\ cc_dropped c' = cc_dropped c /\ sent s' = sent s ++ List.concat (map write_request qs) /\ cs_held s' = [] /\ pending (cs_in s') = rest.
Proof. exact reads_flow. Qed.

(** The same for a connection not used yet. *)
Theorem C42_in_order_first : forall dbg n qs rs s rest, qs <> [] -> List.length qs = List.length rs ->
  csteady (cs_sock s) -> unused s -> Forall ok_response rs -> flowing (cs_in s) ->
  pending (cs_in s) = List.concat (map write_response rs) ++ rest ->
  exists rs' c' s', conn_sends dbg false (inr s :: n) cconn_new qs = (map COk rs', n, c') /\ Forall2 same_response rs' rs /\
    cc_stream c' = Some s' /\ cc_dropped c' = [] /\ sent s' = List.concat (map write_request qs).
Proof.
  intros dbg n qs rs s rest Hq Hl St [U1 U2] Ok Fl Hp. destruct qs as [|q qs]; [congruence|].
  destruct (reads_flow dbg false n (q :: qs) rs (mk_cconn (Some s) []) s rest eq_refl Hl St U2 Ok Fl Hp) as (rs' & c' & s' & E & F2 & Es & Hd & Sent & _).
  exists rs', c', s'. rewrite U1 in Sent. split; auto.
Qed.

(** A socket that takes everything. *)
Definition open_sock : sock := mk_sock [] [] [].

Lemma nothing_yet dbg : exists st, resp_parse dbg resp_new [] = (PIo st WouldBlock, []).
Proof. destruct dbg; eexists; vm_compute; reflexivity. Qed.
Lemma blocked_first dbg i : exists st, resp_parse dbg resp_new (RErr WouldBlock :: i) = (PIo st WouldBlock, i).
Proof. eexists. reflexivity. Qed.
Lemma open_steady : csteady open_sock.
Proof. split; constructor. Qed.
Lemma one_piece_flows b : b <> [] -> flowing [RData b].
Proof. constructor; [exact H|constructor]. Qed.
Lemma write_response_nonempty r : write_response r <> [].
Proof. rewrite write_response_eq. unfold response_first. discriminate. Qed.

(** Otherwise it fails: for any two requests and any response, if the answer to the first comes after the second time-out, the first send reports the
    time-out and the second is given the answer to the first, at once and on the same stream. *)
Theorem C42_own_response_refuted : forall dbg q1 q2 r, ok_response r ->
  let late := mk_cstream [RErr WouldBlock; RData (write_response r)] [] open_sock in
  exists r' c' s', conn_sends dbg false [inr (mk_cstream [] [] open_sock); inr late] cconn_new [q1; q2] =
    ([CReading WouldBlock; COk r'], [], c') /\ same_response r' r /\ cc_stream c' = Some s' /\ sent s' = write_request q1 ++ write_request q2.
Proof.
  intros dbg q1 q2 r Ok late. destruct (nothing_yet dbg) as (st1 & P1). destruct (blocked_first dbg [RData (write_response r)]) as (st2 & P2).
  destruct (send_times_out dbg (mk_cstream [] [] open_sock) q1 [] [] open_steady eq_refl) as (s1 & E1 & _); [eauto|].
  destruct (send_times_out dbg late q1 _ [RData (write_response r)] open_steady eq_refl) as (s2 & E2 & S2 & H2 & St2 & I2); [eauto|].
  assert (Fl : flowing (cs_in s2)) by (rewrite I2; apply one_piece_flows, write_response_nonempty).
  destruct (send_reads dbg s2 q2 r [] St2 Ok (flowing_live _ Fl) (flowing_in_time _ Fl) (flowing_no_interrupt _ _ Fl)) as (r' & s3 & E3 & Sm & S3 & _).
  { rewrite I2. cbn [pending]. reflexivity. }
  exists r', (mk_cconn (Some s3) [drop_stream s1]), s3. cbn [conn_sends].
  assert (C1 : conn_send dbg false [inr (mk_cstream [] [] open_sock); inr late] cconn_new q1 = (CReading WouldBlock, [], mk_cconn (Some s2) [drop_stream s1])).
  { unfold conn_send. cbn [cconn_new cc_stream connect create tcp_connect cc_dropped app first_attempt]. rewrite E1.
    cbn [connect create tcp_connect cc_stream cc_dropped app first_attempt]. rewrite E2. reflexivity. }
  rewrite C1. rewrite (C41_success_is_final dbg false [] (mk_cconn (Some s2) [drop_stream s1]) q2 s2 s3 r' eq_refl E3).
  split; auto. split; auto. split; auto. rewrite S3, H2, S2. reflexivity.
Qed.

(** Also if the time-out was the first and the server could not be reached for the second attempt. *)
Theorem C42_own_response_refuted_unreachable : forall dbg q1 q2 r, ok_response r ->
  let late := mk_cstream [RErr WouldBlock; RData (write_response r)] [] open_sock in
  exists r' c' s', conn_sends dbg false [inr late] cconn_new [q1; q2] =
    ([CConnecting REFUSED; COk r'], [], c') /\ same_response r' r /\ cc_stream c' = Some s' /\ sent s' = write_request q1 ++ write_request q2.
Proof.
  intros dbg q1 q2 r Ok late. destruct (blocked_first dbg [RData (write_response r)]) as (st2 & P2).
  destruct (send_times_out dbg late q1 _ [RData (write_response r)] open_steady eq_refl) as (s2 & E2 & S2 & H2 & St2 & I2); [eauto|].
  assert (Fl : flowing (cs_in s2)) by (rewrite I2; apply one_piece_flows, write_response_nonempty).
  destruct (send_reads dbg s2 q2 r [] St2 Ok (flowing_live _ Fl) (flowing_in_time _ Fl) (flowing_no_interrupt _ _ Fl)) as (r' & s3 & E3 & Sm & S3 & _).
  { rewrite I2. cbn [pending]. reflexivity. }
  exists r', (mk_cconn (Some s3) []), s3. cbn [conn_sends].
  assert (C1 : conn_send dbg false [inr late] cconn_new q1 = (CConnecting REFUSED, [], mk_cconn (Some s2) [])).
  { unfold conn_send. cbn [cconn_new cc_stream connect create tcp_connect cc_dropped app first_attempt]. rewrite E2. reflexivity. }
  rewrite C1. rewrite (C41_success_is_final dbg false [] (mk_cconn (Some s2) []) q2 s2 s3 r' eq_refl E3).
  split; auto. split; auto. split; auto. rewrite S3, H2, S2. reflexivity.
Qed.

(** ** C64 *)

(** A send that failed can damage the next one: if a large body was cut off by an error and reconnecting failed, the next
    request follows the incomplete one on the same stream, so that the server takes it for the rest of the body: it receives one request only,
    with the second inside its body. *)
Theorem C64_failed_send_is_forgotten_refuted : forall dbg q1 q2 k m, good_request q1 -> request_fits q1 -> k <> Interrupted ->
  0 < m -> len (rq_body q1) = m + len (write_request q2) -> 8192 <= len (write_request q2) ->
  let s := mk_cstream [] [] (mk_sock [WTake 8192; WTake m; WFail k] [] []) in
  exists r2 c' s' got, conn_sends dbg false [inr s] cconn_new [q1; q2] = ([CConnecting REFUSED; r2], [], c') /\
    cc_stream c' = Some s' /\ batch_request (sent s') = Complete got [] /\
    same_request got (mk_request (rq_method q1) (rq_uri q1) (rq_headers q1) (firstn (N.to_nat m) (rq_body q1) ++ write_request q2)).
Proof.
  intros dbg q1 q2 k m G F Hk Hm Hl H2 s. set (h := List.concat (head_pieces q1)).
  assert (Hh : 0 < len h < BUF_WRITER_CAP).
  { assert (Hw : write_request q1 = h ++ rq_body q1) by apply write_request_head. rewrite write_request_eq in Hw.
    apply (f_equal (fun x => len x)) in Hw. rewrite !len_app in Hw. destruct F as (F1 & _ & F2 & _). rewrite <- len_request_first in F1.
    change (len crlf) with 2 in Hw. unfold BUF_WRITER_CAP. lia. }
  assert (P1 : put_request s q1 = (WErr k, mk_cstream [] [] (mk_sock [] [] (h ++ firstn (N.to_nat m) (rq_body q1))))).
  { apply (put_large_body q1 m k [] [] []); auto. unfold BUF_WRITER_CAP. lia. }
  set (s1 := mk_cstream [] [] (mk_sock [] [] (h ++ firstn (N.to_nat m) (rq_body q1)))) in *.
  assert (C1 : conn_send dbg false [inr s] cconn_new q1 = (CConnecting REFUSED, [], mk_cconn (Some s1) [])).
  { unfold conn_send. cbn [cconn_new cc_stream connect create tcp_connect cc_dropped app first_attempt]. unfold send_request. rewrite P1. reflexivity. }
  destruct (nothing_yet dbg) as (st1 & Pn). assert (St1 : csteady (cs_sock s1)) by (split; constructor).
  destruct (send_times_out dbg s1 q2 [] [] St1 eq_refl) as (s2 & E2 & S2 & _); [eauto|].
  assert (C2 : conn_send dbg false [] (mk_cconn (Some s1) []) q2 = (CConnecting REFUSED, [], mk_cconn (Some s2) [])).
  { unfold conn_send. cbn [cc_stream first_attempt]. rewrite E2. reflexivity. }
  set (q := mk_request (rq_method q1) (rq_uri q1) (rq_headers q1) (firstn (N.to_nat m) (rq_body q1) ++ write_request q2)).
  assert (Lb : len (rq_body q) = len (rq_body q1)).
  { unfold q. cbn [rq_body]. rewrite len_app, Hl. f_equal. unfold len in *. rewrite firstn_length. lia. }
  assert (Gq : good_request q).
  { destruct G as (G1 & G2 & G3 & G4). split; [exact G1|]. split; [exact G2|]. split; [exact G3|].
    unfold framed in *. rewrite Lb. change (rq_headers q) with (rq_headers q1). destruct (get_first_header_value _ _); auto.
    destruct G4 as [G4 G5]. specialize (G4 eq_refl). rewrite G4 in Hl. unfold len in Hl. cbn in Hl. lia. }
  assert (Fq : request_fits q) by (unfold request_fits, fits_limits in *; rewrite Lb; exact F).
  destruct (request_reads_back q [] Gq Fq) as (got & Hgot & Sm). rewrite app_nil_r in Hgot.
  exists (CConnecting REFUSED), (mk_cconn (Some s2) []), s2, got. cbn [conn_sends]. rewrite C1, C2. split; auto. split; auto. split; auto.
  rewrite <- Hgot. f_equal. rewrite S2. rewrite (write_request_head q). unfold s1, sent. cbn [cs_held cs_sock sk_sent]. unfold q. cbn [rq_body app]. rewrite <- app_assoc. reflexivity.
Qed.

(** ** C45 *)

Definition status_404 : response := mk_response STATUS_NOT_FOUND [] [].

Lemma not_found_at_end : batch_response not_found = AtEof status_404 0.
Proof. vm_compute. reflexivity. Qed.
Lemma not_found_limits : always_in_limits batch_response not_found.
Proof. apply Checks.always_in_limits_b_ok. vm_compute. reflexivity. Qed.

(** The server's answer to a request without route, on a connection that stays open, in any fragmentation, is not a response for the client: it
    waits until the time-out, on both streams, and reports an error. *)
Theorem C45_not_found_read_refuted : forall dbg q c s i2 n, cc_stream c = Some s -> csteady (cs_sock s) ->
  flowing (cs_in s) -> pending (cs_in s) = not_found -> flowing i2 -> pending i2 = not_found ->
  exists c', conn_send dbg false (inr (mk_cstream i2 [] open_sock) :: n) c q = (CReading WouldBlock, n, c').
Proof.
  intros dbg q c s i2 n Es St F1 P1 F2 P2.
  assert (X : forall i, flowing i -> pending i = not_found -> exists st i', resp_parse dbg resp_new i = (PIo st WouldBlock, i')).
  { intros i F P. assert (L : live i) by now apply flowing_live.
    assert (B : blocks_in_clean_lines batch_response i) by (intros a b ->; apply Forall_app in F as [_ F]; inversion F; subst; contradiction).
    pose proof (drive_response_spec dbg false i (live_eof_false _ L) B (flowing_no_interrupt _ _ F)) as M. rewrite P in M. specialize (M not_found_limits).
    rewrite not_found_at_end in M. destruct M as (st & M). unfold drive_response, drive in M. cbn [drive_f] in M.
    destruct (resp_parse dbg resp_new i) as [r s1] eqn:Ep. destruct r as [v|st' k|e|]; try discriminate. destruct k; try discriminate. eauto. }
  destruct (X _ F1 P1) as (st1 & j1 & E1). destruct (X _ F2 P2) as (st2 & j2 & E2).
  destruct (send_times_out dbg s q _ j1 St eq_refl) as (s' & A1 & _); [eauto|].
  destruct (send_times_out dbg (mk_cstream i2 [] open_sock) q _ j2 open_steady eq_refl) as (s2 & A2 & _); [eauto|].
  destruct (C41_failure_is_retried_once dbg (inr (mk_cstream i2 [] open_sock) :: n) c q s s' _ (mk_cstream i2 [] open_sock) n [] Es A1 I eq_refl (or_introl eq_refl)) as (c' & E & _).
  rewrite A2 in E. cbn [fst] in E. eauto.
Qed.

(** The same for every response without content-length and chunked coding, whatever its status and body (also one that has none, such as 204 or
    304), on every stream that stays open: it is never returned. *)
Theorem C45_unframed_read_refuted : forall dbg q r r2 c s i2 n, good_response true r -> response_fits r -> good_response true r2 -> response_fits r2 ->
  cc_stream c = Some s -> csteady (cs_sock s) ->
  flowing (cs_in s) -> pending (cs_in s) = write_response r -> flowing i2 -> pending i2 = write_response r2 ->
  exists c', conn_send dbg false (inr (mk_cstream i2 [] open_sock) :: n) c q = (CReading WouldBlock, n, c').
Proof.
  intros dbg q r r2 c s i2 n G1 L1 G2 L2 Es St F1 P1 F2 P2.
  assert (X : forall v i, good_response true v -> response_fits v -> flowing i -> pending i = write_response v ->
    exists st i', resp_parse dbg resp_new i = (PIo st WouldBlock, i')).
  { intros v i G Fi F P. assert (L : live i) by now apply flowing_live.
    assert (B : blocks_in_clean_lines batch_response i) by (intros a b ->; apply Forall_app in F as [_ F]; inversion F; subst; contradiction).
    pose proof (drive_response_spec dbg false i (live_eof_false _ L) B (flowing_no_interrupt _ _ F)) as M. rewrite P in M.
    specialize (M (response_eof_always_in_limits _ _ _ _ (good_response_small_eof v G Fi))).
    destruct (response_reads_back_eof v G) as (v' & Hv & _). rewrite Hv in M. destruct M as (st & M). unfold drive_response, drive in M. cbn [drive_f] in M.
    destruct (resp_parse dbg resp_new i) as [w s1] eqn:Ep. destruct w as [u|st' k|e|]; try discriminate. destruct k; try discriminate. eauto. }
  destruct (X _ _ G1 L1 F1 P1) as (st1 & j1 & E1). destruct (X _ _ G2 L2 F2 P2) as (st2 & j2 & E2).
  destruct (send_times_out dbg s q _ j1 St eq_refl) as (s' & A1 & _); [eauto|].
  destruct (send_times_out dbg (mk_cstream i2 [] open_sock) q _ j2 open_steady eq_refl) as (s2 & A2 & _); [eauto|].
  destruct (C41_failure_is_retried_once dbg (inr (mk_cstream i2 [] open_sock) :: n) c q s s' _ (mk_cstream i2 [] open_sock) n [] Es A1 I eq_refl (or_introl eq_refl)) as (c' & E & _).
  rewrite A2 in E. cbn [fst] in E. eauto.
Qed.

(** When the server closes the connection (as it does after a request that asks for it) the client does get the 404. *)
Theorem C45_not_found_read_at_end : forall dbg q c s n, cc_stream c = Some s -> csteady (cs_sock s) ->
  (exists i, flowing i /\ cs_in s = i ++ [RData []]) -> pending (cs_in s) = not_found ->
  exists c', conn_send dbg false n c q = (COk status_404, n, c').
Proof.
  intros dbg q c s n Es St (i & F & Ei) P.
  assert (L : live_eof true (cs_in s)) by (exists i; split; auto; now apply flowing_live).
  assert (Nb : forall k a b, cs_in s = a ++ RErr k :: b -> False).
  { intros k a b E. rewrite Ei in E. assert (In (RErr k) (i ++ [RData []])) as K by (rewrite E; apply in_elt).
    apply in_app_or in K as [K|[K|[]]]; [|discriminate]. unfold flowing in F. rewrite Forall_forall in F. exact (F _ K). }
  assert (M : matches true (AtEof status_404 0) (drive_response dbg (cs_in s))).
  { rewrite <- not_found_at_end, <- P. apply drive_response_spec; auto.
    - intros a b E. exfalso. eauto.
    - intros a b E. exfalso. eauto.
    - rewrite P. exact not_found_limits. }
  cbn [matches] in M. assert (Ep : resp_parse dbg resp_new (cs_in s) = (PDone status_404, [])).
  { unfold drive_response, drive in M. cbn [drive_f] in M. destruct (resp_parse dbg resp_new (cs_in s)) as [r s1] eqn:Ep.
    destruct r as [v|st' k|e|]; try exact M. destruct k; try discriminate M. exfalso.
    assert (Hi : msg_inv 0 resp_new) by apply line_inv_nil. destruct (resp_parser_ok dbg 0 _ _ _ _ Hi Ep) as (w & Hu & Hs & _).
    destruct Hs as [[[Hs|(_ & Hs & ->)] _]|[(Hk & _)|(Hk & _)]]; try discriminate.
    destruct (takes_prefix _ _ _ _ Hs) as (s2 & E2 & _). eapply Nb; eauto. }
  unfold conn_send. rewrite Es. unfold first_attempt. rewrite Es. unfold send_request. destruct (put_request s q) as [rw s1] eqn:Eq.
  apply put_request_spec in Eq as (Hin & _ & _ & b1 & b2 & _ & _ & R). destruct rw as [[]|k]; [|contradiction]. rewrite Hin, Ep. eauto.
Qed.

(** ** C63 *)

(** With a read time-out of zero every send that reaches the server panics, before anything is sent. *)
Theorem C63_zero_timeout_panics : forall dbg q c s n tries, cc_stream c = None -> (tries = [] \/ exists k, tries = [inl k]) ->
  conn_send dbg true (tries ++ inr s :: n) c q = (CPanic, n, c).
Proof. intros dbg q c s n tries Ec [->|(k & ->)]; unfold conn_send; rewrite Ec; reflexivity. Qed.

(** ** The hypotheses are met *)

Lemma ok_body b : 2 * len b <= 3145728 -> ok_response (response_of_body b).
Proof. intros H. destruct (conversion_good (response_of_body b)) as (H1 & H2 & H3 & _); [right; eauto|]. split; auto. Qed.

(** Two exchanges on a stream, the responses cut in odd places. *)
Example C42_case : exists s rs, List.length rs = 2%nat /\ csteady (cs_sock s) /\ unused s /\ Forall ok_response rs /\ flowing (cs_in s) /\
  pending (cs_in s) = List.concat (map write_response rs) ++ lit "more" /\ sk_events (cs_sock s) <> [].
Proof.
  set (rs := [response_of_body (lit "one"); response_of_body (lit "two")]). set (w := List.concat (map write_response rs)).
  exists (mk_cstream [RData (firstn 7 w); RData (skipn 7 w); RData (lit "more")] [] (mk_sock [WTake 1; WFail Interrupted; WTake 3] [None] [])), rs.
  split; [reflexivity|]. split; [repeat constructor|]. split; [split; reflexivity|].
  split; [constructor; [|constructor; [|constructor]]; apply ok_body; vm_compute; congruence|]. split; [constructor; [|constructor; [|constructor; [|constructor]]]; discriminate|].
  split; [|discriminate]. cbn [cs_in pending]. rewrite app_nil_r, app_assoc, firstn_skipn. reflexivity.
Qed.

(** A first attempt that fails, with part of the request written, and a second that succeeds. *)
Example C41_case : exists n c r c', fresh_net n /\ cc_stream c <> None /\ conn_send true false n c example_request = (COk r, [], c') /\
  List.length (cc_dropped c') = 1%nat.
Proof.
  set (broken := mk_cstream [] [] (mk_sock [WTake 10; WFail ConnectionAborted] [] [])).
  set (new := mk_cstream [RData (write_response (response_of_body (lit "one")))] [] open_sock).
  exists [inl REFUSED; inr new], (mk_cconn (Some broken) []).
  eexists. eexists. split; [repeat constructor|]. split; [discriminate|]. split; [vm_compute; reflexivity|]. reflexivity.
Qed.

Example C45_case : flowing [RData (firstn 9 not_found); RData (skipn 9 not_found)] /\
  pending [RData (firstn 9 not_found); RData (skipn 9 not_found)] = not_found.
Proof. split; [repeat constructor; discriminate|]. reflexivity. Qed.

(** A second request of more than 8192 bytes. *)
Example C64_case : exists q1 q2 m, good_request q1 /\ request_fits q1 /\ 0 < m /\ len (rq_body q1) = m + len (write_request q2) /\ 8192 <= len (write_request q2).
Proof.
  assert (R : forall c x, exists b : bytes, len b = x /\ (x = 0 \/ In c b)).
  { intros c x. exists (repeat c (N.to_nat x)). unfold len. rewrite repeat_length, Nnat.N2Nat.id. split; auto.
    destruct (N.eq_dec x 0); auto. right. destruct (N.to_nat x) eqn:E; [lia|]. now left. }
  destruct (R "x"%char 8200) as (b2 & H2 & _). destruct (R "y"%char 8224) as (b1 & Hn & _). clear R.
  set (q2 := mk_request POST (lit "/") [] b2).
  assert (Hl : len (write_request q2) = 8219).
  { rewrite write_request_head, len_app. cbn [q2 rq_body]. rewrite H2. reflexivity. }
  exists (mk_request POST (lit "/a") [(CONTENT_LENGTH, [dec 8224])] b1), q2, 5. rewrite Hl. unfold request_fits, fits_limits, good_request, framed.
  cbn [rq_method rq_uri rq_headers rq_body]. rewrite Hn. split.
  - split; [apply text_check; reflexivity|]. split; [vm_compute; intuition discriminate|]. split.
    + split; [repeat constructor; cbn; intuition discriminate|].
      repeat constructor; try discriminate; try (apply text_check; vm_compute; reflexivity); apply no_colon_check; reflexivity.
    + split; [reflexivity|]. exact (dec_denotes 8224).
  - split; [|lia]. split; [vm_compute; congruence|]. split; [repeat constructor; vm_compute; congruence|]. split; vm_compute; congruence.
Qed.

Print Assumptions C41_at_most_twice.
Print Assumptions C41_success_is_final.
Print Assumptions C41_failure_is_retried_once.
Print Assumptions C41_no_connection.
Print Assumptions C42_in_order.
Print Assumptions C42_in_order_first.
Print Assumptions C42_own_response_refuted.
Print Assumptions C42_own_response_refuted_unreachable.
Print Assumptions C45_not_found_read_refuted.
Print Assumptions C45_unframed_read_refuted.
Print Assumptions C45_not_found_read_at_end.
Print Assumptions C63_zero_timeout_panics.
Print Assumptions C64_failed_send_is_forgotten_refuted.
