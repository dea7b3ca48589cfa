(** C71: the buffers between the sockets and the parsers and writers cannot be seen. *)
From Coq Require Import List Ascii String NArith ZArith Bool Lia.
From Verif.Model Require Import Bytes Io Common Parse Encode Writer Server Client Generic Buffered.
From Verif.Spec Require Import Batch Stream Drive Numerals Grammar Wire Output Unicode Session Exchange Buffering.
From Verif.Proofs Require Import BufferedFacts BufferedConnFacts RecutFacts.
From Verif.Properties Require Import Streaming RoundTrip Server Client.
Import ListNotations.
Local Open Scope N_scope.

(** The sizes read_to_end reads by are not zero. *)
Definition positive (size : bytes -> N) : Prop := forall acc, 0 < size acc.

Lemma input_still W s (d : buffered W) : input_of s d -> content s = still d.
Proof.
  unfold input_of, still, recut. destruct (rd_buf (bf_r d)) as [|b bs]; [auto|].
  intros (s0 & -> & H). change (content (RData (b :: bs) :: s0)) with (map Byte (b :: bs) ++ content s0). now rewrite H.
Qed.
Lemma still_unread W (d : buffered W) s : content s = still d -> pending s = unread d.
Proof.
  unfold still, unread. intros E. rewrite pending_content, E, flat_map_app, bytes_map, <- pending_content. reflexivity.
Qed.

(** A server's connection with its 4096 byte read buffer in front of a socket that delivers [rx]: it routes the same
    requests, sends the same bytes, is open, gone or poisoned alike, and has the same left to read, as the connection of
    Model/Server.v on an input that is [rx] cut differently. *)
Theorem C71_server : forall size dbg rt vs rx log b, positive size ->
  b_visits size dbg rt vs [] (BOpen (bconn_new (mk_socket rx (mk_sock [] [] [])))) = (log, b) ->
  exists s st, recut s rx /\ visits dbg rt vs [] (Open (conn_new s)) = (log, st) /\ same_slot st b.
Proof.
  intros size dbg rt vs rx log b P E. destruct (b_visits_model size P dbg rt vs rx log b E) as (s & s' & R & I & V).
  exists s, (as_slot s' b). split; auto. split; auto. destruct b as [d|x|x]; cbn; auto.
  repeat split; auto. now apply input_still.
Qed.

(** A client's connection, with its 8192 byte buffers. *)
Theorem C71_client : forall size dbg z n qs rs n' b, positive size ->
  b_conn_sends size dbg z n bcconn_new qs = (rs, n', b) ->
  exists N N' c, Forall2 same_connect N n /\ Forall2 same_connect N' n' /\
    conn_sends dbg z N cconn_new qs = (rs, N', c) /\ same_client c b.
Proof.
  intros size dbg z n qs rs n' b P E. destruct (b_conn_sends_model size P dbg z qs n rs n' b E) as (N & N' & c & H1 & H2 & H3 & H4).
  exists N, N', c. split; [exact H1|]. split; [exact H2|]. split; auto.
  assert (L : forall c d, like c d -> same_stream c d).
  { intros c0 d (L1 & L2 & L3). repeat split; auto. now apply input_still. }
  destruct H3 as [A B]. split.
  - destruct (cc_stream c), (bcc_stream b); auto.
  - clear - B L. induction B; auto.
Qed.

(** So what is proved of connections without these buffers holds with them.  C26: the requests in what the socket has
    delivered are answered as the reference says. *)
Theorem C71_responses : forall size dbg rt eof rx vs log b, positive size ->
  no_panic rt -> orderly eof rx -> Forall visit_fine vs ->
  Forall visit_steady vs \/ short_replies rt ->
  b_visits size dbg rt vs [] (BOpen (bconn_new (mk_socket rx (mk_sock [] [] [])))) = (log, b) ->
  (exists d got, b = BOpen d /\ pending rx = got ++ unread (bc_stream d) /\
     served rt [] got false log (b_output d) true /\
     ((blocks rx < List.length vs)%nat -> unread (bc_stream d) = [] /\ eof = false)) \/
  (exists sent rest, b = BGone sent /\ served rt [] (pending rx) eof log (sent ++ rest) false).
Proof.
  intros size dbg rt eof rx vs log b P Hrt O F S E. destruct (C71_server _ _ _ _ _ _ _ P E) as (s & st & R & V & Sm).
  rewrite <- (recut_pending _ _ R), <- (recut_blocks _ _ R). apply recut_sym in R. pose proof (recut_orderly _ _ _ R O) as Os.
  destruct (C26_responses dbg rt eof s vs log st Hrt Os F S V) as [(c & got & -> & Hp & Hs & Hb)|(sent & rest & -> & Hs)].
  - left. destruct b as [d|x|x]; cbn [same_slot] in Sm; try contradiction. destruct Sm as (S1 & S2 & S3 & S4).
    exists d, got. split; auto. apply still_unread in S4. rewrite <- S4. split; auto. split; auto.
    unfold b_output, b_sent. unfold out_side in S3. rewrite <- S3, <- S2. exact Hs.
  - right. destruct b as [d|x|x]; cbn [same_slot] in Sm; try contradiction. subst x. eauto.
Qed.

Theorem C71_one_response_each : forall size dbg rt rs rx vs log b, positive size ->
  no_panic rt -> Forall plain_request rs -> (forall r, In r rs -> ~ asks_close r) ->
  live rx -> pending rx = List.concat (map write_request rs) -> no_interrupt_in_data last_outcome rx ->
  Forall visit_fine vs -> Forall visit_steady vs \/ short_replies rt -> (blocks rx < List.length vs)%nat ->
  b_visits size dbg rt vs [] (BOpen (bconn_new (mk_socket rx (mk_sock [] [] [])))) = (log, b) ->
  Forall2 same_request log rs /\ exists d, b = BOpen d /\ b_output d = replies rt [] log.
Proof.
  intros size dbg rt rs rx vs log b P Hrt F A L Hp I V S B E. destruct (C71_server _ _ _ _ _ _ _ P E) as (s & st & R & Vs & Sm).
  rewrite <- (recut_pending _ _ R) in Hp. rewrite <- (recut_blocks _ _ R) in B. apply recut_sym in R.
  destruct (C26_one_response_each dbg rt rs s vs log st Hrt F A (recut_live _ _ R L) Hp (recut_interrupt _ _ _ R I) V S B Vs) as (H1 & c & -> & H2).
  split; auto. destruct b as [d|x|x]; cbn [same_slot] in Sm; try contradiction. destruct Sm as (S1 & S2 & S3 & S4).
  exists d. split; auto. unfold b_output, b_sent. unfold out_side in S3. rewrite <- S3, <- S2. exact H2.
Qed.

(** C26 and C27 on any input. *)
Theorem C71_any_input : forall size dbg rt rx vs log b, positive size ->
  Forall visit_fine vs -> Forall visit_steady vs \/ short_replies rt ->
  b_visits size dbg rt vs [] (BOpen (bconn_new (mk_socket rx (mk_sock [] [] [])))) = (log, b) ->
  exists tail, (tail = [] \/ (tail = bad_request /\ exists x, b = BGone x)) /\
    match b with
    | BOpen d => b_output d = replies rt [] log ++ tail
    | BGone sent | BPoisoned sent => exists rest, replies rt [] log ++ tail = sent ++ rest
    end.
Proof.
  intros size dbg rt rx vs log b P F S E. destruct (C71_server _ _ _ _ _ _ _ P E) as (s & st & R & V & Sm).
  destruct (C26_any_input dbg rt s vs log st F S V) as (tail & T & H). exists tail.
  destruct st as [c|x|x], b as [d|y|y]; cbn [same_slot] in Sm; try contradiction; subst.
  - split. { destruct T as [?|[? [? ?]]]; [auto|discriminate]. } destruct Sm as (S1 & S2 & S3 & S4).
    unfold b_output, b_sent. unfold out_side in S3. rewrite <- S3, <- S2. exact H.
  - split; auto. destruct T as [?|[? ?]]; eauto.
  - split; auto. destruct T as [?|[? [? ?]]]; [auto|discriminate].
Qed.

Theorem C71_close_is_last : forall size dbg rt rx vs log b a v l, positive size ->
  b_visits size dbg rt vs [] (BOpen (bconn_new (mk_socket rx (mk_sock [] [] [])))) = (log, b) ->
  log = a ++ v :: l -> asks_close v -> l = [] /\ forall d, b <> BOpen d.
Proof.
  intros size dbg rt rx vs log b a v l P E El Hv. destruct (C71_server _ _ _ _ _ _ _ P E) as (s & st & R & V & Sm).
  destruct (C27_close_is_last dbg rt s vs log st a v l V El Hv) as (H1 & H2). split; auto.
  intros d ->. destruct st as [c| |]; cbn [same_slot] in Sm; try contradiction. now apply (H2 c).
Qed.

Lemma b_sends_suffix size dbg z qs : forall n c rs n' c', b_conn_sends size dbg z n c qs = (rs, n', c') -> exists used, n = used ++ n'.
Proof.
  assert (T : forall n r n', b_tcp_connect n = (r, n') -> exists used, n = used ++ n').
  { intros [|x n] r n' E; inversion E; subst; [exists []|exists [r]]; auto. }
  assert (Cr : forall n r n', b_create n = (r, n') -> exists used, n = used ++ n').
  { intros n r n' E. unfold b_create in E. destruct (b_tcp_connect n) as [[k|s] n1] eqn:E1; destruct (T _ _ _ E1) as (u & ->).
    - destruct (T _ _ _ E) as (u' & ->). exists (u ++ u'). now rewrite app_assoc.
    - inversion E; subst. eauto. }
  assert (Co : forall n c r n' c', b_connect z n c = (r, n', c') -> exists used, n = used ++ n').
  { intros n c r n' c' E. unfold b_connect in E. destruct (b_create n) as [[k|s] n1] eqn:E1; destruct (Cr _ _ _ E1) as (u & ->);
      [|destruct z]; inversion E; subst; eauto. }
  assert (Se : forall n c q r n' c', b_conn_send size dbg z n c q = (r, n', c') -> exists used, n = used ++ n').
  { intros n c q r n' c' E. unfold b_conn_send in E.
    destruct (match bcc_stream c with None => b_connect z n c | Some _ => (None, n, c) end) as [[e n1] c1] eqn:E1.
    assert (exists u, n = u ++ n1) as (u & ->) by (destruct (bcc_stream c); [inversion E1; subst; exists []; auto|eauto]).
    destruct e; [inversion E; subst; eauto|]. destruct (b_first_attempt size dbg c1 q) as [r2 c2].
    assert (R : match b_connect z n1 c2 with
                | (Some e, n2, c3) => (e, n2, c3)
                | (None, n2, c3) => let (r, c4) := b_first_attempt size dbg c3 q in (r, n2, c4)
                end = (r, n', c') -> exists used, u ++ n1 = used ++ n').
    { destruct (b_connect z n1 c2) as [[e2 n2] c3] eqn:E2. destruct (Co _ _ _ _ _ E2) as (u2 & ->).
      destruct e2; [|destruct (b_first_attempt size dbg c3 q)]; intros X; inversion X; subst; exists (u ++ u2); now rewrite app_assoc. }
    destruct r2; auto; inversion E; subst; eauto. }
  induction qs as [|q qs IH]; intros n c rs n' c' E; cbn [b_conn_sends] in E.
  - inversion E; subst. exists []. auto.
  - destruct (b_conn_send size dbg z n c q) as [[r n1] c1] eqn:E1. destruct (b_conn_sends size dbg z n1 c1 qs) as [[rs2 n2] c2] eqn:E2.
    inversion E; subst. destruct (Se _ _ _ _ _ _ E1) as (u & ->). destruct (IH _ _ _ _ _ E2) as (u' & ->). exists (u ++ u'). now rewrite app_assoc.
Qed.

(** C42: on a client's connection each request gets the response at its place. *)
Theorem C71_client_in_order : forall size dbg rx tx n qs rs rest, positive size ->
  qs <> [] -> List.length qs = List.length rs -> csteady tx -> sk_sent tx = [] -> Forall ok_response rs -> flowing rx ->
  pending rx = List.concat (map write_response rs) ++ rest ->
  exists rs' b d, b_conn_sends size dbg false (inr (mk_socket rx tx) :: n) bcconn_new qs = (map COk rs', n, b) /\
    Forall2 same_response rs' rs /\ bcc_stream b = Some d /\ bcc_dropped b = [] /\
    sk_sent (out_side d) = List.concat (map write_request qs).
Proof.
  intros size dbg rx tx n qs rs rest P Hq Hl St Hs Ok Fl Hp.
  destruct (b_conn_sends size dbg false (inr (mk_socket rx tx) :: n) bcconn_new qs) as [[rs1 n1] b] eqn:E.
  destruct (C71_client _ _ _ _ _ _ _ _ P E) as (N & N' & c & H1 & H2 & H3 & H4 & H5).
  inversion H1 as [|x y N0 n0 Hx HN]; subst. destruct x as [k|s]; cbn [same_connect so_tx so_rx] in Hx; [contradiction|].
  destruct Hx as (X1 & X2 & X3).
  pose proof (recut_pending _ _ X3) as Xp. rewrite Hp in Xp. apply recut_sym in X3.
  assert (U : unused s) by (split; [unfold sent; now rewrite X2|auto]). rewrite <- X2 in St.
  destruct (C42_in_order_first dbg N0 qs rs s rest Hq Hl St U Ok (recut_flowing _ _ X3 Fl) Xp) as (rs' & c' & s' & E' & F2 & Es & Hd & Sent).
  rewrite H3 in E'. inversion E'; subst. rewrite Es in H4. destruct (bcc_stream b) as [d|] eqn:Ed; [|contradiction].
  exists rs', b, d. destruct H4 as (Q1 & Q2 & Q3).
  assert (n1 = n) as ->.
  { destruct (b_sends_suffix _ _ _ _ _ _ _ _ _ E) as (used & Hu).
    assert (Ln : List.length n1 = List.length n).
    { clear - HN H2. revert H2 HN. generalize (same_connect). intros R H2 HN.
      assert (Fl : forall (A B : Type) (R : A -> B -> Prop) l l', Forall2 R l l' -> List.length l = List.length l') by (induction 1; cbn; congruence).
      apply Fl in H2. apply Fl in HN. congruence. }
    destruct used as [|a used]; [cbn in Hu; subst n1; cbn in Ln; lia|].
    inversion Hu as [[Ha Hn]]. subst n. rewrite app_length in Ln. destruct used; [reflexivity|cbn in Ln; lia]. }
  split; auto. split; auto. split; auto. split.
  - rewrite Hd in H5. inversion H5. auto.
  - rewrite <- Q2. exact Sent.
Qed.

(** The parsers on such a stream, whatever the capacity of the buffer, what is in it, and the state of the parser: the
    parsers of Model/Parse.v on what the stream has still to give, cut somehow; what was written is not touched. *)
Theorem C71_parse_request : forall W size dbg st (d : buffered W) a d', positive size -> 0 < rd_cap (bf_r d) ->
  b_req_parse size dbg st d = (a, d') ->
  bf_w d' = bf_w d /\ out_side d' = out_side d /\
  exists s s', content s = still d /\ content s' = still d' /\ req_parse dbg st s = (a, s').
Proof.
  intros W size dbg st d a d' P Hc E. destruct (input_exists d') as (s' & I').
  destruct (b_req_ok size P _ _ _ _ _ _ Hc E I') as (O & s & I & H). unfold outside in O. inversion O.
  split; auto. split; auto. exists s, s'. split; [now apply input_still|]. split; [now apply input_still|auto].
Qed.
Theorem C71_parse_response : forall W size dbg st (d : buffered W) a d', positive size -> 0 < rd_cap (bf_r d) ->
  b_resp_parse size dbg st d = (a, d') ->
  bf_w d' = bf_w d /\ out_side d' = out_side d /\
  exists s s', content s = still d /\ content s' = still d' /\ resp_parse dbg st s = (a, s').
Proof.
  intros W size dbg st d a d' P Hc E. destruct (input_exists d') as (s' & I').
  destruct (b_resp_ok size P _ _ _ _ _ _ Hc E I') as (O & s & I & H). unfold outside in O. inversion O.
  split; auto. split; auto. exists s, s'. split; [now apply input_still|]. split; [now apply input_still|auto].
Qed.

(** ** Cases *)

(** Two requests in two pieces, with a block and an interrupt between; the hypotheses on them are those of C26_case. *)
Example C71_case_server : exists r1 r2 d,
  positive (fun _ => 32) /\
  b_visits (fun _ => 32) true example_router [mk_visit [] []; mk_visit [WTake 3; WFail WouldBlock; WTake 30; WTake 100] []] []
    (BOpen (bconn_new (mk_socket two_cut (mk_sock [] [] [])))) = ([r1; r2], BOpen d) /\
  b_output d = write_response (response_of_body (lit "hello")) ++ not_found /\ unread (bc_stream d) = [].
Proof.
  eexists. eexists. eexists. split; [intros ?; reflexivity|]. split; [vm_compute; reflexivity|]. split; vm_compute; reflexivity.
Qed.

(** A buffer of seven bytes: the first request is read by it, in many pieces, and the second is left to be read. *)
Example C71_case_parser : exists r d d',
  d = with_buf_reader_and_writer 7 tt (mk_socket [RData two_requests] (mk_sock [] [] [])) /\
  b_req_parse (fun _ => 32) true req_new d = (PDone r, d') /\ rq_uri r = rq_uri example_request /\
  unread d' = write_request example_request.
Proof.
  eexists. eexists. eexists. split; [reflexivity|]. split; [vm_compute; reflexivity|]. split; vm_compute; reflexivity.
Qed.

Example C71_case_client : exists r' b d,
  b_conn_sends (fun _ => 32) true false [inr (mk_socket [RData (write_response (response_of_body (lit "hello")))] open_sock)] bcconn_new [example_request]
    = ([COk r'], [], b) /\ rs_body r' = lit "hello" /\ bcc_stream b = Some d /\ sk_sent (out_side d) = write_request example_request.
Proof.
  eexists. eexists. eexists. split; [vm_compute; reflexivity|]. split; [vm_compute; reflexivity|]. split; vm_compute; reflexivity.
Qed.

Print Assumptions C71_server.
Print Assumptions C71_client.
Print Assumptions C71_responses.
Print Assumptions C71_one_response_each.
Print Assumptions C71_any_input.
Print Assumptions C71_close_is_last.
Print Assumptions C71_client_in_order.
Print Assumptions C71_parse_request.
Print Assumptions C71_parse_response.
