(** C101: what an https client gets once everything has arrived. *)
From Coq Require Import List Ascii String NArith ZArith Bool Lia.
From Verif.Model Require Import Bytes Io Common Parse Encode Writer Server Client Generic Buffered Slab Streams Tls ClientStreams Secure.
From Verif.Spec Require Import Batch Stream Drive Numerals Grammar Wire Output Unicode Session Exchange Dialogue Buffering Streams.
From Verif.Proofs Require Import LimitGrammar DriveFacts ClientFacts WorldFacts BufferedFacts BufferedConnFacts RecutFacts StreamsFacts TlsFacts ClientStreamsFacts SecureFacts HttpsFacts HttpsLive.
From Verif.Properties Require Import Streaming RoundTrip Server Client Buffered Reference Streams Tls ClientStreams Secure Https.
From Verif.Spec Require Import Tls ClientStreams Secure Https.
Import ListNotations.
Local Open Scope N_scope.

(** The server serves any number of peers; connection c is that of a client, whose first connection ended as u.  If all that the client sent on it has reached the
    server, all that the server sent has reached the client, in any pieces, the handshake went well, the client's socket still takes what is written,
    and the server has nothing left to do for c, then all sends of the client have returned responses, on that connection: no other was
    made.  The server has routed exactly the requests of the client, each once and in order, and each send returned what the application answered to its request. *)
Theorem C101_arrives : forall seal size fuel dbg rt m w ls st c x cseal csize cfuel cdbg hello trx tx n qs outs n' k u us,
  positive size -> seals seal -> positive csize -> seals cseal -> qs <> [] ->
  srun seal size fuel dbg rt (s_init m w) ls st -> nth_error (ss_conns st) c = Some x -> quiet st c -> sn_full x = false ->
  tls_sends cseal csize cfuel cdbg (inr (tls_client hello trx tx) :: n) (kconn_new tls) qs = Some (outs, n', k) ->
  streams tls n' k = u :: us -> Forall is_arrive trx -> Forall is_take tx -> sound true (arrivals trx) -> working u -> ts_queue u = [] ->
  Forall2 carries (ts_out u) (reached c ls) -> Forall2 carries (ts_out (stream_of tls (sn_slot x))) (arrivals trx) -> sound true (reached c ls) ->
  Forall plain_request qs -> (forall q, In q qs -> ~ asks_close q) -> no_panic (rt c) ->
  (forall h v q, In q qs -> same_request v q -> exists a, rt c h v = LSend a /\ ok_response a) ->
  n' = n /\ (exists d, kc_stream tls k = Some d /\ kb_in tls d = u) /\ kc_dropped tls k = [] /\
  Forall2 same_request (sn_log x) qs /\ exists vs, outs = map COk vs /\ answered (rt c) [] (sn_log x) outs.
Proof.
  intros seal size fuel dbg rt m w ls st c x cseal csize cfuel cdbg hello trx tx n qs outs n' k u us P Se Pc Sc Hq Rn Nx Qu Fu E Eu Ar Tk So Wo Qe W1 W2 Sr Pl Nc Np Ok.
  apply carries_data_all in W1. apply carries_data_all in W2. change (data_of (ts_out u)) with (delivered u) in W1.
  change (data_of (ts_out (stream_of tls (sn_slot x)))) with (delivered (stream_of tls (sn_slot x))) in W2. rewrite <- out_delivered in W2.
  assert (Hd : handed u = delivered u) by (unfold handed; rewrite Qe; cbn; now rewrite app_nil_r).
  set (t := tls_client hello trx tx) in *.
  assert (Ti : tidy [] t).
  { unfold t, tls_client, tidy. cbn [ts_rx ts_tx ts_bad ts_hs ts_plain]. repeat split; auto. rewrite app_nil_r. exact So. }
  destruct (C94_client tls tls_read (tls_write cseal) tls_flush gave handed (fun v => match yet v with [] => [] | y => [RData y] end)
    csize cfuel cdbg _ qs _ _ _ Pc (tls_honest cseal Sc) E) as (mm & mm' & b & V & Pls & [Sc1 Sc2] & Sn).
  rewrite Eu in Pls. inversion Pls as [| |t0 n0 s sk m0 u0 us0 X1 X2 X3 Pls']; subst.
  pose proof (working_not_stuck _ Wo) as Nu.
  assert (Sh : shape (app_of (arrivals trx)) u).
  { eapply way_shape; [exact X2|exact Nu|exact Ti|]. exists [], 0%nat. cbn. repeat split; auto. congruence. }
  destruct (shape_gave _ _ Sh) as (bb & j & G1 & G2 & G3).
  assert (Cs : then_blocks s (app_of (arrivals trx)) j).
  { unfold then_blocks. rewrite G1 in X3. cbn in X3. rewrite X3. destruct (yet u) as [|y ys] eqn:Ey.
    - cbn [content flat_map]. rewrite app_nil_r in *. now rewrite <- G2.
    - destruct j as [|j]; [|exfalso; specialize (G3 ltac:(discriminate)); discriminate]. cbn [repeat]. rewrite <- G2, map_app. cbn [content flat_map content_of]. now rewrite !app_nil_r. }
  destruct (tls_willing cseal u t (tidy_calm _ _ Ti) Wo _ _ X2) as (Wl1 & Wl2).
  destruct (C71_client _ _ _ _ _ _ _ _ Pc V) as (N & N' & k1 & H1 & HN' & H3 & [H4 H5]).
  inversion H1 as [|a0 b0 N0 n1 Hx HN]; subst. destruct a0 as [k0|s0]; cbn [same_connect so_tx so_rx] in Hx; [contradiction|]. destruct Hx as (Y1 & Y2 & Y3).
  assert (Ep : conn_sends cdbg false N0 (mk_cconn (Some s0) []) qs = (outs, N', k1)).
  { destruct qs as [|q qs]; [contradiction|]. cbn [conn_sends] in *.
    rewrite (conn_send_after_connect cdbg false (inr s0 :: N0) cconn_new q N0 (mk_cconn (Some s0) []) s0 eq_refl eq_refl eq_refl) in H3. exact H3. }
  assert (St : csteady (cs_sock s0)) by (rewrite Y2; split; auto).
  assert (S0 : sent s0 = []) by (unfold sent; rewrite Y2, X1; unfold handed, delivered; cbn; apply hand_data).
  assert (T0 : then_blocks (cs_in s0) (app_of (arrivals trx)) j) by (unfold then_blocks in *; rewrite <- Cs; exact Y3).
  destruct (sends_reach _ _ _ _ _ _ _ _ Y1 St Ep) as (q1 & q2 & s1 & l & Hqs & _ & Hs & Al). cbn [app] in Al. rewrite S0 in Hs. cbn [app] in Hs.
  assert (Hu : sent s1 = handed u).
  { unfold streams, current in Eu. unfold all_streams in Al. destruct (cc_dropped k1) as [|x1 dr1] eqn:D1.
    - inversion H5 as [D2 D2'|]. rewrite <- D2' in Sc2. inversion Sc2 as [D3 D3'|]. rewrite <- D3 in Eu. cbn [app map] in Al, Eu.
      destruct (cc_stream k1) as [s2|]; [|discriminate]. inversion Al; subst. destruct (bcc_stream b) as [e|]; [|contradiction]. destruct (kc_stream tls k) as [d|]; [|contradiction].
      cbn [app] in Eu. inversion Eu; subst. destruct H4 as (_ & Q2 & _). destruct Sc1 as (_ & _ & Sg & _). unfold sent. now rewrite Q2, <- Sg.
    - inversion H5 as [|? e ? ? Q _ D2 D2']. rewrite <- D2' in Sc2. inversion Sc2 as [|d ? ? ? Sg _ D3 D3']. rewrite <- D3 in Eu. cbn [app map] in Al, Eu.
      inversion Al; subst. inversion Eu; subst. destruct Q as (_ & Q2 & _). destruct Sg as (_ & _ & Sg & _). unfold sent. now rewrite Q2, <- Sg. }
  assert (Dl : app_of (reached c ls) = List.concat (map write_request q1)) by congruence.
  assert (I : incl q1 qs) by (rewrite Hqs; intros r X; apply in_or_app; now left).
  assert (Pl1 : Forall plain_request q1) by (rewrite Hqs in Pl; now apply Forall_app in Pl).
  assert (Fa : fair (app_of (reached c ls))).
  { rewrite Dl. intros b0 z Eb. exact (plain_prefix _ Pl1 _ _ Eb). }
  destruct (C95_quiet seal size fuel dbg rt m w ls st c x P Se Rn Nx Sr Fa Np Qu Fu) as (more & Sv & Mo). rewrite Dl in Sv.
  destruct (plain_all_served (rt c) q1 Pl1 (fun r X => Nc r (I r X)) []) as (lg & Sv' & F2).
  destruct (served_unique _ _ _ _ _ _ _ Sv _ _ _ Sv') as (El & Eo & Ek). subst lg. rewrite (Mo Ek), app_nil_r in Eo.
  destruct (replies_answers (rt c) qs Ok (sn_log x) q1 [] F2 I) as (answers & A1 & A2 & A3 & A4).
  assert (T1 : then_blocks (cs_in s0) (List.concat (map write_response answers) ++ []) j) by (rewrite app_nil_r, <- A2, <- Eo, W2; exact T0).
  assert (La : List.length answers = List.length q1) by (rewrite A3; eapply Forall2_len; eauto).
  assert (Hs' : sent s1 = sent s0 ++ List.concat (map write_request q1)) by (rewrite S0; exact Hs).
  destruct (sends_live cdbg qs N0 s0 outs N' k1 q1 s1 l answers [] j Y1 St Ep Al Hs' (ex_intro _ q2 Hqs) La A1 T1) as (Eq & vs & s' & Eo' & F3 & En & Ec).
  rewrite Eq in *. clear Eq. subst k1. cbn [cc_dropped cc_stream] in *.
  inversion H5 as [D2 D2'|]. rewrite <- D2' in Sc2. inversion Sc2 as [D3 D3'|]. unfold streams, current in Eu. rewrite <- D3 in Eu. cbn [app map] in Eu.
  destruct (bcc_stream b) as [e|]; [|contradiction]. destruct (kc_stream tls k) as [d|]; [|contradiction]. cbn [app] in Eu. inversion Eu; subst.
  split.
  { pose proof E as Us. apply k_sends_suffix in Us as (used & Us).
    assert (Ln : List.length n' = List.length n).
    { apply plays_length in Pls'. rewrite Pls'. pose proof (Forall2_len _ _ _ HN) as L1. pose proof (Forall2_len _ _ _ HN') as L2. rewrite <- L1, L2.
      clear - Sn. induction Sn; cbn; auto. }
    destruct used as [|z used]; cbn [app] in Us.
    - exfalso. rewrite <- Us in Ln. cbn in Ln. lia.
    - inversion Us as [[Us1 Us2]]. destruct used as [|y used]; auto. exfalso. rewrite Us2 in Ln. rewrite app_length in Ln. cbn in Ln. lia. }
  split; [eauto|]. split; auto. split; auto. exists vs. split; auto.
Qed.

(** ** A case *)

Example C101_case : exists st x v1 v2 d,
  srun seal1 (fun _ => 32) 400 true (fun _ => counting) (s_init 1 1) server_run st /\ nth_error (ss_conns st) 0 = Some x /\ quiet st 0 /\ sn_full x = false /\
  tls_sends seal1 (fun _ => 32) 400 true [inr (tls_client [200] client_rx takes_all)] (kconn_new tls) [example_request; example_request]
    = Some ([COk v1; COk v2], [], mk_kconn tls (Some d) []) /\
  Forall is_arrive client_rx /\ Forall is_take takes_all /\ sound true (arrivals client_rx) /\ working (kb_in tls d) /\ ts_queue (kb_in tls d) = [] /\
  Forall2 carries (ts_out (kb_in tls d)) (reached 0 server_run) /\ Forall2 carries (ts_out (stream_of tls (sn_slot x))) (arrivals client_rx) /\
  rs_body v1 = lit "one" /\ rs_body v2 = lit "two".
Proof.
  assert (H : match s_exec_all seal1 (fun _ => 32) 400 true (fun _ => counting) (s_init 1 1) server_run with
    | Some st => match nth_error (ss_conns st) 0 with
        | Some x => (ts_out (stream_of tls (sn_slot x)), sn_full x, sn_event x, ss_queue st, ss_workers st) =
            ([Hand; Data (write_response (response_of_body (lit "one"))); Data (write_response (response_of_body (lit "two")))], false, false, [], [SFree])
        | None => False end
    | None => False end) by (vm_compute; reflexivity).
  destruct (s_exec_all seal1 (fun _ => 32) 400 true (fun _ => counting) (s_init 1 1) server_run) as [st|] eqn:E; [|contradiction].
  destruct (nth_error (ss_conns st) 0) as [x|] eqn:Ex; [|contradiction]. injection H as H1 H2 H3 H4 H5.
  exists st, x. eexists. eexists. eexists. split; [exact (s_exec_all_ok _ _ _ _ _ _ _ _ E)|]. split; [exact Ex|].
  split. { split; [intros y Ny; congruence|]. rewrite H4, H5. split; [intros []|]. intros [X|[]]; discriminate. }
  split; [exact H2|]. split; [vm_compute; reflexivity|].
  split; [repeat constructor; eexists; reflexivity|]. split; [repeat constructor; eexists; reflexivity|]. split; [cbn [sound negb andb arrivals client_rx flat_map app]; intuition discriminate|].
  split. { split; [vm_compute; reflexivity|]. eexists. vm_compute. now left. }
  split; [vm_compute; reflexivity|].
  assert (Rc : reached 0 server_run = [RHand false [90]; RHand true []; RApp the_request; RApp the_request]) by (vm_compute; reflexivity). rewrite Rc.
  split. { match goal with |- Forall2 _ ?l _ => assert (El : l = [Hand; Hand; Data the_request; Data the_request]) by (vm_compute; reflexivity); rewrite El end. repeat constructor. }
  split. { rewrite H1. cbn [arrivals client_rx flat_map app]. repeat constructor. }
  split; vm_compute; reflexivity.
Qed.

Print Assumptions C101_arrives.
