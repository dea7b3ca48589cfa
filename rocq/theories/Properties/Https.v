(** C100: an https client and the https server. *)
From Coq Require Import List Ascii String NArith ZArith Bool Lia.
From Verif.Model Require Import Bytes Io Common Parse Encode Writer Server Client Generic Buffered Slab Streams Tls ClientStreams Secure.
From Verif.Spec Require Import Batch Stream Drive Numerals Grammar Wire Output Unicode Session Exchange Dialogue Buffering Streams.
From Verif.Proofs Require Import LimitGrammar DriveFacts ClientFacts WorldFacts BufferedFacts BufferedConnFacts RecutFacts StreamsFacts TlsFacts ClientStreamsFacts SecureFacts HttpsFacts.
From Verif.Properties Require Import Streaming RoundTrip Server Client Buffered Reference Streams Tls ClientStreams Secure.
From Verif.Spec Require Import Tls ClientStreams Secure Https.
Import ListNotations.
Local Open Scope N_scope.

Lemma reads_front all t : gives all t -> exists x, all = reads (ts_seen t) ++ x.
Proof. intros [_ (x & <-)]. eauto. Qed.

Section Client.
Variable seal : bytes -> list chunk.
Variable size : bytes -> N.
Variable fuel : nat.
Variable dbg : bool.

(** The same sends on a stream given by what it will do. *)
Lemma on_plain hello trx tx n qs vs n' c y : positive size -> seals seal -> qs <> [] ->
  tls_sends seal size fuel dbg (inr (tls_client hello trx tx) :: n) (kconn_new tls) qs = Some (map COk vs, n', c) -> kc_dropped tls c = [] ->
  exists N s0 N' k, conn_sends dbg false N (mk_cconn (Some s0) []) qs = (map COk vs, N', k) /\ cc_dropped k = [] /\ cs_held s0 = [] /\ sent s0 = [] /\
    pending (cs_in s0) = app_of (arrivals trx) ++ y /\
    match cc_stream k, kc_stream tls c with Some s', Some d => sent s' = handed (kb_in tls d) | None, None => True | _, _ => False end.
Proof.
  intros P Se Hq E Dr. set (t := tls_client hello trx tx) in *. set (all := app_of (arrivals trx)).
  destruct (C94_client tls tls_read (tls_write seal) tls_flush gave handed (fun u => [RData (skipn (List.length (reads (ts_seen u))) (all ++ y))])
    size fuel dbg _ qs _ _ _ P (tls_honest seal Se) E) as (m & m' & b & V & Pl & [Sc1 Sc2] & _).
  inversion Pl as [| |t0 n0 s k m0 u us X1 X2 X3 Pl']; subst.
  assert (G : gives all u).
  { eapply gives_way; [exact X2|]. unfold t, tls_client, gives. cbn [ts_bad ts_seen ts_plain ts_rx reads flat_map app].
    split; [intros _; reflexivity|]. exists all. reflexivity. }
  destruct (reads_front _ _ G) as (x & Ex). clearbody all.
  assert (Hp : pending s = all ++ y).
  { apply (f_equal bytes_of) in X3. rewrite !bytes_of_app, !bytes_of_content, !bytes_of_gave in X3. cbn [t tls_client ts_seen reads flat_map app pending] in X3.
    rewrite X3, app_nil_r. rewrite Ex, <- app_assoc, skipn_app, skipn_all, Nat.sub_diag. reflexivity. }
  destruct (C71_client _ _ _ _ _ _ _ _ P V) as (N & N' & k1 & H1 & _ & H3 & [H4 H5]).
  inversion H1 as [|a0 b0 N0 n1 Hx HN]; subst. destruct a0 as [k0|s0]; cbn [same_connect so_tx so_rx] in Hx; [contradiction|]. destruct Hx as (Y1 & Y2 & Y3).
  exists N0, s0, N', k1. split.
  { destruct qs as [|q qs]; [contradiction|]. cbn [conn_sends] in *.
    rewrite (conn_send_after_connect dbg false (inr s0 :: N0) cconn_new q N0 (mk_cconn (Some s0) []) s0 eq_refl eq_refl eq_refl) in H3. exact H3. }
  split. { rewrite Dr in Sc2. inversion Sc2 as [Z|]. rewrite <- ?Z in H5. symmetry in Z. inversion H5 as [Z1 Z2|? ? ? ? ? ? Z1 Z2]; auto; exfalso; congruence. }
  split; auto. split. { unfold sent. rewrite Y2, X1. unfold handed, delivered. cbn. apply hand_data. }
  split. { now rewrite (recut_pending _ _ Y3), Hp. }
  destruct (cc_stream k1), (bcc_stream b), (kc_stream tls c); try contradiction; auto.
  destruct Sc1 as (_ & _ & Sg & _). destruct H4 as (_ & Q2 & _). unfold sent. rewrite Q2, Sg. reflexivity.
Qed.

(** The client.  Whatever its socket does and whatever arrives: if all sends return responses and no second connection was made, the server can decrypt
    exactly the requests. *)
Theorem C100_requests : forall hello trx tx n qs vs n' c, positive size -> seals seal -> qs <> [] ->
  tls_sends seal size fuel dbg (inr (tls_client hello trx tx) :: n) (kconn_new tls) qs = Some (map COk vs, n', c) -> kc_dropped tls c = [] ->
  exists d, kc_stream tls c = Some d /\ delivered (kb_in tls d) = List.concat (map write_request qs) /\ List.length vs = List.length qs.
Proof.
  intros hello trx tx n qs vs n' c P Se Hq E Dr.
  destruct (on_plain _ _ _ _ _ _ _ _ [] P Se Hq E Dr) as (N & s0 & N' & k & Hs & D0 & Hh & S0 & _ & M).
  destruct (sends_sent dbg false qs N (mk_cconn (Some s0) []) s0 vs N' k eq_refl Hs D0 Hh) as (s' & Es & St & Ln). rewrite Es in M.
  destruct (kc_stream tls c) as [d|] eqn:Ed; [|contradiction]. exists d. split; auto. split; auto. rewrite S0 in St. cbn [app] in St. rewrite <- St, M.
  destruct (conn_sends_Q tls tls_read (tls_write seal) tls_flush no_data read_no_data) with (3 := E) as (d' & Ed' & Q).
  - intros v w v' Ef. apply flush_done in Ef. unfold no_data. rewrite Ef. constructor.
  - exact Hq.
  - rewrite Ed in Ed'. inversion Ed'; subst. symmetry. now apply no_data_handed.
Qed.

(** If the records that it receives carry a front part of responses, what the sends return is the first of these responses, in order. *)
Theorem C100_responses : forall hello trx tx n qs vs n' c answers y, positive size -> seals seal -> qs <> [] ->
  tls_sends seal size fuel dbg (inr (tls_client hello trx tx) :: n) (kconn_new tls) qs = Some (map COk vs, n', c) -> kc_dropped tls c = [] ->
  Forall ok_response answers -> app_of (arrivals trx) ++ y = List.concat (map write_response answers) ->
  exists a1 a2, answers = a1 ++ a2 /\ Forall2 same_response vs a1.
Proof.
  intros hello trx tx n qs vs n' c answers y P Se Hq E Dr Ok Ea.
  destruct (on_plain _ _ _ _ _ _ _ _ y P Se Hq E Dr) as (N & s0 & N' & k & Hs & D0 & _ & _ & Hp & _).
  apply (sends_first dbg false qs N (mk_cconn (Some s0) []) s0 vs N' k answers [] eq_refl Hs D0 Ok). now rewrite app_nil_r, Hp.
Qed.
End Client.

Lemma replies_answers rt qs : (forall h v q, In q qs -> same_request v q -> exists a, rt h v = LSend a /\ ok_response a) ->
  forall log qs1 h, Forall2 same_request log qs1 -> incl qs1 qs -> exists answers, Forall ok_response answers /\ replies rt h log = List.concat (map write_response answers) /\
    List.length answers = List.length log /\ forall vs, Forall2 same_response vs answers -> answered rt h log (map COk vs).
Proof.
  intros Ok log. induction log as [|v log IH]; intros qs1 h F I.
  - exists []. repeat split; auto. intros vs X. inversion X; subst. constructor.
  - inversion F as [|? q ? qs1' S F']; subst. destruct (Ok h v q) as (a & Ha & Oa); auto; [apply I; now left|].
    destruct (IH qs1' (h ++ [v]) F' (fun r X => I r (or_intror X))) as (answers & A1 & A2 & A3 & A4). exists (a :: answers). split; [constructor; auto|].
    cbn [replies map List.concat List.length]. rewrite Ha, A2. split; auto. split; [congruence|]. intros vs X. inversion X; subst. cbn [map]. econstructor; eauto.
Qed.
Lemma Forall2_len {A B} (R : A -> B -> Prop) l l' : Forall2 R l l' -> List.length l = List.length l'.
Proof. induction 1; cbn; congruence. Qed.

(** Both.  The server serves any number of peers, at any stage; connection c is the client's: the records that have reached the server on it are
    the first ones that the client has sent, those that the client receives are the first ones that the server has sent, and the handshake goes well.  If all
    sends return responses, on the first connection, then the server has routed exactly the requests, each once and in order, what the sends return is, for each, what the
    application answered to it, and the connection is open. *)
Theorem C100_https : forall seal size fuel dbg rt m w ls st c x cseal csize cfuel cdbg hello trx tx n qs vs n' k d,
  positive size -> seals seal -> positive csize -> seals cseal ->
  srun seal size fuel dbg rt (s_init m w) ls st -> nth_error (ss_conns st) c = Some x ->
  tls_sends cseal csize cfuel cdbg (inr (tls_client hello trx tx) :: n) (kconn_new tls) qs = Some (map COk vs, n', k) ->
  kc_stream tls k = Some d -> kc_dropped tls k = [] ->
  wire (ts_out (kb_in tls d)) (reached c ls) -> wire (ts_out (stream_of tls (sn_slot x))) (arrivals trx) -> sound true (reached c ls) ->
  Forall plain_request qs -> (forall q, In q qs -> ~ asks_close q) -> no_panic (rt c) ->
  (forall h v q, In q qs -> same_request v q -> exists a, rt c h v = LSend a /\ ok_response a) ->
  Forall2 same_request (sn_log x) qs /\ answered (rt c) [] (sn_log x) (map COk vs) /\ sn_open x = true.
Proof.
  intros seal size fuel dbg rt m w ls st c x cseal csize cfuel cdbg hello trx tx n qs vs n' k d P Se Pc Sc Rn Nx E Ed Dr W1 W2 So Pl Nc Np Ok.
  destruct qs as [|q qs0]. { cbn [k_conn_sends] in E. inversion E; subst. discriminate Ed. }
  remember (q :: qs0) as qs eqn:Eq. assert (Hq : qs <> []) by (subst; discriminate). clear q qs0 Eq.
  destruct (C100_requests _ _ _ _ _ _ _ _ _ _ _ _ Pc Sc Hq E Dr) as (d0 & Ed0 & Dl & Ln). rewrite Ed in Ed0. inversion Ed0; subst d0. clear Ed0.
  apply wire_data in W1 as (x1 & W1). apply wire_data in W2 as (x2 & W2).
  change (data_of (ts_out (kb_in tls d))) with (delivered (kb_in tls d)) in W1. rewrite Dl in W1.
  change (data_of (ts_out (stream_of tls (sn_slot x)))) with (delivered (stream_of tls (sn_slot x))) in W2. rewrite <- out_delivered in W2.
  assert (Fa : fair (app_of (reached c ls))).
  { intros b z Eb. rewrite Eb, <- app_assoc in W1. exact (plain_prefix _ Pl _ _ W1). }
  destruct (C95_served seal size fuel dbg rt m w ls st c x P Se Rn Nx So Fa Np) as (b & rest & more & Eb & Sv).
  rewrite Eb, <- app_assoc in W1. destruct (plain_part_served (rt c) qs Pl Nc b _ W1 []) as (l & qs1 & qs2 & Sv' & Eq & F2).
  destruct (served_unique _ _ _ _ _ _ _ Sv _ _ _ Sv') as (El & Eo & Ek). subst l.
  assert (I : incl qs1 qs) by (rewrite Eq; intros r X; apply in_or_app; now left).
  destruct (replies_answers (rt c) qs Ok (sn_log x) qs1 [] F2 I) as (answers & A1 & A2 & A3 & A4).
  assert (Ea : app_of (arrivals trx) ++ x2 ++ more = List.concat (map write_response answers)) by (rewrite <- A2, <- Eo, W2, <- app_assoc; reflexivity).
  destruct (C100_responses _ _ _ _ _ _ _ _ _ _ _ _ _ _ Pc Sc Hq E Dr A1 Ea) as (a1 & a2 & Ean & F3).
  pose proof (Forall2_len _ _ _ F3) as L3. pose proof (Forall2_len _ _ _ F2) as L2.
  assert (L : List.length a2 = 0%nat /\ List.length qs2 = 0%nat).
  { rewrite Ean, app_length in A3. rewrite Eq, app_length in Ln. lia. }
  destruct L as [La Lq]. apply length_zero_iff_nil in La. apply length_zero_iff_nil in Lq. subst a2 qs2. rewrite app_nil_r in Ean, Eq. subst answers.
  rewrite Eq. auto.
Qed.

(** ** A case *)

(** The application answers "one" to the first request of a connection and "two" to all later ones. *)
Definition counting : router := fun h v => LSend (response_of_body (match h with [] => lit "one" | _ => lit "two" end)).
Definition the_request : bytes := write_request example_request.
(** What happens at the server, last things first: a client shakes hands and sends a request, and later another one. *)
Definition server_run : list slabel :=
  one_round 0 [300; 300; 300] ++ [XArrive 0 [[RApp the_request]]] ++ one_round 0 [300; 300; 300] ++ [XArrive 0 [[RHand true []]; [RApp the_request]]] ++
  one_round 0 [130; 30] ++ [XArrive 0 [[RHand false [90]]]].
(** What reaches the client. *)
Definition client_rx : list tread :=
  [TArrive [RHand true [41]]; TArrive [RApp (write_response (response_of_body (lit "one")))]; TArrive [RApp (write_response (response_of_body (lit "two")))]].
Notation server_end := (s_exec_all seal1 (fun _ => 32) 400 true (fun _ => counting) (s_init 1 1) server_run).

Lemma not_closing : ~ asks_close example_request.
Proof. intros (vs & K1 & K2). vm_compute in K1. discriminate. Qed.
Example C100_case : exists st x v1 v2 d,
  srun seal1 (fun _ => 32) 400 true (fun _ => counting) (s_init 1 1) server_run st /\ nth_error (ss_conns st) 0 = Some x /\
  tls_sends seal1 (fun _ => 32) 400 true [inr (tls_client [200] client_rx takes_all)] (kconn_new tls) [example_request; example_request]
    = Some (map COk [v1; v2], [], mk_kconn tls (Some d) []) /\
  rs_body v1 = lit "one" /\ rs_body v2 = lit "two" /\
  wire (ts_out (kb_in tls d)) (reached 0 server_run) /\ wire (ts_out (stream_of tls (sn_slot x))) (arrivals client_rx) /\
  sound true (reached 0 server_run) /\ positive (fun _ => 32) /\ seals seal1 /\
  Forall plain_request [example_request; example_request] /\ (forall q, In q [example_request; example_request] -> ~ asks_close q) /\ no_panic counting /\
  (forall h v q, In q [example_request; example_request] -> same_request v q -> exists a, counting h v = LSend a /\ ok_response a) /\
  List.length (sn_log x) = 2%nat.
Proof.
  assert (H : match server_end with
    | Some st => match nth_error (ss_conns st) 0 with
        | Some x => (ts_out (stream_of tls (sn_slot x)), List.length (sn_log x)) =
            ([Hand; Data (write_response (response_of_body (lit "one"))); Data (write_response (response_of_body (lit "two")))], 2%nat)
        | None => False end
    | None => False end) by (vm_compute; reflexivity).
  destruct server_end as [st|] eqn:E; [|contradiction]. destruct (nth_error (ss_conns st) 0) as [x|] eqn:Ex; [|contradiction]. injection H as H1 H2.
  exists st, x. eexists. eexists. eexists. split; [exact (s_exec_all_ok _ _ _ _ _ _ _ _ E)|]. split; [exact Ex|]. split; [vm_compute; reflexivity|].
  split; [vm_compute; reflexivity|]. split; [vm_compute; reflexivity|].
  assert (Rc : reached 0 server_run = [RHand false [90]; RHand true []; RApp the_request; RApp the_request]) by (vm_compute; reflexivity). rewrite Rc.
  split. { exists [Hand; Hand; Data the_request; Data the_request], []. split; [vm_compute; reflexivity|]. repeat constructor. }
  split. { rewrite H1. eexists. exists []. rewrite app_nil_r. split; [reflexivity|]. cbn [arrivals client_rx flat_map app]. repeat constructor. }
  split; [cbn [sound negb andb]; intuition discriminate|]. split; [intros ?; reflexivity|]. split; [exact seal1_seals|].
  destruct C24_case as [Pl _]. split; [exact Pl|].
  split; [intros q I; assert (X : q = example_request) by (destruct I as [I|[I|[]]]; auto); rewrite X; exact not_closing|].
  split; [intros h v _; discriminate|]. split; [|exact H2].
  intros h v q _ _. eexists. split; [reflexivity|]. destruct h; apply ok_body; vm_compute; congruence.
Qed.

Print Assumptions C100_requests.
Print Assumptions C100_responses.
Print Assumptions C100_https.
