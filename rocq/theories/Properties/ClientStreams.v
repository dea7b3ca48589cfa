(** C94: the client's connections on any stream that reads and writes as Read and Write promise, and on TLS. *)
From Coq Require Import List Ascii String NArith ZArith Bool Lia.
From Verif.Model Require Import Bytes Io Common Parse Encode Writer Server Client Generic Buffered Streams Tls ClientStreams.
From Verif.Spec Require Import Batch Stream Drive Numerals Grammar Wire Output Unicode Session Exchange Buffering Streams.
From Verif.Proofs Require Import DriveFacts BufferedFacts BufferedConnFacts RecutFacts StreamsFacts TlsFacts ClientStreamsFacts.
From Verif.Properties Require Import Streaming RoundTrip Server Client Buffered Streams Tls.
From Verif.Spec Require Import Tls ClientStreams.
Import ListNotations.
Local Open Scope N_scope.

Section Any.
Variable T : Type.
Variable t_read : N -> T -> (ekind + bytes) * T.
Variable t_write : bytes -> T -> wres N * T.
Variable t_flush : T -> wres unit * T.
Variable taken : T -> list what.
Variable given : T -> bytes.
Notation sends := (k_conn_sends T t_read t_write t_flush).
Notation send := (k_conn_send T t_read t_write t_flush).
Notation plays := (plays T t_read t_write t_flush taken given).

(** Sends on such streams are sends on sockets: the same results; each socket's input is what was read from the stream in its place, and
    then anything; its output is what the stream took; its writes and flushes do what those of the stream did. *)
Theorem C94_client : forall more size fuel dbg n qs rs n' c,
  positive size -> honest T t_read t_write t_flush taken given ->
  sends size fuel dbg n (kconn_new T) qs = Some (rs, n', c) ->
  exists m m' b, b_conn_sends size dbg false m bcconn_new qs = (rs, m', b) /\
    plays more n m (streams T n' c) /\ same_kconn T given more c b /\ same_knet T n' m'.
Proof.
  intros more size fuel dbg n qs rs n' c P H E.
  destruct (ends_all T t_read t_write t_flush taken given more n' c) as (m' & b & S & Sc & Sn).
  edestruct (k_conn_sends_ok T t_read t_write t_flush size) with (Rel := stands T t_read t_write t_flush taken given more) as (m & b0 & S0 & V); [exact P| | | |exact E|exact S|].
  { intros; eapply stands_r; eauto. }
  { intros; eapply stands_w; eauto. }
  { intros; eapply stands_f; eauto. }
  exists m, m', b. destruct S0 as (l1 & l2 & l3 & El & S1 & S2 & S3). cbn [kconn_new kc_stream kc_dropped] in *.
  destruct b0 as [o l]. cbn [bcc_stream bcc_dropped] in *. inversion S1; subst. destruct o; [contradiction|]. cbn in S2. subst l2. cbn [app] in El.
  split; [exact V|]. split; auto. rewrite El. apply net_plays. exact S3.
Qed.

(** One send, from any state of the connection. *)
Lemma one_send : forall more size fuel dbg n c q r n' c',
  positive size -> honest T t_read t_write t_flush taken given ->
  send size fuel dbg n c q = Some (r, n', c') ->
  exists m b m' b', b_conn_send size dbg false m b q = (r, m', b') /\
    same_kconn T given more c' b' /\ same_knet T n' m' /\ same_knet T n m /\
    (exists us, plays more n m us) /\ conn_capped b /\
    match kc_stream T c, bcc_stream b with
    | Some d, Some e => kb_held T d = bf_w e /\ given (kb_in T d) = sk_sent (out_side e)
    | None, None => True | _, _ => False
    end /\
    Forall2 (fun d e => kb_held T d = bf_w e /\ given (kb_in T d) = sk_sent (out_side e)) (kc_dropped T c) (bcc_dropped b).
Proof.
  intros more size fuel dbg n c q r n' c' P H E.
  destruct (ends_all T t_read t_write t_flush taken given more n' c') as (m' & b' & S & Sc & Sn).
  edestruct (k_conn_send_ok T t_read t_write t_flush size) with (Rel := stands T t_read t_write t_flush taken given more) as (m & b & S0 & V); [exact P| | | |exact E|exact S|].
  { intros; eapply stands_r; eauto. }
  { intros; eapply stands_w; eauto. }
  { intros; eapply stands_f; eauto. }
  exists m, b, m', b'. split; [exact V|]. split; auto. split; auto. destruct S0 as (l1 & l2 & l3 & El & S1 & S2 & S3).
  split. { clear - S3. unfold same_knet. induction S3; [apply Forall2_nil|apply Forall2_cons; auto..]. }
  split. { eexists. apply net_plays. exact S3. }
  assert (One : forall a e d, sim T T (stands T t_read t_write t_flush taken given more) a e d -> 0 < rd_cap (bf_r e) /\ kb_held T d = bf_w e /\ given (kb_in T d) = sk_sent (out_side e)).
  { intros a e d (s & k & -> & X & _). split; [reflexivity|]. cbn. auto. }
  split. { unfold conn_capped, sim_cur, ccapped in *. destruct (bcc_stream b), (kc_stream T c); auto; try contradiction. destruct S2 as (a & _ & X). apply One in X. apply X. }
  split. { unfold sim_cur in S2. destruct (bcc_stream b), (kc_stream T c); auto. destruct S2 as (a & _ & X). apply One in X. apply X. }
  clear - S1 One. induction S1 as [|a l e es d ds S S1 IH]; constructor; auto. apply One in S. apply S.
Qed.

(** A send drops one stream at most. *)
Lemma connect_drops fuel n c e n1 c1 : k_connect T t_write fuel n c = Some (e, n1, c1) ->
  (kc_dropped T c1 = kc_dropped T c /\ (e <> None -> kc_stream T c1 = kc_stream T c)) \/
  (exists o, kc_dropped T c1 = kc_dropped T c ++ [o] /\ kc_stream T c <> None).
Proof.
  unfold k_connect. intros E. destruct (k_create T n) as [[k|t] n0]; [inversion E; subst; auto|].
  destruct (kc_stream T c) as [o|]; [|inversion E; subst; left; split; auto; congruence].
  destruct (k_drop_stream T t_write fuel o) as [o'|]; inversion E; subst. right. exists o'. split; auto. discriminate.
Qed.
Lemma first_drops size fuel dbg c q r c1 : k_first_attempt T t_read t_write t_flush size fuel dbg c q = Some (r, c1) -> kc_dropped T c1 = kc_dropped T c.
Proof.
  unfold k_first_attempt. intros E. destruct (kc_stream T c) as [d|]; [|inversion E; subst; auto].
  destruct (k_send_request T t_read t_write t_flush size fuel dbg d q) as [[x d1]|]; inversion E; subst; auto.
Qed.
Lemma send_drops size fuel dbg n c q r n' c' : send size fuel dbg n c q = Some (r, n', c') ->
  kc_dropped T c' = kc_dropped T c \/ exists o, kc_dropped T c' = kc_dropped T c ++ [o].
Proof.
  unfold k_conn_send. intros E.
  destruct (match kc_stream T c with None => k_connect T t_write fuel n c | Some _ => Some (None, n, c) end) as [[[e n1] c1]|] eqn:E1; [|discriminate].
  assert (D1 : kc_dropped T c1 = kc_dropped T c).
  { destruct (kc_stream T c) as [d|] eqn:Ed; [inversion E1; auto|]. destruct (connect_drops _ _ _ _ _ _ E1) as [[X _]|(o & _ & X)]; auto. congruence. }
  destruct e as [e|]; [inversion E; subst; auto|].
  destruct (k_first_attempt T t_read t_write t_flush size fuel dbg c1 q) as [[r2 c2]|] eqn:E2; [|discriminate]. apply first_drops in E2.
  assert (Again : match k_connect T t_write fuel n1 c2 with
     | None => None
     | Some (Some e, n2, c3) => Some (e, n2, c3)
     | Some (None, n2, c3) => match k_first_attempt T t_read t_write t_flush size fuel dbg c3 q with None => None | Some (r, c4) => Some (r, n2, c4) end
     end = Some (r, n', c') -> kc_dropped T c' = kc_dropped T c \/ exists o, kc_dropped T c' = kc_dropped T c ++ [o]).
  { intros X. destruct (k_connect T t_write fuel n1 c2) as [[[e n2] c3]|] eqn:E3; [|discriminate]. apply connect_drops in E3.
    assert (D3 : kc_dropped T c3 = kc_dropped T c \/ exists o, kc_dropped T c3 = kc_dropped T c ++ [o]).
    { rewrite <- D1, <- E2. destruct E3 as [[? _]|(o & ? & _)]; eauto. }
    destruct e as [e|]; [inversion X; subst; auto|].
    destruct (k_first_attempt T t_read t_write t_flush size fuel dbg c3 q) as [[r4 c4]|] eqn:E4; [|discriminate]. apply first_drops in E4.
    inversion X; subst. rewrite E4. exact D3. }
  destruct r2; auto; inversion E; subst; left; congruence.
Qed.

(** C41 on any such stream: a send transmits the request at most twice, once on each of two streams; a success has transmitted it whole. *)
Theorem C94_at_most_twice : forall size fuel dbg n c q r n' c',
  positive size -> honest T t_read t_write t_flush taken given -> Forall (untouched T taken given) (coming T n) ->
  send size fuel dbg n c q = Some (r, n', c') ->
  (kc_dropped T c' = kc_dropped T c /\
   match kc_stream T c' with Some s => k_added T given (kc_stream T c) (write_request q) s | None => is_error r \/ r = CPanic end /\
   (forall v, r = COk v -> exists s, kc_stream T c' = Some s /\ k_all_added T given (kc_stream T c) (write_request q) s)) \/
  (exists o s, kc_dropped T c' = kc_dropped T c ++ [o] /\ kc_stream T c' = Some s /\
   k_added T given (kc_stream T c) (write_request q) o /\ k_added T given None (write_request q) s /\
   (forall v, r = COk v -> k_all_added T given None (write_request q) s)).
Proof.
  intros size fuel dbg n c q r n' c' P H U E. pose proof (send_drops _ _ _ _ _ _ _ _ _ E) as D.
  destruct (one_send (fun _ => []) _ _ _ _ _ _ _ _ _ P H E) as (m & b & m' & b' & V & Sc & Sn' & Sn & (us & Pl) & Cap & Cur & Dr).
  destruct (b_conn_send_ok size P _ _ _ _ _ _ _ _ Cap V) as (_ & K).
  destruct (like_net_exists m') as (N' & LN'). destruct (like_conn_exists b') as (C' & LC').
  destruct (K N' C' LN' LC') as (N & C & LN & LC & V2).
  assert (Fr : fresh_net N).
  { clear - LN Pl U. revert N m us LN Pl. induction n as [|[k|t] n IH]; intros N m us LN Pl; inversion Pl; subst; inversion LN as [|x ? N0 ? Hx HN]; subst; [constructor| |].
    - destruct x; cbn in Hx; [|contradiction]. constructor; auto. eapply IH; eauto.
    - cbn [coming flat_map app] in U. inversion U as [|? ? [U1 U2] U3]; subst. destruct x as [|s1]; cbn in Hx; [contradiction|].
      destruct Hx as (X1 & X2 & _). cbn [so_tx] in X2. constructor; [|eapply IH; eauto]. split; auto. unfold Exchange.sent. rewrite X2. congruence. }
  destruct Sc as [Sc1 Sc2]. destruct LC as [L1 L2]. destruct LC' as [L1' L2'].
  assert (Old : given_of T given (kc_stream T c) = sent_of (cc_stream C) /\ kept_of T (kc_stream T c) = held_of (cc_stream C)).
  { destruct (kc_stream T c) as [d|], (bcc_stream b) as [e|], (cc_stream C) as [s|]; try contradiction; cbn; auto.
    destruct L1 as (A1 & A2 & _). destruct Cur as (B1 & B2). unfold Exchange.sent. rewrite A1, A2. split; [exact B2|exact B1]. }
  destruct Old as [O1 O2].
  assert (One : forall d e s, same_kbuf T given (fun _ => []) d e -> like s e -> given (kb_in T d) = Exchange.sent s).
  { intros d e s (A1 & A2 & A3 & _) (B1 & B2 & _). unfold Exchange.sent. rewrite B2. exact A3. }
  assert (Add : forall d s old, given (kb_in T d) = Exchange.sent s -> forall oldk, given_of T given oldk = sent_of old -> kept_of T oldk = held_of old ->
     (added old (write_request q) s -> k_added T given oldk (write_request q) d) /\ (all_added old (write_request q) s -> k_all_added T given oldk (write_request q) d)).
  { intros d s old Eg oldk A B. unfold added, all_added, k_added, k_all_added. rewrite Eg, A, B. auto. }
  assert (Len : List.length (kc_dropped T c') = List.length (cc_dropped C') /\ List.length (kc_dropped T c) = List.length (cc_dropped C)).
  { split.
    - clear - Sc2 L2'. revert L2'. generalize (cc_dropped C'). induction Sc2; intros l2 F; inversion F; subst; cbn; auto.
    - clear - Dr L2. revert L2. generalize (cc_dropped C). induction Dr; intros l2 F; inversion F; subst; cbn; auto. }
  destruct Len as [Len' Len].
  destruct (C41_at_most_twice _ _ _ _ _ _ _ _ Fr V2) as (used & _ & _ & [(D1 & A & Ok)|(o & s & D1 & Es & A1 & A2 & Ok)]).
  - left. rewrite D1, <- Len in Len'.
    split. { destruct D as [D|(o & D)]; auto. exfalso. apply (f_equal (@List.length _)) in D. rewrite app_length in D. cbn in D. lia. }
    destruct (kc_stream T c') as [d|], (bcc_stream b') as [e|], (cc_stream C') as [s|] eqn:Es; try contradiction.
    + pose proof (One _ _ _ Sc1 L1') as Eg. split; [apply (Add _ _ _ Eg _ O1 O2); exact A|]. intros v Hv. destruct (Ok v Hv) as (x & Ex & Ax). inversion Ex; subst.
      exists d. split; auto. apply (Add _ _ _ Eg _ O1 O2); exact Ax.
    + split; auto. intros v Hv. destruct (Ok v Hv) as (x & Ex & _). discriminate.
  - right. rewrite D1, app_length, <- Len in Len'. cbn in Len'.
    destruct D as [D|(d0 & D)]; [exfalso; rewrite D in Len'; lia|]. rewrite D1 in L2'. rewrite D in Sc2.
    apply Forall2_app_inv_l in L2' as (e1 & e2 & F1 & F2 & E2). inversion F2 as [|? eo ? ? Lo F3]; subst. inversion F3; subst.
    rewrite E2 in Sc2. apply Forall2_app_inv_l in Sc2 as (e3 & e4 & G1 & G2 & E4). inversion G2 as [|? eo' ? ? So G3]; subst. inversion G3; subst.
    apply app_inj_tail in E4 as [_ <-]. rewrite Es in L1'.
    destruct (kc_stream T c') as [d|], (bcc_stream b') as [e|]; try contradiction.
    exists d0, d. split; auto. split; auto. split; [apply (Add _ _ _ (One _ _ _ So Lo) _ O1 O2); exact A1|].
    split; [apply (Add _ _ None (One _ _ _ Sc1 L1') None eq_refl eq_refl); exact A2|].
    intros v Hv. apply (Add _ _ None (One _ _ _ Sc1 L1') None eq_refl eq_refl). apply (Ok v Hv).
Qed.

(** The connects used. *)
Lemma create_suffix n x n1 : k_create T n = (x, n1) -> exists used, n = used ++ n1.
Proof.
  unfold k_create, k_tcp_connect. intros E. destruct n as [|[k|t] n]; [inversion E; exists []; auto| |inversion E; exists [inr t]; auto].
  destruct n as [|y n]; inversion E; [exists [inl k]|exists [inl k; x]]; auto. 
Qed.
Lemma connect_suffix fuel n c e n1 c1 : k_connect T t_write fuel n c = Some (e, n1, c1) -> exists used, n = used ++ n1.
Proof.
  unfold k_connect. intros E. destruct (k_create T n) as [[k|t] n0] eqn:Ec; apply create_suffix in Ec; [inversion E; subst; auto|].
  destruct (kc_stream T c) as [o|]; [destruct (k_drop_stream T t_write fuel o)|]; inversion E; subst; auto.
Qed.
Lemma k_send_suffix size fuel dbg n c q r n' c' : send size fuel dbg n c q = Some (r, n', c') -> exists used, n = used ++ n'.
Proof.
  unfold k_conn_send. intros E.
  destruct (match kc_stream T c with None => k_connect T t_write fuel n c | Some _ => Some (None, n, c) end) as [[[e n1] c1]|] eqn:E1; [|discriminate].
  assert (D1 : exists used, n = used ++ n1).
  { destruct (kc_stream T c) as [d|] eqn:Ed; [inversion E1; exists []; auto|]. eapply connect_suffix; eauto. }
  destruct e as [e|]; [inversion E; subst; auto|]. destruct D1 as (u1 & ->).
  destruct (k_first_attempt T t_read t_write t_flush size fuel dbg c1 q) as [[r2 c2]|] eqn:E2; [|discriminate].
  assert (Again : match k_connect T t_write fuel n1 c2 with
     | None => None
     | Some (Some e, n2, c3) => Some (e, n2, c3)
     | Some (None, n2, c3) => match k_first_attempt T t_read t_write t_flush size fuel dbg c3 q with None => None | Some (r, c4) => Some (r, n2, c4) end
     end = Some (r, n', c') -> exists used, u1 ++ n1 = used ++ n').
  { intros X. destruct (k_connect T t_write fuel n1 c2) as [[[e n2] c3]|] eqn:E3; [|discriminate]. apply connect_suffix in E3 as (u2 & ->). exists (u1 ++ u2). rewrite <- app_assoc.
    destruct e as [e|]; [inversion X; subst; auto|].
    destruct (k_first_attempt T t_read t_write t_flush size fuel dbg c3 q) as [[r4 c4]|]; inversion X; subst; auto. }
  destruct r2; auto; inversion E; subst; eauto.
Qed.
Lemma k_sends_suffix size fuel dbg qs : forall n c rs n' c', sends size fuel dbg n c qs = Some (rs, n', c') -> exists used, n = used ++ n'.
Proof.
  induction qs as [|q qs IH]; intros n c rs n' c' E; cbn [k_conn_sends] in E; [inversion E; exists []; auto|].
  destruct (send size fuel dbg n c q) as [[[r n1] c1]|] eqn:E1; [|discriminate]. apply k_send_suffix in E1 as (u1 & ->).
  destruct (sends size fuel dbg n1 c1 qs) as [[[rs1 n2] c2]|] eqn:E2; [|discriminate]. inversion E; subst.
  destruct (IH _ _ _ _ _ E2) as (u2 & ->). exists (u1 ++ u2). now rewrite app_assoc.
Qed.
Lemma plays_length more n m us : plays more n m us -> List.length n = List.length m.
Proof. induction 1; cbn; auto. Qed.

(** C42 on any such stream: if what the first stream gives is the responses rs, in any pieces, and its writes go through, each send returns its
    response, in order, and the stream took the requests. *)
Theorem C94_in_order : forall size fuel dbg t n qs rs rest rx out n' c more,
  positive size -> honest T t_read t_write t_flush taken given -> untouched T taken given t ->
  qs <> [] -> List.length qs = List.length rs -> Forall ok_response rs -> flowing rx ->
  pending rx = List.concat (map write_response rs) ++ rest ->
  sends size fuel dbg (inr t :: n) (kconn_new T) qs = Some (out, n', c) ->
  (forall u us, streams T n' c = u :: us -> taken u ++ content more = content rx /\ willing T t_read t_write t_flush u t) ->
  n' = n /\ exists vs d, out = map COk vs /\ Forall2 same_response vs rs /\ kc_stream T c = Some d /\ kc_dropped T c = [] /\
    given (kb_in T d) = List.concat (map write_request qs).
Proof.
  intros size fuel dbg t n qs rs rest rx out n' c more P H [U1 U2] Hq Hl Ok Fl Hp E Hu.
  destruct (C94_client (fun _ => more) _ _ _ _ _ _ _ _ P H E) as (m & m' & b & V & Pl & [Sc1 Sc2] & Sn).
  inversion Pl as [| |t0 n0 s k m0 u us X1 X2 X3 Pl']; subst. destruct (Hu u us) as (Y1 & Y2); auto.
  rewrite U1, Y1 in X3. cbn [app] in X3. destruct (Y2 _ _ X2) as (W1 & W2).
  assert (R : recut rx s) by (symmetry; exact X3).
  assert (St : csteady k) by (split; auto).
  destruct (C71_client_in_order size dbg s k m0 qs rs rest P Hq Hl St) as (vs & b1 & e & V1 & F2 & Eb & Ed & Es).
  { congruence. } { exact Ok. } { exact (recut_flowing _ _ R Fl). } { now rewrite <- (recut_pending _ _ R). }
  rewrite V in V1. inversion V1; subst. rewrite Eb in Sc1. rewrite Ed in Sc2. inversion Sc2 as [Ec|]; subst.
  destruct (kc_stream T c) as [d|] eqn:Ec2; [|contradiction].
  assert (En : exists used, inr t :: n = used ++ n' /\ (List.length n' = List.length m0)).
  { destruct (k_sends_suffix _ _ _ _ _ _ _ _ _ E) as (used & ->). exists used. split; auto. clear - Sn. induction Sn; cbn; auto. }
  split.
  - destruct En as (used & En & Ln). destruct used as [|x used]; cbn [app] in En.
    + exfalso. rewrite <- En in Ln. apply plays_length in Pl'. cbn in Ln. lia.
    + inversion En as [[E1 E2]]. destruct used as [|y used]; auto. exfalso. apply plays_length in Pl'. rewrite E2 in Pl'. rewrite app_length in Pl'. cbn in Pl'. lia.
  - exists vs, d. repeat split; auto. destruct Sc1 as (_ & _ & Sg & _). congruence.
Qed.
End Any.

(** ** On TLS *)

Notation tls_sends seal := (k_conn_sends tls tls_read (tls_write seal) tls_flush).

Lemma tls_way_stuck seal u t ws fs : way tls tls_read (tls_write seal) tls_flush u t ws fs -> calm t -> stuck t -> stuck u.
Proof.
  intros W. induction W as [|n t x t' ws fs P E W IH|b t x t' ws fs P E W IH|t x t' ws fs E W IH]; intros C S; auto.
  - destruct (tls_read_calm _ _ _ _ C E) as [C' X]. apply IH; auto. now apply X.
  - destruct (tls_write_calm seal _ _ _ _ C E) as [C' X]. apply IH; auto. destruct x; [contradiction|apply X].
  - destruct (tls_flush_calm _ _ _ C E) as (C' & _ & X). apply IH; auto.
Qed.
Lemma flush_stuck t k t' : calm t -> tls_flush t = (WErr k, t') -> stuck t'.
Proof.
  intros C E. unfold tls_flush in E. destruct (prior t) as [[k1|] t1] eqn:Ep; pose proof (prior_calm _ _ _ C Ep) as [C1 H1].
  - inversion E; subst. apply H1.
  - destruct H1 as [_ Q]. assert (Ew : wants_write t1 = false) by (unfold wants_write; now rewrite Q). rewrite Ew in E. discriminate.
Qed.
Lemma working_not_stuck u : working u -> ~ stuck u.
Proof. intros [H [n I]] [[X _]|[_ X]]; [congruence|exact (X n I)]. Qed.
Lemma tls_willing seal u t : calm t -> working u -> willing tls tls_read (tls_write seal) tls_flush u t.
Proof.
  intros C Wu ws fs W. apply working_not_stuck in Wu. induction W as [|n t x t' ws fs P E W IH|b t x t' ws fs P E W IH|t x t' ws fs E W IH]; [split; constructor| | |].
  - destruct (tls_read_calm _ _ _ _ C E) as [C' _]. auto.
  - destruct (tls_write_calm seal _ _ _ _ C E) as [C' X]. destruct (IH C') as [H1 H2]. split; auto. constructor; auto. destruct x as [m|k].
    + cbn [event_of]. unfold tls_write in E. destruct (prior t) as [[k|] t1]; [discriminate|]. destruct (complete_io (push t1 (seal b))). inversion E; subst.
      destruct b; [congruence|]. unfold len. cbn. lia.
    + exfalso. apply Wu. apply (tls_way_stuck _ _ _ _ _ W C'). apply X.
  - destruct (tls_flush_calm _ _ _ C E) as (C' & Hx & _). destruct (IH C') as [H1 H2]. split; auto. constructor; auto. destruct x as [[]|k]; auto.
    exfalso. apply Wu. apply (tls_way_stuck _ _ _ _ _ W C'). exact (flush_stuck _ _ _ C E).
Qed.

(** If the server shakes hands and then sends the responses rs in records, in any pieces, and the socket never refuses a write, each send returns
    its response, in order, no second connection is made, and the server can decrypt the requests: all of them, nothing is left to send. *)
Theorem C94_tls_in_order : forall seal size fuel dbg hello trx tx n qs rs rest rx out n' c more,
  positive size -> seals seal -> calm (tls_client hello trx tx) ->
  qs <> [] -> List.length qs = List.length rs -> Forall ok_response rs -> flowing rx ->
  pending rx = List.concat (map write_response rs) ++ rest ->
  tls_sends seal size fuel dbg (inr (tls_client hello trx tx) :: n) (kconn_new tls) qs = Some (out, n', c) ->
  (forall u us, streams tls n' c = u :: us -> gave u ++ content more = content rx /\ working u) ->
  n' = n /\ exists vs d, out = map COk vs /\ Forall2 same_response vs rs /\ kc_stream tls c = Some d /\ kc_dropped tls c = [] /\
    delivered (kb_in tls d) = List.concat (map write_request qs).
Proof.
  intros seal size fuel dbg hello trx tx n qs rs rest rx out n' c more P Se C Hq Hl Ok Fl Hp E Hu.
  assert (U : untouched tls gave handed (tls_client hello trx tx)). { split; [reflexivity|]. unfold handed, delivered. cbn. apply hand_data. }
  destruct (C94_in_order tls tls_read (tls_write seal) tls_flush gave handed size fuel dbg (tls_client hello trx tx) n qs rs rest rx out n' c more
    P (tls_honest seal Se) U Hq Hl Ok Fl Hp E) as (En & vs & d & Eo & F2 & Ed & Ec & Eg).
  { intros u us Eu. destruct (Hu u us Eu) as [H1 H2]. split; auto. now apply tls_willing. }
  split; auto. exists vs, d. repeat split; auto. rewrite <- Eg. subst out.
  destruct (conn_sends_Q tls tls_read (tls_write seal) tls_flush no_data read_no_data) with (3 := E) as (d' & Ed' & Q).
  - intros t u t' Ef. apply flush_done in Ef. unfold no_data. rewrite Ef. constructor.
  - exact Hq.
  - rewrite Ed in Ed'. inversion Ed'; subst. symmetry. now apply no_data_handed.
Qed.

(** ** Cases *)

(** The other side shakes hands and then sends the records rs, one in each piece. *)
Definition shake_then (rs : list record) : list tread := [TArrive [RHand false [90]]; TArrive [RHand true [41]]] ++ map (fun r => TArrive [r]) rs.
Definition takes_all : list wevent := map WTake [100; 100; 90; 41; 700; 700; 700; 700].
Lemma shake_then_calm hello rs l : calm (tls_client hello (shake_then rs) (map WTake l)).
Proof. split; [intros _; cbn; auto|]. exact (takes_calm l). Qed.

Definition one_two : list response := [response_of_body (lit "one"); response_of_body (lit "two")].
Definition one_two_bytes : bytes := List.concat (map write_response one_two).

(** Two requests on one TLS connection; the answers come in two records, cut in the first answer. *)
Example C94_case : exists v1 v2 d,
  tls_sends seal1 (fun _ => 32) 400 true [inr (tls_client [200] (shake_then [RApp (firstn 20 one_two_bytes); RApp (skipn 20 one_two_bytes)]) takes_all)]
    (kconn_new tls) [example_request; example_request] = Some ([COk v1; COk v2], [], mk_kconn tls (Some d) []) /\
  rs_body v1 = lit "one" /\ rs_body v2 = lit "two" /\
  delivered (kb_in tls d) = write_request example_request ++ write_request example_request /\
  gave (kb_in tls d) = content [RData (firstn 20 one_two_bytes); RData (skipn 20 one_two_bytes)] /\ working (kb_in tls d) /\
  positive (fun _ => 32) /\ seals seal1 /\ Forall ok_response one_two /\ flowing [RData (firstn 20 one_two_bytes); RData (skipn 20 one_two_bytes)] /\
  pending [RData (firstn 20 one_two_bytes); RData (skipn 20 one_two_bytes)] = one_two_bytes.
Proof.
  eexists. eexists. eexists. split; [vm_compute; reflexivity|]. split; [vm_compute; reflexivity|]. split; [vm_compute; reflexivity|]. split; [vm_compute; reflexivity|].
  split; [vm_compute; reflexivity|]. split; [split; [reflexivity|exists 700; cbn; auto]|]. split; [intros ?; reflexivity|]. split; [exact seal1_seals|].
  split; [constructor; [|constructor; [|constructor]]; apply ok_body; vm_compute; congruence|].
  split; [constructor; [|constructor; [|constructor]]; vm_compute; discriminate|]. cbn [pending]. rewrite app_nil_r. apply firstn_skipn.
Qed.

(** Not so: that a response without a length that the server ends by closing the TLS connection, as TLS asks, is returned.  The close shows as
    ConnectionAborted, which is an error for the client: the request is sent again, on a second connection, and the send fails although the
    whole response came on both.  The same response on a TCP stream is returned. *)
Definition no_length : bytes := lit "HTTP/1.1 200 OK" ++ crlf ++ crlf ++ lit "hello".
Definition closes_well : tls := tls_client [200] (shake_then [RApp no_length; RClose] ++ [TEnd]) takes_all.
Theorem C94_tls_until_close_refuted :
  exists o d, tls_sends seal1 (fun _ => 32) 400 true [inr closes_well; inr closes_well] (kconn_new tls) [example_request]
    = Some ([CReading ConnectionAborted], [], mk_kconn tls (Some d) [o]) /\
  calm closes_well /\ working (kb_in tls o) /\ working (kb_in tls d) /\
  gave (kb_in tls d) = content [RData no_length] ++ [Failure ConnectionAborted] /\
  delivered (kb_in tls o) = write_request example_request /\ delivered (kb_in tls d) = write_request example_request /\
  exists v b, b_conn_sends (fun _ => 32) true false [inr (mk_socket [RData no_length; RData []] open_sock)] bcconn_new [example_request] = ([COk v], [], b) /\
    rs_body v = lit "hello".
Proof.
  eexists. eexists. split; [vm_compute; reflexivity|].
  split; [split; [intros _; cbn; auto|exact (takes_calm [100; 100; 90; 41; 700; 700; 700; 700])]|].
  split; [split; [reflexivity|exists 700; cbn; auto]|]. split; [split; [reflexivity|exists 700; cbn; auto]|].
  split; [vm_compute; reflexivity|]. split; [vm_compute; reflexivity|]. split; [vm_compute; reflexivity|].
  eexists. eexists. split; [vm_compute; reflexivity|]. vm_compute. reflexivity.
Qed.

(** Not so: that a response that is returned on TLS was sent whole.  When the TCP connection is cut, by anyone, without the notice that TLS
    asks for, the client takes that for the end of a response without a length. *)
Definition cut_off : tls := tls_client [200] (shake_then [RApp (firstn 21 no_length)] ++ [TEnd]) takes_all.
Theorem C94_tls_cut_is_noticed_refuted :
  exists v d, tls_sends seal1 (fun _ => 32) 400 true [inr cut_off] (kconn_new tls) [example_request] = Some ([COk v], [], mk_kconn tls (Some d) []) /\
  calm cut_off /\ rs_body v = lit "he" /\ ts_closed (kb_in tls d) = false.
Proof.
  eexists. eexists. split; [vm_compute; reflexivity|].
  split; [split; [intros _; cbn; auto|exact (takes_calm [100; 100; 90; 41; 700; 700; 700; 700])]|].
  split; vm_compute; reflexivity.
Qed.

(** A stream that reads and writes, but is no TLS: the toy of Properties/Streams.v. *)
Example C94_case_toy : exists v1 v2 d,
  k_conn_sends toy toy_read toy_write toy_flush (fun _ => 32) 400 true [inl (OtherKind 111); inr ([RData (firstn 9 one_two_bytes); RData (skipn 9 one_two_bytes)], [], [])]
    (kconn_new toy) [example_request; example_request] = Some ([COk v1; COk v2], [], mk_kconn toy (Some d) []) /\
  rs_body v1 = lit "one" /\ rs_body v2 = lit "two" /\ toy_given (kb_in toy d) = write_request example_request ++ write_request example_request /\ honest toy toy_read toy_write toy_flush toy_taken toy_given.
Proof.
  eexists. eexists. eexists. split; [vm_compute; reflexivity|]. split; [vm_compute; reflexivity|]. split; [vm_compute; reflexivity|]. split; [vm_compute; reflexivity|exact toy_honest].
Qed.

Print Assumptions C94_client.
Print Assumptions C94_at_most_twice.
Print Assumptions C94_in_order.
Print Assumptions C94_tls_in_order.
Print Assumptions C94_tls_until_close_refuted.
Print Assumptions C94_tls_cut_is_noticed_refuted.
