(** A client on a TLS stream to which all that it waits for arrives. *)
From Coq Require Import List Ascii String NArith ZArith Bool Lia.
From Verif.Model Require Import Bytes Io Common Parse Encode Writer Server Client Generic Buffered Streams Tls ClientStreams Secure.
From Verif.Spec Require Import Batch Stream Drive Numerals Grammar Wire Output Unicode Session Exchange Dialogue Buffering Streams.
From Verif.Spec Require Import Tls ClientStreams Secure Https.
From Verif.Proofs Require Import BytesFacts IoFacts ParseFacts DriveFacts CallFacts BatchFacts LimitGrammar EncodeFacts ClientFacts WorldFacts BufferedFacts RecutFacts StreamsFacts TlsFacts ClientStreamsFacts SecureFacts HttpsFacts.
From Verif.Properties Require Import Streaming RoundTrip Server ClientStreams.
Import ListNotations.
Local Open Scope N_scope.

(** ** Bytes, and only then blocking *)

Definition then_blocks (s : stream) (b : bytes) (j : nat) : Prop := content s = map Byte b ++ repeat (Failure WouldBlock) j.

Lemma blocks_what b j : Forall (fun w => match w with Byte _ => True | Failure k => k = WouldBlock | End => False end) (map Byte b ++ repeat (Failure WouldBlock) j).
Proof.
  apply Forall_app. split; apply Forall_forall; intros w I; [apply in_map_iff in I as (x & <- & _); exact Logic.I|apply repeat_spec in I; subst; reflexivity].
Qed.
Lemma bytes_of_blocks j : bytes_of (repeat (Failure WouldBlock) j) = [].
Proof. induction j; auto. Qed.
Lemma then_blocks_pending s b j : then_blocks s b j -> pending s = b.
Proof. intros H. rewrite <- bytes_of_content, H, bytes_of_app, bytes_of_map, bytes_of_blocks. apply app_nil_r. Qed.
Lemma then_blocks_live s b j : then_blocks s b j -> live s.
Proof.
  intros H. apply live_content. rewrite H. eapply Forall_impl; [|apply blocks_what]. intros [c| |k]; cbn; auto.
Qed.
Lemma then_blocks_no_interrupt s b j s1 s2 : then_blocks s b j -> s <> s1 ++ RErr Interrupted :: s2.
Proof.
  intros H ->. unfold then_blocks in H. pose proof (blocks_what b j) as F. rewrite <- H in F. unfold content in F. rewrite flat_map_app in F. apply Forall_app in F as [_ F].
  cbn [flat_map content_of app] in F. inversion F; discriminate.
Qed.
Lemma map_Byte_split a : forall b x y, map Byte a ++ x = b ++ Failure WouldBlock :: y -> exists z, b = map Byte a ++ z /\ x = z ++ Failure WouldBlock :: y.
Proof.
  induction a as [|c a IH]; intros b x y E; cbn [map app] in *; [eauto|]. destruct b as [|w b]; cbn [app] in E; [discriminate|]. inversion E; subst.
  destruct (IH b x y) as (z & -> & ->); auto. eauto.
Qed.
Lemma then_blocks_in_time s b j v rest : then_blocks s b j -> batch_response b = Complete v rest -> in_time s.
Proof.
  intros H E s1 s2 ->. unfold then_blocks, content in H. rewrite flat_map_app in H. cbn [flat_map content_of app] in H. symmetry in H.
  apply map_Byte_split in H as (z & H1 & H2). exists v, rest. rewrite <- E. f_equal. rewrite <- bytes_of_content. unfold content. rewrite H1, bytes_of_app, bytes_of_map.
  apply (f_equal bytes_of) in H2. rewrite bytes_of_blocks, bytes_of_app in H2. symmetry in H2. apply app_eq_nil in H2 as [-> _]. apply app_nil_r.
Qed.
Lemma takes_content s w s' : takes s w s' -> (forall s1 s2, s <> s1 ++ RErr Interrupted :: s2) -> content s = map Byte w ++ content s'.
Proof.
  induction 1 as [s|s w s' T IH|bs s w s' Hb T IH|a b s Ha Hb]; intros No; auto.
  - destruct (No [] s eq_refl).
  - unfold content in *. cbn [flat_map]. rewrite IH, map_app, <- app_assoc. { destruct bs; [contradiction|]. reflexivity. }
    intros s1 s2 ->. apply (No (RData bs :: s1) s2). reflexivity.
  - unfold content. cbn [flat_map]. destruct a as [|x a]; [contradiction|]. destruct b as [|y b]; [contradiction|]. cbn [content_of app]. now rewrite app_comm_cons, map_app, <- app_assoc.
Qed.

(** ** What is transmitted on the first connection *)

Lemma send_put dbg s q r s' : csteady (cs_sock s) -> cs_held s = [] -> send_request dbg s q = (r, s') ->
  sent s' = sent s ++ write_request q /\ cs_held s' = [] /\ csteady (cs_sock s').
Proof.
  intros St H E. unfold send_request in E. destruct (put_request s q) as [rw s1] eqn:Ep. apply put_request_spec in Ep as (_ & Sf & _ & b1 & b2 & Hw & Hs & R).
  destruct rw as [u|k]; [|contradiction]. destruct R as [-> Hh]. destruct (resp_parse dbg resp_new (cs_in s1)) as [x i]. inversion E; subst. cbn [cs_held cs_sock].
  rewrite H, Hh, !app_nil_r in *. cbn [app] in Hs. split; [unfold sent in *; cbn [cs_sock]; congruence|]. split; auto. eapply csteady_suffix; eauto.
Qed.
Lemma drop_sent s : cs_held s = [] -> sent (drop_stream s) = sent s.
Proof. intros H. destruct (drop_stream_spec s) as (d & E & (x & P)). rewrite H in P. symmetry in P. apply app_eq_nil in P as [-> _]. now rewrite E, app_nil_r. Qed.

Definition all_streams (c : cconn) : list cstream := cc_dropped c ++ match cc_stream c with Some x => [x] | None => [] end.

Lemma sends_reach dbg qs : forall n s D outs n' c', cs_held s = [] -> csteady (cs_sock s) -> conn_sends dbg false n (mk_cconn (Some s) D) qs = (outs, n', c') ->
  exists q1 q2 s1 l, qs = q1 ++ q2 /\ (qs <> [] -> q1 <> []) /\ sent s1 = sent s ++ List.concat (map write_request q1) /\ all_streams c' = D ++ s1 :: l.
Proof.
  induction qs as [|q qs IH]; intros n s D outs n' c' H St E; cbn [conn_sends] in E.
  - inversion E; subst. exists [], [], s, []. split; auto. split; auto. split; [cbn; now rewrite app_nil_r|reflexivity].
  - destruct (conn_send dbg false n (mk_cconn (Some s) D) q) as [[r n1] c1] eqn:Eq. destruct (conn_sends dbg false n1 c1 qs) as [[rs n2] c2] eqn:Er. inversion E; subst.
    unfold conn_send in Eq. cbn [cc_stream] in Eq. unfold first_attempt at 1 in Eq. cbn [cc_stream cc_dropped] in Eq. destruct (send_request dbg s q) as [r1 s1] eqn:Es.
    destruct (send_put _ _ _ _ _ St H Es) as (S1 & H1 & St1).
    assert (Same : c1 = mk_cconn (Some s1) D -> exists q1 q2 s2 l, q :: qs = q1 ++ q2 /\ (q :: qs <> [] -> q1 <> []) /\ sent s2 = sent s ++ List.concat (map write_request q1) /\ all_streams c' = D ++ s2 :: l).
    { intros ->. destruct (IH _ _ _ _ _ _ H1 St1 Er) as (q1 & q2 & s2 & l & -> & _ & A & B). exists (q :: q1), q2, s2, l. split; auto. split; [discriminate|]. split; auto.
      rewrite A, S1, <- app_assoc. reflexivity. }
    assert (Again : match connect false n (mk_cconn (Some s1) D) with (Some e, n2, c3) => (e, n2, c3) | (None, n2, c3) => let (r, c4) := first_attempt dbg c3 q in (r, n2, c4) end = (r, n1, c1) ->
      exists q1 q2 s2 l, q :: qs = q1 ++ q2 /\ (q :: qs <> [] -> q1 <> []) /\ sent s2 = sent s ++ List.concat (map write_request q1) /\ all_streams c' = D ++ s2 :: l).
    { unfold connect. destruct (create n) as [[k|s2] n2]; [intros X; inversion X; subst; now apply Same|]. cbn [cc_stream cc_dropped]. unfold first_attempt. cbn [cc_stream cc_dropped].
      destruct (send_request dbg s2 q) as [r3 s3]. intros X. inversion X; subst. destruct (conn_sends_dropped _ _ _ _ _ _ _ _ Er) as (l & Hl). cbn [cc_dropped] in Hl.
      exists [q], qs, (drop_stream s1), (l ++ match cc_stream c' with Some x => [x] | None => [] end). split; auto. split; [discriminate|]. split.
      - rewrite drop_sent, S1 by exact H1. cbn. now rewrite app_nil_r.
      - unfold all_streams. rewrite Hl, <- !app_assoc. reflexivity. }
    destruct r1; auto; apply Same; inversion Eq; auto.
Qed.

(** ** What the sends return *)

Lemma sends_all_read dbg qs : forall n s D answers rest j, List.length answers = List.length qs -> Forall ok_response answers -> cs_held s = [] -> csteady (cs_sock s) ->
  then_blocks (cs_in s) (List.concat (map write_response answers) ++ rest) j ->
  exists vs s', conn_sends dbg false n (mk_cconn (Some s) D) qs = (map COk vs, n, mk_cconn (Some s') D) /\ Forall2 same_response vs answers /\
    sent s' = sent s ++ List.concat (map write_request qs) /\ cs_held s' = [] /\ csteady (cs_sock s').
Proof.
  induction qs as [|q qs IH]; intros n s D answers rest j L Ok H St T.
  - destruct answers; [|discriminate]. exists [], s. cbn. rewrite app_nil_r. auto.
  - destruct answers as [|a answers]; [discriminate|]. inversion Ok as [|? ? Oa Oas]; subst. cbn [map List.concat] in T. rewrite <- app_assoc in T.
    destruct Oa as (G & Fi & Cl) eqn:Eo. clear Eo. destruct (response_reads_back a (List.concat (map write_response answers) ++ rest) G Fi Cl) as (a' & Ha & _).
    destruct (send_reads dbg s q a (List.concat (map write_response answers) ++ rest) St) as (v & s1 & E1 & Sm & S1 & H1 & St1 & _ & P1 & w & Tk).
    { repeat split; auto; apply G || apply Fi. } { eapply then_blocks_live; eauto. } { eapply then_blocks_in_time; eauto. }
    { intros x y Ex. destruct (then_blocks_no_interrupt _ _ _ _ _ T Ex). } { eapply then_blocks_pending; eauto. }
    assert (T1 : then_blocks (cs_in s1) (List.concat (map write_response answers) ++ rest) j).
    { pose proof (takes_pending _ _ _ Tk) as Tp. rewrite (then_blocks_pending _ _ _ T), P1 in Tp. apply app_inv_tail in Tp. subst w.
      apply takes_content in Tk; [|intros x y; eapply then_blocks_no_interrupt; eauto]. unfold then_blocks in *. rewrite T, map_app, <- app_assoc in Tk. now apply app_inv_head in Tk. }
    destruct (IH n s1 D answers rest j) as (vs & s' & E2 & F2 & S2 & H2 & St2); auto.
    exists (v :: vs), s'. cbn [conn_sends]. unfold conn_send. cbn [cc_stream]. unfold first_attempt. cbn [cc_stream cc_dropped]. rewrite E1, E2.
    split; [reflexivity|]. split; [constructor; auto|]. split; auto. rewrite S2, S1, H. cbn [app map List.concat]. now rewrite <- app_assoc.
Qed.

Lemma write_request_nonempty q : write_request q <> [].
Proof. rewrite write_request_eq. intros H. apply (f_equal (@List.length _)) in H. rewrite !app_length in H. cbn in H. lia. Qed.

Lemma sends_app dbg q1 : forall q2 n c, conn_sends dbg false n c (q1 ++ q2) =
  match conn_sends dbg false n c q1 with (r1, n1, c1) => match conn_sends dbg false n1 c1 q2 with (r2, n2, c2) => (r1 ++ r2, n2, c2) end end.
Proof.
  induction q1 as [|q q1 IH]; intros q2 n c; cbn [conn_sends app].
  - destruct (conn_sends dbg false n c q2) as [[r n2] c2]. reflexivity.
  - destruct (conn_send dbg false n c q) as [[r n1] c1]. rewrite IH. destruct (conn_sends dbg false n1 c1 q1) as [[r1 n2] c2]. destruct (conn_sends dbg false n2 c2 q2) as [[r2 n3] c3]. reflexivity.
Qed.

(** If there are as many responses as requests were transmitted on the first connection, all sends succeed on it. *)
Lemma sends_live dbg qs n s outs n' c' q1 s1 l answers rest j : cs_held s = [] -> csteady (cs_sock s) -> conn_sends dbg false n (mk_cconn (Some s) []) qs = (outs, n', c') ->
  all_streams c' = s1 :: l -> sent s1 = sent s ++ List.concat (map write_request q1) -> (exists q2, qs = q1 ++ q2) ->
  List.length answers = List.length q1 -> Forall ok_response answers -> then_blocks (cs_in s) (List.concat (map write_response answers) ++ rest) j ->
  q1 = qs /\ exists vs s', outs = map COk vs /\ Forall2 same_response vs answers /\ n' = n /\ c' = mk_cconn (Some s') [].
Proof.
  intros H St E Al Se (q2 & ->) L Ok T. destruct (sends_all_read dbg q1 n s [] answers rest j L Ok H St T) as (vs & s' & E1 & F & S1 & H1 & St1).
  rewrite sends_app, E1 in E. destruct (conn_sends dbg false n (mk_cconn (Some s') []) q2) as [[r2 n2] c2] eqn:E2. inversion E; subst.
  destruct (sends_reach _ _ _ _ _ _ _ _ H1 St1 E2) as (q3 & q4 & s3 & l3 & Hq & Ne & S3 & Al3). rewrite Al in Al3. cbn [app] in Al3. inversion Al3; subst s3 l3.
  assert (Z : q2 = []).
  { destruct q2 as [|q q2]; auto. exfalso. assert (N3 : q3 <> []) by (apply Ne; discriminate). rewrite Se, S1, <- app_assoc in S3. apply app_inv_head in S3.
    rewrite <- (app_nil_r (List.concat (map write_request q1))) in S3 at 1. apply app_inv_head in S3. destruct q3 as [|q3 q5]; [contradiction|]. cbn [map List.concat] in S3.
    symmetry in S3. apply app_eq_nil in S3 as [S3 _]. exact (write_request_nonempty _ S3). }
  clear Hq. subst q2. cbn [conn_sends] in E2. inversion E2; subst. rewrite app_nil_r. split; auto. exists vs, s'. rewrite app_nil_r. auto.
Qed.

(** ** The TLS stream *)

Definition shape (all : bytes) (t : tls) : Prop :=
  exists p j, ts_seen t = map inr p ++ repeat (inl WouldBlock) j /\ Forall (fun bs => bs <> []) p /\ List.concat p ++ yet t = all /\ (j <> 0%nat -> yet t = []).

Lemma repeat_snoc {A} (x : A) j : repeat x j ++ [x] = repeat x (S j).
Proof. induction j; cbn in *; auto. now f_equal. Qed.
Lemma idle_not_stuck t : idle t -> ~ stuck t -> yet t = [].
Proof.
  intros [(A & B & _)|[A B]] N; [unfold yet; now rewrite A, B|]. exfalso. apply N. right. split; auto. rewrite B. intros n [].
Qed.
Lemma way_shape seal all u t ws fs : way tls tls_read (tls_write seal) tls_flush u t ws fs -> ~ stuck u -> tidy [] t -> shape all t -> shape all u.
Proof.
  intros W Nu. induction W as [|n t x t' ws fs P E W IH|b t x t' ws fs P E W IH|t x t' ws fs E W IH]; intros T S; auto.
  - destruct (tls_read_tidy _ _ _ _ _ P T E) as (T' & Y & Se & Fi & Id). apply IH; auto. destruct S as (p & j & S1 & S2 & S3 & S4).
    destruct x as [k|bs]; cbn [read_bytes app fine_read] in *.
    + subst k. exists p, (S j). rewrite Se, S1, <- app_assoc, repeat_snoc. split; auto. split; auto. rewrite <- Y. split; auto. intros _. rewrite Y.
      apply idle_not_stuck; [now apply Id|]. intros X. apply Nu. exact (tls_way_stuck _ _ _ _ _ W (tidy_calm _ _ T') X).
    + destruct j as [|j].
      * exists (p ++ [bs]), 0%nat. rewrite Se, S1. cbn [repeat]. rewrite !app_nil_r, map_app. split; auto. split; [apply Forall_app; auto|].
        split; [|congruence]. rewrite concat_app. cbn [List.concat]. rewrite app_nil_r, <- app_assoc, <- Y. exact S3.
      * exfalso. rewrite S4 in Y by discriminate. symmetry in Y. apply app_eq_nil in Y as [Y _]. contradiction.
  - destruct (tls_write_tidy _ _ _ _ _ _ T E) as (T' & Y & Se & _). apply IH; auto. unfold shape in *. rewrite Se, Y. exact S.
  - destruct (tls_flush_tidy _ _ _ _ T E) as (T' & Y & Se & _). apply IH; auto. unfold shape in *. rewrite Se, Y. exact S.
Qed.
Lemma shape_gave all t : shape all t -> exists b j, gave t = map Byte b ++ repeat (Failure WouldBlock) j /\ b ++ yet t = all /\ (j <> 0%nat -> yet t = []).
Proof.
  intros (p & j & S1 & S2 & S3 & S4). exists (List.concat p), j. split; auto. unfold gave. rewrite S1, flat_map_app. f_equal.
  - clear - S2. induction S2 as [|bs p Hb F IH]; auto. cbn [map flat_map List.concat]. rewrite IH, map_app. destruct bs; [contradiction|]. reflexivity.
  - clear. induction j; auto. cbn [repeat flat_map app]. now f_equal.
Qed.

(** ** The server *)

Lemma plain_all_served rt rs : Forall plain_request rs -> (forall r, In r rs -> ~ asks_close r) ->
  forall h, exists l, served rt h (List.concat (map write_request rs)) false l (replies rt h l) true /\ Forall2 same_request l rs.
Proof.
  induction rs as [|r rs IH]; intros F A h.
  - exists []. split; auto. eapply served_wait. reflexivity.
  - inversion F as [|? ? F1 F2]; subst. cbn [map List.concat]. destruct F1 as (G & Fi & Asc). destruct (request_reads_back r (List.concat (map write_request rs)) G Fi) as (r' & Hr & Sr).
    assert (Un : ~ asks_close r').
    { intros (vs & K1 & K2). apply (A r); [now left|]. destruct Sr as (_ & _ & Hm & _). exists vs. rewrite <- Hm. auto. }
    destruct (IH F2 (fun r I => A r (or_intror I)) (h ++ [r'])) as (l & Sv & F3). exists (r' :: l). split; auto. cbn [replies]. eapply served_next; eauto.
Qed.

Lemma carries_data_all out rs : Forall2 carries out rs -> data_of out = app_of rs.
Proof.
  intros F. destruct (wire_data out rs) as (x & E); [exists out, []; now rewrite app_nil_r|]. induction F as [|p r out rs C F IH]; auto.
  inversion C; subst; cbn [data_of app_of flat_map app] in *; unfold data_of, app_of in *; eauto. rewrite <- app_assoc in E. apply app_inv_head in E. f_equal. eauto.
Qed.
