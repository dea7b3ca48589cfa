(** Clients whose sends all return responses, on TLS streams whatever their sockets do. *)
From Coq Require Import List Ascii String NArith ZArith Bool Lia.
From Verif.Model Require Import Bytes Io Common Parse Encode Writer Server Client Generic Buffered Streams Tls ClientStreams Secure.
From Verif.Spec Require Import Batch Stream Drive Numerals Grammar Wire Output Unicode Session Exchange Dialogue Buffering Streams.
From Verif.Spec Require Import Tls ClientStreams Secure Https.
From Verif.Proofs Require Import BytesFacts IoFacts ParseFacts DriveFacts CallFacts BatchFacts LimitGrammar EncodeFacts ClientFacts WorldFacts BufferedFacts RecutFacts StreamsFacts TlsFacts ClientStreamsFacts SecureFacts.
From Verif.Properties Require Import Streaming RoundTrip.
Import ListNotations.
Local Open Scope N_scope.

(** ** The results of a client *)

Lemma done_first dbg s answers y v i : Forall ok_response answers ->
  pending s ++ y = List.concat (map write_response answers) -> resp_parse dbg resp_new s = (PDone v, i) ->
  exists a answers', answers = a :: answers' /\ same_response v a /\ pending i ++ y = List.concat (map write_response answers').
Proof.
  intros F E Ep. assert (Hi : msg_inv 0 resp_new) by apply line_inv_nil.
  destruct (resp_parser_ok dbg 0 _ _ _ _ Hi Ep) as (w & [[T C]|[T (n & C)]]); pose proof (takes_pending _ _ _ T) as Tp; rewrite Tp, <- app_assoc in E.
  - change (forall x, batch_response (w ++ x) = Complete v x) in C. specialize (C (pending i ++ y)). rewrite E in C.
    destruct answers as [|a answers]; [vm_compute in C; discriminate|]. inversion F as [|? ? (G & Fi & L) F']; subst. cbn [map List.concat] in C.
    destruct (response_reads_back a (List.concat (map write_response answers)) G Fi L) as (a' & Ha & Sa). rewrite Ha in C. inversion C; subst. eauto.
  - exfalso. change (batch_response w = AtEof v n) in C. destruct (batch_response_eof_ext _ _ _ (pending (RData [] :: i) ++ y) C) as (v' & n' & K). rewrite E in K.
    destruct answers as [|a answers]; [vm_compute in K; discriminate|]. inversion F as [|? ? (G & Fi & L) F']; subst. cbn [map List.concat] in K.
    destruct (response_reads_back a (List.concat (map write_response answers)) G Fi L) as (a' & Ha & Sa). congruence.
Qed.

Lemma conn_send_dropped dbg zt n c q r n' c' : conn_send dbg zt n c q = (r, n', c') -> exists l, cc_dropped c' = cc_dropped c ++ l.
Proof.
  assert (Co : forall n c e n1 c1, connect zt n c = (e, n1, c1) -> exists l, cc_dropped c1 = cc_dropped c ++ l).
  { intros n0 c0 e n1 c1. unfold connect. destruct (create n0) as [[k|s] n2]; [|destruct zt]; intros X; inversion X; subst; try (exists []; now rewrite app_nil_r). cbn. eauto. }
  assert (Fi : forall c r c1, first_attempt dbg c q = (r, c1) -> cc_dropped c1 = cc_dropped c).
  { intros c0 r0 c1. unfold first_attempt. destruct (cc_stream c0); [destruct (send_request dbg c2 q)|]; intros X; inversion X; subst; auto. }
  unfold conn_send. destruct (match cc_stream c with None => connect zt n c | Some _ => (None, n, c) end) as [[e n1] c1] eqn:E1.
  assert (H1 : exists l, cc_dropped c1 = cc_dropped c ++ l). { destruct (cc_stream c); [inversion E1; subst; exists []; now rewrite app_nil_r|eauto]. }
  destruct H1 as (l1 & H1). destruct e; [intros X; inversion X; subst; eauto|]. destruct (first_attempt dbg c1 q) as [r2 c2] eqn:E2. apply Fi in E2.
  assert (Again : match connect zt n1 c2 with (Some e, n2, c3) => (e, n2, c3) | (None, n2, c3) => let (r, c4) := first_attempt dbg c3 q in (r, n2, c4) end = (r, n', c') -> exists l, cc_dropped c' = cc_dropped c ++ l).
  { destruct (connect zt n1 c2) as [[e n2] c3] eqn:E3. destruct (Co _ _ _ _ _ E3) as (l3 & H3). destruct e.
    - intros X; inversion X; subst. rewrite H3, E2, H1, <- app_assoc. eauto.
    - destruct (first_attempt dbg c3 q) as [r4 c4] eqn:E4. apply Fi in E4. intros X; inversion X; subst. rewrite E4, H3, E2, H1, <- app_assoc. eauto. }
  destruct r2; auto; intros X; inversion X; subst; rewrite E2; eauto.
Qed.
Lemma conn_sends_dropped dbg zt qs : forall n c rs n' c', conn_sends dbg zt n c qs = (rs, n', c') -> exists l, cc_dropped c' = cc_dropped c ++ l.
Proof.
  induction qs as [|q qs IH]; intros n c rs n' c' E; cbn [conn_sends] in E; [inversion E; subst; exists []; now rewrite app_nil_r|].
  destruct (conn_send dbg zt n c q) as [[r n1] c1] eqn:E1. destruct (conn_sends dbg zt n1 c1 qs) as [[rs1 n2] c2] eqn:E2. inversion E; subst.
  apply conn_send_dropped in E1 as (l1 & H1). destruct (IH _ _ _ _ _ E2) as (l2 & H2). rewrite H2, H1, <- app_assoc. eauto.
Qed.

(** A send that returns a response without a new connection. *)
Lemma conn_send_once dbg zt n c s q v n' c' : cc_stream c = Some s -> cc_dropped c' = cc_dropped c ->
  conn_send dbg zt n c q = (COk v, n', c') -> n' = n /\ exists s', send_request dbg s q = (COk v, s') /\ c' = mk_cconn (Some s') (cc_dropped c).
Proof.
  intros Es D. unfold conn_send. rewrite Es. unfold first_attempt at 1. rewrite Es. destruct (send_request dbg s q) as [r1 s1] eqn:E1.
  assert (Again : match connect zt n (mk_cconn (Some s1) (cc_dropped c)) with (Some e, n2, c3) => (e, n2, c3) | (None, n2, c3) => let (r, c4) := first_attempt dbg c3 q in (r, n2, c4) end = (COk v, n', c') -> False).
  { unfold connect. destruct (create n) as [[k|s2] n2]; [discriminate|]. destruct zt; [discriminate|]. cbn [cc_stream cc_dropped]. unfold first_attempt. cbn [cc_stream cc_dropped].
    destruct (send_request dbg s2 q) as [r3 s3]. intros X. inversion X; subst. cbn in D. rewrite <- (app_nil_r (cc_dropped c)) in D at 2. apply app_inv_head in D. discriminate. }
  destruct r1; try (intros X; destruct (Again X)); [|discriminate]. intros X; inversion X; subst. eauto.
Qed.

(** If all sends return responses, without a new connection, and what the stream has is a front part of responses, these are the first of them. *)
Lemma sends_first dbg zt qs : forall n c s vs n' c' answers y, cc_stream c = Some s -> conn_sends dbg zt n c qs = (map COk vs, n', c') ->
  cc_dropped c' = cc_dropped c -> Forall ok_response answers -> pending (cs_in s) ++ y = List.concat (map write_response answers) ->
  exists a1 a2, answers = a1 ++ a2 /\ Forall2 same_response vs a1.
Proof.
  induction qs as [|q qs IH]; intros n c s vs n' c' answers y Es E D F P; cbn [conn_sends] in E.
  - inversion E as [[E1 E2 E3]]. destruct vs; [|discriminate]. exists [], answers. auto.
  - destruct (conn_send dbg zt n c q) as [[r n1] c1] eqn:Eq. destruct (conn_sends dbg zt n1 c1 qs) as [[rs n2] c2] eqn:Er.
    inversion E as [[E1 E2 E3]]. destruct vs as [|v vs]; [discriminate|]. cbn [map] in E1. inversion E1; subst.
    assert (D1 : cc_dropped c1 = cc_dropped c).
    { destruct (conn_send_dropped _ _ _ _ _ _ _ _ Eq) as (l1 & H1). destruct (conn_sends_dropped _ _ _ _ _ _ _ _ Er) as (l2 & H2).
      rewrite H2, H1, <- app_assoc in D. rewrite <- (app_nil_r (cc_dropped c)) in D at 2. apply app_inv_head in D. apply app_eq_nil in D as [-> _]. now rewrite H1, app_nil_r. }
    destruct (conn_send_once _ _ _ _ _ _ _ _ _ Es D1 Eq) as (-> & s1 & Sr & ->).
    unfold send_request in Sr. destruct (put_request s q) as [rw s2] eqn:Ep. apply put_request_spec in Ep as (Hin & _ & _ & b1 & b2 & _ & _ & Hw).
    destruct rw as [u|k]; [|discriminate]. destruct (resp_parse dbg resp_new (cs_in s2)) as [x i] eqn:Ex.
    destruct x as [v'| | |]; try discriminate. inversion Sr; subst. rewrite Hin in Ex.
    destruct (done_first _ _ _ _ _ _ F P Ex) as (a & answers' & -> & Sm & P'). inversion F; subst.
    destruct (IH n (mk_cconn (Some (mk_cstream i (cs_held s2) (cs_sock s2))) (cc_dropped c)) (mk_cstream i (cs_held s2) (cs_sock s2)) vs n' c' answers' y eq_refl Er) as (a1 & a2 & -> & F2); auto.
    exists (a :: a1), a2. split; auto.
Qed.

(** Then all the requests were transmitted, whatever the stream has. *)
Lemma sends_sent dbg zt qs : forall n c s vs n' c', cc_stream c = Some s -> conn_sends dbg zt n c qs = (map COk vs, n', c') ->
  cc_dropped c' = cc_dropped c -> cs_held s = [] ->
  exists s', cc_stream c' = Some s' /\ sent s' = sent s ++ List.concat (map write_request qs) /\ List.length vs = List.length qs.
Proof.
  induction qs as [|q qs IH]; intros n c s vs n' c' Es E D H; cbn [conn_sends] in E.
  - inversion E as [[E1 E2 E3]]. destruct vs; [|discriminate]. subst. exists s. cbn. rewrite app_nil_r. auto.
  - destruct (conn_send dbg zt n c q) as [[r n1] c1] eqn:Eq. destruct (conn_sends dbg zt n1 c1 qs) as [[rs n2] c2] eqn:Er.
    inversion E as [[E1 E2 E3]]. destruct vs as [|v vs]; [discriminate|]. cbn [map] in E1. inversion E1; subst.
    assert (D1 : cc_dropped c1 = cc_dropped c).
    { destruct (conn_send_dropped _ _ _ _ _ _ _ _ Eq) as (l1 & H1). destruct (conn_sends_dropped _ _ _ _ _ _ _ _ Er) as (l2 & H2).
      rewrite H2, H1, <- app_assoc in D. rewrite <- (app_nil_r (cc_dropped c)) in D at 2. apply app_inv_head in D. apply app_eq_nil in D as [-> _]. now rewrite H1, app_nil_r. }
    destruct (conn_send_once _ _ _ _ _ _ _ _ _ Es D1 Eq) as (-> & s1 & Sr & ->).
    pose proof (attempt_added _ _ _ _ _ Sr) as (_ & _ & Ad). specialize (Ad v eq_refl). unfold all_added in Ad. cbn [sent_of held_of] in Ad.
    assert (Hh : cs_held s1 = []).
    { unfold send_request in Sr. destruct (put_request s q) as [rw s2] eqn:Ep. apply put_request_spec in Ep as (_ & _ & _ & b1 & b2 & _ & _ & Hw).
      destruct rw as [u|k]; [|discriminate]. destruct Hw as [_ Hh]. destruct (resp_parse dbg resp_new (cs_in s2)) as [x i]. inversion Sr; subst. exact Hh. }
    destruct (IH n (mk_cconn (Some s1) (cc_dropped c)) s1 vs n' c' eq_refl Er D Hh) as (s' & Es' & St & Ln).
    exists s'. split; auto. split; [|cbn; congruence]. rewrite St, Ad, H. cbn [app map List.concat]. now rewrite <- app_assoc.
Qed.

(** ** What a TLS stream gives, whatever its socket does *)

Definition gives (all : bytes) (t : tls) : Prop :=
  (ts_bad t = false -> reads (ts_seen t) ++ ts_plain t ++ app_of (recs (ts_rx t)) = all) /\ exists x, reads (ts_seen t) ++ ts_plain t ++ x = all.

Section Gives.
Variable all : bytes.
Lemma gives_absorb1 t r rs : (ts_bad t = false -> reads (ts_seen t) ++ ts_plain t ++ app_of (r :: rs) ++ app_of (recs (ts_rx t)) = all) ->
  (exists x, reads (ts_seen t) ++ ts_plain t ++ x = all) ->
  (ts_bad (absorb1 t r) = false -> reads (ts_seen (absorb1 t r)) ++ ts_plain (absorb1 t r) ++ app_of rs ++ app_of (recs (ts_rx (absorb1 t r))) = all) /\
  (exists x, reads (ts_seen (absorb1 t r)) ++ ts_plain (absorb1 t r) ++ x = all).
Proof.
  intros H1 H2. unfold absorb1. destruct (ts_bad t) eqn:Eb; [split; auto; congruence|]. specialize (H1 eq_refl).
  destruct r as [l y|d| |]; cbn [ts_bad ts_seen ts_plain ts_rx app_of flat_map app] in *; [auto| |auto|split; [discriminate|auto]].
  destruct (ts_hs t); cbn [ts_bad ts_seen ts_plain ts_rx]; [split; [discriminate|auto]|]. fold (app_of rs) in H1. rewrite <- app_assoc in H1. split; [intros _; now rewrite <- app_assoc|].
  eexists. rewrite <- app_assoc. exact H1.
Qed.
Lemma gives_absorb rs : forall t, (ts_bad t = false -> reads (ts_seen t) ++ ts_plain t ++ app_of rs ++ app_of (recs (ts_rx t)) = all) ->
  (exists x, reads (ts_seen t) ++ ts_plain t ++ x = all) -> gives all (absorb t rs).
Proof.
  induction rs as [|r rs IH]; intros t H1 H2; [split; auto|]. change (absorb t (r :: rs)) with (absorb (absorb1 t r) rs).
  destruct (gives_absorb1 t r rs H1 H2) as [A B]. now apply IH.
Qed.
Lemma gives_same t t' : ts_bad t' = ts_bad t -> ts_seen t' = ts_seen t -> ts_plain t' = ts_plain t -> recs (ts_rx t') = recs (ts_rx t) -> gives all t -> gives all t'.
Proof. unfold gives. intros -> -> -> ->. auto. Qed.
Lemma gives_drain t e t' : tls_drain t = (e, t') -> gives all t -> gives all t'.
Proof. unfold tls_drain. destruct (drain (ts_tx t) (ts_queue t) (ts_out t)) as [e0 [[tx q] out]]. intros E. inversion E; subst. now apply gives_same. Qed.
Lemma gives_gasp t : gives all t -> gives all (last_gasp t).
Proof. unfold last_gasp. destruct (ts_tx t) as [|[n|k] tx]; auto. destruct (take_out n (ts_queue t) (ts_out t)). now apply gives_same. Qed.
Lemma gives_io n until : forall rd t x t', io_loop n until rd t = (x, t') -> gives all t -> gives all t'.
Proof.
  induction n as [|n IH]; intros rd t x t' E G; cbn [io_loop] in E; [inversion E; subst; auto|].
  destruct (tls_drain t) as [e t1] eqn:Ed. pose proof (gives_drain _ _ _ Ed G) as G1. destruct e as [k|]; [inversion E; subst; auto|].
  destruct (negb until && _); [inversion E; subst; auto|].
  assert (Go : forall (eof rd' : bool) t2, gives all t2 ->
    (if ts_bad t2 then (inl InvalidData, last_gasp t2) else if negb until then (inr rd', t2) else if negb (ts_hs t2) then (inr rd', t2)
     else if eof then (inl UnexpectedEof, t2) else io_loop n until rd' t2) = (x, t') -> gives all t').
  { intros eof rd' t2 G2. destruct (ts_bad t2); [intros X; inversion X; subst; now apply gives_gasp|]. destruct (negb until); [intros X; inversion X; subst; auto|].
    destruct (negb (ts_hs t2)); [intros X; inversion X; subst; auto|]. destruct eof; [intros X; inversion X; subst; auto|]. intros X. eapply IH; eauto. }
  destruct (ts_plain t1) as [|c p] eqn:Ep; [|exact (Go false rd _ G1 E)].
  destruct (ts_rx t1) as [|[rs| |k] rx] eqn:Er.
  - inversion E; subst; auto.
  - refine (Go false true _ _ E). apply gives_absorb; cbn [set_rx ts_bad ts_seen ts_plain ts_rx]; [|apply G1].
    intros B. destruct G1 as [G1 _]. specialize (G1 B). rewrite Er in G1. cbn [recs flat_map] in G1. rewrite app_of_app in G1. exact G1.
  - refine (Go true rd _ _ E). eapply gives_same; [| | | |exact G1]; cbn; auto. now rewrite Er.
  - inversion E; subst. eapply gives_same; [| | | |exact G1]; cbn; auto. now rewrite Er.
Qed.
Lemma gives_complete t x t' : complete_io t = (x, t') -> gives all t -> gives all t'.
Proof. apply gives_io. Qed.
Lemma gives_prior t x t' : prior t = (x, t') -> gives all t -> gives all t'.
Proof.
  unfold prior. intros E G. destruct (if ts_hs t then complete_io t else (inr false, t)) as [y t1] eqn:E1.
  assert (G1 : gives all t1) by (destruct (ts_hs t); [eapply gives_complete; eauto|inversion E1; subst; auto]).
  destruct y; [inversion E; subst; auto|]. destruct (wants_write t1); [|inversion E; subst; auto].
  destruct (complete_io t1) as [y t2] eqn:E2. apply gives_complete in E2; auto. destruct y; inversion E; subst; auto.
Qed.
Lemma gives_loop n : forall t x t', read_loop n t = (x, t') -> gives all t -> gives all t'.
Proof.
  induction n as [|n IH]; intros t x t' E G; cbn [read_loop] in E; destruct (ts_plain t) eqn:Ep; try (inversion E; subst; auto; fail).
  destruct (complete_io t) as [y t1] eqn:E1. apply gives_complete in E1; auto. destruct y as [k|[|]]; [inversion E; subst; auto|eauto|inversion E; subst; auto].
Qed.
Lemma reads_snoc l x : reads (l ++ [x]) = reads l ++ read_bytes x.
Proof. unfold reads. rewrite flat_map_app. cbn. now rewrite app_nil_r. Qed.
Lemma gives_err t k : gives all t -> gives all (set_plain t (ts_plain t) (ts_seen t ++ [inl k])).
Proof. unfold gives. cbn [set_plain ts_bad ts_seen ts_plain ts_rx]. rewrite reads_snoc. cbn [read_bytes]. now rewrite app_nil_r. Qed.
Lemma gives_read n t x t' : tls_read n t = (x, t') -> gives all t -> gives all t'.
Proof.
  unfold tls_read. intros E G. destruct (prior t) as [y t1] eqn:Ep. apply gives_prior in Ep; auto. destruct y as [k|]; [inversion E; subst; now apply gives_err|].
  destruct (read_loop (S (List.length (ts_rx t1))) t1) as [y t2] eqn:Er. apply gives_loop in Er; auto. destruct y as [k|]; [inversion E; subst; now apply gives_err|].
  destruct (ts_plain t2) as [|c p] eqn:Ep2.
  - destruct (ts_closed t2); inversion E; subst; [now apply gives_err|]. unfold gives in *. cbn [set_plain ts_bad ts_seen ts_plain ts_rx].
    rewrite reads_snoc. cbn [read_bytes]. now rewrite app_nil_r.
  - inversion E; subst. unfold gives in *. cbn [set_plain ts_bad ts_seen ts_plain ts_rx]. rewrite reads_snoc. cbn [read_bytes].
    rewrite Ep2 in Er. destruct Er as [A (z & B)].
    assert (K : forall w, (reads (ts_seen t2) ++ firstn (N.to_nat n) (c :: p)) ++ skipn (N.to_nat n) (c :: p) ++ w = reads (ts_seen t2) ++ (c :: p) ++ w).
    { intros w. rewrite <- app_assoc, (app_assoc (firstn _ _)), firstn_skipn. reflexivity. }
    split; [intros X; now rewrite K, A|exists z; now rewrite K].
Qed.
Lemma gives_push t cs : gives all t -> gives all (push t cs).
Proof. now apply gives_same. Qed.
Lemma gives_write seal b t x t' : tls_write seal b t = (x, t') -> gives all t -> gives all t'.
Proof.
  unfold tls_write. intros E G. destruct (prior t) as [y t1] eqn:Ep. apply gives_prior in Ep; auto. destruct y as [k|]; [inversion E; subst; auto|].
  destruct (complete_io (push t1 (seal b))) as [y t2] eqn:Ei. apply gives_complete in Ei; [|now apply gives_push]. inversion E; subst; auto.
Qed.
Lemma gives_flush t x t' : tls_flush t = (x, t') -> gives all t -> gives all t'.
Proof.
  unfold tls_flush. intros E G. destruct (prior t) as [y t1] eqn:Ep. apply gives_prior in Ep; auto. destruct y as [k|]; [inversion E; subst; auto|].
  destruct (wants_write t1); [|inversion E; subst; auto]. destruct (complete_io t1) as [y t2] eqn:Ei. apply gives_complete in Ei; auto. destruct y; inversion E; subst; auto.
Qed.
Lemma gives_way seal u t ws fs : way tls tls_read (tls_write seal) tls_flush u t ws fs -> gives all t -> gives all u.
Proof.
  intros W. induction W as [|n t x t' ws fs P E W IH|b t x t' ws fs P E W IH|t x t' ws fs E W IH]; intros G; auto.
  - apply IH. eapply gives_read; eauto.
  - apply IH. eapply gives_write; eauto.
  - apply IH. eapply gives_flush; eauto.
Qed.
End Gives.

(** The bytes in what was read. *)
Definition bytes_of (l : list what) : bytes := flat_map (fun w => match w with Byte b => [b] | _ => [] end) l.
Lemma bytes_of_app a b : bytes_of (a ++ b) = bytes_of a ++ bytes_of b.
Proof. apply flat_map_app. Qed.
Lemma bytes_of_map bs : bytes_of (map Byte bs) = bs.
Proof. induction bs as [|b bs IH]; cbn; auto. now f_equal. Qed.
Lemma bytes_of_content s : bytes_of (content s) = pending s.
Proof.
  induction s as [|e s IH]; auto. unfold content in *. cbn [flat_map]. rewrite bytes_of_app, IH. destruct e as [[|b bs]|k]; cbn [content_of pending]; auto.
  f_equal. exact (bytes_of_map (b :: bs)).
Qed.
Lemma bytes_of_gave t : bytes_of (gave t) = reads (ts_seen t).
Proof.
  unfold gave, reads. induction (ts_seen t) as [|x l IH]; auto. cbn [flat_map]. rewrite bytes_of_app, IH. destruct x as [k|[|b bs]]; cbn [read_bytes content_of]; auto.
  f_equal. exact (bytes_of_map (b :: bs)).
Qed.

(** ** The wire *)

Lemma wire_data out rs : wire out rs -> exists x, data_of out = app_of rs ++ x.
Proof.
  intros (a & b & -> & F). exists (data_of b). rewrite data_of_app. f_equal. induction F as [|p r a rs C F IH]; auto.
  inversion C; subst; cbn [data_of app_of flat_map app]; unfold data_of, app_of in IH; rewrite IH; auto.
Qed.
