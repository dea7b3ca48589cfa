(** C85: how long a send waits. *)
From Coq Require Import List Ascii String Arith NArith Bool Lia.
From Coq Require Import ZifyBool ZifyNat ZifyN.
From Verif.Model Require Import Bytes Io Common Parse Encode Writer Client.
From Verif.Spec Require Import Batch Stream Wire Output Exchange.
From Verif.Proofs Require Import BytesFacts IoFacts ParseFacts CallFacts LimitFacts EncodeFacts ClientFacts FrugalFacts.
From Verif.Properties Require Import RoundTrip Client.
Import ListNotations.
Local Open Scope N_scope.

(** ** C85 *)

(** The reads that the streams of a connection and of the streams it will open can still answer: each is one wait of at most the time-out. *)
Definition reads_left (n : net) (c : cconn) : nat :=
  (list_sum (map (fun r => match r with inl _ => 0 | inr s => List.length (cs_in s) end) n) +
   match cc_stream c with Some s => List.length (cs_in s) | None => 0 end +
   list_sum (map (fun s => List.length (cs_in s)) (cc_dropped c)))%nat.
Definition bytes_left (n : net) (c : cconn) : nat :=
  (list_sum (map (fun r => match r with inl _ => 0 | inr s => List.length (pending (cs_in s)) end) n) +
   match cc_stream c with Some s => List.length (pending (cs_in s)) | None => 0 end +
   list_sum (map (fun s => List.length (pending (cs_in s))) (cc_dropped c)))%nat.

(** No read is interrupted by a signal. *)
Definition no_signals (n : net) (c : cconn) : Prop :=
  Forall (fun r => match r with inl _ => True | inr s => ~ In (RErr Interrupted) (cs_in s) end) n /\
  match cc_stream c with Some s => ~ In (RErr Interrupted) (cs_in s) | None => True end.

Lemma send_request_frugal dbg s q r s' : send_request dbg s q = (r, s') ->
  (N.of_nat (List.length (pending (cs_in s))) <= N.of_nat (List.length (pending (cs_in s'))) + 3150336) /\
  (~ In (RErr Interrupted) (cs_in s) -> N.of_nat (List.length (cs_in s)) <= N.of_nat (List.length (cs_in s')) + 3150337).
Proof.
  unfold send_request. destruct (put_request s q) as [rw s1] eqn:Eq. apply put_request_spec in Eq as (Hin & _). rewrite <- Hin.
  destruct rw as [[]|k].
  - destruct (resp_parse dbg resp_new (cs_in s1)) as [pr i] eqn:Ep. apply resp_frugal in Ep as (w & Le & En); [|apply line_inv_nil|left; exact I].
    intros E. inversion E; subst. cbn [cs_in]. cbn [allowance resp_new] in Le. unfold len in Le. split.
    + rewrite (ends_pending _ _ _ En), app_length. lia.
    + intros No. apply ends_events in En; auto. lia.
  - intros E. inversion E; subst. split; [lia|intros; lia].
Qed.

Lemma drop_same s : cs_in (drop_stream s) = cs_in s.
Proof. unfold drop_stream. destruct (bw_flush_buf (cs_held s) (cs_sock s)) as [[r b] k]. reflexivity. Qed.

Lemma list_sum_cons a l : list_sum (a :: l) = (a + list_sum l)%nat.
Proof. reflexivity. Qed.
Lemma list_sum_nil : list_sum [] = 0%nat.
Proof. reflexivity. Qed.

Lemma connect_left n c r n1 c1 : connect false n c = (r, n1, c1) ->
  reads_left n c = reads_left n1 c1 /\ bytes_left n c = bytes_left n1 c1 /\ (no_signals n c -> no_signals n1 c1).
Proof.
  assert (X : forall n1 (c : cconn) s, reads_left (inr s :: n1) c =
      reads_left n1 (mk_cconn (Some s) (cc_dropped c ++ match cc_stream c with Some o => [drop_stream o] | None => [] end)) /\
    bytes_left (inr s :: n1) c =
      bytes_left n1 (mk_cconn (Some s) (cc_dropped c ++ match cc_stream c with Some o => [drop_stream o] | None => [] end)) /\
    (no_signals (inr s :: n1) c -> no_signals n1 (mk_cconn (Some s) (cc_dropped c ++ match cc_stream c with Some o => [drop_stream o] | None => [] end)))).
  { intros n2 c2 s. unfold reads_left, bytes_left, no_signals. cbn [map cc_stream cc_dropped]. rewrite !map_app, !list_sum_app, !list_sum_cons.
    destruct (cc_stream c2) as [o|]; cbn [map]; rewrite ?list_sum_cons, ?list_sum_nil, ?drop_same;
      (split; [lia|]); (split; [lia|]); intros [A B]; inversion A; subst; split; auto. }
  assert (Y : forall k n1 (c : cconn), reads_left (inl k :: n1) c = reads_left n1 c /\ bytes_left (inl k :: n1) c = bytes_left n1 c /\
    (no_signals (inl k :: n1) c -> no_signals n1 c)).
  { intros k n2 c2. unfold reads_left, bytes_left, no_signals. cbn [map]. rewrite !list_sum_cons. split; [lia|]. split; [lia|]. intros [A B]. inversion A; subst. split; auto. }
  unfold connect, create, tcp_connect. destruct n as [|[k|s] n].
  - intros E. inversion E; subst. auto.
  - destruct n as [|[k2|s] n]; intros E; inversion E; subst.
    + apply Y.
    + destruct (Y k (inl k2 :: n1) c1) as (A & B & C). destruct (Y k2 n1 c1) as (A' & B' & C'). rewrite A, B. auto.
    + destruct (Y k (inr s :: n1) c) as (A & B & C). destruct (X n1 c s) as (A' & B' & C'). rewrite A, B. auto.
  - intros E. inversion E; subst. apply X.
Qed.

Lemma attempt_left dbg n c q r c' : first_attempt dbg c q = (r, c') -> 
  N.of_nat (bytes_left n c) <= N.of_nat (bytes_left n c') + 3150336 /\
  (no_signals n c -> N.of_nat (reads_left n c) <= N.of_nat (reads_left n c') + 3150337).
Proof.
  unfold first_attempt. destruct (cc_stream c) as [s|] eqn:Es.
  - destruct (send_request dbg s q) as [r1 s1] eqn:E. apply send_request_frugal in E as [A B]. intros K. inversion K; subst.
    unfold reads_left, bytes_left, no_signals. rewrite Es. cbn [cc_stream cc_dropped]. split; [lia|]. intros [_ No]. specialize (B No). lia.
  - intros K. inversion K; subst. split; [lia|intros; lia].
Qed.

(** After a first attempt without a signal the second one is on another stream. *)
Lemma attempt_net dbg n c q r c' : first_attempt dbg c q = (r, c') -> no_signals n c ->
  Forall (fun r => match r with inl _ => True | inr s => ~ In (RErr Interrupted) (cs_in s) end) n.
Proof. intros _ [A _]. exact A. Qed.

(** Whatever the servers do, one send takes at most 6300672 bytes from its streams, and waits for at most 6300674 reads, two attempts of 512 bytes of
    first line, 4096 of headers and 3145728 of body each: with a read time-out it returns. *)
Theorem C85_bounded : forall dbg n c q r n' c', conn_send dbg false n c q = (r, n', c') ->
  N.of_nat (bytes_left n c) <= N.of_nat (bytes_left n' c') + 2 * 3150336 /\
  (no_signals n c -> N.of_nat (reads_left n c) <= N.of_nat (reads_left n' c') + 2 * 3150337).
Proof.
  intros dbg n c q r n' c'. unfold conn_send.
  assert (X : forall r1 n1 c1, (match cc_stream c with None => connect false n c | Some _ => (None, n, c) end) = (r1, n1, c1) ->
    reads_left n c = reads_left n1 c1 /\ bytes_left n c = bytes_left n1 c1 /\ (no_signals n c -> no_signals n1 c1)).
  { intros r1 n1 c1 E. destruct (cc_stream c); [inversion E; subst; auto|eapply connect_left; eauto]. }
  destruct (match cc_stream c with None => connect false n c | Some _ => (None, n, c) end) as [[[e|] n1] c1]; destruct (X _ _ _ eq_refl) as (A & B & C).
  - intros E. inversion E; subst. rewrite A, B. split; [lia|intros; lia].
  - rewrite A, B. destruct (first_attempt dbg c1 q) as [r1 c2] eqn:E1. destruct (attempt_left dbg n1 _ _ _ _ E1) as [P Q].
    pose proof (attempt_net dbg n1 _ _ _ _ E1) as Nn.
    assert (Y : (let '(r, n2, c') := match connect false n1 c2 with
        | (Some e, n2, c3) => (e, n2, c3)
        | (None, n2, c3) => let (r, c4) := first_attempt dbg c3 q in (r, n2, c4) end in (r, n2, c')) = (r, n', c') ->
      N.of_nat (bytes_left n1 c1) <= N.of_nat (bytes_left n' c') + 2 * 3150336 /\
      (no_signals n c -> N.of_nat (reads_left n1 c1) <= N.of_nat (reads_left n' c') + 2 * 3150337)).
    { destruct (connect false n1 c2) as [[o n2] c3] eqn:Ec. pose proof Ec as Ec2. apply connect_left in Ec as (A2 & B2 & _). destruct o as [e|].
      - intros E. inversion E; subst. split; [lia|]. intros No. specialize (Q (C No)). lia.
      - destruct (first_attempt dbg c3 q) as [r2 c4] eqn:E2. destruct (attempt_left dbg n2 _ _ _ _ E2) as [P2 Q2]. intros E. inversion E; subst.
        split; [lia|]. intros No. specialize (Q (C No)). specialize (Nn (C No)).
        assert (N3 : no_signals n' c3).
        { unfold connect, create, tcp_connect in Ec2. destruct n1 as [|[k|s] n1]; try discriminate.
          - destruct n1 as [|[k2|s] n1]; inversion Ec2; subst; inversion Nn; subst; inversion H2; subst; split; auto.
          - inversion Ec2; subst. inversion Nn; subst. split; auto. }
        specialize (Q2 N3). lia. }
    destruct r1; try (destruct (connect false n1 c2) as [[[e'|] n2] c3]; [exact Y|destruct (first_attempt dbg c3 q); exact Y]);
      intros E; inversion E; subst; (split; [lia|]); intros No; specialize (Q (C No)); lia.
Qed.
Print Assumptions C85_bounded.

(** One byte at a time. *)
Definition dripping (b : bytes) : stream := map (fun c => RData [c]) b.
Lemma dripping_flows b : flowing (dripping b).
Proof. apply Forall_forall. intros e H. apply in_map_iff in H as (c & <- & _). discriminate. Qed.
Lemma dripping_pending b : pending (dripping b) = b.
Proof. unfold dripping. induction b as [|c b IH]; cbn [map pending app]; [|rewrite IH]; reflexivity. Qed.

(** But the time-out is one of each read, not of the send: a server that sends its answer byte by byte, each byte just in time, is waited for once for
    each byte; the send succeeds in the end. *)
Theorem C85_one_timeout_refuted : forall dbg q a n, ok_response a ->
  let s := mk_cstream (dripping (write_response a)) [] open_sock in
  exists a' c', conn_send dbg false (inr s :: n) cconn_new q = (COk a', n, c') /\ same_response a' a /\
    reads_left [inr s] cconn_new = (reads_left [] c' + List.length (write_response a))%nat /\ (List.length (rs_body a) <= List.length (write_response a))%nat.
Proof.
  intros dbg q a n Ok s.
  destruct (C42_in_order_first dbg n [q] [a] s []) as (rs' & c' & s' & E & F & Es & Hd & Sn); auto.
  - discriminate.
  - apply open_steady.
  - now split.
  - apply dripping_flows.
  - cbn [s cs_in map List.concat]. now rewrite dripping_pending, !app_nil_r.
  - cbn [conn_sends] in E. destruct (conn_send dbg false (inr s :: n) cconn_new q) as [[r n1] c1] eqn:E1. inversion E as [[H1 H2 H3]].
    destruct rs' as [|a' rs']; [discriminate|]. inversion H1; subst. inversion F as [|? ? ? ? Sa Fr]; subst. exists a', c'.
    split; auto. split; auto.
    assert (L : cs_in s' = []).
    { destruct (send_reads dbg s q a [] open_steady Ok) as (r2 & s2 & X1 & _ & _ & _ & _ & L2 & P2 & w & T2); auto.
      - apply flowing_live, dripping_flows.
      - intros x y Exy. exfalso. pose proof (dripping_flows (write_response a)) as Fl. cbn [s cs_in] in Exy. rewrite Exy in Fl. apply Forall_app in Fl as [_ Fl]. inversion Fl; subst. contradiction.
      - apply flowing_no_interrupt, dripping_flows.
      - cbn [s cs_in]. now rewrite dripping_pending, app_nil_r.
      - cbn in E1. unfold conn_send in E1. cbn [cconn_new cc_stream connect create tcp_connect cc_dropped app] in E1. unfold first_attempt in E1. cbn [cc_stream] in E1.
        rewrite X1 in E1. inversion E1; subst. cbn in Es. inversion Es; subst. destruct (cs_in s') as [|e i] eqn:Ei; auto. exfalso.
        assert (Fl : flowing (e :: i)) by (eapply flowing_takes; [exact T2|]; apply dripping_flows).
        inversion Fl; subst. destruct e as [[|z zs]|]; cbn in *; try contradiction; discriminate. }
    split; [|rewrite write_response_eq, !app_length; lia].
    unfold reads_left. rewrite Es, L, Hd. cbn. unfold dripping. rewrite map_length. lia.
Qed.
Print Assumptions C85_one_timeout_refuted.

(** So for every number of waits up to 1572864 there is an answer for which the send waits that often. *)
Example C85_case : forall n, n <= 1572864 -> exists a, ok_response a /\ (N.to_nat n <= List.length (write_response a))%nat.
Proof.
  intros n H. exists (response_of_body (repeat (ascii_of_nat 97) (N.to_nat n))).
  assert (L : len (repeat (ascii_of_nat 97) (N.to_nat n)) = n) by (unfold len; rewrite repeat_length; lia).
  destruct (conversion_good (response_of_body (repeat (ascii_of_nat 97) (N.to_nat n)))) as (G & F & C & _).
  - right. eexists. split; [reflexivity|]. rewrite L. lia.
  - split; [split; auto|]. rewrite write_response_eq, !app_length. cbn [rs_body response_of_body]. rewrite repeat_length. lia.
Qed.
