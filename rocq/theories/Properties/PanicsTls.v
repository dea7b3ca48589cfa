(** As Properties/Panics.v, for a server that listens with TLS.  C114. *)
From Coq Require Import List Ascii String Arith NArith ZArith Bool Lia.
From Verif.Model Require Import Bytes Io Common Parse Encode Writer Server Client Generic Buffered Slab Streams Tls Secure.
From Verif.Spec Require Import Batch Stream Drive Numerals Grammar Wire Output Unicode Session Exchange Buffering Streams Oversize Spoken Panics.
From Verif.Proofs Require Import DriveFacts ServerFacts BufferedFacts BufferedConnFacts RecutFacts StreamsFacts TlsFacts LocksFacts SecureFacts UnwindFacts PanicFacts.
From Verif.Properties Require Import Streaming RoundTrip Server Client Buffered Reference Streams Tls Secure Oversize Spoken SecureLimits Panics SpokenTls.
From Verif.Spec Require Import Tls Secure.
Import ListNotations.
Local Open Scope nat_scope.

(** After every step of the https server, in either build, with any listeners: what TLS got to send to a peer, in records that
    reached the socket, is a first part of the answers to its own requests, up to one at which a listener panicked. *)
Theorem C114_https : forall seal size fuel dbg rt n m ls st c x, positive size -> seals seal ->
  srun seal size fuel dbg rt (s_init n m) ls st -> nth_error (ss_conns st) c = Some x ->
  sound true (reached c ls) -> whole_chars (app_of (reached c ls)) ->
  first_of (app_of (reached c ls)) (sn_log x) /\ (sn_poisoned x = false -> unharmed (rt c) [] (sn_log x)) /\
  exists out later, sayable_or_panic (rt c) (app_of (reached c ls)) false (sn_log x) out /\ out = out_of x ++ later.
Proof.
  intros seal size fuel dbg rt n m ls st c x P Se Rn N So Wc.
  destruct (whole_inv _ _ _ _ _ _ _ _ _ Rn c x N []) as ((fs & F & V) & Fit & _); [now rewrite app_nil_r|].
  assert (H : has_read (reached c ls) x).
  { unfold conn_fits in Fit. destruct (sn_slot x) as [k|t|t] eqn:Es; [|exact Fit|exact Fit]. destruct Fit as (all & (_ & F1 & F2) & A).
    unfold has_read. rewrite Es. split; [exact F1|]. cbn [stream_of]. eexists. rewrite <- A, <- F2, <- app_assoc. reflexivity. }
  destruct H as [Fr (rest & Er)]. destruct (events_fine _ Fr) as (E1 & E2 & E3).
  destruct (as_plain_sound _ _ _ _ _ c fs _ _ P Se F V) as (s & vs & st' & V' & Cs & F1 & F2 & M). rewrite events_content in Cs. fold (recut s (events (ts_seen (stream_of tls (sn_slot x))))) in Cs.
  assert (A : any_size false s).
  { apply (chars_any_size (app_of (reached c ls))); auto.
    - apply live_eof_false. eapply recut_live; [apply recut_sym; exact Cs|exact E1].
    - intros I. apply in_split in I as (s1 & s2 & I). destruct (recut_split _ _ _ _ _ Cs I) as (t1 & t2 & I2 & _). apply E2. rewrite I2. apply in_or_app. right. now left.
    - exists rest. rewrite (recut_pending _ _ Cs), E3. auto. }
  pose proof (C114_connection dbg (rt c) false s vs _ _ A F1 (or_introl F2) V') as K. rewrite (recut_pending _ _ Cs), E3 in K.
  rewrite out_delivered, <- Er. unfold sn_poisoned. destruct (sn_slot x) as [k|u|u] eqn:Es, st' as [d|sent|sent]; try contradiction; cbn [stream_of] in *.
  - destruct M as [M1 M2]. destruct K as (U & got & Eg & K & _). rewrite M1, app_nil_r in Eg. subst got.
    split; [apply first_of_more; eapply served_first; eauto|]. split; auto.
    rewrite M2 in K. unfold handed in K. rewrite <- app_assoc in K. eexists. eexists. split; [|reflexivity]. left. split; [exact U|].
    destruct (served_says _ _ _ _ _ _ _ K) as [E|(K' & _)]; [left; exact E|discriminate].
  - destruct K as (U & out & K & (lost & ->) & _). split; [apply first_of_more; destruct K as [K|(o & K & _)]; [eapply served_first; eauto|eapply too_big_first; eauto]|].
    split; auto. rewrite <- M in K. unfold handed in K. rewrite <- app_assoc in K. eexists. eexists. split; [|reflexivity]. left. split; [exact U|].
    destruct K as [K|(o & K & E)].
    + destruct (served_says _ _ _ _ _ _ _ K) as [E|(_ & E & Ff)]; [left; exact E|right; split; [exact E|now apply faulty_more]].
    + destruct (too_big_says _ _ _ _ _ K) as (E' & Ff). right. rewrite E, E'. split; [reflexivity|now apply faulty_more].
  - destruct K as (out & K & (lost & ->) & _). split; [apply first_of_more; destruct K as [K|(_ & _ & K)]; [eapply panics_first; eauto|eapply too_big_first; eauto]|].
    split; [discriminate|]. rewrite <- M in K. unfold handed in K. rewrite <- app_assoc in K. eexists. eexists. split; [|reflexivity].
    destruct K as [K|(_ & U & K)]; [right; exact (panics_says _ _ _ _ _ K)|left]. split; [exact U|]. left. exact (proj1 (too_big_says _ _ _ _ _ K)).
Qed.
Print Assumptions C114_https.

(** What the server has done for a peer that sent b, with any listeners: as the reference says, no listener having panicked; or b goes over
    the limits; or a listener panicked at one of its requests, and those before it were answered.  [more] is what was not delivered. *)
Definition done_with (dbg : bool) (r : router) (b : bytes) (x : sconn) (more : bytes) : Prop :=
  match sn_slot x with
  | TOpen _ _ => unharmed r [] (sn_log x) /\ served r [] b false (sn_log x) (out_of x ++ more) true
  | TGone _ _ => unharmed r [] (sn_log x) /\ (served r [] b false (sn_log x) (out_of x ++ more) false \/
      exists o, too_big r [] b (sn_log x) o /\ o ++ bad_request = out_of x ++ more)
  | TPoisoned _ _ => panics_at r [] b (sn_log x) (out_of x ++ more) \/
      dbg = true /\ unharmed r [] (sn_log x) /\ too_big r [] b (sn_log x) (out_of x ++ more)
  end.

Lemma done_with_so_far seal size fuel dbg rt n m ls st c x : positive size -> seals seal ->
  srun seal size fuel dbg rt (s_init n m) ls st -> nth_error (ss_conns st) c = Some x ->
  sound true (reached c ls) -> whole_chars (app_of (reached c ls)) ->
  exists rest more, reads (ts_seen (stream_of tls (sn_slot x))) ++ rest = app_of (reached c ls) /\
    done_with dbg (rt c) (reads (ts_seen (stream_of tls (sn_slot x)))) x more /\
    (forall k, sn_slot x = TOpen tls k -> ts_queue (tb_in tls (tc_stream tls k)) = [] -> unsent (tb_w tls (tc_stream tls k)) = [] -> more = []).
Proof.
  intros P Se Rn N So Wc.
  destruct (whole_inv _ _ _ _ _ _ _ _ _ Rn c x N []) as ((fs & F & V) & Fit & _); [now rewrite app_nil_r|].
  assert (H : has_read (reached c ls) x).
  { unfold conn_fits in Fit. destruct (sn_slot x) as [k|t|t] eqn:Es; [|exact Fit|exact Fit]. destruct Fit as (all & (_ & F1 & F2) & A).
    unfold has_read. rewrite Es. split; [exact F1|]. cbn [stream_of]. eexists. rewrite <- A, <- F2, <- app_assoc. reflexivity. }
  destruct H as [Fr (rest & Er)]. exists rest. destruct (events_fine _ Fr) as (E1 & E2 & E3).
  destruct (as_plain_sound _ _ _ _ _ c fs _ _ P Se F V) as (s & vs & st' & V' & Cs & F1 & F2 & M). rewrite events_content in Cs. fold (recut s (events (ts_seen (stream_of tls (sn_slot x))))) in Cs.
  assert (A : any_size false s).
  { apply (chars_any_size (app_of (reached c ls))); auto.
    - apply live_eof_false. eapply recut_live; [apply recut_sym; exact Cs|exact E1].
    - intros I. apply in_split in I as (s1 & s2 & I). destruct (recut_split _ _ _ _ _ Cs I) as (t1 & t2 & I2 & _). apply E2. rewrite I2. apply in_or_app. right. now left.
    - exists rest. rewrite (recut_pending _ _ Cs), E3. auto. }
  pose proof (C114_connection dbg (rt c) false s vs _ _ A F1 (or_introl F2) V') as K. rewrite (recut_pending _ _ Cs), E3 in K.
  unfold done_with. rewrite out_delivered. destruct (sn_slot x) as [k|u|u] eqn:Es, st' as [d|sent|sent]; try contradiction; cbn [stream_of] in *.
  - destruct M as [M1 M2]. destruct K as (U & got & Eg & K & _). rewrite M1, app_nil_r in Eg. subst got.
    exists (data_of (map ch_what (ts_queue (tb_in tls (tc_stream tls k)))) ++ unsent (tb_w tls (tc_stream tls k))).
    rewrite M2 in K. unfold handed in K. rewrite <- app_assoc in K. split; [exact Er|]. split; [split; [exact U|exact K]|]. intros k' X. inversion X; subst. intros -> ->. reflexivity.
  - destruct K as (U & out & K & (lost & ->) & _). rewrite <- M in K. unfold handed in K. rewrite <- app_assoc in K. eexists. split; [exact Er|]. split; [|discriminate].
    split; [exact U|]. destruct K as [K|(o & K & E)]; [left; exact K|]. right. exists o. split; [exact K|]. symmetry. exact E.
  - destruct K as (out & K & (lost & ->) & _). rewrite <- M in K. unfold handed in K. rewrite <- app_assoc in K. eexists. split; [exact Er|]. split; [|discriminate]. exact K.
Qed.

(** When nothing is left to do for a connection and its socket is not full, that is so of all that the peer sent, in either build, with any
    listeners, and whatever happened to the workers on other connections; if the connection is open every answer was delivered. *)
Theorem C114_https_quiet : forall seal size fuel dbg rt n m ls st c x, positive size -> seals seal ->
  srun seal size fuel dbg rt (s_init n m) ls st -> nth_error (ss_conns st) c = Some x ->
  sound true (reached c ls) -> whole_chars (app_of (reached c ls)) -> quiet st c -> sn_full x = false ->
  exists more, done_with dbg (rt c) (app_of (reached c ls)) x more /\ (sn_open x = true -> more = []).
Proof.
  intros seal size fuel dbg rt n m ls st c x P Se Rn N So Wc (Q1 & Q2 & Q3) Full. destruct (done_with_so_far _ _ _ _ _ _ _ _ _ _ _ P Se Rn N So Wc) as (rest & more & E & S & M).
  destruct (sn_slot x) as [k|u|u] eqn:Es.
  2:{ exists more. split; [|unfold sn_open; rewrite Es; discriminate]. unfold done_with in *. rewrite Es in *. rewrite <- E.
      destruct S as [U [S|(o & S & Eo)]]; (split; [exact U|]); [left; exact (served_dropped _ _ _ _ _ S _ _)|right; exists o; split; auto; now apply too_big_longer]. }
  2:{ exists more. split; [|unfold sn_open; rewrite Es; discriminate]. unfold done_with in *. rewrite Es in *. rewrite <- E.
      destruct S as [S|(D & U & S)]; [left; now apply panics_longer|right]. split; [exact D|]. split; [exact U|now apply too_big_longer]. }
  destruct (whole_inv _ _ _ _ _ _ _ _ _ Rn c x N []) as ((fs & F & V) & Fit & B); [now rewrite app_nil_r|].
  destruct B as [[B|[B|B]]|B]; [rewrite (Q1 _ N) in B; discriminate|contradiction|contradiction|].
  unfold settled in B. rewrite Es in B. destruct B as [In [B|(B1 & B2 & B3 & B4)]]; [congruence|].
  assert (Er : rest = []).
  { unfold conn_fits in Fit. rewrite Es in Fit. destruct Fit as (all & (_ & _ & A) & Ea). rewrite In in Ea. cbn in Ea. rewrite app_nil_r in Ea. rewrite Ea in A.
    unfold yet in A. rewrite B1, B2 in A. cbn in A. rewrite app_nil_r in A. cbn [stream_of] in E. rewrite <- A in E.
    rewrite <- (app_nil_r (reads _)) in E at 2. now apply app_inv_head in E. }
  subst rest. rewrite app_nil_r in E. exists more. rewrite <- E. split; [exact S|]. intros _.
  destruct B4 as [B4|[[B4 _]|[B4 _]]]; [exact (M k eq_refl B3 B4)| |contradiction].
  assert (Fw : Forall around fs) by (eapply Forall_impl; [|exact F]; intros f [A _]; exact A).
  rewrite Es in V. destruct (C93_handshake_first seal size fuel dbg (rt c) fs _ _ Fw V B4) as [_ H].
  assert (Z : reads (ts_seen (stream_of tls (TOpen tls k))) = []) by (apply reads_nothing; exact H).
  unfold done_with in S. rewrite Es, Z in S. destruct S as [_ S]. apply served_nothing_inv in S as [_ S]. now apply app_eq_nil in S.
Qed.
Print Assumptions C114_https_quiet.

(** A peer asks for / and then for something at which the listeners panic. *)
Definition fussy_peer : list slabel :=
  one_round 0 [300; 300; 300]%N ++ [XArrive 0 [[RHand true [41]%N; RApp two_requests]]].
Example C114_https_case : exists st x,
  srun seal1 (fun _ => 32%N) 400 false (fun _ => fussy_router) (s_init 1 1) fussy_peer st /\ nth_error (ss_conns st) 0 = Some x /\
  sound true (reached 0 fussy_peer) /\ whole_chars (app_of (reached 0 fussy_peer)) /\ positive (fun _ => 32%N) /\ seals seal1 /\
  sn_poisoned x = true /\ List.length (sn_log x) = 2 /\ out_of x = not_found /\ quiet st 0 /\ sn_full x = false.
Proof.
  assert (H : match s_exec_all seal1 (fun _ => 32%N) 400 false (fun _ => fussy_router) (s_init 1 1) fussy_peer with
    | Some st => match nth_error (ss_conns st) 0 with Some x => (sn_poisoned x, List.length (sn_log x), out_of x, sn_full x, sn_event x, ss_queue st, ss_workers st) = (true, 2, not_found, false, false, [], [SDead]) | None => False end
    | None => False end) by (vm_compute; reflexivity).
  destruct (s_exec_all seal1 (fun _ => 32%N) 400 false (fun _ => fussy_router) (s_init 1 1) fussy_peer) as [st|] eqn:E; [|contradiction].
  destruct (nth_error (ss_conns st) 0) as [x|] eqn:N; [|contradiction]. injection H as H1 H2 H3 H4 H5 H6 H7.
  exists st, x. split; [exact (s_exec_all_ok _ _ _ _ _ _ _ _ E)|]. split; auto.
  assert (Rc : reached 0 fussy_peer = [RHand true [41%N]; RApp two_requests]) by reflexivity. rewrite Rc.
  split; [cbn [sound negb andb]; intuition discriminate|]. split; [apply C106_ascii, ascii_by; vm_compute; reflexivity|].
  split; [intros b; reflexivity|]. split; [exact seal1_seals|]. split; auto. split; auto. split; auto. split; auto.
  split; [intros y Y; rewrite N in Y; injection Y as <-; exact H5|]. rewrite H6, H7. cbn [In]. intuition discriminate.
Qed.
