(** One client shared by threads, with the whole server: C88. *)
From Coq Require Import List Ascii String NArith Bool Arith Lia.
From Verif.Model Require Import Bytes Io Common Parse Encode Writer Server Client Slab Poll Handlers Whole Full Locks.
From Verif.Spec Require Import Batch Stream Drive Numerals Grammar Wire Output Session Exchange Dialogue Slots Traces Arrivals Events World Clients.
From Verif.Proofs Require Import BytesFacts IoFacts LimitGrammar EncodeFacts WriterFacts DriveFacts ConnFacts ClientFacts WholeFacts FullFacts WorldFacts ClientsFacts.
From Verif.Properties Require Import Streaming RoundTrip Server Client Poll Handlers Whole Full Peers World Backlog.
From Verif.Properties Require Compose.
Import ListNotations.

(** What is assumed of the applications and of the output sides of the server's sockets, for the client's streams. *)
Definition fair_server (R : nat -> request -> lresult -> Prop) (ours : nat -> bool) (ls : list flabel) : Prop :=
  forall c, ours c = true -> always_readable R c /\ Forall visit_fine (calls c (wparts ls)) /\
    (Forall visit_steady (calls c (wparts ls)) \/ short_listeners R c).
(** ... and of what is sent. *)
Definition fair_requests (tr : list dlabel) : Prop := forall t q, In (DCall t q) tr -> plain_request q /\ ~ asks_close q.

Lemma fair_before R ours ls2 ls1 : fair_server R ours (ls2 ++ ls1) -> fair_server R ours ls1.
Proof.
  intros F c O. destruct (F c O) as (A & B & C). rewrite wparts_app in B, C. destruct (calls_more c (wparts ls2) (wparts ls1)) as (vs & E). rewrite E in B, C.
  apply Forall_app in B as [B _]. split; auto. split; auto. destruct C as [C|C]; auto. apply Forall_app in C as [C _]. auto.
Qed.

(** A send returns to the thread that called it, for the request it was called with. *)
Theorem C88_called : forall dbg R ours size conns threads socks later t i q e earlier ls st,
  dhistory dbg R ours (d_init size conns threads socks) (later ++ DReturn t i q e :: earlier) ls st ->
  find (by_thread t) earlier = Some (DCall t q).
Proof.
  intros dbg R ours size conns threads socks later t i q e earlier ls st H. apply cut in H as (ls2 & l & ls1 & st0 & st1 & -> & H & S).
  pose proof (calling_history _ _ _ _ _ _ _ _ _ _ H) as C.
  assert (X : exists x, nth_error (d_threads st0) t = Some x /\ thread_request x = [q]).
  { inversion S as [| | | | | | | | | | |? t0 q0 i0 b k X1| |? t0 q0 i0 b c p s d k dl0 st2 X1 X2 X3 X4 X5 X6|? t0 q0 i0 b c p r0 inp dl0 st2 X1 X2 X3 X4 X5]; subst.
    - eexists. split; [exact X1|reflexivity].
    - unfold goes_on in X6. destruct b; inversion X6; subst. eexists. split; [exact X1|reflexivity].
    - unfold goes_on in X5. destruct (result_of r0), b; inversion X5; subst; (eexists; split; [exact X1|reflexivity]). }
  destruct X as (x & N & Q). apply (C t x q N). rewrite Q. now left.
Qed.
Print Assumptions C88_called.

(** The stream on which it was received is one of the client's, used by one connection only. *)
Lemma on_its_stream dbg R ours size conns threads socks tr ls st i c : dhistory dbg R ours (d_init size conns threads socks) tr ls st ->
  nth_error (d_stream st) i = Some (Some c) -> ours c = true.
Proof.
  intros H. revert i c. assert (X : forall c, In c (d_opened st) -> ours c = true).
  { induction H as [|tr ls st dl l st' H IH S]; [intros c []|]. intros c.
    inversion S as [? ? ? X1 X2|? c0 bs rest s' X1 X2 X3|? c0 s' X1 X2 X3 X4|? c0 p bs rest X1 X2 X3 X4 X5|? c0 p X1 X2 X3 X4|? t q X1|? t q i l0 X1 X2 X3|? t q i X1 X2|
      ? t q i o X1 X2 X3|? t q i b c0 X1 X2 X3 X4|? t q i b o c0 p X1 X2 X3 X4 X5|? t q i b k X1|? t q i b c0 p s d X1 X2 X3 X4 X5|
      ? t q i b c0 p s d k dl0 st0 X1 X2 X3 X4 X5 X6|? t q i b c0 p r inp dl0 st0 X1 X2 X3 X4 X5]; subst; sets; intros I;
      try (apply IH; exact I); try (destruct I as [<-|I]; [exact X3|apply IH; exact I]);
      match goal with G : goes_on _ _ _ _ _ _ = _ |- _ => destruct (goes_on_world _ _ _ _ _ _ _ _ G) as (_ & _ & E); rewrite E in I; apply IH; exact I end. }
  intros i c N. apply X. eapply dv_opened; eauto. eapply dinv_history; eauto.
Qed.

(** As long as no send over a connection has failed, every send over it is given the server's answer to its own request,
    whatever other threads and other peers do meanwhile, also if it was answered in the second attempt. *)
Theorem C88_own : forall dbg R ours size conns threads socks later t i q r earlier ls st, has_router R ->
  dhistory dbg R ours (d_init size conns threads socks) (later ++ DReturn t i q (COk r) :: earlier) ls st ->
  fair_server R ours ls -> fair_requests earlier -> clean i earlier ->
  exists c v a, ours c = true /\ same_request v q /\ R c v (LSend a) /\ same_response r a.
Proof.
  intros dbg R ours size conns threads socks later t i q r earlier ls st Tot H Fs Fr Cl.
  apply cut in H as (ls2 & l & ls1 & st0 & st1 & -> & H & S). apply fair_before in Fs.
  assert (H1 : dhistory dbg R ours (d_init size conns threads socks) ([DReturn t i q (COk r)] ++ earlier) (l ++ ls1) st1) by (econstructor; eauto).
  destruct (return_ok _ _ _ _ _ _ _ _ _ _ S) as (b & c & inp & N & C & Ep & El & Es & Dn).
  pose proof (on_its_stream _ _ _ _ _ _ _ _ _ _ _ _ H C) as O.
  assert (Cl1 : clean i ([DReturn t i q (COk r)] ++ earlier)).
  { intros u q0 e [X|X]; [inversion X; eauto|eapply Cl; eauto]. }
  rewrite <- Es in C. pose proof (dinv_history _ _ _ _ _ _ _ _ _ _ H1) as D1.
  destruct (alone dbg R ours size conns threads socks _ _ _ c H1 O) as (w & Hw & _ & Hp).
  { intros [_ X]. apply X. eapply nth_error_In; eauto. }
  { intros j J. rewrite (dv_cur _ _ D1 _ _ _ J C). auto. }
  destruct (Fs c O) as (F1 & F2 & F3). destruct (all_called_history _ _ _ _ _ _ _ _ _ _ H1) as [_ Ac].
  assert (Fq : forall q0, In q0 (asked (peer_of st1 c)) -> plain_request q0 /\ ~ asks_close q0).
  { intros q0 I. destruct (Ac c q0 I) as (u & [X|X]); [discriminate|eapply Fr; eauto]. }
  destruct (C72_own dbg R (Nat.eqb c) size socks _ w c (wo_peer w c) q r Tot Hw (Nat.eqb_refl _) eq_refl (always_readable_answers _ _ _ F1) F2 F3) as (v & a & X1 & X2 & X3).
  - rewrite Hp. apply Forall_forall. intros q0 I. apply Fq; auto.
  - rewrite Hp. intros q0 I. apply Fq; auto.
  - rewrite Hp. exact Dn.
  - exists c, v, a. auto.
Qed.
Print Assumptions C88_own.

(** And it can get it: when the server has nothing more to do and everything has been transmitted, a thread that waits
    returns with the answer to its request. *)
Theorem C88_answered : forall dbg R ours size conns threads socks tr ls st t i q b c x, has_router R ->
  dhistory dbg R ours (d_init size conns threads socks) tr ls st ->
  fair_server R ours ls -> fair_requests tr -> clean i tr ->
  nth_error (d_threads st) t = Some (TRead q i b) -> nth_error (d_stream st) i = Some (Some c) ->
  accepted_here c ls -> never_removed c ls -> nth_error (ws_conns (f_w (server_of st))) c = Some x ->
  resting dbg R (server_of st) -> worker_left (f_w (server_of st)) = true -> flushed (as_slot (wc_slot x)) ->
  pe_out (peer_of st c) = [] -> pe_heard (peer_of st c) = sent_on c (server_of st) ->
  exists r st' v a, dstep dbg R ours st [DReturn t i q (COk r)] [] st' /\ same_request v q /\ R c v (LSend a) /\ same_response r a.
Proof.
  intros dbg R ours size conns threads socks tr ls st t i q b c x Tot H Fs Fr Cl N C Ac Nr Nx Rest Left Fl Po Ph.
  pose proof (on_its_stream _ _ _ _ _ _ _ _ _ _ _ _ H C) as O. pose proof (dinv_history _ _ _ _ _ _ _ _ _ _ H) as D.
  destruct (alone dbg R ours size conns threads socks _ _ _ c H O) as (w & Hw & Es & Hp).
  { intros [_ X]. apply X. eapply nth_error_In; eauto. }
  { intros j J. rewrite (dv_cur _ _ D _ _ _ J C). auto. }
  destruct (dv_read _ _ D _ _ _ _ _ Cl N C) as [I1 I2].
  destruct (Fs c O) as (F1 & F2 & F3). destruct (all_called_history _ _ _ _ _ _ _ _ _ _ H) as [_ Aq].
  assert (Fq : forall q0, In q0 (asked (peer_of st c)) -> plain_request q0 /\ ~ asks_close q0).
  { intros q0 I. destruct (Aq c q0 I) as (u & X). eapply Fr; eauto. }
  rewrite <- Hp in Fq, I2, Po, Ph. rewrite <- Es in Nx, Rest, Left, Ph.
  destruct (C72_answered dbg R (Nat.eqb c) size socks ls w c (wo_peer w c) x q Tot Hw (Nat.eqb_refl _) eq_refl (always_readable_answers _ _ _ F1) F2 F3) as (r & inp & v & a & Ep & X1 & X2 & X3); auto.
  { apply Forall_forall. intros q0 I. apply Fq; auto. }
  { intros q0 I. apply Fq; auto. }
  rewrite Hp in Ep. eexists r, _, v, a. split; [|auto]. eapply ds_read; [exact N|exact C|reflexivity|exact Ep|reflexivity].
Qed.
Print Assumptions C88_answered.

(** ** After a failure *)

(** The application gives every path its own answer. *)
Definition by_uri (answer : bytes -> response) (c : nat) (q : request) (l : lresult) : Prop := l = LSend (answer (rq_uri q)).

Lemma frun_split dbg R a x b : forall l, frun dbg R a (l ++ [x]) b -> exists s, fstep dbg R a x s /\ frun dbg R s l b.
Proof.
  intros l. revert b. induction l as [|y l IH]; cbn [app]; intros b H; inversion H as [|? ? ? ? ? H1 S1]; subst.
  - inversion H1; subst. exists b. split; auto. constructor.
  - destruct (IH _ H1) as (s & A & B). exists s. split; auto. econstructor; eauto.
Qed.
Lemma dhistory_server dbg R ours d0 tr ls st ls' s' : dhistory dbg R ours d0 tr ls st -> frun dbg R (server_of st) ls' s' ->
  (forall c its, ~ In (FW (AArrive c its)) ls') -> dhistory dbg R ours d0 tr (ls' ++ ls) (set_server st s').
Proof.
  intros H Rn. remember (server_of st) as s0 eqn:E0. induction Rn as [s|s l1 s1 x s2 Rn IH S]; intros Na; subst s.
  - destruct st as [[s p] a b c d]. exact H.
  - change (dhistory dbg R ours d0 ([] ++ tr) ([x] ++ (l1 ++ ls)) (set_server (set_server st s1) s2)). eapply dh_step.
    + apply IH; auto. intros c its I. apply (Na c its). now right.
    + apply ds_server; [exact S|]. intros c its ->. exfalso. apply (Na c its). now left.
Qed.

Lemma put_ok s q : csteady (cs_sock s) -> cs_held s = [] -> exists s', put_request s q = (WOk tt, s') /\ sent s' = sent s ++ write_request q /\
  cs_in s' = cs_in s /\ cs_held s' = [] /\ csteady (cs_sock s').
Proof.
  intros St Hh. destruct (put_request s q) as [rw s1] eqn:Eq. apply put_request_spec in Eq as (Hin & Sf & _ & b1 & b2 & Hw & Hs & X).
  destruct rw as [[]|k]; [|contradiction]. destruct X as [-> Hh1]. exists s1. split; auto. rewrite Hh1, Hh, !app_nil_r in Hs. cbn [app] in Hs.
  split; [rewrite Hs, Hw, app_nil_r; reflexivity|]. split; auto. split; auto. eapply csteady_suffix; eauto.
Qed.
(** A send all whose attempts time out; the streams are 1 and 0. *)
Lemma both_time_out dbg R m conns threads q : exists P sk,
  dhistory dbg R (fun _ => true) (d_init (1 + m) (1 + conns) (1 + threads) (fun _ => open_sock)) [DReturn 0 0 q (CReading WouldBlock); DCall 0 q] []
    (mk_dstate (mk_world (f_init (1 + m)) P) (Some 0 :: repeat None conns) (repeat Free (1 + conns)) (repeat TOut (1 + threads)) [0; 1]) /\
  P 0 = mk_peer (mk_cstream [] [] sk) None (write_request q) [] false [(q, CReading WouldBlock)] /\ csteady sk.
Proof.
  set (ours := fun _ : nat => true). set (d0 := d_init (1 + m) (1 + conns) (1 + threads) (fun _ => open_sock)).
  destruct (put_ok (mk_cstream [] [] open_sock) q open_steady eq_refl) as (sa & Pa & Sa & Ia & Ha & Ta).
  destruct (nothing_yet dbg) as (st0 & Np).
  assert (Np0 : resp_parse dbg resp_new (cs_in sa) = (PIo st0 WouldBlock, [])) by (rewrite Ia; exact Np).
  pose proof (dh_nil dbg R ours d0) as H.
  (* the first attempt, on stream 1 *)
  eapply dh_step in H; [|eapply (ds_call _ _ _ _ 0 q); reflexivity].
  eapply dh_step in H; [|eapply (ds_take _ _ _ _ 0 q 0 None); reflexivity].
  eapply dh_step in H; [|eapply (ds_connect _ _ _ _ 0 q 0 false 1); [reflexivity|reflexivity|reflexivity|intros []]].
  eapply dh_step in H; [|eapply (ds_write _ _ _ _ 0 q 0 false 1 _ sa (write_request q)); [reflexivity|reflexivity|reflexivity|exact Pa|exact Sa]].
  eapply dh_step in H; [|eapply (ds_read _ _ _ _ 0 q 0 false 1); [reflexivity|reflexivity|reflexivity|exact Np0|reflexivity]].
  (* the second, on stream 0 *)
  destruct (drop_stream_spec (mk_cstream [] (cs_held sa) (cs_sock sa))) as (dd & Dd & _).
  eapply dh_step in H; [|eapply (ds_reconnect _ _ _ _ 0 q 0 true 1 0); [reflexivity|reflexivity|reflexivity|intros [X|[]]; discriminate|exists dd; split; [exact Dd|reflexivity]]].
  eapply dh_step in H; [|eapply (ds_write _ _ _ _ 0 q 0 true 0 _ sa (write_request q)); [reflexivity|reflexivity|reflexivity|exact Pa|exact Sa]].
  eapply dh_step in H; [|eapply (ds_read _ _ _ _ 0 q 0 true 0); [reflexivity|reflexivity|reflexivity|exact Np0|reflexivity]].
  eexists _, (cs_sock sa). split; [exact H|]. split; [|exact Ta]. cbn. now rewrite Ha.
Qed.

(** A send on a stream on which a response waits already. *)
Lemma takes_what_waits dbg R d0 tr ls sv P q a conns threads : ok_response a ->
  dhistory dbg R (fun _ => true) d0 tr ls (mk_dstate (mk_world sv P) (Some 0 :: repeat None conns) (repeat Free (1 + conns)) (repeat TOut (1 + threads)) [0; 1]) ->
  (exists sk out heard done, P 0 = mk_peer (mk_cstream [RData (write_response a)] [] sk) None out heard false done /\ csteady sk) ->
  exists r st, dhistory dbg R (fun _ => true) d0 (DReturn 0 0 q (COk r) :: DCall 0 q :: tr) ls st /\ same_response r a /\ server_of st = sv.
Proof.
  intros (G1 & G2 & G3) H (sk & out & heard & done & E0 & Ta).
  eapply dh_step in H; [|eapply (ds_call _ _ _ _ 0 q); reflexivity].
  eapply dh_step in H; [|eapply (ds_take _ _ _ _ 0 q 0 (Some 0)); reflexivity].
  destruct (put_ok (mk_cstream [RData (write_response a)] [] sk) q Ta eq_refl) as (sb & Pb & Sb & Ib & _).
  eapply dh_step in H; [|eapply (ds_write _ _ _ _ 0 q 0 false 0 _ sb (write_request q)); [reflexivity|reflexivity|reflexivity|cbn; rewrite E0; exact Pb|cbn; rewrite E0; exact Sb]].
  destruct (resp_parse dbg resp_new [RData (write_response a)]) as [rp inp] eqn:Er.
  assert (Smo : smooth false [RData (write_response a)]).
  { split; [apply live_eof_false, flowing_live, one_piece_flows, write_response_nonempty|]. intros k [X|[]]. discriminate. }
  destruct (client_reads dbg false [RData (write_response a)] [a] [] rp inp Smo) as [(r & a' & l' & -> & K & Sr & _)|[_ Bad]]; auto.
  { constructor; [split; auto|constructor]. }
  { cbn [pending map List.concat]. now rewrite !app_nil_r. }
  2:{ exfalso. destruct (response_reads_back a [] G1 G2 G3) as (r' & Hr & _). rewrite app_nil_r in Hr.
      cbn [pending] in Bad. rewrite app_nil_r in Bad. eapply Bad; eauto. }
  inversion K; subst a' l'. cbn [cs_in] in Ib. rewrite <- Ib in Er.
  eapply dh_step in H; [|eapply (ds_read _ _ _ _ 0 q 0 false 0); [reflexivity|reflexivity|reflexivity|exact Er|reflexivity]].
  eexists r, _. split; [exact H|]. split; [exact Sr|reflexivity].
Qed.

(** Without that it fails: for any two requests, if the server is slow once, the first send ends with a time-out, and the
    second is given the answer to the first, and the server has not seen the second request. *)
Theorem C88_stale_refuted : forall dbg answer m conns threads q1 q2, (forall u, ok_response (answer u)) ->
  plain_request q1 -> ~ asks_close q1 ->
  exists ls st r v, dhistory dbg (by_uri answer) (fun _ => true) (d_init (1 + m) (1 + conns) (1 + threads) (fun _ => open_sock))
      [DReturn 0 0 q2 (COk r); DCall 0 q2; DReturn 0 0 q1 (CReading WouldBlock); DCall 0 q1] ls st /\
    fair_server (by_uri answer) (fun _ => true) ls /\ same_response r (answer (rq_uri q1)) /\
    routed 0 (server_of st) = [v] /\ same_request v q1 /\ forall c, c <> 0 -> routed c (server_of st) = [].
Proof.
  intros dbg answer m conns threads q1 q2 Ok Pq Aq. set (R := by_uri answer). set (ours := fun _ : nat => true).
  assert (Tot : has_router R) by (intros c; exists (fun _ q => LSend (answer (rq_uri q))); reflexivity).
  assert (Rd : forall c, always_readable R c) by (intros c q l ->; eauto).
  set (d0 := d_init (1 + m) (1 + conns) (1 + threads) (fun _ => open_sock)).
  destruct (both_time_out dbg R m conns threads q1) as (P & sk & H & P0 & Ts).
  (* the server accepts stream 0, reads and answers *)
  destruct (calm_start dbg R m) as (lsa & Rn & Ac & Nr & Wl).
  assert (Na : forall c its, ~ In (FW (AArrive c its)) lsa).
  { intros c its I. assert (K : In (AArrive c its) (wparts lsa)) by (unfold wparts; apply in_flat_map; exists (FW (AArrive c its)); split; [exact I|now left]).
    rewrite Wl in K. destruct K. }
  eapply dhistory_server in H; [|exact Rn|exact Na].
  set (n := len (write_response (answer (rq_uri q1)))).
  destruct (Compose.taking_fine n) as (V1 & V2 & V3).
  set (rt := (fun _ q => LSend (answer (rq_uri q))) : router).
  destruct (round_first dbg R m Tot lsa (conn_new []) [] [] q1 (Compose.taking n) rt Rn) as (ls' & log' & k' & R' & E & Ca & (tl & -> & Ct & Nt) & Q); auto.
  { rewrite Wl. cbn [calls app map List.concat]. apply mk_quiet_peer; auto.
    - intros p l _ ->. discriminate.
    - now rewrite Wl.
    - exists []. reflexivity. }
  { intros h q. reflexivity. }
  pose proof (frun_app _ _ _ _ _ Rn _ _ R') as Rn2. apply frun_split in R' as (s1 & Ar & R').
  eapply dh_step in H; [|eapply (ds_arrive _ _ _ _ 0 (write_request q1) []); [reflexivity|cbn; rewrite P0; now rewrite app_nil_r|exact Ar]].
  eapply dhistory_server in H; [|exact R'|exact Nt].
  (* what it sent *)
  pose proof (quiet_less _ _ _ _ _ _ _ (Q _ V1 V2)) as Q0. cbn [app] in Q0.
  destruct (calm_answers dbg R m _ k' log' [q1] Tot Rn2 Q0) as (Sm & rt' & Hrt & Out).
  inversion Sm as [|v ? l ? Sv Sl]; subst log'. inversion Sl; subst. cbn [replies] in Out. rewrite app_nil_r, (Hrt [] v) in Out. cbn [reply] in Out.
  assert (Ev : rq_uri v = rq_uri q1) by apply Sv. rewrite Ev in Out.
  assert (Us : unsent (cn_w k') = []).
  { unfold serve in E. destruct (handle_writes dbg rt (Compose.taking n) _ _ _ _ (conn_new_fine _) V1 (or_introl V2) E) as (new & tail & _ & _ & _ & Eo & X).
    apply X. rewrite <- Eo, Out. exact V3. }
  unfold output in Out. rewrite Us, app_nil_r in Out.
  set (a := answer (rq_uri q1)) in *. destruct (Ok (rq_uri q1)) as (G1 & G2 & G3). fold a in G1, G2, G3.
  eapply dh_step in H; [|eapply (ds_hear _ _ _ _ 0 _ (write_response a) []); [reflexivity|reflexivity|cbn; rewrite P0; reflexivity|apply write_response_nonempty|
    unfold sent_on; cbn; rewrite P0, Out, app_nil_r; reflexivity]].
  (* the second send *)
  edestruct (takes_what_waits dbg R d0 _ _ (calm_server m k' [v]) _ q2 a conns threads (Ok (rq_uri q1)) H) as (r & st & Hh & Sr & Es).
  { do 4 eexists. split; [cbn; rewrite P0; reflexivity|exact Ts]. }
  eexists _, st, r, v. split; [exact Hh|]. rewrite Es. split; [|split; [exact Sr|split; [reflexivity|split; [exact Sv|]]]].
  - intros c _. split; [apply Rd|].
    assert (X : Forall (fun w => w = Compose.taking n) (calls c (wparts ([] ++ tl ++ [FW (AArrive 0 (map IByte (write_request q1)))] ++ lsa ++ [])))).
    { cbn [app]. rewrite app_nil_r, wparts_app, FullFacts.calls_app, Ct. cbn [wparts flat_map wpart app calls]. fold (wparts lsa). rewrite Wl. cbn [calls app]. destruct (0 =? c); repeat constructor. }
    split; [|left]; (eapply Forall_impl; [|exact X]); intros w ->; auto.
  - intros [|c] Nc; [congruence|]. unfold routed. cbn. now destruct c.
Qed.
Print Assumptions C88_stale_refuted.

(** ** A case *)

(** Two threads and two connections.  The first attempt of thread 0 has timed out, its second waits for the response, which
    has arrived; meanwhile thread 1 has found connection 0 in use and taken connection 1. *)
Example C88_case : exists ls st x, let R := by_uri (fun _ => greeting 0) in
  dhistory true R (fun _ => true) (d_init 1 2 2 (fun _ => open_sock)) [DCall 1 get_root; DCall 0 get_root] ls st /\
  fair_server R (fun _ => true) ls /\ fair_requests [DCall 1 get_root; DCall 0 get_root] /\ clean 0 [DCall 1 get_root; DCall 0 get_root] /\
  nth_error (d_threads st) 0 = Some (TRead get_root 0 true) /\ nth_error (d_threads st) 1 = Some (TConnect get_root 1 false) /\
  nth_error (d_stream st) 0 = Some (Some 0) /\
  accepted_here 0 ls /\ never_removed 0 ls /\ nth_error (ws_conns (f_w (server_of st))) 0 = Some x /\
  resting true R (server_of st) /\ worker_left (f_w (server_of st)) = true /\ flushed (as_slot (wc_slot x)) /\
  pe_out (peer_of st 0) = [] /\ pe_heard (peer_of st 0) = sent_on 0 (server_of st).
Proof.
  set (answer := fun _ : bytes => greeting 0). set (R := by_uri answer). set (ours := fun _ : nat => true). set (q := get_root).
  destruct get_root_plain as (Pq & Aq & _).
  assert (Tot : has_router R) by (intros c; exists (fun _ q => LSend (answer (rq_uri q))); reflexivity).
  assert (Ok : ok_response (greeting 0)) by (apply ok_body; vm_compute; discriminate).
  assert (Rd : forall c, always_readable R c) by (intros c q0 l ->; eauto).
  destruct (put_ok (mk_cstream [] [] open_sock) q open_steady eq_refl) as (sa & Pa & Sa & Ia & Ha & Ta).
  destruct (nothing_yet true) as (st0 & Np).
  assert (Np0 : resp_parse true resp_new (cs_in sa) = (PIo st0 WouldBlock, [])) by (rewrite Ia; exact Np).
  pose proof (dh_nil true R ours (d_init 1 2 2 (fun _ => open_sock))) as H.
  eapply dh_step in H; [|eapply (ds_call _ _ _ _ 0 q); reflexivity].
  eapply dh_step in H; [|eapply (ds_take _ _ _ _ 0 q 0 None); reflexivity].
  eapply dh_step in H; [|eapply (ds_connect _ _ _ _ 0 q 0 false 1); [reflexivity|reflexivity|reflexivity|intros []]].
  eapply dh_step in H; [|eapply (ds_write _ _ _ _ 0 q 0 false 1 _ sa (write_request q)); [reflexivity|reflexivity|reflexivity|exact Pa|exact Sa]].
  eapply dh_step in H; [|eapply (ds_call _ _ _ _ 1 q); reflexivity].
  eapply dh_step in H; [|eapply (ds_skip _ _ _ _ 1 q 0 Held); [reflexivity|reflexivity|discriminate]].
  eapply dh_step in H; [|eapply (ds_take _ _ _ _ 1 q 1 None); reflexivity].
  eapply dh_step in H; [|eapply (ds_read _ _ _ _ 0 q 0 false 1); [reflexivity|reflexivity|reflexivity|exact Np0|reflexivity]].
  destruct (drop_stream_spec (mk_cstream [] (cs_held sa) (cs_sock sa))) as (dd & Dd & _).
  eapply dh_step in H; [|eapply (ds_reconnect _ _ _ _ 0 q 0 true 1 0); [reflexivity|reflexivity|reflexivity|intros [X|[]]; discriminate|exists dd; split; [exact Dd|reflexivity]]].
  eapply dh_step in H; [|eapply (ds_write _ _ _ _ 0 q 0 true 0 _ sa (write_request q)); [reflexivity|reflexivity|reflexivity|exact Pa|exact Sa]].
  match type of H with dhistory _ _ _ _ _ _ ?s => assert (Pz : peer_of s 0 = mk_peer sa (Some q) (write_request q) [] false []) by reflexivity;
    change s with (mk_dstate (mk_world (f_init 1) (peer_of s)) [Some 0; None] [Held; Held] [TRead q 0 true; TConnect q 1 false] [0; 1]) in H;
    revert Pz H; generalize (peer_of s) end. intros P P0 H.
  destruct (calm_start true R 0) as (lsa & Rn & Ac & Nr & Wl).
  assert (Na : forall c its, ~ In (FW (AArrive c its)) lsa).
  { intros c its I. assert (K : In (AArrive c its) (wparts lsa)) by (unfold wparts; apply in_flat_map; exists (FW (AArrive c its)); split; [exact I|now left]).
    rewrite Wl in K. destruct K. }
  eapply dhistory_server in H; [|exact Rn|exact Na].
  set (n := len (write_response (greeting 0))).
  destruct (Compose.taking_fine n) as (V1 & V2 & V3).
  set (rt := (fun _ q => LSend (answer (rq_uri q))) : router).
  destruct (round_first true R 0 Tot lsa (conn_new []) [] [] q (Compose.taking n) rt Rn) as (ls' & log' & k' & R' & E & Ca & (tl & -> & Ct & Nt) & Q); auto.
  { rewrite Wl. cbn [calls app map List.concat]. apply mk_quiet_peer; auto.
    - intros p l _ ->. discriminate.
    - now rewrite Wl.
    - exists []. reflexivity. }
  { intros h q0. reflexivity. }
  pose proof (frun_app _ _ _ _ _ Rn _ _ R') as Rn2. apply frun_split in R' as (s1 & Ar & R').
  eapply dh_step in H; [|eapply (ds_arrive _ _ _ _ 0 (write_request q) []); [reflexivity|change (pe_out (P 0) = write_request q ++ []); rewrite P0, app_nil_r; reflexivity|exact Ar]].
  eapply dhistory_server in H; [|exact R'|exact Nt].
  pose proof (quiet_less _ _ _ _ _ _ _ (Q _ V1 V2)) as Q0. cbn [app] in Q0.
  destruct (calm_answers true R 0 _ k' log' [q] Tot Rn2 Q0) as (Sm & rt' & Hrt & Out).
  inversion Sm as [|v ? l ? Sv Sl]; subst log'. inversion Sl; subst. cbn [replies] in Out. rewrite app_nil_r, (Hrt [] v) in Out. cbn [reply] in Out.
  assert (Us : unsent (cn_w k') = []).
  { unfold serve in E. destruct (handle_writes true rt (Compose.taking n) _ _ _ _ (conn_new_fine _) V1 (or_introl V2) E) as (new & tail & _ & _ & _ & Eo & X).
    apply X. rewrite <- Eo, Out. exact V3. }
  unfold output in Out. rewrite Us, app_nil_r in Out. unfold answer in Out.
  eapply dh_step in H; [|eapply (ds_hear _ _ _ _ 0 _ (write_response (greeting 0)) []); [reflexivity|reflexivity|change (pe_ended (P 0) = false); rewrite P0; reflexivity|apply write_response_nonempty|
    change (sk_sent (cn_sock k') = pe_heard (P 0) ++ write_response (greeting 0) ++ []); rewrite P0, Out, app_nil_r; reflexivity]].
  eexists _, _, _. cbn zeta. split; [exact H|]. split.
  { intros c _. split; [apply Rd|].
    assert (X : Forall (fun w => w = Compose.taking n) (calls c (wparts ([] ++ tl ++ [FW (AArrive 0 (map IByte (write_request q)))] ++ lsa ++ [])))).
    { cbn [app]. rewrite app_nil_r, wparts_app, FullFacts.calls_app, Ct. cbn [wparts flat_map wpart app calls]. fold (wparts lsa). rewrite Wl. cbn [calls app]. destruct (0 =? c); repeat constructor. }
    split; [|left]; (eapply Forall_impl; [|exact X]); intros w ->; auto. }
  split; [intros t q0 [X|[X|[]]]; inversion X; subst; auto|]. split; [intros t q0 e [X|[X|[]]]; discriminate|].
  split; [reflexivity|]. split; [reflexivity|]. split; [reflexivity|].
  assert (Qk : quiet_peer R 0 ([] ++ tl ++ [FW (AArrive 0 (map IByte (write_request q)))] ++ lsa ++ []) (calls 0 (wparts ((tl ++ [FW (AArrive 0 (map IByte (write_request q)))]) ++ lsa))) (List.concat (map write_request [q])) [q]).
  { cbn [app]. rewrite app_nil_r. rewrite <- app_assoc in Q0 at 1. exact Q0. }
  split; [apply (qp_accepted _ _ _ _ _ _ Qk)|]. split; [apply (qp_kept _ _ _ _ _ _ Qk)|].
  split; [reflexivity|]. destruct (calm_rests true R 0 k' [v]) as [Rs Wk]. split; [exact Rs|]. split; [exact Wk|].
  split; [exact Us|]. split; [reflexivity|]. change (pe_heard (P 0) ++ write_response (greeting 0) = sk_sent (cn_sock k')). rewrite P0, Out. reflexivity.
Qed.
