(** C98: every call of the handler returns. *)
From Coq Require Import List Ascii String NArith ZArith Bool Lia.
From Verif.Model Require Import Bytes Io Common Parse Encode Writer Server Generic Buffered Slab Streams Tls Secure.
From Verif.Spec Require Import Batch Stream Output Session Exchange Streams.
From Verif.Proofs Require Import MonoFacts EndsFacts ReturnFacts TlsEndsFacts StreamsFacts TlsFacts LocksFacts.
From Verif.Properties Require Import Streaming RoundTrip Server Client Buffered Streams Tls Secure.
From Verif.Spec Require Import Tls Finite Secure.
Import ListNotations.
Local Open Scope N_scope.

Lemma rcap_pos : 0 < READ_BUF_SIZE.
Proof. reflexivity. Qed.

(** On a stream that has only finitely much to give at a time, whatever it gives and takes, and whatever the listeners answer, every call of the handler returns: there is a
    number of iterations that is enough for all loops of all calls, and with more of them nothing is different. *)
Theorem C98_returns : forall T t_read t_write t_flush left sane size dbg rt fs t,
  positive size -> finite T t_read t_write t_flush left sane -> Forall (fun f => forall u, sane u -> sane (f u)) fs -> sane t ->
  exists enough log st, forall fuel, (enough <= fuel)%nat ->
    t_visits T t_read t_write t_flush size READ_BUF_SIZE fuel dbg rt fs [] (TOpen T (tconn_new T t)) = Some (log, st).
Proof.
  intros T t_read t_write t_flush left sane size dbg rt fs t P Fi Fs Sa.
  destruct (visits_ends T t_read t_write t_flush size READ_BUF_SIZE P rcap_pos left sane Fi dbg rt fs Fs [] (TOpen T (tconn_new T t)) Sa) as (F & log & st & _ & H).
  exists F, log, st. exact H.
Qed.

(** What a call does is not a matter of the number of iterations: two that are enough, on any stream, give the same. *)
Theorem C98_same : forall T t_read t_write t_flush size dbg rt fs log st fuel fuel' r r',
  t_visits T t_read t_write t_flush size READ_BUF_SIZE fuel dbg rt fs log st = Some r ->
  t_visits T t_read t_write t_flush size READ_BUF_SIZE fuel' dbg rt fs log st = Some r' -> r = r'.
Proof.
  intros T t_read t_write t_flush size dbg rt fs log st f f' r r' E E'.
  apply (visits_more T t_read t_write t_flush size READ_BUF_SIZE f (Nat.max f f') ltac:(lia)) in E.
  apply (visits_more T t_read t_write t_flush size READ_BUF_SIZE f' (Nat.max f f') ltac:(lia)) in E'. congruence.
Qed.

(** Errors that exist: the model's own mark for too few iterations is none. *)
Definition real_errors (t : tls) : Prop := ~ In (TFail ModelFuel) (ts_rx t) /\ ~ In (WFail ModelFuel) (ts_tx t).

(** With TLS, whatever the peer sends, be it a handshake or not, and whatever the socket does. *)
Theorem C98_tls : forall seal size dbg rt fs, positive size -> Forall (fun f => around f /\ forall t, real_errors (f t)) fs ->
  exists enough log st, forall fuel, (enough <= fuel)%nat -> run seal size READ_BUF_SIZE fuel dbg rt fs [] fresh = Some (log, st).
Proof.
  intros seal size dbg rt fs P F. apply (C98_returns tls tls_read (tls_write seal) tls_flush tls_left tls_sane); auto.
  - apply tls_finite.
  - eapply Forall_impl; [|exact F]. intros f [A R] t (S1 & _ & _). destruct (R t) as [R1 R2]. destruct (A t) as (rx & tx & E). rewrite E in *. unfold tls_sane. cbn in *. auto.
  - unfold tls_sane. cbn. auto.
Qed.

(** So a server that listens with TLS stops only when nothing is left to do (C95), with no condition on the calls: whatever was reached, there is a number of iterations
    that is enough for every call that can come next; with it, or more, the same execution is possible, and if a worker is alive then something can be done until
    no connection has an event or a job. *)
Lemma around_sane rs tx t : tls_sane t -> tls_sane (s_around rs tx t).
Proof.
  intros (S1 & S2 & _). unfold tls_sane. cbn. split; auto. split.
  - intros I. apply in_app_or in I as [I|I]; auto. apply in_map_iff in I as (x & X & _). discriminate.
  - intros I. apply in_map_iff in I as (x & X & _). discriminate.
Qed.
Notation sane_slot := (ok_slot tls tls_sane).
Notation call seal size fuel dbg rt := (t_handle tls tls_read (tls_write seal) tls_flush size READ_BUF_SIZE fuel dbg rt).
Lemma call_returns seal size dbg rt rs tx log st : positive size -> sane_slot st ->
  exists F log' st', sane_slot st' /\ forall G, (F <= G)%nat -> call seal size G dbg rt (s_around rs tx) log st = Some (log', st').
Proof. intros P. apply (handle_ends tls tls_read (tls_write seal) tls_flush size READ_BUF_SIZE P rcap_pos tls_left tls_sane (tls_finite seal)). apply around_sane. Qed.
Lemma call_sane seal size fuel dbg rt rs tx log st log' st' : positive size -> sane_slot st ->
  call seal size fuel dbg rt (s_around rs tx) log st = Some (log', st') -> sane_slot st'.
Proof.
  intros P Sa E. destruct (call_returns seal size dbg rt rs tx log st P Sa) as (F & l & s & Ss & H).
  pose proof (handle_more tls tls_read (tls_write seal) tls_flush size READ_BUF_SIZE fuel (Nat.max fuel F) ltac:(lia) dbg rt (s_around rs tx) log st _ E) as E2.
  rewrite H in E2 by lia. inversion E2; subst. exact Ss.
Qed.
Lemma run_sane seal size fuel dbg rt n m ls st : positive size -> srun seal size fuel dbg rt (s_init n m) ls st -> Forall (fun x => sane_slot (sn_slot x)) (ss_conns st).
Proof.
  intros P R. remember (s_init n m) as st0 eqn:E0. induction R as [s|s ls st l st2 R IH Sp].
  { subst s. apply Forall_forall. intros x I. cbn in I. apply repeat_spec in I. subst x. cbn. unfold okb, tls_sane. cbn. auto. }
  specialize (IH E0). rewrite Forall_forall in IH.
  assert (Set_ok : forall c y, sane_slot (sn_slot y) -> Forall (fun x => sane_slot (sn_slot x)) (supd st c y)).
  { intros c y Hy. apply Forall_forall. intros v Iv. apply In_nth_error in Iv as [j J]. apply nth_set_inv in J as [[_ ->]|[_ J]]; auto. apply IH. eapply nth_error_In; eauto. }
  assert (Old : forall c x, nth_error (ss_conns st) c = Some x -> sane_slot (sn_slot x)) by (intros c x N; apply IH; eapply nth_error_In; eauto).
  inversion Sp; subst; cbn [ss_conns]; try (apply Set_ok; cbn; eauto); try (apply Forall_forall; exact IH).
  eapply call_sane; eauto.
Qed.
Lemma step_more seal size fuel fuel' dbg rt st l st' : (fuel <= fuel')%nat -> sstep seal size fuel dbg rt st l st' -> sstep seal size fuel' dbg rt st l st'.
Proof.
  intros L Sp. inversion Sp; subst; try (econstructor; eauto; fail).
  eapply ss_handle; eauto. eapply handle_more; eauto.
Qed.
Lemma run_more seal size fuel fuel' dbg rt st ls st' : (fuel <= fuel')%nat -> srun seal size fuel dbg rt st ls st' -> srun seal size fuel' dbg rt st ls st'.
Proof. intros L R. induction R; econstructor; eauto. eapply step_more; eauto. Qed.

Theorem C98_https_rests_when_done : forall seal size fuel dbg rt n m ls st, positive size -> srun seal size fuel dbg rt (s_init n m) ls st ->
  existsb salive (ss_workers st) = true ->
  exists enough, forall fuel', (enough <= fuel')%nat -> srun seal size fuel' dbg rt (s_init n m) ls st /\
    ((forall l st', internal l -> ~ sstep seal size fuel' dbg rt st l st') -> forall c, quiet st c).
Proof.
  intros seal size fuel dbg rt n m ls st P R Al. pose proof (run_sane _ _ _ _ _ _ _ _ _ P R) as Sa.
  assert (exists F, forall c x, nth_error (ss_conns st) c = Some x -> forall G, (F <= G)%nat ->
            call seal size G dbg (rt c) (s_around (sn_in x) []) (sn_log x) (sn_slot x) <> None) as (F & H).
  { revert Sa. clear -P. generalize (ss_conns st) as l. intros l. revert rt. induction l as [|x l IH]; intros rt Sa.
    - exists 0%nat. intros [|c] x N; discriminate.
    - inversion Sa; subst. destruct (IH (fun c => rt (Datatypes.S c)) H2) as (F & HF).
      destruct (call_returns seal size dbg (rt 0%nat) (sn_in x) [] (sn_log x) (sn_slot x) P H1) as (F0 & l0 & s0 & _ & H0).
      exists (Nat.max F F0). intros [|c] y N G L; cbn in N.
      + inversion N; subst. rewrite H0 by lia. discriminate.
      + apply (HF c y N G). lia. }
  exists (Nat.max fuel F). intros fuel' L. split; [eapply run_more; [|exact R]; lia|].
  intros Stuck. refine (C95_rests_when_done seal size fuel' dbg rt n m ls st _ Al Stuck _); [eapply run_more; [|exact R]; lia|].
  intros c x N. apply (H c x N). lia.
Qed.

(** Not so for a peer who always has sent more by the time the server reads again: the call goes on answering and does not return; its worker is lost to
    the other connections for as long. *)
Definition hose_request : bytes := write_request example_request.
Definition hose_read (n : N) (t : unit) : (ekind + bytes) * unit := (inr (firstn (N.to_nat n) hose_request), t).
Definition hose_write (b : bytes) (t : unit) : wres N * unit := (WOk (len b), t).
Definition hose_flush (t : unit) : wres unit * unit := (WOk tt, t).
Notation hose_conn p := (mk_tconn unit (mk_tbuf unit (wr_new WRITE_BUF_SIZE) [] tt) p).

Lemma hose_reads dbg fuel p : (p = None \/ p = Some req_new) -> (100 <= fuel)%nat -> exists r,
  t_read_request unit hose_read (fun _ => 32) READ_BUF_SIZE fuel dbg (hose_conn p) = (Ready r, hose_conn None) /\ should_close_after_response r = false.
Proof.
  intros H L. eexists. split.
  - refine (read_request_more unit hose_read (fun _ => 32) READ_BUF_SIZE 100 fuel L _ _ _ _ _ _).
    + destruct H as [->| ->]; destruct dbg; vm_compute; reflexivity.
    + discriminate.
  - vm_compute. reflexivity.
Qed.
Lemma hose_answers fuel : (100 <= fuel)%nat -> tc_ops unit hose_write hose_flush fuel (result_ops LNext) (hose_conn None) = (WOk tt, hose_conn None).
Proof.
  intros L. refine (tc_ops_more unit hose_write hose_flush 100 fuel L _ _ _ _ _ _); [vm_compute; reflexivity|discriminate].
Qed.
Lemma hose_respond dbg fuel n : (100 <= fuel)%nat -> forall p log, (p = None \/ p = Some req_new) ->
  t_respond unit hose_read hose_write hose_flush (fun _ => 32) READ_BUF_SIZE fuel n dbg (fun _ _ => LNext) log (hose_conn p) = None.
Proof.
  intros L. induction n as [|n IH]; intros p log H; [reflexivity|]. cbn [t_respond].
  destruct (hose_reads dbg fuel p H L) as (r & E & Ec). rewrite E. rewrite (hose_answers fuel L), Ec. apply IH. auto.
Qed.
Theorem C98_always_returns_refuted : forall dbg fuel,
  t_handle unit hose_read hose_write hose_flush (fun _ => 32) READ_BUF_SIZE fuel dbg (fun _ _ => LNext) (fun t => t) [] (TOpen unit (tconn_new unit tt)) = None.
Proof.
  intros dbg fuel.
  assert (K : forall G, (100 <= G)%nat ->
    t_handle unit hose_read hose_write hose_flush (fun _ => 32) READ_BUF_SIZE G dbg (fun _ _ => LNext) (fun t => t) [] (TOpen unit (tconn_new unit tt)) = None).
  { intros G L. cbn [t_handle].
    assert (tc_flush unit hose_write hose_flush G (tc_env unit (fun t => t) (tconn_new unit tt)) = (WOk tt, hose_conn (Some req_new))) as ->.
    { refine (tc_flush_more unit hose_write hose_flush 100 G L _ _ _ _ _); [vm_compute; reflexivity|discriminate]. }
    rewrite hose_respond; auto. }
  destruct (t_handle unit hose_read hose_write hose_flush (fun _ => 32) READ_BUF_SIZE fuel dbg (fun _ _ => LNext) (fun t => t) [] (TOpen unit (tconn_new unit tt))) as [r|] eqn:E; auto.
  pose proof (K (Nat.max 100 fuel) ltac:(lia)) as Q.
  rewrite (handle_more unit hose_read hose_write hose_flush (fun _ => 32) READ_BUF_SIZE fuel (Nat.max 100 fuel) ltac:(lia) dbg _ _ _ _ _ E) in Q. discriminate Q.
Qed.

(** ** Cases *)

(** A stream other than TLS that is finite: the one of C92's case. *)
Lemma raw_read_mu n s x s' : 0 < n -> raw_read n s = (x, s') -> (mu s' <= mu s)%nat /\
  match x with inl k => k = WouldBlock \/ (In (RErr k) s /\ (mu s' < mu s)%nat) | inr bs => (mu s' + List.length bs <= mu s)%nat end.
Proof.
  intros Hn E. unfold raw_read in E. destruct s as [|[[|c bs]|k] s]; inversion E; subst; cbn [mu]; try (split; [lia|]; cbn; auto; lia).
  - rewrite firstn_length. assert (mu (match skipn (N.to_nat n) (c :: bs) with [] => s | r => RData r :: s end) + Nat.min (N.to_nat n) (List.length (c :: bs)) <= Datatypes.S (List.length (c :: bs)) + mu s)%nat.
    { pose proof (skipn_length (N.to_nat n) (c :: bs)) as Sl. destruct (skipn (N.to_nat n) (c :: bs)) as [|a r]; cbn [mu]; lia. }
    split; [|exact H]. eapply Nat.le_trans; [|exact H]. apply Nat.le_add_r.
Qed.
Definition toy_sane (t : toy) : Prop := ~ In (RErr ModelFuel) (fst (fst t)).
Lemma toy_finite : finite toy toy_read toy_write toy_flush (fun t => mu (fst (fst t))) toy_sane.
Proof.
  constructor.
  - intros n [[s tk] g] x t' Hn Sa E. unfold toy_read, toy_sane in *. cbn [fst] in *. destruct (raw_read n s) as [y s'] eqn:E1.
    destruct (raw_read_mu _ _ _ _ Hn E1) as [H1 H2].
    assert (Sub : forall e, In (RErr e) s' -> In (RErr e) s).
    { intros e I. unfold raw_read in E1. destruct s as [|[[|c bs]|k] s]; inversion E1; subst; auto; try now right.
      destruct (skipn (N.to_nat n) (c :: bs)); [now right|]. destruct I as [I|I]; [discriminate|now right]. }
    destruct y as [k|bs]; inversion E; subst; cbn [fst].
    + split; [auto|]. split; auto. split.
      * intros ->. destruct H2 as [H2|[H2 _]]; [discriminate|auto].
      * intros ->. destruct H2 as [H2|[_ H2]]; [discriminate|auto].
    + split; [auto|]. auto.
  - intros b [[s tk] g] x t' Hb Sa E. inversion E; subst. split; auto. split; auto. intros Q. destruct b; [contradiction|]. unfold len in Q. cbn [List.length] in Q. lia.
  - intros t x t' Sa E. inversion E; subst. split; auto. split; auto. discriminate.
Qed.
Lemma arrive_sane s : ~ In (RErr ModelFuel) s -> forall t, toy_sane t -> toy_sane (arrive s t).
Proof. intros H [[s0 tk] g] Sa I. cbn in *. apply in_app_or in I as [I|I]; auto. Qed.

Example C98_case : (exists r1 r2 c, t_visits toy toy_read toy_write toy_flush (fun _ => 32) READ_BUF_SIZE 400 true example_router
    [arrive [RData (firstn 40 two_requests)]; arrive [RErr Interrupted; RData (skipn 40 two_requests)]] [] (TOpen toy (tconn_new toy ([], [], [])))
    = Some ([r1; r2], TOpen toy c)) /\
  positive (fun _ => 32) /\ finite toy toy_read toy_write toy_flush (fun t => mu (fst (fst t))) toy_sane /\
  Forall (fun f => forall u, toy_sane u -> toy_sane (f u)) [arrive [RData (firstn 40 two_requests)]; arrive [RErr Interrupted; RData (skipn 40 two_requests)]] /\ toy_sane ([], [], []).
Proof.
  split. { destruct C92_case as (r1 & r2 & c & H & _). exists r1, r2, c. exact H. }
  split; [intros ?; reflexivity|]. split; [exact toy_finite|]. split; [|intros []].
  repeat apply Forall_cons; try apply Forall_nil; apply arrive_sane; cbn [In]; intuition discriminate.
Qed.
(** With TLS: the calls of C93's case. *)
Example C98_case_tls : Forall (fun f => around f /\ forall t, real_errors (f t)) calls2 /\
  exists r1 r2 c, run seal1 (fun _ => 32) READ_BUF_SIZE 400 true example_router calls2 [] fresh = Some ([r1; r2], TOpen tls c).
Proof.
  split; [|destruct C93_case as (r1 & r2 & c & H & _); exists r1, r2, c; exact H].
  repeat apply Forall_cons; try apply Forall_nil; (split; [apply sock_now_around|]); intros t; split; cbn.
  all: try (intros I; repeat (destruct I as [I|I]; [discriminate I|]); exact I).
  all: destruct (ts_hs t); cbn; intros I; repeat (destruct I as [I|I]; [discriminate I|]); exact I.
Qed.

Example C98_case_https : exists st, srun seal1 (fun _ => 32) 400 true (fun _ => example_router) (s_init 2 1) two_peers st /\ existsb salive (ss_workers st) = true.
Proof. destruct C95_case_rest as (st & R & Al & _). exists st. auto. Qed.

Print Assumptions C98_returns.
Print Assumptions C98_https_rests_when_done.
Print Assumptions C98_same.
Print Assumptions C98_tls.
Print Assumptions C98_always_returns_refuted.
Print Assumptions C98_case.
Print Assumptions C98_case_tls.
