(** C92: the server's connections on any stream that reads and writes as Read and Write promise. *)
From Coq Require Import List Ascii String NArith ZArith Bool Lia.
From Verif.Model Require Import Bytes Io Common Parse Encode Writer Server Client Generic Buffered Streams.
From Verif.Spec Require Import Batch Stream Drive Numerals Grammar Wire Output Unicode Session Exchange Buffering Streams.
From Verif.Proofs Require Import DriveFacts BufferedFacts BufferedConnFacts RecutFacts StreamsFacts.
From Verif.Properties Require Import Streaming RoundTrip Server Client Buffered.
Import ListNotations.
Local Open Scope N_scope.

Section Any.
Variable T : Type.
Variable t_read : N -> T -> (ekind + bytes) * T.
Variable t_write : bytes -> T -> wres N * T.
Variable t_flush : T -> wres unit * T.
Variable taken : T -> list what.
Variable given : T -> bytes.

Notation run := (t_visits T t_read t_write t_flush).
Notation fresh t := (TOpen T (tconn_new T t)).

(** Calls of the handler for a connection on such a stream are calls of the handler for a connection on a socket: the socket's input
    is what was read from the stream, its output is what the stream took, and its writes and flushes are foreseen. *)
Theorem C92_server : forall (Inv : T -> Prop) (G : T -> list wevent -> list (option ekind) -> Prop) size fuel dbg rt fs t log st,
  positive size -> honest T t_read t_write t_flush taken given -> foresees T t_read t_write t_flush G ->
  lasts T t_read t_write t_flush Inv fs -> Inv t ->
  Forall (outside_only T taken given) fs -> taken t = [] -> given t = [] ->
  run size READ_BUF_SIZE fuel dbg rt fs [] (fresh t) = Some (log, st) ->
  exists rx vs b,
    b_visits size dbg rt vs [] (BOpen (bconn_new (mk_socket rx (mk_sock [] [] [])))) = (log, b) /\
    same_end T taken given st b (content rx) /\
    Forall2 (fun f v => v = mk_visit [] [] \/ exists t0, Inv (f t0) /\ G (f t0) (v_events v) (v_flushes v)) fs vs.
Proof.
  intros Inv G size fuel dbg rt fs t log st P H FS La Hi0 Fo Et Eg E.
  set (last := match st with TOpen _ c => tb_in T (tc_stream T c) | TGone _ t => t | TPoisoned _ t => t end).
  set (Rel := stands_for T taken given G (taken last)).
  assert (Fe : Forall (env_ok T Rel given) fs).
  { eapply Forall_impl; [|exact Fo]. intros f Hf. eapply stands_env; eauto. }
  assert (Fin : idle T Rel given last []).
  { split; [reflexivity|]. split; [cbn; now rewrite app_nil_r|]. apply (foresees_end _ _ _ _ _ FS). }
  assert (Hend : exists b, sims T READ_BUF_SIZE Rel given st [] b).
  { destruct st as [c|u|u]; eexists; (split; [exact Fin|reflexivity]). }
  destruct Hend as (b & Sb).
  edestruct (t_visits_ok T t_read t_write t_flush size) with (Inv := Inv) (st := fresh t) (Rel := Rel) (given := given) (rcap := READ_BUF_SIZE) (fs := fs) (st' := st) (s := @nil revent) (b := b)
    as (vs & s0 & b0 & S0 & Cs & V); [exact P|reflexivity| | | |intros ? ? ? (X & _); exact X|intros ? ? ? ? _; exact (lasts_read _ _ _ _ _ _ La _ _ _ _)|exact (lasts_write _ _ _ _ _ _ La)|exact (lasts_flush _ _ _ _ _ _ La)|exact (lasts_around _ _ _ _ _ _ La)|exact Hi0|exact Fe|exact E|exact Sb|].
  { intros; eapply stands_read; eauto. }
  { intros; eapply stands_write; eauto. }
  { intros; eapply stands_flush; eauto. }
  destruct S0 as [Hi ->]. exists s0, vs, b. split.
  - rewrite <- V. cbn [tconn_new tc_stream tb_in tc_parser]. unfold as_bconn, tconn_new, pair_of, bconn_new, with_buf_reader_and_writer. cbn. rewrite Eg. reflexivity.
  - split.
    + destruct Hi as (_ & Hc & _). cbn in Hc. rewrite Et in Hc. cbn [app] in Hc. rewrite Hc. unfold last.
      destruct st as [c|u|u]; destruct Sb as [_ ->]; cbn; auto. repeat split; auto.
    + clear - Cs. induction Cs as [|f v fs vs C Cs IH]; constructor; auto. destruct C as [->|(t0 & s & k & Hi & (_ & _ & R) & ->)]; [auto|]. right. exists t0. auto.
Qed.

(** A call that keeps the connection has used everything that it read, and its last read said that there is no more. *)
Theorem C92_all_used : forall size fuel dbg rt fs f t log c,
  run size READ_BUF_SIZE fuel dbg rt (fs ++ [f]) [] (fresh t) = Some (log, TOpen T c) ->
  tb_buf T (tc_stream T c) = [] /\ exists n t0, t_read n t0 = (inl WouldBlock, tb_in T (tc_stream T c)).
Proof.
  intros size fuel dbg rt fs f t log c. generalize (fresh t) (@nil request). induction fs as [|g fs IH]; intros st l; cbn [app t_visits].
  2:{ destruct (t_handle T t_read t_write t_flush size READ_BUF_SIZE fuel dbg rt g l st) as [[l1 s1]|]; [apply IH|discriminate]. }
  destruct (t_handle T t_read t_write t_flush size READ_BUF_SIZE fuel dbg rt f l st) as [[l1 s1]|] eqn:E; [|discriminate].
  intros X. inversion X; subst. clear X. destruct st as [d|u|u]; cbn [t_handle] in E; try discriminate.
  destruct (tc_flush T t_write t_flush fuel (tc_env T f d)) as [[y|k] c1]. 2:{ destruct (ran_out k); discriminate. }
  destruct (t_respond T t_read t_write t_flush size READ_BUF_SIZE fuel fuel dbg rt l c1) as [[[vd l2] c2]|] eqn:Er; [|discriminate].
  destruct vd; inversion E; subst. clear E. exact (keep_used T t_read t_write t_flush size READ_BUF_SIZE fuel _ _ _ _ _ _ _ Er).
Qed.

(** C26 on any such stream: the requests in what was read from it are answered as the reference says. *)
Theorem C92_responses : forall (Inv : T -> Prop) (G : T -> list wevent -> list (option ekind) -> Prop) size fuel dbg rt fs t log st eof rx,
  positive size -> honest T t_read t_write t_flush taken given -> foresees T t_read t_write t_flush G -> gentle T Inv G ->
  lasts T t_read t_write t_flush Inv fs -> Inv t ->
  Forall (outside_only T taken given) fs -> taken t = [] -> given t = [] -> no_panic rt -> fs <> [] ->
  run size READ_BUF_SIZE fuel dbg rt fs [] (fresh t) = Some (log, st) ->
  taken (stream_of T st) = content rx -> orderly eof rx ->
  match st with
  | TOpen _ c => served rt [] (pending rx) false log (t_output T given c) true
  | TGone _ u => exists rest, served rt [] (pending rx) eof log (given u ++ rest) false
  | TPoisoned _ u => False
  end.
Proof.
  intros Inv G size fuel dbg rt fs t log st eof rx P H FS Ge La Hi0 Fo Et Eg Hrt Nf E Er O.
  destruct (C92_server Inv G _ _ _ _ _ _ _ _ P H FS La Hi0 Fo Et Eg E) as (rx0 & vs & b & V & Sm & Fv).
  assert (R : recut rx rx0).
  { unfold recut. rewrite <- Er. destruct st as [c|u|u], b as [d|y|y]; cbn in Sm; try contradiction; cbn; intuition. }
  destruct (gentle_visits T G Inv fs vs Ge Fv) as (F1 & F2).
  destruct (C71_responses size dbg rt eof rx0 vs log b P Hrt (recut_orderly _ _ _ R O) F1 (or_introl F2) V)
    as [(d & got & -> & Hp & Hs & _)|(sent & rest & -> & Hs)]; rewrite (recut_pending _ _ R).
  - destruct st as [c|u|u]; cbn in Sm; try contradiction. destruct Sm as ((S1 & S2 & S3 & S4) & S5 & S6).
    destruct (exists_last Nf) as (fs0 & f & ->). destruct (C92_all_used _ _ _ _ _ _ _ _ _ E) as (B & _).
    unfold unread in Hp. rewrite <- S3, B, S5 in Hp. cbn in Hp. rewrite app_nil_r in Hp. subst got.
    unfold t_output. rewrite S4, S2. exact Hs.
  - destruct st as [c|u|u]; cbn in Sm; try contradiction. destruct Sm as (<- & _). eauto.
Qed.

(** ... whatever is read, the output is the answers to the requests routed, in order, then the 400 response or nothing. *)
Theorem C92_any_input : forall (Inv : T -> Prop) (G : T -> list wevent -> list (option ekind) -> Prop) size fuel dbg rt fs t log st,
  positive size -> honest T t_read t_write t_flush taken given -> foresees T t_read t_write t_flush G -> gentle T Inv G ->
  lasts T t_read t_write t_flush Inv fs -> Inv t ->
  Forall (outside_only T taken given) fs -> taken t = [] -> given t = [] ->
  run size READ_BUF_SIZE fuel dbg rt fs [] (fresh t) = Some (log, st) ->
  exists tail, (tail = [] \/ (tail = bad_request /\ exists u, st = TGone T u)) /\
    match st with
    | TOpen _ c => t_output T given c = replies rt [] log ++ tail
    | TGone _ u | TPoisoned _ u => exists rest, replies rt [] log ++ tail = given u ++ rest
    end.
Proof.
  intros Inv G size fuel dbg rt fs t log st P H FS Ge La Hi0 Fo Et Eg E.
  destruct (C92_server Inv G _ _ _ _ _ _ _ _ P H FS La Hi0 Fo Et Eg E) as (rx0 & vs & b & V & Sm & Fv).
  destruct (gentle_visits T G Inv fs vs Ge Fv) as (F1 & F2).
  destruct (C71_any_input size dbg rt rx0 vs log b P F1 (or_introl F2) V) as (tail & Ht & Hb). exists tail.
  destruct st as [c|u|u], b as [d|y|y]; cbn in Sm; try contradiction.
  - destruct Sm as ((S1 & S2 & S3 & S4) & S5 & S6). split. { destruct Ht as [?|(_ & x & X)]; [auto|discriminate]. }
    unfold t_output. rewrite S4, S2. exact Hb.
  - destruct Sm as (<- & _). split; eauto. destruct Ht as [?|(? & _)]; eauto.
  - destruct Sm as (<- & _). split; eauto. destruct Ht as [?|(_ & x & X)]; [auto|discriminate].
Qed.

(** ... and a request that asks to close is the last. *)
Theorem C92_close_is_last : forall size fuel dbg rt fs t log st a v l,
  positive size -> honest T t_read t_write t_flush taken given -> Forall (outside_only T taken given) fs -> taken t = [] -> given t = [] ->
  run size READ_BUF_SIZE fuel dbg rt fs [] (fresh t) = Some (log, st) ->
  log = a ++ v :: l -> asks_close v -> l = [] /\ forall c, st <> TOpen T c.
Proof.
  intros size fuel dbg rt fs t log st a v l P H Fo Et Eg E El Hv.
  assert (La : lasts T t_read t_write t_flush (fun _ => True) fs) by (constructor; auto; apply Forall_forall; auto).
  destruct (C92_server (fun _ => True) (fun _ _ _ => True) _ _ _ _ _ _ _ _ P H ltac:(constructor; auto) La I Fo Et Eg E) as (rx0 & vs & b & V & Sm & Fv).
  destruct (C71_close_is_last _ _ _ _ _ _ _ _ _ _ P V El Hv) as (H1 & H2). split; auto.
  intros c ->. destruct b; cbn in Sm; try contradiction. eapply H2; reflexivity.
Qed.
End Any.

(** Not so: a stream whose write takes nothing and says so (Ok(0), not an error) is written to again and again: whatever number of
    iterations the loops are given, the call of the handler has not ended. *)
Theorem C92_writes_of_nothing_refuted : forall T t_read t_write t_flush size fuel dbg rt f log c,
  (forall b t, t_write b t = (WOk 0, t)) -> unsent (tb_w T (tc_stream T c)) <> [] ->
  t_handle T t_read t_write t_flush size READ_BUF_SIZE fuel dbg rt f log (TOpen T c) = None.
Proof.
  intros T t_read t_write t_flush size fuel dbg rt f log c Hw Hu.
  assert (Spin : forall n t b pos, b <> [] -> t_wub T t_write n t b pos = (WErr ModelFuel, t)).
  { induction n as [|n IH]; intros t b pos Hb; (destruct b as [|x b]; [contradiction|]); cbn [t_wub]; [reflexivity|]. rewrite Hw. cbn [skipn N.to_nat]. apply IH. auto. }
  cbn [t_handle]. unfold tc_flush, tb_write, t_wr_flush, t_flush_buf. cbn [tc_env tc_stream tb_w tb_in].
  rewrite Spin by exact Hu. reflexivity.
Qed.

(** ** Cases *)

(** A stream that is fed by [arrive], takes at most seven bytes at once and never blocks. *)
Definition toy : Type := stream * list what * bytes.
Definition toy_read (n : N) (t : toy) : (ekind + bytes) * toy :=
  let '(s, tk, g) := t in
  match raw_read n s with
  | (inl k, s') => (inl k, (s', tk ++ [Failure k], g))
  | (inr bs, s') => (inr bs, (s', tk ++ content_of (RData bs), g))
  end.
Definition toy_write (b : bytes) (t : toy) : wres N * toy :=
  let '(s, tk, g) := t in (WOk (N.min 7 (len b)), (s, tk, g ++ firstn (N.to_nat (N.min 7 (len b))) b)).
Definition toy_flush (t : toy) : wres unit * toy := (WOk tt, t).
Definition toy_taken (t : toy) : list what := snd (fst t).
Definition toy_given (t : toy) : bytes := snd t.
Definition arrive (s : stream) (t : toy) : toy := let '(s0, tk, g) := t in (s0 ++ s, tk, g).
Definition toy_G (_ : toy) (ws : list wevent) (fs : list (option ekind)) : Prop :=
  Forall (fun e => exists n, e = WTake n) ws /\ Forall (fun f => f = None) fs.

Lemma toy_honest : honest toy toy_read toy_write toy_flush toy_taken toy_given.
Proof.
  constructor.
  - intros n [[s tk] g] x t' Hn. unfold toy_read. destruct (raw_read n s) as [[k|bs] s'] eqn:E; intros X; inversion X; subst; cbn; auto.
    split; auto. split; auto. unfold raw_read in E. destruct s as [|[[|c l]|k] s]; inversion E; subst; [unfold len; cbn; lia|].
    unfold len. rewrite firstn_length. lia.
  - intros b [[s tk] g] x t' Hb X. inversion X; subst. cbn [toy_taken toy_given fst snd]. split; auto. split; [lia|reflexivity].
  - intros t x t' X. inversion X; subst. auto.
Qed.
Lemma toy_foresees : foresees toy toy_read toy_write toy_flush toy_G.
Proof.
  constructor.
  - split; constructor.
  - auto.
  - intros b [[s tk] g] x t' ws fs _ X [H1 H2]. inversion X; subst. split; auto. constructor; auto. eexists; reflexivity.
  - intros t x t' ws fs X [H1 H2]. inversion X; subst. split; auto.
Qed.
Lemma toy_gentle : gentle toy (fun _ => True) toy_G.
Proof.
  intros t ws fs _ [H1 H2]. split; [split|].
  - cbn. eapply Forall_impl; [|exact H1]. intros e [n ->]. exact I.
  - cbn. eapply Forall_impl; [|exact H2]. auto.
  - intros a b n E. cbn in E. subst ws. apply Forall_app in H1 as [_ H1]. inversion H1 as [|? ? [? X]]; subst. discriminate X.
Qed.
Lemma toy_outside s : outside_only toy toy_taken toy_given (arrive s).
Proof. intros [[s0 tk] g]. split; reflexivity. Qed.

Lemma no_interrupt_snoc {U} (batch : bytes -> outcome U) s : no_interrupt_in_data batch s -> no_interrupt_in_data batch (s ++ [RErr WouldBlock]).
Proof.
  intros I s1 s2 E. destruct s2 as [|x s2] using rev_ind.
  - apply app_inj_tail in E as [_ E]. discriminate.
  - change (s1 ++ RErr Interrupted :: s2 ++ [x]) with (s1 ++ (RErr Interrupted :: s2) ++ [x]) in E. rewrite app_assoc in E.
    apply app_inj_tail in E as [E _]. eauto.
Qed.

(** Two requests in two pieces: what is needed by the theorems, and what happens. *)
Example C92_case : exists r1 r2 c,
  t_visits toy toy_read toy_write toy_flush (fun _ => 32) READ_BUF_SIZE 400 true example_router
    [arrive [RData (firstn 40 two_requests)]; arrive [RErr Interrupted; RData (skipn 40 two_requests)]] [] (TOpen toy (tconn_new toy ([], [], [])))
    = Some ([r1; r2], TOpen toy c) /\
  toy_given (tb_in toy (tc_stream toy c)) = write_response (response_of_body (lit "hello")) ++ not_found /\
  toy_taken (tb_in toy (tc_stream toy c)) = content (two_cut ++ [RErr WouldBlock]) /\
  honest toy toy_read toy_write toy_flush toy_taken toy_given /\ foresees toy toy_read toy_write toy_flush toy_G /\ gentle toy (fun _ => True) toy_G /\
  Forall (outside_only toy toy_taken toy_given) [arrive [RData (firstn 40 two_requests)]; arrive [RErr Interrupted; RData (skipn 40 two_requests)]] /\
  no_panic example_router /\ orderly false (two_cut ++ [RErr WouldBlock]).
Proof.
  eexists. eexists. eexists. split; [vm_compute; reflexivity|]. split; [vm_compute; reflexivity|]. split; [vm_compute; reflexivity|].
  split; [exact toy_honest|]. split; [exact toy_foresees|]. split; [exact toy_gentle|]. split; [repeat constructor; apply toy_outside|].
  split; [intros [|] ?; discriminate|].
  destruct C24_case as (F & L & P & I & _). apply (plain_orderly [example_request; example_request] false); [exact F| | |].
  - apply live_eof_false. unfold live in *. apply Forall_app. split; auto. constructor; [cbn; auto|constructor].
  - rewrite pending_app, P. cbn [pending]. now rewrite app_nil_r.
  - now apply no_interrupt_snoc.
Qed.

(** A stream that takes nothing, with an answer to write. *)
Example C92_case_nothing : exists d,
  unsent (tb_w toy (tc_stream toy d)) <> [] /\
  t_handle toy toy_read (fun b t => (WOk 0, t)) toy_flush (fun _ => 32) READ_BUF_SIZE 100 true example_router (fun t => t) [] (TOpen toy d) = None.
Proof.
  exists (mk_tconn toy (mk_tbuf toy (mk_writer not_found 0 4096) [] ([], [], [])) None). split; [vm_compute; discriminate|vm_compute; reflexivity].
Qed.

Print Assumptions C92_server.
Print Assumptions C92_all_used.
Print Assumptions C92_responses.
Print Assumptions C92_any_input.
Print Assumptions C92_close_is_last.
Print Assumptions C92_writes_of_nothing_refuted.
