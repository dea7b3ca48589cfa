(** What peers do to themselves and to each other: C79, C80, C81. *)
From Coq Require Import List Ascii String NArith Bool Arith Lia.
From Verif.Model Require Import Bytes Io Common Parse Encode Writer Server Slab Poll Handlers Whole Full.
From Verif.Spec Require Import Batch Stream Drive Numerals Grammar Wire Output Session Slots Traces Arrivals Events.
From Verif.Proofs Require Import BytesFacts SlabFacts PollFacts HandlersFacts WholeFacts FullFacts LifeFacts EncodeFacts.
From Verif.Properties Require Import Streaming RoundTrip Server Poll Handlers Whole Full.
Import ListNotations.

Lemma wparts_app a b : wparts (a ++ b) = wparts a ++ wparts b.
Proof. apply flat_map_app. Qed.

(** ** C79 *)

(** A peer connects, sends bytes -- complete requests, say -- and hangs up before the server has polled.  The event tells
    of both; the server takes the connection out of its slab and closes the socket.  Nothing of what was sent is ever
    read. *)
Theorem C79_hangup_processed_refuted : forall dbg R size bs, bs <> [] ->
  exists ls st, frun dbg R (f_init size) ls st /\ accepted_here 0 ls /\ received 0 (wparts ls) = map IByte bs /\
    (forall c r, In (FP (Closed c r)) ls -> c = 0) /\
    forall ls' st', frun dbg R st ls' st' ->
      ~ connected 0 st' /\ exists x, nth_error (ws_conns (f_w st')) 0 = Some x /\ wc_slot x = WHere (conn_new []) /\ wc_log x = [].
Proof.
  intros dbg R size bs Hb. pose proof (frun_nil dbg R (f_init size)) as Rn.
  assert (P : Forall proper (map IByte bs)) by apply all_proper.
  assert (Q : map IByte bs <> []) by (destruct bs; [congruence|discriminate]).
  eapply frun_step in Rn; [|fpoll [EvListener]].
  eapply frun_step in Rn; [|fmain Listening ltac:(apply step_listen; reflexivity)].
  eapply frun_step in Rn; [|faccept 0].
  eapply frun_step in Rn; [|fmain Blocked ltac:(apply step_blocked; reflexivity)].
  eapply frun_step in Rn; [|eapply (fs_arrive _ _ _ 0 0 (map IByte bs)); [cbn; auto|eapply ws_arrive; [reflexivity|reflexivity|exact Q|exact P]]].
  eapply frun_step in Rn; [|fpoll [EvSocket 0 0 true]].
  eapply frun_step in Rn; [|fclosed 0 (Some 0)].
  do 2 eexists. split; [exact Rn|]. split; [unfold accepted_here; cbn [In]; intuition|]. split; [reflexivity|].
  split; [intros c r H; cbn [In] in H; intuition congruence|].
  intros ls' st' R'.
  destruct (forgotten_run dbg R _ _ _ 0 _ R' (finv_run dbg R size _ _ Rn)
    ltac:(split; [reflexivity|split; [cbn; clear; induction size; cbn; intuition discriminate|split; [cbn; lia|intros [t H]; cbn in H; intuition discriminate]]]) eq_refl)
    as ((_ & _ & _ & H) & x & N & P' & L).
  split; auto. exists x. auto.
Qed.
Print Assumptions C79_hangup_processed_refuted.

(** The peer of [c] has sent the bytes [b], a beginning of requests none of which asks to close; the socket works and no
    event removed it; the listeners do not panic, and send little if the socket is slow.  [vs]: what the output side of
    the socket did in each call. *)
Record quiet_peer (R : nat -> request -> lresult -> Prop) (c : nat) (ls : list flabel) (vs : list visit) (b : bytes) (rs : list request) : Prop := mk_quiet_peer {
  qp_accepted : accepted_here c ls;
  qp_kept : never_removed c ls;
  qp_calm : calm_listeners R c;
  qp_fine : Forall visit_fine vs;
  qp_steady : Forall visit_steady vs \/ short_listeners R c;
  qp_plain : Forall plain_request rs;
  qp_open : forall r, In r rs -> ~ asks_close r;
  qp_sent : received c (wparts ls) = map IByte b;
  qp_requests : exists b', b ++ b' = List.concat (map write_request rs) }.

Lemma accepted_conn dbg R size ls st c : frun dbg R (f_init size) ls st -> accepted_here c ls -> exists x, nth_error (ws_conns (f_w st)) c = Some x.
Proof.
  intros Rn Ac. assert (L : c < List.length (ws_conns (f_w st))).
  { remember (f_init size) as i. induction Rn as [|st0 ls st1 l st2 Rn IH S]; [destruct Ac|]. subst.
    pose proof (finv_run _ _ _ _ _ (frun_step _ _ _ _ _ _ _ Rn S)) as [_ L' _]. rewrite L'.
    destruct Ac as [-> |Ac].
    - inversion S; subst; try discriminate. match goal with H : pstep _ (Accepted _ _) _ |- _ => inversion H; subst end.
      match goal with H : on_connection _ _ = Some _ |- _ => unfold on_connection in H; destruct (insert (p_slab (f_p st1)) (p_next (f_p st1))) as [[? ?]|]; [|discriminate]; inversion H; subst end; cbn; lia.
    - pose proof (next_mono _ _ _ _ _ S). destruct (finv_run _ _ _ _ _ Rn) as [_ L1 _]. specialize (IH eq_refl Ac). lia. }
  destruct (nth_error (ws_conns (f_w st)) c) as [x|] eqn:N; eauto. apply nth_error_None in N. lia.
Qed.

Lemma quiet_connected dbg R size ls st c b rs : has_router R -> frun dbg R (f_init size) ls st ->
  quiet_peer R c ls (calls c (wparts ls)) b rs ->
  connected c st /\ exists x k, nth_error (ws_conns (f_w st)) c = Some x /\ (wc_slot x = WHere k \/ wc_slot x = WTaken k).
Proof.
  intros Tot Rn [Ac Kp Cl Fi Sd Pl Op Sn (b' & E)].
  destruct (accepted_conn _ _ _ _ _ _ Rn Ac) as (x & N).
  destruct (C70_event_loop_keeps dbg R size ls st c x rs b b' Tot Rn Ac Kp N Cl Fi Sd Pl Op Sn E) as (H & k & K).
  split; auto. exists x, k. auto.
Qed.

(** ** C80 *)

(** Any number of connections accepted, nothing having arrived on them. *)
Lemma accept_many dbg R size n : exists ls st, frun dbg R (f_init size) ls st /\ p_listening (f_p st) = true /\ p_next (f_p st) = n /\
  ws_conns (f_w st) = repeat wc_new n /\ (forall c, c < n -> accepted_here c ls) /\ (forall c r, ~ In (FP (Closed c r)) ls) /\ wparts ls = [].
Proof.
  induction n as [|n (ls & st & Rn & Li & Nx & Cs & Ac & Cl & W)].
  - pose proof (frun_nil dbg R (f_init size)) as Rn.
    eapply frun_step in Rn; [|fpoll [EvListener]].
    eapply frun_step in Rn; [|fmain Listening ltac:(apply step_listen; reflexivity)].
    do 2 eexists. split; [exact Rn|]. repeat (split; [reflexivity|]). split; [intros c H; lia|]. split; [intros c r H; cbn [In] in H; intuition discriminate|reflexivity].
  - pose proof (finv_run _ _ _ _ _ Rn) as [(I & _) _ _].
    destruct (insert_spec (p_slab (f_p st)) (p_next (f_p st)) I) as (s' & E & _).
    assert (S : pstep (f_p st) (Accepted (p_next (f_p st)) true)
      (mk_pstate s' (1 + p_next (f_p st)) ((p_next (f_p st), next_key (p_slab (f_p st))) :: p_reg (f_p st)) (p_jobs (f_p st)) (p_batch (f_p st)) (p_listening (f_p st)))).
    { apply step_accept; auto. unfold on_connection. now rewrite E. }
    eapply frun_step in Rn; [|apply fs_accept; exact S]. do 2 eexists. split; [exact Rn|]. cbn [f_p f_w p_listening p_next add_conn ws_conns].
    split; auto. split; [lia|]. split; [now rewrite Cs, <- repeat_cons|]. split; [|split].
    + intros c H. destruct (Nat.eq_dec c n) as [-> |Ne]; [left; now rewrite Nx|right; apply Ac; lia].
    + intros c r [H|H]; [discriminate|now apply (Cl c r)].
    + exact W.
Qed.

(** Then the first part of a request arrives on each. *)
Lemma begin_many dbg R size n b : b <> [] -> (forall c, calm_listeners R c) -> has_router R -> forall rs b', Forall plain_request rs -> (forall r, In r rs -> ~ asks_close r) ->
  b ++ b' = List.concat (map write_request rs) -> forall m, m <= n ->
  exists ls st, frun dbg R (f_init size) ls st /\
  (forall c, c < n -> accepted_here c ls) /\ (forall c r, ~ In (FP (Closed c r)) ls) /\ (forall c, calls c (wparts ls) = []) /\
  (forall c, c < n -> received c (wparts ls) = if c <? m then map IByte b else []).
Proof.
  intros Hb Cl Tot rs b' Pl Op E. induction m as [|m IH]; intros Le.
  - destruct (accept_many dbg R size n) as (ls & st & Rn & Li & Nx & Cs & Ac & Kp & W). exists ls, st. rewrite W. auto 8.
  - destruct IH as (ls & st & Rn & Ac & Kp & Ca & Rc); [lia|].
    assert (Rm : received m (wparts ls) = []) by (rewrite Rc by lia; now rewrite Nat.ltb_irrefl).
    destruct (quiet_connected dbg R size ls st m [] [] Tot Rn) as ((t & G) & x & k & N & K).
    { split; auto; rewrite ?Ca; auto; try (intros r []); eauto.
      - intros c' H. exact (Kp _ _ H).
      - exists []. reflexivity. }
    assert (Sp : wstep dbg R (f_w st) (AArrive m (map IByte b)) (mk_wstate (wupd (f_w st) m (mk_wconn (wc_sock x ++ map IByte b) true (wc_slot x) (wc_log x))) (ws_queue (f_w st)) (ws_workers (f_w st)))).
    { apply ws_arrive; auto; [unfold wopen; destruct K as [-> | ->]; reflexivity|destruct b; [congruence|discriminate]|apply all_proper]. }
    eapply frun_step in Rn; [|eapply fs_arrive; [exact G|exact Sp]]. do 2 eexists. split; [exact Rn|].
    cbn [wparts flat_map wpart app received calls]. fold (wparts ls). split; [intros c H; right; now apply Ac|].
    split; [intros c r [H|H]; [discriminate|now apply (Kp c r)]|]. split; [exact Ca|].
    intros c H. rewrite Rc by assumption. destruct (Nat.eqb_spec m c) as [<-|Ne].
    + rewrite Nat.ltb_irrefl. destruct (Nat.ltb_spec m (S m)); [reflexivity|lia].
    + destruct (Nat.ltb_spec c m), (Nat.ltb_spec c (S m)); try lia; now rewrite ?app_nil_r.
Qed.

(** Silent peers, and peers that send part of a request and no more, keep their connections: for every number of them
    there is an execution after which, whatever else happens for however long, they are all still connected -- as long as
    nothing more arrives from them and no event removes them. *)
Theorem C80_idle_closed_refuted : forall dbg R size n q b b', has_router R -> (forall c, calm_listeners R c) ->
  plain_request q -> ~ asks_close q -> b ++ b' = write_request q ->
  exists ls st, frun dbg R (f_init size) ls st /\ (forall c, c < n -> accepted_here c ls /\ received c (wparts ls) = map IByte b) /\
    forall ls' st', frun dbg R st ls' st' -> forall c, c < n -> received c (wparts ls') = [] -> never_removed c ls' ->
      Forall visit_fine (calls c (wparts ls')) -> Forall visit_steady (calls c (wparts ls')) -> connected c st'.
Proof.
  intros dbg R size n q b b' Tot Cl Pl Op E.
  assert (H : exists ls st, frun dbg R (f_init size) ls st /\
    (forall c, c < n -> accepted_here c ls) /\ (forall c r, ~ In (FP (Closed c r)) ls) /\ (forall c, calls c (wparts ls) = []) /\
    (forall c, c < n -> received c (wparts ls) = map IByte b)).
  { assert (D : b = [] \/ b <> []) by (destruct b; [left|right]; congruence). destruct D as [-> |Hb].
    - destruct (accept_many dbg R size n) as (ls & st & Rn & Li & Nx & Cs & Ac & Kp & W). exists ls, st. rewrite W. auto 8.
    - destruct (begin_many dbg R size n b Hb Cl Tot [q] b') with (m := n) as (ls & st & Rn & Ac & Kp & Ca & Rc); auto.
      + intros r [<-|[]]; auto.
      + rewrite E. symmetry. apply app_nil_r.
      + exists ls, st. repeat (split; auto). intros c H. rewrite Rc by assumption. destruct (Nat.ltb_spec c n); auto; lia. }
  destruct H as (ls & st & Rn & Ac & Kp & Ca & Rc). exists ls, st. split; auto. split; auto.
  intros ls' st' R' c Lt Rs Kp' V1 V2.
  apply (quiet_connected dbg R size (ls' ++ ls) st' c b [q] Tot (frun_app _ _ _ _ _ Rn _ _ R')).
  assert (Cs : calls c (wparts (ls' ++ ls)) = calls c (wparts ls')) by (rewrite wparts_app, calls_app, Ca; reflexivity).
  rewrite Cs. apply mk_quiet_peer; auto.
  - apply in_or_app. right. now apply Ac.
  - intros c' H. apply in_app_or in H as [H|H]; [exact (Kp' _ H)|exact (Kp _ _ H)].
  - intros r [<-|[]]; auto.
  - rewrite wparts_app, received_app, Rs, Rc by assumption. apply app_nil_r.
  - exists b'. rewrite E. symmetry. apply app_nil_r.
Qed.
Print Assumptions C80_idle_closed_refuted.

(** ** C81 *)

(** Worker [i] is in a call of the handler for [c]. *)
Definition serving (st : fstate) (i c : nat) : Prop :=
  exists v rt got, nth_error (ws_workers (f_w st)) i = Some (WServe c v rt got).
(** And the peer of [c] has sent the requests [rs], which do not ask to close. *)
Definition busy (R : nat -> request -> lresult -> Prop) (ls : list flabel) (st : fstate) (i c : nat) (rs : list request) : Prop :=
  exists v rt got, nth_error (ws_workers (f_w st)) i = Some (WServe c v rt got) /\
    quiet_peer R c ls (calls c (wparts ls) ++ [v]) (List.concat (map write_request rs)) rs.
(** That call has read all that was sent, and since the connection was accepted [rs] have been routed and answered. *)
Definition processed (dbg : bool) (st : fstate) (i c : nat) (rs : list request) : Prop :=
  exists v rt got x k log' k', nth_error (ws_workers (f_w st)) i = Some (WServe c v rt got) /\
    nth_error (ws_conns (f_w st)) c = Some x /\ wc_slot x = WTaken k /\ wc_sock x = [] /\
    serve dbg rt v x k got = (log', Open k') /\ Forall2 same_request log' rs /\
    exists rt', output k' = replies rt' [] log'.
(** Only things arriving and workers reading them. *)
Definition feeds (l : flabel) : bool := match l with FW (AArrive _ _) | FW (ARead _ _ _) => true | _ => false end.

Lemma quiet_less R c ls vs v b rs : quiet_peer R c ls (vs ++ [v]) b rs -> quiet_peer R c ls vs b rs.
Proof.
  intros [A B C D E F G H I]. apply Forall_app in D as [D _]. split; auto. destruct E as [E|E]; auto. apply Forall_app in E as [E _]. auto.
Qed.

Section Busy.
  Variables (dbg : bool) (R : nat -> request -> lresult -> Prop) (size : nat).
  Hypothesis Tot : has_router R.

  Lemma job_here ls st i c v rt got : frun dbg R (f_init size) ls st -> nth_error (ws_workers (f_w st)) i = Some (WServe c v rt got) ->
    In c (p_jobs (f_p st)).
  Proof.
    intros Rn W. apply (in_jobs_iff _ _ (finv_run dbg R _ _ _ Rn)). unfold jobs. apply in_or_app. right. apply in_flat_map.
    exists (WServe c v rt got). split; [eapply nth_error_In; eauto|now left].
  Qed.

  (** The call does not end before the socket is empty. *)
  Lemma busy_open ls st i c v rt got rs : frun dbg R (f_init size) ls st ->
    nth_error (ws_workers (f_w st)) i = Some (WServe c v rt got) ->
    quiet_peer R c ls (calls c (wparts ls) ++ [v]) (List.concat (map write_request rs)) rs ->
    exists x k log' k', nth_error (ws_conns (f_w st)) c = Some x /\ wc_slot x = WTaken k /\
      serve dbg rt v x k got = (log', Open k') /\ connected c st.
  Proof.
    intros Rn W Q. destruct (quiet_connected dbg R size ls st c _ rs Tot Rn (quiet_less _ _ _ _ _ _ _ Q)) as (Cn & x & k0 & N & _).
    destruct (serving_winv dbg R size ls st Tot Rn c x N) as [_ Tk _ _].
    destruct (Tk i _ W) as (k & K); [cbn; apply Nat.eqb_refl|].
    destruct (serve dbg rt v x k got) as [log' [k'|sent|sent]] eqn:E; [exists x, k, log', k'; auto| |]; exfalso.
    - eapply frun_step in Rn; [|eapply (fs_end _ _ _ (AClose i c v) c true); [reflexivity|eapply ws_close; eauto|apply step_finished; eapply job_here; eauto]].
      destruct (quiet_connected dbg R size _ _ c (List.concat (map write_request rs)) rs Tot Rn) as (_ & y & k1 & N1 & H).
      { destruct Q as [A B C D F G H I J]. split; auto.
        - now right.
        - intros c' [X|X]; [discriminate|exact (B c' X)].
        - cbn [wparts flat_map wpart app calls]. now rewrite Nat.eqb_refl.
        - cbn [wparts flat_map wpart app calls]. now rewrite Nat.eqb_refl. }
      cbn [f_w ws_conns] in N1. unfold wupd in N1. rewrite (nth_set_same _ _ _ _ N) in N1. inversion N1; subst y. cbn in H. intuition discriminate.
    - eapply frun_step in Rn; [|eapply (fs_end _ _ _ (ACrash i c v) c true); [reflexivity|eapply ws_crash; eauto|apply step_finished; eapply job_here; eauto]].
      destruct (quiet_connected dbg R size _ _ c (List.concat (map write_request rs)) rs Tot Rn) as (_ & y & k1 & N1 & H).
      { destruct Q as [A B C D F G H I J]. split; auto.
        - now right.
        - intros c' [X|X]; [discriminate|exact (B c' X)].
        - cbn [wparts flat_map wpart app calls]. now rewrite Nat.eqb_refl.
        - cbn [wparts flat_map wpart app calls]. now rewrite Nat.eqb_refl. }
      cbn [f_w ws_conns] in N1. unfold wupd in N1. rewrite (nth_set_same _ _ _ _ N) in N1. inversion N1; subst y. cbn in H. intuition discriminate.
  Qed.

  (** If the socket is empty, everything sent has been processed. *)
  Lemma busy_processed ls st i c v rt got rs x : frun dbg R (f_init size) ls st ->
    nth_error (ws_workers (f_w st)) i = Some (WServe c v rt got) ->
    quiet_peer R c ls (calls c (wparts ls) ++ [v]) (List.concat (map write_request rs)) rs ->
    nth_error (ws_conns (f_w st)) c = Some x -> wc_sock x = [] -> processed dbg st i c rs.
  Proof.
    intros Rn W Q N Es. destruct (busy_open _ _ _ _ _ _ _ _ Rn W Q) as (x' & k & log' & k' & N' & K & E & Cn).
    rewrite N in N'. inversion N'; subst x'. clear N'.
    exists v, rt, got, x, k, log', k'. repeat (split; [assumption|]).
    pose proof (job_here _ _ _ _ _ _ _ Rn W) as J.
    eapply frun_step in Rn; [|eapply (fs_work _ _ _ (ADrain i c)); [reflexivity|eapply ws_drain; eauto]].
    eapply frun_step in Rn; [|eapply (fs_end _ _ _ (AKeep i c v) c false);
      [reflexivity|eapply ws_keep; cbn [f_w ws_conns ws_workers]; [eapply nth_set_same; exact W|exact N|exact K|exact E]|apply step_finished; exact J]].
    match type of Rn with frun _ _ _ _ ?s => set (st1 := s) in * end.
    assert (N1 : nth_error (ws_conns (f_w st1)) c = Some (mk_wconn (wc_sock x) (wc_event x) (WHere k') log')).
    { unfold st1. cbn [f_w ws_conns]. unfold wupd. cbn [f_w ws_conns]. eapply nth_set_same; eauto. }
    pose proof (conn_lt _ _ _ _ _ _ _ Rn N1) as Lt.
    destruct (sim_run dbg R _ _ _ Rn _ (le_n _)) as (L & RL & Er & Ec).
    destruct Q as [A B C D F G H I J'].
    destruct (answered_when_read dbg R _ _ L _ c _ k' rs Tot RL (retag_nth _ _ _ _ _ Lt N1)) as (H1 & rt' & _ & H3 & _); auto.
    - rewrite Ec. cbn [wparts flat_map wpart app calls]. now rewrite Nat.eqb_refl.
    - rewrite Ec. cbn [wparts flat_map wpart app calls]. now rewrite Nat.eqb_refl.
    - rewrite Er. cbn [wparts flat_map wpart app received]. exact I.
    - cbn [with_event wc_log] in H1, H3. eauto.
  Qed.

  Lemma app_map_bytes : forall (b : bytes) (s : list item) r, map IByte b = s ++ r -> exists b', r = map IByte b'.
  Proof.
    intros b s. revert b. induction s as [|y s IH]; intros b r E; [exists b; now symmetry|].
    destruct b as [|a b]; [discriminate|]. cbn in E. inversion E. eapply IH. eassumption.
  Qed.

  (** One more request arrives and is read. *)
  Lemma one_more ls st i c v rt got rs q : frun dbg R (f_init size) ls st ->
    nth_error (ws_workers (f_w st)) i = Some (WServe c v rt got) ->
    quiet_peer R c ls (calls c (wparts ls) ++ [v]) (List.concat (map write_request rs)) rs ->
    plain_request q -> ~ asks_close q ->
    exists e st1, frun dbg R st [FW (ARead i c e); FW (AArrive c (map IByte (write_request q)))] st1 /\
      ws_queue (f_w st1) = ws_queue (f_w st) /\ ws_workers (f_w st1) = set_nth i (WServe c v rt (got ++ [e])) (ws_workers (f_w st)) /\
      (forall d, d <> c -> nth_error (ws_conns (f_w st1)) d = nth_error (ws_conns (f_w st)) d) /\
      exists x, nth_error (ws_conns (f_w st1)) c = Some x /\ wc_sock x = [].
  Proof.
    intros Rn W Q Pq Aq. destruct (busy_open _ _ _ _ _ _ _ _ Rn W Q) as (x & k & log' & k' & N & K & E & (t & G)).
    destruct (serving_winv dbg R size ls st Tot Rn c x N) as [_ _ _ Sy]. rewrite K in Sy.
    destruct Sy as (i' & v' & rt' & got' & _ & _ & (_ & rt0 & s & _ & _ & Er) & _).
    rewrite (qp_sent _ _ _ _ _ _ Q), app_assoc in Er. apply app_map_bytes in Er as (bs & Eb).
    assert (Nq : write_request q <> []).
    { rewrite write_request_eq. intros H. apply (f_equal (@List.length _)) in H. rewrite !app_length in H. cbn in H. lia. }
    set (x1 := mk_wconn (wc_sock x ++ map IByte (write_request q)) true (wc_slot x) (wc_log x)).
    set (w1 := mk_wstate (wupd (f_w st) c x1) (ws_queue (f_w st)) (ws_workers (f_w st))).
    assert (S1 : wstep dbg R (f_w st) (AArrive c (map IByte (write_request q))) w1).
    { apply ws_arrive; auto; [unfold wopen; now rewrite K|destruct (write_request q); [congruence|discriminate]|apply all_proper]. }
    assert (N1 : nth_error (ws_conns w1) c = Some x1) by (unfold w1, wupd; cbn [ws_conns]; eapply nth_set_same; eauto).
    set (e := RData (bs ++ write_request q)).
    set (x2 := mk_wconn [] true (wc_slot x) (wc_log x)).
    set (w2 := mk_wstate (wupd w1 c x2) (ws_queue w1) (wput w1 i (WServe c v rt (got ++ [e])))).
    assert (S2 : wstep dbg R w1 (ARead i c e) w2).
    { assert (Ee : event_items e = map IByte (bs ++ write_request q)).
      { unfold e. destruct (bs ++ write_request q) eqn:X; [|reflexivity]. apply app_eq_nil in X as [_ X]. congruence. }
      apply (ws_read dbg R w1 i c x1 k v rt got e [] log' k'); auto. rewrite app_nil_r, Ee, map_app. unfold x1. cbn [wc_sock]. now rewrite Eb. }
    exists e, (mk_fstate w2 (f_p st)). split.
    - apply (frun_step dbg R st _ (mk_fstate w1 (f_p st))); [apply (frun_step dbg R st _ st); [apply frun_nil|exact (fs_arrive dbg R st c t _ w1 G S1)]|]. exact (fs_work dbg R (mk_fstate w1 (f_p st)) (ARead i c e) w2 eq_refl S2).
    - cbn [f_w]. split; [reflexivity|]. split; [reflexivity|]. split.
      + intros d Ne. unfold w2, wupd. cbn [ws_conns]. rewrite nth_set_other by congruence. unfold w1, wupd. cbn [ws_conns]. now rewrite nth_set_other by congruence.
      + exists x2. split; [|reflexivity]. unfold w2, wupd. cbn [ws_conns]. eapply nth_set_same; eauto.
  Qed.

  Lemma quiet_more c ls d e i its v b rs : c <> d -> quiet_peer R d ls (calls d (wparts ls) ++ [v]) b rs ->
    let ls1 := FW (ARead i c e) :: FW (AArrive c its) :: ls in quiet_peer R d ls1 (calls d (wparts ls1) ++ [v]) b rs.
  Proof.
    intros Ne [A B C D E F G H I] ls1. unfold ls1. cbn [wparts flat_map wpart app calls]. fold (wparts ls). split; auto.
    - right. now right.
    - intros c' [X|[X|X]]; try discriminate. exact (B c' X).
    - cbn [wparts flat_map wpart app received]. destruct (Nat.eqb_spec c d); [congruence|]. now rewrite app_nil_r.
  Qed.

  Lemma busy_one ls st i c rs q : frun dbg R (f_init size) ls st -> busy R ls st i c rs -> plain_request q -> ~ asks_close q ->
    exists ls' st', frun dbg R st ls' st' /\ forallb feeds ls' = true /\ ws_queue (f_w st') = ws_queue (f_w st) /\
      (forall d rs', busy R ls st i d rs' -> busy R (ls' ++ ls) st' i d (rs' ++ [q]) /\ processed dbg st' i d (rs' ++ [q])) /\
      (forall j d rs', j <> i -> busy R ls st j d rs' -> busy R (ls' ++ ls) st' j d rs') /\
      (forall j d rs', j <> i -> processed dbg st j d rs' -> processed dbg st' j d rs').
  Proof.
    intros Rn (v & rt & got & W & Q) Pq Aq. destruct (one_more _ _ _ _ _ _ _ _ _ Rn W Q Pq Aq) as (e & st1 & R1 & Qu & Wk & Oc & x & N & Es).
    assert (W1 : nth_error (ws_workers (f_w st1)) i = Some (WServe c v rt (got ++ [e]))) by (rewrite Wk; eapply nth_set_same; eauto).
    pose proof (frun_app _ _ _ _ _ Rn _ _ R1) as Rn1.
    assert (Q1 : forall rs, quiet_peer R c ls (calls c (wparts ls) ++ [v]) (List.concat (map write_request rs)) rs ->
      quiet_peer R c ([FW (ARead i c e); FW (AArrive c (map IByte (write_request q)))] ++ ls)
      (calls c (wparts ([FW (ARead i c e); FW (AArrive c (map IByte (write_request q)))] ++ ls)) ++ [v])
      (List.concat (map write_request (rs ++ [q]))) (rs ++ [q])).
    { clear rs Q. intros rs Q. destruct Q as [A B C D E F G H I]. cbn [app wparts flat_map wpart calls]. fold (wparts ls). split; auto.
      - right. now right.
      - intros c' [X|[X|X]]; try discriminate. exact (B c' X).
      - apply Forall_app. auto.
      - intros r X. apply in_app_or in X as [X|[<-|[]]]; auto.
      - cbn [wparts flat_map wpart app received]. fold (wparts ls). rewrite Nat.eqb_refl, H, <- map_app, map_app with (f := write_request), concat_app.
        cbn [map List.concat]. now rewrite app_nil_r.
      - exists []. apply app_nil_r. }
    assert (Ds : forall j d w, j <> i -> nth_error (ws_workers (f_w st)) j = Some w -> wholds d w = true -> d <> c).
    { intros j d w Ne Wj Hh ->. destruct (busy_open _ _ _ _ _ _ _ _ Rn W Q) as (y & k & log' & k' & Ny & _).
      destruct (serving_winv dbg R size ls st Tot Rn c y Ny) as [_ _ One _]. apply Ne. eapply One; eauto. cbn. apply Nat.eqb_refl. }
    exists [FW (ARead i c e); FW (AArrive c (map IByte (write_request q)))], st1. split; [exact R1|]. split; [reflexivity|]. split; [exact Qu|].
    split.
    { intros d rs' (v' & rt' & got' & W' & Q'). rewrite W in W'. inversion W'; subst v' rt' got' d.
      split; [exists v, rt, (got ++ [e]); auto|]. eapply busy_processed; eauto. }
    split.
    - intros j d rs' Ne (v' & rt' & got' & W' & Q'). exists v', rt', got'. split; [rewrite Wk, nth_set_other; auto|].
      apply (quiet_more c ls d e i (map IByte (write_request q))); auto. intros X. apply (Ds j d _ Ne W'); [cbn; apply Nat.eqb_refl|auto].
    - intros j d rs' Ne (v' & rt' & got' & y & k & log' & k' & W' & N' & Rest). exists v', rt', got', y, k, log', k'.
      split; [rewrite Wk, nth_set_other; auto|]. split; [|exact Rest]. rewrite Oc; auto. apply (Ds j d _ Ne W'). cbn. apply Nat.eqb_refl.
  Qed.

  (** One more request for each of the first [m] workers. *)
  Lemma busy_round ls st q : frun dbg R (f_init size) ls st -> (forall i, i < size -> exists c rs, busy R ls st i c rs) ->
    plain_request q -> ~ asks_close q -> forall m, m <= size ->
    exists ls' st', frun dbg R st ls' st' /\ forallb feeds ls' = true /\ ws_queue (f_w st') = ws_queue (f_w st) /\
      forall i c rs, i < size -> busy R ls st i c rs ->
        if i <? m then busy R (ls' ++ ls) st' i c (rs ++ [q]) /\ processed dbg st' i c (rs ++ [q]) else busy R (ls' ++ ls) st' i c rs.
  Proof.
    intros Rn B Pq Aq. induction m as [|m IH]; intros Le.
    - exists [], st. split; [constructor|]. auto.
    - destruct IH as (ls1 & st1 & R1 & F1 & U1 & H1); [lia|]. destruct (B m) as (c & rs & Bm); [lia|].
      pose proof (H1 m c rs ltac:(lia) Bm) as B1. rewrite Nat.ltb_irrefl in B1.
      destruct (busy_one _ _ _ _ _ _ (frun_app _ _ _ _ _ Rn _ _ R1) B1 Pq Aq) as (ls2 & st2 & R2 & F2 & U2 & X1 & X3 & X4).
      exists (ls2 ++ ls1), st2. split; [exact (frun_app _ _ _ _ _ R1 _ _ R2)|]. split; [now rewrite forallb_app, F1, F2|]. split; [congruence|].
      intros i d rs' Li Bi. rewrite <- app_assoc. pose proof (H1 i d rs' Li Bi) as Hi. destruct (Nat.eq_dec i m) as [-> |Ne].
      + rewrite Nat.ltb_irrefl in Hi. destruct (Nat.ltb_spec m (S m)); [|lia].
        auto.
      + destruct (Nat.ltb_spec i m), (Nat.ltb_spec i (S m)); try lia; [destruct Hi; auto|auto].
  Qed.
End Busy.

(** A server all of whose workers are in calls for peers that keep sending.  However many requests each of them goes on
    to send, they can all be read and answered in these same calls -- at the end every worker is still where it was, and
    what waited in the queue waits there still, so this can go on for ever. *)
Theorem C81_busy_delays_only_itself_refuted : forall dbg R size ls st q n, has_router R -> frun dbg R (f_init size) ls st ->
  (forall i, i < size -> exists c rs, busy R ls st i c rs) -> plain_request q -> ~ asks_close q ->
  exists ls' st', frun dbg R st ls' st' /\ forallb feeds ls' = true /\ ws_queue (f_w st') = ws_queue (f_w st) /\
    forall i c rs, i < size -> busy R ls st i c rs ->
      busy R (ls' ++ ls) st' i c (rs ++ repeat q n) /\ (0 < n -> processed dbg st' i c (rs ++ repeat q n)).
Proof.
  intros dbg R size ls st q n Tot Rn B Pq Aq. induction n as [|n (ls1 & st1 & R1 & F1 & U1 & H1)].
  - exists [], st. split; [constructor|]. split; auto. split; auto. intros i c rs _ H. cbn [repeat app]. rewrite app_nil_r. split; auto. lia.
  - destruct (busy_round dbg R size Tot _ _ q (frun_app _ _ _ _ _ Rn _ _ R1)) with (m := size) as (ls2 & st2 & R2 & F2 & U2 & H2); auto.
    { intros i Li. destruct (B i Li) as (c & rs & Bi). exists c, (rs ++ repeat q n). now apply H1. }
    exists (ls2 ++ ls1), st2. split; [exact (frun_app _ _ _ _ _ R1 _ _ R2)|]. split; [now rewrite forallb_app, F1, F2|]. split; [congruence|].
    intros i c rs Li Bi. rewrite <- app_assoc. destruct (H1 i c rs Li Bi) as [H _]. specialize (H2 i c _ Li H).
    destruct (Nat.ltb_spec i size); [|lia]. replace (rs ++ repeat q (S n)) with ((rs ++ repeat q n) ++ [q]); [tauto|].
    rewrite <- app_assoc. f_equal. symmetry. apply repeat_cons.
Qed.
Print Assumptions C81_busy_delays_only_itself_refuted.

(** One worker; it is in a call for connection 0; the request of connection 1 waits. *)
Example C81_case : exists ls st, frun true nobody (f_init 1) ls st /\ busy nobody ls st 0 0 [get_root] /\
  ws_queue (f_w st) = [1] /\ received 1 (wparts ls) = map IByte (write_request get_root) /\ plain_request get_root /\ ~ asks_close get_root.
Proof.
  pose proof (frun_nil true nobody (f_init 1)) as Rn.
  fgo Rn ltac:(fpoll [EvListener]).
  fgo Rn ltac:(fmain Listening ltac:(apply step_listen; reflexivity)).
  fgo Rn ltac:(faccept 0).
  fgo Rn ltac:(faccept 1).
  fgo Rn ltac:(fmain Blocked ltac:(apply step_blocked; reflexivity)).
  fgo Rn ltac:(farrive 0 (write_request get_root)).
  fgo Rn ltac:(eapply (fs_arrive _ _ _ 1 1 (map IByte (write_request get_root))); [cbn; auto|eapply ws_arrive; [reflexivity|reflexivity|discriminate|apply all_proper]]).
  fgo Rn ltac:(fpoll [EvSocket 0 0 false; EvSocket 1 1 false]).
  fgo Rn ltac:(fready 0 (Some 0)).
  fgo Rn ltac:(fready 1 (Some 1)).
  fgo Rn ltac:(eapply fs_work; [|eapply (ws_take _ _ _ 0 0); reflexivity]; reflexivity).
  fgo Rn ltac:(eapply fs_work; [|eapply (ws_enter _ _ _ 0 0 _ _ ample peer0); reflexivity]; reflexivity).
  assert (V : visit_fine ample) by (split; [apply Forall_forall; intros e H; apply repeat_spec in H; subst; exact I|constructor]).
  assert (Vs : visit_steady ample).
  { intros a b n E. exfalso. assert (K : In (WFail WouldBlock) (v_events ample)) by (rewrite E; apply in_or_app; right; now left).
    apply repeat_spec in K. discriminate. }
  assert (Pr : plain_request get_root /\ ~ asks_close get_root) by (split; apply get_root_plain).
  do 2 eexists. split; [exact Rn|]. split; [|repeat (split; [reflexivity|]); exact Pr].
  exists ample, peer0, []. split; [reflexivity|]. split.
  - unfold accepted_here. cbn [In]. intuition.
  - intros c' H. cbn [In] in H. intuition discriminate.
  - intros q l _ ->. discriminate.
  - repeat (constructor; auto).
  - left. repeat (constructor; auto).
  - repeat (constructor; [apply Pr|]). constructor.
  - intros r [<-|[]]. apply Pr.
  - reflexivity.
  - exists []. apply app_nil_r.
Qed.
