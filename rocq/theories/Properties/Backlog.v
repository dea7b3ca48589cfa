(** What the server keeps for peers that read slowly or not at all: C86, C87. *)
From Coq Require Import List Ascii String NArith Bool Arith Lia.
From Coq Require Import ZifyBool ZifyNat ZifyN.
From Verif.Model Require Import Bytes Io Common Parse Encode Writer Server Slab Poll Handlers Whole Full.
From Verif.Spec Require Import Batch Stream Drive Numerals Grammar Wire Output Session Slots Traces Arrivals Events.
From Verif.Proofs Require Import BytesFacts EncodeFacts WriterFacts OpsFacts ConnFacts HeldFacts SlabFacts PollFacts HandlersFacts WholeFacts FullFacts.
From Verif.Properties Require Import Streaming RoundTrip Server Poll Handlers Whole Full Peers.
Import ListNotations.

(** A peer that reads nothing: in no call of the handler does the socket take anything. *)
Definition reads_nothing (vs : list visit) : Prop := forall v n, In v vs -> ~ In (WTake n) (v_events v).

Lemma reads_nothing_dead vs : reads_nothing vs -> Forall visit_dead vs.
Proof. intros H. apply Forall_forall. intros v I n. exact (H v n I). Qed.
Lemma reads_nothing_steady vs : reads_nothing vs -> Forall visit_steady vs.
Proof.
  intros H. apply Forall_forall. intros v I a b n E K. apply (H v n I). rewrite E. apply in_or_app. right. now right.
Qed.

Lemma reply_min l : l <> LPanic -> (9 <= len (reply l))%N.
Proof.
  destruct l as [|r|]; intros H; cbn [reply]; [vm_compute; discriminate| |congruence].
  rewrite write_response_eq. unfold response_first, len. rewrite <- !app_assoc, app_length. change (List.length (lit "HTTP/1.1")) with 8.
  cbn [app List.length]. lia.
Qed.
Lemma replies_min rt : forall rs h, (forall h v, In v rs -> rt h v <> LPanic) -> (9 * len rs <= len (replies rt h rs))%N.
Proof.
  induction rs as [|v rs IH]; intros h H; cbn [replies]; [reflexivity|].
  pose proof (reply_min (rt h v) (H h v (or_introl eq_refl))). pose proof (IH (h ++ [v]) (fun h' v' I => H h' v' (or_intror I))).
  unfold len in *. rewrite app_length. cbn [List.length]. lia.
Qed.
Lemma parsed_calm R c (rt : router) log rs : calm_listeners R c -> (forall h q, R c q (rt h q)) -> Forall2 same_request log rs -> Forall plain_request rs ->
  forall h v, In v log -> rt h v <> LPanic.
Proof.
  intros Cl H F P h v I. assert (U : utf8 (rq_uri v) = true).
  { clear - F P I. induction F as [|a b l m S F IH]; [destruct I|]. inversion P as [|? ? P1 P2]; subst. destruct I as [<-|I]; [|now apply IH].
    destruct S as (_ & E & _). rewrite E. apply P1. }
  exact (Cl v _ U (H h v)).
Qed.

Lemma same_count log rs : Forall2 same_request log rs -> len log = len rs.
Proof. intros F. induction F as [|a b l n _ _ IH]; [reflexivity|]. unfold len in *. cbn [List.length]. lia. Qed.

Section Silent.
  Variables (dbg : bool) (R : nat -> request -> lresult -> Prop) (size : nat).
  Hypothesis Tot : has_router R.

  (** Nothing of what is written for such a peer leaves. *)
  Lemma nothing_left ls st c x k : frun dbg R (f_init size) ls st -> nth_error (ws_conns (f_w st)) c = Some x -> wc_slot x = WHere k ->
    Forall visit_fine (calls c (wparts ls)) -> reads_nothing (calls c (wparts ls)) -> sk_sent (cn_sock k) = [].
  Proof.
    intros Rn N P F D. destruct (C69_with_event_loop dbg R size ls st c x Tot Rn N) as (rt & s & busy & _ & _ & E & _).
    rewrite P in E. cbn [as_slot] in E. apply visits_dead in E as [_ E]; auto using reads_nothing_dead, conn_new_fine.
  Qed.
End Silent.

(** ** C86 *)

(** A peer that sends requests and reads nothing: when the server has nothing more to do, it has routed all of them, and
    holds all the answers. *)
Theorem C86_everything_held : forall dbg R size ls st c x rs, has_router R ->
  frun dbg R (f_init size) ls st -> accepted_here c ls -> never_removed c ls -> nth_error (ws_conns (f_w st)) c = Some x ->
  calm_listeners R c -> Forall visit_fine (calls c (wparts ls)) -> reads_nothing (calls c (wparts ls)) ->
  Forall plain_request rs -> (forall r, In r rs -> ~ asks_close r) ->
  received c (wparts ls) = map IByte (List.concat (map write_request rs)) ->
  resting dbg R st -> worker_left (f_w st) = true ->
  Forall2 same_request (wc_log x) rs /\
  exists k rt, wc_slot x = WHere k /\ (forall h q, R c q (rt h q)) /\ sk_sent (cn_sock k) = [] /\
    unsent (cn_w k) = replies rt [] (wc_log x) /\ (9 * len rs <= len (wr_buf (cn_w k)))%N.
Proof.
  intros dbg R size ls st c x rs Tot Rn Ac Nr N Cl V D F A Rc Rest Left.
  destruct (C70_event_loop_answers dbg R size ls st c x rs) as (H1 & k & rt & H2 & H3 & H4 & _); auto using reads_nothing_steady.
  pose proof (nothing_left dbg R size Tot _ _ _ _ _ Rn N H2 V D) as E. unfold output in H4. rewrite E in H4. cbn [app] in H4.
  split; auto. exists k, rt. split; auto. split; auto. split; auto. split; auto.
  pose proof (replies_min rt (wc_log x) [] (parsed_calm R c rt _ _ Cl H3 H1 F)) as M. rewrite <- H4 in M.
  rewrite <- (same_count _ _ H1). unfold unsent, len in *. rewrite skipn_length in M. lia.
Qed.
Print Assumptions C86_everything_held.

(** A server with one connection on which nothing is going on. *)
Definition slab1 : slab nat := match insert (slab_new 128) 0 with Some (s, _) => s | None => slab_new 128 end.
Definition calm_poll : pstate := mk_pstate slab1 1 [(0, 0)] [] [] false.
Definition calm_server (m : nat) (k : conn) (log : list request) : fstate :=
  mk_fstate (mk_wstate [mk_wconn [] false (WHere k) log] [] (repeat WFree (1 + m))) calm_poll.

Lemma calm_start dbg R m : exists ls, frun dbg R (f_init (1 + m)) ls (calm_server m (conn_new []) []) /\
  accepted_here 0 ls /\ never_removed 0 ls /\ wparts ls = [].
Proof.
  pose proof (frun_nil dbg R (f_init (1 + m))) as Rn.
  eapply frun_step in Rn; [|fpoll [EvListener]].
  eapply frun_step in Rn; [|fmain Listening ltac:(apply step_listen; reflexivity)].
  eapply frun_step in Rn; [|faccept 0].
  eapply frun_step in Rn; [|fmain Blocked ltac:(apply step_blocked; reflexivity)].
  eexists. split; [exact Rn|]. split; [unfold accepted_here; cbn [In]; intuition|].
  split; [intros c' H; cbn [In] in H; intuition discriminate|reflexivity].
Qed.

(** There is nothing it could do. *)
Lemma calm_rests dbg R m k log : resting dbg R (calm_server m k log) /\ worker_left (f_w (calm_server m k log)) = true.
Proof.
  split; [|reflexivity]. intros l st' S'.
  assert (Fr : forall i w, nth_error (repeat WFree (1 + m)) i = Some w -> w = WFree) by (intros i w H; eapply repeat_spec, nth_error_In; eauto).
  assert (Qw : forall l w', wstep dbg R (f_w (calm_server m k log)) l w' -> outside l = true).
  { clear S'. intros l0 w' S. inversion S; subst; auto; unfold calm_server in *; cbn [f_w ws_conns ws_queue ws_workers] in *; exfalso;
      try (match goal with H : nth_error (repeat _ _) _ = Some _ |- _ => apply Fr in H; discriminate end); try discriminate.
    destruct c as [|[|c]]; cbn [nth_error] in *; try discriminate. match goal with H : Some _ = Some _ |- _ => injection H as <- end. discriminate. }
  assert (Qp : forall l p', pstep (f_p (calm_server m k log)) l p' -> l = Polled \/ exists d b, l = Finished d b).
  { clear. intros l p' S. inversion S; subst; try discriminate; eauto. }
  inversion S' as [? ? ? ? ? G S|? ? ? ? G S|? p' S F|? l0 p' M S|? c ok p' S|? c r p' S A|? l0 w' I S|? l0 d b w' p' E S S0]; subst; auto.
  - inversion S; subst. cbn [p_batch from_outside]. destruct evs as [|[|c t b] evs]; auto. exfalso.
    destruct (F c t b (or_introl eq_refl)) as (x & N & Ex). destruct c as [|[|c]]; cbn in N; try discriminate; injection N as <-; discriminate.
  - destruct (Qp _ _ S) as [-> |(d & b & ->)]; discriminate.
  - destruct (Qp _ _ S) as [H|(d & b & H)]; discriminate.
  - specialize (Qw _ _ S). destruct l0; discriminate.
  - specialize (Qw _ _ S). destruct l0; discriminate.
Qed.

(** One more request: it arrives, is read and answered in one call, in which the output side of the socket does as [v]
    says. *)
Section Round.
  Variables (dbg : bool) (R : nat -> request -> lresult -> Prop) (m : nat).
  Hypothesis Tot : has_router R.

  Lemma round_first ls k log rs q v rt : frun dbg R (f_init (1 + m)) ls (calm_server m k log) ->
    quiet_peer R 0 ls (calls 0 (wparts ls) ++ [v]) (List.concat (map write_request rs)) rs ->
    plain_request q -> ~ asks_close q -> (forall h q, R 0 q (rt h q)) ->
    exists ls' log' k', frun dbg R (calm_server m k log) ls' (calm_server m k' log') /\
      serve dbg rt v (mk_wconn [] false (WTaken k) log) k [RData (write_request q)] = (log', Open k') /\
      calls 0 (wparts (ls' ++ ls)) = calls 0 (wparts ls) ++ [v] /\
      (exists tl, ls' = tl ++ [FW (AArrive 0 (map IByte (write_request q)))] /\
        (forall c, calls c (wparts tl) = if 0 =? c then [v] else []) /\ forall c its, ~ In (FW (AArrive c its)) tl) /\
      forall v', visit_fine v' -> visit_steady v' ->
      quiet_peer R 0 (ls' ++ ls) (calls 0 (wparts (ls' ++ ls)) ++ [v']) (List.concat (map write_request (rs ++ [q]))) (rs ++ [q]).
  Proof.
    intros Rn Q Pq Aq Hrt.
    assert (Nq : write_request q <> []).
    { rewrite write_request_eq. intros H. apply (f_equal (@List.length _)) in H. rewrite !app_length in H. cbn in H. lia. }
    assert (R1 : frun dbg R (calm_server m k log) []
      (mk_fstate (mk_wstate [mk_wconn [] false (WHere k) log] [] (WFree :: repeat WFree m)) calm_poll)) by constructor.
    assert (Ot : existsb (wholds 0) (repeat WFree m) = false) by (clear; induction m; auto).
    revert R1 Ot Rn. unfold calm_server. change (repeat WFree (1 + m)) with (WFree :: repeat WFree m) in *.
    change (repeat WFree (1 + m)) with (WFree :: repeat WFree m). generalize (repeat WFree m). intros others R1 Ot Rn.
    eapply frun_step in R1; [|eapply (fs_arrive _ _ _ 0 0 (map IByte (write_request q)));
      [cbn; auto|eapply ws_arrive; [reflexivity|reflexivity|destruct (write_request q); [congruence|discriminate]|apply all_proper]]].
    fgo R1 ltac:(fpoll [EvSocket 0 0 false]).
    fgo R1 ltac:(fready 0 (Some 0)).
    fgo R1 ltac:(eapply fs_work; [|eapply (ws_take _ _ _ 0 0); reflexivity]; reflexivity).
    fgo R1 ltac:(eapply fs_work; [|eapply (ws_enter _ _ _ 0 0 _ _ v rt); [reflexivity|reflexivity|exact Ot|reflexivity|exact Hrt]]; reflexivity).
    assert (Qa : quiet_peer R 0 (FW (AArrive 0 (map IByte (write_request q))) :: ls)
      (calls 0 (wparts ls) ++ [v]) (List.concat (map write_request (rs ++ [q]))) (rs ++ [q])).
    { destruct Q as [A B C D E F G H I]. split; auto.
      - now right.
      - intros c' [X|X]; [discriminate|exact (B c' X)].
      - apply Forall_app. auto.
      - intros r X. apply in_app_or in X as [X|[<-|[]]]; auto.
      - cbn [wparts flat_map wpart app received]. fold (wparts ls). rewrite Nat.eqb_refl, H, <- map_app, map_app with (f := write_request), concat_app.
        cbn [map List.concat]. now rewrite app_nil_r.
      - exists []. apply app_nil_r. }
    assert (Qb : forall pre vs, (forall l, In l pre -> forall c r, l <> FP (Closed c r)) -> received 0 (wparts pre) = [] ->
      (Forall visit_fine vs /\ (Forall visit_steady vs \/ short_listeners R 0)) ->
      quiet_peer R 0 (pre ++ FW (AArrive 0 (map IByte (write_request q))) :: ls) vs (List.concat (map write_request (rs ++ [q]))) (rs ++ [q])).
    { intros pre vs X1 X2 (X3 & X4). destruct Qa as [A B C D E F G H I]. split; auto.
      - apply in_or_app. now right.
      - intros c' X. apply in_app_or in X as [X|X]; [exact (X1 _ X _ _ eq_refl)|exact (B c' X)].
      - rewrite wparts_app, received_app, X2, H. now rewrite app_nil_r. }
    assert (Vs : Forall visit_fine (calls 0 (wparts ls) ++ [v]) /\ (Forall visit_steady (calls 0 (wparts ls) ++ [v]) \/ short_listeners R 0)).
    { destruct Q. auto. }
    destruct (busy_open dbg R (1 + m) Tot _ _ 0 0 v rt [] (rs ++ [q]) (frun_app _ _ _ _ _ Rn _ _ R1) eq_refl) as (x & k0 & log1 & k1 & N & K & E & _).
    { apply (Qb [FW (AEnter 0 0); FW (ATake 0 0); FP (Ready 0 (Some 0)); FPolled [EvSocket 0 0 false]]); auto.
      cbn [In]. intros l X c r. intuition (subst; discriminate). }
    cbn in N. inversion N; subst x. cbn in K. inversion K; subst k0. clear N K.
    eapply frun_step in R1; [|eapply (fs_work _ _ _ (ARead 0 0 (RData (write_request q)))); [reflexivity|
      eapply ws_read with (rest := []); [reflexivity|reflexivity|reflexivity|exact E|
        rewrite app_nil_r; destruct (write_request q); [congruence|reflexivity]]]].
    cbv [wupd wput set_nth f_w f_p ws_conns ws_queue ws_workers wc_event wc_slot wc_log app] in R1.
    destruct (busy_open dbg R (1 + m) Tot _ _ 0 0 v rt [RData (write_request q)] (rs ++ [q]) (frun_app _ _ _ _ _ Rn _ _ R1) eq_refl) as (x & k0 & log2 & k2 & N & K & E2 & _).
    { apply (Qb [FW (ARead 0 0 (RData (write_request q))); FW (AEnter 0 0); FW (ATake 0 0); FP (Ready 0 (Some 0)); FPolled [EvSocket 0 0 false]]); auto.
      cbn [In]. intros l X c r. intuition (subst; discriminate). }
    cbn in N. inversion N; subst x. cbn in K. inversion K; subst k0. clear N K.
    eapply frun_step in R1; [|eapply (fs_work _ _ _ (ADrain 0 0)); [reflexivity|eapply ws_drain; [reflexivity|reflexivity|reflexivity|exact E2|reflexivity]]].
    cbv [wupd wput set_nth f_w f_p ws_conns ws_queue ws_workers wc_event wc_slot wc_log app] in R1.
    eapply frun_step in R1; [|eapply (fs_end _ _ _ (AKeep 0 0 v) 0 false); [reflexivity|eapply ws_keep; [reflexivity|reflexivity|reflexivity|exact E2]|
      apply step_finished; now left]].
    cbv [wupd wput set_nth f_w f_p ws_conns ws_queue ws_workers wc_event wc_slot wc_log wc_sock app] in R1.
    eexists _, log2, k2. split; [exact R1|]. split; [exact E2|].
    split; [reflexivity|]. split.
    { exists [FW (AKeep 0 0 v); FW (ADrain 0 0); FW (ARead 0 0 (RData (write_request q))); FW (AEnter 0 0); FW (ATake 0 0); FP (Ready 0 (Some 0)); FPolled [EvSocket 0 0 false]].
      split; [reflexivity|]. split; [reflexivity|]. cbn [In]. intros c its X. intuition discriminate. }
    intros v' F1 F2.
    apply (Qb [FW (AKeep 0 0 v); FW (ADrain 0 0); FW (ARead 0 0 (RData (write_request q))); FW (AEnter 0 0); FW (ATake 0 0); FP (Ready 0 (Some 0)); FPolled [EvSocket 0 0 false]]).
    - cbn [In]. intros l X c r. intuition (subst; discriminate).
    - reflexivity.
    - cbn [app wparts flat_map wpart calls Nat.eqb]. fold (wparts ls). split; [apply Forall_app; split; [apply Vs|auto]|].
      destruct Vs as [_ [X|X]]; [left; apply Forall_app; auto|now right].
  Qed.
  Lemma round ls k log rs q v rt : frun dbg R (f_init (1 + m)) ls (calm_server m k log) ->
    quiet_peer R 0 ls (calls 0 (wparts ls) ++ [v]) (List.concat (map write_request rs)) rs ->
    plain_request q -> ~ asks_close q -> (forall h q, R 0 q (rt h q)) ->
    exists ls' log' k', frun dbg R (calm_server m k log) ls' (calm_server m k' log') /\
      serve dbg rt v (mk_wconn [] false (WTaken k) log) k [RData (write_request q)] = (log', Open k') /\
      calls 0 (wparts (ls' ++ ls)) = calls 0 (wparts ls) ++ [v] /\
      forall v', visit_fine v' -> visit_steady v' ->
      quiet_peer R 0 (ls' ++ ls) (calls 0 (wparts (ls' ++ ls)) ++ [v']) (List.concat (map write_request (rs ++ [q]))) (rs ++ [q]).
  Proof.
    intros Rn Q Pq Aq Hrt. destruct (round_first ls k log rs q v rt Rn Q Pq Aq Hrt) as (ls' & log' & k' & A & B & C & _ & D). exists ls', log', k'. auto.
  Qed.
End Round.

(** When everything that arrived was read: what was written. *)
Lemma calm_answers dbg R m ls k log rs : has_router R -> frun dbg R (f_init (1 + m)) ls (calm_server m k log) ->
  quiet_peer R 0 ls (calls 0 (wparts ls)) (List.concat (map write_request rs)) rs ->
  Forall2 same_request log rs /\ exists rt : router, (forall h q, R 0 q (rt h q)) /\ output k = replies rt [] log.
Proof.
  intros Tot Rn [A B C D E F G H I].
  assert (N : nth_error (ws_conns (f_w (calm_server m k log))) 0 = Some (mk_wconn [] false (WHere k) log)) by reflexivity.
  pose proof (conn_lt _ _ _ _ _ _ _ Rn N) as Lt. destruct (sim_run dbg R _ _ _ Rn _ (le_n _)) as (L & RL & Er & Ec).
  rewrite <- Er in H. rewrite <- Ec in D, E.
  destruct (answered_when_read dbg R _ _ L _ 0 _ k rs Tot RL (retag_nth _ _ _ _ _ Lt N)) as (H1 & rt & H2 & H3 & _); auto.
  cbn [with_event wc_log] in H1, H3. eauto.
Qed.

Definition deaf : visit := mk_visit [] [].
Lemma concat_snoc (f : request -> bytes) q n : List.concat (map f (repeat q n ++ [q])) = List.concat (map f (repeat q (1 + n))).
Proof. change (repeat q (1 + n)) with (q :: repeat q n). now rewrite repeat_cons. Qed.

(** However much it is: a peer that goes on sending requests and never reads makes the server hold any amount for it. *)
Theorem C86_bounded_refuted : forall dbg R m q n, has_router R -> calm_listeners R 0 -> plain_request q -> ~ asks_close q ->
  exists ls st x k, frun dbg R (f_init (1 + m)) ls st /\ resting dbg R st /\ connected 0 st /\ nth_error (ws_conns (f_w st)) 0 = Some x /\ wc_slot x = WHere k /\
    received 0 (wparts ls) = map IByte (List.concat (map write_request (repeat q n))) /\ reads_nothing (calls 0 (wparts ls)) /\
    List.length (wc_log x) = n /\ (9 * N.of_nat n <= len (unsent (cn_w k)))%N.
Proof.
  intros dbg R m q n Tot Cl Pq Aq. destruct (Tot 0) as (rt & Hrt).
  assert (Fd : visit_fine deaf /\ visit_steady deaf).
  { split; [split; constructor|]. intros a b x E. destruct a; discriminate. }
  assert (H : exists ls k log, frun dbg R (f_init (1 + m)) ls (calm_server m k log) /\ calls 0 (wparts ls) = repeat deaf n /\
    quiet_peer R 0 ls (calls 0 (wparts ls) ++ [deaf]) (List.concat (map write_request (repeat q n))) (repeat q n)).
  { induction n as [|n (ls & k & log & Rn & Ca & Q)].
    - destruct (calm_start dbg R m) as (ls & Rn & A & B & W). exists ls, (conn_new []), []. split; auto. rewrite W. split; auto.
      cbn [repeat map List.concat calls app]. split; auto.
      + constructor; [apply Fd|constructor].
      + left. constructor; [apply Fd|constructor].
      + rewrite W. reflexivity.
      + exists []. reflexivity.
    - destruct (round dbg R m Tot ls k log _ q deaf rt Rn Q Pq Aq Hrt) as (ls' & log' & k' & R' & _ & Ca' & Q'). exists (ls' ++ ls), k', log'.
      split; [eapply frun_app; eauto|]. split; [rewrite Ca', Ca; symmetry; apply repeat_cons|].
      specialize (Q' deaf (proj1 Fd) (proj2 Fd)). rewrite <- repeat_cons in Q'. exact Q'. }
  destruct H as (ls & k & log & Rn & Ca & Q). pose proof (quiet_less _ _ _ _ _ _ _ Q) as Q0.
  assert (D : reads_nothing (calls 0 (wparts ls))).
  { rewrite Ca. intros v x I. apply repeat_spec in I. subst v. intros []. }
  destruct (calm_answers dbg R m ls k log (repeat q n) Tot Rn Q0) as (H1 & rt' & H2 & H3).
  assert (E : sk_sent (cn_sock k) = []).
  { apply (nothing_left dbg R (1 + m) Tot ls _ 0 _ k Rn eq_refl eq_refl); auto. apply (qp_fine _ _ _ _ _ _ Q0). }
  unfold output in H3. rewrite E in H3. cbn [app] in H3.
  exists ls, (calm_server m k log), (mk_wconn [] false (WHere k) log), k. split; auto. split; [apply calm_rests|]. split; [exists 0; now left|]. split; [reflexivity|].
  split; [reflexivity|]. split; [apply (qp_sent _ _ _ _ _ _ Q0)|]. split; auto. cbn [wc_log].
  pose proof (same_count _ _ H1) as L. unfold len in L. rewrite repeat_length in L. split; [lia|].
  pose proof (replies_min rt' log [] (parsed_calm R 0 rt' _ _ Cl H2 H1 (qp_plain _ _ _ _ _ _ Q0))) as M. rewrite <- H3 in M. unfold len in *. lia.
Qed.
Print Assumptions C86_bounded_refuted.

(** ** C87 *)

(** The application gives every request the same answer. *)
Definition always (r : response) (c : nat) (q : request) (l : lresult) : Prop := l = LSend r.
(** A peer that reads slowly: [ns] says how many bytes it takes before each answer is written.  It always leaves some of
    what was written before: [sent] of [written] bytes. *)
Fixpoint lags (each written sent : N) (ns : list N) : Prop :=
  match ns with
  | [] => True
  | n :: ns' => ((sent + n < written \/ (written = 0 /\ sent = 0 /\ n = 0))%N /\ lags each (written + each) (sent + n) ns')
  end.
Definition sum (ns : list N) : N := fold_right N.add 0%N ns.

Lemma always_replies r log : forall rt h, (forall h q, always r 0 q (rt h q)) -> len (replies rt h log) = (len log * len (write_response r))%N.
Proof.
  induction log as [|v log IH]; intros rt h H; [reflexivity|]. cbn [replies]. rewrite (H h v). cbn [reply]. specialize (IH rt (h ++ [v]) H).
  unfold len in *. rewrite app_length. cbn [List.length]. lia.
Qed.
(** A call during which the socket takes n bytes, at once. *)
Definition taking (n : N) : visit := mk_visit (if (n =? 0)%N then [] else [WTake n]) [].
Lemma taking_fine n : visit_fine (taking n) /\ visit_steady (taking n).
Proof.
  unfold taking. destruct (n =? 0)%N; (split; [split; repeat constructor|]); intros a b x E; destruct a as [|? [|? ?]]; discriminate.
Qed.

Lemma unsent_len w : wr_inv w -> (wr_pos w + len (unsent w) = len (wr_buf w))%N.
Proof. intros [[H|[H1 H2]] _]; unfold unsent, len in *; rewrite skipn_length; [lia|rewrite H1, H2; reflexivity]. Qed.

Lemma slow_rounds dbg m r q : plain_request q -> ~ asks_close q -> forall ns i ls k log,
  frun dbg (always r) (f_init (1 + m)) ls (calm_server m k log) ->
  (forall v, visit_fine v -> visit_steady v ->
    quiet_peer (always r) 0 ls (calls 0 (wparts ls) ++ [v]) (List.concat (map write_request (repeat q i))) (repeat q i)) ->
  conn_fine k -> wr_pos (cn_w k) = len (sk_sent (cn_sock k)) ->
  lags (len (write_response r)) (N.of_nat i * len (write_response r)) (len (sk_sent (cn_sock k))) ns ->
  exists ls' k' log', frun dbg (always r) (f_init (1 + m)) (ls' ++ ls) (calm_server m k' log') /\
    calls 0 (wparts (ls' ++ ls)) = calls 0 (wparts ls) ++ map taking ns /\
    quiet_peer (always r) 0 (ls' ++ ls) (calls 0 (wparts (ls' ++ ls))) (List.concat (map write_request (repeat q (i + List.length ns)))) (repeat q (i + List.length ns)) /\
    conn_fine k' /\ wr_pos (cn_w k') = len (sk_sent (cn_sock k')) /\ len (sk_sent (cn_sock k')) = (len (sk_sent (cn_sock k)) + sum ns)%N.
Proof.
  intros Pq Aq. assert (Tot : has_router (always r)) by (intros c; exists (fun _ _ => LSend r); reflexivity).
  induction ns as [|n ns IH]; intros i ls k log Rn Q Cf Ps Lg.
  - exists [], k, log. cbn [app map List.length sum fold_right]. rewrite app_nil_r, Nat.add_0_r, N.add_0_r. split; auto. split; auto. split; auto.
    apply quiet_less with (v := deaf). apply Q; [apply (taking_fine 0)|apply (taking_fine 0)].
  - destruct (taking_fine n) as [F1 F2]. cbn [lags] in Lg. destruct Lg as [L1 L2].
    assert (Hrt : forall (h : list request) q, always r 0 q ((fun _ _ => LSend r) h q)) by reflexivity.
    destruct (round dbg (always r) m Tot ls k log _ q (taking n) (fun _ _ => LSend r) Rn (Q _ F1 F2) Pq Aq Hrt) as (ls' & log' & k' & R' & E & Ca & Q').
    pose proof (quiet_less _ _ _ _ _ _ _ (Q _ F1 F2)) as Q0.
    destruct (calm_answers dbg (always r) m ls k log (repeat q i) Tot Rn Q0) as (H1 & rt' & H2 & H3).
    pose proof (same_count _ _ H1) as Lc. unfold len in Lc at 2. rewrite repeat_length in Lc.
    pose proof (always_replies r log rt' [] H2) as La. rewrite <- H3, Lc in La.
    assert (Lu : (len (sk_sent (cn_sock k)) + len (unsent (cn_w k)) = N.of_nat i * len (write_response r))%N) by (rewrite <- La; unfold output, len; rewrite app_length; lia).
    unfold serve in E. cbn [wc_log] in E. set (c0 := mk_conn (cn_in k ++ [RData (write_request q)]) (cn_parser k) (cn_w k) (cn_sock k)) in *.
    assert (Cf0 : conn_fine c0) by exact Cf.
    destruct (handle_writes dbg (fun _ _ => LSend r) (taking n) log c0 log' _ Cf0 F1 (or_introl F2) E) as (new & tail & _ & _ & Cf1 & _).
    assert (X : wr_pos (cn_w k') = (wr_pos (cn_w k) + n)%N /\ len (sk_sent (cn_sock k')) = (len (sk_sent (cn_sock k)) + n)%N).
    { destruct (N.eqb_spec n 0) as [-> |Nz].
      - destruct (handle_dead dbg (fun _ _ => LSend r) (taking 0) log c0 log' k' Cf0 F1) as (b & _ & _ & X1 & X2); auto; [intros x []|].
        rewrite X1, X2. cbn [c0 cn_w cn_sock]. now rewrite !N.add_0_r.
      - unfold taking in E. destruct (N.eqb_spec n 0); [congruence|].
        destruct (handle_lagging dbg (fun _ _ => LSend r) n log c0 log' k' Cf0) as (b & _ & _ & X1 & X2); auto. cbn [c0 cn_w]. lia. }
    destruct X as [X1 X2]. rewrite <- repeat_cons in Q'.
    destruct (IH (1 + i) (ls' ++ ls) k' log' (frun_app _ _ _ _ _ Rn _ _ R') Q' Cf1) as (ls2 & k2 & log2 & A1 & A2 & A3 & A4 & A5 & A6); [congruence| |].
    + rewrite X2. replace (N.of_nat (1 + i) * len (write_response r))%N with (N.of_nat i * len (write_response r) + len (write_response r))%N by lia. exact L2.
    + exists (ls2 ++ ls'), k2, log2. rewrite <- app_assoc. split; auto. split; [rewrite A2, Ca, <- app_assoc; reflexivity|].
      cbn [List.length]. replace (i + S (List.length ns)) with (1 + i + List.length ns) by lia. split; auto. split; auto. split; auto.
      rewrite A6, X2. cbn [sum fold_right]. fold (sum ns). lia.
Qed.

(** What is kept for a slow peer is everything it has ever been answered, if it never catches up; what it has not yet read
    may be much less. *)
Theorem C87_in_proportion_refuted : forall dbg m r q ns, plain_request q -> ~ asks_close q -> lags (len (write_response r)) 0 0 ns ->
  exists ls st x k, frun dbg (always r) (f_init (1 + m)) ls st /\ resting dbg (always r) st /\ connected 0 st /\ nth_error (ws_conns (f_w st)) 0 = Some x /\ wc_slot x = WHere k /\
    received 0 (wparts ls) = map IByte (List.concat (map write_request (repeat q (List.length ns)))) /\ calls 0 (wparts ls) = map taking ns /\
    (len (sk_sent (cn_sock k)) = sum ns /\ len (unsent (cn_w k)) = len ns * len (write_response r) - sum ns /\
     len (wr_buf (cn_w k)) = len ns * len (write_response r))%N.
Proof.
  intros dbg m r q ns Pq Aq Lg. assert (Tot : has_router (always r)) by (intros c; exists (fun _ _ => LSend r); reflexivity).
  destruct (calm_start dbg (always r) m) as (ls & Rn & A & B & W).
  destruct (slow_rounds dbg m r q Pq Aq ns 0 ls (conn_new []) [] Rn) as (ls' & k & log & A1 & A2 & A3 & A4 & A5 & A6); auto.
  - intros v F1 F2. rewrite W. cbn [calls app repeat map List.concat]. apply mk_quiet_peer; auto.
    + intros p l _ ->. discriminate.
    + now rewrite W.
    + exists []. reflexivity.
  - apply conn_new_fine.
  - cbn [Nat.add] in A3. exists (ls' ++ ls), (calm_server m k log), (mk_wconn [] false (WHere k) log), k. split; auto. split; [apply calm_rests|]. split; [exists 0; now left|].
    split; [reflexivity|]. split; [reflexivity|]. split; [apply (qp_sent _ _ _ _ _ _ A3)|]. split; [rewrite A2, W; reflexivity|].
    destruct (calm_answers dbg (always r) m _ k log _ Tot A1 A3) as (H1 & rt' & H2 & H3).
    pose proof (same_count _ _ H1) as Lc. unfold len in Lc at 2. rewrite repeat_length in Lc.
    pose proof (always_replies r log rt' [] H2) as La. rewrite <- H3, Lc in La. fold (len ns) in La.
    assert (Lu : (len (sk_sent (cn_sock k)) + len (unsent (cn_w k)) = len ns * len (write_response r))%N) by (rewrite <- La; unfold output, len; rewrite app_length; lia).
    change (len (sk_sent (cn_sock (conn_new [])))) with 0%N in A6. rewrite N.add_0_l in A6.
    pose proof (unsent_len _ (proj1 (proj2 A4))) as U. split; auto. split; lia.
Qed.
Print Assumptions C87_in_proportion_refuted.

(** For every amount there is such a peer: always two bytes behind the answer it is about to get, no more. *)
Definition one_behind (each : N) (n : nat) : list N := 0%N :: (each - 1)%N :: repeat each n.
Lemma one_behind_lags each n : (1 < each)%N -> lags each 0 0 (one_behind each n) /\ sum (one_behind each n) = ((1 + N.of_nat n) * each - 1)%N.
Proof.
  intros H. split.
  - cbn [one_behind lags]. split; [auto|]. split; [lia|].
    assert (X : forall w s, (s < w)%N -> (s + each < w)%N -> lags each w s (repeat each n)).
    { induction n as [|n' IH]; intros w s L1 L2; cbn [repeat lags]; [exact I|]. split; [now left|]. apply IH; lia. }
    apply X; lia.
  - cbn [one_behind sum fold_right]. assert (X : fold_right N.add 0%N (repeat each n) = (N.of_nat n * each)%N).
    { clear H. induction n as [|n' IH]; cbn [repeat fold_right]; [lia|]. rewrite IH. lia. }
    rewrite X. lia.
Qed.
Theorem C87_any_amount_refuted : forall dbg m r q n, plain_request q -> ~ asks_close q ->
  exists ls st x k, frun dbg (always r) (f_init (1 + m)) ls st /\ resting dbg (always r) st /\ connected 0 st /\ nth_error (ws_conns (f_w st)) 0 = Some x /\ wc_slot x = WHere k /\
    (len (unsent (cn_w k)) = len (write_response r) + 1)%N /\ (N.of_nat n <= len (wr_buf (cn_w k)))%N.
Proof.
  intros dbg m r q n Pq Aq. assert (H : (1 < len (write_response r))%N) by (pose proof (reply_min (LSend r)); cbn [reply] in *; specialize (H ltac:(discriminate)); lia).
  destruct (one_behind_lags _ n H) as [L S].
  destruct (C87_in_proportion_refuted dbg m r q _ Pq Aq L) as (ls & st & x & k & H1 & H1' & H2 & H3 & H4 & _ & _ & H5 & H6 & H7).
  exists ls, st, x, k. repeat (split; [assumption|]).
  assert (Ln : len (one_behind (len (write_response r)) n) = (2 + N.of_nat n)%N) by (unfold one_behind, len; cbn [List.length]; rewrite repeat_length; lia).
  rewrite Ln, S in *. nia.
Qed.
Print Assumptions C87_any_amount_refuted.

(** ** Cases *)

Example C86_case : has_router nobody /\ calm_listeners nobody 0 /\ plain_request get_root /\ ~ asks_close get_root.
Proof. split; [apply nobody_router|]. split; [intros q l _ ->; discriminate|]. split; apply get_root_plain. Qed.
Example C86_held_case : exists ls st x, frun true nobody (f_init 1) ls st /\ accepted_here 0 ls /\ never_removed 0 ls /\ nth_error (ws_conns (f_w st)) 0 = Some x /\
  Forall visit_fine (calls 0 (wparts ls)) /\ reads_nothing (calls 0 (wparts ls)) /\
  received 0 (wparts ls) = map IByte (List.concat (map write_request [get_root; get_root])) /\ resting true nobody st /\ worker_left (f_w st) = true.
Proof.
  destruct (calm_start true nobody 0) as (ls & Rn & A & B & W). destruct C86_case as (Tot & Cl & Pq & Aq).
  destruct (taking_fine 0) as [F1 F2]. change (taking 0) with deaf in *.
  assert (Q : quiet_peer nobody 0 ls (calls 0 (wparts ls) ++ [deaf]) (List.concat (map write_request [])) []).
  { rewrite W. apply mk_quiet_peer; auto; [constructor; auto; constructor|left; constructor; auto; constructor|now rewrite W|exists []; reflexivity]. }
  assert (Hrt : forall (h : list request) q, nobody 0 q ((fun _ _ => LNext) h q)) by reflexivity.
  destruct (round true nobody 0 Tot _ _ _ _ get_root deaf (fun _ _ => LNext) Rn Q Pq Aq Hrt) as (l1 & g1 & k1 & R1 & _ & C1 & Q1).
  pose proof (frun_app _ _ _ _ _ Rn _ _ R1) as Rn1. specialize (Q1 _ F1 F2).
  destruct (round true nobody 0 Tot _ _ _ _ get_root deaf (fun _ _ => LNext) Rn1 Q1 Pq Aq Hrt) as (l2 & g2 & k2 & R2 & _ & C2 & Q2).
  pose proof (frun_app _ _ _ _ _ Rn1 _ _ R2) as Rn2. specialize (Q2 _ F1 F2). apply quiet_less in Q2.
  exists (l2 ++ l1 ++ ls), (calm_server 0 k2 g2). eexists. split; [exact Rn2|]. split; [apply Q2|]. split; [apply Q2|]. split; [reflexivity|].
  split; [apply Q2|]. split; [rewrite C2, C1, W; intros v n H; cbn in H; intros K; intuition subst; destruct K|]. split; [apply Q2|]. apply calm_rests.
Qed.
Definition small_answer : response := mk_response STATUS_OK [] [].
Example C87_case : lags (len (write_response small_answer)) 0 0 [0; 18; 19; 19; 19]%N /\ sum [0; 18; 19; 19; 19]%N = 75%N /\
  (len (write_response small_answer) = 19)%N.
Proof. vm_compute. repeat split; auto. Qed.
