(** C36-C37, C58-C59: the event loop. *)
From Coq Require Import List Bool Arith Lia.
From Verif.Model Require Import Slab Poll.
From Verif.Spec Require Import Slots.
From Verif.Proofs Require Import SlabFacts PollFacts.
Import ListNotations.

(** According to what was observed, connection [c] was accepted and not removed since. *)
Definition held (ls : list label) (c : nat) : Prop :=
  In (Accepted c true) ls /\ forall c', ~ In (Closed c' (Some c)) ls.

(** How many connections were accepted. *)
Definition accepts (ls : list label) : nat :=
  List.length (filter (fun l => match l with Accepted _ _ => true | _ => false end) ls).

Lemma accepts_next ls st : prun poll_init ls st -> p_next st = accepts ls.
Proof.
  intros R. remember poll_init as i eqn:Ei. induction R as [|st ls st1 l st2 R IH S]; subst; [reflexivity|].
  specialize (IH eq_refl). destruct S as [st evs B L F N'|st b B L|st ok st' L E|st L|st L|st c t b r st' B L E|st c t b r st' B L E|st d dropped H];
    unfold accepts in *; cbn [filter List.length p_next]; auto.
  - unfold on_connection in E. destruct ok; [destruct (insert (p_slab st) (p_next st)) as [[s' k]|]|]; inversion E; subst; cbn; auto.
  - unfold on_write_closed in E. destruct (remove (p_slab st) t). inversion E; subst; auto.
  - unfold on_ready in E. inversion E; subst; auto.
Qed.

Lemma accepted_lt ls st c ok : prun poll_init ls st -> In (Accepted c ok) ls -> c < p_next st.
Proof.
  intros R. remember poll_init as i eqn:Ei. induction R as [|st ls st1 l st2 R IH S]; subst; [intros []|].
  specialize (IH eq_refl). intros H. pose proof (accepts_next _ _ R) as N1.
  pose proof (accepts_next _ _ (prun_step _ _ _ _ _ R S)) as N2.
  assert (N3 : p_next st1 <= p_next st2) by (rewrite N1, N2; unfold accepts; cbn [filter]; destruct l; cbn [List.length]; lia).
  destruct H as [->|H]; [|apply IH in H; lia].
  inversion S; subst. rewrite N2. unfold accepts in *. cbn [filter List.length]. lia.
Qed.

(** The slab holds exactly the connections accepted and not removed. *)
Theorem C36_slab ls st c : prun poll_init ls st -> (exists t, get (p_slab st) t = Some c) <-> held ls c.
Proof.
  intros R. remember poll_init as i eqn:Ei. induction R as [|st ls st1 l st2 R IH S]; subst.
  - split; [intros [[|t] H]; discriminate|intros [[] _]].
  - specialize (IH eq_refl). pose proof (pinv_run _ _ _ R pinv_init) as P.
    assert (Same : p_slab st2 = p_slab st1 -> (forall d, l <> Accepted d true) -> (forall d d', l <> Closed d (Some d')) ->
                   (exists t, get (p_slab st2) t = Some c) <-> held (l :: ls) c).
    { intros E A B. rewrite E, IH. unfold held. cbn [In]. split.
      - intros [H1 H2]. split; [now right|]. intros c' [K|K]; [now apply B in K|now apply (H2 c')].
      - intros [[H1|H1] H2]; [now apply A in H1|]. split; auto. intros c' K. apply (H2 c'). now right. }
    destruct P as (I & J1 & J2 & K1 & K2 & N & D).
    destruct S as [st1 evs B L F N'|st1 b B L|st1 ok st' L E|st1 L|st1 L|st1 c0 t b r st' B L E|st1 c0 t b r st' B L E|st1 d dropped H]; try (apply Same; [reflexivity|congruence|congruence]).
    + unfold on_connection in E. destruct ok.
      * destruct (insert_spec (p_slab st1) (p_next st1) I) as (s1 & E1 & I1 & G0 & G1 & L1 & _ & L2).
        rewrite E1 in E. inversion E; subst st'. clear E. cbn [p_slab]. unfold held. cbn [In]. split.
        -- intros [t H]. rewrite G1 in H. destruct (next_key (p_slab st1) =? t).
           ++ inversion H; subst c. split; [now left|]. intros c' [K|K]; [discriminate|].
              assert (Q : forall ls st, prun poll_init ls st -> forall c c', In (Closed c' (Some c)) ls -> c < p_next st).
              { clear. intros ls st R. remember poll_init as i eqn:Ei. induction R as [|st ls st1 l st2 R IH S]; subst; [intros c c' []|].
                specialize (IH eq_refl). intros c c' H. pose proof (accepts_next _ _ R) as N1.
                pose proof (accepts_next _ _ (prun_step _ _ _ _ _ R S)) as N2.
                assert (N3 : p_next st1 <= p_next st2) by (rewrite N1, N2; unfold accepts; cbn [filter]; destruct l; cbn [List.length]; lia).
                destruct H as [->|H]; [|apply IH in H; lia].
                pose proof (pinv_run _ _ _ R pinv_init) as (I & J1 & _).
                inversion S as [| | | | |? ? t b r ? B L E| |]; subst. unfold on_write_closed in E.
                destruct (remove (p_slab st1) t) as [r' s'] eqn:Er. inversion E; subst.
                destruct (remove_spec _ _ _ _ I Er) as (_ & Hr & _). symmetry in Hr. apply J1 in Hr. lia. }
              apply (Q _ _ R) in K. lia.
           ++ destruct (proj1 IH (ex_intro _ t H)) as [A B]. split; [now right|]. intros c' [K|K]; [discriminate|now apply (B c')].
        -- intros [[H|H] H'].
           ++ inversion H; subst c. exists (next_key (p_slab st1)). now rewrite G1, Nat.eqb_refl.
           ++ destruct (proj2 IH) as [t Ht]; [split; auto; intros c' K; apply (H' c'); now right|].
              exists t. rewrite G1. destruct (Nat.eqb_spec (next_key (p_slab st1)) t) as [<-|]; congruence.
      * inversion E; subst st'. apply Same; [reflexivity|congruence|congruence].
    + unfold on_write_closed in E. destruct (remove (p_slab st1) t) as [r' s'] eqn:Er. inversion E; subst r' st'. clear E.
      destruct (remove_spec _ _ _ _ I Er) as (_ & Hr & G1 & _). cbn [p_slab] in *. destruct r as [d|].
      * unfold held. cbn [In]. symmetry in Hr. split.
        -- intros [j H]. rewrite G1 in H. destruct (Nat.eqb_spec t j) as [|Ne]; [discriminate|].
           destruct (proj1 IH (ex_intro _ j H)) as [A B']. split; [now right|]. intros c' [K|K]; [|now apply (B' c')].
           inversion K; subst d. apply Ne. apply (J2 t j c); auto.
        -- intros [[H|H] H']; [discriminate|].
           destruct (proj2 IH) as [j Hj]; [split; auto; intros c' K; apply (H' c'); now right|].
           exists j. rewrite G1. destruct (Nat.eqb_spec t j) as [<-|]; auto. exfalso. apply (H' c0). left. congruence.
      * assert (Eq : forall j, get s' j = get (p_slab st1) j).
        { intros j. rewrite G1. destruct (Nat.eqb_spec t j) as [<-|]; auto. }
        unfold held. cbn [In]. split.
        -- intros [j H]. rewrite Eq in H. destruct (proj1 IH (ex_intro _ j H)) as [A B']. split; [now right|].
           intros c' [K|K]; [discriminate|now apply (B' c')].
        -- intros [[H|H] H']; [discriminate|].
           destruct (proj2 IH) as [j Hj]; [split; auto; intros c' K; apply (H' c'); now right|]. exists j. now rewrite Eq.
    + unfold on_ready in E. inversion E; subst r st'. apply Same; [reflexivity|congruence|congruence].
Qed.
Print Assumptions C36_slab.

(** An event about a connection that has not been removed reaches that connection: it is the one handled, or
    removed if the event says write-closed. *)
Theorem C36_own_event ls st c r st' : prun poll_init ls st -> held ls c ->
  pstep st (Ready c r) st' \/ pstep st (Closed c r) st' -> r = Some c.
Proof.
  intros R H S. apply (C36_slab ls st c R) in H as [t' H].
  pose proof (pinv_run _ _ _ R pinv_init) as (I & J1 & J2 & K1 & K2 & N & D).
  destruct S as [S|S].
  - inversion S as [| | | | | |? ? t b ? ? B L E|]; subst. assert (t' = t) by (apply (K2 c t t'); auto; right; exists false; rewrite B; now left).
    subst t'. unfold on_ready in E. congruence.
  - inversion S as [| | | | |? ? t b ? ? B L E| |]; subst. assert (t' = t) by (apply (K2 c t t'); auto; right; exists true; rewrite B; now left).
    subst t'. unfold on_write_closed in E. destruct (remove (p_slab st) t) as [r' s'] eqn:Er.
    destruct (remove_spec _ _ _ _ I Er) as (_ & Hr & _). congruence.
Qed.
Print Assumptions C36_own_event.

(** If connections are only removed when no handler is queued or running for them, every event reaches its own
    connection. *)
Theorem C36_every_event ls st c r st' : quiet_run poll_init ls st ->
  pstep st (Ready c r) st' \/ pstep st (Closed c r) st' -> r = Some c.
Proof.
  intros R S. pose proof (quiet_prun _ _ _ R) as R'. destruct (qinv_run ls st R) as [P [Q1 Q2]].
  apply (C36_own_event ls st c r st' R'); auto. apply (C36_slab ls st c R').
  destruct S as [S|S]; inversion S as [| | | | |? ? t b ? ? B L E|? ? t b ? ? B L E|]; subst; exists t; apply Q1; right; rewrite B; eexists; now left.
Qed.
Print Assumptions C36_every_event.

(** Two connections that are held never have the same token, and a token is less than the number of connections
    accepted so far; so it is not the token of the listener, 2^64-1, before that many have been accepted. *)
Theorem C36_tokens ls st c c' t : prun poll_init ls st -> In (c, t) (p_reg st) -> t < accepts ls /\
  (held ls c -> In (c', t) (p_reg st) -> held ls c' -> c = c').
Proof.
  intros R H. pose proof (pinv_run _ _ _ R pinv_init) as (I & J1 & J2 & K1 & K2 & N & D). split.
  - assert (L : List.length (sl_data (p_slab st)) <= accepts ls).
    { rewrite <- (accepts_next ls st R). clear - R. remember poll_init as i eqn:Ei. induction R as [|st ls st1 l st2 R IH S]; subst; [cbn; lia|].
      specialize (IH eq_refl). pose proof (pinv_run _ _ _ R pinv_init) as (I & _).
      destruct S as [st1 evs B L F N'|st1 b B L|st1 ok st' L E|st1 L|st1 L|st1 c0 t b r st' B L E|st1 c0 t b r st' B L E|st1 d dropped H]; auto.
      - unfold on_connection in E. destruct ok; [|inversion E; subst; cbn; lia].
        destruct (insert_spec (p_slab st1) (p_next st1) I) as (s1 & E1 & _ & _ & _ & L1 & _).
        rewrite E1 in E. inversion E; subst; cbn [p_slab p_next]. lia.
      - unfold on_write_closed in E. destruct (remove (p_slab st1) t) as [r' s'] eqn:Er. inversion E; subst.
        destruct (remove_spec _ _ _ _ I Er) as (_ & _ & _ & L1 & _). cbn [p_slab p_next]. lia.
      - unfold on_ready in E. inversion E; subst; auto. }
    assert (KK : known st c t) by now left. apply K1 in KK. lia.
  - intros Hc H' Hc'. apply (C36_slab _ _ _ R) in Hc as [t1 Hc]. apply (C36_slab _ _ _ R) in Hc' as [t2 Hc'].
    assert (t1 = t) by (apply (K2 c t t1); auto; now left). assert (t2 = t) by (apply (K2 c' t t2); auto; now left). congruence.
Qed.
Print Assumptions C36_tokens.

(** Building executions step by step. *)
Ltac one_event := apply Forall_cons; [cbn; auto|apply Forall_nil].
Ltac go R tac := eapply prun_step in R; [|tac]; cbv in R.
Ltac goq R tac := eapply quiet_step in R; [|tac|cbn; intuition discriminate]; cbv in R.
Ltac poll_one e := apply (step_poll _ [e]); [reflexivity|reflexivity|one_event|cbn; repeat constructor; intros []].
Ltac listen_one := eapply step_listen; reflexivity.
Ltac accept_one := apply (step_accept _ true); reflexivity.
Ltac blocked_one := apply step_blocked; reflexivity.
Ltac ready_one := eapply step_ready; reflexivity.
Ltac closed_one := eapply step_closed; reflexivity.
Ltac finished_one d b := apply (step_finished _ d b); cbn; auto.

(** Non-vacuity: two connections; the first has an event and is removed when its handler is done. *)
Example example_quiet : exists ls st st', quiet_run poll_init ls st /\ held ls 1 /\ held ls 0 /\
  pstep st (Closed 0 (Some 0)) st' /\ In (1, 1) (p_reg st').
Proof.
  pose proof (quiet_nil poll_init) as R.
  goq R ltac:(poll_one EvListener). goq R listen_one. goq R accept_one. goq R accept_one. goq R blocked_one.
  goq R ltac:(poll_one (EvSocket 0 0 false)). goq R ready_one. goq R ltac:(finished_one 0 false).
  goq R ltac:(poll_one (EvSocket 0 0 true)).
  do 3 eexists. split; [exact R|]. split; [split; [cbn; tauto|intros c'; cbn; intuition discriminate]|].
  split; [split; [cbn; tauto|intros c'; cbn; intuition discriminate]|].
  split; [closed_one|]. cbn. auto.
Qed.
Print Assumptions example_quiet.

(** The claim fails when a connection is removed while a handler holds it: its socket stays registered, the
    token is given to the next connection, and events about the old socket go to the new connection. *)
Definition mixed : pstate := mk_pstate (mk_slab [Some 1] []) 2 [(1, 0); (0, 0)] [0] [] false.
Lemma mixed_reached : exists ls, prun poll_init ls mixed /\ held ls 1 /\
  (forall r, ~ In (Ready 1 r) ls /\ ~ In (Closed 1 r) ls).
Proof.
  pose proof (prun_nil poll_init) as R.
  go R ltac:(poll_one EvListener). go R listen_one. go R accept_one. go R blocked_one.
  go R ltac:(poll_one (EvSocket 0 0 false)). go R ready_one.
  go R ltac:(poll_one (EvSocket 0 0 true)). go R closed_one.
  go R ltac:(poll_one EvListener). go R listen_one. go R accept_one. go R blocked_one.
  eexists. split; [exact R|]. split; [split; [cbn; tauto|intros c'; cbn; intuition discriminate]|].
  intros r. cbn. intuition discriminate.
Qed.

(** There is an execution in which an event about connection 0 has connection 1 handled. *)
Theorem C36_wrong_connection_handled_refuted : exists ls st st', prun poll_init ls st /\ pstep st (Ready 0 (Some 1)) st'.
Proof.
  destruct mixed_reached as (ls & R & _). unfold mixed in R. go R ltac:(poll_one (EvSocket 0 0 false)).
  do 3 eexists. split; [exact R|]. eapply step_ready; reflexivity.
Qed.
Print Assumptions C36_wrong_connection_handled_refuted.

(** There is an execution in which connection 1 is removed and its socket closed by the server, although no event
    about it ever occurred. *)
Theorem C36_wrong_connection_closed_refuted : exists ls st st', prun poll_init ls st /\ held ls 1 /\
  (forall r, ~ In (Ready 1 r) ls /\ ~ In (Closed 1 r) ls) /\ In (1, 0) (p_reg st) /\
  pstep st (Closed 0 (Some 1)) st' /\ (forall t, ~ In (1, t) (p_reg st')).
Proof.
  destruct mixed_reached as (ls & R & H & E). unfold mixed in R. go R ltac:(poll_one (EvSocket 0 0 true)).
  do 3 eexists. split; [exact R|]. split.
  { destruct H as [A B]. split; [right; exact A|]. intros c' [K|K]; [discriminate|now apply (B c')]. }
  split. { intros r. destruct (E r) as [A B]. split; intros [K|K]; congruence || auto. }
  split; [cbn; auto|]. split; [closed_one|]. intros t. cbn. intuition discriminate.
Qed.
Print Assumptions C36_wrong_connection_closed_refuted.

(** A write-closed event about a connection frees its slot, which the next connection gets. *)
Theorem C37_write_closed_frees ls st c r st' : prun poll_init ls st -> held ls c -> pstep st (Closed c r) st' ->
  exists t, get (p_slab st) t = Some c /\ get (p_slab st') t = None /\ next_key (p_slab st') = t.
Proof.
  intros R H S. pose proof (C36_own_event _ _ _ _ _ R H (or_intror S)) as ->.
  pose proof (pinv_run _ _ _ R pinv_init) as (I & _).
  inversion S as [| | | | |? ? t b ? ? B L E| |]; subst. unfold on_write_closed in E.
  destruct (remove (p_slab st) t) as [r' s'] eqn:Er. inversion E; subst.
  destruct (remove_spec _ _ _ _ I Er) as (_ & Hr & G1 & _ & _ & NK). exists t. cbn [p_slab].
  split; [congruence|]. split; [now rewrite G1, Nat.eqb_refl|]. apply NK. discriminate.
Qed.
Print Assumptions C37_write_closed_frees.

(** A slot whose connection is closed, with no event pending for its token, is never freed again, whatever happens. *)
Theorem C37_kept_forever ls st t d ls' st' : prun poll_init ls st -> get (p_slab st) t = Some d ->
  (forall c, ~ In (c, t) (p_reg st)) -> (forall c w, ~ In (EvSocket c t w) (p_batch st)) ->
  prun st ls' st' -> get (p_slab st') t = Some d.
Proof.
  intros R G U1 U2 R'. apply (stuck_run st ls' st' t d R' (pinv_run _ _ _ R pinv_init)). split; auto.
  intros c [H|[w H]]; [now apply (U1 c)|now apply (U2 c w)].
Qed.
Print Assumptions C37_kept_forever.

(** So a connection closed by its handler keeps its slot for good, unless an event about it was already waiting. *)
Theorem C37_server_close_keeps ls st d st' ls' st'' : quiet_run poll_init ls st -> held ls d ->
  (forall t w, ~ In (EvSocket d t w) (p_batch st)) -> pstep st (Finished d true) st' -> prun st' ls' st'' ->
  exists t, get (p_slab st) t = Some d /\ get (p_slab st'') t = Some d.
Proof.
  intros R H U S R'. pose proof (quiet_prun _ _ _ R) as Rp. apply (C36_slab _ _ _ Rp) in H as [t G]. exists t. split; auto.
  destruct (qinv_run ls st R) as [P [Q1 Q2]].
  apply (C37_kept_forever (Finished d true :: ls) st' t d ls' st''); auto.
  - econstructor; eauto.
  - inversion S; subst. exact G.
  - inversion S; subst. cbn [p_reg]. intros c K. apply sweep_in in K as [K _]. apply filter_In in K as [K K'].
    assert (get (p_slab st) t = Some c) by (apply Q1; now left). cbn [fst] in K'.
    assert (c = d) by congruence. subst c. rewrite Nat.eqb_refl in K'. discriminate.
  - inversion S; subst. cbn [p_batch]. intros c w K.
    assert (get (p_slab st) t = Some c) by (apply Q1; right; now exists w). assert (c = d) by congruence. subst c. now apply (U t w).
Qed.
Print Assumptions C37_server_close_keeps.

(** State after [n] connections the server closed itself. *)
Definition after_closing (n : nat) : pstate := mk_pstate (mk_slab (map Some (seq 0 n)) []) n [] [] [] false.

Lemma seq_data_length n : List.length (map (@Some nat) (seq 0 n)) = n.
Proof. now rewrite map_length, seq_length. Qed.

Lemma seq_data_snoc n : map (@Some nat) (seq 0 n) ++ [Some n] = map Some (seq 0 (S n)).
Proof. rewrite seq_S, map_app. reflexivity. Qed.

Lemma close_one_more n : exists ls, prun (after_closing n) ls (after_closing (S n)).
Proof.
  assert (A : next_key (p_slab (after_closing n)) = n) by apply seq_data_length.
  assert (G : get (mk_slab (map (@Some nat) (seq 0 (S n))) []) n = Some n).
  { unfold get. cbn [sl_data]. rewrite <- seq_data_snoc, nth_error_app2, seq_data_length, Nat.sub_diag by (rewrite seq_data_length; lia). reflexivity. }
  eexists. eapply prun_step. 1: eapply prun_step. 1: eapply prun_step. 1: eapply prun_step. 1: eapply prun_step.
  1: eapply prun_step. 1: eapply prun_step. 1: apply prun_nil.
  1: apply (step_poll _ [EvListener]); [reflexivity|reflexivity|one_event|constructor].
  1: eapply step_listen; reflexivity.
  1: eapply (step_accept _ true (mk_pstate (mk_slab (map Some (seq 0 (S n))) []) (S n) [(n, n)] [] [] true)); [reflexivity|].
  1: { unfold on_connection, insert, next_key. cbn [p_slab p_next p_reg p_jobs p_batch p_listening after_closing sl_open sl_data].
       rewrite seq_data_length, seq_data_snoc. reflexivity. }
  1: apply step_blocked; reflexivity.
  1: apply (step_poll _ [EvSocket n n false]); [reflexivity|reflexivity|one_event|cbn; repeat constructor; intros []].
  1: eapply (step_ready _ n n [] (Some n)); [reflexivity|reflexivity|].
  1: unfold on_ready; cbn [p_slab p_next p_reg p_jobs p_batch p_listening]; rewrite G; reflexivity.
  match goal with |- pstep ?st _ _ => pose proof (step_finished st n true) as F end. cbn [p_slab p_next p_reg p_jobs p_batch p_listening app drop_one filter fst] in F.
  rewrite Nat.eqb_refl in F. cbn [negb] in F. apply F. now left.
Qed.

(** For every [n] there is an execution after which [n] slots are taken although no socket is open, no handler
    runs and no event is pending; and they stay taken in every continuation. *)
Theorem C37_closed_frees_slot_refuted n : exists ls st, prun poll_init ls st /\
  p_reg st = [] /\ p_jobs st = [] /\ p_batch st = [] /\
  forall ls' st', prun st ls' st' -> forall t, t < n -> get (p_slab st') t <> None.
Proof.
  assert (R : exists ls, prun poll_init ls (after_closing n)).
  { induction n as [|n [ls IH]]; [exists []; apply prun_nil|]. destruct (close_one_more n) as [l1 R1]. exists (l1 ++ ls). eapply prun_app; eauto. }
  destruct R as [ls R]. exists ls, (after_closing n). split; auto. split; auto. split; auto. split; auto.
  intros ls' st' R' t L.
  assert (G : exists d, get (p_slab (after_closing n)) t = Some d).
  { unfold get. cbn [after_closing p_slab sl_data]. destruct (nth_error (map (@Some nat) (seq 0 n)) t) as [[d|]|] eqn:E; [now exists d| |].
    - apply nth_error_In, in_map_iff in E as (? & ? & _). discriminate.
    - apply nth_error_None in E. rewrite seq_data_length in E. lia. }
  destruct G as [d G]. rewrite (C37_kept_forever ls _ t d ls' st' R G); auto. discriminate.
Qed.
Print Assumptions C37_closed_frees_slot_refuted.

(** Accepting: the loop ends at the first would-block; before that every connection accepted is passed on, once
    and in order, and failures of accept are skipped. *)
Fixpoint connections {C} (l : list (accepted C)) : list C :=
  match l with [] => [] | AConn c :: l' => c :: connections l' | _ :: l' => connections l' end.

Theorem C58_accept_all {C S} (env : nat -> accepted C) (callback : S -> C -> S) n m (st : S) :
  (forall i, i < m -> env (n + i) <> ABlock) -> env (n + m) = ABlock ->
  forall fuel, m < fuel -> listen_until_blocked fuel env n callback st =
    Some (fold_left callback (connections (map (fun i => env (n + i)) (seq 0 m))) st, n + m + 1).
Proof.
  revert n st. induction m as [|m IH]; intros n st H B fuel L; (destruct fuel as [|fuel]; [lia|]); cbn [listen_until_blocked].
  - rewrite Nat.add_0_r in *. rewrite B. cbn. now rewrite Nat.add_comm.
  - assert (E : map (fun i => env (n + i)) (seq 0 (Datatypes.S m)) = env n :: map (fun i => env (1 + n + i)) (seq 0 m)).
    { cbn [seq map]. rewrite Nat.add_0_r. f_equal. rewrite <- seq_shift, map_map. apply map_ext. intros i. f_equal. lia. }
    rewrite E. assert (H0 : env n <> ABlock) by (specialize (H 0); rewrite Nat.add_0_r in H; apply H; lia).
    assert (H1 : forall i, i < m -> env (1 + n + i) <> ABlock).
    { intros i Hi. replace (1 + n + i) with (n + Datatypes.S i) by lia. apply H. lia. }
    assert (B1 : env (1 + n + m) = ABlock) by (rewrite <- B; f_equal; lia).
    destruct (env n) as [c| |] eqn:En; [|contradiction|]; cbn [connections fold_left];
      rewrite (IH _ _ H1 B1 fuel) by lia; (do 2 f_equal; lia).
Qed.
Print Assumptions C58_accept_all.

(** If accept never reports would-block, for instance because it fails again and again for lack of file
    descriptors, the loop never ends, so no other event is ever dispatched. *)
Theorem C58_never_returns {C S} (env : nat -> accepted C) (callback : S -> C -> S) n (st : S) :
  (forall i, env i <> ABlock) -> forall fuel, listen_until_blocked fuel env n callback st = None.
Proof.
  intros H fuel. revert n st. induction fuel as [|fuel IH]; intros n st; cbn [listen_until_blocked]; auto.
  specialize (H n). destruct (env n); auto. contradiction.
Qed.
Print Assumptions C58_never_returns.

(** In the event loop: until accept reports would-block the main thread does nothing but accept; no event about a
    connection is dispatched and no poll is made. *)
Theorem C58_starved st ls st' : p_listening st = true -> prun st ls st' -> ~ In Blocked ls ->
  p_listening st' = true /\ p_batch st' = p_batch st /\
  forall l, In l ls -> match l with Polled | Listening | Ready _ _ | Closed _ _ => False | _ => True end.
Proof.
  intros L R. induction R as [st|st ls st1 l st2 R IH S]; [intros _; split; auto; split; auto; intros l []|].
  intros NB. destruct (IH L) as (L1 & B1 & H1); [intros K; apply NB; now right|].
  assert (NB' : l <> Blocked) by (intros ->; apply NB; now left).
  destruct S as [st1 evs B L' F N'|st1 b B L'|st1 ok st' L' E|st1 L'|st1 L'|st1 c0 t b r st' B L' E|st1 c0 t b r st' B L' E|st1 d dropped H]; try congruence.
  - unfold on_connection in E.
    assert (p_listening st' = p_listening st1 /\ p_batch st' = p_batch st1) as [-> ->].
    { destruct ok; [destruct (insert (p_slab st1) (p_next st1)) as [[s' k]|]|]; inversion E; subst; auto. }
    split; auto. split; auto. intros l [<-|K]; auto. now apply H1.
  - split; auto. split; auto. intros l [<-|K]; auto. now apply H1.
  - cbn [p_listening p_batch]. split; auto. split; auto. intros l [<-|K]; auto. now apply H1.
Qed.
Print Assumptions C58_starved.

Example example_accept : listen_until_blocked 10 (fun i => match i with 0 => AConn 5 | 1 => AFail | 2 => AConn 6 | _ => ABlock end) 0
  (fun l c => l ++ [c]) [] = Some ([5; 6], 4).
Proof. reflexivity. Qed.

(** Polling: every event of every poll before the first that fails is dispatched once, in order; then the error is
    returned, and only then. *)
Theorem C59_dispatch_all {E S X} (env : nat -> list E + X) (on_event : S -> E -> S) polls x n (st : S) :
  (forall i, i < List.length polls -> env (n + i) = inl (nth i polls [])) -> env (n + List.length polls) = inr x ->
  forall fuel, List.length polls < fuel ->
  poll_events fuel env n on_event st = Some (x, fold_left on_event (concat polls) st).
Proof.
  revert n st. induction polls as [|evs polls IH]; intros n st H B fuel L; (destruct fuel as [|fuel]; [cbn in L; lia|]); cbn [poll_events].
  - cbn [List.length] in B. rewrite Nat.add_0_r in B. rewrite B. reflexivity.
  - pose proof (H 0) as H0. rewrite Nat.add_0_r in H0. rewrite H0 by (cbn; lia). cbn [nth concat]. rewrite fold_left_app.
    apply IH; [| |cbn in L; lia].
    + intros i Hi. replace (1 + n + i) with (n + Datatypes.S i) by lia. rewrite H by (cbn; lia). reflexivity.
    + rewrite <- B. f_equal. cbn [List.length]. lia.
Qed.
Print Assumptions C59_dispatch_all.

Theorem C59_returns_only_on_error {E S X} (env : nat -> list E + X) (on_event : S -> E -> S) fuel n (st : S) x st' :
  poll_events fuel env n on_event st = Some (x, st') -> exists i, env i = inr x.
Proof.
  revert n st. induction fuel as [|fuel IH]; intros n st; cbn [poll_events]; [discriminate|].
  destruct (env n) as [evs|e] eqn:En; [apply IH|]. intros H. inversion H; subst. now exists n.
Qed.
Print Assumptions C59_returns_only_on_error.

Example example_poll : poll_events 5 (fun i => match i with 0 => inl [1; 2] | 1 => inl [] | 2 => inl [3] | _ => inr tt end) 0
  (fun l e => l ++ [e]) [] = Some (tt, [1; 2; 3]).
Proof. reflexivity. Qed.
