(** Handlers on the thread pool: C49, C50, C60, C61, C62. *)
From Coq Require Import List Bool NArith Arith Lia.
From Verif.Model Require Import Bytes Io Common Parse Encode Writer Server Slab Handlers.
From Verif.Spec Require Import Traces Stream Session Output.
From Verif.Proofs Require Import SlabFacts HandlersFacts IoFacts WriterFacts OpsFacts ConnFacts WakeFacts.
Import ListNotations.

Ltac go R tac := eapply hrun_step in R; [|tac]; cbv in R.

(** ** C49 *)

(** At no time are two workers inside a handler of the same connection, for any number of connections and workers and
    any schedule. *)
Theorem C49_one_at_a_time : forall conns size ls st c, hrun (h_init conns size) ls st -> c < conns ->
  List.length (active c ls) <= 1.
Proof.
  intros conns size ls st c R Hc.
  destruct (nth_error (h_conns st) c) as [x|] eqn:E.
  - now destruct (traced_run _ _ _ _ R _ _ E) as (_ & H & _).
  - exfalso. apply nth_error_None in E.
    assert (List.length (h_conns st) = conns); [|lia]. remember (h_init conns size) as i eqn:Ei. clear E. induction R; subst.
    + apply repeat_length.
    + rewrite (conns_length _ _ _ H). auto.
Qed.
Print Assumptions C49_one_at_a_time.

(** Only the worker inside the handler reads from the connection. *)
Theorem C49_only_the_handler_reads : forall conns size ls st i c n,
  hrun (h_init conns size) (LRead i c n :: ls) st -> active c ls = [i].
Proof.
  intros conns size ls st i c n R. inversion R as [|? ? st1 ? ? R1 S]; subst. inversion S as [| | | | | | |? ? ? x ? W N| | | |]; subst.
  destruct (traced_run _ _ _ _ R1 _ _ N) as (T1 & T2 & _).
  assert (K : In i (active c ls)) by (apply T1; exists (HServe c); split; auto; cbn; apply Nat.eqb_refl).
  destruct (active c ls) as [|j [|k a]]; cbn in *; [contradiction| |lia]. destruct K as [->|[]]. reflexivity.
Qed.
Print Assumptions C49_only_the_handler_reads.

(** ** C50 *)

(** Unread bytes of a connection the server has not dropped: an event is pending, a job queued, or a worker is on its
    way to reading them. *)
Theorem C50_no_lost_wakeup : forall conns size ls st c x, hrun (h_init conns size) ls st ->
  nth_error (h_conns st) c = Some x -> not_dropped c ls -> consumed c ls < arrived c ls ->
  c_event x = true \/ In c (h_queue st) \/ In (HWait c) (h_workers st) \/ In (HServe c) (h_workers st).
Proof.
  intros conns size ls st c x R N D Lt. destruct (traced_run _ _ _ _ R _ _ N) as (_ & _ & T3 & T4).
  destruct (hinv_run _ _ _ _ R _ _ N) as [_ I2]. destruct (I2 ltac:(lia) (T4 D)) as [H|[H|H]]; auto.
  right. right. apply hcount_pos, existsb_exists in H as (w & Hin & Hw).
  destruct w as [|d|d|d|]; try discriminate; cbn in Hw; apply Nat.eqb_eq in Hw; subst d; auto.
Qed.
Print Assumptions C50_no_lost_wakeup.

(** When the server has nothing more to do, every byte that arrived for a connection it has not dropped has been
    read (if a worker is left). *)
Theorem C50_settled_means_read : forall conns size ls st c, hrun (h_init conns size) ls st -> c < conns ->
  settled st -> existsb alive (h_workers st) = true -> not_dropped c ls -> consumed c ls = arrived c ls.
Proof.
  intros conns size ls st c R Hc Hs A D.
  assert (L : List.length (h_conns st) = conns).
  { remember (h_init conns size) as i eqn:Ei. clear Hs A D Hc. induction R; subst; [apply repeat_length|].
    rewrite (conns_length _ _ _ H). auto. }
  destruct (nth_error (h_conns st) c) as [x|] eqn:N; [|apply nth_error_None in N; lia].
  destruct (traced_run _ _ _ _ R _ _ N) as (_ & _ & T3 & _).
  destruct (Nat.eq_dec (c_unread x) 0) as [Z|NZ]; [lia|]. exfalso.
  destruct (settled_idle _ (hvalid_run _ _ _ _ R) Hs A) as (Q & E & W).
  destruct (C50_no_lost_wakeup _ _ _ _ _ _ R N D ltac:(lia)) as [K|[K|K]].
  - rewrite (Forall_nth _ _ _ _ E N) in K. discriminate.
  - rewrite Q in K. contradiction.
  - rewrite Forall_forall in W. destruct K as [K|K]; apply W in K; destruct K; discriminate.
Qed.
Print Assumptions C50_settled_means_read.

(** The server does settle: between arrivals it makes only finitely many steps, in every schedule. *)
Theorem C50_settles : forall st ls st', hrun st ls st' -> forallb (fun l => negb (external l)) ls = true ->
  List.length ls <= work st.
Proof.
  intros st ls st' R. assert (K : forallb (fun l => negb (external l)) ls = true -> List.length ls + work st' <= work st).
  { induction R as [|st ls st1 l st2 R IH S]; cbn [List.length forallb]; [lia|]. intros H. apply andb_true_iff in H as [H1 H2].
    apply negb_true_iff in H1. specialize (IH H2). pose proof (work_step _ _ _ S H1). lia. }
  intros H. specialize (K H). lia.
Qed.
Print Assumptions C50_settles.

(** What the model above assumes of a handler, proved of the handler: if it keeps the connection, the results of its
    reads, in order, end with a would-block. *)
Theorem C50_handler_reads_to_block : forall dbg rt s vs log c v log' c',
  visits dbg rt vs [] (Open (conn_new s)) = (log, Open c) ->
  handle dbg rt v log (Open c) = (log', Open c') ->
  cn_in c' = [] \/ exists before, cn_in c = before ++ RErr WouldBlock :: cn_in c'.
Proof.
  intros dbg rt s vs log c v log' c' E1 E2.
  apply visits_fine in E1 as [Hp I]; [|exact parser_fine_new|apply conn_new_fine].
  now apply handle_blocked in E2 as [E2 _].
Qed.
Print Assumptions C50_handler_reads_to_block.

(** ** C60 *)

(** Likewise for writes: whatever a kept connection still holds, the last write on the socket of this visit blocked,
    so that the socket becoming writable is an event of its own. *)
Theorem C60_handler_writes_to_block : forall dbg rt s vs log c v log' c',
  visits dbg rt vs [] (Open (conn_new s)) = (log, Open c) ->
  handle dbg rt v log (Open c) = (log', Open c') ->
  unsent (cn_w c') = [] \/ sk_events (cn_sock c') = [] \/
  exists before, v_events v = before ++ WFail WouldBlock :: sk_events (cn_sock c').
Proof.
  intros dbg rt s vs log c v log' c' E1 E2.
  apply visits_fine in E1 as [Hp I]; [|exact parser_fine_new|apply conn_new_fine].
  now apply handle_blocked in E2 as [_ E2].
Qed.
Print Assumptions C60_handler_writes_to_block.

(** And every call of the handler, whatever event it is for, first gives the socket as much of what is held as it
    will take. *)
Theorem C60_held_output_first : forall dbg rt s vs log c v n evs log' st',
  visits dbg rt vs [] (Open (conn_new s)) = (log, Open c) ->
  v_events v = WTake n :: evs -> handle dbg rt v log (Open c) = (log', st') ->
  exists d, slot_sent st' = sk_sent (cn_sock c) ++ firstn (N.to_nat n) (unsent (cn_w c)) ++ d.
Proof.
  intros dbg rt s vs log c v n evs log' st' E1 Ev E2.
  apply visits_fine in E1 as [Hp I]; [|exact parser_fine_new|apply conn_new_fine].
  eapply handle_sends_first; eauto.
Qed.
Print Assumptions C60_held_output_first.

(** ** C61 *)

Lemma hrun_app a ls b : hrun a ls b -> forall ls' c, hrun b ls' c -> hrun a (ls' ++ ls) c.
Proof. intros R ls' c R'. induction R'; cbn [app]; auto. econstructor; eauto. Qed.

(** One more worker waiting. *)
Lemma fill m : forall k u, exists ls,
  hrun (mk_hstate [mk_cstate u false false false; cs_new] [] (HServe 0 :: repeat (HWait 0) k ++ repeat HFree m)) ls
       (mk_hstate [mk_cstate (u + m) false false false; cs_new] [] (HServe 0 :: repeat (HWait 0) (k + m))) /\
  Forall (fun l => match l with LArrive 0 _ | LDispatch 0 | LTake _ 0 => True | _ => False end) ls.
Proof.
  induction m as [|m IH]; intros k u.
  - exists []. rewrite app_nil_r, !Nat.add_0_r. split; constructor.
  - destruct (IH (S k) (u + 1)) as (ls & R & F). exists (ls ++ [LTake (S k) 0; LDispatch 0; LArrive 0 1]). split.
    2:{ apply Forall_app. split; [exact F|]. repeat constructor. }
    replace (k + S m) with (S k + m) by lia. replace (u + S m) with (u + 1 + m) by lia.
    eapply hrun_app; [|exact R].
    set (w := HServe 0 :: repeat (HWait 0) k ++ repeat HFree (S m)).
    eapply hrun_step; [eapply hrun_step; [eapply hrun_step; [apply hrun_nil|]|]|].
    + eapply (st_arrive _ 0 (mk_cstate u false false false) 1); [reflexivity|unfold is_open; apply orb_true_r|lia].
    + eapply (st_dispatch _ 0 (mk_cstate (u + 1) true false false)); reflexivity.
    + assert (E : put (mk_hstate [mk_cstate (u + 1) false false false; cs_new] [0] w) (S k) (HWait 0)
                = HServe 0 :: repeat (HWait 0) (S k) ++ repeat HFree m).
      { unfold put, w. cbn [h_workers set_nth]. f_equal. change (repeat HFree (S m)) with (HFree :: repeat HFree m).
        clear. induction k; cbn [repeat app set_nth] in *; [reflexivity|]. now f_equal. }
      rewrite <- E. refine (st_take (mk_hstate [mk_cstate (u + 1) false false false; cs_new] [0] w) (S k) 0 [] _ eq_refl).
      unfold w. cbn [h_workers nth_error]. rewrite nth_error_app2 by (rewrite repeat_length; lia). rewrite repeat_length, Nat.sub_diag. reflexivity.
Qed.

(** Every worker is with connection 0, which is being served; connection 1 has a byte to read. *)
Definition hogged (size : nat) : hstate :=
  mk_hstate [mk_cstate (size - 1) false false false; mk_cstate 1 false true false] [1] (HServe 0 :: repeat (HWait 0) (size - 1)).

Lemma hog size : 0 < size -> exists ls, hrun (h_init 2 size) ls (hogged size) /\
  (forall i c, ~ In (LCrash i c) ls) /\ active 0 ls = [0] /\ active 1 ls = [] /\ arrived 1 ls = 1 /\ consumed 1 ls = 0 /\
  not_dropped 0 ls /\ not_dropped 1 ls.
Proof.
  intros Hs. destruct size as [|m]; [lia|]. destruct (fill m 0 0) as (ls & R & F).
  assert (E0 : hrun (h_init 2 (S m)) [LRead 0 0 1; LEnter 0 0; LTake 0 0; LDispatch 0; LArrive 0 1]
                 (mk_hstate [mk_cstate 0 false false false; cs_new] [] (HServe 0 :: repeat HFree m))).
  { eapply hrun_step; [eapply hrun_step; [eapply hrun_step; [eapply hrun_step; [eapply hrun_step; [apply hrun_nil|]|]|]|]|].
    - eapply (st_arrive _ 0 cs_new 1); [reflexivity|reflexivity|lia].
    - eapply (st_dispatch _ 0 (mk_cstate 1 true true false)); reflexivity.
    - refine (st_take (mk_hstate [mk_cstate 1 false true false; cs_new] [0] (repeat HFree (S m))) 0 0 [] eq_refl eq_refl).
    - refine (st_enter (mk_hstate [mk_cstate 1 false true false; cs_new] [] (HWait 0 :: repeat HFree m)) 0 0 (mk_cstate 1 false true false) eq_refl eq_refl _ eq_refl eq_refl).
      unfold held. cbn. clear. induction m; cbn; auto.
    - refine (st_read (mk_hstate [mk_cstate 1 false false false; cs_new] [] (HServe 0 :: repeat HFree m)) 0 0 (mk_cstate 1 false false false) 1 eq_refl eq_refl _). cbn; lia. }
  pose proof (hrun_app _ _ _ E0 _ _ R) as R1. cbn [Nat.add] in R1.
  exists (LDispatch 1 :: LArrive 1 1 :: ls ++ [LRead 0 0 1; LEnter 0 0; LTake 0 0; LDispatch 0; LArrive 0 1]).
  assert (Act : forall c tl, active c (ls ++ tl) = active c tl).
  { clear -F. intros c tl. induction F as [|l ls' Hl F IH]; [reflexivity|]. cbn [app active]. destruct l as [[|?] ?| |[|?]|? [|?]| | | | | | | | ]; try contradiction; apply IH. }
  assert (Arr : forall tl, arrived 1 (ls ++ tl) = arrived 1 tl).
  { clear -F. intros tl. induction F as [|l ls' Hl F IH]; [reflexivity|]. cbn [app arrived]. destruct l as [[|?] ?| |[|?]|? [|?]| | | | | | | | ]; try contradiction; apply IH. }
  assert (Con : forall tl, consumed 1 (ls ++ tl) = consumed 1 tl).
  { clear -F. intros tl. induction F as [|l ls' Hl F IH]; [reflexivity|]. cbn [app consumed]. destruct l as [[|?] ?| |[|?]|? [|?]| | | | | | | | ]; try contradiction; apply IH. }
  assert (NoIn : forall l, (forall c n, l <> LArrive c n) -> (forall c, l <> LDispatch c) -> (forall i c, l <> LTake i c) -> ~ In l ls).
  { intros l H1 H2 H3 K. rewrite Forall_forall in F. specialize (F _ K). destruct l; try contradiction; [eapply H1|eapply H2|eapply H3]; reflexivity. }
  assert (Nd : forall c, not_dropped c (LDispatch 1 :: LArrive 1 1 :: ls ++ [LRead 0 0 1; LEnter 0 0; LTake 0 0; LDispatch 0; LArrive 0 1])).
  { intros c i. split; cbn [In]; rewrite in_app_iff; cbn [In]; intros K;
      repeat (destruct K as [K|K]; try discriminate K); try contradiction; revert K; apply NoIn; discriminate. }
  split; [|split; [|split; [|split; [|split; [|split; [|split]]]]]]; auto.
  - unfold hogged. cbn [Nat.sub]. rewrite Nat.sub_0_r. eapply hrun_step; [eapply hrun_step; [exact R1|]|].
    + refine (st_arrive (mk_hstate [mk_cstate m false false false; cs_new] [] (HServe 0 :: repeat (HWait 0) m)) 1 cs_new 1 eq_refl eq_refl _). lia.
    + exact (st_dispatch (mk_hstate [mk_cstate m false false false; mk_cstate 1 true true false] [] (HServe 0 :: repeat (HWait 0) m)) 1 (mk_cstate 1 true true false) eq_refl eq_refl eq_refl).
  - intros i c. apply Nd.
  - cbn [active]. rewrite Act. reflexivity.
  - cbn [active]. rewrite Act. reflexivity.
  - cbn [arrived]. rewrite Arr. reflexivity.
  - cbn [consumed]. rewrite Con. reflexivity.
Qed.

(** However many workers there are, one connection can occupy all of them: there is an execution, without any panic,
    after which another connection, with bytes to read, is not served until the one handler in progress ends,
    whatever else happens. *)
Theorem C61_one_connection_delays_only_itself_refuted : forall size, 0 < size ->
  exists ls st, hrun (h_init 2 size) ls st /\ (forall i c, ~ In (LCrash i c) ls) /\
    active 0 ls = [0] /\ arrived 1 ls = 1 /\ not_dropped 1 ls /\
    forall ls' st', hrun st ls' st' -> (forall l, In l ls' -> l <> LDrain 0 0 /\ l <> LClose 0 0 /\ l <> LCrash 0 0) ->
      consumed 1 (ls' ++ ls) = 0 /\ active 1 (ls' ++ ls) = [].
Proof.
  intros size Hs. destruct (hog size Hs) as (ls & R & Nc & A0 & A1 & Ar & Co & _ & Nd). exists ls, (hogged size).
  split; auto. split; auto. split; auto. split; auto. split; auto.
  intros ls' st' R' H.
  assert (K : (exists ws, h_workers st' = HServe 0 :: ws /\ Forall (eq (HWait 0)) ws) /\ consumed 1 (ls' ++ ls) = 0 /\ active 1 (ls' ++ ls) = []).
  { remember (hogged size) as st eqn:Est. induction R' as [|st ls' st1 l st2 R' IH S]; subst.
    - cbn [app]. split; auto. exists (repeat (HWait 0) (size - 1)). split; [reflexivity|]. apply Forall_forall. intros w K. now apply repeat_spec in K.
    - destruct IH as ((ws & W & Fw) & C1 & A); auto. { intros l' K. apply H. now right. }
      specialize (H l (or_introl eq_refl)). rewrite Forall_forall in Fw.
      assert (Wk : forall i w, nth_error (h_workers st1) i = Some w -> (i = 0 /\ w = HServe 0) \/ w = HWait 0).
      { intros [|i] w N; rewrite W in N; cbn in N; [inversion N; auto|]. right. symmetry. apply Fw. eapply nth_error_In; eauto. }
      assert (Hd : held 0 st1 = true) by (unfold held; rewrite W; reflexivity).
      rewrite <- Forall_forall in Fw.
      destruct S as [st c x n N O Hn|st c x N|st c x N E Al|st i c q Wi Q|st i c x Wi N Hh P F|st i c x Wi N Hh P F|st i c x Wi N Hh P|st i c x n Wi N Hn|st i c x Wi N U|st i c x Wi N|st i c x Wi N|st i c x Wi N];
        cbn [h_workers]; cbn [app consumed active]; try (split; [exists ws; auto|]; auto; fail);
        destruct (Wk _ _ Wi) as [[-> E]|E]; try discriminate E; inversion E; subst; try congruence.
      + split; [exists ws; auto|]. auto.
      + destruct H as (H & _ & _). congruence.
      + destruct H as (_ & H & _). congruence.
      + destruct H as (_ & _ & H). congruence. }
  tauto.
Qed.
Print Assumptions C61_one_connection_delays_only_itself_refuted.

(** ** C62 *)

(** Workers end only when a handler panics: without that, all are there. *)
Theorem C62_no_panic_no_loss : forall conns size ls st, hrun (h_init conns size) ls st ->
  (forall i c, ~ In (LCrash i c) ls) -> Forall (fun w => w <> HDead) (h_workers st) /\ List.length (h_workers st) = size.
Proof.
  intros conns size ls st R. intros Nc.
  assert (K : (Forall (fun w => w <> HDead) (h_workers st) /\ Forall (fun x => c_poisoned x = false) (h_conns st)) /\ List.length (h_workers st) = size).
  { remember (h_init conns size) as st0 eqn:E0. induction R as [|st0' ls st1 l st2 R IH S]; subst.
    - cbn. rewrite repeat_length. split; auto. split; apply Forall_forall; intros w H; apply repeat_spec in H; subst; [discriminate|reflexivity].
    - destruct IH as [[I1 I2] I3]; auto. { intros i c H. apply (Nc i c). now right. }
      destruct S as [st c x n N O Hn|st c x N|st c x N E Al|st i c q Wi Q|st i c x Wi N Hh P F|st i c x Wi N Hh P F|st i c x Wi N Hh P|st i c x n Wi N Hn|st i c x Wi N U|st i c x Wi N|st i c x Wi N|st i c x Wi N];
        unfold upd, put; cbn [h_workers h_conns]; rewrite ?set_nth_length; (split; [|exact I3]);
        try (pose proof (Forall_nth _ _ _ _ I2 N) as Px; cbn beta in Px);
        try (exfalso; eapply Nc; left; reflexivity); try congruence;
        (split; [try exact I1; apply Forall_set; auto; discriminate|]); try exact I2; apply Forall_set; auto. }
  tauto.
Qed.
Print Assumptions C62_no_panic_no_loss.

Lemma all_die size : forall k conns, nth_error conns 0 = Some (mk_cstate k false false true) -> forall d j,
  d + j = size -> exists ls,
  hrun (mk_hstate conns [1] (repeat HDead d ++ repeat (HWait 0) j)) ls (mk_hstate conns [1] (repeat HDead size)) /\
  Forall (fun l => match l with LDie _ 0 => True | _ => False end) ls.
Proof.
  intros k conns N d j. revert d. induction j as [|j IH]; intros d E.
  - exists []. rewrite app_nil_r. replace size with d by lia. split; constructor.
  - destruct (IH (S d) ltac:(lia)) as (ls & R & F). exists (ls ++ [LDie d 0]). split; [|apply Forall_app; split; [exact F|repeat constructor]].
    eapply hrun_app; [|exact R]. set (st := mk_hstate conns [1] (repeat HDead d ++ repeat (HWait 0) (S j))).
    assert (Ep : put st d HDead = repeat HDead (S d) ++ repeat (HWait 0) j).
    { unfold put, st. cbn [h_workers]. clear. induction d; cbn [repeat app set_nth] in *; [reflexivity|]. now f_equal. }
    rewrite <- Ep. eapply hrun_step; [apply hrun_nil|]. eapply (st_die st d 0); [|exact N| |reflexivity].
    + unfold st. cbn [h_workers]. rewrite nth_error_app2 by (rewrite repeat_length; lia). rewrite repeat_length, Nat.sub_diag. reflexivity.
    + unfold held, st. cbn [h_workers]. rewrite existsb_app. apply orb_false_iff. split; clear; [induction d|induction (S j)]; cbn; auto.
Qed.

(** But one panic, in one handler of one connection, can end all workers, however many there are: the other jobs of
    that connection find its mutex poisoned.  Then no connection is ever served again. *)
Theorem C62_one_panic_one_connection_refuted : forall size, 0 < size ->
  exists ls st, hrun (h_init 2 size) ls st /\
    (exists ls1 ls2, ls = ls2 ++ LCrash 0 0 :: ls1 /\ (forall i c, ~ In (LCrash i c) ls1) /\ (forall i c, ~ In (LCrash i c) ls2)) /\
    h_workers st = repeat HDead size /\ arrived 1 ls = 1 /\ not_dropped 1 ls /\
    forall ls' st', hrun st ls' st' -> consumed 1 (ls' ++ ls) = 0 /\ forallb external ls' = true.
Proof.
  intros size Hs. destruct (hog size Hs) as (ls & R & Nc & A0 & A1 & Ar & Co & _ & Nd). destruct size as [|m]; [lia|].
  pose (conns := [mk_cstate m false false true; mk_cstate 1 false true false]).
  assert (R1 : hrun (h_init 2 (S m)) (LCrash 0 0 :: ls) (mk_hstate conns [1] (repeat HDead 1 ++ repeat (HWait 0) m))).
  { eapply hrun_step; [exact R|]. unfold hogged, conns. replace (S m - 1) with m by lia.
    eapply (st_crash (mk_hstate [mk_cstate m false false false; mk_cstate 1 false true false] [1] (HServe 0 :: repeat (HWait 0) m)) 0 0 (mk_cstate m false false false)); reflexivity. }
  destruct (all_die (S m) m conns eq_refl 1 m eq_refl) as (ls2 & R2 & F).
  pose proof (hrun_app _ _ _ R1 _ _ R2) as R3.
  assert (F2 : forall l, In l ls2 -> exists i, l = LDie i 0).
  { rewrite Forall_forall in F. intros l H. specialize (F _ H). destruct l as [| | | | | |i c| | | | |]; try contradiction. destruct c; [eauto|contradiction]. }
  assert (Con : forall tl, consumed 1 (ls2 ++ tl) = consumed 1 tl).
  { clear -F. intros tl. induction F as [|l ls' Hl F IH]; [reflexivity|]. cbn [app consumed]. destruct l; try contradiction. apply IH. }
  assert (Arr : forall tl, arrived 1 (ls2 ++ tl) = arrived 1 tl).
  { clear -F. intros tl. induction F as [|l ls' Hl F IH]; [reflexivity|]. cbn [app arrived]. destruct l; try contradiction. apply IH. }
  exists (ls2 ++ LCrash 0 0 :: ls), (mk_hstate conns [1] (repeat HDead (S m))).
  split; [exact R3|]. split; [|split; [reflexivity|split; [|split]]].
  - exists ls, ls2. split; auto. split; auto. intros i c K. destruct (F2 _ K); discriminate.
  - rewrite Arr. exact Ar.
  - intros i. split; intros K; apply in_app_or in K as [K|[K|K]]; try discriminate K; try (destruct (F2 _ K); discriminate); destruct (Nd i); auto.
  - assert (Dd : forall i w, nth_error (repeat HDead (S m)) i = Some w -> w = HDead) by (intros i w N; apply nth_error_In in N; now apply repeat_spec in N).
    intros ls' st' R'.
    assert (K : h_workers st' = repeat HDead (S m) /\ consumed 1 (ls' ++ ls2 ++ LCrash 0 0 :: ls) = 0 /\ forallb external ls' = true).
    { clear R2 R3. remember (mk_hstate conns [1] (repeat HDead (S m))) as st eqn:Est. induction R' as [|st ls' st1 l st2 R' IH S]; subst.
      - cbn [app forallb h_workers]. rewrite Con. cbn [consumed]. auto.
      - destruct IH as (W & C1 & X); auto.
        destruct S as [st c x n N O Hn|st c x N|st c x N E Al|st i c q Wi Q|st i c x Wi N Hh P F0|st i c x Wi N Hh P F0|st i c x Wi N Hh P|st i c x n Wi N Hn|st i c x Wi N U|st i c x Wi N|st i c x Wi N|st i c x Wi N];
          cbn [h_workers app consumed forallb external]; try (rewrite W in Wi; apply Dd in Wi; discriminate); auto.
        exfalso. rewrite W in Al. clear -Al. revert Al. generalize (S m). intros k. induction k; cbn; auto. discriminate. }
    tauto.
Qed.
Print Assumptions C62_one_panic_one_connection_refuted.

(** ** Non-vacuity: a schedule in which an event during a handler leads to a second job, which waits, and everything
    is read in the end. *)
Example example_handlers : exists st,
  hrun (h_init 1 2) [LKeep 1 0; LDrain 1 0; LRead 1 0 4; LEnter 1 0; LKeep 0 0; LTake 1 0; LDispatch 0; LArrive 0 4;
                     LDrain 0 0; LRead 0 0 3; LEnter 0 0; LTake 0 0; LDispatch 0; LArrive 0 3] st /\
  settled st /\ existsb alive (h_workers st) = true.
Proof.
  pose proof (hrun_nil (h_init 1 2)) as R.
  go R ltac:(eapply (st_arrive _ 0 _ 3); [reflexivity|reflexivity|lia]).
  go R ltac:(eapply (st_dispatch _ 0); reflexivity).
  go R ltac:(eapply (st_take _ 0 0); reflexivity).
  go R ltac:(eapply (st_enter _ 0 0); reflexivity).
  go R ltac:(eapply (st_read _ 0 0 _ 3); [reflexivity|reflexivity|cbn; lia]).
  go R ltac:(eapply (st_drain _ 0 0); reflexivity).
  go R ltac:(eapply (st_arrive _ 0 _ 4); [reflexivity|reflexivity|lia]).
  go R ltac:(eapply (st_dispatch _ 0); reflexivity).
  go R ltac:(eapply (st_take _ 1 0); reflexivity).
  go R ltac:(eapply (st_keep _ 0 0); reflexivity).
  go R ltac:(eapply (st_enter _ 1 0); reflexivity).
  go R ltac:(eapply (st_read _ 1 0 _ 4); [reflexivity|reflexivity|cbn; lia]).
  go R ltac:(eapply (st_drain _ 1 0); reflexivity).
  go R ltac:(eapply (st_keep _ 1 0); reflexivity).
  eexists. split; [exact R|]. split; [|reflexivity].
  intros l st' S. inversion S; subst; cbn in *; auto;
    repeat match goal with H : nth_error _ ?i = Some _ |- _ => destruct i as [|[|[|?]]]; cbn in H; try discriminate; inversion H; subst; clear H end;
    try discriminate.
Qed.
