(** How many workers the panics of an execution cost.  C115. *)
From Coq Require Import List Ascii String Arith NArith Bool Lia.
From Verif.Model Require Import Bytes Io Common Parse Encode Writer Server Slab Poll Handlers Whole Full.
From Verif.Spec Require Import Batch Stream Drive Output Session Slots Traces Arrivals Events World Unicode Oversize Cost.
From Verif.Proofs Require Import DriveFacts ServerFacts ConnFacts SlabFacts PollFacts HandlersFacts WholeFacts FullFacts.
From Verif.Properties Require Import Server Poll Handlers Whole Full Peers Closing Reference LongLines Oversize Early Panics.
Import ListNotations.
Local Open Scope nat_scope.

(** ** Sums *)

Definition total (f : nat -> nat) (n : nat) : nat := list_sum (map f (seq 0 n)).
Lemma total_S f n : total f (S n) = total f n + f n.
Proof. unfold total. rewrite seq_S, map_app, list_sum_app. cbn. lia. Qed.
Lemma total_le f f' n : (forall k, k < n -> f' k <= f k) -> total f' n <= total f n.
Proof. induction n as [|n IH]; intros H; [cbn; lia|]. rewrite !total_S. pose proof (H n ltac:(lia)). pose proof (IH ltac:(intros; apply H; lia)). lia. Qed.
Lemma total_one f f' c a b n : c < n -> (forall k, k <> c -> f' k <= f k) -> f' c + a <= f c + b -> total f' n + a <= total f n + b.
Proof.
  intros L H E. induction n as [|n IH]; [lia|]. rewrite !total_S. destruct (Nat.eq_dec c n) as [->|Ne].
  - pose proof (total_le f f' n ltac:(intros; apply H; lia)). lia.
  - pose proof (H n ltac:(lia)). pose proof (IH ltac:(lia)). lia.
Qed.

(** ** One step *)

Definition broken (c : nat) (w : wstate) : bool :=
  match nth_error (ws_conns w) c with Some x => match wc_slot x with WBroken _ => true | _ => false end | None => false end.
Lemma broken_shut c w : broken c w = true -> exists x, nth_error (ws_conns w) c = Some x /\ wopen x = false.
Proof. unfold broken. destruct (nth_error _ c) as [x|]; [|discriminate]. intros H. exists x. split; auto. unfold wopen. destruct (wc_slot x); auto; discriminate. Qed.

Lemma broken_before dbg R w l w' c : wstep dbg R w l w' -> broken c w' = true -> (exists i v, l = ACrash i c v) \/ broken c w = true.
Proof.
  unfold broken. intros S B. destruct S; unfold wupd in B; cbn [ws_conns] in B; eauto;
    (match type of B with context [nth_error (set_nth ?d ?y _) _] => destruct (Nat.eq_dec d c) as [->|Ne] end;
     [|rewrite nth_set_other in B by assumption; eauto]);
    (match goal with H : nth_error (ws_conns _) c = Some ?y |- _ => rewrite (nth_set_same _ _ _ _ H) in B; rewrite H end);
    cbn [wc_slot] in *; try discriminate; eauto.
Qed.

Lemma dead_set i (x y : wworker) : forall l, nth_error l i = Some x ->
  List.length (filter ended_worker (set_nth i y l)) + (if ended_worker x then 1 else 0) = List.length (filter ended_worker l) + (if ended_worker y then 1 else 0).
Proof.
  induction i as [|i IH]; intros [|z l] N; try discriminate; cbn [set_nth filter nth_error] in *.
  - injection N as ->. destruct (ended_worker x), (ended_worker y); cbn [List.length]; lia.
  - specialize (IH l N). destruct (ended_worker z); cbn [List.length]; lia.
Qed.
Definition kills (l : wlabel) : option nat := match l with ACrash _ c _ | ADie _ c => Some c | _ => None end.
Lemma dead_step dbg R w l w' : wstep dbg R w l w' ->
  List.length (filter ended_worker (ws_workers w')) = List.length (filter ended_worker (ws_workers w)) + match kills l with Some _ => 1 | None => 0 end.
Proof.
  destruct 1; cbn [ws_workers kills]; try lia; unfold wput;
    match goal with H : nth_error (ws_workers _) ?i = Some ?x |- context [set_nth ?i ?y _] => pose proof (dead_set i x y _ H) as K; cbn [ended_worker] in K; lia end.
Qed.

Notation occ := (count_occ Nat.eq_dec).
Lemma due_jobs c st : finv st -> due c st = occ (p_jobs (f_p st)) c + List.length (filter (ready_for c) (p_batch (f_p st))).
Proof. intros F. unfold due. now rewrite (fi_jobs _ F). Qed.

(** What is due for a connection that broke grows no more, and each worker that ends is paid from it. *)
Lemma due_step dbg R st l st' k : finv st -> shut st -> fstep dbg R st l st' -> (forall c r, l = FP (Ready c r) -> r = Some c) ->
  broken k (f_w st') = true ->
  due k st' + match l with FW w => match kills w with Some c => if c =? k then 1 else 0 | None => 0 end | _ => 0 end <= due k st.
Proof.
  intros F G S Own B. pose proof (finv_step _ _ _ _ _ F S) as F'. rewrite (due_jobs _ _ F), (due_jobs _ _ F').
  pose proof (shut_step _ _ _ _ _ F G S) as G'.
  destruct S as [st c t its w' H S|st c t w' H S|st p' S Fp|st l p' M S|st c ok p' S|st c r p' S A|st l w' I S|st l d b w' p' E S S'];
    cbn [f_w f_p kills] in *; try lia.
  - inversion S as [? evs B0 L0 Fe Nd| | | | | | |]; subst. cbn [p_batch p_jobs].
    assert (Z : filter (ready_for k) evs = []).
    { destruct (filter (ready_for k) evs) as [|e l] eqn:Ef; auto. exfalso.
      assert (Ie : In e (filter (ready_for k) evs)) by (rewrite Ef; now left). apply filter_In in Ie as [Ie Re].
      destruct e as [|c t []]; try discriminate. cbn in Re. apply Nat.eqb_eq in Re as ->.
      rewrite Forall_forall in Fe. specialize (Fe _ Ie). cbn in Fe. destruct (broken_shut _ _ B) as (x & N & O).
      apply (G' k x N O). exists t. exact Fe. }
    rewrite Z. cbn [List.length]. lia.
  - destruct l as [| |? ?| | |? ?|c r|? ?]; try discriminate; inversion S as [|? bb B0 L0| | | |? ? t bb ? ? B0 Li E| |]; subst; cbn [p_jobs p_batch]; try lia.
    + rewrite B0. cbn [filter ready_for]. lia.
    + unfold on_write_closed in E. destruct (remove _ _). inversion E; subst. cbn [p_jobs p_batch]. rewrite B0. cbn [filter ready_for]. lia.
  - inversion S as [| |? ? ? Li E| | | | |]; subst. unfold on_connection in E.
    destruct ok; [destruct (insert _ _) as [[s' k']|]; [|discriminate]|]; inversion E; subst; cbn [p_jobs p_batch]; lia.
  - specialize (Own c r eq_refl). subst r. inversion S as [| | | | | |? ? t bb ? ? B0 Li E|]; subst. unfold on_ready in E. injection E as E1 <-.
    rewrite E1. cbn [p_jobs p_batch]. rewrite B0, count_occ_app. cbn [filter ready_for count_occ].
    destruct (Nat.eq_dec c k) as [->|Ne]; [rewrite Nat.eqb_refl; cbn [List.length]; lia|]. destruct (Nat.eqb_spec c k); [congruence|lia].
  - destruct l; try discriminate; cbn [kills]; lia.
  - inversion S'; subst. cbn [p_jobs p_batch]. rewrite occ_drop_one.
    assert (Ip : occ (p_jobs (f_p st)) d > 0) by (now apply count_occ_In).
    destruct l; try discriminate; cbn [kills]; injection E as -> <-; destruct (Nat.eqb_spec d k) as [->|Ne]; lia.
Qed.

(** ** Executions *)

Lemma bill_tidy dbg R st ls st' n : bill dbg R st ls st' n -> tidy dbg R st ls st'.
Proof. induction 1; [constructor|econstructor; eauto]. Qed.
Lemma tidy_bill dbg R st ls st' : tidy dbg R st ls st' -> exists n, bill dbg R st ls st' n.
Proof. induction 1 as [|? ? ? ? ? ? (n & IH)]; [eexists; constructor|eexists; econstructor; eauto]. Qed.

Definition open_bill (st : fstate) (c : nat) : nat := if broken c (f_w st) then due c st else 0.

Lemma conns_grow dbg R st l st' : fstep dbg R st l st' -> List.length (ws_conns (f_w st)) <= List.length (ws_conns (f_w st')).
Proof.
  destruct 1 as [st c t its w' H S|st c t w' H S|st p' S Fp|st l p' M S|st c ok p' S|st c r p' S A|st l w' I S|st l d b w' p' E S S']; cbn [f_w]; auto;
    try (rewrite (wconns_length _ _ _ _ _ S); lia).
  - cbn [polled ws_conns]. rewrite clear_all_length. lia.
  - cbn [add_conn ws_conns]. rewrite app_length. lia.
  - destruct r; auto.
Qed.

Lemma crash_takes dbg R w i c v w' : wstep dbg R w (ACrash i c v) w' -> broken c w = false /\ c < List.length (ws_conns w).
Proof.
  intros S. inversion S as [| | | | | | | | | | |? ? ? x k ? ? ? ? ? N1 N2 Sl Sv]; subst. split.
  - unfold broken. now rewrite N2, Sl.
  - apply nth_error_Some. congruence.
Qed.
Lemma die_broken dbg R w i c w' : wstep dbg R w (ADie i c) w' -> broken c w' = true /\ c < List.length (ws_conns w).
Proof.
  intros S. inversion S; subst. split.
  - unfold broken. cbn [ws_conns]. match goal with A : nth_error (ws_conns w) c = Some ?x, B : wc_slot ?x = WBroken _ |- _ => now rewrite A, B end.
  - apply nth_error_Some. congruence.
Qed.
Lemma crash_breaks dbg R w i c v w' : wstep dbg R w (ACrash i c v) w' -> broken c w' = true.
Proof.
  intros S. inversion S; subst. unfold broken, wupd. cbn [ws_conns].
  match goal with A : nth_error (ws_conns w) c = Some ?x |- _ => now rewrite (nth_set_same _ _ _ _ A) end.
Qed.

Lemma fbroken_before dbg R st l st' k : fstep dbg R st l st' -> broken k (f_w st') = true ->
  (exists i v, l = FW (ACrash i k v)) \/ broken k (f_w st) = true.
Proof.
  intros S B. destruct S as [st c t its w' H S|st c t w' H S|st p' S Fp|st l p' M S|st c ok p' S|st c r p' S A|st l w' I S|st l d b w' p' E S S']; cbn [f_w] in B; auto.
  - destruct (broken_before _ _ _ _ _ _ S B) as [(i & v & K)|K]; [discriminate|auto].
  - destruct (broken_before _ _ _ _ _ _ S B) as [(i & v & K)|K]; [discriminate|auto].
  - right. unfold broken in *. cbn [polled ws_conns] in B. rewrite clear_all_nth in B. destruct (nth_error (ws_conns (f_w st)) k) as [x|]; destruct (existsb _ _); cbn in B; auto.
  - right. unfold broken in *. cbn [add_conn ws_conns] in B. destruct (Nat.lt_ge_cases k (List.length (ws_conns (f_w st)))) as [L|L].
    + now rewrite nth_error_app1 in B.
    + rewrite nth_error_app2 in B by assumption. destruct (k - _) as [|j]; [discriminate|]. destruct j; discriminate.
  - right. destruct r; exact B.
  - destruct (broken_before _ _ _ _ _ _ S B) as [(i & v & ->)|K]; [discriminate|auto].
  - destruct (broken_before _ _ _ _ _ _ S B) as [(i & v & ->)|K]; [left; eauto|auto].
Qed.
Definition fkills (l : flabel) : option nat := match l with FW w => kills w | _ => None end.
Lemma fdead_step dbg R st l st' : fstep dbg R st l st' -> dead_workers st' = dead_workers st + match fkills l with Some _ => 1 | None => 0 end.
Proof.
  unfold dead_workers. destruct 1 as [st c t its w' H S|st c t w' H S|st p' S Fp|st l p' M S|st c ok p' S|st c r p' S A|st l w' I S|st l d b w' p' E S S']; cbn [f_w fkills];
    try (rewrite (dead_step _ _ _ _ _ S); reflexivity); cbn [polled add_conn ws_workers]; try lia.
  destruct r; cbn [enqueue ws_workers]; lia.
Qed.
Lemma fw_step dbg R st w st' : fstep dbg R st (FW w) st' -> wstep dbg R (f_w st) w (f_w st').
Proof. intros S. inversion S; subst; auto. Qed.

Lemma bill_inv dbg R size ls st n : bill dbg R (f_init size) ls st n ->
  forall N, List.length (ws_conns (f_w st)) <= N -> total (open_bill st) N + dead_workers st <= n.
Proof.
  intros H. remember (f_init size) as i0. induction H as [|st0 ls st1 l st2 n H IH S Td]; subst; intros N Len.
  - assert (Z : dead_workers (f_init size) = 0) by (unfold dead_workers; cbn; clear; induction size; auto).
    rewrite Z. pose proof (total_le (fun _ => 0) (open_bill (f_init size)) N) as K. unfold open_bill, broken in *. cbn [f_init f_w ws_conns] in *.
    assert (total (fun _ => 0) N = 0) by (clear; induction N as [|N IH]; auto; rewrite total_S; lia).
    rewrite H in K. specialize (K ltac:(intros k _; destruct k; cbn; lia)). lia.
  - specialize (IH eq_refl N ltac:(pose proof (conns_grow _ _ _ _ _ S); lia)).
    pose proof (bill_tidy _ _ _ _ _ _ H) as T. pose proof (tidy_frun _ _ _ _ _ T) as Rn. pose proof (finv_run _ _ _ _ _ Rn) as F.
    assert (G : shut st1) by (intros c x; exact (C89_ended _ _ _ _ _ _ _ Rn)).
    assert (Own : forall c r, l = FP (Ready c r) -> r = Some c).
    { intros c r ->. inversion S as [| | |? ? ? M S'| |? ? ? ? S'| |]; subst; [discriminate|]. exact (C36_every_event _ _ _ _ _ (tidy_quiet _ _ _ _ _ T) (or_introl S')). }
    assert (D : forall k, broken k (f_w st2) = true -> due k st2 + match fkills l with Some c => if c =? k then 1 else 0 | None => 0 end <= due k st1).
    { intros k B. pose proof (due_step _ _ _ _ _ k F G S Own B) as K. destruct l; exact K. }
    assert (Same : forall k, (forall i v, l <> FW (ACrash i k v)) -> open_bill st2 k + match fkills l with Some c => if c =? k then 1 else 0 | None => 0 end <=
      open_bill st1 k + match fkills l with Some c => if broken c (f_w st2) then 0 else 1 | None => 0 end).
    { intros k Ne. unfold open_bill. destruct (broken k (f_w st2)) eqn:B.
      - destruct (fbroken_before _ _ _ _ _ _ S B) as [(i & v & K)|K]; [destruct (Ne _ _ K)|]. rewrite K. pose proof (D k B). lia.
      - destruct (fkills l) as [c|]; [|lia]. destruct (Nat.eqb_spec c k) as [->|]; [rewrite B|]; lia. }
    rewrite (fdead_step _ _ _ _ _ S). destruct (fkills l) as [c|] eqn:Ek.
    + destruct l as [w| |]; try discriminate. pose proof (fw_step _ _ _ _ _ S) as Sw. destruct w; try discriminate; cbn in Ek; injection Ek as ->.
      * destruct (die_broken _ _ _ _ _ _ Sw) as [B Lc]. pose proof (conns_grow _ _ _ _ _ S). rewrite B in Same. cbn [panic_on map list_sum fold_right].
        pose proof (total_one (open_bill st1) (open_bill st2) c 1 0 N ltac:(lia)) as K.
        assert (K1 : forall k, k <> c -> open_bill st2 k <= open_bill st1 k) by (intros k Ne; pose proof (Same k ltac:(discriminate)); lia).
        pose proof (Same c ltac:(discriminate)) as K2. rewrite Nat.eqb_refl in K2. specialize (K K1 ltac:(lia)). lia.
      * destruct (crash_takes _ _ _ _ _ _ _ Sw) as [B Lc]. pose proof (crash_breaks _ _ _ _ _ _ _ Sw) as B2. pose proof (conns_grow _ _ _ _ _ S). rewrite B2 in Same.
        pose proof (total_one (open_bill st1) (open_bill st2) c 1 (due c st1) N ltac:(lia)) as K.
        assert (K1 : forall k, k <> c -> open_bill st2 k <= open_bill st1 k).
        { intros k Ne. pose proof (Same k ltac:(intros ? ? X; injection X as _ X _; congruence)) as K2. lia. }
        pose proof (D c B2) as K2. rewrite Nat.eqb_refl in K2.
        assert (K3 : open_bill st2 c + 1 <= open_bill st1 c + due c st1) by (unfold open_bill; rewrite B, B2; lia).
        specialize (K K1 K3). cbn [panic_on map list_sum fold_right]. lia.
    + assert (K1 : total (open_bill st2) N <= total (open_bill st1) N).
      { apply total_le. intros k _. pose proof (Same k ltac:(intros ? ? ->; discriminate)). lia. }
      lia.
Qed.

(** The workers that panics end, in an execution in which no connection is removed while there is a job for it: at least one for each panic
    of a handler, and at most the jobs that were there for its connection at that moment, with those that the events of the last poll bring. *)
Theorem C115_cost : forall dbg R size ls st n, bill dbg R (f_init size) ls st n ->
  List.length (panics ls) <= dead_workers st <= n.
Proof.
  intros dbg R size ls st n H. split.
  - clear - H. remember (f_init size) as i0. induction H as [|st0 ls st1 l st2 n H IH S Td]; subst; [cbn; lia|].
    specialize (IH eq_refl). rewrite (fdead_step _ _ _ _ _ S). change (panics (l :: ls)) with (panic_on l ++ panics ls). rewrite app_length.
    destruct l as [w| |]; cbn [fkills panic_on List.length]; try lia. destruct w; cbn [kills List.length]; lia.
  - pose proof (bill_inv _ _ _ _ _ _ H _ (le_n _)). lia.
Qed.
Print Assumptions C115_cost.

(** So with more workers than that there is one left. *)
Theorem C115_left : forall dbg R size ls st n, bill dbg R (f_init size) ls st n -> n < size -> worker_left (f_w st) = true.
Proof.
  intros dbg R size ls st n H Lt. destruct (C115_cost _ _ _ _ _ _ H) as [_ D].
  assert (L : List.length (ws_workers (f_w st)) = size).
  { clear - H. remember (f_init size) as i0. induction H as [|st0 ls st1 l st2 n H IH S Td]; subst; [apply repeat_length|]. rewrite <- (IH eq_refl). clear - S.
    assert (W : forall w l w', wstep dbg R w l w' -> List.length (ws_workers w') = List.length (ws_workers w)) by (destruct 1; cbn [ws_workers]; unfold wput; rewrite ?set_nth_length; auto).
    destruct S; cbn [f_w polled add_conn ws_workers]; eauto. destruct r; reflexivity. }
  unfold worker_left. destruct (existsb walive (ws_workers (f_w st))) eqn:E; auto. exfalso.
  assert (A : dead_workers st = List.length (ws_workers (f_w st))).
  { unfold dead_workers. clear - E. induction (ws_workers (f_w st)) as [|w l IH]; auto. cbn [existsb filter] in *. apply orb_false_iff in E as [E1 E2].
    destruct w; try discriminate. cbn [ended_worker List.length]. now rewrite IH. }
  lia.
Qed.
Print Assumptions C115_left.

(** In every execution a handler panics at most once on each connection. *)
Theorem C115_once : forall dbg R size ls st, frun dbg R (f_init size) ls st -> NoDup (panics ls).
Proof.
  intros dbg R size ls st Rn.
  assert (K : NoDup (panics ls) /\ forall c, In c (panics ls) -> broken c (f_w st) = true).
  { remember (f_init size) as i0. induction Rn as [|st0 ls st1 l st2 Rn IH S]; subst; [split; [constructor|intros c []]|]. destruct (IH eq_refl) as [Nd Br].
    assert (St : forall c, broken c (f_w st1) = true -> broken c (f_w st2) = true).
    { intros c B. assert (W : forall l w', wstep dbg R (f_w st1) l w' -> broken c w' = true).
      { intros l0 w' Sw. unfold broken in *. destruct Sw; cbn [ws_conns]; unfold wupd; auto;
          (match goal with |- context [nth_error (set_nth ?d ?y _) _] => destruct (Nat.eq_dec d c) as [->|Ne] end;
           [|rewrite nth_set_other by assumption; exact B]);
          (match goal with H : nth_error (ws_conns _) c = Some ?y |- _ => rewrite (nth_set_same _ _ _ _ H); rewrite H in B end); cbn [wc_slot]; auto;
          match goal with H : wc_slot _ = _ |- _ => rewrite H in B; discriminate end. }
      destruct S; cbn [f_w]; eauto.
      - unfold broken in *. cbn [polled ws_conns]. rewrite clear_all_nth. destruct (nth_error (ws_conns (f_w st)) c) as [x|]; [|discriminate]. destruct (existsb _ _); exact B.
      - unfold broken in *. cbn [add_conn ws_conns]. destruct (nth_error (ws_conns (f_w st)) c) as [x|] eqn:E; [|discriminate].
        rewrite nth_error_app1, E; auto. apply nth_error_Some. congruence.
      - destruct r; exact B. }
    change (panics (l :: ls)) with (panic_on l ++ panics ls).
    destruct l as [w| |]; try (split; auto; fail). destruct w; try (split; auto; fail). cbn [panic_on app].
    pose proof (fw_step _ _ _ _ _ S) as Sw. destruct (crash_takes _ _ _ _ _ _ _ Sw) as [B _]. pose proof (crash_breaks _ _ _ _ _ _ _ Sw) as B2. split.
    - constructor; auto. intros I. rewrite (Br _ I) in B. discriminate.
    - intros k [<-|I]; auto. }
  exact (proj1 K).
Qed.
Print Assumptions C115_once.

(** ** A case *)

Ltac bgo Rn tac := eapply bill_step in Rn; [|tac|first [discriminate|intros c r H; inversion H; subst; cbn; intuition discriminate]];
  cbv [f_init f_w f_p wupd wput set_nth ws_conns ws_queue ws_workers wc_sock wc_event wc_slot wc_log app repeat wc_new polled
       flat_map socket_of fold_left clear_event nth_error with_event add_conn enqueue
       p_batch p_slab p_next p_reg p_jobs p_listening poll_init slab_new] in Rn;
  cbn [panic_on map list_sum fold_right] in Rn; rewrite ?Nat.add_0_r in Rn.

(** Three workers.  A second event about the connection comes while the first worker has it, and a second worker waits for it; then a listener
    panics: two jobs were there, and two workers are lost. *)
Example C115_case : exists ls st, bill false fussy (f_init 3) ls st 2 /\ panics ls = [0] /\ dead_workers st = 2 /\ ws_workers (f_w st) = [WDead; WDead; WFree].
Proof.
  pose proof (bill_nil false fussy (f_init 3)) as Rn.
  bgo Rn ltac:(fpoll [EvListener]).
  bgo Rn ltac:(fmain Listening ltac:(apply step_listen; reflexivity)).
  bgo Rn ltac:(faccept 0).
  bgo Rn ltac:(fmain Blocked ltac:(apply step_blocked; reflexivity)).
  bgo Rn ltac:(farrive 0 two_requests).
  bgo Rn ltac:(fpoll [EvSocket 0 0 false]).
  bgo Rn ltac:(fready 0 (Some 0)).
  bgo Rn ltac:(eapply fs_work; [|eapply (ws_take _ _ _ 0 0); reflexivity]; reflexivity).
  bgo Rn ltac:(eapply fs_work; [|eapply (ws_enter _ _ _ 0 0 _ _ ample fussy_router); reflexivity]; reflexivity).
  bgo Rn ltac:(fnotify 0).
  bgo Rn ltac:(fpoll [EvSocket 0 0 false]).
  bgo Rn ltac:(fready 0 (Some 0)).
  bgo Rn ltac:(eapply fs_work; [|eapply (ws_take _ _ _ 1 0); reflexivity]; reflexivity).
  bgo Rn ltac:(eapply fs_work; [|eapply (ws_read _ _ _ 0 0 _ _ _ _ _ (RData two_requests) []); [reflexivity|reflexivity|reflexivity|served|reflexivity]]; reflexivity).
  bgo Rn ltac:(eapply fs_end; [|eapply (ws_crash _ _ _ 0 0); [reflexivity|reflexivity|reflexivity|served]|eapply (step_finished _ 0 true); cbn; auto]; reflexivity).
  bgo Rn ltac:(eapply fs_end; [|eapply (ws_die _ _ _ 1 0); [reflexivity|reflexivity|reflexivity|reflexivity]|eapply (step_finished _ 0 false); cbn; auto]; reflexivity).
  do 2 eexists. split; [exact Rn|]. repeat split; reflexivity.
Qed.

(** Contrary to what one would expect a panic can cost workers later, although there was no other job for its connection and no event: when a
    connection is removed while a worker has it, its token is given to a new connection, and events about the old socket are taken for events
    about the new one.  Here a listener panics on the new connection, and an event about the old socket then costs another worker. *)
Definition one_bad : bytes := lit "GET /x HTTP/1.1" ++ crlf ++ crlf.
Theorem C115_no_more_later_refuted : exists earlier st0 i v st1 later st,
  frun false fussy (f_init 3) earlier st0 /\ panics earlier = [] /\ due 1 st0 = 1 /\ fstep false fussy st0 (FW (ACrash i 1 v)) st1 /\
  frun false fussy st1 later st /\ panics later = [] /\ dead_workers st0 = 0 /\ dead_workers st1 = 1 /\ dead_workers st = 2.
Proof.
  pose proof (frun_nil false fussy (f_init 3)) as Rn.
  fgo Rn ltac:(fpoll [EvListener]).
  fgo Rn ltac:(fmain Listening ltac:(apply step_listen; reflexivity)).
  fgo Rn ltac:(faccept 0).
  fgo Rn ltac:(fmain Blocked ltac:(apply step_blocked; reflexivity)).
  fgo Rn ltac:(farrive 0 (lit "G")).
  fgo Rn ltac:(fpoll [EvSocket 0 0 false]).
  fgo Rn ltac:(fready 0 (Some 0)).
  fgo Rn ltac:(eapply fs_work; [|eapply (ws_take _ _ _ 0 0); reflexivity]; reflexivity).
  fgo Rn ltac:(eapply fs_work; [|eapply (ws_enter _ _ _ 0 0 _ _ ample fussy_router); reflexivity]; reflexivity).
  fgo Rn ltac:(fnotify 0).
  fgo Rn ltac:(fpoll [EvSocket 0 0 true; EvListener]).
  fgo Rn ltac:(fclosed 0 (Some 0)).
  fgo Rn ltac:(fmain Listening ltac:(apply step_listen; reflexivity)).
  fgo Rn ltac:(faccept 1).
  fgo Rn ltac:(fmain Blocked ltac:(apply step_blocked; reflexivity)).
  fgo Rn ltac:(farrive 1 one_bad).
  fgo Rn ltac:(fpoll [EvSocket 1 0 false]).
  fgo Rn ltac:(fready 1 (Some 1)).
  fgo Rn ltac:(eapply fs_work; [|eapply (ws_take _ _ _ 1 1); reflexivity]; reflexivity).
  fgo Rn ltac:(eapply fs_work; [|eapply (ws_enter _ _ _ 1 1 _ _ ample fussy_router); reflexivity]; reflexivity).
  fgo Rn ltac:(eapply fs_work; [|eapply (ws_read _ _ _ 1 1 _ _ _ _ _ (RData one_bad) []); [reflexivity|reflexivity|reflexivity|served|reflexivity]]; reflexivity).
  match type of Rn with frun _ _ _ ?ls ?s => exists ls, s end. exists 1, ample.
  match goal with |- exists st1 later st, _ /\ _ /\ _ /\ fstep _ _ ?s0 _ st1 /\ _ => assert (S : exists st1, fstep false fussy s0 (FW (ACrash 1 1 ample)) st1 /\ st1 = st1 /\
    exists later st, frun false fussy st1 later st /\ panics later = [] /\ dead_workers st1 = 1 /\ dead_workers st = 2) end.
  { eexists. split; [eapply fs_end; [|eapply (ws_crash _ _ _ 1 1); [reflexivity|reflexivity|reflexivity|served]|eapply (step_finished _ 1 true); cbn; auto]; reflexivity|].
    split; [reflexivity|]. match goal with |- exists later st, frun _ _ ?s _ _ /\ _ => pose proof (frun_nil false fussy s) as Rm end.
    fgo Rm ltac:(fnotify 0).
    fgo Rm ltac:(fpoll [EvSocket 0 0 false]).
    fgo Rm ltac:(fready 0 (Some 1)).
    fgo Rm ltac:(eapply fs_work; [|eapply (ws_take _ _ _ 2 1); reflexivity]; reflexivity).
    fgo Rm ltac:(eapply fs_end; [|eapply (ws_die _ _ _ 2 1); [reflexivity|reflexivity|reflexivity|reflexivity]|eapply (step_finished _ 1 false); cbn; auto]; reflexivity).
    do 2 eexists. split; [exact Rm|]. repeat split; reflexivity. }
  destruct S as (st1 & S & _ & later & st & Rm & P & D1 & D2). exists st1, later, st.
  split; [exact Rn|]. split; [reflexivity|]. split; [reflexivity|]. split; [exact S|]. split; [exact Rm|]. split; [exact P|]. split; [reflexivity|]. auto.
Qed.
Print Assumptions C115_no_more_later_refuted.
