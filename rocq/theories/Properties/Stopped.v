(** C104: what peers can do to the workers of a server, by what they send alone. *)
From Coq Require Import List Ascii String NArith Bool Arith Lia.
From Verif.Model Require Import Bytes Io Common Parse Encode Writer Server Slab Whole.
From Verif.Spec Require Import Batch Stream Drive Numerals Grammar Wire Output Session Traces Arrivals.
From Verif.Proofs Require Import BytesFacts IoFacts ParseFacts ServerFacts ConnFacts SlabFacts HandlersFacts WholeFacts UnwindFacts.
From Verif.Properties Require Import Server Whole.
Import ListNotations.

(** ** C104 *)

(** Every worker still takes jobs, and no connection was lost to a panic. *)
Definition all_working (st : wstate) : Prop :=
  Forall (fun w => w <> WDead) (ws_workers st) /\
  (forall c x sent, nth_error (ws_conns st) c = Some x -> wc_slot x <> WBroken sent).

Lemma working dbg R conns size (P : list wlabel -> Prop) : (forall l ls, P (l :: ls) -> P ls) ->
  (forall ls st c x, wrun dbg R (w_init conns size) ls st -> P ls -> nth_error (ws_conns st) c = Some x -> broken x = false) ->
  forall ls st, wrun dbg R (w_init conns size) ls st -> P ls -> all_working st.
Proof.
  intros Pt Nb ls st Rn Hp. split.
  - pose proof (alive_unless dbg R conns size P Pt Nb ls st Rn Hp) as F.
    eapply Forall_impl; [|exact F]. intros w Hw ->. discriminate.
  - intros c x sent N E. pose proof (Nb _ _ _ _ Rn Hp N) as X. unfold broken in X. rewrite E in X. discriminate.
Qed.

(** In a release build whose listeners do not panic: whatever any number of peers send, in any pieces and at any time,
    also half requests, errors and ends, however the sockets take the answers and whatever the schedule. *)
Theorem C104_release : forall R conns size ls st, has_router R -> (forall c, calm_listeners R c) ->
  wrun false R (w_init conns size) ls st -> all_working st.
Proof.
  intros R conns size ls st Tot Cl Rn. apply (working false R conns size (fun _ => True)) with (ls := ls); auto.
  clear ls st Rn. intros ls st c x Rn _ N.
  destruct (C69_isolation _ _ _ _ _ _ _ _ Tot Rn N) as (rt & s & busy & H1 & _ & H3 & _).
  unfold broken. destruct (wc_slot x) eqn:Es; auto. exfalso. cbn [as_slot] in H3.
  eapply release_unpoisoned; [|exact H3]. intros h v U. eapply Cl; eauto.
Qed.
Print Assumptions C104_release.

(** In either build, if every peer sends requests within the limits, or a part of them, in any pieces. *)
Theorem C104_requests : forall dbg R conns size ls st, has_router R -> (forall c, calm_listeners R c) ->
  wrun dbg R (w_init conns size) ls st ->
  (forall c, exists rs b b', Forall plain_request rs /\ received c ls = map IByte b /\
     b ++ b' = List.concat (map write_request rs)) ->
  all_working st.
Proof.
  intros dbg R conns size ls st Tot Cl Rn Hall.
  apply (working dbg R conns size (fun ls => forall c, exists rs b b', Forall plain_request rs /\ received c ls = map IByte b /\
     b ++ b' = List.concat (map write_request rs))) with (ls := ls); auto.
  - clear. intros l ls H c. destruct (H c) as (rs & b & b' & F & Rc & E).
    assert (K : exists y, received c (l :: ls) = received c ls ++ y).
    { destruct l; cbn [received]; eauto; exists []; now rewrite app_nil_r. }
    destruct K as (y & K). rewrite K in Rc.
    assert (Sp : exists b1 b2, b = b1 ++ b2 /\ received c ls = map IByte b1).
    { clear - Rc. revert b Rc. induction (received c ls) as [|i its IH]; intros b Rc; [exists [], b; auto|].
      destruct b as [|z b]; [discriminate|]. cbn [app map] in Rc. inversion Rc; subst.
      destruct (IH _ H1) as (b1 & b2 & -> & E). exists (z :: b1), b2. cbn [map app]. rewrite E. auto. }
    destruct Sp as (b1 & b2 & -> & E1). exists rs, b1, (b2 ++ b'). split; auto. split; auto. now rewrite app_assoc.
  - clear ls st Rn Hall. intros ls st c x Rn Hall N. destruct (Hall c) as (rs & b & b' & F & Rc & E).
    destruct (C69_isolation _ _ _ _ _ _ _ _ Tot Rn N) as (rt & s & busy & H1 & H2 & H3 & _). rewrite Rc in H2.
    apply items_bytes in H2 as (b1 & -> & _ & L & I). rewrite <- app_assoc in E.
    assert (O : orderly false s) by (eapply plain_orderly_part; eauto).
    unfold broken. destruct (wc_slot x) eqn:Es; auto. exfalso. cbn [as_slot] in H3.
    eapply calm_unpoisoned; [|exact (orderly_calm _ _ O)|exact H3]. intros h v U. eapply Cl; eauto.
Qed.
Print Assumptions C104_requests.

(** *** Debug builds *)

(** A request line and eight header lines, the last but for its end; the rest of that line and one more. *)
Definition a_line (n : nat) : bytes := lit "a: " ++ repeat "b"%char n.
Definition piece1 : bytes := lit "GET / HTTP/1.1" ++ crlf ++ List.concat (repeat (a_line 507 ++ crlf) 7) ++ a_line 497.
Definition piece2 : bytes := repeat "b"%char 10 ++ crlf ++ a_line 507 ++ crlf.

Definition idle_visit : visit := mk_visit [] [].
Definition silent : router := fun _ _ => LNext.
Definition conn_after (k : conn) (got : stream) : conn :=
  match serve true silent idle_visit wc_new k got with (_, Open k') => k' | _ => k end.
Definition conn0 : conn := conn_after (conn_new []) [].
Definition conn1 : conn := conn_after (conn_new []) [RData piece1].
Definition conn2 : conn := conn_after conn1 [RData piece2].

(** The routers agree as nothing is routed; the connection's other fields play no part. *)
Lemma serve0 rt x : wc_log x = [] -> serve true rt idle_visit x (conn_new []) [] = ([], Open conn0).
Proof. intros L. unfold serve. rewrite L. vm_compute. reflexivity. Qed.
Lemma serve1 rt x : wc_log x = [] -> serve true rt idle_visit x (conn_new []) [RData piece1] = ([], Open conn1).
Proof. intros L. unfold serve. rewrite L. vm_compute. reflexivity. Qed.
Lemma serve10 rt x : wc_log x = [] -> exists k, serve true rt idle_visit x conn1 [] = ([], Open k).
Proof. intros L. unfold serve. rewrite L. eexists. vm_compute. reflexivity. Qed.
Lemma serve2 rt x : wc_log x = [] -> serve true rt idle_visit x conn1 [RData piece2] = ([], Open conn2).
Proof. intros L. unfold serve. rewrite L. vm_compute. reflexivity. Qed.
Lemma serve_panics rt x : wc_log x = [] -> serve true rt idle_visit x conn2 [] = ([], Poisoned []).
Proof. intros L. unfold serve. rewrite L. vm_compute. reflexivity. Qed.

Lemma set_mid {A} (a : list A) x y b : set_nth (List.length a) y (a ++ x :: b) = a ++ y :: b.
Proof. induction a as [|z a IH]; cbn [List.length app set_nth]; [reflexivity|]. now rewrite IH. Qed.
Lemma nth_mid {A} (a : list A) x b : nth_error (a ++ x :: b) (List.length a) = Some x.
Proof. induction a; cbn; auto. Qed.
Lemma none_held c n : existsb (wholds c) (repeat WFree n) = false.
Proof. induction n; auto. Qed.

(** What the two pieces do to a connection. *)
Lemma stages : exists k1 k2, forall rt x, wc_log x = [] ->
  (exists k, serve true rt idle_visit x (conn_new []) [] = ([], Open k)) /\
  serve true rt idle_visit x (conn_new []) [RData piece1] = ([], Open k1) /\
  (exists k, serve true rt idle_visit x k1 [] = ([], Open k)) /\
  serve true rt idle_visit x k1 [RData piece2] = ([], Open k2) /\
  serve true rt idle_visit x k2 [] = ([], Poisoned []).
Proof.
  exists conn1, conn2. intros rt x L. split; [exists conn0; now apply serve0|]. split; [now apply serve1|]. split; [now apply serve10|].
  split; [now apply serve2|now apply serve_panics].
Qed.

Section Attack.
Variable (R : nat -> request -> lresult -> Prop) (rt : router) (others n : nat).
Variable (conn1 conn2 : conn) (piece1 piece2 : bytes).
Hypothesis Hrt : forall h q, R 0 q (rt h q).
Hypothesis Hne : piece1 <> [] /\ piece2 <> [].
Hypothesis St : forall x, wc_log x = [] ->
  (exists k, serve true rt idle_visit x (conn_new []) [] = ([], Open k)) /\
  serve true rt idle_visit x (conn_new []) [RData piece1] = ([], Open conn1) /\
  (exists k, serve true rt idle_visit x conn1 [] = ([], Open k)) /\
  serve true rt idle_visit x conn1 [RData piece2] = ([], Open conn2) /\
  serve true rt idle_visit x conn2 [] = ([], Poisoned []).
Let rest := repeat wc_new others.

(** One job on connection 0, by worker 0, that reads one piece. *)
Lemma one_job ls k k0 k1 b its x : 
  (forall y, wc_log y = [] -> exists k', serve true rt idle_visit y k0 [] = ([], Open k')) ->
  (forall y, wc_log y = [] -> serve true rt idle_visit y k0 [RData b] = ([], Open k1)) ->
  b <> [] -> x = mk_wconn [] false (WHere k0) [] ->
  wrun true R (w_init (S others) (S n)) ls (mk_wstate (x :: rest) [] (WFree :: repeat WFree n)) ->
  received 0 ls = its -> (forall c, c <> 0 -> received c ls = []) -> k = k1 ->
  exists ls', wrun true R (w_init (S others) (S n)) ls' (mk_wstate (mk_wconn [] false (WHere k) [] :: rest) [] (WFree :: repeat WFree n)) /\
    received 0 ls' = its ++ map IByte b /\ (forall c, c <> 0 -> received c ls' = []).
Proof.
  intros S0 S1 Hb -> Rn Hr Hc ->.
  assert (Ne : map IByte b <> []) by (destruct b; [congruence|discriminate]).
  eapply wrun_step in Rn; [|eapply (ws_arrive _ _ _ 0 _ (map IByte b)); [reflexivity|reflexivity|exact Ne|apply all_proper]].
  cbn [wupd set_nth ws_conns ws_queue ws_workers wc_sock wc_event wc_slot wc_log app] in Rn.
  eapply wrun_step in Rn; [|eapply (ws_dispatch _ _ _ 0); reflexivity].
  cbn [wupd set_nth ws_conns ws_queue ws_workers wc_sock wc_event wc_slot wc_log app] in Rn.
  eapply wrun_step in Rn; [|eapply (ws_take _ _ _ 0 0); reflexivity].
  cbn [wput set_nth ws_conns ws_queue ws_workers] in Rn.
  eapply wrun_step in Rn; [|eapply (ws_enter _ _ _ 0 0 _ k0 idle_visit rt); [reflexivity|reflexivity| |reflexivity|exact Hrt]].
  2:{ unfold wheld. cbn [ws_workers existsb wholds orb]. apply none_held. }
  cbn [wupd wput set_nth ws_conns ws_queue ws_workers wc_sock wc_event wc_slot wc_log app] in Rn.
  destruct (S0 (mk_wconn (map IByte b) false (WTaken k0) []) eq_refl) as (k' & E0).
  eapply wrun_step in Rn; [|eapply (ws_read _ _ _ 0 0 _ _ _ _ _ (RData b) []); [reflexivity|reflexivity|reflexivity|exact E0|]].
  2:{ cbn [wc_sock]. rewrite app_nil_r. destruct b; [congruence|reflexivity]. }
  cbn [wupd wput set_nth ws_conns ws_queue ws_workers wc_sock wc_event wc_slot wc_log app] in Rn.
  pose proof (S1 (mk_wconn [] false (WTaken k0) []) eq_refl) as E1.
  eapply wrun_step in Rn; [|eapply (ws_drain _ _ _ 0 0); [reflexivity|reflexivity|reflexivity|exact E1|reflexivity]].
  cbn [wupd wput set_nth ws_conns ws_queue ws_workers wc_sock wc_event wc_slot wc_log app] in Rn.
  eapply wrun_step in Rn; [|eapply (ws_keep _ _ _ 0 0); [reflexivity|reflexivity|reflexivity|exact E1]].
  cbn [wupd wput set_nth ws_conns ws_queue ws_workers wc_sock wc_event wc_slot wc_log app] in Rn.
  eexists. split; [exact Rn|]. split.
  - cbn [received Nat.eqb]. now rewrite Hr.
  - intros c Nc. cbn [received]. destruct c; [congruence|]. cbn [Nat.eqb]. rewrite app_nil_r. now apply Hc.
Qed.

(** While worker 0 is in the handler, a byte for each of the others. *)
Lemma gather v m : forall w ls its, w + m = n ->
  wrun true R (w_init (S others) (S n)) ls
    (mk_wstate (mk_wconn its false (WTaken conn2) [] :: rest) [] (WServe 0 v rt [] :: repeat (WWait 0) w ++ repeat WFree m)) ->
  (forall c, c <> 0 -> received c ls = []) ->
  exists ls' its', wrun true R (w_init (S others) (S n)) ls'
    (mk_wstate (mk_wconn its' false (WTaken conn2) [] :: rest) [] (WServe 0 v rt [] :: repeat (WWait 0) n)) /\
    received 0 ls' = received 0 ls ++ map IByte (repeat "a"%char m) /\ (forall c, c <> 0 -> received c ls' = []).
Proof.
  induction m as [|m IH]; intros w ls its Hw Rn Hc.
  - exists ls, its. cbn [repeat] in Rn. rewrite app_nil_r in *. replace w with n in Rn by lia. auto.
  - cbn [repeat] in Rn.
    eapply wrun_step in Rn; [|eapply (ws_arrive _ _ _ 0 _ [IByte "a"%char]); [reflexivity|reflexivity|discriminate|repeat constructor; discriminate]].
    cbn [wupd set_nth ws_conns ws_queue ws_workers wc_sock wc_event wc_slot wc_log] in Rn.
    eapply wrun_step in Rn; [|eapply (ws_dispatch _ _ _ 0); reflexivity].
    cbn [wupd set_nth ws_conns ws_queue ws_workers wc_sock wc_event wc_slot wc_log app] in Rn.
    eapply wrun_step in Rn; [|eapply (ws_take _ _ _ (S w) 0); [|reflexivity]].
    2:{ cbn [ws_workers nth_error]. pose proof (nth_mid (repeat (WWait 0) w) WFree (repeat WFree m)) as X. now rewrite repeat_length in X. }
    cbn [wput set_nth ws_conns ws_queue ws_workers] in Rn.
    pose proof (set_mid (repeat (WWait 0) w) WFree (WWait 0) (repeat WFree m)) as X. rewrite repeat_length in X. rewrite X in Rn.
    replace (repeat (WWait 0) w ++ WWait 0 :: repeat WFree m) with (repeat (WWait 0) (S w) ++ repeat WFree m) in Rn.
    2:{ replace (S w) with (w + 1) by lia. rewrite repeat_app, <- app_assoc. reflexivity. }
    destruct (IH (S w) _ _ ltac:(lia) Rn) as (ls' & its' & R1 & R2 & R3).
    { intros c Nc. cbn [received]. destruct c; [congruence|]. cbn [Nat.eqb]. rewrite app_nil_r. now apply Hc. }
    exists ls', its'. split; auto. split; auto. rewrite R2. cbn [received Nat.eqb]. rewrite <- app_assoc. reflexivity.
Qed.

(** Those who wait for a poisoned mutex die. *)
Lemma perish x sent m : forall w ls, wc_slot x = WBroken sent ->
  wrun true R (w_init (S others) (S n)) ls (mk_wstate (x :: rest) [] (repeat WDead (S w) ++ repeat (WWait 0) m)) ->
  exists ls', wrun true R (w_init (S others) (S n)) ls' (mk_wstate (x :: rest) [] (repeat WDead (S w + m))) /\
    (forall c, received c ls' = received c ls).
Proof.
  induction m as [|m IH]; intros w ls Hx Rn.
  - exists ls. cbn [repeat] in Rn. rewrite app_nil_r in Rn. rewrite Nat.add_0_r. auto.
  - cbn [repeat app] in Rn.
    assert (Hh : existsb (wholds 0) (WDead :: repeat WDead w ++ WWait 0 :: repeat (WWait 0) m) = false).
    { cbn [existsb wholds orb]. rewrite existsb_app. cbn [existsb wholds orb].
      assert (A : forall u, wholds 0 u = false -> forall j, existsb (wholds 0) (repeat u j) = false) by (intros u Hu; induction j; cbn [repeat existsb]; [|rewrite Hu]; auto).
      rewrite (A WDead), (A (WWait 0)) by reflexivity. reflexivity. }
    eapply wrun_step in Rn; [|eapply (ws_die _ _ _ (S w) 0 x sent); [|reflexivity|exact Hh|exact Hx]].
    2:{ cbn [ws_workers nth_error]. pose proof (nth_mid (repeat WDead w) (WWait 0) (repeat (WWait 0) m)) as X. now rewrite repeat_length in X. }
    cbn [wput set_nth ws_conns ws_queue ws_workers] in Rn.
    pose proof (set_mid (repeat WDead w) (WWait 0) WDead (repeat (WWait 0) m)) as X. rewrite repeat_length in X. rewrite X in Rn.
    replace (WDead :: repeat WDead w ++ WDead :: repeat (WWait 0) m) with (repeat WDead (S (S w)) ++ repeat (WWait 0) m) in Rn.
    2:{ cbn [repeat app]. f_equal. change (WDead :: repeat WDead w ++ repeat (WWait 0) m) with ((WDead :: repeat WDead w) ++ repeat (WWait 0) m).
        change (WDead :: repeat WDead w) with (repeat WDead (S w)). replace (S w) with (w + 1) by lia. rewrite repeat_app, <- app_assoc. reflexivity. }
    destruct (IH (S w) _ Hx Rn) as (ls' & R1 & R2). exists ls'. split; [|intros c; now rewrite R2].
    replace (S w + S m) with (S (S w) + m) by lia. exact R1.
Qed.

Lemma attack : exists ls its, wrun true R (w_init (S others) (S n)) ls
    (mk_wstate (mk_wconn its false (WBroken []) [] :: rest) [] (repeat WDead (S n))) /\
  received 0 ls = map IByte (piece1 ++ piece2 ++ repeat "a"%char (S n)) /\ (forall c, c <> 0 -> received c ls = []).
Proof.
  pose proof (wrun_nil true R (w_init (S others) (S n))) as Rn.
  destruct (one_job [] conn1 (conn_new []) conn1 piece1 [] wc_new) as (l1 & R1 & E1 & N1); auto; try apply Hne.
  { intros y L. now destruct (St y L). }
  { intros y L. now destruct (St y L) as (_ & H & _). }
  destruct (one_job l1 conn2 conn1 conn2 piece2 (map IByte piece1) (mk_wconn [] false (WHere conn1) [])) as (l2 & R2 & E2 & N2); auto; try apply Hne.
  { intros y L. now destruct (St y L) as (_ & _ & H & _). }
  { intros y L. now destruct (St y L) as (_ & _ & _ & H & _). }
  clear Rn R1. rename R2 into Rn.
  eapply wrun_step in Rn; [|eapply (ws_arrive _ _ _ 0 _ [IByte "a"%char]); [reflexivity|reflexivity|discriminate|repeat constructor; discriminate]].
  cbn [wupd set_nth ws_conns ws_queue ws_workers wc_sock wc_event wc_slot wc_log app] in Rn.
  eapply wrun_step in Rn; [|eapply (ws_dispatch _ _ _ 0); reflexivity].
  cbn [wupd set_nth ws_conns ws_queue ws_workers wc_sock wc_event wc_slot wc_log app] in Rn.
  eapply wrun_step in Rn; [|eapply (ws_take _ _ _ 0 0); reflexivity].
  cbn [wput set_nth ws_conns ws_queue ws_workers] in Rn.
  eapply wrun_step in Rn; [|eapply (ws_enter _ _ _ 0 0 _ conn2 idle_visit rt); [reflexivity|reflexivity| |reflexivity|exact Hrt]].
  2:{ unfold wheld. cbn [ws_workers existsb wholds orb]. apply none_held. }
  cbn [wupd wput set_nth ws_conns ws_queue ws_workers wc_sock wc_event wc_slot wc_log app] in Rn.
  destruct (gather idle_visit n 0 _ _ eq_refl Rn) as (l3 & its & R3 & E3 & N3).
  { intros c Nc. cbn [received]. destruct c; [congruence|]. cbn [Nat.eqb]. rewrite app_nil_r. now apply N2. }
  clear Rn. rename R3 into Rn.
  destruct (St (mk_wconn its false (WTaken conn2) []) eq_refl) as (_ & _ & _ & _ & Ep).
  eapply wrun_step in Rn; [|eapply (ws_crash _ _ _ 0 0); [reflexivity|reflexivity|reflexivity|exact Ep]].
  cbn [wupd wput set_nth ws_conns ws_queue ws_workers wc_sock wc_event wc_slot wc_log app] in Rn.
  destruct (perish (mk_wconn its false (WBroken []) []) [] n 0 _ eq_refl Rn) as (l4 & R4 & E4).
  exists l4, its. split; [exact R4|]. split.
  - rewrite E4. cbn [received]. rewrite E3. cbn [received Nat.eqb]. rewrite E2. cbn [repeat].
    change [IByte "a"%char] with (map IByte ["a"%char]). rewrite <- !map_app, <- !app_assoc. reflexivity.
  - intros c Nc. rewrite E4. cbn [received]. now apply N3.
Qed.
End Attack.

(** In a debug build one peer stops the server, however many workers it has: with 4624 bytes and one more for each worker,
    which make no request, it kills all of them; no listener is called.  From then on, whatever the other peers send,
    no request of theirs is routed and nothing is written to them. *)
Theorem C104_debug_refuted : forall R others n, has_router R -> exists ls st b,
  wrun true R (w_init (S others) (S n)) ls st /\
  received 0 ls = map IByte b /\ len b = (4625 + N.of_nat n)%N /\ (forall c, c <> 0 -> received c ls = []) /\
  Forall (fun w => w = WDead) (ws_workers st) /\ List.length (ws_conns st) = S others /\
  (forall ls' st' c x, wrun true R st ls' st' -> c <> 0 -> nth_error (ws_conns st') c = Some x ->
     wc_log x = [] /\ exists k, wc_slot x = WHere k /\ sk_sent (cn_sock k) = []).
Proof.
  intros R others n Tot. destruct (Tot 0) as (rt & Hrt). destruct stages as (k1 & k2 & St).
  destruct (attack R rt others n k1 k2 piece1 piece2 Hrt) as (ls & its & R1 & E & N).
  { split; discriminate. }
  { intros x L. now apply St. }
  exists ls. eexists. exists (piece1 ++ piece2 ++ repeat "a"%char (S n)).
  assert (F : Forall (fun w => w = WDead) (repeat WDead (S n))) by (apply Forall_forall; intros w Hw; now apply repeat_spec in Hw).
  split; [exact R1|]. split; [exact E|]. split; [|split; [exact N|split; [exact F|split]]].
  - rewrite !len_app. assert (L : len (repeat "a"%char (S n)) = (1 + N.of_nat n)%N) by (unfold len; rewrite repeat_length; lia).
    rewrite L. replace (len piece1) with 4100%N by (vm_compute; reflexivity). replace (len piece2) with 524%N by (vm_compute; reflexivity). lia.
  - cbn [ws_conns List.length]. now rewrite repeat_length.
  - intros ls' st' c x R2 Nc Nx. destruct (dead_stays true R (mk_wstate _ [] (repeat WDead (S n))) ls' st' F R2) as (_ & M). cbn [ws_conns map] in M.
    apply (map_nth_error (fun x => (wc_log x, wc_slot x))) in Nx. rewrite M in Nx. destruct c as [|c]; [congruence|]. cbn [nth_error] in Nx.
    apply nth_error_In in Nx. apply in_map_iff in Nx as (y & Ey & Hy). apply repeat_spec in Hy. subst y.
    cbn [wc_new wc_log wc_slot] in Ey. injection Ey as E1 E2. rewrite <- E1, <- E2. split; auto. eexists. split; reflexivity.
Qed.
Print Assumptions C104_debug_refuted.

(** The hypotheses are met: by the server of C70_case without the listener that panics. *)
Definition one_answer (c : nat) (q : request) (l : lresult) : Prop := l = LNext.
Example C104_case : has_router one_answer /\ (forall c, calm_listeners one_answer c) /\
  exists ls st x k, wrun true one_answer (w_init 2 2) ls st /\
    (forall c, exists rs b b', Forall plain_request rs /\ received c ls = map IByte b /\ b ++ b' = List.concat (map write_request rs)) /\
    nth_error (ws_conns st) 0 = Some x /\ wc_slot x = WHere k /\ sk_sent (cn_sock k) = not_found /\ List.length (wc_log x) = 1.
Proof.
  split; [intros c; exists (fun _ _ => LNext); reflexivity|]. split; [intros c q l _ ->; discriminate|].
  pose proof (wrun_nil true one_answer (w_init 2 2)) as Rn.
  go Rn ltac:(eapply (ws_arrive _ _ _ 1 _ (map IByte part1)); [reflexivity|reflexivity|discriminate|apply all_proper]).
  go Rn ltac:(eapply (ws_arrive _ _ _ 0 _ (map IByte (part1 ++ part2))); [reflexivity|reflexivity|discriminate|apply all_proper]).
  go Rn ltac:(eapply (ws_dispatch _ _ _ 0); reflexivity).
  go Rn ltac:(eapply (ws_take _ _ _ 1 0); reflexivity).
  go Rn ltac:(eapply (ws_enter _ _ _ 1 0 _ _ ample peer0); reflexivity).
  go Rn ltac:(eapply (ws_read _ _ _ 1 0 _ _ _ _ _ (RData (part1 ++ part2)) []); [reflexivity|reflexivity|reflexivity|served|reflexivity]).
  go Rn ltac:(eapply (ws_drain _ _ _ 1 0); [reflexivity|reflexivity|reflexivity|served|reflexivity]).
  go Rn ltac:(eapply (ws_keep _ _ _ 1 0); [reflexivity|reflexivity|reflexivity|served]).
  do 4 eexists. split; [exact Rn|]. split; [|repeat split; reflexivity].
  destruct get_root_plain as (P & _ & W). intros [|[|c]].
  - exists [get_root], (part1 ++ part2), []. split; [constructor; [exact P|constructor]|]. split; [reflexivity|]. cbn [map List.concat]. now rewrite W, !app_nil_r.
  - exists [get_root], part1, part2. split; [constructor; [exact P|constructor]|]. split; [reflexivity|]. cbn [map List.concat]. now rewrite W, app_nil_r.
  - exists [], [], []. split; [constructor|]. split; reflexivity.
Qed.

(** And in a release build, by a peer that sends no request, ends, and gets its 400. *)
Example C104_release_case : exists ls st sent, wrun false one_answer (w_init 1 1) ls st /\
  received 0 ls = map IByte (lit "nonsense" ++ crlf) ++ [IEnd] /\
  option_map wc_slot (nth_error (ws_conns st) 0) = Some (WGone sent) /\ sent = bad_request /\ ws_workers st = [WFree].
Proof.
  pose proof (wrun_nil false one_answer (w_init 1 1)) as Rn.
  go Rn ltac:(eapply (ws_arrive _ _ _ 0 _ (map IByte (lit "nonsense" ++ crlf) ++ [IEnd])); [reflexivity|reflexivity|discriminate|]).
  2:{ apply Forall_app. split; [apply all_proper|]. repeat constructor; discriminate. }
  go Rn ltac:(eapply (ws_dispatch _ _ _ 0); reflexivity).
  go Rn ltac:(eapply (ws_take _ _ _ 0 0); reflexivity).
  go Rn ltac:(eapply (ws_enter _ _ _ 0 0 _ _ ample peer0); reflexivity).
  go Rn ltac:(eapply (ws_read _ _ _ 0 0 _ _ _ _ _ (RData (lit "nonsense" ++ crlf)) [IEnd]); [reflexivity|reflexivity|reflexivity|served|reflexivity]).
  go Rn ltac:(eapply (ws_close _ _ _ 0 0); [reflexivity|reflexivity|reflexivity|served]).
  do 3 eexists. split; [exact Rn|]. split; [reflexivity|]. split; [reflexivity|]. split; reflexivity.
Qed.
