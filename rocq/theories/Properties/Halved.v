(** What sends that are made twice do to a server whose listener panics.  C116. *)
From Coq Require Import List Ascii String NArith Bool Arith Lia.
From Verif.Model Require Import Bytes Io Common Parse Encode Writer Server Slab Whole Client.
From Verif.Spec Require Import Batch Stream Drive Numerals Names Grammar Wire Unicode Output Session Exchange Dialogue Reconnect Traces Arrivals.
From Verif.Proofs Require Import BytesFacts IoFacts ParseFacts ServerFacts ConnFacts ClientFacts LimitGrammar LimitFacts EncodeFacts SlabFacts HandlersFacts WholeFacts UnwindFacts HttpsLive.
From Verif.Properties Require Import RoundTrip Server Client Compose Whole Stopped Reconnect Retried.
Import ListNotations.

(** The handler with nothing read yet, and with the request read. *)
Lemma serve_nothing dbg rt x : wc_log x = [] -> exists k, serve dbg rt idle_visit x (conn_new []) [] = ([], Open k).
Proof. intros L. unfold serve. rewrite L. destruct dbg; eexists; vm_compute; reflexivity. Qed.
Lemma serve_panic dbg rt q x : plain_request q -> (forall h v, same_request v q -> rt h v = LPanic) -> wc_log x = [] ->
  exists log sn, serve dbg rt idle_visit x (conn_new []) [RData (write_request q)] = (log, Poisoned sn).
Proof.
  intros P Hp L. unfold serve. rewrite L. change (mk_conn _ _ _ _) with (conn_new [RData (write_request q)]).
  destruct (handle dbg rt idle_visit [] (Open (conn_new [RData (write_request q)]))) as [log st] eqn:E.
  assert (Ne : write_request q <> []) by (destruct P as (G & F & _); destruct (request_reads_back q [] G F) as (v & Hv & _); intros K; rewrite K in Hv; discriminate).
  destruct (panics_at_last dbg rt [] q [RData (write_request q)] [idle_visit] log st) as (sn & -> & _); eauto.
  - constructor; [exact P|constructor].
  - constructor; [exact Ne|constructor].
  - intros [K|[]]; discriminate.
  - constructor; [split; constructor|constructor].
  - constructor; [intros a b n K; destruct a; discriminate|constructor].
  - cbn [visits]. now rewrite E.
Qed.

Section Felling.
Variable (dbg : bool) (R : nat -> request -> lresult -> Prop) (rt : router) (q : request) (others : nat).
Hypothesis Hrt : forall c h v, R c v (rt h v).
Hypothesis Pl : plain_request q.
Hypothesis Hp : forall h v, same_request v q -> rt h v = LPanic.

Lemma fell_each m : forall i n ls a, i + m = n -> List.length a = i ->
  wrun dbg R (w_init (n + others) n) ls (mk_wstate (a ++ repeat wc_new (m + others)) [] (repeat WDead i ++ repeat WFree m)) ->
  (forall c, received c ls = if c <? i then map IByte (write_request q) else []) ->
  exists ls' a', List.length a' = n /\
    wrun dbg R (w_init (n + others) n) ls' (mk_wstate (a' ++ repeat wc_new others) [] (repeat WDead n)) /\
    (forall c, received c ls' = if c <? n then map IByte (write_request q) else []).
Proof.
  induction m as [|m IH]; intros i n ls a Hi La Rn Hr.
  { exists ls, a. rewrite Nat.add_0_r in Hi. subst n. cbn [repeat] in Rn. rewrite app_nil_r in Rn. auto. }
  assert (Ne : map IByte (write_request q) <> []).
  { destruct Pl as (G & F & _); destruct (request_reads_back q [] G F) as (v & Hv & _). intros K. apply map_eq_nil in K. rewrite K in Hv. discriminate. }
  cbn [repeat plus] in Rn.
  assert (N1 : forall (x : wconn) b, nth_error (a ++ x :: b) i = Some x) by (intros; subst i; apply nth_mid).
  assert (S1 : forall (x y : wconn) b, set_nth i y (a ++ x :: b) = a ++ y :: b) by (intros; subst i; apply set_mid).
  assert (N2 : forall x b, nth_error (repeat WDead i ++ x :: b) i = Some x).
  { intros x b. pose proof (nth_mid (repeat WDead i) x b) as X. now rewrite repeat_length in X. }
  assert (S2 : forall x y b, set_nth i y (repeat WDead i ++ x :: b) = repeat WDead i ++ y :: b).
  { intros x y b. pose proof (set_mid (repeat WDead i) x y b) as X. now rewrite repeat_length in X. }
  assert (A : forall u, wholds i u = false -> forall j, existsb (wholds i) (repeat u j) = false) by (intros u Hu; induction j; cbn [repeat existsb]; [|rewrite Hu]; auto).
  eapply wrun_step in Rn; [|eapply (ws_arrive _ _ _ i _ (map IByte (write_request q))); [apply N1|reflexivity|exact Ne|apply all_proper]].
  unfold wupd in Rn. cbn [ws_conns ws_queue ws_workers wc_new wc_sock wc_event wc_slot wc_log app] in Rn. rewrite S1 in Rn.
  eapply wrun_step in Rn; [|eapply (ws_dispatch _ _ _ i); [apply N1|reflexivity|]].
  2:{ cbn [ws_workers]. rewrite existsb_app. cbn [existsb walive orb]. now rewrite orb_true_r. }
  unfold wupd in Rn. cbn [ws_conns ws_queue ws_workers wc_sock wc_event wc_slot wc_log app] in Rn. rewrite S1 in Rn.
  eapply wrun_step in Rn; [|eapply (ws_take _ _ _ i i); [apply N2|reflexivity]].
  unfold wput in Rn. cbn [ws_conns ws_queue ws_workers] in Rn. rewrite S2 in Rn.
  eapply wrun_step in Rn; [|eapply (ws_enter _ _ _ i i _ (conn_new []) idle_visit rt); [apply N2|apply N1| |reflexivity|apply Hrt]].
  2:{ unfold wheld. cbn [ws_workers]. rewrite existsb_app. cbn [existsb wholds orb]. now rewrite !A by reflexivity. }
  unfold wput, wupd in Rn. cbn [ws_conns ws_queue ws_workers wc_sock wc_event wc_slot wc_log app] in Rn. rewrite S1, S2 in Rn.
  match type of Rn with context [a ++ ?x :: _] => destruct (serve_nothing dbg rt x eq_refl) as (k' & E0) end.
  eapply wrun_step in Rn; [|eapply (ws_read _ _ _ i i _ _ _ _ _ (RData (write_request q)) []); [apply N2|apply N1|reflexivity|exact E0|]].
  2:{ cbn [wc_sock event_items]. rewrite app_nil_r. destruct (write_request q); [now cbn in Ne|reflexivity]. }
  unfold wput, wupd in Rn. cbn [ws_conns ws_queue ws_workers wc_sock wc_event wc_slot wc_log app] in Rn. rewrite S1, S2 in Rn.
  match type of Rn with context [a ++ ?x :: _] => destruct (serve_panic dbg rt q x Pl Hp eq_refl) as (log & sn & E1) end.
  eapply wrun_step in Rn; [|eapply (ws_crash _ _ _ i i); [apply N2|apply N1|reflexivity|exact E1]].
  unfold wput, wupd in Rn. cbn [ws_conns ws_queue ws_workers wc_sock wc_event wc_slot wc_log app] in Rn. rewrite S1, S2 in Rn.
  match type of Rn with context [a ++ ?x :: _] => replace (a ++ x :: repeat wc_new (m + others)) with ((a ++ [x]) ++ repeat wc_new (m + others)) in Rn by now rewrite <- app_assoc end.
  replace (repeat WDead i ++ WDead :: repeat WFree m) with (repeat WDead (S i) ++ repeat WFree m) in Rn.
  2:{ replace (S i) with (i + 1) by lia. rewrite repeat_app, <- app_assoc. reflexivity. }
  refine (IH (S i) n _ _ _ _ Rn _); [lia|rewrite app_length; cbn; lia|].
  intros c. cbn [received]. rewrite Hr. destruct (Nat.ltb_spec c i), (Nat.ltb_spec c (S i)), (Nat.eqb_spec i c); try lia; rewrite ?app_nil_r; auto.
Qed.
End Felling.

(** The wanted: as many sends as there are workers are needed before the server serves nobody.  Refuted: by C116_panics_once_refuted each send whose
    request makes a listener panic, made with a client of this library, puts that request on two connections; n connections with this one request
    each end n workers, so half as many sends as there are workers end them all.  From then on nothing that any peer sends is routed or answered. *)
Theorem C116_workers_refuted : forall dbg (R : nat -> request -> lresult -> Prop) (rt : router) q others n, (forall c h v, R c v (rt h v)) -> plain_request q ->
  (forall h v, same_request v q -> rt h v = LPanic) ->
  exists ls st, wrun dbg R (w_init (n + others) n) ls st /\
    (forall c, received c ls = if c <? n then map IByte (write_request q) else []) /\
    ws_workers st = repeat WDead n /\ List.length (ws_conns st) = n + others /\
    (forall ls' st' c x, wrun dbg R st ls' st' -> n <= c -> nth_error (ws_conns st') c = Some x ->
       wc_log x = [] /\ exists k, wc_slot x = WHere k /\ sk_sent (cn_sock k) = []).
Proof.
  intros dbg R rt q others n Hrt Pl Hp.
  destruct (fell_each dbg R rt q others Hrt Pl Hp n 0 n [] [] eq_refl eq_refl) as (ls & a & La & Rn & Hr).
  { cbn [app repeat]. apply wrun_nil. }
  { intros c. reflexivity. }
  exists ls. eexists. split; [exact Rn|]. split; [exact Hr|]. split; [reflexivity|]. split.
  { cbn [ws_conns]. rewrite app_length, repeat_length. lia. }
  assert (F : Forall (fun w => w = WDead) (repeat WDead n)) by (apply Forall_forall; intros w Hw; now apply repeat_spec in Hw).
  intros ls' st' c x R2 Nc Nx. destruct (dead_stays dbg R (mk_wstate _ [] (repeat WDead n)) ls' st' F R2) as (_ & M). cbn [ws_conns] in M.
  apply (map_nth_error (fun x => (wc_log x, wc_slot x))) in Nx. rewrite M, map_app, nth_error_app2 in Nx by (rewrite map_length; lia).
  apply nth_error_In in Nx. apply in_map_iff in Nx as (y & Ey & Hy). apply repeat_spec in Hy. subst y.
  cbn [wc_new wc_log wc_slot] in Ey. injection Ey as E1 E2. rewrite <- E1, <- E2. split; auto. eexists. split; reflexivity.
Qed.
Print Assumptions C116_workers_refuted.

(** One send ends both workers of a server with two; its streams carry what the theorem takes for the first two connections. *)
Example C116_workers_case : exists (rt : router) r o k ls st, plain_request example_request /\ (forall h v, same_request v example_request -> rt h v = LPanic) /\
  conn_send true false [inr (mk_cstream [] [] open_sock)] (mk_cconn (Some (mk_cstream [] [] open_sock)) []) example_request = (r, [], mk_cconn (Some k) [o]) /\ is_error r /\
  wrun true (fun _ v l => l = rt [] v) (w_init 3 2) ls st /\ received 0 ls = map IByte (sent o) /\ received 1 ls = map IByte (sent k) /\ received 2 ls = [] /\
  ws_workers st = [WDead; WDead].
Proof.
  exists (fun _ r => if beqb (rq_uri r) (rq_uri example_request) then LPanic else LNext).
  destruct (conn_send true false [inr (mk_cstream [] [] open_sock)] (mk_cconn (Some (mk_cstream [] [] open_sock)) []) example_request) as [[r n] c] eqn:E.
  destruct (C116_workers_refuted true (fun _ v l => l = (if beqb (rq_uri v) (rq_uri example_request) then LPanic else LNext)) (fun _ r => if beqb (rq_uri r) (rq_uri example_request) then LPanic else LNext)
    example_request 1 2 (fun _ _ _ => eq_refl) example_plain example_panics) as (ls & st & Rn & Hr & W & _).
  pose proof (Hr 0) as H0. pose proof (Hr 1) as H1. pose proof (Hr 2) as H2. cbn [Nat.ltb Nat.leb] in H0, H1, H2.
  vm_compute in E. injection E as <- <- <-. do 3 eexists. exists ls, st. split; [exact example_plain|]. split; [exact example_panics|]. split; [reflexivity|]. split; [exact Logic.I|].
  split; [exact Rn|]. rewrite H0, H1, H2, W. repeat split; vm_compute; reflexivity.
Qed.
Print Assumptions C116_workers_case.
