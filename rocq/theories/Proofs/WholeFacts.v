(** The whole server: every connection is one server connection of its own. *)
From Coq Require Import List Ascii String NArith Bool Arith Lia.
From Verif.Model Require Import Bytes Io Common Parse Encode Writer Server Slab Handlers Whole.
From Verif.Spec Require Import Batch Stream Drive Output Session Traces Arrivals.
From Verif.Proofs Require Import BytesFacts IoFacts ParseFacts DriveFacts CallFacts WriterFacts OpsFacts ServerFacts ConnFacts WakeFacts SlabFacts HandlersFacts FrameFacts.
Import ListNotations.

(** ** Which answers of the router matter *)

Lemma respond_extends dbg rt f : forall log c vd log' c', respond f dbg rt log c = (vd, log', c') -> List.length log <= List.length log'.
Proof.
  induction f as [|f IH]; intros log c vd log' c' E; [inversion E; subst; auto|]. cbn [respond] in E.
  destruct (read_request dbg (cn_in c) (cn_parser c)) as [[r s'] p'].
  assert (L : forall r : request, List.length log <= List.length (log ++ [r])) by (intros; rewrite app_length; lia).
  destruct r as [|v|e|k| |]; try (inversion E; subst; auto; fail).
  2,3: destruct (run_ops _ _ _) as [[? ?] ?]; inversion E; subst; auto.
  destruct (rt log v); [| |inversion E; subst; auto]; destruct (run_ops _ _ _) as [[[u|k] w1] k1]; try (inversion E; subst; auto; fail);
    destruct (should_close_after_response v); try (inversion E; subst; auto; fail); apply IH in E; specialize (L v); lia.
Qed.

Lemma respond_above dbg rt1 rt2 f : forall log c, (forall h q, List.length log <= List.length h -> rt1 h q = rt2 h q) ->
  respond f dbg rt1 log c = respond f dbg rt2 log c.
Proof.
  induction f as [|f IH]; intros log c H; auto. cbn [respond].
  destruct (read_request dbg (cn_in c) (cn_parser c)) as [[r s'] p']. destruct r as [|v|e|k| |]; auto.
  rewrite <- H by lia. destruct (rt1 log v); auto; destruct (run_ops _ _ _) as [[[u|k] w1] k1]; auto;
    destruct (should_close_after_response v); auto; apply IH; intros h q L; apply H; rewrite app_length in L; lia.
Qed.

Lemma respond_below dbg rt1 rt2 n f : forall log c vd log' c', (forall h q, List.length h < n -> rt1 h q = rt2 h q) ->
  respond f dbg rt1 log c = (vd, log', c') -> List.length log' <= n -> respond f dbg rt2 log c = (vd, log', c').
Proof.
  induction f as [|f IH]; intros log c vd log' c' H E L; auto. cbn [respond] in *.
  destruct (read_request dbg (cn_in c) (cn_parser c)) as [[r s'] p']. destruct r as [|v|e|k| |]; auto.
  assert (L1 : List.length (log ++ [v]) <= List.length log').
  { destruct (rt1 log v); [| |inversion E; subst; auto]; destruct (run_ops _ _ _) as [[[u|k] w1] k1]; try (inversion E; subst; auto; fail);
      destruct (should_close_after_response v); try (inversion E; subst; auto; fail); eapply respond_extends; eauto. }
  rewrite app_length in L1. cbn in L1. rewrite <- H by lia.
  destruct (rt1 log v); auto; destruct (run_ops _ _ _) as [[[u|k] w1] k1]; auto;
    destruct (should_close_after_response v); auto; eapply IH; eauto.
Qed.

Lemma handle_extends dbg rt v log st log' st' : handle dbg rt v log st = (log', st') -> List.length log <= List.length log'.
Proof.
  intros E. destruct st as [c|b|b]; [|inversion E; subst; auto ..]. cbn [handle] in E.
  destruct (wr_flush _ _) as [[[u|k] w1] k1]; [|inversion E; subst; auto]. unfold respond_to_requests in E.
  destruct (respond _ dbg rt log _) as [[vd l1] c1] eqn:E1. inversion E; subst. eapply respond_extends; eauto.
Qed.
Lemma handle_above dbg rt1 rt2 v log st : (forall h q, List.length log <= List.length h -> rt1 h q = rt2 h q) ->
  handle dbg rt1 v log st = handle dbg rt2 v log st.
Proof.
  intros H. destruct st as [c|b|b]; auto. cbn [handle]. destruct (wr_flush _ _) as [[[u|k] w1] k1]; auto.
  unfold respond_to_requests. now rewrite (respond_above dbg rt1 rt2).
Qed.
Lemma handle_below dbg rt1 rt2 n v log st log' st' : (forall h q, List.length h < n -> rt1 h q = rt2 h q) ->
  handle dbg rt1 v log st = (log', st') -> List.length log' <= n -> handle dbg rt2 v log st = (log', st').
Proof.
  intros H E L. destruct st as [c|b|b]; auto. cbn [handle] in *. destruct (wr_flush _ _) as [[[u|k] w1] k1]; auto.
  unfold respond_to_requests in *. destruct (respond _ dbg rt1 log _) as [[vd l1] c1] eqn:E1. inversion E; subst.
  eapply respond_below in E1; eauto. now rewrite E1.
Qed.
Lemma visits_extends dbg rt vs : forall log st log' st', visits dbg rt vs log st = (log', st') -> List.length log <= List.length log'.
Proof.
  induction vs as [|v vs IH]; intros log st log' st' E; [inversion E; subst; auto|]. cbn [visits] in E.
  destruct (handle dbg rt v log st) as [l1 s1] eqn:E1. apply handle_extends in E1. apply IH in E. lia.
Qed.
Lemma visits_below dbg rt1 rt2 n vs : (forall h q, List.length h < n -> rt1 h q = rt2 h q) -> forall log st log' st',
  visits dbg rt1 vs log st = (log', st') -> List.length log' <= n -> visits dbg rt2 vs log st = (log', st').
Proof.
  intros H. induction vs as [|v vs IH]; intros log st log' st' E L; auto. cbn [visits] in *.
  destruct (handle dbg rt1 v log st) as [l1 s1] eqn:E1. pose proof (visits_extends _ _ _ _ _ _ _ E).
  rewrite (handle_below dbg rt1 rt2 n _ _ _ _ _ H E1) by lia. auto.
Qed.

(** The answers of one router for the first [n] requests and of another after that. *)
Definition join (n : nat) (rt1 rt2 : router) : router := fun h q => if List.length h <? n then rt1 h q else rt2 h q.

(** ** The invariant *)

Section Whole.
Variable (dbg : bool) (R : nat -> request -> lresult -> Prop).

Definition respects (c : nat) (rt : router) : Prop := forall h q, R c q (rt h q).

Definition story (c : nat) (ls : list wlabel) (x : wconn) (k : conn) (got : stream) : Prop :=
  cn_in k = [] /\ exists rt s, respects c rt /\
  (forall m, visits dbg rt (calls c ls) [] (Open (conn_new (s ++ m))) = (wc_log x, Open (set_in k m))) /\
  received c ls = items s ++ items got ++ wc_sock x.
Definition ended (c : nat) (ls : list wlabel) (x : wconn) (st : slot) : Prop :=
  exists rt s, respects c rt /\ visits dbg rt (calls c ls) [] (Open (conn_new s)) = (wc_log x, st) /\
  received c ls = items s ++ wc_sock x.

Record good (ls : list wlabel) (st : wstate) (c : nat) (x : wconn) : Prop := mk_good {
  g_proper : Forall proper (wc_sock x);
  g_taken : forall i w, nth_error (ws_workers st) i = Some w -> wholds c w = true -> exists k, wc_slot x = WTaken k;
  g_one : forall i j w w', nth_error (ws_workers st) i = Some w -> nth_error (ws_workers st) j = Some w' ->
    wholds c w = true -> wholds c w' = true -> i = j;
  g_story : match wc_slot x with
    | WHere k => story c ls x k []
    | WTaken k => exists i v rt got, Forall ordinary got /\ respects c rt /\ story c ls x k got /\
        (nth_error (ws_workers st) i = Some (WServe c v rt got) \/
         (nth_error (ws_workers st) i = Some (WDrained c v rt got) /\ exists log' k', serve dbg rt v x k got = (log', Open k')))
    | WGone b => ended c ls x (Gone b)
    | WBroken b => ended c ls x (Poisoned b)
    end }.
Definition winv (ls : list wlabel) (st : wstate) : Prop := forall c x, nth_error (ws_conns st) c = Some x -> good ls st c x.

Lemma items_app a b : items (a ++ b) = items a ++ items b.
Proof. apply flat_map_app. Qed.

Lemma event_ordinary e rest : Forall proper (event_items e ++ rest) -> ordinary e.
Proof.
  intros F. destruct e as [bs|k]; [split; discriminate|]. inversion F as [|? ? [H1 H2] _]; subst. split; congruence.
Qed.
Lemma items_one e : ordinary e -> items [e] = event_items e.
Proof. intros [H _]. unfold items. cbn [flat_map]. rewrite app_nil_r. destruct e as [bs|[]]; auto. congruence. Qed.

Lemma story_fine c ls x k got : story c ls x k got -> parser_fine (cn_parser k).
Proof.
  intros (H0 & rt & s & _ & H & _). specialize (H []). apply visits_fine in H; [|exact parser_fine_new|apply conn_new_fine]. apply H.
Qed.

(** The end of a call. *)
Lemma story_call c ls x k got rt v log' st' : story c ls x k got -> respects c rt -> Forall ordinary got ->
  serve dbg rt v x k got = (log', st') ->
  exists rt' s', respects c rt' /\ (forall m, visits dbg rt' (calls c ls ++ [v]) [] (Open (conn_new (s' ++ m))) =
      (log', match st' with Open k' => Open (set_in k' m) | _ => st' end)) /\
    received c ls = items s' ++ wc_sock x /\ (forall k', st' = Open k' -> cn_in k' = []).
Proof.
  intros St Hr O E. pose proof (story_fine _ _ _ _ _ St) as Hp. destruct St as (H0 & rt0 & s & Hr0 & H & Hi).
  unfold serve in E. rewrite H0 in E. cbn [app] in E.
  set (c0 := mk_conn got (cn_parser k) (cn_w k) (cn_sock k)) in E.
  exists (join (List.length (wc_log x)) rt0 rt), (s ++ got ++ [B]).
  assert (J1 : forall h q, List.length h < List.length (wc_log x) -> rt0 h q = join (List.length (wc_log x)) rt0 rt h q).
  { intros h q L. unfold join. apply Nat.ltb_lt in L. now rewrite L. }
  assert (J2 : forall h q, List.length (wc_log x) <= List.length h -> rt h q = join (List.length (wc_log x)) rt0 rt h q).
  { intros h q L. unfold join. apply Nat.ltb_ge in L. now rewrite L. }
  split; [|split; [|split]].
  - intros h q. unfold join. destruct (_ <? _); auto.
  - intros m. rewrite visits_app. rewrite <- !app_assoc. cbn [app].
    rewrite (visits_below dbg _ _ _ _ J1 _ _ _ _ (H (got ++ B :: m))) by lia. cbn [visits].
    rewrite <- (handle_above dbg _ _ v _ _ J2).
    destruct (handle_frame dbg rt v (wc_log x) c0 log' st' m Hp O E) as [F _]. 
    change (set_in c0 (cn_in c0 ++ B :: m)) with (set_in k (got ++ B :: m)) in F. rewrite F. reflexivity.
  - rewrite Hi, !items_app. change (items [B]) with (@nil item). now rewrite app_nil_r, <- app_assoc.
  - intros k' ->. exact (proj2 (handle_frame dbg rt v (wc_log x) c0 log' _ [] Hp O E) _ eq_refl).
Qed.

Lemma good_conn ls ls' st st' c x : ws_workers st' = ws_workers st -> calls c ls' = calls c ls -> received c ls' = received c ls ->
  good ls st c x -> good ls' st' c x.
Proof.
  intros W C Rc [G1 G2 G3 G4]. constructor; rewrite ?W; auto. unfold story, ended in *. rewrite C, Rc. exact G4.
Qed.

(** A worker that does not hold [c] changes. *)
Lemma good_worker ls ls' st st' c x i w w' : nth_error (ws_workers st) i = Some w -> wholds c w = false -> wholds c w' = false ->
  ws_workers st' = set_nth i w' (ws_workers st) -> calls c ls' = calls c ls -> received c ls' = received c ls ->
  good ls st c x -> good ls' st' c x.
Proof.
  intros N H H' W C Rc [G1 G2 G3 G4].
  assert (K : forall j u, nth_error (ws_workers st') j = Some u -> wholds c u = true -> nth_error (ws_workers st) j = Some u).
  { intros j u. rewrite W. destruct (Nat.eq_dec i j) as [<-|Ne].
    - rewrite (nth_set_same _ _ _ _ N). intros E. inversion E; subst. congruence.
    - now rewrite nth_set_other. }
  assert (K' : forall j u, nth_error (ws_workers st) j = Some u -> wholds c u = true -> nth_error (ws_workers st') j = Some u).
  { intros j u Nj Hj. rewrite W. destruct (Nat.eq_dec i j) as [<-|Ne]; [congruence|]. now rewrite nth_set_other. }
  constructor; auto.
  - intros j u Nj Hj. eauto.
  - intros j j' u u' Nj Nj' Hj Hj'. eauto.
  - unfold story, ended in *. rewrite C, Rc. destruct (wc_slot x) as [k|k|b|b]; auto.
    destruct G4 as (j & v & rt & got & Q1 & Q2 & Q3 & Q4). exists j, v, rt, got. split; auto. split; auto. split; auto.
    destruct Q4 as [Q4|[Q4 Q5]]; [left|right; split; auto]; apply K'; auto; cbn; apply Nat.eqb_refl.
Qed.

Lemma winv_init n size : (forall c, exists rt, respects c rt) -> winv [] (w_init n size).
Proof.
  intros Tot c x N. apply nth_error_In, repeat_spec in N. subst x.
  assert (K : forall i w, nth_error (ws_workers (w_init n size)) i = Some w -> wholds c w = true -> False).
  { intros i w Hn Hh. apply nth_error_In, repeat_spec in Hn. subst. discriminate. }
  constructor.
  - constructor.
  - intros i w Hn Hh. destruct (K _ _ Hn Hh).
  - intros i j w w' Hn _ Hh. destruct (K _ _ Hn Hh).
  - cbn [wc_new wc_slot]. split; auto. destruct (Tot c) as [rt Hr]. exists rt, []. split; auto.
Qed.

Lemma wheld_none c st i w : wheld c st = false -> nth_error (ws_workers st) i = Some w -> wholds c w = false.
Proof.
  intros H N. destruct (wholds c w) eqn:E; auto. unfold wheld in H. apply nth_error_In in N.
  assert (existsb (wholds c) (ws_workers st) = true) by (apply existsb_exists; eauto). congruence.
Qed.

(** The one holder lets go. *)
Lemma released ls st c x i w w' : good ls st c x -> nth_error (ws_workers st) i = Some w -> wholds c w = true -> wholds c w' = false ->
  forall j u, nth_error (set_nth i w' (ws_workers st)) j = Some u -> wholds c u = true -> False.
Proof.
  intros [_ _ G3 _] N H H' j u Nj Hj. destruct (Nat.eq_dec i j) as [<-|Ne].
  - rewrite (nth_set_same _ _ _ _ N) in Nj. inversion Nj; subst. congruence.
  - rewrite nth_set_other in Nj by assumption. apply Ne. eapply G3; eauto.
Qed.

(** What the holder of [c] has in hand. *)
Lemma holder ls st c x i v rt got k : good ls st c x -> wc_slot x = WTaken k ->
  nth_error (ws_workers st) i = Some (WServe c v rt got) \/ nth_error (ws_workers st) i = Some (WDrained c v rt got) ->
  Forall ordinary got /\ respects c rt /\ story c ls x k got.
Proof.
  intros [_ _ G3 G4] Sx N. rewrite Sx in G4. destruct G4 as (j & v' & rt' & got' & Q1 & Q2 & Q3 & Q4).
  assert (Hj : forall v r g, wholds c (WServe c v r g) = true) by (intros; cbn; apply Nat.eqb_refl).
  assert (Hd : forall v r g, wholds c (WDrained c v r g) = true) by (intros; cbn; apply Nat.eqb_refl).
  assert (i = j) as ->.
  { destruct N as [N|N], Q4 as [Q4|[Q4 _]]; eapply G3; eauto. }
  destruct N as [N|N], Q4 as [Q4|[Q4 _]]; rewrite N in Q4; inversion Q4; subst; auto.
Qed.

Lemma winv_step ls st l st' : winv ls st -> wstep dbg R st l st' -> winv (l :: ls) st'.
Proof.
  intros I S c' x' N'.
  destruct S as [st c x its N O Hn Hp|st c x N|st c x N E A|st i c q W Q|st i c x k v rt W N H P Hr|st i c x sent W N H P|st i c x sent W N H P
    |st i c x k v rt got e rest log' k' W N P E Es|st i c x k v rt got log' k' W N P E Es|st i c x k v rt got log' k' W N P E
    |st i c x k v rt got log' sent W N P E|st i c x k v rt got log' sent W N P E];
    cbn [ws_conns ws_queue ws_workers] in *; unfold wupd, wput in *.
  - (* arrive *) destruct (Nat.eq_dec c c') as [<-|Ne].
    + rewrite (nth_set_same _ _ _ _ N) in N'. inversion N'; subst x'. destruct (I _ _ N) as [G1 G2 G3 G4].
      assert (K : forall k got, story c ls x k got ->
        story c (AArrive c its :: ls) (mk_wconn (wc_sock x ++ its) true (wc_slot x) (wc_log x)) k got).
      { intros k got (H0 & rt & s & H1 & H2 & H3). split; auto. exists rt, s. split; auto. split; auto.
        cbn [received wc_sock]. rewrite Nat.eqb_refl, H3, <- !app_assoc. reflexivity. }
      assert (K' : forall b, ended c ls x b -> ended c (AArrive c its :: ls) (mk_wconn (wc_sock x ++ its) true (wc_slot x) (wc_log x)) b).
      { intros b (rt & s & H1 & H2 & H3). exists rt, s. split; auto. split; auto.
        cbn [received wc_sock]. rewrite Nat.eqb_refl, H3, <- !app_assoc. reflexivity. }
      constructor; cbn [wc_sock wc_slot ws_workers]; auto; [now apply Forall_app|].
      destruct (wc_slot x) as [k|k|b|b]; auto.
      destruct G4 as (j & v & rt & got & Q1 & Q2 & Q3 & Q4). exists j, v, rt, got. auto.
    + rewrite nth_set_other in N' by assumption. eapply good_conn; [| | |exact (I _ _ N')]; auto.
      cbn [received]. replace (c =? c') with false by (symmetry; now apply Nat.eqb_neq). apply app_nil_r.
  - (* notify *) destruct (Nat.eq_dec c c') as [<-|Ne].
    + rewrite (nth_set_same _ _ _ _ N) in N'. inversion N'; subst x'. destruct (I _ _ N) as [G1 G2 G3 G4]. constructor; auto.
    + rewrite nth_set_other in N' by assumption. eapply good_conn; [| | |exact (I _ _ N')]; auto.
  - (* dispatch *) destruct (Nat.eq_dec c c') as [<-|Ne].
    + rewrite (nth_set_same _ _ _ _ N) in N'. inversion N'; subst x'. destruct (I _ _ N) as [G1 G2 G3 G4]. constructor; auto.
    + rewrite nth_set_other in N' by assumption. eapply good_conn; [| | |exact (I _ _ N')]; auto.
  - (* take *) eapply good_worker with (w' := WWait c); [exact W| | | | | |exact (I _ _ N')]; auto.
  - (* enter *) destruct (Nat.eq_dec c c') as [<-|Ne].
    + rewrite (nth_set_same _ _ _ _ N) in N'. inversion N'; subst x'. destruct (I _ _ N) as [G1 G2 G3 G4].
      assert (K : forall j u, nth_error (set_nth i (WServe c v rt []) (ws_workers st)) j = Some u -> wholds c u = true -> j = i).
      { intros j u Nj Hj. destruct (Nat.eq_dec i j) as [<-|Ne]; auto. rewrite nth_set_other in Nj by assumption.
        rewrite (wheld_none _ _ _ _ H Nj) in Hj. discriminate. }
      constructor; cbn [wc_sock wc_slot ws_workers]; auto.
      * intros j u Nj Hj. eauto.
      * intros j j' u u' Nj Nj' Hj Hj'. rewrite (K _ _ Nj Hj), (K _ _ Nj' Hj'). reflexivity.
      * exists i, v, rt, []. split; [constructor|]. split; auto. rewrite P in G4. split; [exact G4|]. left. eapply nth_set_same; eauto.
    + rewrite nth_set_other in N' by assumption. eapply good_worker with (w' := WServe c v rt []); [exact W| | | | | |exact (I _ _ N')]; auto.
      cbn. now apply Nat.eqb_neq.
  - (* skip *) eapply good_worker with (w' := WFree); [exact W| | | | | |exact (I _ _ N')]; auto.
  - (* die *) eapply good_worker with (w' := WDead); [exact W| | | | | |exact (I _ _ N')]; auto.
  - (* read *) destruct (Nat.eq_dec c c') as [<-|Ne].
    + rewrite (nth_set_same _ _ _ _ N) in N'. inversion N'; subst x'. pose proof (I _ _ N) as G.
      destruct (holder _ _ _ _ _ _ _ _ _ G P (or_introl W)) as (Q1 & Q2 & Q3). destruct G as [G1 G2 G3 G4].
      rewrite Es in G1. pose proof (event_ordinary _ _ G1) as Oe.
      assert (K : forall j u, nth_error (set_nth i (WServe c v rt (got ++ [e])) (ws_workers st)) j = Some u -> wholds c u = true -> j = i).
      { intros j u Nj Hj. destruct (Nat.eq_dec i j) as [<-|Ne]; auto. rewrite nth_set_other in Nj by assumption.
        eapply G3; eauto. cbn. apply Nat.eqb_refl. }
      constructor; cbn [wc_sock wc_slot ws_workers].
      * apply Forall_app in G1. apply G1.
      * intros j u Nj Hj. eauto.
      * intros j j' u u' Nj Nj' Hj Hj'. rewrite (K _ _ Nj Hj), (K _ _ Nj' Hj'). reflexivity.
      * rewrite P. exists i, v, rt, (got ++ [e]). split; [apply Forall_app; auto|]. split; auto. split; [|left; eapply nth_set_same; eauto].
        destruct Q3 as (H0 & rt0 & s & H1 & H2 & H3). split; auto. exists rt0, s. split; auto. split; auto.
        cbn [received calls wc_sock wc_log]. rewrite H3, Es, items_app, items_one, <- !app_assoc by assumption. reflexivity.
    + rewrite nth_set_other in N' by assumption. assert (Hf : (c =? c') = false) by now apply Nat.eqb_neq.
      eapply good_worker with (w' := WServe c v rt (got ++ [e])); [exact W| | | | | |exact (I _ _ N')]; auto.
  - (* drain *) destruct (Nat.eq_dec c c') as [<-|Ne].
    + assert (x' = x) by congruence. subst x'. pose proof (I _ _ N) as G.
      destruct (holder _ _ _ _ _ _ _ _ _ G P (or_introl W)) as (Q1 & Q2 & Q3). destruct G as [G1 G2 G3 G4].
      assert (K : forall j u, nth_error (set_nth i (WDrained c v rt got) (ws_workers st)) j = Some u -> wholds c u = true -> j = i).
      { intros j u Nj Hj. destruct (Nat.eq_dec i j) as [<-|Ne]; auto. rewrite nth_set_other in Nj by assumption.
        eapply G3; eauto. cbn. apply Nat.eqb_refl. }
      constructor; cbn [wc_sock wc_slot ws_workers]; auto.
      * intros j u Nj Hj. eauto.
      * intros j j' u u' Nj Nj' Hj Hj'. rewrite (K _ _ Nj Hj), (K _ _ Nj' Hj'). reflexivity.
      * rewrite P. exists i, v, rt, got. split; auto. split; auto. split; auto. right. split; [eapply nth_set_same; eauto|eauto].
    + assert (Hf : (c =? c') = false) by now apply Nat.eqb_neq.
      eapply good_worker with (w' := WDrained c v rt got); [exact W| | | | | |exact (I _ _ N')]; auto.
  - (* keep *) destruct (Nat.eq_dec c c') as [<-|Ne].
    + rewrite (nth_set_same _ _ _ _ N) in N'. inversion N'; subst x'. pose proof (I _ _ N) as G.
      destruct (holder _ _ _ _ _ _ _ _ _ G P (or_intror W)) as (Q1 & Q2 & Q3).
      pose proof (released _ _ _ _ _ _ WFree G W (Nat.eqb_refl c) eq_refl) as K.
      destruct (story_call _ _ _ _ _ _ _ _ _ Q3 Q2 Q1 E) as (rt' & s' & H1 & H2 & H3 & H4).
      constructor; cbn [wc_sock wc_slot ws_workers].
      * apply G.
      * intros j u Nj Hj. destruct (K _ _ Nj Hj).
      * intros j j' u u' Nj _ Hj. destruct (K _ _ Nj Hj).
      * split; [auto|]. exists rt', s'. cbn [calls received wc_log wc_sock]. rewrite Nat.eqb_refl. auto.
    + rewrite nth_set_other in N' by assumption. assert (Hf : (c =? c') = false) by now apply Nat.eqb_neq.
      eapply good_worker with (w' := WFree); [exact W| | | | | |exact (I _ _ N')]; auto. cbn [calls]. rewrite Hf. apply app_nil_r.
  - (* close *) destruct (Nat.eq_dec c c') as [<-|Ne].
    + rewrite (nth_set_same _ _ _ _ N) in N'. inversion N'; subst x'. pose proof (I _ _ N) as G.
      destruct (holder _ _ _ _ _ _ _ _ _ G P (or_introl W)) as (Q1 & Q2 & Q3).
      pose proof (released _ _ _ _ _ _ WFree G W (Nat.eqb_refl c) eq_refl) as K.
      destruct (story_call _ _ _ _ _ _ _ _ _ Q3 Q2 Q1 E) as (rt' & s' & H1 & H2 & H3 & H4).
      constructor; cbn [wc_sock wc_slot ws_workers].
      * apply G.
      * intros j u Nj Hj. destruct (K _ _ Nj Hj).
      * intros j j' u u' Nj _ Hj. destruct (K _ _ Nj Hj).
      * exists rt', s'. cbn [calls received wc_log wc_sock]. rewrite Nat.eqb_refl. split; auto. split; auto.
        specialize (H2 []). rewrite app_nil_r in H2. exact H2.
    + rewrite nth_set_other in N' by assumption. assert (Hf : (c =? c') = false) by now apply Nat.eqb_neq.
      eapply good_worker with (w' := WFree); [exact W| | | | | |exact (I _ _ N')]; auto. cbn [calls]. rewrite Hf. apply app_nil_r.
  - (* crash *) destruct (Nat.eq_dec c c') as [<-|Ne].
    + rewrite (nth_set_same _ _ _ _ N) in N'. inversion N'; subst x'. pose proof (I _ _ N) as G.
      destruct (holder _ _ _ _ _ _ _ _ _ G P (or_introl W)) as (Q1 & Q2 & Q3).
      pose proof (released _ _ _ _ _ _ WDead G W (Nat.eqb_refl c) eq_refl) as K.
      destruct (story_call _ _ _ _ _ _ _ _ _ Q3 Q2 Q1 E) as (rt' & s' & H1 & H2 & H3 & H4).
      constructor; cbn [wc_sock wc_slot ws_workers].
      * apply G.
      * intros j u Nj Hj. destruct (K _ _ Nj Hj).
      * intros j j' u u' Nj _ Hj. destruct (K _ _ Nj Hj).
      * exists rt', s'. cbn [calls received wc_log wc_sock]. rewrite Nat.eqb_refl. split; auto. split; auto.
        specialize (H2 []). rewrite app_nil_r in H2. exact H2.
    + rewrite nth_set_other in N' by assumption. assert (Hf : (c =? c') = false) by now apply Nat.eqb_neq.
      eapply good_worker with (w' := WDead); [exact W| | | | | |exact (I _ _ N')]; auto. cbn [calls]. rewrite Hf. apply app_nil_r.
Qed.

Lemma winv_run n size ls st : (forall c, exists rt, respects c rt) -> wrun dbg R (w_init n size) ls st -> winv ls st.
Proof.
  intros Tot Rn. remember (w_init n size) as i. induction Rn as [|st0 ls st1 l st2 Rn IH S]; subst; [now apply winv_init|].
  eapply winv_step; eauto.
Qed.

(** ** As a run of Model/Handlers.v *)

Definition hconn (x : wconn) : cstate :=
  mk_cstate (List.length (wc_sock x)) (wc_event x) (match wc_slot x with WHere _ => true | _ => false end)
    (match wc_slot x with WBroken _ => true | _ => false end).
Definition hwork (w : wworker) : hworker :=
  match w with WFree => HFree | WWait c => HWait c | WServe c _ _ _ => HServe c | WDrained c _ _ _ => HDrained c | WDead => HDead end.
Definition habs (st : wstate) : hstate := mk_hstate (map hconn (ws_conns st)) (ws_queue st) (map hwork (ws_workers st)).
Definition hlab (l : wlabel) : hlabel :=
  match l with
  | AArrive c its => LArrive c (List.length its)
  | ANotify c => LNotify c | ADispatch c => LDispatch c | ATake i c => LTake i c | AEnter i c => LEnter i c
  | ASkip i c => LSkip i c | ADie i c => LDie i c | ARead i c e => LRead i c (List.length (event_items e))
  | ADrain i c => LDrain i c | AKeep i c _ => LKeep i c | AClose i c _ => LClose i c | ACrash i c _ => LCrash i c
  end.

Lemma map_set {A C} (f : A -> C) l : forall i x, map f (set_nth i x l) = set_nth i (f x) (map f l).
Proof. induction l as [|y l IH]; intros [|i] x; cbn [set_nth map]; auto. now rewrite IH. Qed.

Lemma held_abs c st : held c (habs st) = wheld c st.
Proof.
  unfold held, wheld, habs. cbn [h_workers]. induction (ws_workers st) as [|w l IH]; auto. cbn [map existsb]. rewrite IH.
  f_equal. destruct w; reflexivity.
Qed.
Lemma alive_abs st : existsb alive (h_workers (habs st)) = existsb walive (ws_workers st).
Proof. unfold habs. cbn [h_workers]. induction (ws_workers st) as [|w l IH]; auto. cbn [map existsb]. rewrite IH. f_equal. destruct w; reflexivity. Qed.

Lemma taken_held ls st c x k : good ls st c x -> wc_slot x = WTaken k -> wheld c st = true.
Proof.
  intros [_ _ _ G] P. rewrite P in G. destruct G as (i & v & rt & got & _ & _ & _ & G). apply existsb_exists.
  destruct G as [G|[G _]]; apply nth_error_In in G; eexists; (split; [exact G|]); cbn; apply Nat.eqb_refl.
Qed.

Lemma open_abs ls st c x : good ls st c x -> nth_error (ws_conns st) c = Some x -> wopen x = true -> is_open c (habs st) = true.
Proof.
  intros G N O. unfold is_open. rewrite held_abs. cbn [habs h_conns]. rewrite (map_nth_error _ _ _ N).
  unfold wopen in O. destruct (wc_slot x) as [k|k|b|b] eqn:P; try discriminate; cbn [hconn c_full]; rewrite P; auto.
  eapply taken_held; eauto.
Qed.

Lemma event_items_pos e : 0 < List.length (event_items e).
Proof. destruct e as [[|b bs]|k]; cbn; lia. Qed.

Lemma habs_step ls st l st' : winv ls st -> wstep dbg R st l st' -> hstep (habs st) (hlab l) (habs st').
Proof.
  intros I S.
  destruct S as [st c x its N O Hn Hp|st c x N|st c x N E A|st i c q W Q|st i c x k v rt W N H P Hr|st i c x sent W N H P|st i c x sent W N H P
    |st i c x k v rt got e rest log' k' W N P E Es|st i c x k v rt got log' k' W N P E Es|st i c x k v rt got log' k' W N P E
    |st i c x k v rt got log' sent W N P E|st i c x k v rt got log' sent W N P E];
    try pose proof (map_nth_error hwork _ _ W) as W'; try pose proof (map_nth_error hconn _ _ N) as N'; try rewrite <- held_abs in H;
    unfold habs, wupd, wput; cbn [hlab ws_conns ws_queue ws_workers]; rewrite ?map_set; cbn [hwork].
  - replace (hconn _) with (mk_cstate (c_unread (hconn x) + List.length its) true (c_full (hconn x)) (c_poisoned (hconn x))).
    2:{ unfold hconn. cbn [wc_sock wc_slot wc_event c_unread c_full c_poisoned]. now rewrite app_length. }
    eapply (st_arrive (habs st)); eauto using open_abs. destruct its; [congruence|cbn; lia].
  - eapply (st_notify (habs st) c (hconn x)); eauto using open_abs.
  - eapply (st_dispatch (habs st) c (hconn x)); eauto. now rewrite alive_abs.
  - eapply (st_take (habs st)); eauto.
  - assert (hconn (mk_wconn (wc_sock x) (wc_event x) (WTaken k) (wc_log x)) = mk_cstate (c_unread (hconn x)) (c_event (hconn x)) false false) as -> by reflexivity.
    eapply (st_enter (habs st)); eauto; unfold hconn; rewrite P; reflexivity.
  - eapply (st_skip (habs st)); eauto; unfold hconn; rewrite P; reflexivity.
  - eapply (st_die (habs st)); eauto; unfold hconn; rewrite P; reflexivity.
  - replace (hconn _) with (mk_cstate (c_unread (hconn x) - List.length (event_items e)) (c_event (hconn x)) (c_full (hconn x)) (c_poisoned (hconn x))).
    2:{ unfold hconn. cbn [wc_sock wc_slot wc_event c_unread c_full c_poisoned c_event]. rewrite Es, app_length. f_equal. lia. }
    replace (set_nth i (HServe c) (map hwork (ws_workers st))) with (map hwork (ws_workers st)).
    2:{ clear - W'. revert i W'. generalize (map hwork (ws_workers st)) as l. induction l as [|y l IH]; intros [|i] W'; cbn [nth_error set_nth] in *; try discriminate.
        - now inversion W'.
        - now rewrite <- IH. }
    eapply (st_read (habs st)); eauto. unfold hconn. cbn [c_unread]. rewrite Es, app_length. pose proof (event_items_pos e). lia.
  - eapply (st_drain (habs st)); eauto. unfold hconn. cbn [c_unread]. now rewrite Es.
  - assert (hconn (mk_wconn (wc_sock x) (wc_event x) (WHere k') log') = mk_cstate (c_unread (hconn x)) (c_event (hconn x)) true (c_poisoned (hconn x))) as ->.
    { unfold hconn. rewrite P. reflexivity. }
    eapply (st_keep (habs st)); eauto.
  - replace (set_nth c (hconn _) (map hconn (ws_conns st))) with (map hconn (ws_conns st)); [eapply (st_close (habs st)); eauto|].
    assert (hconn (mk_wconn (wc_sock x) (wc_event x) (WGone sent) log') = hconn x) as -> by (unfold hconn; rewrite P; reflexivity).
    clear - N'. revert c N'. generalize (map hconn (ws_conns st)) as l. induction l as [|y l IH]; intros [|c] N'; cbn [nth_error set_nth] in *; try discriminate.
    + now inversion N'.
    + now rewrite <- IH.
  - assert (hconn (mk_wconn (wc_sock x) (wc_event x) (WBroken sent) log') = mk_cstate (c_unread (hconn x)) (c_event (hconn x)) (c_full (hconn x)) true) as ->.
    { unfold hconn. rewrite P. reflexivity. }
    eapply (st_crash (habs st)); eauto.
Qed.

Lemma habs_init n size : habs (w_init n size) = h_init n size.
Proof.
  assert (M : forall (A C : Type) (f : A -> C) x k, map f (repeat x k) = repeat (f x) k) by (induction k; cbn; congruence).
  unfold habs, w_init, h_init. cbn [ws_conns ws_queue ws_workers]. now rewrite !M.
Qed.

Lemma habs_run n size ls st : (forall c, exists rt, respects c rt) -> wrun dbg R (w_init n size) ls st ->
  hrun (h_init n size) (map hlab ls) (habs st).
Proof.
  intros Tot Rn. remember (w_init n size) as i. induction Rn as [|st0 ls st1 l st2 Rn IH S]; subst.
  - rewrite habs_init. constructor.
  - cbn [map]. econstructor; [now apply IH|]. eapply habs_step; eauto. eapply winv_run; eauto.
Qed.

(** ** At rest *)

(** What a worker does. *)
Definition working (l : wlabel) : bool := match l with AArrive _ _ | ANotify _ | ADispatch _ => false | _ => true end.

Lemma no_work_idle ls st : (forall c, exists rt, respects c rt) -> winv ls st -> hvalid (habs st) ->
  (forall l st', wstep dbg R st l st' -> working l = false) ->
  (worker_left st = true -> ws_queue st = []) /\ Forall (fun w => w = WFree \/ w = WDead) (ws_workers st).
Proof.
  intros Tot I [V1 V2] A. cbn [habs h_conns h_workers h_queue] in V1, V2. rewrite map_length in V1, V2.
  assert (Ho : Forall (fun w => forall c, wholds c w = false) (ws_workers st)).
  { apply Forall_forall. intros w Hw c. destruct (wholds c w) eqn:Eh; auto. exfalso.
    apply In_nth_error in Hw as [i Hw].
    assert (Hc : c < List.length (ws_conns st)).
    { assert (K := map_nth_error hwork _ _ Hw). apply (Forall_nth _ _ _ _ V2) in K.
      destruct w; cbn [wholds] in Eh; try discriminate; apply Nat.eqb_eq in Eh; subst; exact K. }
    destruct (nth_error (ws_conns st) c) as [x|] eqn:N; [|apply nth_error_None in N; lia].
    pose proof (I _ _ N) as G. destruct (g_taken _ _ _ _ G _ _ Hw Eh) as [k P].
    pose proof (g_story _ _ _ _ G) as St. rewrite P in St. destruct St as (j & v & rt & got & Q1 & Q2 & Q3 & [Q4|[Q4 (log' & k' & Q5)]]).
    - destruct (serve dbg rt v x k got) as [log' [k'|b|b]] eqn:E.
      + destruct (wc_sock x) as [|it rest] eqn:Es.
        * specialize (A _ _ (ws_drain _ _ _ _ _ _ _ _ _ _ _ _ Q4 N P E Es)). discriminate.
        * assert (exists e rest', wc_sock x = event_items e ++ rest') as (e & rest' & Es').
          { rewrite Es. destruct it as [b| |kk]; [exists (RData [b])|exists (RData [])|exists (RErr kk)]; exists rest; reflexivity. }
          specialize (A _ _ (ws_read _ _ _ _ _ _ _ _ _ _ _ _ _ _ Q4 N P E Es')). discriminate.
      + specialize (A _ _ (ws_close _ _ _ _ _ _ _ _ _ _ _ _ Q4 N P E)). discriminate.
      + specialize (A _ _ (ws_crash _ _ _ _ _ _ _ _ _ _ _ _ Q4 N P E)). discriminate.
    - specialize (A _ _ (ws_keep _ _ _ _ _ _ _ _ _ _ _ _ Q4 N P Q5)). discriminate. }
  assert (Hn : forall c, wheld c st = false).
  { intros c. unfold wheld. destruct (existsb _ _) eqn:E; auto. apply existsb_exists in E as (w & E1 & E2).
    rewrite Forall_forall in Ho. rewrite (Ho _ E1) in E2. discriminate. }
  assert (Hw : Forall (fun w => w = WFree \/ w = WDead) (ws_workers st)).
  { apply Forall_forall. intros w Hw. rewrite Forall_forall in Ho. pose proof (Ho _ Hw) as K.
    destruct w as [|c|c v rt got|c v rt got|]; auto; exfalso.
    2:{ specialize (K c). cbn in K. rewrite Nat.eqb_refl in K. discriminate. }
    2:{ specialize (K c). cbn in K. rewrite Nat.eqb_refl in K. discriminate. }
    apply In_nth_error in Hw as [i Hw].
    assert (Hc : c < List.length (ws_conns st)).
    { assert (K' := map_nth_error hwork _ _ Hw). apply (Forall_nth _ _ _ _ V2) in K'. exact K'. }
    destruct (nth_error (ws_conns st) c) as [x|] eqn:N; [|apply nth_error_None in N; lia].
    destruct (wc_slot x) as [k|k|b|b] eqn:P.
    - destruct (Tot c) as [rt Hr].
      specialize (A _ _ (ws_enter _ _ _ _ _ _ _ (mk_visit [] []) rt Hw N (Hn c) P Hr)). discriminate.
    - pose proof (taken_held _ _ _ _ _ (I _ _ N) P). rewrite Hn in H. discriminate.
    - specialize (A _ _ (ws_skip _ _ _ _ _ _ _ Hw N (Hn c) P)). discriminate.
    - specialize (A _ _ (ws_die _ _ _ _ _ _ _ Hw N (Hn c) P)). discriminate. }
  split; auto. intros L. unfold worker_left in L. apply existsb_exists in L as (w & L1 & L2). rewrite Forall_forall in Hw.
  destruct (Hw _ L1) as [-> | ->]; [|discriminate]. apply In_nth_error in L1 as [i L1].
  destruct (ws_queue st) as [|c q] eqn:Q; auto. specialize (A _ _ (ws_take _ _ _ _ _ _ L1 Q)). discriminate.
Qed.

Lemma at_rest_idle n size ls st : (forall c, exists rt, respects c rt) -> wrun dbg R (w_init n size) ls st ->
  at_rest dbg R st -> worker_left st = true ->
  ws_queue st = [] /\ Forall (fun x => wc_event x = false) (ws_conns st) /\
  Forall (fun w => w = WFree \/ w = WDead) (ws_workers st).
Proof.
  intros Tot Rn A L. destruct (no_work_idle ls st Tot) as [Q W].
  - eapply winv_run; eauto.
  - eapply hvalid_run, habs_run; eauto.
  - intros l st' S. apply A in S. destruct l; auto; discriminate.
  - split; auto. split; auto.
    apply Forall_forall. intros x Hx. apply In_nth_error in Hx as [c N]. destruct (wc_event x) eqn:E; auto.
    specialize (A _ _ (ws_dispatch _ _ _ _ _ N E L)). discriminate.
Qed.

Lemma idle_read n size ls st c x : (forall c, exists rt, respects c rt) -> wrun dbg R (w_init n size) ls st ->
  ~ In c (ws_queue st) -> Forall (fun w => w = WFree \/ w = WDead) (ws_workers st) ->
  nth_error (ws_conns st) c = Some x -> wc_event x = false -> wopen x = true ->
  wc_sock x = [] /\ exists k, wc_slot x = WHere k.
Proof.
  intros Tot Rn Q W N E O.
  pose proof (habs_run _ _ _ _ Tot Rn) as Hr. pose proof (winv_run _ _ _ _ Tot Rn c x N) as G.
  assert (H : exists k, wc_slot x = WHere k).
  { unfold wopen in O. destruct (wc_slot x) as [k|k|b|b] eqn:P; try discriminate; eauto.
    pose proof (taken_held _ _ _ _ _ G P) as K. unfold wheld in K. apply existsb_exists in K as (w & K1 & K2).
    rewrite Forall_forall in W. destruct (W _ K1) as [->| ->]; discriminate. }
  split; auto. destruct (wc_sock x) as [|it rest] eqn:Es; auto. exfalso.
  destruct (hinv_run _ _ _ _ Hr c (hconn x)) as [_ I2]; [cbn; now apply map_nth_error|].
  destruct I2 as [K|[K|K]].
  - unfold hconn. cbn [c_unread]. rewrite Es. cbn. lia.
  - eapply open_abs; eauto.
  - cbn in K. congruence.
  - cbn in K. contradiction.
  - apply hcount_pos, existsb_exists in K as (w & K1 & K2). cbn [habs h_workers] in K1. apply in_map_iff in K1 as (w' & <- & K1).
    rewrite Forall_forall in W. destruct (W _ K1) as [->| ->]; discriminate.
Qed.

(** Nothing is left unread of a connection that is still there. *)
Lemma at_rest_read n size ls st c x : (forall c, exists rt, respects c rt) -> wrun dbg R (w_init n size) ls st ->
  at_rest dbg R st -> worker_left st = true -> nth_error (ws_conns st) c = Some x -> wopen x = true ->
  wc_sock x = [] /\ exists k, wc_slot x = WHere k.
Proof.
  intros Tot Rn A L N O. destruct (at_rest_idle _ _ _ _ Tot Rn A L) as (Q & E & W).
  eapply idle_read; eauto; [now rewrite Q|]. exact (Forall_nth _ _ _ _ E N).
Qed.
End Whole.
