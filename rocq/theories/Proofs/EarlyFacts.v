(** What a call of the handler has sent while it runs. *)
From Coq Require Import List Ascii String Arith NArith Bool Lia.
From Coq Require Import ZifyBool ZifyNat ZifyN.
From Verif.Model Require Import Bytes Io Common Parse Encode Writer Server Client Slab Poll Whole Full.
From Verif.Spec Require Import Batch Stream Drive Numerals Names Grammar Wire Unicode Output Session Exchange Dialogue Arrivals Events World Early.
From Verif.Proofs Require Import BytesFacts CommonFacts IoFacts ParseFacts DriveFacts CallFacts BatchFacts LimitGrammar LimitFacts EncodeFacts
  WriterFacts OpsFacts ServerFacts ConnFacts FrameFacts ClientFacts AppendFacts WholeFacts FullFacts WorldFacts.
From Verif.Properties Require Import RoundTrip Server Client Whole Full.
Import ListNotations.

Definition leads {A} (a b : list A) : Prop := exists d, b = a ++ d.
Lemma leads_refl {A} (a : list A) : leads a a. Proof. exists []. now rewrite app_nil_r. Qed.
Lemma leads_trans {A} (a b c : list A) : leads a b -> leads b c -> leads a c.
Proof. intros (d & ->) (e & ->). exists (d ++ e). now rewrite app_assoc. Qed.

(** ** A call that reads more *)

Lemma respond_leads dbg rt f : forall log c vd log' c', respond f dbg rt log c = (vd, log', c') -> leads log log'.
Proof.
  induction f as [|f IH]; intros log c vd log' c' E; cbn [respond] in E; [inversion E; subst; apply leads_refl|].
  destruct (read_request dbg (cn_in c) (cn_parser c)) as [[rr s'] p'].
  destruct rr as [|r|e|k| |]; try (inversion E; subst; apply leads_refl).
  - assert (One : leads log (log ++ [r])) by (eexists; reflexivity).
    destruct (rt log r) as [|a|]; [| |inversion E; subst; auto].
    all: destruct (run_ops (cn_w c) (cn_sock c) _) as [[[u|k1] w1] k2]; [|inversion E; subst; auto];
      destruct (should_close_after_response r); [inversion E; subst; auto|]; eapply leads_trans; [exact One|exact (IH _ _ _ _ _ E)].
  - destruct (run_ops _ _ error_ops) as [[u w1] k1]. inversion E; subst; apply leads_refl.
  - destruct (run_ops _ _ error_ops) as [[u w1] k1]. inversion E; subst; apply leads_refl.
Qed.

Lemma respond_more dbg rt m f1 : forall f2 log c log' c' vd log2 c2, parser_fine (cn_parser c) -> Forall ordinary (cn_in c) ->
  respond f1 dbg rt log c = (Keep, log', c') -> f1 <= f2 -> respond f2 dbg rt log (set_in c (cn_in c ++ m)) = (vd, log2, c2) ->
  grows (sk_sent (cn_sock c')) (sk_sent (cn_sock c2)) /\ leads log' log2.
Proof.
  induction f1 as [|f1 IH]; intros f2 log c log' c' vd log2 c2 Hp O E L E2; [discriminate E|]. destruct f2 as [|f2]; [lia|].
  cbn [respond] in E. destruct (read_request dbg (cn_in c) (cn_parser c)) as [[r s1] p1] eqn:E1.
  destruct (read_fine _ _ _ _ _ _ Hp E1) as [Hp1 _]. destruct (read_request_frame _ _ _ _ _ _ [] Hp O E1) as (O1 & _ & _).
  destruct r as [|v|e|k| |]; try discriminate.
  - inversion E; subst. cbn [cn_sock] in *. split; [apply respond_grows in E2; exact E2|eapply respond_leads; eauto].
  - cbn [respond] in E2. change (cn_in (set_in c (cn_in c ++ m))) with (cn_in c ++ m) in E2.
    change (cn_parser (set_in c (cn_in c ++ m))) with (cn_parser c) in E2. change (cn_w (set_in c (cn_in c ++ m))) with (cn_w c) in E2.
    change (cn_sock (set_in c (cn_in c ++ m))) with (cn_sock c) in E2. rewrite (read_request_more _ _ _ _ _ _ m Hp O E1) in E2.
    destruct (rt log v); try discriminate.
    all: destruct (run_ops (cn_w c) (cn_sock c) _) as [[[u|k] w1] k1]; try discriminate;
      destruct (should_close_after_response v); try discriminate;
      eapply (IH f2 _ (mk_conn s1 p1 w1 k1)); eauto; lia.
  - destruct (run_ops _ _ error_ops) as [[u w1] k1]. discriminate.
  - destruct (run_ops _ _ error_ops) as [[u w1] k1]. discriminate.
Qed.

Lemma serve_leads dbg rt v x k got log s : serve dbg rt v x k got = (log, s) -> leads (wc_log x) log.
Proof.
  unfold serve. cbn [handle]. destruct (wr_flush _ _) as [[[u|e] w1] k1]; [|intros E; inversion E; subst; apply leads_refl].
  unfold respond_to_requests. destruct (respond _ _ _ _ _) as [[vd l1] c1] eqn:Er. intros E; inversion E; subst. eapply respond_leads; eauto.
Qed.

Lemma serve_more dbg rt v x k got e log1 k1 log2 s2 : cn_in k = [] -> parser_fine (cn_parser k) -> Forall ordinary got ->
  serve dbg rt v x k got = (log1, Open k1) -> serve dbg rt v x k (got ++ [e]) = (log2, s2) ->
  grows (sk_sent (cn_sock k1)) (slot_sent s2) /\ leads log1 log2.
Proof.
  intros H0 Hp O E1 E2. unfold serve in *. rewrite H0 in *. cbn [app handle cn_in cn_parser cn_w cn_sock] in *.
  destruct (wr_flush (cn_w k) _) as [[[u|er] w1] s1]; [|discriminate].
  unfold respond_to_requests in *. cbn [cn_in] in *.
  destruct (respond _ _ _ _ _) as [[vd1 l1] c1] eqn:Er1 in E1. destruct (respond _ _ _ _ _) as [[vd2 l2] c2] eqn:Er2 in E2.
  destruct vd1; try discriminate. inversion E1; subst. inversion E2; subst.
  change (mk_conn (got ++ [e]) (cn_parser k) w1 s1) with
    (set_in (mk_conn got (cn_parser k) w1 s1) (cn_in (mk_conn got (cn_parser k) w1 s1) ++ [e])) in Er2.
  destruct (respond_more dbg rt [e] _ _ _ (mk_conn got (cn_parser k) w1 s1) _ _ _ _ _ Hp O Er1 (le_n_S _ _ (le_n_S _ _ (mu_app got [e]))) Er2) as [G L].
  split; auto. destruct vd2; exact G.
Qed.

(** ** What is shown *)

Section Shows.
Variables (dbg : bool) (R : nat -> request -> lresult -> Prop).

Lemma holds_serve c w : wholds c w = true -> exists v rt got, w = WServe c v rt got \/ w = WDrained c v rt got.
Proof. destruct w; cbn [wholds]; try discriminate; intros H; apply Nat.eqb_eq in H; subst; eauto. Qed.
Lemma serve_holds c v rt got : wholds c (WServe c v rt got) = true. Proof. apply Nat.eqb_refl. Qed.
Lemma drained_holds c v rt got : wholds c (WDrained c v rt got) = true. Proof. apply Nat.eqb_refl. Qed.

Lemma shows_total ls w c x : good dbg R ls w c x -> nth_error (ws_conns w) c = Some x -> exists b log, shows dbg c w b log.
Proof.
  intros G N. pose proof (g_story _ _ _ _ _ _ G) as St. destruct (wc_slot x) as [k|k|b|b] eqn:P.
  1,3,4: do 2 eexists; eapply shows_between; [exact N|rewrite P; discriminate].
  destruct St as (i & v & rt & got & _ & _ & _ & Q). destruct (serve dbg rt v x k got) as [log s] eqn:E.
  exists (slot_sent s), log. eapply (shows_during dbg c w x k i); eauto. destruct Q as [Q|[Q _]]; auto.
Qed.

Lemma shows_unique ls w c x b log b' log' : good dbg R ls w c x -> nth_error (ws_conns w) c = Some x ->
  shows dbg c w b log -> shows dbg c w b' log' -> b = b' /\ log = log'.
Proof.
  intros G N S S'. inversion S as [N1|x1 N1 P1|x1 k1 i1 v1 rt1 got1 l1 s1 N1 P1 W1 E1]; subst;
    inversion S' as [N2|x2 N2 P2|x2 k2 i2 v2 rt2 got2 l2 s2 N2 P2 W2 E2]; subst; try congruence; rewrite N1 in N2; inversion N2; subst; auto;
    try (destruct (P1 _ P2); fail); try (destruct (P2 _ P1); fail).
  - rewrite P1 in P2. inversion P2; subst k2.
    assert (i1 = i2) as ->.
    { destruct W1 as [W1|W1], W2 as [W2|W2]; eapply (g_one _ _ _ _ _ _ G); eauto using serve_holds, drained_holds. }
    assert (v1 = v2 /\ rt1 = rt2 /\ got1 = got2) as (-> & -> & ->).
    { destruct W1 as [W1|W1], W2 as [W2|W2]; rewrite W1 in W2; inversion W2; auto. }
    rewrite E1 in E2. inversion E2; subst. auto.
Qed.

(** Nothing about [c] changed. *)
Lemma shows_back w w' c x y b log : nth_error (ws_conns w) c = Some x -> nth_error (ws_conns w') c = Some y ->
  wc_slot y = wc_slot x -> wc_log y = wc_log x ->
  (forall j u, nth_error (ws_workers w') j = Some u -> wholds c u = true -> nth_error (ws_workers w) j = Some u) ->
  shows dbg c w' b log -> shows dbg c w b log.
Proof.
  intros N N' Es El Hw S. inversion S as [N1|x1 N1 P1|x1 k1 i1 v1 rt1 got1 l1 s1 N1 P1 W1 E1]; subst; [congruence| |]; rewrite N' in N1; inversion N1; subst x1.
  - rewrite Es, El. apply shows_between; auto. intros k. rewrite <- Es. apply P1.
  - apply (shows_during dbg c w x k1 i1 v1 rt1 got1); auto; [congruence| |].
    + destruct W1 as [W1|W1]; [left|right]; apply Hw; auto using serve_holds, drained_holds.
    + unfold serve in *. now rewrite <- El.
Qed.

Definition further (b b' : bytes) (log log' : list request) : Prop := grows b b' /\ leads log log'.
Lemma further_refl b log : further b b log log. Proof. split; [apply grows_refl|apply leads_refl]. Qed.

Lemma set_holds (l : list wworker) i w' c : wholds c w' = false -> forall j u, nth_error (set_nth i w' l) j = Some u ->
  wholds c u = true -> nth_error l j = Some u.
Proof.
  intros H j u. rewrite nth_set. destruct (Nat.eqb_spec i j) as [-> |]; auto. destruct (nth_error l j); [|discriminate].
  intros E. inversion E; subst. congruence.
Qed.

Lemma wstep_further ls w l w' c x b log b' log' : good dbg R ls w c x -> nth_error (ws_conns w) c = Some x -> wstep dbg R w l w' ->
  shows dbg c w b log -> shows dbg c w' b' log' -> further b b' log log'.
Proof.
  intros G N S S1 S2.
  assert (Back : forall y, nth_error (ws_conns w') c = Some y -> wc_slot y = wc_slot x -> wc_log y = wc_log x ->
    (forall j u, nth_error (ws_workers w') j = Some u -> wholds c u = true -> nth_error (ws_workers w) j = Some u) -> further b b' log log').
  { intros y Ny Es El Hw. destruct (shows_unique _ _ _ _ _ _ _ _ G N S1 (shows_back _ _ _ _ _ _ _ N Ny Es El Hw S2)) as [-> ->]. apply further_refl. }
  (* a step of a connection that leaves it as it is *)
  assert (Quiet : forall d z y, nth_error (ws_conns w) d = Some z -> wc_slot y = wc_slot z -> wc_log y = wc_log z ->
    ws_conns w' = set_nth d y (ws_conns w) ->
    (forall j u, nth_error (ws_workers w') j = Some u -> wholds c u = true -> nth_error (ws_workers w) j = Some u) -> further b b' log log').
  { intros d z y Nd Es El Ec Hw. destruct (Nat.eq_dec d c) as [-> |Ne].
    - rewrite N in Nd. inversion Nd; subst z. apply (Back y); auto. now rewrite Ec, nth_set, Nat.eqb_refl, N.
    - apply (Back x); auto. rewrite Ec, nth_set. destruct (Nat.eqb_spec d c); congruence. }
  (* a step of another connection *)
  assert (Other : forall d y i u, d <> c -> ws_conns w' = set_nth d y (ws_conns w) -> ws_workers w' = set_nth i u (ws_workers w) ->
    wholds c u = false -> further b b' log log').
  { intros d y i u Ne Ec Ew Hu. apply (Back x); auto.
    - rewrite Ec, nth_set. destruct (Nat.eqb_spec d c); congruence.
    - rewrite Ew. now apply set_holds. }
  (* the call that runs *)
  assert (Now : forall i k v rt got lg sl, wc_slot x = WTaken k ->
    nth_error (ws_workers w) i = Some (WServe c v rt got) \/ nth_error (ws_workers w) i = Some (WDrained c v rt got) ->
    serve dbg rt v x k got = (lg, sl) -> b = slot_sent sl /\ log = lg).
  { intros i k v rt got lg sl P W E. eapply shows_unique; eauto. eapply shows_during; eauto. }
  (* ... and is still the only one *)
  assert (Next : forall i u y k v rt got, ws_workers w' = set_nth i u (ws_workers w) -> u = WServe c v rt got \/ u = WDrained c v rt got ->
    ws_conns w' = set_nth c y (ws_conns w) \/ (ws_conns w' = ws_conns w /\ y = x) -> wc_slot y = WTaken k ->
    (forall j u', nth_error (ws_workers w) j = Some u' -> wholds c u' = true -> j = i) ->
    exists sl, serve dbg rt v y k got = (log', sl) /\ b' = slot_sent sl).
  { intros i u y k v rt got Ew Eu Ec P One.
    assert (Ny : nth_error (ws_conns w') c = Some y).
    { destruct Ec as [-> |[-> ->]]; auto. now rewrite nth_set, Nat.eqb_refl, N. }
    inversion S2 as [N1|x1 N1 P1|x1 k1 i1 v1 rt1 got1 l1 s1 N1 P1 W1 E1]; subst; rewrite Ny in N1; inversion N1; subst x1; [destruct (P1 _ P)|].
    rewrite P in P1. inversion P1; subst k1. exists s1. split; auto. rewrite Ew in W1. rewrite nth_set in W1.
    destruct (Nat.eqb_spec i i1) as [<- |Ne].
    - destruct (nth_error (ws_workers w) i); [|destruct W1; discriminate]. destruct Eu as [-> | ->], W1 as [W1|W1]; inversion W1; subst; auto.
    - exfalso. apply Ne. symmetry. destruct W1 as [W1|W1]; eapply One; eauto using serve_holds, drained_holds. }
  (* it ended *)
  assert (Ended : forall y, ws_conns w' = set_nth c y (ws_conns w) -> (forall k, wc_slot y <> WTaken k) -> b' = slot_sent (as_slot (wc_slot y)) /\ log' = wc_log y).
  { intros y Ec P. assert (Ny : nth_error (ws_conns w') c = Some y) by now rewrite Ec, nth_set, Nat.eqb_refl, N.
    inversion S2 as [N1|x1 N1 P1|x1 k1 i1 v1 rt1 got1 l1 s1 N1 P1 W1 E1]; subst; rewrite Ny in N1; inversion N1; subst x1; auto. destruct (P _ P1). }
  assert (One : forall i u j u', nth_error (ws_workers w) i = Some u -> wholds c u = true -> nth_error (ws_workers w) j = Some u' -> wholds c u' = true -> j = i).
  { intros i u j u' Ni Hi Nj Hj. eapply (g_one _ _ _ _ _ _ G); eauto. }
  inversion S as [? d z its Nd O1 O2 O3|? d z Nd|? d z Nd Ev Al|? i d q Ni Q|? i d z k v rt Ni Nd Hd P Hr|? i d z sent Ni Nd Hd P|? i d z sent Ni Nd Hd P
    |? i d z k v rt got e rest lg k' Ni Nd P E Es|? i d z k v rt got lg k' Ni Nd P E Es|? i d z k v rt got lg k' Ni Nd P E
    |? i d z k v rt got lg sent Ni Nd P E|? i d z k v rt got lg sent Ni Nd P E]; subst; cbn [ws_conns ws_workers] in *; unfold wupd, wput in *.
  - eapply (Quiet d z); [exact Nd| | |reflexivity|]; auto.
  - eapply (Quiet d z); [exact Nd| | |reflexivity|]; auto.
  - eapply (Quiet d z); [exact Nd| | |reflexivity|]; auto.
  - apply (Back x); auto. now apply set_holds.
  - destruct (Nat.eq_dec d c) as [-> |Ne].
    2:{ eapply Other; [exact Ne|reflexivity|reflexivity|]. cbn [wholds]. now apply Nat.eqb_neq. }
    rewrite N in Nd. inversion Nd; subst z.
    destruct (Next i _ _ k v rt [] eq_refl (or_introl eq_refl) (or_introl eq_refl) eq_refl) as (sl & E & ->).
    { intros j u' Nj Hj. pose proof (wheld_none _ _ _ _ Hd Nj). congruence. }
    assert (K : b = slot_sent (as_slot (wc_slot x)) /\ log = wc_log x).
    { eapply shows_unique; eauto. apply shows_between; auto. rewrite P. discriminate. }
    destruct K as [-> ->]. split; [|eapply serve_leads in E; exact E]. rewrite P. unfold serve in E. apply handle_grows in E. exact E.
  - apply (Back x); auto. now apply set_holds.
  - apply (Back x); auto. now apply set_holds.
  - destruct (Nat.eq_dec d c) as [-> |Ne].
    2:{ eapply Other; [exact Ne|reflexivity|reflexivity|]. cbn [wholds]. now apply Nat.eqb_neq. }
    rewrite N in Nd. inversion Nd; subst z. destruct (Now _ _ _ _ _ _ _ P (or_introl Ni) E) as [-> ->].
    destruct (holder _ _ _ _ _ _ _ _ _ _ _ G P (or_introl Ni)) as (O & _ & St).
    destruct (Next i _ _ k v rt (got ++ [e]) eq_refl (or_introl eq_refl) (or_introl eq_refl) P) as (sl & E' & ->).
    { intros j u' Nj Hj. eapply One; eauto using serve_holds. }
    exact (serve_more dbg rt v x k got e _ _ _ _ (proj1 St) (story_fine _ _ _ _ _ _ _ St) O E E').
  - destruct (Nat.eq_dec d c) as [-> |Ne].
    2:{ apply (Back x); auto. apply set_holds. cbn [wholds]. now apply Nat.eqb_neq. }
    rewrite N in Nd. inversion Nd; subst z. destruct (Now _ _ _ _ _ _ _ P (or_introl Ni) E) as [-> ->].
    destruct (Next i _ x k v rt got eq_refl (or_intror eq_refl) (or_intror (conj eq_refl eq_refl)) P) as (sl & E' & ->).
    { intros j u' Nj Hj. eapply One; eauto using serve_holds. }
    rewrite E in E'. inversion E'; subst. apply further_refl.
  - destruct (Nat.eq_dec d c) as [-> |Ne]; [|eapply Other; [exact Ne|reflexivity|reflexivity|reflexivity]].
    rewrite N in Nd. inversion Nd; subst z. destruct (Now _ _ _ _ _ _ _ P (or_intror Ni) E) as [-> ->].
    destruct (Ended _ eq_refl) as [-> ->]; [discriminate|]. apply further_refl.
  - destruct (Nat.eq_dec d c) as [-> |Ne]; [|eapply Other; [exact Ne|reflexivity|reflexivity|reflexivity]].
    rewrite N in Nd. inversion Nd; subst z. destruct (Now _ _ _ _ _ _ _ P (or_introl Ni) E) as [-> ->].
    destruct (Ended _ eq_refl) as [-> ->]; [discriminate|]. apply further_refl.
  - destruct (Nat.eq_dec d c) as [-> |Ne]; [|eapply Other; [exact Ne|reflexivity|reflexivity|reflexivity]].
    rewrite N in Nd. inversion Nd; subst z. destruct (Now _ _ _ _ _ _ _ P (or_introl Ni) E) as [-> ->].
    destruct (Ended _ eq_refl) as [-> ->]; [discriminate|]. apply further_refl.
Qed.
End Shows.

(** ** With the event loop *)

Lemma full_good dbg R size ls st c x : has_router R -> frun dbg R (f_init size) ls st -> nth_error (ws_conns (f_w st)) c = Some x ->
  exists L, good dbg R L (f_w st) c x /\ received c L = received c (wparts ls) /\ calls c L = calls c (wparts ls).
Proof.
  intros Tot Rn N. pose proof (conn_lt _ _ _ _ _ _ _ Rn N) as Lt. destruct (sim_run dbg R _ _ _ Rn _ (le_n _)) as (L & RL & Er & Ec).
  exists L. split; auto. eapply good_event; [|eapply winv_run; [exact Tot|exact RL|]]; [reflexivity|]. apply retag_nth; eauto.
Qed.

Lemma clear_event_same l d c x : nth_error l c = Some x -> exists y, nth_error (clear_event l d) c = Some y /\ wc_slot y = wc_slot x /\ wc_log y = wc_log x.
Proof.
  intros N. unfold clear_event. destruct (nth_error l d) as [z|] eqn:E; [|eauto]. rewrite nth_set. destruct (Nat.eqb_spec d c) as [-> |]; [|eauto].
  rewrite E. eexists. split; [reflexivity|]. rewrite N in E. inversion E; subst. auto.
Qed.

Lemma fstep_further dbg R size ls a l a' c b log b' log' : has_router R -> frun dbg R (f_init size) ls a -> fstep dbg R a l a' ->
  shows dbg c (f_w a) b log -> shows dbg c (f_w a') b' log' -> further b b' log log'.
Proof.
  intros Tot Rn S S1 S2. destruct (nth_error (ws_conns (f_w a)) c) as [x|] eqn:N.
  2:{ inversion S1; subst; try congruence. split; eexists; reflexivity. }
  destruct (full_good _ _ _ _ _ _ _ Tot Rn N) as (L & G & _).
  assert (Back : forall y, nth_error (ws_conns (f_w a')) c = Some y -> wc_slot y = wc_slot x -> wc_log y = wc_log x ->
    ws_workers (f_w a') = ws_workers (f_w a) -> further b b' log log').
  { intros y Ny Es El Ew. destruct (shows_unique dbg R _ _ _ _ _ _ b' log' G N S1) as [-> ->]; [|apply further_refl].
    eapply shows_back; eauto. rewrite Ew. auto. }
  inversion S; subst; cbn [f_w] in *; try (eapply wstep_further; eassumption).
  - unfold polled in *. cbn [ws_conns ws_workers] in *.
    assert (K : forall ds l x, nth_error l c = Some x -> exists y, nth_error (fold_left clear_event ds l) c = Some y /\ wc_slot y = wc_slot x /\ wc_log y = wc_log x).
    { clear. induction ds as [|d ds IH]; intros l x N; cbn [fold_left]; [eauto|]. destruct (clear_event_same l d c x N) as (y & Ny & E1 & E2).
      destruct (IH _ _ Ny) as (z & H1 & H2 & H3). exists z. rewrite H2, H3. auto. }
    destruct (K (flat_map socket_of (p_batch p')) _ _ N) as (y & Ny & E1 & E2). eapply (Back y); eauto.
  - eapply (Back x); eauto.
  - eapply (Back x); eauto. unfold add_conn. cbn [ws_conns]. rewrite nth_error_app1; auto. apply nth_error_Some. congruence.
  - destruct r; eapply (Back x); eauto.
Qed.

(** The sends of a call that ended or still runs. *)
Lemma wstep_calls dbg R w l w' c v : wstep dbg R w l w' -> In v (flat_map (in_call c) (ws_workers w)) ->
  In v (flat_map (in_call c) (ws_workers w')) \/ In v (calls c [l]).
Proof.
  intros S I. apply in_flat_map in I as (u & Iu & Iv). apply In_nth_error in Iu as (j & Nj).
  assert (Keep : forall i u', ws_workers w' = set_nth i u' (ws_workers w) ->
    (forall u0, nth_error (ws_workers w) i = Some u0 -> In v (in_call c u0) -> In v (in_call c u') \/ In v (calls c [l])) ->
    In v (flat_map (in_call c) (ws_workers w')) \/ In v (calls c [l])).
  { intros i u' Ew H. destruct (Nat.eq_dec i j) as [-> |Ne].
    - destruct (H _ Nj Iv) as [K|K]; auto. left. apply in_flat_map. exists u'. split; auto. rewrite Ew. apply (nth_error_In _ j). now rewrite nth_set, Nat.eqb_refl, Nj.
    - left. apply in_flat_map. exists u. split; auto. rewrite Ew. apply (nth_error_In _ j). rewrite nth_set. destruct (Nat.eqb_spec i j); congruence. }
  assert (Same : ws_workers w' = ws_workers w -> In v (flat_map (in_call c) (ws_workers w')) \/ In v (calls c [l])).
  { intros Ew. left. apply in_flat_map. exists u. rewrite Ew. split; auto. eapply nth_error_In; eauto. }
  inversion S; subst; cbn [ws_workers] in *; try (apply Same; reflexivity); (eapply Keep; [reflexivity|]); intros u0 N0 I0; rewrite N0 in *;
    match goal with H : Some _ = Some _ |- _ => inversion H; subst end; cbn [in_call] in *; try (destruct I0; fail); auto;
    right; cbn [calls app]; destruct (Nat.eqb_spec c0 c); cbn in *; auto.
Qed.

Lemma fstep_calls dbg R a l a' c v : fstep dbg R a l a' -> In v (flat_map (in_call c) (ws_workers (f_w a))) ->
  In v (flat_map (in_call c) (ws_workers (f_w a'))) \/ In v (calls c (wparts [l])).
Proof.
  intros S I. inversion S; subst; cbn [f_w wparts flat_map wpart app] in *; try (eapply wstep_calls; eassumption); auto.
  left. destruct r; exact I.
Qed.

Lemma all_calls_step dbg R a l a' c ls (P : visit -> Prop) : fstep dbg R a l a' -> Forall P (all_calls c (l :: ls) a') -> Forall P (all_calls c ls a).
Proof.
  intros S F. unfold all_calls in *. change (l :: ls) with ([l] ++ ls) in F. rewrite wparts_app in F.
  assert (K : calls c (wparts [l] ++ wparts ls) = calls c (wparts ls) ++ calls c (wparts [l])).
  { clear. generalize (wparts ls) as y. generalize (wparts [l]) as x. induction x as [|z x IH]; intros y; cbn [app calls]; [now rewrite app_nil_r|].
    destruct z; rewrite ?IH; auto; now rewrite <- app_assoc. }
  rewrite K in F. apply Forall_app in F as [F F2]. apply Forall_app in F as [F1 F3]. apply Forall_app. split; auto.
  rewrite Forall_forall in *. intros v I. destruct (fstep_calls _ _ _ _ _ _ _ S I); auto.
Qed.

Lemma shows_exists dbg R size ls st c : has_router R -> frun dbg R (f_init size) ls st -> exists b log, shows dbg c (f_w st) b log.
Proof.
  intros Tot Rn. destruct (nth_error (ws_conns (f_w st)) c) as [x|] eqn:N; [|exists [], []; now constructor].
  destruct (full_good _ _ _ _ _ _ _ Tot Rn N) as (L & G & _). eapply shows_total; eauto.
Qed.
Lemma shows_one dbg R size ls st c b log b' log' : has_router R -> frun dbg R (f_init size) ls st ->
  shows dbg c (f_w st) b log -> shows dbg c (f_w st) b' log' -> b = b' /\ log = log'.
Proof.
  intros Tot Rn S S'. destruct (nth_error (ws_conns (f_w st)) c) as [x|] eqn:N.
  - destruct (full_good _ _ _ _ _ _ _ Tot Rn N) as (L & G & _). eapply shows_unique; eauto.
  - inversion S; subst; try congruence. inversion S'; subst; try congruence. auto.
Qed.
Lemma sent_shown dbg c st b log : shows dbg c (f_w st) b log -> grows (sent_on c st) b.
Proof.
  intros S. unfold sent_on. inversion S; subst; rewrite H; [apply grows_refl|apply grows_refl|].
  change (slot_sent (as_slot (wc_slot x))) with (conn_sent x). eapply serve_grows; eauto.
Qed.

Lemma shows_story dbg R size ls st c b log : has_router R -> frun dbg R (f_init size) ls st -> shows dbg c (f_w st) b log ->
  exists rt s sl vs rest, (forall h q, R c q (rt h q)) /\ received c (wparts ls) = items s ++ rest /\
    visits dbg rt vs [] (Open (conn_new s)) = (log, sl) /\ b = slot_sent sl /\ (forall v, In v vs -> In v (all_calls c ls st)).
Proof.
  intros Tot Rn S. inversion S as [N|x N P|x k i v rt got lg s N P W E]; subst.
  - destruct (Tot c) as (rt & H). exists rt, [], (Open (conn_new [])), [], (received c (wparts ls)). repeat split; auto. intros v [].
  - destruct (C69_with_event_loop _ _ _ _ _ _ _ Tot Rn N) as (rt & s & busy & H1 & H2 & H3 & _).
    exists rt, s, (as_slot (wc_slot x)), (calls c (wparts ls)), (items busy ++ wc_sock x). repeat (split; auto). intros v I. apply in_or_app. auto.
  - destruct (full_good _ _ _ _ _ _ _ Tot Rn N) as (L & G & Er & Ec). destruct (holder _ _ _ _ _ _ _ _ _ _ _ G P W) as (O & Hr & St).
    destruct (story_call _ _ _ _ _ _ _ _ _ _ _ St Hr O E) as (rt' & s' & H1 & H2 & H3 & H4). specialize (H2 []).
    exists rt', (s' ++ []), (match s with Open k' => Open (set_in k' []) | _ => s end), (calls c L ++ [v]), (wc_sock x).
    split; [exact H1|]. split; [rewrite app_nil_r; congruence|]. split; auto. split; [destruct s; reflexivity|].
    intros u I. unfold all_calls. rewrite Ec in I. apply in_app_or in I as [I|[<- |[]]]; apply in_or_app; auto. right.
    apply in_flat_map. destruct W as [W|W]; apply nth_error_In in W; eexists; split; eauto; cbn [in_call]; rewrite Nat.eqb_refl; now left.
Qed.

Lemma early_server_side dbg R size ls st c rs b b' sent log : has_router R -> frun dbg R (f_init size) ls st -> shows dbg c (f_w st) sent log ->
  readable_answers R c rs -> Forall visit_fine (all_calls c ls st) ->
  Forall visit_steady (all_calls c ls st) \/ short_listeners R c ->
  Forall plain_request rs -> (forall r, In r rs -> ~ asks_close r) ->
  received c (wparts ls) = map IByte b -> b ++ b' = List.concat (map write_request rs) ->
  exists rt rs1 rs2 y, (forall h q, R c q (rt h q)) /\ rs = rs1 ++ rs2 /\ Forall2 same_request log rs1 /\ sent ++ y = replies rt [] log.
Proof.
  intros Tot Rn S Ok V Sh F A Rc E. destruct (shows_story _ _ _ _ _ _ _ _ Tot Rn S) as (rt & s & sl & vs & rest & H1 & H2 & H3 & -> & Hv).
  assert (Sub : forall P : visit -> Prop, Forall P (all_calls c ls st) -> Forall P vs) by (intros P; rewrite !Forall_forall; auto).
  rewrite Rc, <- (app_nil_l rest) in H2. change (@nil item) with (items []) in H2.
  apply items_bytes in H2 as (b1 & -> & _ & L & I). rewrite <- app_assoc in E.
  assert (O : orderly false s) by (eapply plain_orderly_part; eauto).
  assert (Np : no_panic rt) by (intros h v U; exact (proj1 Ok v _ U (H1 h v))).
  assert (S' : Forall visit_steady vs \/ short_replies rt).
  { destruct Sh as [Sh|Sh]; [left; auto|right]. intros h v r K. eapply Sh. rewrite <- K. apply H1. }
  symmetry in E. destruct (C26_responses dbg rt false s _ _ _ Np O (Sub _ V) S' H3) as [(k & got & K & Pg & Sv & _)|(sent & rest' & K & Sv)].
  - rewrite Pg, <- app_assoc in E. destruct (plain_part_served rt rs F A _ _ E []) as (l & rs1 & rs2 & Sv' & Hr & H).
    destruct (served_unique _ _ _ _ _ _ _ Sv _ _ _ Sv') as (<- & Ho & _). rewrite K. cbn [slot_sent].
    exists rt, rs1, rs2, (unsent (cn_w k)). repeat split; auto.
  - exfalso. destruct (plain_part_served rt rs F A _ _ E []) as (l & rs1 & rs2 & Sv' & _).
    destruct (served_unique _ _ _ _ _ _ _ Sv _ _ _ Sv') as (_ & _ & X). discriminate.
Qed.

(** ** Histories *)

Lemma early_run dbg R client size socks ls w : early_history dbg R client (world_init size socks) ls w -> frun dbg R (f_init size) ls (wo_server w).
Proof.
  induction 1 as [|ls w l w' H IH S]; [constructor|]. destruct S as [w l w' S|]; [|exact IH]. destruct S; cbn [app wo_server]; auto; econstructor; eauto.
Qed.

(** What is assumed of a client and of the output side of its socket at the server. *)
Definition well_behaved_early (R : nat -> request -> lresult -> Prop) (c : nat) (ls : list flabel) (st : fstate) (p : peer) : Prop :=
  readable_answers R c (asked p) /\
  Forall visit_fine (all_calls c ls st) /\ (Forall visit_steady (all_calls c ls st) \/ short_listeners R c) /\
  Forall plain_request (asked p) /\ (forall q, In q (asked p) -> ~ asks_close q).

Lemma early_asked dbg R client w l w' c : happens_early dbg R client w l w' -> exists qs, asked (wo_peer w' c) = asked (wo_peer w c) ++ qs.
Proof.
  intros S. destruct S as [w l w' S|w d p bs rest0 lg Cd -> En Nb Sn]; [eapply asked_more; eauto|].
  cbn [wo_peer]. unfold with_peer. exists []. rewrite app_nil_r. destruct (Nat.eqb_spec c d); subst; reflexivity.
Qed.

Lemma early_calls dbg R client w l w' c ls (P : visit -> Prop) : happens_early dbg R client w l w' ->
  Forall P (all_calls c (l ++ ls) (wo_server w')) -> Forall P (all_calls c ls (wo_server w)).
Proof.
  intros S. destruct S as [w l w' S|]; [|auto]. destruct S; cbn [app wo_server]; auto; eapply all_calls_step; eauto.
Qed.

Lemma early_before dbg R client w l w' c ls : happens_early dbg R client w l w' ->
  well_behaved_early R c (l ++ ls) (wo_server w') (wo_peer w' c) -> well_behaved_early R c ls (wo_server w) (wo_peer w c).
Proof.
  intros S (H0 & H1 & H2 & H3 & H4). destruct (early_asked _ _ _ _ _ _ c S) as (qs & E). rewrite E in *.
  apply Forall_app in H3 as [H3 _].
  split; [split; [apply H0|intros q0 v l0 I; apply (proj2 H0); apply in_or_app; auto]|]. split; [eapply early_calls; eauto|]. split; [|split; auto].
  - destruct H2 as [H2|H2]; auto. left. eapply early_calls; eauto.
  - intros q I. apply H4, in_or_app. auto.
Qed.

Definition epinv (dbg : bool) (c : nat) (ls : list flabel) (st : fstate) (p : peer) : Prop := exists ok bad rs rest b more,
  pe_done p = ok ++ bad /\ map snd ok = map COk rs /\ heard_as (pe_heard p) rs rest /\
  (bad = [] -> rest = pending (cs_in (pe_stream p)) /\ smooth (pe_ended p) (cs_in (pe_stream p)) /\ cs_held (pe_stream p) = [] /\ more = []) /\
  (bad = [] \/ exists q e, bad = [(q, e)] /\ failure e /\ pe_doing p = None) /\
  (forall x log, shows dbg c (f_w st) x log -> grows (pe_heard p) x) /\
  received c (wparts ls) = map IByte b /\ b ++ pe_out p ++ more = List.concat (map write_request (asked p)).

Lemma shown_next dbg R size ls a l a' c h : has_router R -> frun dbg R (f_init size) ls a -> fstep dbg R a l a' ->
  (forall x log, shows dbg c (f_w a) x log -> grows h x) -> forall x log, shows dbg c (f_w a') x log -> grows h x.
Proof.
  intros Tot Rn S G x log Sx. destruct (shows_exists _ _ _ _ _ c Tot Rn) as (y & lg & Sy).
  eapply grows_trans; [eapply G; eauto|]. apply (fstep_further _ _ _ _ _ _ _ _ _ _ _ _ Tot Rn S Sy Sx).
Qed.

(** What is still to come for a client, as responses. *)
Lemma early_to_come dbg R size ls st c p rest b more rs : has_router R -> frun dbg R (f_init size) ls st ->
  well_behaved_early R c ls st p -> heard_as (pe_heard p) rs rest -> (forall x log, shows dbg c (f_w st) x log -> grows (pe_heard p) x) ->
  received c (wparts ls) = map IByte b -> b ++ pe_out p ++ more = List.concat (map write_request (asked p)) ->
  exists answers y, Forall ok_response answers /\ rest ++ y = List.concat (map write_response answers).
Proof.
  intros Tot Rn (Ok & V & Sh & F & A) Hh G Rc E. destruct (shows_exists _ _ _ _ _ c Tot Rn) as (sent & log & S). destruct (G _ _ S) as (d & ->).
  destruct (early_server_side dbg R size ls st c _ b _ _ _ Tot Rn S Ok V Sh F A Rc E) as (rt & rs1 & rs2 & y & H1 & Hr & Hs & H2).
  assert (Of : out_of (asked p) log) by (rewrite Hr; now apply out_of_first).
  rewrite <- app_assoc in H2. destruct (heard_answers R c rt _ Ok H1 _ _ _ Hh _ _ _ Of H2) as (log1 & log2 & El & _ & H3).
  assert (Of2 : out_of (asked p) log2) by (unfold out_of in *; rewrite El in Of; now apply Forall_app in Of as [_ Of]).
  destruct (replies_concat R c rt _ Ok H1 log2 ([] ++ log1) Of2) as (answers & H4 & H5). exists answers, (d ++ y). split; auto. congruence.
Qed.

Lemma epinv_history dbg R client size socks ls w c : has_router R -> client c = true ->
  early_history dbg R client (world_init size socks) ls w -> well_behaved_early R c ls (wo_server w) (wo_peer w c) ->
  epinv dbg c ls (wo_server w) (wo_peer w c).
Proof.
  intros Tot Cl H. induction H as [|ls w l w' H IH S]; intros W.
  - exists [], [], [], [], [], []. cbn. repeat split; auto; try (constructor; fail).
    + exists []. split; auto. constructor.
    + intros x log _. eexists. reflexivity.
  - pose proof (early_before _ _ _ _ _ _ _ _ S W) as W0. specialize (IH W0). pose proof (early_run _ _ _ _ _ _ _ H) as Rn.
    destruct IH as (ok & bad & rs & rest & b & more & D & M & Hh & Hg & Hb & G & Rc & E).
    destruct S as [w l w' S|w d p bs rest0 lg Cd -> En Nb Sn].
    2:{ cbn [wo_server wo_peer] in *; unfold with_peer in *; cbn [app] in *.
      destruct (Nat.eqb_spec c d) as [<- |Ne]; [|exists ok, bad, rs, rest, b, more; repeat (split; auto)].
      exists ok, bad, rs, (rest ++ bs), b, more. cbn [pe_done pe_heard pe_stream pe_ended pe_doing pe_out hears cs_in cs_held].
      split; auto. split; auto. split; [now apply heard_more|]. split; [|split; auto; split; auto].
      - intros Hbad. destruct (Hg Hbad) as (-> & Sm & Hd & Hm). rewrite En in Sm. split; [|split; [|auto]].
        + rewrite LimitGrammar.pending_app. cbn [pending]. now rewrite app_nil_r.
        + now apply smooth_more.
      - intros x log Sx. destruct (shows_one _ _ _ _ _ _ _ _ _ _ Tot Rn Sn Sx) as [<- _]. exists rest0. now rewrite app_assoc. }
    destruct S as [w l st' S Nc|w d p bs rest0 st' Cd -> Po S|w d p q s x Cd -> Dn Fs Pq Sq|w d p q s x k Cd -> Dn Fs Pq Sq|w d p bs rest0 Cd -> En Nb Sn|w d p Cd -> En Nc|w d p q r i Cd -> Dq Ep];
      cbn [wo_server wo_peer]; unfold with_peer in *; cbn [app] in *.
    + exists ok, bad, rs, rest, b, more. repeat (split; auto).
      * apply (shown_next _ _ _ _ _ _ _ _ _ Tot Rn S G).
      * rewrite (arrive_label _ _ _ _ _ c ls S). rewrite Rc. destruct l as [l| |]; rewrite ?app_nil_r; auto. destruct l; rewrite ?app_nil_r; auto.
        destruct (Nat.eqb_spec c0 c); rewrite ?app_nil_r; auto. subst. rewrite (Nc _ _ eq_refl) in Cl. discriminate.
    + pose proof (shown_next _ _ _ _ _ _ _ _ _ Tot Rn S G) as Gs.
      destruct (Nat.eqb_spec c d) as [<- |Ne].
      * exists ok, bad, rs, rest, (b ++ bs), more. cbn [pe_done pe_heard pe_stream pe_ended pe_doing pe_out]. repeat (split; auto).
        -- rewrite (arrive_label _ _ _ _ _ c ls S), Nat.eqb_refl, Rc, map_app. reflexivity.
        -- unfold asked in *. cbn [pe_done pe_doing]. rewrite <- E, Po, <- !app_assoc. reflexivity.
      * exists ok, bad, rs, rest, b, more. repeat (split; auto).
        rewrite (arrive_label _ _ _ _ _ c ls S). destruct (Nat.eqb_spec d c); [congruence|]. now rewrite app_nil_r.
    + destruct (Nat.eqb_spec c d) as [<- |Ne]; [|exists ok, bad, rs, rest, b, more; repeat (split; auto)].
      assert (bad = []) as ->.
      { destruct Hb as [Hb|(q0 & e & -> & Fe & _)]; auto. exfalso. rewrite D in Fs. apply Forall_app in Fs as [_ Fs]. inversion Fs as [|? ? (r & K) _]; subst. eapply failure_not_ok; eauto. }
      destruct (Hg eq_refl) as (-> & Sm & Hd & ->). apply put_request_spec in Pq as (Hin & _ & _ & b1 & b2 & Hw & Hs & -> & Hh2).
      rewrite Hh2, Hd, Sq, !app_nil_r in *. cbn [app] in Hs. apply app_inv_head in Hs. subst x b1.
      exists ok, [], rs, (pending (cs_in s)), b, []. cbn [pe_done pe_heard pe_stream pe_ended pe_doing pe_out]. rewrite Hin, !app_nil_r.
      repeat (split; auto). unfold asked in *. cbn [pe_done pe_doing]. rewrite Dn, app_nil_r in E. rewrite concat_snoc, <- E, <- !app_assoc. reflexivity.
    + destruct (Nat.eqb_spec c d) as [<- |Ne]; [|exists ok, bad, rs, rest, b, more; repeat (split; auto)].
      assert (bad = []) as ->.
      { destruct Hb as [Hb|(q0 & e & -> & Fe & _)]; auto. exfalso. rewrite D in Fs. apply Forall_app in Fs as [_ Fs]. inversion Fs as [|? ? (r & K) _]; subst. eapply failure_not_ok; eauto. }
      destruct (Hg eq_refl) as (-> & Sm & Hd & ->). apply put_request_prefix in Pq as (x' & Hs & (y & Hp) & _).
      rewrite Sq in Hs. apply app_inv_head in Hs. subst x'. rewrite Hd in Hp. cbn [app] in Hp.
      exists ok, [(q, CWriting k)], rs, (pending (cs_in (pe_stream (wo_peer w c)))), b, y. cbn [pe_done pe_heard pe_stream pe_ended pe_doing pe_out].
      rewrite D, app_nil_r. repeat (split; auto); try discriminate.
      * right. exists q, (CWriting k). repeat split; auto. right. right. right. eauto.
      * unfold asked in *. cbn [pe_done pe_doing]. rewrite Dn, app_nil_r in E. rewrite D in *. rewrite !app_nil_r in *.
        rewrite map_app. cbn [map fst]. rewrite concat_snoc, <- E, Hp, <- !app_assoc. reflexivity.
    + destruct (Nat.eqb_spec c d) as [<- |Ne]; [|exists ok, bad, rs, rest, b, more; repeat (split; auto)].
      exists ok, bad, rs, (rest ++ bs), b, more. cbn [pe_done pe_heard pe_stream pe_ended pe_doing pe_out hears cs_in cs_held].
      split; auto. split; auto. split; [now apply heard_more|]. split; [|split; auto; split; auto].
      * intros Hbad. destruct (Hg Hbad) as (-> & Sm & Hd & Hm). rewrite En in Sm. split; [|split; [|auto]].
        -- rewrite LimitGrammar.pending_app. cbn [pending]. now rewrite app_nil_r.
        -- now apply smooth_more.
      * intros x log Sx. apply sent_shown in Sx as (dd & ->). rewrite Sn. exists (rest0 ++ dd). now rewrite <- !app_assoc.
    + destruct (Nat.eqb_spec c d) as [<- |Ne]; [|exists ok, bad, rs, rest, b, more; repeat (split; auto)].
      exists ok, bad, rs, rest, b, more. cbn [pe_done pe_heard pe_stream pe_ended pe_doing pe_out hears cs_in cs_held].
      split; auto. split; auto. split; auto. split; [|split; auto].
      intros Hbad. destruct (Hg Hbad) as (-> & Sm & Hd & Hm). rewrite En in Sm. split; [|split; [|auto]].
      * rewrite LimitGrammar.pending_app. cbn [pending app]. now rewrite app_nil_r.
      * now apply smooth_end.
    + destruct (Nat.eqb_spec c d) as [<- |Ne]; [|exists ok, bad, rs, rest, b, more; repeat (split; auto)].
      assert (bad = []) as -> by (destruct Hb as [Hb|(q0 & e & _ & _ & K)]; [auto|congruence]).
      destruct (Hg eq_refl) as (-> & Sm & Hd & ->). rewrite app_nil_r in D.
      destruct (early_to_come dbg R size ls _ c _ _ _ _ _ Tot Rn W0 Hh G Rc E) as (answers & y & Fa & Ea).
      assert (As : List.concat (map write_request (asked (wo_peer w c))) = List.concat (map write_request (map fst ok ++ [q]))).
      { unfold asked. now rewrite Dq, D. }
      destruct (client_reads dbg _ _ answers y r i Sm Fa Ea Ep) as [(v & a & answers' & -> & _ & _ & Sm' & Eb)|[Fe _]].
      * exists (ok ++ [(q, COk v)]), [], (rs ++ [v]), (pending i), b, []. cbn [pe_done pe_heard pe_stream pe_ended pe_doing pe_out cs_in cs_held result_of].
        rewrite D, !app_nil_r. repeat (split; auto).
        -- rewrite !map_app, M. reflexivity.
        -- eapply heard_snoc; eauto.
        -- rewrite app_nil_r in E. rewrite E, As. unfold asked. cbn [pe_done pe_doing]. rewrite app_nil_r, (map_app fst). reflexivity.
      * exists ok, [(q, result_of r)], rs, (pending (cs_in (pe_stream (wo_peer w c)))), b, []. cbn [pe_done pe_heard pe_stream pe_ended pe_doing pe_out].
        rewrite D. repeat (split; auto); try discriminate.
        -- right. eauto.
        -- rewrite E, As. unfold asked. cbn [pe_done pe_doing]. rewrite app_nil_r, (map_app fst). reflexivity.
Qed.
