(** The whole server with its clients. *)
From Coq Require Import List Ascii String Arith NArith Bool Lia.
From Coq Require Import ZifyBool ZifyNat ZifyN.
From Verif.Model Require Import Bytes Io Common Parse Encode Writer Server Client Slab Poll Whole Full.
From Verif.Spec Require Import Batch Stream Drive Numerals Names Grammar Wire Unicode Output Session Exchange Dialogue Arrivals Events World.
From Verif.Proofs Require Import BytesFacts CommonFacts IoFacts ParseFacts DriveFacts CallFacts BatchFacts LimitGrammar LimitFacts EncodeFacts
  WriterFacts OpsFacts ServerFacts ConnFacts ClientFacts WholeFacts FullFacts.
From Verif.Properties Require Import RoundTrip Server Client Whole Full.
Import ListNotations.

(** ** What the server has sent only grows *)

Definition grows (a b : bytes) : Prop := exists d, b = a ++ d.
Lemma grows_refl a : grows a a. Proof. exists []. now rewrite app_nil_r. Qed.
Lemma grows_trans a b c : grows a b -> grows b c -> grows a c.
Proof. intros (d & ->) (e & ->). exists (d ++ e). now rewrite app_assoc. Qed.

Lemma wub_grows buf evs : forall fl sent b pos r s', b = buf -> wub evs fl sent b pos = (r, s') -> grows sent (sk_sent s').
Proof.
  intros fl sent b pos r s' ->. revert fl sent buf pos r s'. induction evs as [|e evs IH]; intros fl sent buf pos r s' E.
  - destruct buf; inversion E; subst; apply grows_refl.
  - destruct buf as [|c buf]; [inversion E; subst; apply grows_refl|]. destruct e as [n|k]; cbn [wub] in E.
    + eapply grows_trans; [|eapply IH; exact E]. eexists. reflexivity.
    + destruct k; inversion E; subst; apply grows_refl.
Qed.

Lemma flush_buf_grows w s r w' s' : flush_buf w s = (r, w', s') -> grows (sk_sent s) (sk_sent s').
Proof.
  unfold flush_buf, write_until_blocked. destruct (wub _ _ _ _ _) as [[n|k] s1] eqn:E; apply wub_grows with (1 := eq_refl) in E.
  - destruct (_ <=? _)%N; intros X; inversion X; subst; auto.
  - intros X; inversion X; subst; auto.
Qed.

Lemma wr_write_grows w s b r w' s' : wr_write w s b = (r, w', s') -> grows (sk_sent s) (sk_sent s').
Proof.
  unfold wr_write. destruct (_ <? _)%N; [|intros X; inversion X; subst; apply grows_refl].
  destruct (flush_buf w s) as [[[u|k] w1] s1] eqn:E; apply flush_buf_grows in E; [|intros X; inversion X; subst; auto].
  destruct (_ && _); [|intros X; inversion X; subst; auto]. unfold write_until_blocked.
  destruct (wub _ _ _ _ _) as [[n|k] s2] eqn:E2; apply wub_grows with (1 := eq_refl) in E2; intros X; inversion X; subst; eapply grows_trans; eauto.
Qed.

Lemma wr_flush_grows w s r w' s' : wr_flush w s = (r, w', s') -> grows (sk_sent s) (sk_sent s').
Proof.
  unfold wr_flush, flush_inner. destruct (flush_buf w s) as [[[u|k] w1] s1] eqn:E; apply flush_buf_grows in E; [|intros X; inversion X; subst; auto].
  destruct (sk_flushes s1); intros X; inversion X; subst; auto.
Qed.

Lemma write_all_grows f : forall w s b r w' s', write_all_f f w s b = (r, w', s') -> grows (sk_sent s) (sk_sent s').
Proof.
  induction f as [|f IH]; intros w s b r w' s' E; destruct b as [|c b]; cbn [write_all_f] in E; try (inversion E; subst; apply grows_refl).
  destruct (wr_write w s (c :: b)) as [[[n|k] w1] s1] eqn:E1; apply wr_write_grows in E1.
  - destruct (n =? 0)%N; [inversion E; subst; auto|]. eapply grows_trans; eauto.
  - destruct k; try (inversion E; subst; auto; fail). eapply grows_trans; eauto.
Qed.

Lemma run_ops_grows ops : forall w s r w' s', run_ops w s ops = (r, w', s') -> grows (sk_sent s) (sk_sent s').
Proof.
  induction ops as [|op ops IH]; intros w s r w' s' E; cbn [run_ops] in E; [inversion E; subst; apply grows_refl|].
  match type of E with (match ?m with _ => _ end) = _ => destruct m as [[r1 w1] s1] eqn:E1 end.
  assert (G : grows (sk_sent s) (sk_sent s1)).
  { destruct op as [b|b|].
    - eapply write_all_grows; eauto.
    - destruct (wr_write w s b) as [[[n|k] w2] s2] eqn:E2; apply wr_write_grows in E2; inversion E1; subst; auto.
    - eapply wr_flush_grows; eauto. }
  destruct r1; [eapply grows_trans; eauto|inversion E; subst; auto].
Qed.

Lemma respond_grows dbg rt f : forall log c vd log' c', respond f dbg rt log c = (vd, log', c') -> grows (sk_sent (cn_sock c)) (sk_sent (cn_sock c')).
Proof.
  induction f as [|f IH]; intros log c vd log' c' E; cbn [respond] in E; [inversion E; subst; apply grows_refl|].
  destruct (read_request dbg (cn_in c) (cn_parser c)) as [[rr s'] p'].
  destruct rr as [|r|e|k| |]; try (inversion E; subst; apply grows_refl).
  - destruct (rt log r) as [|a|] eqn:Er; [| |inversion E; subst; apply grows_refl].
    + destruct (run_ops (cn_w c) (cn_sock c) (result_ops LNext)) as [[wr w1] k1] eqn:Eo; apply run_ops_grows in Eo.
      destruct wr; [|inversion E; subst; auto]. destruct (should_close_after_response r); [inversion E; subst; auto|].
      eapply grows_trans; [exact Eo|]. eapply (IH _ _ _ _ _ E).
    + destruct (run_ops (cn_w c) (cn_sock c) (result_ops (LSend a))) as [[wr w1] k1] eqn:Eo; apply run_ops_grows in Eo.
      destruct wr; [|inversion E; subst; auto]. destruct (should_close_after_response r); [inversion E; subst; auto|].
      eapply grows_trans; [exact Eo|]. eapply (IH _ _ _ _ _ E).
  - destruct (run_ops (cn_w c) (cn_sock c) error_ops) as [[wr w1] k1] eqn:Eo; apply run_ops_grows in Eo. inversion E; subst; auto.
  - destruct (run_ops (cn_w c) (cn_sock c) error_ops) as [[wr w1] k1] eqn:Eo; apply run_ops_grows in Eo. inversion E; subst; auto.
Qed.

Lemma handle_grows dbg rt v log st log' st' : handle dbg rt v log st = (log', st') -> grows (slot_sent st) (slot_sent st').
Proof.
  destruct st as [c|b|b]; cbn [handle]; try (intros E; inversion E; subst; apply grows_refl).
  destruct (wr_flush _ _) as [[[u|k] w1] k1] eqn:Ew; apply wr_flush_grows in Ew; cbn [sk_sent] in Ew.
  - unfold respond_to_requests. destruct (respond _ _ _ _ _) as [[vd l1] c1] eqn:Er. apply respond_grows in Er. cbn [cn_sock] in Er.
    intros E. inversion E; subst. cbn [slot_sent]. destruct vd; cbn [slot_sent]; eapply grows_trans; eauto.
  - intros E. inversion E; subst. exact Ew.
Qed.

Definition conn_sent (x : wconn) : bytes := slot_sent (as_slot (wc_slot x)).
Lemma nth_set {A} (l : list A) : forall i x j, nth_error (set_nth i x l) j =
  if (i =? j)%nat then match nth_error l i with Some _ => Some x | None => None end else nth_error l j.
Proof.
  induction l as [|y l IH]; intros [|i] x [|j]; cbn [set_nth nth_error Nat.eqb]; auto. now destruct (i =? j)%nat.
Qed.

Lemma serve_grows dbg rt v x k got log' st' : wc_slot x = WTaken k -> serve dbg rt v x k got = (log', st') -> grows (conn_sent x) (slot_sent st').
Proof. intros P E. unfold serve in E. apply handle_grows in E. unfold conn_sent. rewrite P. exact E. Qed.

Lemma wstep_grows dbg R a l b c x : wstep dbg R a l b -> nth_error (ws_conns a) c = Some x ->
  exists y, nth_error (ws_conns b) c = Some y /\ grows (conn_sent x) (conn_sent y).
Proof.
  intros S N.
  assert (Same : forall d y z, nth_error (ws_conns a) d = Some y -> grows (conn_sent y) (conn_sent z) ->
    exists u, nth_error (set_nth d z (ws_conns a)) c = Some u /\ grows (conn_sent x) (conn_sent u)).
  { intros d y z Nd G. rewrite nth_set. destruct (Nat.eqb_spec d c) as [-> |].
    - rewrite Nd. rewrite N in Nd. inversion Nd; subst. eauto.
    - exists x. split; auto. apply grows_refl. }
  inversion S; subst; cbn [ws_conns]; unfold wupd;
    try (exists x; split; [exact N|apply grows_refl]); (eapply Same; [eassumption|]); unfold conn_sent at 2; cbn [wc_slot as_slot]; try apply grows_refl;
    try (eapply serve_grows; eassumption).
  match goal with H : wc_slot _ = WHere _ |- _ => unfold conn_sent; rewrite H end. apply grows_refl.
Qed.

Lemma clear_event_sent l d c x : nth_error l c = Some x -> exists y, nth_error (clear_event l d) c = Some y /\ conn_sent y = conn_sent x.
Proof.
  intros N. unfold clear_event. destruct (nth_error l d) as [z|] eqn:E; [|eauto]. rewrite nth_set. destruct (Nat.eqb_spec d c) as [-> |]; [|eauto].
  rewrite E. eexists. split; [reflexivity|]. rewrite N in E. inversion E; subst. reflexivity.
Qed.

Lemma fstep_grows dbg R a l b c : fstep dbg R a l b -> grows (sent_on c a) (sent_on c b).
Proof.
  intros S. unfold sent_on. destruct (nth_error (ws_conns (f_w a)) c) as [x|] eqn:N; [|eexists; reflexivity].
  change (slot_sent (as_slot (wc_slot x))) with (conn_sent x).
  assert (K : exists y, nth_error (ws_conns (f_w b)) c = Some y /\ grows (conn_sent x) (conn_sent y)).
  { inversion S; subst; cbn [f_w]; try (eapply wstep_grows; eassumption).
    - unfold polled. cbn [ws_conns]. generalize (flat_map socket_of (p_batch p')). intros ds. revert N. generalize (ws_conns (f_w a)). clear. revert x.
      induction ds as [|d ds IH]; intros x l N; cbn [fold_left]; [exists x; split; auto; apply grows_refl|].
      destruct (clear_event_sent l d c x N) as (y & Ny & Ey). destruct (IH _ _ Ny) as (z & H1 & H2). exists z. now rewrite <- Ey.
    - exists x. split; auto. apply grows_refl.
    - unfold add_conn. cbn [ws_conns]. exists x. split; [|apply grows_refl]. rewrite nth_error_app1; auto. apply nth_error_Some. congruence.
    - exists x. split; [|apply grows_refl]. destruct r; exact N. }
  destruct K as (y & -> & G). exact G.
Qed.

(** ** A client reads *)

Definition smooth (ended : bool) (s : stream) : Prop := live_eof ended s /\ forall k, ~ In (RErr k) s.

Lemma takes_errs s w s' k : takes s w s' -> In (RErr k) s' -> In (RErr k) s.
Proof. induction 1; auto; intros H1; try (right; auto; fail). destruct H1 as [H1|H1]; [discriminate|now right]. Qed.

Lemma drive_smooth dbg s : (forall k, ~ In (RErr k) s) -> drive_response dbg s = resp_parse dbg resp_new s.
Proof.
  intros No. unfold drive_response, drive. cbn [drive_f]. destruct (resp_parse dbg resp_new s) as [r s1] eqn:Ep.
  destruct r as [v|st k|e|]; auto. destruct k; auto.
  assert (Hi : msg_inv 0%N resp_new) by apply line_inv_nil. destruct (resp_parser_ok dbg 0%N _ _ _ _ Hi Ep) as (w & Hu & Hs & _).
  destruct Hs as [[[Hs|(_ & Hs & ->)] _]|[(Hk & _)|(Hk & _)]]; try discriminate; auto.
  exfalso. apply (No WouldBlock). eapply takes_errs; eauto. now left.
Qed.

Definition stable_eof {T} (o o' : outcome T) : Prop := match o with AtEof _ _ => exists v n, o' = AtEof v n | _ => True end.
Lemma headers_not_eof b : forall n m v k, batch_headers n m b <> AtEof v k.
Proof.
  induction b as [b IH] using (well_founded_induction (Wf_nat.well_founded_ltof _ (@List.length byte))).
  intros n m v k. rewrite batch_headers_eq. destruct (cut_line b) as [[[e|l] r]|] eqn:E; try discriminate.
  assert (L := cut_line_length _ _ _ E). destruct l as [|c l]; [discriminate|]. destruct (parse_header (c :: l)) as [e|[k0 v0]]; [discriminate|]. apply IH. exact L.
Qed.
Lemma chunks_not_eof b : forall n m v k, batch_chunks n m b <> AtEof v k.
Proof.
  induction b as [b IH] using (well_founded_induction (Wf_nat.well_founded_ltof _ (@List.length byte))).
  intros n m v k. rewrite batch_chunks_eq. destruct (cut_line b) as [[[e|l] r]|] eqn:E; try discriminate.
  assert (L := cut_line_length _ _ _ E). destruct (parse_chunk_size l) as [e|size]; [discriminate|]. unfold batch_data. cbn [app].
  destruct (_ <? size)%N; [discriminate|]. unfold batch_tail. pose proof (skipn_length_le (N.to_nat size) r) as L2.
  destruct (cut_line (skipn (N.to_nat size) r)) as [[[e|l2] r2]|] eqn:E2; try discriminate.
  assert (L3 := cut_line_length _ _ _ E2). destruct l2; [|discriminate]. destruct (size =? 0)%N; [discriminate|].
  apply IH. unfold Wf_nat.ltof. lia.
Qed.

(** If a response, so far, lasts until the stream ends, it does however it goes on. *)
Lemma batch_response_eof_ext b v n x : batch_response b = AtEof v n -> exists v' n', batch_response (b ++ x) = AtEof v' n'.
Proof.
  unfold batch_response, batch_msg.
  unfold batch_first. destruct (cut_line b) as [[[e|l] r]|] eqn:E; cbn [obind omap]; try discriminate.
  apply cut_line_ext with (x := x) in E. rewrite E. destruct (parse_status_line l) as [e|t]; cbn [obind omap]; try discriminate.
  pose proof (headers_stable x r 0%N []) as Hs. destruct (batch_headers 0%N [] r) as [h r2|p|v0 n0|e] eqn:Eh; cbn [obind omap]; try discriminate.
  cbn [stable] in Hs. rewrite Hs. cbn [obind]. unfold batch_after_headers. destruct (framing_of h true) as [e|[m| | |]]; cbn [omap batch_body]; try discriminate.
  - destruct (len r2 <? m)%N; discriminate.
  - destruct (batch_chunks 0%N [] r2) as [h3 r3|p|v0 n0|e] eqn:Ec; cbn [omap]; try discriminate. now apply chunks_not_eof in Ec.
  - intros _. eauto.
Qed.

Lemma no_blocks {T} (b : bytes -> outcome T) s : (forall k, ~ In (RErr k) s) -> blocks_in_clean_lines b s /\ no_interrupt_in_data b s.
Proof. intros No. split; intros s1 s2 ->; exfalso; eapply No; apply in_elt. Qed.

Lemma client_reads dbg ended s answers y r i : smooth ended s -> Forall ok_response answers ->
  pending s ++ y = List.concat (map write_response answers) -> resp_parse dbg resp_new s = (r, i) ->
  (exists v a answers', r = PDone v /\ answers = a :: answers' /\ same_response v a /\ smooth ended i /\
     batch_response (pending s) = Complete v (pending i)) \/
  (failure (result_of r) /\ forall v rest, batch_response (pending s) <> Complete v rest).
Proof.
  intros [L No] F E Ep. rewrite <- drive_smooth in Ep by exact No.
  destruct (no_blocks batch_response s No) as [B I].
  assert (Lim : always_in_limits batch_response (pending s)).
  { destruct answers as [|a answers].
    - cbn in E. apply app_eq_nil in E as [-> _]. intros w x K. symmetry in K. apply app_eq_nil in K as [-> _].
      vm_compute. intuition congruence.
    - inversion F as [|? ? (G & Fi & C) _]; subst. intros w x K. rewrite K, <- app_assoc in E. cbn [map List.concat] in E.
      exact (response_always_in_limits _ _ _ _ _ (good_response_small a G Fi C) _ _ (eq_sym E)). }
  pose proof (drive_response_spec dbg ended s L B I Lim) as M. rewrite Ep in M.
  assert (Inc : forall p, batch_response (pending s) = Incomplete p -> failure (result_of r) /\ forall v rest, batch_response (pending s) <> Complete v rest).
  { intros p Hp. rewrite Hp in M. split; [|congruence]. cbn [matches] in M. destruct ended.
    - destruct (utf8 (line_of p)).
      + destruct M as (st & M). inversion M; subst. right. now left.
      + inversion M; subst. right. right. now left.
    - destruct M as (st & M). inversion M; subst. now left. }
  destruct answers as [|a answers].
  - right. cbn in E. apply app_eq_nil in E as [E _]. apply (Inc (InFirst [])). rewrite E. reflexivity.
  - inversion F as [|? ? (G & Fi & C) F2]; subst. cbn [map List.concat] in E. symmetry in E.
    apply prefix_cases in E as [(z & Hz & E)|(b' & E & Er)].
    + right. destruct (response_reads_back a [] G Fi C) as (a' & Ha & _). rewrite app_nil_r, E in Ha.
      destruct (batch_response (pending s)) as [v rest|p|v n|e] eqn:Eb.
      * exfalso. apply (batch_response_complete_ext _ _ _ z) in Eb. rewrite Ha in Eb. inversion Eb as [[H1 H2]].
        symmetry in H2. apply app_eq_nil in H2 as [_ ->]. congruence.
      * eapply Inc; eauto.
      * exfalso. destruct (batch_response_eof_ext _ _ _ z Eb) as (v' & n' & K). congruence.
      * exfalso. pose proof (response_stable (pending s) z) as K. rewrite Eb in K. cbn [stable] in K. congruence.
    + left. destruct (response_reads_back a b' G Fi C) as (a' & Ha & Sa). rewrite <- E in Ha. rewrite Ha in M. cbn [matches] in M.
      destruct M as (s' & M & L' & Hp). inversion M; subst. exists a', a, answers. repeat (split; auto).
      intros k K. apply (No k). rewrite drive_smooth in Ep by exact No.
      assert (Hi : msg_inv 0%N resp_new) by apply line_inv_nil. destruct (resp_parser_ok dbg 0%N _ _ _ _ Hi Ep) as (w & [[T _]|[T _]]).
      * eapply takes_errs; eauto.
      * eapply takes_errs; eauto. now right.
Qed.

(** ** The server's side of a client *)

Lemma plain_part_served rt rs : Forall plain_request rs -> (forall r, In r rs -> ~ asks_close r) ->
  forall b x, List.concat (map write_request rs) = b ++ x -> forall h, exists l rs1 rs2,
    served rt h b false l (replies rt h l) true /\ rs = rs1 ++ rs2 /\ Forall2 same_request l rs1.
Proof.
  induction rs as [|r rs IH]; intros F A b x E h.
  - cbn in E. symmetry in E. apply app_eq_nil in E as [-> _]. exists [], [], []. repeat split; auto. eapply served_wait. reflexivity.
  - inversion F as [|? ? F1 F2]; subst. cbn [map List.concat] in E.
    destruct F1 as (G & Fi & Asc) eqn:Ef. clear Ef. destruct (request_reads_back r [] G Fi) as (r' & Hr & Sr). rewrite app_nil_r in Hr.
    assert (Un : ~ asks_close r').
    { intros (vs & K1 & K2). apply (A r); [now left|]. destruct Sr as (_ & _ & Hm & _). exists vs. rewrite <- Hm. auto. }
    apply prefix_cases in E as [(y & Hy & E)|(b' & -> & E)].
    + exists [], [], (r :: rs). split; [|auto]. destruct (batch_request b) as [v rest|p|v n|e] eqn:Eb.
      * exfalso. apply (batch_request_complete_ext _ _ _ y) in Eb. rewrite <- E, Hr in Eb. inversion Eb as [[H0 H1]].
        symmetry in H1. apply app_eq_nil in H1 as [_ ->]. congruence.
      * eapply served_wait; eauto.
      * exfalso. exact (batch_request_not_eof _ _ _ Eb).
      * exfalso. apply (batch_request_bad_ext _ _ y) in Eb. rewrite <- E, Hr in Eb. discriminate.
    + apply (batch_request_complete_ext _ _ _ b') in Hr. cbn [app] in Hr.
      destruct (IH F2 (fun r I => A r (or_intror I)) b' x E (h ++ [r'])) as (l & rs1 & rs2 & Sv & -> & H).
      exists (r' :: l), (r :: rs1), rs2. split; [eapply served_next; eauto|]. split; auto.
Qed.

(** The requests routed for a client are the first it sent; what was sent is the first part of their answers. *)
Lemma server_side : forall dbg R size ls st c rs b b', has_router R -> frun dbg R (f_init size) ls st ->
  readable_answers R c rs -> Forall visit_fine (calls c (wparts ls)) ->
  Forall visit_steady (calls c (wparts ls)) \/ short_listeners R c ->
  Forall plain_request rs -> (forall r, In r rs -> ~ asks_close r) ->
  received c (wparts ls) = map IByte b -> b ++ b' = List.concat (map write_request rs) ->
  exists rt rs1 rs2 y, (forall h q, R c q (rt h q)) /\ rs = rs1 ++ rs2 /\ Forall2 same_request (routed c st) rs1 /\
    sent_on c st ++ y = replies rt [] (routed c st).
Proof.
  intros dbg R size ls st c rs b b' Tot Rn Ok V Sh F A Rc E. unfold routed, sent_on.
  destruct (nth_error (ws_conns (f_w st)) c) as [x|] eqn:N.
  2:{ destruct (Tot c) as (rt & H). exists rt, [], rs, []. repeat split; auto. }
  destruct (C69_with_event_loop _ _ _ _ _ _ _ Tot Rn N) as (rt & s & busy & H1 & H2 & H3 & _). rewrite Rc in H2.
  apply items_bytes in H2 as (b1 & -> & _ & L & I). rewrite <- app_assoc in E.
  assert (O : orderly false s) by (eapply plain_orderly_part; eauto).
  assert (Np : no_panic rt) by (intros h v U; exact (proj1 Ok v _ U (H1 h v))).
  assert (S : Forall visit_steady (calls c (wparts ls)) \/ short_replies rt).
  { destruct Sh as [Sh|Sh]; [now left|right]. intros h v r K. eapply Sh. rewrite <- K. apply H1. }
  symmetry in E. destruct (C26_responses dbg rt false s _ _ _ Np O V S H3) as [(k & got & K & Pg & Sv & _)|(sent & rest & K & Sv)].
  - rewrite Pg, <- app_assoc in E. destruct (plain_part_served rt rs F A _ _ E []) as (l & rs1 & rs2 & Sv' & Hr & H).
    destruct (served_unique _ _ _ _ _ _ _ Sv _ _ _ Sv') as (<- & Ho & _). rewrite K. cbn [slot_sent].
    exists rt, rs1, rs2, (unsent (cn_w k)). repeat split; auto.
  - exfalso. destruct (plain_part_served rt rs F A _ _ E []) as (l & rs1 & rs2 & Sv' & _).
    destruct (served_unique _ _ _ _ _ _ _ Sv _ _ _ Sv') as (_ & _ & X). discriminate.
Qed.

(** ** What a client has heard, as responses *)

Inductive heard_as : bytes -> list response -> bytes -> Prop :=
| heard_end b : heard_as b [] b
| heard_next b v rest rs e : batch_response b = Complete v rest -> heard_as rest rs e -> heard_as b (v :: rs) e.

Lemma heard_snoc b rs e v rest : heard_as b rs e -> batch_response e = Complete v rest -> heard_as b (rs ++ [v]) rest.
Proof. induction 1; intros E; cbn [app]; econstructor; eauto. constructor. Qed.
Lemma heard_more b rs e x : heard_as b rs e -> heard_as (b ++ x) rs (e ++ x).
Proof. induction 1; econstructor; eauto. now apply batch_response_complete_ext. Qed.

(** Requests received are those of a list. *)
Definition out_of (qs log : list request) : Prop := Forall (fun v => exists q, In q qs /\ same_request v q) log.
Lemma out_of_first log qs : Forall2 same_request log qs -> forall more, out_of (qs ++ more) log.
Proof.
  induction 1 as [|v q log qs S F IH]; intros more; [constructor|]. constructor; [exists q; split; [now left|auto]|].
  eapply Forall_impl; [|exact (IH more)]. intros v' (q' & I & S'). exists q'. split; [now right|auto].
Qed.

Lemma heard_answers (R : nat -> request -> lresult -> Prop) c rt qs : readable_answers R c qs -> (forall h q, R c q (rt h q)) ->
  forall b rs e, heard_as b rs e -> forall h log y, out_of qs log -> b ++ y = replies rt h log ->
  exists log1 log2, log = log1 ++ log2 /\ answered rt h log1 (map COk rs) /\ e ++ y = replies rt (h ++ log1) log2.
Proof.
  intros Ok Rt. induction 1 as [b|b v rest rs e Eb H IH]; intros h log y Of E.
  - exists [], log. rewrite app_nil_r. repeat split; auto. constructor.
  - apply (batch_response_complete_ext _ _ _ y) in Eb. rewrite E in Eb. destruct log as [|q log]; [discriminate Eb|].
    inversion Of as [|? ? (q0 & I0 & S0) Of']; subst.
    cbn [replies] in E, Eb. destruct (proj2 Ok _ _ _ I0 S0 (Rt h q)) as (a & Ha & G & Fi & C). rewrite Ha in E, Eb. cbn [reply] in E, Eb.
    destruct (response_reads_back a (replies rt (h ++ [q]) log) G Fi C) as (a' & Hr & Sa). rewrite Hr in Eb. inversion Eb; subst a'.
    destruct (IH (h ++ [q]) log y) as (log1 & log2 & -> & An & He); [auto|auto|]. exists (q :: log1), log2.
    split; auto. split; [cbn [map]; econstructor; eauto|]. rewrite He, <- app_assoc. reflexivity.
Qed.

(** What is still to be heard, as responses. *)
Lemma replies_concat (R : nat -> request -> lresult -> Prop) c rt qs : readable_answers R c qs -> (forall h q, R c q (rt h q)) ->
  forall log h, out_of qs log -> exists answers, Forall ok_response answers /\ replies rt h log = List.concat (map write_response answers).
Proof.
  intros Ok Rt. induction log as [|q log IH]; intros h Of; [exists []; split; auto|].
  inversion Of as [|? ? (q0 & I0 & S0) Of']; subst.
  destruct (IH (h ++ [q]) Of') as (l & F & E). destruct (proj2 Ok _ _ _ I0 S0 (Rt h q)) as (a & Ha & Hok). exists (a :: l). split; auto.
  cbn [replies map List.concat]. now rewrite Ha, E.
Qed.

(** ** Histories *)

Lemma history_run dbg R client size socks ls w : history dbg R client (world_init size socks) ls w -> frun dbg R (f_init size) ls (wo_server w).
Proof.
  induction 1 as [|ls w l w' H IH S]; [constructor|]. destruct S; cbn [app wo_server]; auto; econstructor; eauto.
Qed.

Lemma wparts_app a b : wparts (a ++ b) = wparts a ++ wparts b. Proof. apply flat_map_app. Qed.
Lemma calls_more c a : forall ls, exists vs, calls c (a ++ ls) = calls c ls ++ vs.
Proof.
  induction a as [|l a IH]; intros ls; cbn [app]; [exists []; now rewrite app_nil_r|].
  destruct (IH ls) as (vs & E). destruct l; cbn [calls]; eauto; rewrite E; eexists; now rewrite <- app_assoc.
Qed.

(** What is assumed of a client and of the output side of its socket at the server. *)
Definition well_behaved (R : nat -> request -> lresult -> Prop) (c : nat) (ls : list flabel) (p : peer) : Prop :=
  readable_answers R c (asked p) /\
  Forall visit_fine (calls c (wparts ls)) /\ (Forall visit_steady (calls c (wparts ls)) \/ short_listeners R c) /\
  Forall plain_request (asked p) /\ (forall q, In q (asked p) -> ~ asks_close q).

Lemma asked_more dbg R client w l w' c : happens dbg R client w l w' -> exists qs, asked (wo_peer w' c) = asked (wo_peer w c) ++ qs.
Proof.
  intros S. destruct S; cbn [wo_peer]; unfold with_peer; try (exists []; rewrite app_nil_r; reflexivity);
    destruct (Nat.eqb_spec c c0); subst; try (exists []; rewrite app_nil_r; reflexivity); unfold asked; cbn [pe_done pe_doing].
  - exists [q]. rewrite H1, app_nil_r. reflexivity.
  - exists [q]. rewrite H1, map_app, !app_nil_r. reflexivity.
  - exists []. rewrite H1, map_app, !app_nil_r. reflexivity.
Qed.

Lemma well_behaved_before dbg R client w l w' c ls : happens dbg R client w l w' ->
  well_behaved R c (l ++ ls) (wo_peer w' c) -> well_behaved R c ls (wo_peer w c).
Proof.
  intros S (H0 & H1 & H2 & H3 & H4). destruct (asked_more _ _ _ _ _ _ c S) as (qs & E). rewrite E in *.
  rewrite wparts_app in *. destruct (calls_more c (wparts l) (wparts ls)) as (vs & Ec). rewrite Ec in *.
  apply Forall_app in H1 as [H1 _]. apply Forall_app in H3 as [H3 _].
  split; [split; [apply H0|intros q0 v l0 I; apply (proj2 H0); apply in_or_app; auto]|]. split; auto. split; [|split; auto].
  - destruct H2 as [H2|H2]; auto. apply Forall_app in H2 as [H2 _]. auto.
  - intros q I. apply H4, in_or_app. auto.
Qed.

Definition pinv (c : nat) (ls : list flabel) (st : fstate) (p : peer) : Prop := exists ok bad rs rest b more,
  pe_done p = ok ++ bad /\ map snd ok = map COk rs /\ heard_as (pe_heard p) rs rest /\
  (bad = [] -> rest = pending (cs_in (pe_stream p)) /\ smooth (pe_ended p) (cs_in (pe_stream p)) /\ cs_held (pe_stream p) = [] /\ more = []) /\
  (bad = [] \/ exists q e, bad = [(q, e)] /\ failure e /\ pe_doing p = None) /\
  grows (pe_heard p) (sent_on c st) /\
  received c (wparts ls) = map IByte b /\ b ++ pe_out p ++ more = List.concat (map write_request (asked p)).

Lemma failure_not_ok e r : failure e -> e <> COk r.
Proof. intros [-> |[-> |[-> |(k & ->)]]]; discriminate. Qed.

Lemma smooth_more s bs : smooth false s -> bs <> [] -> smooth false (s ++ [RData bs]).
Proof.
  intros [(s0 & L & E) No] Hb. rewrite app_nil_r in E. subst s0. split.
  - exists (s ++ [RData bs]). rewrite app_nil_r. split; auto. apply Forall_app. split; auto.
  - intros k K. apply in_app_or in K as [K|[K|[]]]; [eapply No; eauto|discriminate].
Qed.
Lemma smooth_end s : smooth false s -> smooth true (s ++ [RData []]).
Proof.
  intros [(s0 & L & E) No]. rewrite app_nil_r in E. subst s0. split.
  - exists s. auto.
  - intros k K. apply in_app_or in K as [K|[K|[]]]; [eapply No; eauto|discriminate].
Qed.

Lemma concat_snoc (qs : list request) q : List.concat (map write_request (qs ++ [q])) = List.concat (map write_request qs) ++ write_request q.
Proof. rewrite map_app, concat_app. cbn [map List.concat]. now rewrite app_nil_r. Qed.

Lemma arrive_label dbg R a l b c its : fstep dbg R a l b -> received c (wparts (l :: its)) =
  received c (wparts its) ++ match l with FW (AArrive d is) => if (d =? c)%nat then is else [] | _ => [] end.
Proof.
  intros _. change (l :: its) with ([l] ++ its). rewrite wparts_app. destruct l as [l| |]; cbn [wparts flat_map wpart app received]; try now rewrite app_nil_r.
  destruct l; cbn [received]; rewrite ?app_nil_r; auto.
Qed.

(** What is still to come for a client, as responses. *)
Lemma to_come dbg R size ls st c p rest b more rs : has_router R -> frun dbg R (f_init size) ls st ->
  well_behaved R c ls p -> heard_as (pe_heard p) rs rest -> grows (pe_heard p) (sent_on c st) ->
  received c (wparts ls) = map IByte b -> b ++ pe_out p ++ more = List.concat (map write_request (asked p)) ->
  exists answers y, Forall ok_response answers /\ rest ++ y = List.concat (map write_response answers).
Proof.
  intros Tot Rn (Ok & V & Sh & F & A) Hh (d & G) Rc E.
  destruct (server_side dbg R size ls st c _ b _ Tot Rn Ok V Sh F A Rc E) as (rt & rs1 & rs2 & y & H1 & Hr & Hs & H2).
  assert (Of : out_of (asked p) (routed c st)) by (rewrite Hr; now apply out_of_first).
  rewrite G, <- app_assoc in H2. destruct (heard_answers R c rt _ Ok H1 _ _ _ Hh _ _ _ Of H2) as (log1 & log2 & El & _ & H3).
  assert (Of2 : out_of (asked p) log2) by (unfold out_of in *; rewrite El in Of; now apply Forall_app in Of as [_ Of]).
  destruct (replies_concat R c rt _ Ok H1 log2 ([] ++ log1) Of2) as (answers & H4 & H5). exists answers, (d ++ y). split; auto. congruence.
Qed.

Lemma pinv_history dbg R client size socks ls w c : has_router R -> client c = true ->
  history dbg R client (world_init size socks) ls w -> well_behaved R c ls (wo_peer w c) ->
  pinv c ls (wo_server w) (wo_peer w c).
Proof.
  intros Tot Cl H. induction H as [|ls w l w' H IH S]; intros W.
  - exists [], [], [], [], [], []. cbn. repeat split; auto; try (constructor; fail).
    + exists []. split; auto. constructor.
    + eexists. reflexivity.
  - pose proof (well_behaved_before _ _ _ _ _ _ _ _ S W) as W0. specialize (IH W0). pose proof (history_run _ _ _ _ _ _ _ H) as Rn.
    destruct IH as (ok & bad & rs & rest & b & more & D & M & Hh & Hg & Hb & G & Rc & E).
    destruct S as [w l st' S Nc|w d p bs rest0 st' Cd -> Po S|w d p q s x Cd -> Dn Fs Pq Sq|w d p q s x k Cd -> Dn Fs Pq Sq|w d p bs rest0 Cd -> En Nb Sn|w d p Cd -> En Nc|w d p q r i Cd -> Dq Ep];
      cbn [wo_server wo_peer]; unfold with_peer in *; cbn [app] in *.
    + exists ok, bad, rs, rest, b, more. repeat (split; auto).
      * eapply grows_trans; [exact G|]. eapply fstep_grows; eauto.
      * rewrite (arrive_label _ _ _ _ _ c ls S). rewrite Rc. destruct l as [l| |]; rewrite ?app_nil_r; auto. destruct l; rewrite ?app_nil_r; auto.
        destruct (Nat.eqb_spec c0 c); rewrite ?app_nil_r; auto. subst. rewrite (Nc _ _ eq_refl) in Cl. discriminate.
    + assert (Gs : grows (pe_heard (wo_peer w c)) (sent_on c st')) by (eapply grows_trans; [exact G|eapply fstep_grows; eauto]).
      destruct (Nat.eqb_spec c d) as [<- |Ne].
      * exists ok, bad, rs, rest, (b ++ bs), more. cbn [pe_done pe_heard pe_stream pe_ended pe_doing pe_out]. repeat (split; auto).
        -- rewrite (arrive_label _ _ _ _ _ c ls S), Nat.eqb_refl, Rc, map_app. reflexivity.
        -- unfold asked in *. cbn [pe_done pe_doing]. rewrite <- E, Po, <- !app_assoc. reflexivity.
      * exists ok, bad, rs, rest, b, more. repeat (split; auto).
        rewrite (arrive_label _ _ _ _ _ c ls S). destruct (Nat.eqb_spec d c); [congruence|]. now rewrite app_nil_r.
    + destruct (Nat.eqb_spec c d) as [<- |Ne]; [|exists ok, bad, rs, rest, b, more; repeat (split; auto)].
      assert (bad = []) as ->.
      { destruct Hb as [Hb|(q0 & e & -> & Fe & _)]; auto. exfalso. rewrite D in Fs. apply Forall_app in Fs as [_ Fs]. inversion Fs as [|? ? (r & K) _]; subst. eapply failure_not_ok; eauto. }
      destruct (Hg eq_refl) as (-> & Sm & Hd & ->). apply put_request_spec in Pq as (Hin & _ & _ & b1 & b2 & Hw & Hs & -> & Hh2).
      rewrite Hh2, Hd, Sq, !app_nil_r in *. cbn [app] in Hs. apply app_inv_head in Hs. subst x b1.
      exists ok, [], rs, (pending (cs_in s)), b, []. cbn [pe_done pe_heard pe_stream pe_ended pe_doing pe_out]. rewrite Hin, !app_nil_r.
      repeat (split; auto). unfold asked in *. cbn [pe_done pe_doing]. rewrite Dn, app_nil_r in E. rewrite concat_snoc, <- E, <- !app_assoc. reflexivity.
    + destruct (Nat.eqb_spec c d) as [<- |Ne]; [|exists ok, bad, rs, rest, b, more; repeat (split; auto)].
      assert (bad = []) as ->.
      { destruct Hb as [Hb|(q0 & e & -> & Fe & _)]; auto. exfalso. rewrite D in Fs. apply Forall_app in Fs as [_ Fs]. inversion Fs as [|? ? (r & K) _]; subst. eapply failure_not_ok; eauto. }
      destruct (Hg eq_refl) as (-> & Sm & Hd & ->). apply put_request_prefix in Pq as (x' & Hs & (y & Hp) & _).
      rewrite Sq in Hs. apply app_inv_head in Hs. subst x'. rewrite Hd in Hp. cbn [app] in Hp.
      exists ok, [(q, CWriting k)], rs, (pending (cs_in (pe_stream (wo_peer w c)))), b, y. cbn [pe_done pe_heard pe_stream pe_ended pe_doing pe_out].
      rewrite D, app_nil_r. repeat (split; auto); try discriminate.
      * right. exists q, (CWriting k). repeat split; auto. right. right. right. eauto.
      * unfold asked in *. cbn [pe_done pe_doing]. rewrite Dn, app_nil_r in E. rewrite D in *. rewrite !app_nil_r in *.
        rewrite map_app. cbn [map fst]. rewrite concat_snoc, <- E, Hp, <- !app_assoc. reflexivity.
    + destruct (Nat.eqb_spec c d) as [<- |Ne]; [|exists ok, bad, rs, rest, b, more; repeat (split; auto)].
      exists ok, bad, rs, (rest ++ bs), b, more. cbn [pe_done pe_heard pe_stream pe_ended pe_doing pe_out hears cs_in cs_held].
      split; auto. split; auto. split; [now apply heard_more|]. split; [|split; auto; split; auto].
      * intros Hbad. destruct (Hg Hbad) as (-> & Sm & Hd & Hm). rewrite En in Sm. split; [|split; [|auto]].
        -- rewrite LimitGrammar.pending_app. cbn [pending]. now rewrite app_nil_r.
        -- now apply smooth_more.
      * exists rest0. now rewrite Sn, app_assoc.
    + destruct (Nat.eqb_spec c d) as [<- |Ne]; [|exists ok, bad, rs, rest, b, more; repeat (split; auto)].
      exists ok, bad, rs, rest, b, more. cbn [pe_done pe_heard pe_stream pe_ended pe_doing pe_out hears cs_in cs_held].
      split; auto. split; auto. split; auto. split; [|split; auto].
      intros Hbad. destruct (Hg Hbad) as (-> & Sm & Hd & Hm). rewrite En in Sm. split; [|split; [|auto]].
      * rewrite LimitGrammar.pending_app. cbn [pending app]. now rewrite app_nil_r.
      * now apply smooth_end.
    + destruct (Nat.eqb_spec c d) as [<- |Ne]; [|exists ok, bad, rs, rest, b, more; repeat (split; auto)].
      assert (bad = []) as -> by (destruct Hb as [Hb|(q0 & e & _ & _ & K)]; [auto|congruence]).
      destruct (Hg eq_refl) as (-> & Sm & Hd & ->). rewrite app_nil_r in D.
      destruct (to_come dbg R size ls _ c _ _ _ _ _ Tot Rn W0 Hh G Rc E) as (answers & y & Fa & Ea).
      assert (As : List.concat (map write_request (asked (wo_peer w c))) = List.concat (map write_request (map fst ok ++ [q]))).
      { unfold asked. now rewrite Dq, D. }
      destruct (client_reads dbg _ _ answers y r i Sm Fa Ea Ep) as [(v & a & answers' & -> & _ & _ & Sm' & Eb)|[Fe _]].
      * exists (ok ++ [(q, COk v)]), [], (rs ++ [v]), (pending i), b, []. cbn [pe_done pe_heard pe_stream pe_ended pe_doing pe_out cs_in cs_held result_of].
        rewrite D, !app_nil_r. repeat (split; auto).
        -- rewrite !map_app, M. reflexivity.
        -- eapply heard_snoc; eauto.
        -- rewrite app_nil_r in E. rewrite E, As. unfold asked. cbn [pe_done pe_doing]. rewrite app_nil_r, (map_app fst). reflexivity.
      * exists ok, [(q, result_of r)], rs, (pending (cs_in (pe_stream (wo_peer w c)))), b, []. cbn [pe_done pe_heard pe_stream pe_ended pe_doing pe_out].
        rewrite D. repeat (split; auto); try discriminate.
        -- right. eauto.
        -- rewrite E, As. unfold asked. cbn [pe_done pe_doing]. rewrite app_nil_r, (map_app fst). reflexivity.
Qed.
