(** TLS streams are streams. *)
From Coq Require Import List Ascii String Arith NArith Bool Lia.
From Verif.Model Require Import Bytes Io Common Parse Encode Writer Server Generic Buffered Streams Tls.
From Verif.Spec Require Import Session Buffering Streams Tls.
Import ListNotations.
Local Open Scope N_scope.

Lemma data_of_app a b : data_of (a ++ b) = data_of a ++ data_of b.
Proof. apply flat_map_app. Qed.

(** ** What is handed over stays *)

Lemma take_out_all n q : forall out q' out', take_out n q out = (q', out') -> out' ++ map ch_what q' = out ++ map ch_what q.
Proof.
  revert n. induction q as [|c q IH]; intros n out q' out' E; cbn [take_out] in E; [inversion E; subst; auto|].
  destruct (ch_left c <=? n).
  - apply IH in E. rewrite E. cbn. now rewrite <- app_assoc.
  - inversion E; subst. reflexivity.
Qed.
Lemma drain_all tx : forall q out e tx' q' out', drain tx q out = (e, (tx', q', out')) -> out' ++ map ch_what q' = out ++ map ch_what q.
Proof.
  induction tx as [|w tx IH]; intros q out e tx' q' out' E; destruct q as [|c q]; cbn [drain] in E; try (inversion E; subst; auto; fail).
  destruct w as [n|k]; [|inversion E; subst; auto]. destruct (take_out n (c :: q) out) as [q1 out1] eqn:Et.
  apply IH in E. rewrite E. eapply take_out_all; eauto.
Qed.

(** Everything sent or to be sent. *)
Definition line (t : tls) : list payload := ts_out t ++ map ch_what (ts_queue t).
Lemma handed_line t : handed t = data_of (line t).
Proof. unfold handed, delivered, line. now rewrite data_of_app. Qed.
(** What calls that neither read nor write do to it: records that are no data are added. *)
Definition keeps (t t' : tls) : Prop :=
  ts_seen t' = ts_seen t /\ exists more, line t' = line t ++ more /\ data_of more = [] /\ ~ In Notify more.
Lemma keeps_refl t : keeps t t.
Proof. split; auto. exists []. rewrite app_nil_r. auto. Qed.
Lemma keeps_trans a b c : keeps a b -> keeps b c -> keeps a c.
Proof.
  intros (H1 & m1 & L1 & D1 & N1) (H2 & m2 & L2 & D2 & N2). split; [congruence|]. exists (m1 ++ m2). rewrite L2, L1, app_assoc, data_of_app, D1, D2.
  split; auto. split; auto. intros X. apply in_app_or in X. tauto.
Qed.
Lemma keeps_handed t t' : keeps t t' -> handed t' = handed t.
Proof. intros (_ & m & L & D & _). now rewrite !handed_line, L, data_of_app, D, app_nil_r. Qed.
Lemma keeps_line t t' : ts_seen t' = ts_seen t -> line t' = line t -> keeps t t'.
Proof. intros H L. split; auto. exists []. rewrite app_nil_r. auto. Qed.

Lemma tls_drain_keeps t e t' : tls_drain t = (e, t') -> keeps t t'.
Proof.
  unfold tls_drain. destruct (drain (ts_tx t) (ts_queue t) (ts_out t)) as [e0 [[tx q] out]] eqn:E. intros X. inversion X; subst.
  apply keeps_line; auto. unfold line. cbn. eapply drain_all; eauto.
Qed.
Lemma hand_data l : data_of (map ch_what (map (fun n => mk_chunk n Hand) l)) = [] /\ ~ In Notify (map ch_what (map (fun n => mk_chunk n Hand) l)).
Proof. induction l as [|n l [IH1 IH2]]; cbn; auto. split; auto. intros [X|X]; [discriminate|auto]. Qed.
Lemma absorb1_keeps t r : keeps t (absorb1 t r).
Proof.
  unfold absorb1. destruct (ts_bad t); [apply keeps_refl|].
  destruct r as [last reply|d| |].
  - split; auto. exists (map ch_what (map (fun n => mk_chunk n Hand) reply)). unfold line. cbn. rewrite map_app, app_assoc. split; auto. apply hand_data.
  - destruct (ts_hs t).
    + split; auto. exists [Alert]. unfold line. cbn. rewrite map_app, app_assoc. repeat split; auto. intros [X|[]]. discriminate.
    + apply keeps_line; reflexivity.
  - apply keeps_line; reflexivity.
  - split; auto. exists [Alert]. unfold line. cbn. rewrite map_app, app_assoc. repeat split; auto. intros [X|[]]. discriminate.
Qed.
Lemma absorb_keeps rs : forall t, keeps t (absorb t rs).
Proof. induction rs as [|r rs IH]; intros t; cbn; [apply keeps_refl|]. eapply keeps_trans; [apply absorb1_keeps|apply IH]. Qed.
Lemma last_gasp_keeps t : keeps t (last_gasp t).
Proof.
  unfold last_gasp. destruct (ts_tx t) as [|[n|k] tx]; [apply keeps_refl| |apply keeps_line; reflexivity].
  destruct (take_out n (ts_queue t) (ts_out t)) as [q out] eqn:E. apply keeps_line; auto. unfold line. cbn. eapply take_out_all; eauto.
Qed.
Lemma io_loop_keeps n until : forall rd t x t', io_loop n until rd t = (x, t') -> keeps t t'.
Proof.
  induction n as [|n IH]; intros rd t x t' E; cbn [io_loop] in E; [inversion E; subst; apply keeps_refl|].
  destruct (tls_drain t) as [e t1] eqn:Ed. apply tls_drain_keeps in Ed. eapply keeps_trans; [exact Ed|].
  destruct e as [k|]; [inversion E; subst; apply keeps_refl|].
  destruct (negb until && _); [inversion E; subst; apply keeps_refl|].
  assert (Go : forall (eof rd' : bool) t2, (if ts_bad t2 then (inl InvalidData, last_gasp t2) else if negb until then (inr rd', t2) else if negb (ts_hs t2) then (inr rd', t2)
     else if eof then (inl UnexpectedEof, t2) else io_loop n until rd' t2) = (x, t') -> keeps t2 t').
  { intros eof rd' t2 X. destruct (ts_bad t2); [inversion X; subst; apply last_gasp_keeps|]. destruct (negb until); [inversion X; subst; apply keeps_refl|].
    destruct (negb (ts_hs t2)); [inversion X; subst; apply keeps_refl|]. destruct eof; [inversion X; subst; apply keeps_refl|eauto]. }
  destruct (ts_plain t1) as [|c p]; [|exact (Go false _ _ E)].
  destruct (ts_rx t1) as [|[rs| |k] rx].
  - inversion E; subst; apply keeps_refl.
  - apply (Go false) in E. eapply keeps_trans; [|exact E]. eapply keeps_trans; [|apply absorb_keeps]. apply keeps_line; reflexivity.
  - apply (Go true) in E. eapply keeps_trans; [|exact E]. apply keeps_line; reflexivity.
  - inversion E; subst. apply keeps_line; reflexivity.
Qed.
Lemma io_keeps t x t' : complete_io t = (x, t') -> keeps t t'.
Proof. apply io_loop_keeps. Qed.
Lemma prior_keeps t x t' : prior t = (x, t') -> keeps t t'.
Proof.
  unfold prior. destruct (if ts_hs t then complete_io t else (inr false, t)) as [y t1] eqn:E1.
  assert (K1 : keeps t t1). { destruct (ts_hs t); [eapply io_keeps; eauto|]. inversion E1; subst. apply keeps_refl. }
  intros E. destruct y as [k|b]; [inversion E; subst; auto|]. destruct (wants_write t1); [|inversion E; subst; auto].
  destruct (complete_io t1) as [y2 t2] eqn:E2. apply io_keeps in E2. destruct y2; inversion E; subst; eapply keeps_trans; eauto.
Qed.
Lemma read_loop_keeps n : forall t x t', read_loop n t = (x, t') -> keeps t t'.
Proof.
  induction n as [|n IH]; intros t x t' E; cbn [read_loop] in E; destruct (ts_plain t) as [|c p]; try (inversion E; subst; apply keeps_refl).
  destruct (complete_io t) as [y t1] eqn:E1. apply io_keeps in E1. eapply keeps_trans; [exact E1|]. destruct y as [k|[|]]; [inversion E; subst; apply keeps_refl|eauto|inversion E; subst; apply keeps_refl].
Qed.

Lemma gave_snoc t p x : gave (set_plain t p (ts_seen t ++ [x])) = gave t ++ match x with inl k => [Failure k] | inr bs => content_of (RData bs) end.
Proof. unfold gave. cbn [ts_seen set_plain]. rewrite flat_map_app. cbn [flat_map]. now rewrite app_nil_r. Qed.
Lemma keeps_gave t t' : keeps t t' -> gave t' = gave t.
Proof. intros (H & _). unfold gave. now rewrite H. Qed.

Lemma set_plain_keeps t p : keeps t (set_plain t p (ts_seen t)).
Proof. apply keeps_line; reflexivity. Qed.

Lemma tls_read_spec n t x t' : tls_read n t = (x, t') ->
  exists t1, keeps t t1 /\ t' = set_plain t1 (ts_plain t1) (ts_seen t1 ++ [x]) /\ match x with inr bs => len bs <= n | inl _ => True end.
Proof.
  unfold tls_read. intros E.
  set (y := match prior t with
    | (Some k, t1) => (inl k, t1)
    | (None, t1) =>
        match read_loop (S (List.length (ts_rx t1))) t1 with
        | (Some k, t2) => (inl k, t2)
        | (None, t2) =>
            match ts_plain t2 with
            | [] => (if ts_closed t2 then inl ConnectionAborted else inr [], t2)
            | p => (inr (firstn (N.to_nat n) p), set_plain t2 (skipn (N.to_nat n) p) (ts_seen t2))
            end
        end
    end) in E.
  assert (Hy : keeps t (snd y) /\ match fst y with inr bs => len bs <= n | inl _ => True end).
  { unfold y. destruct (prior t) as [[k|] t1] eqn:Ep; apply prior_keeps in Ep; [split; cbn; auto|].
    destruct (read_loop (S (List.length (ts_rx t1))) t1) as [[k|] t2] eqn:Er; apply read_loop_keeps in Er; pose proof (keeps_trans _ _ _ Ep Er) as K; [split; cbn; auto|].
    destruct (ts_plain t2) as [|c p] eqn:Epl.
    - destruct (ts_closed t2); cbn; split; auto; lia.
    - cbn [fst snd]. split; [eapply keeps_trans; [exact K|apply set_plain_keeps]|]. unfold len. rewrite firstn_length. lia. }
  destruct y as [x0 t1]. cbn [fst snd] in Hy. inversion E; subst. destruct Hy as [K L]. exists t1. auto.
Qed.

Section Seal.
Variable seal : bytes -> list chunk.
Hypothesis Se : seals seal.

Lemma push_handed t cs : handed (push t cs) = handed t ++ data_of (map ch_what cs).
Proof. unfold handed, delivered, push. cbn. now rewrite map_app, data_of_app, app_assoc. Qed.

Lemma tls_honest : honest tls tls_read (tls_write seal) tls_flush gave handed.
Proof.
  constructor.
  - intros n t x t' _ E. apply tls_read_spec in E as (t1 & K & -> & L). split.
    + change (handed t1 = handed t). now apply keeps_handed.
    + rewrite gave_snoc, (keeps_gave _ _ K). destruct x; auto.
  - intros b t x t' Hb E. unfold tls_write in E. destruct (prior t) as [[k|] t1] eqn:Ep; apply prior_keeps in Ep.
    + inversion E; subst. split; [now apply keeps_gave|now apply keeps_handed].
    + destruct (complete_io (push t1 (seal b))) as [y t2] eqn:Ei. apply io_keeps in Ei. inversion E; subst. split.
      * rewrite (keeps_gave _ _ Ei). change (gave t1 = gave t). now apply keeps_gave.
      * split; [lia|]. rewrite (keeps_handed _ _ Ei), push_handed, (keeps_handed _ _ Ep), (proj1 (Se b)), firstn_all2; auto. unfold len. lia.
  - intros t x t' E. unfold tls_flush in E. destruct (prior t) as [[k|] t1] eqn:Ep; apply prior_keeps in Ep.
    + inversion E; subst. split; [now apply keeps_handed|now apply keeps_gave].
    + assert (K : keeps t1 t').
      { destruct (wants_write t1); [|inversion E; subst; apply keeps_refl]. destruct (complete_io t1) as [y t2] eqn:Ei. apply io_keeps in Ei. destruct y; inversion E; subst; auto. }
      pose proof (keeps_trans _ _ _ Ep K) as K2. split; [now apply keeps_handed|now apply keeps_gave].
Qed.
End Seal.

(** ** Streams that work *)

Definition calm_tx (tx : list wevent) : Prop :=
  Forall takes_or_blocks tx /\ forall a b n, tx = a ++ WFail WouldBlock :: b -> ~ In (WTake n) b.
Lemma calm_tx_tail a b : calm_tx (a ++ b) -> calm_tx b.
Proof.
  intros [F S]. split; [now apply Forall_app in F|]. intros x y n E. subst b. apply (S (a ++ x) y n). now rewrite <- app_assoc.
Qed.
Definition no_takes (tx : list wevent) : Prop := forall n, ~ In (WTake n) tx.
Definition stuck (t : tls) : Prop :=
  (ts_hs t = true /\ Forall (fun e => e = TFail WouldBlock) (ts_rx t)) \/ (ts_queue t <> [] /\ no_takes (ts_tx t)).

Lemma drain_calm tx : forall q out e tx' q' out', calm_tx tx -> drain tx q out = (e, (tx', q', out')) ->
  (exists used, tx = used ++ tx') /\
  match e with Some k => k = WouldBlock /\ q' <> [] /\ no_takes tx' | None => q' = [] end.
Proof.
  induction tx as [|w tx IH]; intros q out e tx' q' out' C E; destruct q as [|c q]; cbn [drain] in E; try (inversion E; subst).
  - split; auto. exists []. reflexivity.
  - split; [exists []; reflexivity|]. repeat split; auto; [discriminate|]. intros n [].
  - split; auto. exists []. reflexivity.
  - destruct w as [n|k].
    + destruct (take_out n (c :: q) out) as [q1 out1]. destruct (IH _ _ _ _ _ _ (calm_tx_tail [WTake n] tx C) E) as ((u & ->) & H).
      split; auto. exists (WTake n :: u). reflexivity.
    + inversion E; subst. destruct C as [F S]. inversion F as [|? ? Hk]; subst. cbn in Hk. subst k. split; [exists [WFail WouldBlock]; reflexivity|].
      repeat split; auto; [discriminate|]. intros m. apply (S [] tx' m). reflexivity.
Qed.

Lemma tls_drain_calm t e t' : calm t -> tls_drain t = (e, t') ->
  calm t' /\ ts_hs t' = ts_hs t /\ ts_bad t' = ts_bad t /\ ts_plain t' = ts_plain t /\ ts_rx t' = ts_rx t /\
  match e with Some k => k = WouldBlock /\ ts_queue t' <> [] /\ no_takes (ts_tx t') | None => ts_queue t' = [] end.
Proof.
  unfold tls_drain. intros (C1 & C2) E. destruct (drain (ts_tx t) (ts_queue t) (ts_out t)) as [e0 [[tx q] out]] eqn:Ed. inversion E; subst.
  destruct (drain_calm _ _ _ _ _ _ _ C2 Ed) as ((u & Eu) & H). cbn. split; [|auto 6]. split; [exact C1|]. cbn. rewrite Eu in C2. eapply calm_tx_tail; exact C2.
Qed.

Lemma absorb_sock rs : forall t, ts_rx (absorb t rs) = ts_rx t /\ ts_tx (absorb t rs) = ts_tx t /\ (ts_hs (absorb t rs) = true -> ts_hs t = true).
Proof.
  induction rs as [|r rs IH]; intros t; cbn; auto. destruct (IH (absorb1 t r)) as (H1 & H2 & H3). fold (absorb (absorb1 t r) rs). rewrite H1, H2.
  assert (X : ts_rx (absorb1 t r) = ts_rx t /\ ts_tx (absorb1 t r) = ts_tx t /\ (ts_hs (absorb1 t r) = true -> ts_hs t = true)).
  { unfold absorb1. destruct (ts_bad t); [auto|]. destruct r as [l y|d| |]; cbn; auto; [|destruct (ts_hs t); cbn; auto].
    destruct (ts_hs t), l; cbn; auto. }
  destruct X as (X1 & X2 & X3). auto.
Qed.
Lemma absorb_hands rs : forall t b, ts_bad t = false -> hands (ts_hs t) rs = Some b ->
  ts_hs (absorb t rs) = b /\ ts_bad (absorb t rs) = false /\ (b = true -> ts_plain (absorb t rs) = ts_plain t).
Proof.
  induction rs as [|r rs IH]; intros t b B H; cbn [hands] in H; cbn [absorb fold_left]; [inversion H; auto|].
  fold (absorb (absorb1 t r) rs). unfold absorb1. rewrite B. destruct r as [l y|d| |]; [| | |discriminate].
  - destruct (IH (mk_tls (ts_hs t && negb l) false (ts_plain t) (ts_closed t) (ts_queue t ++ map (fun n => mk_chunk n Hand) y) (ts_out t) (ts_rx t) (ts_tx t) (ts_seen t)) b eq_refl H) as (H1 & H2 & H3). auto.
  - destruct (ts_hs t) eqn:Eh; [discriminate|].
    destruct (IH (mk_tls false false (ts_plain t ++ d) (ts_closed t) (ts_queue t) (ts_out t) (ts_rx t) (ts_tx t) (ts_seen t)) b eq_refl H) as (H1 & H2 & H3).
    split; auto. split; auto. intros ->. exfalso.
    pose proof (absorb_sock rs (mk_tls false false (ts_plain t ++ d) (ts_closed t) (ts_queue t) (ts_out t) (ts_rx t) (ts_tx t) (ts_seen t))) as (_ & _ & X).
    specialize (X H1). discriminate X.
  - destruct (IH (mk_tls (ts_hs t) false (ts_plain t) true (ts_queue t) (ts_out t) (ts_rx t) (ts_tx t) (ts_seen t)) b eq_refl H) as (H1 & H2 & H3). auto.
Qed.

Lemma io_hs n : forall rd t x t', ts_hs t = true -> calm t -> (List.length (ts_rx t) < n)%nat -> io_loop n true rd t = (x, t') ->
  calm t' /\ match x with inl k => k = WouldBlock /\ stuck t' | inr _ => ts_hs t' = false end.
Proof.
  induction n as [|n IH]; intros rd t x t' Hh C L E; [lia|]. cbn [io_loop negb andb] in E.
  destruct (tls_drain t) as [e t1] eqn:Ed. destruct (tls_drain_calm _ _ _ C Ed) as (C1 & E1 & E2 & E3 & E4 & H).
  destruct e as [k|]. { inversion E; subst. destruct H as (-> & Q & Nt). split; auto. split; auto. right. auto. }
  rewrite Hh in E1. destruct C1 as [C1 C2]. destruct (C1 E1) as (P & B & Sh). rewrite P in E.
  destruct (ts_rx t1) as [|[rs| |k] rx] eqn:Er; cbn [shakes] in Sh.
  - inversion E; subst. split; [split; [rewrite Er|]; auto|]. split; auto. left. rewrite Er. auto.
  - destruct (hands true rs) as [b|] eqn:Hb; [|contradiction].
    destruct (absorb_hands rs (set_rx t1 rx) b B ltac:(cbn; rewrite E1; exact Hb)) as (H1 & H2 & H3).
    destruct (absorb_sock rs (set_rx t1 rx)) as (S1 & S2 & _). cbn [ts_rx ts_tx set_rx] in S1, S2.
    assert (C' : calm (absorb (set_rx t1 rx) rs)).
    { split; [|rewrite S2; exact C2]. intros Hx. rewrite H1 in Hx. rewrite Hx in Sh, H3. split; [rewrite H3 by auto; exact P|]. split; auto. rewrite S1. exact Sh. }
    rewrite H2, H1 in E. destruct b; cbn [negb] in E.
    + eapply IH; eauto. rewrite S1. rewrite <- E4 in L. cbn in L. lia.
    + inversion E; subst. split; auto.
  - contradiction.
  - inversion E; subst. destruct Sh as [-> F]. split; [split; auto; cbn; intros _; split; auto; split; auto; destruct F as [|? ? ? F]; cbn; auto; subst; auto|].
    split; auto. left. auto.
Qed.

Lemma last_gasp_calm t : calm t -> calm (last_gasp t) /\ ts_hs (last_gasp t) = ts_hs t.
Proof.
  intros [C1 C2]. unfold last_gasp. destruct (ts_tx t) as [|[n|k] tx] eqn:E; [split; [split; [auto|rewrite E; auto]|auto]| |].
  - destruct (take_out n (ts_queue t) (ts_out t)) as [q out]. split; [|reflexivity]. split; [exact C1|]. exact (calm_tx_tail [WTake n] tx C2).
  - split; [|reflexivity]. split; [exact C1|]. exact (calm_tx_tail [WFail k] tx C2).
Qed.

Lemma io_up n rd t x t' : ts_hs t = false -> calm t -> io_loop (S n) false rd t = (x, t') ->
  calm t' /\ ts_hs t' = false /\
  (ts_queue t <> [] -> match x with inl k => k = WouldBlock /\ stuck t' | inr _ => ts_queue t' = [] end).
Proof.
  intros Hh C E. cbn [io_loop negb andb] in E.
  destruct (tls_drain t) as [e t1] eqn:Ed. destruct (tls_drain_calm _ _ _ C Ed) as (C1 & E1 & E2 & E3 & E4 & H).
  rewrite Hh in E1.
  destruct e as [k|]. { inversion E; subst. destruct H as (-> & Q & Nt). split; auto. split; auto. intros _. split; auto. right. auto. }
  destruct (ts_queue t) as [|c q]. 2:{ inversion E; subst. auto. }
  assert (Go : forall (rd' : bool) t2, calm t2 -> ts_hs t2 = false -> (if ts_bad t2 then (inl InvalidData, last_gasp t2) else (inr rd', t2)) = (x, t') -> calm t' /\ ts_hs t' = false /\
     (@nil chunk <> [] -> match x with inl k => k = WouldBlock /\ stuck t' | inr _ => ts_queue t' = [] end)).
  { intros rd' t2 C' Hh' X. destruct (ts_bad t2); inversion X; subst.
    - destruct (last_gasp_calm t2 C') as [G1 G2]. split; auto. split; [congruence|]. intros Y. contradiction.
    - split; auto. split; auto. intros Y. contradiction. }
  destruct (ts_plain t1); [|exact (Go _ _ C1 E1 E)].
  assert (Cr : forall rx, calm (set_rx t1 rx)). { intros rx. destruct C1 as [_ C2]. split; auto. cbn. rewrite E1. discriminate. }
  destruct (ts_rx t1) as [|[rs| |k] rx].
  - inversion E; subst. split; auto. split; auto. intros Y. contradiction.
  - apply Go in E; auto.
    + split; [|destruct (absorb_sock rs (set_rx t1 rx)) as (_ & -> & _); apply C1]. intros X. apply absorb_sock in X. cbn in X. congruence.
    + destruct (ts_hs (absorb (set_rx t1 rx) rs)) eqn:X; auto. apply absorb_sock in X. cbn in X. congruence.
  - apply Go in E; auto.
  - inversion E; subst. split; auto. split; auto. intros Y. contradiction.
Qed.

Lemma wants_write_iff t : wants_write t = true <-> ts_queue t <> [].
Proof. unfold wants_write. destruct (ts_queue t); split; intros; try discriminate; auto; contradiction. Qed.

Lemma io_calm t x t' : calm t -> complete_io t = (x, t') -> calm t' /\ (ts_hs t = false -> ts_hs t' = false).
Proof.
  intros C E. unfold complete_io in E. destruct (ts_hs t) eqn:Eh.
  - destruct (io_hs _ _ _ _ _ Eh C (Nat.lt_succ_diag_r _) E) as [C' _]. split; auto. discriminate.
  - destruct (io_up _ _ _ _ _ Eh C E) as (C' & H & _). auto.
Qed.
Lemma prior_calm t x t' : calm t -> prior t = (x, t') ->
  calm t' /\ match x with Some k => k = WouldBlock /\ stuck t' | None => ts_hs t' = false /\ ts_queue t' = [] end.
Proof.
  intros C. unfold prior. destruct (if ts_hs t then complete_io t else (inr false, t)) as [y t1] eqn:E1.
  assert (H1 : calm t1 /\ match y with inl k => k = WouldBlock /\ stuck t1 | inr _ => ts_hs t1 = false end).
  { destruct (ts_hs t) eqn:Eh; [|inversion E1; subst; auto]. unfold complete_io in E1. rewrite Eh in E1.
    destruct (io_hs _ _ _ _ _ Eh C (Nat.lt_succ_diag_r _) E1) as [C1 H1]. auto. }
  destruct H1 as [C1 H1]. destruct y as [k|b]; intros E; [inversion E; subst; auto|].
  destruct (wants_write t1) eqn:Ew.
  - apply wants_write_iff in Ew. destruct (complete_io t1) as [y2 t2] eqn:E2. unfold complete_io in E2. rewrite H1 in E2.
    destruct (io_up _ _ _ _ _ H1 C1 E2) as (C2 & Hh & Hq). specialize (Hq Ew). destruct y2; inversion E; subst; auto.
  - inversion E; subst. split; auto. split; auto. destruct (ts_queue t') eqn:Eq; auto. exfalso.
    assert (wants_write t' = true) by (apply wants_write_iff; rewrite Eq; discriminate). congruence.
Qed.

Lemma drain_stuck tx : forall q out, calm_tx tx -> q <> [] -> no_takes tx -> exists r, drain tx q out = (Some WouldBlock, r).
Proof.
  intros q out [F _] Q Nt. destruct q as [|c q]; [contradiction|]. destruct tx as [|[n|k] tx]; cbn [drain]; [eauto| |].
  - exfalso. apply (Nt n). left. reflexivity.
  - inversion F as [|? ? Hk]; subst. cbn in Hk. subst. eauto.
Qed.
Lemma tls_drain_stuck t : calm t -> ts_queue t <> [] -> no_takes (ts_tx t) -> exists t', tls_drain t = (Some WouldBlock, t').
Proof. intros [_ C] Q Nt. unfold tls_drain. destruct (drain_stuck _ _ (ts_out t) C Q Nt) as [[[a b] c] ->]. eauto. Qed.

Lemma stuck_prior t : calm t -> stuck t -> exists t', prior t = (Some WouldBlock, t').
Proof.
  intros C S. unfold prior. destruct (ts_hs t) eqn:Eh.
  - unfold complete_io. rewrite Eh. cbn [io_loop negb andb]. destruct S as [[_ F]|[Q Nt]].
    + destruct (tls_drain t) as [e t1] eqn:Ed. destruct (tls_drain_calm _ _ _ C Ed) as (C1 & E1 & E2 & E3 & E4 & H).
      destruct e as [k|]; [destruct H as [-> _]; eauto|]. rewrite Eh in E1. destruct C1 as [C1 _]. destruct (C1 E1) as (P & _). rewrite P, E4.
      destruct F as [|r rx -> F]; eauto.
    + destruct (tls_drain_stuck t C Q Nt) as [t1 ->]. eauto.
  - destruct S as [[X _]|[Q Nt]]; [congruence|]. rewrite (proj2 (wants_write_iff t) Q). unfold complete_io. rewrite Eh.
    cbn [io_loop negb andb]. destruct (tls_drain_stuck t C Q Nt) as [t1 ->]. eauto.
Qed.

Lemma read_loop_calm n : forall t x t', calm t -> read_loop n t = (x, t') -> calm t'.
Proof.
  induction n as [|n IH]; intros t x t' C E; cbn [read_loop] in E; destruct (ts_plain t); try (inversion E; subst; auto; fail).
  destruct (complete_io t) as [y t1] eqn:E1. apply (io_calm _ _ _ C) in E1 as [C1 _]. destruct y as [k|[|]]; [inversion E; subst; auto|eauto|inversion E; subst; auto].
Qed.
Lemma calm_plain t p s : calm t -> ts_hs t = false -> calm (set_plain t p s).
Proof. intros [C1 C2] Hh. split; auto. cbn. congruence. Qed.
Lemma calm_seen t s : calm t -> calm (set_plain t (ts_plain t) s).
Proof. intros C. exact C. Qed.
Lemma stuck_seen t s : stuck t -> stuck (set_plain t (ts_plain t) s).
Proof. intros C. exact C. Qed.
Lemma read_loop_hs n : forall t x t', calm t -> ts_hs t = false -> read_loop n t = (x, t') -> ts_hs t' = false.
Proof.
  induction n as [|n IH]; intros t x t' C Hh E; cbn [read_loop] in E; destruct (ts_plain t); try (inversion E; subst; auto; fail).
  destruct (complete_io t) as [y t1] eqn:E1. apply (io_calm _ _ _ C) in E1 as [C1 H1]. specialize (H1 Hh). destruct y as [k|[|]]; [inversion E; subst; auto|eauto|inversion E; subst; auto].
Qed.

Lemma tls_read_calm n t x t' : calm t -> tls_read n t = (x, t') -> calm t' /\ (stuck t -> x = inl WouldBlock /\ stuck t').
Proof.
  intros C E. unfold tls_read in E. destruct (prior t) as [y t1] eqn:Ep. pose proof (prior_calm _ _ _ C Ep) as [C1 H1].
  destruct y as [k|].
  - inversion E; subst. destruct H1 as [-> S]. split; [exact C1|]. intros _. split; [reflexivity|exact S].
  - destruct H1 as [Hh Q]. split.
    + destruct (read_loop (S (List.length (ts_rx t1))) t1) as [[k|] t2] eqn:Er; pose proof (read_loop_calm _ _ _ _ C1 Er) as C2; pose proof (read_loop_hs _ _ _ _ C1 Hh Er) as H2.
      * inversion E; subst. exact C2.
      * destruct (ts_plain t2) as [|c p]; inversion E; subst; [exact C2|]. exact (calm_plain _ _ _ C2 H2).
    + intros S. destruct (stuck_prior _ C S) as [t0 X]. congruence.
Qed.

Section Foresee.
Variable seal : bytes -> list chunk.
Hypothesis Se : seals seal.

Lemma tls_write_calm b t x t' : calm t -> tls_write seal b t = (x, t') ->
  calm t' /\ match x with WErr k => k = WouldBlock /\ stuck t' | WOk _ => ~ stuck t end.
Proof.
  intros C E. unfold tls_write in E. destruct (prior t) as [[k|] t1] eqn:Ep; pose proof (prior_calm _ _ _ C Ep) as [C1 H1].
  - inversion E; subst. auto.
  - destruct H1 as [Hh Q]. destruct (complete_io (push t1 (seal b))) as [y t2] eqn:Ei. inversion E; subst.
    assert (Cp : calm (push t1 (seal b))) by exact C1. destruct (io_calm _ _ _ Cp Ei) as [C2 _]. split; auto.
    intros S. destruct (stuck_prior _ C S) as [t0 X]. congruence.
Qed.
Lemma tls_flush_calm t x t' : calm t -> tls_flush t = (x, t') ->
  calm t' /\ (x = WOk tt \/ x = WErr WouldBlock) /\ (stuck t -> stuck t').
Proof.
  intros C E. unfold tls_flush in E. destruct (prior t) as [[k|] t1] eqn:Ep; pose proof (prior_calm _ _ _ C Ep) as [C1 H1].
  - inversion E; subst. destruct H1 as [-> S]. auto.
  - destruct H1 as [Hh Q]. assert (Ew : wants_write t1 = false) by (unfold wants_write; now rewrite Q). rewrite Ew in E. inversion E; subst.
    split; auto. split; auto. intros S. destruct (stuck_prior _ C S) as [t0 X]. congruence.
Qed.

(** What the writes and flushes of such a stream can do until the call of the handler ends. *)
Definition tls_G (t : tls) (ws : list wevent) (fl : list (option ekind)) : Prop :=
  calm t -> visit_fine (mk_visit ws fl) /\ visit_steady (mk_visit ws fl) /\ (stuck t -> no_takes ws).

Lemma tls_foresees : foresees tls tls_read (tls_write seal) tls_flush tls_G.
Proof.
  constructor.
  - intros t _. split; [split; constructor|]. split; [intros [|] ? ? X; discriminate X|intros _ n []].
  - intros n t x t' ws fs E H C. destruct (tls_read_calm _ _ _ _ C E) as [C' S]. destruct (H C') as (H1 & H2 & H3). split; auto. split; auto. intros X. apply H3. now apply S.
  - intros b t x t' ws fs Hb E H C. destruct (tls_write_calm _ _ _ _ C E) as [C' S]. destruct (H C') as ((H1 & H1') & H2 & H3).
    destruct x as [n|k]; cbn [event_of].
    + split; [split; [constructor; auto|auto]|]. split; [|intros X; contradiction]. intros [|a0 a] b0 m X; cbn in X; [discriminate|]. inversion X; subst. apply (H2 a b0 m). reflexivity.
    + destruct S as [-> S]. specialize (H3 S). split; [split; [constructor; auto|auto]|]. split.
      * intros [|a0 a] b0 m X; cbn in X; inversion X; subst; [apply H3|apply (H2 a b0 m)]; reflexivity.
      * intros _ m [X|X]; [discriminate|]. exact (H3 m X).
  - intros t x t' ws fs E H C. destruct (tls_flush_calm _ _ _ C E) as (C' & Hx & S). destruct (H C') as ((H1 & H1') & H2 & H3).
    split; [split; [auto|]|split; auto]. constructor; auto. destruct Hx as [-> | ->]; cbn; auto.
Qed.
Lemma tls_gentle : gentle tls calm tls_G.
Proof. intros t ws fs C H. destruct (H C) as (H1 & H2 & _). auto. Qed.
Lemma tls_lasts fs : Forall (fun f => forall t, calm t -> calm (f t)) fs -> lasts tls tls_read (tls_write seal) tls_flush calm fs.
Proof.
  intros F. constructor; auto.
  - intros n t x t' E C. now apply (tls_read_calm n t x t').
  - intros b t x t' _ E C. now apply (tls_write_calm b t x t').
  - intros t x t' E C. now apply (tls_flush_calm t x t').
Qed.
End Foresee.

Lemma around_outside f : around f -> outside_only tls gave handed f.
Proof. intros H t. destruct (H t) as (rx & tx & ->). split; reflexivity. Qed.

(** ** Flushed, blocked, shaking hands *)

Lemma io_hs_done n : forall rd t b t', io_loop n true rd t = (inr b, t') -> ts_hs t' = false.
Proof.
  induction n as [|n IH]; intros rd t b t' E; cbn [io_loop negb andb] in E; [discriminate|].
  destruct (tls_drain t) as [[k|] t1]; [discriminate|].
  assert (Go : forall (eof rd' : bool) t2, (if ts_bad t2 then (inl InvalidData, last_gasp t2) else if negb (ts_hs t2) then (inr rd', t2)
     else if eof then (inl UnexpectedEof, t2) else io_loop n true rd' t2) = (inr b, t') -> ts_hs t' = false).
  { intros eof rd' t2 X. destruct (ts_bad t2); [discriminate|]. destruct (ts_hs t2) eqn:Eh; cbn [negb] in X; [destruct eof; [discriminate|eauto]|]. inversion X; subst; auto. }
  destruct (ts_plain t1) as [|c p]; [|exact (Go false _ _ E)].
  destruct (ts_rx t1) as [|[rs| |k] rx]; [discriminate|exact (Go false _ _ E)|exact (Go true _ _ E)|discriminate].
Qed.
Lemma drain_none tx : forall q out tx' q' out', drain tx q out = (None, (tx', q', out')) -> q' = [].
Proof.
  induction tx as [|w tx IH]; intros q out tx' q' out' E; destruct q as [|c q]; cbn [drain] in E; try (inversion E; subst; auto; fail).
  destruct w as [n|k]; [|discriminate]. destruct (take_out n (c :: q) out) as [q1 out1]. eauto.
Qed.
Lemma prior_done t t' : prior t = (None, t') -> ts_queue t' = [].
Proof.
  unfold prior. destruct (if ts_hs t then complete_io t else (inr false, t)) as [y t1] eqn:E1. intros E. destruct y as [k|b]; [discriminate|].
  assert (Hh : ts_hs t1 = false). { destruct (ts_hs t) eqn:Eh; [|inversion E1; subst; auto]. unfold complete_io in E1. rewrite Eh in E1. eapply io_hs_done; eauto. }
  destruct (wants_write t1) eqn:Ew.
  - apply wants_write_iff in Ew. unfold complete_io in E. rewrite Hh in E. cbn [io_loop negb andb] in E. unfold tls_drain in E.
    destruct (drain (ts_tx t1) (ts_queue t1) (ts_out t1)) as [[k|] [[tx q] out]] eqn:Ed; [discriminate|]. apply drain_none in Ed. subst q.
    destruct (ts_queue t1); [contradiction|]. inversion E; subst. reflexivity.
  - inversion E; subst. unfold wants_write in Ew. destruct (ts_queue t'); [auto|discriminate].
Qed.
Lemma flush_done t u t' : tls_flush t = (WOk u, t') -> ts_queue t' = [].
Proof.
  unfold tls_flush. destruct (prior t) as [[k|] t1] eqn:E; [discriminate|]. apply prior_done in E. unfold wants_write. rewrite E. intros X. inversion X; subst. auto.
Qed.

Lemma blocked_prior t : blocked t -> exists t', prior t = (Some WouldBlock, t') /\ blocked t'.
Proof.
  intros (Hh & Q & F). unfold prior. rewrite Hh, (proj2 (wants_write_iff t) Q). unfold complete_io. rewrite Hh. cbn [io_loop negb andb]. unfold tls_drain.
  destruct (ts_queue t) as [|c q] eqn:Eq; [contradiction|]. destruct (ts_tx t) as [|w tx] eqn:Et; cbn [drain].
  - eexists. split; [reflexivity|]. repeat split; cbn; auto.
  - inversion F; subst. eexists. split; [reflexivity|]. repeat split; cbn; auto.
Qed.

Section Waiting.
Variable seal : bytes -> list chunk.
Hypothesis Se : seals seal.
Variable g0 : list what.
Variable h0 : bytes.
(** Nothing is handed over or given any more. *)
Definition waiting (t : tls) : Prop := blocked t /\ handed t = h0 /\ exists m, gave t = g0 ++ repeat (Failure WouldBlock) m.

Lemma prior_waiting t t' k : waiting t -> prior t = (k, t') -> k = Some WouldBlock /\ waiting t'.
Proof.
  intros (B & H & m & G) E. destruct (blocked_prior t B) as (t1 & E1 & B1). rewrite E1 in E. inversion E; subst. split; auto.
  pose proof (prior_keeps _ _ _ E1) as K. split; auto. split; [now rewrite (keeps_handed _ _ K)|]. exists m. now rewrite (keeps_gave _ _ K).
Qed.
Lemma read_waiting n t x t' : tls_read n t = (x, t') -> waiting t -> waiting t'.
Proof.
  unfold tls_read. intros E W. destruct (prior t) as [k t1] eqn:Ep. destruct (prior_waiting _ _ _ W Ep) as (-> & B & H & m & G). inversion E; subst.
  split; [exact B|]. split; [exact H|]. exists (S m). rewrite gave_snoc, G, <- app_assoc. cbn [repeat]. now rewrite repeat_cons.
Qed.
Lemma write_waiting b t x t' : b <> [] -> tls_write seal b t = (x, t') -> waiting t -> waiting t'.
Proof.
  unfold tls_write. intros _ E W. destruct (prior t) as [k t1] eqn:Ep. destruct (prior_waiting _ _ _ W Ep) as (-> & W1). inversion E; subst. auto.
Qed.
Lemma flush_waiting t x t' : tls_flush t = (x, t') -> waiting t -> waiting t'.
Proof.
  unfold tls_flush. intros E W. destruct (prior t) as [k t1] eqn:Ep. destruct (prior_waiting _ _ _ W Ep) as (-> & W1). inversion E; subst. auto.
Qed.
End Waiting.

(** Before the handshake is over. *)
Definition early (t : tls) : Prop :=
  ts_hs t = true -> ts_plain t = [] /\ handed t = [] /\ forall x bs, In x (ts_seen t) -> x = inr bs -> bs = [].

Lemma absorb_plain rs : forall t, ts_hs (absorb t rs) = true -> ts_plain (absorb t rs) = ts_plain t.
Proof.
  induction rs as [|r rs IH]; intros t H; cbn in *; auto. fold (absorb (absorb1 t r) rs) in *. rewrite IH by auto.
  apply absorb_sock in H. unfold absorb1 in *. destruct (ts_bad t); auto. destruct r as [l y|d| |]; auto. destruct (ts_hs t); auto. discriminate H.
Qed.
Lemma drain_fields t e t' : tls_drain t = (e, t') -> ts_hs t' = ts_hs t /\ ts_plain t' = ts_plain t.
Proof. unfold tls_drain. destruct (drain (ts_tx t) (ts_queue t) (ts_out t)) as [e0 [[tx q] out]]. intros X. inversion X; subst. auto. Qed.
Lemma gasp_fields t : ts_hs (last_gasp t) = ts_hs t /\ ts_plain (last_gasp t) = ts_plain t.
Proof. unfold last_gasp. destruct (ts_tx t) as [|[n|k] tx]; auto. destruct (take_out n (ts_queue t) (ts_out t)). auto. Qed.
Definition slow (t t' : tls) : Prop := ts_hs t' = true -> ts_hs t = true /\ ts_plain t' = ts_plain t.
Lemma slow_refl t : slow t t. Proof. intros H. auto. Qed.
Lemma slow_trans a b c : slow a b -> slow b c -> slow a c.
Proof. intros H1 H2 H. destruct (H2 H) as [H3 E]. destruct (H1 H3) as [H4 E2]. split; auto. congruence. Qed.
Lemma io_loop_slow n until : forall rd t x t', io_loop n until rd t = (x, t') -> slow t t'.
Proof.
  induction n as [|n IH]; intros rd t x t' E; cbn [io_loop] in E; [inversion E; subst; apply slow_refl|].
  destruct (tls_drain t) as [e t1] eqn:Ed. apply drain_fields in Ed as [D1 D2]. apply slow_trans with t1; [intros H; rewrite <- D1; auto|].
  destruct e as [k|]; [inversion E; subst; apply slow_refl|].
  destruct (negb until && _); [inversion E; subst; apply slow_refl|].
  assert (Go : forall (eof rd' : bool) t2, (if ts_bad t2 then (inl InvalidData, last_gasp t2) else if negb until then (inr rd', t2) else if negb (ts_hs t2) then (inr rd', t2)
     else if eof then (inl UnexpectedEof, t2) else io_loop n until rd' t2) = (x, t') -> slow t2 t').
  { intros eof rd' t2 X. destruct (ts_bad t2); [inversion X; subst; intros H; destruct (gasp_fields t2) as [G1 G2]; rewrite G1 in H; auto|]. destruct (negb until); [inversion X; subst; apply slow_refl|].
    destruct (negb (ts_hs t2)); [inversion X; subst; apply slow_refl|]. destruct eof; [inversion X; subst; apply slow_refl|eauto]. }
  destruct (ts_plain t1) as [|c p] eqn:Epl; [|exact (Go false _ _ E)].
  destruct (ts_rx t1) as [|[rs| |k] rx].
  - inversion E; subst; apply slow_refl.
  - apply (Go false) in E. eapply slow_trans; [|exact E]. intros H. split; [apply absorb_sock in H; exact H|]. rewrite absorb_plain by auto. reflexivity.
  - apply (Go true) in E. exact E.
  - inversion E; subst. exact (slow_refl t1).
Qed.
Lemma io_slow t x t' : complete_io t = (x, t') -> slow t t'.
Proof. apply io_loop_slow. Qed.
Lemma prior_slow t x t' : prior t = (x, t') -> slow t t' /\ (x = None -> ts_hs t' = false).
Proof.
  unfold prior. destruct (if ts_hs t then complete_io t else (inr false, t)) as [y t1] eqn:E1.
  assert (K1 : slow t t1). { destruct (ts_hs t); [eapply io_slow; eauto|]. inversion E1; subst. apply slow_refl. }
  assert (Hh : forall b, y = inr b -> ts_hs t1 = false).
  { intros b ->. destruct (ts_hs t) eqn:Eh; [|inversion E1; subst; auto]. unfold complete_io in E1. rewrite Eh in E1. eapply io_hs_done; eauto. }
  intros E. destruct y as [k|b]; [inversion E; subst; split; auto; discriminate|]. specialize (Hh b eq_refl). destruct (wants_write t1); [|inversion E; subst; auto].
  destruct (complete_io t1) as [y2 t2] eqn:E2. apply io_slow in E2. destruct y2; inversion E; subst; (split; [eapply slow_trans; eauto|]); [discriminate|].
  intros _. destruct (ts_hs t') eqn:X; auto. destruct (E2 X). congruence.
Qed.
Lemma read_loop_slow n : forall t x t', read_loop n t = (x, t') -> slow t t'.
Proof.
  induction n as [|n IH]; intros t x t' E; cbn [read_loop] in E; destruct (ts_plain t) as [|c p]; try (inversion E; subst; apply slow_refl).
  destruct (complete_io t) as [y t1] eqn:E1. apply io_slow in E1. eapply slow_trans; [exact E1|]. destruct y as [k|[|]]; [inversion E; subst; apply slow_refl|eauto|inversion E; subst; apply slow_refl].
Qed.
Lemma early_step t t' : slow t t' -> keeps t t' -> early t -> early t'.
Proof.
  intros S K E H. destruct (S H) as [H1 H2]. destruct (E H1) as (E1 & E2 & E3). rewrite H2, (keeps_handed _ _ K). split; auto. split; auto. destruct K as [-> _]. exact E3.
Qed.
Lemma early_up t : ts_hs t = false -> early t.
Proof. intros H X. congruence. Qed.

Lemma read_early n t x t' : tls_read n t = (x, t') -> early t -> early t'.
Proof.
  intros E Ea. unfold tls_read in E. destruct (prior t) as [[k|] t1] eqn:Ep; pose proof (prior_slow _ _ _ Ep) as [S1 Hn]; pose proof (prior_keeps _ _ _ Ep) as K1.
  - inversion E; subst. pose proof (early_step _ _ S1 K1 Ea) as E1. intros H. destruct (E1 H) as (X1 & X2 & X3). split; auto. split; auto.
    cbn. intros y bs I ->. apply in_app_or in I as [I|[I|[]]]; [eauto|discriminate].
  - specialize (Hn eq_refl). destruct (read_loop (S (List.length (ts_rx t1))) t1) as [[k|] t2] eqn:Er; pose proof (read_loop_slow _ _ _ _ Er) as S2;
      assert (H2 : ts_hs t2 = false) by (destruct (ts_hs t2) eqn:X; auto; destruct (S2 X); congruence).
    + inversion E; subst. now apply early_up.
    + destruct (ts_plain t2) as [|c p]; inversion E; subst; now apply early_up.
Qed.
Lemma write_early seal b t x t' : tls_write seal b t = (x, t') -> early t -> early t'.
Proof.
  intros E Ea. unfold tls_write in E. destruct (prior t) as [[k|] t1] eqn:Ep; pose proof (prior_slow _ _ _ Ep) as [S1 Hn]; pose proof (prior_keeps _ _ _ Ep) as K1.
  - inversion E; subst. eapply early_step; eauto.
  - specialize (Hn eq_refl). destruct (complete_io (push t1 (seal b))) as [y t2] eqn:Ei. apply io_slow in Ei. inversion E; subst. apply early_up.
    destruct (ts_hs t') eqn:X; auto. destruct (Ei X) as [Y _]. cbn in Y. congruence.
Qed.
Lemma flush_early t x t' : tls_flush t = (x, t') -> early t -> early t'.
Proof.
  intros E Ea. unfold tls_flush in E. destruct (prior t) as [[k|] t1] eqn:Ep; pose proof (prior_slow _ _ _ Ep) as [S1 Hn]; pose proof (prior_keeps _ _ _ Ep) as K1.
  - inversion E; subst. eapply early_step; eauto.
  - specialize (Hn eq_refl). pose proof (prior_done _ _ Ep) as Q. unfold wants_write in E. rewrite Q in E. inversion E; subst. now apply early_up.
Qed.

(** ** The end *)

(** Until it is dropped a stream does not say that it closes. *)
Definition open_line (t : tls) : Prop := ~ In Notify (line t).
Lemma keeps_open t t' : keeps t t' -> open_line t -> open_line t'.
Proof. intros (_ & m & L & _ & Nm) O. unfold open_line. rewrite L. intros X. apply in_app_or in X as [X|X]; [exact (O X)|exact (Nm X)]. Qed.
Lemma read_open n t x t' : tls_read n t = (x, t') -> open_line t -> open_line t'.
Proof. intros E O. apply tls_read_spec in E as (t1 & K & -> & _). exact (keeps_open _ _ K O). Qed.
Lemma write_open seal b t x t' : seals seal -> tls_write seal b t = (x, t') -> open_line t -> open_line t'.
Proof.
  intros Se E O. unfold tls_write in E. destruct (prior t) as [[k|] t1] eqn:Ep; apply prior_keeps in Ep; [inversion E; subst; eapply keeps_open; eauto|].
  destruct (complete_io (push t1 (seal b))) as [y t2] eqn:Ei. apply io_keeps in Ei. inversion E; subst. apply (keeps_open _ _ Ei).
  pose proof (keeps_open _ _ Ep O) as O1. unfold open_line, line, push in *. cbn. rewrite map_app, app_assoc. intros X. apply in_app_or in X as [X|X]; [auto|]. now apply (proj2 (proj2 (Se b))).
Qed.
Lemma flush_keeps t x t' : tls_flush t = (x, t') -> keeps t t'.
Proof.
  intros E. unfold tls_flush in E. destruct (prior t) as [[k|] t1] eqn:Ep; apply prior_keeps in Ep; [inversion E; subst; auto|].
  destruct (wants_write t1); [|inversion E; subst; auto]. destruct (complete_io t1) as [y t2] eqn:Ei. apply io_keeps in Ei. destruct y; inversion E; subst; eapply keeps_trans; eauto.
Qed.
Lemma flush_open t x t' : tls_flush t = (x, t') -> open_line t -> open_line t'.
Proof. intros E. apply keeps_open. eapply flush_keeps; eauto. Qed.

Lemma only_one {A} (x : A) l : forall a r m, ~ In x l -> ~ In x m -> a ++ x :: r = l ++ x :: m -> a = l /\ r = m.
Proof.
  induction l as [|y l IH]; intros [|z a] r m H1 H2 E; cbn in E; inversion E; subst; auto.
  - exfalso. apply H2. rewrite in_app_iff. right. now left.
  - exfalso. apply H1. now left.
  - destruct (IH a r m) as [-> ->]; cbn in *; auto.
Qed.
Lemma drop_line t : exists more, line (tls_drop t) = line t ++ Notify :: more /\ data_of more = [] /\ ~ In Notify more.
Proof.
  unfold tls_drop. destruct (tls_flush (push t [mk_chunk 1 Notify])) as [x t'] eqn:E. apply flush_keeps in E as (_ & m & L & D & Nm). exists m.
  cbn [snd]. rewrite L. unfold line, push. cbn. rewrite map_app, app_assoc. cbn. rewrite <- app_assoc. auto.
Qed.
Lemma drop_spec t a b : open_line t -> ts_out (tls_drop t) = a ++ Notify :: b ->
  a = line t /\ data_of b = [] /\ ~ In Notify b.
Proof.
  intros O E. destruct (drop_line t) as (m & L & D & Nm). unfold line at 1 in L. rewrite E in L.
  rewrite <- app_assoc in L. cbn [app] in L.
  destruct (only_one _ _ _ _ _ O Nm L) as [-> X]. split; auto. subst m. rewrite data_of_app in D. apply app_eq_nil in D as [D _]. split; auto.
  intros Y. apply Nm. rewrite in_app_iff. auto.
Qed.

(** The bytes that the socket has still to take. *)
Definition to_send (q : list chunk) : N := fold_right (fun c n => ch_left c + n) 0 q.
Lemma take_out_whole q : forall n out, to_send q <= n -> take_out n q out = ([], out ++ map ch_what q).
Proof.
  induction q as [|c q IH]; intros n out H; cbn [take_out map]; [now rewrite app_nil_r|]. cbn [to_send fold_right] in H. fold (to_send q) in H.
  destruct (ch_left c <=? n) eqn:E; [|apply N.leb_gt in E; lia]. rewrite IH by lia. now rewrite <- app_assoc.
Qed.
Lemma to_send_app a b : to_send (a ++ b) = to_send a + to_send b.
Proof. induction a as [|c a IH]; cbn; auto. fold (to_send (a ++ b)) (to_send a). rewrite IH. lia. Qed.
Lemma drop_whole t n tx : ts_hs t = false -> ts_tx t = WTake n :: tx -> to_send (ts_queue t) + 1 <= n ->
  ts_out (tls_drop t) = line t ++ [Notify].
Proof.
  intros Hh Et L. unfold tls_drop, tls_flush, prior. cbn [push set_out ts_hs]. rewrite Hh.
  set (t1 := set_out t (ts_tx t) (ts_queue t ++ [mk_chunk 1 Notify]) (ts_out t)).
  assert (Q : ts_queue t1 <> []). { unfold t1. cbn. destruct (ts_queue t); discriminate. }
  fold (push t [mk_chunk 1 Notify]). change (push t [mk_chunk 1 Notify]) with t1.
  rewrite (proj2 (wants_write_iff t1) Q). unfold complete_io. change (ts_hs t1) with (ts_hs t). rewrite Hh. cbn [io_loop negb andb].
  assert (D : tls_drain t1 = (None, set_out t1 tx [] (line t ++ [Notify]))).
  { unfold tls_drain. change (ts_tx t1) with (ts_tx t). rewrite Et. destruct (ts_queue t1) as [|c q] eqn:Eq; [contradiction|]. cbn [drain]. rewrite take_out_whole.
    2:{ rewrite <- Eq. unfold t1. cbn [ts_queue set_out]. rewrite to_send_app. cbn. lia. }
    destruct tx; cbn [drain]; rewrite <- Eq; unfold t1, line; cbn [ts_queue ts_out set_out]; rewrite map_app, app_assoc; reflexivity. }
  rewrite D. destruct (ts_queue t1); [contradiction|]. reflexivity.
Qed.

(** ** What a read that would block waits for *)

Definition steady_rx (rx : list tread) : Prop := forall a b, rx = a ++ TFail WouldBlock :: b -> Forall (fun e => e = TFail WouldBlock) b.
Lemma steady_rx_tail a b : steady_rx (a ++ b) -> steady_rx b.
Proof. intros H x y E. subst b. apply (H (a ++ x) y). now rewrite <- app_assoc. Qed.
Lemma steady_mk t : calm_tx (ts_tx t) -> steady_rx (ts_rx t) -> steady t.
Proof. intros [H1 H2] H3. split; [|split]; auto. Qed.
Lemma steady_tx t : steady t -> calm_tx (ts_tx t).
Proof. intros (H1 & H2 & _). split; auto. Qed.
Lemma steady_r t : steady t -> steady_rx (ts_rx t).
Proof. intros (_ & _ & H). exact H. Qed.

Lemma drain_steady t e t' : steady t -> tls_drain t = (e, t') -> steady t' /\ ts_rx t' = ts_rx t /\
  match e with Some k => k = WouldBlock /\ waits t' | None => ts_queue t' = [] end.
Proof.
  unfold tls_drain. intros S E. destruct (drain (ts_tx t) (ts_queue t) (ts_out t)) as [e0 [[tx q] out]] eqn:Ed. inversion E; subst.
  pose proof (steady_tx _ S) as C. destruct (drain_calm _ _ _ _ _ _ _ C Ed) as ((u & Eu) & H). split.
  - apply steady_mk; cbn; [rewrite Eu in C; eapply calm_tx_tail; exact C|now apply steady_r].
  - split; auto. destruct e as [k|]; [|exact H]. destruct H as (-> & Q & Nt). split; auto. right. auto.
Qed.
Lemma gasp_steady t : steady t -> steady (last_gasp t).
Proof.
  intros S. pose proof (steady_tx _ S) as C. pose proof (steady_r _ S) as D. unfold last_gasp. destruct (ts_tx t) as [|[n|k] tx] eqn:E; auto.
  - destruct (take_out n (ts_queue t) (ts_out t)) as [q out]. apply steady_mk; cbn; auto. exact (calm_tx_tail [WTake n] tx C).
  - apply steady_mk; cbn; auto. exact (calm_tx_tail [WFail k] tx C).
Qed.
Lemma io_loop_steady n until : forall rd t x t', io_loop n until rd t = (x, t') -> steady t -> steady t' /\ (x = inl WouldBlock -> waits t').
Proof.
  induction n as [|n IH]; intros rd t x t' E S; cbn [io_loop] in E; [inversion E; subst; split; auto; discriminate|].
  destruct (tls_drain t) as [e t1] eqn:Ed. destruct (drain_steady _ _ _ S Ed) as (S1 & Er & H).
  destruct e as [k|]; [inversion E; subst; split; auto; intros; apply H|].
  destruct (negb until && _); [inversion E; subst; split; auto; discriminate|].
  assert (Go : forall (eof rd' : bool) t2, steady t2 -> (if ts_bad t2 then (inl InvalidData, last_gasp t2) else if negb until then (inr rd', t2) else if negb (ts_hs t2) then (inr rd', t2)
     else if eof then (inl UnexpectedEof, t2) else io_loop n until rd' t2) = (x, t') -> steady t' /\ (x = inl WouldBlock -> waits t')).
  { intros eof rd' t2 S2 X. destruct (ts_bad t2); [inversion X; subst; split; [now apply gasp_steady|discriminate]|]. destruct (negb until); [inversion X; subst; split; auto; discriminate|].
    destruct (negb (ts_hs t2)); [inversion X; subst; split; auto; discriminate|]. destruct eof; [inversion X; subst; split; auto; discriminate|eauto]. }
  destruct (ts_plain t1) as [|c p] eqn:Epl; [|exact (Go false _ _ S1 E)].
  pose proof (steady_tx _ S1) as Tx. pose proof (steady_r _ S1) as Rx.
  assert (Sr : forall e rx, ts_rx t1 = e :: rx -> steady (set_rx t1 rx)).
  { intros e rx X. rewrite X in Rx. apply steady_mk; cbn; auto. exact (steady_rx_tail [e] rx Rx). }
  destruct (ts_rx t1) as [|[rs| |k] rx] eqn:E1.
  - inversion E; subst. split; auto. intros _. left. rewrite E1. auto.
  - apply (Go false) in E; auto. specialize (Sr _ _ eq_refl). destruct (absorb_sock rs (set_rx t1 rx)) as (A1 & A2 & _). apply steady_mk; [rewrite A2|rewrite A1]; [now apply steady_tx|now apply steady_r].
  - apply (Go true) in E; auto. exact (Sr _ _ eq_refl).
  - inversion E; subst. split; [exact (Sr _ _ eq_refl)|]. intros X. inversion X; subst. left. cbn. split; auto. exact (Rx [] rx eq_refl).
Qed.
Lemma prior_steady t x t' : prior t = (x, t') -> steady t -> steady t' /\ (x = Some WouldBlock -> waits t').
Proof.
  unfold prior. intros E S. destruct (if ts_hs t then complete_io t else (inr false, t)) as [y t1] eqn:E1.
  assert (H1 : steady t1 /\ (y = inl WouldBlock -> waits t1)). { destruct (ts_hs t); [eapply io_loop_steady; eauto|]. inversion E1; subst. split; auto. discriminate. }
  destruct H1 as [S1 H1]. destruct y as [k|b]; [inversion E; subst; split; auto; intros X; inversion X; subst; auto|].
  destruct (wants_write t1); [|inversion E; subst; split; auto; discriminate].
  destruct (complete_io t1) as [y2 t2] eqn:E2. apply io_loop_steady in E2; auto. destruct E2 as [S2 H2]. destruct y2; inversion E; subst; split; auto; [intros X; inversion X; subst; auto|discriminate].
Qed.
Lemma read_loop_steady n : forall t x t', read_loop n t = (x, t') -> steady t -> steady t' /\ (x = Some WouldBlock -> waits t').
Proof.
  induction n as [|n IH]; intros t x t' E S; cbn [read_loop] in E; destruct (ts_plain t) as [|c p]; try (inversion E; subst; split; auto; discriminate).
  destruct (complete_io t) as [y t1] eqn:E1. apply io_loop_steady in E1; auto. destruct E1 as [S1 H1].
  destruct y as [k|[|]]; [inversion E; subst; split; auto; intros X; inversion X; subst; auto|eauto|inversion E; subst; split; auto; discriminate].
Qed.
Lemma read_steady n t x t' : tls_read n t = (x, t') -> steady t -> steady t' /\ (x = inl WouldBlock -> waits t').
Proof.
  unfold tls_read. intros E S. destruct (prior t) as [[k|] t1] eqn:Ep; apply prior_steady in Ep; auto; destruct Ep as [S1 H1].
  - inversion E; subst. split; [exact S1|]. intros X. inversion X; subst. exact (H1 eq_refl).
  - destruct (read_loop (Datatypes.S (List.length (ts_rx t1))) t1) as [[k|] t2] eqn:Er; apply read_loop_steady in Er; auto; destruct Er as [S2 H2].
    + inversion E; subst. split; [exact S2|]. intros X. inversion X; subst. exact (H2 eq_refl).
    + destruct (ts_plain t2) as [|c p]; inversion E; subst; (split; [exact S2|]); [destruct (ts_closed t2)|]; discriminate.
Qed.
Lemma write_steady seal b t x t' : tls_write seal b t = (x, t') -> steady t -> steady t'.
Proof.
  unfold tls_write. intros E S. destruct (prior t) as [[k|] t1] eqn:Ep; apply prior_steady in Ep; auto; destruct Ep as [S1 _]; [inversion E; subst; auto|].
  destruct (complete_io (push t1 (seal b))) as [y t2] eqn:Ei. apply io_loop_steady in Ei; [|exact S1]. inversion E; subst. apply Ei.
Qed.
Lemma flush_steady t x t' : tls_flush t = (x, t') -> steady t -> steady t'.
Proof.
  unfold tls_flush. intros E S. destruct (prior t) as [[k|] t1] eqn:Ep; apply prior_steady in Ep; auto; destruct Ep as [S1 _]; [inversion E; subst; auto|].
  destruct (wants_write t1); [|inversion E; subst; auto]. destruct (complete_io t1) as [y t2] eqn:Ei. apply io_loop_steady in Ei; auto. destruct y; inversion E; subst; apply Ei.
Qed.

(** ** Nothing of the application waits to be sent *)

Definition no_data (t : tls) : Prop := Forall (fun c => data_of [ch_what c] = []) (ts_queue t).
Lemma no_data_handed t : no_data t -> handed t = delivered t.
Proof.
  unfold no_data, handed. intros F. assert (X : data_of (map ch_what (ts_queue t)) = []); [|now rewrite X, app_nil_r].
  induction F as [|c q Hc F IH]; auto. cbn [map]. change (ch_what c :: map ch_what q) with ([ch_what c] ++ map ch_what q). now rewrite data_of_app, Hc, IH.
Qed.
Lemma take_out_no_data q : forall n out q' out', take_out n q out = (q', out') -> Forall (fun c => data_of [ch_what c] = []) q -> Forall (fun c => data_of [ch_what c] = []) q'.
Proof.
  induction q as [|c q IH]; intros n out q' out' E F; cbn [take_out] in E; [inversion E; auto|]. inversion F as [|? ? F1 F2]; subst.
  destruct (ch_left c <=? n); [eauto|]. inversion E; subst. constructor; auto.
Qed.
Lemma drain_no_data tx : forall q out e tx' q' out', drain tx q out = (e, (tx', q', out')) -> Forall (fun c => data_of [ch_what c] = []) q -> Forall (fun c => data_of [ch_what c] = []) q'.
Proof.
  induction tx as [|w tx IH]; intros q out e tx' q' out' E F; destruct q as [|c q]; cbn [drain] in E; try (inversion E; subst; auto; fail).
  destruct w as [n|k]; [|inversion E; subst; auto]. destruct (take_out n (c :: q) out) as [q1 out1] eqn:Et. apply take_out_no_data in Et; eauto.
Qed.
Lemma tls_drain_no_data t e t' : tls_drain t = (e, t') -> no_data t -> no_data t'.
Proof.
  unfold tls_drain. destruct (drain (ts_tx t) (ts_queue t) (ts_out t)) as [e0 [[tx q] out]] eqn:Ed. intros X. inversion X; subst. intros F. eapply drain_no_data; eauto.
Qed.
Lemma absorb_no_data rs : forall t, no_data t -> no_data (absorb t rs).
Proof.
  induction rs as [|r rs IH]; intros t F; auto. cbn [absorb fold_left]. apply IH. unfold absorb1. destruct (ts_bad t); auto. unfold no_data in *.
  destruct r as [l y|d| |]; cbn; auto.
  - apply Forall_app. split; auto. apply Forall_forall. intros c I. apply in_map_iff in I as (x & <- & _). reflexivity.
  - destruct (ts_hs t); cbn; auto. apply Forall_app. split; auto.
  - apply Forall_app. split; auto.
Qed.
Lemma gasp_no_data t : no_data t -> no_data (last_gasp t).
Proof.
  intros F. unfold last_gasp. destruct (ts_tx t) as [|[n|k] tx]; auto. destruct (take_out n (ts_queue t) (ts_out t)) as [q out] eqn:Et. eapply take_out_no_data; eauto.
Qed.
Lemma io_loop_no_data n until : forall rd t x t', io_loop n until rd t = (x, t') -> no_data t -> no_data t'.
Proof.
  induction n as [|n IH]; intros rd t x t' E F; cbn [io_loop] in E; [inversion E; subst; auto|].
  destruct (tls_drain t) as [e t1] eqn:Ed. apply tls_drain_no_data in Ed; auto. destruct e as [k|]; [inversion E; subst; auto|].
  destruct (negb until && _); [inversion E; subst; auto|].
  assert (Go : forall (eof rd' : bool) t2, no_data t2 -> (if ts_bad t2 then (inl InvalidData, last_gasp t2) else if negb until then (inr rd', t2) else if negb (ts_hs t2) then (inr rd', t2)
     else if eof then (inl UnexpectedEof, t2) else io_loop n until rd' t2) = (x, t') -> no_data t').
  { intros eof rd' t2 F2 X. destruct (ts_bad t2); [inversion X; subst; now apply gasp_no_data|]. destruct (negb until); [inversion X; subst; auto|].
    destruct (negb (ts_hs t2)); [inversion X; subst; auto|]. destruct eof; [inversion X; subst; auto|eauto]. }
  destruct (ts_plain t1); [|exact (Go false _ _ Ed E)].
  destruct (ts_rx t1) as [|[rs| |k] rx]; [inversion E; subst; auto| |exact (Go true _ (set_rx t1 rx) Ed E)|inversion E; subst; auto].
  refine (Go false _ _ _ E). now apply absorb_no_data.
Qed.
Lemma prior_no_data t x t' : prior t = (x, t') -> no_data t -> no_data t'.
Proof.
  unfold prior. intros E F. destruct (if ts_hs t then complete_io t else (inr false, t)) as [y t1] eqn:E1.
  assert (F1 : no_data t1). { destruct (ts_hs t); [eapply io_loop_no_data; eauto|]. inversion E1; subst; auto. }
  destruct y as [k|b]; [inversion E; subst; auto|]. destruct (wants_write t1); [|inversion E; subst; auto].
  destruct (complete_io t1) as [y2 t2] eqn:E2. apply io_loop_no_data in E2; auto. destruct y2; inversion E; subst; auto.
Qed.
Lemma read_loop_no_data n : forall t x t', read_loop n t = (x, t') -> no_data t -> no_data t'.
Proof.
  induction n as [|n IH]; intros t x t' E F; cbn [read_loop] in E; destruct (ts_plain t); try (inversion E; subst; auto; fail).
  destruct (complete_io t) as [y t1] eqn:E1. apply io_loop_no_data in E1; auto. destruct y as [k|[|]]; [inversion E; subst; auto|eauto|inversion E; subst; auto].
Qed.
Lemma read_no_data n t x t' : tls_read n t = (x, t') -> no_data t -> no_data t'.
Proof.
  unfold tls_read. intros E F. destruct (prior t) as [[k|] t1] eqn:Ep; apply prior_no_data in Ep; auto; [inversion E; subst; exact Ep|].
  destruct (read_loop (Datatypes.S (List.length (ts_rx t1))) t1) as [[k|] t2] eqn:Er; apply read_loop_no_data in Er; auto; [inversion E; subst; exact Er|].
  destruct (ts_plain t2); inversion E; subst; exact Er.
Qed.
