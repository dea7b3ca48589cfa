(** The request loop and the handler of a server connection. *)
From Coq Require Import List Ascii String NArith ZArith Bool Lia.
From Coq Require Import ZifyBool ZifyNat ZifyN.
From Verif.Model Require Import Bytes Io Common Parse Encode Writer Server.
From Verif.Spec Require Import Batch Stream Drive Output Session.
From Verif.Proofs Require Import BytesFacts IoFacts ParseFacts DriveFacts CallFacts WriterFacts OpsFacts ServerFacts GrammarFacts.
From Verif.Properties Require Import RoundTrip.
Import ListNotations.
Local Open Scope N_scope.

(** ** What is written *)

Lemma payload_all l : payload (map SAll l) = List.concat l.
Proof. induction l as [|x l IH]; auto. unfold payload in *. cbn [map List.concat op_data]. now rewrite IH. Qed.

Lemma payload_result l : payload (result_ops l) = reply l.
Proof.
  destruct l as [|r|]; auto. cbn [result_ops reply]. unfold response_ops, write_response, response_pieces.
  rewrite payload_app, payload_all, !concat_app. unfold payload. cbn [map List.concat op_data].
  rewrite <- !app_assoc. now rewrite !app_nil_r.
Qed.
Lemma payload_error : payload error_ops = bad_request.
Proof. reflexivity. Qed.

Lemma dec_small n : n <= 65535 -> len (dec n) <= 5.
Proof.
  intros H. pose proof (dec_aux_len (S (N.size_nat n)) 4 n []) as L. change (10 ^ N.succ 4) with 100000 in L.
  change (len []) with 0 in L. unfold dec. lia.
Qed.

Lemma small_ops l : (forall r, l = LSend r -> short_response r) ->
  Forall (fun op => len (op_data op) <= 4096) (result_ops l).
Proof.
  intros H. destruct l as [|r|]; cbn [result_ops].
  - repeat (constructor; [vm_compute; discriminate|]). constructor.
  - destruct (H r eq_refl) as (H1 & H2 & H3 & H4). unfold response_ops. apply Forall_app. split.
    + apply Forall_forall. intros op I. apply in_map_iff in I as (b & <- & I). cbn [op_data].
      apply in_app_or in I as [I|I].
      * apply dec_small in H1. unfold first_line_pieces in I. cbn [In] in I.
        destruct I as [<-|[<-|[<-|[<-|[<-|[<-|[]]]]]]]; try (vm_compute; discriminate); lia.
      * unfold header_pieces in I. apply in_flat_map in I as (kv & I1 & I2). apply in_flat_map in I2 as (v & I2 & I3).
        rewrite Forall_forall in H4. apply H4 in I1 as [K1 K2]. rewrite Forall_forall in K2. apply K2 in I2.
        cbn [In] in I3. destruct I3 as [<-|[<-|[<-|[<-|[]]]]]; auto; vm_compute; discriminate.
    + constructor; [vm_compute; discriminate|]. constructor; [exact H3|]. constructor; [vm_compute; discriminate|constructor].
  - constructor.
Qed.
Lemma small_error : Forall (fun op => len (op_data op) <= 4096) error_ops.
Proof. repeat (constructor; [vm_compute; discriminate|]). constructor. Qed.

Lemma result_flush l : l <> LPanic -> exists ops, result_ops l = ops ++ [SFlush] /\ payload ops = reply l.
Proof.
  intros H. assert (exists ops, result_ops l = ops ++ [SFlush]) as (ops & E).
  { destruct l as [|r|]; [|unfold result_ops, response_ops|congruence].
    - exists [SAll NOT_FOUND_RESPONSE]. reflexivity.
    - eexists (_ ++ [SWrite crlf; SWrite (rs_body r)]). rewrite <- app_assoc. reflexivity. }
  exists ops. split; auto. rewrite <- payload_result, E, payload_app. unfold payload at 3. cbn. now rewrite app_nil_r.
Qed.
Lemma error_flush : exists ops, error_ops = ops ++ [SFlush] /\ payload ops = bad_request.
Proof. exists [SAll REQUEST_PARSING_ERROR_RESPONSE]. split; reflexivity. Qed.

Lemma should_close r : should_close_after_response r = true <-> asks_close r.
Proof.
  unfold should_close_after_response, contains_header_value, asks_close.
  destruct (hm_get CONNECTION (rq_headers r)) as [vs|].
  - rewrite existsb_exists. split.
    + intros (v & I & E). apply beqb_eq in E. subst. eauto.
    + intros (vs' & E & I). inversion E; subst. exists (lit "close"). split; auto using beqb_refl.
  - split; [discriminate|]. intros (vs & E & _). discriminate.
Qed.

Lemma replies_app rt h a b : replies rt h (a ++ b) = replies rt h a ++ replies rt (h ++ a) b.
Proof.
  revert h; induction a as [|v a IH]; intros h; cbn [replies app]; [now rewrite app_nil_r|].
  rewrite IH, <- !app_assoc. reflexivity.
Qed.

(** ** Fuel *)

Definition parser_fine (p : option req_st) : Prop :=
  exists g, msg_inv g (match p with Some st => st | None => req_new end).

Lemma parser_fine_none : parser_fine None.
Proof. exists 0. apply line_inv_nil. Qed.
Lemma parser_fine_new : parser_fine (Some req_new).
Proof. exact parser_fine_none. Qed.

Definition need (s : stream) (p : option req_st) : nat :=
  (mu s + match p with None => 0 | Some _ => 1 end)%nat.

Lemma read_fine dbg s p r s' p' : parser_fine p -> read_request dbg s p = (r, s', p') ->
  parser_fine p' /\
  match r with Ready _ => p' = None /\ (need s' p' < need s p)%nat | _ => True end.
Proof.
  intros [g Hinv] E. unfold read_request in E.
  set (st := match p with Some st => st | None => req_new end) in *.
  destruct (req_parse dbg st s) as [r0 s0] eqn:Ep.
  destruct (req_parser_ok dbg _ _ _ _ _ Hinv Ep) as (w & Hok).
  destruct r0 as [v|st' k|e|].
  - inversion E; subst. split; [apply parser_fine_none|]. split; auto. unfold need.
    destruct Hok as [(T & H)|(T & n & H)].
    + pose proof (takes_mu _ _ _ T) as M. destruct p as [st0|]; [lia|].
      assert (w <> []).
      { intros ->. specialize (H []). cbn [app] in H. unfold st, req_cont in H. cbn in H. discriminate. }
      pose proof (takes_nil_mu _ _ _ T H0). lia.
    + pose proof (takes_mu _ _ _ T) as M. cbn [mu List.length] in M. destruct p; lia.
  - destruct Hok as (_ & _ & [g' Hg] & _).
    destruct k; try (destruct (is_closed _ _)); inversion E; subst; split; auto; try apply parser_fine_none;
      exists g'; exact Hg.
  - inversion E; subst. split; [apply parser_fine_none|exact I].
  - inversion E; subst. split; [apply parser_fine_none|exact I].
Qed.

Lemma respond_enough dbg rt f1 : forall f2 log c, parser_fine (cn_parser c) ->
  (need (cn_in c) (cn_parser c) < f1)%nat -> (need (cn_in c) (cn_parser c) < f2)%nat ->
  respond f1 dbg rt log c = respond f2 dbg rt log c.
Proof.
  induction f1 as [|f1 IH]; intros f2 log c Hp H1 H2; [lia|]. destruct f2 as [|f2]; [lia|]. cbn [respond].
  destruct (read_request dbg (cn_in c) (cn_parser c)) as [[r s'] p'] eqn:E.
  destruct (read_fine _ _ _ _ _ _ Hp E) as (Hp' & Hr). destruct r as [|v| | | |]; auto. destruct Hr as [-> Hr].
  destruct (rt log v); auto; destruct (run_ops _ _ _) as [[[u|k] w1] k1]; auto; destruct (should_close_after_response v); auto;
    apply IH; auto; cbn [cn_in cn_parser]; lia.
Qed.

(** ** The loop, on any input and any socket: which requests are routed *)

Definition unasking (l : list request) : Prop := Forall (fun v => ~ asks_close v) l.

Lemma respond_log dbg rt f : forall log c vd log' c', parser_fine (cn_parser c) ->
  (need (cn_in c) (cn_parser c) < f)%nat -> respond f dbg rt log c = (vd, log', c') ->
  exists new, log' = log ++ new /\ parser_fine (cn_parser c') /\
    match vd with
    | Keep => unasking new
    | Close => exists a b, new = a ++ b /\ unasking a /\ (List.length b <= 1)%nat
    | Unwind => (exists a v, new = a ++ [v] /\ unasking a /\ rt (log ++ a) v = LPanic) \/
                (unasking new /\ exists s p s' p', parser_fine p /\ read_request dbg s p = (RPanic, s', p'))
    end.
Proof.
  induction f as [|f IH]; intros log c vd log' c' Hp Hf E; [lia|]. cbn [respond] in E.
  destruct (read_request dbg (cn_in c) (cn_parser c)) as [[r s'] p'] eqn:Er.
  destruct (read_fine _ _ _ _ _ _ Hp Er) as (Hp' & Hr).
  assert (None1 : unasking []) by constructor.
  assert (Stop : forall wr w1 k1, run_ops (cn_w c) (cn_sock c) error_ops = (wr, w1, k1) ->
    (Close, log, mk_conn s' p' w1 k1) = (vd, log', c') ->
    exists new, log' = log ++ new /\ parser_fine (cn_parser c') /\ vd = Close /\ new = []).
  { intros wr w1 k1 _ X. inversion X; subst. exists []. rewrite app_nil_r. auto. }
  assert (End1 : forall b : list request, (List.length b <= 1)%nat -> exists a b', b = a ++ b' /\ unasking a /\ (List.length b' <= 1)%nat).
  { intros b Hb. exists [], b. auto. }
  destruct r as [|v|e|k| |].
  - inversion E; subst. exists []. rewrite app_nil_r. auto.
  - destruct Hr as [-> Hr].
    assert (Go : forall l, l <> LPanic -> rt log v = l ->
      match run_ops (cn_w c) (cn_sock c) (result_ops l) with
      | (wr, w1, k1) =>
          let c1 := mk_conn s' None w1 k1 in
          match wr with
          | WErr _ => (Close, log ++ [v], c1)
          | WOk _ => if should_close_after_response v then (Close, log ++ [v], c1) else respond f dbg rt (log ++ [v]) c1
          end
      end = (vd, log', c') ->
      exists new, log' = log ++ new /\ parser_fine (cn_parser c') /\
      match vd with
      | Keep => unasking new
      | Close => exists a b, new = a ++ b /\ unasking a /\ (List.length b <= 1)%nat
      | Unwind => (exists a v, new = a ++ [v] /\ unasking a /\ rt (log ++ a) v = LPanic) \/
                (unasking new /\ exists s p s' p', parser_fine p /\ read_request dbg s p = (RPanic, s', p'))
      end).
    { intros l Hl _ X. clear E. destruct (run_ops (cn_w c) (cn_sock c) (result_ops l)) as [[[u|k] w1] k1]; cbn zeta in X.
      - destruct (should_close_after_response v) eqn:Es.
        + inversion X; subst. exists [v]. split; auto.
        + apply IH in X as (new & -> & H1 & H2); auto; [|cbn [cn_in cn_parser]; lia].
          exists (v :: new). rewrite <- app_assoc. split; auto. split; auto.
          assert (Hv : ~ asks_close v) by (rewrite <- should_close; congruence).
          destruct vd.
          * constructor; auto.
          * destruct H2 as (a & b & -> & H2 & H3). exists (v :: a), b. split; auto. split; auto. constructor; auto.
          * destruct H2 as [(a & x & -> & H2 & H3)|(H2 & H3)].
            -- left. exists (v :: a), x. split; auto. split; [constructor; auto|]. now rewrite <- app_assoc in H3.
            -- right. split; auto. constructor; auto.
      - inversion X; subst. exists [v]. split; auto. }
    destruct (rt log v) eqn:El.
    + apply (Go LNext); auto; discriminate.
    + apply (Go (LSend r)); auto; discriminate.
    + inversion E; subst. exists [v]. split; auto. split; auto. left. exists [], v. rewrite app_nil_r. auto.
  - destruct (run_ops _ _ error_ops) as [[wr w1] k1]. destruct (Stop _ _ _ eq_refl E) as (new & H1 & H2 & -> & ->). exists []. split; auto.
  - destruct (run_ops _ _ error_ops) as [[wr w1] k1]. destruct (Stop _ _ _ eq_refl E) as (new & H1 & H2 & -> & ->). exists []. split; auto.
  - inversion E; subst. exists []. rewrite app_nil_r. split; auto.
  - inversion E; subst. exists []. rewrite app_nil_r. split; auto. split; auto. right. split; auto.
    exists (cn_in c), (cn_parser c), s', p'. auto.
Qed.

(** ** The loop, on any input, with a socket that does not fail: what is written *)

Definition writer_fine (rt : router) (c : conn) : Prop :=
  wr_inv (cn_w c) /\ 4096 <= wr_cap (cn_w c) /\ wfine (cn_sock c) /\
  (sticky (sk_events (cn_sock c)) \/ short_replies rt).

(** The socket takes everything, up to b bytes in total. *)
Definition roomy (b : N) (c : conn) : Prop :=
  Forall gives (sk_events (cn_sock c)) /\ b <= budget (cn_sock c) /\ unsent (cn_w c) = [].

Lemma ops_step rt c s' p' ops out : writer_fine rt c ->
  (forall K, K = 4096 -> sticky (sk_events (cn_sock c)) \/ Forall (fun op => len (op_data op) <= K) ops) ->
  (exists o, ops = o ++ [SFlush] /\ payload o = out) ->
  exists w1 k1, run_ops (cn_w c) (cn_sock c) ops = (WOk tt, w1, k1) /\
    let c1 := mk_conn s' p' w1 k1 in
    writer_fine rt c1 /\ output c1 = output c ++ out /\
    (forall b, len (output c ++ out) <= b -> roomy b c -> roomy b c1).
Proof.
  intros (I & C & F & S) H (o & -> & <-).
  destruct (run_ops_ok 4096 (o ++ [SFlush]) (cn_w c) (cn_sock c) I C F (H _ eq_refl)) as (w1 & k1 & E & I1 & C1 & S1 & R1).
  exists w1, k1. split; auto. cbn zeta. split; [|split].
  - split; auto. split; auto. cbn [cn_w cn_sock]. split; [eapply wfine_suffix; eauto|].
    destruct S as [S|S]; auto. left. eapply sticky_suff; eauto.
  - unfold output. cbn [cn_w cn_sock]. rewrite R1, payload_app. unfold payload at 2. cbn [map List.concat op_data app].
    rewrite app_nil_r, <- !app_assoc. reflexivity.
  - intros b Hb (G & B & U). unfold output in Hb. rewrite U in *. rewrite app_nil_r, !len_app in Hb. unfold budget in B.
    destruct (run_ops_drain 4096 o (cn_w c) (cn_sock c) I C F G) as (w2 & k2 & E2 & _ & _ & _ & G2 & B2 & U2 & _).
    + rewrite U. change (len []) with 0. lia.
    + rewrite E in E2. assert (w1 = w2 /\ k1 = k2) as [-> ->] by (split; congruence).
      split; [exact G2|]. split; [cbn [cn_sock]; unfold budget in *; lia|exact U2].
Qed.

Lemma ops_reply rt c s' p' log v : writer_fine rt c -> rt log v <> LPanic ->
  exists w1 k1, run_ops (cn_w c) (cn_sock c) (result_ops (rt log v)) = (WOk tt, w1, k1) /\
    let c1 := mk_conn s' p' w1 k1 in
    writer_fine rt c1 /\ output c1 = output c ++ reply (rt log v) /\
    (forall b, len (output c ++ reply (rt log v)) <= b -> roomy b c -> roomy b c1).
Proof.
  intros W H. apply ops_step; auto; [|now apply result_flush]. intros K ->. pose proof W as (_ & _ & _ & [S|S]); auto.
  right. apply small_ops. intros r Hr. eapply S; eauto.
Qed.

Lemma ops_error rt c s' p' : writer_fine rt c ->
  exists w1 k1, run_ops (cn_w c) (cn_sock c) error_ops = (WOk tt, w1, k1) /\
    let c1 := mk_conn s' p' w1 k1 in
    writer_fine rt c1 /\ output c1 = output c ++ bad_request /\
    (forall b, len (output c ++ bad_request) <= b -> roomy b c -> roomy b c1).
Proof. intros W. apply ops_step; auto using error_flush. intros K ->. right. apply small_error. Qed.

Lemma respond_writes dbg rt f : forall log c vd log' c', parser_fine (cn_parser c) ->
  (need (cn_in c) (cn_parser c) < f)%nat -> writer_fine rt c -> respond f dbg rt log c = (vd, log', c') ->
  exists new tail, log' = log ++ new /\ writer_fine rt c' /\
    output c' = output c ++ replies rt log new ++ tail /\
    (tail = [] \/ (tail = bad_request /\ vd = Close)) /\
    (forall b, len (output c') <= b -> roomy b c -> roomy b c').
Proof.
  induction f as [|f IH]; intros log c vd log' c' Hp Hf W E; [lia|]. cbn [respond] in E.
  destruct (read_request dbg (cn_in c) (cn_parser c)) as [[r s'] p'] eqn:Er.
  destruct (read_fine _ _ _ _ _ _ Hp Er) as (Hp' & Hr).
  assert (Same : (vd, log, mk_conn s' p' (cn_w c) (cn_sock c)) = (vd, log', c') ->
    exists new tail, log' = log ++ new /\ writer_fine rt c' /\ output c' = output c ++ replies rt log new ++ tail /\
      (tail = [] \/ (tail = bad_request /\ vd = Close)) /\ (forall b, len (output c') <= b -> roomy b c -> roomy b c')).
  { intros X. inversion X; subst. exists [], []. cbn [replies]. rewrite !app_nil_r. auto 6. }
  assert (Err : run_ops (cn_w c) (cn_sock c) error_ops = run_ops (cn_w c) (cn_sock c) error_ops ->
    match run_ops (cn_w c) (cn_sock c) error_ops with (_, w1, k1) => (Close, log, mk_conn s' p' w1 k1) end = (vd, log', c') ->
    exists new tail, log' = log ++ new /\ writer_fine rt c' /\ output c' = output c ++ replies rt log new ++ tail /\
      (tail = [] \/ (tail = bad_request /\ vd = Close)) /\ (forall b, len (output c') <= b -> roomy b c -> roomy b c')).
  { intros _ X. destruct (ops_error rt c s' p' W) as (w1 & k1 & Eo & W1 & O1 & R1). rewrite Eo in X.
    inversion X; subst. exists [], bad_request. rewrite app_nil_r. cbn [replies app]. split; auto. split; auto. split; auto.
    split; auto. intros b Hb. apply R1. now rewrite <- O1. }
  destruct r as [|v|e|k| |].
  - apply Same. congruence.
  - destruct Hr as [-> Hr].
    destruct (rt log v) eqn:El; [| |inversion E; subst; exists [v], []; cbn [replies]; rewrite El; cbn [reply];
      rewrite !app_nil_r; auto 6].
    all: pose proof (ops_reply rt c s' None log v W) as OR; rewrite El in OR;
      destruct OR as (w1 & k1 & Eo & W1 & O1 & R1); [discriminate|]; rewrite Eo in E; cbn zeta in E.
    all: destruct (should_close_after_response v);
      [inversion E; subst; exists [v], []; cbn [replies]; rewrite El, !app_nil_r; split; [auto|]; split; [auto|]; split; [auto|];
       split; [auto|]; intros b Hb; apply R1; now rewrite <- O1|].
    all: apply IH in E as (new & tail & -> & W2 & O2 & T & R2); auto; [|cbn [cn_in cn_parser]; lia];
      exists (v :: new), tail; cbn [replies]; rewrite El, <- app_assoc; split; [auto|]; split; [auto|];
      split; [rewrite O2, O1, <- !app_assoc; reflexivity|]; split; [auto|]; intros b Hb Hr0; apply R2; auto; apply R1; auto;
      rewrite <- O1; rewrite O2, len_app in Hb; lia.
  - apply Err; auto.
  - apply Err; auto.
  - apply Same. congruence.
  - apply Same. congruence.
Qed.

(** ** The loop on calm input *)

Lemma respond_served dbg rt eof f : no_panic rt ->
  forall log c vd log' c' cur, holds (cn_parser c) cur -> calm eof cur (cn_in c) ->
  (need (cn_in c) (cn_parser c) < f)%nat -> writer_fine rt c -> respond f dbg rt log c = (vd, log', c') ->
  exists new out, log' = log ++ new /\ output c' = output c ++ out /\
    match vd with
    | Keep => exists took cur', pending (cn_in c) = took ++ pending (cn_in c') /\
        holds (cn_parser c') cur' /\ calm eof cur' (cn_in c') /\
        (forall x e l o k, served rt log' (cur' ++ x) e l o k ->
           served rt log (cur ++ took ++ x) e (new ++ l) (out ++ o) k) /\
        (forall x l e, session (cur' ++ x) l e -> session (cur ++ took ++ x) (new ++ l) e) /\
        ((cn_in c' = [] /\ eof = false) \/ (blocks (cn_in c') < blocks (cn_in c))%nat)
    | Close => served rt log (cur ++ pending (cn_in c)) eof new out false
    | Unwind => False
    end.
Proof.
  intros Hrt. induction f as [|f IH]; intros log c vd log' c' cur Hh Hc Hf W E; [lia|]. cbn [respond] in E.
  assert (Hp : parser_fine (cn_parser c)) by (destruct Hh as (_ & g & Hg & _); exists g; exact Hg).
  destruct (read_request dbg (cn_in c) (cn_parser c)) as [[r s'] p'] eqn:Er.
  destruct (read_fine _ _ _ _ _ _ Hp Er) as (Hp' & Hr).
  pose proof (read_step _ _ _ _ _ _ _ _ Hh Hc Er) as Hs.
  destruct r as [|v|e|k| |].
  - inversion E; subst. destruct Hs as (w & P & H1 & H2 & H3). exists [], []. rewrite !app_nil_r.
    split; auto. split; auto. exists w, (cur ++ w). cbn [cn_in cn_parser]. split; auto. split; auto. split; auto.
    split; [intros x e l o k; cbn [app]; now rewrite <- app_assoc|]. split; auto. intros x l e. cbn [app]. now rewrite <- app_assoc.
  - destruct Hr as [-> Hr]. destruct Hs as (w & P & HC & _ & H2 & H3 & H4).
    assert (Nv : rt log v <> LPanic) by (apply Hrt; specialize (HC []); eapply parsed_uri_text; eauto).
    destruct (ops_reply rt c s' None log v W Nv) as (w1 & k1 & Eo & W1 & O1 & _).
    assert (E' : (if should_close_after_response v then (Close, log ++ [v], mk_conn s' None w1 k1)
                  else respond f dbg rt (log ++ [v]) (mk_conn s' None w1 k1)) = (vd, log', c')).
    { destruct (rt log v); try congruence; rewrite Eo in E; exact E. }
    clear E. destruct (should_close_after_response v) eqn:Es.
    + inversion E'; subst. exists [v], (reply (rt log v)). split; auto. split; auto.
      rewrite P. eapply served_last; [apply HC|]. now apply should_close.
    + assert (Hv : ~ asks_close v) by (rewrite <- should_close; congruence).
      apply (IH _ _ _ _ _ []) in E' as (new & out & -> & O2 & R); cbn [cn_in cn_parser]; auto; [| apply holds_none |lia].
      exists (v :: new), (reply (rt log v) ++ out). rewrite <- app_assoc. split; auto.
      split; [rewrite O2, O1, <- app_assoc; reflexivity|]. destruct vd.
      * destruct R as (took & cur' & P2 & J1 & J2 & J3 & J5 & J4). cbn [cn_in] in P2, J4. exists (w ++ took), cur'.
        split; [now rewrite P, P2, app_assoc|]. split; auto. split; auto. split; [|split].
        -- intros x e l o k Hx. specialize (J3 x e l o k). rewrite <- app_assoc in J3. specialize (J3 Hx).
           rewrite <- !app_assoc. cbn [app] in *. eapply served_next; eauto.
        -- intros x l e Hx. specialize (J5 x l e Hx). rewrite <- !app_assoc. cbn [app] in *. eapply session_next; eauto.
        -- destruct J4 as [J4|J4]; auto. right. lia.
      * cbn [cn_in app] in R. rewrite P. eapply served_next; eauto.
      * exact R.
  - destruct (ops_error rt c s' p' W) as (w1 & k1 & Eo & W1 & O1 & _). rewrite Eo in E. inversion E; subst.
    exists [], bad_request. rewrite app_nil_r. split; auto. split; auto. destruct Hs as [(w & P & H)|(-> & H1 & H2 & (p & H3))].
    + rewrite P. eapply served_bad; eauto.
    + eapply served_truncated; eauto.
  - destruct (ops_error rt c s' p' W) as (w1 & k1 & Eo & W1 & O1 & _). rewrite Eo in E. inversion E; subst.
    exists [], bad_request. rewrite app_nil_r. split; auto. split; auto. destruct Hs as (-> & H1 & H2 & (p & H3)).
    eapply served_truncated; eauto.
  - inversion E; subst. exists [], []. rewrite !app_nil_r. split; auto. split; auto. destruct Hs as (-> & H1 & H2).
    now apply served_closed.
  - destruct Hs.
Qed.

(** ** The handler *)

Lemma visit_writer_fine rt c v : wr_inv (cn_w c) -> 4096 <= wr_cap (cn_w c) -> visit_fine v ->
  (visit_steady v \/ short_replies rt) ->
  exists w1 k1, wr_flush (cn_w c) (mk_sock (v_events v) (v_flushes v) (sk_sent (cn_sock c))) = (WOk tt, w1, k1) /\
    let c1 := mk_conn (cn_in c) (cn_parser c) w1 k1 in
    writer_fine rt c1 /\ output c1 = output c /\ 
    (forall b, len (output c) <= b -> visit_takes b v -> roomy b c1).
Proof.
  intros I C F S. set (k := mk_sock (v_events v) (v_flushes v) (sk_sent (cn_sock c))).
  assert (Wk : wfine k) by exact F.
  destruct (flush_ok (cn_w c) k I Wk) as (w1 & k1 & E & I1 & C1 & S1 & R1). exists w1, k1. split; auto. cbn zeta.
  split; [|split].
  - split; auto. split; [cbn [cn_w]; lia|]. split; [eapply wfine_suffix; eauto|]. destruct S as [S|S]; auto. left.
    eapply sticky_suff; eauto.
  - exact R1.
  - intros b Hb (G & B). assert (G' : Forall gives (sk_events k)) by exact G.
    pose proof (flush_budget _ _ _ _ I G' E) as (G1 & B1 & D1). split; [exact G1|].
    split; [cbn [cn_sock]; unfold budget in *; cbn [k sk_sent sk_events] in B1; lia|]. apply D1. cbn [k sk_events].
    unfold output in Hb. rewrite len_app in Hb. lia.
Qed.

Lemma fresh_need c : (need (cn_in c) (cn_parser c) < S (S (mu (cn_in c))))%nat.
Proof. unfold need. destruct (cn_parser c); lia. Qed.

Lemma visits_app dbg rt a : forall b log st, visits dbg rt (a ++ b) log st =
  let (l, s) := visits dbg rt a log st in visits dbg rt b l s.
Proof.
  induction a as [|v a IH]; intros b log st; cbn [visits app]; auto. destruct (handle dbg rt v log st). apply IH.
Qed.

Lemma visits_shut dbg rt vs log st : (forall c, st <> Open c) -> visits dbg rt vs log st = (log, st).
Proof.
  intros H. induction vs as [|v vs IH]; auto. cbn [visits]. destruct st as [c| |]; [destruct (H c); auto| |]; exact IH.
Qed.

Definition conn_fine (c : conn) : Prop := parser_fine (cn_parser c) /\ wr_inv (cn_w c) /\ 4096 <= wr_cap (cn_w c).

Lemma conn_new_fine s : conn_fine (conn_new s).
Proof. split; [apply parser_fine_new|]. split; [apply wr_new_inv|]. cbn. unfold WRITE_BUF_SIZE. lia. Qed.
Lemma conn_new_output s : output (conn_new s) = [].
Proof. reflexivity. Qed.

(** *** Any input and any socket *)

Lemma handle_log dbg rt v log c log' st' : parser_fine (cn_parser c) -> handle dbg rt v log (Open c) = (log', st') ->
  exists new, log' = log ++ new /\
    match st' with
    | Open c' => unasking new /\ parser_fine (cn_parser c')
    | Gone _ => exists a b, new = a ++ b /\ unasking a /\ (List.length b <= 1)%nat
    | Poisoned _ => (exists a v, new = a ++ [v] /\ unasking a /\ rt (log ++ a) v = LPanic) \/
                (unasking new /\ exists s p s' p', parser_fine p /\ read_request dbg s p = (RPanic, s', p'))
    end.
Proof.
  intros Hp E. cbn [handle] in E. destruct (wr_flush _ _) as [[[u|k] w1] k1].
  - unfold respond_to_requests in E. destruct (respond _ _ _ _ _) as [[vd l] c'] eqn:Er.
    apply respond_log in Er as (new & -> & H1 & H2); [|exact Hp|apply fresh_need].
    inversion E; subst. exists new. split; auto. destruct vd; auto.
  - inversion E; subst. exists []. rewrite app_nil_r. split; auto. exists [], []. split; auto. split; [constructor|auto].
Qed.

Lemma visits_log dbg rt vs : forall log c log' st', parser_fine (cn_parser c) ->
  visits dbg rt vs log (Open c) = (log', st') ->
  exists new, log' = log ++ new /\
    match st' with
    | Open c' => unasking new /\ parser_fine (cn_parser c')
    | Gone _ => exists a b, new = a ++ b /\ unasking a /\ (List.length b <= 1)%nat
    | Poisoned _ => (exists a v, new = a ++ [v] /\ unasking a /\ rt (log ++ a) v = LPanic) \/
                (unasking new /\ exists s p s' p', parser_fine p /\ read_request dbg s p = (RPanic, s', p'))
    end.
Proof.
  induction vs as [|v vs IH]; intros log c log' st' Hp E; cbn [visits] in E.
  - inversion E; subst. exists []. rewrite app_nil_r. split; auto. split; auto. constructor.
  - destruct (handle dbg rt v log (Open c)) as [l1 st1] eqn:Eh. apply handle_log in Eh as (n1 & -> & H1); auto.
    destruct st1 as [c1|x|x].
    2,3: rewrite visits_shut in E by discriminate; inversion E; subst; exists n1; split; [auto|exact H1].
    destruct H1 as [U1 P1]. apply IH in E as (n2 & -> & H2); auto. exists (n1 ++ n2). rewrite app_assoc. split; auto.
    assert (UU : forall a, unasking a -> unasking (n1 ++ a)) by (intros a Ha; apply Forall_app; auto).
    destruct st'.
    + destruct H2. auto.
    + destruct H2 as (a & b & -> & H2 & H3). exists (n1 ++ a), b. rewrite app_assoc. auto.
    + destruct H2 as [(a & x & -> & H2 & H3)|(H2 & H3)].
      * left. exists (n1 ++ a), x. rewrite !app_assoc. auto.
      * right. auto.
Qed.

(** *** Any input, and a socket that does not fail *)

Lemma handle_writes dbg rt v log c log' st' : conn_fine c -> visit_fine v -> (visit_steady v \/ short_replies rt) ->
  handle dbg rt v log (Open c) = (log', st') ->
  exists new tail, log' = log ++ new /\ (tail = [] \/ (tail = bad_request /\ exists x, st' = Gone x)) /\
    let out := output c ++ replies rt log new ++ tail in
    match st' with
    | Open c' => conn_fine c' /\ output c' = out /\ (visit_takes (len out) v -> unsent (cn_w c') = [])
    | Gone sent | Poisoned sent => (exists rest, out = sent ++ rest) /\ (visit_takes (len out) v -> sent = out)
    end.
Proof.
  intros (Hp & I & C) F S E. cbn [handle] in E.
  destruct (visit_writer_fine rt c v I C F S) as (w1 & k1 & Ef & W1 & O1 & R1). rewrite Ef in E.
  unfold respond_to_requests in E. destruct (respond _ _ _ _ _) as [[vd l] c'] eqn:Er. pose proof Er as Er2.
  apply respond_writes in Er as (new & tail & -> & W2 & O2 & T & R2); [|exact Hp|apply fresh_need|exact W1].
  apply respond_log in Er2 as (_ & _ & P2 & _); [|exact Hp|apply fresh_need].
  rewrite O1 in O2. inversion E; subst. exists new, tail. split; auto. split.
  - destruct T as [T|[T ->]]; auto. right. eauto.
  - cbn zeta. assert (D0 : visit_takes (len (output c ++ replies rt log new ++ tail)) v -> unsent (cn_w c') = []).
    { intros V. destruct (R2 (len (output c ++ replies rt log new ++ tail))) as (_ & _ & U); [| |exact U].
      - rewrite O2. apply N.le_refl.
      - apply R1; auto. rewrite len_app. lia. }
    assert (D : visit_takes (len (output c ++ replies rt log new ++ tail)) v -> sk_sent (cn_sock c') = output c ++ replies rt log new ++ tail).
    { intros V. rewrite <- O2. unfold output. now rewrite (D0 V), app_nil_r. }
    destruct vd.
    + destruct W2 as (I2 & C2 & _). split; [split; auto|]. split; [exact O2|exact D0].
    + split; auto. rewrite <- O2. unfold output. eauto.
    + split; auto. rewrite <- O2. unfold output. eauto.
Qed.

Lemma visits_writes dbg rt vs : forall log c log' st', conn_fine c -> Forall visit_fine vs ->
  (Forall visit_steady vs \/ short_replies rt) -> visits dbg rt vs log (Open c) = (log', st') ->
  exists new tail, log' = log ++ new /\ (tail = [] \/ (tail = bad_request /\ exists x, st' = Gone x)) /\
    let out := output c ++ replies rt log new ++ tail in
    match st' with
    | Open c' => conn_fine c' /\ output c' = out /\
        (Forall (visit_takes (len out)) vs -> vs <> [] \/ unsent (cn_w c) = [] -> unsent (cn_w c') = [])
    | Gone sent | Poisoned sent => (exists rest, out = sent ++ rest) /\ (Forall (visit_takes (len out)) vs -> sent = out)
    end.
Proof.
  induction vs as [|v vs IH]; intros log c log' st' Hc F S E; cbn [visits] in E.
  - inversion E; subst. exists [], []. cbn [replies]. rewrite !app_nil_r. split; auto. split; auto. cbn zeta. split; auto. split; auto. tauto.
  - destruct (handle dbg rt v log (Open c)) as [l1 st1] eqn:Eh. inversion F as [|? ? F1 F2]; subst.
    apply handle_writes in Eh as (n1 & t1 & -> & T1 & H1); auto; [|destruct S as [S|S]; [inversion S|]; auto].
    destruct st1 as [c1|x|x].
    2,3: rewrite visits_shut in E by discriminate; inversion E; subst; exists n1, t1; split; [auto|]; split; [auto|]; cbn zeta in *;
      destruct H1 as [H1 H2]; split; [exact H1|]; intros V; inversion V; auto.
    destruct T1 as [->|[_ [x T1]]]; [|discriminate]. cbn zeta in H1. destruct H1 as (C1 & O1 & U1).
    apply IH in E as (n2 & t2 & -> & T2 & H2); auto; [|destruct S as [S|S]; [inversion S|]; auto].
    exists (n1 ++ n2), t2. rewrite app_assoc. split; auto. split; auto. cbn zeta in *.
    rewrite O1 in H2. rewrite app_nil_r in H2. rewrite replies_app, <- !app_assoc in *. destruct st'; auto.
    + destruct H2 as (H2 & H3 & H4). split; auto. split; auto. intros V _. inversion V as [|? ? [V1 V1'] V2]; subst. apply H4; auto.
      right. apply U1. split; auto. rewrite !len_app in *. change (len []) with 0. lia.
    + destruct H2 as [H2 H3]. split; auto. intros V. apply H3. now inversion V.
    + destruct H2 as [H2 H3]. split; auto. intros V. apply H3. now inversion V.
Qed.

(** *** Calm input *)

Lemma visits_served dbg rt eof vs : no_panic rt ->
  forall log c log' st' cur, conn_fine c -> holds (cn_parser c) cur -> calm eof cur (cn_in c) -> Forall visit_fine vs ->
  (Forall visit_steady vs \/ short_replies rt) -> visits dbg rt vs log (Open c) = (log', st') ->
  exists new out, log' = log ++ new /\
    match st' with
    | Open c' => output c' = output c ++ out /\
        exists took cur', pending (cn_in c) = took ++ pending (cn_in c') /\
        holds (cn_parser c') cur' /\ calm eof cur' (cn_in c') /\
        (forall x e l o k, served rt log' (cur' ++ x) e l o k ->
           served rt log (cur ++ took ++ x) e (new ++ l) (out ++ o) k) /\
        (forall x l e, session (cur' ++ x) l e -> session (cur ++ took ++ x) (new ++ l) e) /\
        ((pending (cn_in c') = [] /\ eof = false) \/ (blocks (cn_in c') + List.length vs <= blocks (cn_in c))%nat)
    | Gone sent => served rt log (cur ++ pending (cn_in c)) eof new out false /\
        exists rest, output c ++ out = sent ++ rest
    | Poisoned _ => False
    end.
Proof.
  intros Hrt. induction vs as [|v vs IH]; intros log c log' st' cur Hc Hh Hs F S E; cbn [visits] in E.
  - inversion E; subst. exists [], []. rewrite !app_nil_r. split; auto. split; auto. exists [], cur.
    cbn [app List.length]. split; auto. split; auto. split; auto. split; auto. split; auto. right. lia.
  - destruct (handle dbg rt v log (Open c)) as [l1 st1] eqn:Eh. inversion F as [|? ? F1 F2]; subst.
    assert (Sv : visit_steady v \/ short_replies rt) by (destruct S as [S|S]; [inversion S|]; auto).
    assert (Svs : Forall visit_steady vs \/ short_replies rt) by (destruct S as [S|S]; [inversion S|]; auto).
    destruct Hc as (Hp & I & C). pose proof Eh as Eh2.
    apply handle_writes in Eh2 as (n0 & t0 & E0 & T0 & H0); auto; [|split; auto].
    assert (Hopen : forall c1, st1 = Open c1 -> conn_fine c1) by (intros c1 ->; apply H0); clear E0 T0 H0.
    cbn [handle] in Eh.
    destruct (visit_writer_fine rt c v I C F1 Sv) as (w1 & k1 & Ef & W1 & O1 & R1). rewrite Ef in Eh.
    unfold respond_to_requests in Eh. destruct (respond _ _ _ _ _) as [[vd l] c'] eqn:Er.
    eapply (respond_served dbg rt eof _ Hrt _ _ _ _ _ cur) in Er as (n1 & o1 & -> & O2 & R2); [|exact Hh|exact Hs|apply fresh_need|exact W1].
    rewrite O1 in O2. inversion Eh; subst l1 st1. clear Eh. cbn [cn_in cn_parser] in R2. destruct vd.
    + destruct R2 as (took & cur1 & P1 & J1 & J2 & J3 & J5 & J4). pose proof (Hopen _ eq_refl) as C1.
      apply (IH _ _ _ _ cur1) in E as (n2 & o2 & -> & R); auto. exists (n1 ++ n2), (o1 ++ o2). rewrite app_assoc. split; auto.
      destruct st' as [c2|sent|sent].
      * destruct R as (O3 & took2 & cur2 & P2 & K1 & K2 & K3 & K5 & K4). split; [rewrite O3, O2, app_assoc; reflexivity|].
        exists (took ++ took2), cur2. split; [now rewrite P1, P2, app_assoc|]. split; auto. split; auto. split; [|split].
        -- intros x e l o k Hx. rewrite <- !app_assoc. apply J3. apply K3. exact Hx.
        -- intros x l e Hx. rewrite <- !app_assoc. apply J5. apply K5. exact Hx.
        -- destruct K4 as [K4|K4]; auto. destruct J4 as [(J4 & J6)|J4]; [|right; cbn [List.length]; lia].
           left. split; auto. rewrite J4 in P2. cbn [pending] in P2. symmetry in P2. now apply app_eq_nil in P2.
      * destruct R as (R & rest & R'). split.
        -- rewrite P1. apply J3. exact R.
        -- exists rest. rewrite <- R', O2, app_assoc. reflexivity.
      * exact R.
    + rewrite visits_shut in E by discriminate. inversion E; subst. exists n1, o1. split; auto. split; auto.
      rewrite <- O2. unfold output. eauto.
    + destruct R2.
Qed.
