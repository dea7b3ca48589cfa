(** Resuming parsers over whole streams. *)
From Coq Require Import List Ascii String NArith ZArith Bool Lia.
From Coq Require Import ZifyBool ZifyNat ZifyN.
From Verif.Model Require Import Bytes Io Common Parse.
From Verif.Spec Require Import Batch Stream Drive.
From Verif.Proofs Require Import BytesFacts IoFacts ParseFacts.
Import ListNotations.
Local Open Scope N_scope.

Lemma takes_length s w s' : takes s w s' -> (List.length s' <= List.length s)%nat.
Proof. induction 1; cbn [List.length] in *; lia. Qed.

Lemma takes_prefix s w k s' : takes s w (RErr k :: s') ->
  exists s1, s = s1 ++ RErr k :: s' /\ pending s1 = w.
Proof.
  remember (RErr k :: s') as t. induction 1; subst.
  - exists []. auto.
  - destruct IHtakes as (s1 & -> & <-); auto. exists (RErr Interrupted :: s1). auto.
  - destruct IHtakes as (s1 & -> & <-); auto. exists (RData bs :: s1). auto.
  - discriminate.
Qed.

Lemma live_eof_inv eof e s : live_eof eof (e :: s) ->
  (live_event e /\ live_eof eof s) \/ (eof = true /\ e = RData [] /\ s = []).
Proof.
  intros (s0 & H0 & E). destruct s0 as [|e0 s0]; cbn in E.
  - right. destruct eof; inversion E; auto.
  - inversion E; subst. inversion H0; subst. left. split; auto. exists s0. auto.
Qed.

Lemma live_eof_takes eof s w s' : takes s w s' -> live_eof eof s -> live_eof eof s'.
Proof.
  induction 1; intros L; auto.
  - apply live_eof_inv in L as [[_ L]|(_ & L & _)]; [auto|discriminate].
  - apply live_eof_inv in L as [[_ L]|(_ & L & _)]; auto. inversion L; subst. congruence.
  - apply live_eof_inv in L as [[_ L]|(_ & L & _)].
    + destruct L as (s0 & L & ->). exists (RData b :: s0). split; auto. constructor; auto.
    + inversion L as [E]. destruct a; [congruence|discriminate].
Qed.

Lemma live_eof_false s : live s -> live_eof false s.
Proof. intros H. exists s. now rewrite app_nil_r. Qed.
Lemma live_eof_false_inv s : live_eof false s -> live s.
Proof. intros (s0 & H & ->). now rewrite app_nil_r. Qed.
Lemma pending_app a b : pending (a ++ b) = pending a ++ pending b.
Proof. induction a as [|[]]; cbn; auto. rewrite IHa. now rewrite app_assoc. Qed.

(** A parser whose calls are as in [call_ok]. *)
Definition parser_ok {T S} (parse : S -> stream -> pres T S * stream)
  (Inv : N -> S -> Prop) (cont : N -> S -> bytes -> outcome T) : Prop :=
  forall g st s r s', Inv g st -> parse st s = (r, s') ->
  exists w, call_ok Inv cont g st [] s r s' w.

Lemma takes_eof eof s w s' : live_eof eof s -> takes s w (RData [] :: s') ->
  eof = true /\ s' = [] /\ pending s = w.
Proof.
  intros L H. pose proof (takes_pending _ _ _ H) as P.
  apply (live_eof_takes _ _ _ _ H) in L.
  apply live_eof_inv in L as [[L _]|(-> & _ & ->)]; [cbn in L; congruence|].
  cbn in P. rewrite app_nil_r in P. auto.
Qed.

Lemma drive_f_spec {T S} (parse : S -> stream -> pres T S * stream) Inv cont eof :
  parser_ok parse Inv cont ->
  forall fuel g st s,
  (List.length s < fuel)%nat ->
  Inv g st ->
  live_eof eof s ->
  (forall s1 s2, s = s1 ++ RErr WouldBlock :: s2 -> clean (cont g st (pending s1))) ->
  (forall s1 s2, s = s1 ++ RErr Interrupted :: s2 -> ~ in_data (cont g st (pending s1))) ->
  (forall w x, pending s = w ++ x -> in_limits (cont g st w)) ->
  matches eof (cont g st (pending s)) (drive_f parse fuel st s).
Proof.
  intros Hp. induction fuel as [|f IH]; intros g st s Hf Hinv Hlive Hclean Hintr Hlim; [lia|].
  cbn [drive_f]. destruct (parse st s) as [r s'] eqn:E.
  destruct (Hp _ _ _ _ _ Hinv E) as (w & Hok).
  destruct r as [v|st' k|e|].
  - destruct Hok as [(H1 & H2)|(H1 & n & H2)].
    + rewrite (takes_pending _ _ _ H1), H2. exists s'. repeat split; auto.
      eapply live_eof_takes; eauto.
    + destruct (takes_eof _ _ _ _ Hlive H1) as (-> & -> & ->). rewrite H2. reflexivity.
  - destruct Hok as (Hun & Hstop & _ & Hres).
    destruct Hstop as [[Hstop Hi]|[(-> & H1 & H2)|(-> & H1 & H2)]].
    + assert (k = WouldBlock) as ->.
      { destruct Hstop as [Hs|[Hs _]]; auto. apply (live_eof_takes _ _ _ _ Hs) in Hlive.
        apply live_eof_inv in Hlive as [[[Hs'|Hs'] _]|(_ & Hs' & _)]; [exact Hs'| |discriminate].
        subst k. exfalso. destruct (takes_prefix _ _ _ _ Hs) as (s1 & -> & <-).
        eapply Hintr; [reflexivity|]. now apply Hi. }
      destruct Hstop as [Hs|(_ & Hs & ->)].
      * pose proof (live_eof_takes _ _ _ _ Hs Hlive) as Hl'.
        apply live_eof_inv in Hl' as [[_ Hl']|(_ & Hl' & _)]; [|discriminate].
        pose proof (takes_length _ _ _ Hs) as Hlen. cbn [List.length] in Hlen.
        pose proof (takes_pending _ _ _ Hs) as Hpen. cbn [pending] in Hpen.
        destruct s' as [|e0 s'].
        -- rewrite Hpen. cbn [pending]. rewrite app_nil_r. unfold matches.
           destruct Hl' as (s0 & _ & Hl'). destruct eof; [destruct s0; discriminate|].
           destruct (cont g st w); try destruct Hun; eauto.
        -- destruct (takes_prefix _ _ _ _ Hs) as (s1 & -> & Hw).
           assert (Hc : clean (cont g st w)) by (rewrite <- Hw; eapply Hclean; reflexivity).
           destruct (Hres ltac:(discriminate) Hc) as (g' & Hgi & Hx).
           rewrite Hpen, Hx. apply IH.
           ++ lia.
           ++ assumption.
           ++ assumption.
           ++ intros s2 s3 E'. rewrite <- Hx, <- Hw.
              replace (pending s1 ++ pending s2) with (pending (s1 ++ RErr WouldBlock :: s2))
                by now rewrite pending_app.
              apply (Hclean _ s3). rewrite E', <- app_assoc. reflexivity.
           ++ intros s2 s3 E'. rewrite <- Hx, <- Hw.
              replace (pending s1 ++ pending s2) with (pending (s1 ++ RErr WouldBlock :: s2))
                by now rewrite pending_app.
              apply (Hintr _ s3). rewrite E', <- app_assoc. reflexivity.
           ++ intros w' x E'. rewrite <- Hx. apply (Hlim _ x). rewrite Hpen, E'. now rewrite app_assoc.
      * pose proof (live_eof_takes _ _ _ _ Hs Hlive) as Hl'.
        rewrite (takes_pending _ _ _ Hs). cbn [pending]. rewrite app_nil_r. unfold matches.
        destruct Hl' as (s0 & _ & Hl'). destruct eof; [destruct s0; discriminate|].
        destruct (cont g st w); try destruct Hun; eauto.
    + exfalso. destruct H2 as [H2|H2]; [|now apply limited_nil in H2]. apply H2.
      apply (Hlim _ (pending s')). now apply takes_pending.
    + destruct (takes_eof _ _ _ _ Hlive H1) as (-> & -> & ->). unfold matches.
      destruct (cont g st w) as [|p|v n|] eqn:Ec; cbn in H2; try contradiction.
      rewrite H2. eauto.
  - destruct Hok as [(H1 & H2)|(H1 & -> & H2)].
    + rewrite (takes_pending _ _ _ H1), H2. exists s'. auto.
    + destruct H2 as [H2|(H2 & H3)].
      * exfalso. destruct H2 as [Hs|[Hs _]]; [|discriminate]. apply (live_eof_takes _ _ _ _ Hs) in Hlive.
        apply live_eof_inv in Hlive as [[[Hs'|Hs'] _]|(_ & Hs' & _)]; discriminate.
      * destruct (takes_eof _ _ _ _ Hlive H2) as (-> & -> & ->).
        destruct (cont g st w) as [|p|v n|]; try destruct H1.
        -- cbn in *. destruct (utf8 (line_of p)); [exfalso; apply H3; reflexivity|reflexivity].
        -- cbn in H3. tauto.
  - exfalso. destruct Hok as (H1 & H2 & H3). apply H3. apply (Hlim _ (pending s')).
    now apply takes_pending.
Qed.

(** ** Requests and responses *)

Definition req_cont (g : N) (st : req_st) (b : bytes) : outcome request :=
  omap (fun x => match x with (m, u, h, body) => mk_request m u h body end)
       (msg_cont parse_request_line false g st b).
Definition resp_cont (g : N) (st : resp_st) (b : bytes) : outcome response :=
  omap (fun x => match x with (t, h, body) => mk_response t h body end)
       (msg_cont parse_status_line true g st b).

Lemma in_data_omap {A B} (f : A -> B) o : in_data (omap f o) <-> in_data o.
Proof. destruct o; cbn; tauto. Qed.
Lemma short_omap {A B} (f : A -> B) o : short (omap f o) <-> short o.
Proof. destruct o; cbn; tauto. Qed.

Lemma call_ok_map {A B S} (f : A -> B) Inv (cont : N -> S -> bytes -> outcome A) g st ls s r s' w :
  call_ok Inv cont g st ls s r s' w ->
  call_ok Inv (fun g st b => omap f (cont g st b)) g st ls s
    (match r with PDone v => PDone (f v) | PIo st k => PIo st k | PErr e => PErr e | PPanic => PPanic end) s' w.
Proof.
  destruct r as [v|st' k|e|]; cbn [call_ok]; rewrite ?unfinished_omap, ?clean_omap, ?in_limits_omap.
  - intros [(H1 & H2)|(H1 & n & H2)]; [left|right]; split; auto.
    + intros. now rewrite H2.
    + exists n. now rewrite H2.
  - intros (H1 & H2 & H2' & H3). split; auto. split; [|split; [exact H2'|]].
    + destruct H2 as [[? ?]|[(? & ? & ?)|(? & ? & ?)]]; [left|right;left|right;right];
        rewrite ?in_data_omap, ?in_limits_omap, ?short_omap; auto.
    + intros Hk Hc. destruct (H3 Hk Hc) as (g' & ? & Hx). exists g'. split; auto. intros. now rewrite Hx.
  - intros [(H1 & H2)|(H1 & H2 & H3)]; [left|right]; split; auto. intros. now rewrite H2.
  - auto.
Qed.

Lemma req_parser_ok dbg : parser_ok (req_parse dbg) msg_inv req_cont.
Proof.
  intros g st s r s' Hinv. unfold req_parse.
  destruct (msg_parse parse_request_line dbg false st [] s) as [[r1 ls1] s1] eqn:E.
  apply msg_parse_spec with (g := g) in E as (w & _ & _ & Hok); [|assumption].
  intros H. exists w. eapply call_ok_map in Hok.
  destruct r1 as [[[[m u] hm] body]|st' k|e|]; inversion H; subst; exact Hok.
Qed.

Lemma resp_parser_ok dbg : parser_ok (resp_parse dbg) msg_inv resp_cont.
Proof.
  intros g st s r s' Hinv. unfold resp_parse.
  destruct (msg_parse parse_status_line dbg true st [] s) as [[r1 ls1] s1] eqn:E.
  apply msg_parse_spec with (g := g) in E as (w & _ & _ & Hok); [|assumption].
  intros H. exists w. eapply call_ok_map in Hok.
  destruct r1 as [[[t hm] body]|st' k|e|]; inversion H; subst; exact Hok.
Qed.

Lemma drive_request_spec dbg eof s :
  live_eof eof s ->
  (forall s1 s2, s = s1 ++ RErr WouldBlock :: s2 -> clean (batch_request (pending s1))) ->
  (forall s1 s2, s = s1 ++ RErr Interrupted :: s2 -> ~ in_data (batch_request (pending s1))) ->
  (forall w x, pending s = w ++ x -> in_limits (batch_request w)) ->
  matches eof (batch_request (pending s)) (drive_request dbg s).
Proof.
  intros. change (batch_request (pending s)) with (req_cont 0 req_new (pending s)).
  apply drive_f_spec with (Inv := msg_inv); auto.
  - apply req_parser_ok.
  - apply line_inv_nil.
Qed.

Lemma drive_response_spec dbg eof s :
  live_eof eof s ->
  (forall s1 s2, s = s1 ++ RErr WouldBlock :: s2 -> clean (batch_response (pending s1))) ->
  (forall s1 s2, s = s1 ++ RErr Interrupted :: s2 -> ~ in_data (batch_response (pending s1))) ->
  (forall w x, pending s = w ++ x -> in_limits (batch_response w)) ->
  matches eof (batch_response (pending s)) (drive_response dbg s).
Proof.
  intros. change (batch_response (pending s)) with (resp_cont 0 resp_new (pending s)).
  apply drive_f_spec with (Inv := msg_inv); auto.
  - apply resp_parser_ok.
  - apply line_inv_nil.
Qed.
