(** C13, C14, C16, C21, C53: what is written reads back. *)
From Coq Require Import List Ascii String NArith ZArith Bool Lia Permutation.
From Coq Require Import ZifyBool ZifyNat ZifyN.
From Verif.Model Require Import Bytes Io Common Parse Encode.
From Verif.Spec Require Import Batch Stream Drive Numerals Names Grammar Wire.
From Verif.Proofs Require Import BytesFacts CommonFacts ParseFacts DriveFacts CallFacts GrammarFacts LimitGrammar BatchFacts Checks EncodeFacts.
From Verif.Properties Require Import Streaming Syntax.
Import ListNotations.
Local Open Scope N_scope.

Lemma text_check l : utf8 l && negb (existsb (Ascii.eqb LF) l) = true -> text l.
Proof.
  rewrite andb_true_iff, negb_true_iff. intros [H1 H2]. split; auto. intros H.
  assert (existsb (Ascii.eqb LF) l = true); [|congruence]. apply existsb_exists. exists LF. split; [auto|apply Ascii.eqb_refl].
Qed.
Lemma no_colon_check n : contains (lit ": ") n = false -> ~ exists a r, n = a ++ lit ": " ++ r.
Proof. intros H K. apply contains_iff in K. congruence. Qed.

(** ** C13 *)

(** Any delivery of a written request, followed by anything, reads as that request. *)
Theorem C13_round_trip : forall dbg r s rest,
  good_request r -> request_fits r ->
  live s -> pending s = write_request r ++ rest ->
  blocks_in_clean_lines batch_request s -> no_interrupt_in_data batch_request s ->
  exists r' s', drive_request dbg s = (PDone r', s') /\ live s' /\ pending s' = rest /\ same_request r' r.
Proof.
  intros dbg r s rest G F L E B I.
  pose proof (request_always_in_limits _ _ _ _ _ rest (good_request_small r G F)) as Lim. rewrite <- E in Lim.
  pose proof (drive_request_spec dbg false s (live_eof_false _ L) B I Lim) as M.
  destruct (request_reads_back r rest G F) as (r' & Hr & S).
  rewrite E, Hr in M. destruct M as (s' & -> & L' & Hp). apply live_eof_false_inv in L'. eauto 10.
Qed.

Definition ascii_headers (h : header_map) : Prop :=
  Forall (fun kv => ascii (header_str (fst kv)) /\ Forall ascii (snd kv)) h.

Lemma ascii_pairs h : ascii_headers h -> headers_ascii (pairs_of h).
Proof.
  intros H. apply Forall_flat_map. eapply Forall_impl; [|exact H]. intros [k vs] [H1 H2]. cbn [fst snd] in *.
  apply Forall_map. eapply Forall_impl; [|exact H2]. cbn. auto.
Qed.

Lemma ascii_app a b : ascii a -> ascii b -> ascii (a ++ b).
Proof. intros. apply Forall_app. auto. Qed.

Lemma head_ascii_first l r ps : text l -> ascii l -> headers_ascii ps -> head_ascii (l ++ crlf ++ r) ps.
Proof.
  intros T A H. split; auto. intros l' r' T' E.
  pose proof (cut_line_text l r T) as C. rewrite E, cut_line_text in C by assumption. congruence.
Qed.

Lemma request_first_ascii r : ascii (rq_uri r) -> ascii (request_first r).
Proof.
  intros H. unfold request_first. apply ascii_app; [destruct (rq_method r); repeat constructor|].
  apply (ascii_app [SP]); [repeat constructor|]. apply ascii_app; auto. repeat constructor.
Qed.

(** If uri and headers are ASCII, the stream may block anywhere. *)
Theorem C13_round_trip_ascii : forall dbg r s rest,
  good_request r -> request_fits r -> ascii (rq_uri r) -> ascii_headers (rq_headers r) ->
  live s -> pending s = write_request r ++ rest -> no_interrupt_in_data batch_request s ->
  exists r' s', drive_request dbg s = (PDone r', s') /\ live s' /\ pending s' = rest /\ same_request r' r.
Proof.
  intros dbg r s rest G F A1 A2 L E I. apply C13_round_trip; auto.
  eapply request_blocks_clean; [exact (good_request_small r G F)| |exact E].
  rewrite write_request_eq. destruct G as (G1 & G2 & _). destruct (request_first_ok r G1 G2).
  apply head_ascii_first; auto using request_first_ascii, ascii_pairs.
Qed.

(** The order in which the header map is iterated does not matter. *)
Lemma perm_pairs h h' : Permutation h h' -> Permutation (pairs_of h) (pairs_of h').
Proof. intros H. unfold pairs_of. now apply Permutation_flat_map. Qed.
Lemma perm_lines ps ps' : Permutation ps ps' -> len (header_lines ps) = len (header_lines ps').
Proof.
  unfold header_lines. induction 1 as [|p ps ps' _ IH|p q ps|? ? ? _ IH1 _ IH2]; cbn [map List.concat]; rewrite ?len_app; lia.
Qed.
Lemma hm_get_in_iff k vs h : NoDup (map fst h) -> hm_get k h = Some vs <-> In (k, vs) h.
Proof.
  induction h as [|[k' ws] h IH]; intros N; cbn [hm_get map fst] in *; [split; [discriminate|intros []]|].
  inversion N as [|? ? N1 N2]; subst. destruct (header_eqb k' k) eqn:E.
  - apply header_eqb_eq in E. subst k'. split; [intros H; inversion H; now left|].
    intros [H|H]; [now inversion H|]. exfalso. apply N1. now apply (in_map fst) in H.
  - rewrite IH by assumption. split; [now right|]. intros [H|H]; auto. inversion H; subst.
    now rewrite header_eqb_refl in E.
Qed.
Lemma perm_equiv h h' : NoDup (map fst h) -> Permutation h h' -> hm_equiv h' h.
Proof.
  intros N P k. assert (N' : NoDup (map fst h')) by (eapply Permutation_NoDup; [apply Permutation_map; exact P|auto]).
  destruct (hm_get k h) as [vs|] eqn:E.
  - apply hm_get_in_iff; auto. apply hm_get_in_iff in E; auto. eapply Permutation_in; eauto.
  - destruct (hm_get k h') as [vs|] eqn:E'; auto. apply hm_get_in_iff in E'; auto.
    apply Permutation_sym in P. eapply Permutation_in in E'; eauto. apply hm_get_in_iff in E'; auto. congruence.
Qed.
Lemma perm_good h h' : Permutation h h' -> good_headers h -> good_headers h'.
Proof.
  intros P [N H]. split; [eapply Permutation_NoDup; [apply Permutation_map; exact P|auto]|].
  eapply Permutation_Forall; eauto.
Qed.
Lemma perm_framed eof h h' body : NoDup (map fst h) -> Permutation h h' -> framed eof h body -> framed eof h' body.
Proof.
  intros N P F. unfold framed, get_first_header_value in *. now rewrite !(perm_equiv _ _ N P).
Qed.
Lemma perm_fits n h h' body : Permutation h h' -> fits_limits n h body -> fits_limits n h' body.
Proof.
  intros P (H1 & H2 & H3 & H4). apply perm_pairs in P. split; auto. split; [eapply Permutation_Forall; eauto|].
  rewrite <- (perm_lines _ _ P). auto.
Qed.

Theorem C13_any_header_order : forall dbg r h s rest,
  good_request r -> request_fits r -> Permutation (rq_headers r) h ->
  live s -> pending s = write_request (mk_request (rq_method r) (rq_uri r) h (rq_body r)) ++ rest ->
  blocks_in_clean_lines batch_request s -> no_interrupt_in_data batch_request s ->
  exists r' s', drive_request dbg s = (PDone r', s') /\ live s' /\ pending s' = rest /\ same_request r' r.
Proof.
  intros dbg r h s rest (G1 & G2 & G3 & G4) F P L E B I.
  destruct (C13_round_trip dbg (mk_request (rq_method r) (rq_uri r) h (rq_body r)) s rest) as (r' & s' & H1 & H2 & H3 & H4); auto.
  - split; [exact G1|]. split; [exact G2|]. split; [eapply perm_good; eauto|].
    eapply perm_framed; [apply G3|exact P|exact G4].
  - eapply perm_fits; eauto.
  - exists r', s'. split; auto. split; auto. split; auto. destruct H4 as (K1 & K2 & K3 & K4). cbn in *.
    split; auto. split; auto. split; auto. intros k. rewrite K3. apply perm_equiv; auto. apply G3.
Qed.

(** ** C14 *)

Theorem C14_round_trip : forall dbg r s rest,
  good_response false r -> response_fits r ->
  get_first_header_value (rs_headers r) (header_from (lit "content-length")) <> None ->
  live s -> pending s = write_response r ++ rest ->
  blocks_in_clean_lines batch_response s -> no_interrupt_in_data batch_response s ->
  exists r' s', drive_response dbg s = (PDone r', s') /\ live s' /\ pending s' = rest /\ same_response r' r.
Proof.
  intros dbg r s rest G F C L E B I.
  pose proof (response_always_in_limits _ _ _ _ rest (good_response_small r G F C)) as Lim. rewrite <- E in Lim.
  pose proof (drive_response_spec dbg false s (live_eof_false _ L) B I Lim) as M.
  destruct (response_reads_back r rest G F C) as (r' & Hr & S).
  rewrite E, Hr in M. destruct M as (s' & -> & L' & Hp). apply live_eof_false_inv in L'. eauto 10.
Qed.

(** Without content-length, if the stream ends after the body. *)
Theorem C14_round_trip_eof : forall dbg r s,
  good_response true r -> response_fits r ->
  live_eof true s -> pending s = write_response r ->
  blocks_in_clean_lines batch_response s -> no_interrupt_in_data batch_response s ->
  exists r', drive_response dbg s = (PDone r', []) /\ same_response r' r.
Proof.
  intros dbg r s G F L E B I.
  pose proof (response_eof_always_in_limits _ _ _ _ (good_response_small_eof r G F)) as Lim. rewrite <- E in Lim.
  pose proof (drive_response_spec dbg true s L B I Lim) as M.
  destruct (response_reads_back_eof r G) as (r' & Hr & S). rewrite E, Hr in M. eauto.
Qed.

Lemma table_ascii : Forall (fun st => ascii (st_reason st) /\ len (st_reason st) <= 497) status_table.
Proof.
  assert (forallb (fun st => forallb (fun c => bval c <? 128) (st_reason st) && (len (st_reason st) <=? 497)) status_table = true)
    as H by (vm_compute; reflexivity).
  rewrite forallb_forall in H. apply Forall_forall. intros st Hst. specialize (H st Hst).
  apply andb_true_iff in H as [H1 H2]. split; [|lia]. rewrite forallb_forall in H1.
  apply Forall_forall. intros c Hc. specialize (H1 c Hc). lia.
Qed.

Lemma response_first_ascii r : library_status (rs_status r) -> ascii (response_first r).
Proof.
  intros H. unfold response_first. apply ascii_app; [repeat constructor|].
  apply (ascii_app [SP]); [repeat constructor|]. apply ascii_app.
  - eapply Forall_impl; [|apply dec_digits]. cbn. intros; lia.
  - apply (ascii_app [SP]); [repeat constructor|]. pose proof table_ascii as T. rewrite Forall_forall in T. now apply T.
Qed.

Theorem C14_round_trip_ascii : forall dbg r s rest,
  good_response false r -> response_fits r ->
  get_first_header_value (rs_headers r) (header_from (lit "content-length")) <> None ->
  ascii_headers (rs_headers r) ->
  live s -> pending s = write_response r ++ rest -> no_interrupt_in_data batch_response s ->
  exists r' s', drive_response dbg s = (PDone r', s') /\ live s' /\ pending s' = rest /\ same_response r' r.
Proof.
  intros dbg r s rest G F C A L E I. apply C14_round_trip; auto.
  eapply response_blocks_clean; [exact (good_response_small r G F C)| |exact E].
  rewrite write_response_eq. destruct G as (G & _). destruct (response_first_ok r G) as (_ & T & _).
  apply head_ascii_first; auto using response_first_ascii, ascii_pairs.
Qed.

Theorem C14_any_header_order : forall dbg r h s rest,
  good_response false r -> response_fits r ->
  get_first_header_value (rs_headers r) (header_from (lit "content-length")) <> None ->
  Permutation (rs_headers r) h ->
  live s -> pending s = write_response (mk_response (rs_status r) h (rs_body r)) ++ rest ->
  blocks_in_clean_lines batch_response s -> no_interrupt_in_data batch_response s ->
  exists r' s', drive_response dbg s = (PDone r', s') /\ live s' /\ pending s' = rest /\ same_response r' r.
Proof.
  intros dbg r h s rest (G1 & G2 & G3) F C P L E B I.
  destruct (C14_round_trip dbg (mk_response (rs_status r) h (rs_body r)) s rest) as (r' & s' & H1 & H2 & H3 & H4); auto.
  - split; [exact G1|]. split; [eapply perm_good; eauto|]. eapply perm_framed; [apply G2|exact P|exact G3].
  - eapply perm_fits; eauto.
  - cbn [rs_headers]. unfold get_first_header_value in *. rewrite (perm_equiv (rs_headers r)); auto. apply G2.
  - exists r', s'. split; auto. split; auto. split; auto. destruct H4 as (K1 & K2 & K3). cbn in *.
    split; auto. split; auto. intros k. rewrite K2. apply perm_equiv; auto. apply G2.
Qed.

(** ** C16 *)

(** Among the requests that can be represented, exactly the well-formed ones (with a body of at most
    3145728 bytes) are read back by the grammar as themselves. *)
Theorem C16_exactly_the_good : forall r, typed_request r ->
  ((exists r', batch_request (write_request r) = Complete r' [] /\ same_request r' r) <->
   good_request r /\ len (rq_body r) <= 3145728).
Proof.
  intros r T. split; [intros (r' & E & S); eapply read_back_good; eauto|].
  intros [G Hl].
  destruct G as (G1 & G2 & G3 & G4). destruct (request_first_ok r G1 G2) as [Hl1 Ht].
  assert (Sy : request_syntax (write_request r) (rq_method r) (rq_uri r) (pairs_of (rq_headers r)) (rq_body r)).
  { exists (request_first r), (rq_body r). parts; auto using good_lines, write_request_eq.
    unfold framed in G4. destruct (first_named _ _ (lit "content-length") (good_equiv _ G3)) as (cl & Hc1 & Hc2).
    destruct (first_named _ _ (lit "transfer-encoding") (good_equiv _ G3)) as (te & Ht1 & Ht2).
    rewrite Hc2, Ht2 in G4. destruct cl as [|v vs].
    - destruct G4 as [F1 F2]. eapply body_default; eauto. intros v vs' ->. apply F2. reflexivity.
    - destruct G4 as [_ F]. eapply body_sized; eauto. }
  destruct (request_complete _ _ _ _ _ [] Sy) as (r' & H & H1 & H2 & H3 & H4 & _). rewrite app_nil_r in H.
  exists r'. split; auto. split; auto. split; auto. split; auto. rewrite H4. now apply good_equiv.
Qed.

(** So it fails in general.  A uri with a line break ends the request early, and the rest of the uri,
    whatever it is, is read as further requests. *)
Theorem C16_request_injection_refuted : forall injected, exists uri, forall m,
  exists r', batch_request (write_request (mk_request m uri [] [])) =
    Complete r' (injected ++ lit " HTTP/1.1" ++ crlf ++ crlf) /\ rq_uri r' = lit "/".
Proof.
  intros injected. exists (lit "/ HTTP/1.1" ++ crlf ++ crlf ++ injected). intros m.
  assert (Sy : request_syntax (write_request (mk_request m (lit "/") [] [])) m (lit "/") [] []).
  { assert (G : good_request (mk_request m (lit "/") [] [])).
    { split; [apply text_check; reflexivity|]. split; [vm_compute; intuition discriminate|].
      split; [split; constructor|]. split; [reflexivity|]. intros; discriminate. }
    apply small_request_syntax. apply (good_request_small _ G).
    split; [destruct m; vm_compute; congruence|]. split; [constructor|]. split; vm_compute; congruence. }
  destruct (request_complete _ _ _ _ _ (injected ++ lit " HTTP/1.1" ++ crlf ++ crlf) Sy) as (r' & H & _ & H2 & _).
  exists r'. split; [|exact H2]. rewrite <- H. f_equal.
  rewrite !write_request_eq. unfold request_first. cbn [rq_method rq_uri rq_headers rq_body].
  change (header_lines (pairs_of [])) with (@nil byte).
  rewrite <- !app_assoc. f_equal. cbn [app]. f_equal. rewrite <- !app_assoc. reflexivity.
Qed.

(** A header value with a line break is indistinguishable from further headers. *)
Theorem C16_header_injection_refuted : forall m u k v n w body,
  canonical (Custom n) ->
  write_request (mk_request m u [(k, [v ++ crlf ++ n ++ lit ": " ++ w])] body) =
  write_request (mk_request m u [(k, [v]); (Custom n, [w])] body).
Proof.
  intros m u k v n w body H. rewrite !write_request_eq. unfold request_first, pairs_of, header_lines, header_line.
  cbn [rq_method rq_uri rq_headers rq_body flat_map map fst snd app List.concat header_str].
  rewrite ?app_nil_r, <- !app_assoc. reflexivity.
Qed.

(** ** C21 *)

(** A chunked request is received with the concatenation of the chunks as its body, and reading stops
    right after the final CRLF. *)
Theorem C21_chunked_requests : forall dbg l m u ps v vs cs s rest,
  request_line m u l -> text l -> Forall header_ok ps -> head_fits l ps ->
  values_named (lit "content-length") ps [] ->
  values_named (lit "transfer-encoding") ps (v :: vs) -> (exists a b, v = a ++ lit "chunked" ++ b) ->
  Forall (fun c => snd c <> []) cs -> len (encode_chunks cs) <= 3145728 ->
  live s -> pending s = (l ++ crlf ++ header_lines ps ++ crlf ++ encode_chunks cs) ++ rest ->
  blocks_in_clean_lines batch_request s -> no_interrupt_in_data batch_request s ->
  exists r s', drive_request dbg s = (PDone r, s') /\ live s' /\ pending s' = rest /\
    rq_method r = m /\ rq_uri r = u /\ headers_are (rq_headers r) ps /\
    rq_body r = List.concat (map snd cs).
Proof.
  intros dbg l m u ps v vs cs s rest H1 H2 H3 H4 H5 H6 H7 H8 H9 L E B I.
  destruct (encode_chunks_fit cs H8 H9) as [C1 C2].
  destruct (C04_request_complete dbg (l ++ crlf ++ header_lines ps ++ crlf ++ encode_chunks cs) m u ps
             (List.concat (map snd cs)) s rest) as (r & s' & R1 & R2 & R3 & R4 & R5 & R6 & R7); auto.
  - exists l, (encode_chunks cs). parts; auto.
    + eapply body_chunked; eauto.
    + split; [|auto]. intros v' vs' Hv. pose proof (values_named_det _ _ _ _ H5 Hv). discriminate.
  - exists r, s'. auto 10.
Qed.

Theorem C21_chunked_responses : forall dbg l code ps v vs cs s rest,
  status_line code l -> text l -> Forall header_ok ps -> head_fits l ps ->
  values_named (lit "content-length") ps [] ->
  values_named (lit "transfer-encoding") ps (v :: vs) -> (exists a b, v = a ++ lit "chunked" ++ b) ->
  Forall (fun c => snd c <> []) cs -> len (encode_chunks cs) <= 3145728 ->
  live s -> pending s = (l ++ crlf ++ header_lines ps ++ crlf ++ encode_chunks cs) ++ rest ->
  blocks_in_clean_lines batch_response s -> no_interrupt_in_data batch_response s ->
  exists r s', drive_response dbg s = (PDone r, s') /\ live s' /\ pending s' = rest /\
    st_code (rs_status r) = code /\ headers_are (rs_headers r) ps /\
    rs_body r = List.concat (map snd cs).
Proof.
  intros dbg l code ps v vs cs s rest H1 H2 H3 H4 H5 H6 H7 H8 H9 L E B I.
  destruct (encode_chunks_fit cs H8 H9) as [C1 C2].
  destruct (C04_response_complete dbg (l ++ crlf ++ header_lines ps ++ crlf ++ encode_chunks cs) code ps
             (List.concat (map snd cs)) s rest) as (r & s' & R1 & R2 & R3 & R4 & R5 & R6); auto.
  - exists l, (encode_chunks cs). parts; auto.
    + eapply body_chunked; eauto.
    + split; [|auto]. intros v' vs' Hv. pose proof (values_named_det _ _ _ _ H5 Hv). discriminate.
  - exists r, s'. auto 10.
Qed.

(** The decoder alone, without size limits. *)
Theorem C21_decoder_inverts_encoder : forall cs rest,
  Forall (fun c => snd c <> [] /\ len (snd c) <= 3145728) cs ->
  batch_chunks 0 [] (encode_chunks cs ++ rest) = Complete (List.concat (map snd cs)) rest.
Proof.
  intros cs rest H. apply batch_chunks_complete with (acc := []).
  induction H as [|[up d] cs [Hd Hl] _ IH].
  - apply chunked_last, zero_denotes.
  - rewrite encode_chunks_cons. cbn [map List.concat fst snd] in *. apply len_pos in Hd.
    eapply chunked_more; eauto using hex_denotes.
Qed.

(** ** C53 *)

Theorem C53_lengths_stated : forall r,
  (exists st, r = response_of_status st) \/ (exists b, r = response_of_body b) ->
  exists v, hm_get (header_from (lit "content-length")) (rs_headers r) = Some [v] /\ denotes 10 v (len (rs_body r)).
Proof.
  intros r [(st & ->)|(b & ->)]; eexists; (split; [reflexivity|]); [|apply dec_denotes].
  change (lit "0") with (dec 0). apply (dec_denotes 0).
Qed.

Lemma good_cl v : text v -> good_headers (from_pairs [(CONTENT_LENGTH, v)]).
Proof.
  intros T. change (from_pairs [(CONTENT_LENGTH, v)]) with [(CONTENT_LENGTH, [v])].
  split; [repeat constructor; intros []|]. constructor; [|constructor]. cbn [fst snd]. split; [reflexivity|].
  split; [discriminate|]. constructor; [|constructor]. split; cbn [fst snd].
  - apply text_app; [split; [reflexivity|vm_compute; intuition discriminate]|].
    apply text_app; auto. split; [reflexivity|vm_compute; intuition discriminate].
  - intros (a & r & H). assert (In SP (header_str CONTENT_LENGTH)).
    { rewrite H. apply in_or_app. right. right. now left. }
    revert H0. vm_compute. intuition discriminate.
Qed.

Lemma cl_fits n v body : n <= 510 -> len v <= 100 -> 2 * len body <= 3145728 ->
  fits_limits n (from_pairs [(CONTENT_LENGTH, v)]) body.
Proof.
  intros Hn Hv Hb. change (from_pairs [(CONTENT_LENGTH, v)]) with [(CONTENT_LENGTH, [v])].
  split; auto. unfold pairs_of, header_lines, header_line. cbn [flat_map map fst snd app List.concat].
  change (len (header_str CONTENT_LENGTH)) with 14. split.
  - constructor; [|constructor]. cbn [fst snd]. change (len (header_str CONTENT_LENGTH)) with 14. lia.
  - split; auto. rewrite !len_app. change (len (header_str CONTENT_LENGTH)) with 14.
    change (len (lit ": ")) with 2. change (len crlf) with 2. rewrite len_nil. lia.
Qed.

Lemma dec_aux_len f : forall k n acc, n < 10 ^ N.succ k -> len (dec_aux f n acc) <= N.succ k + len acc.
Proof.
  induction f as [|f IH]; intros k n acc Hn; cbn [dec_aux]; [lia|].
  destruct (N.ltb_spec n 10); [rewrite len_cons; lia|].
  destruct (N.eq_dec k 0) as [->|Hk]; [cbn in Hn; lia|].
  specialize (IH (N.pred k) (n / 10) (dec_digit (n mod 10) :: acc)).
  rewrite N.succ_pred in IH by assumption. rewrite len_cons in IH.
  rewrite N.pow_succ_r' in Hn. assert (n / 10 < 10 ^ k) by (apply N.div_lt_upper_bound; lia). lia.
Qed.

Lemma conversion_good r : (exists st, r = response_of_status st /\ library_status st) \/
    (exists b, r = response_of_body b /\ 2 * len b <= 3145728) ->
  good_response false r /\ response_fits r /\
  get_first_header_value (rs_headers r) (header_from (lit "content-length")) <> None /\
  ascii_headers (rs_headers r).
Proof.
  intros H. assert (K : exists st v b, r = mk_response st (from_pairs [(CONTENT_LENGTH, v)]) b /\
    library_status st /\ v = dec (len b) /\ 2 * len b <= 3145728).
  { destruct H as [(st & -> & H)|(b & -> & H)].
    - exists st, (lit "0"), []. split; [reflexivity|]. split; auto. split; [reflexivity|cbn; lia].
    - exists STATUS_OK, (dec (len b)), b. split; [reflexivity|]. split; [now left|]. auto. }
  destruct K as (st & v & b & -> & H1 & -> & H2). split; [|split; [|split]].
  - split; auto. split; [apply good_cl, text_dec|]. unfold framed. cbn [rs_headers rs_body].
    split; [reflexivity|apply dec_denotes].
  - pose proof table_ascii as T. rewrite Forall_forall in T. specialize (T _ H1) as [_ T].
    apply cl_fits; auto; cbn [rs_status]; [lia|].
    pose proof (dec_aux_len (S (N.size_nat (len b))) 6 (len b) []) as L. change (10 ^ N.succ 6) with 10000000 in L.
    unfold dec. rewrite len_nil in L. lia.
  - discriminate.
  - constructor; [|constructor]. cbn [fst snd]. split; [repeat constructor|].
    constructor; [|constructor]. eapply Forall_impl; [|apply dec_digits]. cbn. intros; lia.
Qed.

(** A response made from one of the library's statuses, or from a string or bytes of at most 1.5 MiB,
    reaches the client as it is, wherever the stream blocks. *)
Theorem C53_conversions_round_trip : forall dbg r s rest,
  (exists st, r = response_of_status st /\ library_status st) \/
  (exists b, r = response_of_body b /\ 2 * len b <= 3145728) ->
  live s -> pending s = write_response r ++ rest -> no_interrupt_in_data batch_response s ->
  exists r' s', drive_response dbg s = (PDone r', s') /\ live s' /\ pending s' = rest /\ same_response r' r.
Proof.
  intros dbg r s rest H L E I. destruct (conversion_good r H) as (G & F & C & A).
  apply C14_round_trip_ascii; auto.
Qed.

(** ** The hypotheses are met *)

Definition example_request : request :=
  mk_request POST (lit "/a?x=1")
    [(header_from (lit "X-Thing"), [lit "one"; lit "two: 2"]); (CONTENT_LENGTH, [lit "3"])] (lit "abc").

Example C13_case :
  good_request example_request /\ request_fits example_request /\ ascii (rq_uri example_request) /\
  ascii_headers (rq_headers example_request) /\ typed_request example_request /\
  exists s1 s2, write_request example_request = s1 ++ s2 /\ s1 <> [] /\ s2 <> [] /\
    live [RData s1; RErr WouldBlock; RData s2; RData (lit "GET")] /\
    no_interrupt_in_data batch_request [RData s1; RErr WouldBlock; RData s2; RData (lit "GET")].
Proof.
  split; [|split; [|split; [|split; [|split]]]].
  - split; [apply text_check; reflexivity|]. split; [vm_compute; intuition discriminate|]. split.
    + split; [repeat constructor; cbn; intuition discriminate|].
      repeat constructor; try discriminate; try (apply text_check; vm_compute; reflexivity); apply no_colon_check; reflexivity.
    + split; [reflexivity|]. exact (dec_denotes 3).
  - split; [vm_compute; congruence|]. split; [repeat constructor; vm_compute; congruence|]. split; vm_compute; congruence.
  - repeat constructor.
  - repeat constructor.
  - split; [reflexivity|]. split; [repeat constructor; cbn; intuition discriminate|]. repeat constructor; discriminate.
  - exists (firstn 30 (write_request example_request)), (skipn 30 (write_request example_request)).
    rewrite firstn_skipn. split; [reflexivity|]. split; [discriminate|]. split; [discriminate|]. split.
    + repeat constructor; discriminate.
    + intros s1 s2 H. exfalso. repeat (destruct s1 as [|? s1]; [discriminate|injection H as ? H]).
      destruct s1; discriminate.
Qed.

(** A response without content-length, and one with a body of two bytes. *)
Example C14_case :
  good_response true (mk_response STATUS_OK [(CONTENT_TYPE, [lit "text/html"])] (lit "hi")) /\
  response_fits (mk_response STATUS_OK [(CONTENT_TYPE, [lit "text/html"])] (lit "hi")) /\
  good_response false (response_of_body (lit "hi")) /\ response_fits (response_of_body (lit "hi")).
Proof.
  split; [|split].
  - split; [now left|]. split.
    + split; [repeat constructor; cbn; intuition discriminate|].
      repeat constructor; try discriminate; try (apply text_check; vm_compute; reflexivity); apply no_colon_check; reflexivity.
    + split; [discriminate|]. intros; discriminate.
  - split; [vm_compute; congruence|]. split; [repeat constructor; vm_compute; congruence|]. split; vm_compute; congruence.
  - destruct (conversion_good (response_of_body (lit "hi"))) as (H1 & H2 & _); auto.
    right. eexists. split; [reflexivity|]. vm_compute; congruence.
Qed.

(** The injected bytes are a request of their own, which the peer reads next. *)
Example C16_case : exists r, batch_request (lit "DELETE /all HTTP/1.1" ++ crlf ++ crlf ++ lit " HTTP/1.1" ++ crlf ++ crlf) =
  Complete r (lit " HTTP/1.1" ++ crlf ++ crlf) /\ rq_uri r = lit "/all" /\ rq_method r = DELETE.
Proof. eexists. vm_compute. split; [reflexivity|auto]. Qed.

Example C21_case :
  encode_chunks [(true, lit "hello world"); (false, repeat "x"%char 28)] =
  lit "B" ++ crlf ++ lit "hello world" ++ crlf ++ lit "1c" ++ crlf ++ repeat "x"%char 28 ++ crlf ++ lit "0" ++ crlf ++ crlf.
Proof. vm_compute. reflexivity. Qed.

Print Assumptions C13_round_trip.
Print Assumptions C13_round_trip_ascii.
Print Assumptions C13_any_header_order.
Print Assumptions C14_round_trip.
Print Assumptions C14_round_trip_eof.
Print Assumptions C14_round_trip_ascii.
Print Assumptions C14_any_header_order.
Print Assumptions C16_exactly_the_good.
Print Assumptions C16_request_injection_refuted.
Print Assumptions C16_header_injection_refuted.
Print Assumptions C21_chunked_requests.
Print Assumptions C21_chunked_responses.
Print Assumptions C21_decoder_inverts_encoder.
Print Assumptions C53_lengths_stated.
Print Assumptions C53_conversions_round_trip.
