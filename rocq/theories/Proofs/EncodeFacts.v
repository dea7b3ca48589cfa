(** What is written is in the grammar, and reads back. *)
From Coq Require Import List Ascii String NArith ZArith Bool Lia.
From Coq Require Import ZifyBool ZifyNat ZifyN.
From Verif.Model Require Import Bytes Io Common Parse Encode.
From Verif.Spec Require Import Batch Stream Drive Numerals Names Grammar Wire.
From Verif.Proofs Require Import BytesFacts CommonFacts ParseFacts DriveFacts GrammarFacts LimitGrammar BatchFacts.
Import ListNotations.
Local Open Scope N_scope.

(** ** The bytes written *)

Lemma concat_app_bytes (a b : list bytes) : List.concat (a ++ b) = List.concat a ++ List.concat b.
Proof. apply concat_app. Qed.

Lemma header_pieces_lines h : List.concat (header_pieces h) = header_lines (pairs_of h).
Proof.
  unfold header_pieces, pairs_of, header_lines. induction h as [|[k vs] h IH]; [reflexivity|].
  cbn [flat_map fst snd]. rewrite concat_app_bytes, map_app, concat_app_bytes, IH. f_equal.
  clear. induction vs as [|v vs IH]; [reflexivity|].
  cbn [flat_map map]. rewrite concat_app_bytes. change (List.concat (?a :: ?b)) with (a ++ List.concat b).
  rewrite IH. unfold header_line. cbn [fst snd List.concat]. rewrite !app_assoc, app_nil_r. reflexivity.
Qed.

Definition request_first (r : request) : bytes :=
  method_name (rq_method r) ++ SP :: rq_uri r ++ SP :: lit "HTTP/1.1".

Lemma write_request_eq r : write_request r =
  request_first r ++ crlf ++ header_lines (pairs_of (rq_headers r)) ++ crlf ++ rq_body r.
Proof.
  unfold write_request, request_pieces, request_first, first_line_pieces.
  rewrite !concat_app_bytes, header_pieces_lines. cbn [List.concat].
  rewrite ?app_nil_r, <- ?app_assoc. cbn [app]. rewrite <- ?app_assoc.
  assert (method_str (rq_method r) = method_name (rq_method r)) as -> by (destruct (rq_method r); reflexivity).
  reflexivity.
Qed.

Definition response_first (r : response) : bytes :=
  lit "HTTP/1.1" ++ SP :: dec (st_code (rs_status r)) ++ SP :: st_reason (rs_status r).

Lemma write_response_eq r : write_response r =
  response_first r ++ crlf ++ header_lines (pairs_of (rs_headers r)) ++ crlf ++ rs_body r.
Proof.
  unfold write_response, response_pieces, response_first, first_line_pieces.
  rewrite !concat_app_bytes, header_pieces_lines. cbn [List.concat].
  rewrite ?app_nil_r, <- ?app_assoc. cbn [app]. rewrite <- ?app_assoc. reflexivity.
Qed.

(** ** Header maps *)

Definition flat (h : header_map) : list (header * bytes) :=
  flat_map (fun kv => map (fun v => (fst kv, v)) (snd kv)) h.

Lemma pairs_flat h : Forall (fun kv => canonical (fst kv)) h -> map header_pair (pairs_of h) = flat h.
Proof.
  unfold pairs_of, flat. induction 1 as [|[k vs] h Hk _ IH]; [reflexivity|].
  cbn [flat_map fst snd]. rewrite map_app, IH, map_map. f_equal. apply map_ext. intros v.
  unfold header_pair. cbn [fst snd]. now rewrite <- Hk.
Qed.

Lemma values_of_entry k k' vs : values_of header_eqb k (map (fun v : bytes => (k', v)) vs) =
  if header_eqb k' k then vs else [].
Proof.
  unfold values_of. induction vs as [|v vs IH]; cbn [map filter fst].
  - destruct (header_eqb k' k); reflexivity.
  - destruct (header_eqb k' k); [cbn [map snd]; now rewrite IH|exact IH].
Qed.

Lemma values_of_flat k h : NoDup (map fst h) ->
  values_of header_eqb k (flat h) = match hm_get k h with Some vs => vs | None => [] end.
Proof.
  unfold flat. induction h as [|[k' vs] h IH]; intros N; [reflexivity|].
  cbn [flat_map fst snd hm_get]. rewrite values_of_app, values_of_entry.
  inversion N as [|? ? N1 N2]; subst. rewrite IH by assumption.
  destruct (header_eqb k' k) eqn:E; [|reflexivity].
  apply header_eqb_eq in E. subst k'. cbn [fst] in N1.
  destruct (hm_get k h) as [ws|] eqn:G; [|apply app_nil_r].
  exfalso. apply N1. clear - G. induction h as [|[k' vs] h IH]; [discriminate|]. cbn [hm_get map fst] in *.
  destruct (header_eqb k' k) eqn:E; [left; now apply header_eqb_eq|right; auto].
Qed.

Lemma good_canonical h : good_headers h -> Forall (fun kv => canonical (fst kv)) h.
Proof. intros [_ H]. eapply Forall_impl; [|exact H]. cbn. intros a (H1 & _). exact H1. Qed.

Lemma good_equiv h : good_headers h -> hm_equiv (from_pairs (map header_pair (pairs_of h))) h.
Proof.
  intros G k. rewrite hm_get_pairs, pairs_flat by now apply good_canonical.
  destruct G as [N H]. rewrite values_of_flat by assumption.
  clear N. induction h as [|[k' vs] h IH]; [reflexivity|]. cbn [hm_get].
  inversion H as [|? ? (_ & H1 & _) H2]; subst. destruct (header_eqb k' k); [|auto].
  cbn [snd] in H1. destruct vs; [congruence|reflexivity].
Qed.

Lemma good_lines h : good_headers h -> Forall header_ok (pairs_of h).
Proof.
  intros [_ H]. unfold pairs_of. apply Forall_flat_map. eapply Forall_impl; [|exact H].
  cbn beta. intros [k vs] (_ & _ & Hv). cbn [fst snd] in *. apply Forall_map. exact Hv.
Qed.

(** Lookups by name in a map that agrees with the header lines. *)
Lemma first_named h ps name : hm_equiv (from_pairs (map header_pair ps)) h ->
  exists vs, values_named name ps vs /\
    get_first_header_value h (header_from name) = match vs with [] => None | v :: _ => Some v end.
Proof.
  intros E. destruct (values_named_fun name ps) as [vs Hvs]. exists vs. split; auto.
  unfold get_first_header_value. rewrite <- E, (headers_are_pairs ps _ _ Hvs).
  destruct vs; reflexivity.
Qed.

Lemma framed_syntax eof h body : good_headers h -> framed eof h body -> 2 * len body <= 3145728 ->
  (forall v vs, eof = true -> ~ values_named (lit "content-length") (pairs_of h) (v :: vs)) /\
  (eof = false -> forall (default : bytes -> bytes -> Prop), default [] [] ->
    body_syntax (pairs_of h) default body body /\ body_fits (pairs_of h) body) /\
  (eof = true -> values_named (lit "content-length") (pairs_of h) [] /\
    exists vs, values_named (lit "transfer-encoding") (pairs_of h) vs /\
       forall v vs', vs = v :: vs' -> ~ exists a r, v = a ++ lit "chunked" ++ r).
Proof.
  intros G F L. pose proof (good_equiv _ G) as E. unfold framed in F.
  destruct (first_named _ _ (lit "content-length") E) as (cl & H1 & H2). rewrite H2 in F.
  destruct (first_named _ _ (lit "transfer-encoding") E) as (te & H3 & H4). rewrite H4 in F.
  destruct cl as [|v vs].
  - destruct F as [F1 F2].
    assert (Hte : forall v vs', te = v :: vs' -> ~ exists a r, v = a ++ lit "chunked" ++ r)
      by (intros v vs' ->; apply F2; reflexivity).
    split.
    + intros v vs _ Hv. pose proof (values_named_det _ _ _ _ H1 Hv). discriminate.
    + split; [|eauto]. intros He default Hd. specialize (F1 He). subst body. split.
      * eapply body_default; eauto.
      * split; [intros; cbn; lia|auto].
  - destruct F as [-> F]. split; [intros ? ? H; discriminate|]. split; [|intros H; discriminate].
    intros _ default Hd. split.
    + eapply body_sized; eauto. lia.
    + split; [auto|]. intros Hv. pose proof (values_named_det _ _ _ _ H1 Hv). discriminate.
Qed.

(** ** First lines *)

Lemma text_app a b : text a -> text b -> text (a ++ b).
Proof.
  intros [U1 N1] [U2 N2]. split; [now apply utf8_app_true|]. intros H. apply in_app_or in H. tauto.
Qed.
Lemma text_sp_cons b : text b -> text (SP :: b).
Proof. intros H. change (SP :: b) with ([SP] ++ b). apply text_app; auto. split; [reflexivity|]. intros [H'|[]]. discriminate. Qed.
Lemma text_lit_method m : text (method_name m).
Proof. destruct m; (split; [vm_compute; reflexivity|vm_compute; intuition discriminate]). Qed.
Lemma text_version : text (lit "HTTP/1.1").
Proof. split; [vm_compute; reflexivity|vm_compute; intuition discriminate]. Qed.
Lemma text_dec n : text (dec n).
Proof.
  pose proof (dec_digits n) as D. split.
  - apply utf8_ascii. eapply Forall_impl; [|exact D]. cbn. intros c Hc. lia.
  - intros H. rewrite Forall_forall in D. apply D in H. cbn in H. lia.
Qed.

Lemma method_no_sp m : ~ In SP (method_name m).
Proof. destruct m; vm_compute; intuition discriminate. Qed.
Lemma version_no_sp : ~ In SP (lit "HTTP/1.1").
Proof. vm_compute; intuition discriminate. Qed.
Lemma dec_no_sp n : ~ In SP (dec n).
Proof. intros H. pose proof (dec_digits n) as D. rewrite Forall_forall in D. apply D in H. cbn in H. lia. Qed.

Lemma request_first_ok r : text (rq_uri r) -> ~ In SP (rq_uri r) ->
  request_line (rq_method r) (rq_uri r) (request_first r) /\ text (request_first r).
Proof.
  intros Ht Hs. unfold request_first. split.
  - exists (lit "HTTP/1.1"). split; [left; reflexivity|]. cbn [words].
    split; [apply method_no_sp|]. eexists. split; [reflexivity|].
    split; [exact Hs|]. eexists. split; [reflexivity|]. split; [apply version_no_sp|]. now left.
  - apply text_app; [apply text_lit_method|]. apply text_sp_cons, text_app; auto. apply text_sp_cons, text_version.
Qed.

Lemma len_request_first r : len (request_first r) = len (method_name (rq_method r)) + 1 + len (rq_uri r) + 9.
Proof. unfold request_first. rewrite len_app, len_cons, len_app, len_cons. change (len (lit "HTTP/1.1")) with 8. lia. Qed.

Lemma table_reasons : Forall (fun st => text (st_reason st) /\ st_code st <= U16_MAX /\ len (dec (st_code st)) = 3
  /\ status_from_code (st_code st) = Some st) status_table.
Proof.
  assert (forallb (fun st => utf8 (st_reason st) && negb (existsb (Ascii.eqb LF) (st_reason st)) &&
     (st_code st <=? U16_MAX) && (len (dec (st_code st)) =? 3) &&
     match status_from_code (st_code st) with Some st' => (st_code st' =? st_code st) && beqb (st_reason st') (st_reason st) | None => false end)
     status_table = true) as H by (vm_compute; reflexivity).
  rewrite forallb_forall in H. apply Forall_forall. intros st Hst. specialize (H st Hst).
  rewrite !andb_true_iff in H. destruct H as [[[[H1 H2] H3] H4] H5].
  split; [|split; [lia|split; [lia|]]].
  - split; [exact H1|]. intros Hin. rewrite negb_true_iff in H2.
    assert (existsb (Ascii.eqb LF) (st_reason st) = true); [|congruence].
    apply existsb_exists. exists LF. split; [exact Hin|apply Ascii.eqb_refl].
  - destruct (status_from_code (st_code st)) as [st'|]; [|discriminate].
    apply andb_true_iff in H5 as [H5 H6]. apply beqb_eq in H6. destruct st, st'; cbn in *. f_equal. f_equal; [lia|auto].
Qed.

Lemma response_first_ok r : library_status (rs_status r) ->
  parse_status_line (response_first r) = inr (rs_status r) /\ text (response_first r) /\
  len (response_first r) = 13 + len (st_reason (rs_status r)).
Proof.
  intros Hs. pose proof table_reasons as H. rewrite Forall_forall in H. specialize (H _ Hs) as (H1 & H2 & H3 & H4).
  unfold response_first. split; [|split].
  - unfold parse_status_line. rewrite split_sp_app by apply version_no_sp.
    assert (exists ws, split_sp (dec (st_code (rs_status r)) ++ SP :: st_reason (rs_status r)) =
              dec (st_code (rs_status r)) :: ws) as (ws & ->)
      by (eexists; apply split_sp_app, dec_no_sp).
    change (is_supported (lit "HTTP/1.1")) with true. cbn [negb].
    unfold parse_status.
    assert (parse_uint 10 U16_MAX (dec (st_code (rs_status r))) = Some (st_code (rs_status r))) as ->
      by (apply parse_uint_spec; [reflexivity|]; split; [apply dec_denotes|exact H2]).
    rewrite H4. reflexivity.
  - apply text_app; [apply text_version|]. apply text_sp_cons, text_app; [apply text_dec|]. now apply text_sp_cons.
  - rewrite len_app, len_cons, len_app, len_cons, H3. change (len (lit "HTTP/1.1")) with 8. lia.
Qed.

(** ** Whole messages *)

Lemma fits_head first h body : fits_limits (len first) h body -> head_fits first (pairs_of h).
Proof.
  intros (H1 & H2 & H3 & _). split; auto. split.
  - eapply Forall_impl; [|exact H2]. cbn beta. intros [n v] H. cbn [fst snd] in H. unfold header_line. cbn [fst snd].
    rewrite !len_app. change (len (lit ": ")) with 2. change (len crlf) with 2. lia.
  - rewrite len_app. change (len crlf) with 2. exact H3.
Qed.

Lemma good_request_small r : good_request r -> request_fits r ->
  small_request (write_request r) (rq_method r) (rq_uri r) (pairs_of (rq_headers r)) (rq_body r).
Proof.
  intros (H1 & H2 & H3 & H4) F. destruct (request_first_ok r H1 H2) as [Hl Ht].
  unfold request_fits in F. rewrite <- len_request_first in F.
  assert (L : 2 * len (rq_body r) <= 3145728) by apply F.
  destruct (framed_syntax _ _ _ H3 H4 L) as (_ & B & _).
  destruct (B eq_refl (fun w body => w = [] /\ body = []) (conj eq_refl eq_refl)) as [B1 B2].
  exists (request_first r), (rq_body r). parts; auto.
  - now apply good_lines.
  - apply write_request_eq.
  - eapply fits_head; eauto.
Qed.

Lemma request_reads_back r rest : good_request r -> request_fits r ->
  exists r', batch_request (write_request r ++ rest) = Complete r' rest /\ same_request r' r.
Proof.
  intros G F. pose proof (good_request_small r G F) as Sm. apply small_request_syntax in Sm.
  destruct (request_complete _ _ _ _ _ rest Sm) as (r' & H & H1 & H2 & H3 & H4 & _).
  exists r'. split; auto. split; auto. split; auto. split; auto. rewrite H4.
  destruct G as (_ & _ & G & _). now apply good_equiv.
Qed.

Lemma good_response_small r : good_response false r -> response_fits r ->
  get_first_header_value (rs_headers r) (header_from (lit "content-length")) <> None ->
  small_response (write_response r) (st_code (rs_status r)) (pairs_of (rs_headers r)) (rs_body r).
Proof.
  intros (H1 & H2 & H3) F C. destruct (response_first_ok r H1) as (Hp & Ht & Hl).
  unfold response_fits in F. rewrite <- Hl in F.
  assert (L : 2 * len (rs_body r) <= 3145728) by apply F.
  destruct (framed_syntax _ _ _ H2 H3 L) as (_ & B & _).
  exists (response_first r), (rs_body r). parts; auto.
  - apply parse_status_line_iff. eauto.
  - now apply good_lines.
  - destruct (first_named _ _ (lit "content-length") (good_equiv _ H2)) as (cl & Hc1 & Hc2).
    unfold framed in H3. rewrite Hc2 in H3, C. destruct cl as [|v vs]; [congruence|]. destruct H3 as [_ H3].
    eapply body_sized; eauto. lia.
  - apply write_response_eq.
  - eapply fits_head; eauto.
  - apply (B eq_refl (fun _ _ => True) I).
Qed.

Lemma good_response_small_eof r : good_response true r -> response_fits r ->
  small_response_eof (write_response r) (st_code (rs_status r)) (pairs_of (rs_headers r)) (rs_body r).
Proof.
  intros (H1 & H2 & H3) F. destruct (response_first_ok r H1) as (Hp & Ht & Hl).
  unfold response_fits in F. rewrite <- Hl in F.
  assert (L : 2 * len (rs_body r) <= 3145728) by apply F.
  destruct (framed_syntax _ _ _ H2 H3 L) as (_ & _ & B). destruct (B eq_refl) as [B1 B2].
  exists (response_first r). parts; auto.
  - apply parse_status_line_iff. eauto.
  - now apply good_lines.
  - apply write_response_eq.
  - eapply fits_head; eauto.
  - lia.
Qed.

Lemma response_batch r rest : library_status (rs_status r) -> good_headers (rs_headers r) ->
  batch_response (write_response r ++ rest) =
  omap (fun x => match x with (t, h, body) => mk_response t h body end)
    (batch_after_headers true (rs_status r) (from_pairs (map header_pair (pairs_of (rs_headers r)))) (rs_body r ++ rest)).
Proof.
  intros H1 H2. destruct (response_first_ok r H1) as (Hp & Ht & _).
  rewrite write_response_eq. unfold batch_response. rewrite <- !app_assoc.
  rewrite (batch_msg_head _ _ _ (rs_status r)); auto. now apply good_lines.
Qed.

Lemma response_reads_back r rest : good_response false r -> response_fits r ->
  get_first_header_value (rs_headers r) (header_from (lit "content-length")) <> None ->
  exists r', batch_response (write_response r ++ rest) = Complete r' rest /\ same_response r' r.
Proof.
  intros (H1 & H2 & H3) F C. rewrite response_batch by assumption.
  pose proof (good_equiv _ H2) as E. unfold batch_after_headers.
  destruct (first_named _ _ (lit "content-length") E) as (cl & Hc1 & Hc2).
  unfold framed in H3. rewrite Hc2 in H3, C. destruct cl as [|v vs]; [congruence|]. destruct H3 as [_ H3].
  assert (L : 2 * len (rs_body r) <= 3145728) by apply F.
  rewrite (framing_complete_sized _ _ true _ _ _ (headers_are_pairs _) Hc1 H3) by lia.
  cbn [batch_body]. rewrite len_app. replace (_ <? _) with false by lia.
  rewrite firstn_len_app, skipn_len_app. cbn [omap]. eexists. split; [reflexivity|]. repeat split. exact E.
Qed.

Lemma response_reads_back_eof r : good_response true r ->
  exists r', batch_response (write_response r) = AtEof r' (len (rs_body r)) /\ same_response r' r.
Proof.
  intros (H1 & H2 & H3). rewrite <- (app_nil_r (write_response r)), response_batch by assumption.
  pose proof (good_equiv _ H2) as E. unfold batch_after_headers.
  destruct (first_named _ _ (lit "content-length") E) as (cl & Hc1 & Hc2).
  destruct (first_named _ _ (lit "transfer-encoding") E) as (te & Ht1 & Ht2).
  unfold framed in H3. rewrite Hc2, Ht2 in H3. destruct cl as [|v vs]; [|destruct H3; discriminate].
  destruct H3 as [_ H3].
  rewrite (framing_complete_default _ _ true _ (headers_are_pairs _) Hc1 Ht1);
    [|intros v vs ->; apply H3; reflexivity].
  cbn [batch_body omap]. rewrite app_nil_r. eexists. split; [reflexivity|]. repeat split. exact E.
Qed.

(** ** Only well-formed requests read back *)

Lemma in_values_named name ps vs v : values_named name ps vs -> In v vs ->
  exists n, In (n, v) ps /\ same_name n name.
Proof.
  induction 1 as [|n w ps vs Hn _ IH|n w ps vs Hn _ IH]; intros Hin; [destruct Hin| |].
  - destruct Hin as [->|Hin]; [exists n; split; [now left|auto]|].
    destruct (IH Hin) as (n' & H1 & H2). exists n'. split; [now right|auto].
  - destruct (IH Hin) as (n' & H1 & H2). exists n'. split; [now right|auto].
Qed.

Lemma ci_nonletter c d : ci_byte c d -> bval c < 65 -> c = d.
Proof. intros [H|(n & H1 & [[H2 H3]|[H2 H3]])] Hc; auto; lia. Qed.

Lemma same_name_in a b c : same_name a b -> bval c < 65 -> In c b -> In c a.
Proof.
  induction 1 as [|x y a b Hxy _ IH]; intros Hc Hin; [destruct Hin|].
  destruct Hin as [->|Hin]; [left|right; auto].
  destruct Hxy as [->|(n & H1 & [[H2 H3]|[H2 H3]])]; auto; lia.
Qed.

Lemma same_name_colon a b : same_name a b -> (exists x y, b = x ++ lit ": " ++ y) -> exists x y, a = x ++ lit ": " ++ y.
Proof.
  intros H (x & y & ->). apply Forall2_app_inv_r in H as (a1 & a2 & _ & H2 & ->).
  apply Forall2_app_inv_r in H2 as (a3 & a4 & H3 & _ & ->).
  change (lit ": ") with [COLON; SP] in H3.
  inversion H3 as [|c ? a5 ? H4 H5]; subst. inversion H5 as [|c' ? a6 ? H6 H7]; subst. inversion H7; subst.
  exists a1, a4. f_equal. f_equal. change (lit ": ") with [COLON; SP].
  change (bval COLON) with 58 in *. change (bval SP) with 32 in *.
  assert (c = COLON) as -> by (destruct H4 as [->|(n & K1 & [[K2 K3]|[K2 K3]])]; [reflexivity| |];
    change (bval COLON) with 58 in *; lia).
  assert (c' = SP) as -> by (destruct H6 as [->|(n & K1 & [[K2 K3]|[K2 K3]])]; [reflexivity| |];
    change (bval SP) with 32 in *; lia).
  reflexivity.
Qed.

Lemma chunked_longer w body : chunked w body -> len body < len w.
Proof.
  induction 1 as [l H|l n d w body H Hn Hd _ IH]; rewrite ?len_app; change (len crlf) with 2; rewrite ?len_nil; lia.
Qed.

(** The parts of a message are determined by its bytes. *)
Lemma parts_unique l ps wire l' ps' wire' :
  text l -> text l' -> Forall header_ok ps -> Forall header_ok ps' ->
  l ++ crlf ++ header_lines ps ++ crlf ++ wire = l' ++ crlf ++ header_lines ps' ++ crlf ++ wire' ->
  wire = wire'.
Proof.
  intros T T' P P' E.
  pose proof (cut_line_text l (header_lines ps ++ crlf ++ wire) T) as C.
  rewrite E, cut_line_text in C by assumption.
  assert (E2 : header_lines ps' ++ crlf ++ wire' = header_lines ps ++ crlf ++ wire) by congruence.
  pose proof (batch_headers_complete ps 0 [] wire P) as B.
  rewrite <- E2, batch_headers_complete in B by assumption. congruence.
Qed.

Lemma read_back_good r r' : typed_request r ->
  batch_request (write_request r) = Complete r' [] -> same_request r' r ->
  good_request r /\ len (rq_body r) <= 3145728.
Proof.
  intros (Hu & Hd & Hh) E (S1 & S2 & S3 & S4).
  apply request_sound in E as (w & ps & Ew & (l & wire & L1 & L2 & L3 & L4 & L5) & Hps).
  rewrite app_nil_r in Ew. subst w. rewrite write_request_eq in L5.
  rewrite S1, S2 in L1. rewrite S4 in L4.
  assert (Hps' : headers_are (rq_headers r) ps) by (intros n vs Hv; rewrite <- S3; auto). clear Hps S1 S2 S3 S4.
  assert (Huri : ~ In LF (rq_uri r) /\ ~ In SP (rq_uri r)).
  { destruct L1 as (v & _ & W). cbn [words] in W. destruct W as (_ & l' & -> & W1 & l'' & -> & _).
    split; auto. intros H. apply (proj2 L2). apply in_or_app. right. right. apply in_or_app. now left. }
  assert (Hg : good_headers (rq_headers r)).
  { split; auto. rewrite Forall_forall in Hh, L3 |- *. intros [k vs] Hin. specialize (Hh _ Hin) as (H1 & H2 & H3 & H4).
    cbn [fst snd] in *. split; auto. split; auto. rewrite Forall_forall in H4 |- *. intros v Hv.
    destruct (values_named_fun (header_str k) ps) as (vs' & Hvs').
    pose proof (Hps' _ _ Hvs') as G. rewrite <- H1 in G.
    assert (Gk : hm_get k (rq_headers r) = Some vs).
    { clear - Hd Hin. induction (rq_headers r) as [|[k' ws] h IH]; [destruct Hin|]. cbn [hm_get map fst] in *.
      inversion Hd as [|? ? N1 N2]; subst. destruct Hin as [E|Hin].
      - inversion E; subst. now rewrite header_eqb_refl.
      - destruct (header_eqb k' k) eqn:E; auto. apply header_eqb_eq in E. subst k'.
        exfalso. apply N1. apply (in_map fst) in Hin. exact Hin. }
    rewrite Gk in G. assert (vs = vs') by (destruct vs'; cbn in G; congruence). subst vs'.
    destruct (in_values_named _ _ _ _ Hvs' Hv) as (n & Hn & Sn).
    specialize (L3 _ Hn) as [[_ N1] N2]. cbn [fst snd] in *. split; cbn [fst snd].
    - split.
      + apply utf8_app_true; auto. apply utf8_app_true; auto.
      + intros Hl. apply in_app_or in Hl as [Hl|Hl].
        * apply N1. apply in_or_app. left. eapply same_name_in; eauto. reflexivity.
        * apply N1. apply in_or_app. now right.
    - intros Hc. apply N2. eapply same_name_colon; eauto. }
  assert (Hw : rq_body r = wire).
  { destruct Huri. destruct (request_first_ok r) as [_ Tf]; [split; assumption|assumption|].
    exact (parts_unique _ _ _ _ _ _ Tf L2 (good_lines _ Hg) L3 L5). }
  assert (framed false (rq_headers r) (rq_body r) /\ len (rq_body r) <= 3145728) as [HF HL].
  { unfold framed. inversion L4 as [v vs n w1 V1 V2 V3 V4 V5|v vs w1 body1 V1 V2 V3 V4 V5|vs w1 body1 V1 V2 V3 V4 V5]; subst w1.
    - rewrite (get_first_named _ _ _ _ Hps' V1). assert (len (rq_body r) = n) as -> by congruence. auto.
    - exfalso. apply chunked_longer in V4. rewrite Hw in V4. lia.
    - rewrite (get_first_named _ _ _ _ Hps' V1). destruct V4 as [-> V4]. rewrite Hw. cbn [hd_error]. split; [|cbn; lia].
      split; auto. rewrite (get_first_named _ _ _ _ Hps' V2). intros v Hv. destruct vs as [|v' vs]; [discriminate|].
      cbn [hd_error] in Hv. inversion Hv; subst. eauto. }
  split; auto. destruct Huri. repeat split; auto; apply Hg.
Qed.

(** ** Chunked encoding *)

Lemma digit_hex up n : n < 16 -> is_digit 16 (hex_digit up n) n.
Proof. intros H. unfold is_digit, hex_digit. destruct (N.ltb_spec n 10), up; rewrite bval_of by lia; lia. Qed.

Lemma hex_aux_spec up f : forall n acc ads, n < 2 ^ N.of_nat f ->
  Forall2 (is_digit 16) acc ads ->
  exists ds, Forall2 (is_digit 16) (hex_aux up (S f) n acc) ds /\
    positional 16 ds = n * 16 ^ len ads + positional 16 ads /\ hex_aux up (S f) n acc <> [].
Proof.
  induction f as [|f IH]; intros n acc ads Hf Ha;
    assert (Hd : is_digit 16 (hex_digit up (n mod 16)) (n mod 16)) by (apply digit_hex; lia).
  - cbn in Hf. assert (n = 0) as -> by lia. cbn [hex_aux].
    exists (0 :: ads). split; [now constructor|]. split; [|discriminate]. cbn [positional]. lia.
  - remember (S f) as f'. cbn [hex_aux]. destruct (N.ltb_spec n 16).
    + exists (n mod 16 :: ads). split; [now constructor|]. split; [|discriminate].
      cbn [positional]. rewrite N.mod_small by lia. lia.
    + subst f'. destruct (IH (n / 16) (hex_digit up (n mod 16) :: acc) (n mod 16 :: ads)) as (ds & H1 & H2 & H3).
      * rewrite Nat2N.inj_succ, N.pow_succ_r' in Hf. lia.
      * now constructor.
      * exists ds. split; auto. split; auto. rewrite H2. cbn [positional].
        rewrite len_cons, N.pow_add_r, N.pow_1_r.
        pose proof (N.div_mod n 16). nia.
Qed.

Lemma hex_denotes up n : denotes 16 (hex up n) n.
Proof.
  destruct (hex_aux_spec up (N.size_nat n) n [] [] (size_nat_gt n)) as (ds & H1 & H2 & H3); [constructor|].
  exists (hex up n), ds. repeat split; auto. rewrite H2. cbn. lia.
Qed.

Lemma hex_aux_len up f : forall k n acc, n < 16 ^ N.succ k -> len (hex_aux up f n acc) <= N.succ k + len acc.
Proof.
  induction f as [|f IH]; intros k n acc Hn; cbn [hex_aux]; [lia|].
  destruct (N.ltb_spec n 16); [rewrite len_cons; lia|].
  destruct (N.eq_dec k 0) as [->|Hk]; [cbn in Hn; lia|].
  specialize (IH (N.pred k) (n / 16) (hex_digit up (n mod 16) :: acc)).
  rewrite N.succ_pred in IH by assumption. rewrite len_cons in IH.
  rewrite N.pow_succ_r' in Hn. assert (n / 16 < 16 ^ k) by (apply N.div_lt_upper_bound; lia). lia.
Qed.

Lemma hex_len up n : n <= 3145728 -> len (hex up n) <= 510.
Proof. intros H. pose proof (hex_aux_len up (S (N.size_nat n)) 5 n []) as L. change (16 ^ N.succ 5) with 16777216 in L.
  rewrite len_nil in L. unfold hex. lia. Qed.

Lemma encode_chunks_cons c cs : encode_chunks (c :: cs) =
  hex (fst c) (len (snd c)) ++ crlf ++ snd c ++ crlf ++ encode_chunks cs.
Proof. unfold encode_chunks, encode_chunk. cbn [map List.concat]. rewrite <- !app_assoc. reflexivity. Qed.

Lemma zero_denotes : denotes 16 (lit "0") 0.
Proof. exists (lit "0"), [0]. repeat split; auto; [discriminate|]. repeat constructor; vm_compute; intuition congruence. Qed.

Lemma encode_chunks_fit cs : Forall (fun c => snd c <> []) cs -> len (encode_chunks cs) <= 3145728 ->
  chunked (encode_chunks cs) (List.concat (map snd cs)) /\ chunk_lines_fit (encode_chunks cs).
Proof.
  induction 1 as [|[up d] cs Hd _ IH]; intros Hl.
  - split; [apply chunked_last|apply clf_last]; try apply zero_denotes. cbn; lia.
  - rewrite encode_chunks_cons in *. cbn [fst snd map List.concat] in *.
    rewrite !len_app in Hl. destruct IH as [I1 I2]; [lia|]. apply len_pos in Hd.
    pose proof (hex_denotes up (len d)). split.
    + eapply chunked_more; eauto. lia.
    + eapply clf_more; eauto. apply hex_len. lia.
Qed.
