(** The reference parser accepts exactly the grammar. *)
From Coq Require Import List Ascii String NArith ZArith Bool Lia.
From Coq Require Import ZifyBool ZifyNat ZifyN.
From Verif.Model Require Import Bytes Common Parse.
From Verif.Spec Require Import Batch Numerals Names Grammar.
From Verif.Proofs Require Import BytesFacts ParseFacts CommonFacts.
Import ListNotations.
Local Open Scope N_scope.

Ltac parts := repeat match goal with |- _ /\ _ => split end.

(** ** Lines *)

Lemma cut_line_text l r : text l -> cut_line (l ++ crlf ++ r) = Some (inr l, r).
Proof. intros [H1 H2]. change (crlf ++ r) with (CR :: LF :: r). now apply cut_line_crlf. Qed.

Lemma cut_line_inv b l r : cut_line b = Some (inr l, r) -> b = l ++ crlf ++ r /\ text l.
Proof. intros H. apply cut_line_inr in H as (-> & H1 & H2). split; [reflexivity|split; assumption]. Qed.

(** ** First lines *)

Lemma is_supported_iff v : is_supported v = true <-> supported_version v.
Proof.
  unfold is_supported, supported_version. rewrite orb_true_iff, !beqb_eq.
  split; intros [H|H]; auto.
Qed.

Lemma method_str_name m : method_str m = method_name m.
Proof. now destruct m. Qed.

Lemma method_from_iff s m : method_from_str s = Some m <-> s = method_name m.
Proof.
  split.
  - unfold method_from_str.
    repeat match goal with |- context [if beqb ?a ?b then _ else _] => destruct (beqb a b) eqn:? end;
      intros H; inversion H; subst;
      match goal with H : beqb _ _ = true |- _ => apply beqb_eq in H; subst; reflexivity end.
  - intros ->. destruct m; reflexivity.
Qed.

Lemma words3_split a b c l : words [a; b; c] l <-> exists ws, split_sp l = a :: b :: c :: ws.
Proof.
  cbn [words]. split.
  - intros (Ha & l1 & -> & Hb & l2 & -> & Hc & Hl).
    rewrite split_sp_app by assumption. rewrite split_sp_app by assumption.
    destruct Hl as [->|(t & ->)].
    + rewrite split_sp_nosp by assumption. eauto.
    + rewrite split_sp_app by assumption. eauto.
  - intros (ws & H). pose proof (split_sp_join l) as J. pose proof (split_sp_words l) as W.
    rewrite H in J, W. inversion W as [|? ? W1 W2]; subst. inversion W2 as [|? ? W3 W4]; subst.
    inversion W4 as [|? ? W5 W6]; subst. split; auto.
    exists (b ++ SP :: join_sp (c :: ws)). split; [reflexivity|]. split; auto.
    exists (join_sp (c :: ws)). split; auto. split; auto.
    destruct ws as [|w ws]; [left; reflexivity|right; eexists; reflexivity].
Qed.

Lemma words2_split a b l : words [a; b] l <-> exists ws, split_sp l = a :: b :: ws.
Proof.
  cbn [words]. split.
  - intros (Ha & l1 & -> & Hb & Hl).
    rewrite split_sp_app by assumption. destruct Hl as [->|(t & ->)].
    + rewrite split_sp_nosp by assumption. eauto.
    + rewrite split_sp_app by assumption. eauto.
  - intros (ws & H). pose proof (split_sp_join l) as J. pose proof (split_sp_words l) as W.
    rewrite H in J, W. inversion W as [|? ? W1 W2]; subst. inversion W2 as [|? ? W3 W4]; subst.
    split; auto. exists (join_sp (b :: ws)). split; [reflexivity|]. split; auto.
    destruct ws as [|w ws]; [left; reflexivity|right; eexists; reflexivity].
Qed.

Lemma parse_request_line_iff l m u : parse_request_line l = inr (m, u) <-> request_line m u l.
Proof.
  unfold request_line, parse_request_line. split.
  - destruct (split_sp l) as [|a [|b [|c ws]]] eqn:E; try discriminate.
    destruct (is_supported c) eqn:Es; [|discriminate]. cbn [negb].
    destruct (method_from_str a) as [m'|] eqn:Em; [|discriminate].
    intros H; inversion H; subst. exists c. split; [now apply is_supported_iff|].
    apply method_from_iff in Em. subst a. apply words3_split. eauto.
  - intros (v & Hv & Hw). apply words3_split in Hw as (ws & ->). apply is_supported_iff in Hv. rewrite Hv.
    cbn [negb]. now rewrite (proj2 (method_from_iff (method_name m) m) eq_refl).
Qed.

Lemma status_table_codes : map st_code status_table = known_codes.
Proof. reflexivity. Qed.
Lemma status_from_code_some c st : status_from_code c = Some st -> st_code st = c /\ In c known_codes.
Proof.
  unfold status_from_code. intros H. apply find_some in H as [H1 H2].
  apply N.eqb_eq in H2. split; auto. subst c. rewrite <- status_table_codes. now apply in_map.
Qed.
Lemma status_from_code_known c : In c known_codes -> exists st, status_from_code c = Some st /\ st_code st = c.
Proof.
  intros H. destruct (status_from_code c) as [st|] eqn:E.
  - exists st. split; auto. now apply status_from_code_some in E.
  - exfalso. rewrite <- status_table_codes in H. apply in_map_iff in H as (st & H1 & H2).
    unfold status_from_code in E. apply find_none with (x := st) in E; auto. lia.
Qed.
Lemma known_codes_u16 c : In c known_codes -> c <= U16_MAX.
Proof.
  unfold U16_MAX. cbn [known_codes In].
  intros H. repeat (destruct H as [<-|H]; [lia|]). destruct H.
Qed.

Lemma parse_status_line_iff l code : (exists st, parse_status_line l = inr st /\ st_code st = code) <-> status_line code l.
Proof.
  unfold status_line, parse_status_line, parse_status. split.
  - intros (st & H & Hc). destruct (split_sp l) as [|a [|b ws]] eqn:E; try discriminate.
    destruct (is_supported a) eqn:Es; [|discriminate]. cbn [negb] in H.
    destruct (parse_uint 10 U16_MAX b) as [c|] eqn:Ep; [|discriminate].
    destruct (status_from_code c) as [st'|] eqn:Ec; [|discriminate]. inversion H; subst.
    apply status_from_code_some in Ec as [Ec1 Ec2]. subst c.
    apply parse_uint_spec in Ep as [Ep _]; [|lia].
    exists a, b. split; [now apply is_supported_iff|]. split; [apply words2_split; eauto|]. auto.
  - intros (v & c & Hv & Hw & Hd & Hk). apply words2_split in Hw as (ws & ->).
    apply is_supported_iff in Hv. rewrite Hv. cbn [negb].
    assert (parse_uint 10 U16_MAX c = Some code) as ->.
    { apply parse_uint_spec; [lia|]. split; auto. now apply known_codes_u16. }
    destruct (status_from_code_known code Hk) as (st & -> & H). eauto.
Qed.

(** ** Headers *)

Definition header_pair (p : bytes * bytes) : header * bytes := (header_from (fst p), snd p).

Lemma no_colon_iff n : no_colon_sp n <-> ~ exists a r, n = a ++ lit ": " ++ r.
Proof.
  unfold no_colon_sp. rewrite <- not_true_iff_false. rewrite contains_iff. reflexivity.
Qed.

Lemma parse_header_iff l k v : parse_header l = inr (k, v) <->
  exists n, k = header_from n /\ l = n ++ lit ": " ++ v /\ ~ exists a r, n = a ++ lit ": " ++ r.
Proof.
  unfold parse_header. split.
  - destruct (split_colon l) as [[n v']|] eqn:E; [|discriminate]. intros H; inversion H; subst.
    apply split_colon_spec in E as [-> E]. exists n. split; auto. split; auto. now apply no_colon_iff.
  - intros (n & -> & -> & H). apply no_colon_iff in H.
    assert (split_colon (n ++ lit ": " ++ v) = Some (n, v)) as ->; auto. apply split_colon_spec. auto.
Qed.

Lemma batch_headers_complete ps : forall n m rest, Forall header_ok ps ->
  batch_headers n m (header_lines ps ++ crlf ++ rest) =
  Complete (fold_left (fun m p => add_header m (fst p) (snd p)) (map header_pair ps) m) rest.
Proof.
  induction ps as [|[nm v] ps IH]; intros n m rest H.
  - rewrite batch_headers_eq. change (header_lines [] ++ crlf ++ rest) with ([] ++ crlf ++ rest).
    rewrite cut_line_text; [reflexivity|]. split; [reflexivity|intros []].
  - inversion H as [|? ? [H1 H2] H3]; subst. rewrite batch_headers_eq.
    replace (header_lines ((nm, v) :: ps) ++ crlf ++ rest)
      with ((nm ++ lit ": " ++ v) ++ crlf ++ (header_lines ps ++ crlf ++ rest))
      by (unfold header_lines, header_line; cbn [map List.concat fst snd]; now rewrite <- !app_assoc).
    rewrite cut_line_text by exact H1.
    destruct (nm ++ lit ": " ++ v) as [|c l] eqn:El; [destruct nm; discriminate|].
    rewrite <- El at 1.
    rewrite (proj2 (parse_header_iff _ (header_from nm) v)) by (exists nm; auto).
    rewrite IH by assumption. reflexivity.
Qed.

Lemma batch_headers_sound b : forall n m hm rest, batch_headers n m b = Complete hm rest ->
  exists ps, Forall header_ok ps /\ b = header_lines ps ++ crlf ++ rest /\
    hm = fold_left (fun m p => add_header m (fst p) (snd p)) (map header_pair ps) m.
Proof.
  induction b as [b IH] using (well_founded_induction (Wf_nat.well_founded_ltof _ (@List.length byte))).
  intros n m hm rest. rewrite batch_headers_eq.
  destruct (cut_line b) as [[[e|l] r]|] eqn:E; try discriminate.
  assert (L := cut_line_length _ _ _ E). apply cut_line_inv in E as [-> Ht].
  destruct l as [|c l].
  - intros H; inversion H; subst. exists []. repeat split; auto.
  - destruct (parse_header (c :: l)) as [e|[k v]] eqn:Eh; [discriminate|].
    intros H. apply IH in H as (ps & H1 & -> & ->); [|exact L].
    apply parse_header_iff in Eh as (nm & -> & El & Hn).
    exists ((nm, v) :: ps). split; [constructor; auto; split; cbn [fst snd]; [rewrite <- El|]; auto|].
    split; [|reflexivity]. rewrite El. unfold header_lines, header_line. cbn [map List.concat fst snd].
    now rewrite <- !app_assoc.
Qed.

Lemma values_named_fun name ps : exists vs, values_named name ps vs.
Proof.
  induction ps as [|[n v] ps [vs IH]]; [eexists; constructor|].
  destruct (list_eq_dec ascii_dec (lower n) (lower name)) as [E|E].
  - exists (v :: vs). constructor; auto. now apply lower_same.
  - exists vs. apply vn_other; auto. rewrite <- lower_same. exact E.
Qed.

Lemma values_named_values name ps vs : values_named name ps vs ->
  vs = values_of header_eqb (header_from name) (map header_pair ps).
Proof.
  induction 1 as [|n v ps vs Hs H ->|n v ps vs Hs H ->]; [reflexivity| |]; unfold values_of, header_pair; cbn [map filter fst snd].
  - replace (header_eqb (header_from n) (header_from name)) with true; [reflexivity|].
    symmetry. apply header_eqb_eq, header_from_iff, lower_same. exact Hs.
  - replace (header_eqb (header_from n) (header_from name)) with false; [reflexivity|].
    symmetry. apply header_eqb_neq. rewrite header_from_iff, lower_same. exact Hs.
Qed.
Lemma values_named_det name ps vs vs' : values_named name ps vs -> values_named name ps vs' -> vs = vs'.
Proof. intros H1 H2. apply values_named_values in H1, H2. congruence. Qed.

Lemma headers_are_pairs ps : headers_are (from_pairs (map header_pair ps)) ps.
Proof. intros name vs H. apply values_named_values in H. subst. apply hm_get_pairs. Qed.

Lemma CONTENT_LENGTH_from : CONTENT_LENGTH = header_from (lit "content-length").
Proof. reflexivity. Qed.
Lemma TRANSFER_ENCODING_from : TRANSFER_ENCODING = header_from (lit "transfer-encoding").
Proof. reflexivity. Qed.

Lemma get_first_named h ps name vs : headers_are h ps -> values_named name ps vs ->
  get_first_header_value h (header_from name) = match vs with v :: _ => Some v | [] => None end.
Proof. intros H Hv. unfold get_first_header_value. rewrite (H _ _ Hv). now destruct vs. Qed.

(** ** Chunked bodies *)

Lemma denotes_text radix l n : denotes radix l n -> text l.
Proof.
  intros (digits & ds & Hl & _ & Hd & _).
  assert (F : Forall (fun c => 43 <= bval c < 128) l).
  { assert (Forall (fun c => 43 <= bval c < 128) digits).
    { clear - Hd. induction Hd as [|c d digits ds H _ IH]; constructor; auto. unfold is_digit in H. lia. }
    destruct Hl as [->| ->]; auto. constructor; auto. cbn. lia. }
  split.
  - apply utf8_ascii. eapply Forall_impl; [|exact F]. cbn. intros. lia.
  - intros H. rewrite Forall_forall in F. apply F in H. rewrite bval_LF in H. lia.
Qed.

Lemma parse_chunk_size_iff l n : parse_chunk_size l = inr n <-> denotes 16 l n /\ n <= 3145728.
Proof.
  unfold parse_chunk_size. change MAX_BODY_SIZE with 3145728. split.
  - destruct (parse_uint 16 USIZE_MAX l) as [k|] eqn:E; [|discriminate].
    destruct (N.ltb_spec 3145728 k); [discriminate|]. intros H'; inversion H'; subst.
    apply parse_uint_spec in E as [E _]; [|lia]. auto.
  - intros [H1 H2].
    assert (parse_uint 16 USIZE_MAX l = Some n) as ->
      by (apply parse_uint_spec; [lia|]; split; auto; unfold USIZE_MAX; lia).
    replace (3145728 <? n) with false by lia. reflexivity.
Qed.

Lemma crlf_text : text [].
Proof. split; [reflexivity|intros []]. Qed.

Lemma batch_tail_last f n body rest : batch_tail f n body true (crlf ++ rest) = Complete body rest.
Proof. unfold batch_tail. change (crlf ++ rest) with ([] ++ crlf ++ rest). now rewrite cut_line_text by apply crlf_text. Qed.
Lemma batch_tail_next f n body rest : batch_tail f n body false (crlf ++ rest) = f (n + 2) body rest.
Proof. unfold batch_tail. change (crlf ++ rest) with ([] ++ crlf ++ rest). now rewrite cut_line_text by apply crlf_text. Qed.

Lemma batch_chunks_complete w body : chunked w body -> forall n acc rest,
  batch_chunks n acc (w ++ rest) = Complete (acc ++ body) rest.
Proof.
  induction 1 as [l Hl|l n d w body Hl Hn Hd Hw IH]; intros k acc rest; rewrite batch_chunks_eq.
  - rewrite <- !app_assoc. rewrite cut_line_text by now apply denotes_text in Hl.
    rewrite (proj2 (parse_chunk_size_iff l 0)) by (split; [auto|lia]).
    unfold batch_data. cbn [app]. replace (_ <? 0) with false by lia.
    cbn [N.to_nat firstn skipn]. rewrite N.eqb_refl, batch_tail_last. reflexivity.
  - rewrite <- !app_assoc. rewrite cut_line_text by now apply denotes_text in Hl.
    rewrite (proj2 (parse_chunk_size_iff l n)) by (split; [auto|lia]).
    unfold batch_data. cbn [app]. subst n. rewrite len_app. replace (_ <? len d) with false by lia.
    rewrite firstn_len_app, skipn_len_app. replace (len d =? 0) with false by lia. rewrite batch_tail_next, IH. now rewrite <- app_assoc.
Qed.

Lemma batch_tail_sound f n body last b v rest :
  batch_tail f n body last b = Complete v rest ->
  exists r, b = crlf ++ r /\ (if last then v = body /\ r = rest else f (n + 2) body r = Complete v rest).
Proof.
  unfold batch_tail. destruct (cut_line b) as [[[e|l] r]|] eqn:E; try discriminate.
  destruct l; [|discriminate]. apply cut_line_inv in E as [-> _].
  destruct last; intros H; exists r; split; auto. inversion H; auto.
Qed.

Lemma batch_chunks_sound b : forall n acc v rest, batch_chunks n acc b = Complete v rest ->
  exists w body, b = w ++ rest /\ v = acc ++ body /\ chunked w body.
Proof.
  induction b as [b IH] using (well_founded_induction (Wf_nat.well_founded_ltof _ (@List.length byte))).
  intros n acc v rest. rewrite batch_chunks_eq.
  destruct (cut_line b) as [[[e|l] r]|] eqn:E; try discriminate.
  assert (L := cut_line_length _ _ _ E). apply cut_line_inv in E as [-> Ht].
  destruct (parse_chunk_size l) as [e|size] eqn:Ep; [discriminate|].
  apply parse_chunk_size_iff in Ep as [Ep Hs].
  unfold batch_data. cbn [app]. destruct (N.ltb_spec (len r) size); [discriminate|].
  intros H'. apply batch_tail_sound in H' as (r2 & H1 & H2).
  pose proof (firstn_skipn (N.to_nat size) r) as Hr. rewrite H1 in Hr.
  set (d := firstn (N.to_nat size) r) in *.
  assert (Hd : len d = size) by (unfold d; rewrite len_firstn; lia). clearbody d.
  destruct (size =? 0) eqn:E0.
  - destruct H2 as [-> ->]. assert (size = 0) by lia. subst size. assert (d = []) as Hd0 by (apply len_0; lia).
    rewrite Hd0 in *. exists (l ++ crlf ++ crlf), []. rewrite app_nil_r. rewrite <- Hr. cbn [app].
    split; [now rewrite <- !app_assoc|]. split; [reflexivity|]. now constructor.
  - apply IH in H2 as (w & body & -> & -> & Hw).
    + exists (l ++ crlf ++ d ++ crlf ++ w), (d ++ body). rewrite <- Hr, <- !app_assoc.
      split; [reflexivity|]. split; [reflexivity|]. apply (chunked_more l size); auto. lia.
    + unfold Wf_nat.ltof. rewrite <- Hr. rewrite !app_length. cbn. lia.
Qed.

(** ** Bodies *)

(** The framing decided from the header list. *)
Lemma framing_sound h ps to_eof fr : headers_are h ps -> framing_of h to_eof = inr fr ->
  match fr with
  | FSized n => exists v vs, values_named (lit "content-length") ps (v :: vs) /\ denotes 10 v n /\ n <= 3145728
  | FChunked => values_named (lit "content-length") ps [] /\
      exists v vs, values_named (lit "transfer-encoding") ps (v :: vs) /\ exists a r, v = a ++ lit "chunked" ++ r
  | FUntilEof | FNone =>
      fr = (if to_eof then FUntilEof else FNone) /\
      values_named (lit "content-length") ps [] /\
      exists vs, values_named (lit "transfer-encoding") ps vs /\
        forall v vs', vs = v :: vs' -> ~ exists a r, v = a ++ lit "chunked" ++ r
  end.
Proof.
  intros Hh. unfold framing_of. rewrite CONTENT_LENGTH_from, TRANSFER_ENCODING_from.
  destruct (values_named_fun (lit "content-length") ps) as [cl Hcl].
  destruct (values_named_fun (lit "transfer-encoding") ps) as [te Hte].
  rewrite (get_first_named _ _ _ _ Hh Hcl), (get_first_named _ _ _ _ Hh Hte).
  destruct cl as [|v vs].
  - destruct te as [|v vs].
    + destruct to_eof; intros H; inversion H; subst; repeat split; auto; exists []; split; auto; discriminate.
    + destruct (contains (lit "chunked") v) eqn:Ec.
      * intros H; inversion H; subst. split; auto. exists v, vs. split; auto. now apply contains_iff.
      * assert (G : forall v0 vs', v :: vs = v0 :: vs' -> ~ exists a r, v0 = a ++ lit "chunked" ++ r).
        { intros v0 vs' H. inversion H; subst. rewrite <- contains_iff. congruence. }
        destruct to_eof; intros H; inversion H; subst; repeat split; auto; exists (v :: vs); split; auto.
  - destruct (parse_uint 10 USIZE_MAX v) as [n|] eqn:Ep; [|discriminate].
    change MAX_BODY_SIZE with 3145728. destruct (N.leb_spec n 3145728); [|discriminate].
    intros H'; inversion H'; subst. exists v, vs. apply parse_uint_spec in Ep as [Ep _]; [|lia]. auto.
Qed.

Lemma framing_complete_sized h ps to_eof v vs n : headers_are h ps ->
  values_named (lit "content-length") ps (v :: vs) -> denotes 10 v n -> n <= 3145728 ->
  framing_of h to_eof = inr (FSized n).
Proof.
  intros Hh Hv Hd Hn. unfold framing_of. rewrite CONTENT_LENGTH_from, (get_first_named _ _ _ _ Hh Hv).
  assert (parse_uint 10 USIZE_MAX v = Some n) as ->
    by (apply parse_uint_spec; [lia|]; split; auto; unfold USIZE_MAX; lia).
  change MAX_BODY_SIZE with 3145728. replace (n <=? 3145728) with true by lia. reflexivity.
Qed.
Lemma framing_complete_chunked h ps to_eof v vs : headers_are h ps ->
  values_named (lit "content-length") ps [] ->
  values_named (lit "transfer-encoding") ps (v :: vs) ->
  (exists a r, v = a ++ lit "chunked" ++ r) ->
  framing_of h to_eof = inr FChunked.
Proof.
  intros Hh Hv Ht Hc. unfold framing_of. rewrite CONTENT_LENGTH_from, TRANSFER_ENCODING_from.
  rewrite (get_first_named _ _ _ _ Hh Hv), (get_first_named _ _ _ _ Hh Ht).
  apply contains_iff in Hc. now rewrite Hc.
Qed.
Lemma framing_complete_default h ps to_eof vs : headers_are h ps ->
  values_named (lit "content-length") ps [] ->
  values_named (lit "transfer-encoding") ps vs ->
  (forall v vs', vs = v :: vs' -> ~ exists a r, v = a ++ lit "chunked" ++ r) ->
  framing_of h to_eof = inr (if to_eof then FUntilEof else FNone).
Proof.
  intros Hh Hv Ht Hc. unfold framing_of. rewrite CONTENT_LENGTH_from, TRANSFER_ENCODING_from.
  rewrite (get_first_named _ _ _ _ Hh Hv), (get_first_named _ _ _ _ Hh Ht).
  destruct vs as [|v vs]; auto. specialize (Hc _ _ eq_refl). rewrite <- contains_iff in Hc.
  destruct (contains (lit "chunked") v); [congruence|reflexivity].
Qed.

(** ** Whole messages *)

Lemma batch_msg_head {T} (pf : bytes -> perr + T) to_eof l t ps rest :
  text l -> pf l = inr t -> Forall header_ok ps ->
  batch_msg pf to_eof (l ++ crlf ++ header_lines ps ++ crlf ++ rest) =
  batch_after_headers to_eof t (from_pairs (map header_pair ps)) rest.
Proof.
  intros Hl Hp Hps. unfold batch_msg, batch_first. rewrite cut_line_text by assumption. rewrite Hp.
  cbn [obind]. rewrite batch_headers_complete by assumption. reflexivity.
Qed.

Lemma batch_msg_sound {T} (pf : bytes -> perr + T) to_eof b t h body rest :
  batch_msg pf to_eof b = Complete (t, h, body) rest ->
  exists l ps wire, text l /\ pf l = inr t /\ Forall header_ok ps /\ headers_are h ps /\
    b = (l ++ crlf ++ header_lines ps ++ crlf ++ wire) ++ rest /\
    body_syntax ps (fun w body => to_eof = false /\ w = [] /\ body = []) wire body.
Proof.
  unfold batch_msg, batch_first.
  destruct (cut_line b) as [[[e|l] r1]|] eqn:E; try discriminate.
  apply cut_line_inv in E as [-> Ht]. destruct (pf l) as [e|t'] eqn:Ep; [discriminate|]. cbn [obind].
  destruct (batch_headers 0 [] r1) as [hm r2|p|v0 n0|e] eqn:Eh; try discriminate. cbn [obind].
  apply batch_headers_sound in Eh as (ps & Hps & -> & ->).
  unfold batch_after_headers.
  change (fold_left _ _ _) with (from_pairs (map header_pair ps)).
  pose proof (headers_are_pairs ps) as Hh.
  destruct (framing_of (from_pairs (map header_pair ps)) to_eof) as [e|fr] eqn:Ef; [discriminate|].
  apply (framing_sound _ _ _ _ Hh) in Ef.
  destruct (batch_body fr r2) as [bd r3|p|v0 n0|e] eqn:Eb; try discriminate. cbn [omap].
  intros H; inversion H; subst; clear H. exists l, ps.
  destruct fr as [n| | |]; cbn [batch_body] in Eb.
  - destruct Ef as (v & vs & H1 & H2 & H3). destruct (N.ltb_spec (len r2) n); [discriminate|].
    inversion Eb; subst. exists (firstn (N.to_nat n) r2). parts; auto.
    + rewrite <- !app_assoc. now rewrite firstn_skipn.
    + econstructor 1; eauto. rewrite len_firstn. lia.
  - destruct Ef as (H1 & v & vs & H2 & H3). apply batch_chunks_sound in Eb as (w & body' & -> & -> & Hw).
    exists w. parts; auto.
    + now rewrite <- !app_assoc.
    + econstructor 2; eauto.
  - discriminate.
  - inversion Eb; subst. destruct Ef as (H0 & H1 & vs & H2 & H3). exists []. parts; auto.
    + now rewrite <- !app_assoc.
    + econstructor 3; eauto. parts; auto. destruct to_eof; [discriminate|reflexivity].
Qed.

Lemma batch_after_headers_complete {T} to_eof (t : T) h ps wire body rest :
  headers_are h ps ->
  body_syntax ps (fun w body => to_eof = false /\ w = [] /\ body = []) wire body ->
  batch_after_headers to_eof t h (wire ++ rest) = Complete (t, h, body) rest.
Proof.
  intros Hh Hb. unfold batch_after_headers.
  destruct Hb as [v vs n w H1 H2 H3 H4|v vs w bd H1 H2 H3 H4|vs w bd H1 H2 H3 (-> & -> & ->)].
  - rewrite (framing_complete_sized _ _ _ _ _ _ Hh H1 H2 H3). cbn [batch_body].
    rewrite len_app, H4. replace (_ <? n) with false by lia.
    rewrite <- H4, firstn_len_app, skipn_len_app. reflexivity.
  - rewrite (framing_complete_chunked _ _ _ _ _ Hh H1 H2 H3). cbn [batch_body].
    now rewrite (batch_chunks_complete _ _ H4).
  - rewrite (framing_complete_default _ _ _ _ Hh H1 H2 H3). reflexivity.
Qed.

Lemma request_sound b r rest : batch_request b = Complete r rest ->
  exists w ps, b = w ++ rest /\ request_syntax w (rq_method r) (rq_uri r) ps (rq_body r) /\
    headers_are (rq_headers r) ps.
Proof.
  unfold batch_request. destruct (batch_msg parse_request_line false b) as [[[[m u] h] body] rest'|p|v n|e] eqn:E;
    try discriminate. cbn [omap]. intros H; inversion H; subst; cbn [rq_method rq_uri rq_body rq_headers].
  apply batch_msg_sound in E as (l & ps & wire & H1 & H2 & H3 & H4 & -> & H5).
  eexists _, ps. split; [reflexivity|]. split; [|assumption]. exists l, wire. parts; auto.
  - now apply parse_request_line_iff.
  - destruct H5 as [v vs n w|v vs w bd|vs w bd ? ? ? (_ & -> & ->)].
    + econstructor 1; eauto.
    + econstructor 2; eauto.
    + econstructor 3; eauto.
Qed.

Lemma request_complete w m u ps body rest : request_syntax w m u ps body ->
  exists r, batch_request (w ++ rest) = Complete r rest /\ rq_method r = m /\ rq_uri r = u /\
    rq_body r = body /\ rq_headers r = from_pairs (map header_pair ps) /\ headers_are (rq_headers r) ps.
Proof.
  intros (l & wire & H1 & H2 & H3 & H4 & ->).
  exists (mk_request m u (from_pairs (map header_pair ps)) body).
  split; [|parts; cbn [rq_headers rs_headers]; auto using headers_are_pairs].
  unfold batch_request. rewrite <- !app_assoc.
  rewrite (batch_msg_head _ _ _ (m, u)); auto; [|now apply parse_request_line_iff].
  rewrite (batch_after_headers_complete _ _ _ ps wire body); auto using headers_are_pairs.
  destruct H4 as [v vs n w|v vs w bd|vs w bd ? ? ? (-> & ->)].
  - econstructor 1; eauto.
  - econstructor 2; eauto.
  - econstructor 3; eauto.
Qed.

Lemma response_sound b r rest : batch_response b = Complete r rest ->
  exists w ps, b = w ++ rest /\ response_syntax w (st_code (rs_status r)) ps (rs_body r) /\
    headers_are (rs_headers r) ps.
Proof.
  unfold batch_response. destruct (batch_msg parse_status_line true b) as [[[t h] body] rest'|p|v n|e] eqn:E;
    try discriminate. cbn [omap]. intros H; inversion H; subst; cbn [rs_status rs_headers rs_body].
  apply batch_msg_sound in E as (l & ps & wire & H1 & H2 & H3 & H4 & -> & H5).
  eexists _, ps. split; [reflexivity|]. split; [|assumption]. exists l, wire. parts; auto.
  - apply parse_status_line_iff. eauto.
  - destruct H5 as [v vs n w|v vs w bd|vs w bd ? ? ? (? & _)]; [| |discriminate].
    + econstructor 1; eauto.
    + econstructor 2; eauto.
Qed.

Lemma response_complete w code ps body rest : response_syntax w code ps body ->
  exists r, batch_response (w ++ rest) = Complete r rest /\ st_code (rs_status r) = code /\
    rs_body r = body /\ headers_are (rs_headers r) ps.
Proof.
  intros (l & wire & H1 & H2 & H3 & H4 & ->). apply parse_status_line_iff in H1 as (st & Hst & Hc).
  exists (mk_response st (from_pairs (map header_pair ps)) body).
  split; [|parts; cbn [rq_headers rs_headers]; auto using headers_are_pairs].
  unfold batch_response. rewrite <- !app_assoc.
  rewrite (batch_msg_head _ _ _ st); auto.
  rewrite (batch_after_headers_complete _ _ _ ps wire body); auto using headers_are_pairs.
  destruct H4 as [v vs n w|v vs w bd|vs w bd ? ? ? []].
  - econstructor 1; eauto.
  - econstructor 2; eauto.
Qed.

Lemma response_complete_eof w code ps body : response_syntax_eof w code ps body ->
  exists r, batch_response w = AtEof r (len body) /\ st_code (rs_status r) = code /\
    rs_body r = body /\ headers_are (rs_headers r) ps.
Proof.
  intros (l & H1 & H2 & H3 & H4 & (vs & H5 & H6) & ->). apply parse_status_line_iff in H1 as (st & Hst & Hc).
  exists (mk_response st (from_pairs (map header_pair ps)) body).
  split; [|parts; cbn [rq_headers rs_headers]; auto using headers_are_pairs].
  unfold batch_response. rewrite (batch_msg_head _ _ _ st); auto.
  unfold batch_after_headers.
  rewrite (framing_complete_default _ _ _ _ (headers_are_pairs ps) H4 H5 H6). reflexivity.
Qed.

Lemma response_sound_eof b r n : batch_response b = AtEof r n ->
  exists ps, response_syntax_eof b (st_code (rs_status r)) ps (rs_body r) /\ n = len (rs_body r) /\
    headers_are (rs_headers r) ps.
Proof.
  unfold batch_response, batch_msg, batch_first.
  destruct (cut_line b) as [[[e|l] r1]|] eqn:E; try discriminate.
  apply cut_line_inv in E as [-> Ht]. destruct (parse_status_line l) as [e|t'] eqn:Ep; [discriminate|]. cbn [obind].
  destruct (batch_headers 0 [] r1) as [hm r2|p|v0 n0|e] eqn:Eh; try discriminate. cbn [obind].
  apply batch_headers_sound in Eh as (ps & Hps & -> & ->).
  unfold batch_after_headers.
  change (fold_left _ _ _) with (from_pairs (map header_pair ps)).
  pose proof (headers_are_pairs ps) as Hh.
  destruct (framing_of (from_pairs (map header_pair ps)) true) as [e|fr] eqn:Ef; [discriminate|].
  apply (framing_sound _ _ _ _ Hh) in Ef.
  destruct fr as [k| | |]; cbn [batch_body].
  - destruct (_ <? _); discriminate.
  - destruct (batch_chunks 0 [] r2) eqn:Ec; try discriminate. exfalso. revert Ec. apply batch_chunks_not_eof.
  - cbn [omap]. intros H; inversion H; subst. cbn [rs_status rs_body rs_headers]. exists ps.
    destruct Ef as (_ & H1 & vs & H2 & H3). split; [|auto]. exists l. parts; auto.
    + apply parse_status_line_iff. eauto.
    + eauto.
  - discriminate.
Qed.

(** The uri of a request is text. *)
Lemma request_line_text m u l : request_line m u l -> text l -> utf8 u = true.
Proof.
  intros (v & _ & _ & l1 & -> & Hu & l2 & -> & _) [T _].
  assert (A : utf8 (method_name m ++ [SP]) = true) by (destruct m; reflexivity).
  replace (method_name m ++ SP :: u ++ SP :: l2) with ((method_name m ++ [SP]) ++ u ++ SP :: l2) in T by now rewrite <- app_assoc.
  rewrite utf8_app in T by exact A. eapply utf8_split; [|exact T]. reflexivity.
Qed.
Lemma parsed_uri_text w r rest : batch_request w = Complete r rest -> utf8 (rq_uri r) = true.
Proof.
  intros E. apply request_sound in E as (w' & ps & _ & (l & wire & H1 & H2 & _) & _).
  eapply request_line_text; eauto.
Qed.
