(** C17, C18, C19, C22, C23: names, header maps, tables, first lines, numbers. *)
From Coq Require Import List Ascii String NArith ZArith Bool Lia.
From Coq Require Import ZifyBool ZifyNat ZifyN.
From Verif.Model Require Import Bytes Common Parse.
From Verif.Spec Require Import Numerals Names Grammar.
From Verif.Proofs Require Import BytesFacts CommonFacts GrammarFacts.
Import ListNotations.
Local Open Scope N_scope.

(** ** C17 *)

Theorem C17_equal_iff_same_ignoring_case : forall a b,
  header_from a = header_from b <-> same_name a b.
Proof. intros a b. rewrite header_from_iff. apply lower_same. Qed.

(** The name of a converted header is the given name up to case, and converting it again changes
    nothing. *)
Theorem C17_idempotent : forall a,
  same_name (header_str (header_from a)) a /\ header_from (header_str (header_from a)) = header_from a.
Proof.
  intros a. rewrite header_str_from. split; [apply lower_same, lower_idem|apply header_from_iff, lower_idem].
Qed.

(** Conversion never makes a Custom header out of a standard name (in any case), nor the reverse. *)
Theorem C17_standard_names : forall a,
  (exists n, header_from a = Standard n) <-> exists n, In n standard_names /\ same_name a (lit n).
Proof.
  intros a.
  assert (L : forall n, In n standard_names -> lower (lit n) = lit n).
  { intros n H. unfold standard_names in H. cbn [In] in H.
    repeat (destruct H as [<-|H]; [reflexivity|]). destruct H. }
  split.
  - intros (n & H). unfold header_from in H. destruct (existsb _ _) eqn:E; [|discriminate].
    apply existsb_exists in E as (x & Hx & E). apply beqb_eq in E. unfold standard_table in Hx.
    apply in_map_iff in Hx as (y & <- & Hy). exists y. split; auto. apply lower_same. rewrite L; auto.
  - intros (n & Hn & Hs). apply lower_same in Hs. rewrite L in Hs by assumption.
    exists (lower a). unfold header_from. assert (existsb (beqb (lower a)) standard_table = true) as ->; auto.
    apply existsb_exists. exists (lit n). split; [now apply in_map|]. rewrite Hs. apply beqb_refl.
Qed.

Example C17_case : header_from (lit "CONTENT-length") = CONTENT_LENGTH
  /\ header_from (lit "X-Foo") = Custom (lit "x-foo") /\ same_name (lit "X-Foo") (lit "x-FOO")
  /\ ~ same_name (lit "[") (lit "{").
Proof.
  split; [vm_compute; reflexivity|]. split; [vm_compute; reflexivity|].
  split; [apply C17_equal_iff_same_ignoring_case; vm_compute; reflexivity|].
  rewrite <- C17_equal_iff_same_ignoring_case. vm_compute. discriminate.
Qed.

(** ** C18 *)

(** After adding pairs in order to an empty map: the values under each name, in order. *)
Theorem C18_values_in_order : forall ps name vs,
  values_named name ps vs ->
  hm_get (header_from name) (from_pairs (map (fun p => (header_from (fst p), snd p)) ps)) =
  match vs with [] => None | _ => Some vs end.
Proof. intros ps name vs H. exact (headers_are_pairs ps name vs H). Qed.

Theorem C18_first_and_containment : forall ps name vs v,
  values_named name ps vs ->
  get_first_header_value (from_pairs (map (fun p => (header_from (fst p), snd p)) ps)) (header_from name)
    = hd_error vs /\
  (contains_header_value (from_pairs (map (fun p => (header_from (fst p), snd p)) ps)) (header_from name) v = true
    <-> In v vs).
Proof.
  intros ps name vs v H. pose proof (headers_are_pairs ps name vs H) as E.
  unfold header_pair in E. unfold get_first_header_value, contains_header_value. rewrite E.
  destruct vs as [|x vs]; cbn [nonempty hd_error In existsb].
  - split; auto. split; [discriminate|intros []].
  - split; auto. rewrite orb_true_iff, beqb_eq, existsb_exists. split.
    + intros [->|(y & Hy & E')]; auto. apply beqb_eq in E'. subst. auto.
    + intros [->|Hi]; auto. right. exists v. split; auto. apply beqb_refl.
Qed.

(** Adding one value to any map: appended under its name, other names unaffected. *)
Theorem C18_add_one : forall m k v k',
  hm_get k (add_header m k v) = Some (match hm_get k m with Some vs => vs | None => [] end ++ [v]) /\
  (k' <> k -> hm_get k' (add_header m k v) = hm_get k' m).
Proof.
  intros m k v k'. rewrite !hm_get_add, header_eqb_refl. split.
  - now destruct (hm_get k m).
  - intros H. apply header_eqb_neq in H.
    assert (header_eqb k k' = false) as ->; auto. apply header_eqb_neq. apply header_eqb_neq in H. congruence.
Qed.

Example C18_case : values_named (lit "set-cookie")
  [(lit "Set-Cookie", lit "a"); (lit "date", lit "x"); (lit "SET-COOKIE", lit "b")] [lit "a"; lit "b"].
Proof.
  constructor; [apply lower_same; vm_compute; reflexivity|].
  apply vn_other; [rewrite <- lower_same; vm_compute; discriminate|].
  constructor; [apply lower_same; vm_compute; reflexivity|]. constructor.
Qed.

(** ** C19 *)

Theorem C19_methods : forall s m, method_from_str s = Some m <-> s = method_name m.
Proof. exact method_from_iff. Qed.
Theorem C19_method_round_trip : forall m, method_from_str (method_str m) = Some m.
Proof. intros []; reflexivity. Qed.
Theorem C19_versions : forall v, is_supported v = true <-> v = lit "HTTP/1.1" \/ v = lit "HTTP/1.0".
Proof. exact is_supported_iff. Qed.
Theorem C19_status_codes : forall c,
  (In c known_codes -> exists st, status_from_code c = Some st /\ st_code st = c) /\
  (~ In c known_codes -> status_from_code c = None).
Proof.
  intros c. split; [apply status_from_code_known|].
  intros H. destruct (status_from_code c) as [st|] eqn:E; auto.
  apply status_from_code_some in E as [_ E]. contradiction.
Qed.
(** The codes in the table are distinct, so each table entry is what its code gives. *)
Theorem C19_status_table_exact : forall st, In st status_table <-> status_from_code (st_code st) = Some st.
Proof.
  intros st. split.
  - intros H. cbn [status_table map status_entries fst snd In] in H.
    repeat (destruct H as [<-|H]; [vm_compute; reflexivity|]). destruct H.
  - intros H. unfold status_from_code in H. now apply find_some in H.
Qed.

(** Every status the library knows has, ignoring case, the phrase registered for its code; the constants OK and NOT_FOUND
    are the table's. *)
Theorem C19_registered_reasons : forall c p, In (c, p) registered_phrases ->
  exists st, status_from_code c = Some st /\ same_name (st_reason st) (lit p).
Proof.
  intros c p H. cbn [registered_phrases In] in H.
  repeat (destruct H as [[= <- <-]|H]; [eexists; split; [vm_compute; reflexivity|]; apply lower_same; reflexivity|]).
  destruct H.
Qed.
Theorem C19_all_registered : forall c st, status_from_code c = Some st -> exists p, In (c, p) registered_phrases.
Proof.
  intros c st H. apply status_from_code_some in H as [_ H].
  assert (E : known_codes = map fst registered_phrases) by reflexivity. rewrite E in H.
  apply in_map_iff in H as ([c' p] & <- & H). now exists p.
Qed.
Theorem C19_constants : status_from_code 200 = Some STATUS_OK /\ status_from_code 404 = Some STATUS_NOT_FOUND.
Proof. split; reflexivity. Qed.

Example C19_case : method_from_str (lit "get") = None /\ is_supported (lit "HTTP/2") = false
  /\ status_from_code 404 = Some STATUS_NOT_FOUND /\ status_from_code 306 = None.
Proof. vm_compute. auto. Qed.

(** ** C22 *)

Lemma count_words l : (forall a b c, ~ words [a; b; c] l) <-> (count_occ ascii_dec l SP < 2)%nat.
Proof.
  pose proof (split_sp_join l) as J. pose proof (split_sp_words l) as W.
  assert (N : forall w, noSP w -> count_occ ascii_dec w SP = 0%nat) by (intros w H; now apply count_occ_not_In).
  destruct (split_sp l) as [|a [|b [|c ws]]] eqn:E.
  - exfalso. revert E. apply split_sp_ne.
  - inversion W; subst. cbn [join_sp] in *. rewrite N by assumption. split; [lia|].
    intros _ x y z H. apply words3_split in H as (ws & H). rewrite E in H. discriminate.
  - inversion W as [|? ? W1 W2]; inversion W2; subst. cbn [join_sp] in *.
    rewrite count_occ_app. cbn [count_occ]. destruct (ascii_dec SP SP); [|congruence].
    rewrite !N by assumption. split; [lia|].
    intros _ x y z H. apply words3_split in H as (ws & H). rewrite E in H. discriminate.
  - split.
    + intros H. exfalso. apply (H a b c). apply words3_split. eauto.
    + intros H. exfalso. subst l. cbn [join_sp] in H. rewrite count_occ_app in H. cbn [count_occ] in H.
      destruct (ascii_dec SP SP); [|congruence]. rewrite count_occ_app in H.
      cbn [count_occ] in H. destruct (ascii_dec SP SP); [|congruence]. lia.
Qed.

Theorem C22_request_line_errors : forall l,
  ((count_occ ascii_dec l SP < 2)%nat -> parse_request_line l = inl BadSyntax) /\
  ((count_occ ascii_dec l SP >= 2)%nat -> exists a b c, words [a; b; c] l) /\
  (forall a b c, words [a; b; c] l ->
     (~ supported_version c -> parse_request_line l = inl InvalidHttpVersion) /\
     (supported_version c -> (forall m, a <> method_name m) -> parse_request_line l = inl UnrecognizedMethod) /\
     (supported_version c -> forall m, a = method_name m -> parse_request_line l = inr (m, b))).
Proof.
  intros l. unfold parse_request_line. split; [|split].
  - intros H. pose proof (proj2 (count_words l) H) as H9. destruct (split_sp l) as [|a [|b [|c ws]]] eqn:E; auto.
    exfalso. apply (H9 a b c), words3_split. eauto.
  - intros H. destruct (split_sp l) as [|a [|b [|c ws]]] eqn:E.
    4:{ exists a, b, c. apply words3_split. eauto. }
    all: exfalso; assert (forall a b c, ~ words [a; b; c] l) as H0
      by (intros x y z H0; apply words3_split in H0 as (ws & H0); rewrite E in H0; discriminate);
      apply (proj1 (count_words l)) in H0; lia.
  - intros a b c H. apply words3_split in H as (ws & ->). repeat split.
    + intros H. rewrite <- is_supported_iff in H. now destruct (is_supported c).
    + intros H Hm. apply is_supported_iff in H. rewrite H. cbn [negb].
      destruct (method_from_str a) as [m|] eqn:E; auto. apply method_from_iff in E. exfalso. exact (Hm m E).
    + intros H m Hm. apply is_supported_iff in H. rewrite H. cbn [negb].
      apply method_from_iff in Hm. now rewrite Hm.
Qed.

Theorem C22_status_line_errors : forall l,
  (~ In SP l -> parse_status_line l = inl BadSyntax) /\
  (In SP l -> exists a b, words [a; b] l) /\
  (forall a b, words [a; b] l ->
     (~ supported_version a -> parse_status_line l = inl InvalidHttpVersion) /\
     (supported_version a -> (forall c, In c known_codes -> ~ denotes 10 b c) ->
        parse_status_line l = inl InvalidStatusCode) /\
     (supported_version a -> forall c, In c known_codes -> denotes 10 b c ->
        exists st, parse_status_line l = inr st /\ st_code st = c)).
Proof.
  intros l. split; [|split].
  - intros H. unfold parse_status_line. rewrite split_sp_nosp by exact H. reflexivity.
  - intros H. destruct (split_sp l) as [|a [|b ws]] eqn:E.
    + exfalso. revert E. apply split_sp_ne.
    + exfalso. pose proof (split_sp_join l) as J. pose proof (split_sp_words l) as W. rewrite E in J, W.
      inversion W; subst. contradiction.
    + exists a, b. apply words2_split. eauto.
  - intros a b H. pose proof H as Hw. apply words2_split in H as (ws & E). repeat split.
    + intros H. unfold parse_status_line. rewrite E. rewrite <- is_supported_iff in H. now destruct (is_supported a).
    + intros H Hc. unfold parse_status_line, parse_status. rewrite E. apply is_supported_iff in H. rewrite H. cbn [negb].
      destruct (parse_uint 10 U16_MAX b) as [n|] eqn:Ep; auto.
      destruct (status_from_code n) as [st|] eqn:Es; auto. exfalso.
      apply status_from_code_some in Es as [_ Es]. apply parse_uint_spec in Ep as [Ep _]; [|lia].
      exact (Hc n Es Ep).
    + intros H c Hc Hd. apply parse_status_line_iff. exists a, b. auto.
Qed.

Example C22_case :
  parse_request_line (lit "GET / HTTP/1.1 and more") = inr (GET, lit "/") /\
  parse_request_line (lit "BREW / HTTP/2") = inl InvalidHttpVersion /\
  parse_request_line (lit "BREW / HTTP/1.0") = inl UnrecognizedMethod /\
  parse_request_line (lit "GET  HTTP/1.0") = inr (GET, []) /\
  parse_request_line (lit "GET HTTP/1.0") = inl BadSyntax.
Proof. vm_compute. auto 10. Qed.

(** ** C23 *)

(** [str::parse::<usize>], [<u16>] and [from_str_radix(16)]: exactly the value of the digits, or
    nothing if that is more than the type's maximum. *)
Theorem C23_numbers_exact : forall radix max s, 0 < radix ->
  (forall n, denotes radix s n -> n <= max -> parse_uint radix max s = Some n) /\
  (forall n, denotes radix s n -> max < n -> parse_uint radix max s = None) /\
  ((forall n, ~ denotes radix s n) -> parse_uint radix max s = None).
Proof.
  intros radix max s Hr. assert (F : forall n n', denotes radix s n -> denotes radix s n' -> n = n').
  { intros n n' H H'. set (mx := N.max n n').
    assert (parse_uint radix mx s = Some n) by (apply parse_uint_spec; [lia|]; split; auto; lia).
    assert (parse_uint radix mx s = Some n') by (apply parse_uint_spec; [lia|]; split; auto; lia). congruence. }
  split; [|split].
  - intros n H1 H2. apply parse_uint_spec; auto.
  - intros n H1 H2. destruct (parse_uint radix max s) as [k|] eqn:E; auto.
    apply parse_uint_spec in E as [E1 E2]; auto. rewrite (F _ _ H1 E1) in H2. lia.
  - intros H. destruct (parse_uint radix max s) as [k|] eqn:E; auto.
    apply parse_uint_spec in E as [E1 _]; auto. exfalso. exact (H k E1).
Qed.

(** Printing a size and reading it back. *)
Theorem C23_decimal_round_trip : forall n,
  denotes 10 (dec n) n /\ (n <= USIZE_MAX -> parse_uint 10 USIZE_MAX (dec n) = Some n).
Proof. intros n. split; [apply dec_denotes|apply dec_parse]. Qed.

(** Chunk sizes. *)
Theorem C23_chunk_size : forall l n,
  parse_chunk_size l = inr n <-> denotes 16 l n /\ n <= 3145728.
Proof. exact parse_chunk_size_iff. Qed.

Example C23_case : denotes 16 (lit "2fFfEf") 3145711 /\ parse_uint 10 65535 (lit "65536") = None
  /\ parse_uint 10 65535 (lit "+0065535") = Some 65535 /\ parse_uint 10 65535 (lit "+") = None.
Proof.
  split; [|vm_compute; auto]. exists (lit "2fFfEf"), [2; 15; 15; 15; 14; 15]. split; [auto|].
  split; [discriminate|]. split; [|vm_compute; reflexivity].
  repeat (constructor; [unfold is_digit; vm_compute; intuition congruence|]). constructor.
Qed.

Print Assumptions C17_equal_iff_same_ignoring_case.
Print Assumptions C17_idempotent.
Print Assumptions C17_standard_names.
Print Assumptions C18_values_in_order.
Print Assumptions C18_first_and_containment.
Print Assumptions C18_add_one.
Print Assumptions C19_methods.
Print Assumptions C19_method_round_trip.
Print Assumptions C19_versions.
Print Assumptions C19_status_codes.
Print Assumptions C19_status_table_exact.
Print Assumptions C19_registered_reasons.
Print Assumptions C19_all_registered.
Print Assumptions C19_constants.
Print Assumptions C22_request_line_errors.
Print Assumptions C22_status_line_errors.
Print Assumptions C23_numbers_exact.
Print Assumptions C23_decimal_round_trip.
Print Assumptions C23_chunk_size.
