(** Tables, numerals, words, header maps. *)
From Coq Require Import List Ascii String NArith ZArith Bool Lia.
From Coq Require Import ZifyBool ZifyNat ZifyN.
From Verif.Model Require Import Bytes Common Parse.
From Verif.Spec Require Import Numerals Names.
From Verif.Proofs Require Import BytesFacts.
Import ListNotations.
Local Open Scope N_scope.

(** ** Numerals *)

Lemma digit_val_spec radix c d : digit_val radix c = Some d <-> is_digit radix c d.
Proof.
  unfold digit_val, is_digit. split.
  - destruct ((48 <=? bval c) && (bval c <=? 57)) eqn:E1;
      [|destruct ((97 <=? bval c) && (bval c <=? 102)) eqn:E2;
        [|destruct ((65 <=? bval c) && (bval c <=? 70)) eqn:E3; [|discriminate]]];
      destruct (_ <? _) eqn:E; try discriminate; intros H; inversion H; subst; lia.
  - intros [Hr [[H ->]|[[H ->]|[H ->]]]].
    + replace ((48 <=? bval c) && (bval c <=? 57)) with true by lia.
      replace (_ <? _) with true by lia. reflexivity.
    + replace ((48 <=? bval c) && (bval c <=? 57)) with false by lia.
      replace ((97 <=? bval c) && (bval c <=? 102)) with true by lia.
      replace (_ <? _) with true by lia. f_equal. lia.
    + replace ((48 <=? bval c) && (bval c <=? 57)) with false by lia.
      replace ((97 <=? bval c) && (bval c <=? 102)) with false by lia.
      replace ((65 <=? bval c) && (bval c <=? 70)) with true by lia.
      replace (_ <? _) with true by lia. f_equal. lia.
Qed.

Lemma is_digit_fun radix c d1 d2 : is_digit radix c d1 -> is_digit radix c d2 -> d1 = d2.
Proof. unfold is_digit. intros [_ H1] [_ H2]. lia. Qed.

Lemma plus_not_digit radix d : ~ is_digit radix "+"%char d.
Proof. unfold is_digit. cbn. lia. Qed.

Lemma positional_ge radix ds acc : 0 < radix -> acc <= acc * radix ^ len ds + positional radix ds.
Proof. intros H. pose proof (N.pow_nonzero radix (len ds)). nia. Qed.

Lemma parse_digits_spec radix max s : 0 < radix -> forall acc n, acc <= max ->
  parse_digits radix max acc s = Some n <->
  exists ds, Forall2 (is_digit radix) s ds /\ n = acc * radix ^ len ds + positional radix ds /\ n <= max.
Proof.
  intros Hr. induction s as [|c s IH]; intros acc n Hacc; cbn [parse_digits].
  - split.
    + intros H; inversion H; subst. exists []. split; auto. cbn. lia.
    + intros (ds & H & -> & Hm). inversion H; subst. cbn. f_equal. lia.
  - destruct (digit_val radix c) as [d|] eqn:Ed.
    + apply digit_val_spec in Ed. destruct (N.leb_spec (acc * radix + d) max).
      * rewrite IH by assumption. split.
        -- intros (ds & H1 & -> & H2). exists (d :: ds). split; [now constructor|].
           cbn [positional]. rewrite len_cons, N.pow_add_r, N.pow_1_r. split; lia.
        -- intros (ds & H1 & -> & H2). inversion H1 as [|? d' ? ds' H3 H4]; subst.
           rewrite (is_digit_fun _ _ _ _ H3 Ed) in *. exists ds'. split; auto.
           cbn [positional] in *. rewrite len_cons, N.pow_add_r, N.pow_1_r in *. split; lia.
      * split; [discriminate|]. intros (ds & H1 & -> & H2). exfalso.
        inversion H1 as [|? d' ? ds' H3 H4]; subst. rewrite (is_digit_fun _ _ _ _ H3 Ed) in *.
        cbn [positional] in *. rewrite len_cons, N.pow_add_r, N.pow_1_r in *.
        pose proof (positional_ge radix ds' (acc * radix + d) Hr). lia.
    + split; [discriminate|]. intros (ds & H1 & _). inversion H1 as [|? d' ? ds' H3 H4]; subst.
      apply digit_val_spec in H3. congruence.
Qed.

Lemma parse_uint_spec radix max s n : 0 < radix ->
  parse_uint radix max s = Some n <-> denotes radix s n /\ n <= max.
Proof.
  intros Hr. unfold denotes.
  assert (D : forall t, t <> [] ->
    parse_digits radix max 0 t = Some n <->
    exists ds, Forall2 (is_digit radix) t ds /\ n = positional radix ds /\ n <= max).
  { intros t _. rewrite parse_digits_spec by lia. split; intros (ds & H1 & H2 & H3); exists ds; repeat split; auto; lia. }
  assert (P : forall t, Ascii.eqb t "+"%char = false -> t <> "+"%char) by (intros; now apply Ascii.eqb_neq).
  assert (One : forall c, parse_digits radix max 0 [c] =
      match digit_val radix c with Some d => if d <=? max then Some d else None | None => None end).
  { intros c. cbn. destruct (digit_val radix c) as [d|]; auto. }
  destruct s as [|c [|c2 s]].
  - cbn. split; [discriminate|]. intros ((digits & ds & [<-|H] & Hne & _) & _); [congruence|discriminate].
  - cbn [parse_uint]. rewrite <- One, D by discriminate. split.
    + intros (ds & H1 & H2 & H3). split; auto. exists [c], ds. repeat split; auto. discriminate.
    + intros ((digits & ds & [<-|H] & Hne & H1 & H2) & H3).
      * exists ds; auto.
      * inversion H; subst. congruence.
  - cbn [parse_uint]. destruct (Ascii.eqb c "+"%char) eqn:E.
    + apply Ascii.eqb_eq in E. subst c. rewrite D by discriminate. split.
      * intros (ds & H1 & H2 & H3). split; auto. exists (c2 :: s), ds. repeat split; auto. discriminate.
      * intros ((digits & ds & [<-|H] & Hne & H1 & H2) & H3).
        -- exfalso. inversion H1 as [|? d ? ds' Hd]; subst. now apply plus_not_digit in Hd.
        -- inversion H; subst. exists ds; auto.
    + rewrite D by discriminate. split.
      * intros (ds & H1 & H2 & H3). split; auto. exists (c :: c2 :: s), ds. repeat split; auto. discriminate.
      * intros ((digits & ds & [<-|H] & Hne & H1 & H2) & H3).
        -- exists ds; auto.
        -- inversion H; subst. discriminate.
Qed.

Lemma digit_dec n : n < 10 -> is_digit 10 (dec_digit n) n.
Proof. intros H. unfold is_digit, dec_digit. rewrite bval_of by lia. lia. Qed.

(** [dec n] is a digit string denoting n. *)
Lemma dec_aux_spec f : forall n acc ads, n < 2 ^ N.of_nat f ->
  Forall2 (is_digit 10) acc ads ->
  exists ds, Forall2 (is_digit 10) (dec_aux (S f) n acc) ds /\
    positional 10 ds = n * 10 ^ len ads + positional 10 ads /\ dec_aux (S f) n acc <> [].
Proof.
  induction f as [|f IH]; intros n acc ads Hf Ha;
    assert (Hd : is_digit 10 (dec_digit (n mod 10)) (n mod 10)) by (apply digit_dec; lia).
  - cbn in Hf. assert (n = 0) as -> by lia. cbn [dec_aux].
    exists (0 :: ads). split; [now constructor|]. split; [|discriminate]. cbn [positional]. lia.
  - remember (S f) as f'. cbn [dec_aux]. destruct (N.ltb_spec n 10).
    + exists (n mod 10 :: ads). split; [now constructor|]. split; [|discriminate].
      cbn [positional]. rewrite N.mod_small by lia. lia.
    + subst f'. destruct (IH (n / 10) (dec_digit (n mod 10) :: acc) (n mod 10 :: ads)) as (ds & H1 & H2 & H3).
      * rewrite Nat2N.inj_succ, N.pow_succ_r' in Hf. lia.
      * now constructor.
      * exists ds. split; auto. split; auto. rewrite H2. cbn [positional].
        rewrite len_cons, N.pow_add_r, N.pow_1_r.
        pose proof (N.div_mod n 10). nia.
Qed.

Lemma size_nat_gt n : n < 2 ^ N.of_nat (N.size_nat n).
Proof.
  destruct n as [|p]; [cbn; lia|]. cbn [N.size_nat].
  induction p as [p IH|p IH|]; cbn [Pos.size_nat]; rewrite ?Nat2N.inj_succ, ?N.pow_succ_r'; try lia.

Qed.

Lemma dec_denotes n : denotes 10 (dec n) n.
Proof.
  destruct (dec_aux_spec (N.size_nat n) n [] [] (size_nat_gt n)) as (ds & H1 & H2 & H3); [constructor|].
  exists (dec n), ds. repeat split; auto. rewrite H2. cbn. lia.
Qed.

Lemma dec_parse n : n <= USIZE_MAX -> parse_uint 10 USIZE_MAX (dec n) = Some n.
Proof. intros. apply parse_uint_spec; [lia|]. split; auto using dec_denotes. Qed.

Lemma dec_digits n : Forall (fun c => 48 <= bval c <= 57) (dec n).
Proof.
  unfold dec. assert (G : forall fuel n acc, Forall (fun c => 48 <= bval c <= 57) acc ->
    Forall (fun c => 48 <= bval c <= 57) (dec_aux fuel n acc)).
  { induction fuel; cbn [dec_aux]; intros m acc H; auto.
    assert (Forall (fun c => 48 <= bval c <= 57) (dec_digit (m mod 10) :: acc)).
    { constructor; auto. unfold dec_digit. rewrite bval_of by lia. lia. }
    destruct (_ <? _); auto. }
  apply G. constructor.
Qed.

(** ** Names *)

Lemma lower_byte_range c : ~ (65 <= bval (lower_byte c) <= 90).
Proof.
  unfold lower_byte. destruct ((65 <=? bval c) && (bval c <=? 90)) eqn:E; [|lia].
  rewrite bval_of by lia. lia.
Qed.

Lemma lower_byte_ci c d : lower_byte c = lower_byte d <-> ci_byte c d.
Proof.
  unfold ci_byte. split.
  - unfold lower_byte. pose proof (bval_lt c). pose proof (bval_lt d).
    destruct ((65 <=? bval c) && (bval c <=? 90)) eqn:E1;
      destruct ((65 <=? bval d) && (bval d <=? 90)) eqn:E2; intros H1;
      apply (f_equal bval) in H1; rewrite ?bval_of in H1 by lia.
    + left. apply bval_inj. lia.
    + right. exists (bval c). lia.
    + right. exists (bval d). lia.
    + left. now apply bval_inj.
  - assert (G : forall c d n, 65 <= n <= 90 -> bval c = n -> bval d = n + 32 -> lower_byte c = lower_byte d).
    { intros c0 d0 n Hn Hc Hd. unfold lower_byte.
      replace ((65 <=? bval c0) && (bval c0 <=? 90)) with true by lia.
      replace ((65 <=? bval d0) && (bval d0 <=? 90)) with false by lia.
      apply bval_inj. rewrite bval_of by lia. lia. }
    intros [->|(n & Hn & [[H1 H2]|[H1 H2]])]; auto.
    + eapply G; eauto.
    + symmetry. eapply G; eauto.
Qed.

Lemma lower_same a b : lower a = lower b <-> same_name a b.
Proof.
  unfold lower, same_name. revert b. induction a as [|c a IH]; intros [|d b]; cbn; split; intros H; try easy; try solve [inversion H].
  - inversion H. constructor; [now apply lower_byte_ci|now apply IH].
  - inversion H; subst. f_equal; [now apply lower_byte_ci|now apply IH].
Qed.

Lemma lower_idem a : lower (lower a) = lower a.
Proof.
  unfold lower. rewrite map_map. apply map_ext. intros c. unfold lower_byte at 1.
  pose proof (lower_byte_range c). destruct ((65 <=? bval (lower_byte c)) && (bval (lower_byte c) <=? 90)) eqn:E; auto. lia.
Qed.

Lemma len_lower a : len (lower a) = len a.
Proof. apply len_map. Qed.

Lemma header_str_from s : header_str (header_from s) = lower s.
Proof. unfold header_from. now destruct (existsb _ _). Qed.

Lemma header_from_iff a b : header_from a = header_from b <-> lower a = lower b.
Proof.
  split; intros H.
  - rewrite <- !header_str_from. now rewrite H.
  - unfold header_from. now rewrite H.
Qed.

Lemma header_eqb_eq a b : header_eqb a b = true <-> a = b.
Proof.
  destruct a, b; cbn; rewrite ?beqb_eq; split; intros H; try discriminate; try congruence.
Qed.
Lemma header_eqb_refl a : header_eqb a a = true.
Proof. now apply header_eqb_eq. Qed.
Lemma header_eqb_neq a b : header_eqb a b = false <-> a <> b.
Proof. rewrite <- header_eqb_eq. destruct (header_eqb a b); intuition congruence. Qed.

(** ** Header maps *)

Lemma hm_get_add m k v k' : hm_get k' (add_header m k v) =
  if header_eqb k k' then Some (match hm_get k m with Some vs => vs ++ [v] | None => [v] end)
  else hm_get k' m.
Proof.
  induction m as [|[k0 vs] m IH]; cbn [add_header hm_get].
  - reflexivity.
  - destruct (header_eqb k0 k) eqn:E.
    + apply header_eqb_eq in E. subst k0. cbn [hm_get]. destruct (header_eqb k k'); reflexivity.
    + cbn [hm_get]. rewrite IH. destruct (header_eqb k0 k') eqn:E2; auto.
      apply header_eqb_eq in E2. subst k0. apply header_eqb_neq in E.
      destruct (header_eqb k k') eqn:E3; auto. apply header_eqb_eq in E3. congruence.
Qed.

Lemma values_of_app {K V} (eqb : K -> K -> bool) k (a b : list (K * V)) :
  values_of eqb k (a ++ b) = values_of eqb k a ++ values_of eqb k b.
Proof. unfold values_of. now rewrite filter_app, map_app. Qed.

Lemma nonempty_app_snoc {A} (l : list A) x : nonempty (l ++ [x]) = Some (l ++ [x]).
Proof. destruct l; reflexivity. Qed.

Lemma hm_get_fold k ps : forall m,
  hm_get k (fold_left (fun m p => add_header m (fst p) (snd p)) ps m) =
  match hm_get k m with
  | Some vs => Some (vs ++ values_of header_eqb k ps)
  | None => nonempty (values_of header_eqb k ps)
  end.
Proof.
  induction ps as [|[k0 v] ps IH]; intros m; cbn [fold_left].
  - unfold values_of; cbn. destruct (hm_get k m); [now rewrite app_nil_r|reflexivity].
  - rewrite IH, hm_get_add. cbn [fst snd]. unfold values_of; cbn [filter fst].
    destruct (header_eqb k0 k) eqn:E; auto. apply header_eqb_eq in E. subst k0. cbn [map snd].
    destruct (hm_get k m) as [vs|]; cbn; [now rewrite <- app_assoc|reflexivity].
Qed.

Lemma hm_get_pairs k ps : hm_get k (from_pairs ps) = nonempty (values_of header_eqb k ps).
Proof. unfold from_pairs. rewrite hm_get_fold. reflexivity. Qed.

(** ** Words *)

Definition noSP (w : bytes) : Prop := ~ In SP w.
Fixpoint join_sp (ws : list bytes) : bytes :=
  match ws with [] => [] | [w] => w | w :: ws' => w ++ SP :: join_sp ws' end.

Lemma split_sp_ne s : split_sp s <> [].
Proof.
  destruct s as [|c s]; cbn [split_sp]; [discriminate|].
  destruct (Ascii.eqb c SP); [discriminate|]. destruct (split_sp s); discriminate.
Qed.

Lemma split_sp_join s : join_sp (split_sp s) = s.
Proof.
  induction s as [|c s IH]; cbn [split_sp]; auto.
  destruct (Ascii.eqb c SP) eqn:E.
  - apply Ascii.eqb_eq in E. subst c. pose proof (split_sp_ne s). destruct (split_sp s) eqn:E2; [congruence|].
    cbn [join_sp app]. now rewrite <- IH.
  - pose proof (split_sp_ne s). destruct (split_sp s) as [|w ws] eqn:E2; [congruence|].
    rewrite <- IH. destruct ws; reflexivity.
Qed.

Lemma split_sp_words s : Forall noSP (split_sp s).
Proof.
  induction s as [|c s IH]; cbn [split_sp].
  - repeat constructor. intros [].
  - destruct (Ascii.eqb c SP) eqn:E.
    + constructor; auto. intros [].
    + apply Ascii.eqb_neq in E. destruct (split_sp s) as [|w ws].
      * repeat constructor. intros [H|[]]. congruence.
      * inversion IH; subst. constructor; auto. intros [H|H]; [congruence|auto].
Qed.

Lemma split_sp_nosp w : noSP w -> split_sp w = [w].
Proof.
  induction w as [|c w IH]; intros H; cbn [split_sp]; auto.
  assert (c <> SP) by (intros ->; apply H; now left). apply Ascii.eqb_neq in H0. rewrite H0.
  rewrite IH; auto. intros Hi. apply H. now right.
Qed.

Lemma split_sp_app w s : noSP w -> split_sp (w ++ SP :: s) = w :: split_sp s.
Proof.
  induction w as [|c w IH]; intros H; cbn [app split_sp].
  - now rewrite Ascii.eqb_refl.
  - assert (c <> SP) by (intros ->; apply H; now left). apply Ascii.eqb_neq in H0. rewrite H0.
    rewrite IH; auto. intros Hi. apply H. now right.
Qed.

(** ** ": " *)

Lemma starts_with_iff p s : starts_with p s = true <-> exists r, s = p ++ r.
Proof.
  revert s; induction p as [|c p IH]; intros s; cbn.
  - split; eauto.
  - destruct s as [|d s]; cbn.
    + split; [discriminate|]. intros (r & H); discriminate.
    + rewrite andb_true_iff, Ascii.eqb_eq, IH. split.
      * intros [-> [r ->]]. eauto.
      * intros (r & H). inversion H; subst. eauto.
Qed.

Lemma contains_iff p s : contains p s = true <-> exists a r, s = a ++ p ++ r.
Proof.
  induction s as [|c s IH]; cbn [contains].
  - rewrite orb_false_r, starts_with_iff. split.
    + intros [r H]. exists [], r. exact H.
    + intros (a & r & H). destruct a; [|discriminate]. exists r. exact H.
  - rewrite orb_true_iff, starts_with_iff, IH. split.
    + intros [[r H]|(a & r & ->)]; [exists [], r; exact H|exists (c :: a), r; reflexivity].
    + intros (a & r & H). destruct a as [|c' a]; [left; exists r; exact H|].
      right. inversion H; subst. eauto.
Qed.

(** The name part: ": " does not occur in it. *)
Definition no_colon_sp (n : bytes) : Prop := contains [COLON; SP] n = false.

Lemma starts_with_colon_app n c v : starts_with [COLON; SP] (n ++ COLON :: v) = true ->
  n <> [] -> c = COLON -> starts_with [COLON; SP] n = true.
Proof.
  intros H Hn _. destruct n as [|a [|b n]]; [congruence| |].
  - cbn [app starts_with] in H. rewrite !andb_true_iff in H. destruct H as [_ [H _]]. discriminate.
  - exact H.
Qed.

Lemma split_colon_spec s n v : split_colon s = Some (n, v) <->
  s = n ++ COLON :: SP :: v /\ no_colon_sp n.
Proof.
  revert n; induction s as [|c s IH]; intros n.
  - cbn. split; [discriminate|]. intros [H _]. destruct n; discriminate.
  - cbn [split_colon]. destruct (starts_with [COLON; SP] (c :: s)) eqn:E.
    + split.
      * intros H; inversion H; subst. split; [|reflexivity].
        apply starts_with_iff in E as (r & E). inversion E; subst. reflexivity.
      * intros [H1 H2]. destruct n as [|a n].
        -- inversion H1; subst. reflexivity.
        -- exfalso. rewrite H1 in E. eapply (starts_with_colon_app _ COLON) in E; [|discriminate|reflexivity].
           unfold no_colon_sp in H2. cbn [contains] in H2. rewrite E in H2. discriminate.
    + destruct (split_colon s) as [[a b]|] eqn:Es.
      * split.
        -- intros H; inversion H; subst. destruct (proj1 (IH a) eq_refl) as [-> H2]. split; auto.
           unfold no_colon_sp in *. cbn [contains]. rewrite H2, orb_false_r.
           destruct (starts_with [COLON; SP] (c :: a)) eqn:E2; auto. exfalso.
           apply starts_with_iff in E2 as (r & E2). destruct a as [|a0 a]; [discriminate|].
           inversion E2; subst. cbn in E. discriminate.
        -- intros [H1 H2]. destruct n as [|a0 n].
           ++ exfalso. cbn [app] in H1. inversion H1; subst. cbn in E. discriminate.
           ++ inversion H1; subst. unfold no_colon_sp in H2. cbn [contains] in H2.
              apply orb_false_iff in H2 as [_ H2].
              assert (Some (a, b) = Some (n, v)) as Hx by (apply IH; auto).
              inversion Hx; subst. reflexivity.
      * split; [discriminate|]. intros [H1 H2]. destruct n as [|a0 n].
        -- exfalso. cbn [app] in H1. inversion H1; subst. cbn in E. discriminate.
        -- inversion H1; subst. unfold no_colon_sp in H2. cbn [contains] in H2.
           apply orb_false_iff in H2 as [_ H2]. assert (None = Some (n, v)) by (apply IH; auto). discriminate.
Qed.
