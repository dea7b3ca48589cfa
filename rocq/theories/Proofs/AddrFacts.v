(** The address parsers read what Spec/Addr.v says. *)
From Coq Require Import List Ascii String NArith Bool Lia.
From Verif.Model Require Import Bytes Io Pool Addr.
From Verif.Spec Require Import Numerals Addr.
Import ListNotations.
Local Open Scope N_scope.

(** ** Numbers *)
Lemma digit10 c : forall d, digit_val 10 c = Some d <-> is_digit 10 c d.
Proof.
  intros d. unfold digit_val, is_digit.
  destruct (48 <=? bval c) eqn:A; destruct (bval c <=? 57) eqn:B; cbn [andb];
  destruct (97 <=? bval c) eqn:C; destruct (bval c <=? 102) eqn:D; cbn [andb];
  destruct (65 <=? bval c) eqn:E; destruct (bval c <=? 70) eqn:F; cbn [andb];
  rewrite ?N.leb_le, ?N.leb_gt in *;
  try match goal with |- context [?v <? 10] => destruct (v <? 10) eqn:G; [apply N.ltb_lt in G|apply N.ltb_ge in G] end;
  (split; [intros X; inversion X; subst; lia|]); intros (X1 & [X|[X|X]]); try lia; try (f_equal; lia).
Qed.
Lemma F2_length {A B} (P : A -> B -> Prop) l m : Forall2 P l m -> List.length l = List.length m.
Proof. induction 1; cbn; auto. Qed.

Definition no_digit_next (s : bytes) : Prop := match s with [] => True | c :: _ => digit_val 10 c = None end.
(** What read_number reads. *)
Lemma read_number_f_ok max upto s : forall n r v t, read_number_f max upto n r s = Some (v, t) ->
  (n = 0%nat -> r = 0) ->
  exists p ds, s = p ++ t /\ Forall2 (is_digit 10) p ds /\ v = r * 10 ^ len p + positional 10 ds /\ no_digit_next t /\
    (p = [] -> n <> 0%nat) /\ (p <> [] -> v < upto /\ too_many max (n + List.length p) = false).
Proof.
  induction s as [|c s IH]; intros n r v t E R; cbn [read_number_f] in E.
  - destruct n; inversion E; subst. exists [], []. cbn. repeat split; auto; try congruence; lia.
  - destruct (digit_val 10 c) as [d|] eqn:D.
    + destruct (too_many max (S n)) eqn:T; cbn [orb] in E; [discriminate|]. destruct (upto <=? 10 * r + d) eqn:U; [discriminate|]. apply N.leb_gt in U.
      destruct (IH _ _ _ _ E ltac:(discriminate)) as (p & ds & E1 & F & V & Nd & _ & B). exists (c :: p), (d :: ds). subst s. split; auto.
      assert (L : len ds = len p) by (unfold len; now rewrite (F2_length _ _ _ F)).
      split; [constructor; auto; now apply digit10|]. split.
      { cbn [positional]. rewrite L. unfold len in *. cbn [List.length]. rewrite Nnat.Nat2N.inj_succ, N.pow_succ_r'. rewrite V. lia. }
      split; auto. split; [discriminate|]. intros _. destruct p as [|x p].
      * assert (ds = []) by (inversion F; auto). subst ds. cbn in V. cbn [List.length]. replace (n + 1)%nat with (S n) by lia. split; [|exact T]. rewrite V, N.mul_1_r, N.add_0_r. exact U.
      * destruct (B ltac:(discriminate)) as [B1 B2]. split; auto. cbn [List.length] in *. replace (n + S (S (List.length p)))%nat with (S n + S (List.length p))%nat by lia. exact B2.
    + destruct n; inversion E; subst. exists [], []. cbn. repeat split; auto; try congruence; lia.
Qed.
Lemma too_many_less max a b : (a <= b)%nat -> too_many max b = false -> too_many max a = false.
Proof. destruct max as [m|]; unfold too_many; auto. intros L. rewrite !PeanoNat.Nat.ltb_ge. lia. Qed.
Lemma read_number_f_make max upto p : forall ds n r t, Forall2 (is_digit 10) p ds -> no_digit_next t -> r * 10 ^ len p + positional 10 ds < upto ->
  too_many max (n + List.length p) = false -> (p = [] -> n <> 0%nat) ->
  read_number_f max upto n r (p ++ t) = Some (r * 10 ^ len p + positional 10 ds, t).
Proof.
  induction p as [|c p IH]; intros ds n r t F Nd U T Ne; inversion F; subst; cbn [app].
  - destruct n; [now destruct Ne|]. unfold len, positional. cbn [List.length N.of_nat]. rewrite N.pow_0_r, N.mul_1_r, N.add_0_r.
    destruct t as [|x t]; cbn [read_number_f]; auto. cbn in Nd. now rewrite Nd.
  - cbn [read_number_f]. match goal with H : is_digit 10 c _ |- _ => apply digit10 in H; rewrite H end.
    assert (L : len l' = len p) by (unfold len; now rewrite (F2_length _ _ _ H3)).
    assert (E : r * 10 ^ len (c :: p) + positional 10 (y :: l') = (10 * r + y) * 10 ^ len p + positional 10 l').
    { cbn [positional]. rewrite L. unfold len in *. cbn [List.length]. rewrite Nnat.Nat2N.inj_succ, N.pow_succ_r'. ring. }
    rewrite E in *. cbn [List.length] in T. rewrite (too_many_less max (S n) (n + S (List.length p)) ltac:(lia) T). cbn [orb].
    destruct (upto <=? 10 * r + y) eqn:Q.
    { apply N.leb_le in Q. exfalso. assert (1 <= 10 ^ len p) by (assert (10 ^ len p <> 0) by (apply N.pow_nonzero; lia); lia). nia. }
    apply IH; auto. replace (S n + List.length p)%nat with (n + S (List.length p))%nat by lia. auto.
Qed.
Lemma leading_zero_spec p t : (exists ds, Forall2 (is_digit 10) p ds) -> p <> [] -> no_digit_next t ->
  leading_zero (p ++ t) = false <-> (forall r, p = "0"%char :: r -> r = []).
Proof.
  intros (ds & F) Ne Nd. destruct p as [|c p]; [now destruct Ne|]. split.
  - intros Z r E. inversion E; subst. destruct r as [|x r]; auto. inversion F; subst. inversion H3; subst. apply digit10 in H2. cbn in Z. rewrite H2 in Z. discriminate.
  - intros H. unfold leading_zero. cbn [app]. destruct (Ascii.ascii_dec c "0"%char) as [->|Nz].
    + rewrite (H p eq_refl). cbn [app]. destruct t as [|x t]; auto. cbn in Nd. now rewrite Nd.
    + destruct c as [[] [] [] [] [] [] [] []]; try reflexivity. now destruct Nz.
Qed.
Lemma read_number_iff max upto zeros s v t : read_number max upto zeros s = Some (v, t) <->
  exists p, s = p ++ t /\ no_digit_next t /\ decimal p v /\ v < upto /\ too_many max (List.length p) = false /\
    (zeros = false -> forall r, p = "0"%char :: r -> r = []).
Proof.
  unfold read_number. split.
  - intros E. destruct (negb zeros && leading_zero s) eqn:Z; [discriminate|].
    destruct (read_number_f_ok _ _ _ _ _ _ _ E ltac:(auto)) as (p & ds & E1 & F & V & Nd & Ne & B). exists p.
    assert (P : p <> []) by (intros X; now destruct (Ne X)). destruct (B P) as [B1 B2]. cbn in B2. cbn in V. split; auto. split; auto. split; [exists ds; auto|]. split; auto. split; auto.
    intros ->. cbn in Z. subst s. apply (leading_zero_spec p t); eauto.
  - intros (p & -> & Nd & (ds & P & F & V) & U & T & Z).
    assert (X : negb zeros && leading_zero (p ++ t) = false).
    { destruct zeros; auto. cbn. apply leading_zero_spec; eauto. }
    rewrite X. subst v. replace (positional 10 ds) with (0 * 10 ^ len p + positional 10 ds) by lia. apply read_number_f_make; auto.
Qed.
Lemma read_octet_iff sd s v t : read_octet sd s = Some (v, t) <-> exists p, s = p ++ t /\ no_digit_next t /\ octet (sd_zeros sd) p v.
Proof.
  unfold read_octet. rewrite read_number_iff. split; intros (p & E & Nd & X).
  - destruct X as (D & U & T & Z). exists p. repeat split; auto; [lia|]. unfold too_many in T. apply PeanoNat.Nat.ltb_ge in T. lia.
  - destruct X as (D & U & T & Z). exists p. repeat split; auto; [lia|]. unfold too_many. apply PeanoNat.Nat.ltb_ge. lia.
Qed.
Lemma read_char_iff c s t : read_char c s = Some t <-> s = c :: t.
Proof.
  unfold read_char. destruct s as [|x s]; [split; discriminate|]. destruct (Ascii.eqb x c) eqn:E.
  - apply Ascii.eqb_eq in E. subst. split; intros X; inversion X; auto.
  - apply Ascii.eqb_neq in E. split; [discriminate|]. intros X. inversion X. congruence.
Qed.
Lemma parse_v4_iff sd s ip p : parse_v4 sd s = Some (ip, p) <-> dotted (sd_zeros sd) (sd_port_digits sd) s ip p.
Proof.
  unfold parse_v4, read_v4, dotted. split.
  - intros E.
    repeat match type of E with
    | context [match read_octet ?sd ?s with _ => _ end] => let O := fresh "O" in destruct (read_octet sd s) as [[? ?]|] eqn:O; [apply read_octet_iff in O as (? & -> & _ & ?)|discriminate]
    | context [match read_char ?c ?s with _ => _ end] => let O := fresh "C" in destruct (read_char c s) as [?|] eqn:O; [apply read_char_iff in O as ->|discriminate]
    end.
    match type of E with context [read_number ?a ?b ?c ?d] => destruct (read_number a b c d) as [[q [|? ?]]|] eqn:R; try discriminate end. inversion E; subst.
    apply read_number_iff in R as (pp & -> & _ & D & U & T & _). rewrite app_nil_r. exists x, x0, x1, x2, pp. repeat split; try assumption; try apply H; try apply H0; try apply H1; try apply H2; try lia.
    intros m Em. rewrite Em in T. unfold too_many in T. apply PeanoNat.Nat.ltb_ge in T. lia.
  - destruct ip as [[[na nb] nc] nd]. intros (a & b & c & d & q & -> & A & B & C & D & P).
    assert (X : forall p v x t, octet (sd_zeros sd) p v -> digit_val 10 x = None -> read_octet sd (p ++ x :: t) = Some (v, x :: t)) by (intros; apply read_octet_iff; eauto).
    rewrite (X a na "."%char _ A eq_refl). cbn [read_char Ascii.eqb Bool.eqb]. rewrite (X b nb "."%char _ B eq_refl). cbn [read_char Ascii.eqb Bool.eqb].
    rewrite (X c nc "."%char _ C eq_refl). cbn [read_char Ascii.eqb Bool.eqb]. rewrite (X d nd ":"%char _ D eq_refl). cbn [read_char Ascii.eqb Bool.eqb].
    assert (Y : read_number (sd_port_digits sd) 65536 true q = Some (p, [])).
    { apply read_number_iff. exists q. rewrite app_nil_r. destruct P as (P1 & P2 & P3). repeat split; auto; [lia| |discriminate].
      destruct (sd_port_digits sd) as [m|]; unfold too_many; auto. apply PeanoNat.Nat.ltb_ge. auto. }
    now rewrite Y.
Qed.
Lemma dotted_unique zeros digits s ip p ip' p' : dotted zeros digits s ip p -> dotted zeros digits s ip' p' -> ip = ip' /\ p = p'.
Proof. intros A B. apply (parse_v4_iff (mk_std zeros digits)) in A, B. rewrite A in B. now inversion B. Qed.

(** ** Names *)
Lemma mem_iff c l : In c l <-> existsb (Ascii.eqb c) l = true.
Proof.
  rewrite existsb_exists. split; [intros I; exists c; split; auto; apply Ascii.eqb_refl|]. intros (x & I & E). apply Ascii.eqb_eq in E. now subst.
Qed.
Lemma in_numbers c : In c numbers <-> between 48 57 c = true.
Proof. rewrite mem_iff. replace (existsb (Ascii.eqb c) numbers) with (between 48 57 c) by (destruct c as [[] [] [] [] [] [] [] []]; reflexivity). tauto. Qed.
Lemma of_label_iff under c : of_label under c <-> (Ascii.eqb c "-"%char || between 48 57 c || is_letter under c) = true.
Proof.
  unfold of_label. rewrite in_numbers.
  assert (X : In c letters <-> (between 97 122 c || between 65 90 c) = true).
  { rewrite mem_iff. replace (existsb (Ascii.eqb c) letters) with (between 97 122 c || between 65 90 c) by (destruct c as [[] [] [] [] [] [] [] []]; reflexivity). tauto. }
  rewrite X. unfold is_letter. destruct (Ascii.eqb_spec c "-"%char) as [E|E]; destruct (Ascii.eqb_spec c "_"%char) as [F|F];
    destruct under; destruct (between 48 57 c); destruct (between 97 122 c); destruct (between 65 90 c); cbn; intuition (try discriminate; try congruence).
Qed.
Lemma dot_no_label under : ~ of_label under "."%char.
Proof. rewrite of_label_iff. destruct under; vm_compute; discriminate. Qed.
Definition digitsb (l : bytes) : bool := forallb (between 48 57) l.
Lemma digitsb_iff l : digitsb l = true <-> all_digits l.
Proof. unfold digitsb, all_digits. rewrite forallb_forall, Forall_forall. split; intros H x I; specialize (H x I); now apply in_numbers. Qed.
Definition hyph (l : bytes) : bool := match rev l with c :: _ => Ascii.eqb c "-"%char | [] => false end.
Lemma hyph_iff l : hyph l = false <-> (forall r, l <> r ++ ["-"%char]).
Proof.
  unfold hyph. split.
  - intros H r ->. rewrite rev_app_distr in H. cbn in H. discriminate.
  - intros H. destruct (rev l) as [|c r] eqn:E; auto. apply Ascii.eqb_neq. intros ->. apply (H (rev r)). rewrite <- (rev_involutive l), E. reflexivity.
Qed.
(** The part of a label read so far. *)
Definition part under (p : bytes) : Prop := p <> [] /\ (List.length p <= 63)%nat /\ Forall (of_label under) p /\ (forall r, p <> "-"%char :: r).
Lemma label_part under p : label under p <-> part under p /\ hyph p = false.
Proof. unfold label, part. rewrite hyph_iff. tauto. Qed.
Lemma cut_dot under p s : forall l t, Forall (of_label under) p -> Forall (of_label under) l -> p ++ "."%char :: s = l ++ "."%char :: t -> p = l /\ s = t.
Proof.
  induction p as [|c p IH]; intros [|d l] t Fp Fl E; cbn in E; inversion E; subst; auto.
  - inversion Fl; subst. exfalso. eapply dot_no_label; eauto.
  - inversion Fp; subst. exfalso. eapply dot_no_label; eauto.
  - inversion Fp; inversion Fl; subst. destruct (IH l t) as [-> ->]; auto.
Qed.
Lemma no_dot_in under p l s : Forall (of_label under) p -> p = l ++ "."%char :: s -> False.
Proof. intros F ->. apply Forall_app in F as [_ F]. inversion F; subst. eapply dot_no_label; eauto. Qed.
(** What may follow a dot, after a label that is a number or not. *)
Definition after_dot under (num : bool) (s : bytes) : Prop := (s = [] /\ num = false) \/ labels under s.
Lemma labels_not_nil under s : labels under s -> s <> [].
Proof. intros [l (H & _)|l (H & _)|l s' (H & _)]; auto; destruct l; try discriminate; now destruct H. Qed.
Lemma labels_plain under p : part under p -> labels under p <-> label under p /\ digitsb p = false.
Proof.
  intros (_ & _ & F & _). split.
  - intros L. inversion L as [l A B|l A B E|l s A B E]; subst.
    + split; auto. destruct (digitsb p) eqn:D; auto. apply digitsb_iff in D. contradiction.
    + exfalso. eapply no_dot_in; eauto.
    + exfalso. eapply no_dot_in; eauto.
  - intros [A B]. constructor; auto. rewrite <- digitsb_iff, B. discriminate.
Qed.
Lemma labels_dotted under p s : part under p -> labels under (p ++ "."%char :: s) <-> label under p /\ after_dot under (digitsb p) s.
Proof.
  intros P. assert (F : Forall (of_label under) p) by apply P. split.
  - intros L. inversion L as [l A B E|l A B E|l s' A B E].
    + destruct A as (_ & _ & A & _). exfalso. eapply no_dot_in; eauto.
    + destruct (cut_dot under l [] p s) as [-> <-]; auto; [apply A|]. split; auto. left. split; auto. destruct (digitsb p) eqn:D; auto. apply digitsb_iff in D. contradiction.
    + destruct (cut_dot under l s' p s) as [-> ->]; auto; [apply A|]. split; auto. now right.
  - intros [A [[-> D]|B]]; [|now constructor]. apply labels_dot; auto. rewrite <- digitsb_iff, D. discriminate.
Qed.
Lemma labels_first under c s : labels under (c :: s) -> of_label under c /\ c <> "-"%char.
Proof.
  intros L. inversion L as [l A B E|l A B E|l s' A B E]; destruct A as (A1 & _ & A3 & A4 & _).
  - subst. inversion A3; subst. split; auto. intros ->. now apply (A4 s).
  - destruct l as [|x l]; [now destruct A1|]. inversion E; subst. inversion A3; subst. split; auto. intros ->. now apply (A4 l).
  - destruct l as [|x l]; [now destruct A1|]. inversion E; subst. inversion A3; subst. split; auto. intros ->. now apply (A4 l).
Qed.
Lemma dns_loop_no under n num hyp c s : of_label under c -> (n = 0%nat -> c <> "-"%char) ->
  dns_loop under n num hyp (c :: s) =
  (negb (Nat.ltb MAX_LABEL (S n)) && dns_loop under (S n) (match n with O => between 48 57 c | S _ => num && between 48 57 c end) (Ascii.eqb c "-"%char) s).
Proof.
  intros O H. apply of_label_iff in O. cbn [dns_loop]. destruct (Ascii.eqb_spec c "-"%char) as [->|E].
  - destruct n as [|n]; [now destruct (H eq_refl)|]. replace (between 48 57 "-"%char) with false by reflexivity. rewrite andb_false_r. now destruct (Nat.ltb MAX_LABEL (S (S n))).
  - cbn [orb] in O. destruct (between 48 57 c) eqn:D; cbn [orb] in O.
    + destruct n; rewrite ?andb_true_r; match goal with |- context [Nat.ltb ?a ?b] => now destruct (Nat.ltb a b) end.
    + rewrite O. destruct n; rewrite ?andb_false_r; match goal with |- context [Nat.ltb ?a ?b] => now destruct (Nat.ltb a b) end.
Qed.
Lemma dns_loop_bad under n num hyp c s : ~ of_label under c -> c <> "."%char -> dns_loop under n num hyp (c :: s) = false.
Proof.
  intros O H. rewrite of_label_iff in O. cbn [dns_loop]. destruct (Ascii.eqb c "-"%char); [now destruct O|]. destruct (between 48 57 c); [now destruct O|]. cbn [orb] in O.
  destruct (is_letter under c); [now destruct O|]. apply Ascii.eqb_neq in H. now rewrite H.
Qed.
Lemma dns_loop_dot under n num hyp s : dns_loop under n num hyp ("."%char :: s) = match n with O => false | S _ => negb hyp && dns_loop under 0 num false s end.
Proof. cbn [dns_loop]. replace (is_letter under "."%char) with false by (destruct under; reflexivity). cbn. destruct n; auto. now destruct hyp. Qed.
Lemma part_snoc under p c : part under p -> of_label under c -> (List.length p < 63)%nat -> part under (p ++ [c]).
Proof.
  intros (A & B & C & D) O L. split; [destruct p; discriminate|]. split; [rewrite app_length; cbn; lia|]. split; [apply Forall_app; auto|].
  intros r E. destruct p as [|x p]; [now destruct A|]. inversion E; subst. now apply (D p).
Qed.
Lemma dns_loop_iff under s :
  (forall num, dns_loop under 0 num false s = true <-> after_dot under num s) /\
  (forall p, part under p -> dns_loop under (List.length p) (digitsb p) (hyph p) s = true <-> labels under (p ++ s)).
Proof.
  induction s as [|c s [IH0 IHp]].
  - split.
    + intros num. cbn. unfold after_dot. destruct num; cbn; (split; [try discriminate; auto|]); auto. intros [[_ X]|X]; [discriminate|]. now apply labels_not_nil in X.
    + intros p P. rewrite app_nil_r, labels_plain, label_part by auto. cbn [dns_loop]. destruct (hyph p), (digitsb p); cbn; intuition (try discriminate; try congruence).
  - assert (Dec : of_label under c \/ ~ of_label under c).
    { rewrite of_label_iff. destruct (_ || _ || _); [left; auto|right; discriminate]. }
    assert (One : of_label under c -> c <> "-"%char -> part under [c]).
    { intros O H. split; [discriminate|]. split; [cbn; lia|]. split; auto. intros r E. now inversion E. }
    split.
    + intros num. unfold after_dot. destruct (Ascii.eqb_spec c "."%char) as [->|Nd].
      { rewrite dns_loop_dot. split; [discriminate|]. intros [[X _]|X]; [discriminate|]. apply labels_first in X as [X _]. now apply dot_no_label in X. }
      destruct Dec as [O|O].
      * destruct (Ascii.eqb_spec c "-"%char) as [->|Nh].
        { cbn [dns_loop Ascii.eqb Bool.eqb]. split; [discriminate|]. intros [[X _]|X]; [discriminate|]. apply labels_first in X as [_ X]. now destruct X. }
        rewrite dns_loop_no by auto. specialize (IHp [c] (One O Nh)). cbn [List.length app] in IHp.
        assert (E : hyph [c] = Ascii.eqb c "-"%char) by reflexivity. rewrite E in IHp. assert (E2 : digitsb [c] = between 48 57 c) by (cbn; now rewrite andb_true_r). rewrite E2 in IHp.
        change (negb (Nat.ltb MAX_LABEL 1)) with true. cbn [andb]. rewrite IHp. split; auto. intros [[X _]|X]; auto. discriminate.
      * rewrite dns_loop_bad by auto. split; [discriminate|]. intros [[X _]|X]; [discriminate|]. now apply labels_first in X as [X _].
    + intros p P. destruct (Ascii.eqb_spec c "."%char) as [->|Nd].
      { rewrite dns_loop_dot, labels_dotted, label_part by auto. assert (L : exists n, List.length p = S n) by (destruct P as [P _]; destruct p; [now destruct P|eexists; reflexivity]).
        destruct L as [n ->]. rewrite andb_true_iff, negb_true_iff, IH0. tauto. }
      destruct Dec as [O|O].
      * assert (L : exists n, List.length p = S n) by (destruct P as [P0 _]; destruct p; [now destruct P0|eexists; reflexivity]). destruct L as [n L].
        rewrite dns_loop_no by (auto; congruence). destruct (Nat.ltb MAX_LABEL (S (List.length p))) eqn:M; cbn [negb andb].
        { apply PeanoNat.Nat.ltb_lt in M. unfold MAX_LABEL in M. split; [discriminate|]. intros X. exfalso.
          assert (Y : forall l r, Forall (of_label under) l -> p ++ c :: s = l ++ r -> (r = [] \/ exists t, r = "."%char :: t) -> (64 <= List.length l)%nat).
          { intros l r Fl E Hr. destruct (PeanoNat.Nat.le_gt_cases 64 (List.length l)); auto. exfalso.
            assert (E' := f_equal (skipn (List.length l)) E). rewrite (skipn_app (List.length l) l), PeanoNat.Nat.sub_diag, skipn_all in E'. cbn in E'.
            assert (Q : skipn (List.length l) (p ++ [c]) <> []). { intros Z. apply (f_equal (@List.length _)) in Z. rewrite skipn_length, app_length in Z. cbn in Z. lia. }
            assert (G : Forall (of_label under) (p ++ [c])) by (apply Forall_app; split; [apply P|auto]).
            replace (p ++ c :: s) with ((p ++ [c]) ++ s) in E' by (now rewrite <- app_assoc). rewrite skipn_app in E'.
            destruct (skipn (List.length l) (p ++ [c])) as [|x y] eqn:Sk; [now destruct Q|]. cbn in E'.
            destruct Hr as [->|[t ->]]; inversion E'; subst.
            assert (In "."%char (p ++ [c])). { rewrite <- (firstn_skipn (List.length l) (p ++ [c])), Sk. apply in_or_app. right. now left. }
            rewrite Forall_forall in G. eapply dot_no_label; eauto. }
          inversion X as [l A B E|l A B E|l s' A B E]; destruct A as (_ & A2 & A3 & _).
          - specialize (Y _ [] A3 (eq_sym (app_nil_r _)) (or_introl eq_refl)). lia.
          - specialize (Y l _ A3 (eq_sym E) (or_intror (ex_intro _ _ eq_refl))). lia.
          - specialize (Y l _ A3 (eq_sym E) (or_intror (ex_intro _ _ eq_refl))). lia. }
        apply PeanoNat.Nat.ltb_ge in M. unfold MAX_LABEL in M. specialize (IHp (p ++ [c]) (part_snoc _ _ _ P O ltac:(lia))).
        rewrite app_length in IHp. cbn [List.length] in IHp. rewrite PeanoNat.Nat.add_1_r in IHp. rewrite <- app_assoc in IHp. cbn [app] in IHp. rewrite <- IHp.
        rewrite L. replace (digitsb (p ++ [c])) with (digitsb p && between 48 57 c) by (unfold digitsb; rewrite forallb_app; cbn; now rewrite andb_true_r).
        replace (hyph (p ++ [c])) with (Ascii.eqb c "-"%char) by (unfold hyph; now rewrite rev_app_distr). tauto.
      * rewrite dns_loop_bad by auto. split; [discriminate|]. intros X. exfalso.
        assert (In c (p ++ c :: s)) by (apply in_or_app; right; now left).
        assert (Y : forall t, labels under t -> forall x, In x t -> of_label under x \/ x = "."%char).
        { induction 1 as [l (_ & _ & F & _)|l (_ & _ & F & _)|l t (_ & _ & F & _) L IH]; intros x I; rewrite Forall_forall in F; [auto| |].
          - apply in_app_or in I as [I|[<-|[]]]; auto.
          - apply in_app_or in I as [I|[<-|I]]; auto. }
        destruct (Y _ X c H); auto.
Qed.
Lemma dns_ok_iff under s : dns_ok under s = true <-> host_name under s.
Proof.
  unfold dns_ok, host_name. destruct s as [|c s].
  - split; [discriminate|]. intros [X _]. now apply labels_not_nil in X.
  - destruct (Nat.ltb 253 (List.length (c :: s))) eqn:L; [apply PeanoNat.Nat.ltb_lt in L|apply PeanoNat.Nat.ltb_ge in L].
    + split; [discriminate|]. intros [_ X]. lia.
    + rewrite (proj1 (dns_loop_iff under (c :: s))). unfold after_dot. split; [intros [[X _]|X]; [discriminate|auto]|intros [X _]; auto].
Qed.
