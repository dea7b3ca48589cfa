(** A parser that starts afresh stays within its limits on every reader, also on one that never ends. *)
From Coq Require Import List Ascii String Arith NArith Bool Lia.
From Verif.Model Require Import Bytes Io Common Parse Generic.
From Verif.Proofs Require Import BytesFacts FuelFacts MonoFacts.
Import ListNotations.
Local Open Scope N_scope.

Section Bound.
Variable R : Type.
Variable fill : R -> (ekind + bytes) * R.
Variable consume : N -> R -> R.
Variable readn : N -> R -> (ekind + bytes) * R.
Variable size : bytes -> N.
(** How often the reader can still be interrupted, how much was taken from it, what a call that gives nothing adds to that, and which readers this is about. *)
Variable i : R -> nat.
Variable g : R -> N.
Variable u : N.
Variable ok : R -> Prop.
Variable F : nat.
Hypothesis size_pos : forall acc, 0 < size acc.
Hypothesis fill_bound : forall r x r', ok r -> fill r = (x, r') ->
  ok r' /\ (i r' <= i r)%nat /\ g r' <= g r + u /\
  match x with
  | inl k => k <> ModelFuel /\ (k = Interrupted -> (i r' < i r)%nat /\ g r' <= g r)
  | inr bs => (bs <> [] -> g r' <= g r) /\ forall n, n <= len bs -> ok (consume n r') /\ (i (consume n r') <= i r')%nat /\ g (consume n r') <= g r' + n
  end.
Hypothesis read_bound : forall n r x r', 0 < n -> ok r -> readn n r = (x, r') ->
  ok r' /\ (i r' <= i r)%nat /\
  match x with
  | inl k => g r' <= g r + u /\ k <> ModelFuel /\ (k = Interrupted -> (i r' < i r)%nat /\ g r' <= g r)
  | inr bs => len bs <= n /\ g r' <= g r + match bs with [] => u | _ => len bs end
  end.

Local Notation stF := (fun _ : R => F).

(** The limits after d bytes. *)
Definition spent (d : N) (ls ls' : list N) : Prop := Forall2 (fun l l' => l = l' + d) ls ls'.
Lemma spent_0 ls : spent 0 ls ls.
Proof. induction ls; constructor; auto. lia. Qed.
Lemma spent_trans d e a : forall b c, spent d a b -> spent e b c -> spent (d + e) a c.
Proof. induction a as [|x a IH]; intros b c H1 H2; inversion H1; subst; inversion H2; subst; constructor; [lia|]. eapply IH; eauto. Qed.

Lemma fill_lim_bound ls : forall r x r', ok r -> g_fill_lim R fill ls r = (x, r') ->
  ok r' /\ (i r' <= i r)%nat /\ g r' <= g r + u /\
  match x with
  | inl k => k <> ModelFuel /\ (k = Interrupted -> (i r' < i r)%nat /\ g r' <= g r)
  | inr bs => forall n ls1 s1, n <= len bs -> g_consume_lim R consume n ls r' = (ls1, s1) ->
      ok s1 /\ (i s1 <= i r)%nat /\ g s1 <= g r + n + match bs with [] => u | _ => 0 end /\ spent n ls ls1
  end.
Proof.
  induction ls as [|l ls IH]; intros r x r' K E; cbn [g_fill_lim] in E.
  - destruct (fill_bound _ _ _ K E) as (H1 & H2 & H3 & H4). split; auto. split; auto. split; auto. destruct x as [k|bs]; auto.
    intros n ls1 s1 Hn Ec. cbn in Ec. inversion Ec; subst. destruct H4 as [H5 H4]. destruct (H4 n Hn) as (Q1 & Q2 & Q3). repeat split; auto; try lia; [|constructor].
    destruct bs as [|c bs]; [lia|]. assert (g r' <= g r) by (apply H5; discriminate). lia.
  - destruct (N.eqb_spec l 0) as [El|El]; [inversion E; subst; repeat split; auto; try lia; discriminate|].
    destruct (g_fill_lim R fill ls r) as [[k|bs] r1] eqn:E1; inversion E; subst; destruct (IH _ _ _ K E1) as (H1 & H2 & H3 & H4).
    + auto.
    + split; auto. split; auto. split; auto.
      assert (Lb : len (firstn (N.to_nat (N.min l (len bs))) bs) <= N.min l (len bs)) by (unfold len; rewrite firstn_length; lia).
      assert (Eb : match firstn (N.to_nat (N.min l (len bs))) bs with [] => u | _ => 0 end = match bs with [] => u | _ => 0 end).
      { destruct bs as [|c bs]; [now rewrite firstn_nil|]. assert (exists m, N.to_nat (N.min l (len (c :: bs))) = Datatypes.S m) as [m ->].
        { exists (pred (N.to_nat (N.min l (len (c :: bs))))). assert (0 < len (c :: bs)) by (unfold len; cbn [List.length]; lia). lia. }
        reflexivity. }
      intros n ls1 s1 Hn Ec. rewrite Eb. cbn [g_consume_lim] in Ec.
      assert (n <= l /\ n <= len bs) as [Hl Hb] by lia.
      replace (N.min n l) with n in Ec by lia. destruct (g_consume_lim R consume n ls r') as [ls2 s2] eqn:E2. inversion Ec; subst.
      destruct (H4 _ _ _ Hb E2) as (Q1 & Q2 & Q3 & Q4). repeat split; auto. constructor; auto. lia.
Qed.

Lemma read_lim_bound ls : forall n r x ls' r', 0 < n -> ok r -> g_read_lim R readn n ls r = (x, ls', r') ->
  ok r' /\ (i r' <= i r)%nat /\
  match x with
  | inl k => g r' <= g r + u /\ spent 0 ls ls' /\ k <> ModelFuel /\ (k = Interrupted -> (i r' < i r)%nat /\ g r' <= g r)
  | inr bs => len bs <= n /\ g r' <= g r + match bs with [] => u | _ => len bs end /\ spent (len bs) ls ls'
  end.
Proof.
  induction ls as [|l ls IH]; intros n r x ls' r' Hn K E; cbn [g_read_lim] in E.
  - destruct (readn n r) as [y r1] eqn:E1. inversion E; subst. destruct (read_bound _ _ _ _ Hn K E1) as (H1 & H2 & H3). split; auto. split; auto.
    destruct x as [k|bs]; [destruct H3 as (Q1 & Q2 & Q3)|destruct H3 as (Q1 & Q2)]; repeat split; auto; try constructor; try now apply Q3.
  - destruct (N.eqb_spec l 0) as [El|El]; [inversion E; subst; repeat split; auto; try lia; try apply spent_0; discriminate|].
    assert (Hm : 0 < N.min n l) by lia.
    destruct (g_read_lim R readn (N.min n l) ls r) as [[[k|bs] ls1] r1] eqn:E1; inversion E; subst; destruct (IH _ _ _ _ _ Hm K E1) as (H1 & H2 & H3).
    + destruct H3 as (Q1 & Q2 & Q3 & Q4). repeat split; auto; try now apply Q4. constructor; auto. lia.
    + destruct H3 as (Q1 & Q2 & Q3). repeat split; auto; [lia|]. constructor; auto. lia.
Qed.

Lemma read_until_bound f : forall l ls r acc x acc' ls' r', ok r -> (i r + N.to_nat l < f)%nat ->
  g_read_until R fill consume f (l :: ls) r acc = (x, acc', ls', r') ->
  ok r' /\ (i r' <= i r)%nat /\ x <> Some ModelFuel /\ exists e d, acc' = acc ++ e /\ len e = d /\ g r' <= g r + d + u /\ (x = None -> In LF e -> g r' <= g r + d) /\ spent d (l :: ls) ls'.
Proof.
  induction f as [|f IH]; intros l ls r acc x acc' ls' r' K L E; [lia|]. cbn [g_read_until] in E.
  destruct (g_fill_lim R fill (l :: ls) r) as [[k|bs] r1] eqn:E1; destruct (fill_lim_bound _ _ _ _ K E1) as (H1 & H2 & H3 & H4).
  - destruct H4 as [H4 H5].
    assert (Z : (Some k, acc, l :: ls, r1) = (x, acc', ls', r') ->
      ok r' /\ (i r' <= i r)%nat /\ x <> Some ModelFuel /\ exists e d, acc' = acc ++ e /\ len e = d /\ g r' <= g r + d + u /\ (x = None -> In LF e -> g r' <= g r + d) /\ spent d (l :: ls) ls').
    { intros Q. inversion Q; subst. split; auto. split; auto. split; [congruence|]. exists [], 0. rewrite app_nil_r. repeat split; [lia|discriminate|apply spent_0]. }
    destruct k; try exact (Z E). destruct (H5 eq_refl) as [H6 H7].
    assert (Hf : (i r1 + N.to_nat l < f)%nat) by lia. destruct (IH _ _ _ _ _ _ _ _ H1 Hf E) as (K1 & K2 & K3 & e & d & K4 & K5 & K6 & K7 & K8).
    split; auto. split; [lia|]. split; auto. exists e, d. repeat split; auto; [lia|]. intros Q1 Q2. specialize (K7 Q1 Q2). lia.
  - destruct (find_lf bs) as [j|] eqn:Ef.
    + destruct (g_consume_lim R consume (N.of_nat (Datatypes.S j)) (l :: ls) r1) as [ls1 s1] eqn:Ec. inversion E; subst.
      pose proof (find_lf_lt _ _ Ef) as Hl. assert (Hi : N.of_nat (Datatypes.S j) <= len bs) by (unfold len; lia).
      destruct (H4 _ _ _ Hi Ec) as (K1 & K2 & K3 & K4). destruct bs as [|c bs]; [discriminate Ef|].
      split; auto. split; auto. split; [discriminate|]. exists (firstn (Datatypes.S j) (c :: bs)), (N.of_nat (Datatypes.S j)).
      repeat split; auto; try lia. unfold len. rewrite firstn_length. lia.
    + destruct (g_consume_lim R consume (len bs) (l :: ls) r1) as [ls1 s1] eqn:Ec. destruct (H4 _ _ _ (N.le_refl _) Ec) as (K1 & K2 & K3 & K4).
      destruct bs as [|c bs].
      * inversion E; subst. split; auto. split; auto. split; [discriminate|]. exists [], 0. rewrite app_nil_r. change (len []) with 0 in *. repeat split; auto; try lia. intros _ [].
      * inversion K4 as [|? l' ? ls1' Hl Hs]; subst. assert (Lc : (0 < N.to_nat (len (c :: bs)))%nat) by (unfold len; cbn [List.length]; lia).
        assert (Hf : (i s1 + N.to_nat l' < f)%nat) by lia. destruct (IH _ _ _ _ _ _ _ _ K1 Hf E) as (J1 & J2 & J3 & e & d & J4 & J5 & J6 & J7 & J8).
        split; auto. split; [lia|]. split; auto. exists ((c :: bs) ++ e), (len (c :: bs) + d). rewrite app_assoc. repeat split; auto.
        -- unfold len in *. rewrite app_length. lia.
        -- lia.
        -- intros Q1 Q2. apply in_app_or in Q2 as [Q2|Q2]; [now apply find_lf_none in Ef|]. specialize (J7 Q1 Q2). lia.
        -- eapply spent_trans; [|exact J8]. constructor; auto.
Qed.

(** What a parser's result says about the reader and the limits: enough iterations; at most [cap] was taken, and as much as the limits went down, and one more if the parser
    did not finish, or if [last] says so; and with [fresh] something was. *)
Definition slack {A S} (last : N) (y : pres A S) : N := match y with PDone _ => last | _ => u end.
Definition ending (last : N) {A S} (fresh : Prop) (cap : N) (r : R) (ls : list N) (y : pres A S) (r' : R) (ls' : list N) : Prop :=
  ok r' /\ (i r' <= i r)%nat /\ fueled y /\ exists d, d <= cap /\ g r' <= g r + d + slack last y /\ spent d ls ls' /\ (fresh -> forall a, y = PDone a -> 0 < d).
Notation within := (ending 0).
Lemma fueled_io {A S} (s : S) k : k <> ModelFuel -> fueled (PIo s k : pres A S).
Proof. destruct k; cbn; auto. Qed.
Lemma spent_cap d l ls ls' : spent d (l :: ls) ls' -> d <= l.
Proof. intros H. inversion H; subst. lia. Qed.
Lemma spent_tl d l ls ls' : spent d (l :: ls) ls' -> spent d ls (tl ls').
Proof. intros H. inversion H; subst. auto. Qed.

(** Another result for the same reader. *)
Lemma within_as {A S A' S'} (last : N) (fresh fresh' : Prop) cap r ls (y : pres A S) (z : pres A' S') r' ls' : last <= u -> within fresh cap r ls y r' ls' ->
  fueled z -> (forall a, z = PDone a -> (fresh' -> fresh) /\ exists b, y = PDone b) -> ending last fresh' cap r ls z r' ls'.
Proof.
  intros Hl (H1 & H2 & H3 & d & H4 & H5 & H6 & H7) Fz Q. split; auto. split; auto. split; auto. exists d. repeat split; auto.
  - destruct z as [a|s k|e|]; cbn [slack]; try (destruct y; cbn [slack] in H5; lia). destruct (Q a eq_refl) as [_ [b ->]]. cbn [slack] in H5. lia.
  - intros Fr a Ez. destruct (Q a Ez) as [Q1 [b Q2]]. eauto.
Qed.
Lemma within_none {A S} last (fresh : Prop) cap r ls (y : pres A S) : ok r -> fueled y -> (fresh -> forall a, y <> PDone a) -> ending last fresh cap r ls y r ls.
Proof. intros H1 H2 H3. split; auto. split; auto. split; auto. exists 0. repeat split; try lia; [apply spent_0|]. intros Fr a Q. now destruct (H3 Fr a). Qed.
Lemma within_limit {A S} last (fresh : Prop) cap l r ls (y : pres A S) r' ls' : ending last fresh cap r (l :: ls) y r' ls' -> ending last fresh l r ls y r' (tl ls').
Proof.
  intros (H1 & H2 & H3 & d & H4 & H5 & H6 & H7). split; auto. split; auto. split; auto. exists d. repeat split; auto.
  - eapply spent_cap; eauto.
  - eapply spent_tl; eauto.
Qed.
Lemma within_capped {A S} last (fresh : Prop) cap l r ls (y : pres A S) r' ls' : ending last fresh cap r (l :: ls) y r' ls' -> ending last fresh l r (l :: ls) y r' ls'.
Proof.
  intros (H1 & H2 & H3 & d & H4 & H5 & H6 & H7). split; auto. split; auto. split; auto. exists d. repeat split; auto. eapply spent_cap; eauto.
Qed.
Lemma within_most {A S} last (fresh : Prop) cap cap' r ls (y : pres A S) r' ls' : cap <= cap' -> ending last fresh cap r ls y r' ls' -> ending last fresh cap' r ls y r' ls'.
Proof. intros Lc (H1 & H2 & H3 & d & H4 & H5). split; auto. split; auto. split; auto. exists d. split; [lia|auto]. Qed.
Lemma within_loose {A S} (fresh : Prop) cap r ls (y : pres A S) r' ls' : within fresh cap r ls y r' ls' -> ending u fresh cap r ls y r' ls'.
Proof. intros H. refine (within_as _ _ _ _ _ _ _ _ _ _ _ H _ _); [lia|apply H|eauto]. Qed.
(** After a parser that finished, another. *)
Lemma within_then {A S A' S'} last (fresh : Prop) cap l l' d r ls (a : A) r1 ls1 (z : pres A' S') r' ls' :
  ok r1 -> (i r1 <= i r)%nat -> g r1 <= g r + d + slack 0 (PDone a : pres A S) -> spent d ls ls1 -> l = l' + d -> ending last False l' r1 ls1 z r' ls' -> l <= cap ->
  (fresh -> 0 < d) -> ending last fresh cap r ls z r' ls'.
Proof.
  intros H1 H2 H3 H4 H5 (K1 & K2 & K3 & e & K4 & K5 & K6 & _) Lc Q. cbn [slack] in H3. split; auto. split; [lia|]. split; auto.
  exists (d + e). split; [lia|]. split; [lia|]. split; [eapply spent_trans; eauto|]. intros Fr _ _. specialize (Q Fr). lia.
Qed.
Ltac same H := refine (within_as _ _ _ _ _ _ _ _ _ _ _ H _ _);
  [lia | try exact Logic.I; try (destruct H as (_ & _ & H & _); exact H) | let a := fresh in let Q := fresh in intros a Q; solve [discriminate Q | split; [tauto | eauto]]].

Lemma line_deframe_bound l ls r y ls' r' : ok r -> (i r + N.to_nat l <= F)%nat ->
  g_line_deframe R fill consume stF [] (l :: ls) r = (y, ls', r') -> within True l r (l :: ls) y r' ls'.
Proof.
  intros K L E. unfold g_line_deframe, g_read_line in E.
  destruct (g_read_until R fill consume (Datatypes.S F) (l :: ls) r []) as [[[x acc] ls1] r1] eqn:E1.
  assert (L1 : (i r + N.to_nat l < Datatypes.S F)%nat) by lia.
  destruct (read_until_bound _ _ _ _ _ _ _ _ _ K L1 E1) as (H1 & H2 & H3 & e & d & -> & H4 & H5 & H8 & H6). cbn [app] in *.
  pose proof (spent_cap _ _ _ _ H6) as H7.
  assert (Z : forall z : pres bytes bytes, (z, ls1, r1) = (y, ls', r') -> fueled z -> ((exists a, z = PDone a) -> 0 < d /\ g r1 <= g r + d) -> within True l r (l :: ls) y r' ls').
  { intros z Q Fz Hz. inversion Q; subst. split; auto. split; auto. split; auto. exists (len e). repeat split; auto.
    - destruct y; cbn [slack]; try lia. assert (0 < len e /\ g r' <= g r + len e) by eauto. lia.
    - intros _ a Qa. apply Hz. eauto. }
  destruct (utf8 e).
  - destruct x as [k|].
    + refine (Z _ E _ _); [apply fueled_io; congruence|]. intros [a Q]. discriminate.
    + destruct (str_pop e) as [[rest ch]|] eqn:Ep.
      * assert (0 < d). { destruct e; [discriminate Ep|]. subst d. unfold len. cbn [List.length]. lia. }
        destruct (beqb ch [LF]) eqn:Eb; (refine (Z _ E _ _); [exact Logic.I|]); [|intros [a Q]; discriminate].
        intros _. split; auto. apply H8; auto. apply str_pop_some in Ep as [-> _]. apply beqb_eq in Eb. subst ch. apply in_or_app. right. now left.
      * refine (Z _ E _ _); [exact Logic.I|]. intros [a Q]. discriminate.
  - destruct x as [k|]; refine (Z _ E _ _); try (apply fueled_io; congruence); try (intros [a Q]; discriminate).
Qed.

Lemma usub_0 dbg n : usub dbg n 0 = Some n.
Proof. unfold usub. cbn [N.leb]. rewrite N.sub_0_r. destruct n; reflexivity. Qed.

Lemma crlf_parse_bound dbg ls r y ls' r' : ok r -> (i r + N.to_nat MAX_LINE_SIZE <= F)%nat ->
  g_crlf_parse R fill consume stF dbg [] ls r = (y, ls', r') -> within True MAX_LINE_SIZE r ls y r' ls'.
Proof.
  intros K L E. unfold g_crlf_parse, g_with_limit in E. change (len []) with 0 in E. rewrite usub_0 in E.
  destruct (g_line_deframe R fill consume stF [] (MAX_LINE_SIZE :: ls) r) as [[z ls1] r1] eqn:E1.
  pose proof (within_limit _ _ _ _ _ _ _ _ _ (line_deframe_bound _ _ _ _ _ _ K L E1)) as H.
  destruct z as [l|l k|e|].
  - destruct (parse_crlf_line l); inversion E; subst; same H.
  - assert (r' = r1 /\ ls' = tl ls1 /\ match k with InvalidData => exists e, y = PErr e | _ => y = PIo l k end) as (-> & -> & Q)
      by (destruct k; inversion E; subst; eauto).
    assert (Fk : fueled (PIo l k : pres bytes bytes)) by apply H.
    refine (within_as _ _ _ _ _ _ _ _ _ _ _ H _ _); [lia| |].
    + destruct k; try (rewrite Q; exact Fk). destruct Q as [e ->]. exact Logic.I.
    + intros a ->. destruct k; try discriminate Q. destruct Q as [e Q]. discriminate Q.
  - inversion E; subst. exact H.
  - inversion E; subst. exact H.
Qed.

Lemma line_small : (N.to_nat MAX_LINE_SIZE <= N.to_nat MAX_BODY_SIZE)%nat.
Proof. unfold MAX_LINE_SIZE, MAX_BODY_SIZE. lia. Qed.
Lemma headers_small : (N.to_nat MAX_HEADERS_SIZE <= N.to_nat MAX_BODY_SIZE)%nat.
Proof. unfold MAX_HEADERS_SIZE, MAX_BODY_SIZE. lia. Qed.
Definition room (r : R) : Prop := (i r + N.to_nat MAX_BODY_SIZE <= F)%nat.
Lemma crlf_bound dbg ls r y ls' r' : ok r -> room r ->
  g_crlf_parse R fill consume stF dbg [] ls r = (y, ls', r') -> within True MAX_LINE_SIZE r ls y r' ls'.
Proof. intros K L. apply crlf_parse_bound; auto. pose proof line_small. unfold room in L. lia. Qed.
Lemma room_le r r' : room r -> (i r' <= i r)%nat -> room r'.
Proof. unfold room. lia. Qed.

Lemma hdr_loop_bound f dbg : forall hm rd l ls r y ls' r', ok r -> room r -> (i r + N.to_nat l < f)%nat ->
  g_hdr_loop R fill consume stF f dbg (mk_hdr [] hm rd) (l :: ls) r = (y, ls', r') -> within False l r (l :: ls) y r' ls'.
Proof.
  induction f as [|f IH]; intros hm rd l ls r y ls' r' K L B E; [lia|]. cbn [g_hdr_loop h_line h_map h_read] in E.
  destruct (g_crlf_parse R fill consume stF dbg [] (l :: ls) r) as [[z ls1] r1] eqn:E1.
  pose proof (crlf_bound _ _ _ _ _ _ K L E1) as H. apply within_capped in H.
  destruct z as [[|c line]|line k|e|].
  - inversion E; subst. same H.
  - destruct (parse_header (c :: line)) as [e|[a b]]; [inversion E; subst; same H|].
    destruct H as (H1 & H2 & H3 & d & H4 & H5 & H6 & H7). inversion H6 as [|? l' ? ls1' Hl Hs]; subst.
    specialize (H7 Logic.I _ eq_refl). apply IH in E; auto; [|eapply room_le; eauto|lia].
    refine (within_then _ _ _ _ _ d _ _ _ _ _ _ _ _ H1 H2 H5 H6 eq_refl E _ _); [lia|intros []].
  - inversion E; subst. same H.
  - inversion E; subst. same H.
  - inversion E; subst. same H.
Qed.
Lemma hdr_parse_bound dbg ls r y ls' r' : ok r -> room r ->
  g_hdr_parse R fill consume stF dbg hdr_new ls r = (y, ls', r') -> within False MAX_HEADERS_SIZE r ls y r' ls'.
Proof.
  intros K L E. unfold g_hdr_parse, g_with_limit, hdr_new in E. cbn [h_read] in E. rewrite usub_0 in E.
  destruct (g_hdr_loop R fill consume stF (Datatypes.S (Datatypes.S F)) dbg (mk_hdr [] [] 0) (MAX_HEADERS_SIZE :: ls) r) as [[z ls1] r1] eqn:E1.
  inversion E; subst. eapply within_limit. refine (hdr_loop_bound _ _ _ _ _ _ _ _ _ _ K L _ E1). pose proof headers_small. unfold room in L. lia.
Qed.

Lemma bytes_loop_bound f : forall n got l ls r y ls' r', ok r -> (i r + N.to_nat l < f)%nat ->
  g_bytes_loop R readn f n got (l :: ls) r = (y, ls', r') -> within False l r (l :: ls) y r' ls'.
Proof.
  induction f as [|f IH]; intros n got l ls r y ls' r' K L E; [lia|]. cbn [g_bytes_loop] in E.
  destruct (N.ltb_spec (len got) n) as [Hn|Hn]; [|inversion E; subst; apply within_none; cbn; auto].
  destruct (g_read_lim R readn (n - len got) (l :: ls) r) as [[x ls1] r1] eqn:E1.
  assert (Hn1 : 0 < n - len got) by lia. destruct (read_lim_bound _ _ _ _ _ _ Hn1 K E1) as (H1 & H2 & H3).
  destruct x as [k|[|c bs]].
  - destruct H3 as (Q1 & Q2 & Q3 & Q4). inversion E; subst. split; auto. split; auto. split; [now apply fueled_io|]. exists 0. cbn [slack]. repeat split; auto; try lia; intros [].
  - destruct H3 as (Q1 & Q2 & Q3). inversion E; subst. split; auto. split; auto. split; [exact Logic.I|]. exists 0. change (len []) with 0 in *. cbn [slack]. repeat split; auto; try lia; intros [].
  - destruct H3 as (Q1 & Q2 & Q3). inversion Q3 as [|? l' ? ls1' Hl Hs]; subst.
    assert (0 < len (c :: bs)) by (unfold len; cbn [List.length]; lia).
    apply IH in E; [|auto|lia]. refine (within_then (S := unit) _ _ _ _ _ (len (c :: bs)) _ _ tt _ _ _ _ _ H1 H2 _ Q3 eq_refl E _ _); [cbn [slack]; lia|lia|intros []].
Qed.
Lemma to_end_bound f : forall l ls r acc x acc' ls' r', ok r -> (i r + N.to_nat l < f)%nat ->
  g_read_to_end R readn size f (l :: ls) r acc = (x, acc', ls', r') ->
  ok r' /\ (i r' <= i r)%nat /\ x <> Some ModelFuel /\ exists d, g r' <= g r + d + u /\ spent d (l :: ls) ls'.
Proof.
  induction f as [|f IH]; intros l ls r acc x acc' ls' r' K L E; [lia|]. cbn [g_read_to_end] in E.
  destruct (g_read_lim R readn (size acc) (l :: ls) r) as [[z ls1] r1] eqn:E1.
  destruct (read_lim_bound _ _ _ _ _ _ (size_pos acc) K E1) as (H1 & H2 & H3).
  destruct z as [k|[|c bs]].
  - destruct H3 as (Q1 & Q2 & Q3 & Q4).
    assert (Z : (Some k, acc, ls1, r1) = (x, acc', ls', r') -> ok r' /\ (i r' <= i r)%nat /\ x <> Some ModelFuel /\ exists d, g r' <= g r + d + u /\ spent d (l :: ls) ls').
    { intros Q. inversion Q; subst. repeat split; auto; [congruence|]. exists 0. split; [lia|auto]. }
    destruct k; try (exact (Z E)). destruct (Q4 eq_refl) as [Q5 Q6]. inversion Q2 as [|? l' ? ls1' Hl Hs]; subst.
    assert (Hf : (i r1 + N.to_nat l' < f)%nat) by lia. destruct (IH _ _ _ _ _ _ _ _ H1 Hf E) as (K1 & K2 & K3 & d & K4 & K5). repeat split; auto; try lia.
    exists (0 + d). split; [lia|]. eapply spent_trans; eauto.
  - destruct H3 as (Q1 & Q2 & Q3). inversion E; subst. repeat split; auto; [discriminate|]. exists (len (@nil ascii)). split; [lia|auto].
  - destruct H3 as (Q1 & Q2 & Q3). inversion Q3 as [|? l' ? ls1' Hl Hs]; subst.
    assert (0 < len (c :: bs)) by (unfold len; cbn [List.length]; lia).
    assert (Hf : (i r1 + N.to_nat l' < f)%nat) by lia. destruct (IH _ _ _ _ _ _ _ _ H1 Hf E) as (K1 & K2 & K3 & d & K4 & K5). repeat split; auto; try lia.
    exists (len (c :: bs) + d). split; [lia|]. eapply spent_trans; eauto.
Qed.

(** A state of the chunk parser between two of its parts. *)
Definition between (c : chunk_state) : Prop := match c with CSize l | CTail l _ => l = [] | CData b => bd_got b = [] | CFinished => True end.
Definition rounds (c : chunk_state) (n : nat) : nat :=
  match c with CSize _ => 3 * n + 1 | CData _ => 3 * n + 3 | CTail _ _ => 3 * n + 2 | CFinished => 1 end.
Lemma chunks_loop_bound f dbg : forall body c l ls r y ls' r', ok r -> room r -> l <= MAX_BODY_SIZE -> between c -> (rounds c (N.to_nat l) <= f)%nat ->
  g_chunks_loop R fill consume readn stF f dbg body c (l :: ls) r = (y, ls', r') -> within False l r (l :: ls) y r' ls'.
Proof.
  induction f as [|f IH]; intros body c l ls r y ls' r' K L Lm Bc B E.
  { destruct c; cbn [rounds] in B; lia. }
  assert (Stop : forall {A S} (z : pres A S) r1 ls1 (w : pres bytes chunks_st), within True MAX_LINE_SIZE r (l :: ls) z r1 ls1 -> (w, ls1, r1) = (y, ls', r') ->
      (match w with PIo _ k => exists s, z = PIo s k | PDone _ => False | _ => True end) -> within False l r (l :: ls) y r' ls').
  { intros A S z r1 ls1 w H Q Hw. inversion Q; subst. apply within_capped in H. refine (within_as _ _ _ _ _ _ _ _ _ _ _ H _ _); [lia| |].
    - destruct y; cbn; auto. destruct Hw as [s ->]. destruct H as (_ & _ & H & _). exact H.
    - intros a ->. contradiction. }
  assert (Go : forall {A S} (z : pres A S) r1 ls1 body' c' fresh, within fresh l r (l :: ls) z r1 ls1 ->
      g_chunks_loop R fill consume readn stF f dbg body' c' ls1 r1 = (y, ls', r') -> between c' ->
      (forall d l', l = l' + d -> ((fresh -> 0 < d)) -> (rounds c' (N.to_nat l') <= f)%nat) -> (exists a, z = PDone a) -> within False l r (l :: ls) y r' ls').
  { intros A S z r1 ls1 body' c' fresh H Eg Bc' Hr [a Hz]. destruct H as (H1 & H2 & H3 & d & H4 & H5 & H6 & H7).
    inversion H6 as [|? l' ? ls1' Hl Hs]; subst. apply IH in Eg; auto; [|eapply room_le; eauto|lia|].
    - refine (within_then _ _ _ _ _ d _ _ _ _ _ _ _ _ H1 H2 H5 H6 eq_refl Eg _ _); [lia|intros []].
    - apply (Hr d); auto. intros Fr. eapply H7; eauto. }
  cbn [g_chunks_loop] in E. destruct c as [line|b|line last|].
  - cbn [between] in Bc. subst line. unfold g_size_state in E. destruct (g_crlf_parse R fill consume stF dbg [] (l :: ls) r) as [[z ls1] r1] eqn:E1.
    pose proof (crlf_bound _ _ _ _ _ _ K L E1) as H.
    destruct z as [raw|raw k|e|]; [|refine (Stop _ _ _ _ _ _ H E _); eauto|refine (Stop _ _ _ _ _ _ H E _); eauto|refine (Stop _ _ _ _ _ _ H E _); eauto].
    destruct (parse_chunk_size raw) as [e|n]; [refine (Stop _ _ _ _ _ _ H E _); eauto|].
    refine (Go _ _ _ _ _ _ _ _ (within_capped _ _ _ _ _ _ _ _ _ H) E _ _ _); [reflexivity| |eauto].
    intros d l' Hl Hd. specialize (Hd Logic.I). cbn [rounds] in *. lia.
  - unfold g_data_state, g_bytes_deframe in E. destruct (g_bytes_loop R readn (Datatypes.S F) (bd_size b) (bd_got b) (l :: ls) r) as [[z ls1] r1] eqn:E1.
    assert (L1 : (i r + N.to_nat l < Datatypes.S F)%nat) by (unfold room in L; lia).
    pose proof (bytes_loop_bound _ _ _ _ _ _ _ _ _ K L1 E1) as H.
    destruct z as [data|b' k|e|].
    + refine (Go _ _ _ _ _ _ _ _ H E _ _ _); [reflexivity| |eauto]. intros d l' Hl _. cbn [rounds] in *. lia.
    + inversion E; subst. same H.
    + inversion E; subst. same H.
    + inversion E; subst. same H.
  - cbn [between] in Bc. subst line. unfold g_tail_state in E. destruct (g_crlf_parse R fill consume stF dbg [] (l :: ls) r) as [[z ls1] r1] eqn:E1.
    pose proof (crlf_bound _ _ _ _ _ _ K L E1) as H.
    destruct z as [[|c raw]|raw k|e|]; try (refine (Stop _ _ _ _ _ _ H E _); eauto; exact Logic.I).
    refine (Go _ _ _ _ _ _ _ _ (within_capped _ _ _ _ _ _ _ _ _ H) E _ _ _); [destruct last; reflexivity| |eauto].
    intros d l' Hl Hd. specialize (Hd Logic.I). destruct last; cbn [rounds] in *; lia.
  - inversion E; subst. apply within_none; cbn; auto.
Qed.

(** A body parser before its first byte. *)
Definition begun (b : body_st) : Prop :=
  match b with BSized s => bd_size s <= MAX_BODY_SIZE | BUntilEof d => d = [] | BChunked c => c = chunks_new | BEmpty => True end.
Lemma body_new_begun h flag b : body_new h flag = inr b -> begun b.
Proof.
  unfold body_new. destruct (get_content_length h) as [[e|n]|]; [discriminate| |].
  - destruct (N.ltb_spec MAX_BODY_SIZE n); [discriminate|]. intros E. inversion E. cbn. auto.
  - destruct (is_chunked h); [intros E; inversion E; reflexivity|]. destruct flag; intros E; inversion E; reflexivity.
Qed.
Lemma body_parse_bound dbg b ls r y ls' r' : ok r -> room r -> begun b ->
  g_body_parse R fill consume readn size stF stF dbg b ls r = (y, ls', r') -> ending u False MAX_BODY_SIZE r ls y r' ls'.
Proof.
  intros K L Bb E. unfold g_body_parse, g_with_limit in E.
  assert (exists lim, usub dbg MAX_BODY_SIZE (body_read_so_far b) = Some lim /\ lim <= MAX_BODY_SIZE /\ (match b with BSized _ => True | _ => lim = MAX_BODY_SIZE end)) as (lim & Z & Lm & Zm).
  { destruct b as [s|d|c|]; cbn [begun body_read_so_far] in *; subst; try (eexists; split; [apply usub_0|split; [lia|auto]]).
    unfold usub, bytes_read_so_far. destruct (N.leb_spec (bd_size s) MAX_BODY_SIZE); [|lia]. eexists. split; [reflexivity|]. split; [lia|auto]. }
  rewrite Z in E. assert (L1 : (i r + N.to_nat lim < Datatypes.S F)%nat) by (unfold room in L; lia).
  destruct b as [b|d|c|].
  - unfold g_bytes_deframe in E. destruct (g_bytes_loop R readn (Datatypes.S F) (bd_size b) (bd_got b) (lim :: ls) r) as [[z ls1] r1] eqn:E1.
    pose proof (within_most _ _ _ _ _ _ _ _ _ Lm (within_limit _ _ _ _ _ _ _ _ _ (bytes_loop_bound _ _ _ _ _ _ _ _ _ K L1 E1))) as H.
    destruct z as [v|b' k|e|]; inversion E; subst; same H.
  - subst lim. unfold g_eof_deframe in E. destruct (g_read_to_end R readn size (Datatypes.S F) (MAX_BODY_SIZE :: ls) r d) as [[[z d1] ls1] r1] eqn:E1.
    destruct (to_end_bound _ _ _ _ _ _ _ _ _ K L1 E1) as (H1 & H2 & H3 & n & H4 & H5).
    destruct z as [k|]; inversion E; subst; (split; [auto|]; split; [auto|]; split; [try exact Logic.I; apply fueled_io; congruence|]);
      exists n; (split; [eapply spent_cap; eauto|]; split; [cbn [slack]; auto|]; split; [eapply spent_tl; eauto|intros []]).
  - subst lim. unfold g_chunks_parse in E.
    destruct (g_chunks_loop R fill consume readn stF (3 * F + 4)%nat dbg (c_body c) (c_state c) (MAX_BODY_SIZE :: ls) r) as [[z ls1] r1] eqn:E1.
    cbn [begun] in Bb. subst c.
    assert (B : (rounds (c_state chunks_new) (N.to_nat MAX_BODY_SIZE) <= 3 * F + 4)%nat) by (cbn [rounds chunks_new c_state]; lia).
    pose proof (within_limit _ _ _ _ _ _ _ _ _ (chunks_loop_bound _ _ _ (c_state chunks_new) _ _ _ _ _ _ K L (N.le_refl _) eq_refl B E1)) as H.
    destruct z as [v|b' k|e|]; inversion E; subst; same H.
  - inversion E; subst. apply within_none; cbn; auto.
Qed.

(** A message parser at one of its beginnings, and how much it can take from there. *)
Definition begins {T} (s : msg_st T) : Prop :=
  match s with MFirst l => l = [] | MHeaders _ h => h = hdr_new | MBody _ _ b => begun b | MFinished _ _ _ => True end.
Definition allowed {T} (s : msg_st T) : N :=
  match s with
  | MFirst _ => MAX_LINE_SIZE + (MAX_HEADERS_SIZE + MAX_BODY_SIZE) | MHeaders _ _ => MAX_HEADERS_SIZE + MAX_BODY_SIZE | MBody _ _ _ => MAX_BODY_SIZE | MFinished _ _ _ => 0
  end.
Definition stage {T} (s : msg_st T) : nat :=
  match s with MFirst _ => 4 | MHeaders _ _ => 3 | MBody _ _ _ => 2 | MFinished _ _ _ => 1 end.

Lemma msg_loop_bound {T} (pf : bytes -> perr + T) f dbg flag : forall s ls r y ls' r', ok r -> room r -> begins s -> (stage s <= f)%nat ->
  g_msg_loop R fill consume readn size stF stF f pf dbg flag s ls r = (y, ls', r') -> ending u False (allowed s) r ls y r' ls'.
Proof.
  induction f as [|f IH]; intros s ls r y ls' r' K L Bs B E; [destruct s; cbn [stage] in B; lia|]. cbn [g_msg_loop] in E.
  assert (Stop : forall {A S} (z : pres A S) r1 ls1 (w : pres (T * header_map * bytes) (msg_st T)) fresh cap, ending u fresh cap r ls z r1 ls1 -> cap <= allowed s -> (w, ls1, r1) = (y, ls', r') ->
      (match w with PIo _ k => exists s, z = PIo s k | PDone _ => False | _ => True end) -> ending u False (allowed s) r ls y r' ls').
  { intros A S z r1 ls1 w fresh cap H Lc Q Hw. inversion Q; subst. destruct H as (H1 & H2 & H3 & d & H4 & H5 & H6 & H7). split; auto. split; auto. split.
    - destruct y; cbn; auto. destruct Hw as [s0 ->]. exact H3.
    - exists d. split; [lia|]. split; [|split; [auto|intros []]]. destruct y; try contradiction; destruct z; cbn [slack] in *; lia. }
  assert (Go : forall {A S} (z : pres A S) r1 ls1 s' fresh cap, within fresh cap r ls z r1 ls1 -> (exists a, z = PDone a) ->
      g_msg_loop R fill consume readn size stF stF f pf dbg flag s' ls1 r1 = (y, ls', r') -> begins s' -> cap + allowed s' <= allowed s -> (stage s' < stage s)%nat ->
      ending u False (allowed s) r ls y r' ls').
  { intros A S z r1 ls1 s' fresh cap H [a Ha] Eg Bs' Lc Ls. destruct H as (H1 & H2 & H3 & d & H4 & H5 & H6 & H7). subst z.
    apply IH in Eg; auto; [|eapply room_le; eauto|lia]. refine (within_then _ _ _ _ _ d _ _ _ _ _ _ _ _ H1 H2 H5 H6 eq_refl Eg _ _); [lia|intros []]. }
  destruct s as [line|t h|t hm b|t hm body]; cbn [begins] in Bs.
  - subst line. unfold g_first_line_state, g_first_parse in E. destruct (g_crlf_parse R fill consume stF dbg [] ls r) as [[z ls1] r1] eqn:E1.
    pose proof (crlf_bound _ _ _ _ _ _ K L E1) as H.
    assert (MAX_LINE_SIZE <= allowed (MFirst [] : msg_st T)) by (cbn [allowed stage]; lia).
    destruct z as [l|l k|e|]; try (refine (Stop _ _ _ _ _ _ _ _ (within_loose _ _ _ _ _ _ _ H) _ E _); eauto; exact Logic.I).
    destruct (pf l) as [e|t]; [refine (Stop _ _ _ _ _ _ _ _ (within_loose _ _ _ _ _ _ _ H) _ E _); eauto|].
    refine (Go _ _ _ _ _ _ _ _ H (ex_intro _ _ eq_refl) E _ _ _); [reflexivity|cbn [allowed stage]; lia|cbn [allowed stage]; lia].
  - subst h. unfold g_headers_state in E. destruct (g_hdr_parse R fill consume stF dbg hdr_new ls r) as [[z ls1] r1] eqn:E1.
    pose proof (hdr_parse_bound _ _ _ _ _ _ K L E1) as H.
    assert (MAX_HEADERS_SIZE <= allowed (MHeaders t hdr_new : msg_st T)) by (cbn [allowed stage]; lia).
    destruct z as [l|l k|e|]; try (refine (Stop _ _ _ _ _ _ _ _ (within_loose _ _ _ _ _ _ _ H) _ E _); eauto; exact Logic.I).
    destruct (body_new l flag) as [e|b] eqn:Eb; [refine (Stop _ _ _ _ _ _ _ _ (within_loose _ _ _ _ _ _ _ H) _ E _); eauto|].
    refine (Go _ _ _ _ _ _ _ _ H (ex_intro _ _ eq_refl) E _ _ _); [cbn; eapply body_new_begun; eauto|cbn [allowed stage]; lia|cbn [allowed stage]; lia].
  - unfold g_body_state in E. destruct (g_body_parse R fill consume readn size stF stF dbg b ls r) as [[z ls1] r1] eqn:E1.
    pose proof (body_parse_bound _ _ _ _ _ _ _ K L Bs E1) as H.
    destruct z as [l|l k|e|].
    + destruct f as [|f]; [cbn [stage] in B; lia|]. cbn [g_msg_loop] in E. inversion E; subst. destruct H as (H1 & H2 & _ & d & H4 & H5 & H6 & _).
      split; auto. split; auto. split; [exact Logic.I|]. exists d. cbn [allowed slack] in *. repeat split; auto; intros [].
    + refine (Stop _ _ _ _ _ _ _ _ H _ E _); eauto; cbn [allowed]; lia.
    + refine (Stop _ _ _ _ _ _ _ _ H _ E _); eauto; cbn [allowed]; lia.
    + refine (Stop _ _ _ _ _ _ _ _ H _ E _); eauto; cbn [allowed]; lia.
  - inversion E; subst. apply within_none; cbn; auto.
Qed.

Definition message_max : N := MAX_LINE_SIZE + (MAX_HEADERS_SIZE + MAX_BODY_SIZE).
Definition bounded {A S} (r : R) (y : pres A S) (r' : R) : Prop := ok r' /\ (i r' <= i r)%nat /\ fueled y /\ g r' <= g r + message_max + u.
Lemma req_parse_bound dbg r y r' : ok r -> room r ->
  g_req_parse R fill consume readn size stF stF dbg req_new r = (y, r') -> bounded r y r'.
Proof.
  intros K L E. unfold g_req_parse, g_msg_parse in E.
  destruct (g_msg_loop R fill consume readn size stF stF 4 parse_request_line dbg false req_new [] r) as [[z ls1] r1] eqn:E1.
  destruct (msg_loop_bound parse_request_line 4 dbg false req_new _ _ _ _ _ K L eq_refl (le_n _) E1) as (H1 & H2 & H3 & d & H4 & H5 & _).
  cbn [allowed req_new] in H4. fold message_max in H4. unfold bounded.
  destruct z as [[[[? ?] ?] ?]|l k|e|]; cbn [slack] in H5; inversion E; subst; repeat split; auto; lia.
Qed.
Lemma resp_parse_bound dbg r y r' : ok r -> room r ->
  g_resp_parse R fill consume readn size stF stF dbg resp_new r = (y, r') -> bounded r y r'.
Proof.
  intros K L E. unfold g_resp_parse, g_msg_parse in E.
  destruct (g_msg_loop R fill consume readn size stF stF 4 parse_status_line dbg true resp_new [] r) as [[z ls1] r1] eqn:E1.
  destruct (msg_loop_bound parse_status_line 4 dbg true resp_new _ _ _ _ _ K L eq_refl (le_n _) E1) as (H1 & H2 & H3 & d & H4 & H5 & _).
  cbn [allowed resp_new] in H4. fold message_max in H4. unfold bounded.
  destruct z as [[[? ?] ?]|l k|e|]; cbn [slack] in H5; inversion E; subst; repeat split; auto; lia.
Qed.
End Bound.
