(** The parser of addresses of version 6 reads what Spec/Addr6.v says. *)
From Coq Require Import List Ascii String NArith Bool Lia.
From Verif.Model Require Import Bytes Addr.
From Verif.Spec Require Import Numerals Addr.
From Verif.Proofs Require Import AddrFacts.
From Verif.Model Require Import Addr6.
From Verif.Spec Require Import Addr6.
Import ListNotations.
Local Open Scope N_scope.

(** ** Groups *)
Lemma digit16 c : forall d, digit_val 16 c = Some d <-> is_digit 16 c d.
Proof.
  intros d. unfold digit_val, is_digit.
  destruct (48 <=? bval c) eqn:A; destruct (bval c <=? 57) eqn:B; cbn [andb];
  destruct (97 <=? bval c) eqn:C; destruct (bval c <=? 102) eqn:D; cbn [andb];
  destruct (65 <=? bval c) eqn:E; destruct (bval c <=? 70) eqn:F; cbn [andb];
  rewrite ?N.leb_le, ?N.leb_gt in *;
  try match goal with |- context [?v <? 16] => destruct (v <? 16) eqn:G; [apply N.ltb_lt in G|apply N.ltb_ge in G] end;
  (split; [intros X; inversion X; subst; lia|]); intros (X1 & [X|[X|X]]); try lia; try (f_equal; lia).
Qed.
Lemma digit10_16 c : digit_val 16 c = None -> digit_val 10 c = None.
Proof.
  intros H. destruct (digit_val 10 c) as [d|] eqn:E; auto. apply digit10 in E. assert (K : digit_val 16 c = Some d); [|congruence].
  apply digit16. destruct E as (E1 & E2). split; auto. lia.
Qed.

Definition no_hex_next (s : bytes) : Prop := match s with [] => True | c :: _ => digit_val 16 c = None end.
Lemma read_hex_f_ok s : forall n r v t, read_hex_f n r s = Some (v, t) ->
  exists p ds, s = p ++ t /\ Forall2 (is_digit 16) p ds /\ v = r * 16 ^ len p + positional 16 ds /\ no_hex_next t /\
    (p = [] -> n <> 0%nat) /\ (p <> [] -> (n + List.length p <= 4)%nat).
Proof.
  induction s as [|c s IH]; intros n r v t E; cbn [read_hex_f] in E.
  - destruct n; inversion E; subst. exists [], []. cbn. repeat split; auto; try congruence; lia.
  - destruct (digit_val 16 c) as [d|] eqn:D.
    + destruct (Nat.ltb 4 (S n)) eqn:T; [discriminate|]. apply PeanoNat.Nat.ltb_ge in T.
      apply IH in E as (p & ds & -> & F & V & Nd & P0 & P1). exists (c :: p), (d :: ds). split; auto. split; [constructor; auto; now apply digit16|].
      split; [|split; auto; split; [discriminate|]].
      * rewrite V. cbn [positional]. unfold len. cbn [List.length]. rewrite <- (F2_length _ _ _ F). rewrite Nnat.Nat2N.inj_succ, N.pow_succ_r'. lia.
      * intros _. cbn [List.length]. destruct p; [cbn; lia|]. specialize (P1 ltac:(discriminate)). lia.
    + destruct n; inversion E; subst. exists [], []. cbn. repeat split; auto; try congruence; lia.
Qed.
Lemma read_hex_f_make p : forall ds n r t, Forall2 (is_digit 16) p ds -> no_hex_next t -> (n + List.length p <= 4)%nat -> (p = [] -> n <> 0%nat) ->
  read_hex_f n r (p ++ t) = Some (r * 16 ^ len p + positional 16 ds, t).
Proof.
  induction p as [|c p IH]; intros ds n r t F Nd L P0.
  - inversion F; subst. cbn [app len positional]. specialize (P0 eq_refl). destruct n; [now destruct P0|].
    replace (r * 16 ^ len (@nil ascii) + 0) with r by (cbn; lia).
    destruct t as [|c t]; cbn [read_hex_f]; auto. cbn in Nd. now rewrite Nd.
  - inversion F as [|? d ? ds' D F' E1 E2]; subst. cbn [app read_hex_f]. rewrite (proj2 (digit16 c d) D).
    cbn [List.length] in L. destruct (Nat.ltb 4 (S n)) eqn:T; [apply PeanoNat.Nat.ltb_lt in T; lia|].
    rewrite (IH ds'); auto; [|lia]. f_equal. f_equal. cbn [positional]. unfold len. cbn [List.length]. rewrite <- (F2_length _ _ _ F'). rewrite Nnat.Nat2N.inj_succ, N.pow_succ_r'. lia.
Qed.
Lemma read_hex_iff s v t : read_hex s = Some (v, t) <-> exists p, s = p ++ t /\ no_hex_next t /\ hextet p v.
Proof.
  unfold read_hex. split.
  - intros E. apply read_hex_f_ok in E as (p & ds & -> & F & V & Nd & P0 & P1). exists p. split; auto. split; auto.
    assert (Ne : p <> []) by (intros ->; now apply P0). split; auto. split; [now apply P1|]. exists ds. split; auto.
  - intros (p & -> & Nd & Ne & L & ds & F & ->). rewrite (read_hex_f_make p ds); auto.
Qed.
Lemma read_hex_none s : no_hex_next s -> read_hex s = None.
Proof. unfold read_hex. destruct s as [|c s]; cbn; auto. now intros ->. Qed.

(** ** IPv4 addresses as the last groups *)
Lemma read_v4_ok sd s a b c d t : read_v4 sd s = Some ((a, b, c, d), t) ->
  exists p, s = p ++ t /\ no_digit_next t /\ quad (sd_zeros sd) p [256 * a + b; 256 * c + d].
Proof.
  unfold read_v4. intros E.
  destruct (read_octet sd s) as [[a' s1]|] eqn:E1; [|discriminate]. destruct (read_char "."%char s1) as [s2|] eqn:E2; [|discriminate].
  destruct (read_octet sd s2) as [[b' s3]|] eqn:E3; [|discriminate]. destruct (read_char "."%char s3) as [s4|] eqn:E4; [|discriminate].
  destruct (read_octet sd s4) as [[c' s5]|] eqn:E5; [|discriminate]. destruct (read_char "."%char s5) as [s6|] eqn:E6; [|discriminate].
  destruct (read_octet sd s6) as [[d' s7]|] eqn:E7; [|discriminate]. inversion E; subst.
  apply read_octet_iff in E1 as (p1 & -> & _ & O1). apply read_char_iff in E2 as ->.
  apply read_octet_iff in E3 as (p2 & -> & _ & O2). apply read_char_iff in E4 as ->.
  apply read_octet_iff in E5 as (p3 & -> & _ & O3). apply read_char_iff in E6 as ->.
  apply read_octet_iff in E7 as (p4 & -> & Nd & O4).
  exists (p1 ++ "."%char :: p2 ++ "."%char :: p3 ++ "."%char :: p4). split; [now repeat rewrite <- ?app_assoc, <- ?app_comm_cons|]. split; auto.
  exists p1, p2, p3, p4, a, b, c, d. tauto.
Qed.
Lemma read_v4_make sd p ns t : quad (sd_zeros sd) p ns -> no_digit_next t ->
  exists a b c d, read_v4 sd (p ++ t) = Some ((a, b, c, d), t) /\ ns = [256 * a + b; 256 * c + d].
Proof.
  intros (p1 & p2 & p3 & p4 & a & b & c & d & -> & O1 & O2 & O3 & O4 & ->) Nd. exists a, b, c, d. split; auto. unfold read_v4.
  assert (X : forall q v r, octet (sd_zeros sd) q v -> no_digit_next r -> read_octet sd (q ++ r) = Some (v, r)) by (intros; apply read_octet_iff; eauto).
  repeat rewrite <- ?app_assoc, <- ?app_comm_cons.
  rewrite (X p1 a) by (auto; reflexivity). rewrite (proj2 (read_char_iff _ _ _) eq_refl).
  rewrite (X p2 b) by (auto; reflexivity). rewrite (proj2 (read_char_iff _ _ _) eq_refl).
  rewrite (X p3 c) by (auto; reflexivity). rewrite (proj2 (read_char_iff _ _ _) eq_refl).
  now rewrite (X p4 d).
Qed.
(** Hexadecimal digits without a dot after them are no IPv4 address. *)
Lemma read_v4_none sd p ds t : Forall2 (is_digit 16) p ds -> no_hex_next t -> (forall r, t <> "."%char :: r) -> read_v4 sd (p ++ t) = None.
Proof.
  intros F Nh Nd. unfold read_v4. destruct (read_octet sd (p ++ t)) as [[a s1]|] eqn:E1; auto. destruct (read_char "."%char s1) as [s2|] eqn:E2; auto.
  exfalso. apply read_char_iff in E2 as ->. apply read_octet_iff in E1 as (p1 & E & _ & (e1 & _ & F1 & _) & _).
  revert p1 e1 E F1. induction F as [|c d p ds D F IH]; intros p1 e1 E F1.
  - cbn [app] in E. destruct p1 as [|c p1]; [now apply (Nd s2)|]. subst t. cbn in Nh. inversion F1 as [|? d ? ? D]; subst. apply digit10 in D.
    now rewrite (digit10_16 _ Nh) in D.
  - destruct p1 as [|c1 p1]; inversion E; subst.
    + apply digit16 in D. discriminate.
    + inversion F1; subst. eapply IH; eauto.
Qed.

(** ** Runs of groups *)
(** What may follow groups that are read to the end. *)
Definition stop (t : bytes) : Prop :=
  no_hex_next t /\ (forall r, t <> "."%char :: r) /\ (forall r, t = ":"%char :: r -> no_hex_next r).
Definition colon (first : bool) : bytes := if first then [] else [":"%char].
Lemma read_sep_make {A} first (inner : bytes -> option (A * bytes)) s : read_sep first inner (colon first ++ s) = inner s.
Proof. destruct first; cbn; auto. Qed.
Lemma read_sep_ok {A} first (inner : bytes -> option (A * bytes)) s x : read_sep first inner s = Some x -> exists s', s = colon first ++ s' /\ inner s' = Some x.
Proof.
  unfold read_sep, colon. destruct first; [intros H; exists s; auto|]. destruct (read_char ":"%char s) as [s1|] eqn:E; intros H; [|discriminate]. apply read_char_iff in E as ->. exists s1. auto.
Qed.
Lemma read_groups_nothing sd limit first t : stop t -> read_groups sd limit first t = ([], false, t).
Proof.
  intros (S1 & S2 & S3). destruct limit as [|l]; cbn [read_groups]; auto.
  assert (X : forall r, no_hex_next r -> (forall x, r <> "."%char :: x) -> read_v4 sd r = None) by (intros r N1 N2; exact (read_v4_none sd [] [] r (Forall2_nil _) N1 N2)).
  assert (V : read_sep first (read_v4 sd) t = None /\ read_sep first read_hex t = None).
  { destruct first; cbn [read_sep].
    - split; [now apply X|now apply read_hex_none].
    - destruct (read_char ":"%char t) as [r|] eqn:E; auto. apply read_char_iff in E as ->. specialize (S3 r eq_refl).
      split; [|now apply read_hex_none]. destruct (read_v4 sd r) as [[[[[a b] c] d] r']|] eqn:K; auto.
      apply read_v4_ok in K as (p & -> & _ & a1 & ? & ? & ? & ? & ? & ? & ? & -> & ((e & Ne & F & _) & _) & _).
      destruct a1 as [|y a1]; [now destruct Ne|]. cbn in S3. inversion F as [|? ? ? ? D]; subst. apply digit10 in D. apply digit10_16 in S3. congruence. }
  destruct V as [V1 V2]. rewrite V2. destruct l; [auto|now rewrite V1].
Qed.
Lemma read_groups_make sd q p ns : groups (sd_zeros sd) q p ns -> forall limit first t, stop t -> (List.length ns <= limit)%nat ->
  read_groups sd limit first (colon first ++ p ++ t) = (ns, q, t).
Proof.
  intros G. induction G as [g n H|s ns H|q g n s ns H G IH]; intros limit first t St L.
  - destruct limit as [|l]; [cbn in L; lia|]. cbn [read_groups]. rewrite !read_sep_make.
    destruct St as (S1 & S2 & S3). pose proof H as (_ & _ & ds & F & _). rewrite (read_v4_none sd g ds t F S1 S2).
    rewrite (proj2 (read_hex_iff (g ++ t) n t)) by eauto. rewrite read_groups_nothing by (split; auto). now destruct l.
  - pose proof H as (a & b & c & d & na & nb & nc & nd & _ & _ & _ & _ & _ & E). subst ns. cbn [List.length] in L.
    destruct limit as [|[|l]]; try lia. cbn [read_groups]. rewrite !read_sep_make.
    assert (Nd : no_digit_next t) by (destruct St as (S1 & _); destruct t; cbn in *; auto using digit10_16).
    destruct (read_v4_make sd s _ t H Nd) as (a' & b' & c' & d' & -> & ->). reflexivity.
  - destruct limit as [|l]; [cbn in L; lia|]. cbn [read_groups]. rewrite !read_sep_make. rewrite <- app_assoc, <- app_comm_cons.
    pose proof H as (_ & _ & ds & F & _). rewrite (read_v4_none sd g ds _ F) by first [reflexivity|intros r X; discriminate X].
    rewrite (proj2 (read_hex_iff _ n (":"%char :: s ++ t))) by (exists g; split; auto; split; [reflexivity|auto]).
    specialize (IH l false t St ltac:(cbn in L; lia)). cbn [colon app] in IH. rewrite IH. now destruct l.
Qed.
Lemma read_groups_ok sd : forall limit first s ns q t, read_groups sd limit first s = (ns, q, t) ->
  (List.length ns <= limit)%nat /\
  ((ns = [] /\ q = false /\ t = s) \/ (exists p, s = colon first ++ p ++ t /\ groups (sd_zeros sd) q p ns)).
Proof.
  induction limit as [|l IH]; intros first s ns q t E; cbn [read_groups] in E.
  - inversion E; subst. cbn. auto.
  - destruct (match l with O => None | S _ => read_sep first (read_v4 sd) s end) as [[[[[a b] c] d] s1]|] eqn:V.
    + destruct l as [|l]; [discriminate|]. inversion E; subst. apply read_sep_ok in V as (s' & -> & V). apply read_v4_ok in V as (p & -> & _ & Q).
      cbn [List.length]. split; [lia|]. right. exists p. split; auto. now apply groups_quad.
    + destruct (read_sep first read_hex s) as [[g s1]|] eqn:H.
      * destruct (read_groups sd l false s1) as [[gs q'] s2] eqn:R. inversion E; subst. apply read_sep_ok in H as (s' & -> & H).
        apply read_hex_iff in H as (p & -> & _ & H). apply IH in R as (L & [(-> & -> & ->)|(p' & -> & G)]).
        -- split; [cbn; lia|]. right. exists p. split; auto. now apply groups_one.
        -- split; [cbn; lia|]. right. exists (p ++ ":"%char :: p'). split; [cbn [colon]; now rewrite <- !app_assoc|]. now apply groups_more.
      * inversion E; subst. split; [cbn; lia|auto].
Qed.
Lemma groups_some zeros q p ns : groups zeros q p ns -> ns <> [].
Proof. intros []; try discriminate. destruct H as (? & ? & ? & ? & ? & ? & ? & ? & _ & _ & _ & _ & _ & ->). discriminate. Qed.

(** ** Addresses *)
Lemma read_v6_ok sd o s ns t : read_v6 sd o s = Some (ns, t) -> exists p, s = p ++ t /\ v6_text (sd_zeros sd) (gap_of o) p ns.
Proof.
  unfold read_v6. intros E. destruct (read_groups sd 8 true s) as [[hs q] s1] eqn:R. apply read_groups_ok in R as (L & R).
  destruct (Nat.eqb (List.length hs) 8) eqn:E8.
  - apply PeanoNat.Nat.eqb_eq in E8. inversion E; subst. destruct R as [(-> & _)|(p & -> & G)]; [discriminate|]. exists p. split; auto. left. eauto.
  - apply PeanoNat.Nat.eqb_neq in E8. destruct q; [discriminate|].
    destruct (read_char ":"%char s1) as [s2|] eqn:C1; [|discriminate]. destruct (read_char ":"%char s2) as [s3|] eqn:C2; [|discriminate].
    apply read_char_iff in C1 as ->. apply read_char_iff in C2 as ->.
    destruct (read_groups sd (8 - (List.length hs + gap_of o)) true s3) as [[ts q'] s4] eqn:R2. inversion E; subst. apply read_groups_ok in R2 as (L2 & R2).
    assert (H : exists h, s = h ++ ":"%char :: ":"%char :: s3 /\ maybe (groups (sd_zeros sd) false) h hs).
    { destruct R as [(-> & _ & <-)|(p & -> & G)]; [exists []; split; auto; now left|exists p; split; auto; now right]. }
    assert (T : exists u, s3 = u ++ t /\ maybe (fun s ns => exists q, groups (sd_zeros sd) q s ns) u ts).
    { destruct R2 as [(-> & _ & <-)|(p & -> & G)]; [exists []; split; auto; now left|exists p; split; auto; right; eauto]. }
    destruct H as (h & -> & H). destruct T as (u & -> & T). exists (h ++ ":"%char :: ":"%char :: u). split; [now rewrite <- app_assoc|].
    right. exists h, hs, u, ts. split; auto. split; auto. split; auto. split; [lia|]. split; auto.
    destruct T as [(_ & ->)|(q & G)]; [cbn [List.length]|apply groups_some in G; destruct ts; [now destruct G|cbn [List.length] in *; lia]].
    unfold gap_of. destruct (s6_gap o); lia.
Qed.

Definition closes (t : bytes) : Prop := exists r, t = "]"%char :: r \/ t = "%"%char :: r.
Lemma closes_stop t : closes t -> stop t.
Proof. intros (r & [-> | ->]); (split; [reflexivity|split; [intros ? X; discriminate|intros ? X; discriminate]]). Qed.
Lemma read_v6_make sd o p ns t : v6_text (sd_zeros sd) (gap_of o) p ns -> closes t -> read_v6 sd o (p ++ t) = Some (ns, t).
Proof.
  intros V C. apply closes_stop in C. unfold read_v6. destruct V as [(L & q & G)|(h & hs & u & ts & -> & H & T & L8 & L & ->)].
  - pose proof (read_groups_make sd q p ns G 8 true t C ltac:(lia)) as R. cbn [colon app] in R. rewrite R, L. reflexivity.
  - rewrite <- app_assoc, <- !app_comm_cons.
    assert (R : read_groups sd 8 true (h ++ ":"%char :: ":"%char :: u ++ t) = (hs, false, ":"%char :: ":"%char :: u ++ t)).
    { assert (S : stop (":"%char :: ":"%char :: u ++ t)) by (split; [reflexivity|split; [discriminate|intros r E; inversion E; reflexivity]]).
      destruct H as [(-> & ->)|G]; [now apply read_groups_nothing|]. apply (read_groups_make sd false h hs G 8 true); auto. lia. }
    rewrite R. destruct (Nat.eqb (List.length hs) 8) eqn:E8; [apply PeanoNat.Nat.eqb_eq in E8; lia|].
    rewrite !(proj2 (read_char_iff _ _ _) eq_refl).
    assert (R2 : exists q, read_groups sd (8 - (List.length hs + gap_of o)) true (u ++ t) = (ts, q, t)).
    { destruct T as [(-> & ->)|(q & G)]; [exists false; now apply read_groups_nothing|]. exists q. apply (read_groups_make sd q u ts G _ true); auto. lia. }
    destruct R2 as (q & ->). reflexivity.
Qed.

Lemma read_number_port sd s p : read_number (sd_port_digits sd) 65536 true s = Some (p, []) <-> port (sd_port_digits sd) s p.
Proof.
  rewrite read_number_iff. unfold port. split.
  - intros (q & E & _ & D & U & T & _). rewrite app_nil_r in E. subst q. split; auto. split; [lia|]. intros m E. rewrite E in T. cbn in T. now apply PeanoNat.Nat.ltb_ge in T.
  - intros (D & U & T). exists s. rewrite app_nil_r. split; auto. split; [exact I|]. split; auto. split; [lia|]. split; [|discriminate].
    destruct (sd_port_digits sd) as [m|]; cbn; auto. apply PeanoNat.Nat.ltb_ge. auto.
Qed.
Lemma parse_v6_iff sd o s ip z p : parse_v6 sd o s = Some (ip, z, p) <->
  bracketed (sd_zeros sd) (sd_port_digits sd) (gap_of o) (s6_scopes o) s ip z p.
Proof.
  unfold parse_v6, bracketed. split.
  - intros E. destruct (read_v6 sd o s) as [[ip' s1]|] eqn:R; [|discriminate]. apply read_v6_ok in R as (t & -> & V).
    destruct (read_scope o s1) as [z' s2] eqn:Z. destruct (read_char "]"%char s2) as [s3|] eqn:C1; [|discriminate].
    destruct (read_char ":"%char s3) as [s4|] eqn:C2; [|discriminate]. apply read_char_iff in C1 as ->. apply read_char_iff in C2 as ->.
    destruct (read_number (sd_port_digits sd) 65536 true s4) as [[p' [|]]|] eqn:P; try discriminate. inversion E; subst. apply read_number_port in P.
    unfold read_scope in Z. destruct (s6_scopes o) eqn:Sc.
    + destruct (read_char "%"%char s1) as [s5|] eqn:C3.
      * apply read_char_iff in C3 as ->. destruct (read_number None 4294967296 true s5) as [[n s6]|] eqn:Nu; inversion Z; subst.
        apply read_number_iff in Nu as (d & -> & _ & D & U & _). exists t, ("%"%char :: d), s4. split; [now rewrite <- app_comm_cons|]. split; auto. split; auto.
        right. split; auto. exists d. split; auto. split; auto. lia.
      * inversion Z; subst. exists t, [], s4. repeat split; auto; apply P.
    + inversion Z; subst. exists t, [], s4. repeat split; auto; apply P.
  - intros (t & zs & q & -> & V & P & Z).
    assert (C : closes (zs ++ "]"%char :: ":"%char :: q)) by (destruct Z as [(-> & _)|(_ & d & -> & _)]; eexists; cbn [app]; eauto).
    rewrite (read_v6_make sd o t ip _ V C).
    assert (S : read_scope o (zs ++ "]"%char :: ":"%char :: q) = (z, "]"%char :: ":"%char :: q)).
    { unfold read_scope. destruct Z as [(-> & ->)|(-> & d & -> & D & U)].
      - cbn [app]. destruct (s6_scopes o); auto.
      - rewrite <- app_comm_cons, (proj2 (read_char_iff _ _ _) eq_refl).
        rewrite (proj2 (read_number_iff None 4294967296 true _ z ("]"%char :: ":"%char :: q))); auto.
        exists d. split; auto. split; [reflexivity|]. split; auto. split; [lia|]. split; [reflexivity|discriminate]. }
    rewrite S, !(proj2 (read_char_iff _ _ _) eq_refl). now rewrite (proj2 (read_number_port sd q p) P).
Qed.
