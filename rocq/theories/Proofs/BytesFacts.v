(** Facts about bytes, strings and UTF-8. *)
From Coq Require Import List Ascii String NArith ZArith Bool Lia.
From Coq Require Import ZifyBool ZifyNat ZifyN.
From Verif.Model Require Import Bytes Io Common Parse.
From Verif.Spec Require Import Batch.
Import ListNotations.
Local Open Scope N_scope.

Lemma len_app {A} (a b : list A) : len (a ++ b) = len a + len b.
Proof. unfold len. rewrite app_length. lia. Qed.
Lemma len_cons {A} (a : A) b : len (a :: b) = len b + 1.
Proof. unfold len. cbn [List.length]. lia. Qed.
Lemma len_nil {A} : len (@nil A) = 0.
Proof. reflexivity. Qed.
Lemma len_0 {A} (l : list A) : len l = 0 -> l = [].
Proof. destruct l; auto. rewrite len_cons. lia. Qed.
Lemma len_pos {A} (l : list A) : l <> [] -> 0 < len l.
Proof. destruct l; [congruence|]. rewrite len_cons. lia. Qed.
Lemma to_nat_len {A} (l : list A) : N.to_nat (len l) = List.length l.
Proof. unfold len. lia. Qed.
Lemma len_firstn {A} n (l : list A) : len (firstn (N.to_nat n) l) = N.min n (len l).
Proof. unfold len. rewrite firstn_length. lia. Qed.
Lemma len_skipn {A} n (l : list A) : len (skipn (N.to_nat n) l) = len l - n.
Proof. unfold len. rewrite skipn_length. lia. Qed.
Lemma len_rev {A} (l : list A) : len (rev l) = len l.
Proof. unfold len. now rewrite rev_length. Qed.
Lemma len_map {A B} (f : A -> B) l : len (map f l) = len l.
Proof. unfold len. now rewrite map_length. Qed.

Lemma firstn_len_app {A} (a b : list A) : firstn (N.to_nat (len a)) (a ++ b) = a.
Proof. rewrite to_nat_len, firstn_app, Nat.sub_diag, firstn_all. cbn. now rewrite app_nil_r. Qed.
Lemma skipn_len_app {A} (a b : list A) : skipn (N.to_nat (len a)) (a ++ b) = b.
Proof. rewrite to_nat_len, skipn_app, Nat.sub_diag, skipn_all. reflexivity. Qed.
Lemma firstn_full {A} n (l : list A) : len l <= n -> firstn (N.to_nat n) l = l.
Proof. intros. apply firstn_all2. unfold len in *. lia. Qed.
Lemma skipn_full {A} n (l : list A) : len l <= n -> skipn (N.to_nat n) l = [].
Proof. intros. apply skipn_all2. unfold len in *. lia. Qed.

Lemma beqb_eq a b : beqb a b = true <-> a = b.
Proof.
  revert b; induction a as [|x a IH]; intros [|y b]; cbn; split; intros H; try easy.
  - apply andb_true_iff in H as [H1 H2]. apply Ascii.eqb_eq in H1. apply IH in H2. congruence.
  - injection H as -> ->. apply andb_true_iff. split; [apply Ascii.eqb_refl | now apply IH].
Qed.
Lemma beqb_refl a : beqb a a = true.
Proof. now apply beqb_eq. Qed.
Lemma beqb_neq a b : beqb a b = false <-> a <> b.
Proof.
  split; intros H.
  - intros ->. rewrite beqb_refl in H. discriminate.
  - destruct (beqb a b) eqn:E; auto. apply beqb_eq in E. contradiction.
Qed.
Lemma beqb_sym a b : beqb a b = beqb b a.
Proof.
  destruct (beqb a b) eqn:E; symmetry.
  - apply beqb_eq. symmetry. now apply beqb_eq.
  - apply beqb_neq. apply beqb_neq in E. congruence.
Qed.

Lemma bval_lt c : bval c < 256.
Proof. destruct c as [[] [] [] [] [] [] [] []]; cbn; lia. Qed.
Lemma bval_inj a b : bval a = bval b -> a = b.
Proof. intros H. rewrite <- (ascii_N_embedding a), <- (ascii_N_embedding b). unfold bval in H. now rewrite H. Qed.
Lemma bval_of n : n < 256 -> bval (ascii_of_N n) = n.
Proof. apply N_ascii_embedding. Qed.
Lemma bval_LF : bval LF = 10. Proof. reflexivity. Qed.
Lemma bval_CR : bval CR = 13. Proof. reflexivity. Qed.

(** ** UTF-8 *)

Definition ugood (st : ustate) : Prop :=
  match st with UStart => True | UNext n lo hi => 128 <= lo end.

Lemma ustep_good st c st' : ugood st -> ustep st c = Some st' -> ugood st'.
Proof.
  intros G. unfold ustep. destruct st as [|n lo hi]; cbn in G.
  - repeat match goal with |- context [if ?b then _ else _] => destruct b end;
      intros H; inversion H; subst; cbn; auto; lia.
  - destruct (_ && _); [|discriminate]. destruct n as [|[|n]]; intros H; inversion H; subst; cbn; lia.
Qed.

Lemma urun_good s st st' : ugood st -> urun st s = Some st' -> ugood st'.
Proof.
  revert st; induction s as [|c s IH]; cbn; intros st G H.
  - now inversion H; subst.
  - destruct (ustep st c) eqn:E; [|discriminate]. eapply IH; [|eassumption]. eapply ustep_good; eauto.
Qed.

Lemma urun_app st a b :
  urun st (a ++ b) = match urun st a with Some st' => urun st' b | None => None end.
Proof.
  revert st; induction a as [|c a IH]; cbn; intros st; auto.
  destruct (ustep st c); auto.
Qed.

Lemma utf8_app a b : utf8 a = true -> utf8 (a ++ b) = utf8 b.
Proof.
  unfold utf8. rewrite urun_app. destruct (urun UStart a) as [[|]|]; try discriminate. auto.
Qed.

Lemma utf8_app_true a b : utf8 a = true -> utf8 b = true -> utf8 (a ++ b) = true.
Proof. intros H1 H2. now rewrite utf8_app. Qed.

Lemma ustep_ascii st c : ugood st -> bval c < 128 ->
  ustep st c = match st with UStart => Some UStart | _ => None end.
Proof.
  intros G Hc. destruct st as [|n lo hi]; cbn.
  - replace (bval c <=? 127) with true by lia. reflexivity.
  - cbn in G. replace (lo <=? bval c) with false by lia. reflexivity.
Qed.

(** An ASCII byte can only follow complete characters. *)
Lemma utf8_snoc_ascii l c : bval c < 128 -> utf8 (l ++ [c]) = utf8 l.
Proof.
  intros Hc. unfold utf8. rewrite urun_app. destruct (urun UStart l) as [st|] eqn:E; auto.
  assert (ugood st) by (eapply urun_good; [|eassumption]; exact I).
  cbn [urun]. rewrite ustep_ascii by assumption. destruct st; auto.
Qed.

Lemma utf8_ascii l : Forall (fun c => bval c < 128) l -> utf8 l = true.
Proof.
  unfold utf8. assert (G : forall l, Forall (fun c => bval c < 128) l -> urun UStart l = Some UStart).
  { induction 1; cbn [urun]; auto. rewrite ustep_ascii by (cbn; auto). auto. }
  intros H. now rewrite G.
Qed.

Lemma utf8_nil : utf8 [] = true.
Proof. reflexivity. Qed.

(** ** String::pop *)

Lemma str_pop_snoc l c : is_cont c = false -> str_pop (l ++ [c]) = Some (l, [c]).
Proof.
  intros H. unfold str_pop. rewrite rev_app_distr. cbn [rev app pop_rev]. rewrite H.
  now rewrite rev_involutive.
Qed.

Lemma pop_rev_some r ch r' ch' : pop_rev r ch = Some (r', ch') ->
  exists c m, r = m ++ c :: r' /\ ch' = c :: rev m ++ ch /\ is_cont c = false /\ forallb is_cont m = true.
Proof.
  revert ch; induction r as [|c r IH]; cbn; intros ch H; [discriminate|].
  destruct (is_cont c) eqn:E.
  - apply IH in H as (c' & m & -> & -> & Hc & Hm). exists c', (c :: m). cbn. rewrite E, Hm.
    rewrite <- app_assoc. cbn. auto.
  - inversion H; subst. exists c, []. cbn. auto.
Qed.

Lemma pop_rev_none r ch : pop_rev r ch = None -> forallb is_cont r = true.
Proof.
  revert ch; induction r as [|c r IH]; cbn; intros ch H; auto.
  destruct (is_cont c) eqn:E; [|discriminate]. cbn. eauto.
Qed.

Lemma str_pop_some s rest ch : str_pop s = Some (rest, ch) ->
  s = rest ++ ch /\ exists c m, ch = c :: m /\ is_cont c = false /\ forallb is_cont m = true.
Proof.
  unfold str_pop. destruct (pop_rev (rev s) []) as [[r c0]|] eqn:E; [|discriminate].
  intros H; inversion H; subst. apply pop_rev_some in E as (c & m & E & -> & Hc & Hm).
  rewrite app_nil_r. split.
  - apply (f_equal (@rev byte)) in E. rewrite rev_involutive, rev_app_distr in E. cbn in E.
    rewrite <- app_assoc in E. exact E.
  - exists c, (rev m). repeat split; auto.
    rewrite forallb_forall in *. intros x Hx. apply Hm. now apply in_rev.
Qed.

Lemma str_pop_none s : str_pop s = None -> forallb is_cont s = true.
Proof.
  unfold str_pop. destruct (pop_rev (rev s) []) as [[r c0]|] eqn:E; [discriminate|].
  intros _. apply pop_rev_none in E. rewrite forallb_forall in *. intros x Hx. apply E.
  now apply -> in_rev.
Qed.

Lemma is_cont_high c : is_cont c = true -> 128 <= bval c.
Proof. unfold is_cont. lia. Qed.

(** A valid non-empty string does not consist of continuation bytes only. *)
Lemma utf8_first c s : utf8 (c :: s) = true -> is_cont c = false.
Proof.
  intros H. destruct (is_cont c) eqn:E; auto. exfalso. revert H. unfold utf8. cbn [urun].
  unfold ustep. unfold is_cont in E. apply andb_true_iff in E as [E1 E2].
  replace (bval c <=? 127) with false by lia. replace (bval c <=? 193) with true by lia.
  discriminate.
Qed.

Definition ugood2 (st : ustate) : Prop :=
  match st with UStart => True | UNext n lo hi => 128 <= lo /\ hi <= 191 end.
Lemma ustep_good2 st c st' : ugood2 st -> ustep st c = Some st' -> ugood2 st'.
Proof.
  intros G. unfold ustep. destruct st as [|n lo hi]; cbn in G.
  - repeat match goal with |- context [if ?b then _ else _] => destruct b end;
      intros H; inversion H; subst; cbn; try lia; auto.
  - repeat match goal with |- context [if ?b then _ else _] => destruct b end;
      intros H; try destruct n as [|[|]]; inversion H; subst; cbn; try lia; auto.
Qed.
Lemma urun_good2 s st st' : ugood2 st -> urun st s = Some st' -> ugood2 st'.
Proof.
  revert st; induction s as [|c s IH]; cbn; intros st G H.
  - now inversion H; subst.
  - destruct (ustep st c) eqn:E; [|discriminate]. eapply IH; [|eassumption]. eapply ustep_good2; eauto.
Qed.

Lemma utf8_split rest c m : is_cont c = false -> utf8 (rest ++ c :: m) = true -> utf8 rest = true.
Proof.
  intros Hc. unfold utf8. rewrite urun_app. destruct (urun UStart rest) as [st|] eqn:E; [|discriminate].
  assert (G : ugood2 st) by (eapply urun_good2; [|eassumption]; exact I).
  destruct st as [|n lo hi]; auto. cbn [urun]. unfold ustep. cbn in G. unfold is_cont in Hc.
  destruct ((lo <=? bval c) && (bval c <=? hi)) eqn:E2; [|discriminate]. exfalso. lia.
Qed.

Lemma str_pop_utf8 s rest ch : utf8 s = true -> str_pop s = Some (rest, ch) -> utf8 rest = true.
Proof.
  intros Hu H. apply str_pop_some in H as (-> & c & m & -> & Hc & _). eapply utf8_split; eauto.
Qed.

Lemma str_pop_utf8_none s : utf8 s = true -> str_pop s = None -> s = [].
Proof.
  intros H1 H2. destruct s as [|c s]; auto. apply str_pop_none in H2. cbn in H2.
  apply utf8_first in H1. rewrite H1 in H2. discriminate.
Qed.

(** ** Lines *)

Definition noLF (w : bytes) : Prop := ~ In LF w.

Lemma noLF_nil : noLF [].
Proof. intros []. Qed.
Lemma noLF_app a b : noLF (a ++ b) <-> noLF a /\ noLF b.
Proof. unfold noLF. rewrite in_app_iff. tauto. Qed.
Lemma noLF_cons c a : noLF (c :: a) <-> c <> LF /\ noLF a.
Proof. unfold noLF. cbn. intuition congruence. Qed.

Lemma find_lf_some bs i : find_lf bs = Some i ->
  exists l r, bs = l ++ LF :: r /\ noLF l /\ List.length l = i.
Proof.
  revert i; induction bs as [|c bs IH]; cbn [find_lf]; intros i H; [discriminate|].
  destruct (Ascii.eqb c LF) eqn:E.
  - apply Ascii.eqb_eq in E. inversion H; subst. exists [], bs. auto using noLF_nil.
  - destruct (find_lf bs) as [j|]; [|discriminate]. inversion H; subst.
    destruct (IH j eq_refl) as (l & r & -> & Hl & <-).
    exists (c :: l), r. repeat split; auto. apply noLF_cons. apply Ascii.eqb_neq in E. auto.
Qed.

Lemma find_lf_none bs : find_lf bs = None -> noLF bs.
Proof.
  induction bs as [|c bs IH]; cbn [find_lf cut_lf]; intros H; auto using noLF_nil.
  destruct (Ascii.eqb c LF) eqn:E; [discriminate|].
  destruct (find_lf bs); [discriminate|]. apply noLF_cons. apply Ascii.eqb_neq in E. auto.
Qed.

Lemma cut_lf_app l r : noLF l -> cut_lf (l ++ LF :: r) = Some (l, r).
Proof.
  induction l as [|c l IH]; cbn [app cut_lf]; intros H; auto.
  apply noLF_cons in H as [H1 H2]. apply Ascii.eqb_neq in H1. rewrite H1, IH; auto.
Qed.
Lemma cut_lf_none l : noLF l -> cut_lf l = None.
Proof.
  induction l as [|c l IH]; cbn [app cut_lf]; intros H; auto.
  apply noLF_cons in H as [H1 H2]. apply Ascii.eqb_neq in H1. rewrite H1, IH; auto.
Qed.
Lemma cut_lf_some b l r : cut_lf b = Some (l, r) -> b = l ++ LF :: r /\ noLF l.
Proof.
  revert l; induction b as [|c b IH]; cbn [cut_lf]; intros l H; [discriminate|].
  destruct (Ascii.eqb c LF) eqn:E.
  - apply Ascii.eqb_eq in E. inversion H; subst. split; auto using noLF_nil.
  - destruct (cut_lf b) as [[l0 r0]|]; [|discriminate]. inversion H; subst.
    destruct (IH l0 eq_refl) as [-> Hl]. split; auto. apply noLF_cons. apply Ascii.eqb_neq in E. auto.
Qed.
Lemma cut_lf_none_inv b : cut_lf b = None -> noLF b.
Proof.
  induction b as [|c b IH]; cbn [find_lf cut_lf]; intros H; auto using noLF_nil.
  destruct (Ascii.eqb c LF) eqn:E; [discriminate|].
  destruct (cut_lf b) as [[]|]; [discriminate|]. apply noLF_cons. apply Ascii.eqb_neq in E. auto.
Qed.

Lemma strip_cr_snoc l c : strip_cr (l ++ [c]) = if Ascii.eqb c CR then Some l else None.
Proof.
  induction l as [|d l IH]; cbn [app strip_cr].
  - reflexivity.
  - destruct (l ++ [c]) eqn:E; [destruct l; discriminate|].
    rewrite IH. destruct (Ascii.eqb c CR); auto.
Qed.

Lemma strip_cr_some l t : strip_cr l = Some t -> l = t ++ [CR].
Proof.
  destruct l as [|c l _] using rev_ind; [discriminate|]. rewrite strip_cr_snoc.
  destruct (Ascii.eqb c CR) eqn:E; [|discriminate]. apply Ascii.eqb_eq in E. intros H; inversion H; now subst.
Qed.

(** [parse_crlf_line] pops a character where the reference strips a byte; same result. *)
Lemma parse_crlf_line_strip l :
  parse_crlf_line l = match strip_cr l with Some t => inr t | None => inl BadSyntax end.
Proof.
  unfold parse_crlf_line. destruct l as [|c l _] using rev_ind; [reflexivity|].
  rewrite strip_cr_snoc. destruct (is_cont c) eqn:Ec.
  - assert (c <> CR) by (intros ->; discriminate Ec).
    replace (Ascii.eqb c CR) with false by (symmetry; now apply Ascii.eqb_neq).
    destruct (str_pop (l ++ [c])) as [[rest ch]|] eqn:E; auto.
    apply str_pop_some in E as (E & c0 & m & -> & Hc0 & Hm).
    destruct (beqb (c0 :: m) [CR]) eqn:Eb; auto.
    apply beqb_eq in Eb. inversion Eb; subst. exfalso.
    apply app_inj_tail in E as [_ ->]. congruence.
  - rewrite str_pop_snoc by assumption. cbn [beqb]. rewrite andb_true_r.
    destruct (Ascii.eqb c CR); auto.
Qed.

Lemma cut_line_app l r : noLF l ->
  cut_line (l ++ LF :: r) =
  Some (if utf8 l then match strip_cr l with Some t => inr t | None => inl BadSyntax end
        else inl InvalidUtf8, r).
Proof. intros H. unfold cut_line. now rewrite cut_lf_app. Qed.

Lemma cut_line_none l : noLF l -> cut_line l = None.
Proof. intros H. unfold cut_line. now rewrite cut_lf_none. Qed.

Lemma cut_line_none_inv b : cut_line b = None -> noLF b.
Proof. unfold cut_line. destruct (cut_lf b) as [[]|] eqn:E; [discriminate|]. intros _. now apply cut_lf_none_inv. Qed.

(** A line followed by anything: its text and what follows. *)
Lemma cut_line_inr b t r : cut_line b = Some (inr t, r) ->
  b = t ++ CR :: LF :: r /\ noLF t /\ utf8 t = true.
Proof.
  unfold cut_line. destruct (cut_lf b) as [[l r0]|] eqn:E; [|discriminate].
  apply cut_lf_some in E as [-> Hl]. destruct (utf8 l) eqn:U; [|intros H; inversion H].
  destruct (strip_cr l) as [t0|] eqn:S; intros H; inversion H; subst.
  apply strip_cr_some in S. subst l. rewrite <- app_assoc. cbn. split; auto.
  apply noLF_app in Hl as [? _]. split; auto. now rewrite utf8_snoc_ascii in U by (cbn; lia).
Qed.

Lemma cut_line_crlf t r : noLF t -> utf8 t = true ->
  cut_line (t ++ CR :: LF :: r) = Some (inr t, r).
Proof.
  intros H1 H2. change (CR :: LF :: r) with ([CR] ++ LF :: r). rewrite app_assoc.
  rewrite cut_line_app.
  - rewrite utf8_snoc_ascii by (cbn; lia). rewrite H2, strip_cr_snoc. reflexivity.
  - apply noLF_app. split; auto. apply noLF_cons. split; [discriminate|apply noLF_nil].
Qed.

(** What [cut_line] returns after a line does not depend on what follows it. *)
Lemma cut_line_ext b e r x : cut_line b = Some (e, r) -> cut_line (b ++ x) = Some (e, r ++ x).
Proof.
  unfold cut_line. destruct (cut_lf b) as [[l r0]|] eqn:E; [|discriminate].
  apply cut_lf_some in E as [-> Hl]. rewrite <- app_assoc. cbn [app]. rewrite cut_lf_app by assumption.
  intros H. now inversion H; subst.
Qed.
