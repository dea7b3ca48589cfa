(** Facts about Model/Files.v. *)
From Coq Require Import List Ascii String Arith NArith Bool Lia.
From Verif.Model Require Import Bytes Common Server Router Files.
From Verif.Spec Require Import Tree.
From Verif.Proofs Require Import BytesFacts CommonFacts RouterFacts.
Import ListNotations.

(** ** Paths *)

Lemma components_name n r : ~ In SLASH n -> components (n ++ SLASH :: r) = n :: components r.
Proof.
  induction n as [|c n IH]; intros H; cbn [app components].
  - now rewrite Ascii.eqb_refl.
  - rewrite IH by (intros K; apply H; now right). destruct (Ascii.eqb_spec c SLASH) as [->|E]; auto. exfalso. apply H. now left.
Qed.

Lemma components_last n : ~ In SLASH n -> components n = [n].
Proof.
  induction n as [|c n IH]; intros H; cbn [components]; auto.
  rewrite IH by (intros K; apply H; now right). destruct (Ascii.eqb_spec c SLASH) as [->|E]; auto. exfalso. apply H. now left.
Qed.

Lemma components_noslash p : Forall (fun c => ~ In SLASH c) (components p).
Proof.
  induction p as [|c p IH]; cbn [components]; [constructor; auto|].
  destruct (Ascii.eqb_spec c SLASH) as [->|E]; [constructor; auto|].
  destruct (components p) as [|h t]; [repeat constructor; intros [K|[]]; auto|].
  inversion IH; subst. constructor; auto. intros [K|K]; auto.
Qed.

Lemma components_nonempty p : components p <> [].
Proof. destruct p as [|c p]; cbn; [discriminate|]. destruct (Ascii.eqb c SLASH); [discriminate|]. destruct (components p); discriminate. Qed.

Lemma components_spec p : exists h t, components p = h :: t /\
  (exists r, p = h ++ r /\ (r = [] \/ exists r', r = SLASH :: r')) /\
  forall s, In s t -> exists l r, p = l ++ SLASH :: s ++ r /\ (r = [] \/ exists r', r = SLASH :: r').
Proof.
  induction p as [|c p (h & t & E & (r0 & H0 & H0') & H)].
  - exists [], []. split; auto. split; [exists []; auto|intros s []].
  - cbn [components]. destruct (Ascii.eqb_spec c SLASH) as [->|Ec].
    + exists [], (components p). split; auto. split; [exists (SLASH :: p); eauto|]. intros s Hs. rewrite E in Hs. destruct Hs as [->|Hs].
      * exists [], r0. rewrite H0. auto.
      * destruct (H _ Hs) as (l & r & -> & Hr). exists (SLASH :: l), r. auto.
    + rewrite E. exists (c :: h), t. split; auto. split; [exists r0; rewrite H0; auto|]. intros s Hs.
      destruct (H _ Hs) as (l & r & -> & Hr). exists (c :: l), r. auto.
Qed.

Lemma components_segment p s : In s (components p) -> has_segment s p.
Proof.
  intros H. split; [exact (proj1 (Forall_forall _ _) (components_noslash p) s H)|].
  destruct (components_spec p) as (h & t & E & (r & H1 & H2) & H3). rewrite E in H. destruct H as [<-|H].
  - exists [], r. auto.
  - destruct (H3 _ H) as (l & r' & -> & Hr). exists (l ++ [SLASH]), r'. rewrite <- app_assoc. split; auto. split; eauto.
Qed.

Lemma components_dir names u : Forall proper names -> components (dir_path names ++ u) = [] :: names ++ components u.
Proof.
  intros F. unfold dir_path. cbn [app components]. rewrite Ascii.eqb_refl. f_equal.
  induction F as [|n names (_ & _ & _ & H & _) F IH]; cbn [map List.concat app]; auto.
  rewrite <- !app_assoc. cbn [app]. rewrite components_name, IH; auto.
Qed.

Lemma components_ups k u : components (ups k ++ u) = repeat (lit "..") k ++ components u.
Proof.
  unfold ups. induction k as [|k IH]; cbn [repeat List.concat app]; auto. rewrite <- IH. rewrite <- !app_assoc.
  change (lit "../" ++ ?x) with (lit ".." ++ SLASH :: x). rewrite components_name; auto. vm_compute. intuition discriminate.
Qed.

Lemma components_sub names : Forall proper names -> names <> [] -> components (sub_path names) = names.
Proof.
  intros F N. induction F as [|n names (_ & _ & _ & H & _) F IH]; [congruence|]. destruct names as [|n2 names].
  - cbn [sub_path]. now apply components_last.
  - cbn [sub_path]. rewrite components_name by auto. f_equal. apply IH. discriminate.
Qed.

(** ** Resolution *)

Lemma proper_tests c : proper c -> beqb c [] || beqb c (lit ".") = false /\ beqb c (lit "..") = false.
Proof.
  intros (H1 & H2 & H3 & _). apply beqb_neq in H1, H2, H3. now rewrite H1, H2, H3.
Qed.

(** Going up as often as there are directories above leads to the root. *)
Lemma last_any {A} (x : A) l d d' : last (x :: l) d = last (x :: l) d'.
Proof. revert x. induction l as [|y l IH]; intros x; auto. exact (IH y). Qed.
Definition is_dir (n : node) : Prop := exists es, n = NDir es.
Lemma walk_up : forall above cur cs, is_dir cur -> Forall is_dir above ->
  walk above cur (repeat (lit "..") (List.length above) ++ cs) = walk [] (last above cur) cs.
Proof.
  induction above as [|p above IH]; intros cur cs D F; cbn [repeat List.length app]; auto.
  destruct D as [es ->]. cbn [walk]. change (beqb (lit "..") [] || beqb (lit "..") (lit ".")) with false.
  change (beqb (lit "..") (lit "..")) with true. cbv iota. inversion F; subst. rewrite IH by auto. destruct above; auto.
  f_equal. change (last (p :: n :: above) (NDir es)) with (last (n :: above) (NDir es)). apply last_any.
Qed.

Lemma walk_down_dirs n names m : at_path n names m -> Forall proper names -> forall above cs, Forall is_dir above -> 
  exists above', walk above n (names ++ cs) = walk above' m cs /\ Forall is_dir above' /\
    List.length above' = (List.length names + List.length above)%nat /\ last above' m = last above n.
Proof.
  induction 1 as [n|es name n names m E A IH]; intros F above cs D.
  - exists above. auto.
  - inversion F as [|? ? P F']; subst. destruct (proper_tests _ P) as [T1 T2]. cbn [app walk]. rewrite T1, T2, E.
    destruct (IH F' (NDir es :: above) cs) as (above' & W & L1 & L2 & L3); [constructor; [eexists; eauto|auto]|]. exists above'.
    split; auto. split; auto. split; [cbn [List.length] in *; lia|]. rewrite L3. destruct above; auto.
    change (last (NDir es :: n0 :: above) n) with (last (n0 :: above) n). apply last_any.
Qed.

(** Without going up, a walk stays below its start. *)
Lemma walk_inside : forall cs above cur m, ~ In (lit "..") cs -> walk above cur cs = Some m -> Forall (fun c => ~ In SLASH c) cs ->
  exists names, at_path cur names m /\ incl names cs.
Proof.
  induction cs as [|c cs IH]; intros above cur m N E F; cbn [walk] in E.
  - inversion E; subst. exists []. split; [constructor|intros x []].
  - destruct cur as [b|es]; [discriminate|]. inversion F as [|? ? F1 F2]; subst.
    assert (N' : ~ In (lit "..") cs) by (intros K; apply N; now right).
    destruct (beqb c [] || beqb c (lit ".")); [destruct (IH _ _ _ N' E F2) as (ns & A & I); exists ns; split; auto; intros x Hx; right; auto|].
    destruct (beqb c (lit "..")) eqn:Eu; [apply beqb_eq in Eu; subst; exfalso; apply N; now left|].
    destruct (entry c es) as [n|] eqn:Ee; [|discriminate]. destruct (IH _ _ _ N' E F2) as (ns & A & I).
    exists (c :: ns). split; [econstructor; eauto|]. intros x [<-|Hx]; [now left|right; auto].
Qed.

(** ** Suffixes *)

Lemma ends_with_spec suf s : ends_with suf s = true <-> exists x, s = x ++ suf.
Proof.
  unfold ends_with. rewrite starts_with_spec. split; intros [x E].
  - exists (rev x). rewrite <- (rev_involutive s), E, rev_app_distr. now rewrite rev_involutive.
  - subst. exists (rev x). apply rev_app_distr.
Qed.
Lemma ends_with_no suf s : ends_with suf s = false <-> forall x, s <> x ++ suf.
Proof.
  split.
  - intros E x K. assert (ends_with suf s = true) by (apply ends_with_spec; eauto). congruence.
  - intros H. destruct (ends_with suf s) eqn:E; auto. apply ends_with_spec in E as [x E]. now apply H in E.
Qed.

Lemma components_slash u v : components (u ++ SLASH :: v) = components u ++ components v.
Proof.
  induction u as [|c u IH]; cbn [app components].
  - now rewrite Ascii.eqb_refl.
  - rewrite IH. destruct (Ascii.eqb c SLASH); auto. pose proof (components_nonempty u). destruct (components u); [congruence|reflexivity].
Qed.

Lemma type_of_content_type path : type_of path (get_content_type path).
Proof.
  unfold get_content_type, type_of, types.
  destruct (ends_with (lit ".ico") path) eqn:E1; [apply ends_with_spec in E1 as [x ->]; left; exists x, (lit ".ico"); split; auto; cbn; auto|].
  destruct (ends_with (lit ".js") path) eqn:E2; [apply ends_with_spec in E2 as [x ->]; left; exists x, (lit ".js"); split; auto; cbn; auto|].
  destruct (ends_with (lit ".svg") path) eqn:E3; [apply ends_with_spec in E3 as [x ->]; left; exists x, (lit ".svg"); split; auto; cbn; auto|].
  destruct (ends_with (lit ".html") path) eqn:E4; [apply ends_with_spec in E4 as [x ->]; left; exists x, (lit ".html"); split; auto; cbn; auto|].
  destruct (ends_with (lit ".css") path) eqn:E5; [apply ends_with_spec in E5 as [x ->]; left; exists x, (lit ".css"); split; auto; cbn; auto 6|].
  right. split; auto. rewrite ends_with_no in *. intros stem suf t E K. cbn [In] in K.
  repeat (destruct K as [K|K]; [apply pair_equal_spec in K as [<- _]; first [now apply E1 in E|now apply E2 in E|now apply E3 in E|now apply E4 in E|now apply E5 in E]|]). destruct K.
Qed.

(** ** Responses *)

Lemma file_response_cases f path :
  (exists b, fs_read f path = Some b /\ rs_status (file_response f path) = STATUS_OK /\ rs_body (file_response f path) = b) \/
  (fs_read f path = None /\ file_response f path = response_of_status STATUS_NOT_FOUND).
Proof. unfold file_response. destruct (fs_read f path) as [b|]; [left; exists b; auto|right; auto]. Qed.

Lemma file_response_describes f path : describes path (file_response f path).
Proof.
  unfold file_response. destruct (fs_read f path) as [b|].
  - left. split; [reflexivity|]. split; [reflexivity|]. exists (get_content_type path). split; [apply type_of_content_type|reflexivity].
  - right. split; [reflexivity|]. split; reflexivity.
Qed.

(** ** The cache *)

Lemma get_put p r c q : cache_get q (cache_put p r c) = if beqb p q then Some r else cache_get q c.
Proof.
  induction c as [|[k r'] c IH]; cbn [cache_put cache_get]; auto. destruct (beqb k p) eqn:E.
  - apply beqb_eq in E. subst. cbn [cache_get]. destruct (beqb p q); auto.
  - cbn [cache_get]. rewrite IH. destruct (beqb k q) eqn:E2; auto. apply beqb_eq in E2. subst. rewrite (beqb_sym p q), E. reflexivity.
Qed.

Lemma put_keys p r c : map fst (cache_put p r c) = if existsb (beqb p) (map fst c) then map fst c else map fst c ++ [p].
Proof.
  induction c as [|[k r'] c IH]; cbn [cache_put map fst existsb app]; auto. rewrite (beqb_sym p k). destruct (beqb k p) eqn:E; cbn [orb]; auto.
  cbn [map fst]. rewrite IH. destruct (existsb (beqb p) (map fst c)); reflexivity.
Qed.

(** ** Runs *)

Lemma frun_trans dir s ls s1 ls2 s2 : frun dir s ls s1 -> frun dir s1 ls2 s2 -> frun dir s (ls ++ ls2) s2.
Proof. intros H1 H2. induction H2; [now rewrite app_nil_r|]. rewrite app_assoc. econstructor; eauto. Qed.

Lemma frun_last dir s a l s2 : frun dir s (a ++ [l]) s2 -> exists s1, frun dir s a s1 /\ fstep dir s1 l s2.
Proof.
  intros H. remember (a ++ [l]) as ls eqn:E. destruct H as [s|s ls s1 l' s2 H1 H2]; [destruct a; discriminate|].
  apply app_inj_tail in E as [-> ->]. eauto.
Qed.

Lemma frun_one dir s l s2 : frun dir s [l] s2 -> fstep dir s l s2.
Proof.
  intros H. change [l] with ([] ++ [l]) in H. apply frun_last in H as (s1 & H & E). remember [] as z eqn:Z. destruct H as [s|? ls]; auto.
  destruct ls; discriminate.
Qed.

Lemma frun_split dir s a b s2 : frun dir s (a ++ b) s2 -> exists s1, frun dir s a s1 /\ frun dir s1 b s2.
Proof.
  revert s2. induction b as [|l b IH] using rev_ind; intros s2 H.
  - rewrite app_nil_r in H. exists s2. split; auto. constructor.
  - rewrite app_assoc in H. apply frun_last in H as (s1 & H1 & H2). destruct (IH _ H1) as (s3 & K1 & K2). exists s3. split; auto. econstructor; eauto.
Qed.

Lemma disk_app f a b : disk f (a ++ b) = disk (disk f a) b.
Proof. revert f. induction a as [|l a IH]; intros f; cbn [disk app]; auto. destruct l; auto. Qed.

Lemma frun_disk dir s ls s2 : frun dir s ls s2 -> ff_fs s2 = disk (ff_fs s) ls.
Proof.
  induction 1 as [|s ls s1 l s2 H IH E]; auto. rewrite disk_app, <- IH. destruct E; reflexivity.
Qed.

Lemma set_same s t x : ff_set s t x t = x.
Proof. unfold ff_set. now rewrite Nat.eqb_refl. Qed.
Lemma set_other s t x t' : t <> t' -> ff_set s t x t' = s t'.
Proof. intros H. unfold ff_set. apply Nat.eqb_neq in H. now rewrite H. Qed.

(** What is in the cache, or about to be put there, was read. *)
Definition was_read (f : fsys) (ls : list flabel) (path : bytes) (r : response) : Prop :=
  exists a t b, ls = a ++ FRead t path r :: b /\ r = file_response (disk f a) path.
Lemma was_read_more f ls l path r : was_read f ls path r -> was_read f (ls ++ [l]) path r.
Proof. intros (a & t & b & -> & H). exists a, t, (b ++ [l]). rewrite <- app_assoc. auto. Qed.

Lemma frun_was_read dir f ls s : frun dir (ff_init f) ls s ->
  (forall p r, cache_get p (ff_cache s) = Some r -> was_read f ls p r) /\
  (forall t p r, ff_thr s t = Loaded p r -> was_read f ls p r).
Proof.
  intros H. remember (ff_init f) as s0 eqn:E0. induction H as [s|s ls s1 l s2 H IH E]; subst.
  - split; [discriminate|]. cbn. discriminate.
  - destruct (IH eq_refl) as [I1 I2]. pose proof (frun_disk _ _ _ _ H) as D. cbn [ff_init ff_fs] in D.
    destruct E as [f' s1|s1 t uri path r T P C|s1 t uri path T P C|s1 t path r T P|s1 t path r T]; cbn [ff_cache ff_thr].
    + split; intros; apply was_read_more; eauto.
    + split; intros; apply was_read_more; eauto.
    + split; [intros; apply was_read_more; eauto|]. intros t' p r K. destruct (Nat.eq_dec t t') as [<-|N].
      * rewrite set_same in K. discriminate.
      * rewrite set_other in K by auto. apply was_read_more; eauto.
    + split; [intros; apply was_read_more; eauto|]. intros t' p r' K. destruct (Nat.eq_dec t t') as [<-|N].
      * rewrite set_same in K. inversion K; subst. exists ls, t, []. split; auto. now rewrite D.
      * rewrite set_other in K by auto. apply was_read_more; eauto.
    + split.
      * intros p r' K. rewrite get_put in K. destruct (beqb path p) eqn:Eb.
        -- apply beqb_eq in Eb. inversion K; subst. apply was_read_more; eauto.
        -- apply was_read_more; eauto.
      * intros t' p r' K. destruct (Nat.eq_dec t t') as [<-|N].
        -- rewrite set_same in K. discriminate.
        -- rewrite set_other in K by auto. apply was_read_more; eauto.
Qed.

(** A cached path that nobody is loading. *)
Lemma settled_step dir s l s' p r : fstep dir s l s' -> cache_get p (ff_cache s) = Some r -> idle_for p s ->
  cache_get p (ff_cache s') = Some r /\ idle_for p s' /\ (forall r', returns p r' l -> r' = r) /\ (forall t r', l <> FRead t p r') /\ (forall t, l <> FMiss t p).
Proof.
  intros E C I. destruct E as [f' s|s t uri path r0 T P C0|s t uri path T P C0|s t path r0 T P|s t path r0 T]; cbn [ff_cache ff_thr] in *.
  - split; auto. split; auto. split; [|split; discriminate]. intros r' (t & [K|K]); discriminate.
  - split; auto. split; auto. split; [|split; discriminate]. intros r' (t' & [K|K]); [|discriminate]. inversion K; subst. congruence.
  - assert (N : path <> p) by (intros ->; congruence). split; auto. split; [|split; [|split; [discriminate|]]].
    + intros t'. cbn [ff_thr]. destruct (Nat.eq_dec t t') as [<-|D]; [rewrite set_same; split; [congruence|discriminate]|rewrite set_other by auto; apply I].
    + intros r' (t' & [K|K]); discriminate.
    + intros t' K. inversion K; subst; congruence.
  - assert (N : path <> p) by (intros ->; apply (proj1 (I t)); auto). split; auto. split; [|split; [|split; [|discriminate]]].
    + intros t'. cbn [ff_thr]. destruct (Nat.eq_dec t t') as [<-|D]; [rewrite set_same; split; [discriminate|congruence]|rewrite set_other by auto; apply I].
    + intros r' (t' & [K|K]); discriminate.
    + intros t' r' K. inversion K; subst; congruence.
  - assert (N : path <> p) by (intros ->; apply (proj2 (I t) r0); auto). split; [rewrite get_put; apply beqb_neq in N; now rewrite N|].
    split; [|split; [|split; discriminate]].
    + intros t'. cbn [ff_thr]. destruct (Nat.eq_dec t t') as [<-|D]; [rewrite set_same; split; discriminate|rewrite set_other by auto; apply I].
    + intros r' (t' & [K|K]); [discriminate|]. inversion K; subst. congruence.
Qed.

Lemma settled_run dir s ls s' p r : frun dir s ls s' -> cache_get p (ff_cache s) = Some r -> idle_for p s ->
  cache_get p (ff_cache s') = Some r /\ idle_for p s' /\
  forall l, In l ls -> (forall r', returns p r' l -> r' = r) /\ (forall t r', l <> FRead t p r').
Proof.
  intros H C I. induction H as [s|s ls s1 l s2 H IH E]; [split; auto; split; auto; intros l []|].
  destruct (IH C I) as (C1 & I1 & R1). destruct (settled_step _ _ _ _ _ _ E C1 I1) as (C2 & I2 & R2 & R3 & _).
  split; auto. split; auto. intros l' K. apply in_app_or in K as [K|[<-|[]]]; auto.
Qed.

Lemma reads_of_app p a b : reads_of p (a ++ b) = (reads_of p a + reads_of p b)%nat.
Proof. unfold reads_of. now rewrite filter_app, app_length. Qed.

Lemma reads_of_one p l : reads_of p [l] = match l with FRead _ q _ => if beqb q p then 1%nat else 0%nat | _ => 0%nat end.
Proof. unfold reads_of. cbn [filter]. destruct l; auto. destruct (beqb path p); auto. Qed.

(** One thread. *)
Lemma alone_run dir f ls s t0 p : frun dir (ff_init f) ls s -> Forall (by_thread t0) ls ->
  (forall t, t <> t0 -> ff_thr s t = Away) /\
  match ff_thr s t0 with
  | Loaded q _ => q = p -> cache_get p (ff_cache s) = None /\ reads_of p ls = 1%nat
  | Missed q => q = p -> cache_get p (ff_cache s) = None /\ reads_of p ls = 0%nat
  | Away => True
  end /\
  (match ff_thr s t0 with Loaded q _ => q <> p | _ => True end ->
   match cache_get p (ff_cache s) with None => reads_of p ls = 0%nat | Some _ => reads_of p ls = 1%nat end).
Proof.
  intros H. remember (ff_init f) as s0 eqn:E0. induction H as [s|s ls s1 l s2 H IH E]; subst; intros F.
  - split; auto. split; [exact Logic.I|]. reflexivity.
  - apply Forall_app in F as [F1 F2]. inversion F2 as [|? ? F3 _]; subst. destruct (IH eq_refl F1) as (I1 & I2 & I3). rewrite reads_of_app.
    destruct E as [f' s1|s1 t uri path r T P C|s1 t uri path T P C|s1 t path r T P|s1 t path r T]; cbn [by_thread] in F3; cbn [ff_cache ff_thr];
      try subst t; try rewrite T in *; try rewrite set_same; rewrite reads_of_one.
    + rewrite Nat.add_0_r. split; [|split]; auto.
    + rewrite Nat.add_0_r. split; [|split]; auto.
    + rewrite Nat.add_0_r. split; [intros t N; rewrite set_other; auto|]. specialize (I3 Logic.I). split.
      * intros ->. rewrite C in I3. auto.
      * intros _. auto.
    + split; [intros t N; rewrite set_other; auto|]. specialize (I3 Logic.I). destruct (beqb path p) eqn:Eb.
      * apply beqb_eq in Eb. destruct (I2 Eb) as [K1 K2]. rewrite K2. split; [auto|congruence].
      * apply beqb_neq in Eb. rewrite Nat.add_0_r. split; [congruence|]. auto.
    + rewrite Nat.add_0_r. split; [intros t N; rewrite set_other; auto|]. split; auto. intros _. rewrite get_put.
      destruct (beqb path p) eqn:Eb; [apply beqb_eq in Eb; apply I2, Eb|]. apply beqb_neq in Eb. exact (I3 Eb).
Qed.
