(** C51, C52, C66 to C68: the example program. *)
From Coq Require Import List Ascii String Arith NArith Bool Lia Permutation.
From Coq Require Import ZifyBool ZifyNat ZifyN.
From Verif.Model Require Import Bytes Io Common Parse Encode Writer Server Router Files.
From Verif.Spec Require Import Batch Stream Drive Numerals Names Grammar Wire Unicode Output Session Routes Tree.
From Verif.Proofs Require Import BytesFacts CommonFacts ServerFacts ConnFacts RouterFacts FilesFacts.
From Verif.Properties Require Import RoundTrip Server Router.
Import ListNotations.

(** ** C51 *)

Lemma last_name names : Forall proper names -> names <> [] -> exists x c, sub_path names = x ++ [c] /\ c <> SLASH.
Proof.
  intros F N. induction F as [|n names (P1 & _ & _ & P4 & _) F IH]; [congruence|]. destruct names as [|n2 names].
  - cbn [sub_path]. destruct (exists_last P1) as (x & c & ->). exists x, c. split; auto. intros ->. apply P4. apply in_or_app. right. now left.
  - destruct IH as (x & c & E & Hc); [discriminate|]. exists (n ++ SLASH :: x), c. cbn [sub_path] in *. rewrite E, <- app_assoc. auto.
Qed.

Lemma no_zero l : ~ In Ascii.zero l -> existsb (Ascii.eqb Ascii.zero) l = false.
Proof.
  intros H. destruct (existsb _ l) eqn:E; auto. apply existsb_exists in E as (x & K1 & K2). apply Ascii.eqb_eq in K2. subst. contradiction.
Qed.
Lemma dir_no_zero names : Forall proper names -> ~ In Ascii.zero (dir_path names).
Proof.
  intros F [K|K]; [discriminate|]. apply in_concat in K as (y & K1 & K2). apply in_map_iff in K1 as (n & <- & K3).
  rewrite Forall_forall in F. destruct (F _ K3) as (_ & _ & _ & _ & P). apply in_app_or in K2 as [K2|[K2|[]]]; [auto|discriminate].
Qed.
Lemma sub_no_zero names : Forall proper names -> ~ In Ascii.zero (sub_path names).
Proof.
  intros F. induction F as [|n names (_ & _ & _ & _ & P) F IH]; [intros []|]. destruct names as [|n2 names]; auto.
  cbn [sub_path] in *. intros K. apply in_app_or in K as [K|[K|K]]; auto. discriminate.
Qed.
Lemma ups_no_zero k : ~ In Ascii.zero (ups k).
Proof.
  intros K. apply in_concat in K as (y & K1 & K2). apply repeat_spec in K1. subst. repeat (destruct K2 as [K2|K2]; [discriminate|]). destruct K2.
Qed.

(** Every file of the whole file system is served: from any directory, with as many "../" as the directory has names. *)
Theorem C51_inside_refuted : forall f dirs es names b,
  at_path (f_root f) dirs (NDir es) -> Forall proper dirs ->
  at_path (f_root f) names (NFile b) -> Forall proper names -> names <> [] ->
  let r := fst (file_listener (dir_path dirs) f [] (ups (List.length dirs) ++ sub_path names)) in
  rs_status r = STATUS_OK /\ rs_body r = b.
Proof.
  intros f dirs es names b Hd Pd Hn Pn Nn. cbn zeta. unfold file_listener. cbn [cache_get fst].
  destruct (last_name names Pn Nn) as (x & c & Ex & Hc).
  assert (Ef : file_path (dir_path dirs) (ups (List.length dirs) ++ sub_path names) = dir_path dirs ++ ups (List.length dirs) ++ sub_path names).
  { unfold file_path. destruct (ends_with _ _) eqn:E; auto. apply ends_with_spec in E as [y E]. rewrite Ex, !app_assoc in E.
    apply app_inj_tail in E as [_ E]. contradiction. }
  rewrite Ef. unfold file_response.
  assert (R : fs_read f (dir_path dirs ++ ups (List.length dirs) ++ sub_path names) = Some b).
  { unfold fs_read. rewrite no_zero.
    2:{ intros K. apply in_app_or in K as [K|K]; [now apply dir_no_zero in K|]. apply in_app_or in K as [K|K]; [now apply ups_no_zero in K|now apply sub_no_zero in K]. }
    unfold resolve. change (starts_with [SLASH] (dir_path dirs ++ ups (List.length dirs) ++ sub_path names)) with true. cbv iota.
    rewrite components_dir, components_ups, components_sub by auto. 
    assert (D : exists re, f_root f = NDir re) by (destruct Hn; [congruence|eauto]). destruct D as [re D].
    destruct (walk_down_dirs _ _ _ Hd Pd [] (repeat (lit "..") (List.length dirs) ++ names)) as (above & W & A1 & A2 & A3); [constructor|].
    assert (W0 : forall cs, walk [] (f_root f) ([] :: cs) = walk [] (f_root f) cs) by (intros cs; rewrite D; reflexivity).
    rewrite W0, W. cbn [List.length] in A2. rewrite Nat.add_0_r in A2. rewrite <- A2, walk_up; [|eexists; eauto|auto]. rewrite A3.
    cbn [last]. destruct (walk_down_dirs _ _ _ Hn Pn [] []) as (above2 & W2 & _); [constructor|]. rewrite app_nil_r in W2. rewrite W2. reflexivity. }
  rewrite R. auto.
Qed.

(** A uri without a ".." segment gets a file in the directory or below it, or a 404. *)
Theorem C51_without_dotdot : forall f dirs d uri, at_path (f_root f) dirs d -> Forall proper dirs ->
  ~ has_segment (lit "..") uri ->
  let r := fst (file_listener (dir_path dirs) f [] uri) in
  (exists names, at_path d names (NFile (rs_body r)) /\ rs_status r = STATUS_OK) \/ r = response_of_status STATUS_NOT_FOUND.
Proof.
  intros f dirs d uri Hd Pd Hu. cbn zeta. unfold file_listener. cbn [cache_get fst].
  destruct (file_response_cases f (file_path (dir_path dirs) uri)) as [(b & R & S & B)|(R & E)]; [|auto].
  left. rewrite B, S. unfold fs_read in R. destruct (existsb _ _); [discriminate|].
  assert (Q : exists u, file_path (dir_path dirs) uri = dir_path dirs ++ u /\ ~ In (lit "..") (components u)).
  { assert (N : ~ In (lit "..") (components uri)) by (intros K; apply Hu; now apply components_segment).
    unfold file_path. destruct (ends_with _ _) eqn:E; [|eauto]. exists (uri ++ lit "index.html"). rewrite <- app_assoc. split; auto.
    apply ends_with_spec in E as [y E]. destruct uri as [|c uri] using rev_ind.
    - cbn. intros [K|[]]. discriminate.
    - rewrite app_assoc in E. apply app_inj_tail in E as [_ ->]. rewrite <- app_assoc. change ([("/"%char)] ++ lit "index.html") with (SLASH :: lit "index.html").
      rewrite components_slash. change (uri ++ ["/"%char]) with (uri ++ SLASH :: []) in N. rewrite components_slash in N.
      intros K. apply in_app_or in K as [K|K]; [apply N, in_or_app; auto|]. cbn in K. destruct K as [K|[]]. discriminate. }
  destruct Q as (u & Eu & N). rewrite Eu in R. unfold resolve in R. change (starts_with [SLASH] (dir_path dirs ++ u)) with true in R. cbv iota in R.
  rewrite components_dir in R by auto.
  destruct (walk_down_dirs _ _ _ Hd Pd [] (components u)) as (above & W & _); [constructor|].
  assert (W0 : forall cs m, walk [] (f_root f) ([] :: cs) = Some m -> walk [] (f_root f) cs = Some m) by (intros cs m; destruct (f_root f); [discriminate|auto]).
  destruct (walk [] (f_root f) ([] :: dirs ++ components u)) as [m|] eqn:Em; [|discriminate]. apply W0 in Em. rewrite W in Em.
  destruct m as [b'|]; [|discriminate]. inversion R; subst. destruct (walk_inside _ _ _ _ N Em) as (names & A & _); [apply components_noslash|].
  eauto.
Qed.

(** ** C52 *)

(** In every run (any number of threads, the file system changing at any time): a response describes its body, or is a 404; and
    it is what the file system gave for the path at some moment before. *)
Theorem C52_described : forall dir f ls s a path r l b, frun dir (ff_init f) ls s -> ls = a ++ l :: b -> returns path r l ->
  describes path r /\ exists a1 t a2, a = a1 ++ FRead t path r :: a2 /\ r = file_response (disk f a1) path.
Proof.
  intros dir f ls s a path r l b H -> R. apply frun_split in H as (s1 & H1 & H2).
  change (l :: b) with ([l] ++ b) in H2. apply frun_split in H2 as (s2 & H2 & _). apply frun_one in H2 as E.
  destruct (frun_was_read _ _ _ _ H1) as [I1 I2].
  assert (W : was_read f a path r).
  { destruct R as (t & [-> | ->]); inversion E; subst; eauto. }
  split; auto. destruct W as (a1 & t & a2 & _ & ->). apply file_response_describes.
Qed.

(** Once a response is in the cache and no call is on the way to store another one for the path, every call gets
    it, for ever, and the file is not read again. *)
Theorem C52_settled : forall dir s ls s' path r, frun dir s ls s' -> cache_get path (ff_cache s) = Some r -> idle_for path s ->
  forall l, In l ls -> (forall r', returns path r' l -> r' = r) /\ (forall t r', l <> FRead t path r').
Proof. intros dir s ls s' path r H C I. apply (settled_run _ _ _ _ _ _ H C I). Qed.

(** If calls do not overlap (all by one thread), a path is read at most once, and all calls get the same response. *)
Theorem C52_one_at_a_time : forall dir f ls s t path, frun dir (ff_init f) ls s -> Forall (by_thread t) ls ->
  (reads_of path ls <= 1)%nat /\
  forall r1 r2 l1 l2, In l1 ls -> In l2 ls -> returns path r1 l1 -> returns path r2 l2 -> r1 = r2.
Proof.
  intros dir f ls s t path H F. split.
  - destruct (alone_run _ _ _ _ _ path H F) as (_ & I2 & I3). destruct (ff_thr s t) as [|q|q r].
    + destruct (cache_get path (ff_cache s)); rewrite (I3 Logic.I); auto.
    + destruct (cache_get path (ff_cache s)); rewrite (I3 Logic.I); auto.
    + destruct (beqb q path) eqn:E; [apply beqb_eq in E; destruct (I2 E) as [_ ->]; auto|]. apply beqb_neq in E. specialize (I3 E).
      destruct (cache_get path (ff_cache s)); rewrite I3; auto.
  - (* the response of every return is the one in the final cache *)
    enough (G : forall l r, In l ls -> returns path r l -> cache_get path (ff_cache s) = Some r).
    { intros r1 r2 l1 l2 K1 K2 R1 R2. pose proof (G _ _ K1 R1). pose proof (G _ _ K2 R2). congruence. }
    intros l r Hin R. apply in_split in Hin as (a & b & ->).
    apply frun_split in H as (s1 & H1 & H2). change (l :: b) with ([l] ++ b) in H2. apply frun_split in H2 as (s2 & H2 & H3).
    apply Forall_app in F as [F1 F2]. inversion F2 as [|? ? F3 F4]; subst.
    assert (H12 : frun dir (ff_init f) (a ++ [l]) s2) by (eapply frun_trans; eauto).
    assert (F12 : Forall (by_thread t) (a ++ [l])) by (apply Forall_app; auto).
    destruct (alone_run _ _ _ _ _ path H12 F12) as (J1 & _ & _). apply frun_last in H12 as (s3 & _ & E).
    assert (C : cache_get path (ff_cache s2) = Some r /\ ff_thr s2 t = Away).
    { destruct R as (t' & [-> | ->]); cbn [by_thread] in F3; subst t'; inversion E; subst; cbn [ff_cache ff_thr].
      - split; auto.
      - rewrite get_put, beqb_refl, set_same. auto. }
    destruct C as [C T]. apply (settled_run _ _ _ _ _ _ H3 C).
    intros t'. destruct (Nat.eq_dec t' t) as [->|N]; [rewrite T|rewrite J1 by auto]; split; discriminate.
Qed.

(** Calls that overlap may read a path more than once, and then the answers change after all: for any two states of
    the file system that give different responses. *)
Theorem C52_stable_refuted : forall dir f1 f2 uri, let p := file_path dir uri in
  let r1 := file_response f1 p in let r2 := file_response f2 p in
  exists s, frun dir (ff_init f1)
    [FMiss 0 p; FMiss 1 p; FRead 0 p r1; FChange f2; FRead 1 p r2; FStore 0 p r1; FHit 2 p r1; FStore 1 p r2; FHit 2 p r2] s.
Proof.
  intros dir f1 f2 uri p r1 r2. eexists.
  change [FMiss 0 p; FMiss 1 p; FRead 0 p r1; FChange f2; FRead 1 p r2; FStore 0 p r1; FHit 2 p r1; FStore 1 p r2; FHit 2 p r2] with
    (((((((((([] ++ [FMiss 0 p]) ++ [FMiss 1 p]) ++ [FRead 0 p r1]) ++ [FChange f2]) ++ [FRead 1 p r2]) ++ [FStore 0 p r1]) ++ [FHit 2 p r1]) ++ [FStore 1 p r2]) ++ [FHit 2 p r2])).
  econstructor; [econstructor; [econstructor; [econstructor; [econstructor; [econstructor; [econstructor; [econstructor; [econstructor; [constructor|]|]|]|]|]|]|]|]|].
  - eapply fs_miss; reflexivity.
  - eapply fs_miss; reflexivity.
  - eapply fs_load; reflexivity.
  - eapply fs_change.
  - eapply fs_load; reflexivity.
  - eapply fs_store; reflexivity.
  - eapply fs_hit; [reflexivity|reflexivity|]. cbn [ff_cache ff_init]. rewrite get_put, beqb_refl. reflexivity.
  - eapply fs_store; reflexivity.
  - eapply fs_hit; [reflexivity|reflexivity|]. cbn [ff_cache ff_init]. rewrite get_put, beqb_refl. reflexivity.
Qed.

(** ** C66 *)

(** After the first request for a path has been answered, nothing done to the file system changes the answer; a file
    that was missing then stays missing. *)
Theorem C66_change_noticed_refuted : forall dir f uri t ls s, let p := file_path dir uri in let r := file_response f p in
  frun dir (ff_init f) ([FMiss t p; FRead t p r; FStore t p r] ++ ls) s ->
  forall l r', In l ls -> returns p r' l -> r' = r.
Proof.
  intros dir f uri t ls s p r H l r' Hin R. apply frun_split in H as (s1 & H1 & H2).
  change [FMiss t p; FRead t p r; FStore t p r] with ([FMiss t p] ++ [FRead t p r] ++ [FStore t p r]) in H1.
  assert (F : Forall (by_thread t) ([FMiss t p] ++ [FRead t p r] ++ [FStore t p r])) by (repeat constructor).
  destruct (alone_run _ _ _ _ _ p H1 F) as (J & _). rewrite app_assoc in H1. apply frun_last in H1 as (s0 & _ & E).
  refine (proj1 (C52_settled _ _ _ _ p r H2 _ _ l Hin) r' R); inversion E; subst; cbn [ff_cache].
  - now rewrite get_put, beqb_refl.
  - intros t'. destruct (Nat.eq_dec t' t) as [->|N]; [cbn [ff_thr]; rewrite set_same|rewrite J by auto]; split; discriminate.
Qed.

(** Such runs exist, with any further changes. *)
Theorem C66_reachable : forall dir f uri t, let p := file_path dir uri in let r := file_response f p in
  exists s, frun dir (ff_init f) [FMiss t p; FRead t p r; FStore t p r] s /\
    forall f', exists s', frun dir (ff_init f) ([FMiss t p; FRead t p r; FStore t p r] ++ [FChange f'; FHit t p r]) s'.
Proof.
  intros dir f uri t p r. set (s1 := mk_ffile f [] (ff_set (fun _ => Away) t (Missed p))).
  set (s2 := mk_ffile f [] (ff_set (ff_thr s1) t (Loaded p r))). set (s3 := mk_ffile f [(p, r)] (ff_set (ff_thr s2) t Away)).
  assert (R1 : frun dir (ff_init f) ([] ++ [FMiss t p]) s1).
  { econstructor; [constructor|]. apply (fs_miss dir (ff_init f) t uri p); reflexivity. }
  assert (R2 : frun dir (ff_init f) (([] ++ [FMiss t p]) ++ [FRead t p r]) s2).
  { econstructor; [exact R1|]. apply (fs_load dir s1 t p r); [|reflexivity]. apply set_same. }
  assert (R3 : frun dir (ff_init f) ((([] ++ [FMiss t p]) ++ [FRead t p r]) ++ [FStore t p r]) s3).
  { econstructor; [exact R2|]. apply (fs_store dir s2 t p r). apply set_same. }
  exists s3. split; [exact R3|]. intros f'. exists (mk_ffile f' [(p, r)] (ff_thr s3)).
  apply (frun_trans _ _ _ _ _ _ R3). change [FChange f'; FHit t p r] with (([] ++ [FChange f']) ++ [FHit t p r]).
  econstructor; [econstructor; [constructor|apply fs_change]|]. eapply fs_hit; [apply set_same|reflexivity|]. cbn [ff_cache s3 cache_get].
  now rewrite beqb_refl.
Qed.

(** ** C67 *)

(** The cache has one entry for each path stored, found or not, and entries are not removed. *)
Theorem C67_one_entry_each : forall dir f ls s, frun dir (ff_init f) ls s ->
  NoDup (map fst (ff_cache s)) /\ forall p, In p (map fst (ff_cache s)) <-> exists t r, In (FStore t p r) ls.
Proof.
  intros dir f ls s H. remember (ff_init f) as s0 eqn:E0. induction H as [s|s ls s1 l s2 H IH E]; subst.
  - cbn. split; [constructor|]. intros p. split; [intros []|intros (t & r & [])].
  - destruct (IH eq_refl) as [N I].
    assert (Skip : forall c, (forall t p r, l <> FStore t p r) -> c = ff_cache s1 -> NoDup (map fst c) /\ forall p, In p (map fst c) <-> exists t r, In (FStore t p r) (ls ++ [l])).
    { intros c K ->. split; auto. intros p. rewrite I. split; intros (t & r & J); exists t, r.
      - apply in_or_app. auto.
      - apply in_app_or in J as [J|[J|[]]]; auto. now apply K in J. }
    destruct E as [f' s1|s1 t uri path r T P C|s1 t uri path T P C|s1 t path r T P|s1 t path r T]; try (apply Skip; [discriminate|reflexivity]).
    clear Skip. cbn [ff_cache]. rewrite put_keys. destruct (existsb (beqb path) (map fst (ff_cache s1))) eqn:Ex.
    + split; auto. apply existsb_exists in Ex as (q & K1 & K2). apply beqb_eq in K2. subst q. intros p. split.
      * intros K. apply I in K as (t' & r' & K). exists t', r'. apply in_or_app. auto.
      * intros (t' & r' & K). apply in_app_or in K as [K|[K|[]]]; [apply I; eauto|]. inversion K; subst. auto.
    + assert (Np : ~ In path (map fst (ff_cache s1))).
      { intros K. assert (existsb (beqb path) (map fst (ff_cache s1)) = true) by (apply existsb_exists; exists path; split; auto; apply beqb_refl). congruence. }
      split; [apply (Permutation_NoDup (Permutation_cons_append _ path)); constructor; auto|].
      intros p. split.
      * intros K. apply in_app_or in K as [K|[<-|[]]]; [apply I in K as (t' & r' & K); exists t', r'; apply in_or_app; auto|].
        exists t, r. apply in_or_app. right. now left.
      * intros (t' & r' & K). apply in_or_app. apply in_app_or in K as [K|[K|[]]]; [left; apply I; eauto|]. inversion K; subst. right. now left.
Qed.

(** So requests for files that do not exist make it grow without bound: with an empty file system, n requests, n entries. *)
Definition empty_fs : fsys := mk_fsys (NDir []) [].
Definition probe (k : nat) : bytes := repeat "a"%char (S k).

Lemma probe_inj dir j k : file_path dir (probe j) = file_path dir (probe k) -> j = k.
Proof.
  assert (E : forall k, file_path dir (probe k) = dir ++ probe k).
  { intros i. unfold file_path. destruct (ends_with _ _) eqn:E; auto. apply ends_with_spec in E as [x E]. unfold probe in E.
    cbn [repeat] in E. rewrite repeat_cons, app_assoc in E. apply app_inj_tail in E as [_ E]. discriminate. }
  rewrite !E. intros K. apply app_inv_head in K. apply (f_equal (@List.length _)) in K. unfold probe in K. rewrite !repeat_length in K. lia.
Qed.

Lemma walk_empty cs m : walk [] (NDir []) cs = Some m -> m = NDir [].
Proof.
  induction cs as [|c cs IH]; cbn [walk entry]; [congruence|]. destruct (beqb c [] || beqb c (lit ".")); auto. destruct (beqb c (lit "..")); auto. discriminate.
Qed.

Theorem C67_bounded_refuted : forall dir n, exists ls s, frun dir (ff_init empty_fs) ls s /\ List.length ls = (3 * n)%nat /\
  List.length (ff_cache s) = n /\ forall l r p, In l ls -> returns p r l -> rs_status r = STATUS_NOT_FOUND.
Proof.
  intros dir n.
  enough (G : exists ls s, frun dir (ff_init empty_fs) ls s /\ List.length ls = (3 * n)%nat /\ List.length (ff_cache s) = n /\
    (forall l r p, In l ls -> returns p r l -> rs_status r = STATUS_NOT_FOUND) /\ ff_fs s = empty_fs /\ ff_thr s 0 = Away /\
    forall p, In p (map fst (ff_cache s)) -> exists k, (k < n)%nat /\ p = file_path dir (probe k)).
  { destruct G as (ls & s & H1 & H2 & H3 & H4 & _). exists ls, s. auto. }
  induction n as [|n (ls & s & H & L & C & R & F & T & K)].
  - exists [], (ff_init empty_fs). split; [constructor|]. split; auto. split; auto. split; [intros l r p []|]. split; auto. split; auto. intros p [].
  - set (p := file_path dir (probe n)). set (r := file_response empty_fs p).
    assert (Np : ~ In p (map fst (ff_cache s))) by (intros J; destruct (K _ J) as (k & J1 & J2); apply probe_inj in J2; lia).
    assert (G : forall c : fcache, ~ In p (map fst c) -> cache_get p c = None).
    { induction c as [|[k x] c IH]; auto. intros J. cbn [cache_get]. destruct (beqb k p) eqn:E; [apply beqb_eq in E; subst; exfalso; apply J; now left|].
      apply IH. intros J'. apply J. now right. }
    set (s1 := mk_ffile (ff_fs s) (ff_cache s) (ff_set (ff_thr s) 0 (Missed p))).
    set (s2 := mk_ffile (ff_fs s1) (ff_cache s1) (ff_set (ff_thr s1) 0 (Loaded p r))).
    set (s3 := mk_ffile (ff_fs s2) (cache_put p r (ff_cache s2)) (ff_set (ff_thr s2) 0 Away)).
    exists (((ls ++ [FMiss 0 p]) ++ [FRead 0 p r]) ++ [FStore 0 p r]), s3.
    assert (Es : rs_status r = STATUS_NOT_FOUND).
    { unfold r, file_response. replace (fs_read empty_fs p) with (@None bytes); auto. unfold fs_read. destruct (existsb _ _); auto. unfold resolve.
      destruct (walk _ _ _) as [m|] eqn:Ew; auto. apply walk_empty in Ew. now subst. }
    assert (R3 : frun dir (ff_init empty_fs) (((ls ++ [FMiss 0 p]) ++ [FRead 0 p r]) ++ [FStore 0 p r]) s3).
    { econstructor; [econstructor; [econstructor; [exact H|]|]|].
      - apply (fs_miss dir s 0 (probe n) p); auto.
      - apply (fs_load dir s1 0 p r); [reflexivity|]. cbn [s1 ff_fs]. now rewrite F.
      - apply (fs_store dir s2 0 p r). reflexivity. }
    assert (Ek : map fst (ff_cache s3) = map fst (ff_cache s) ++ [p]).
    { cbn [s3 s2 s1 ff_cache]. rewrite put_keys. destruct (existsb (beqb p) (map fst (ff_cache s))) eqn:Ex; auto. apply existsb_exists in Ex as (q & K1 & K2).
      apply beqb_eq in K2. subst q. contradiction. }
    split; [exact R3|]. split; [rewrite !app_length; cbn [List.length]; lia|].
    split; [rewrite <- (map_length fst), Ek, app_length, map_length, C; cbn; lia|].
    split; [|split; [exact F|split; [reflexivity|]]].
    + intros l r' q J Q. rewrite <- !app_assoc in J. apply in_app_or in J as [J|J]; [eapply R; eauto|].
      destruct Q as (t & Q). destruct J as [<-|[<-|[<-|[]]]]; destruct Q as [Q|Q]; try discriminate. inversion Q; subst. exact Es.
    + intros q J. rewrite Ek in J. apply in_app_or in J as [J|[<-|[]]]; [destruct (K _ J) as (k & J1 & J2); exists k; split; auto|exists n; auto].
Qed.

(** ** C68 *)

(** The first of the calls of listener l for a path is call number k. *)
Definition first_asked (l : nat) (path : bytes) (calls : list call) (k : nat) : Prop :=
  exists a u b, calls = a ++ (l, u) :: b /\ List.length a = k /\ file_path (main_directory l) u = path /\
    forall u', In (l, u') a -> file_path (main_directory l) u' <> path.

Lemma cache_after_get fs l p : forall calls n c,
  cache_get p (cache_after fs l n c calls) = cache_get p c /\ cache_get p c <> None \/
  cache_get p c = None /\
  ((exists k, first_asked l p calls k /\ cache_get p (cache_after fs l n c calls) = Some (file_response (fs (n + k)%nat) p)) \/
   ((forall u, In (l, u) calls -> file_path (main_directory l) u <> p) /\ cache_get p (cache_after fs l n c calls) = None)).
Proof.
  induction calls as [|[l' uri] calls IH]; intros n c; cbn [cache_after].
  - destruct (cache_get p c) eqn:E; [left; split; auto; discriminate|right; split; auto; right; split; auto; intros u []].
  - destruct (Nat.eqb_spec l' l) as [->|N].
    2:{ destruct (IH (S n) c) as [H|[H [(k & (a & u & b & K1 & K2 & K3 & K4) & K)|[K1 K2]]]]; [auto| |]; right; split; auto.
        - left. exists (S k). split; [|rewrite K; do 2 f_equal; f_equal; lia]. exists ((l', uri) :: a), u, b. rewrite K1. split; auto. split; [cbn; auto|].
          split; auto. intros u' [J|J]; [congruence|auto].
        - right. split; auto. intros u [J|J]; [congruence|auto]. }
    unfold file_listener. set (q := file_path (main_directory l) uri).
    assert (New : forall c', cache_get p c' = cache_get p c -> q <> p \/ cache_get p c <> None ->
      cache_get p (cache_after fs l (S n) c' calls) = cache_get p c /\ cache_get p c <> None \/
      cache_get p c = None /\
      ((exists k, first_asked l p ((l, uri) :: calls) k /\ cache_get p (cache_after fs l (S n) c' calls) = Some (file_response (fs (n + k)%nat) p)) \/
       ((forall u, In (l, u) ((l, uri) :: calls) -> file_path (main_directory l) u <> p) /\ cache_get p (cache_after fs l (S n) c' calls) = None))).
    { intros c' Hc Hq. destruct (IH (S n) c') as [H|[H [(k & (a & u & b & K1 & K2 & K3 & K4) & K)|[K1 K2]]]]; rewrite Hc in H; [auto| |]; right; split; auto; destruct Hq as [Hq|Hq]; try congruence.
      - left. exists (S k). split; [|rewrite K; do 2 f_equal; f_equal; lia]. exists ((l, uri) :: a), u, b. rewrite K1. split; auto. split; [cbn; auto|].
        split; auto. intros u' [J|J]; [inversion J; subst; exact Hq|auto].
      - right. split; auto. intros u [J|J]; [inversion J; subst; exact Hq|auto]. }
    destruct (cache_get q c) as [r|] eqn:Eq; cbn [snd].
    + apply New; auto. destruct (beqb q p) eqn:E; [apply beqb_eq in E; rewrite E in Eq; right; congruence|apply beqb_neq in E; auto].
    + destruct (beqb q p) eqn:E.
      * apply beqb_eq in E. rewrite E in *. clear New. right. split; auto. left. exists 0%nat. split.
        -- exists [], uri, calls. split; auto.
        -- rewrite Nat.add_0_r. destruct (IH (S n) (cache_put p (file_response (fs n) p) c)) as [[H _]|[H _]]; rewrite get_put, beqb_refl in H; [exact H|discriminate].
      * apply New; [rewrite get_put, E; auto|]. left. now apply beqb_neq.
Qed.

Lemma main_file fs l uri calls rq : (1 <= l)%nat -> exists k,
  first_asked l (file_path (main_directory l) uri) (calls ++ [(l, uri)]) k /\
  main_behaviour fs calls (l, uri) rq = LSend (file_response (fs k) (file_path (main_directory l) uri)).
Proof.
  intros Hl. destruct l as [|l]; [lia|]. cbn [main_behaviour]. unfold file_listener. set (p := file_path (main_directory (S l)) uri).
  destruct (cache_after_get fs (S l) p calls 0 []) as [[_ K]|[_ [(k & (a & u & b & K1 & K2 & K3 & K4) & K)|[K1 K2]]]]; [cbn in K; congruence| |].
  - rewrite K. exists k. split; [|reflexivity]. exists a, u, (b ++ [(S l, uri)]). rewrite K1, <- app_assoc. auto.
  - rewrite K2. exists (List.length calls). split; [|reflexivity]. exists calls, uri, []. auto.
Qed.

(** Every request to the example program, with any requests and any changes to the files before it: the message; or
    a file of the first site; or one of the second; each as it was when it was first asked for; or nothing (and the server answers 404). *)
Theorem C68_main : forall fs rq calls, utf8 (rq_uri rq) = true ->
  let res := router_result (main_behaviour fs) main_routes rq calls in
  (rq_uri rq = lit "/secret/message/path" -> res = (calls ++ [(0%nat, rq_uri rq)], LSend secret_response)) /\
  (forall u, rq_uri rq = lit "/my/middleton/website/" ++ u -> exists k,
     first_asked 1 (file_path (lit "/Users/Ben/Code/middletonSite/") u) (calls ++ [(1%nat, u)]) k /\
     res = (calls ++ [(1%nat, u)], LSend (file_response (fs k) (file_path (lit "/Users/Ben/Code/middletonSite/") u)))) /\
  (forall u, rq_uri rq = lit "/" ++ u -> rq_uri rq <> lit "/secret/message/path" ->
     (forall v, rq_uri rq <> lit "/my/middleton/website/" ++ v) -> exists k,
     first_asked 2 (file_path (lit "/Users/Ben/Code/ReactTetris/tetris-app/build/") u) (calls ++ [(2%nat, u)]) k /\
     res = (calls ++ [(2%nat, u)], LSend (file_response (fs k) (file_path (lit "/Users/Ben/Code/ReactTetris/tetris-app/build/") u)))) /\
  ((forall u, rq_uri rq <> lit "/" ++ u) -> res = (calls, LNext)).
Proof.
  intros fs rq calls U. cbn zeta. unfold router_result. set (uri := rq_uri rq) in *.
  assert (Pre : forall u l, result_internal (main_behaviour fs) [OnPrefix [] l] u rq calls =
    match main_behaviour fs calls (l, u) rq with LNext => (calls ++ [(l, u)], LNext) | x => (calls ++ [(l, u)], x) end).
  { intros u l. unfold result_internal. cbn [find_result prefix_of starts_with call_route]. now destruct (main_behaviour fs calls (l, u) rq). }
  assert (M : forall p l u, utf8 p = true -> utf8 (p ++ u) = true -> (1 <= l)%nat -> exists k,
    first_asked l (file_path (main_directory l) u) (calls ++ [(l, u)]) k /\
    result_internal (main_behaviour fs) [Mount p [OnPrefix [] l]] (p ++ u) rq calls = (calls ++ [(l, u)], LSend (file_response (fs k) (file_path (main_directory l) u)))).
  { intros p l u Hp Hu Hl. destruct (main_file fs l u calls rq Hl) as (k & K1 & K2). exists k. split; auto. rewrite C39_mount, Pre, K2 by auto. reflexivity. }
  assert (X : result_internal (main_behaviour fs) main_routes uri rq calls =
    if beqb (lit "/secret/message/path") uri then (calls ++ [(0%nat, uri)], LSend secret_response)
    else match result_internal (main_behaviour fs) [Mount (lit "/my/middleton/website/") [OnPrefix [] 1]] uri rq calls with
         | (log1, LNext) => result_internal (main_behaviour fs) [Mount (lit "/") [OnPrefix [] 2]] uri rq log1
         | other => other
         end).
  { change main_routes with ([OnExact (lit "/secret/message/path") 0] ++ [Mount (lit "/my/middleton/website/") [OnPrefix [] 1]] ++ [Mount (lit "/") [OnPrefix [] 2]]).
    rewrite C38_append. unfold result_internal at 1. cbn [find_result prefix_of starts_with call_route main_behaviour].
    destruct (beqb (lit "/secret/message/path") uri); [reflexivity|]. apply C38_append. }
  rewrite X. clear X. split; [|split; [|split]].
  - intros ->. now rewrite beqb_refl.
  - intros u E. rewrite E in *. change (beqb (lit "/secret/message/path") (lit "/my/middleton/website/" ++ u)) with false. cbv iota.
    destruct (M (lit "/my/middleton/website/") 1%nat u eq_refl U (le_n _)) as (k & K1 & K2). rewrite K2. exists k. auto.
  - intros u E N1 N2. destruct (beqb (lit "/secret/message/path") uri) eqn:Eb; [apply beqb_eq in Eb; congruence|]. 
    rewrite C39_mount_elsewhere by auto. rewrite E in *. destruct (M (lit "/") 2%nat u eq_refl U (le_S _ _ (le_n _))) as (k & K1 & K2). rewrite K2. exists k. auto.
  - intros N. destruct (beqb (lit "/secret/message/path") uri) eqn:Eb; [apply beqb_eq in Eb; exfalso; apply (N (lit "secret/message/path")); now rewrite <- Eb|].
    rewrite C39_mount_elsewhere; [|intros v K; apply (N (lit "my/middleton/website/" ++ v)); rewrite K; reflexivity].
    now apply C39_mount_elsewhere.
Qed.
(** The message is described correctly. *)
Theorem C68_secret : rs_status secret_response = STATUS_OK /\ rs_body secret_response = lit "You found the secret message!" /\
  hm_get (header_from (lit "content-length")) (rs_headers secret_response) = Some [dec (len (rs_body secret_response))].
Proof. split; [reflexivity|]. split; reflexivity. Qed.

(** ** C51 over the wire *)

Definition site : list bytes := [lit "Users"; lit "Ben"; lit "Code"; lit "ReactTetris"; lit "tetris-app"; lit "build"].
Lemma site_proper : Forall proper site.
Proof. repeat constructor; try discriminate; vm_compute; intuition discriminate. Qed.
Lemma site_dir : dir_path site = main_directory 2.
Proof. reflexivity. Qed.

Definition printable (b : bytes) : Prop := Forall (fun c => (32 < bval c < 127)%N) b.
Definition attack (names : list bytes) : request := mk_request GET (SLASH :: ups 6 ++ sub_path names) [] [].

Lemma attack_plain names : printable (sub_path names) -> (len (sub_path names) <= 478)%N -> plain_request (attack names).
Proof.
  intros P L. assert (Pu : printable (rq_uri (attack names))).
  { cbn [attack rq_uri]. apply (Forall_app _ (SLASH :: ups 6)). split; auto. cbn. repeat constructor; vm_compute; reflexivity. }
  assert (As : ascii (rq_uri (attack names))) by (eapply Forall_impl; [|exact Pu]; cbn; lia).
  assert (No : forall c, (bval c <= 32)%N -> ~ In c (rq_uri (attack names))).
  { intros c Hc K. unfold printable in Pu. rewrite Forall_forall in Pu. apply Pu in K. lia. }
  split; [|split; [|split; [exact As|constructor]]].
  - split; [split; [apply utf8_ascii, As|apply No; vm_compute; discriminate]|]. split; [apply No; vm_compute; discriminate|].
    split; [split; constructor|]. split; [reflexivity|]. discriminate.
  - unfold request_fits, fits_limits. cbn [attack rq_method rq_uri rq_headers rq_body]. split; [|split; [constructor|split; [vm_compute; discriminate|vm_compute; discriminate]]].
    change (len (method_name GET)) with 3%N. change (SLASH :: ups 6 ++ sub_path names) with ((SLASH :: ups 6) ++ sub_path names). rewrite len_app.
    change (len (SLASH :: ups 6)) with 19%N. lia.
Qed.

(** The example program sends every file of the machine (with a printable path of at most 478 bytes) to whoever asks for it. *)
Theorem C51_over_the_wire_refuted : forall dbg f es names b s vs log st,
  at_path (f_root f) site (NDir es) -> at_path (f_root f) names (NFile b) -> Forall proper names -> names <> [] ->
  printable (sub_path names) -> (len (sub_path names) <= 478)%N ->
  live s -> pending s = write_request (attack names) -> no_interrupt_in_data last_outcome s ->
  Forall visit_fine vs -> Forall visit_steady vs -> (blocks s < List.length vs)%nat ->
  visits dbg (router_of (main_behaviour (fun _ => f)) main_routes) vs [] (Open (conn_new s)) = (log, st) ->
  exists c r, st = Open c /\ output c = write_response r /\ rs_status r = STATUS_OK /\ rs_body r = b.
Proof.
  intros dbg f es names b s vs log st Hs Hn Pn Nn Pr Ln L P I F S B E.
  pose proof (attack_plain _ Pr Ln) as Pl.
  assert (Rt : no_panic (router_of (main_behaviour (fun _ => f)) main_routes)).
  { apply C39_no_panic_server; [repeat constructor; reflexivity|]. intros lg [[|l] u] rq; discriminate. }
  destruct (C26_one_response_each dbg (router_of (main_behaviour (fun _ => f)) main_routes) [attack names] s vs log st Rt) as (Lg & c & -> & O); auto.
  { intros r [<-|[]] (xs & K & _). discriminate K. }
  { cbn [map List.concat]. now rewrite app_nil_r. }
  inversion Lg as [|q' q l1 l2 Sq Lg1]; subst. inversion Lg1; subst. clear Lg Lg1. exists c.
  cbn [replies reply app] in O. rewrite app_nil_r in O. unfold router_of in O. cbn [calls_of fold_left] in O.
  destruct Sq as (_ & Su & _). cbn [attack rq_uri] in Su. 
  destruct Pl as ((( U & _) & _) & _ & _). cbn [attack rq_uri] in U. rewrite <- Su in U.
  destruct (C68_main (fun _ => f) q' [] U) as (_ & _ & M & _).
  destruct (M (ups 6 ++ sub_path names)) as (k & _ & R); [exact Su| | |].
  { rewrite Su. discriminate. }
  { intros v K. rewrite Su in K. discriminate. }
  rewrite R in O. cbn [snd reply] in O. eexists. split; [reflexivity|]. split; [exact O|].
  pose proof (C51_inside_refuted f site es names b Hs site_proper Hn Pn Nn) as A. cbn zeta in A. unfold file_listener in A. cbn [cache_get fst] in A.
  rewrite site_dir in A. exact A.
Qed.

(** ** Cases *)

Definition case_fs : fsys :=
  mk_fsys (NDir [(lit "etc", NDir [(lit "passwd", NFile (lit "root:x"))]);
                 (lit "Users", NDir [(lit "Ben", NDir [(lit "Code", NDir [(lit "ReactTetris", NDir [(lit "tetris-app", NDir [(lit "build", NDir [(lit "index.html", NFile (lit "<html>"))])])])])])])]) [].

Example C51_case : at_path (f_root case_fs) site (NDir [(lit "index.html", NFile (lit "<html>"))]) /\
  at_path (f_root case_fs) [lit "etc"; lit "passwd"] (NFile (lit "root:x")) /\ Forall proper [lit "etc"; lit "passwd"] /\
  printable (sub_path [lit "etc"; lit "passwd"]) /\ ~ has_segment (lit "..") (lit "a/..b").
Proof.
  split; [repeat (econstructor; [reflexivity|]); constructor|]. split; [repeat (econstructor; [reflexivity|]); constructor|].
  split; [repeat constructor; try discriminate; vm_compute; intuition discriminate|]. split; [repeat constructor; vm_compute; reflexivity|].
  intros [_ (l & r & E & Hl & Hr)]. destruct Hl as [->|(l' & ->)].
  - discriminate E.
  - destruct l' as [|x [|y l']]; cbn in E; try discriminate E.
    + inversion E; subst. destruct Hr as [Hr|(r' & Hr)]; discriminate Hr.
    + destruct l' as [|z [|w [|v [|u l']]]]; cbn in E; inversion E; subst; destruct l'; discriminate.
Qed.

(** The file is read through the cache; later changes are not seen; two states of the disk that differ. *)
Example C52_case : file_response case_fs (lit "/etc/passwd") <> file_response empty_fs (lit "/etc/passwd") /\
  rs_status (file_response empty_fs (lit "/etc/passwd")) = STATUS_NOT_FOUND /\
  type_of (lit "/x/index.html") (lit "text/html") /\
  exists ls s r, frun (lit "/etc/") (ff_init case_fs) ls s /\ Forall (by_thread 3) ls /\ returns (lit "/etc/passwd") r (nth 4 ls (FMiss 0 [])) /\
    In (FChange empty_fs) ls.
Proof.
  split; [vm_compute; discriminate|]. split; [reflexivity|]. split; [left; exists (lit "/x/index"), (lit ".html"); cbn; split; auto; auto 6|].
  destruct (C66_reachable (lit "/etc/") case_fs (lit "passwd") 3) as (_ & _ & H). destruct (H empty_fs) as (s & R). eexists. exists s. eexists. split; [exact R|].
  split; [repeat constructor|]. split; [exists 3%nat; left; reflexivity|]. cbn. auto 6.
Qed.

Example C68_case : exists r, router_result (main_behaviour (fun _ => case_fs)) main_routes (mk_request GET (lit "/") [] []) [] = ([(2%nat, [])], LSend r) /\
  rs_body r = lit "<html>".
Proof. eexists. split; [vm_compute; reflexivity|reflexivity]. Qed.

Print Assumptions C51_inside_refuted.
Print Assumptions C51_without_dotdot.
Print Assumptions C51_over_the_wire_refuted.
Print Assumptions C52_described.
Print Assumptions C52_settled.
Print Assumptions C52_one_at_a_time.
Print Assumptions C52_stable_refuted.
Print Assumptions C66_change_noticed_refuted.
Print Assumptions C66_reachable.
Print Assumptions C67_one_entry_each.
Print Assumptions C67_bounded_refuted.
Print Assumptions C68_main.
Print Assumptions C68_secret.
