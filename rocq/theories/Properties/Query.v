(** C84: uris with a query. *)
From Coq Require Import List Ascii String Arith NArith Bool Lia.
From Verif.Model Require Import Bytes Common Server Router Files.
From Verif.Spec Require Import Routes Tree.
From Verif.Proofs Require Import BytesFacts RouterFacts FilesFacts.
From Verif.Properties Require Import Router.
Import ListNotations.

Definition QUERY : Ascii.ascii := "?"%char.

(** All listeners of the router are registered for single uris, and the uris given to it are paths (without a query). *)
Definition paths_only (rs : list route) : Prop :=
  Forall (fun f => f_exact f = true /\ ~ In QUERY (f_above f) /\ ~ In QUERY (f_uri f)) (flat_router rs).

(** Then no request with a query has any listener called, and the answer is 404, also if its path is one of these uris. *)
Theorem C84_query_refuted : forall b rs rq path query log, text_router rs -> paths_only rs -> utf8 (rq_uri rq) = true ->
  rq_uri rq = path ++ QUERY :: query -> router_result b rs rq log = (log, LNext).
Proof.
  intros b rs rq path query log T P U E. destruct (router_result b rs rq log) as [log' x] eqn:Er.
  destruct (C38_first_answer _ _ _ _ _ _ T U Er) as (calls & -> & R). rewrite E in R.
  assert (K : calls = [] /\ x = LNext).
  { assert (No : forall f local, f_exact f = true -> ~ In QUERY (f_above f) -> ~ In QUERY (f_uri f) -> ~ concerns f (path ++ QUERY :: query) local).
    { intros f local He H1 H2 [K1 K2]. rewrite He in K2. subst local.
      assert (I : In QUERY (f_above f ++ f_uri f)) by (rewrite <- K1; apply in_or_app; right; now left).
      apply in_app_or in I. tauto. }
    clear - P R No. unfold paths_only in P. induction R as [log|f fs log calls x N R IH|f fs log local calls x C B R IH|f fs log local x C B N];
      auto; inversion P as [|? ? (H1 & H2 & H3) P']; subst; auto; exfalso; eapply No; eauto. }
  destruct K as [-> ->]. now rewrite app_nil_r.
Qed.
Print Assumptions C84_query_refuted.

(** A listener for a prefix is called for every uri that begins with it, also in the middle of a segment: for [/admin] also for [/administrator]. *)
Theorem C84_segments_refuted : forall b p l x rq log, rq_uri rq = p ++ x ->
  router_result b [OnPrefix p l] rq log = (log ++ [(l, p ++ x)], b log (l, p ++ x) rq).
Proof.
  intros b p l x rq log E. unfold router_result, result_internal. cbn [find_result prefix_of]. rewrite E.
  replace (starts_with p (p ++ x)) with true by (symmetry; apply starts_with_spec; eauto). cbn [call_route].
  now destruct (b log (l, p ++ x) rq).
Qed.
Print Assumptions C84_segments_refuted.

(** No file or directory below has a question mark in its name. *)
Inductive no_marks : node -> Prop :=
| no_marks_file b : no_marks (NFile b)
| no_marks_dir es : (forall k n, In (k, n) es -> ~ In QUERY k /\ no_marks n) -> no_marks (NDir es).

Lemma entry_in name es n : entry name es = Some n -> In (name, n) es.
Proof.
  induction es as [|[k m] es IH]; cbn [entry]; [discriminate|]. destruct (beqb k name) eqn:E.
  - apply beqb_eq in E. subst. intros K. inversion K. now left.
  - intros K. right. auto.
Qed.

Lemma walk_mark cs : forall above cur, no_marks cur -> Forall no_marks above -> (exists c, In c cs /\ In QUERY c) -> walk above cur cs = None.
Proof.
  induction cs as [|c cs IH]; intros above cur N A (d & I & Q); [destruct I|]. cbn [walk]. destruct cur as [b|es]; auto.
  assert (H : In QUERY c \/ exists d, In d cs /\ In QUERY d) by (destruct I as [-> |I]; [now left|right; eauto]). clear d I Q.
  assert (M : forall w, ~ In QUERY w -> beqb c w = true -> exists d, In d cs /\ In QUERY d).
  { intros w Hw E. apply beqb_eq in E. subst w. tauto. }
  destruct (beqb c [] || beqb c (lit ".")) eqn:E1.
  - apply IH; auto. apply orb_true_iff in E1 as [E1|E1]; eapply M; eauto; cbn; intuition discriminate.
  - destruct (beqb c (lit "..")) eqn:E2.
    + assert (K : exists d, In d cs /\ In QUERY d) by (eapply M; eauto; cbn; intuition discriminate).
      destruct above as [|p above]; apply IH; auto; inversion A; auto.
    + destruct (entry c es) as [n|] eqn:E3; auto. apply entry_in in E3. inversion N as [|? Hn]; subst. destruct (Hn _ _ E3) as [H1 H2].
      apply IH; auto. tauto.
Qed.

Lemma components_in (x : Ascii.ascii) p : In x p -> x <> SLASH -> exists c, In c (components p) /\ In x c.
Proof.
  induction p as [|a p IH]; intros I Ns; [destruct I|]. cbn [components]. destruct (Ascii.eqb a SLASH) eqn:E.
  - apply Ascii.eqb_eq in E. destruct I as [-> |I]; [congruence|]. destruct (IH I Ns) as (c & H1 & H2). exists c. split; auto. now right.
  - destruct (components p) as [|h t] eqn:Ec.
    + destruct I as [-> |I]; [exists [x]; split; now left|]. destruct (IH I Ns) as (c & [] & _).
    + destruct I as [-> |I]; [exists (x :: h); split; now left|]. destruct (IH I Ns) as (c & [-> |H1] & H2).
      * exists (a :: c). split; [now left|now right].
      * exists c. split; auto. now right.
Qed.

(** The file router (of the example program) answers every uri with a query with 404, whatever files there are, if no name has a question mark. *)
Theorem C84_file_query_refuted : forall f dir path query, no_marks (f_root f) ->
  file_response f (file_path dir (path ++ QUERY :: query)) = response_of_status STATUS_NOT_FOUND.
Proof.
  intros f dir path query N. unfold file_response, fs_read. set (p := file_path dir (path ++ QUERY :: query)).
  assert (I : In QUERY p).
  { unfold p, file_path. assert (J : In QUERY (dir ++ path ++ QUERY :: query)) by (apply in_or_app; right; apply in_or_app; right; now left).
    destruct (ends_with (lit "/") (dir ++ path ++ QUERY :: query)); auto. apply in_or_app. now left. }
  destruct (existsb (Ascii.eqb Ascii.zero) p); auto. unfold resolve.
  rewrite walk_mark; auto. apply components_in; [|discriminate].
  destruct (starts_with [SLASH] p); auto. apply in_or_app. right. now right.
Qed.
Print Assumptions C84_file_query_refuted.

Example C84_case :
  let rs := [OnExact (lit "/a") 1; Mount (lit "/b") [OnExact (lit "/c") 2]] in
  text_router rs /\ paths_only rs /\
  no_marks (NDir [(lit "app.js", NFile (lit "js"))]) /\
  file_response (mk_fsys (NDir [(lit "app.js", NFile (lit "js"))]) (lit "/")) (file_path (lit "") (lit "/app.js")) <> response_of_status STATUS_NOT_FOUND.
Proof.
  cbn zeta. split; [repeat constructor|]. split.
  - repeat constructor; vm_compute; intuition discriminate.
  - split; [|vm_compute; discriminate]. constructor. intros k n [K|[]]. inversion K; subst. split; [vm_compute; intuition discriminate|constructor].
Qed.
