(** C38-C40: the router. *)
From Coq Require Import List Ascii String NArith Bool Lia.
From Verif.Model Require Import Bytes Io Common Parse Server Router.
From Verif.Spec Require Import Batch Grammar Session Routes.
From Verif.Proofs Require Import BytesFacts GrammarFacts RouterFacts.
Import ListNotations.

(** The result and the calls are those of the functions registered in the tree of routers, in order, that are
    concerned with the uri, up to the first that does not answer Next. *)
Theorem C38_first_answer b rs rq log log' x : text_router rs -> utf8 (rq_uri rq) = true ->
  router_result b rs rq log = (log', x) ->
  exists calls, log' = log ++ calls /\ routed b rq (rq_uri rq) (flat_router rs) log calls x.
Proof. intros T U E. now apply result_routed in E. Qed.
Print Assumptions C38_first_answer.

(** The reference leaves no choice. *)
Theorem C38_reference_unique b rq uri fs log c1 x1 c2 x2 :
  routed b rq uri fs log c1 x1 -> routed b rq uri fs log c2 x2 -> c1 = c2 /\ x1 = x2.
Proof. intros H1 H2. eapply routed_unique; eauto. Qed.
Print Assumptions C38_reference_unique.

(** The functions concerned with a uri, with the uri they get, in order. *)
Inductive concerned (uri : bytes) : list flat -> list call -> Prop :=
| concerned_nil : concerned uri [] []
| concerned_no f fs cs : (forall local, ~ concerns f uri local) -> concerned uri fs cs -> concerned uri (f :: fs) cs
| concerned_yes f fs local cs : concerns f uri local -> concerned uri fs cs ->
    concerned uri (f :: fs) ((f_listener f, local) :: cs).

(** So: let [all] be the functions concerned.  The calls are an initial piece of [all]; every call but the last
    answered Next; the last gave the result, unless all of [all] were called and answered Next. *)
Theorem C38_calls b rs rq log log' x all : text_router rs -> utf8 (rq_uri rq) = true ->
  router_result b rs rq log = (log', x) -> concerned (rq_uri rq) (flat_router rs) all ->
  (x = LNext /\ log' = log ++ all /\
     forall c1 c c2, all = c1 ++ c :: c2 -> b (log ++ c1) c rq = LNext) \/
  (x <> LNext /\ exists c1 c c2, all = c1 ++ c :: c2 /\ log' = log ++ c1 ++ [c] /\ b (log ++ c1) c rq = x /\
     forall d1 d d2, c1 = d1 ++ d :: d2 -> b (log ++ d1) d rq = LNext).
Proof.
  intros T U E A. destruct (C38_first_answer _ _ _ _ _ _ T U E) as (calls & -> & R). clear E T.
  revert all A. induction R as [log|f fs log calls x N R IH|f fs log local calls x C B R IH|f fs log local x C B N]; intros all A.
  - inversion A; subst. left. split; auto. split; auto. intros [|c0 c1] c c2 K; discriminate.
  - inversion A; subst; [now apply IH|]. exfalso. eapply N; eassumption.
  - inversion A as [|? ? ? Hn A'|? ? l2 cs Hc A']; subst; [exfalso; eapply Hn; eassumption|].
    pose proof (concerns_unique _ _ _ _ C Hc); subst l2.
    destruct (IH _ A') as [(-> & E & H)|(Hx & c1 & c & c2 & -> & E & E' & H)].
    + left. split; auto. split; [rewrite <- app_assoc in E; cbn [app] in E; rewrite <- app_assoc in E; exact E|].
      intros [|d c1] c c2 K; cbn [app] in K; inversion K; subst.
      * now rewrite app_nil_r.
      * specialize (H c1 c c2 eq_refl). now rewrite <- app_assoc in H.
    + right. split; auto. exists ((f_listener f, local) :: c1), c, c2. split; auto. rewrite <- app_assoc in E, E'. cbn [app] in E, E'.
      split; [rewrite <- app_assoc in E; exact E|]. split; auto. intros [|d d1] d' d2 K; cbn [app] in K; inversion K; subst.
      * now rewrite app_nil_r.
      * specialize (H d1 d' d2 eq_refl). now rewrite <- app_assoc in H.
  - inversion A as [|? ? ? Hn A'|? ? l2 cs Hc A']; subst; [exfalso; eapply Hn; eassumption|].
    pose proof (concerns_unique _ _ _ _ C Hc); subst l2. right. split; auto.
    exists [], (f_listener f, local), cs. split; auto. split; auto. split; [now rewrite app_nil_r|].
    intros [|d0 d1] d d2 K; discriminate.
Qed.
Print Assumptions C38_calls.

Theorem C38_concerned_exists uri fs : exists all, concerned uri fs all.
Proof.
  induction fs as [|f fs [all IH]]; [exists []; constructor|].
  assert (D : (exists local, concerns f uri local) \/ (forall local, ~ concerns f uri local)).
  { destruct (starts_with (f_above f) uri) eqn:E1.
    - apply starts_with_spec in E1 as [local ->]. unfold concerns. destruct (f_exact f).
      + destruct (beqb local (f_uri f)) eqn:E2.
        * apply beqb_eq in E2. left. exists local. auto.
        * right. intros l [K1 K2]. apply app_inv_head in K1. subst.
          assert (beqb (f_uri f) (f_uri f) = true) by now apply beqb_eq. congruence.
      + destruct (starts_with (f_uri f) local) eqn:E2.
        * left. exists local. split; auto. now apply starts_with_spec.
        * right. intros l [K1 K2]. apply app_inv_head in K1. subst. apply starts_with_spec in K2. congruence.
    - right. intros l [K _]. assert (starts_with (f_above f) uri = true) by (apply starts_with_spec; eauto). congruence. }
  destruct D as [[local D]|D].
  - eexists. eapply concerned_yes; eauto.
  - eexists. apply concerned_no; eauto.
Qed.
Print Assumptions C38_concerned_exists.

(** Routes registered later only see what the earlier ones passed. *)
Theorem C38_append b rs1 rs2 uri rq log :
  result_internal b (rs1 ++ rs2) uri rq log =
  match result_internal b rs1 uri rq log with
  | (log1, LNext) => result_internal b rs2 uri rq log1
  | other => other
  end.
Proof.
  unfold result_internal. revert log. induction rs1 as [|r rs1 IH]; intros log; cbn [app find_result]; auto.
  destruct (starts_with (prefix_of r) uri); auto. destruct (call_route b rq uri r log) as [log1 [| |]]; auto.
Qed.
Print Assumptions C38_append.

(** A mounted router is asked with the rest of the uri if the uri begins with the prefix, and not at all otherwise. *)
Theorem C39_mount b p rs u rq log : utf8 p = true -> utf8 (p ++ u) = true ->
  result_internal b [Mount p rs] (p ++ u) rq log = result_internal b rs u rq log.
Proof.
  intros H1 H2. unfold result_internal at 1. cbn [find_result prefix_of].
  replace (starts_with p (p ++ u)) with true by (symmetry; apply starts_with_spec; eauto).
  rewrite call_mount, slice_text by assumption. now destruct (result_internal b rs u rq log) as [log1 [| |]].
Qed.
Print Assumptions C39_mount.

Theorem C39_mount_elsewhere b p rs uri rq log : (forall u, uri <> p ++ u) ->
  result_internal b [Mount p rs] uri rq log = (log, LNext).
Proof.
  intros H. unfold result_internal. cbn [find_result prefix_of]. destruct (starts_with p uri) eqn:E; auto.
  apply starts_with_spec in E as [u E]. now apply H in E.
Qed.
Print Assumptions C39_mount_elsewhere.

(** Mounting under one prefix inside another is mounting under both joined. *)
Theorem C39_nested b p q rs uri rq log : utf8 p = true -> utf8 q = true -> utf8 uri = true ->
  result_internal b [Mount p [Mount q rs]] uri rq log = result_internal b [Mount (p ++ q) rs] uri rq log.
Proof.
  intros Hp Hq Hu. destruct (starts_with (p ++ q) uri) eqn:E.
  - apply starts_with_spec in E as [u ->]. rewrite C39_mount; [|now apply utf8_app_true|assumption].
    rewrite <- app_assoc in *. rewrite C39_mount by assumption. rewrite C39_mount; auto. now rewrite utf8_app in Hu.
  - rewrite (C39_mount_elsewhere _ (p ++ q)).
    2: { intros u ->. assert (starts_with (p ++ q) ((p ++ q) ++ u) = true) by (apply starts_with_spec; eauto). congruence. }
    destruct (starts_with p uri) eqn:E1.
    + apply starts_with_spec in E1 as [u ->]. rewrite C39_mount by assumption. apply C39_mount_elsewhere.
      intros v ->. assert (starts_with (p ++ q) (p ++ q ++ v) = true) by (apply starts_with_spec; exists v; now rewrite app_assoc). congruence.
    + apply C39_mount_elsewhere. intros v ->. assert (starts_with p (p ++ v) = true) by (apply starts_with_spec; eauto). congruence.
Qed.
Print Assumptions C39_nested.

(** Cutting the uri never panics: a panic can only come from a function of the user. *)
Theorem C39_no_panic b rs rq log log' x : text_router rs -> utf8 (rq_uri rq) = true ->
  (forall lg c, b lg c rq <> LPanic) -> router_result b rs rq log = (log', x) -> x <> LPanic.
Proof.
  intros T U P E. destruct (C38_first_answer _ _ _ _ _ _ T U E) as (calls & _ & R). clear - P R.
  induction R; auto; [discriminate|congruence].
Qed.
Print Assumptions C39_no_panic.

(** So a tree of routers satisfies what the theorems about the server (C24 to C29) ask for. *)
Theorem C39_no_panic_server b rs : text_router rs -> (forall lg c rq, b lg c rq <> LPanic) -> no_panic (router_of b rs).
Proof.
  intros T B h v U. unfold router_of. destruct (router_result b rs v (calls_of b rs h)) as [lg x] eqn:E. cbn [snd].
  eapply C39_no_panic; eauto.
Qed.
Print Assumptions C39_no_panic_server.

(** Without the restriction to text there are cuts that panic, so the hypothesis matters; but every uri the request
    parser delivers is text. *)
Example not_text_panics : exists b rs rq log, snd (router_result b rs rq log) = LPanic /\ forall lg c r, b lg c r <> LPanic.
Proof.
  exists (fun _ _ _ => LNext), [Mount [ascii_of_N 195] []], (mk_request GET [ascii_of_N 195; ascii_of_N 169] [] []), [].
  split; [vm_compute; reflexivity|discriminate].
Qed.

Theorem C39_parsed_uri_is_text w r rest : batch_request w = Complete r rest -> utf8 (rq_uri r) = true.
Proof.
  intros E. apply request_sound in E as (w' & ps & _ & (l & wire & H1 & H2 & _) & _).
  eapply request_line_text; eauto.
Qed.
Print Assumptions C39_parsed_uri_is_text.

(** An exact route: passed over unless the uri is its own; called with it exactly once if no earlier route answered. *)
Theorem C40_exact b rs1 u l rs2 uri rq log :
  result_internal b (rs1 ++ OnExact u l :: rs2) uri rq log =
  match result_internal b rs1 uri rq log with
  | (log1, LNext) =>
      if beqb u uri then
        match b log1 (l, u) rq with
        | LNext => result_internal b rs2 uri rq (log1 ++ [(l, u)])
        | x => (log1 ++ [(l, u)], x)
        end
      else result_internal b rs2 uri rq log1
  | other => other
  end.
Proof.
  rewrite C38_append. destruct (result_internal b rs1 uri rq log) as [log1 [| |]]; auto.
  unfold result_internal. cbn [find_result prefix_of starts_with call_route].
  destruct (beqb u uri) eqn:E; auto. apply beqb_eq in E as ->. now destruct (b log1 (l, uri) rq).
Qed.
Print Assumptions C40_exact.

(** The functions a router may call. *)
Definition names (rs : list route) : list nat := map f_listener (flat_router rs).

Lemma routed_names b rq uri fs log calls x c : routed b rq uri fs log calls x -> In c calls -> In (fst c) (map f_listener fs).
Proof.
  induction 1 as [log|f fs log calls x N R IH|f fs log local calls x C B R IH|f fs log local x C B N]; cbn [In map]; auto.
  - intros [<-|H]; auto.
  - intros [<-|[]]; auto.
Qed.

(** A function registered with [on] and nowhere else is called exactly if the uri is its own and no earlier route
    answered. *)
Theorem C40_called_iff b rs1 u l rs2 rq log log' x : text_router (rs1 ++ OnExact u l :: rs2) -> utf8 (rq_uri rq) = true ->
  ~ In l (names rs1) -> ~ In l (names rs2) ->
  router_result b (rs1 ++ OnExact u l :: rs2) rq log = (log', x) ->
  exists calls, log' = log ++ calls /\
    ((exists local, In (l, local) calls) <-> rq_uri rq = u /\ snd (router_result b rs1 rq log) = LNext) /\
    (forall local, In (l, local) calls -> local = u).
Proof.
  intros T U N1 N2 E. unfold router_result in *. rewrite C40_exact in E.
  apply Forall_app in T as [T1 T2]. inversion T2 as [|? ? T3 T4]; subst.
  destruct (result_internal b rs1 (rq_uri rq) rq log) as [log1 y] eqn:E1.
  destruct (result_routed b rs1 rq _ log log1 y T1 U E1) as (c1 & -> & R1).
  assert (M1 : forall local, ~ In (l, local) c1) by (intros local K; apply (routed_names _ _ _ _ _ _ _ _ R1) in K; auto).
  cbn [snd]. destruct y.
  - destruct (beqb u (rq_uri rq)) eqn:Eu.
    + apply beqb_eq in Eu. destruct (b (log ++ c1) (l, u) rq) eqn:Eb.
      * destruct (result_routed b rs2 rq _ _ _ _ T4 U E) as (c2 & -> & R2).
        assert (M2 : forall local, ~ In (l, local) c2) by (intros local K; apply (routed_names _ _ _ _ _ _ _ _ R2) in K; auto).
        exists (c1 ++ [(l, u)] ++ c2). split; [now rewrite <- !app_assoc|]. split; [split; auto|].
        -- intros _. exists u. apply in_or_app. right. now left.
        -- intros local K. apply in_app_or in K as [K|[K|K]]; [now apply M1 in K|congruence|now apply M2 in K].
      * inversion E; subst. exists (c1 ++ [(l, rq_uri rq)]). split; [now rewrite <- app_assoc|]. split; [split; auto|].
        -- intros _. exists (rq_uri rq). apply in_or_app. right. now left.
        -- intros local K. apply in_app_or in K as [K|[K|[]]]; [now apply M1 in K|congruence].
      * inversion E; subst. exists (c1 ++ [(l, rq_uri rq)]). split; [now rewrite <- app_assoc|]. split; [split; auto|].
        -- intros _. exists (rq_uri rq). apply in_or_app. right. now left.
        -- intros local K. apply in_app_or in K as [K|[K|[]]]; [now apply M1 in K|congruence].
    + destruct (result_routed b rs2 rq _ _ _ _ T4 U E) as (c2 & -> & R2).
      assert (M2 : forall local, ~ In (l, local) c2) by (intros local K; apply (routed_names _ _ _ _ _ _ _ _ R2) in K; auto).
      exists (c1 ++ c2). split; [now rewrite <- !app_assoc|]. split; [split|].
      * intros [local K]. apply in_app_or in K as [K|K]; [now apply M1 in K|now apply M2 in K].
      * intros [K _]. assert (beqb u (rq_uri rq) = true) by now apply beqb_eq. congruence.
      * intros local K. apply in_app_or in K as [K|K]; [now apply M1 in K|now apply M2 in K].
  - inversion E; subst. exists c1. split; auto. split; [|intros local K; now apply M1 in K].
    split; [intros [local K]; now apply M1 in K|intros [_ K]; discriminate].
  - inversion E; subst. exists c1. split; auto. split; [|intros local K; now apply M1 in K].
    split; [intros [local K]; now apply M1 in K|intros [_ K]; discriminate].
Qed.
Print Assumptions C40_called_iff.

(** Non-vacuity: the nested router of the repository's documentation. *)
Definition example_routes : list route :=
  [OnPrefix (lit "") 0; Mount (lit "/foo") [OnExact (lit "/bar") 1; OnPrefix (lit "/b") 2; OnPrefix (lit "") 3]; OnExact (lit "/foo/bar") 4].
Definition example_behaviour : behaviour := fun _ c _ =>
  if Nat.eqb (fst c) 2 then LSend (mk_response (mk_status 200 (lit "OK")) [] []) else LNext.
Definition example_request : request := mk_request GET (lit "/foo/bar") [] [].
Example example_text : text_router example_routes /\ utf8 (rq_uri example_request) = true.
Proof. split; [|reflexivity]. unfold text_router, example_routes. repeat apply Forall_cons; try apply Forall_nil; cbn; auto. Qed.
Example example_routed : router_result example_behaviour example_routes example_request [] =
  ([(0, lit "/foo/bar"); (1, lit "/bar"); (2, lit "/bar")], LSend (mk_response (mk_status 200 (lit "OK")) [] [])).
Proof. vm_compute. reflexivity. Qed.
Example example_names : ~ In 1 (names [OnPrefix (lit "") 0]) /\ names example_routes = [0; 1; 2; 3; 4].
Proof. split; [intros [H|[]]; discriminate|reflexivity]. Qed.
