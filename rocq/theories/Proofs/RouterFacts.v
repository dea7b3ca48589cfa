(** The router. *)
From Coq Require Import List Ascii NArith Bool Lia.
From Verif.Model Require Import Bytes Common Server Router.
From Verif.Spec Require Import Routes.
From Verif.Proofs Require Import BytesFacts.
Import ListNotations.

(** Induction over trees of routers. *)
Lemma route_ind' (P : route -> Prop) :
  (forall u l, P (OnPrefix u l)) -> (forall u l, P (OnExact u l)) ->
  (forall u rs, Forall P rs -> P (Mount u rs)) -> forall r, P r.
Proof.
  intros H1 H2 H3. fix IH 1. intros [u l|u l|u rs]; [apply H1|apply H2|apply H3].
  induction rs as [|r rs IHr]; constructor; [apply IH|apply IHr].
Qed.

Lemma call_mount b rq uri u rs log : call_route b rq uri (Mount u rs) log =
  match slice_from (List.length u) uri with
  | None => (log, LPanic)
  | Some uri' => result_internal b rs uri' rq log
  end.
Proof.
  cbn [call_route]. destruct (slice_from (List.length u) uri) as [uri'|]; auto. unfold result_internal.
  revert log. induction rs as [|r rs IH]; intros log; cbn [find_result]; auto.
  destruct (starts_with (prefix_of r) uri'); auto. destruct (call_route b rq uri' r log) as [log1 [| |]]; auto.
Qed.

Lemma starts_with_spec p s : starts_with p s = true <-> exists r, s = p ++ r.
Proof.
  revert s. induction p as [|c p IH]; intros s; cbn [starts_with].
  - split; auto. intros _. now exists s.
  - destruct s as [|d s]; [split; [discriminate|intros [r H]; discriminate]|].
    rewrite andb_true_iff, IH, Ascii.eqb_eq. split.
    + intros [-> [r ->]]. now exists r.
    + intros [r H]. cbn in H. inversion H; subst. split; auto. now exists r.
Qed.

Lemma slice_text u s : utf8 u = true -> utf8 (u ++ s) = true -> slice_from (List.length u) (u ++ s) = Some s.
Proof.
  intros H1 H2. unfold slice_from. rewrite app_length. replace (Nat.leb _ _) with true by (symmetry; apply PeanoNat.Nat.leb_le; lia).
  rewrite skipn_app, skipn_all, PeanoNat.Nat.sub_diag. cbn [app skipn]. rewrite utf8_app in H2 by assumption.
  destruct s as [|c s]; auto. now rewrite (utf8_first c s H2).
Qed.

Lemma text_mount u rs : text_route (Mount u rs) <-> utf8 u = true /\ text_router rs.
Proof.
  cbn [text_route]. unfold text_router. split; intros [H1 H2]; (split; [assumption|]).
  - induction rs as [|r rs IH]; constructor; [apply H2|apply IH, H2].
  - induction H2; cbn; auto.
Qed.

Lemma routed_app b rq uri fs1 fs2 log c1 : routed b rq uri fs1 log c1 LNext -> forall c2 x,
  routed b rq uri fs2 (log ++ c1) c2 x -> routed b rq uri (fs1 ++ fs2) log (c1 ++ c2) x.
Proof.
  intros H. remember LNext as n eqn:En. induction H as [log|f fs log calls x N R IH|f fs log local calls x C B R IH|f fs log local x C B N]; intros c2 y H2; subst; cbn [app].
  - now rewrite app_nil_r in H2.
  - apply routed_other; auto.
  - apply routed_next; auto. apply IH; auto. now rewrite <- app_assoc.
  - contradiction.
Qed.

Lemma routed_app_answer b rq uri fs1 fs2 log c x : routed b rq uri fs1 log c x -> x <> LNext ->
  routed b rq uri (fs1 ++ fs2) log c x.
Proof.
  induction 1 as [log|f fs log calls x N R IH|f fs log local calls x C B R IH|f fs log local x C B N]; intros Hx; cbn [app].
  - contradiction.
  - apply routed_other; auto.
  - apply routed_next; auto.
  - eapply routed_answer; eauto.
Qed.

Lemma routed_none b rq uri fs log : (forall f local, In f fs -> ~ concerns f uri local) -> routed b rq uri fs log [] LNext.
Proof.
  induction fs as [|f fs IH]; intros H; constructor.
  - intros local. apply H. now left.
  - apply IH. intros f' local Hf. apply H. now right.
Qed.

Lemma flatten_above r : forall above f, In f (flatten above r) -> exists s, f_above f = above ++ prefix_of (match r with Mount u _ => OnPrefix u 0 | _ => OnPrefix [] 0 end) ++ s.
Proof.
  induction r as [u l|u l|u rs IH] using route_ind'; intros above f H; cbn [flatten] in H; cbn [prefix_of].
  - destruct H as [<-|[]]. exists []. cbn. now rewrite app_nil_r.
  - destruct H as [<-|[]]. exists []. cbn. now rewrite app_nil_r.
  - apply in_flat_map in H as (r & Hr & Hf). rewrite Forall_forall in IH. destruct (IH r Hr _ _ Hf) as [s ->].
    eexists. rewrite <- !app_assoc. reflexivity.
Qed.

(** A route is not concerned with a uri that does not begin with the uris above and its prefix. *)
Lemma flatten_prefix r above uri f local : In f (flatten above r) -> concerns f (above ++ uri) local ->
  starts_with (prefix_of r) uri = true.
Proof.
  intros H [E K]. destruct r as [u l|u l|u rs]; cbn [prefix_of].
  - destruct H as [<-|[]]. cbn in *. apply app_inv_head in E. subst. apply starts_with_spec. exact K.
  - reflexivity.
  - destruct (flatten_above _ _ _ H) as [s Hs]. cbn [prefix_of] in Hs. rewrite Hs, <- !app_assoc in E. apply app_inv_head in E.
    apply starts_with_spec. eexists. exact E.
Qed.

Section Flat.
Variables (b : behaviour) (rq : request).

Definition one_ok (r : route) : Prop := text_route r -> forall above uri log log' x, utf8 uri = true ->
  starts_with (prefix_of r) uri = true -> call_route b rq uri r log = (log', x) ->
  exists calls, log' = log ++ calls /\ routed b rq (above ++ uri) (flatten above r) log calls x.

Lemma find_routed rs : Forall one_ok rs -> text_router rs -> forall above uri log log' x, utf8 uri = true ->
  result_internal b rs uri rq log = (log', x) ->
  exists calls, log' = log ++ calls /\ routed b rq (above ++ uri) (flat_map (flatten above) rs) log calls x.
Proof.
  unfold result_internal. induction rs as [|r rs IH]; intros F T above uri log log' x U E; cbn [find_result] in E.
  - inversion E; subst. exists []. rewrite app_nil_r. split; auto. constructor.
  - inversion F as [|? ? F1 F2]; subst. inversion T as [|? ? T1 T2]; subst. cbn [flat_map].
    destruct (starts_with (prefix_of r) uri) eqn:Es.
    + destruct (call_route b rq uri r log) as [log1 y] eqn:Ec.
      destruct (F1 T1 above uri log log1 y U Es Ec) as (c1 & -> & R1).
      destruct y.
      * destruct (IH F2 T2 above uri _ _ _ U E) as (c2 & -> & R2). exists (c1 ++ c2). split; [now rewrite app_assoc|].
        eapply routed_app; eauto.
      * inversion E; subst. exists c1. split; auto. apply routed_app_answer; auto. discriminate.
      * inversion E; subst. exists c1. split; auto. apply routed_app_answer; auto. discriminate.
    + destruct (IH F2 T2 above uri _ _ _ U E) as (c2 & -> & R2). exists c2. split; auto.
      apply (routed_app b rq (above ++ uri) (flatten above r) (flat_map (flatten above) rs) log []); [|now rewrite app_nil_r].
      apply routed_none. intros f local Hf K. pose proof (flatten_prefix _ _ _ _ _ Hf K). congruence.
Qed.

Lemma all_ok r : one_ok r.
Proof.
  induction r as [u l|u l|u rs IH] using route_ind'; intros T above uri log log' x U P E.
  - cbn [call_route] in E. inversion E; subst. exists [(l, uri)]. split; auto. cbn [flatten].
    assert (K : concerns (mk_flat above false u l) (above ++ uri) uri).
    { split; auto. cbn. now apply starts_with_spec. }
    destruct (b log (l, uri) rq) eqn:Eb.
    + apply (routed_next b rq (above ++ uri) (mk_flat above false u l) [] log uri [] LNext); auto. constructor.
    + apply (routed_answer b rq (above ++ uri) (mk_flat above false u l) [] log uri); auto. discriminate.
    + apply (routed_answer b rq (above ++ uri) (mk_flat above false u l) [] log uri); auto. discriminate.
  - cbn [call_route] in E. cbn [flatten]. destruct (beqb u uri) eqn:Eu.
    + apply beqb_eq in Eu as ->. inversion E; subst. exists [(l, uri)]. split; auto.
      assert (K : concerns (mk_flat above true uri l) (above ++ uri) uri) by (split; reflexivity).
      destruct (b log (l, uri) rq) eqn:Eb.
      * apply (routed_next b rq (above ++ uri) (mk_flat above true uri l) [] log uri [] LNext); auto. constructor.
      * apply (routed_answer b rq (above ++ uri) (mk_flat above true uri l) [] log uri); auto. discriminate.
      * apply (routed_answer b rq (above ++ uri) (mk_flat above true uri l) [] log uri); auto. discriminate.
    + inversion E; subst. exists []. split; [now rewrite app_nil_r|]. apply routed_other; [|constructor].
      intros local [K1 K2]. cbn in *. subst local. apply app_inv_head in K1. subst uri. 
      assert (beqb u u = true) by now apply beqb_eq. congruence.
  - rewrite call_mount in E. cbn [prefix_of] in P. apply starts_with_spec in P as [rest ->].
    apply text_mount in T as [T1 T2]. rewrite slice_text in E by assumption.
    rewrite utf8_app in U by assumption.
    destruct (find_routed rs IH T2 (above ++ u) rest log log' x U E) as (calls & -> & R).
    exists calls. split; auto. cbn [flatten]. now rewrite <- app_assoc in R.
Qed.

End Flat.

Lemma result_routed b rs rq uri log log' x : text_router rs -> utf8 uri = true ->
  result_internal b rs uri rq log = (log', x) ->
  exists calls, log' = log ++ calls /\ routed b rq uri (flat_router rs) log calls x.
Proof.
  intros T U E. apply (find_routed b rq rs) with (above := []) in E; auto. apply Forall_forall. intros r _. apply all_ok.
Qed.

Lemma concerns_unique f uri l1 l2 : concerns f uri l1 -> concerns f uri l2 -> l1 = l2.
Proof. intros [H1 _] [H2 _]. apply (app_inv_head (f_above f)). congruence. Qed.

Lemma routed_unique b rq uri fs log c1 x1 : routed b rq uri fs log c1 x1 -> forall c2 x2,
  routed b rq uri fs log c2 x2 -> c1 = c2 /\ x1 = x2.
Proof.
  induction 1 as [log|f fs log calls x N R IH|f fs log local calls x C B R IH|f fs log local x C B N]; intros c2 x2 H2; inversion H2; subst; auto;
    try (exfalso; match goal with K : forall l, ~ concerns _ _ l |- _ => eapply K; eassumption end).
  - match goal with K : concerns f uri ?l |- _ => pose proof (concerns_unique _ _ _ _ C K); subst end.
    match goal with K : routed _ _ _ _ _ _ _ |- _ => apply IH in K as [-> ->] end. auto.
  - match goal with K : concerns f uri ?l |- _ => pose proof (concerns_unique _ _ _ _ C K); subst end. congruence.
  - match goal with K : concerns f uri ?l |- _ => pose proof (concerns_unique _ _ _ _ C K); subst end. congruence.
  - match goal with K : concerns f uri ?l |- _ => pose proof (concerns_unique _ _ _ _ C K); subst end. auto.
Qed.
