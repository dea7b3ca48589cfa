(** The slab. *)
From Coq Require Import List Bool Arith Lia.
From Verif.Model Require Import Slab.
From Verif.Spec Require Import Slots.
Import ListNotations.

Lemma set_nth_length {A} n (x : A) l : List.length (set_nth n x l) = List.length l.
Proof. revert n; induction l as [|y l IH]; intros [|n]; cbn; auto. Qed.

Lemma nth_set_nth {A} n (x : A) l k : nth_error (set_nth n x l) k =
  if (n =? k) && (n <? List.length l) then Some x else nth_error l k.
Proof.
  revert n k; induction l as [|y l IH]; intros n k.
  - cbn [set_nth List.length]. change (n <? 0) with false. rewrite andb_false_r. now destruct n.
  - destruct n as [|n], k as [|k]; cbn [set_nth nth_error]; auto. rewrite IH. reflexivity.
Qed.

Definition occupied {A} (o : option A) : bool := match o with Some _ => true | None => false end.

Definition slab_inv {T} (s : slab T) : Prop :=
  NoDup (sl_open s) /\ (forall k, In k (sl_open s) <-> nth_error (sl_data s) k = Some None).

Lemma slab_inv_new {T} c : slab_inv (@slab_new T c).
Proof. split; [constructor|]. intros k. cbn. destruct k; split; try discriminate; tauto. Qed.

Lemma insert_spec {T} (s : slab T) x : slab_inv s ->
  exists s', insert s x = Some (s', next_key s) /\ slab_inv s' /\ get s (next_key s) = None /\
    (forall k, get s' k = if next_key s =? k then Some x else get s k) /\
    List.length (sl_data s') = Nat.max (List.length (sl_data s)) (List.length (sl_data s) - List.length (sl_open s) + 1) /\
    List.length (sl_open s') = List.length (sl_open s) - 1 /\ next_key s < List.length (sl_data s').
Proof.
  intros [N H]. unfold insert, next_key. destruct (sl_open s) as [|k o] eqn:Eo.
  - exists (mk_slab (sl_data s ++ [Some x]) []). split; auto. cbn [sl_data sl_open].
    assert (Hn : nth_error (sl_data s) (List.length (sl_data s)) = None) by (apply nth_error_None; lia).
    split; [|split; [|split; [|split; [|split]]]].
    + split; [constructor|]. intros k. cbn. split; [tauto|]. intros K.
      destruct (Nat.lt_ge_cases k (List.length (sl_data s))) as [L|L].
      * rewrite nth_error_app1 in K by assumption. rewrite <- H in K. destruct K.
      * rewrite nth_error_app2 in K by assumption. destruct (k - List.length (sl_data s)) as [|[|j]]; discriminate.
    + unfold get. now rewrite Hn.
    + intros k. unfold get. cbn [sl_data]. destruct (Nat.eqb_spec (List.length (sl_data s)) k) as [<-|E].
      * rewrite nth_error_app2, Nat.sub_diag by lia. reflexivity.
      * destruct (Nat.lt_ge_cases k (List.length (sl_data s))) as [L|L].
        -- now rewrite nth_error_app1 by assumption.
        -- rewrite nth_error_app2 by assumption. destruct (nth_error (sl_data s) k) eqn:Ek.
           ++ exfalso. apply nth_error_None in L. congruence.
           ++ destruct (k - List.length (sl_data s)) as [|[|j]] eqn:Ej; auto. lia.
    + rewrite app_length. cbn. lia.
    + reflexivity.
    + rewrite app_length. cbn. lia.
  - assert (Hk : nth_error (sl_data s) k = Some None) by (apply H; now left). rewrite Hk.
    eexists. split; [reflexivity|]. cbn [sl_data sl_open]. inversion N as [|? ? N1 N2]; subst.
    assert (L : k < List.length (sl_data s)) by (apply nth_error_Some; congruence).
    split; [|split; [|split; [|split; [|split]]]].
    + split; auto. intros j. cbn [sl_data sl_open]. rewrite nth_set_nth. apply Nat.ltb_lt in L. rewrite L, andb_true_r.
      destruct (Nat.eqb_spec k j) as [->|E].
      * split; [contradiction|discriminate].
      * rewrite <- H. split; [now right|]. intros [->|K]; auto. congruence.
    + unfold get. now rewrite Hk.
    + intros j. unfold get. cbn [sl_data]. rewrite nth_set_nth. apply Nat.ltb_lt in L. rewrite L, andb_true_r.
      now destruct (k =? j).
    + rewrite set_nth_length. cbn. lia.
    + cbn. lia.
    + now rewrite set_nth_length.
Qed.

Lemma remove_spec {T} (s : slab T) k r s' : slab_inv s -> remove s k = (r, s') ->
  slab_inv s' /\ r = get s k /\ (forall j, get s' j = if k =? j then None else get s j) /\
  List.length (sl_data s') = List.length (sl_data s) /\
  List.length (sl_open s') = List.length (sl_open s) + (if occupied r then 1 else 0) /\
  (r <> None -> next_key s' = k).
Proof.
  intros [N H] E. unfold remove in E. unfold get at 1. destruct (nth_error (sl_data s) k) as [[x|]|] eqn:Ek; inversion E; subst; cbn [sl_data sl_open occupied].
  - assert (L : k < List.length (sl_data s)) by (apply nth_error_Some; congruence). apply Nat.ltb_lt in L.
    split; [|split; [|split; [|split; [|split]]]]; auto.
    + split; cbn [sl_data sl_open].
      * constructor; auto. rewrite H. congruence.
      * intros j. rewrite nth_set_nth, L, andb_true_r. destruct (Nat.eqb_spec k j) as [->|D].
        -- split; auto. now left.
        -- rewrite <- H. split; [intros [->|K]; congruence|now right].
    + intros j. unfold get. cbn [sl_data]. rewrite nth_set_nth, L, andb_true_r. now destruct (k =? j).
    + now rewrite set_nth_length.
    + cbn. lia.
  - split; [split; auto|]. split; auto. split; [|split; [auto|split; [lia|congruence]]].
    intros j. destruct (Nat.eqb_spec k j) as [->|D]; auto. unfold get. now rewrite Ek.
  - split; [split; auto|]. split; auto. split; [|split; [auto|split; [lia|congruence]]].
    intros j. destruct (Nat.eqb_spec k j) as [->|D]; auto. unfold get. now rewrite Ek.
Qed.

Lemma alive_most {T} (h : list (act T)) : alive h <= most h.
Proof. destruct h; cbn [most]; [cbn [alive]|]; lia. Qed.

Lemma history_inv {T} (s : slab T) h : history s h ->
  slab_inv s /\ (forall k, get s k = stored h k) /\
  List.length (sl_data s) = alive h + List.length (sl_open s) /\ List.length (sl_data s) = most h.
Proof.
  induction 1 as [c|s h x s' k _ (I & G & L1 & L2) E|s h k r s' _ (I & G & L1 & L2) E].
  - split; [apply slab_inv_new|]. split; [|auto]. intros k. unfold get. cbn. now destruct k.
  - destruct (insert_spec s x I) as (s1 & E1 & I1 & G1 & G2 & K1 & K2 & K3). rewrite E in E1. inversion E1; subst s1 k.
    split; auto. split; [|split].
    + intros j. rewrite G2. cbn [stored]. now rewrite G.
    + cbn [alive]. destruct (sl_open s); cbn in *; lia.
    + cbn [most alive]. pose proof (alive_most h). lia.
  - pose proof (remove_spec s k r s' I E) as (I1 & Hr & G1 & K1 & K2 & _). split; auto.
    destruct r as [x|]; cbn [stored alive most occupied] in *.
    + split; [intros j; rewrite G1; now rewrite G|].
      assert (1 <= alive h).
      { destruct (alive h) eqn:Ea; [|lia]. exfalso.
        destruct I as [N H].
        assert (incl (seq 0 (List.length (sl_data s))) (sl_open s)).
        { apply NoDup_length_incl; [exact N| |].
          - rewrite seq_length. lia.
          - intros j Hj. apply in_seq. apply H in Hj. split; [lia|]. apply nth_error_Some. congruence. }
        unfold get in Hr. destruct (nth_error (sl_data s) k) as [[y|]|] eqn:Ek; try discriminate.
        assert (In k (sl_open s)) by (apply H0, in_seq; split; [lia|]; apply nth_error_Some; congruence).
        apply H in H1. congruence. }
      split; lia.
    + split; [|split; lia]. intros j. rewrite G1, <- G. destruct (Nat.eqb_spec k j) as [->|]; auto.
Qed.
