(** The parsers on buffered streams. *)
From Coq Require Import List Ascii String Arith NArith Bool Lia.
From Verif.Model Require Import Bytes Io Common Parse Encode Writer Server Client Generic Buffered.
From Verif.Spec Require Import Buffering.
From Verif.Proofs Require Import BytesFacts GenericFacts FuelFacts.
Import ListNotations.
Local Open Scope N_scope.

(** *** what there is *)

Lemma content_data bs s : bs <> [] -> content (RData bs :: s) = map Byte bs ++ content s.
Proof. destruct bs; [congruence|reflexivity]. Qed.

Lemma content_err k s : content (RErr k :: s) = Failure k :: content s.
Proof. reflexivity. Qed.
Lemma content_end s : content (RData [] :: s) = End :: content s.
Proof. reflexivity. Qed.

Lemma content_nil s : content s = [] -> s = [].
Proof. destruct s as [|[[|c bs]|k] s]; auto; discriminate. Qed.

Lemma mu_content s : (mu s <= 2 * List.length (content s))%nat.
Proof.
  unfold content. induction s as [|[bs|k] s IH]; cbn [mu flat_map content_of]; auto.
  - rewrite app_length. destruct bs as [|c bs]; cbn [content_of List.length]; [cbn in *; lia|]. rewrite map_length. cbn [List.length] in *. lia.
  - cbn [app List.length] in *. lia.
Qed.

(** Read::read on the two kinds of stream. *)
Lemma read_some_raw n s : 0 < n -> read_some n s = raw_read n s.
Proof.
  intros Hn. unfold read_some, raw_read. destruct s as [|[[|c bs]|k] s]; cbn [fill]; auto.
  - rewrite N.min_0_r. reflexivity.
  - set (b := c :: bs). assert (Hb : b <> []) by discriminate. clearbody b. clear c bs.
    assert (E : firstn (N.to_nat (N.min n (len b))) b = firstn (N.to_nat n) b).
    { destruct (N.le_gt_cases n (len b)); [rewrite N.min_l by lia; auto|].
      rewrite N.min_r by lia. unfold len in *. rewrite !firstn_all2 by lia. auto. }
    rewrite E. unfold consume. rewrite len_firstn.
    pose proof (len_pos b Hb). destruct (N.eqb_spec (N.min n (len b)) 0); [lia|].
    f_equal. destruct (N.le_gt_cases n (len b)); [rewrite N.min_l by lia; auto|].
    rewrite N.min_r by lia. unfold len in *. rewrite !skipn_all2 by lia. auto.
Qed.

Section Buffered.
Context {W : Type}.

(** Everything but the input. *)
Definition outside (d : buffered W) : W * sock * N := (bf_w d, so_tx (rd_inner (bf_r d)), rd_cap (bf_r d)).

(** [s] is the input of [d], what is buffered in one piece. *)
Definition input_of (s : stream) (d : buffered W) : Prop :=
  match rd_buf (bf_r d) with
  | [] => recut s (so_rx (rd_inner (bf_r d)))
  | buf => exists s0, s = RData buf :: s0 /\ recut s0 (so_rx (rd_inner (bf_r d)))
  end.

Definition sim (x : W * sock * N) (s : stream) (d : buffered W) : Prop :=
  outside d = x /\ 0 < rd_cap (bf_r d) /\ input_of s d.

Lemma input_exists (d : buffered W) : exists s, input_of s d.
Proof.
  unfold input_of. destruct (rd_buf (bf_r d)) as [|c buf]; [exists (so_rx (rd_inner (bf_r d)))|exists (RData (c :: buf) :: so_rx (rd_inner (bf_r d)))].
  - reflexivity.
  - eexists; split; reflexivity.
Qed.

Definition room (d : buffered W) : nat := 2 * (S (List.length (rd_buf (bf_r d))) + List.length (content (so_rx (rd_inner (bf_r d))))).

Lemma input_mu s d : input_of s d -> (mu s <= room d)%nat.
Proof.
  unfold input_of, room, recut. intros H. destruct (rd_buf (bf_r d)) as [|c buf].
  - pose proof (mu_content s). rewrite H in *. lia.
  - destruct H as (s0 & -> & E). pose proof (mu_content s0). rewrite E in *. cbn [mu List.length] in *. lia.
Qed.

(** *** measures *)

Lemma raw_read_mu n s x s' : raw_read n s = (x, s') ->
  match x with
  | inl k => (mu s' <= mu s)%nat /\ (k = Interrupted -> (mu s' < mu s)%nat)
  | inr bs => (List.length bs + mu s' <= mu s)%nat
  end.
Proof.
  intros E. destruct s as [|[[|c bs]|k] s]; cbn [raw_read] in E.
  - inversion E; subst. split; [lia|discriminate].
  - inversion E; subst. cbn [mu List.length]. lia.
  - remember (c :: bs) as b eqn:Eb. assert (Hb : (0 < List.length b)%nat) by (subst; cbn; lia). clear Eb.
    inversion E; subst. cbn [mu]. rewrite firstn_length.
    pose proof (skipn_length (N.to_nat n) b) as L. destruct (skipn (N.to_nat n) b); cbn [mu List.length] in *; lia.
  - inversion E; subst. cbn [mu]. lia.
Qed.

Lemma fill_err_mu s k s' : fill s = (inl k, s') -> (mu s' <= mu s)%nat /\ (k = Interrupted -> (mu s' < mu s)%nat).
Proof.
  destruct s as [|[[|c bs]|k0] s]; cbn [fill]; intros E; inversion E; subst; cbn [mu]; try lia. split; [lia|discriminate].
Qed.

Lemma fill_ok_mu s bs s' n : fill s = (inr bs, s') -> n <= len bs ->
  (mu (consume n s') <= mu s)%nat /\ (0 < n -> (mu (consume n s') < mu s)%nat).
Proof.
  destruct s as [|[[|c b]|k0] s]; cbn [fill]; intros E Hn; inversion E; subst.
  - cbn in Hn. assert (n = 0) by lia. subst. cbn [consume mu]. cbn. lia.
  - unfold consume. destruct (N.eqb_spec n 0); [subst; lia|].
    pose proof (skipn_length (N.to_nat n) (c :: b)) as L. unfold len in Hn.
    destruct (skipn (N.to_nat n) (c :: b)); cbn [mu List.length] in *; lia.
Qed.

Lemma read_err_mu n s k s' : 0 < n -> read_some n s = (inl k, s') -> (mu s' <= mu s)%nat /\ (k = Interrupted -> (mu s' < mu s)%nat).
Proof. intros Hn E. rewrite read_some_raw in E by auto. apply (raw_read_mu _ _ _ _ E). Qed.

Lemma read_ok_mu n s bs s' : 0 < n -> read_some n s = (inr bs, s') -> (mu s' <= mu s)%nat /\ (bs <> [] -> (mu s' < mu s)%nat).
Proof. intros Hn E. rewrite read_some_raw in E by auto. apply raw_read_mu in E. split; [lia|]. intros Hb. apply len_pos in Hb. unfold len in Hb. lia. Qed.

(** The three operations, seen from what they return. *)
Lemma bf_fill_cases (d : buffered W) x d' : bf_fill d = (x, d') ->
  outside d' = outside d /\
  match x with
  | inl k => rd_buf (bf_r d) = [] /\ rd_buf (bf_r d') = [] /\
      raw_read (rd_cap (bf_r d)) (so_rx (rd_inner (bf_r d))) = (inl k, so_rx (rd_inner (bf_r d')))
  | inr bs => rd_buf (bf_r d') = bs /\
      ((rd_buf (bf_r d) = [] /\ raw_read (rd_cap (bf_r d)) (so_rx (rd_inner (bf_r d))) = (inr bs, so_rx (rd_inner (bf_r d'))))
       \/ (bs <> [] /\ d' = d))
  end.
Proof.
  destruct d as [w [cap buf [rx tx]]]. unfold bf_fill, rd_fill, outside. cbn [bf_w bf_r rd_cap rd_buf rd_inner so_rx so_tx].
  intros E. destruct buf as [|c buf].
  - destruct (raw_read cap rx) as [[k|bs] s'] eqn:Er; inversion E; subst; cbn; auto.
  - inversion E; subst. cbn. split; auto. split; auto. right. split; [discriminate|auto].
Qed.

Lemma bf_mu_eq (d : buffered W) : bf_mu d = (List.length (rd_buf (bf_r d)) + mu (so_rx (rd_inner (bf_r d))))%nat.
Proof. reflexivity. Qed.

Lemma bf_consume_parts n (d : buffered W) :
  outside (bf_consume n d) = outside d /\ rd_buf (bf_r (bf_consume n d)) = skipn (N.to_nat n) (rd_buf (bf_r d)) /\
  so_rx (rd_inner (bf_r (bf_consume n d))) = so_rx (rd_inner (bf_r d)).
Proof. destruct d as [w [cap buf [rx tx]]]. repeat split. Qed.

Lemma outside_cap (d d' : buffered W) : outside d' = outside d -> rd_cap (bf_r d') = rd_cap (bf_r d).
Proof. unfold outside. congruence. Qed.

(** Without a fill at all: either a read of the socket past the buffer, or a fill and the front of the buffer. *)
Lemma bf_read_cases n (d : buffered W) x d' : bf_read n d = (x, d') ->
  (rd_buf (bf_r d) = [] /\ raw_read n (so_rx (rd_inner (bf_r d))) = (x, so_rx (rd_inner (bf_r d'))) /\
     rd_buf (bf_r d') = [] /\ outside d' = outside d)
  \/ (exists y d1, bf_fill d = (y, d1) /\
      match y with
      | inl k => x = inl k /\ d' = d1
      | inr bs => x = inr (firstn (N.to_nat n) bs) /\ d' = bf_consume (N.min n (len bs)) d1
      end).
Proof.
  destruct d as [w [cap buf [rx tx]]]. unfold bf_read, rd_read, bf_fill, outside.
  cbn [bf_w bf_r rd_cap rd_buf rd_inner so_rx so_tx]. intros E.
  destruct buf as [|c buf].
  - destruct (cap <=? n).
    + destruct (raw_read n rx) as [y s'] eqn:Er. inversion E; subst. left. cbn. auto.
    + right. destruct (rd_fill (mk_reader cap [] (mk_socket rx tx))) as [[k|bs] r1] eqn:Ef; inversion E; subst; cbn [bf_w bf_r];
        eexists; eexists; (split; [reflexivity|]); cbn; auto.
  - right. inversion E; subst. cbn [rd_fill rd_buf]. eexists; eexists; (split; [reflexivity|]). cbn; auto.
Qed.

Lemma bf_fill_err_mu (d : buffered W) k d' : bf_fill d = (inl k, d') ->
  (bf_mu d' <= bf_mu d)%nat /\ (k = Interrupted -> (bf_mu d' < bf_mu d)%nat).
Proof.
  intros E. apply bf_fill_cases in E as (_ & B1 & B2 & E).
  rewrite !bf_mu_eq, B1, B2. apply (raw_read_mu _ _ _ _ E).
Qed.

Lemma bf_fill_ok_mu (d : buffered W) bs d' n : bf_fill d = (inr bs, d') -> n <= len bs ->
  (bf_mu (bf_consume n d') <= bf_mu d)%nat /\ (0 < n -> (bf_mu (bf_consume n d') < bf_mu d)%nat).
Proof.
  intros E Hn. apply bf_fill_cases in E as (_ & B2 & E).
  destruct (bf_consume_parts n d') as (_ & P2 & P3). rewrite !bf_mu_eq, P2, P3, B2, skipn_length. unfold len in Hn.
  destruct E as [[B1 E]|[B1 ->]].
  - apply raw_read_mu in E. rewrite B1. cbn [List.length]. lia.
  - rewrite B2. lia.
Qed.

Lemma bf_read_mu n (d : buffered W) x d' : 0 < n -> bf_read n d = (x, d') ->
  (bf_mu d' <= bf_mu d)%nat /\ match x with inl k => k = Interrupted -> (bf_mu d' < bf_mu d)%nat | inr bs => bs <> [] -> (bf_mu d' < bf_mu d)%nat end.
Proof.
  intros Hn E. apply bf_read_cases in E as [(B1 & E & B2 & _)|(y & d1 & E & H)].
  - rewrite !bf_mu_eq, B1, B2. apply raw_read_mu in E. destruct x as [k|bs]; auto. cbn [List.length]. split; [lia|].
    intros Hb. apply len_pos in Hb. unfold len in Hb. lia.
  - destruct y as [k|bs]; destruct H as [-> ->].
    + apply bf_fill_err_mu; auto.
    + destruct (bf_fill_ok_mu _ _ _ (N.min n (len bs)) E) as [H1 H2]; [lia|]. split; auto.
      intros Hb. apply H2. destruct bs; [rewrite firstn_nil in Hb; congruence|]. unfold len; cbn [List.length]; lia.
Qed.

(** *** the simulation *)

Lemma sim_fill_err x (d : buffered W) k d' : bf_fill d = (inl k, d') -> forall s', sim x s' d' ->
  exists s, sim x s d /\ fill s = (inl k, s').
Proof.
  intros E s' (O & Hc & I). apply bf_fill_cases in E as (O1 & B1 & B2 & E).
  unfold input_of in I. rewrite B2 in I. rewrite (outside_cap _ _ O1) in Hc.
  assert (K : forall s, recut s (so_rx (rd_inner (bf_r d))) -> sim x s d).
  { intros s Hs. split; [congruence|]. split; auto. unfold input_of. rewrite B1. auto. }
  destruct (so_rx (rd_inner (bf_r d))) as [|[[|c bs]|k0] rx] eqn:Er; cbn [raw_read] in E; inversion E as [[E1 E2]]; rewrite <- E2 in I.
  - apply content_nil in I. subst. exists []. split; auto. apply K. reflexivity.
  - subst k0. exists (RErr k :: s'). split; auto. apply K. unfold recut in *. rewrite ?content_err, ?content_end, I. reflexivity.
Qed.

Lemma sim_fill_ok x (d : buffered W) bs d' n : bf_fill d = (inr bs, d') -> n <= len bs -> forall s', sim x s' (bf_consume n d') ->
  exists s s1, sim x s d /\ fill s = (inr bs, s1) /\ consume n s1 = s'.
Proof.
  intros E Hn s' (O & Hc & I). apply bf_fill_cases in E as (O1 & B2 & E).
  destruct (bf_consume_parts n d') as (P1 & P2 & P3). rewrite (outside_cap _ _ P1), (outside_cap _ _ O1) in Hc.
  unfold input_of in I. rewrite P2, P3, B2 in I.
  assert (N0 : bs <> [] -> forall s0, (s' = match skipn (N.to_nat n) bs with [] => s0 | r => RData r :: s0 end) ->
    sim x (RData bs :: s0) d -> exists s s1, sim x s d /\ fill s = (inr bs, s1) /\ consume n s1 = s').
  { intros Hb s0 Es Hs. exists (RData bs :: s0), (RData bs :: s0). split; auto. split; [destruct bs; auto; congruence|].
    subst s'. unfold consume. destruct (N.eqb_spec n 0) as [-> | Hz]; auto. cbn [N.to_nat skipn]. destruct bs; auto; congruence. }
  assert (S0 : bs <> [] -> exists s0, (s' = match skipn (N.to_nat n) bs with [] => s0 | r => RData r :: s0 end) /\ recut s0 (so_rx (rd_inner (bf_r d')))).
  { intros Hb. destruct (skipn (N.to_nat n) bs); eauto. }
  destruct E as [[B1 E]|[Hb ->]].
  - destruct bs as [|c bs].
    + assert (n = 0) by (cbn in Hn; lia). subst n. rewrite skipn_nil in I.
      destruct (so_rx (rd_inner (bf_r d))) as [|[[|c b]|k0] rx] eqn:Er; cbn [raw_read] in E; try discriminate.
      * inversion E as [E2]. rewrite <- E2 in I. exists (RData [] :: s'), s'. repeat split; auto; try congruence.
        unfold input_of. rewrite B1, Er. unfold recut in *. rewrite ?content_err, ?content_end, I. reflexivity.
      * exfalso. remember (c :: b) as bb eqn:Eb. assert (bb <> []) by (subst; discriminate). inversion E as [[E2 E3]].
        apply (f_equal len) in E2. rewrite len_firstn in E2. pose proof (len_pos bb H). rewrite len_nil in E2. lia.
    + set (b := c :: bs) in *. assert (Hb : b <> []) by discriminate. clearbody b. destruct (S0 Hb) as (s0 & Es & R0). apply (N0 Hb s0 Es).
      split; [congruence|]. split; auto. unfold input_of. rewrite B1.
      destruct (so_rx (rd_inner (bf_r d))) as [|[[|c0 b0]|k0] rx] eqn:Er; cbn [raw_read] in E; try discriminate; [inversion E; congruence|].
      remember (c0 :: b0) as bb eqn:Eb. assert (bb <> []) by (subst; discriminate). inversion E as [[E2 E3]].
      unfold recut in *. rewrite ?E2, (content_data b s0 Hb), R0, <- E3, <- E2, (content_data bb rx H).
      rewrite <- (firstn_skipn (N.to_nat (rd_cap (bf_r d))) bb) at 3. rewrite map_app, <- app_assoc. f_equal.
      destruct (skipn (N.to_nat (rd_cap (bf_r d))) bb) eqn:Ek; [reflexivity|]. rewrite content_data by discriminate. reflexivity.
  - destruct (S0 Hb) as (s0 & Es & R0). apply (N0 Hb s0 Es).
    split; [congruence|]. split; auto. unfold input_of. rewrite B2. destruct bs; [congruence|]. exists s0. auto.
Qed.

(** What a read returns, and the stream it is read from. *)
Lemma sim_read_err x n (d : buffered W) k d' : bf_read n d = (inl k, d') -> forall s', sim x s' d' ->
  exists s, sim x s d /\ forall m, read_some m s = (inl k, s').
Proof.
  intros E s' Hs. apply bf_read_cases in E as [(B1 & E & B2 & O1)|(y & d1 & E & H)].
  - destruct (sim_fill_err x d k d') with (s' := s') as (s & H1 & H2); auto.
    + destruct d as [w [cap buf [rx tx]]], d' as [w' [cap' buf' [rx' tx']]]. cbn in *. subst. unfold outside in O1. cbn in O1. inversion O1; subst.
      unfold bf_fill, rd_fill. cbn.
      destruct rx as [|[[|c bs]|k0] rx]; cbn [raw_read] in *; inversion E; subst; reflexivity.
    + exists s. split; auto. intros m. unfold read_some. rewrite H2. auto.
  - destruct y as [k1|bs]; destruct H as [H1 ->]; inversion H1; subst.
    destruct (sim_fill_err x d k1 d1 E s' Hs) as (s & H2 & H3). exists s. split; auto. intros m. unfold read_some. rewrite H3. auto.
Qed.

Lemma sim_read_end x n (d : buffered W) d' : 0 < n -> bf_read n d = (inr [], d') -> forall s', sim x s' d' ->
  exists s, sim x s d /\ forall m, read_some m s = (inr [], s').
Proof.
  intros Hn E s' Hs. apply bf_read_cases in E as [(B1 & E & B2 & O1)|(y & d1 & E & H)].
  - destruct (so_rx (rd_inner (bf_r d))) as [|[[|c b]|k0] rx] eqn:Er; cbn [raw_read] in E; try discriminate.
    + inversion E as [E2]. exists (RData [] :: s'). destruct Hs as (O & Hc & I). rewrite (outside_cap _ _ O1) in Hc.
      unfold input_of in I. rewrite B2, <- E2 in I. split.
      * split; [congruence|]. split; auto. unfold input_of. rewrite B1, Er. unfold recut in *. rewrite ?content_err, ?content_end, I. reflexivity.
      * intros m. unfold read_some. cbn [fill]. rewrite firstn_nil. reflexivity.
    + exfalso. remember (c :: b) as bb eqn:Eb. assert (bb <> []) by (subst; discriminate). inversion E as [[E2 E3]].
      apply (f_equal len) in E2. rewrite len_firstn in E2. pose proof (len_pos bb H). rewrite len_nil in E2. lia.
  - destruct y as [k1|bs]; destruct H as [H1 ->]; inversion H1 as [H2].
    assert (bs = []).
    { destruct bs; auto. exfalso. apply (f_equal len) in H2. rewrite len_firstn in H2. unfold len in H2. cbn in H2. lia. }
    subst bs. rewrite N.min_0_r in Hs.
    destruct (sim_fill_ok x d [] d1 0 E (N.le_refl _) s' Hs) as (s & s1 & H3 & H4 & H5). exists s. split; auto.
    intros m. unfold read_some. rewrite H4, firstn_nil. rewrite <- H5. reflexivity.
Qed.

Lemma sim_read_data x n (d : buffered W) got d' : 0 < n -> bf_read n d = (inr got, d') -> got <> [] -> forall s', sim x s' d' ->
  len got <= n /\ exists rest s0, sim x (RData (got ++ rest) :: s0) d /\ s' = match rest with [] => s0 | _ => RData rest :: s0 end /\ (rest <> [] -> len got = n).
Proof.
  intros Hn E Hg s' Hs. apply bf_read_cases in E as [(B1 & E & B2 & O1)|(y & d1 & E & H)].
  - destruct (so_rx (rd_inner (bf_r d))) as [|[[|c b]|k0] rx] eqn:Er; cbn [raw_read] in E; try discriminate; [inversion E; congruence|].
    remember (c :: b) as bb eqn:Eb. assert (Hbb : bb <> []) by (subst; discriminate). inversion E as [[E2 E3]].
    split; [rewrite len_firstn; lia|]. exists [], s'. rewrite app_nil_r. split; [|split; [auto|congruence]].
    destruct Hs as (O & Hc & I). rewrite (outside_cap _ _ O1) in Hc. unfold input_of in I. rewrite B2, <- E3 in I.
    split; [congruence|]. split; auto. unfold input_of. rewrite B1, Er. unfold recut in *.
    rewrite content_data by congruence. rewrite I, (content_data bb rx Hbb).
    rewrite <- (firstn_skipn (N.to_nat n) bb) at 3. rewrite map_app, <- app_assoc. f_equal.
    destruct (skipn (N.to_nat n) bb) eqn:Ek; [reflexivity|]. rewrite content_data by discriminate. reflexivity.
  - destruct y as [k1|bs]; destruct H as [H1 ->]; inversion H1 as [H2]. subst got.
    split; [rewrite len_firstn; lia|].
    destruct (sim_fill_ok x d bs d1 (N.min n (len bs)) E ltac:(lia) s' Hs) as (s & s1 & H3 & H4 & H5).
    assert (Hbs : bs <> []) by (intros ->; rewrite firstn_nil in Hg; congruence).
    destruct s as [|[[|c b]|k] s]; cbn [fill] in H4; try discriminate; inversion H4 as [[H6 H7]]; try congruence.
    rewrite H6 in *. exists (skipn (N.to_nat n) bs), s. rewrite firstn_skipn. split; [auto|]. split.
    2: { intros Hr. rewrite len_firstn. destruct (N.le_gt_cases n (len bs)); [lia|]. unfold len in *. rewrite skipn_all2 in Hr by lia. congruence. }
    rewrite <- H5, <- H7. unfold consume. pose proof (len_pos bs Hbs). destruct (N.eqb_spec (N.min n (len bs)) 0); [lia|].
    destruct (N.le_gt_cases n (len bs)); [rewrite N.min_l by lia; destruct (skipn (N.to_nat n) bs); auto|]. rewrite N.min_r by lia.
    unfold len in *. rewrite !skipn_all2 by lia. auto.
Qed.

Lemma raw_read_data n got rest s0 : 0 < n -> got <> [] -> len got <= n -> 
  raw_read n (RData (got ++ rest) :: s0) =
    (inr (got ++ firstn (N.to_nat (n - len got)) rest), match skipn (N.to_nat (n - len got)) rest with [] => s0 | r => RData r :: s0 end).
Proof.
  intros Hn Hg Hl. destruct (got ++ rest) as [|c b] eqn:Eb; [destruct got; [congruence|discriminate]|].
  cbn [raw_read]. rewrite <- Eb. rewrite firstn_app, skipn_app. unfold len in *.
  rewrite firstn_all2 by lia. rewrite skipn_all2 by lia. cbn [app].
  replace (N.to_nat n - List.length got)%nat with (N.to_nat (n - N.of_nat (List.length got))) by lia. auto.
Qed.

Lemma sim_read x n (d : buffered W) a d' : 0 < n -> bf_read n d = (a, d') -> forall s', sim x s' d' ->
  exists s, sim x s d /\ read_some n s = (a, s').
Proof.
  intros Hn E s' Hs. destruct a as [k|[|c got]].
  - destruct (sim_read_err x n d k d' E s' Hs) as (s & H1 & H2). eauto.
  - destruct (sim_read_end x n d d' Hn E s' Hs) as (s & H1 & H2). eauto.
  - destruct (sim_read_data x n d (c :: got) d' Hn E ltac:(discriminate) s' Hs) as (Hl & rest & s0 & H1 & -> & L).
    exists (RData ((c :: got) ++ rest) :: s0). split; auto. rewrite read_some_raw by auto.
    rewrite raw_read_data by (auto; discriminate). destruct rest as [|r rest].
    + rewrite firstn_nil, skipn_nil, app_nil_r. auto.
    + rewrite L by discriminate. rewrite N.sub_diag. cbn [N.to_nat firstn skipn]. rewrite app_nil_r. auto.
Qed.

(** *** read_to_end *)

Variable size : bytes -> N.
Hypothesis size_pos : forall acc, 0 < size acc.

Definition st_to_end := g_read_to_end stream read_some (fun _ => USIZE_MAX).
Definition bf_to_end := g_read_to_end (buffered W) bf_read size.

Lemma existsb_sub got ls : existsb (N.eqb 0) (map (fun l => l - got) ls) = false -> forall n, n <> 0 -> got < n -> got < minl n ls.
Proof.
  induction ls as [|l ls IH]; cbn [map existsb minl]; intros E n Hn Hg; auto.
  apply orb_false_iff in E as [E1 E2]. apply N.eqb_neq in E1. apply IH; auto; lia.
Qed.

Lemma st_to_end_data f l ls got rest s0 acc : (S f > mu (RData (got ++ rest) :: s0))%nat -> got <> [] -> In l ls -> l <= USIZE_MAX ->
  existsb (N.eqb 0) ls = false -> len got <= minl USIZE_MAX ls ->
  exists f', (f' > mu (match rest with [] => s0 | _ => RData rest :: s0 end))%nat /\
  st_to_end (S f) ls (RData (got ++ rest) :: s0) acc =
  st_to_end f' (map (fun l => l - len got) ls) (match rest with [] => s0 | _ => RData rest :: s0 end) (acc ++ got).
Proof.
  intros Hf Hg Hin Hl Hz Hm. unfold st_to_end. cbn [g_read_to_end].
  assert (Hp : 0 < minl USIZE_MAX ls) by (apply minl_pos; auto; reflexivity).
  rewrite g_read_lim_eq, Hz, read_some_raw, raw_read_data by auto.
  set (L := minl USIZE_MAX ls) in *.
  assert (Hg1 : (1 <= List.length got)%nat) by (destruct got; [congruence|cbn; lia]).
  cbn [mu] in Hf. rewrite app_length in Hf.
  destruct (N.eq_dec L (len got)) as [EL|EL].
  - rewrite EL, N.sub_diag. cbn [N.to_nat firstn skipn]. rewrite app_nil_r.
    exists f. split; [destruct rest; cbn [mu List.length] in *; lia|]. destruct got; [congruence|]. destruct rest; reflexivity.
  - destruct rest as [|r rest].
    + rewrite firstn_nil, skipn_nil, app_nil_r. exists f. split; [cbn [List.length] in *; lia|]. destruct got; [congruence|]. reflexivity.
    + exists (S f). split; [cbn [mu List.length] in *; lia|]. cbn [g_read_to_end].
      set (b := r :: rest) in *. assert (Hb : b <> []) by discriminate. clearbody b.
      assert (HM : minl USIZE_MAX (map (fun l0 => l0 - len got) ls) = L - len got).
      { unfold L. rewrite <- minl_sub by auto. apply (minl_big _ _ _ (l - len got)); [apply (in_map (fun l0 => l0 - len got)); auto| |]; lia. }
      assert (HZ : existsb (N.eqb 0) (map (fun l0 => l0 - len got) ls) = false).
      { destruct (existsb (N.eqb 0) (map (fun l0 => l0 - len got) ls)) eqn:Ez; auto. exfalso.
        apply existsb_exists in Ez as (y & Hy & Hy0). apply N.eqb_eq in Hy0. subst y. apply in_map_iff in Hy as (l1 & Hl1 & Hin1).
        assert (L <= l1); [|lia]. unfold L. clear -Hin1. generalize USIZE_MAX. induction ls as [|a ls IH]; intros n; [destruct Hin1|].
        cbn [minl]. destruct Hin1 as [-> | Hin1]; [|apply IH; auto]. rewrite minl_min. lia. }
      rewrite g_read_lim_eq, HZ, HM, read_some_raw by lia.
      assert (Er : raw_read (L - len got) (RData b :: s0) = (inr (firstn (N.to_nat (L - len got)) b), match skipn (N.to_nat (L - len got)) b with [] => s0 | r0 => RData r0 :: s0 end))
        by (destruct b; [congruence|reflexivity]).
      rewrite Er. set (p := firstn (N.to_nat (L - len got)) b) in *.
      assert (Hp2 : p <> []).
      { intros E0. apply (f_equal len) in E0. unfold p in E0. rewrite len_firstn in E0. pose proof (len_pos b Hb). rewrite len_nil in E0. lia. }
      destruct (got ++ p) as [|c0 gp] eqn:Egp; [destruct got; [congruence|discriminate]|]. rewrite <- Egp.
      destruct p as [|c1 p1] eqn:Ep; [congruence|]. rewrite map_map, len_app, app_assoc. f_equal.
      apply map_ext. intros a. lia.
Qed.

Lemma sim_to_end x f1 : forall l ls (d : buffered W) acc a d', (bf_mu d < f1)%nat -> In l ls -> l <= USIZE_MAX ->
  bf_to_end f1 ls d acc = (a, d') -> forall s', sim x s' d' ->
  exists s, sim x s d /\ forall f2, (mu s < f2)%nat -> st_to_end f2 ls s acc = (a, s').
Proof.
  induction f1 as [|f1 IH]; intros l ls d acc a d' Hf Hin Hl E s' Hs; [lia|].
  unfold bf_to_end in E. cbn [g_read_to_end] in E. rewrite g_read_lim_eq in E.
  destruct (existsb (N.eqb 0) ls) eqn:Ez.
  { inversion E; subst. exists s'. split; auto. intros [|f2] Hf2; [lia|]. unfold st_to_end. cbn [g_read_to_end].
    rewrite g_read_lim_eq, Ez. auto. }
  pose proof (minl_pos (size acc) ls (size_pos acc) Ez) as Hp.
  destruct (bf_read (minl (size acc) ls) d) as [y d1] eqn:E1.
  destruct (bf_read_mu _ _ _ _ Hp E1) as [M1 M2].
  destruct y as [k|[|c got]].
  - assert (D : k = Interrupted \/ k <> Interrupted) by (destruct k; auto; right; discriminate). destruct D as [-> | D].
    + specialize (M2 eq_refl). destruct (IH l ls d1 acc a d' ltac:(lia) Hin Hl E s' Hs) as (s1 & H1 & H2).
      destruct (sim_read_err x _ d _ d1 E1 s1 H1) as (s & H3 & H4). exists s. split; auto.
      intros [|f2] Hf2; [lia|]. unfold st_to_end. cbn [g_read_to_end]. rewrite g_read_lim_eq, Ez, H4. apply H2.
      destruct (read_err_mu 1 s Interrupted s1 ltac:(lia) (H4 1)) as [_ Q]. specialize (Q eq_refl). lia.
    + assert (E' : (Some k, acc, ls, d1) = (a, d')) by (destruct k; auto; congruence). inversion E'; subst.
      destruct (sim_read_err x _ d _ d' E1 s' Hs) as (s & H3 & H4). exists s. split; auto.
      intros [|f2] Hf2; [lia|]. unfold st_to_end. cbn [g_read_to_end]. rewrite g_read_lim_eq, Ez, H4. destruct k; auto; congruence.
  - inversion E; subst.
    destruct (sim_read_end x _ d d' Hp E1 s' Hs) as (s & H3 & H4). exists s. split; auto.
    intros [|f2] Hf2; [lia|]. unfold st_to_end. cbn [g_read_to_end]. rewrite g_read_lim_eq, Ez, H4. reflexivity.
  - specialize (M2 ltac:(discriminate)).
    destruct (IH (l - len (c :: got)) _ d1 _ a d' ltac:(lia) (in_map (fun l0 => l0 - len (c :: got)) _ _ Hin) ltac:(lia) E s' Hs) as (s1 & H1 & H2).
    destruct (sim_read_data x _ d (c :: got) d1 Hp E1 ltac:(discriminate) s1 H1) as (Hlen & rest & s0 & H3 & -> & _).
    exists (RData ((c :: got) ++ rest) :: s0). split; auto. intros [|f2] Hf2; [lia|].
    destruct (st_to_end_data f2 l ls (c :: got) rest s0 acc Hf2 ltac:(discriminate) Hin Hl Ez) as (f' & Hf' & Eq).
    + assert (minl (size acc) ls <= minl USIZE_MAX ls); [|lia].
      rewrite (minl_big ls USIZE_MAX (N.max USIZE_MAX (size acc)) l) by (auto; lia).
      clear. assert (G : forall a b, a <= b -> minl a ls <= minl b ls); [|apply G; lia].
      induction ls as [|l ls IH]; intros a b H; cbn [minl]; auto. apply IH. lia.
    + rewrite Eq. apply H2. auto.
Qed.

(** *** the parsers *)

Lemma sim_to_end_hyp x : forall l ls acc, l <= USIZE_MAX -> forall (r : buffered W) a r',
  g_read_to_end (buffered W) bf_read size (S (bf_mu r)) (l :: ls) r acc = (a, r') -> forall s', sim x s' r' ->
  exists s, sim x s r /\ g_read_to_end stream read_some (fun _ => USIZE_MAX) (S (mu s)) (l :: ls) s acc = (a, s').
Proof.
  intros l ls acc Hl r a r' E s' Hs.
  destruct (sim_to_end x (S (bf_mu r)) l (l :: ls) r acc a r' ltac:(lia) (or_introl eq_refl) Hl E s' Hs) as (s & H1 & H2).
  exists s. split; [auto|]. apply H2; lia.
Qed.

Lemma bf_read_err_mu n (r : buffered W) k r' : 0 < n -> bf_read n r = (inl k, r') ->
  (bf_mu r' <= bf_mu r)%nat /\ (k = Interrupted -> (bf_mu r' < bf_mu r)%nat).
Proof. intros Hn E. apply (bf_read_mu _ _ _ _ Hn E). Qed.
Lemma bf_read_ok_mu n (r : buffered W) bs r' : 0 < n -> bf_read n r = (inr bs, r') ->
  (bf_mu r' <= bf_mu r)%nat /\ (bs <> [] -> (bf_mu r' < bf_mu r)%nat).
Proof. intros Hn E. apply (bf_read_mu _ _ _ _ Hn E). Qed.

(** More iterations change nothing. *)
Lemma b_req_fuel fuel dbg st (d : buffered W) : (bf_mu d <= fuel)%nat ->
  b_req_parse size dbg st d = g_req_parse (buffered W) bf_fill bf_consume bf_read size (fun _ => fuel) bf_mu dbg st d.
Proof.
  intros H. unfold b_req_parse.
  apply (req_parse_fuel _ _ _ _ size bf_mu bf_mu size_pos bf_fill_err_mu bf_fill_ok_mu bf_read_err_mu bf_read_ok_mu _ _ fuel); auto.
Qed.
Lemma b_resp_fuel fuel dbg st (d : buffered W) : (bf_mu d <= fuel)%nat ->
  b_resp_parse size dbg st d = g_resp_parse (buffered W) bf_fill bf_consume bf_read size (fun _ => fuel) bf_mu dbg st d.
Proof.
  intros H. unfold b_resp_parse.
  apply (resp_parse_fuel _ _ _ _ size bf_mu bf_mu size_pos bf_fill_err_mu bf_fill_ok_mu bf_read_err_mu bf_read_ok_mu _ _ fuel); auto.
Qed.

Lemma max_pos : forall acc : bytes, 0 < (fun _ : bytes => USIZE_MAX) acc.
Proof. intros acc. reflexivity. Qed.

Lemma s_req_fuel fuel dbg st s : (mu s <= fuel)%nat ->
  req_parse dbg st s = g_req_parse stream fill consume read_some (fun _ => USIZE_MAX) (fun _ => fuel) mu dbg st s.
Proof.
  intros H. rewrite <- g_request_model.
  apply (req_parse_fuel _ _ _ _ _ mu mu max_pos fill_err_mu fill_ok_mu read_err_mu read_ok_mu _ _ fuel); auto.
Qed.
Lemma s_resp_fuel fuel dbg st s : (mu s <= fuel)%nat ->
  resp_parse dbg st s = g_resp_parse stream fill consume read_some (fun _ => USIZE_MAX) (fun _ => fuel) mu dbg st s.
Proof.
  intros H. rewrite <- g_response_model.
  apply (resp_parse_fuel _ _ _ _ _ mu mu max_pos fill_err_mu fill_ok_mu read_err_mu read_ok_mu _ _ fuel); auto.
Qed.

Lemma b_req_back x dbg st (d : buffered W) a d' : b_req_parse size dbg st d = (a, d') -> forall s', sim x s' d' ->
  exists s, sim x s d /\ req_parse dbg st s = (a, s').
Proof.
  intros E s' Hs. set (fuel := (bf_mu d + room d)%nat).
  rewrite (b_req_fuel fuel) in E by (unfold fuel; lia).
  destruct (req_parse_ok _ _ _ _ _ size _ _ _ (fun _ => USIZE_MAX) fuel bf_mu mu (sim x)
    (sim_fill_err x) (sim_fill_ok x) (fun n Hn r a r' E => sim_read x n r a r' Hn E) (sim_to_end_hyp x) dbg st d a d' E s' Hs) as (s & H1 & H2).
  exists s. split; auto. rewrite (s_req_fuel fuel); auto. destruct H1 as (_ & _ & I). apply input_mu in I. unfold fuel. lia.
Qed.

Lemma b_resp_back x dbg st (d : buffered W) a d' : b_resp_parse size dbg st d = (a, d') -> forall s', sim x s' d' ->
  exists s, sim x s d /\ resp_parse dbg st s = (a, s').
Proof.
  intros E s' Hs. set (fuel := (bf_mu d + room d)%nat).
  rewrite (b_resp_fuel fuel) in E by (unfold fuel; lia).
  destruct (resp_parse_ok _ _ _ _ _ size _ _ _ (fun _ => USIZE_MAX) fuel bf_mu mu (sim x)
    (sim_fill_err x) (sim_fill_ok x) (fun n Hn r a r' E => sim_read x n r a r' Hn E) (sim_to_end_hyp x) dbg st d a d' E s' Hs) as (s & H1 & H2).
  exists s. split; auto. rewrite (s_resp_fuel fuel); auto. destruct H1 as (_ & _ & I). apply input_mu in I. unfold fuel. lia.
Qed.

(** Reading leaves the rest of the stream alone. *)
Section Cap.
Variable c : N.
Variable K : nat.
Definition cap_mu (d : buffered W) : nat := bf_mu d + (if rd_cap (bf_r d) =? c then 0 else K).

Lemma cap_same (d d' : buffered W) : outside d' = outside d -> (cap_mu d' + bf_mu d = cap_mu d + bf_mu d')%nat.
Proof. intros H. unfold cap_mu. rewrite (outside_cap _ _ H). lia. Qed.

Lemma bf_read_outside n (d : buffered W) x d' : bf_read n d = (x, d') -> outside d' = outside d.
Proof.
  intros E. apply bf_read_cases in E as [(_ & _ & _ & O)|(y & d1 & E & H)]; auto.
  apply bf_fill_cases in E as (O & _). destruct y as [k|bs]; destruct H as [_ ->]; auto.
Qed.

Lemma cap_fill_err (r : buffered W) k r' : bf_fill r = (inl k, r') -> (cap_mu r' <= cap_mu r)%nat /\ (k = Interrupted -> (cap_mu r' < cap_mu r)%nat).
Proof.
  intros E. destruct (bf_fill_err_mu _ _ _ E). apply bf_fill_cases in E as (O & _). apply cap_same in O.
  split; [lia|]. intros Hk. specialize (H0 Hk). lia.
Qed.
Lemma cap_fill_ok (r : buffered W) bs r' n : bf_fill r = (inr bs, r') -> n <= len bs ->
  (cap_mu (bf_consume n r') <= cap_mu r)%nat /\ (0 < n -> (cap_mu (bf_consume n r') < cap_mu r)%nat).
Proof.
  intros E Hn. destruct (bf_fill_ok_mu _ _ _ n E Hn). apply bf_fill_cases in E as (O & _).
  destruct (bf_consume_parts n r') as (P1 & _). assert (O2 : outside (bf_consume n r') = outside r) by congruence. apply cap_same in O2.
  split; [lia|]. intros Hk. specialize (H0 Hk). lia.
Qed.
Lemma cap_read_err n (r : buffered W) k r' : 0 < n -> bf_read n r = (inl k, r') ->
  (cap_mu r' <= cap_mu r)%nat /\ (k = Interrupted -> (cap_mu r' < cap_mu r)%nat).
Proof.
  intros Hn E. destruct (bf_read_err_mu _ _ _ _ Hn E). apply bf_read_outside in E. apply cap_same in E.
  split; [lia|]. intros Hk. specialize (H0 Hk). lia.
Qed.
Lemma cap_read_ok n (r : buffered W) bs r' : 0 < n -> bf_read n r = (inr bs, r') ->
  (cap_mu r' <= cap_mu r)%nat /\ (bs <> [] -> (cap_mu r' < cap_mu r)%nat).
Proof.
  intros Hn E. destruct (bf_read_ok_mu _ _ _ _ Hn E). apply bf_read_outside in E. apply cap_same in E.
  split; [lia|]. intros Hk. specialize (H0 Hk). lia.
Qed.
End Cap.

Lemma b_req_cap dbg st (d : buffered W) a d' : b_req_parse size dbg st d = (a, d') -> rd_cap (bf_r d') = rd_cap (bf_r d).
Proof.
  intros E. set (c := rd_cap (bf_r d)). set (K := S (bf_mu d)).
  assert (M := req_parse_m _ _ _ _ size bf_mu (cap_mu c K) size_pos (cap_fill_err c K) (cap_fill_ok c K) (cap_read_err c K) (cap_read_ok c K) bf_mu dbg st d a d' E).
  unfold cap_mu in M. fold c in M. rewrite N.eqb_refl in M. destruct (N.eqb_spec (rd_cap (bf_r d')) c); auto. unfold K in M. lia.
Qed.
Lemma b_resp_cap dbg st (d : buffered W) a d' : b_resp_parse size dbg st d = (a, d') -> rd_cap (bf_r d') = rd_cap (bf_r d).
Proof.
  intros E. set (c := rd_cap (bf_r d)). set (K := S (bf_mu d)).
  assert (M := resp_parse_m _ _ _ _ size bf_mu (cap_mu c K) size_pos (cap_fill_err c K) (cap_fill_ok c K) (cap_read_err c K) (cap_read_ok c K) bf_mu dbg st d a d' E).
  unfold cap_mu in M. fold c in M. rewrite N.eqb_refl in M. destruct (N.eqb_spec (rd_cap (bf_r d')) c); auto. unfold K in M. lia.
Qed.

Lemma b_req_mu dbg st (d : buffered W) a d' : b_req_parse size dbg st d = (a, d') -> (bf_mu d' <= bf_mu d)%nat.
Proof.
  apply (req_parse_m _ _ _ _ size bf_mu bf_mu size_pos bf_fill_err_mu bf_fill_ok_mu bf_read_err_mu bf_read_ok_mu bf_mu).
Qed.

Lemma b_req_done dbg (d : buffered W) q d' : b_req_parse size dbg req_new d = (PDone q, d') -> (bf_mu d' < bf_mu d)%nat.
Proof.
  unfold b_req_parse, g_req_parse, g_msg_parse, req_new.
  destruct (g_msg_loop (buffered W) bf_fill bf_consume bf_read size bf_mu bf_mu 4 parse_request_line dbg false (MFirst []) [] d) as [[y ls1] r1] eqn:E1.
  intros E. destruct y as [[[[? ?] ?] ?]|? ?|?|]; inversion E; subst.
  apply (msg_start_m _ _ _ _ size bf_mu bf_mu size_pos bf_fill_err_mu bf_fill_ok_mu bf_read_err_mu bf_read_ok_mu bf_mu) in E1. auto.
Qed.

(** The parsers on a buffered stream are those on some cutting of the input. *)
Lemma b_req_ok dbg st (d : buffered W) a d' s' : 0 < rd_cap (bf_r d) -> b_req_parse size dbg st d = (a, d') -> input_of s' d' ->
  outside d' = outside d /\ exists s, input_of s d /\ req_parse dbg st s = (a, s').
Proof.
  intros Hc E I. pose proof (b_req_cap _ _ _ _ _ E) as C.
  destruct (b_req_back (outside d') dbg st d a d' E s') as (s & (H1 & _ & H3) & H4); [split; [auto|split; [congruence|auto]]|]. eauto.
Qed.
Lemma b_resp_ok dbg st (d : buffered W) a d' s' : 0 < rd_cap (bf_r d) -> b_resp_parse size dbg st d = (a, d') -> input_of s' d' ->
  outside d' = outside d /\ exists s, input_of s d /\ resp_parse dbg st s = (a, s').
Proof.
  intros Hc E I. pose proof (b_resp_cap _ _ _ _ _ E) as C.
  destruct (b_resp_back (outside d') dbg st d a d' E s') as (s & (H1 & _ & H3) & H4); [split; [auto|split; [congruence|auto]]|]. eauto.
Qed.
End Buffered.
