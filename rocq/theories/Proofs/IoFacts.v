(** The reading loops, characterised by which bytes they take and why they stop. *)
From Coq Require Import List Ascii String NArith ZArith Bool Lia.
From Coq Require Import ZifyBool ZifyNat ZifyN.
From Verif.Model Require Import Bytes Io Common Parse.
From Verif.Spec Require Import Batch Stream.
From Verif.Proofs Require Import BytesFacts.
Import ListNotations.
Local Open Scope N_scope.

(** [takes s w s']: reading takes the bytes w from s (skipping EINTR) and leaves s'. *)
Inductive takes : stream -> bytes -> stream -> Prop :=
| tk_nil s : takes s [] s
| tk_intr s w s' : takes s w s' -> takes (RErr Interrupted :: s) w s'
| tk_all bs s w s' : bs <> [] -> takes s w s' -> takes (RData bs :: s) (bs ++ w) s'
| tk_part a b s : a <> [] -> b <> [] -> takes (RData (a ++ b) :: s) a (RData b :: s).

Lemma takes_trans s w s1 w' s2 : takes s w s1 -> takes s1 w' s2 -> takes s (w ++ w') s2.
Proof.
  intros H; revert w' s2; induction H; intros w2 s2 H2; cbn.
  - exact H2.
  - constructor. auto.
  - rewrite <- app_assoc. constructor; auto.
  - inversion H2; subst.
    + rewrite app_nil_r. now constructor.
    + rewrite app_assoc. constructor; auto. destruct a; [congruence|discriminate].
    + rewrite app_assoc. constructor; auto. destruct a; [congruence|discriminate].
Qed.

Lemma takes_pending s w s' : takes s w s' -> pending s = w ++ pending s'.
Proof.
  induction 1; cbn; auto.
  - rewrite IHtakes. now rewrite app_assoc.
  - now rewrite app_assoc.
Qed.

Lemma takes_mu s w s' : takes s w s' -> (mu s' + List.length w <= mu s)%nat.
Proof.
  induction 1; cbn [mu]; rewrite ?app_length; cbn [List.length]; try lia.
Qed.

Lemma takes_nil_mu s w s' : takes s w s' -> w <> [] -> (mu s' < mu s)%nat.
Proof. intros H Hw. apply takes_mu in H. destruct w; [congruence|]. cbn in H. lia. Qed.

(** Reading stops with error k, taking w before. *)
Definition stops (s : stream) (w : bytes) (k : ekind) (s' : stream) : Prop :=
  takes s w (RErr k :: s') \/ (k = WouldBlock /\ takes s w [] /\ s' = []).

(** The stream fails with k right away. *)
Definition fails (s : stream) (k : ekind) (s' : stream) : Prop :=
  s = RErr k :: s' \/ (k = WouldBlock /\ s = [] /\ s' = []).
Lemma fails_stops s k s' : fails s k s' -> stops s [] k s'.
Proof. intros [->|(-> & -> & ->)]; [left|right]; repeat split; constructor. Qed.

(** One of the limits allows exactly the bytes w. *)
Definition limited (ls : list N) (w : bytes) : Prop := exists l, In l ls /\ l = len w.

(** The limits after taking w. *)
Definition dec_lims (w : bytes) (ls : list N) : list N := map (fun l => l - len w) ls.
Definition fits (w : bytes) (ls : list N) : Prop := Forall (fun l => len w <= l) ls.

Lemma dec_lims_nil ls : dec_lims [] ls = ls.
Proof. unfold dec_lims. erewrite map_ext; [apply map_id|]. intros. cbn. lia. Qed.
Lemma dec_lims_app a b ls : dec_lims b (dec_lims a ls) = dec_lims (a ++ b) ls.
Proof. unfold dec_lims. rewrite map_map. apply map_ext. intros. rewrite len_app. lia. Qed.
Lemma fits_nil ls : fits [] ls.
Proof. apply Forall_forall. intros. cbn. lia. Qed.
Lemma fits_app a b ls : fits a ls -> fits b (dec_lims a ls) -> fits (a ++ b) ls.
Proof.
  unfold fits, dec_lims. rewrite !Forall_forall. intros H1 H2 x Hx.
  specialize (H1 x Hx). specialize (H2 (x - len a)). rewrite len_app.
  assert (len b <= x - len a) by (apply H2; apply in_map_iff; eauto). lia.
Qed.
Lemma fits_app_l a b ls : fits (a ++ b) ls -> fits a ls.
Proof. unfold fits. rewrite !Forall_forall. intros H x Hx. specialize (H x Hx). rewrite len_app in H. lia. Qed.
Lemma limited_app a b ls : fits a ls -> limited (dec_lims a ls) b -> limited ls (a ++ b).
Proof.
  intros F (l & Hl & E). unfold dec_lims in Hl. apply in_map_iff in Hl as (x & <- & Hx).
  exists x. split; auto. unfold fits in F. rewrite Forall_forall in F. specialize (F x Hx).
  rewrite len_app. lia.
Qed.
Lemma limited_nil b : limited [] b -> False.
Proof. intros (l & [] & _). Qed.

(** ** fill_buf / consume / read through a stack of limits *)

Lemma fill_lim_spec ls s r s' : fill_lim ls s = (r, s') ->
  match r with
  | inl k => (k = LimitReached /\ In 0 ls /\ s' = s) \/ fails s k s'
  | inr bs => Forall (fun l => 0 < l) ls /\
      ((bs = [] /\ s = RData [] :: s') \/
       (bs <> [] /\ fits bs ls /\ s' = s /\
        exists full rest, s = RData (bs ++ full) :: rest /\ (full = [] \/ limited ls bs)))
  end.
Proof.
  revert r s'; induction ls as [|l ls IH]; cbn [fill_lim]; intros r s'.
  - unfold fill. destruct s as [|[bs|k] s0].
    + intros H; inversion H; subst. right. right. auto.
    + destruct bs as [|c bs]; intros H; inversion H; subst.
      * split; auto. 
      * split; auto. right. repeat split; [discriminate|constructor|].
        exists [], s0. rewrite app_nil_r. auto.
    + intros H; inversion H; subst. right. left. auto.
  - destruct (N.eqb_spec l 0) as [->|Hl].
    + intros H; inversion H; subst. left. repeat split. now left.
    + destruct (fill_lim ls s) as [[k|bs] s1] eqn:E; intros H; inversion H; subst; clear H.
      * clear E. destruct (IH _ _ eq_refl) as [(-> & H1 & H2)|H1]; [left|right]; auto. repeat split; auto. now right.
      * clear E. destruct (IH _ _ eq_refl) as [F [[-> ->]|(Hbs & Fit & -> & full & rest & -> & Hfull)]].
        { split; [constructor; auto; lia|]. left. rewrite firstn_nil. auto. }
        { split; [constructor; auto; lia|]. right.
          set (m := N.min l (len bs)). assert (m <= len bs) by lia.
          assert (Hm : len (firstn (N.to_nat m) bs) = m) by (rewrite len_firstn; lia).
          assert (0 < len bs) by now apply len_pos.
          split. { intros E. apply (f_equal len) in E. rewrite Hm in E. cbn in E. lia. }
          split. { constructor; [lia|]. unfold fits in Fit. rewrite Forall_forall in *. intros x Hx.
                   specialize (Fit x Hx). lia. }
          split; auto.
          exists (skipn (N.to_nat m) bs ++ full), rest. rewrite app_assoc, firstn_skipn. split; auto.
          destruct (N.leb_spec l (len bs)).
          - right. exists l. split; [now left|]. rewrite Hm. lia.
          - replace m with (len bs) by lia.
            rewrite skipn_full by lia. rewrite firstn_full by lia. cbn.
            destruct Hfull as [->|(x & Hx & E)]; auto. right. exists x. split; [now right|auto]. }
Qed.

Lemma consume_lim_spec n ls s : Forall (fun l => n <= l) ls ->
  consume_lim n ls s = (map (fun l => l - n) ls, consume n s).
Proof.
  revert n; induction ls as [|l ls IH]; cbn [consume_lim]; intros n F; auto.
  inversion F; subst. replace (N.min n l) with n by lia. rewrite IH by assumption. reflexivity.
Qed.

Lemma consume_takes a b s : a <> [] -> takes (RData (a ++ b) :: s) a (consume (len a) (RData (a ++ b) :: s)).
Proof.
  intros Ha. unfold consume. replace (len a =? 0) with false by (pose proof (len_pos a Ha); lia).
  rewrite skipn_len_app. destruct b as [|c b].
  - rewrite app_nil_r. rewrite <- (app_nil_r a) at 2. constructor; auto. constructor.
  - constructor; auto; discriminate.
Qed.

Lemma consume_0 s : consume 0 s = s.
Proof. reflexivity. Qed.

Lemma read_lim_spec n ls s r ls' s' : 0 < n -> read_lim n ls s = (r, ls', s') ->
  match r with
  | inl k => ls' = ls /\ ((k = LimitReached /\ In 0 ls /\ s' = s) \/ fails s k s')
  | inr [] => ls' = ls /\ s = RData [] :: s'
  | inr got => takes s got s' /\ len got <= n /\ fits got ls /\ ls' = dec_lims got ls
  end.
Proof.
  revert n r ls' s'; induction ls as [|l ls IH]; cbn [read_lim]; intros n r ls' s' Hn.
  - unfold read_some. destruct (fill s) as [[k|bs] s1] eqn:E; intros H; inversion H; subst; clear H.
    + split; auto. apply (fill_lim_spec []) in E as [(_ & [] & _)|E]. now right.
    + apply (fill_lim_spec []) in E as [_ [[-> ->]|(Hbs & _ & -> & full & rest & -> & Hfull)]].
      { rewrite firstn_nil. cbn. auto. }
      destruct Hfull as [->|Hl]; [|now apply limited_nil in Hl]. rewrite app_nil_r.
      set (m := N.min n (len bs)). assert (0 < len bs) by now apply len_pos.
      assert (Hm : len (firstn (N.to_nat m) bs) = m) by (rewrite len_firstn; lia).
      destruct (firstn (N.to_nat m) bs) as [|c got] eqn:Eg.
      { cbn in Hm. lia. }
      assert (Ebs : bs = (c :: got) ++ skipn (N.to_nat m) bs) by (rewrite <- Eg; symmetry; apply firstn_skipn).
      rewrite Ebs.
      split; [apply consume_takes; discriminate|].
      rewrite Hm. repeat split; [lia|constructor].
  - destruct (N.eqb_spec l 0) as [->|Hl].
    + intros H; inversion H; subst. split; auto. left. repeat split. now left.
    + destruct (read_lim (N.min n l) ls s) as [[[k|got] ls1] s1] eqn:E; intros H; inversion H; subst; clear H.
      * apply IH in E as [-> E]; [|lia]. split; auto. destruct E as [(-> & ? & ->)|?]; auto.
        left. repeat split. now right.
      * apply IH in E; [|lia]. destruct got as [|c got].
        { destruct E as [-> ->]. split; auto. cbn. f_equal. lia. }
        { destruct E as (Ht & Hlen & Hfit & ->). split; auto. split; [lia|].
          split; [constructor; auto; lia|]. reflexivity. }
Qed.

(** ** read_until *)

Lemma read_until_spec fuel ls s acc r acc' ls' s' :
  (mu s < fuel)%nat ->
  read_until fuel ls s acc = (r, acc', ls', s') ->
  exists w, acc' = acc ++ w /\ ls' = dec_lims w ls /\ fits w ls /\
  match r with
  | None => (exists w0, w = w0 ++ [LF] /\ noLF w0 /\ takes s w s')
            \/ (noLF w /\ takes s w (RData [] :: s'))
  | Some k => noLF w /\ (stops s w k s' \/ (k = LimitReached /\ takes s w s' /\ limited ls w))
              /\ k <> Interrupted
  end.
Proof.
  revert ls s acc r acc' ls' s'; induction fuel as [|f IH]; intros ls s acc r acc' ls' s' Hf; [lia|].
  cbn [read_until]. destruct (fill_lim ls s) as [[k|bs] s1] eqn:E.
  - apply fill_lim_spec in E.
    assert (Stop : k <> Interrupted -> (Some k, acc, ls, s1) = (r, acc', ls', s') ->
      exists w, acc' = acc ++ w /\ ls' = dec_lims w ls /\ fits w ls /\
      match r with
      | None => (exists w0, w = w0 ++ [LF] /\ noLF w0 /\ takes s w s')
                \/ (noLF w /\ takes s w (RData [] :: s'))
      | Some k => noLF w /\ (stops s w k s' \/ (k = LimitReached /\ takes s w s' /\ limited ls w))
              /\ k <> Interrupted
      end).
    { intros Hk H; inversion H; subst. exists []. rewrite app_nil_r, dec_lims_nil.
      repeat split; auto using noLF_nil, fits_nil.
      destruct E as [(-> & H0 & ->)|?]; auto using fails_stops.
      right. repeat split; auto; [constructor|]. exists 0. auto. }
    destruct k; try (apply Stop; congruence).
    clear Stop. destruct E as [(? & _)|[->|(? & _)]]; try discriminate.
    { intros H. cbn [mu] in Hf. apply IH in H as (w & -> & -> & Hfit & H); [|lia].
      exists w. split; auto. split; auto. split; auto. destruct r as [k|].
      * destruct H as (? & Hs & ?). repeat split; auto.
        destruct Hs as [[Hs|(-> & Hs & ->)]|(-> & Hs & ?)].
        -- left; left; now constructor.
        -- left; right; repeat split; auto; now constructor.
        -- right; repeat split; auto; now constructor.
      * destruct H as [(w0 & -> & ? & ?)|(? & ?)]; [left; eexists|right]; repeat split; eauto; now constructor. }
  - apply fill_lim_spec in E as [Fpos [[-> ->]|(Hbs & Fit & -> & full & rest & -> & Hfull)]].
    + cbn [find_lf]. rewrite consume_lim_spec by (apply Forall_forall; intros; cbn; lia).
      intros H; inversion H; subst. exists []. rewrite app_nil_r. cbn [len List.length N.of_nat].
      repeat split; auto using fits_nil. right. split; auto using noLF_nil. constructor.
    + destruct (find_lf bs) as [i|] eqn:Ef.
      * apply find_lf_some in Ef as (l & r0 & -> & Hl & <-).
        assert (El : firstn (S (List.length l)) (l ++ LF :: r0) = l ++ [LF]).
        { change (LF :: r0) with ([LF] ++ r0). rewrite app_assoc.
          replace (S (List.length l)) with (List.length (l ++ [LF])) by (rewrite app_length; cbn; lia).
          rewrite firstn_app, Nat.sub_diag, firstn_all. cbn. now rewrite app_nil_r. }
        rewrite El.
        replace (N.of_nat (S (List.length l))) with (len (l ++ [LF])) by (rewrite len_app; unfold len; cbn [List.length]; lia).
        assert (Fit' : fits (l ++ [LF]) ls).
        { apply (fits_app_l _ r0). now rewrite <- app_assoc. }
        rewrite consume_lim_spec by exact Fit'.
        intros H; inversion H; subst. exists (l ++ [LF]). repeat split; auto.
        left. exists l. repeat split; auto.
        replace ((l ++ LF :: r0) ++ full) with ((l ++ [LF]) ++ (r0 ++ full))
          by (rewrite <- !app_assoc; reflexivity).
        apply consume_takes. destruct l; discriminate.
      * apply find_lf_none in Ef. rewrite consume_lim_spec by exact Fit.
        pose proof (consume_takes bs full rest Hbs) as Htk.
        destruct bs as [|c bs]; [congruence|]. set (bb := c :: bs) in *.
        intros H. change (map (fun l => l - len bb) ls) with (dec_lims bb ls) in H.
        pose proof (takes_nil_mu _ _ _ Htk Hbs).
        apply IH in H as (w & -> & -> & Hfit & H); [|lia].
        exists (bb ++ w). rewrite app_assoc, dec_lims_app. split; auto. split; auto.
        split. { now apply fits_app. }
        destruct r as [k|].
        -- destruct H as (Hn & Hs & Hk). split; [now apply noLF_app|]. split; auto.
           destruct Hs as [[Hs|(-> & Hs & ->)]|(-> & Hs & Hlim)].
           ++ left; left. eapply takes_trans; eauto.
           ++ left; right. repeat split; auto. eapply takes_trans; eauto.
           ++ right. repeat split; auto. { eapply takes_trans; eauto. } now apply limited_app.
        -- destruct H as [(w0 & -> & ? & ?)|(? & ?)].
           ++ left. exists (bb ++ w0). rewrite app_assoc. split; auto. split; [now apply noLF_app|].
              rewrite <- app_assoc. eapply takes_trans; eauto.
           ++ right. split; [now apply noLF_app|]. eapply takes_trans; eauto.
Qed.

(** ** read_to_end *)

Lemma read_to_end_spec fuel ls s acc r acc' ls' s' :
  (mu s < fuel)%nat ->
  read_to_end fuel ls s acc = (r, acc', ls', s') ->
  exists w, acc' = acc ++ w /\ ls' = dec_lims w ls /\ fits w ls /\
  match r with
  | None => takes s w (RData [] :: s')
  | Some k => (stops s w k s' \/ (k = LimitReached /\ takes s w s' /\ limited ls w))
              /\ k <> Interrupted
  end.
Proof.
  revert ls s acc r acc' ls' s'; induction fuel as [|f IH]; intros ls s acc r acc' ls' s' Hf; [lia|].
  cbn [read_to_end]. destruct (read_lim USIZE_MAX ls s) as [[[k|got] ls1] s1] eqn:E.
  - apply read_lim_spec in E as [-> E]; [|unfold USIZE_MAX; lia].
    assert (Stop : k <> Interrupted -> (Some k, acc, ls, s1) = (r, acc', ls', s') ->
      exists w, acc' = acc ++ w /\ ls' = dec_lims w ls /\ fits w ls /\
      match r with
      | None => takes s w (RData [] :: s')
      | Some k => (stops s w k s' \/ (k = LimitReached /\ takes s w s' /\ limited ls w))
              /\ k <> Interrupted
      end).
    { intros Hk H; inversion H; subst. exists []. rewrite app_nil_r, dec_lims_nil.
      repeat split; auto using noLF_nil, fits_nil.
      destruct E as [(-> & H0 & ->)|?]; auto using fails_stops.
      right. repeat split; auto; [constructor|]. exists 0. auto. }
    destruct k; try (apply Stop; congruence).
    clear Stop. destruct E as [(? & _)|[->|(? & _)]]; try discriminate.
    { intros H. cbn [mu] in Hf. apply IH in H as (w & -> & -> & Hfit & H); [|lia].
      exists w. split; auto. split; auto. split; auto. destruct r as [k|].
      * destruct H as (Hs & ?). repeat split; auto.
        destruct Hs as [[Hs|(-> & Hs & ->)]|(-> & Hs & ?)].
        -- left; left; now constructor.
        -- left; right; repeat split; auto; now constructor.
        -- right; repeat split; auto; now constructor.
      * now constructor. }
  - apply read_lim_spec in E; [|unfold USIZE_MAX; lia]. destruct got as [|c got].
    + destruct E as [-> ->]. intros H; inversion H; subst. exists []. rewrite app_nil_r, dec_lims_nil.
      repeat split; auto using fits_nil. constructor.
    + destruct E as (Htk & _ & Fit & ->). set (bb := c :: got) in *.
      intros H. assert (Hbs : bb <> []) by discriminate. pose proof (takes_nil_mu _ _ _ Htk Hbs).
      apply IH in H as (w & -> & -> & Hfit & H); [|lia].
      exists (bb ++ w). rewrite app_assoc, dec_lims_app. split; auto. split; auto.
      split. { now apply fits_app. }
      destruct r as [k|].
      * destruct H as (Hs & Hk). split; auto.
        destruct Hs as [[Hs|(-> & Hs & ->)]|(-> & Hs & Hlim)].
        -- left; left. eapply takes_trans; eauto.
        -- left; right. repeat split; auto. eapply takes_trans; eauto.
        -- right. repeat split; auto. { eapply takes_trans; eauto. } now apply limited_app.
      * eapply takes_trans; eauto.
Qed.

(** ** BytesDeframer *)

Lemma bytes_loop_spec fuel size got ls s r ls' s' :
  (mu s < fuel)%nat -> len got <= size ->
  bytes_loop fuel size got ls s = (r, ls', s') ->
  exists w, ls' = dec_lims w ls /\ fits w ls /\
  match r with
  | PDone v => v = got ++ w /\ len v = size /\ takes s w s'
  | PIo st k => st = mk_bytes size (got ++ w) /\ len (got ++ w) < size /\
      (stops s w k s' \/ (k = LimitReached /\ takes s w s' /\ limited ls w)
       \/ (k = UnexpectedEof /\ takes s w (RData [] :: s')))
  | PErr _ | PPanic => False
  end.
Proof.
  revert got ls s r ls' s'; induction fuel as [|f IH]; intros got ls s r ls' s' Hf Hg; [lia|].
  cbn [bytes_loop]. destruct (N.ltb_spec (len got) size) as [Hlt|Hge].
  - destruct (read_lim (size - len got) ls s) as [[[k|bs] ls1] s1] eqn:E.
    + apply read_lim_spec in E as [-> E]; [|lia]. intros H; inversion H; subst.
      exists []. rewrite app_nil_r, dec_lims_nil. repeat split; auto using fits_nil.
      destruct E as [(-> & H0 & ->)|?]; auto using fails_stops.
      right; left. repeat split; auto; [constructor|]. exists 0. auto.
    + apply read_lim_spec in E; [|lia]. destruct bs as [|c bs].
      * destruct E as [-> ->]. intros H; inversion H; subst.
        exists []. rewrite app_nil_r, dec_lims_nil. repeat split; auto using fits_nil.
        right; right. split; auto. constructor.
      * destruct E as (Htk & Hlen & Fit & ->). set (bb := c :: bs) in *.
        assert (Hbs : bb <> []) by discriminate. pose proof (takes_nil_mu _ _ _ Htk Hbs).
        intros H0. apply IH in H0 as (w & -> & Hfit & H0); [|lia|rewrite len_app; lia].
        exists (bb ++ w). rewrite dec_lims_app. split; auto. split; [now apply fits_app|].
        rewrite <- app_assoc in H0. destruct r as [v|st k| |]; auto.
        -- destruct H0 as (-> & ? & ?). repeat split; auto. eapply takes_trans; eauto.
        -- destruct H0 as (-> & Hl & Hs). split; auto. split; auto.
           destruct Hs as [[Hs|(-> & Hs & ->)]|[(-> & Hs & Hlim)|(-> & Hs)]].
           ++ left; left. eapply takes_trans; eauto.
           ++ left; right. repeat split; auto. eapply takes_trans; eauto.
           ++ right; left. repeat split; auto. { eapply takes_trans; eauto. } now apply limited_app.
           ++ right; right. split; auto. eapply takes_trans; eauto.
  - intros H; inversion H; subst. exists []. rewrite app_nil_r, dec_lims_nil.
    repeat split; auto using fits_nil; [lia|constructor].
Qed.
