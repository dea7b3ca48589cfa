(** The client. *)
From Coq Require Import List Arith NArith Bool Lia ZifyBool ZifyNat ZifyN.
From Verif.Model Require Import Bytes Io Common Parse Encode Writer Client.
From Verif.Spec Require Import Batch Stream Drive Numerals Names Grammar Wire Exchange.
From Verif.Proofs Require Import BytesFacts IoFacts ParseFacts DriveFacts CallFacts LimitGrammar EncodeFacts LimitFacts.
Import ListNotations.
Local Open Scope N_scope.

(** ** BufWriter *)

Definition csuffix (s s' : sock) : Prop :=
  (exists u, sk_events s = u ++ sk_events s') /\ (exists u, sk_flushes s = u ++ sk_flushes s').
Lemma csuffix_refl s : csuffix s s.
Proof. split; exists []; reflexivity. Qed.
Lemma csuffix_trans a b c : csuffix a b -> csuffix b c -> csuffix a c.
Proof.
  intros [[u1 H1] [u2 H2]] [[u3 H3] [u4 H4]]. split.
  - exists (u1 ++ u3). now rewrite H1, H3, app_assoc.
  - exists (u2 ++ u4). now rewrite H2, H4, app_assoc.
Qed.
Lemma csteady_suffix s s' : csuffix s s' -> csteady s -> csteady s'.
Proof.
  intros [[u H] [u' H']] [F1 F2]. split.
  - rewrite H in F1. now apply Forall_app in F1.
  - rewrite H' in F2. now apply Forall_app in F2.
Qed.

Lemma sock_write_spec s b r s' : b <> [] -> sock_write s b = (r, s') -> csuffix s s' /\
  (sk_events s = [] \/ (List.length (sk_events s') < List.length (sk_events s))%nat) /\
  match r with
  | WOk n => exists d rest, b = d ++ rest /\ n = len d /\ sk_sent s' = sk_sent s ++ d /\ (sk_events s = [] -> rest = []) /\ (csteady s -> 0 < n)
  | WErr k => sk_sent s' = sk_sent s /\ sk_events s <> [] /\ (csteady s -> k = Interrupted) /\ In (WFail k) (sk_events s)
  end.
Proof.
  intros Hb E. unfold sock_write in E. destruct (sk_events s) as [|[n|k] evs] eqn:Es; inversion E; subst; clear E.
  - split; [split; [exists []; now rewrite Es|exists []; reflexivity]|]. split; auto. exists b, []. rewrite app_nil_r. repeat split; auto.
    intros _. now apply len_pos.
  - split; [split; [exists [WTake n]; now rewrite Es|exists []; reflexivity]|]. cbn [sk_events List.length]. split; [right; lia|].
    exists (firstn (N.to_nat (N.min n (len b))) b), (skipn (N.to_nat (N.min n (len b))) b). rewrite firstn_skipn.
    split; auto. split; [unfold len; rewrite firstn_length; unfold len in *; lia|]. split; auto. split; [discriminate|].
    intros [F _]. rewrite Es in F. inversion F; subst. apply len_pos in Hb. lia.
  - split; [split; [exists [WFail k]; now rewrite Es|exists []; reflexivity]|]. cbn [sk_events List.length]. split; [right; lia|].
    split; auto. split; [discriminate|]. split; [|now left]. intros [F _]. rewrite Es in F. now inversion F.
Qed.

Lemma skipn_len_app {A} (d r : list A) : skipn (N.to_nat (len d)) (d ++ r) = r.
Proof. unfold len. rewrite Nnat.Nat2N.id, skipn_app, skipn_all, Nat.sub_diag. reflexivity. Qed.

Lemma bw_flush_f_spec f : forall buf s r buf' s', (List.length (sk_events s) < f)%nat ->
  bw_flush_f f buf s = (r, buf', s') -> csuffix s s' /\
  exists d, buf = d ++ buf' /\ sk_sent s' = sk_sent s ++ d /\
    match r with WOk _ => buf' = [] | WErr k => ~ csteady s /\ k <> Interrupted end.
Proof.
  induction f as [|f IH]; intros buf s r buf' s' Hf E; [lia|]. cbn [bw_flush_f] in E.
  destruct buf as [|c buf].
  { inversion E; subst. split; [apply csuffix_refl|]. exists []. rewrite !app_nil_r. auto. }
  destruct (sock_write s (c :: buf)) as [r1 s1] eqn:Ew. apply sock_write_spec in Ew as (Sf & Lt & H); [|discriminate].
  destruct r1 as [n|k].
  - destruct H as (d & rest & Hb & -> & Hs & He & Hc). rewrite Hb in E. destruct (len d =? 0) eqn:Z.
    + inversion E; subst. split; auto. assert (d = []) as -> by (destruct d; [reflexivity|rewrite len_cons in Z; lia]).
      exists []. rewrite app_nil_r in *. cbn [app] in *. split; auto. split; auto. split; [|discriminate].
      intros St. specialize (Hc St). unfold len in Hc. cbn in Hc. lia.
    + rewrite skipn_len_app in E.
      destruct Lt as [Lt|Lt].
      * rewrite (He Lt) in *. assert (E' : (WOk tt, [], s1) = (r, buf', s')) by (destruct f; exact E). inversion E'; subst.
        split; auto. exists d. rewrite app_nil_r in Hb. now rewrite app_nil_r.
      * apply IH in E as (Sf2 & d2 & H2 & Hs2 & R); [|lia]. split; [eapply csuffix_trans; eauto|].
        exists (d ++ d2). rewrite Hb, H2, <- app_assoc. split; auto. split; [now rewrite Hs2, Hs, <- app_assoc|].
        destruct r; auto. destruct R as [R1 R2]. split; auto. intros St. apply R1. eapply csteady_suffix; eauto.
  - destruct H as (Hs & Hn & Hc & Hin). destruct Lt as [Lt|Lt]; [contradiction|].
    assert (Cas : k = Interrupted \/ (k <> Interrupted /\ (WErr k, c :: buf, s1) = (r, buf', s'))).
    { destruct k; auto; right; (split; [discriminate|exact E]). }
    destruct Cas as [->|[Hk E']].
    + apply IH in E as (Sf2 & d2 & H2 & Hs2 & R); [|lia]. split; [eapply csuffix_trans; eauto|].
      exists d2. split; auto. split; [now rewrite Hs2, Hs|]. destruct r; auto. destruct R as [R1 R2]. split; auto. intros St. apply R1. eapply csteady_suffix; eauto.
    + inversion E'; subst. split; auto. exists []. rewrite app_nil_r. repeat split; auto.
Qed.

Lemma bw_flush_buf_spec buf s r buf' s' : bw_flush_buf buf s = (r, buf', s') -> csuffix s s' /\
  exists d, buf = d ++ buf' /\ sk_sent s' = sk_sent s ++ d /\
    match r with WOk _ => buf' = [] | WErr k => ~ csteady s /\ k <> Interrupted end.
Proof. apply bw_flush_f_spec. lia. Qed.

(** Everything written, in order. *)
Definition written (buf : bytes) (s : sock) : bytes := sk_sent s ++ buf.

Lemma bw_write_spec buf s b r buf' s' : b <> [] -> bw_write buf s b = (r, buf', s') -> csuffix s s' /\
  (exists d, sk_sent s' = sk_sent s ++ d) /\
  match r with
  | WOk n => exists b1 b2, b = b1 ++ b2 /\ n = len b1 /\ written buf' s' = written buf s ++ b1 /\ (csteady s -> 0 < n) /\
      (b2 = [] \/ (List.length (sk_events s') < List.length (sk_events s))%nat)
  | WErr k => written buf' s' = written buf s /\ (csteady s -> k = Interrupted) /\ (k = Interrupted -> (List.length (sk_events s') < List.length (sk_events s))%nat)
  end.
Proof.
  intros Hb E. unfold bw_write in E. unfold written.
  assert (Fl : exists r1 buf1 s1, (if BUF_WRITER_CAP <? len buf + len b then bw_flush_buf buf s else (WOk tt, buf, s)) = (r1, buf1, s1) /\
    csuffix s s1 /\ (exists d, buf = d ++ buf1 /\ sk_sent s1 = sk_sent s ++ d) /\
    match r1 with WOk _ => (BUF_WRITER_CAP <=? len b) = true -> buf1 = [] | WErr k => ~ csteady s /\ k <> Interrupted end).
  { destruct (BUF_WRITER_CAP <? len buf + len b) eqn:C.
    - destruct (bw_flush_buf buf s) as [[r1 buf1] s1] eqn:Ef. apply bw_flush_buf_spec in Ef as (Sf & d & H1 & H2 & H3).
      exists r1, buf1, s1. split; auto. split; auto. split; eauto. destruct r1; auto.
    - exists (WOk tt), buf, s. split; auto. split; [apply csuffix_refl|]. split; [exists []; now rewrite app_nil_r|].
      intros K. destruct buf as [|x buf]; auto. exfalso. rewrite len_cons in C. lia. }
  destruct Fl as (r1 & buf1 & s1 & Ef & Sf & (d & H1 & H2) & H3). rewrite Ef in E. destruct r1 as [[]|k].
  - destruct (BUF_WRITER_CAP <=? len b) eqn:C.
    + rewrite (H3 eq_refl) in *. destruct (sock_write s1 b) as [r2 s2] eqn:Ew. inversion E; subst.
      apply sock_write_spec in Ew as (Sf2 & Lt & R); auto. split; [eapply csuffix_trans; eauto|].
      assert (Le : (List.length (sk_events s1) <= List.length (sk_events s))%nat).
      { destruct Sf as [[u U] _]. rewrite U, app_length. lia. }
      destruct r as [n|k].
      * destruct R as (d2 & rest & Hb2 & -> & Hs & He & Hc). split; [exists ((d ++ []) ++ d2); now rewrite Hs, H2, app_nil_r, <- app_assoc|].
        exists d2, rest. split; auto. split; auto. split; [rewrite Hs, H2, !app_nil_r, <- app_assoc; reflexivity|].
        split; [intros St; apply Hc; eapply csteady_suffix; eauto|]. destruct Lt as [Lt|Lt]; auto. right. lia.
      * destruct R as (Hs & Hn & Hc & Hin). destruct Lt as [Lt|Lt]; [contradiction|]. split; [exists d; now rewrite Hs, H2|].
        split; [rewrite Hs, H2, !app_nil_r; reflexivity|]. split; [intros St; apply Hc; eapply csteady_suffix; eauto|]. intros _. lia.
    + inversion E; subst. split; auto. split; [eauto|]. exists b, []. rewrite app_nil_r. split; auto. split; auto.
      split; [rewrite H2; rewrite <- !app_assoc; reflexivity|]. split; [intros _; now apply len_pos|auto].
  - inversion E; subst. destruct H3 as [H3 H4]. split; auto. split; [eauto|]. split; [rewrite H2, <- app_assoc; reflexivity|]. split; [contradiction|contradiction].
Qed.

Lemma bw_write_all_spec f : forall buf s b r buf' s', (List.length (sk_events s) < f)%nat ->
  bw_write_all_f f buf s b = (r, buf', s') -> csuffix s s' /\
  (exists d, sk_sent s' = sk_sent s ++ d) /\
  exists b1 b2, b = b1 ++ b2 /\ written buf' s' = written buf s ++ b1 /\
    match r with WOk _ => b2 = [] | WErr k => ~ csteady s end.
Proof.
  induction f as [|f IH]; intros buf s b r buf' s' Hf E; [lia|]. cbn [bw_write_all_f] in E.
  destruct b as [|c b].
  { inversion E; subst. split; [apply csuffix_refl|]. split; [exists []; now rewrite !app_nil_r|]. exists [], []. rewrite !app_nil_r. auto. }
  destruct (bw_write buf s (c :: b)) as [[r1 buf1] s1] eqn:Ew. apply bw_write_spec in Ew as (Sf & (d & Hd) & R); [|discriminate].
  destruct r1 as [n|k].
  - destruct R as (b1 & b2 & Hb & -> & Hw & Hc & Lt). rewrite Hb in *. destruct (len b1 =? 0) eqn:Z.
    + inversion E; subst. split; auto. split; [eauto|]. exists b1, b2. split; auto. split; auto. intros St. specialize (Hc St). lia.
    + rewrite skipn_len_app in E. destruct Lt as [->|Lt].
      * assert (E' : (WOk tt, buf1, s1) = (r, buf', s')) by (destruct f; exact E). inversion E'; subst.
        split; auto. split; [eauto|]. exists b1, []. auto.
      * apply IH in E as (Sf2 & (d2 & Hd2) & b3 & b4 & -> & Hw2 & R); [|lia]. split; [eapply csuffix_trans; eauto|].
        split; [exists (d ++ d2); now rewrite Hd2, Hd, app_assoc|]. exists (b1 ++ b3), b4. rewrite <- app_assoc. split; auto.
        split; [now rewrite Hw2, Hw, app_assoc|]. destruct r; auto. intros St. apply R. eapply csteady_suffix; eauto.
  - destruct R as (Hw & Hc & Lt).
    assert (Cas : k = Interrupted \/ (k <> Interrupted /\ (WErr k, buf1, s1) = (r, buf', s'))).
    { destruct k; auto; right; (split; [discriminate|exact E]). }
    destruct Cas as [->|[Hk E']].
    + specialize (Lt eq_refl). apply IH in E as (Sf2 & (d2 & Hd2) & b3 & b4 & Hb & Hw2 & R); [|lia]. split; [eapply csuffix_trans; eauto|].
      split; [exists (d ++ d2); now rewrite Hd2, Hd, app_assoc|]. exists b3, b4. split; auto. split; [now rewrite Hw2, Hw|].
      destruct r; auto. intros St. apply R. eapply csteady_suffix; eauto.
    + inversion E'; subst. split; auto. split; [eauto|]. exists [], (c :: b). rewrite app_nil_r. split; auto.
Qed.

Lemma bw_flush_spec buf s r buf' s' : bw_flush buf s = (r, buf', s') -> csuffix s s' /\
  exists d, buf = d ++ buf' /\ sk_sent s' = sk_sent s ++ d /\
    match r with WOk _ => buf' = [] | WErr k => ~ csteady s end.
Proof.
  unfold bw_flush. destruct (bw_flush_buf buf s) as [[r1 buf1] s1] eqn:Ef. apply bw_flush_buf_spec in Ef as (Sf & d & H1 & H2 & H3).
  destruct r1 as [[]|k].
  - destruct (sk_flushes s1) as [|[k|] fl] eqn:F; intros E; inversion E; subst.
    + split; auto. exists d. auto.
    + split; [eapply csuffix_trans; [exact Sf|]; split; cbn; [exists []; reflexivity|exists [Some k]; exact F]|]. exists d. split; auto. split; auto.
      intros St. apply (csteady_suffix _ _ Sf) in St as [_ St]. rewrite F in St. inversion St; discriminate.
    + split; [eapply csuffix_trans; [exact Sf|]; split; cbn; [exists []; reflexivity|exists [None]; exact F]|]. exists d. auto.
  - intros E. inversion E; subst. split; auto. exists d. destruct H3. auto.
Qed.

Lemma put_pieces_spec ps : forall buf s r buf' s', put_pieces buf s ps = (r, buf', s') -> csuffix s s' /\
  (exists d, sk_sent s' = sk_sent s ++ d) /\
  exists b1 b2, List.concat ps = b1 ++ b2 /\ written buf' s' = written buf s ++ b1 /\
    match r with WOk _ => b2 = [] /\ buf' = [] | WErr k => ~ csteady s end.
Proof.
  induction ps as [|p ps IH]; intros buf s r buf' s' E; cbn [put_pieces List.concat] in *.
  - apply bw_flush_spec in E as (Sf & d & H1 & H2 & H3). split; auto. split; [eauto|]. exists [], []. split; auto.
    split; [unfold written; rewrite H2, H1, app_nil_r, <- app_assoc; reflexivity|]. destruct r; auto.
  - destruct (bw_write_all buf s p) as [[r1 buf1] s1] eqn:Ew. unfold bw_write_all in Ew. apply bw_write_all_spec in Ew as (Sf & (d & Hd) & b1 & b2 & -> & Hw & R); [|lia].
    destruct r1 as [[]|k].
    + subst b2. apply IH in E as (Sf2 & (d2 & Hd2) & b3 & b4 & Hc & Hw2 & R2). split; [eapply csuffix_trans; eauto|].
      split; [exists (d ++ d2); now rewrite Hd2, Hd, app_assoc|]. exists (b1 ++ b3), b4. rewrite Hc, app_nil_r, <- app_assoc. split; auto.
      split; [now rewrite Hw2, Hw, app_assoc|]. destruct r; auto. intros St. apply R2. eapply csteady_suffix; eauto.
    + inversion E; subst. split; auto. split; [eauto|]. exists b1, (b2 ++ List.concat ps). rewrite <- app_assoc. auto.
Qed.

Lemma put_request_spec c q r c' : put_request c q = (r, c') ->
  cs_in c' = cs_in c /\ csuffix (cs_sock c) (cs_sock c') /\
  (exists d, sent c' = sent c ++ d) /\
  exists b1 b2, write_request q = b1 ++ b2 /\ sent c' ++ cs_held c' = sent c ++ cs_held c ++ b1 /\
    match r with WOk _ => b2 = [] /\ cs_held c' = [] | WErr _ => ~ csteady (cs_sock c) end.
Proof.
  unfold put_request. destruct (put_pieces _ _ _) as [[r1 buf1] s1] eqn:E. intros X. inversion X; subst. cbn [cs_in cs_held cs_sock].
  apply put_pieces_spec in E as (Sf & H1 & b1 & b2 & H2 & H3 & H4). split; auto. split; auto. split; auto.
  exists b1, b2. split; auto. split; auto. unfold written in H3. unfold sent. cbn [cs_sock]. rewrite H3, <- app_assoc. reflexivity.
Qed.

Lemma app_split_prefix (d h x p : bytes) : d ++ h = x ++ p -> prefix d (x ++ p).
Proof. intros E. exists h. auto. Qed.

Lemma put_request_prefix c q r c' : put_request c q = (r, c') -> exists d, sent c' = sent c ++ d /\ prefix d (cs_held c ++ write_request q) /\ prefix (d ++ cs_held c') (cs_held c ++ write_request q).
Proof.
  intros E. apply put_request_spec in E as (_ & _ & (d & Hd) & b1 & b2 & Hw & Hs & _). exists d. split; auto.
  rewrite Hd, <- app_assoc in Hs. apply app_inv_head in Hs. rewrite Hw. split.
  - exists (cs_held c' ++ b2). rewrite (app_assoc d), Hs, <- app_assoc. reflexivity.
  - exists b2. rewrite Hs, <- app_assoc. reflexivity.
Qed.

Lemma send_request_prefix dbg c q r c' : send_request dbg c q = (r, c') -> exists d, sent c' = sent c ++ d /\
  prefix d (cs_held c ++ write_request q) /\ prefix (d ++ cs_held c') (cs_held c ++ write_request q) /\
  match r with
  | CWriting _ => True
  | CConnecting _ => False
  | _ => d = cs_held c ++ write_request q /\ cs_held c' = []
  end.
Proof.
  unfold send_request. destruct (put_request c q) as [rw c1] eqn:Ep. pose proof Ep as Ep2.
  apply put_request_prefix in Ep as (d & H1 & H2 & H3). destruct rw as [[]|k].
  - destruct (resp_parse dbg resp_new (cs_in c1)) as [rp s'] eqn:Er. intros E. inversion E; subst. exists d. cbn [cs_sock cs_held].
    split; [exact H1|]. split; auto. split; auto.
    apply put_request_spec in Ep2 as (_ & _ & _ & b1 & b2 & Hw & Hs & -> & Hh). rewrite Hh in *.
    assert (d = cs_held c ++ write_request q).
    { rewrite H1, app_nil_r in Hs. apply app_inv_head in Hs. now rewrite Hs, Hw, app_nil_r. }
    destruct rp; auto.
  - intros E. inversion E; subst. exists d. auto.
Qed.

Lemma drop_stream_spec c : exists d, sent (drop_stream c) = sent c ++ d /\ prefix d (cs_held c).
Proof.
  unfold drop_stream. destruct (bw_flush_buf (cs_held c) (cs_sock c)) as [[r b1] s1] eqn:E.
  apply bw_flush_buf_spec in E as (_ & d & H1 & H2 & _). exists d. split; [exact H2|]. exists b1. exact H1.
Qed.

(** ** Connecting *)

Lemma create_spec n r n' : create n = (r, n') -> exists used, n = used ++ n' /\ (List.length used <= 2)%nat /\
  match r with inr s => In (inr s) used | inl _ => Forall (fun x => exists k, x = inl k) used end.
Proof.
  unfold create, tcp_connect. destruct n as [|[k|s] n1].
  - intros E. inversion E; subst. exists []. cbn. auto.
  - destruct n1 as [|[k2|s2] n2]; intros E; inversion E; subst.
    + exists [inl k]. cbn. repeat split; auto. repeat constructor; eauto.
    + exists [inl k; inl k2]. cbn. repeat split; auto. repeat constructor; eauto.
    + exists [inl k; inr s2]. cbn. auto.
  - intros E. inversion E; subst. exists [inr s]. cbn. auto.
Qed.

Lemma connect_spec zt n c r n' c' : fresh_net n -> connect zt n c = (r, n', c') ->
  exists used, n = used ++ n' /\ (List.length used <= 2)%nat /\ fresh_net n' /\
  match r with
  | Some e => c' = c /\ e <> CWriting WouldBlock /\ (forall v, e <> COk v)
  | None => exists s, cc_stream c' = Some s /\ sent s = [] /\ cs_held s = [] /\ In (inr s) used /\
      cc_dropped c' = cc_dropped c ++ match cc_stream c with Some o => [drop_stream o] | None => [] end
  end.
Proof.
  intros F. unfold connect. destruct (create n) as [[k|s] n1] eqn:E; apply create_spec in E as (used & Hn & Hl & H).
  - intros X. inversion X; subst. exists used. split; auto. split; auto. split; [now apply Forall_app in F|]. repeat split; auto; discriminate.
  - assert (F2 := F). unfold fresh_net in F2. rewrite Hn in F2. apply Forall_app in F2 as [F1 F2].
    destruct zt; intros X; inversion X; subst; exists used; (split; [auto|]); (split; [auto|]); (split; [exact F2|]).
    + repeat split; auto; discriminate.
    + rewrite Forall_forall in F1. pose proof (F1 _ H) as [K1 K2]. exists s. cbn [cc_stream cc_dropped]. auto.
Qed.

Lemma prefix_prefix d e h b : prefix e h -> prefix (d ++ h) b -> prefix (d ++ e) b.
Proof. intros [x ->] [y ->]. exists (x ++ y). now rewrite <- !app_assoc. Qed.

Lemma added_refl o req c : o = Some c -> added o req c.
Proof. intros ->. exists []. cbn [sent_of]. rewrite app_nil_r. split; auto. eexists. reflexivity. Qed.

(** One attempt. *)
Lemma attempt_added dbg s q r s' : send_request dbg s q = (r, s') ->
  added (Some s) (write_request q) s' /\ added (Some s) (write_request q) (drop_stream s') /\
  (forall v, r = COk v -> all_added (Some s) (write_request q) s').
Proof.
  intros E. apply send_request_prefix in E as (d & H1 & H2 & H3 & H4). cbn [added all_added sent_of held_of]. split; [|split].
  - exists d. auto.
  - destruct (drop_stream_spec s') as (e & He & Hp). exists (d ++ e). cbn [sent_of held_of]. rewrite He, H1, <- app_assoc. split; auto. eapply prefix_prefix; eauto.
  - intros v ->. destruct H4 as [H4 _]. unfold all_added. cbn [sent_of held_of]. now rewrite H1, H4.
Qed.
Lemma attempt_fresh s q s' : unused s -> added (Some s) (write_request q) s' -> added None (write_request q) s'.
Proof. intros [U1 U2] (d & H1 & H2). cbn [sent_of held_of] in *. rewrite U1, U2 in *. exists d. auto. Qed.
Lemma attempt_fresh_all s q s' : unused s -> all_added (Some s) (write_request q) s' -> all_added None (write_request q) s'.
Proof. intros [U1 U2] H. unfold all_added in *. cbn [sent_of held_of] in *. rewrite U1, U2 in *. auto. Qed.

Definition sent_once (o : option cstream) (q : request) (r : cres) (c c' : cconn) : Prop :=
  cc_dropped c' = cc_dropped c /\
  match cc_stream c' with Some s => added o (write_request q) s | None => True end /\
  forall v, r = COk v -> exists s, cc_stream c' = Some s /\ all_added o (write_request q) s.
Definition sent_again (o : option cstream) (q : request) (r : cres) (c c' : cconn) : Prop :=
  exists o' s, cc_dropped c' = cc_dropped c ++ [o'] /\ cc_stream c' = Some s /\
    added o (write_request q) o' /\ added None (write_request q) s /\
    forall v, r = COk v -> all_added None (write_request q) s.

(** From a connection that has a stream. *)
Lemma send_with_stream dbg zt n c q r n' c' s0 : fresh_net n -> cc_stream c = Some s0 ->
  conn_send dbg zt n c q = (r, n', c') -> exists used, n = used ++ n' /\ (List.length used <= 2)%nat /\ fresh_net n' /\
  (sent_once (Some s0) q r c c' \/ sent_again (Some s0) q r c c').
Proof.
  intros F Es. unfold conn_send. rewrite Es. unfold first_attempt at 1. rewrite Es.
  destruct (send_request dbg s0 q) as [r1 s1] eqn:E1. pose proof (attempt_added _ _ _ _ _ E1) as (A1 & A2 & A3).
  assert (Once : forall rr, (forall v, rr = COk v -> r1 = COk v) -> sent_once (Some s0) q rr c (mk_cconn (Some s1) (cc_dropped c))).
  { intros rr Hr. split; [reflexivity|]. cbn [cc_stream]. split; [exact A1|]. intros v K. exists s1. split; auto. eapply A3. eauto. }
  assert (Again : forall e n2 c3, match connect zt n (mk_cconn (Some s1) (cc_dropped c)) with
      | (Some e, n2, c3) => (e, n2, c3)
      | (None, n2, c3) => let (r, c4) := first_attempt dbg c3 q in (r, n2, c4) end = (e, n2, c3) ->
    exists used, n = used ++ n2 /\ (List.length used <= 2)%nat /\ fresh_net n2 /\ (sent_once (Some s0) q e c c3 \/ sent_again (Some s0) q e c c3)).
  { intros e n2 c3. destruct (connect zt n (mk_cconn (Some s1) (cc_dropped c))) as [[[e'|] n3] c4] eqn:Ec;
      apply connect_spec in Ec as (used & Hn & Hl & F' & H); auto.
    - intros X. inversion X; subst. exists used. repeat (split; [auto|]). left. destruct H as (-> & _ & H). apply Once. intros v K. exfalso. now apply (H v).
    - destruct H as (s & Hs & U1 & U2 & Hi & Hd). unfold first_attempt. rewrite Hs. destruct (send_request dbg s q) as [r2 s2] eqn:E2.
      intros X. inversion X; subst. exists used. repeat (split; [auto|]). right. cbn [cc_stream cc_dropped] in *.
      pose proof (attempt_added _ _ _ _ _ E2) as (B1 & B2 & B3). exists (drop_stream s1), s2. cbn [cc_stream cc_dropped].
      split; auto. split; auto. split; auto. split; [eapply attempt_fresh; eauto; split; auto|]. intros v K. eapply attempt_fresh_all; eauto. split; auto. }
  destruct r1 as [v|e|k|k|k|]; try (intros X; exact (Again _ _ _ X)).
  - intros X. inversion X; subst. exists []. repeat (split; [auto; cbn; lia|]). left. apply Once. auto.
  - intros X. inversion X; subst. exists []. repeat (split; [auto; cbn; lia|]). left. apply Once. auto.
Qed.

Lemma conn_send_after_connect dbg zt n c q n1 c1 s : cc_stream c = None -> connect zt n c = (None, n1, c1) -> cc_stream c1 = Some s ->
  conn_send dbg zt n c q = conn_send dbg zt n1 c1 q.
Proof. intros N E S. unfold conn_send. rewrite N, E, S. reflexivity. Qed.

(** ** Reading *)

Lemma live_takes s w s' : takes s w s' -> live s -> live s'.
Proof. intros T L. apply live_eof_false_inv. eapply live_eof_takes; eauto. now apply live_eof_false. Qed.

Lemma drive_done {T St} (parse : St -> stream -> pres T St * stream) st s v s' : parse st s = (PDone v, s') -> drive parse st s = (PDone v, s').
Proof. intros E. unfold drive. cbn [drive_f]. now rewrite E. Qed.

(** A response that arrives in time is read by one call. *)
Lemma read_in_time dbg s v rest : live s -> in_time s -> no_interrupt_in_data batch_response s ->
  always_in_limits batch_response (pending s) -> batch_response (pending s) = Complete v rest ->
  exists s', resp_parse dbg resp_new s = (PDone v, s') /\ live s' /\ pending s' = rest.
Proof.
  intros L T I Lim E.
  assert (B : blocks_in_clean_lines batch_response s) by (intros s1 s2 K; destruct (T _ _ K) as (v' & r' & ->); exact Logic.I).
  pose proof (drive_response_spec dbg false s (live_eof_false _ L) B I Lim) as M. rewrite E in M. destruct M as (s' & M & L' & Hp).
  apply live_eof_false_inv in L'. exists s'. split; auto. unfold drive_response, drive in M. cbn [drive_f] in M.
  destruct (resp_parse dbg resp_new s) as [r s1] eqn:Ep. destruct r as [v'|st k|e|]; try exact M.
  exfalso. assert (Hi : msg_inv 0 resp_new) by apply line_inv_nil. destruct (resp_parser_ok dbg 0 _ _ _ _ Hi Ep) as (w & Hu & Hs & _).
  destruct k; try discriminate M.
  destruct Hs as [[[Hs|(_ & Hs & ->)] _]|[(Hk & _)|(Hk & _)]]; try discriminate.
  destruct (takes_prefix _ _ _ _ Hs) as (s2 & -> & <-). destruct (T _ _ eq_refl) as (v2 & r2 & Hc).
  change (resp_cont 0 resp_new (pending s2)) with (batch_response (pending s2)) in Hu. rewrite Hc in Hu. contradiction.
Qed.

Lemma flowing_live s : flowing s -> live s.
Proof. apply Forall_impl. intros [b|k]; cbn; auto. contradiction. Qed.
Lemma flowing_in_time s : flowing s -> in_time s.
Proof. intros F s1 s2 ->. apply Forall_app in F as [_ F]. inversion F; subst. contradiction. Qed.
Lemma flowing_no_interrupt {T} (b : bytes -> outcome T) s : flowing s -> no_interrupt_in_data b s.
Proof. intros F s1 s2 ->. apply Forall_app in F as [_ F]. inversion F; subst. contradiction. Qed.

Lemma done_takes dbg s v s' : live s -> resp_parse dbg resp_new s = (PDone v, s') -> exists w, takes s w s'.
Proof.
  intros L E. assert (Hi : msg_inv 0 resp_new) by apply line_inv_nil.
  destruct (resp_parser_ok dbg 0 _ _ _ _ Hi E) as (w & [[H _]|[H _]]); eauto.
  exfalso. apply live_takes in H; auto. inversion H; subst. cbn in *. congruence.
Qed.

(** One exchange. *)
Lemma send_reads dbg s q r rest : csteady (cs_sock s) -> ok_response r -> live (cs_in s) -> in_time (cs_in s) ->
  no_interrupt_in_data batch_response (cs_in s) -> pending (cs_in s) = write_response r ++ rest ->
  exists r' s', send_request dbg s q = (COk r', s') /\ same_response r' r /\
    sent s' = sent s ++ cs_held s ++ write_request q /\ cs_held s' = [] /\ csteady (cs_sock s') /\
    live (cs_in s') /\ pending (cs_in s') = rest /\ exists w, takes (cs_in s) w (cs_in s').
Proof.
  intros St (G & F & C) L T I E.
  pose proof (response_always_in_limits _ _ _ _ rest (good_response_small r G F C)) as Lim. rewrite <- E in Lim.
  destruct (response_reads_back r rest G F C) as (r' & Hr & S). rewrite <- E in Hr.
  destruct (read_in_time dbg _ _ _ L T I Lim Hr) as (i' & Ep & L' & Hp).
  destruct (done_takes _ _ _ _ L Ep) as (w & Tk).
  unfold send_request. destruct (put_request s q) as [rw s1] eqn:Eq. pose proof Eq as Eq2.
  apply put_request_spec in Eq as (Hin & Sf & _ & b1 & b2 & Hw & Hs & R). destruct rw as [[]|k]; [|contradiction].
  destruct R as [-> Hh]. rewrite Hin, Ep. exists r', (mk_cstream i' (cs_held s1) (cs_sock s1)). cbn [cs_in cs_held cs_sock].
  split; auto. split; auto. split; [unfold sent in *; cbn [cs_sock]; rewrite Hh, app_nil_r in Hs; rewrite Hs, Hw, app_nil_r; reflexivity|].
  split; auto. split; [eapply csteady_suffix; eauto|]. split; auto. split; auto. eauto.
Qed.

(** An attempt on a stream whose input blocks before a response is complete. *)
Lemma send_times_out dbg s q i b : csteady (cs_sock s) -> cs_in s = i ->
  (exists st i', resp_parse dbg resp_new i = (PIo st WouldBlock, i') /\ b = i') ->
  exists s', send_request dbg s q = (CReading WouldBlock, s') /\
    sent s' = sent s ++ cs_held s ++ write_request q /\ cs_held s' = [] /\ csteady (cs_sock s') /\ cs_in s' = b.
Proof.
  intros St E (st & i' & Ep & ->). unfold send_request. destruct (put_request s q) as [rw s1] eqn:Eq.
  apply put_request_spec in Eq as (Hin & Sf & _ & b1 & b2 & Hw & Hs & R). destruct rw as [[]|k]; [|contradiction].
  destruct R as [-> Hh]. rewrite Hin, E, Ep. eexists. split; [reflexivity|]. unfold sent in *. cbn [cs_sock cs_held cs_in].
  rewrite Hh, app_nil_r in Hs. split; [rewrite Hs, Hw, app_nil_r; reflexivity|]. split; auto. split; auto. eapply csteady_suffix; eauto.
Qed.

(** ** Writing to a buffer that has room *)

Lemma bw_write_all_fits buf s p : len buf + len p < BUF_WRITER_CAP -> bw_write_all buf s p = (WOk tt, buf ++ p, s).
Proof.
  intros H. unfold bw_write_all. cbn [bw_write_all_f]. destruct p as [|c p]; [now rewrite app_nil_r|].
  unfold bw_write. assert (len (c :: p) > 0) by (rewrite len_cons; lia).
  destruct (BUF_WRITER_CAP <? len buf + len (c :: p)) eqn:E1; [lia|]. destruct (BUF_WRITER_CAP <=? len (c :: p)) eqn:E2; [lia|].
  destruct (len (c :: p) =? 0) eqn:E3; [lia|].
  assert (E : skipn (N.to_nat (len (c :: p))) (c :: p) = []) by (rewrite <- (app_nil_r (c :: p)) at 2; apply skipn_len_app).
  rewrite E. destruct (List.length (sk_events s)); reflexivity.
Qed.

Lemma put_pieces_fits ps : forall more buf s, len buf + len (List.concat ps) < BUF_WRITER_CAP ->
  put_pieces buf s (ps ++ more) = put_pieces (buf ++ List.concat ps) s more.
Proof.
  induction ps as [|p ps IH]; intros more buf s H; cbn [app List.concat] in *; [now rewrite app_nil_r|].
  rewrite len_app in H. cbn [put_pieces]. rewrite bw_write_all_fits by lia. rewrite IH by (rewrite len_app; lia). now rewrite app_assoc.
Qed.

(** The head of a request. *)
Definition head_pieces (q : request) : list bytes :=
  first_line_pieces (method_str (rq_method q)) (rq_uri q) HTTP_VERSION_1_1 ++ header_pieces (rq_headers q) ++ [crlf].
Lemma request_pieces_head q : request_pieces q = head_pieces q ++ [rq_body q].
Proof. unfold request_pieces, head_pieces. rewrite <- !app_assoc. reflexivity. Qed.
Lemma write_request_head q : write_request q = List.concat (head_pieces q) ++ rq_body q.
Proof. unfold write_request. rewrite request_pieces_head, concat_app. cbn. now rewrite app_nil_r. Qed.

(** A large body is written directly; when that fails, what was not taken is lost. *)
Lemma put_large_body q m k i evs fl :
  0 < len (List.concat (head_pieces q)) < BUF_WRITER_CAP -> 0 < m -> m + BUF_WRITER_CAP <= len (rq_body q) -> k <> Interrupted ->
  put_request (mk_cstream i [] (mk_sock (WTake BUF_WRITER_CAP :: WTake m :: WFail k :: evs) fl [])) q =
    (WErr k, mk_cstream i [] (mk_sock evs fl (List.concat (head_pieces q) ++ firstn (N.to_nat m) (rq_body q)))).
Proof.
  intros Hh Hm Hb Hk. assert (Cap : BUF_WRITER_CAP = 8192) by reflexivity. unfold put_request. cbn [cs_held cs_sock cs_in]. rewrite request_pieces_head, put_pieces_fits by (replace (len (@nil byte)) with 0 by reflexivity; lia).
  cbn [app put_pieces]. set (h := List.concat (head_pieces q)) in *. set (b := rq_body q) in *. clearbody h b.
  assert (Hlen : len (firstn (N.to_nat m) b) = m) by (unfold len in *; rewrite firstn_length; lia).
  assert (Hr : len (skipn (N.to_nat m) b) = len b - m) by (unfold len in *; rewrite skipn_length; lia).
  unfold bw_write_all. cbn [sk_events List.length]. cbn [bw_write_all_f]. destruct b as [|c b0] eqn:Eb; [exfalso; unfold len in Hb; cbn in Hb; lia|]. rewrite <- Eb in *. clear Eb.
  unfold bw_write at 1. destruct (BUF_WRITER_CAP <? len h + len b) eqn:E1; [|lia].
  assert (Ef : bw_flush_buf h (mk_sock (WTake BUF_WRITER_CAP :: WTake m :: WFail k :: evs) fl []) = (WOk tt, [], mk_sock (WTake m :: WFail k :: evs) fl h)).
  { unfold bw_flush_buf. cbn [sk_events List.length]. cbn [bw_flush_f]. destruct h as [|c0 h0] eqn:Eh; [unfold len in Hh; cbn in Hh; lia|]. rewrite <- Eh in *. clear Eh.
    cbn [sock_write sk_events sk_flushes sk_sent app]. replace (N.min BUF_WRITER_CAP (len h)) with (len h) by lia. destruct (len h =? 0) eqn:Z; [lia|].
    assert (X : skipn (N.to_nat (len h)) h = []) by (rewrite <- (app_nil_r h) at 2; apply skipn_len_app). rewrite X.
    assert (Y : firstn (N.to_nat (len h)) h = h) by (unfold len; rewrite Nnat.Nat2N.id; apply firstn_all). rewrite Y. reflexivity. }
  rewrite Ef. clear Ef E1. destruct (BUF_WRITER_CAP <=? len b) eqn:E2; [|lia].
  cbn [sock_write sk_events sk_flushes sk_sent]. replace (N.min m (len b)) with m by lia. destruct (m =? 0) eqn:Z; [lia|].
  set (r := skipn (N.to_nat m) b) in *. clearbody r. cbn [bw_write_all_f]. destruct r as [|c1 r0] eqn:Er; [unfold len in Hr; cbn in Hr; exfalso; unfold len in *; lia|]. rewrite <- Er in *. clear Er.
  unfold bw_write at 1. replace (len (@nil byte)) with 0 by reflexivity. cbn [N.add].
  destruct (BUF_WRITER_CAP <? len r) eqn:E3; destruct (BUF_WRITER_CAP <=? len r) eqn:E4; try lia; cbn [bw_flush_buf bw_flush_f sk_events List.length sock_write sk_flushes sk_sent];
    destruct k; try reflexivity; congruence.
Qed.
