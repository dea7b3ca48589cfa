(** Facts about messages of the standard and what the reference parser makes of them. *)
From Coq Require Import List Ascii String NArith ZArith Bool Lia.
From Coq Require Import ZifyBool ZifyNat ZifyN.
From Verif.Model Require Import Bytes Io Common Parse Encode.
From Verif.Spec Require Import Batch Stream Drive Numerals Names Grammar Standard.
From Verif.Proofs Require Import BytesFacts CommonFacts ParseFacts DriveFacts CallFacts GrammarFacts LimitGrammar BatchFacts EncodeFacts Checks.
Import ListNotations.
Local Open Scope N_scope.

(** ** Characters *)

Ltac values := repeat match goal with
  | H : context [bval ?c] |- _ => assert_fails (is_var c); let v := eval vm_compute in (bval c) in change (bval c) with v in H
  end.

Lemma blank_byte c : blank c -> bval c = 32 \/ bval c = 9.
Proof. intros [-> | ->]; [left|right]; reflexivity. Qed.
Lemma tchar_byte c : tchar c -> 33 <= bval c <= 126 /\ c <> ":"%char /\ c <> SP.
Proof.
  intros H. assert (B : 33 <= bval c <= 126 /\ bval c <> 58).
  { destruct H as [H|[H|[H|H]]]; try lia. cbn [In] in H. vm_compute in H.
    repeat (destruct H as [<-|H]; [vm_compute; repeat split; discriminate|]). destruct H. }
  split; [apply B|]. split; intros ->; [destruct B as [_ B]; apply B; reflexivity|destruct B as [[B _] _]; vm_compute in B; apply B; reflexivity].
Qed.
Lemma field_byte_ascii c : field_byte c -> bval c < 128 /\ c <> LF /\ c <> CR.
Proof.
  intros [H|H].
  - destruct H as [-> | ->]; repeat split; try discriminate; vm_compute; reflexivity.
  - unfold visible in H. repeat split; [lia| |]; intros ->; values; lia.
Qed.
Lemma bytes_text l : Forall field_byte l -> text l.
Proof.
  intros H. split.
  - apply utf8_ascii. eapply Forall_impl; [|exact H]. intros c Hc. now apply field_byte_ascii.
  - intros I. rewrite Forall_forall in H. apply H, field_byte_ascii in I. tauto.
Qed.
Lemma blanks_field o : Forall blank o -> Forall field_byte o.
Proof. intros H. eapply Forall_impl; [|exact H]. now left. Qed.
Lemma token_field n : token n -> Forall field_byte n.
Proof. intros [_ H]. eapply Forall_impl; [|exact H]. intros c Hc. right. now apply tchar_byte in Hc. Qed.

Lemma line_bytes p line : field_line p line -> Forall field_byte line /\ line <> [].
Proof.
  intros (T & (V & _) & o1 & o2 & O1 & O2 & ->). split; [|destruct (fst p); discriminate].
  apply Forall_app. split; [now apply token_field|]. constructor; [right; vm_compute; split; discriminate|].
  apply Forall_app. split; [now apply blanks_field|]. apply Forall_app. split; [exact V|now apply blanks_field].
Qed.

Lemma token_colon n : token n -> ~ In ":"%char n.
Proof. intros [_ H] I. rewrite Forall_forall in H. apply H, tchar_byte in I. tauto. Qed.
Lemma token_no_colon_sp n : ~ In ":"%char n -> ~ exists a r, n = a ++ lit ": " ++ r.
Proof. intros H (a & r & ->). apply H, in_or_app. right. now left. Qed.

Lemma pair_ok p line : field_line p line -> header_ok p.
Proof.
  intros (T & (V & _) & _). split.
  - apply bytes_text. apply Forall_app. split; [now apply token_field|]. apply Forall_app. split; [|exact V].
    constructor; [right; vm_compute; split; discriminate|]. constructor; [left; now left|constructor].
  - now apply token_no_colon_sp, token_colon.
Qed.
Lemma pairs_ok ps ls : Forall2 field_line ps ls -> Forall header_ok ps.
Proof. induction 1; constructor; eauto using pair_ok. Qed.

(** ** Header lines *)

Lemma lines_plain ps : lines (map plain_line ps) = header_lines ps.
Proof.
  unfold lines, header_lines. f_equal. rewrite map_map. apply map_ext. intros p. unfold plain_line, header_line. now rewrite <- !app_assoc.
Qed.
Lemma lines_cons l ls x : lines (l :: ls) ++ x = l ++ crlf ++ lines ls ++ x.
Proof. unfold lines. cbn [map List.concat]. now rewrite <- !app_assoc. Qed.

Lemma text_crlf l l' x y : text l -> text l' -> l ++ crlf ++ x = l' ++ crlf ++ y -> l = l' /\ x = y.
Proof.
  intros T T' E. pose proof (cut_line_text l x T) as C. rewrite E, (cut_line_text l' y T') in C. inversion C. auto.
Qed.
Lemma header_ok_text p : header_ok p -> text (plain_line p) /\ plain_line p <> [].
Proof. intros [H _]. split; [exact H|]. unfold plain_line. destruct (fst p); discriminate. Qed.

(** Two ways to see the same header block. *)
Lemma same_lines ps : forall ls x y, Forall header_ok ps -> Forall (fun l => text l /\ l <> []) ls ->
  header_lines ps ++ crlf ++ x = lines ls ++ crlf ++ y -> ls = map plain_line ps /\ x = y.
Proof.
  induction ps as [|p ps IH]; intros ls x y H1 H2 E; rewrite <- lines_plain in E; cbn [map] in *.
  - destruct ls as [|l ls].
    + change (lines []) with (@nil byte) in E. cbn [app] in E. split; auto. now apply app_inv_head in E.
    + exfalso. inversion H2 as [|? ? [T N] _]; subst. rewrite lines_cons in E. change (lines []) with (@nil byte) in E.
      apply (text_crlf [] l) in E as [E _]; auto. apply crlf_text.
  - inversion H1 as [|? ? K1 K2]; subst. destruct (header_ok_text _ K1) as [T N]. rewrite lines_cons in E. destruct ls as [|l ls].
    + exfalso. change (lines []) with (@nil byte) in E. apply (text_crlf _ []) in E as [E _]; auto. apply crlf_text.
    + inversion H2 as [|? ? [T' N'] H3]; subst. rewrite lines_cons in E. apply text_crlf in E as [<- E]; auto.
      rewrite lines_plain in E. destruct (IH _ _ _ K2 H3 E) as [-> ->]. auto.
Qed.

(** Header lists with the same values by name, of which one has tokens as names, and the other was read from its lines. *)
Lemma same_pairs ps : forall ps', Forall2 field_line ps (map plain_line ps') ->
  Forall header_ok ps' -> (forall name vs, values_named name ps vs -> values_named name ps' vs) -> ps' = ps.
Proof.
  intros ps' F K H.
  assert (N : forall p', In p' ps' -> ~ In ":"%char (fst p')).
  { intros [n' v'] I C. cbn [fst] in C. destruct (values_named_fun n' ps) as (vs & V).
    assert (E : vs = []).
    { assert (T : Forall (fun p => token (fst p)) ps) by (clear - F; remember (map plain_line ps') as z; clear Heqz; induction F as [|? ? ? ? (T & _)]; constructor; auto).
      clear - V T C. induction V as [|n v ps vs S V IH|n v ps vs S V IH]; auto; inversion T as [|? ? T1 T2]; subst.
      - exfalso. apply (token_colon n T1). cbn [fst] in *. clear - S C. unfold same_name in S. induction S as [|c d a b R S IH]; [destruct C|].
        destruct C as [->|C]; [left|right; auto]. destruct R as [R|(k & Hk & [[R1 R2]|[R1 R2]])]; [now symmetry|exfalso; values; lia|exfalso; values; lia].
      - auto. }
    subst vs. apply H in V. assert (I2 : exists w ws, values_named n' ps' (w :: ws)).
    { clear - I. induction ps' as [|[n2 v2] ps' IH]; [destruct I|]. destruct (values_named_fun n' ps') as (ws & W). destruct I as [I|I].
      - inversion I; subst. exists v', ws. constructor; auto. apply lower_same. reflexivity.
      - destruct (IH I) as (w & ws2 & W2). destruct (list_eq_dec ascii_dec (lower n2) (lower n')) as [E|E].
        + exists v2, (w :: ws2). constructor; auto. now apply lower_same.
        + exists w, ws2. apply vn_other; auto. rewrite <- lower_same. exact E. }
    destruct I2 as (w & ws & W). pose proof (values_named_det _ _ _ _ V W). discriminate. }
  revert ps F H. induction ps' as [|[n' v'] ps' IH]; intros ps F H; [inversion F; reflexivity|].
  inversion F as [|[n v] ? ps1 ? L F']; subst. inversion K as [|? ? K1 K2]; subst.
  assert (En : n' = n).
  { destruct L as (T & _ & o1 & o2 & _ & _ & E). cbn [fst snd] in *. unfold plain_line in E. cbn [fst snd] in E.
    change (lit ": ") with (":"%char :: [SP]) in E. cbn [app] in E. specialize (N (n', v') (or_introl eq_refl)). cbn [fst] in N.
    pose proof (token_colon _ T) as N2. clear - E N N2. revert n N2 E. induction n' as [|c n' IH]; intros n N2 E; destruct n as [|d n]; cbn [app] in E; auto.
    - injection E as E _. exfalso. apply N2. now left.
    - injection E as E _. exfalso. apply N. now left.
    - injection E as -> E. f_equal. apply IH; auto; intros I; [apply N|apply N2]; now right. }
  subst n'.
  assert (Hd : v' = v /\ forall name vs, values_named name ps1 vs -> values_named name ps' vs).
  { split.
    - destruct (values_named_fun n ps1) as (vs & V). pose proof (H n (v :: vs) (vn_same _ _ _ _ _ (proj1 (lower_same n n) eq_refl) V)) as W.
      inversion W as [|? ? ? ? _ W'|? ? ? ? S W']; subst; auto. exfalso. apply S, lower_same. reflexivity.
    - intros name vs V. destruct (list_eq_dec ascii_dec (lower n) (lower name)) as [E|E].
      + apply lower_same in E. pose proof (H _ _ (vn_same _ _ v _ _ E V)) as W. inversion W; subst; auto; tauto.
      + rewrite lower_same in E. pose proof (H _ _ (vn_other _ _ v _ _ E V)) as W. inversion W; subst; auto; tauto. }
  destruct Hd as [-> Hd]. f_equal. apply IH; auto. intros p I. apply N. now right.
Qed.

(** A line without a space after its colon: refused. *)
Lemma headers_refused ls : forall ps n m rest, Forall2 field_line ps ls -> (exists l, In l ls /\ ~ exists a r, l = a ++ lit ": " ++ r) ->
  batch_headers n m (lines ls ++ crlf ++ rest) = Bad BadSyntax.
Proof.
  induction ls as [|l ls IH]; intros ps n m rest F (l0 & I & C); [destruct I|]. inversion F as [|p ? ps' ? L F']; subst.
  destruct (line_bytes _ _ L) as [B Ne]. rewrite lines_cons, batch_headers_eq, (cut_line_text l) by now apply bytes_text.
  destruct l as [|c l]; [congruence|]. destruct (parse_header (c :: l)) as [e|[k v]] eqn:E.
  - unfold parse_header in E. destruct (split_colon (c :: l)) as [[]|]; [discriminate|]. congruence.
  - apply parse_header_iff in E as (nm & -> & E & _). eapply IH; eauto. exists l0. split; auto. destruct I as [<-|I]; auto.
    exfalso. apply C. eauto.
Qed.

(** ** Chunks *)

Lemma size_chars l n : denotes 16 l n -> Forall (fun c => c <> ";"%char /\ c <> SP /\ c <> ":"%char) l.
Proof.
  intros (digits & ds & Hl & _ & Hd & _). assert (F : Forall (fun c => c <> ";"%char /\ c <> SP /\ c <> ":"%char) digits).
  { clear Hl. induction Hd as [|c d digits ds H _ IH]; constructor; auto. unfold is_digit in H. repeat split; intros ->; values; lia. }
  destruct Hl as [->| ->]; auto. constructor; auto. repeat split; discriminate.
Qed.
Lemma size_field l n : denotes 16 l n -> Forall field_byte l.
Proof.
  intros (digits & ds & Hl & _ & Hd & _). assert (F : Forall field_byte digits).
  { clear Hl. induction Hd as [|c d digits ds H _ IH]; constructor; auto. right. unfold is_digit in H. unfold visible. lia. }
  destruct Hl as [->| ->]; auto. constructor; auto. right. vm_compute. split; discriminate.
Qed.
Lemma extension_field e : extension e -> Forall field_byte e.
Proof. intros [-> |(x & -> & H)]; constructor; auto. right. vm_compute. split; discriminate. Qed.

Lemma plain_chunked w body : std_chunked w body [] -> len body <= 3145728 -> chunked w body.
Proof.
  remember [] as xs eqn:Ex. intros H. induction H as [l e ts tl S E F|l n e d w body xs S Hn E Hd H IH]; intros L.
  - destruct e; [|discriminate]. destruct tl; [|discriminate]. rewrite app_nil_r. apply chunked_last, S.
  - destruct e; [|discriminate]. destruct xs; [|discriminate]. rewrite app_nil_r. rewrite len_app in L.
    eapply chunked_more; eauto; [apply S|lia|]. apply IH; auto. lia.
Qed.

Lemma extra_size l e n : denotes 16 l n -> extension e -> e <> [] -> parse_chunk_size (l ++ e) = inl InvalidChunkSize.
Proof.
  intros D [->|(x & -> & _)] N; [congruence|]. unfold parse_chunk_size. destruct (parse_uint 16 USIZE_MAX (l ++ ";"%char :: x)) as [k|] eqn:E; auto.
  exfalso. apply parse_uint_spec in E as [E _]; [|lia]. apply size_chars in E. rewrite Forall_forall in E.
  assert (I : In ";"%char (l ++ ";"%char :: x)) by (apply in_or_app; right; now left). apply E in I. tauto.
Qed.

Lemma extras_refused w body xs : std_chunked w body xs -> xs <> [] -> len body <= 3145728 -> forall n acc rest,
  batch_chunks n acc (w ++ rest) = Bad InvalidChunkSize \/ batch_chunks n acc (w ++ rest) = Bad BadSyntax.
Proof.
  induction 1 as [l e ts tl S E F|l n e d w body xs S Hn E Hd H IH]; intros Nx L k acc rest; rewrite batch_chunks_eq; rewrite <- (app_assoc (l ++ e)), <- (app_assoc crlf).
  - rewrite cut_line_text by (apply bytes_text, Forall_app; split; [eapply size_field, S|now apply extension_field]).
    destruct e as [|c e]; [|left; now rewrite (extra_size l (c :: e) 0 (proj1 S) E) by discriminate].
    right. cbn [used app] in Nx. destruct tl as [|t tl]; [now destruct Nx|]. rewrite app_nil_r. rewrite (proj2 (parse_chunk_size_iff l 0)) by (split; [apply S|lia]).
    unfold batch_data. cbn [app]. replace (_ <? 0) with false by lia. cbn [N.to_nat firstn skipn]. rewrite N.eqb_refl. unfold batch_tail.
    inversion F as [|p ? ? ? Ln _]; subst. destruct (line_bytes _ _ Ln) as [B Ne].
    rewrite <- app_assoc, lines_cons, cut_line_text by now apply bytes_text. destruct t; [congruence|reflexivity].
  - rewrite cut_line_text by (apply bytes_text, Forall_app; split; [eapply size_field, S|now apply extension_field]). rewrite len_app in L.
    destruct e as [|c e]; [|left; now rewrite (extra_size l (c :: e) n (proj1 S) E) by discriminate].
    cbn [used app] in Nx. rewrite app_nil_r. rewrite (proj2 (parse_chunk_size_iff l n)) by (split; [apply S|lia]).
    unfold batch_data. cbn [app]. subst n. rewrite <- !app_assoc, len_app. replace (_ <? len d) with false by lia.
    rewrite firstn_len_app, skipn_len_app. replace (len d =? 0) with false by lia. rewrite batch_tail_next. apply IH; auto. lia.
Qed.

Lemma std_chunked_starts w body xs : std_chunked w body xs -> exists l e n x, denotes 16 l n /\ extension e /\ w = (l ++ e) ++ crlf ++ x.
Proof.
  intros [l e ts tl S E F|l n e d w' body' xs' S Hn E Hd H].
  - exists l, e, 0, (lines tl ++ crlf). split; [apply S|auto].
  - exists l, e, n, (d ++ crlf ++ w'). split; [apply S|auto].
Qed.
Lemma std_chunked_some w body xs : std_chunked w body xs -> w <> [].
Proof. intros H ->. apply std_chunked_starts in H as (l & e & n & x & _ & _ & E). destruct (l ++ e); discriminate. Qed.

(** The word chunked in another spelling does not contain the word. *)
Lemma spelled te : same_name te (lit "chunked") -> (exists a r, te = a ++ lit "chunked" ++ r) -> te = lit "chunked".
Proof.
  intros S (a & r & ->).
  assert (Len : forall x y, same_name x y -> List.length x = List.length y) by (induction 1; cbn; auto). apply Len in S. rewrite !app_length in S. cbn [List.length lit] in S.
  change (List.length (lit "chunked")) with 7%nat in S. destruct a; [|cbn in S; lia]. destruct r; [|cbn in S; lia]. now rewrite app_nil_r.
Qed.

Lemma std_chunked_longer w body xs : std_chunked w body xs -> len body < len w.
Proof.
  induction 1 as [l e ts tl S E F|l n e d w body xs S Hn E Hd H IH]; rewrite !len_app; change (len crlf) with 2; [change (len (@nil byte)) with 0|]; lia.
Qed.
