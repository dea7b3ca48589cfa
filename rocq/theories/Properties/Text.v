(** C56: the text the parsers accept is exactly UTF-8. *)
From Coq Require Import List Ascii String NArith ZArith Bool Lia.
From Coq Require Import ZifyBool ZifyNat ZifyN.
From Verif.Model Require Import Bytes Io Common Parse.
From Verif.Spec Require Import Batch Stream Drive Numerals Names Grammar Unicode.
From Verif.Proofs Require Import BytesFacts CommonFacts ParseFacts DriveFacts GrammarFacts.
From Verif.Properties Require Import Syntax.
Import ListNotations.
Local Open Scope N_scope.

Ltac Zify.zify_post_hook ::= Z.div_mod_to_equations.

Lemma enc1 n : n < 128 -> encode_scalar n = [n].
Proof. intros H. unfold encode_scalar. now replace (n <? 128) with true by lia. Qed.
Lemma enc2 a b : 194 <= a <= 223 -> 128 <= b <= 191 ->
  scalar ((a - 192) * 64 + (b - 128)) /\ encode_scalar ((a - 192) * 64 + (b - 128)) = [a; b].
Proof.
  intros Ha Hb. set (n := (a - 192) * 64 + (b - 128)). assert (128 <= n < 2048) by (unfold n; lia).
  split; [left; lia|]. unfold encode_scalar.
  replace (n <? 128) with false by lia. replace (n <? 2048) with true by lia.
  assert (n / 64 = a - 192 /\ n mod 64 = b - 128) as [-> ->] by (unfold n; lia). repeat (f_equal; try lia).
Qed.
Lemma enc3 a b c : 224 <= a <= 239 -> 128 <= b <= 191 -> 128 <= c <= 191 ->
  (a = 224 -> 160 <= b) -> (a = 237 -> b <= 159) ->
  scalar ((a - 224) * 4096 + (b - 128) * 64 + (c - 128)) /\
  encode_scalar ((a - 224) * 4096 + (b - 128) * 64 + (c - 128)) = [a; b; c].
Proof.
  intros Ha Hb Hc H1 H2. set (n := (a - 224) * 4096 + (b - 128) * 64 + (c - 128)).
  assert (2048 <= n < 65536) by (unfold n; lia).
  split; [unfold scalar, n; lia|]. unfold encode_scalar.
  replace (n <? 128) with false by lia. replace (n <? 2048) with false by lia. replace (n <? 65536) with true by lia.
  assert (E : n / 64 = (a - 224) * 64 + (b - 128)) by (unfold n; lia).
  assert (n / 4096 = a - 224 /\ n mod 64 = c - 128) as [-> ->] by (unfold n; lia).
  rewrite E. assert (((a - 224) * 64 + (b - 128)) mod 64 = b - 128) as -> by lia. repeat (f_equal; try lia).
Qed.
Lemma enc4 a b c d : 240 <= a <= 244 -> 128 <= b <= 191 -> 128 <= c <= 191 -> 128 <= d <= 191 ->
  (a = 240 -> 144 <= b) -> (a = 244 -> b <= 143) ->
  scalar ((a - 240) * 262144 + (b - 128) * 4096 + (c - 128) * 64 + (d - 128)) /\
  encode_scalar ((a - 240) * 262144 + (b - 128) * 4096 + (c - 128) * 64 + (d - 128)) = [a; b; c; d].
Proof.
  intros Ha Hb Hc Hd H1 H2. set (n := (a - 240) * 262144 + (b - 128) * 4096 + (c - 128) * 64 + (d - 128)).
  assert (65536 <= n < 1114112) by (unfold n; lia).
  split; [unfold scalar; lia|]. unfold encode_scalar.
  replace (n <? 128) with false by lia. replace (n <? 2048) with false by lia. replace (n <? 65536) with false by lia.
  assert (E : n / 4096 = (a - 240) * 64 + (b - 128)) by (unfold n; lia).
  assert (E' : n / 64 = (a - 240) * 4096 + (b - 128) * 64 + (c - 128)) by (unfold n; lia).
  assert (n / 262144 = a - 240 /\ n mod 64 = d - 128) as [-> ->] by (unfold n; lia).
  rewrite E, E'. assert (((a - 240) * 64 + (b - 128)) mod 64 = b - 128) as -> by lia.
  assert (((a - 240) * 4096 + (b - 128) * 64 + (c - 128)) mod 64 = c - 128) as -> by lia. repeat (f_equal; try lia).
Qed.

(** One character: what the automaton accepts is the encoding of a scalar value. *)
Lemma next_step n lo hi c st : ustep (UNext n lo hi) c = Some st ->
  lo <= bval c <= hi /\ st = match n with S (S m) => UNext (S m) 128 191 | _ => UStart end.
Proof.
  cbn [ustep]. destruct ((lo <=? bval c) && (bval c <=? hi)) eqn:E; [|discriminate].
  intros H. split; [lia|]. destruct n as [|[|m]]; congruence.
Qed.

Ltac next H c s :=
  destruct s as [|c s]; cbn [urun] in H; [discriminate|];
  let E := fresh "E" in let st := fresh "st" in
  destruct (ustep _ c) as [st|] eqn:E in H; [|discriminate];
  apply next_step in E as [? ->].

Lemma one_char c s : urun UStart (c :: s) = Some UStart ->
  exists n s', scalar n /\ map bval (c :: s) = encode_scalar n ++ map bval s' /\
    urun UStart s' = Some UStart /\ (List.length s' < List.length (c :: s))%nat.
Proof.
  cbn [urun]. destruct (ustep UStart c) as [st|] eqn:E0; [|discriminate]. intros H. pose proof (bval_lt c) as Lc.
  assert (G2 : forall lo hi, st = UNext 1 lo hi -> 128 <= lo -> hi <= 191 -> 194 <= bval c <= 223 ->
    exists n s', scalar n /\ map bval (c :: s) = encode_scalar n ++ map bval s' /\
    urun UStart s' = Some UStart /\ (List.length s' < List.length (c :: s))%nat).
  { intros lo hi -> K1 K2 K3. next H c1 s. destruct (enc2 (bval c) (bval c1)) as [S1 S2]; [lia|lia|].
    eexists _, s. rewrite S2. split; [exact S1|]. split; [reflexivity|]. split; [exact H|cbn; lia]. }
  assert (G3 : forall lo hi, st = UNext 2 lo hi -> 128 <= lo -> hi <= 191 -> 224 <= bval c <= 239 ->
    (bval c = 224 -> 160 <= lo) -> (bval c = 237 -> hi <= 159) ->
    exists n s', scalar n /\ map bval (c :: s) = encode_scalar n ++ map bval s' /\
    urun UStart s' = Some UStart /\ (List.length s' < List.length (c :: s))%nat).
  { intros lo hi -> K1 K2 K3 K4 K5. next H c1 s. next H c2 s.
    destruct (enc3 (bval c) (bval c1) (bval c2)) as [S1 S2]; try lia.
    eexists _, s. rewrite S2. split; [exact S1|]. split; [reflexivity|]. split; [exact H|cbn; lia]. }
  assert (G4 : forall lo hi, st = UNext 3 lo hi -> 128 <= lo -> hi <= 191 -> 240 <= bval c <= 244 ->
    (bval c = 240 -> 144 <= lo) -> (bval c = 244 -> hi <= 143) ->
    exists n s', scalar n /\ map bval (c :: s) = encode_scalar n ++ map bval s' /\
    urun UStart s' = Some UStart /\ (List.length s' < List.length (c :: s))%nat).
  { intros lo hi -> K1 K2 K3 K4 K5. next H c1 s. next H c2 s. next H c3 s.
    destruct (enc4 (bval c) (bval c1) (bval c2) (bval c3)) as [S1 S2]; try lia.
    eexists _, s. rewrite S2. split; [exact S1|]. split; [reflexivity|]. split; [exact H|cbn; lia]. }
  unfold ustep in E0. cbv zeta in E0.
  destruct (bval c <=? 127) eqn:B1.
  { inversion E0; subst st. exists (bval c), s. rewrite enc1 by lia. split; [left; lia|]. split; [reflexivity|]. split; [exact H|cbn; lia]. }
  repeat match type of E0 with (if ?b then _ else _) = _ => let B := fresh "B" in destruct b eqn:B end;
    try discriminate; inversion E0 as [E1]; symmetry in E1;
    first [eapply G2; [exact E1|lia..] | eapply G3; [exact E1|lia..] | eapply G4; [exact E1|lia..]].
Qed.

(** A character's encoding runs the automaton back to its start. *)
Lemma ustep_start_spec c st : ustep UStart c = st ->
  (bval c < 128 -> st = Some UStart) /\
  (194 <= bval c <= 223 -> st = Some (UNext 1 128 191)) /\
  (bval c = 224 -> st = Some (UNext 2 160 191)) /\
  (bval c = 237 -> st = Some (UNext 2 128 159)) /\
  (225 <= bval c <= 239 -> bval c <> 237 -> st = Some (UNext 2 128 191)) /\
  (bval c = 240 -> st = Some (UNext 3 144 191)) /\
  (bval c = 244 -> st = Some (UNext 3 128 143)) /\
  (241 <= bval c <= 243 -> st = Some (UNext 3 128 191)).
Proof.
  intros <-. unfold ustep. cbv zeta. repeat split; intros;
  repeat match goal with |- context [if ?b then _ else _] => destruct b eqn:? end; first [reflexivity|lia].
Qed.

Lemma next_run n lo hi c s : lo <= bval c <= hi ->
  urun (UNext n lo hi) (c :: s) = urun (match n with S (S m) => UNext (S m) 128 191 | _ => UStart end) s.
Proof.
  intros H. cbn [urun ustep]. replace ((lo <=? bval c) && (bval c <=? hi)) with true by lia.
  destruct n as [|[|m]]; reflexivity.
Qed.

Lemma start_run c s st : ustep UStart c = Some st -> urun UStart (c :: s) = urun st s.
Proof. intros H. cbn [urun]. now rewrite H. Qed.

Lemma run_scalar n e s : scalar n -> map bval e = encode_scalar n -> urun UStart (e ++ s) = urun UStart s.
Proof.
  intros Sc. unfold encode_scalar, scalar in *.
  destruct (N.ltb_spec n 128); [|destruct (N.ltb_spec n 2048); [|destruct (N.ltb_spec n 65536)]]; intros E.
  - destruct e as [|a [|]]; try discriminate. cbn [map] in E. assert (Ea : bval a = n) by congruence. cbn [app].
    rewrite (start_run a s UStart); auto. destruct (ustep_start_spec a _ eq_refl) as (J1 & _). apply J1. lia.
  - destruct e as [|a [|b [|]]]; try discriminate. cbn [map] in E. cbn [app].
    assert (Ea : bval a = 192 + n / 64) by congruence. assert (Eb : bval b = 128 + n mod 64) by congruence. clear E.
    destruct (ustep_start_spec a _ eq_refl) as (_ & J1 & _).
    assert (K : 194 <= bval a <= 223) by lia.
    rewrite (start_run _ _ _ (J1 K)), next_run by lia. reflexivity.
  - destruct e as [|a [|b [|c [|]]]]; try discriminate. cbn [map] in E. cbn [app].
    assert (Ea : bval a = 224 + n / 4096) by congruence. assert (Eb : bval b = 128 + (n / 64) mod 64) by congruence.
    assert (Ec : bval c = 128 + n mod 64) by congruence. clear E.
    destruct (ustep_start_spec a _ eq_refl) as (_ & _ & J1 & J2 & J3 & _).
    assert (bval a = 224 \/ bval a = 237 \/ (225 <= bval a <= 239 /\ bval a <> 237)) as [K|[K|[K K']]] by lia.
    + rewrite (start_run _ _ _ (J1 K)), next_run by lia. rewrite next_run by lia. reflexivity.
    + rewrite (start_run _ _ _ (J2 K)), next_run by lia. rewrite next_run by lia. reflexivity.
    + rewrite (start_run _ _ _ (J3 K K')), next_run by lia. rewrite next_run by lia. reflexivity.
  - destruct e as [|a [|b [|c [|d [|]]]]]; try discriminate. cbn [map] in E. cbn [app].
    assert (Ea : bval a = 240 + n / 262144) by congruence. assert (Eb : bval b = 128 + (n / 4096) mod 64) by congruence.
    assert (Ec : bval c = 128 + (n / 64) mod 64) by congruence. assert (Ed : bval d = 128 + n mod 64) by congruence. clear E.
    destruct (ustep_start_spec a _ eq_refl) as (_ & _ & _ & _ & _ & J1 & J2 & J3).
    assert (bval a = 240 \/ bval a = 244 \/ (241 <= bval a <= 243)) as [K|[K|K]] by lia.
    + rewrite (start_run _ _ _ (J1 K)), next_run by lia. rewrite !next_run by lia. reflexivity.
    + rewrite (start_run _ _ _ (J2 K)), next_run by lia. rewrite !next_run by lia. reflexivity.
    + rewrite (start_run _ _ _ (J3 K)), next_run by lia. rewrite !next_run by lia. reflexivity.
Qed.

(** ** C56 *)

Theorem C56_text_is_unicode : forall s, utf8 s = true <-> unicode s.
Proof.
  intros s. split.
  - unfold utf8. destruct (urun UStart s) as [[|]|] eqn:E; try discriminate. intros _. revert E.
    induction s as [s IH] using (induction_ltof1 _ (@List.length byte)). unfold ltof in IH. intros E.
    destruct s as [|c s]; [exists []; split; [constructor|reflexivity]|].
    destruct (one_char c s E) as (n & s' & H1 & H2 & H3 & H4).
    destruct (IH s' H4 H3) as (ns & K1 & K2). exists (n :: ns). split; [now constructor|].
    rewrite H2, K2. reflexivity.
  - intros (ns & H & E). assert (urun UStart s = Some UStart) as R; [|unfold utf8; now rewrite R].
    revert s E. induction H as [|n ns Hn _ IH]; intros s E; cbn [map List.concat] in E.
    + destruct s; [reflexivity|discriminate].
    + destruct (map_eq_app _ _ _ _ E) as (e & s' & -> & E1 & E2).
      rewrite (run_scalar n) by assumption. auto.
Qed.

Lemma utf8_parts a c b : bval c < 128 -> utf8 (a ++ c :: b) = true -> utf8 a = true /\ utf8 b = true.
Proof.
  intros Hc H. assert (Ha : utf8 a = true).
  { apply utf8_split in H; auto. destruct (is_cont c) eqn:E; auto. apply is_cont_high in E. lia. }
  split; auto. rewrite utf8_app in H by assumption. change (c :: b) with ([c] ++ b) in H.
  rewrite utf8_app in H; auto. apply utf8_ascii. repeat constructor. exact Hc.
Qed.

Lemma values_in name ps vs v : values_named name ps vs -> In v vs -> exists n, In (n, v) ps.
Proof.
  induction 1 as [|n w ps vs _ _ IH|n w ps vs _ _ IH]; intros Hv; [destruct Hv| |].
  - destruct Hv as [->|Hv]; [exists n; now left|]. destruct (IH Hv) as (n' & H). exists n'. now right.
  - destruct (IH Hv) as (n' & H). exists n'. now right.
Qed.

(** All text of an accepted request is Unicode. *)
Theorem C56_accepted_is_unicode : forall dbg s r s',
  req_parse dbg req_new s = (PDone r, s') ->
  unicode (rq_uri r) /\
  forall name vs, hm_get (header_from name) (rq_headers r) = Some vs -> Forall unicode vs.
Proof.
  intros dbg s r s' E. apply C04_request_sound in E as (w & ps & _ & (l & wire & L1 & L2 & L3 & _) & Hps).
  split.
  - apply C56_text_is_unicode. destruct L1 as (v & _ & W). cbn [words] in W.
    destruct W as (_ & l' & -> & _ & l'' & -> & _). destruct L2 as [L2 _].
    apply utf8_parts in L2 as [_ L2]; [|reflexivity]. apply utf8_parts in L2 as [L2 _]; [exact L2|reflexivity].
  - intros name vs G. destruct (values_named_fun name ps) as (vs' & Hv). rewrite (Hps _ _ Hv) in G.
    assert (vs' = vs) as -> by (destruct vs'; cbn in G; congruence).
    apply Forall_forall. intros v Hin. apply C56_text_is_unicode.
    destruct (values_in _ _ _ _ Hv Hin) as (n & Hn). rewrite Forall_forall in L3.
    specialize (L3 _ Hn) as [[U _] _]. cbn [fst snd] in U.
    change (utf8 (n ++ COLON :: SP :: v) = true) in U.
    apply utf8_parts in U as [_ U]; [|reflexivity]. apply (utf8_parts [] SP v) in U as [_ U]; [exact U|reflexivity].
Qed.

Lemma batch_headers_skip ps : forall n m b, Forall header_ok ps ->
  exists n' m', batch_headers n m (header_lines ps ++ b) = batch_headers n' m' b.
Proof.
  induction ps as [|[nm v] ps IH]; intros n m b H; [exists n, m; reflexivity|].
  inversion H as [|? ? [H1 H2] H3]; subst. rewrite batch_headers_eq.
  replace (header_lines ((nm, v) :: ps) ++ b)
    with ((nm ++ lit ": " ++ v) ++ crlf ++ (header_lines ps ++ b))
    by (unfold header_lines, header_line; cbn [map List.concat fst snd]; now rewrite <- !app_assoc).
  rewrite cut_line_text by exact H1.
  assert (Hp : parse_header (nm ++ lit ": " ++ v) = inr (header_from nm, v)) by (apply parse_header_iff; exists nm; auto).
  revert Hp. destruct (nm ++ lit ": " ++ v) as [|c l] eqn:El; [destruct nm; discriminate|].
  intros ->. apply IH. assumption.
Qed.

(** A line of the head that is not Unicode is refused as such, whatever else is wrong with it: the
    first line, or a line after a good first line and good header lines. *)
Theorem C56_other_lines_refused : forall dbg eof good l rest s,
  good = [] \/ (exists l0 m u ps, request_line m u l0 /\ text l0 /\ Forall header_ok ps /\
                  good = l0 ++ crlf ++ header_lines ps) ->
  ~ unicode l -> ~ In LF l ->
  live_eof eof s -> pending s = good ++ l ++ LF :: rest ->
  blocks_in_clean_lines batch_request s -> no_interrupt_in_data batch_request s ->
  always_in_limits batch_request (pending s) ->
  exists s', drive_request dbg s = (PErr InvalidUtf8, s').
Proof.
  intros dbg eof good l rest s Hg Hu Hl L E B I Lim.
  pose proof (drive_request_spec dbg eof s L B I Lim) as M. rewrite E in M.
  assert (U : utf8 l = false).
  { destruct (utf8 l) eqn:U; auto. exfalso. apply Hu. now apply C56_text_is_unicode. }
  assert (batch_request (good ++ l ++ LF :: rest) = Bad InvalidUtf8) as K; [|rewrite K in M; exact M].
  unfold batch_request, batch_msg, batch_first. destruct Hg as [->|(l0 & m & u & ps & H1 & H2 & H3 & ->)].
  - cbn [app]. rewrite cut_line_app by exact Hl. rewrite U. reflexivity.
  - rewrite <- !app_assoc. rewrite cut_line_text by assumption.
    apply parse_request_line_iff in H1. rewrite H1. cbn [obind].
    destruct (batch_headers_skip ps 0 [] (l ++ LF :: rest) H3) as (n' & m' & ->).
    rewrite batch_headers_eq, cut_line_app by exact Hl. rewrite U. reflexivity.
Qed.

(** Characters of one to four bytes; an overlong form, a surrogate, a value above 10FFFF and a truncated
    character are not Unicode. *)
Definition b_ (l : list N) : bytes := map ascii_of_N l.
Example C56_case :
  unicode (b_ [65; 195; 169; 226; 130; 172; 240; 159; 152; 128]) /\
  ~ unicode (b_ [192; 128]) /\ ~ unicode (b_ [237; 160; 128]) /\ ~ unicode (b_ [244; 144; 128; 128]) /\
  ~ unicode (b_ [226; 130]).
Proof.
  split; [|split; [|split; [|split]]]; rewrite <- C56_text_is_unicode; vm_compute; congruence.
Qed.
(** A refused line, met by a stream in two pieces. *)
Example C56_refused_case :
  let s := [RData (lit "GET / HTTP/1.1" ++ crlf ++ lit "a: b" ++ crlf); RErr WouldBlock;
            RData (b_ [192; 128; 10])] in
  drive_request true s = (PErr InvalidUtf8, []).
Proof. vm_compute. reflexivity. Qed.

Print Assumptions C56_text_is_unicode.
Print Assumptions C56_accepted_is_unicode.
Print Assumptions C56_other_lines_refused.
