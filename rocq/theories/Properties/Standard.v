(** C108: messages in the forms of the HTTP standard. *)
From Coq Require Import List Ascii String NArith ZArith Bool Lia.
From Coq Require Import ZifyBool ZifyNat ZifyN.
From Verif.Model Require Import Bytes Io Common Parse Encode Writer Server.
From Verif.Spec Require Import Batch Stream Drive Numerals Names Grammar Wire Output Session Standard.
From Verif.Proofs Require Import BytesFacts CommonFacts ParseFacts DriveFacts CallFacts GrammarFacts LimitGrammar BatchFacts EncodeFacts Checks ServerFacts StandardFacts.
From Verif.Properties Require Import Streaming Syntax RoundTrip Delivery Server.
Import ListNotations.
Local Open Scope N_scope.

Lemma std_first m u v : supported_version v -> Forall visible u ->
  text (method_name m ++ SP :: u ++ SP :: v) /\ request_line m u (method_name m ++ SP :: u ++ SP :: v) /\ ~ In SP u.
Proof.
  intros V U. assert (Su : ~ In SP u) by (intros I; rewrite Forall_forall in U; apply U in I; unfold visible in I; change (bval SP) with 32 in I; lia).
  assert (Fu : Forall field_byte u) by (eapply Forall_impl; [|exact U]; intros c; now right).
  split; [|split; auto].
  - apply text_app; [destruct m; apply text_check; reflexivity|]. change (SP :: u ++ SP :: v) with ([SP] ++ u ++ [SP] ++ v).
    apply text_app; [apply text_check; reflexivity|]. apply text_app; [now apply bytes_text|].
    apply text_app; [apply text_check; reflexivity|destruct V as [-> | ->]; apply text_check; reflexivity].
  - exists v. split; auto. cbn [words]. split; [destruct m; vm_compute; intuition discriminate|]. eexists. split; [reflexivity|].
    split; auto. eexists. split; [reflexivity|]. split; [destruct V as [-> | ->]; vm_compute; intuition discriminate|now left].
Qed.

Lemma std_plain_body ps w body xs : std_request_body ps w body xs -> xs = [] -> len body <= 3145728 ->
  (forall te, values_named (lit "transfer-encoding") ps [te] -> te = lit "chunked") ->
  body_syntax ps (fun w body => w = [] /\ body = []) w body.
Proof.
  intros H -> L T. inversion H as [w' b' x' B|V1 V2]; subst.
  - inversion B as [v ? V1 V2 D _|te ? ? ? V1 V2 S C]; subst; [eapply body_sized; eauto|].
    eapply body_chunked; eauto; [|now apply plain_chunked]. apply T in V2. subst te. exists [], []. now rewrite app_nil_r.
  - eapply body_default; eauto. discriminate.
Qed.

(** A request in a form of the standard is read as the standard says exactly if it uses only the forms that the library
    knows; however it is delivered, within the limits. *)
Theorem C108_exactly : forall dbg eof s w m u ps body ls xs wire rest,
  std_request w m u ps body ls xs wire -> len body <= 3145728 -> delivers batch_request eof s (w ++ rest) ->
  ((exists r s', drive_request dbg s = (PDone r, s') /\ pending s' = rest /\
      rq_method r = m /\ rq_uri r = u /\ rq_body r = body /\ headers_are (rq_headers r) ps) <-> plain_forms ps ls xs).
Proof.
  intros dbg eof s w m u ps body ls xs wire rest (v & Hv & Nu & Hu & F & B & ->) L D.
  destruct (std_first m u v Hv Hu) as (T & Rl & Su). pose proof (pairs_ok _ _ F) as K. split.
  - intros (r & s' & E & Pd & Em & Eu & Eb & Eh). pose proof (read_complete_inv _ _ _ _ _ _ D E) as C. rewrite Pd in C.
    apply request_sound in C as (w' & ps' & Ew & (l' & wire' & R1 & R2 & R3 & R4 & ->) & H'). apply app_inv_tail in Ew.
    apply text_crlf in Ew as [_ Ew]; auto. symmetry in Ew.
    destruct (same_lines ps' ls wire' wire R3) as [-> ->]; auto.
    { clear - F. induction F as [|p l ps ls Ln F IH]; constructor; auto. destruct (line_bytes _ _ Ln). split; auto. now apply bytes_text. }
    assert (ps' = ps) as ->.
    { apply same_pairs; auto. intros name vs V. destruct (values_named_fun name ps') as (vs' & V').
      pose proof (Eh _ _ V) as G1. rewrite (H' _ _ V') in G1. destruct vs, vs'; try discriminate; auto. inversion G1; subst. exact V'. }
    split; auto. subst body. inversion B as [w' b' x' B'|V1 V2]; subst.
    + inversion B' as [v0 ? V1 V2 Dn _|te ? ? ? V1 V2 S C]; subst.
      * split; auto. intros te V. pose proof (values_named_det _ _ _ _ V V2). discriminate.
      * inversion R4 as [v0 vs n w V3 Dn Ln Lw|v0 vs w bd V3 V4 Cn Cw|vs w bd V3 V4 Cn [-> _]]; subst.
        -- pose proof (values_named_det _ _ _ _ V1 V3). discriminate.
        -- pose proof (values_named_det _ _ _ _ V2 V4) as Q. injection Q as <- <-. split.
           ++ destruct xs as [|x xs]; auto. exfalso. pose proof (batch_chunks_complete _ _ Cw 0 [] []) as G.
              destruct (extras_refused _ _ _ C ltac:(discriminate) L 0 [] []) as [Q|Q]; rewrite Q in G; discriminate.
           ++ intros te' V. pose proof (values_named_det _ _ _ _ V V2) as Q. injection Q as ->. now apply spelled.
        -- exfalso. exact (std_chunked_some _ _ _ C eq_refl).
    + split; auto. intros te V. pose proof (values_named_det _ _ _ _ V V2). discriminate.
  - intros (-> & Ex & Te). rewrite lines_plain in D.
    destruct (request_complete ((method_name m ++ SP :: u ++ SP :: v) ++ crlf ++ header_lines ps ++ crlf ++ wire) m u ps body rest) as (r & Er & E1 & E2 & E3 & _ & E4).
    { exists (method_name m ++ SP :: u ++ SP :: v), wire. split; auto. split; auto. split; auto. split; [eapply std_plain_body; eauto|reflexivity]. }
    destruct (read_complete dbg _ _ _ _ _ D Er) as (s' & G1 & G2). exists r, s'. auto 10.
Qed.
Print Assumptions C108_exactly.

(** What becomes of the other forms.  No space after a colon (and no ": " later in the line): refused. *)
Lemma no_space_bad w m u ps body ls xs wire rest : std_request w m u ps body ls xs wire ->
  (exists l, In l ls /\ ~ exists a r, l = a ++ lit ": " ++ r) -> batch_request (w ++ rest) = Bad BadSyntax.
Proof.
  intros (v & Hv & Nu & Hu & F & B & ->) N. destruct (std_first m u v Hv Hu) as (T & Rl & _).
  revert T Rl. generalize (method_name m ++ SP :: u ++ SP :: v) as fl. intros fl T Rl.
  unfold batch_request, batch_msg, batch_first. rewrite <- !app_assoc, cut_line_text by exact T.
  rewrite (proj2 (parse_request_line_iff _ m u) Rl). cbn [obind]. now rewrite (headers_refused ls ps) by auto.
Qed.
(** An extension or trailer lines: refused. *)
Lemma extras_bad w m u ps body ls xs wire rest : std_request w m u ps body ls xs wire -> len body <= 3145728 ->
  ls = map plain_line ps -> (forall te, values_named (lit "transfer-encoding") ps [te] -> te = lit "chunked") -> xs <> [] ->
  exists e, batch_request (w ++ rest) = Bad e.
Proof.
  intros (v & Hv & Nu & Hu & F & B & ->) L -> Te Nx. destruct (std_first m u v Hv Hu) as (T & Rl & _).
  revert T Rl. generalize (method_name m ++ SP :: u ++ SP :: v) as fl. intros fl T Rl.
  rewrite lines_plain. unfold batch_request. rewrite <- !app_assoc.
  rewrite (batch_msg_head _ _ _ (m, u)); eauto using pairs_ok; [|now apply parse_request_line_iff].
  inversion B as [w' b' x' B'|V1 V2]; subst; [|congruence]. inversion B' as [v0 ? V1 V2 Dn _|te ? ? ? V1 V2 S C]; subst; [congruence|].
  unfold batch_after_headers. rewrite (framing_complete_chunked _ _ _ _ _ (headers_are_pairs ps) V1 V2); [|rewrite (Te _ V2); exists [], []; now rewrite app_nil_r].
  cbn [batch_body]. destruct (extras_refused _ _ _ C Nx L 0 [] rest) as [-> | ->]; cbn [omap]; eauto.
Qed.
(** Another spelling of chunked: the request is taken to have no body. *)
Lemma spelled_empty w m u ps body ls xs wire rest te : std_request w m u ps body ls xs wire -> ls = map plain_line ps ->
  values_named (lit "content-length") ps [] -> values_named (lit "transfer-encoding") ps [te] -> te <> lit "chunked" ->
  exists r, batch_request (w ++ rest) = Complete r (wire ++ rest) /\ rq_method r = m /\ rq_uri r = u /\ rq_body r = [] /\
    headers_are (rq_headers r) ps /\ std_chunked wire body xs.
Proof.
  intros (v & Hv & Nu & Hu & F & B & ->) -> V1 V2 Nt. destruct (std_first m u v Hv Hu) as (T & Rl & _).
  revert T Rl. generalize (method_name m ++ SP :: u ++ SP :: v) as fl. intros fl T Rl.
  assert (C : same_name te (lit "chunked") /\ std_chunked wire body xs).
  { inversion B as [w' b' x' B'|V3 V4]; subst; [|pose proof (values_named_det _ _ _ _ V2 V4); discriminate].
    inversion B' as [v0 ? V3 V4 Dn _|te' ? ? ? V3 V4 S C]; subst; [pose proof (values_named_det _ _ _ _ V1 V3); discriminate|].
    pose proof (values_named_det _ _ _ _ V2 V4) as Q. injection Q as <-. auto. }
  destruct C as [S C]. exists (mk_request m u (from_pairs (map header_pair ps)) []).
  split; [|split; [reflexivity|split; [reflexivity|split; [reflexivity|split; [apply headers_are_pairs|exact C]]]]].
  rewrite lines_plain. unfold batch_request. rewrite <- !app_assoc.
  rewrite (batch_msg_head _ _ _ (m, u)); eauto using pairs_ok; [|now apply parse_request_line_iff].
  unfold batch_after_headers. rewrite (framing_complete_default _ _ _ _ (headers_are_pairs ps) V1 V2); [reflexivity|].
  intros te' vs Q. injection Q as <- <-. intros H. apply Nt. now apply spelled.
Qed.

Theorem C108_no_space_refuted : forall dbg eof s w m u ps body ls xs wire rest,
  std_request w m u ps body ls xs wire -> (exists l, In l ls /\ ~ exists a r, l = a ++ lit ": " ++ r) ->
  delivers batch_request eof s (w ++ rest) -> exists s', drive_request dbg s = (PErr BadSyntax, s').
Proof. intros dbg eof s w m u ps body ls xs wire rest H N D. eapply read_bad; eauto. eapply no_space_bad; eauto. Qed.
Print Assumptions C108_no_space_refuted.

Theorem C108_extras_refuted : forall dbg eof s w m u ps body ls xs wire rest,
  std_request w m u ps body ls xs wire -> len body <= 3145728 ->
  ls = map plain_line ps -> (forall te, values_named (lit "transfer-encoding") ps [te] -> te = lit "chunked") -> xs <> [] ->
  delivers batch_request eof s (w ++ rest) -> exists e s', drive_request dbg s = (PErr e, s').
Proof.
  intros dbg eof s w m u ps body ls xs wire rest H L P T N D. destruct (extras_bad _ _ _ _ _ _ _ _ rest H L P T N) as (e & E).
  exists e. eapply read_bad; eauto.
Qed.
Print Assumptions C108_extras_refuted.

Theorem C108_spelling_refuted : forall dbg eof s w m u ps body ls xs wire rest te,
  std_request w m u ps body ls xs wire -> ls = map plain_line ps ->
  values_named (lit "content-length") ps [] -> values_named (lit "transfer-encoding") ps [te] -> te <> lit "chunked" ->
  delivers batch_request eof s (w ++ rest) ->
  exists r s', drive_request dbg s = (PDone r, s') /\ rq_method r = m /\ rq_uri r = u /\ rq_body r = [] /\
    headers_are (rq_headers r) ps /\ pending s' = wire ++ rest /\ wire <> [].
Proof.
  intros dbg eof s w m u ps body ls xs wire rest te H P V1 V2 N D.
  destruct (spelled_empty _ _ _ _ _ _ _ _ rest te H P V1 V2 N) as (r & E & E1 & E2 & E3 & E4 & C).
  destruct (read_complete dbg _ _ _ _ _ D E) as (s' & G1 & G2). exists r, s'. split; auto. split; auto. split; auto. split; auto. split; auto. split; auto.
  eapply std_chunked_some; eauto.
Qed.
Print Assumptions C108_spelling_refuted.

(** On a server: requests in the refused forms get a 400 and nothing is routed. *)
Theorem C108_server_refuses_refuted : forall dbg rt eof s vs log st w m u ps body ls xs wire rest,
  std_request w m u ps body ls xs wire -> len body <= 3145728 ->
  (exists l, In l ls /\ ~ exists a r, l = a ++ lit ": " ++ r) \/
  (ls = map plain_line ps /\ (forall te, values_named (lit "transfer-encoding") ps [te] -> te = lit "chunked") /\ xs <> []) ->
  no_panic rt -> orderly eof s -> pending s = w ++ rest -> Forall visit_fine vs ->
  Forall visit_steady vs \/ short_replies rt -> (blocks s < List.length vs)%nat ->
  visits dbg rt vs [] (Open (conn_new s)) = (log, st) ->
  log = [] /\ exists sent lost, st = Gone sent /\ bad_request = sent ++ lost.
Proof.
  intros dbg rt eof s vs log st w m u ps body ls xs wire rest H L K Np O P F S B E.
  assert (Bd : exists e, batch_request (pending s) = Bad e).
  { rewrite P. destruct K as [K|(K1 & K2 & K3)]; [exists BadSyntax; eapply no_space_bad; eauto|eapply extras_bad; eauto]. }
  destruct Bd as (e & Bd).
  destruct (C28_malformed dbg rt eof s vs log st [] (pending s) e Np O F S B) as (H1 & sent & lost & H2 & H3); auto.
  - constructor. intros v r. rewrite Bd. discriminate.
  - split; auto. exists sent, lost. split; auto.
Qed.
Print Assumptions C108_server_refuses_refuted.

(** A chunked body does not begin like a request. *)
Lemma size_no_request l e n m u : denotes 16 l n -> extension e -> ~ request_line m u (l ++ e).
Proof.
  intros D X (v & _ & W). cbn [words] in W. destruct W as (_ & r & W & _). apply size_chars in D. rewrite Forall_forall in D.
  assert (NoSP : ~ In SP l) by (intros I; apply D in I; tauto).
  assert (M : ~ In ";"%char (method_name m)) by (destruct m; vm_compute; intuition discriminate).
  destruct X as [-> |(x & -> & _)].
  - rewrite app_nil_r in W. apply NoSP. rewrite W. apply in_or_app. right. now left.
  - apply app_eq_app in W as (k & [[W1 W2]|[W1 W2]]); destruct k as [|c k]; cbn [app] in W2; try discriminate; injection W2 as <- _.
    + apply NoSP. rewrite W1. apply in_or_app. right. now left.
    + apply M. rewrite W1. apply in_or_app. right. now left.
Qed.
Lemma chunked_no_request w body xs : std_chunked w body xs -> exists e, batch_request w = Bad e.
Proof.
  intros C. apply std_chunked_starts in C as (l & e & n & x & D & X & ->). unfold batch_request, batch_msg, batch_first.
  rewrite cut_line_text by (apply bytes_text, Forall_app; split; [eapply size_field, D|now apply extension_field]).
  destruct (parse_request_line (l ++ e)) as [k|[m u]] eqn:E; [cbn; eauto|]. apply parse_request_line_iff in E.
  now apply (size_no_request _ _ _ _ _ D X) in E.
Qed.

(** A request with another spelling of chunked is routed with an empty body; then its body gets a 400. *)
Theorem C108_server_spelling_refuted : forall dbg rt eof s vs log st w m u ps body ls xs wire te,
  std_request w m u ps body ls xs wire -> ls = map plain_line ps ->
  values_named (lit "content-length") ps [] -> values_named (lit "transfer-encoding") ps [te] -> te <> lit "chunked" ->
  (forall cs, values_named (lit "connection") ps cs -> ~ In (lit "close") cs) ->
  no_panic rt -> orderly eof s -> pending s = w -> Forall visit_fine vs ->
  Forall visit_steady vs \/ short_replies rt -> (blocks s < List.length vs)%nat ->
  visits dbg rt vs [] (Open (conn_new s)) = (log, st) ->
  exists r sent lost, log = [r] /\ rq_method r = m /\ rq_uri r = u /\ rq_body r = [] /\ headers_are (rq_headers r) ps /\
    st = Gone sent /\ reply (rt [] r) ++ bad_request = sent ++ lost.
Proof.
  intros dbg rt eof s vs log st w m u ps body ls xs wire te H Pl V1 V2 N Nc Np O P F S B E.
  destruct (spelled_empty _ _ _ _ _ _ _ _ [] te H Pl V1 V2 N) as (r & Er & E1 & E2 & E3 & E4 & C). rewrite !app_nil_r in Er.
  destruct (chunked_no_request _ _ _ C) as (e & Bw).
  destruct (C28_malformed dbg rt eof s vs log st [r] wire e Np O F S B) as (H1 & sent & lost & H2 & H3); auto.
  - rewrite P. eapply session_next; eauto. constructor. intros v r'. rewrite Bw. discriminate.
  - intros q [<-|[]] (cs & G & I). destruct (values_named_fun (lit "connection") ps) as (cs' & V).
    pose proof (E4 _ _ V) as G'. change (header_from (lit "connection")) with CONNECTION in G'. rewrite G in G'.
    destruct cs'; [discriminate|]. injection G' as ->. exact (Nc _ V I).
  - exists r, sent, lost. cbn [replies app] in H3. rewrite ?app_nil_r in H3. auto 10.
Qed.
Print Assumptions C108_server_spelling_refuted.

(** ** Responses *)

Lemma got_complete dbg eof s b r rest : delivers batch_response eof s b -> batch_response b = Complete r rest ->
  exists s', drive_response dbg s = (PDone r, s') /\ pending s' = rest.
Proof.
  intros (L & <- & B & I & Lim) E. pose proof (drive_response_spec dbg eof s L B I Lim) as M. rewrite E in M.
  destruct M as (s' & H1 & _ & H2). eauto.
Qed.
Lemma got_complete_inv dbg eof s b r s' : delivers batch_response eof s b -> drive_response dbg s = (PDone r, s') ->
  batch_response b = Complete r (pending s') \/ pending s' = [] /\ exists n, batch_response b = AtEof r n.
Proof.
  intros (L & <- & B & I & Lim) E. pose proof (drive_response_spec dbg eof s L B I Lim) as M. rewrite E in M.
  unfold matches in M. destruct (batch_response (pending s)) as [v rest|p|v n|e] eqn:Eb.
  - destruct M as (s2 & H & _ & H2). inversion H; subst. auto.
  - destruct eof; [destruct (utf8 _); [destruct M as (? & M)|]|destruct M as (? & M)]; discriminate.
  - destruct eof; [|destruct M as (? & M); discriminate]. injection M as -> ->. right. eauto.
  - destruct M as (s2 & H). discriminate.
Qed.
Lemma got_bad dbg eof s b e : delivers batch_response eof s b -> batch_response b = Bad e ->
  exists s', drive_response dbg s = (PErr e, s').
Proof. intros (L & <- & B & I & Lim) E. pose proof (drive_response_spec dbg eof s L B I Lim) as M. now rewrite E in M. Qed.

Lemma std_status v c code reason : supported_version v -> denotes 10 c code -> In code known_codes -> Forall field_byte reason ->
  text (v ++ SP :: c ++ SP :: reason) /\ status_line code (v ++ SP :: c ++ SP :: reason).
Proof.
  intros V D K F. assert (C : Forall (fun x => bval x = 43 \/ 48 <= bval x <= 57) c).
  { destruct D as (digits & ds & Hl & _ & Hd & _). assert (G : Forall (fun x => bval x = 43 \/ 48 <= bval x <= 57) digits).
    { clear Hl. induction Hd as [|x d digits ds H _ IH]; constructor; auto. unfold is_digit in H. lia. }
    destruct Hl as [->| ->]; auto. }
  assert (Nc : ~ In SP c) by (intros I; rewrite Forall_forall in C; apply C in I; change (bval SP) with 32 in I; lia).
  assert (Fc : Forall field_byte c) by (eapply Forall_impl; [|exact C]; intros x Hx; right; unfold visible; cbn beta in Hx; lia).
  split.
  - apply text_app; [destruct V as [-> | ->]; apply text_check; reflexivity|]. apply bytes_text. constructor; [left; now left|].
    apply Forall_app. split; auto. constructor; auto. left. now left.
  - exists v, c. split; auto. split; auto. cbn [words]. split; [destruct V as [-> | ->]; vm_compute; intuition discriminate|].
    eexists. split; [reflexivity|]. split; auto. right. eexists. reflexivity.
Qed.

Theorem C108_response_exactly : forall dbg eof s w code ps body ls xs wire rest,
  std_response w code ps body ls xs wire -> len body <= 3145728 -> delivers batch_response eof s (w ++ rest) ->
  ((exists r s', drive_response dbg s = (PDone r, s') /\ pending s' = rest /\
      st_code (rs_status r) = code /\ rs_body r = body /\ headers_are (rs_headers r) ps) <-> plain_forms ps ls xs).
Proof.
  intros dbg eof s w code ps body ls xs wire rest (v & c & reason & Hv & Dc & _ & _ & Kc & _ & _ & _ & Fr & F & B & ->) L D.
  destruct (std_status v c code reason Hv Dc Kc Fr) as (T & Sl). revert T Sl D. generalize (v ++ SP :: c ++ SP :: reason) as fl. intros fl T Sl D.
  pose proof (pairs_ok _ _ F) as K.
  assert (TL : Forall (fun l => text l /\ l <> []) ls).
  { clear - F. induction F as [|p l ps ls Ln F IH]; constructor; auto. destruct (line_bytes _ _ Ln). split; auto. now apply bytes_text. }
  assert (SP' : forall ps' h, headers_are h ps' -> headers_are h ps -> Forall2 field_line ps (map plain_line ps') -> Forall header_ok ps' -> ps' = ps).
  { intros ps' h H' Eh F' R3. apply same_pairs; auto. intros name vs V. destruct (values_named_fun name ps') as (vs' & V').
    pose proof (Eh _ _ V) as G1. rewrite (H' _ _ V') in G1. destruct vs, vs'; try discriminate; auto. inversion G1; subst. exact V'. }
  split.
  - intros (r & s' & E & Pd & Em & Eb & Eh). destruct (got_complete_inv _ _ _ _ _ _ D E) as [C|(Z & n & C)].
    + rewrite Pd in C. apply response_sound in C as (w' & ps' & Ew & (l' & wire' & R1 & R2 & R3 & R4 & ->) & H'). apply app_inv_tail in Ew.
      apply text_crlf in Ew as [_ Ew]; auto. symmetry in Ew.
      destruct (same_lines ps' ls wire' wire R3) as [-> ->]; auto.
      assert (ps' = ps) as -> by (eapply SP'; eauto).
      split; auto. subst body. inversion B as [v0 ? V1 V2 Dn _|te ? ? ? V1 V2 S C]; subst.
      * split; auto. intros te V. pose proof (values_named_det _ _ _ _ V V2). discriminate.
      * inversion R4 as [v0 vs n w V3 Dn Ln Lw|v0 vs w bd V3 V4 Cn Cw|vs w bd V3 V4 Cn []]; subst.
        -- pose proof (values_named_det _ _ _ _ V1 V3). discriminate.
        -- pose proof (values_named_det _ _ _ _ V2 V4) as Q. injection Q as <- <-. split.
           ++ destruct xs as [|x xs]; auto. exfalso. pose proof (batch_chunks_complete _ _ Cw 0 [] []) as G.
              destruct (extras_refused _ _ _ C ltac:(discriminate) L 0 [] []) as [Q|Q]; rewrite Q in G; discriminate.
           ++ intros te' V. pose proof (values_named_det _ _ _ _ V V2) as Q. injection Q as ->. now apply spelled.
    + exfalso. rewrite <- Pd, Z, app_nil_r in C. apply response_sound_eof in C as (ps' & (l' & R1 & R2 & R3 & R4 & R5 & Ew) & _ & H').
      apply text_crlf in Ew as [_ Ew]; auto.
      destruct (same_lines ps' ls (rs_body r) wire R3) as [-> Ebw]; auto.
      assert (ps' = ps) as -> by (eapply SP'; eauto). subst body.
      inversion B as [v0 ? V1 V2 Dn _|te ? ? ? V1 V2 S C]; subst.
      * pose proof (values_named_det _ _ _ _ V1 R4). discriminate.
      * apply std_chunked_longer in C. lia.
  - intros (-> & Ex & Te). rewrite lines_plain in D.
    destruct (response_complete (fl ++ crlf ++ header_lines ps ++ crlf ++ wire) code ps body rest) as (r & Er & E1 & E2 & E3).
    { exists fl, wire. split; auto. split; auto. split; auto. split; [|reflexivity].
      inversion B as [v0 ? V1 V2 Dn _|te ? ? ? V1 V2 S C]; subst; [eapply body_sized; eauto|].
      eapply body_chunked; eauto; [|now apply plain_chunked]. apply Te in V2. subst te. exists [], []. now rewrite app_nil_r. }
    destruct (got_complete dbg _ _ _ _ _ D Er) as (s' & G1 & G2). exists r, s'. auto 10.
Qed.
Print Assumptions C108_response_exactly.

Theorem C108_response_no_space_refuted : forall dbg eof s w code ps body ls xs wire rest,
  std_response w code ps body ls xs wire -> (exists l, In l ls /\ ~ exists a r, l = a ++ lit ": " ++ r) ->
  delivers batch_response eof s (w ++ rest) -> exists s', drive_response dbg s = (PErr BadSyntax, s').
Proof.
  intros dbg eof s w code ps body ls xs wire rest (v & c & reason & Hv & Dc & _ & _ & Kc & _ & _ & _ & Fr & F & B & ->) N D.
  destruct (std_status v c code reason Hv Dc Kc Fr) as (T & Sl). revert T Sl D. generalize (v ++ SP :: c ++ SP :: reason) as fl. intros fl T Sl D.
  eapply got_bad; eauto. apply parse_status_line_iff in Sl as (st & Sl & _). unfold batch_response, batch_msg, batch_first.
  rewrite <- !app_assoc, cut_line_text by exact T. rewrite Sl. cbn [obind]. now rewrite (headers_refused ls ps) by auto.
Qed.
Print Assumptions C108_response_no_space_refuted.

Theorem C108_response_extras_refuted : forall dbg eof s w code ps body ls xs wire rest,
  std_response w code ps body ls xs wire -> len body <= 3145728 ->
  ls = map plain_line ps -> (forall te, values_named (lit "transfer-encoding") ps [te] -> te = lit "chunked") -> xs <> [] ->
  delivers batch_response eof s (w ++ rest) -> exists e s', drive_response dbg s = (PErr e, s').
Proof.
  intros dbg eof s w code ps body ls xs wire rest (v & c & reason & Hv & Dc & _ & _ & Kc & _ & _ & _ & Fr & F & B & ->) L -> Te Nx D.
  destruct (std_status v c code reason Hv Dc Kc Fr) as (T & Sl). revert T Sl D. generalize (v ++ SP :: c ++ SP :: reason) as fl. intros fl T Sl D.
  apply parse_status_line_iff in Sl as (st & Sl & _). rewrite lines_plain in D.
  assert (X : exists e, batch_response ((fl ++ crlf ++ header_lines ps ++ crlf ++ wire) ++ rest) = Bad e).
  { unfold batch_response. rewrite <- !app_assoc. rewrite (batch_msg_head _ _ _ st); eauto using pairs_ok.
    inversion B as [v0 ? V1 V2 Dn _|te ? ? ? V1 V2 S C]; subst; [congruence|].
    unfold batch_after_headers. rewrite (framing_complete_chunked _ _ _ _ _ (headers_are_pairs ps) V1 V2); [|rewrite (Te _ V2); exists [], []; now rewrite app_nil_r].
    cbn [batch_body]. destruct (extras_refused _ _ _ C Nx L 0 [] rest) as [-> | ->]; cbn [omap]; eauto. }
  destruct X as (e & X). exists e. eapply got_bad; eauto.
Qed.
Print Assumptions C108_response_extras_refuted.

(** A response with another spelling of chunked is not finished before the connection ends; then its body is the coded one
    and everything after it. *)
Theorem C108_response_spelling_refuted : forall dbg eof s w code ps body ls xs wire rest te,
  std_response w code ps body ls xs wire -> ls = map plain_line ps ->
  values_named (lit "content-length") ps [] -> values_named (lit "transfer-encoding") ps [te] -> te <> lit "chunked" ->
  delivers batch_response eof s (w ++ rest) ->
  if eof then exists r, drive_response dbg s = (PDone r, []) /\ st_code (rs_status r) = code /\ rs_body r = wire ++ rest /\
    headers_are (rs_headers r) ps /\ len body < len wire
  else exists st, drive_response dbg s = (PIo st WouldBlock, []).
Proof.
  intros dbg eof s w code ps body ls xs wire rest te (v & c & reason & Hv & Dc & _ & _ & Kc & _ & _ & _ & Fr & F & B & ->) -> V1 V2 Nt D.
  destruct (std_status v c code reason Hv Dc Kc Fr) as (T & Sl). revert T Sl D. generalize (v ++ SP :: c ++ SP :: reason) as fl. intros fl T Sl D.
  assert (C : same_name te (lit "chunked") /\ std_chunked wire body xs).
  { inversion B as [v0 ? V3 V4 Dn _|te' ? ? ? V3 V4 S C]; subst; [pose proof (values_named_det _ _ _ _ V1 V3); discriminate|].
    pose proof (values_named_det _ _ _ _ V2 V4) as Q. injection Q as <-. auto. }
  destruct C as [S C]. rewrite lines_plain in D.
  destruct (response_complete_eof (fl ++ crlf ++ header_lines ps ++ crlf ++ wire ++ rest) code ps (wire ++ rest)) as (r & Er & E1 & E2 & E3).
  { exists fl. split; auto. split; auto. split; [eauto using pairs_ok|]. split; auto. split; [|reflexivity]. exists [te]. split; auto.
    intros te' vs Q. injection Q as <- <-. intros H. apply Nt. now apply spelled. }
  destruct D as (L & P & Bk & I & Lim). rewrite <- !app_assoc in P, Lim. rewrite <- P in Lim, Er.
  pose proof (drive_response_spec dbg eof s L Bk I Lim) as M. rewrite Er in M. cbn [matches] in M. destruct eof; auto.
  exists r. split; auto. split; auto. split; auto. split; auto. eapply std_chunked_longer; eauto.
Qed.
Print Assumptions C108_response_spelling_refuted.

(** ** Cases *)

(** A header without a space, a chunk extension and a trailer, another spelling. *)
Example no_space : bytes := lit "GET /a HTTP/1.1" ++ crlf ++ lit "host:x" ++ crlf ++ crlf.
Example extended : bytes :=
  lit "POST /a HTTP/1.1" ++ crlf ++ lit "Transfer-Encoding: chunked" ++ crlf ++ crlf ++
  lit "2;q=1" ++ crlf ++ lit "hi" ++ crlf ++ lit "0" ++ crlf ++ lit "sum: 7" ++ crlf ++ crlf.
Example spelling : bytes :=
  lit "POST /a HTTP/1.1" ++ crlf ++ lit "Transfer-Encoding: Chunked" ++ crlf ++ crlf ++
  lit "2" ++ crlf ++ lit "hi" ++ crlf ++ lit "0" ++ crlf ++ crlf.
Example plain : bytes :=
  lit "POST /a HTTP/1.1" ++ crlf ++ lit "Transfer-Encoding: chunked" ++ crlf ++ crlf ++
  lit "2" ++ crlf ++ lit "hi" ++ crlf ++ lit "0" ++ crlf ++ crlf.

Lemma visible_b v : forallb (fun c => (33 <=? bval c) && (bval c <=? 126)) v = true -> Forall visible v.
Proof. intros H. apply Forall_forall. intros c I. rewrite forallb_forall in H. apply H in I. unfold visible. lia. Qed.
Definition letter (c : byte) : bool :=
  (c =? "-")%char || (65 <=? bval c) && (bval c <=? 90) || (97 <=? bval c) && (bval c <=? 122).
Lemma token_b n : n <> [] -> forallb letter n = true -> token n.
Proof.
  intros N H. split; auto. apply Forall_forall. intros c I. rewrite forallb_forall in H. apply H in I. unfold tchar.
  unfold letter in I. destruct (Ascii.eqb_spec c "-"%char) as [E|_]; [rewrite E; right; right; right; vm_compute; auto 10|]. lia.
Qed.
Lemma value_ok v : Forall visible v -> field_value v.
Proof.
  intros H. split; [eapply Forall_impl; [|exact H]; intros; now right|].
  assert (N : forall c, In c v -> ~ blank c) by (intros c I [-> | ->]; rewrite Forall_forall in H; apply H in I; unfold visible in I; revert I; [change (bval SP) with 32|change (bval HT) with 9]; lia).
  split; intros c x ->; apply N; [now left|apply in_or_app; right; now left].
Qed.
Lemma field_b n v o : n <> [] -> forallb letter n = true ->
  forallb (fun c => (33 <=? bval c) && (bval c <=? 126)) v = true -> Forall blank o -> field_line (n, v) (n ++ ":"%char :: o ++ v).
Proof. intros. split; [now apply token_b|]. split; [now apply value_ok, visible_b|]. exists o, []. cbn [fst snd]. rewrite app_nil_r. auto. Qed.
Lemma size_b l n : parse_uint 16 USIZE_MAX l = Some n -> existsb (Ascii.eqb "+") l = false -> std_size l n.
Proof.
  intros H P. split; [apply parse_uint_spec in H as [H _]; auto; lia|]. intros I.
  enough (existsb (Ascii.eqb "+") l = true) by congruence. apply existsb_exists. exists "+"%char. auto.
Qed.
Lemma coded_names v : values_named (lit "transfer-encoding") [(lit "Transfer-Encoding", v)] [v] /\
  values_named (lit "content-length") [(lit "Transfer-Encoding", v)] [].
Proof.
  split; [apply vn_same; [now apply lower_same|constructor]|]. apply vn_other; [|constructor].
  intros H. apply lower_same in H. discriminate.
Qed.

Lemma no_space_std : std_request no_space GET (lit "/a") [(lit "host", lit "x")] [] [lit "host:x"] [] [].
Proof.
  exists (lit "HTTP/1.1"). split; [now left|]. split; [discriminate|]. split; [now apply visible_b|]. split.
  - constructor; [|constructor]. apply (field_b (lit "host") (lit "x") []); [discriminate|reflexivity|reflexivity|constructor].
  - split; [|reflexivity]. apply std_none; apply vn_other; try constructor; intros H; apply lower_same in H; discriminate.
Qed.
Lemma extended_std : std_request extended POST (lit "/a") [(lit "Transfer-Encoding", lit "chunked")] (lit "hi")
  [lit "Transfer-Encoding: chunked"] [lit ";q=1"; lit "sum: 7"]
  (lit "2;q=1" ++ crlf ++ lit "hi" ++ crlf ++ lit "0" ++ crlf ++ lit "sum: 7" ++ crlf ++ crlf).
Proof.
  exists (lit "HTTP/1.1"). split; [now left|]. split; [discriminate|]. split; [now apply visible_b|]. split.
  - constructor; [|constructor]. apply (field_b (lit "Transfer-Encoding") (lit "chunked") [SP]); [discriminate|reflexivity|reflexivity|repeat constructor].
  - split; [|reflexivity]. apply std_some. destruct (coded_names (lit "chunked")). eapply std_coded; eauto; [now apply lower_same|].
    apply (std_more (lit "2") 2 (lit ";q=1") (lit "hi") (lit "0" ++ crlf ++ lit "sum: 7" ++ crlf ++ crlf) [] [lit "sum: 7"]);
      [now apply size_b|lia| |reflexivity|].
    + right. exists (lit "q=1"). split; auto. eapply Forall_impl; [|apply visible_b; reflexivity]. intros; now right.
    + apply (std_last (lit "0") [] [(lit "sum", lit "7")] [lit "sum: 7"]); [now apply size_b|now left|]. constructor; [|constructor].
      apply (field_b (lit "sum") (lit "7") [SP]); [discriminate|reflexivity|reflexivity|repeat constructor].
Qed.
Lemma coded_std te : lower te = lit "chunked" -> forallb (fun c => (33 <=? bval c) && (bval c <=? 126)) te = true -> std_request
  (lit "POST /a HTTP/1.1" ++ crlf ++ (lit "Transfer-Encoding: " ++ te) ++ crlf ++ crlf ++ lit "2" ++ crlf ++ lit "hi" ++ crlf ++ lit "0" ++ crlf ++ crlf)
  POST (lit "/a") [(lit "Transfer-Encoding", te)] (lit "hi") [lit "Transfer-Encoding: " ++ te] []
  (lit "2" ++ crlf ++ lit "hi" ++ crlf ++ lit "0" ++ crlf ++ crlf).
Proof.
  intros L V. exists (lit "HTTP/1.1"). split; [now left|]. split; [discriminate|]. split; [now apply visible_b|]. split.
  - constructor; [|constructor]. apply (field_b (lit "Transfer-Encoding") te [SP]); [discriminate|reflexivity| |repeat constructor].
    exact V.
  - split; [|cbn [lines map List.concat]; now rewrite app_nil_r, <- !app_assoc]. apply std_some. destruct (coded_names te). eapply std_coded; eauto; [now apply lower_same|].
    apply (std_more (lit "2") 2 [] (lit "hi") (lit "0" ++ crlf ++ crlf) [] []); [now apply size_b|lia|now left|reflexivity|].
    apply (std_last (lit "0") [] [] []); [now apply size_b|now left|constructor].
Qed.

(** In two pieces. *)
Example two (w : bytes) : stream := [RData (firstn 5 w); RErr WouldBlock; RData (skipn 5 w)].
Example C108_case : forall dbg,
  (exists s', drive_request dbg (two no_space) = (PErr BadSyntax, s')) /\
  (exists e s', drive_request dbg (two extended) = (PErr e, s')) /\
  (exists r s', drive_request dbg (two spelling) = (PDone r, s') /\ rq_body r = [] /\ len (pending s') = 12) /\
  (exists r s', drive_request dbg (two plain) = (PDone r, s') /\ rq_body r = lit "hi" /\ pending s' = []).
Proof.
  intros dbg.
  assert (D : forall w, live_b (two w) = true -> pending (two w) = w -> cuts_b is_wb clean_b batch_request [] (two w) = true ->
    cuts_b is_intr (fun o => negb (in_data_b o)) batch_request [] (two w) = true -> always_in_limits_b batch_request w = true -> delivers batch_request false (two w) w).
  { intros w H1 H2 H3 H4 H5. split; [now apply live_eof_false, live_b_ok|]. split; auto. split; [now apply blocks_clean_b_ok|].
    split; [now apply no_intr_b_ok|]. now apply always_in_limits_b_ok. }
  split; [|split; [|split]].
  - eapply (C108_no_space_refuted dbg false _ no_space); [apply no_space_std| |rewrite app_nil_r; apply D; vm_compute; reflexivity].
    exists (lit "host:x"). split; [now left|]. intros (a & r & E).
    assert (I : In SP (lit "host:x")) by (rewrite E; apply in_or_app; right; right; now left). vm_compute in I. intuition discriminate.
  - eapply (C108_extras_refuted dbg false _ extended); [apply extended_std|vm_compute; discriminate|reflexivity| |discriminate|rewrite app_nil_r; apply D; vm_compute; reflexivity].
    intros te V. pose proof (values_named_det _ _ _ _ V (proj1 (coded_names (lit "chunked")))) as Q. now injection Q.
  - destruct (coded_names (lit "Chunked")) as [V2 V1].
    destruct (C108_spelling_refuted dbg false (two spelling) spelling POST (lit "/a") _ _ _ _ _ [] _ (coded_std (lit "Chunked") eq_refl eq_refl) eq_refl V1 V2) as (r & s' & E & _ & _ & Eb & _ & P & _).
    + discriminate.
    + rewrite app_nil_r. apply D; vm_compute; reflexivity.
    + exists r, s'. split; auto. split; auto. rewrite P. reflexivity.
  - destruct (coded_names (lit "chunked")) as [V2 V1].
    destruct (proj2 (C108_exactly dbg false (two plain) plain POST (lit "/a") _ _ _ _ _ [] (coded_std (lit "chunked") eq_refl eq_refl) ltac:(vm_compute; discriminate) ltac:(rewrite app_nil_r; apply D; vm_compute; reflexivity))) as (r & s' & E & P & _ & _ & Eb & _).
    + split; [reflexivity|]. split; [reflexivity|]. intros te V. pose proof (values_named_det _ _ _ _ V V2) as Q. now injection Q.
    + exists r, s'. auto.
Qed.

Example answer (te : bytes) : bytes :=
  lit "HTTP/1.1 200 OK" ++ crlf ++ (lit "Transfer-Encoding: " ++ te) ++ crlf ++ crlf ++ lit "2" ++ crlf ++ lit "hi" ++ crlf ++ lit "0" ++ crlf ++ crlf.
Lemma answer_std te : lower te = lit "chunked" -> forallb (fun c => (33 <=? bval c) && (bval c <=? 126)) te = true ->
  std_response (answer te) 200 [(lit "Transfer-Encoding", te)] (lit "hi") [lit "Transfer-Encoding: " ++ te] []
  (lit "2" ++ crlf ++ lit "hi" ++ crlf ++ lit "0" ++ crlf ++ crlf).
Proof.
  intros L V. exists (lit "HTTP/1.1"), (lit "200"), (lit "OK"). split; [now left|].
  split; [apply (proj1 (parse_uint_spec 10 USIZE_MAX (lit "200") 200 ltac:(lia))); reflexivity|].
  split; [vm_compute; intuition discriminate|]. split; [reflexivity|]. split; [vm_compute; auto 10|].
  split; [lia|]. split; [discriminate|]. split; [discriminate|].
  split; [eapply Forall_impl; [|apply visible_b; reflexivity]; intros; now right|]. split.
  - constructor; [|constructor]. apply (field_b (lit "Transfer-Encoding") te [SP]); [discriminate|reflexivity|exact V|repeat constructor].
  - split; [|unfold answer; cbn [lines map List.concat]; now rewrite app_nil_r, <- !app_assoc]. destruct (coded_names te). eapply std_coded; eauto; [now apply lower_same|].
    apply (std_more (lit "2") 2 [] (lit "hi") (lit "0" ++ crlf ++ crlf) [] []); [now apply size_b|lia|now left|reflexivity|].
    apply (std_last (lit "0") [] [] []); [now apply size_b|now left|constructor].
Qed.
Example C108_response_case : forall dbg,
  (exists r s', drive_response dbg (two (answer (lit "chunked"))) = (PDone r, s') /\ rs_body r = lit "hi" /\ pending s' = []) /\
  (exists st, drive_response dbg (two (answer (lit "CHUNKED"))) = (PIo st WouldBlock, [])).
Proof.
  intros dbg.
  assert (D : forall w, live_b (two w) = true -> pending (two w) = w -> cuts_b is_wb clean_b batch_response [] (two w) = true ->
    cuts_b is_intr (fun o => negb (in_data_b o)) batch_response [] (two w) = true -> always_in_limits_b batch_response w = true -> delivers batch_response false (two w) w).
  { intros w H1 H2 H3 H4 H5. split; [now apply live_eof_false, live_b_ok|]. split; auto. split; [now apply blocks_clean_b_ok|].
    split; [now apply no_intr_b_ok|]. now apply always_in_limits_b_ok. }
  split.
  - destruct (coded_names (lit "chunked")) as [V2 V1].
    destruct (proj2 (C108_response_exactly dbg false (two (answer (lit "chunked"))) (answer (lit "chunked")) 200 _ _ _ _ _ [] (answer_std (lit "chunked") eq_refl eq_refl) ltac:(vm_compute; discriminate) ltac:(rewrite app_nil_r; apply D; vm_compute; reflexivity))) as (r & s' & E & P & _ & Eb & _).
    + split; [reflexivity|]. split; [reflexivity|]. intros te V. pose proof (values_named_det _ _ _ _ V V2) as Q. now injection Q.
    + exists r, s'. auto.
  - destruct (coded_names (lit "CHUNKED")) as [V2 V1].
    apply (C108_response_spelling_refuted dbg false (two (answer (lit "CHUNKED"))) (answer (lit "CHUNKED")) 200 _ _ _ _ _ [] _ (answer_std (lit "CHUNKED") eq_refl eq_refl) eq_refl V1 V2).
    + discriminate.
    + rewrite app_nil_r. apply D; vm_compute; reflexivity.
Qed.
