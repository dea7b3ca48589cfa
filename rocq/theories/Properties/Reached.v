(** Limits, text and signals over all reachable parser states: C06, C07, C11, C12, C55, C56, for requests and responses. *)
From Coq Require Import List Ascii String NArith ZArith Bool Lia.
From Coq Require Import ZifyBool ZifyNat ZifyN.
From Verif.Model Require Import Bytes Io Common Parse.
From Verif.Spec Require Import Batch Stream Drive Numerals Names Grammar Unicode.
From Verif.Proofs Require Import BytesFacts IoFacts CommonFacts ParseFacts DriveFacts CallFacts GrammarFacts
  LimitFacts LimitGrammar ReachedFacts.
From Verif.Properties Require Import Syntax Limits Text.
Import ListNotations.
Local Open Scope N_scope.

(** ** C06 *)

(** The lines held by a line parser that was called any number of times, under any limits, on any streams. *)
Inductive line_reached (dbg : bool) : bytes -> Prop :=
| lr_new : line_reached dbg []
| lr_call p ls s p' k ls' s' : line_reached dbg p -> crlf_parse dbg p ls s = (PIo p' k, ls', s') -> line_reached dbg p'.

Lemma line_reached_inv dbg p : line_reached dbg p -> line_inv p.
Proof.
  induction 1 as [|p ls s p' k ls' s' _ IH E]; [apply line_inv_nil|].
  apply crlf_parse_spec in E as (w & _ & _ & Hl & Hw & H); auto. apply (line_inv_kept p w); auto.
  destruct H as [(_ & ->)|(_ & _ & Hu & ->)].
  - destruct (utf8 w) eqn:E; [left|right; left]; auto.
  - destruct (str_pop (p ++ w)) as [[q c]|] eqn:E; [|left; auto]. right. right. rewrite E. auto.
Qed.

(** Every line, of the head or of a chunk: at most 512 bytes are held, a line that is handed out has at most 510, and
    the subtraction that computes what may still be read never underflows. *)
Theorem C06_every_line : forall dbg p ls s r ls' s',
  line_reached dbg p -> crlf_parse dbg p ls s = (r, ls', s') ->
  match r with
  | PDone l => len l <= 510
  | PIo p' _ => len p' <= 512
  | PErr _ => True
  | PPanic => False
  end.
Proof.
  intros dbg p ls s r ls' s' H E. destruct r as [l|p' k|e|]; auto.
  - apply crlf_parse_spec in E as (w & _ & _ & Hl & _ & _ & Hc); [lia|]. now apply line_reached_inv in H.
  - apply (lr_call dbg p ls s p' k) in E; auto. apply line_reached_inv in E. apply E.
  - apply crlf_parse_spec in E as (w & _ & _ & _ & []). now apply line_reached_inv in H.
Qed.

Theorem C06_accepted_lines_response : forall dbg st s r s',
  reached (resp_parse dbg) resp_new st -> resp_parse dbg st s = (PDone r, s') ->
  (exists l, status_line (st_code (rs_status r)) l /\ len l <= 510) /\
  (forall k vs v, hm_get k (rs_headers r) = Some vs -> In v vs -> len (header_str k) + 2 + len v <= 510).
Proof.
  intros dbg st s r s' H E. apply (resp_reached_call _ _ _ _ _ H) in E as ((l & H1 & H2) & H3 & _).
  split.
  - exists l. split; auto. apply parse_status_line_iff. eauto.
  - intros k vs v Hg Hv. apply hm_get_in in Hg. unfold hm_ok in H3. rewrite Forall_forall in H3.
    specialize (H3 _ Hg). rewrite Forall_forall in H3. exact (H3 _ Hv).
Qed.

(** A line in two pieces; and one that reaches the limit. *)
Example C06_line_case :
  crlf_parse true [] [] [RData (lit "ab"); RErr WouldBlock; RData (lit "c" ++ crlf)] = (PIo (lit "ab") WouldBlock, [], [RData (lit "c" ++ crlf)]) /\
  crlf_parse true (lit "ab") [] [RData (lit "c" ++ crlf)] = (PDone (lit "abc"), [], []) /\
  crlf_parse true [] [] [RData (repeat "a"%char 513)] = (PIo (repeat "a"%char 512) LimitReached, [], [RData (lit "a")]).
Proof. vm_compute. auto. Qed.
Example C06_response_case : exists r,
  resp_parse true resp_new [RData (lit "HTTP/1.1 200 OK" ++ crlf ++ lit "content-length: 0" ++ crlf ++ crlf)] = (PDone r, []) /\
  st_code (rs_status r) = 200 /\ get_first_header_value (rs_headers r) CONTENT_LENGTH = Some (lit "0").
Proof. eexists. split; [vm_compute; reflexivity|]. split; reflexivity. Qed.

(** ** C07 *)

(** Neither a limit nor a panic. *)
Definition not_for_size {T St} (res : pres T St * stream) : Prop :=
  match res with (PIo _ LimitReached, _) | (PPanic, _) => False | _ => True end.

Lemma matches_not_for_size {T St} eof (o : outcome T) (res : pres T St * stream) : matches eof o res -> not_for_size res.
Proof.
  destruct o as [v rest|p|v n|e]; cbn [matches].
  - intros (s' & -> & _). exact Logic.I.
  - destruct eof; [|intros (st & ->); exact Logic.I].
    destruct (utf8 (line_of p)); [intros (st & ->)|intros ->]; exact Logic.I.
  - destruct eof; [intros ->|intros (st & ->)]; exact Logic.I.
  - intros (s' & ->). exact Logic.I.
Qed.

(** Any delivery of (a part of) a small message with an ASCII head, followed by anything, with blocks and signals
    anywhere: no limit is reported and nothing panics. *)
Theorem C07_never_for_size : forall dbg w m u ps body eof s x y,
  small_request w m u ps body -> head_ascii w ps ->
  live_eof eof s -> w ++ y = pending s ++ x -> not_for_size (drive_request dbg s).
Proof.
  intros dbg w m u ps body eof s x y H A L E.
  assert (P : forall b z, pending s = b ++ z -> good (head_ascii w ps) (batch_request b)).
  { intros b z Hb. apply (request_prefixes w m u ps body y b (z ++ x)); auto. now rewrite app_assoc, <- Hb. }
  destruct (drive_request_signals dbg eof s L) as [M|(st & s1 & s2 & -> & _)].
  - intros s1 s2 ->. rewrite DriveFacts.pending_app in P. apply (P _ _ eq_refl); auto.
  - intros b z Hb. now apply (P b z).
  - eapply matches_not_for_size; eauto.
  - exact Logic.I.
Qed.

Theorem C07_never_for_size_response : forall dbg w c ps body eof s x y,
  small_response w c ps body -> head_ascii w ps ->
  live_eof eof s -> w ++ y = pending s ++ x -> not_for_size (drive_response dbg s).
Proof.
  intros dbg w c ps body eof s x y H A L E.
  assert (P : forall b z, pending s = b ++ z -> good (head_ascii w ps) (batch_response b)).
  { intros b z Hb. apply (response_prefixes w c ps body y b (z ++ x)); auto. now rewrite app_assoc, <- Hb. }
  destruct (drive_response_signals dbg eof s L) as [M|(st & s1 & s2 & -> & _)].
  - intros s1 s2 ->. rewrite DriveFacts.pending_app in P. apply (P _ _ eq_refl); auto.
  - intros b z Hb. now apply (P b z).
  - eapply matches_not_for_size; eauto.
  - exact Logic.I.
Qed.

(** The message of C04 cut in its body by a signal: what surfaces is the signal. *)
Example C07_signal_case : exists st s',
  drive_request true (RData (lit "POST /a/b HTTP/1.0" ++ crlf) :: RErr Interrupted ::
    RData (header_lines C04_pairs ++ crlf ++ lit "hel") :: RErr Interrupted :: RData (lit "lo") :: []) = (PIo st Interrupted, s').
Proof. eexists _, _. vm_compute. reflexivity. Qed.

(** ** C11 *)

Theorem C11_maximum_never_received_response : forall dbg st s r s',
  reached (resp_parse dbg) resp_new st -> resp_parse dbg st s = (PDone r, s') ->
  forall v, get_first_header_value (rs_headers r) CONTENT_LENGTH = Some v -> ~ denotes 10 v 3145728.
Proof.
  intros dbg st s r s' H E v Hv Hd. apply (resp_reached_call _ _ _ _ _ H) in E as (_ & _ & E).
  unfold body_size_done, framing_of in E. rewrite Hv in E.
  assert (parse_uint 10 USIZE_MAX v = Some 3145728) as Hp
    by (apply parse_uint_spec; [lia|]; split; auto; unfold USIZE_MAX; lia).
  rewrite Hp in E. cbn in E. lia.
Qed.

(** ** C12 *)

(** Worse than a loss that is noticed: a correct request, received whole, is returned as another request, because of where
    the blocks fell.  Here the header named "[C3 A9]host" becomes the header "host". *)
Definition other_request : stream :=
  [RData (lit "GET / HTTP/1.1" ++ crlf ++ ["195"%char]); RErr WouldBlock; RData ["169"%char]; RErr WouldBlock;
   RData (lit "host: evil" ++ crlf ++ crlf)].
Theorem C12_same_bytes_same_request_refuted :
  live other_request /\
  (exists r, batch_request (pending other_request) = Complete r [] /\
     drive_request true [RData (pending other_request)] = (PDone r, []) /\ hm_get (header_from (lit "host")) (rq_headers r) = None) /\
  (exists r, drive_request true other_request = (PDone r, []) /\
     hm_get (header_from (lit "host")) (rq_headers r) = Some [lit "evil"]).
Proof.
  split; [repeat constructor; vm_compute; intuition congruence|]. split.
  - eexists. split; [vm_compute; reflexivity|]. split; vm_compute; reflexivity.
  - eexists. split; vm_compute; reflexivity.
Qed.

(** ** C55 *)

(** Whatever was received before, in however many calls: when a signal surfaces, the parser is inside the bytes of a
    sized body or of a chunk. *)
Theorem C55_only_in_body : forall dbg st s st' s',
  reached (req_parse dbg) req_new st -> req_parse dbg st s = (PIo st' Interrupted, s') -> in_bytes st'.
Proof. exact req_interrupted. Qed.
Theorem C55_only_in_body_response : forall dbg st s st' s',
  reached (resp_parse dbg) resp_new st -> resp_parse dbg st s = (PIo st' Interrupted, s') -> in_bytes st'.
Proof. exact resp_interrupted. Qed.

(** And driven over a whole stream: the outcome is that of the bytes, or a signal inside body bytes surfaced. *)
Theorem C55_otherwise_harmless : forall dbg eof s,
  live_eof eof s -> blocks_in_clean_lines batch_request s -> always_in_limits batch_request (pending s) ->
  matches eof (batch_request (pending s)) (drive_request dbg s) \/
  exists st s1 s2, drive_request dbg s = (PIo st Interrupted, s2) /\ s = s1 ++ RErr Interrupted :: s2 /\
    in_data (batch_request (pending s1)).
Proof. exact drive_request_signals. Qed.
Theorem C55_otherwise_harmless_response : forall dbg eof s,
  live_eof eof s -> blocks_in_clean_lines batch_response s -> always_in_limits batch_response (pending s) ->
  matches eof (batch_response (pending s)) (drive_response dbg s) \/
  exists st s1 s2, drive_response dbg s = (PIo st Interrupted, s2) /\ s = s1 ++ RErr Interrupted :: s2 /\
    in_data (batch_response (pending s1)).
Proof. exact drive_response_signals. Qed.

Definition C55_resumed : req_st := MHeaders (POST, lit "/") (mk_hdr (lit "ho") [] 0).
Example C55_resumed_case : exists st st' s',
  reached (req_parse true) req_new st /\ in_bytes st' /\
  req_parse true st [RErr Interrupted; RData (lit "st: a" ++ crlf ++ lit "content-length: 2" ++ crlf ++ crlf ++ lit "a");
                     RErr Interrupted; RData (lit "b")] = (PIo st' Interrupted, s').
Proof.
  exists C55_resumed. do 2 eexists. split; [|split; [|vm_compute; reflexivity]].
  - apply (reached_call _ _ req_new [RData (lit "POST / HTTP/1.1" ++ crlf ++ lit "ho"); RErr WouldBlock] C55_resumed WouldBlock []);
      [apply reached_new|]. vm_compute. reflexivity.
  - exact Logic.I.
Qed.

(** ** C56 *)

Lemma hm_text_unicode hm name vs : hm_text hm -> hm_get (header_from name) hm = Some vs -> Forall unicode vs.
Proof.
  intros H G. apply hm_get_in in G. unfold hm_text in H. rewrite Forall_forall in H. specialize (H _ G). cbn [fst snd] in H.
  eapply Forall_impl; [|exact H]. intros v (n & Hu & _). apply C56_text_is_unicode.
  apply utf8_parts in Hu as [_ Hu]; [|reflexivity]. apply (utf8_parts [] SP v) in Hu as [_ Hu]; [exact Hu|reflexivity].
Qed.

(** All text of an accepted message is Unicode, whatever the delivery. *)
Theorem C56_accepted_is_unicode_resumed : forall dbg st s r s',
  reached (req_parse dbg) req_new st -> req_parse dbg st s = (PDone r, s') ->
  unicode (rq_uri r) /\
  forall name vs, hm_get (header_from name) (rq_headers r) = Some vs -> Forall unicode vs.
Proof.
  intros dbg st s r s' H E. apply (req_done_text _ _ _ _ _ H) in E as [(l & Hl & Hp) Hh].
  split; [|intros name vs; now apply hm_text_unicode].
  apply C56_text_is_unicode. apply parse_request_line_iff in Hp as (v & _ & W). cbn [words] in W.
  destruct W as (_ & l' & -> & _ & l'' & -> & _).
  apply utf8_parts in Hl as [_ Hl]; [|reflexivity]. apply utf8_parts in Hl as [Hl _]; [exact Hl|reflexivity].
Qed.
Theorem C56_accepted_response_is_unicode : forall dbg st s r s',
  reached (resp_parse dbg) resp_new st -> resp_parse dbg st s = (PDone r, s') ->
  forall name vs, hm_get (header_from name) (rs_headers r) = Some vs -> Forall unicode vs.
Proof.
  intros dbg st s r s' H E. apply (resp_done_text _ _ _ _ _ H) in E as [_ Hh].
  intros name vs. now apply hm_text_unicode.
Qed.

(** An accepted header with characters of two, three and four bytes. *)
Example C56_response_case : exists r,
  resp_parse true resp_new [RData (lit "HTTP/1.1 200 OK" ++ crlf ++ lit "content-length: 0" ++ crlf ++ lit "x: " ++
    b_ [195; 169; 226; 130; 172; 240; 159; 152; 128] ++ crlf ++ crlf)] = (PDone r, []) /\
  hm_get (header_from (lit "X")) (rs_headers r) = Some [b_ [195; 169; 226; 130; 172; 240; 159; 152; 128]].
Proof. eexists. split; vm_compute; reflexivity. Qed.

Print Assumptions C06_every_line.
Print Assumptions C06_accepted_lines_response.
Print Assumptions C07_never_for_size.
Print Assumptions C07_never_for_size_response.
Print Assumptions C11_maximum_never_received_response.
Print Assumptions C12_same_bytes_same_request_refuted.
Print Assumptions C55_only_in_body.
Print Assumptions C55_only_in_body_response.
Print Assumptions C55_otherwise_harmless.
Print Assumptions C55_otherwise_harmless_response.
Print Assumptions C56_accepted_is_unicode_resumed.
Print Assumptions C56_accepted_response_is_unicode.
