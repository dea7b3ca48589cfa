(** C06, C08, C09, C10, C11, C12, C54, C55: size limits, panics, lost bytes. *)
From Coq Require Import List Ascii String NArith ZArith Bool Lia.
From Coq Require Import ZifyBool ZifyNat ZifyN.
From Verif.Model Require Import Bytes Io Common Parse.
From Verif.Spec Require Import Batch Stream Drive Numerals Names Grammar.
From Verif.Proofs Require Import BytesFacts IoFacts CommonFacts ParseFacts DriveFacts CallFacts
  GrammarFacts LimitGrammar BatchFacts LimitFacts Checks.
Import ListNotations.
Local Open Scope N_scope.

(** ** C06 *)

(** The bytes of the unfinished line a suspended parser holds. *)
Definition held_line {T} (st : msg_st T) : bytes :=
  match st with
  | MFirst p => p
  | MHeaders _ h => h_line h
  | MBody _ _ (BChunked c) => match c_state c with CSize p | CTail p _ => p | _ => [] end
  | _ => []
  end.

Lemma held_line_inv {T} g (st : msg_st T) : msg_inv g st -> len (held_line st) <= 512.
Proof.
  destruct st as [p|t h|t hm [d|d|c|]|]; cbn [msg_inv body_inv held_line]; try (intros; cbn; lia).
  - intros (_ & _ & H). exact H.
  - intros [(_ & _ & H) _]. exact H.
  - intros [[H _] _]. destruct (c_state c) as [p|d|p last|]; cbn [chunk_state_inv] in H; try (cbn; lia); apply H.
Qed.

(** Whatever the reads were, no more than 512 bytes of an unfinished line are held. *)
Theorem C06_held_line : forall dbg st,
  reached (req_parse dbg) req_new st -> len (held_line st) <= 512.
Proof. intros dbg st H. apply req_reached_size in H as [[g H] _]. eapply held_line_inv; eauto. Qed.

Theorem C06_held_line_response : forall dbg st,
  reached (resp_parse dbg) resp_new st -> len (held_line st) <= 512.
Proof. intros dbg st H. apply resp_reached_size in H as [[g H] _]. eapply held_line_inv; eauto. Qed.

(** Whatever the reads were, an accepted request came from lines of at most 510 bytes before their
    CRLF: its first line, and each of its headers written as a line. *)
Theorem C06_accepted_lines : forall dbg st s r s',
  reached (req_parse dbg) req_new st -> req_parse dbg st s = (PDone r, s') ->
  (exists l, request_line (rq_method r) (rq_uri r) l /\ len l <= 510) /\
  (forall k vs v, hm_get k (rq_headers r) = Some vs -> In v vs -> len (header_str k) + 2 + len v <= 510).
Proof.
  intros dbg st s r s' H E. apply (req_reached_call _ _ _ _ _ H) in E as ((l & H1 & H2) & H3 & _).
  split.
  - exists l. split; auto. now apply parse_request_line_iff.
  - intros k vs v Hg Hv. apply hm_get_in in Hg. unfold hm_ok in H3. rewrite Forall_forall in H3.
    specialize (H3 _ Hg). rewrite Forall_forall in H3. exact (H3 _ Hv).
Qed.

(** One byte more is refused, and the limit is exact. *)
Definition long_uri (n : nat) : bytes := repeat "a"%char n.
Definition get_line (n : nat) : bytes := lit "GET " ++ long_uri n ++ lit " HTTP/1.1".
Example C06_exact :
  len (get_line 497) = 510 /\
  (exists r s', req_parse true req_new [RData (get_line 497 ++ crlf ++ crlf)] = (PDone r, s')) /\
  (exists st s', req_parse true req_new [RData (get_line 498 ++ crlf ++ crlf)] = (PIo st LimitReached, s')).
Proof. split; [reflexivity|]. split; eexists _, _; vm_compute; reflexivity. Qed.

(** ** C08 *)

(** A head that is read in one call has a header block of at most 4096 bytes. *)
Theorem C08_one_call : forall dbg s r s',
  req_parse dbg req_new s = (PDone r, s') ->
  exists l ps wire, pending s = l ++ crlf ++ header_lines ps ++ crlf ++ wire ++ pending s' /\
    request_line (rq_method r) (rq_uri r) l /\ headers_are (rq_headers r) ps /\
    len (header_lines ps ++ crlf) <= 4096.
Proof.
  intros dbg s r s' E. unfold req_parse in E.
  destruct (msg_parse parse_request_line dbg false req_new [] s) as [[r1 ls1] s1] eqn:Em.
  destruct r1 as [[[[m u] hm] body]|st1 k1|e|]; inversion E; subst; clear E. pose proof Em as Em0.
  apply msg_fresh_done in Em as (l & wl & sa & wh & sb & bs & T1 & H1 & Hp & T2 & H2 & Hlen & Hb & Eb).
  pose proof (framing_body_new hm false) as F. rewrite Hb in F. destruct F as [F _].
  destruct (body_parse_spec _ _ _ _ _ _ _ 0 F Eb) as (wb & _ & _ & Hok).
  assert (exists w, pending sb = w ++ pending s') as (w & Hw).
  { destruct Hok as [[T3 _]|[T3 _]]; apply takes_pending in T3; eauto. }
  apply takes_pending in T1, T2.
  specialize (H1 []). rewrite app_nil_r in H1. apply cut_line_inv in H1 as [-> Ht].
  specialize (H2 []). rewrite app_nil_r in H2. apply batch_headers_sound in H2 as (ps & Hps & -> & ->).
  exists l, ps, w. rewrite T1, T2, Hw. split; [rewrite ?app_nil_r, <- ?app_assoc; reflexivity|].
  split; [now apply parse_request_line_iff|]. split; [apply headers_are_pairs|].
  rewrite !app_nil_r in Hlen. exact Hlen.
Qed.

(** With blocks between the lines, larger blocks are accepted: 4102 bytes in a debug build, where
    10 CRLFs are not counted; in a release build the budget wraps around and the limit disappears. *)
Definition drip (lines : list bytes) : stream :=
  flat_map (fun l => [RData (l ++ crlf); RErr WouldBlock]) lines.
Definition long_header (n : nat) : bytes := lit "a: " ++ repeat "b"%char n.
Definition dripped_head : stream :=
  RData (lit "GET / HTTP/1.1" ++ crlf) :: drip (repeat (long_header 405) 10) ++ [RData crlf].
Theorem C08_any_delivery_refuted :
  (exists r, drive_request true dripped_head = (PDone r, [])) /\
  4096 < len (header_lines (repeat (lit "a", repeat "b"%char 405) 10) ++ crlf) /\
  pending dripped_head = lit "GET / HTTP/1.1" ++ crlf ++ header_lines (repeat (lit "a", repeat "b"%char 405) 10) ++ crlf.
Proof. split; [eexists; vm_compute; reflexivity|split; vm_compute; reflexivity]. Qed.

(** A line in two pieces takes the count beyond 4096; then 3 more lines follow. *)
Definition overrun (more : list bytes) : stream :=
  RData (lit "GET / HTTP/1.1" ++ crlf) :: drip (repeat (long_header 507) 8) ++
  [RData (lit "a: bbbbbbb"); RErr WouldBlock; RData (lit "bbbbbbbbbb" ++ crlf); RErr WouldBlock] ++
  drip more ++ [RData crlf].
Theorem C08_release_unlimited_refuted :
  (exists r, drive_request false (overrun (repeat (long_header 507) 8)) = (PDone r, [])) /\
  8192 < len (pending (overrun (repeat (long_header 507) 8))).
Proof. split; [eexists; vm_compute; reflexivity|vm_compute; reflexivity]. Qed.

(** ** C09 *)

(** The states in which the budget is overdrawn: more than 4096 bytes of complete header lines, or
    more than 3145728 bytes of complete chunks. *)
Definition overdrawn {T} (st : msg_st T) : Prop :=
  match st with
  | MHeaders _ h => 4096 < h_read h
  | MBody _ _ (BChunked c) => 3145728 < len (c_body c)
  | _ => False
  end.

(** A call panics exactly in those states, in debug builds. *)
Theorem C09_panic_exactly : forall dbg st s,
  reached (req_parse dbg) req_new st ->
  (fst (req_parse dbg st s) = PPanic <-> dbg = true /\ overdrawn st).
Proof.
  intros dbg st s H. split.
  - intros E. destruct (req_parse dbg st s) as [r s'] eqn:Er. cbn [fst] in E. subst.
    apply (req_reached_call _ _ _ _ _ H) in Er as [Hd Ho]. split; [exact Hd|].
    destruct st as [p|t h|t hm [d|d|c|]|]; exact Ho.
  - intros [-> Ho]. unfold req_parse.
    destruct (over_panics parse_request_line false st [] s) as [ls' ->]; [|reflexivity].
    destruct st as [p|t h|t hm [d|d|c|]|]; exact Ho.
Qed.

Theorem C09_panic_exactly_response : forall dbg st s,
  reached (resp_parse dbg) resp_new st ->
  (fst (resp_parse dbg st s) = PPanic <-> dbg = true /\ overdrawn st).
Proof.
  intros dbg st s H. split.
  - intros E. destruct (resp_parse dbg st s) as [r s'] eqn:Er. cbn [fst] in E. subst.
    apply (resp_reached_call _ _ _ _ _ H) in Er as [Hd Ho]. split; [exact Hd|].
    destruct st as [p|t h|t hm [d|d|c|]|]; exact Ho.
  - intros [-> Ho]. unfold resp_parse.
    destruct (over_panics parse_status_line true st [] s) as [ls' ->]; [|reflexivity].
    destruct st as [p|t h|t hm [d|d|c|]|]; exact Ho.
Qed.

(** So a message read in one call never panics ... *)
Theorem C09_fresh_call : forall dbg s,
  fst (req_parse dbg req_new s) <> PPanic /\ fst (resp_parse dbg resp_new s) <> PPanic.
Proof.
  intros dbg s. split; intros H.
  - apply C09_panic_exactly in H as [_ []]. constructor.
  - apply C09_panic_exactly_response in H as [_ []]. constructor.
Qed.

(** ... nor does one that respects the limits, in any pieces. *)
Theorem C09_in_limits : forall dbg eof s,
  live_eof eof s -> blocks_in_clean_lines batch_request s -> no_interrupt_in_data batch_request s ->
  always_in_limits batch_request (pending s) -> fst (drive_request dbg s) <> PPanic.
Proof.
  intros dbg eof s L B I Lim E. pose proof (drive_request_spec dbg eof s L B I Lim) as M.
  destruct (drive_request dbg s) as [r s']. cbn [fst] in E. subst r.
  destruct (batch_request (pending s)) as [v rest|p|v n|e]; cbn [matches] in M.
  - destruct M as (? & M & _). discriminate.
  - destruct eof; [destruct (utf8 (line_of p))|]; [destruct M as (? & M)| |destruct M as (? & M)]; discriminate.
  - destruct eof; [|destruct M as (? & M)]; discriminate.
  - destruct M as (? & M). discriminate.
Qed.

(** A request of 4.1 kB in pieces does panic. *)
Theorem C09_never_panics_refuted :
  live (overrun []) /\ len (pending (overrun [])) < 4200 /\ fst (drive_request true (overrun [])) = PPanic.
Proof.
  split; [repeat constructor; vm_compute; intuition congruence|]. split; vm_compute; reflexivity.
Qed.

(** ** C10 *)

(** Bodies of requests: at most 3145727 bytes if sized, empty if neither sized nor chunked, and at
    most 6291456 bytes if chunked in a debug build. *)
Theorem C10_request_body : forall dbg st s r s',
  reached (req_parse dbg) req_new st -> req_parse dbg st s = (PDone r, s') ->
  len (rq_body r) < 3145728 \/
  (get_first_header_value (rq_headers r) CONTENT_LENGTH = None /\
   (exists v a b, get_first_header_value (rq_headers r) TRANSFER_ENCODING = Some v /\ v = a ++ lit "chunked" ++ b) /\
   (dbg = true -> len (rq_body r) <= 6291456)).
Proof.
  intros dbg st s r s' H E. apply (req_reached_call _ _ _ _ _ H) in E as (_ & _ & E).
  unfold body_size_done, framing_of in E.
  destruct (get_first_header_value (rq_headers r) CONTENT_LENGTH) as [v|].
  - destruct (parse_uint 10 USIZE_MAX v); [|contradiction]. destruct (n <=? MAX_BODY_SIZE); [|contradiction].
    left. lia.
  - destruct (get_first_header_value (rq_headers r) TRANSFER_ENCODING) as [v|]; [destruct (contains (lit "chunked") v) eqn:Ec|].
    + apply contains_iff in Ec as (a & b & Ec). right. eauto 10.
    + rewrite E. left. reflexivity.
    + rewrite E. left. reflexivity.
Qed.

Theorem C10_response_body : forall dbg st s r s',
  reached (resp_parse dbg) resp_new st -> resp_parse dbg st s = (PDone r, s') ->
  len (rs_body r) <= 3145728 \/
  (get_first_header_value (rs_headers r) CONTENT_LENGTH = None /\
   (exists v a b, get_first_header_value (rs_headers r) TRANSFER_ENCODING = Some v /\ v = a ++ lit "chunked" ++ b) /\
   (dbg = true -> len (rs_body r) <= 6291456)).
Proof.
  intros dbg st s r s' H E. apply (resp_reached_call _ _ _ _ _ H) in E as (_ & _ & E).
  unfold body_size_done, framing_of in E.
  destruct (get_first_header_value (rs_headers r) CONTENT_LENGTH) as [v|].
  - destruct (parse_uint 10 USIZE_MAX v); [|contradiction]. destruct (n <=? MAX_BODY_SIZE); [|contradiction].
    left. lia.
  - destruct (get_first_header_value (rs_headers r) TRANSFER_ENCODING) as [v|]; [destruct (contains (lit "chunked") v) eqn:Ec|]; auto.
    apply contains_iff in Ec as (a & b & Ec). right. eauto 10.
Qed.

(** A message read in one call has a body of at most 3145728 bytes, chunked or not. *)
Lemma msg_fresh_body {T} (pf : bytes -> perr + T) dbg flag s t hm body ls' s' :
  msg_parse pf dbg flag (MFirst []) [] s = (PDone (t, hm, body), ls', s') ->
  len body <= 3145728 /\ (forall n, framing_of hm flag = inr (FSized n) -> n = 0 \/ 2 * n <= 3145728).
Proof.
  intros E. apply msg_fresh_done in E as (l & wl & sa & wh & sb & bs & _ & _ & _ & _ & _ & _ & Hb & Eb).
  eapply body_parse_fresh; eauto.
Qed.
Theorem C10_one_call : forall dbg s,
  (forall r s', req_parse dbg req_new s = (PDone r, s') -> len (rq_body r) <= 3145728) /\
  (forall r s', resp_parse dbg resp_new s = (PDone r, s') -> len (rs_body r) <= 3145728).
Proof.
  intros dbg s. split; intros r s' E.
  - unfold req_parse in E. destruct (msg_parse parse_request_line dbg false req_new [] s) as [[r1 ls1] s1] eqn:Em.
    destruct r1 as [[[[m u] hm] body]|st1 k1|e|]; inversion E; subst. now apply msg_fresh_body in Em as [Em _].
  - unfold resp_parse in E. destruct (msg_parse parse_status_line dbg true resp_new [] s) as [[r1 ls1] s1] eqn:Em.
    destruct r1 as [[[t hm] body]|st1 k1|e|]; inversion E; subst. now apply msg_fresh_body in Em as [Em _].
Qed.

(** A chunked body that arrives with a block inside a chunk may be larger. *)
Definition chunked_head : bytes :=
  lit "POST / HTTP/1.1" ++ crlf ++ lit "transfer-encoding: chunked" ++ crlf ++ crlf.
Definition big_chunked (d : bytes) : stream :=
  [RData (chunked_head ++ lit "300000" ++ crlf); RErr WouldBlock; RData d; RErr WouldBlock;
   RData (lit "x" ++ crlf ++ lit "1" ++ crlf ++ lit "y" ++ crlf ++ lit "0" ++ crlf ++ crlf)].

Definition chunk_wait (d : bytes) : msg_st (method * bytes) :=
  MBody (POST, lit "/") [(TRANSFER_ENCODING, [lit "chunked"])]
    (BChunked (mk_chunks [] (CData (mk_bytes 3145728 d)))).

Lemma big_call1 dbg c d s :
  req_parse dbg req_new (RData (chunked_head ++ lit "300000" ++ crlf) :: RErr WouldBlock :: RData (c :: d) :: s) =
  (PIo (chunk_wait []) WouldBlock, RData (c :: d) :: s).
Proof. destruct dbg; vm_compute; reflexivity. Qed.

Lemma firstn_all_len (d : bytes) : firstn (N.to_nat (len d)) d = d.
Proof. pose proof (firstn_len_app d []) as H. rewrite app_nil_r in H. exact H. Qed.
Lemma skipn_all_len (d : bytes) : skipn (N.to_nat (len d)) d = [].
Proof. pose proof (skipn_len_app d []) as H. rewrite app_nil_r in H. exact H. Qed.

Lemma read_whole n l d e s : d <> [] -> len d <= n -> len d < l ->
  read_lim n [l] (RData d :: e :: s) = (inr d, [l - len d], e :: s).
Proof.
  intros Hd Hn Hl. cbn [read_lim]. replace (l =? 0) with false by lia. cbn [read_lim].
  destruct d as [|c d]; [congruence|]. cbn [read_some fill].
  replace (N.min (N.min n l) (len (c :: d))) with (len (c :: d)) by lia.
  rewrite firstn_all_len. unfold consume. pose proof (len_pos (c :: d) ltac:(discriminate)).
  replace (len (c :: d) =? 0) with false by lia. rewrite skipn_all_len. reflexivity.
Qed.

Lemma bytes_loop_block f size l d k s : d <> [] -> len d < size -> len d < l ->
  bytes_loop (S (S f)) size [] [l] (RData d :: RErr k :: s) = (PIo (mk_bytes size d) k, [l - len d], s).
Proof.
  intros Hd Hs Hl. cbn [bytes_loop]. change (len (@nil byte)) with 0. replace (0 <? size) with true by lia.
  rewrite N.sub_0_r, read_whole by (auto; lia). destruct d as [|c d]; [congruence|]. cbn [app].
  replace (len (c :: d) <? size) with true by lia. cbn [read_lim read_some fill]. replace (l - len (c :: d) =? 0) with false by lia.
  reflexivity.
Qed.

Lemma big_call2 dbg d s : d <> [] -> len d < 3145728 ->
  req_parse dbg (chunk_wait []) (RData d :: RErr WouldBlock :: s) = (PIo (chunk_wait d) WouldBlock, s).
Proof.
  intros Hd Hl. unfold req_parse, msg_parse, chunk_wait. cbn [msg_loop]. unfold body_state, body_parse.
  match goal with |- context [usub dbg MAX_BODY_SIZE ?x] =>
    change (usub dbg MAX_BODY_SIZE x) with (Some 3145728) end.
  unfold with_limit, chunks_parse.
  replace (3 * mu (RData d :: RErr WouldBlock :: s) + 4)%nat with (S (3 * mu (RData d :: RErr WouldBlock :: s) + 3)) by lia.
  cbn [c_body c_state chunks_loop]. unfold data_state, bytes_deframe. cbn [bd_size bd_got].
  cbn [mu]. change (S (S (List.length d) + S (mu s))) with (S (S (List.length d + S (mu s)))).
  rewrite bytes_loop_block by (auto; lia). reflexivity.
Qed.

Lemma big_call3 dbg d s : len d = 3145727 ->
  req_parse dbg (chunk_wait d) (RData (lit "x" ++ crlf ++ lit "1" ++ crlf ++ lit "y" ++ crlf ++ lit "0" ++ crlf ++ crlf) :: s) =
  (PDone (mk_request POST (lit "/") [(TRANSFER_ENCODING, [lit "chunked"])] (((d ++ lit "x") ++ lit "y") ++ [])), s).
Proof.
  intros Hl. unfold req_parse, msg_parse, chunk_wait. cbn [msg_loop]. unfold body_state, body_parse.
  match goal with |- context [usub dbg MAX_BODY_SIZE ?x] =>
    change (usub dbg MAX_BODY_SIZE x) with (Some 3145728) end.
  unfold with_limit, chunks_parse.
  cbn [c_body c_state]. 
  set (s0 := RData _ :: s).
  replace (3 * mu s0 + 4)%nat with (S (3 * mu s0 + 3)) by lia.
  cbn [chunks_loop]. unfold data_state at 1. unfold bytes_deframe at 1. cbn [bd_size bd_got].
  assert (B : bytes_loop (S (mu s0)) 3145728 d [3145728] s0 =
    (PDone (d ++ lit "x"), [3145727], RData (crlf ++ lit "1" ++ crlf ++ lit "y" ++ crlf ++ lit "0" ++ crlf ++ crlf) :: s)).
  { cbn [bytes_loop]. rewrite Hl. change (3145727 <? 3145728) with true. cbn iota.
    change (read_lim (3145728 - 3145727) [3145728] s0) with
      ((@inr ekind bytes (lit "x")), [3145727],
         RData (crlf ++ lit "1" ++ crlf ++ lit "y" ++ crlf ++ lit "0" ++ crlf ++ crlf) :: s).
    change (lit "x") with ["x"%char]. cbn iota beta.
    destruct (mu s0); cbn [bytes_loop]; rewrite len_app, Hl; change (3145727 + len ["x"%char] <? 3145728) with false; reflexivity. }
  rewrite B. cbn [app].
  assert (exists c b, d ++ lit "x" = c :: b) as (c & b & ->)
    by (destruct d; [discriminate Hl|eexists _, _; reflexivity]).
  subst s0. clear. destruct dbg; vm_compute; reflexivity.
Qed.

Theorem C10_chunked_unlimited_refuted : forall dbg, exists s r,
  live s /\ drive_request dbg s = (PDone r, []) /\ len (rq_body r) = 3145729.
Proof.
  intros dbg. assert (exists d : bytes, len d = 3145727) as (d & Hd).
  { generalize 3145727. intros n. exists (repeat "a"%char (N.to_nat n)). unfold len. rewrite repeat_length. lia. }
  assert (d <> []) as Hn by (intros ->; discriminate Hd).
  exists (big_chunked d). eexists. split; [|split].
  - repeat constructor; auto; discriminate.
  - unfold drive_request, drive, big_chunked. cbn [List.length]. cbn [drive_f].
    destruct d as [|c d]; [congruence|]. rewrite big_call1. cbn iota.
    rewrite big_call2 by (auto; lia). cbn iota. rewrite big_call3 by assumption. reflexivity.
  - cbn [rq_body]. rewrite !len_app, Hd. reflexivity.
Qed.

(** ** C11 *)

(** A request with a content-length n that arrives without a block is refused if 2n > 3145728,
    although content-lengths up to 3145728 are not refused by the header check. *)
Theorem C11_too_large_in_one_call : forall dbg l m u ps v vs n body rest s,
  text l -> request_line m u l -> Forall header_ok ps ->
  values_named (lit "content-length") ps (v :: vs) -> denotes 10 v n ->
  n <= 3145728 -> 3145728 < 2 * n -> len body = n ->
  flowing s -> pending s = l ++ crlf ++ header_lines ps ++ crlf ++ body ++ rest ->
  exists st s', req_parse dbg req_new s = (PIo st LimitReached, s').
Proof.
  intros dbg l m u ps v vs n body rest s Ht Hl Hp Hv Hd Hn H2 Hb Fl E.
  apply parse_request_line_iff in Hl.
  assert (Hf := framing_complete_sized _ _ false _ _ _ (headers_are_pairs ps) Hv Hd Hn).
  assert (Hc : batch_request (pending s) = Complete (mk_request m u (from_pairs (map header_pair ps)) body) rest).
  { unfold batch_request. rewrite E, (batch_msg_head _ _ _ (m, u)) by assumption.
    unfold batch_after_headers. rewrite Hf. cbn [batch_body]. rewrite len_app.
    replace (_ <? n) with false by lia. subst n. rewrite firstn_len_app, skipn_len_app. reflexivity. }
  destruct (req_parse dbg req_new s) as [r s'] eqn:Er.
  destruct (flowing_call _ _ _ 0 req_new s _ _ _ _ (req_parser_ok dbg) line_inv_nil Fl Hc Er) as [->|[[st ->]| ->]].
  - exfalso. unfold req_parse in Er.
    destruct (msg_parse parse_request_line dbg false req_new [] s) as [[r1 ls1] s1] eqn:Em.
    destruct r1 as [[[[m1 u1] hm] body1]|st1 k1|e|]; inversion Er; subst. apply msg_fresh_body in Em as [_ Em].
    destruct (Em _ Hf); lia.
  - eauto.
  - exfalso. apply (proj1 (C09_fresh_call dbg s)). now rewrite Er.
Qed.

(** The same for responses: a blocking client cannot receive a sized body above 1.5 MiB. *)
Theorem C11_too_large_response : forall dbg l st ps v vs n body rest s,
  text l -> parse_status_line l = inr st -> Forall header_ok ps ->
  values_named (lit "content-length") ps (v :: vs) -> denotes 10 v n ->
  n <= 3145728 -> 3145728 < 2 * n -> len body = n ->
  flowing s -> pending s = l ++ crlf ++ header_lines ps ++ crlf ++ body ++ rest ->
  exists st s', resp_parse dbg resp_new s = (PIo st LimitReached, s').
Proof.
  intros dbg l st ps v vs n body rest s Ht Hl Hp Hv Hd Hn H2 Hb Fl E.
  assert (Hf := framing_complete_sized _ _ true _ _ _ (headers_are_pairs ps) Hv Hd Hn).
  assert (Hc : batch_response (pending s) = Complete (mk_response st (from_pairs (map header_pair ps)) body) rest).
  { unfold batch_response. rewrite E, (batch_msg_head _ _ _ st) by assumption.
    unfold batch_after_headers. rewrite Hf. cbn [batch_body]. rewrite len_app.
    replace (_ <? n) with false by lia. subst n. rewrite firstn_len_app, skipn_len_app. reflexivity. }
  destruct (resp_parse dbg resp_new s) as [r s'] eqn:Er.
  destruct (flowing_call _ _ _ 0 resp_new s _ _ _ _ (resp_parser_ok dbg) line_inv_nil Fl Hc Er) as [->|[[st' ->]| ->]].
  - exfalso. unfold resp_parse in Er.
    destruct (msg_parse parse_status_line dbg true resp_new [] s) as [[r1 ls1] s1] eqn:Em.
    destruct r1 as [[[t1 hm] body1]|st1 k1|e|]; inversion Er; subst. apply msg_fresh_body in Em as [_ Em].
    destruct (Em _ Hf); lia.
  - eauto.
  - exfalso. apply (proj2 (C09_fresh_call dbg s)). now rewrite Er.
Qed.

(** And a content-length of exactly 3145728, the documented maximum, is never received at all,
    whatever the delivery: a finished sized body is shorter. *)
Theorem C11_maximum_never_received : forall dbg st s r s',
  reached (req_parse dbg) req_new st -> req_parse dbg st s = (PDone r, s') ->
  forall v, get_first_header_value (rq_headers r) CONTENT_LENGTH = Some v -> ~ denotes 10 v 3145728.
Proof.
  intros dbg st s r s' H E v Hv Hd. apply (req_reached_call _ _ _ _ _ H) in E as (_ & _ & E).
  unfold body_size_done, framing_of in E. rewrite Hv in E.
  assert (parse_uint 10 USIZE_MAX v = Some 3145728) as Hp
    by (apply parse_uint_spec; [lia|]; split; auto; unfold USIZE_MAX; lia).
  rewrite Hp in E. cbn in E. lia.
Qed.

Example C11_case : exists l m u ps v vs n body rest s,
  text l /\ request_line m u l /\ Forall header_ok ps /\
  values_named (lit "content-length") ps (v :: vs) /\ denotes 10 v n /\
  n <= 3145728 /\ 3145728 < 2 * n /\ len body = n /\
  flowing s /\ pending s = l ++ crlf ++ header_lines ps ++ crlf ++ body ++ rest.
Proof.
  assert (exists d : bytes, len d = 2000000) as (d & Hd).
  { generalize 2000000. intros n. exists (repeat "a"%char (N.to_nat n)). unfold len. rewrite repeat_length. lia. }
  exists (lit "POST /up HTTP/1.1"), POST, (lit "/up"), [(lit "Content-Length", lit "2000000")],
    (lit "2000000"), [], 2000000, d, [].
  exists [RData (lit "POST /up HTTP/1.1" ++ crlf ++ header_lines [(lit "Content-Length", lit "2000000")] ++ crlf ++ d ++ [])].
  parts.
  - split; [vm_compute; reflexivity|]. vm_compute. intuition congruence.
  - apply parse_request_line_iff. vm_compute. reflexivity.
  - repeat constructor; try (vm_compute; reflexivity); try (vm_compute; intuition congruence);
      apply no_colon_iff; vm_compute; reflexivity.
  - apply vn_same; [apply lower_same; vm_compute; reflexivity|constructor].
  - apply (parse_uint_spec 10 USIZE_MAX); [lia|]. vm_compute. reflexivity.
  - lia.
  - lia.
  - exact Hd.
  - repeat constructor. discriminate.
  - cbn [pending]. apply app_nil_r.
Qed.

(** ** C12 *)

(** If all bytes are ASCII, no byte is lost wherever the stream blocks: the outcome is that of the
    reference parser on all the bytes. *)
Theorem C12_ascii_nothing_lost : forall dbg eof s,
  live_eof eof s -> Forall (fun c => bval c < 128) (pending s) ->
  no_interrupt_in_data batch_request s -> always_in_limits batch_request (pending s) ->
  matches eof (batch_request (pending s)) (drive_request dbg s).
Proof.
  intros dbg eof s L A I Lim. apply drive_request_spec; auto.
  intros s1 s2 ->. apply ascii_clean_request. rewrite DriveFacts.pending_app in A. apply Forall_app in A. apply A.
Qed.

(** Otherwise bytes can vanish: five bytes received before the block are not part of the request
    that is returned, and no error is reported. *)
Definition lossy : stream :=
  [RData (lit "GET /" ++ ["195"%char]); RErr WouldBlock; RData (lit "GET /b HTTP/1.1" ++ crlf ++ crlf)].
Theorem C12_nothing_lost_refuted :
  live lossy /\
  drive_request true lossy = (PDone (mk_request GET (lit "/b") [] []), []) /\
  batch_request (pending lossy) = Bad InvalidUtf8.
Proof. split; [repeat constructor; vm_compute; intuition congruence|]. split; vm_compute; reflexivity. Qed.

(** And a correct request can be refused because of a block inside a character. *)
Definition split_char : stream :=
  [RData (lit "GET /" ++ ["195"%char]); RErr WouldBlock; RData ("169"%char :: lit " HTTP/1.1" ++ crlf ++ crlf)].
Theorem C12_split_character_refuted :
  live split_char /\ (exists r, batch_request (pending split_char) = Complete r []) /\
  drive_request true split_char = (PErr InvalidUtf8, [RData crlf]).
Proof.
  split; [repeat constructor; vm_compute; intuition congruence|].
  split; [eexists; vm_compute; reflexivity|vm_compute; reflexivity].
Qed.

(** ** C54 *)

(** A read through limits: it takes exactly the bytes it returns, at most n and at most every limit,
    which are reduced by that amount; end of stream is reported only at the end of the stream; with
    an exhausted limit it fails and takes nothing. *)
Theorem C54_limited_read : forall n ls s r ls' s',
  0 < n -> read_lim n ls s = (r, ls', s') ->
  (In 0 ls -> ls <> [] -> exists k, r = inl k) /\
  match r with
  | inr [] => s = RData [] :: s' /\ ls' = ls
  | inr got => pending s = got ++ pending s' /\ len got <= n /\ (forall l, In l ls -> len got <= l) /\ ls' = map (fun l => l - len got) ls
  | inl k => ls' = ls /\ (k = LimitReached /\ In 0 ls /\ s' = s \/ s = RErr k :: s' \/ k = WouldBlock /\ s = [])
  end.
Proof.
  intros n ls s r ls' s' Hn E. pose proof (read_lim_spec _ _ _ _ _ _ Hn E) as H. split.
  - intros H0 _. destruct r as [k|[|c got]]; eauto; exfalso.
    + clear H. revert n Hn ls' E. induction ls as [|l ls IH]; [destruct H0|]. intros n Hn ls' E. cbn [read_lim] in E.
      destruct (N.eqb_spec l 0); [discriminate|]. destruct H0 as [H0|H0]; [congruence|].
      destruct (read_lim (N.min n l) ls s) as [[[k|g] l1] s1] eqn:Er; inversion E; subst.
      apply (IH H0 (N.min n l) ltac:(lia) _ Er).
    + destruct H as (_ & _ & H & _). unfold fits in H. rewrite Forall_forall in H. apply H in H0. rewrite len_cons in H0. lia.
  - destruct r as [k|[|c got]].
    + destruct H as [-> [(-> & H & ->)|[H|(-> & -> & ->)]]]; auto.
    + destruct H as [-> ->]. auto.
    + destruct H as (H1 & H2 & H3 & ->). apply takes_pending in H1. split; auto. split; auto. split; [|reflexivity].
      intros l Hl. unfold fits in H3. rewrite Forall_forall in H3. auto.
Qed.

(** The same for looking at the buffered bytes. *)
Theorem C54_limited_fill : forall ls s r s',
  fill_lim ls s = (r, s') ->
  match r with
  | inr [] => s = RData [] :: s'
  | inr bs => s' = s /\ (exists more rest, s = RData (bs ++ more) :: rest) /\ (forall l, In l ls -> len bs <= l)
  | inl k => k = LimitReached /\ In 0 ls /\ s' = s \/ s = RErr k :: s' \/ k = WouldBlock /\ s = []
  end.
Proof.
  intros ls s r s' E. apply fill_lim_spec in E. destruct r as [k|bs].
  - destruct E as [E|[E|(-> & -> & _)]]; auto.
  - destruct E as [_ [[-> E]|(H1 & H2 & -> & full & rest & -> & _)]]; [exact E|].
    destruct bs as [|c bs]; [congruence|]. split; [reflexivity|]. split; [eauto|].
    intros l Hl. unfold fits in H2. rewrite Forall_forall in H2. auto.
Qed.

Example C54_case :
  read_lim 10 [7; 3; 5] [RData (lit "abcdef")] = (inr (lit "abc"), [4; 0; 2], [RData (lit "def")]) /\
  read_lim 10 [4; 0; 2] [RData (lit "def")] = (inl LimitReached, [4; 0; 2], [RData (lit "def")]).
Proof. vm_compute. auto. Qed.

(** ** C55 *)

(** A signal (EINTR) surfaces from the parser only inside the bytes of a body. *)
Theorem C55_interrupt_only_in_body : forall dbg s st s',
  req_parse dbg req_new s = (PIo st Interrupted, s') ->
  exists w, pending s = w ++ pending s' /\ in_data (batch_request w).
Proof.
  intros dbg s st s' E. destruct (req_parser_ok dbg 0 req_new _ _ _ line_inv_nil E) as (w & _ & Hs & _).
  destruct Hs as [[[Hs|[Hs _]] Hi]|[(Hs & _)|(Hs & _)]]; try discriminate.
  exists w. split; [apply takes_pending in Hs; exact Hs|]. apply Hi. reflexivity.
Qed.

(** There it makes the request fail, though the bytes are complete and correct. *)
Definition interrupted_body : stream :=
  [RData (lit "POST / HTTP/1.1" ++ crlf ++ lit "content-length: 2" ++ crlf ++ crlf ++ lit "a");
   RErr Interrupted; RData (lit "b")].
Theorem C55_interrupts_are_retried_refuted :
  live interrupted_body /\ (exists r, batch_request (pending interrupted_body) = Complete r []) /\
  exists st, drive_request true interrupted_body = (PIo st Interrupted, [RData (lit "b")]).
Proof.
  split; [repeat constructor; vm_compute; intuition congruence|].
  split; eexists; vm_compute; reflexivity.
Qed.

Print Assumptions C06_held_line.
Print Assumptions C06_held_line_response.
Print Assumptions C06_accepted_lines.
Print Assumptions C08_one_call.
Print Assumptions C08_any_delivery_refuted.
Print Assumptions C08_release_unlimited_refuted.
Print Assumptions C09_panic_exactly.
Print Assumptions C09_panic_exactly_response.
Print Assumptions C09_fresh_call.
Print Assumptions C09_in_limits.
Print Assumptions C09_never_panics_refuted.
Print Assumptions C10_request_body.
Print Assumptions C10_response_body.
Print Assumptions C10_one_call.
Print Assumptions C10_chunked_unlimited_refuted.
Print Assumptions C11_too_large_in_one_call.
Print Assumptions C11_too_large_response.
Print Assumptions C11_maximum_never_received.
Print Assumptions C12_ascii_nothing_lost.
Print Assumptions C12_nothing_lost_refuted.
Print Assumptions C12_split_character_refuted.
Print Assumptions C54_limited_read.
Print Assumptions C54_limited_fill.
Print Assumptions C55_interrupt_only_in_body.
Print Assumptions C55_interrupts_are_retried_refuted.
