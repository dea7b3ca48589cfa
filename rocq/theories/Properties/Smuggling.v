(** C75, C76: versions, closing, and bodies that are taken for requests. *)
From Coq Require Import List Ascii String Arith NArith Bool Lia.
From Coq Require Import ZifyBool ZifyNat ZifyN.
From Verif.Model Require Import Bytes Io Common Parse Encode Writer Server.
From Verif.Spec Require Import Batch Stream Drive Numerals Names Grammar Wire Unicode Output Session.
From Verif.Proofs Require Import BytesFacts CommonFacts IoFacts ParseFacts DriveFacts CallFacts BatchFacts GrammarFacts LimitGrammar LimitFacts EncodeFacts WriterFacts OpsFacts ServerFacts ConnFacts.
From Verif.Properties Require Import RoundTrip Server.
Import ListNotations.
Local Open Scope N_scope.

(** ** C75 *)

(** The version of a request has no influence on anything: whatever follows its first line, a request that says HTTP/1.0 is read as the same
    request as one that says HTTP/1.1, so that it is routed and answered, and its connection kept or dropped, in the same way. *)
Theorem C75_version_has_no_effect : forall rt m u x h eof log out keep, text u -> ~ In SP u ->
  let with_version v := method_name m ++ SP :: u ++ SP :: v ++ crlf ++ x in
  batch_request (with_version (lit "HTTP/1.0")) = batch_request (with_version (lit "HTTP/1.1")) /\
  (served rt h (with_version (lit "HTTP/1.0")) eof log out keep -> (exists v rest, batch_request (with_version (lit "HTTP/1.1")) = Complete v rest) ->
   served rt h (with_version (lit "HTTP/1.1")) eof log out keep).
Proof.
  intros rt m u x h eof log out keep Tu Su with_version.
  assert (L : forall v, v = lit "HTTP/1.0" \/ v = lit "HTTP/1.1" -> cut_line (with_version v) = Some (inr (method_name m ++ SP :: u ++ SP :: v), x) /\
    parse_request_line (method_name m ++ SP :: u ++ SP :: v) = inr (m, u)).
  { intros v Hv. assert (Tv : text v /\ ~ In SP v) by (destruct Hv as [-> | ->]; (split; [apply text_check; reflexivity|vm_compute; intuition discriminate])).
    assert (T : text (method_name m ++ SP :: u ++ SP :: v)).
    { apply text_app; [apply text_lit_method|]. apply text_sp_cons, text_app; auto. now apply text_sp_cons. }
    destruct T as [T1 T2]. split.
    - unfold with_version. replace (method_name m ++ SP :: u ++ SP :: v ++ crlf ++ x) with ((method_name m ++ SP :: u ++ SP :: v) ++ CR :: LF :: x).
      + now apply cut_line_crlf.
      + rewrite <- app_assoc. cbn [app]. rewrite <- app_assoc. reflexivity.
    - apply parse_request_line_iff. exists v. split; [unfold supported_version; tauto|]. cbn [words]. split; [destruct m; vm_compute; intuition discriminate|].
      eexists. split; [reflexivity|]. split; auto. eexists. split; [reflexivity|]. split; [apply Tv|now left]. }
  destruct (L (lit "HTTP/1.0")) as [A1 A2]; [now left|]. destruct (L (lit "HTTP/1.1")) as [B1 B2]; [now right|].
  assert (E : batch_request (with_version (lit "HTTP/1.0")) = batch_request (with_version (lit "HTTP/1.1"))).
  { unfold batch_request, batch_msg, batch_first. rewrite A1, B1, A2, B2. reflexivity. }
  split; auto. intros S (v & rest & C). rewrite <- E in C. inversion S; subst; try congruence; rewrite E in *.
  - eapply served_last; eauto.
  - eapply served_next; eauto.
Qed.

(** In particular "a connection is closed after a request of version 1.0 that does not ask to keep it" fails. *)
Definition old_request : bytes := lit "GET / HTTP/1.0" ++ crlf ++ crlf.
Theorem C75_old_version_closed_refuted : forall dbg rt vs log st, no_panic rt -> Forall visit_fine vs -> Forall visit_steady vs -> vs <> [] ->
  visits dbg rt vs [] (Open (conn_new [RData old_request])) = (log, st) -> exists c v, st = Open c /\ log = [v] /\ rq_headers v = [].
Proof.
  intros dbg rt vs log st Np F S V E.
  assert (O : orderly false [RData old_request]).
  { split; [apply live_eof_false; constructor; [discriminate|constructor]|]. split; [|split; [|split]].
    - intros s1 s2 K. destruct s1 as [|? [|]]; discriminate K.
    - intros s1 s2 K. destruct s1 as [|? [|]]; discriminate K.
    - apply Checks.always_in_limits_b_ok. vm_compute. reflexivity.
    - intros _. vm_compute. try exact Logic.I; reflexivity. }
  assert (Hb : exists v, batch_request old_request = Complete v [] /\ rq_headers v = [] ) by (eexists; vm_compute; split; reflexivity).
  destruct Hb as (v & Hb & Hh).
  destruct (C26_responses dbg rt false _ vs log st Np O F (or_introl S) E) as [(c & got & -> & Pg & Sv & Dn)|(out & rest & -> & Sv)].
  - destruct Dn as [Z _]; [destruct vs; [congruence|cbn; lia]|]. rewrite Z, app_nil_r in Pg. cbn [pending] in Pg. rewrite app_nil_r in Pg. subst got.
    exists c, v. split; auto. split; auto. inversion Sv as [| | | | |? ? ? ? ? ? ? ? K1 K2 K3]; subst; try congruence.
    rewrite Hb in K1. inversion K1; subst. inversion K3; subst; try discriminate. reflexivity.
  - exfalso. cbn [pending] in Sv. rewrite app_nil_r in Sv. inversion Sv as [| | | |? ? ? ? ? K1 K2|? ? ? ? ? ? ? ? K1 K2 K3]; subst; try congruence.
    + rewrite Hb in K1. inversion K1; subst. destruct K2 as (xs & K2 & _). rewrite Hh in K2. discriminate.
    + rewrite Hb in K1. inversion K1; subst. inversion K3; subst; discriminate.
Qed.

(** Only the exact value "close" closes: with any other value, also if it asks to close by being a list that contains "close" or by being spelt
    "Close" (connection options are lists, and case-insensitive), the connection is kept. *)
Theorem C75_other_spellings_refuted : forall dbg rt q s vs log st, no_panic rt -> plain_request q ->
  (forall xs x, hm_get CONNECTION (rq_headers q) = Some xs -> In x xs -> x <> lit "close") ->
  live s -> pending s = write_request q -> no_interrupt_in_data last_outcome s ->
  Forall visit_fine vs -> Forall visit_steady vs -> (blocks s < List.length vs)%nat ->
  visits dbg rt vs [] (Open (conn_new s)) = (log, st) -> exists c v, st = Open c /\ log = [v] /\ same_request v q.
Proof.
  intros dbg rt q s vs log st Np Hq Hc L P I F S B E.
  destruct (C26_one_response_each dbg rt [q] s vs log st Np) as (F2 & c & -> & _); auto.
  - intros r [<-|[]] (xs & K1 & K2). exact (Hc _ _ K1 K2 eq_refl).
  - rewrite P. cbn. now rewrite app_nil_r.
  - inversion F2 as [|v z l l' Sv F3]; subst. inversion F3; subst. eauto.
Qed.

Definition asking (v : bytes) : request := mk_request GET (lit "/") [(CONNECTION, [v])] [].
Example C75_case : Forall plain_request [asking (lit "Close"); asking (lit "close, te")] /\
  forall v, v = lit "Close" \/ v = lit "close, te" -> forall xs x, hm_get CONNECTION (rq_headers (asking v)) = Some xs -> In x xs -> x <> lit "close".
Proof.
  split.
  - repeat constructor; try discriminate; try (apply text_check; vm_compute; reflexivity); try (apply no_colon_check; reflexivity);
      try (cbn; intuition discriminate); try (vm_compute; intuition discriminate).
  - intros v [-> | ->] xs x H K; vm_compute in H; inversion H; subst; destruct K as [<-|[]]; discriminate.
Qed.

(** ** C76 *)

(** A message that carries the bytes w: with two lengths; with a length whose name is followed by a space; chunked and with a length. *)
Definition two_lengths (w : bytes) : bytes :=
  lit "POST / HTTP/1.1" ++ crlf ++ lit "content-length: 0" ++ crlf ++ lit "content-length: " ++ dec (len w) ++ crlf ++ crlf ++ w.
Definition spaced_name (w : bytes) : bytes :=
  lit "POST / HTTP/1.1" ++ crlf ++ lit "content-length : " ++ dec (len w) ++ crlf ++ crlf ++ w.
Definition last_chunk : bytes := crlf ++ lit "0" ++ crlf ++ crlf.
Definition both_head (w : bytes) : bytes :=
  lit "POST / HTTP/1.1" ++ crlf ++ lit "transfer-encoding: chunked" ++ crlf ++
  lit "content-length: " ++ dec (len (hex false (len w)) + 2) ++ crlf ++ crlf.
Definition both_codings (w : bytes) : bytes := both_head w ++ hex false (len w) ++ crlf ++ w ++ last_chunk.

Lemma dec_len n : n < 10000000 -> len (dec n) <= 7.
Proof.
  intros H. pose proof (dec_aux_len (S (N.size_nat n)) 6 n []) as L. change (10 ^ N.succ 6) with 10000000 in L. unfold dec. rewrite len_nil in L. lia.
Qed.
Lemma dec_ascii n : ascii (dec n).
Proof. eapply Forall_impl; [|apply dec_digits]. cbn. intros; lia. Qed.

Lemma plain_len q : plain_request q -> len (write_request q) <= 1577474.
Proof.
  intros (_ & (F1 & _ & F2 & F3) & _). rewrite write_request_eq. rewrite <- len_request_first in F1. rewrite !len_app in *. change (len crlf) with 2. lia.
Qed.

Lemma header_okay name v : contains (lit ": ") name = false -> text name -> text v -> header_ok (name, v).
Proof.
  intros C T V. split; cbn [fst snd]; [|now apply no_colon_check].
  apply text_app; auto. apply text_app; auto. apply text_check; reflexivity.
Qed.

(** A short request that posts to "/". *)
Definition short_header (kv : header * list bytes) : Prop :=
  canonical (fst kv) /\ snd kv <> [] /\ contains (lit ": ") (header_str (fst kv)) = false /\ text (header_str (fst kv)) /\
  ascii (header_str (fst kv)) /\ len (header_str (fst kv)) <= 20 /\ Forall (fun v => text v /\ ascii v /\ len v <= 20) (snd kv).
Lemma post_plain h body : NoDup (map fst h) -> Forall short_header h -> (List.length (pairs_of h) <= 2)%nat -> framed false h body ->
  2 * len body <= 3145728 -> plain_request (mk_request POST (lit "/") h body).
Proof.
  intros Nd Hs Lp Fr Lb.
  assert (Hp : Forall (fun p => len (fst p) <= 20 /\ len (snd p) <= 20) (pairs_of h)).
  { apply Forall_forall. intros p Hp. unfold pairs_of in Hp. apply in_flat_map in Hp. destruct Hp as (kv & K1 & K2).
    rewrite Forall_forall in Hs. destruct (Hs _ K1) as (_ & _ & _ & _ & _ & K3 & K4). apply in_map_iff in K2. destruct K2 as (v & <- & K2).
    rewrite Forall_forall in K4. destruct (K4 _ K2) as (_ & _ & K5). auto. }
  split; [|split; [|split]]; cbn [rq_uri rq_headers rq_body rq_method].
  - split; [apply text_check; reflexivity|]. split; [vm_compute; intuition discriminate|]. split; auto. split; auto.
    eapply Forall_impl; [|exact Hs]. intros kv (A & B & C & D & _ & _ & G). split; auto. split; auto.
    eapply Forall_impl; [|exact G]. intros v (G1 & _ & _). now apply header_okay.
  - split; [vm_compute; discriminate|]. split; [|split; auto].
    + eapply Forall_impl; [|exact Hp]. cbn beta. intros p [K1 K2]. lia.
    + cbn [rq_headers]. destruct (pairs_of h) as [|p1 [|p2 [|p3 ps]]]; [vm_compute; discriminate| | |cbn in Lp; lia].
      * inversion Hp as [|? ? [K1 K2] _]; subst. unfold header_lines, header_line. cbn [map List.concat]. rewrite !len_app.
        change (len (lit ": ")) with 2. change (len crlf) with 2. rewrite len_nil. lia.
      * inversion Hp as [|? ? [K1 K2] Hp2]; subst. inversion Hp2 as [|? ? [K3 K4] _]; subst.
        unfold header_lines, header_line. cbn [map List.concat]. rewrite !len_app.
        change (len (lit ": ")) with 2. change (len crlf) with 2. rewrite len_nil. lia.
  - repeat constructor.
  - eapply Forall_impl; [|exact Hs]. intros kv (_ & _ & _ & _ & A & _ & G). split; auto. eapply Forall_impl; [|exact G]. intros v (_ & K & _). exact K.
Qed.

Lemma hex_short n : n <= 3145728 -> len (hex false n) <= 6.
Proof. intros H. pose proof (hex_aux_len false (S (N.size_nat n)) 5 n []) as L. change (16 ^ N.succ 5) with 16777216 in L.
  rewrite len_nil in L. unfold hex. lia. Qed.

Lemma dec_value n : n < 10000000 -> text (dec n) /\ ascii (dec n) /\ len (dec n) <= 20.
Proof. intros H. split; [apply text_dec|]. split; [apply dec_ascii|]. pose proof (dec_len n H). lia. Qed.

(** Each of the three is refused by RFC 7230 (sections 3.3.3 and 3.2.4) or, the third, read as one message whose body is w: what follows its
    head is a chunked coding of w and nothing else. *)
Theorem C76_one_chunked_body : forall w, 0 < len w <= 3145728 ->
  exists wire, both_codings w = both_head w ++ wire /\ chunked wire w.
Proof.
  intros w H. eexists. split; [reflexivity|]. unfold last_chunk. rewrite <- (app_nil_r w) at 3.
  eapply chunked_more; [apply hex_denotes|auto|reflexivity|]. apply (chunked_last (lit "0")). apply zero_denotes.
Qed.

(** The server reads each as a message without w, and takes w for a request: whatever request was put there as data is routed and answered. *)
Theorem C76_body_is_routed_refuted : forall dbg rt q s vs log st, no_panic rt -> plain_request q -> ~ asks_close q ->
  let w := write_request q in
  live s -> pending s = two_lengths w \/ pending s = spaced_name w \/ pending s ++ last_chunk = both_codings w ->
  no_interrupt_in_data last_outcome s -> Forall visit_fine vs -> Forall visit_steady vs -> (blocks s < List.length vs)%nat ->
  visits dbg rt vs [] (Open (conn_new s)) = (log, st) ->
  exists q1 q2 c, log = [q1; q2] /\ rq_method q1 = POST /\ rq_uri q1 = lit "/" /\ same_request q2 q /\
    st = Open c /\ output c = replies rt [] [q1; q2].
Proof.
  intros dbg rt q s vs log st Np Hq Hc w L P I F S B E.
  pose proof (plain_len q Hq) as Lw. fold w in Lw.
  assert (Dw : text (dec (len w)) /\ ascii (dec (len w)) /\ len (dec (len w)) <= 20) by (apply dec_value; lia).
  assert (Hx : len (hex false (len w)) <= 6) by (apply hex_short; lia).
  assert (Dx : let d := dec (len (hex false (len w)) + 2) in text d /\ ascii d /\ len d <= 20) by (apply dec_value; lia).
  assert (Q : exists q1, plain_request q1 /\ ~ asks_close q1 /\ rq_method q1 = POST /\ rq_uri q1 = lit "/" /\ pending s = write_request q1 ++ w).
  { destruct P as [P|[P|P]].
    - exists (mk_request POST (lit "/") [(CONTENT_LENGTH, [lit "0"; dec (len w)])] []). split; [|split; [|split; [|split]]]; try reflexivity.
      + apply post_plain; [repeat constructor; intros []| |cbn; lia| |cbn; lia].
        * constructor; [|constructor]. split; [reflexivity|]. split; [discriminate|]. split; [reflexivity|].
          split; [apply text_check; reflexivity|]. split; [repeat constructor|]. split; [vm_compute; discriminate|]. cbn [snd].
          constructor; [|constructor; auto]. split; [apply text_check; reflexivity|]. split; [repeat constructor|vm_compute; discriminate].
        * split; [reflexivity|exact (dec_denotes 0)].
      + intros (xs & K & _). discriminate K.
      + rewrite P, write_request_eq. unfold two_lengths. cbn [rq_headers rq_body pairs_of flat_map map fst snd app header_lines List.concat].
        unfold header_line. cbn [fst snd]. rewrite <- !app_assoc. reflexivity.
    - exists (mk_request POST (lit "/") [(Custom (lit "content-length "), [dec (len w)])] []). split; [|split; [|split; [|split]]]; try reflexivity.
      + apply post_plain; [repeat constructor; intros []| |cbn; lia| |cbn; lia].
        * constructor; [|constructor]. split; [reflexivity|]. split; [discriminate|]. split; [reflexivity|].
          split; [apply text_check; reflexivity|]. split; [repeat constructor|]. split; [vm_compute; discriminate|]. cbn [snd]. repeat constructor; apply Dw.
        * split; [reflexivity|]. intros v K. discriminate K.
      + intros (xs & K & _). discriminate K.
      + rewrite P, write_request_eq. unfold spaced_name. cbn [rq_headers rq_body pairs_of flat_map map fst snd app header_lines List.concat].
        unfold header_line. cbn [fst snd]. rewrite <- !app_assoc. reflexivity.
    - exists (mk_request POST (lit "/") [(TRANSFER_ENCODING, [lit "chunked"]); (CONTENT_LENGTH, [dec (len (hex false (len w)) + 2)])]
        (hex false (len w) ++ crlf)). split; [|split; [|split; [|split]]]; try reflexivity.
      + apply post_plain; [repeat constructor; cbn; intuition discriminate| |cbn; lia| |rewrite len_app; change (len crlf) with 2; lia].
        * constructor; [|constructor; [|constructor]].
          -- split; [reflexivity|]. split; [discriminate|]. split; [reflexivity|].
             split; [apply text_check; reflexivity|]. split; [repeat constructor|]. split; [vm_compute; discriminate|]. cbn [snd].
             constructor; [|constructor]. split; [apply text_check; reflexivity|]. split; [repeat constructor|vm_compute; discriminate].
          -- split; [reflexivity|]. split; [discriminate|]. split; [reflexivity|].
             split; [apply text_check; reflexivity|]. split; [repeat constructor|]. split; [vm_compute; discriminate|]. cbn [snd]. repeat constructor; apply Dx.
        * split; [reflexivity|]. rewrite len_app. apply dec_denotes.
      + intros (xs & K & _). discriminate K.
      + apply (app_inv_tail last_chunk). rewrite P, write_request_eq. unfold both_codings, both_head.
        cbn [rq_headers rq_body pairs_of flat_map map fst snd app header_lines List.concat].
        unfold header_line. cbn [fst snd]. rewrite <- !app_assoc. reflexivity. }
  destruct Q as (q1 & Hq1 & Hc1 & Hm & Hu & P1).
  destruct (C26_one_response_each dbg rt [q1; q] s vs log st Np) as (F2 & c & -> & O); auto.
  - intros r [<-|[<-|[]]]; auto.
  - rewrite P1. cbn [map List.concat]. now rewrite app_nil_r.
  - inversion F2 as [|v1 z l l' S1 F3]; subst. inversion F3 as [|v2 z l0 l' S2 F4]; subst. inversion F4; subst.
    exists v1, v2, c. destruct S1 as (M1 & U1 & _). rewrite M1, U1, Hm, Hu. auto 8.
Qed.

(** The request that is smuggled can be any, such as this one, delivered in any pieces. *)
Definition smuggled : request := mk_request DELETE (lit "/all") [] [].
Example C76_case : plain_request smuggled /\ ~ asks_close smuggled /\ 0 < len (write_request smuggled) <= 3145728 /\
  both_codings (write_request smuggled) =
    lit "POST / HTTP/1.1" ++ crlf ++ lit "transfer-encoding: chunked" ++ crlf ++ lit "content-length: 4" ++ crlf ++ crlf ++
    lit "18" ++ crlf ++ lit "DELETE /all HTTP/1.1" ++ crlf ++ crlf ++ crlf ++ lit "0" ++ crlf ++ crlf.
Proof.
  split; [|split; [|split]].
  - repeat constructor; try discriminate; try (apply text_check; vm_compute; reflexivity); try (cbn; intuition discriminate); vm_compute; intuition discriminate.
  - intros (xs & K & _). discriminate K.
  - vm_compute. intuition discriminate.
  - vm_compute. reflexivity.
Qed.

Print Assumptions C75_version_has_no_effect.
Print Assumptions C75_old_version_closed_refuted.
Print Assumptions C75_other_spellings_refuted.
Print Assumptions C76_one_chunked_body.
Print Assumptions C76_body_is_routed_refuted.
