(** C105: messages whose headers were made with the variants of the type. *)
From Coq Require Import List Ascii String NArith Bool Lia Permutation.
From Verif.Model Require Import Bytes Io Common Parse Encode.
From Verif.Spec Require Import Batch Stream Drive Numerals Names Grammar Wire Handmade.
From Verif.Proofs Require Import BytesFacts CommonFacts ParseFacts DriveFacts CallFacts GrammarFacts LimitGrammar BatchFacts Checks EncodeFacts LimitFacts.
From Verif.Properties Require Import Streaming Syntax RoundTrip Smuggling.
Import ListNotations.
Local Open Scope N_scope.

(** ** C105 *)

Lemma says_syntax ps body : says_length ps body -> 2 * len body <= 3145728 ->
  body_syntax ps (fun w b => w = [] /\ b = []) body body /\ body_fits ps body.
Proof.
  intros [(v & vs & V & D)|(V & -> & vs & T & N)] L.
  - split; [eapply body_sized; eauto; lia|]. split; auto. intros V'. pose proof (values_named_det _ _ _ _ V V'). discriminate.
  - split; [eapply body_default; eauto|]. split; auto.
Qed.

Lemma handmade_small r : text (rq_uri r) -> ~ In SP (rq_uri r) -> Forall header_ok (pairs_of (rq_headers r)) ->
  says_length (pairs_of (rq_headers r)) (rq_body r) -> request_fits r ->
  small_request (write_request r) (rq_method r) (rq_uri r) (pairs_of (rq_headers r)) (rq_body r).
Proof.
  intros H1 H2 H3 H4 F. destruct (request_first_ok r H1 H2) as [Hl Ht].
  unfold request_fits in F. rewrite <- len_request_first in F. assert (L : 2 * len (rq_body r) <= 3145728) by apply F.
  destruct (says_syntax _ _ H4 L) as [B1 B2]. exists (request_first r), (rq_body r).
  split; auto. split; auto. split; auto. split; auto. split; [apply write_request_eq|]. split; auto. eapply fits_head; eauto.
Qed.

(** Whatever variants and spellings the headers have, and in whatever order the map gives them: the reader gets the
    request with the values of each name, in any spelling, in the order in which the lines were written. *)
Theorem C105_read_by_name : forall dbg r s rest,
  text (rq_uri r) -> ~ In SP (rq_uri r) -> Forall header_ok (pairs_of (rq_headers r)) ->
  says_length (pairs_of (rq_headers r)) (rq_body r) -> request_fits r ->
  live s -> pending s = write_request r ++ rest ->
  blocks_in_clean_lines batch_request s -> no_interrupt_in_data batch_request s ->
  exists r' s', drive_request dbg s = (PDone r', s') /\ live s' /\ pending s' = rest /\
    rq_method r' = rq_method r /\ rq_uri r' = rq_uri r /\ rq_body r' = rq_body r /\
    headers_are (rq_headers r') (pairs_of (rq_headers r)).
Proof.
  intros dbg r s rest H1 H2 H3 H4 F L E B I. pose proof (handmade_small r H1 H2 H3 H4 F) as Sm.
  pose proof (request_always_in_limits _ _ _ _ _ rest Sm) as Lim. rewrite <- E in Lim.
  pose proof (drive_request_spec dbg false s (live_eof_false _ L) B I Lim) as M.
  destruct (request_complete _ _ _ _ _ rest (small_request_syntax _ _ _ _ _ Sm)) as (r' & Hr & K1 & K2 & K3 & _ & K4).
  rewrite E, Hr in M. destruct M as (s' & -> & L' & Hp). apply live_eof_false_inv in L'. exists r', s'. auto 10.
Qed.
Print Assumptions C105_read_by_name.

(** The same for responses with a length. *)
Theorem C105_response_read_by_name : forall dbg r s rest v vs,
  library_status (rs_status r) -> Forall header_ok (pairs_of (rs_headers r)) ->
  values_named (lit "content-length") (pairs_of (rs_headers r)) (v :: vs) -> denotes 10 v (len (rs_body r)) -> response_fits r ->
  live s -> pending s = write_response r ++ rest ->
  blocks_in_clean_lines batch_response s -> no_interrupt_in_data batch_response s ->
  exists r' s', drive_response dbg s = (PDone r', s') /\ live s' /\ pending s' = rest /\
    st_code (rs_status r') = st_code (rs_status r) /\ rs_body r' = rs_body r /\
    headers_are (rs_headers r') (pairs_of (rs_headers r)).
Proof.
  intros dbg r s rest v vs H1 H3 V D F L E B I. destruct (response_first_ok r H1) as (Hp & Ht & Hl).
  assert (Sm : small_response (write_response r) (st_code (rs_status r)) (pairs_of (rs_headers r)) (rs_body r)).
  { unfold response_fits in F. rewrite <- Hl in F. assert (Lb : 2 * len (rs_body r) <= 3145728) by apply F.
    destruct (says_syntax (pairs_of (rs_headers r)) (rs_body r)) as [_ B2]; [left; eauto|auto|].
    exists (response_first r), (rs_body r). split; [apply parse_status_line_iff; eauto|]. split; auto. split; auto.
    split; [eapply body_sized; eauto; lia|]. split; [apply write_response_eq|]. split; auto. eapply fits_head; eauto. }
  pose proof (response_always_in_limits _ _ _ _ rest Sm) as Lim. rewrite <- E in Lim.
  pose proof (drive_response_spec dbg false s (live_eof_false _ L) B I Lim) as M.
  destruct (response_complete _ _ _ _ rest (small_response_syntax _ _ _ _ Sm)) as (r' & Hr & K1 & K3 & K4).
  rewrite E, Hr in M. destruct M as (s' & -> & L' & Hq). apply live_eof_false_inv in L'. exists r', s'. auto 10.
Qed.
Print Assumptions C105_response_read_by_name.

(** The values of one name, in any spelling, are not found under each of the headers with that name: in the reader's map
    exactly under the one that the name converts to. *)
Lemma from_pairs_canonical ps : forall k vs, In (k, vs) (from_pairs (map header_pair ps)) -> canonical k.
Proof.
  assert (G : forall ps m, Forall (fun kv : header * list bytes => canonical (fst kv)) m ->
    Forall (fun kv : header * list bytes => canonical (fst kv)) (fold_left (fun m p => add_header m (fst p) (snd p)) (map header_pair ps) m)).
  { clear ps. induction ps as [|[n v] ps IH]; intros m F; cbn [map fold_left]; auto. apply IH. unfold header_pair. cbn [fst snd].
    clear IH. induction m as [|[k ws] m IHm]; cbn [add_header].
    - constructor; [|constructor]. cbn [fst]. unfold canonical. rewrite header_str_from. apply header_from_iff. symmetry. apply lower_idem.
    - inversion F; subst. destruct (header_eqb k (header_from n)); constructor; auto. }
  intros k vs H. pose proof (G ps [] (Forall_nil _)) as F. rewrite Forall_forall in F. exact (F _ H).
Qed.

Lemma named_some ps name v : In v (map snd (filter (fun p => header_eqb (fst p) (header_from name)) (map header_pair ps))) ->
  exists vs, values_named name ps vs /\ In v vs.
Proof.
  intros H. destruct (values_named_fun name ps) as (vs & V). exists vs. split; auto. rewrite (values_named_values _ _ _ V). exact H.
Qed.

(** A header of a request is found by the reader, under the header that the sender used, exactly if that is the one its
    name converts to. *)
Theorem C105_found_as_given : forall dbg r s rest k v,
  text (rq_uri r) -> ~ In SP (rq_uri r) -> Forall header_ok (pairs_of (rq_headers r)) ->
  says_length (pairs_of (rq_headers r)) (rq_body r) -> request_fits r ->
  live s -> pending s = write_request r ++ rest ->
  blocks_in_clean_lines batch_request s -> no_interrupt_in_data batch_request s ->
  (exists vs, In (k, vs) (rq_headers r) /\ In v vs) ->
  exists r' s', drive_request dbg s = (PDone r', s') /\
    ((exists vs, hm_get k (rq_headers r') = Some vs) <-> k = header_from (header_str k)) /\
    contains_header_value (rq_headers r') (header_from (header_str k)) v = true.
Proof.
  intros dbg r s rest k v H1 H2 H3 H4 F L E B I (vs & Hk & Hv). pose proof (handmade_small r H1 H2 H3 H4 F) as Sm.
  pose proof (request_always_in_limits _ _ _ _ _ rest Sm) as Lim. rewrite <- E in Lim.
  pose proof (drive_request_spec dbg false s (live_eof_false _ L) B I Lim) as M.
  destruct (request_complete _ _ _ _ _ rest (small_request_syntax _ _ _ _ _ Sm)) as (r' & Hr & _ & _ & _ & K3 & K4).
  rewrite E, Hr in M. destruct M as (s' & -> & _ & _). exists r', s'. split; auto.
  assert (Hin : exists ws, values_named (header_str k) (pairs_of (rq_headers r)) ws /\ In v ws).
  { apply named_some. apply in_map_iff. exists (header_from (header_str k), v). split; auto. apply filter_In. split; [|apply header_eqb_refl].
    apply in_map_iff. exists (header_str k, v). split; auto. unfold pairs_of. apply in_flat_map. exists (k, vs). split; auto.
    cbn [fst snd]. apply in_map_iff. eauto. }
  destruct Hin as (ws & V & Hw). specialize (K4 _ _ V). destruct ws as [|w ws]; [destruct Hw|]. cbn [nonempty] in K4. split; [split|].
  - intros (us & G). apply hm_get_in in G. rewrite K3 in G. now apply from_pairs_canonical in G.
  - intros Ek. rewrite <- Ek in K4. eauto.
  - unfold contains_header_value. rewrite K4. apply existsb_exists. exists v. split; auto. apply beqb_refl.
Qed.
Print Assumptions C105_found_as_given.

(** So a header made with the variant for other headers, under a name that has a capital letter or is a standard one, is
    not found by its name before it is sent, and only by its name after. *)
Theorem C105_found_by_name_refuted : forall n v, (has_capital n \/ exists m, In m standard_names /\ n = lit m) ->
  contains_header_value (add_header [] (Custom n) v) (Custom n) v = true /\
  hm_get (header_from n) (add_header [] (Custom n) v) = None /\
  Custom n <> header_from (header_str (Custom n)).
Proof.
  intros n v H.
  assert (N : Custom n <> header_from n).
  { intros E. destruct H as [(c & Hc & Lc)|(m & Hm & ->)].
    - assert (El : lower n = n).
      { pose proof (header_str_from n) as X. rewrite <- E in X. cbn [header_str] in X. auto. }
      unfold lower in El. assert (Ec : lower_byte c = c).
      { clear - El Hc. induction n as [|d n IH]; [destruct Hc|]. cbn [map] in El. injection El as E1 E2. destruct Hc as [->|Hc]; auto. }
      unfold lower_byte in Ec. destruct ((65 <=? bval c) && (bval c <=? 90)) eqn:B; [|lia].
      apply (f_equal bval) in Ec. rewrite bval_of in Ec; lia.
    - assert (S : exists n, header_from (lit m) = Standard n).
      { unfold header_from. assert (Hx : existsb (beqb (lower (lit m))) standard_table = true); [|rewrite Hx; eauto].
        apply existsb_exists. exists (lit m). split; [now apply in_map|].
        unfold standard_names in Hm. cbn [In] in Hm. repeat (destruct Hm as [<-|Hm]; [reflexivity|]). destruct Hm. }
      destruct S as (x & S). congruence. }
  split; [|split].
  - cbn [add_header]. unfold contains_header_value. cbn [hm_get]. rewrite header_eqb_refl. cbn [existsb]. now rewrite beqb_refl.
  - cbn [add_header hm_get]. destruct (header_eqb (Custom n) (header_from n)) eqn:E; auto. apply header_eqb_eq in E. congruence.
  - exact N.
Qed.
Print Assumptions C105_found_by_name_refuted.

(** What two headers with one name say depends on the order in which the map gives them: for any bytes [b] there are two
    orders of one and the same map with which one and the same request is read as having the body [b], or no body and
    [b] after it (where the next request is looked for). *)
Theorem C105_order_refuted : forall dbg b, 0 < len b -> 2 * len b <= 3145728 -> exists h h',
  Permutation h h' /\ NoDup (map fst h) /\
  (forall s, live s -> pending s = write_request (mk_request POST (lit "/") h b) ->
     blocks_in_clean_lines batch_request s -> no_interrupt_in_data batch_request s ->
     exists r s', drive_request dbg s = (PDone r, s') /\ rq_body r = b /\ pending s' = []) /\
  (forall s, live s -> pending s = write_request (mk_request POST (lit "/") h' b) ->
     blocks_in_clean_lines batch_request s -> no_interrupt_in_data batch_request s ->
     exists r s', drive_request dbg s = (PDone r, s') /\ rq_body r = [] /\ pending s' = b).
Proof.
  intros dbg b Pb Lb. set (one := (CONTENT_LENGTH, [dec (len b)])). set (two := (Custom (lit "Content-Length"), [lit "0"])).
  destruct (dec_value (len b)) as (Td & _ & Ld); [lia|].
  assert (O1 : header_ok (lit "content-length", dec (len b))) by (apply header_okay; [reflexivity|apply text_check; reflexivity|exact Td]).
  assert (O2 : header_ok (lit "Content-Length", lit "0")) by (apply header_okay; [reflexivity|apply text_check; reflexivity|apply text_check; reflexivity]).
  assert (U : text (lit "/")) by (apply text_check; reflexivity).
  assert (Sp : ~ In SP (lit "/")) by (vm_compute; intuition discriminate).
  assert (C1 : same_name (lit "content-length") (lit "content-length")) by (repeat constructor).
  assert (C2 : same_name (lit "Content-Length") (lit "content-length")) by (apply lower_same; reflexivity).
  assert (Fit : forall h body, h = [one; two] \/ h = [two; one] -> 2 * len body <= 3145728 -> request_fits (mk_request POST (lit "/") h body)).
  { intros h body [-> | ->] Hb; (split; [vm_compute; discriminate|]); cbn [rq_headers rq_body pairs_of flat_map map one two fst snd app header_str CONTENT_LENGTH];
      (split; [repeat constructor; cbn [fst snd]; change (len (lit "content-length")) with 14; change (len (lit "Content-Length")) with 14; change (len (lit "0")) with 1; lia|]);
      (split; [|auto]); unfold header_lines, header_line; cbn [map List.concat fst snd]; rewrite !len_app;
      change (len (lit "content-length")) with 14; change (len (lit "Content-Length")) with 14; change (len (lit "0")) with 1; change (len (lit ": ")) with 2;
      change (len crlf) with 2; rewrite len_nil; lia. }
  exists [one; two], [two; one]. split; [constructor|]. split; [repeat constructor; cbn; intuition discriminate|]. split.
  - intros s L E B I. destruct (C105_read_by_name dbg (mk_request POST (lit "/") [one; two] b) s []) as (r & s' & D & _ & P & _ & _ & Bd & _); auto.
    + constructor; [exact O1|]. constructor; [exact O2|constructor].
    + left. exists (dec (len b)), [lit "0"]. split; [|apply dec_denotes]. apply vn_same; auto. apply vn_same; auto. constructor.
    + rewrite app_nil_r. exact E.
    + exists r, s'. auto.
  - intros s L E B I. destruct (C105_read_by_name dbg (mk_request POST (lit "/") [two; one] []) s b) as (r & s' & D & _ & P & _ & _ & Bd & _); auto.
    + constructor; [exact O2|]. constructor; [exact O1|constructor].
    + left. exists (lit "0"), [dec (len b)]. split; [|exact (dec_denotes 0)]. apply vn_same; auto. apply vn_same; auto. constructor.
    + apply Fit; [auto|]. vm_compute. discriminate.
    + rewrite E, !write_request_eq. cbn [rq_method rq_uri rq_headers rq_body]. unfold request_first. cbn [rq_method rq_uri]. rewrite app_nil_r, <- !app_assoc. reflexivity.
    + exists r, s'. auto.
Qed.
Print Assumptions C105_order_refuted.

(** The hypotheses are met: a request with headers in both variants, two of them with one name. *)
Definition handmade : request := mk_request POST (lit "/a")
  [(Custom (lit "Content-Length"), [lit "3"]); (Custom (lit "X-Id"), [lit "1"]); (Custom (lit "x-id"), [lit "2"; lit "3"]); (Standard (lit "My-Own"), [lit "v"])] (lit "abc").
Example C105_case :
  text (rq_uri handmade) /\ ~ In SP (rq_uri handmade) /\ Forall header_ok (pairs_of (rq_headers handmade)) /\
  says_length (pairs_of (rq_headers handmade)) (rq_body handmade) /\ request_fits handmade /\
  exists r' s', drive_request true [RData (write_request handmade)] = (PDone r', s') /\
    hm_get (header_from (lit "X-ID")) (rq_headers r') = Some [lit "1"; lit "2"; lit "3"] /\
    hm_get (Custom (lit "X-Id")) (rq_headers r') = None /\ hm_get (Custom (lit "my-own")) (rq_headers r') = Some [lit "v"].
Proof.
  split; [apply text_check; reflexivity|]. split; [vm_compute; intuition discriminate|].
  split; [repeat (constructor; [apply header_okay; [reflexivity|apply text_check; reflexivity|apply text_check; reflexivity]|]); constructor|].
  split.
  { left. exists (lit "3"), []. split; [|exact (dec_denotes 3)]. cbn [handmade rq_headers pairs_of flat_map map fst snd app header_str].
    apply vn_same; [apply lower_same; reflexivity|].
    repeat (apply vn_other; [intros K; apply lower_same in K; discriminate K|]). constructor. }
  split; [split; [vm_compute; discriminate|]; split; [repeat constructor; vm_compute; discriminate|]; split; vm_compute; discriminate|].
  do 2 eexists. split; [vm_compute; reflexivity|]. split; [vm_compute; reflexivity|]. split; vm_compute; reflexivity.
Qed.
Definition handmade_response : response := mk_response STATUS_OK [(Custom (lit "Content-Length"), [lit "3"])] (lit "abc").
Example C105_response_case : library_status (rs_status handmade_response) /\ Forall header_ok (pairs_of (rs_headers handmade_response)) /\
  values_named (lit "content-length") (pairs_of (rs_headers handmade_response)) [lit "3"] /\
  denotes 10 (lit "3") (len (rs_body handmade_response)) /\ response_fits handmade_response /\ has_capital (lit "Content-Length").
Proof.
  split; [now left|]. split; [constructor; [apply header_okay; [reflexivity|apply text_check; reflexivity|apply text_check; reflexivity]|constructor]|].
  split; [apply vn_same; [apply lower_same; reflexivity|constructor]|]. split; [exact (dec_denotes 3)|].
  split; [split; [vm_compute; discriminate|]; split; [repeat constructor; vm_compute; discriminate|]; split; vm_compute; discriminate|].
  exists "C"%char. split; [now left|vm_compute; split; discriminate].
Qed.
