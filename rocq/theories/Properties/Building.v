(** C107: messages built with the library's conversions and [header_map!]. *)
From Coq Require Import List Ascii String NArith Bool Lia Permutation.
From Verif.Model Require Import Bytes Io Common Parse Encode Convert.
From Verif.Spec Require Import Batch Stream Drive Numerals Names Grammar Wire Handmade Building.
From Verif.Proofs Require Import BytesFacts CommonFacts ParseFacts DriveFacts CallFacts GrammarFacts LimitGrammar BatchFacts Checks EncodeFacts LimitFacts ForwardFacts.
From Verif.Properties Require Import Streaming Syntax RoundTrip Smuggling Tables Handmade.
Import ListNotations.
Local Open Scope N_scope.

Lemma named_into a : named a -> header_into a = header_from (written_name a).
Proof.
  destruct a as [s|s|h]; intros H; try reflexivity. destruct H as (n & Hn & ->). cbn [header_into written_name].
  unfold standard_names in Hn. cbn [In] in Hn.
  repeat (destruct Hn as [<-|Hn]; [reflexivity|]). destruct Hn.
Qed.

Lemma map_of_written l : Forall (fun p => named (fst p)) l -> header_map_of l = from_pairs (map header_pair (written l)).
Proof.
  intros H. assert (E : map (fun p => (header_into (fst p), snd p)) l = map header_pair (written l)).
  { unfold written. rewrite map_map. apply map_ext_in. intros p I. rewrite Forall_forall in H. unfold header_pair. cbn [fst snd].
    now rewrite (named_into _ (H _ I)). }
  destruct l; [reflexivity|]. cbn [header_map_of]. now rewrite E.
Qed.

(** A map made with [header_map!] gives, for each name in any spelling, the values that the program wrote under that name in
    any spelling, in the order in which it wrote them, and nothing for other names. *)
Theorem C107_lookup : forall l, Forall (fun p => named (fst p)) l -> headers_are (header_map_of l) (written l).
Proof. intros l H. rewrite (map_of_written _ H). apply headers_are_pairs. Qed.
Print Assumptions C107_lookup.

(** The lines that are written for such a map: one for each pair, whatever the order of the map. *)
Lemma pairs_add m k v : Permutation (pairs_of (add_header m k v)) (pairs_of m ++ [(header_str k, v)]).
Proof.
  unfold pairs_of. induction m as [|[k' vs] m IH]; cbn [add_header flat_map app fst snd map]; [apply Permutation_refl|].
  destruct (header_eqb k' k) eqn:E; cbn [flat_map fst snd].
  - apply header_eqb_eq in E. subst k'. rewrite map_app, <- !app_assoc. cbn [map]. apply Permutation_app_head, Permutation_app_comm.
  - rewrite <- app_assoc. now apply Permutation_app_head.
Qed.
Lemma pairs_from ps : Permutation (pairs_of (from_pairs (map header_pair ps))) (map (fun p => (lower (fst p), snd p)) ps).
Proof.
  assert (K : forall m, Permutation (pairs_of (fold_left (fun m p => add_header m (fst p) (snd p)) (map header_pair ps) m))
    (pairs_of m ++ map (fun p => (lower (fst p), snd p)) ps)).
  { induction ps as [|[n v] ps IH]; intros m; cbn [map fold_left]; [rewrite app_nil_r; apply Permutation_refl|].
    eapply Permutation_trans; [apply IH|]. unfold header_pair at 1 2. cbn [fst snd].
    eapply Permutation_trans; [apply Permutation_app_tail, pairs_add|]. rewrite <- app_assoc. cbn [app]. rewrite header_str_from.
    apply Permutation_refl. }
  exact (K []).
Qed.
Lemma lines_lower ps : len (header_lines (map (fun p => (lower (fst p), snd p)) ps)) = len (header_lines ps).
Proof.
  unfold header_lines. induction ps as [|[n v] ps IH]; [reflexivity|]. cbn [map List.concat]. rewrite !len_app, IH.
  unfold header_line. cbn [fst snd]. rewrite !len_app, len_lower. reflexivity.
Qed.
Lemma written_fits first ps body : sizes_fit first ps body -> fits_limits first (from_pairs (map header_pair ps)) body.
Proof.
  intros (H1 & H2 & H3 & H4). split; auto. split; [|split; auto].
  - eapply Permutation_Forall; [apply Permutation_sym, pairs_from|]. apply Forall_map. eapply Forall_impl; [|exact H2].
    cbn [fst snd]. intros p. now rewrite len_lower.
  - rewrite (perm_lines _ _ (pairs_from ps)), lines_lower. exact H3.
Qed.
Lemma written_good ps : Forall header_ok ps -> good_headers (from_pairs (map header_pair ps)).
Proof.
  unfold from_pairs. generalize good_nil. generalize (@nil (header * list bytes)).
  induction ps as [|[n v] ps IH]; intros m G H; cbn [map fold_left]; auto. inversion H as [|? ? H1 H2]; subst.
  apply IH; auto. unfold header_pair. cbn [fst snd]. apply good_add; auto.
  - unfold canonical. rewrite header_str_from. apply header_from_iff. now rewrite lower_idem.
  - rewrite header_str_from. now apply header_ok_lower.
Qed.
Lemma written_framed ps body : says_length ps body -> framed false (from_pairs (map header_pair ps)) body.
Proof.
  intros [(v & vs & V & D)|(V & -> & vs & T & N)]; unfold framed; rewrite (get_first_named _ _ _ _ (headers_are_pairs ps) V); [auto|].
  split; auto. intros v Hv. rewrite (get_first_named _ _ _ _ (headers_are_pairs ps) T) in Hv. destruct vs as [|w vs]; [discriminate|].
  injection Hv as ->. eauto.
Qed.
Lemma written_read ps h : hm_equiv h (from_pairs (map header_pair ps)) -> headers_are h ps.
Proof. intros E name vs V. rewrite E. now apply headers_are_pairs. Qed.

(** A request whose headers the program wrote with [header_map!], in whatever order h the map gives its entries: the reader
    gets the request, and under each name in any spelling the values that the program wrote under it, in its order. *)
Theorem C107_request : forall dbg m u l body h s rest,
  Forall (fun p => named (fst p)) l -> text u -> ~ In SP u -> Forall header_ok (written l) -> says_length (written l) body ->
  sizes_fit (len (method_name m) + 1 + len u + 9) (written l) body -> Permutation (header_map_of l) h ->
  live s -> pending s = write_request (mk_request m u h body) ++ rest ->
  blocks_in_clean_lines batch_request s -> no_interrupt_in_data batch_request s ->
  exists r s', drive_request dbg s = (PDone r, s') /\ live s' /\ pending s' = rest /\
    rq_method r = m /\ rq_uri r = u /\ rq_body r = body /\ headers_are (rq_headers r) (written l).
Proof.
  intros dbg m u l body h s rest N T Sp K Ln Fit P L E B I. rewrite (map_of_written _ N) in P.
  destruct (C13_any_header_order dbg (mk_request m u (from_pairs (map header_pair (written l))) body) h s rest) as (r & s' & H1 & H2 & H3 & H4); auto.
  - split; [exact T|]. split; [exact Sp|]. split; [now apply written_good|now apply written_framed].
  - exact (written_fits _ _ _ Fit).
  - destruct H4 as (K1 & K2 & K3 & K4). exists r, s'. cbn [rq_method rq_uri rq_headers rq_body] in *. repeat (split; [auto; fail|]).
    now apply written_read.
Qed.
Print Assumptions C107_request.

Theorem C107_response : forall dbg st l body v vs h s rest,
  Forall (fun p => named (fst p)) l -> library_status st -> Forall header_ok (written l) ->
  values_named (lit "content-length") (written l) (v :: vs) -> denotes 10 v (len body) ->
  sizes_fit (13 + len (st_reason st)) (written l) body -> Permutation (header_map_of l) h ->
  live s -> pending s = write_response (mk_response st h body) ++ rest ->
  blocks_in_clean_lines batch_response s -> no_interrupt_in_data batch_response s ->
  exists r s', drive_response dbg s = (PDone r, s') /\ live s' /\ pending s' = rest /\
    rs_status r = st /\ rs_body r = body /\ headers_are (rs_headers r) (written l).
Proof.
  intros dbg st l body v vs h s rest N St K V D Fit P L E B I. rewrite (map_of_written _ N) in P.
  destruct (C14_any_header_order dbg (mk_response st (from_pairs (map header_pair (written l))) body) h s rest) as (r & s' & H1 & H2 & H3 & H4); auto.
  - split; [exact St|]. split; [now apply written_good|]. apply written_framed. left. eauto.
  - exact (written_fits _ _ _ Fit).
  - cbn [rs_headers]. rewrite (get_first_named _ _ _ _ (headers_are_pairs (written l)) V). discriminate.
  - destruct H4 as (K1 & K2 & K3). exists r, s'. cbn [rs_status rs_headers rs_body] in *. repeat (split; [auto; fail|]).
    now apply written_read.
Qed.
Print Assumptions C107_response.

(** A text that a listener returns reaches the client: status 200, the bytes of the text, and their number. *)
Theorem C107_text : forall dbg t s rest, 2 * len t <= 3145728 ->
  live s -> pending s = write_response (response_of_text t) ++ rest -> no_interrupt_in_data batch_response s ->
  exists r s' v, drive_response dbg s = (PDone r, s') /\ live s' /\ pending s' = rest /\
    st_code (rs_status r) = 200 /\ rs_body r = t /\ denotes 10 v (len t) /\ headers_are (rs_headers r) [(lit "content-length", v)].
Proof.
  intros dbg t s rest Lt L E I.
  destruct (C53_conversions_round_trip dbg (response_of_body t) s rest) as (r & s' & H1 & H2 & H3 & H4 & H5 & H6); eauto.
  exists r, s', (dec (len t)). split; auto. split; auto. split; auto. split; [now rewrite H4|]. split; [exact H6|].
  split; [apply dec_denotes|]. intros name vs V. rewrite H5. exact (headers_are_pairs [(lit "content-length", dec (len t))] name vs V).
Qed.
Print Assumptions C107_text.

(** What a header displays is its name; converted back it gives the same header exactly for headers that the conversion
    makes, among them the constants. *)
Theorem C107_display : forall h, header_display h = header_str h /\
  (header_from_text (header_display h) = h <-> exists n, h = header_from n) /\
  (forall n, In n standard_names -> header_from_text (header_display (Standard (lit n))) = Standard (lit n)) /\
  (forall n, header_display (header_from_text n) = lower n).
Proof.
  intros h. assert (D : header_display h = header_str h) by (destruct h; reflexivity). split; [exact D|]. split; [|split].
  - rewrite D. unfold header_from_text. split; [eauto|]. intros (n & ->). rewrite header_str_from. apply header_from_iff, lower_idem.
  - intros n Hn. symmetry. exact (named_into (ByHeader (Standard (lit n))) (ex_intro _ n (conj Hn eq_refl))).
  - intros n. destruct (header_from n) eqn:E; pose proof (header_str_from n) as K; unfold header_from_text; rewrite E in K |- *; exact K.
Qed.
Print Assumptions C107_display.

(** The methods by their bytes: exactly the four, as by their text. *)
Theorem C107_methods : forall s m, method_from_bytes s = Some m <-> s = method_name m.
Proof. exact C19_methods. Qed.
Print Assumptions C107_methods.

(** ** A case *)

Definition a_map : list (header_arg * bytes) :=
  [(ByHeader CONNECTION, lit "keep-alive"); (ByText (lit "coNtEnt-LengTH"), lit "5"); (ByText (lit "X-Tag"), lit "1");
   (ByString (lit "x-tAG"), lit "2")].

Example C107_case : Forall (fun p => named (fst p)) a_map /\ Forall header_ok (written a_map) /\
  says_length (written a_map) (lit "hello") /\ sizes_fit 60 (written a_map) (lit "hello") /\
  Permutation (header_map_of a_map) (rev (header_map_of a_map)) /\
  hm_get (header_from (lit "X-TAG")) (header_map_of a_map) = Some [lit "1"; lit "2"].
Proof.
  split; [|split; [|split; [|split; [|split]]]].
  - repeat constructor. exists "connection"%string. split; [|reflexivity]. unfold standard_names. cbn [In]. auto 30.
  - unfold written, a_map. cbn [map fst snd written_name CONNECTION].
    repeat (apply Forall_cons || apply Forall_nil); split; cbn [fst snd]; try (apply text_check; reflexivity); apply no_colon_check; reflexivity.
  - left. exists (lit "5"), []. split; [|exact (dec_denotes 5)]. unfold written, a_map. cbn [map fst snd written_name CONNECTION].
    apply vn_other; [intros H; apply lower_same in H; discriminate|]. apply vn_same; [apply lower_same; reflexivity|].
    apply vn_other; [intros H; apply lower_same in H; discriminate|]. apply vn_other; [intros H; apply lower_same in H; discriminate|constructor].
  - split; [lia|]. split; [repeat constructor; vm_compute; discriminate|]. split; vm_compute; discriminate.
  - apply Permutation_rev.
  - reflexivity.
Qed.
