(** How much one call of a parser reads. *)
From Coq Require Import List Ascii String NArith ZArith Bool Lia.
From Coq Require Import ZifyBool ZifyNat ZifyN.
From Verif.Model Require Import Bytes Io Common Parse.
From Verif.Spec Require Import Batch Stream.
From Verif.Proofs Require Import BytesFacts IoFacts ParseFacts.
Import ListNotations.
Local Open Scope N_scope.

(** Reading takes w and then possibly one event that ends it. *)
Definition ends (s : stream) (w : bytes) (s' : stream) : Prop :=
  exists t, takes s w t /\ (t = s' \/ exists e, t = e :: s' /\ pending [e] = []).

Lemma takes_ends s w s' : takes s w s' -> ends s w s'.
Proof. intros H. exists s'. auto. Qed.
Lemma takes_then_ends s w s1 w' s' : takes s w s1 -> ends s1 w' s' -> ends s (w ++ w') s'.
Proof. intros H (t & T & E). exists t. split; auto. eapply takes_trans; eauto. Qed.
Lemma stops_ends s w k s' : stops s w k s' -> ends s w s'.
Proof. intros [H|(_ & H & ->)]; eexists; split; eauto 6. Qed.

(** A call: the limits go down by what it takes; a call that is done takes nothing else. *)
Definition frugal {T S} (ls : list N) (s : stream) (o : out T S) : Prop :=
  match o with
  | (r, ls', s') => exists w, ls' = dec_lims w ls /\ fits w ls /\
      match r with PDone _ => takes s w s' | _ => ends s w s' end
  end.
(** Or that the end of the stream completes. *)
Definition frugal_end {T S} (ls : list N) (s : stream) (o : out T S) : Prop :=
  match o with (r, ls', s') => exists w, ls' = dec_lims w ls /\ fits w ls /\ ends s w s' end.

Lemma frugal_weaken {T S} ls s (o : out T S) : frugal ls s o -> frugal_end ls s o.
Proof. destruct o as [[r ls'] s']. intros (w & H1 & H2 & H3). exists w. split; auto. split; auto. destruct r; auto. now apply takes_ends. Qed.

Lemma frugal_here {T S} ls s (r : pres T S) : frugal ls s (r, ls, s).
Proof. exists []. rewrite dec_lims_nil. split; auto. split; [apply fits_nil|]. destruct r; auto using takes_ends, tk_nil. Qed.

Lemma frugal_then {T S} ls s w ls1 s1 (o : out T S) : ls1 = dec_lims w ls -> fits w ls -> takes s w s1 -> frugal ls1 s1 o -> frugal ls s o.
Proof.
  intros -> F T1. destruct o as [[r ls'] s']. intros (w' & -> & F' & H). exists (w ++ w'). rewrite dec_lims_app. split; auto. split; [now apply fits_app|].
  destruct r; try (eapply takes_then_ends; eauto). eapply takes_trans; eauto.
Qed.
Lemma frugal_end_then {T S} ls s w ls1 s1 (o : out T S) : ls1 = dec_lims w ls -> fits w ls -> takes s w s1 -> frugal_end ls1 s1 o -> frugal_end ls s o.
Proof.
  intros -> F T1. destruct o as [[r ls'] s']. intros (w' & -> & F' & H). exists (w ++ w'). rewrite dec_lims_app. split; auto. split; [now apply fits_app|].
  eapply takes_then_ends; eauto.
Qed.

(** Within a limit. *)
Definition at_most {T S} (n : N) (ls : list N) (s : stream) (o : out T S) : Prop :=
  match o with (r, ls', s') => exists w, len w <= n /\ ls' = dec_lims w ls /\ fits w ls /\ match r with PDone _ => takes s w s' | _ => ends s w s' end end.
Definition at_most_end {T S} (n : N) (ls : list N) (s : stream) (o : out T S) : Prop :=
  match o with (r, ls', s') => exists w, len w <= n /\ ls' = dec_lims w ls /\ fits w ls /\ ends s w s' end.
Lemma with_limit_at_most {T S} n l ls s (call : list N -> out T S) : l <= n -> frugal (l :: ls) s (call (l :: ls)) -> at_most n ls s (with_limit l ls call).
Proof.
  intros Le. unfold with_limit. destruct (call (l :: ls)) as [[r ls'] s']. intros (w & -> & F & H). apply fits_cons in F as [F1 F2].
  exists w. split; [lia|]. split; auto.
Qed.
Lemma with_limit_at_most_end {T S} n l ls s (call : list N -> out T S) : l <= n -> frugal_end (l :: ls) s (call (l :: ls)) -> at_most_end n ls s (with_limit l ls call).
Proof.
  intros Le. unfold with_limit. destruct (call (l :: ls)) as [[r ls'] s']. intros (w & -> & F & H). apply fits_cons in F as [F1 F2].
  exists w. split; [lia|]. split; auto.
Qed.
Lemma at_most_frugal {T S} n ls s (o : out T S) : at_most n ls s o -> frugal ls s o.
Proof. destruct o as [[r ls'] s']. intros (w & _ & H). exists w. auto. Qed.

Lemma crlf_frugal dbg p ls s : line_inv p -> at_most 512 ls s (crlf_parse dbg p ls s).
Proof.
  intros I. destruct (crlf_parse dbg p ls s) as [[r ls'] s'] eqn:E. apply crlf_parse_spec in E as (w & -> & F & Le & H); auto.
  exists w. split; [lia|]. split; auto. split; auto. destruct r as [l|p' k|e|].
  - apply H.
  - destruct H as (_ & [[[[H _]|(_ & H & _)] _]|(_ & H & _)]); [eapply stops_ends; eauto|now apply takes_ends|eexists; split; eauto].
  - destruct H as [[H _]|[(_ & _ & H)|(_ & _ & _ & H)]]; [now apply takes_ends|eapply stops_ends; eauto|eexists; split; eauto].
  - contradiction.
Qed.

(** Passing on the end of a call. *)
Lemma frugal_io {T S T' S'} ls s (r : pres T S) ls1 s1 (r' : pres T' S') : frugal ls s (r, ls1, s1) -> (forall v, r' <> PDone v) -> frugal ls s (r', ls1, s1).
Proof.
  intros (w & H1 & H2 & H3) N. exists w. split; auto. split; auto. destruct r' as [v| | |]; [now destruct (N v)| | |]; destruct r; auto using takes_ends.
Qed.
Ltac passed H := refine (frugal_io _ _ _ _ _ _ H _); intros ?v; discriminate.

Lemma hdr_loop_frugal fuel dbg : forall st ls s, line_inv (h_line st) -> frugal ls s (hdr_loop fuel dbg st ls s).
Proof.
  induction fuel as [|f IH]; intros st ls s I; cbn [hdr_loop]; [apply frugal_here|].
  pose proof (at_most_frugal _ _ _ _ (crlf_frugal dbg (h_line st) ls s I)) as H.
  destruct (crlf_parse dbg (h_line st) ls s) as [[r ls1] s1]. destruct r as [l|p k|e|]; try (passed H).
  destruct l as [|c l]; [exact H|]. destruct (parse_header (c :: l)) as [e|[k v]]; [passed H|].
  destruct H as (w & H1 & H2 & H3). eapply frugal_then; eauto. apply IH. apply line_inv_nil.
Qed.

Lemma hdr_parse_frugal dbg st ls s : line_inv (h_line st) -> h_read st <= 4096 \/ dbg = true -> at_most 4096 ls s (hdr_parse dbg st ls s).
Proof.
  intros I D. unfold hdr_parse, usub, MAX_HEADERS_SIZE.
  destruct (h_read st <=? 4096) eqn:E.
  - apply with_limit_at_most; [lia|]. now apply hdr_loop_frugal.
  - destruct D as [D| ->]; [lia|]. exists []. rewrite dec_lims_nil. split; [cbn; lia|]. split; auto. split; [apply fits_nil|]. apply takes_ends, tk_nil.
Qed.

Lemma bytes_frugal st ls s : frugal ls s (bytes_deframe st ls s).
Proof.
  unfold bytes_deframe. destruct (N.leb_spec (len (bd_got st)) (bd_size st)) as [Le|Gt].
  - destruct (bytes_loop (S (mu s)) (bd_size st) (bd_got st) ls s) as [[r ls'] s'] eqn:E.
    apply bytes_loop_spec in E as (w & -> & F & H); auto. exists w. split; auto. split; auto. destruct r as [v|b k|e|]; try contradiction.
    + apply H.
    + destruct H as (_ & _ & [H|[(_ & H & _)|(_ & H)]]); [eapply stops_ends; eauto|now apply takes_ends|eexists; split; eauto].
  - cbn [bytes_loop]. replace (len (bd_got st) <? bd_size st) with false by lia. apply frugal_here.
Qed.

Lemma eof_frugal d ls s : frugal_end ls s (eof_deframe d ls s).
Proof.
  unfold eof_deframe. destruct (read_to_end (S (mu s)) ls s d) as [[[r d'] ls'] s'] eqn:E.
  apply read_to_end_spec in E as (w & -> & -> & F & H); auto. destruct r as [k|]; exists w; (split; [auto|]); (split; [auto|]).
  - destruct H as ([H|(_ & H & _)] & _); [eapply stops_ends; eauto|now apply takes_ends].
  - eexists. split; eauto.
Qed.

Definition chunk_line_inv (st : chunk_state) : Prop := match st with CSize l | CTail l _ => line_inv l | _ => True end.

Lemma size_state_frugal dbg l ls s : line_inv l -> frugal ls s (size_state dbg l ls s) /\
  (forall st ls1 s1, size_state dbg l ls s = (PDone st, ls1, s1) -> chunk_line_inv st).
Proof.
  intros I. pose proof (at_most_frugal _ _ _ _ (crlf_frugal dbg l ls s I)) as H. unfold size_state.
  destruct (crlf_parse dbg l ls s) as [[r ls1] s1]. destruct r as [raw|p k|e|]; try (split; [passed H|intros; discriminate]).
  destruct (parse_chunk_size raw); (split; [|intros st l2 s2 X; inversion X; exact Logic.I]); [passed H|exact H].
Qed.
Lemma data_state_frugal b body ls s : frugal ls s (data_state b body ls s) /\
  (forall x st ls1 s1, data_state b body ls s = (PDone (x, st), ls1, s1) -> chunk_line_inv st).
Proof.
  pose proof (bytes_frugal b ls s) as H. unfold data_state. destruct (bytes_deframe b ls s) as [[r ls1] s1].
  destruct r as [raw|p k|e|]; try (split; [passed H|intros; discriminate]).
  split; [exact H|]. intros x st l2 s2 X. inversion X; subst. apply line_inv_nil.
Qed.
Lemma tail_state_frugal dbg l last ls s : line_inv l -> frugal ls s (tail_state dbg l last ls s) /\
  (forall st ls1 s1, tail_state dbg l last ls s = (PDone st, ls1, s1) -> chunk_line_inv st).
Proof.
  intros I. pose proof (at_most_frugal _ _ _ _ (crlf_frugal dbg l ls s I)) as H. unfold tail_state.
  destruct (crlf_parse dbg l ls s) as [[r ls1] s1]. destruct r as [raw|p k|e|]; try (split; [passed H|intros; discriminate]).
  destruct raw; [|split; [passed H|intros; discriminate]].
  split; [exact H|]. intros st l2 s2 X. inversion X; subst. destruct last; [exact Logic.I|apply line_inv_nil].
Qed.

Lemma chunks_loop_frugal fuel dbg : forall body st ls s, chunk_line_inv st -> frugal ls s (chunks_loop fuel dbg body st ls s).
Proof.
  induction fuel as [|f IH]; intros body st ls s I; cbn [chunks_loop]; [apply frugal_here|].
  destruct st as [l|b|l last|]; [| | |apply frugal_here].
  - destruct (size_state_frugal dbg l ls s I) as [H K]. destruct (size_state dbg l ls s) as [[r ls1] s1]. destruct r as [st'|st' k|e|]; try (passed H).
    destruct H as (w & H1 & H2 & H3). eapply frugal_then; eauto.
  - destruct (data_state_frugal b body ls s) as [H K]. destruct (data_state b body ls s) as [[r ls1] s1]. destruct r as [[x st']|st' k|e|]; try (passed H).
    destruct H as (w & H1 & H2 & H3). eapply frugal_then; eauto.
  - destruct (tail_state_frugal dbg l last ls s I) as [H K]. destruct (tail_state dbg l last ls s) as [[r ls1] s1]. destruct r as [st'|st' k|e|]; try (passed H).
    destruct H as (w & H1 & H2 & H3). eapply frugal_then; eauto.
Qed.

Definition body_line_inv (b : body_st) : Prop := match b with BChunked c => chunk_line_inv (c_state c) | _ => True end.

Lemma body_parse_frugal dbg b ls s : body_line_inv b -> body_read_so_far b <= 3145728 \/ dbg = true -> at_most_end 3145728 ls s (body_parse dbg b ls s).
Proof.
  intros I D. unfold body_parse, usub, MAX_BODY_SIZE. destruct (body_read_so_far b <=? 3145728) eqn:E.
  - apply with_limit_at_most_end; [lia|]. set (ls1 := 3145728 - body_read_so_far b :: ls). destruct b as [st|d|c|].
    + pose proof (frugal_weaken _ _ _ (bytes_frugal st ls1 s)) as H. destruct (bytes_deframe st ls1 s) as [[[v|b k|e|] l1] s1]; exact H.
    + pose proof (eof_frugal d ls1 s) as H. destruct (eof_deframe d ls1 s) as [[[v|b k|e|] l1] s1]; exact H.
    + pose proof (frugal_weaken _ _ _ (chunks_loop_frugal (3 * mu s + 4) dbg (c_body c) (c_state c) ls1 s I)) as H. fold (chunks_parse dbg c ls1 s) in H.
      destruct (chunks_parse dbg c ls1 s) as [[[v|b k|e|] l1] s1]; exact H.
    + apply frugal_weaken, frugal_here.
  - destruct D as [D| ->]; [lia|]. exists []. rewrite dec_lims_nil. split; [cbn; lia|]. split; auto. split; [apply fits_nil|]. apply takes_ends, tk_nil.
Qed.

(** What the rest of the message may still take. *)
Definition allowance {T} (st : msg_st T) : N :=
  match st with MFirst _ => 3150336 | MHeaders _ _ => 3149824 | MBody _ _ _ => 3145728 | MFinished _ _ _ => 0 end.
Definition msg_line_inv {T} (st : msg_st T) : Prop :=
  match st with MFirst l => line_inv l | MHeaders _ h => line_inv (h_line h) | MBody _ _ b => body_line_inv b | _ => True end.
(** The budgets do not underflow. *)
Definition msg_budget {T} (st : msg_st T) : Prop :=
  match st with MHeaders _ h => h_read h <= 4096 | MBody _ _ b => body_read_so_far b <= 3145728 | _ => True end.

Lemma at_most_end_then {T S} n m ls s w ls1 s1 (o : out T S) : len w <= m -> ls1 = dec_lims w ls -> fits w ls -> takes s w s1 -> at_most_end n ls1 s1 o ->
  at_most_end (m + n) ls s o.
Proof.
  intros L -> F T1. destruct o as [[r ls'] s']. intros (w' & L' & -> & F' & H). exists (w ++ w'). rewrite dec_lims_app, len_app. split; [lia|]. split; auto.
  split; [now apply fits_app|]. eapply takes_then_ends; eauto.
Qed.
Lemma at_most_end_le {T S} n m ls s (o : out T S) : n <= m -> at_most_end n ls s o -> at_most_end m ls s o.
Proof. intros L. destruct o as [[r ls'] s']. intros (w & H). exists w. split; [lia|apply H]. Qed.
Lemma at_most_end_io {T S T' S'} n ls s (r : pres T S) ls1 s1 (r' : pres T' S') : at_most_end n ls s (r, ls1, s1) -> at_most_end n ls s (r', ls1, s1).
Proof. auto. Qed.
Lemma at_most_end_here {T S} ls s (r : pres T S) n : at_most_end n ls s (r, ls, s).
Proof. exists []. rewrite dec_lims_nil. split; [cbn; lia|]. split; auto. split; [apply fits_nil|apply takes_ends, tk_nil]. Qed.
Lemma at_most_weaken {T S} n ls s (o : out T S) : at_most n ls s o -> at_most_end n ls s o.
Proof. destruct o as [[r ls'] s']. intros (w & H0 & H1 & H2 & H3). exists w. repeat (split; auto). destruct r; auto. now apply takes_ends. Qed.

Lemma body_new_inv hm flag b : body_new hm flag = inr b -> body_line_inv b /\ body_read_so_far b <= 3145728.
Proof.
  unfold body_new, MAX_BODY_SIZE. destruct (get_content_length hm) as [[e|n]|].
  - discriminate.
  - destruct (3145728 <? n) eqn:E; [discriminate|]. intros H. inversion H; subst. split; [exact I|]. cbn. lia.
  - destruct (is_chunked hm); [|destruct flag]; intros H; inversion H; subst; (split; [|cbn; lia]); cbn; auto using line_inv_nil.
Qed.

(** At the end of the stream a body can be complete, but nothing is read after that. *)
Lemma msg_loop_frugal {T} (pf : bytes -> perr + T) dbg flag fuel : forall st ls s, msg_line_inv st -> msg_budget st \/ dbg = true ->
  at_most_end (allowance st) ls s (msg_loop fuel pf dbg flag st ls s).
Proof.
  induction fuel as [|f IH]; intros st ls s I D; cbn [msg_loop]; [apply at_most_end_here|].
  destruct st as [l|t h|t hm b|t hm body]; [| | |apply at_most_end_here].
  - unfold first_line_state, first_parse. cbn [msg_line_inv] in I. pose proof (crlf_frugal dbg l ls s I) as H.
    destruct (crlf_parse dbg l ls s) as [[r ls1] s1]. cbn [allowance]. destruct r as [l'|p k|e|];
      try (eapply at_most_end_le; [|apply (at_most_end_io 512 _ _ _ _ _ _ (at_most_weaken _ _ _ _ H))]; lia).
    destruct (pf l') as [e|t]; [eapply at_most_end_le; [|apply (at_most_end_io 512 _ _ _ _ _ _ (at_most_weaken _ _ _ _ H))]; lia|].
    destruct H as (w & H0 & H1 & H2 & H3). change 3150336 with (512 + 3149824). eapply at_most_end_then; eauto.
    apply (IH (MHeaders t hdr_new)); [apply line_inv_nil|left; cbn; lia].
  - unfold headers_state. cbn [msg_line_inv msg_budget] in *. pose proof (hdr_parse_frugal dbg h ls s I D) as H.
    destruct (hdr_parse dbg h ls s) as [[r ls1] s1]. cbn [allowance]. destruct r as [hm|p k|e|];
      try (eapply at_most_end_le; [|apply (at_most_end_io 4096 _ _ _ _ _ _ (at_most_weaken _ _ _ _ H))]; lia).
    destruct (body_new hm flag) as [e|b] eqn:Eb; [eapply at_most_end_le; [|apply (at_most_end_io 4096 _ _ _ _ _ _ (at_most_weaken _ _ _ _ H))]; lia|].
    destruct H as (w & H0 & H1 & H2 & H3). change 3149824 with (4096 + 3145728). eapply at_most_end_then; eauto.
    apply body_new_inv in Eb as [B1 B2]. apply (IH (MBody t hm b)); auto.
  - unfold body_state. cbn [msg_line_inv msg_budget] in *. pose proof (body_parse_frugal dbg b ls s I D) as H.
    destruct (body_parse dbg b ls s) as [[r ls1] s1]. cbn [allowance]. destruct r as [body|p k|e|]; try exact H.
    destruct f as [|f]; exact H.
Qed.

Lemma req_frugal dbg st s r s' : msg_line_inv st -> msg_budget st \/ dbg = true -> req_parse dbg st s = (r, s') ->
  exists w, len w <= allowance st /\ ends s w s'.
Proof.
  intros I D. unfold req_parse, msg_parse. pose proof (msg_loop_frugal parse_request_line dbg false 4 st [] s I D) as H.
  destruct (msg_loop 4 parse_request_line dbg false st [] s) as [[rr ls1] s1]. destruct H as (w & H1 & _ & _ & H2).
  intros E. exists w. destruct rr as [[[[m u] hm] body]|st' k|e|]; inversion E; subst; auto.
Qed.
Lemma resp_frugal dbg st s r s' : msg_line_inv st -> msg_budget st \/ dbg = true -> resp_parse dbg st s = (r, s') ->
  exists w, len w <= allowance st /\ ends s w s'.
Proof.
  intros I D. unfold resp_parse, msg_parse. pose proof (msg_loop_frugal parse_status_line dbg true 4 st [] s I D) as H.
  destruct (msg_loop 4 parse_status_line dbg true st [] s) as [[rr ls1] s1]. destruct H as (w & H1 & _ & _ & H2).
  intros E. exists w. destruct rr as [[[t hm] body]|st' k|e|]; inversion E; subst; auto.
Qed.

(** In pieces. *)
Lemma takes_events s w s' : takes s w s' -> ~ In (RErr Interrupted) s -> (List.length s <= List.length s' + List.length w)%nat.
Proof.
  induction 1 as [s|s w s' H IH|bs s w s' Hb H IH|a b s Ha Hb]; intros N.
  - lia.
  - exfalso. apply N. now left.
  - cbn [List.length]. rewrite app_length. assert (1 <= List.length bs)%nat by (destruct bs; [congruence|cbn; lia]).
    specialize (IH (fun K => N (or_intror K))). lia.
  - cbn [List.length]. lia.
Qed.
Lemma ends_events s w s' : ends s w s' -> ~ In (RErr Interrupted) s -> (List.length s <= List.length s' + List.length w + 1)%nat.
Proof. intros (t & T & [-> |(e & -> & _)]) N; apply takes_events in T; auto; cbn [List.length] in T; lia. Qed.
Lemma ends_pending s w s' : ends s w s' -> pending s = w ++ pending s'.
Proof.
  intros (t & T & [-> |(e & -> & N)]); rewrite (takes_pending _ _ _ T); auto. f_equal. destruct e; cbn [pending] in *; auto.
  apply app_eq_nil in N as [-> _]. reflexivity.
Qed.
