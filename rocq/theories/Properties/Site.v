(** The example program, the whole server and clients: C91. *)
From Coq Require Import List Ascii String NArith Bool Arith Lia.
From Verif.Model Require Import Bytes Io Common Parse Encode Writer Server Client Router Files Slab Poll Whole Full.
From Verif.Spec Require Import Batch Stream Drive Numerals Names Grammar Wire Output Session Exchange Dialogue Traces Arrivals Events World Tree Site.
From Verif.Proofs Require Import BytesFacts CommonFacts IoFacts ParseFacts GrammarFacts EncodeFacts LimitFacts RouterFacts FilesFacts WorldFacts.
From Verif.Properties Require Import RoundTrip Server Client Router Files Whole Full World.
Import ListNotations.
Local Open Scope N_scope.

(** ** The program *)

Lemma message_not_first u : message_uri <> first_site ++ u. Proof. discriminate. Qed.
Lemma asks_file_one q p1 p2 : asks_file q p1 -> asks_file q p2 -> p1 = p2.
Proof.
  intros [u U|u U N1 N2] [v V|v V M1 M2].
  - rewrite U in V. apply app_inv_head in V. now subst.
  - exfalso. exact (M2 _ U).
  - exfalso. exact (N2 _ V).
  - rewrite U in V. now inversion V.
Qed.
Lemma message_no_file q p : rq_uri q = message_uri -> ~ asks_file q p.
Proof. intros E [u U|u U N1 N2]; [rewrite E in U; exact (message_not_first _ U)|contradiction]. Qed.

(** Whatever was requested before, and however the files change. *)
Theorem C91_program : forall fs rq calls, utf8 (rq_uri rq) = true ->
  serves (fun f => exists n, f = fs n) rq (snd (router_result (main_behaviour fs) main_routes rq calls)).
Proof.
  intros fs rq calls U. destruct (C68_main fs rq calls U) as (H1 & H2 & H3 & H4).
  destruct (beqb (rq_uri rq) message_uri) eqn:E1; [apply beqb_eq in E1; rewrite (H1 E1); now apply serves_message|]. apply beqb_neq in E1.
  destruct (starts_with first_site (rq_uri rq)) eqn:E2.
  - apply starts_with_spec in E2 as (u & E2). destruct (H2 u E2) as (k & _ & ->). apply serves_file; [eauto|]. now apply asks_first.
  - assert (N : forall v, rq_uri rq <> first_site ++ v).
    { intros v K. assert (starts_with first_site (rq_uri rq) = true) by (apply starts_with_spec; eauto). congruence. }
    destruct (starts_with [SLASH] (rq_uri rq)) eqn:E3.
    + apply starts_with_spec in E3 as (u & E3). destruct (H3 u E3 E1 N) as (k & _ & ->). apply serves_file; [eauto|]. now apply asks_second.
    + assert (N3 : forall u, rq_uri rq <> SLASH :: u).
      { intros u K. assert (starts_with [SLASH] (rq_uri rq) = true) by (apply starts_with_spec; exists u; exact K). congruence. }
      rewrite (H4 N3). now apply serves_nothing.
Qed.
Print Assumptions C91_program.

(** ... also if calls of the listeners overlap (C52): what a call returns is a response of [serves]. *)
Theorem C91_program_threads : forall dir f ls s a path r l b q, Files.frun dir (ff_init f) ls s -> ls = a ++ l :: b -> returns path r l ->
  asks_file q path -> serves (fun g => exists a1, g = disk f a1 /\ exists a2, a = a1 ++ a2) q (LSend r).
Proof.
  intros dir f ls s a path r l b q H E R A. destruct (C52_described _ _ _ _ _ _ _ _ _ H E R) as (_ & a1 & t & a2 & Ea & ->).
  apply serves_file; auto. exists a1. split; eauto.
Qed.
Print Assumptions C91_program_threads.

(** A router that does that. *)
Definition site_router (f : fsys) : router := fun _ q =>
  if beqb (rq_uri q) message_uri then LSend secret_response
  else if starts_with first_site (rq_uri q) then LSend (file_response f (file_path (main_directory 1) (skipn (List.length first_site) (rq_uri q))))
  else match rq_uri q with x :: u => if Ascii.eqb x SLASH then LSend (file_response f (file_path (main_directory 2) u)) else LNext | [] => LNext end.
Lemma site_router_serves (F : fsys -> Prop) f : F f -> forall h q, serves F q (site_router f h q).
Proof.
  intros Hf h q. unfold site_router. destruct (beqb (rq_uri q) message_uri) eqn:E1; [apply beqb_eq in E1; now apply serves_message|]. apply beqb_neq in E1.
  destruct (starts_with first_site (rq_uri q)) eqn:E2.
  - apply starts_with_spec in E2 as (u & E2). apply serves_file; auto. rewrite E2, skipn_app, skipn_all, Nat.sub_diag. cbn [skipn app].
    now apply asks_first.
  - assert (N : forall v, rq_uri q <> first_site ++ v).
    { intros v K. assert (starts_with first_site (rq_uri q) = true) by (apply starts_with_spec; eauto). congruence. }
    destruct (rq_uri q) as [|x u] eqn:Eu; [apply serves_nothing; intros v; congruence|].
    destruct (Ascii.eqb_spec x SLASH) as [->|Nx]; [|apply serves_nothing; intros v; congruence].
    apply serves_file; auto. apply asks_second; congruence.
Qed.
Lemma serves_router F : (exists f, F f) -> has_router (fun _ => serves F).
Proof. intros (f & Hf) c. exists (site_router f). now apply site_router_serves. Qed.
(** ** The responses *)

Lemma type_text ty path : type_of path ty -> text ty /\ len ty <= 30.
Proof.
  intros [(stem & suf & _ & I)|[_ ->]].
  - cbn [types In] in I. repeat (destruct I as [I|I]; [inversion I; subst; split; [split; [reflexivity|vm_compute; intuition discriminate]|vm_compute; discriminate]|]).
    destruct I.
  - split; [split; [reflexivity|vm_compute; intuition discriminate]|vm_compute; discriminate].
Qed.

Definition file_headers (v ty : bytes) : header_map := from_pairs [(CONTENT_LENGTH, v); (CONTENT_TYPE, ty)].
Lemma file_headers_eq v ty : file_headers v ty = [(CONTENT_LENGTH, [v]); (CONTENT_TYPE, [ty])].
Proof. reflexivity. Qed.

Lemma line_ok k v : text (header_str k) -> ~ In SP (header_str k) -> text v -> header_ok (header_str k, v).
Proof.
  intros Tk Nk Tv. split; cbn [fst snd].
  - apply text_app; auto. apply text_app; auto. split; [reflexivity|vm_compute; intuition discriminate].
  - intros (a & r & H). apply Nk. rewrite H. apply in_or_app. right. right. now left.
Qed.
Lemma file_headers_good v ty : text v -> text ty -> good_headers (file_headers v ty).
Proof.
  intros Tv Tt. rewrite file_headers_eq. split; [repeat constructor; cbn; intuition discriminate|].
  constructor; [|constructor; [|constructor]]; cbn [fst snd]; (split; [reflexivity|]; split; [discriminate|]; constructor; [|constructor]);
    apply line_ok; auto; try (split; [reflexivity|]); vm_compute; intuition discriminate.
Qed.
Lemma file_headers_fit n v ty body : n <= 510 -> len v <= 100 -> len ty <= 30 -> 2 * len body <= 3145728 -> fits_limits n (file_headers v ty) body.
Proof.
  intros Hn Hv Ht Hb. rewrite file_headers_eq. split; auto. unfold pairs_of, header_lines, header_line. cbn [flat_map map fst snd app List.concat].
  change (len (header_str CONTENT_LENGTH)) with 14. change (len (header_str CONTENT_TYPE)) with 12. split.
  - constructor; [|constructor; [|constructor]]; cbn [fst snd]; [change (len (header_str CONTENT_LENGTH)) with 14|change (len (header_str CONTENT_TYPE)) with 12]; lia.
  - split; auto. rewrite !len_app. change (len (header_str CONTENT_LENGTH)) with 14. change (len (header_str CONTENT_TYPE)) with 12.
    change (len (lit ": ")) with 2. change (len crlf) with 2. rewrite len_nil. lia.
Qed.

Lemma file_response_ok f path : (forall b, fs_read f path = Some b -> len b <= 1572864) -> ok_response (file_response f path).
Proof.
  intros H. pose proof (file_response_describes f path) as D. unfold file_response in *. destruct (fs_read f path) as [b|] eqn:E.
  2:{ destruct (conversion_good (response_of_status STATUS_NOT_FOUND)) as (H1 & H2 & H3 & _); [left; exists STATUS_NOT_FOUND; split; auto; vm_compute; tauto|].
      split; auto. }
  specialize (H b eq_refl). fold (file_headers (dec (len b)) (get_content_type path)).
  assert (T : text (get_content_type path) /\ len (get_content_type path) <= 30) by (apply (type_text _ path), type_of_content_type).
  destruct T as [T1 T2]. split; [|split].
  - split; [now left|]. split; [apply file_headers_good; auto; apply text_dec|]. split; [reflexivity|apply dec_denotes].
  - apply file_headers_fit; auto; [vm_compute; discriminate| |cbn [rs_body]; lia].
    pose proof (dec_aux_len (S (N.size_nat (len b))) 6 (len b) []) as L. change (10 ^ N.succ 6) with 10000000 in L. unfold dec. rewrite len_nil in L. lia.
  - discriminate.
Qed.
Lemma secret_ok : ok_response secret_response.
Proof.
  split; [|split; [|discriminate]].
  - split; [now left|]. split; [apply good_cl; split; [reflexivity|vm_compute; intuition discriminate]|]. split; [reflexivity|].
    change (lit "29") with (dec 29). apply (dec_denotes 29).
  - apply cl_fits; vm_compute; discriminate.
Qed.

(** The files that these requests ask for can be read by a client. *)
Definition small_files (F : fsys -> Prop) (qs : list request) : Prop :=
  forall q path f b, In q qs -> asks_file q path -> F f -> fs_read f path = Some b -> len b <= 1572864.

Lemma asks_same v q path : same_request v q -> asks_file v path -> asks_file q path.
Proof. intros (_ & E & _) [u U|u U N1 N2]; [apply asks_first|apply asks_second]; rewrite <- E; auto. Qed.

Lemma serves_readable F c qs : small_files F qs -> (forall q, In q qs -> exists u, rq_uri q = SLASH :: u) -> readable_answers (fun _ => serves F) c qs.
Proof.
  intros Sm Sl. split; [intros q l _ [| |]; discriminate|]. intros q v l I Sv [E|f path Hf A|N].
  - exists secret_response. split; auto. apply secret_ok.
  - exists (file_response f path). split; auto. apply file_response_ok. intros b Hb. eapply (Sm q path f b); eauto. eapply asks_same; eauto.
  - exfalso. destruct (Sl q I) as (u & K). destruct Sv as (_ & E & _). apply (N u). congruence.
Qed.

Lemma right_from F q v a r : same_request v q -> serves F v (LSend a) -> same_response r a -> right_result F q r.
Proof.
  intros Q S (R1 & R2 & R3). pose proof Q as (_ & Q2 & _). split.
  - intros E. inversion S as [_ Ea|f path Hf A Ea|]; subst; [rewrite R1, R3; split; reflexivity|].
    exfalso. apply (message_no_file v path); congruence.
  - intros path A. inversion S as [E Ea|f path' Hf A' Ea|]; subst.
    + exfalso. apply (message_no_file q path); congruence.
    + assert (path' = path) as -> by exact (asks_file_one q _ _ (asks_same v q _ Q A') A).
      exists f. split; auto. unfold gives. rewrite R1, R3. unfold file_response in *. destruct (fs_read f path) as [b|].
      * split; [reflexivity|]. split; [reflexivity|]. exists (get_content_type path). split; [apply type_of_content_type|]. rewrite R2. reflexivity.
      * split; reflexivity.
Qed.

(** ** The whole way *)

Section Way.
Variables (dbg : bool) (F : fsys -> Prop) (client : nat -> bool) (size : nat) (socks : nat -> sock) (ls : list flabel) (w : world) (c : nat).
Let p := wo_peer w c.
Hypothesis (Ff : exists f, F f).
Hypothesis (H : history dbg (fun _ => serves F) client (world_init size socks) ls w).
Hypothesis (Cl : client c = true).
Hypothesis (V : Forall visit_fine (calls c (wparts ls))) (Sh : Forall visit_steady (calls c (wparts ls))).
Hypothesis (P : Forall plain_request (asked p)) (A : forall q, In q (asked p) -> ~ asks_close q).
Hypothesis (Sl : forall q, In q (asked p) -> exists u, rq_uri q = SLASH :: u) (Sm : small_files F (asked p)).

(** Every response that a client gets is the message, or the file it asked for, byte for byte, with its type, or a 404
    if there is no such file. *)
Theorem C91_received : forall q r, In (q, COk r) (pe_done p) -> right_result F q r.
Proof.
  intros q r I. destruct (C72_own dbg (fun _ => serves F) client size socks ls w c p q r (serves_router F Ff) H Cl eq_refl (serves_readable F c _ Sm Sl) V (or_introl Sh) P A I)
    as (v & a & Sv & S & Sr). eapply right_from; eauto.
Qed.

(** And it gets it. *)
Theorem C91_answered : forall x q, accepted_here c ls -> never_removed c ls -> nth_error (ws_conns (f_w (wo_server w))) c = Some x ->
  resting dbg (fun _ => serves F) (wo_server w) -> worker_left (f_w (wo_server w)) = true -> flushed (as_slot (wc_slot x)) ->
  pe_doing p = Some q -> pe_out p = [] -> pe_heard p = sent_on c (wo_server w) ->
  exists r i, resp_parse dbg resp_new (cs_in (pe_stream p)) = (PDone r, i) /\ right_result F q r.
Proof.
  intros x q Ac Nr N Rest Left Fl Dq Po Ph.
  destruct (C72_answered dbg (fun _ => serves F) client size socks ls w c p x q (serves_router F Ff) H Cl eq_refl (serves_readable F c _ Sm Sl) V (or_introl Sh) P A
    Ac Nr N Rest Left Fl Dq Po Ph) as (r & i & v & a & Ep & Sv & S & Sr). exists r, i. split; auto. eapply right_from; eauto.
Qed.
End Way.
Print Assumptions C91_received.
Print Assumptions C91_answered.

(** ** Larger files *)

Lemma denotes_fun l n m : denotes 10 l n -> denotes 10 l m -> n = m.
Proof.
  intros Hn Hm. assert (parse_uint 10 (N.max n m) l = Some n) by (apply parse_uint_spec; [lia|split; [auto|lia]]).
  assert (parse_uint 10 (N.max n m) l = Some m) by (apply parse_uint_spec; [lia|split; [auto|lia]]). congruence.
Qed.

(** What a client reads in one call is framed by a length of at most 1.5 MiB, however the bytes arrive. *)
Lemma one_call_small dbg s r s' a rest : resp_parse dbg resp_new s = (PDone r, s') ->
  pending s = write_response a ++ rest -> library_status (rs_status a) -> good_headers (rs_headers a) ->
  get_first_header_value (rs_headers a) (header_from (lit "content-length")) = Some (dec (len (rs_body a))) -> 2 * len (rs_body a) <= 3145728.
Proof.
  intros E Ep Hs Hg Hl. unfold resp_parse in E.
  destruct (msg_parse parse_status_line dbg true resp_new [] s) as [[r1 ls1] s1] eqn:Em.
  destruct r1 as [[[t hm] body]|st1 k1|e|]; inversion E; subst; clear E.
  apply msg_fresh_done in Em as (l & wl & sa & wh & sb & bs & T1 & H1 & Hp & T2 & H2 & _ & Hb & Eb).
  apply takes_pending in T1, T2. destruct (response_first_ok a Hs) as (Hp' & Ht & _).
  rewrite T1, write_response_eq, <- !app_assoc in Ep. specialize (H1 (pending sa)). rewrite Ep, cut_line_text in H1 by exact Ht.
  inversion H1 as [[Hl1 Hl2]]. specialize (H2 (pending sb)). rewrite <- T2, <- Hl2 in H2.
  change (CR :: LF :: rs_body a ++ rest) with (crlf ++ rs_body a ++ rest) in H2. rewrite batch_headers_complete in H2 by now apply good_lines.
  inversion H2 as [[Hh1 Hh2]]. clear H1 H2.
  destruct (first_named _ _ (lit "content-length") (good_equiv _ Hg)) as (cl & Hc1 & Hc2). rewrite Hl in Hc2. destruct cl as [|v vs]; inversion Hc2; subst v.
  pose proof (framing_body_new hm true) as Fb. rewrite Hb in Fb. destruct Fb as (_ & fr & Hf & _).
  destruct (body_parse_fresh _ _ _ _ _ _ _ _ Hb Eb) as [_ Sz].
  pose proof (get_first_named hm _ _ _ ltac:(rewrite <- Hh1; apply headers_are_pairs) Hc1) as Hv.
  unfold framing_of in Hf, Sz. rewrite CONTENT_LENGTH_from, Hv in Hf, Sz. destruct (parse_uint 10 USIZE_MAX (dec (len (rs_body a)))) as [n|] eqn:En; [|discriminate].
  apply parse_uint_spec in En as [En _]; [|lia]. assert (n = len (rs_body a)) as -> by (eapply denotes_fun; [exact En|apply dec_denotes]).
  destruct (len (rs_body a) <=? MAX_BODY_SIZE); [|discriminate]. destruct (Sz _ eq_refl) as [Z|Z]; lia.
Qed.

(** No client gets a larger file: neither attempt of a send returns it, however the bytes arrive. *)
Theorem C91_large_refuted : forall dbg f path b s q r s' rest, fs_read f path = Some b -> 1572864 < len b ->
  pending (cs_in s) = write_response (file_response f path) ++ rest -> send_request dbg s q <> (COk r, s').
Proof.
  intros dbg f path b s q r s' rest Hb L Ep E. unfold send_request in E. destruct (put_request s q) as [[u|k] c1] eqn:Eq; [|discriminate].
  assert (cs_in c1 = cs_in s) as Ei by (unfold put_request in Eq; destruct (put_pieces _ _ _) as [[? ?] ?]; inversion Eq; reflexivity).
  rewrite Ei in E. destruct (resp_parse dbg resp_new (cs_in s)) as [x i] eqn:Er. destruct x as [v| | |]; inversion E; subst.
  assert (T : text (get_content_type path)) by (apply (type_text _ path), type_of_content_type).
  assert (K : 2 * len (rs_body (file_response f path)) <= 3145728); [|unfold file_response in K; rewrite Hb in K; cbn [rs_body] in K; lia].
  eapply one_call_small; eauto; unfold file_response; rewrite Hb; cbn [rs_status rs_headers rs_body]; [now left| |reflexivity].
  apply file_headers_good; auto. apply text_dec.
Qed.
Print Assumptions C91_large_refuted.

(** ** A case *)

(** A file system with one page; one client, one worker; the client asks for "/". *)
Definition page : bytes := lit "<p>hello</p>".
Definition folder (name : string) (n : node) : node := NDir [(lit name, n)].
Definition disk_with (b : bytes) : fsys := mk_fsys
  (folder "Users" (folder "Ben" (folder "Code" (folder "ReactTetris" (folder "tetris-app" (folder "build" (folder "index.html" (NFile b)))))))) (lit "/").
Definition small_disk : fsys := disk_with page.
Definition disks (f : fsys) : Prop := f = small_disk.
Definition only_client (c : nat) : bool := (c =? 0)%nat.

Lemma get_root_asks path : asks_file get_root path -> fs_read small_disk path = Some page.
Proof.
  intros A. rewrite (asks_file_one get_root path (file_path (lit "/Users/Ben/Code/ReactTetris/tetris-app/build/") [])); [vm_compute; reflexivity|auto|].
  apply asks_second; [reflexivity|discriminate|intros v; discriminate].
Qed.

Definition page_response : bytes := Eval vm_compute in write_response (file_response small_disk (file_path (main_directory 2) [])).

Example C91_case : exists ls w x, history true (fun _ => serves disks) only_client (world_init 1 willing) ls w /\
  Forall visit_fine (calls 0 (wparts ls)) /\ Forall visit_steady (calls 0 (wparts ls)) /\
  Forall plain_request (asked (wo_peer w 0)) /\ (forall q, In q (asked (wo_peer w 0)) -> ~ asks_close q) /\
  (forall q, In q (asked (wo_peer w 0)) -> exists u, rq_uri q = SLASH :: u) /\ small_files disks (asked (wo_peer w 0)) /\
  accepted_here 0 ls /\ never_removed 0 ls /\ nth_error (ws_conns (f_w (wo_server w))) 0 = Some x /\
  resting true (fun _ => serves disks) (wo_server w) /\ worker_left (f_w (wo_server w)) = true /\ flushed (as_slot (wc_slot x)) /\
  pe_doing (wo_peer w 0) = Some get_root /\ pe_out (wo_peer w 0) = [] /\ pe_heard (wo_peer w 0) = sent_on 0 (wo_server w) /\
  exists r w', history true (fun _ => serves disks) only_client (world_init 1 willing) ls w' /\ pe_done (wo_peer w' 0) = [(get_root, COk r)] /\
    rs_body r = page.
Proof.
  pose proof (history_nil true (fun _ => serves disks) only_client (world_init 1 willing)) as Rn.
  hsrv Rn ltac:(fpoll [EvListener]).
  hsrv Rn ltac:(fmain Listening ltac:(apply step_listen; reflexivity)).
  hsrv Rn ltac:(faccept 0%nat).
  hsrv Rn ltac:(fmain Blocked ltac:(apply step_blocked; reflexivity)).
  hgo Rn ltac:(hsend 0%nat get_root).
  hgo Rn ltac:(harrive 0%nat 0%nat (write_request get_root)).
  hsrv Rn ltac:(fpoll [EvSocket 0 0 false]).
  hsrv Rn ltac:(fready 0%nat (Some 0%nat)).
  hsrv Rn ltac:(eapply fs_work; [|eapply (ws_take _ _ _ 0 0); reflexivity]; reflexivity).
  hsrv Rn ltac:(eapply fs_work; [|eapply (ws_enter _ _ _ 0 0 _ _ ample (site_router small_disk)); [reflexivity|reflexivity|reflexivity|reflexivity|apply site_router_serves; reflexivity]]; reflexivity).
  hsrv Rn ltac:(eapply fs_work; [|eapply (ws_read _ _ _ 0 0 _ _ _ _ _ (RData (write_request get_root)) []); [reflexivity|reflexivity|reflexivity|served|reflexivity]]; reflexivity).
  hsrv Rn ltac:(eapply fs_work; [|eapply (ws_drain _ _ _ 0 0); [reflexivity|reflexivity|reflexivity|served|reflexivity]]; reflexivity).
  hsrv Rn ltac:(eapply fs_end; [|eapply (ws_keep _ _ _ 0 0); [reflexivity|reflexivity|reflexivity|served]|eapply (step_finished _ 0 false); cbn; auto]; reflexivity).
  hgo Rn ltac:(hhear 0%nat page_response (@nil byte)).
  pose proof Rn as Rn2.
  hgo Rn2 ltac:(eapply (hp_return _ _ _ _ 0); [reflexivity|vm_compute; reflexivity|reflexivity|vm_compute; reflexivity]).
  assert (V : visit_fine ample) by (split; [apply Forall_forall; intros e H; apply repeat_spec in H; subst; exact Logic.I|constructor]).
  assert (Vs : visit_steady ample).
  { intros a b n E. exfalso. assert (K : In (WFail WouldBlock) (v_events ample)) by (rewrite E; apply in_or_app; right; now left).
    apply repeat_spec in K. discriminate. }
  do 3 eexists. split; [exact Rn|]. split; [repeat (constructor; auto)|]. split; [repeat (constructor; auto)|].
  split; [repeat (constructor; [exact (proj1 get_root_plain)|]); constructor|].
  split; [intros q [<- |[]]; exact (proj1 (proj2 get_root_plain))|].
  split; [intros q [<- |[]]; eexists; reflexivity|].
  split; [intros q path f b [<- |[]] A -> E; rewrite (get_root_asks _ A) in E; injection E as <-; vm_compute; discriminate|].
  split; [unfold accepted_here; cbn [In app]; intuition|].
  split; [intros c' K; cbn [In app] in K; intuition discriminate|]. split; [reflexivity|].
  split; [|split; [reflexivity|]; split; [vm_compute; reflexivity|]; split; [reflexivity|]; split; [reflexivity|]; split; [vm_compute; reflexivity|];
    do 2 eexists; split; [exact Rn2|]; split; vm_compute; reflexivity].
  intros l st' S'. cbn [wo_server] in S'.
  match type of S' with fstep _ _ ?s _ _ =>
    assert (Qw : forall l w', wstep true (fun _ => serves disks) (f_w s) l w' -> outside l = true);
    [|assert (Qp : forall l p', pstep (f_p s) l p' -> l = Polled \/ exists d b, l = Finished d b)] end.
  - clear. intros l w' S. inversion S; subst; auto; cbn [f_w ws_conns ws_queue ws_workers] in *; exfalso;
      repeat match goal with
      | H : nth_error _ ?i = Some _ |- _ => is_var i; destruct i as [|i]; cbn [nth_error] in H; try discriminate; try (injection H as <-; cbn in *)
      end; try discriminate; try congruence.
  - clear. intros l p' S. inversion S; subst; try discriminate; eauto.
  - inversion S' as [? ? ? ? ? G S|? ? ? ? G S|? p' S F|? l0 p' M S|? c ok p' S|? c r p' S A|? l0 w' I S|? l0 d b w' p' E S S0]; subst; auto.
    + inversion S; subst. cbn [p_batch from_outside]. destruct evs as [|[|c t b] evs]; auto. exfalso.
      destruct (F c t b (or_introl eq_refl)) as (x & N & Ex). destruct c as [|c]; cbn in N; [|destruct c; discriminate]; injection N as <-; discriminate.
    + destruct (Qp _ _ S) as [-> |(d & b & ->)]; discriminate.
    + destruct (Qp _ _ S) as [H|(d & b & H)]; discriminate.
    + specialize (Qw _ _ S). destruct l0; discriminate.
    + specialize (Qw _ _ S). destruct l0; discriminate.
Qed.

Example C91_large_case : forall n, 1572864 < N.of_nat n -> exists f path b, fs_read f path = Some b /\ 1572864 < len b /\ List.length b = n.
Proof.
  intros n L. exists (disk_with (repeat "x"%char n)), (file_path (main_directory 2) []), (repeat "x"%char n). split; [reflexivity|].
  unfold len. rewrite repeat_length. split; [lia|auto].
Qed.
