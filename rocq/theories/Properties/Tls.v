(** C93: the server's connections on TLS (listen_https). *)
From Coq Require Import List Ascii String NArith ZArith Bool Lia.
From Verif.Model Require Import Bytes Io Common Parse Encode Writer Server Client Generic Buffered Streams Tls.
From Verif.Spec Require Import Batch Stream Drive Numerals Grammar Wire Output Unicode Session Exchange Buffering Streams.
From Verif.Proofs Require Import DriveFacts ServerFacts BufferedFacts BufferedConnFacts RecutFacts StreamsFacts TlsFacts.
From Verif.Properties Require Import Streaming RoundTrip Server Client Buffered Streams.
From Verif.Spec Require Import Tls.
Import ListNotations.
Local Open Scope N_scope.

Notation run seal := (t_visits tls tls_read (tls_write seal) tls_flush).
Notation fresh := (TOpen tls (tconn_new tls tls_new)).
Notation at_end st := (stream_of tls st).

(** What happens around a stream that works: it goes on working. *)
Definition goes_well (f : tls -> tls) : Prop := around f /\ forall t, calm t -> calm (f t).

Lemma tls_new_calm : calm tls_new.
Proof. split; [intros _; cbn; auto|]. split; [constructor|]. intros [|] ? ? X; discriminate X. Qed.
Lemma well_outside fs : Forall goes_well fs -> Forall (outside_only tls gave handed) fs.
Proof. apply Forall_impl. intros f [H _]. now apply around_outside. Qed.
Lemma well_lasts seal fs : Forall goes_well fs -> lasts tls tls_read (tls_write seal) tls_flush calm fs.
Proof. intros F. apply tls_lasts. eapply Forall_impl; [|exact F]. intros f [_ H]. exact H. Qed.

(** The requests decrypted are answered as the reference says: what the peer can decrypt is the answers, in order, from the first byte on. *)
Theorem C93_responses : forall seal size fuel dbg rt fs log st eof rx,
  positive size -> seals seal -> Forall goes_well fs -> no_panic rt -> fs <> [] ->
  run seal size READ_BUF_SIZE fuel dbg rt fs [] fresh = Some (log, st) ->
  gave (at_end st) = content rx -> orderly eof rx ->
  match st with
  | TOpen _ c => exists rest, served rt [] (pending rx) false log (delivered (at_end st) ++ rest) true /\
      (ts_queue (at_end st) = [] -> unsent (tb_w tls (tc_stream tls c)) = [] -> rest = [])
  | TGone _ u => exists rest, served rt [] (pending rx) eof log (delivered u ++ rest) false
  | TPoisoned _ u => False
  end.
Proof.
  intros seal size fuel dbg rt fs log st eof rx P Se F Hrt Nf E Er O.
  pose proof (C92_responses tls tls_read (tls_write seal) tls_flush gave handed calm tls_G size fuel dbg rt fs tls_new log st eof rx
    P (tls_honest seal Se) (tls_foresees seal) tls_gentle (well_lasts seal fs F) tls_new_calm (well_outside fs F) eq_refl eq_refl Hrt Nf E Er O) as H.
  destruct st as [c|u|u]; [| |exact H].
  - exists (data_of (map ch_what (ts_queue (tb_in tls (tc_stream tls c)))) ++ unsent (tb_w tls (tc_stream tls c))).
    unfold t_output, handed in H. rewrite <- app_assoc in H. split; [exact H|]. cbn [stream_of]. intros -> ->. reflexivity.
  - destruct H as (rest & H). unfold handed in H. rewrite <- app_assoc in H. eauto.
Qed.

(** Whatever is decrypted, the peer can decrypt a front part of the answers to the requests routed, in order, and the 400 response if any. *)
Theorem C93_any_input : forall seal size fuel dbg rt fs log st,
  positive size -> seals seal -> Forall goes_well fs ->
  run seal size READ_BUF_SIZE fuel dbg rt fs [] fresh = Some (log, st) ->
  exists tail rest, (tail = [] \/ (tail = bad_request /\ exists u, st = TGone tls u)) /\
    replies rt [] log ++ tail = delivered (at_end st) ++ rest.
Proof.
  intros seal size fuel dbg rt fs log st P Se F E.
  destruct (C92_any_input tls tls_read (tls_write seal) tls_flush gave handed calm tls_G size fuel dbg rt fs tls_new log st
    P (tls_honest seal Se) (tls_foresees seal) tls_gentle (well_lasts seal fs F) tls_new_calm (well_outside fs F) eq_refl eq_refl E) as (tail & Ht & H).
  exists tail. destruct st as [c|u|u].
  - rewrite <- H. unfold t_output, handed. rewrite <- app_assoc. eauto.
  - destruct H as (rest & ->). unfold handed. rewrite <- app_assoc. eauto.
  - destruct H as (rest & ->). unfold handed. rewrite <- app_assoc. eauto.
Qed.

(** A request that asks to close is the last, whatever the peer and the socket do. *)
Theorem C93_close_is_last : forall seal size fuel dbg rt fs log st a v l,
  positive size -> seals seal -> Forall around fs ->
  run seal size READ_BUF_SIZE fuel dbg rt fs [] fresh = Some (log, st) ->
  log = a ++ v :: l -> asks_close v -> l = [] /\ forall c, st <> TOpen tls c.
Proof.
  intros seal size fuel dbg rt fs log st a v l P Se F E.
  assert (Fo : Forall (outside_only tls gave handed) fs) by (eapply Forall_impl; [|exact F]; apply around_outside).
  exact (C92_close_is_last tls tls_read (tls_write seal) tls_flush gave handed size fuel dbg rt fs tls_new log st a v l P (tls_honest seal Se) Fo eq_refl eq_refl E).
Qed.

(** Forward invariants of all the calls. *)
Lemma visits_inv seal size fuel dbg rt (Inv : tls -> Prop) :
  (forall n t x t', READ_BUF_SIZE <= n -> tls_read n t = (x, t') -> Inv t -> Inv t') ->
  (forall b t x t', b <> [] -> tls_write seal b t = (x, t') -> Inv t -> Inv t') ->
  (forall t x t', tls_flush t = (x, t') -> Inv t -> Inv t') ->
  forall fs log st log' st', Forall (fun f => forall t, Inv t -> Inv (f t)) fs ->
  run seal size READ_BUF_SIZE fuel dbg rt fs log st = Some (log', st') -> Inv (at_end st) -> Inv (at_end st').
Proof.
  intros R W Fl fs. induction fs as [|f fs IH]; intros log st log' st' F E I; cbn [t_visits] in E; [inversion E; subst; auto|].
  inversion F; subst. destruct (t_handle tls tls_read (tls_write seal) tls_flush size READ_BUF_SIZE fuel dbg rt f log st) as [[l1 s1]|] eqn:Eh; [|discriminate].
  eapply IH; eauto. eapply (t_handle_inv tls tls_read (tls_write seal) tls_flush size READ_BUF_SIZE fuel Inv); eauto.
Qed.

(** A call that keeps the connection waits only for what the event loop will report: everything that has arrived was decrypted, given and
    used, or there is something to send and the socket takes nothing.  (In the second case arrived bytes may be left; the connection is called
    again when the socket takes bytes.) *)
Theorem C93_waits : forall seal size fuel dbg rt fs f log c,
  Forall (fun g => forall t, steady t -> steady (g t)) (fs ++ [f]) ->
  run seal size READ_BUF_SIZE fuel dbg rt (fs ++ [f]) [] fresh = Some (log, TOpen tls c) ->
  tb_buf tls (tc_stream tls c) = [] /\ waits (tb_in tls (tc_stream tls c)).
Proof.
  intros seal size fuel dbg rt fs f log c F E. split; [eapply C92_all_used; exact E|].
  apply Forall_app in F as [F Ff]. inversion Ff as [|? ? Hf _]; subst.
  assert (E3 : exists l st, run seal size READ_BUF_SIZE fuel dbg rt fs [] fresh = Some (l, st) /\
     t_handle tls tls_read (tls_write seal) tls_flush size READ_BUF_SIZE fuel dbg rt f l st = Some (log, TOpen tls c)).
  { clear - E. revert E. generalize fresh (@nil request). induction fs as [|g fs IH]; intros s l; cbn [app t_visits].
    - destruct (t_handle tls tls_read (tls_write seal) tls_flush size READ_BUF_SIZE fuel dbg rt f l s) as [[l1 s1]|] eqn:Eh; [|discriminate]. intros X. inversion X; subst. eauto.
    - destruct (t_handle tls tls_read (tls_write seal) tls_flush size READ_BUF_SIZE fuel dbg rt g l s) as [[l1 s1]|]; [apply IH|discriminate]. }
  destruct E3 as (l & st & E1 & E2).
  assert (S0 : steady tls_new) by (split; [constructor|]; split; intros [|] ? *; discriminate).
  assert (Rd : forall n t x t', READ_BUF_SIZE <= n -> tls_read n t = (x, t') -> steady t -> steady t') by (intros n t x t' _ X H; exact (proj1 (read_steady _ _ _ _ X H))).
  assert (Wr : forall b t x t', b <> [] -> tls_write seal b t = (x, t') -> steady t -> steady t') by (intros b t x t' _; apply write_steady).
  pose proof (visits_inv seal size fuel dbg rt steady Rd Wr flush_steady _ _ _ _ _ F E1 S0) as S1.
  refine (handle_Q tls tls_read (tls_write seal) tls_flush size READ_BUF_SIZE fuel steady Rd Wr flush_steady waits _ _ _ _ _ _ _ _ Hf E2 S1).
  intros m t t' _ X H. exact (proj2 (read_steady _ _ _ _ X H) eq_refl).
Qed.

(** Whatever the peer and the socket do: until the handshake is over no byte is read as part of a request, none is accepted for sending. *)
Theorem C93_handshake_first : forall seal size fuel dbg rt fs log st,
  Forall around fs -> run seal size READ_BUF_SIZE fuel dbg rt fs [] fresh = Some (log, st) ->
  ts_hs (at_end st) = true -> handed (at_end st) = [] /\ forall bs, In (inr bs) (ts_seen (at_end st)) -> bs = [].
Proof.
  intros seal size fuel dbg rt fs log st F E H.
  assert (X : early (at_end st)).
  { apply (visits_inv seal size fuel dbg rt early) with (5 := E).
    - intros n t x t' _. apply read_early.
    - intros b t x t' _. apply write_early.
    - apply flush_early.
    - eapply Forall_impl; [|exact F]. intros f A t. destruct (A t) as (rx & tx & ->). auto.
    - intros _. cbn. split; auto. split; auto. intros ? ? []. }
  destruct (X H) as (_ & X1 & X2). split; auto. intros bs I. eauto.
Qed.

(** A flush that succeeds has sent everything. *)
Theorem C93_flush_sends_all : forall t t', tls_flush t = (WOk tt, t') -> delivered t' = handed t.
Proof.
  intros t t' E. pose proof (flush_done _ _ _ E) as Q. apply flush_keeps in E. rewrite <- (keeps_handed _ _ E). unfold handed. rewrite Q. cbn. now rewrite app_nil_r.
Qed.

(** Dropping.  The peer is told that the connection is closed after everything that was handed to the stream, and no sooner; with a socket
    that takes everything it is told. *)
Theorem C93_drop : forall seal size fuel dbg rt fs log st f,
  seals seal -> Forall around fs -> around f ->
  run seal size READ_BUF_SIZE fuel dbg rt fs [] fresh = Some (log, st) ->
  ~ In Notify (ts_out (at_end st)) /\
  (forall a b, ts_out (tls_drop (f (at_end st))) = a ++ Notify :: b -> data_of a = handed (at_end st) /\ data_of b = []) /\
  (forall n tx, ts_hs (at_end st) = false -> ts_tx (f (at_end st)) = WTake n :: tx -> to_send (ts_queue (at_end st)) + 1 <= n ->
     exists a, ts_out (tls_drop (f (at_end st))) = a ++ [Notify]).
Proof.
  intros seal size fuel dbg rt fs log st f Se F Af E.
  assert (X : open_line (at_end st)).
  { apply (visits_inv seal size fuel dbg rt open_line) with (5 := E).
    - intros n t x t' _. apply read_open.
    - intros b t x t' _. now apply write_open.
    - apply flush_open.
    - eapply Forall_impl; [|exact F]. intros g A t. destruct (A t) as (rx & tx & ->). auto.
    - intros []. }
  split; [|split].
  - intros I. apply X. unfold line. apply in_or_app. auto.
  - intros a b Eo. destruct (Af (at_end st)) as (rx & tx & Ef). rewrite Ef in Eo. apply drop_spec in Eo; [|exact X].
    destruct Eo as (-> & D & _). split; auto. now rewrite handed_line.
  - intros n tx Hh Et L. destruct (Af (at_end st)) as (rx & tx0 & Ef). rewrite Ef in *. exists (line (at_end st)).
    cbn [ts_tx] in Et. subst tx0. apply (drop_whole (mk_tls _ _ _ _ _ _ _ _ _) n tx); auto.
Qed.

(** Back pressure.  While the socket takes nothing of what there is to send, calls of the handler route nothing and accept nothing. *)
Lemma content_failures k m : forall rx a, content rx = a ++ repeat (Failure k) m -> exists rx1, rx = rx1 ++ repeat (RErr k) m /\ content rx1 = a.
Proof.
  induction m as [|m IH]; intros rx a E; cbn [repeat] in E.
  - exists rx. rewrite app_nil_r in *. auto.
  - rewrite repeat_cons, app_assoc in E. destruct rx as [|e rx _] using rev_ind.
    + cbn in E. symmetry in E. apply app_eq_nil in E as [_ E]. discriminate.
    + unfold content in E. rewrite flat_map_app in E. cbn [flat_map] in E. rewrite app_nil_r in E.
      destruct e as [bs|k'].
      * destruct bs as [|c bs _] using rev_ind; cbn [content_of] in E.
        -- apply app_inj_tail in E as [_ E]. discriminate.
        -- exfalso. destruct (bs ++ [c]) as [|c0 l] eqn:Eb; [destruct bs; discriminate|]. rewrite <- Eb in E. rewrite map_app, app_assoc in E. apply app_inj_tail in E as [_ E]. discriminate.
      * apply app_inj_tail in E as [E Ek]. inversion Ek; subst. destruct (IH rx a E) as (rx1 & -> & Ha). exists rx1. split; auto.
        cbn [repeat]. now rewrite repeat_cons, <- app_assoc.
Qed.
Lemma orderly_less a b : orderly false (a ++ b) -> pending b = [] -> orderly false a.
Proof.
  intros (L & B & I & M & C) P. rewrite pending_app, P, app_nil_r in *. split; [|split; [|split; [|split]]]; auto.
  - destruct L as (s0 & L & E). rewrite app_nil_r in E. subst s0. exists a. rewrite app_nil_r. split; auto. now apply Forall_app in L.
  - intros s1 s2 ->. apply (B s1 (s2 ++ b)). now rewrite <- app_assoc.
  - intros s1 s2 ->. apply (I s1 (s2 ++ b)). now rewrite <- app_assoc.
Qed.

Theorem C93_back_pressure : forall seal size fuel dbg rt fs gs log c log' st rx,
  positive size -> seals seal -> Forall goes_well fs -> no_panic rt -> fs <> [] ->
  run seal size READ_BUF_SIZE fuel dbg rt fs [] fresh = Some (log, TOpen tls c) -> blocked (tb_in tls (tc_stream tls c)) ->
  Forall goes_well gs -> Forall (fun g => forall t, blocked t -> blocked (g t)) gs ->
  run seal size READ_BUF_SIZE fuel dbg rt (fs ++ gs) [] fresh = Some (log', st) ->
  gave (at_end st) = content rx -> orderly false rx ->
  log' = log /\ exists c', st = TOpen tls c' /\ t_output tls handed c' = t_output tls handed c /\ blocked (at_end st).
Proof.
  intros seal size fuel dbg rt fs gs log c log' st rx P Se F Hrt Nf E B Fg Bg E2 Eg O.
  assert (E3 : run seal size READ_BUF_SIZE fuel dbg rt gs log (TOpen tls c) = Some (log', st)).
  { clear - E E2. revert E E2. generalize fresh (@nil request). induction fs as [|f fs IH]; intros s l; cbn [app t_visits]; [intros X; inversion X; subst; auto|].
    destruct (t_handle tls tls_read (tls_write seal) tls_flush size READ_BUF_SIZE fuel dbg rt f l s) as [[l1 s1]|]; [apply IH|discriminate]. }
  set (t0 := tb_in tls (tc_stream tls c)) in *.
  assert (W : waiting (gave t0) (handed t0) (at_end st)).
  { apply (visits_inv seal size fuel dbg rt (waiting (gave t0) (handed t0))) with (5 := E3).
    - intros n t x t' _. apply read_waiting.
    - apply write_waiting.
    - apply flush_waiting.
    - rewrite Forall_forall in *. intros g I t (H1 & H2 & m & H3). destruct (Fg g I) as [A _]. pose proof (Bg g I t H1) as Bt. destruct (A t) as (x & y & Ex).
      split; [exact Bt|]. rewrite Ex. split; [exact H2|]. exists m. exact H3.
    - split; [exact B|]. split; auto. exists 0%nat. cbn. now rewrite app_nil_r. }
  destruct W as (Bl & Hh & m & Hg). rewrite Eg in Hg. destruct (content_failures _ _ _ _ Hg) as (rx1 & -> & H1).
  assert (Pm : pending (repeat (RErr WouldBlock) m) = []) by (clear; induction m; cbn; auto).
  assert (Pe : pending (rx1 ++ repeat (RErr WouldBlock) m) = pending rx1) by (rewrite pending_app, Pm; apply app_nil_r).
  pose proof (C92_responses tls tls_read (tls_write seal) tls_flush gave handed calm tls_G size fuel dbg rt fs tls_new log (TOpen tls c) false rx1
    P (tls_honest seal Se) (tls_foresees seal) tls_gentle (well_lasts seal fs F) tls_new_calm (well_outside fs F) eq_refl eq_refl Hrt Nf E (eq_sym H1)
    (orderly_less _ _ O Pm)) as S1.
  assert (Fa : Forall goes_well (fs ++ gs)) by (apply Forall_app; auto).
  assert (Na : fs ++ gs <> []) by (destruct fs; [contradiction|discriminate]).
  pose proof (C92_responses tls tls_read (tls_write seal) tls_flush gave handed calm tls_G size fuel dbg rt (fs ++ gs) tls_new log' st false _
    P (tls_honest seal Se) (tls_foresees seal) tls_gentle (well_lasts seal _ Fa) tls_new_calm (well_outside _ Fa) eq_refl eq_refl Hrt Na E2 Eg O) as S2.
  rewrite Pe in S2. cbn iota in S1. destruct st as [c'|u|u]; [| |contradiction].
  - destruct (served_unique _ _ _ _ _ _ _ S1 _ _ _ S2) as (El & Eo & _). split; [symmetry; exact El|]. exists c'. auto.
  - destruct S2 as (rest & S2). destruct (served_unique _ _ _ _ _ _ _ S1 _ _ _ S2) as (_ & _ & X). discriminate.
Qed.

(** ** Cases *)

Definition seal1 (b : bytes) : list chunk := [mk_chunk (len b + 22) (Data b)].
Lemma seal1_seals : seals seal1.
Proof. intros b. cbn. rewrite app_nil_r. split; auto. split; [discriminate|]. intros [X|[]]. discriminate. Qed.

(** The peer sends the records [rs], in one piece each; the handshake comes first. *)
Definition sock_now (rs : list record) (tx : list wevent) (t : tls) : tls :=
  mk_tls (ts_hs t) (ts_bad t) (ts_plain t) (ts_closed t) (ts_queue t) (ts_out t)
    ((if ts_hs t then [TArrive [RHand false [90]]; TArrive [RHand true [41]]] else []) ++ map (fun r => TArrive [r]) rs) tx (ts_seen t).
Lemma sock_now_around rs tx : around (sock_now rs tx).
Proof. intros t. eexists. eexists. reflexivity. Qed.
Lemma sock_now_well rs tx : calm_tx tx -> goes_well (sock_now rs tx).
Proof.
  intros C. split; [apply sock_now_around|]. intros t [H _]. split; [|exact C]. cbn. intros Hh. destruct (H Hh) as (H1 & H2 & _). rewrite Hh. cbn. auto.
Qed.
Lemma takes_calm l : calm_tx (map WTake l).
Proof.
  split; [apply Forall_forall; intros e I; apply in_map_iff in I as (n & <- & _); exact I|].
  intros a b n E. exfalso. assert (I : In (WFail WouldBlock) (map WTake l)) by (rewrite E; apply in_or_app; right; now left).
  apply in_map_iff in I as (x & X & _). discriminate.
Qed.
Lemma blocks_calm k : calm_tx (repeat (WFail WouldBlock) k).
Proof.
  split; [apply Forall_forall; intros e I; apply repeat_spec in I; subst; reflexivity|].
  intros a b n E X. assert (I : In (WTake n) (repeat (WFail WouldBlock) k)) by (rewrite E; apply in_or_app; right; now right).
  apply repeat_spec in I. discriminate.
Qed.

(** Two requests in two records, cut anywhere: the first call shakes hands and reads the first record, the second reads the second. *)
Definition calls2 : list (tls -> tls) :=
  [sock_now [RApp (firstn 40 two_requests)] (map WTake [70; 70; 70]); sock_now [RApp (skipn 40 two_requests)] (map WTake [10; 300; 300; 300])].
Definition two_pieces : stream := [RData (firstn 40 two_requests); RErr WouldBlock; RData (skipn 40 two_requests); RErr WouldBlock].
Lemma two_pieces_orderly : orderly false two_pieces.
Proof.
  destruct C24_case as (F & _ & P & _). apply (plain_orderly [example_request; example_request] false); [exact F| | |].
  - apply live_eof_false. unfold live, two_pieces. repeat apply Forall_cons; try apply Forall_nil; cbn [live_event]; auto; vm_compute; discriminate.
  - rewrite <- P. unfold two_pieces, two_cut. cbn [pending]. now rewrite !app_nil_r.
  - intros s1 s2 E. exfalso. assert (I : In (RErr Interrupted) two_pieces) by (rewrite E; apply in_or_app; right; now left).
    unfold two_pieces in I. cbn [In] in I. intuition discriminate.
Qed.
Example C93_case : exists r1 r2 c,
  run seal1 (fun _ => 32) READ_BUF_SIZE 400 true example_router calls2 [] fresh = Some ([r1; r2], TOpen tls c) /\
  delivered (tb_in tls (tc_stream tls c)) = write_response (response_of_body (lit "hello")) ++ not_found /\
  ts_queue (tb_in tls (tc_stream tls c)) = [] /\ unsent (tb_w tls (tc_stream tls c)) = [] /\
  gave (tb_in tls (tc_stream tls c)) = content two_pieces /\ orderly false two_pieces /\
  seals seal1 /\ Forall goes_well calls2 /\ no_panic example_router.
Proof.
  eexists. eexists. eexists. split; [vm_compute; reflexivity|]. split; [vm_compute; reflexivity|]. split; [reflexivity|]. split; [reflexivity|].
  split; [vm_compute; reflexivity|]. split; [exact two_pieces_orderly|]. split; [exact seal1_seals|]. split; [repeat (apply Forall_cons; [apply sock_now_well; apply takes_calm|]); apply Forall_nil|].
  intros [|] ?; discriminate.
Qed.

(** A socket that takes nothing after the handshake: the answer to the first request is held, the call after that routes nothing. *)
Definition deaf2 : list (tls -> tls) :=
  [sock_now [RApp (write_request example_request)] (map WTake [90; 41])].
Example C93_case_blocked : exists r c,
  run seal1 (fun _ => 32) READ_BUF_SIZE 400 true example_router deaf2 [] fresh = Some ([r], TOpen tls c) /\ blocked (tb_in tls (tc_stream tls c)) /\
  exists c', run seal1 (fun _ => 32) READ_BUF_SIZE 400 true example_router (deaf2 ++ [sock_now [RApp (write_request example_request)] []]) [] fresh
    = Some ([r], TOpen tls c') /\
  goes_well (sock_now [RApp (write_request example_request)] []) /\ (forall t, blocked t -> blocked (sock_now [RApp (write_request example_request)] [] t)).
Proof.
  eexists. eexists. split; [vm_compute; reflexivity|]. split; [repeat split; try discriminate; cbn; auto|].
  eexists. split; [vm_compute; reflexivity|]. split; [apply sock_now_well; apply (takes_calm [])|].
  intros t (H1 & H2 & _). repeat split; auto. cbn. auto.
Qed.

(** Not so: that a peer that is told that the connection is closed has been sent every answer.  Two requests, the second asks to close;
    the socket blocks on the first answer, the second waits in the connection's writer and is dropped with it; then the socket takes
    what the session has, and the close. *)
Definition last_words : list (tls -> tls) :=
  [sock_now [RApp (lit "GET / HTTP/1.1" ++ crlf ++ crlf ++ lit "GET / HTTP/1.1" ++ crlf ++ lit "connection: close" ++ crlf ++ crlf)] (map WTake [90; 41])].
Theorem C93_closed_means_complete_refuted :
  exists r1 r2 u a, run seal1 (fun _ => 32) READ_BUF_SIZE 400 true example_router last_words [] fresh = Some ([r1; r2], TGone tls u) /\
    seals seal1 /\ Forall goes_well last_words /\ no_panic example_router /\
    ts_out (tls_drop (sock_now [] [WTake 1000] u)) = a ++ [Notify] /\
    data_of a = reply (example_router [] r1) /\ replies example_router [] [r1; r2] = data_of a ++ not_found /\ not_found <> [].
Proof.
  eexists. eexists. eexists. eexists (_ :: _ :: _ :: []). split; [vm_compute; reflexivity|]. split; [exact seal1_seals|].
  split; [repeat (apply Forall_cons; [apply sock_now_well; apply takes_calm|]); apply Forall_nil|]. split; [intros [|] ?; discriminate|].
  split; [vm_compute; reflexivity|]. split; [vm_compute; reflexivity|]. split; [vm_compute; reflexivity|]. vm_compute. discriminate.
Qed.

Print Assumptions C93_responses.
Print Assumptions C93_any_input.
Print Assumptions C93_close_is_last.
Print Assumptions C93_waits.
Print Assumptions C93_handshake_first.
Print Assumptions C93_flush_sends_all.
Print Assumptions C93_drop.
Print Assumptions C93_back_pressure.
Print Assumptions C93_closed_means_complete_refuted.
