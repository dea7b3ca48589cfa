(** C55, C77: reads that fail. *)
From Coq Require Import List Ascii String Arith NArith Bool Lia.
From Coq Require Import ZifyBool ZifyNat ZifyN.
From Verif.Model Require Import Bytes Io Common Parse Encode Writer Server.
From Verif.Spec Require Import Batch Stream Drive Numerals Names Grammar Wire Unicode Output Session.
From Verif.Proofs Require Import BytesFacts CommonFacts IoFacts ParseFacts DriveFacts CallFacts BatchFacts LimitGrammar LimitFacts EncodeFacts WriterFacts OpsFacts ServerFacts ConnFacts FailFacts FailConnFacts Checks.
From Verif.Properties Require Import RoundTrip Server Client Compose Reconnect.
Import ListNotations.
Local Open Scope N_scope.

(** ** C55 *)

(** However the input so far was delivered: a signal that arrives inside the bytes of a body makes the parser fail, whatever would have followed. *)
Theorem C55_interrupt_in_body : forall dbg s s2, live s -> blocks_in_clean_lines batch_request s -> no_interrupt_in_data batch_request s ->
  always_in_limits batch_request (pending s) -> in_data (batch_request (pending s)) ->
  exists st, drive_request dbg (s ++ RErr Interrupted :: s2) = (PIo st Interrupted, s2).
Proof.
  intros dbg s s2 L B I A D. apply drive_request_fails; auto; try discriminate. destruct (batch_request (pending s)); cbn in *; auto.
Qed.
Theorem C55_interrupt_in_response_body : forall dbg s s2, live s -> blocks_in_clean_lines batch_response s -> no_interrupt_in_data batch_response s ->
  always_in_limits batch_response (pending s) -> in_data (batch_response (pending s)) ->
  exists st, drive_response dbg (s ++ RErr Interrupted :: s2) = (PIo st Interrupted, s2).
Proof.
  intros dbg s s2 L B I A D. apply drive_response_fails; auto; try discriminate. destruct (batch_response (pending s)); cbn in *; auto.
Qed.

(** ** C77 *)

(** Any other failure surfaces from the parser wherever a message is unfinished, as what it is; the parser reads nothing after it. *)
Theorem C77_parser : forall dbg s k s2, k <> WouldBlock -> k <> InvalidData -> k <> Interrupted -> live s ->
  blocks_in_clean_lines batch_request s -> no_interrupt_in_data batch_request s -> always_in_limits batch_request (pending s) ->
  unfinished (batch_request (pending s)) -> exists st, drive_request dbg (s ++ RErr k :: s2) = (PIo st k, s2).
Proof. intros. apply drive_request_fails; auto. Qed.
Theorem C77_parser_response : forall dbg s k s2, k <> WouldBlock -> k <> InvalidData -> k <> Interrupted -> live s ->
  blocks_in_clean_lines batch_response s -> no_interrupt_in_data batch_response s -> always_in_limits batch_response (pending s) ->
  unfinished (batch_response (pending s)) -> exists st, drive_response dbg (s ++ RErr k :: s2) = (PIo st k, s2).
Proof. intros. apply drive_response_fails; auto. Qed.

(** What a connection adds to its answers when a read fails: nothing if the failure says that the connection was closed. *)
Definition last_words (k : ekind) : bytes := match k with ConnectionAborted => [] | _ => bad_request end.

(** A server connection whose read fails with k after some input, for any router whose listeners do not panic, and for enough calls of the handler on
    any socket that does not fail: it has routed the requests that the input before the failure contains, in order, and no other; if it was still open
    at that point it has written their answers and then the last words above, and is dropped; nothing after the failure is read. *)
Theorem C77_connection : forall dbg rt s k s2 vs log st,
  k <> WouldBlock -> k <> InvalidData -> k <> UnexpectedEof -> (k = Interrupted -> in_data (last_outcome (pending s))) ->
  no_panic rt -> orderly false s -> Forall visit_fine vs -> (Forall visit_steady vs \/ short_replies rt) -> (blocks s < List.length vs)%nat ->
  visits dbg rt vs [] (Open (conn_new (s ++ RErr k :: s2))) = (log, st) ->
  exists out keep sent rest, served rt [] (pending s) false log out keep /\ st = Gone sent /\
    out ++ (if keep then last_words k else []) = sent ++ rest /\
    (keep = true -> Forall (visit_takes (len (out ++ last_words k))) vs -> rest = []).
Proof.
  intros dbg rt s k s2 vs log st K1 K2 K3 K4 Np O F S B E.
  apply (failing_connection k s2 K2 K1 K3 dbg rt s vs log st Np O F S B); auto.
  destruct k; auto; left; discriminate.
Qed.

(** In particular: clients have sent any number of complete requests, none of which asks to close, and the read fails before the next one is complete.
    Exactly the complete ones are routed. *)
Theorem C77_only_the_unfinished_request : forall dbg rt rs q b y s k s2 vs log st,
  k <> WouldBlock -> k <> InvalidData -> k <> UnexpectedEof -> (k = Interrupted -> in_data (batch_request b)) ->
  no_panic rt -> Forall plain_request (rs ++ [q]) -> (forall r, In r rs -> ~ asks_close r) ->
  write_request q = b ++ y -> y <> [] ->
  live s -> ~ In (RErr Interrupted) s -> pending s = List.concat (map write_request rs) ++ b ->
  Forall visit_fine vs -> (Forall visit_steady vs \/ short_replies rt) -> (blocks s < List.length vs)%nat ->
  visits dbg rt vs [] (Open (conn_new (s ++ RErr k :: s2))) = (log, st) ->
  Forall2 same_request log rs /\ exists sent rest, st = Gone sent /\ replies rt [] log ++ last_words k = sent ++ rest /\
    (Forall (visit_takes (len (replies rt [] log ++ last_words k))) vs -> rest = []).
Proof.
  intros dbg rt rs q b y s k s2 vs log st K1 K2 K3 K4 Np F A Eq Ny L I P V S B E.
  assert (O : orderly false s).
  { apply (plain_orderly_some (rs ++ [q]) false s y F); auto using live_eof_false.
    rewrite P, map_app, concat_app, <- app_assoc, <- Eq. cbn [map List.concat]. now rewrite app_nil_r. }
  apply Forall_app in F as [F Fq]. inversion Fq as [|? ? Hq _]; subst.
  destruct (plain_session rs F) as (rs' & H1 & H2).
  assert (U : unasking rs').
  { clear - A H1. induction H1 as [|r' r rs' rs (_ & _ & Hm & _) H IH]; constructor; [|apply IH; intros; apply A; now right].
    intros (vs & G & K). apply (A r); [now left|]. exists vs. rewrite <- Hm. auto. }
  assert (Hb : exists p, batch_request b = Incomplete p).
  { destruct Hq as (G & Fi & _). destruct (request_reads_back q [] G Fi) as (q' & Hr & _). rewrite app_nil_r, Eq in Hr.
    destruct (batch_request b) as [v rest|p|v n|e] eqn:Eb; eauto.
    - apply (batch_request_complete_ext _ _ _ y) in Eb. rewrite Hr in Eb. injection Eb as _ Eb. symmetry in Eb. apply app_eq_nil in Eb as [_ Eb]. congruence.
    - exfalso. exact (batch_request_not_eof _ _ _ Eb).
    - apply (batch_request_bad_ext _ _ y) in Eb. congruence. }
  assert (Se : session (pending s) rs' b).
  { rewrite P. clear - H2 Hb. remember [] as e0. induction H2 as [b0 H|b0 v rest rs0 e H _ IH].
    - subst b0. cbn [app]. constructor. destruct Hb as [p Hb]. rewrite Hb. discriminate.
    - econstructor; [apply batch_request_complete_ext; eassumption|auto]. }
  destruct (C77_connection dbg rt s k s2 vs log st K1 K2 K3) as (out & keep & sent & rest & Sv & -> & Ho & Hr); auto.
  { intros Hk. rewrite (session_last _ _ _ Se). auto. }
  destruct (served_unique _ _ _ _ _ _ _ Sv _ _ _ (session_served_wait rt _ _ _ Se U Hb [])) as (-> & -> & ->).
  split; auto. exists sent, rest. auto.
Qed.

(** ** Cases *)

(** One request is complete, of the next the head and part of the body have arrived, and then the read fails. *)
Definition upload : request := mk_request POST (lit "/up") [(CONTENT_LENGTH, [lit "5"])] (lit "hello").
Definition cut_upload : stream :=
  [RData (write_request example_request ++ firstn 20 (write_request upload)); RErr WouldBlock;
   RData (skipn 20 (firstn (List.length (write_request upload) - 3) (write_request upload)))].
Definition upload_part : bytes := firstn (List.length (write_request upload) - 3) (write_request upload).

Example C77_case :
  Forall plain_request ([example_request] ++ [upload]) /\ (forall r, In r [example_request] -> ~ asks_close r) /\
  write_request upload = upload_part ++ lit "llo" /\ in_data (batch_request upload_part) /\
  live cut_upload /\ ~ In (RErr Interrupted) cut_upload /\ pending cut_upload = List.concat (map write_request [example_request]) ++ upload_part /\
  no_panic example_router /\ blocks cut_upload = 1%nat /\
  (forall k, k = Interrupted \/ k = ConnectionAborted -> exists r,
    visits true example_router [mk_visit [] []; mk_visit (repeat (WTake 40) 300) []] [] (Open (conn_new (cut_upload ++ [RErr k; RData (lit "llo")])))
    = ([r], Gone (write_response (response_of_body (lit "hello")) ++ last_words k))).
Proof.
  split. { apply Forall_cons; [exact example_plain|apply Forall_cons; [|apply Forall_nil]].
    split; [|split; [|split]].
    - split; [apply text_check; reflexivity|]. split; [vm_compute; intuition discriminate|]. split.
      + split; [repeat constructor; cbn; intuition discriminate|].
        repeat constructor; try discriminate; try (apply text_check; vm_compute; reflexivity); apply no_colon_check; reflexivity.
      + split; [reflexivity|]. exact (dec_denotes 5).
    - split; [vm_compute; congruence|]. split; [repeat constructor; vm_compute; congruence|]. split; vm_compute; congruence.
    - repeat constructor.
    - repeat constructor. }
  split. { intros r [<-|[]] (vs & H & _). discriminate H. }
  split; [vm_compute; reflexivity|]. split; [vm_compute; exact Logic.I|].
  split; [unfold live, cut_upload; repeat apply Forall_cons; try apply Forall_nil; cbn [live_event]; auto; vm_compute; discriminate|].
  split; [unfold cut_upload; cbn [In]; intros [H|[H|[H|[]]]]; discriminate H|].
  split; [vm_compute; reflexivity|]. split; [intros [|] ?; discriminate|]. split; [reflexivity|].
  intros k [-> | ->]; eexists; vm_compute; reflexivity.
Qed.

Example C55_case : forall dbg s2,
  live [RData upload_part] /\ in_data (batch_request (pending [RData upload_part])) /\
  exists st, drive_request dbg ([RData upload_part] ++ RErr Interrupted :: s2) = (PIo st Interrupted, s2).
Proof.
  intros dbg s2. assert (L : live [RData upload_part]) by (repeat constructor; vm_compute; discriminate).
  assert (D : in_data (batch_request (pending [RData upload_part]))) by (vm_compute; exact Logic.I).
  split; auto. split; auto. apply C55_interrupt_in_body; auto.
  - intros s1 s3 E. destruct s1 as [|? [|? s1]]; discriminate E.
  - intros s1 s3 E. destruct s1 as [|? [|? s1]]; discriminate E.
  - apply always_in_limits_b_ok. vm_compute. reflexivity.
Qed.

Print Assumptions C55_interrupt_in_body.
Print Assumptions C55_interrupt_in_response_body.
Print Assumptions C77_parser.
Print Assumptions C77_parser_response.
Print Assumptions C77_connection.
Print Assumptions C77_only_the_unfinished_request.
