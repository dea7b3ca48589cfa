(** As Properties/Spoken.v, for a server that listens with TLS.  C113. *)
From Coq Require Import List Ascii String Arith NArith ZArith Bool Lia.
From Verif.Model Require Import Bytes Io Common Parse Encode Writer Server Client Generic Buffered Slab Streams Tls Secure.
From Verif.Spec Require Import Batch Stream Drive Numerals Grammar Wire Output Unicode Session Exchange Buffering Streams Oversize Spoken.
From Verif.Proofs Require Import DriveFacts ServerFacts BufferedFacts BufferedConnFacts RecutFacts StreamsFacts TlsFacts SecureFacts UnwindFacts.
From Verif.Properties Require Import Streaming RoundTrip Server Buffered Reference Streams Tls Secure Oversize Spoken SecureLimits.
From Verif.Spec Require Import Tls Secure.
Import ListNotations.
Local Open Scope nat_scope.

(** After every step of the https server, in either build: what the server handed to TLS for a peer, in records that reached
    the socket, is a first part of something sayable for the requests routed for it, and these are the first of its own. *)
Theorem C113_https : forall seal size fuel dbg rt n m ls st c x, positive size -> seals seal ->
  srun seal size fuel dbg rt (s_init n m) ls st -> nth_error (ss_conns st) c = Some x ->
  sound true (reached c ls) -> whole_chars (app_of (reached c ls)) -> no_panic (rt c) ->
  first_of (app_of (reached c ls)) (sn_log x) /\
  exists out later, sayable (rt c) (app_of (reached c ls)) false (sn_log x) out /\ out = out_of x ++ later.
Proof.
  intros seal size fuel dbg rt n m ls st c x P Se Rn N So Wc Np.
  destruct (C110_served _ _ _ _ _ _ _ _ _ _ _ P Se Rn N So Wc Np) as (b & rest & more & -> & D). unfold done_for in D.
  destruct (sn_slot x) as [k|u|u].
  - split; [apply first_of_more; eapply served_first; eauto|]. exists (out_of x ++ more), more. split; auto.
    destruct (served_says _ _ _ _ _ _ _ D) as [E|(K & _)]; [now left|discriminate].
  - destruct D as [D|(o & D & Eo)].
    + split; [apply first_of_more; eapply served_first; eauto|]. exists (out_of x ++ more), more. split; auto.
      destruct (served_says _ _ _ _ _ _ _ D) as [E|(_ & E & F)]; [now left|right]. split; auto. now apply faulty_more.
    + split; [apply first_of_more; eapply too_big_first; eauto|]. exists (out_of x ++ more), more. split; auto.
      destruct (too_big_says _ _ _ _ _ D) as (E & F). right. rewrite <- Eo, E. split; auto. now apply faulty_more.
  - destruct D as (_ & D). split; [apply first_of_more; eapply too_big_first; eauto|]. exists (out_of x ++ more), more. split; auto.
    left. now destruct (too_big_says _ _ _ _ _ D) as (E & F).
Qed.
Print Assumptions C113_https.

(** Whatever a peer's records are, a request that asks for the connection to be closed is the last that is routed for it. *)
Theorem C113_https_close_is_last : forall seal size fuel dbg rt n m ls st c x a v l, positive size -> seals seal ->
  srun seal size fuel dbg rt (s_init n m) ls st -> nth_error (ss_conns st) c = Some x ->
  sn_log x = a ++ v :: l -> asks_close v -> l = [] /\ sn_open x = false.
Proof.
  intros seal size fuel dbg rt n m ls st c x a v l P Se Rn N E A.
  destruct (history _ _ _ _ _ _ _ _ _ Rn c x N) as (fs & F & V).
  destruct (C93_close_is_last _ _ _ _ _ _ _ _ _ _ _ P Se F V E A) as [-> K]. split; auto.
  unfold sn_open. destruct (sn_slot x) as [k|u|u]; auto. exfalso. eapply K; eauto.
Qed.
Print Assumptions C113_https_close_is_last.

(** The hypotheses of [C113_https] are met in C110_case: a request, and then a head over the limits. *)
Example C113_https_case : exists st x,
  srun seal1 (fun _ => 32%N) 400 false (fun _ => example_router) (s_init 2 1) big_peer st /\ nth_error (ss_conns st) 0 = Some x /\
  sound true (reached 0 big_peer) /\ whole_chars (app_of (reached 0 big_peer)) /\ no_panic example_router /\ positive (fun _ => 32%N) /\ seals seal1 /\
  List.length (sn_log x) = 1 /\ out_of x = write_response (response_of_body (lit "hello")) ++ bad_request.
Proof. destruct C110_case as (st & x & H). exists st, x. intuition. Qed.

(** A peer asks for the connection to be closed and sends one more request: only the first is routed. *)
Definition closing_peer : list slabel :=
  one_round 0 [300; 300; 300]%N ++ [XArrive 0 [[RHand true [41]%N; RApp (close_request ++ close_request)]]].
Example C113_https_close_case : exists st x v,
  srun seal1 (fun _ => 32%N) 400 true (fun _ => example_router) (s_init 1 1) closing_peer st /\ nth_error (ss_conns st) 0 = Some x /\
  sn_log x = [v] /\ asks_close v.
Proof.
  assert (H : match s_exec_all seal1 (fun _ => 32%N) 400 true (fun _ => example_router) (s_init 1 1) closing_peer with
    | Some st => match nth_error (ss_conns st) 0 with Some x => map (fun v => hm_get CONNECTION (rq_headers v)) (sn_log x) = [Some [lit "close"]] | None => False end
    | None => False end) by (vm_compute; reflexivity).
  destruct (s_exec_all seal1 (fun _ => 32%N) 400 true (fun _ => example_router) (s_init 1 1) closing_peer) as [st|] eqn:E; [|contradiction].
  destruct (nth_error (ss_conns st) 0) as [x|] eqn:N; [|contradiction].
  destruct (sn_log x) as [|v [|]] eqn:L; try discriminate. injection H as H.
  exists st, x, v. split; [exact (s_exec_all_ok _ _ _ _ _ _ _ _ E)|]. split; auto. split; auto.
  exists [lit "close"]. split; [exact H|now left].
Qed.
