(** C99: every send of a client returns, whatever the servers do, and takes only so much from them. *)
From Coq Require Import List Ascii String NArith ZArith Bool Lia.
From Verif.Model Require Import Bytes Io Common Parse Encode Writer Server Client Generic Buffered Streams Tls ClientStreams.
From Verif.Spec Require Import Batch Stream Output Session Exchange Streams.
From Verif.Proofs Require Import BoundFacts ClientBoundFacts TlsEndsFacts StreamsFacts TlsFacts.
From Verif.Properties Require Import Streaming RoundTrip Server Client Buffered Streams Tls Secure Returns.
From Verif.Spec Require Import Tls ClientStreams Finite.
Import ListNotations.
Local Open Scope N_scope.

Section Any.
Variable T : Type.
Variable t_read : N -> T -> (ekind + bytes) * T.
Variable t_write : bytes -> T -> wres N * T.
Variable t_flush : T -> wres unit * T.
Variable left : T -> nat.
Variable sane : T -> Prop.
Notation sends := (k_conn_sends T t_read t_write t_flush).
Notation send := (k_conn_send T t_read t_write t_flush).
Notation patient := (patient T t_read t_write t_flush left sane).

(** Every send returns, also if the servers never stop sending: there is a number of iterations that is enough for all loops of all sends, and with more of them nothing is
    different. *)
Theorem C99_sends_return : forall size dbg n qs, positive size -> patient -> Forall sane (coming T n) ->
  exists enough rs n' c, forall fuel, (enough <= fuel)%nat -> sends size fuel dbg n (kconn_new T) qs = Some (rs, n', c).
Proof.
  intros size dbg n qs P Pa Sa.
  destruct (k_conn_sends_ends T t_read t_write t_flush size P left sane Pa (fun _ => 0) (fun _ => 0) 0 0) with (dbg := dbg) (qs := qs) (n := n) (c := kconn_new T)
    as (F & xs & n' & c' & _ & _ & _ & H); try (intros; lia).
  - intros m t x t' _ _ _. destruct x as [k|[|c bs]]; try split; intros; lia.
  - unfold okn. clear -Sa. induction n as [|[k|t] n IH]; constructor; auto; cbn [coming flat_map app] in Sa; inversion Sa; auto.
  - exact Logic.I.
  - exists F, xs, n', c'. exact H.
Qed.

(** What sends do is not a matter of the number of iterations. *)
Theorem C99_same : forall size dbg n c qs fuel fuel' r r', sends size fuel dbg n c qs = Some r -> sends size fuel' dbg n c qs = Some r' -> r = r'.
Proof.
  intros size dbg n c qs f f' r r' E E'.
  apply (k_conn_sends_more T t_read t_write t_flush size f (Nat.max f f') ltac:(lia)) in E.
  apply (k_conn_sends_more T t_read t_write t_flush size f' (Nat.max f f') ltac:(lia)) in E'. congruence.
Qed.

(** One more send, after any others. *)
Lemma one_more size w pad top u dbg fuel n qs rs n1 c1 q r n2 c2 : positive size -> patient ->
  (forall n t x t', 0 < n -> sane t -> t_read n t = (x, t') ->
    match x with
    | inl k => w t' <= w t + u /\ (k = Interrupted -> w t' <= w t)
    | inr [] => w t' <= w t + u
    | inr bs => (n <= CLIENT_BUF_SIZE -> w t' + pad bs <= w t + pad []) /\ w t' <= w t + len bs
    end) ->
  (forall b t x t', b <> [] -> sane t -> t_write b t = (x, t') -> w t' <= w t) -> (forall t x t', sane t -> t_flush t = (x, t') -> w t' <= w t) ->
  (forall b n, n <= len b -> len b <= CLIENT_BUF_SIZE -> pad (skipn (N.to_nat n) b) <= pad b + n) -> (forall b, pad b <= top) ->
  Forall sane (coming T n) -> sends size fuel dbg n (kconn_new T) qs = Some (rs, n1, c1) -> send size fuel dbg n1 c1 q = Some (r, n2, c2) ->
  total_of T w (streams T n2 c2) <= total_of T w (streams T n1 c1) + 2 * once top u.
Proof.
  intros P Pa H1 H2 H3 H4 H5 Sa E E2.
  destruct (k_conn_sends_ends T t_read t_write t_flush size P left sane Pa w pad top u H1 H2 H3 H4 H5 dbg qs n (kconn_new T)) as (F & xs & n' & c' & K1 & K2 & _ & H).
  { unfold okn. clear -Sa. induction n as [|[k|t] n IH]; constructor; auto; cbn [coming flat_map app] in Sa; inversion Sa; auto. }
  { exact Logic.I. }
  pose proof (C99_same _ _ _ _ _ _ _ _ _ E (H F (Nat.le_refl F))) as Q. inversion Q; subst.
  destruct (k_conn_send_ends T t_read t_write t_flush size P left sane Pa w pad top u H1 H2 H3 H4 H5 dbg n' c' q K1 K2) as (F2 & x & n3 & c3 & _ & _ & L & G).
  apply (k_conn_send_more T t_read t_write t_flush size fuel (Nat.max fuel F2) ltac:(lia)) in E2. rewrite G in E2 by lia. inversion E2; subst. exact L.
Qed.

(** How many bytes a send takes, over all the streams that the client has, had or may still get: for each of the two attempts at most what a message may have at most
    (512 for the first line, 4096 for headers, 3145728 for the body), and one buffer more. *)
Theorem C99_bytes : forall size count dbg fuel n qs rs n1 c1 q r n2 c2,
  positive size -> patient -> counts_bytes T t_read t_write t_flush count -> Forall sane (coming T n) ->
  sends size fuel dbg n (kconn_new T) qs = Some (rs, n1, c1) -> send size fuel dbg n1 c1 q = Some (r, n2, c2) ->
  total_of T count (streams T n2 c2) <= total_of T count (streams T n1 c1) + 2 * (512 + 4096 + 3145728 + 8192).
Proof.
  intros size count dbg fuel n qs rs n1 c1 q r n2 c2 P Pa Co Sa E E2.
  replace (512 + 4096 + 3145728 + 8192) with (once 8192 0) by reflexivity.
  refine (one_more size count (fun b => 8192 - len b) 8192 0 dbg fuel n qs rs n1 c1 q r n2 c2 P Pa _ _ _ _ _ Sa E E2).
  - intros m t x t' Hm St Er. pose proof (cb_read _ _ _ _ _ Co _ _ _ _ Er) as H. destruct (patient_read _ _ _ _ _ _ Pa _ _ _ _ Hm St Er) as (_ & _ & H2).
    destruct x as [k|[|c bs]]; [split; intros; lia|change (len (@nil ascii)) with 0 in H; lia|]. split; [|lia]. intros Hc. unfold CLIENT_BUF_SIZE in Hc. change (len (@nil ascii)) with 0. lia.
  - intros b t x t' _ _ Ew. exact (cb_write _ _ _ _ _ Co _ _ _ _ Ew).
  - intros t x t' _ Ef. exact (cb_flush _ _ _ _ _ Co _ _ _ Ef).
  - intros b m Hm Hb. unfold len in *. rewrite skipn_length. lia.
  - intros b. lia.
Qed.

(** How often a send reads: for each of the two attempts at most once for each byte that a message may have and twice more, and once for each interruption.  So, with a
    read_timeout, which bounds the time of every read, the time that a send waits for its servers is bounded. *)
Theorem C99_reads : forall size count dbg fuel n qs rs n1 c1 q r n2 c2,
  positive size -> patient -> counts_reads T t_read t_write t_flush count -> Forall sane (coming T n) ->
  sends size fuel dbg n (kconn_new T) qs = Some (rs, n1, c1) -> send size fuel dbg n1 c1 q = Some (r, n2, c2) ->
  total_of T count (streams T n2 c2) <=
    total_of T count (streams T n1 c1) + 2 * (512 + 4096 + 3145728 + 2) + total_of T (fun t => N.of_nat (left t)) (streams T n1 c1).
Proof.
  intros size count dbg fuel n qs rs n1 c1 q r n2 c2 P Pa Co Sa E E2.
  assert (Add : forall l, total_of T (fun t => count t + N.of_nat (left t)) l = total_of T count l + total_of T (fun t => N.of_nat (left t)) l).
  { induction l as [|t l IH]; cbn [total_of]; lia. }
  assert (H : total_of T (fun t => count t + N.of_nat (left t)) (streams T n2 c2) <= total_of T (fun t => count t + N.of_nat (left t)) (streams T n1 c1) + 2 * once 1 1).
  { refine (one_more size _ (fun b => match b with [] => 1 | _ => 0 end) 1 1 dbg fuel n qs rs n1 c1 q r n2 c2 P Pa _ _ _ _ _ Sa E E2).
    - intros m t x t' Hm St Er. pose proof (cr_read _ _ _ _ _ Co _ _ _ _ Er) as H. destruct (patient_read _ _ _ _ _ _ Pa _ _ _ _ Hm St Er) as (_ & H1 & H2).
      destruct x as [k|[|c bs]]; [|lia|].
      + destruct H2 as [_ H2]. split; [lia|]. intros Hk. specialize (H2 Hk). lia.
      + unfold len. cbn [List.length]. split; intros; lia.
    - intros b t x t' Nb St Ew. pose proof (cr_write _ _ _ _ _ Co _ _ _ _ Ew). destruct (patient_write _ _ _ _ _ _ Pa _ _ _ _ Nb St Ew) as (_ & H1 & _). lia.
    - intros t x t' St Ef. pose proof (cr_flush _ _ _ _ _ Co _ _ _ Ef). destruct (patient_flush _ _ _ _ _ _ Pa _ _ _ St Ef) as (_ & H1 & _). lia.
    - intros b m Hm _. destruct b as [|c b]; [rewrite skipn_nil; lia|]. destruct (N.eq_dec m 0) as [->|Hz]; [cbn; lia|]. destruct (skipn (N.to_nat m) (c :: b)); lia.
    - intros [|c b]; lia. }
  rewrite !Add in H. change (once 1 1) with (512 + 4096 + 3145728 + 2) in H. lia.
Qed.
End Any.

(** With TLS, whatever the servers send, be it a handshake or not, and whatever the sockets do. *)
Lemma tls_patient seal : patient tls tls_read (tls_write seal) tls_flush tls_left tls_sane.
Proof.
  constructor.
  - intros n t x t' Hn Sa E. destruct (finite_read _ _ _ _ _ _ (tls_finite seal) _ _ _ _ Hn Sa E) as (H1 & H2 & H3). split; auto. split; auto. destruct x as [k|bs]; auto.
    unfold tls_read in E. destruct (prior t) as [[k|] t1]; [discriminate|]. destruct (read_loop (Datatypes.S (List.length (ts_rx t1))) t1) as [[k|] t2]; [discriminate|].
    destruct (ts_plain t2) as [|c p].
    + destruct (ts_closed t2); inversion E; subst. unfold len. cbn. lia.
    + inversion E; subst. unfold len. rewrite firstn_length. lia.
  - intros b t x t' Nb Sa E. destruct (finite_write _ _ _ _ _ _ (tls_finite seal) _ _ _ _ Nb Sa E) as (H1 & H2 & H3). split; auto. split; auto. destruct x; auto.
  - exact (finite_flush _ _ _ _ _ _ (tls_finite seal)).
Qed.
Theorem C99_tls : forall seal size dbg n qs, positive size ->
  Forall (fun x => match x with inr t => (exists hello rx tx, t = tls_client hello rx tx) /\ real_errors t | inl _ => True end) n ->
  exists enough rs n' c, forall fuel, (enough <= fuel)%nat -> k_conn_sends tls tls_read (tls_write seal) tls_flush size fuel dbg n (kconn_new tls) qs = Some (rs, n', c).
Proof.
  intros seal size dbg n qs P H. apply (C99_sends_return tls tls_read (tls_write seal) tls_flush tls_left tls_sane); auto; [apply tls_patient|].
  induction n as [|[k|t] n IH]; inversion H; subst; cbn [coming flat_map app]; [constructor|now apply IH|]. constructor; [|now apply IH].
  destruct H2 as [(hello & rx & tx & ->) [R1 R2]]. unfold tls_sane. cbn in *. auto.
Qed.

(** ** Cases *)

(** A server that never stops sending: up to a hundred bytes with every read, for ever; it takes every write.  The state counts the reads and the bytes. *)
Definition spout_read (n : N) (t : N * N) : (ekind + bytes) * (N * N) := let b := repeat "x"%char (N.to_nat (N.min n 100)) in (inr b, (fst t + 1, snd t + len b)).
Definition spout_write (b : bytes) (t : N * N) : wres N * (N * N) := (WOk (len b), t).
Definition spout_flush (t : N * N) : wres unit * (N * N) := (WOk tt, t).
Lemma spout_patient : patient (N * N) spout_read spout_write spout_flush (fun _ => 0%nat) (fun _ => True).
Proof.
  constructor.
  - intros n t x t' Hn _ E. inversion E; subst. repeat split; auto. unfold len. rewrite repeat_length. lia.
  - intros b t x t' _ _ E. inversion E; subst. auto.
  - intros t x t' _ E. inversion E; subst. repeat split; auto. discriminate.
Qed.
Lemma spout_reads : counts_reads (N * N) spout_read spout_write spout_flush fst.
Proof. constructor; intros; inversion H; subst; cbn [fst]; lia. Qed.
Lemma spout_bytes : counts_bytes (N * N) spout_read spout_write spout_flush snd.
Proof. constructor; intros; inversion H; subst; cbn [snd]; lia. Qed.

(** A get of "/": both attempts end at the limit on the first line. *)
Definition plain_get : request := mk_request GET (list_ascii_of_string "/") [] [].
Example C99_spout_case :
  match k_conn_sends (N * N) spout_read spout_write spout_flush (fun _ => 32) 600 false [inr (0, 0); inr (0, 0)] (kconn_new (N * N)) [plain_get] with
  | Some (rs, n', c) => (rs, streams (N * N) n' c)
  | None => ([], [])
  end = ([CReading LimitReached], [(6, 600); (6, 600)]).
Proof. vm_compute. reflexivity. Qed.

Example C99_spout_returns : forall dbg n qs, exists enough rs n' c, forall fuel, (enough <= fuel)%nat ->
  k_conn_sends (N * N) spout_read spout_write spout_flush (fun _ => 32) fuel dbg n (kconn_new (N * N)) qs = Some (rs, n', c).
Proof.
  intros dbg n qs. apply (C99_sends_return (N * N) spout_read spout_write spout_flush (fun _ => 0%nat) (fun _ => True)); [intros acc; reflexivity|apply spout_patient|].
  apply Forall_forall. auto.
Qed.

Print Assumptions C99_sends_return.
Print Assumptions C99_same.
Print Assumptions C99_bytes.
Print Assumptions C99_reads.
Print Assumptions C99_tls.
