(** A stream that fails after some input: the parsers do what they do on the input alone, and then report the failure. *)
From Coq Require Import List Ascii String NArith Bool Lia.
From Verif.Model Require Import Bytes Io Common Parse Generic.
From Verif.Proofs Require Import GenericFacts FuelFacts BufferedFacts.
Import ListNotations.
Local Open Scope N_scope.

Lemma mu_app a b : mu (a ++ b) = (mu a + mu b)%nat.
Proof. induction a as [|[bs|k] a IH]; cbn [mu app]; lia. Qed.

Section Fail.
Variable k : ekind.
Variable s2 : stream.
Hypothesis k_ok : k <> InvalidData.
Notation X := (RErr k :: s2).

(** Either the same happens on the longer stream, or everything was read, and then the failure is met. *)
Definition sim {T S} (data : S -> Prop) (o1 o2 : pres T S * list N * stream) : Prop :=
  match o1 with
  | (r, ls, s) => o2 = (r, ls, s ++ X) \/
      (s = [] /\ exists st, r = PIo st WouldBlock /\ (k <> Interrupted \/ data st -> o2 = (PIo st k, ls, s2)))
  end.
Definition quiet {S} (_ : S) : Prop := False.

Lemma fill_sim s r s' : fill s = (r, s') -> fill (s ++ X) = (r, s' ++ X) \/
  (s = [] /\ s' = [] /\ r = inl WouldBlock /\ fill (s ++ X) = (inl k, s2)).
Proof.
  destruct s as [|[[|b bs]|j] s]; cbn [fill app]; intros E; inversion E; subst; auto.
Qed.

Lemma fill_lim_sim ls : forall s r s', fill_lim ls s = (r, s') -> fill_lim ls (s ++ X) = (r, s' ++ X) \/
  (s = [] /\ s' = [] /\ r = inl WouldBlock /\ fill_lim ls (s ++ X) = (inl k, s2)).
Proof.
  induction ls as [|l ls IH]; intros s r s' E; cbn [fill_lim] in *; [now apply fill_sim|].
  destruct (l =? 0); [inversion E; subst; auto|].
  destruct (fill_lim ls s) as [[j|bs] s1] eqn:E1; specialize (IH _ _ _ E1); inversion E; subst;
    (destruct IH as [-> | (-> & -> & Ew & ->)]; [left; reflexivity|]); [right; auto|discriminate].
Qed.

Lemma consume_sim n s : consume n (s ++ X) = consume n s ++ X.
Proof.
  unfold consume. destruct (n =? 0); auto. destruct s as [|[bs|j] s]; auto. cbn [app].
  destruct (skipn (N.to_nat n) bs); reflexivity.
Qed.

Lemma consume_lim_sim ls : forall n s ls' s', consume_lim n ls s = (ls', s') -> consume_lim n ls (s ++ X) = (ls', s' ++ X).
Proof.
  induction ls as [|l ls IH]; intros n s ls' s' E; cbn [consume_lim] in *.
  - inversion E; subst. now rewrite consume_sim.
  - destruct (consume_lim (N.min n l) ls s) as [l1 s1] eqn:E1. rewrite (IH _ _ _ _ E1). inversion E; subst. reflexivity.
Qed.

Lemma read_some_sim n s r s' : read_some n s = (r, s') -> read_some n (s ++ X) = (r, s' ++ X) \/
  (s = [] /\ s' = [] /\ r = inl WouldBlock /\ read_some n (s ++ X) = (inl k, s2)).
Proof.
  unfold read_some. destruct (fill s) as [[j|bs] s1] eqn:E; intros H; inversion H; subst;
    destruct (fill_sim _ _ _ E) as [-> | (-> & -> & Ew & ->)]; auto; try discriminate. left. now rewrite consume_sim.
Qed.

Lemma read_lim_sim ls : forall n s r ls' s', read_lim n ls s = (r, ls', s') -> read_lim n ls (s ++ X) = (r, ls', s' ++ X) \/
  (s = [] /\ s' = [] /\ r = inl WouldBlock /\ read_lim n ls (s ++ X) = (inl k, ls', s2)).
Proof.
  induction ls as [|l ls IH]; intros n s r ls' s' E; cbn [read_lim] in *.
  - destruct (read_some n s) as [r1 s1] eqn:E1. inversion E; subst.
    destruct (read_some_sim _ _ _ _ E1) as [-> | (-> & -> & -> & ->)]; auto.
  - destruct (l =? 0); [inversion E; subst; auto|].
    destruct (read_lim (N.min n l) ls s) as [[[j|bs] l1] s1] eqn:E1; specialize (IH _ _ _ _ _ E1); inversion E; subst;
      destruct IH as [-> | (-> & -> & Ew & ->)]; auto; discriminate.
Qed.

Definition sim_io (o1 o2 : option ekind * bytes * list N * stream) : Prop :=
  match o1 with
  | (r, acc, ls, s) => o2 = (r, acc, ls, s ++ X) \/
      (s = [] /\ r = Some WouldBlock /\ (k <> Interrupted -> o2 = (Some k, acc, ls, s2)))
  end.

Lemma read_until_sim f : forall ls s acc, sim_io (read_until f ls s acc) (read_until f ls (s ++ X) acc).
Proof.
  induction f as [|f IH]; intros ls s acc; cbn [read_until]; [left; reflexivity|].
  destruct (fill_lim ls s) as [r s1] eqn:E. destruct (fill_lim_sim _ _ _ _ E) as [-> | (-> & -> & -> & ->)].
  - destruct r as [j|bs].
    + destruct j; try (left; reflexivity). apply IH.
    + destruct (find_lf bs).
      * destruct (consume_lim _ ls s1) as [l2 s3] eqn:Ec. rewrite (consume_lim_sim _ _ _ _ _ Ec). left. reflexivity.
      * destruct (consume_lim _ ls s1) as [l2 s3] eqn:Ec. rewrite (consume_lim_sim _ _ _ _ _ Ec).
        destruct bs; [left; reflexivity|]. apply IH.
  - cbn. right. split; auto. split; auto. intros Hk. destruct k; congruence.
Qed.

Lemma read_to_end_sim f : forall ls s acc, sim_io (read_to_end f ls s acc) (read_to_end f ls (s ++ X) acc).
Proof.
  induction f as [|f IH]; intros ls s acc; cbn [read_to_end]; [left; reflexivity|].
  destruct (read_lim USIZE_MAX ls s) as [[r l1] s1] eqn:E. destruct (read_lim_sim _ _ _ _ _ _ E) as [-> | (-> & -> & -> & ->)].
  - destruct r as [j|[|b bs]].
    + destruct j; try (left; reflexivity). apply IH.
    + left; reflexivity.
    + apply IH.
  - cbn. right. split; auto. split; auto. intros Hk. destruct k; congruence.
Qed.

(** Both runs with the same number of steps. *)
Variable B : nat.
Notation st := (fun _ : stream => B).

Lemma read_line_sim line ls s : sim_io (g_read_line stream fill consume st line ls s) (g_read_line stream fill consume st line ls (s ++ X)).
Proof.
  unfold g_read_line. change (g_read_until stream fill consume) with read_until.
  pose proof (read_until_sim (S B) ls s []) as H. destruct (read_until (S B) ls s []) as [[[r acc] l1] s1].
  destruct H as [-> | (-> & -> & H)].
  - destruct (utf8 acc); left; reflexivity.
  - destruct (utf8 acc) eqn:U; right; split; auto; (split; auto); intros Hk; rewrite (H Hk), U; reflexivity.
Qed.

Lemma line_deframe_sim line ls s :
  sim quiet (g_line_deframe stream fill consume st line ls s) (g_line_deframe stream fill consume st line ls (s ++ X)).
Proof.
  unfold g_line_deframe. pose proof (read_line_sim line ls s) as H.
  destruct (g_read_line stream fill consume st line ls s) as [[[r l1] ls1] s1]. destruct H as [-> | (-> & -> & H)].
  - destruct r; [left; reflexivity|]. destruct (str_pop l1) as [[x ch]|]; [destruct (beqb ch [LF])|]; left; reflexivity.
  - right. split; auto. exists l1. split; auto. intros [Hk|[]]. rewrite (H Hk). reflexivity.
Qed.

Lemma crlf_parse_sim dbg line ls s :
  sim quiet (g_crlf_parse stream fill consume st dbg line ls s) (g_crlf_parse stream fill consume st dbg line ls (s ++ X)).
Proof.
  unfold g_crlf_parse, g_with_limit. destruct (usub dbg MAX_LINE_SIZE (len line)) as [lim|]; [|left; reflexivity].
  pose proof (line_deframe_sim line (lim :: ls) s) as H.
  destruct (g_line_deframe stream fill consume st line (lim :: ls) s) as [[r ls1] s1].
  destruct H as [-> | (-> & l & -> & H)].
  - destruct r as [l|l j|e|]; try (left; reflexivity); [destruct (parse_crlf_line l)|destruct j]; left; reflexivity.
  - right. split; auto. exists l. split; auto. intros Hk. rewrite (H Hk). destruct k; congruence.
Qed.

(** Follows a simulated call: the same on both sides, or the failure is passed on. *)
Ltac follow H := destruct H as [-> | (-> & ? & -> & H)];
  [|right; split; [reflexivity|]; eexists; split; [reflexivity|]; intros Hk; rewrite H; [reflexivity|now firstorder]].

Lemma hdr_loop_sim f dbg : forall h ls s,
  sim quiet (g_hdr_loop stream fill consume st f dbg h ls s) (g_hdr_loop stream fill consume st f dbg h ls (s ++ X)).
Proof.
  induction f as [|f IH]; intros h ls s; cbn [g_hdr_loop]; [left; reflexivity|].
  pose proof (crlf_parse_sim dbg (h_line h) ls s) as H.
  destruct (g_crlf_parse stream fill consume st dbg (h_line h) ls s) as [[r ls1] s1]. follow H.
  destruct r as [[|c l]|l j|e|]; try (left; reflexivity).
  destruct (parse_header (c :: l)) as [e|[hk hv]]; [left; reflexivity|apply IH].
Qed.

Lemma hdr_parse_sim dbg h ls s :
  sim quiet (g_hdr_parse stream fill consume st dbg h ls s) (g_hdr_parse stream fill consume st dbg h ls (s ++ X)).
Proof.
  unfold g_hdr_parse, g_with_limit. destruct (usub dbg MAX_HEADERS_SIZE (h_read h)) as [lim|]; [|left; reflexivity].
  pose proof (hdr_loop_sim (S (S B)) dbg h (lim :: ls) s) as H.
  destruct (g_hdr_loop stream fill consume st (S (S B)) dbg h (lim :: ls) s) as [[r ls1] s1]. follow H. left. reflexivity.
Qed.

(** Failures while reading data are all reported. *)
Definition loud {S} (_ : S) : Prop := True.
Lemma bytes_loop_sim f n : forall got ls s,
  sim loud (g_bytes_loop stream read_some f n got ls s) (g_bytes_loop stream read_some f n got ls (s ++ X)).
Proof.
  induction f as [|f IH]; intros got ls s; cbn [g_bytes_loop]; (destruct (len got <? n); [|left; reflexivity]); [left; reflexivity|].
  change (g_read_lim stream read_some) with read_lim.
  destruct (read_lim (n - len got) ls s) as [[r l1] s1] eqn:E. destruct (read_lim_sim _ _ _ _ _ _ E) as [-> | (-> & -> & -> & ->)].
  - destruct r as [j|[|b bs]]; [left; reflexivity|left; reflexivity|apply IH].
  - right. split; auto. eexists. split; [reflexivity|]. intros _. reflexivity.
Qed.

Definition chunk_data (c : chunks_st) : Prop := exists b, c_state c = CData b.
Lemma chunks_loop_sim f dbg : forall body c ls s,
  sim chunk_data (g_chunks_loop stream fill consume read_some st f dbg body c ls s)
                 (g_chunks_loop stream fill consume read_some st f dbg body c ls (s ++ X)).
Proof.
  induction f as [|f IH]; intros body c ls s; cbn [g_chunks_loop]; [left; reflexivity|].
  destruct c as [line|b|line last|]; [| | |left; reflexivity].
  - unfold g_size_state. pose proof (crlf_parse_sim dbg line ls s) as H.
    destruct (g_crlf_parse stream fill consume st dbg line ls s) as [[r ls1] s1].
    destruct H as [-> | (-> & l & -> & H)].
    + destruct r as [raw|l j|e|]; try (left; reflexivity). destruct (parse_chunk_size raw); [left; reflexivity|apply IH].
    + right. split; auto. eexists. split; [reflexivity|]. intros [Hk|(d & Hd)]; [|discriminate]. rewrite H; auto.
  - unfold g_data_state, g_bytes_deframe. pose proof (bytes_loop_sim (S B) (bd_size b) (bd_got b) ls s) as H.
    destruct (g_bytes_loop stream read_some (S B) (bd_size b) (bd_got b) ls s) as [[r ls1] s1].
    destruct H as [-> | (-> & l & -> & H)].
    + destruct r as [raw|l j|e|]; try (left; reflexivity). apply IH.
    + right. split; auto. eexists. split; [reflexivity|]. intros _. rewrite H; [reflexivity|right; exact I].
  - unfold g_tail_state. pose proof (crlf_parse_sim dbg line ls s) as H.
    destruct (g_crlf_parse stream fill consume st dbg line ls s) as [[r ls1] s1].
    destruct H as [-> | (-> & l & -> & H)].
    + destruct r as [[|ch raw]|l j|e|]; try (left; reflexivity). apply IH.
    + right. split; auto. eexists. split; [reflexivity|]. intros [Hk|(d & Hd)]; [|discriminate]. rewrite H; auto.
Qed.

Definition body_data (b : body_st) : Prop := match b with BSized _ => True | BChunked c => chunk_data c | _ => False end.
Lemma body_parse_sim dbg b ls s :
  sim body_data (g_body_parse stream fill consume read_some (fun _ => USIZE_MAX) st st dbg b ls s)
                (g_body_parse stream fill consume read_some (fun _ => USIZE_MAX) st st dbg b ls (s ++ X)).
Proof.
  unfold g_body_parse, g_with_limit. destruct (usub dbg MAX_BODY_SIZE (body_read_so_far b)) as [lim|]; [|left; reflexivity].
  destruct b as [b|d|c|]; [| | |left; reflexivity].
  - unfold g_bytes_deframe. pose proof (bytes_loop_sim (S B) (bd_size b) (bd_got b) (lim :: ls) s) as H.
    destruct (g_bytes_loop stream read_some (S B) (bd_size b) (bd_got b) (lim :: ls) s) as [[r ls1] s1].
    destruct H as [-> | (-> & l & -> & H)].
    + destruct r; left; reflexivity.
    + right. split; auto. eexists. split; [reflexivity|]. intros _. rewrite H; [reflexivity|right; exact I].
  - unfold g_eof_deframe.
    replace (g_read_to_end stream read_some (fun _ => USIZE_MAX)) with read_to_end by reflexivity.
    pose proof (read_to_end_sim (S B) (lim :: ls) s d) as H.
    destruct (read_to_end (S B) (lim :: ls) s d) as [[[r d1] ls1] s1]. destruct H as [-> | (-> & -> & H)].
    + destruct r; left; reflexivity.
    + right. split; auto. eexists. split; [reflexivity|]. intros [Hk|[]]. rewrite (H Hk). reflexivity.
  - unfold g_chunks_parse. pose proof (chunks_loop_sim (3 * B + 4) dbg (c_body c) (c_state c) (lim :: ls) s) as H.
    destruct (g_chunks_loop stream fill consume read_some st (3 * B + 4) dbg (c_body c) (c_state c) (lim :: ls) s) as [[r ls1] s1].
    destruct H as [-> | (-> & l & -> & H)].
    + destruct r; left; reflexivity.
    + right. split; auto. eexists. split; [reflexivity|]. cbn [body_data]. intros Hk. rewrite H; auto.
Qed.

Definition msg_data {T} (m : msg_st T) : Prop := match m with MBody _ _ b => body_data b | _ => False end.
Lemma msg_loop_sim {T} (pf : bytes -> perr + T) f dbg flag : forall m ls s,
  sim msg_data (g_msg_loop stream fill consume read_some (fun _ => USIZE_MAX) st st f pf dbg flag m ls s)
               (g_msg_loop stream fill consume read_some (fun _ => USIZE_MAX) st st f pf dbg flag m ls (s ++ X)).
Proof.
  induction f as [|f IH]; intros m ls s; cbn [g_msg_loop]; [left; reflexivity|].
  destruct m as [line|t h|t hm b|t hm body]; [| | |left; reflexivity].
  - unfold g_first_line_state, g_first_parse. pose proof (crlf_parse_sim dbg line ls s) as H.
    destruct (g_crlf_parse stream fill consume st dbg line ls s) as [[r ls1] s1].
    destruct H as [-> | (-> & l & -> & H)].
    + destruct r as [l|l j|e|]; try (left; reflexivity). destruct (pf l); [left; reflexivity|apply IH].
    + right. split; auto. eexists. split; [reflexivity|]. intros [Hk|[]]. rewrite H; auto.
  - unfold g_headers_state. pose proof (hdr_parse_sim dbg h ls s) as H.
    destruct (g_hdr_parse stream fill consume st dbg h ls s) as [[r ls1] s1].
    destruct H as [-> | (-> & l & -> & H)].
    + destruct r as [hm|l j|e|]; try (left; reflexivity). destruct (body_new hm flag); [left; reflexivity|apply IH].
    + right. split; auto. eexists. split; [reflexivity|]. intros [Hk|[]]. rewrite H; auto.
  - unfold g_body_state. pose proof (body_parse_sim dbg b ls s) as H.
    destruct (g_body_parse stream fill consume read_some (fun _ => USIZE_MAX) st st dbg b ls s) as [[r ls1] s1].
    destruct H as [-> | (-> & l & -> & H)].
    + destruct r as [body|l j|e|]; try (left; reflexivity). apply IH.
    + right. split; auto. eexists. split; [reflexivity|]. cbn [msg_data]. intros Hk. rewrite H; auto.
Qed.

End Fail.

(** ** The number of steps does not matter *)

Lemma max_pos' : forall acc : bytes, 0 < USIZE_MAX.
Proof. reflexivity. Qed.

Lemma read_to_end_fuel f1 : forall f2 ls s acc, (mu s < f1)%nat -> (mu s < f2)%nat -> read_to_end f1 ls s acc = read_to_end f2 ls s acc.
Proof.
  induction f1 as [|f1 IH]; intros [|f2] ls s acc H1 H2; try lia. cbn [read_to_end].
  destruct (read_lim USIZE_MAX ls s) as [[r l1] s1] eqn:E.
  destruct (read_lim_m _ read_some mu read_err_mu read_ok_mu _ _ _ _ _ _ (max_pos' []) E) as [_ H].
  destruct r as [[]|[|b bs]]; auto; apply IH; lia.
Qed.

Section Const.
Variable B : nat.
Notation st := (fun _ : stream => B).
Notation max := (fun _ : bytes => USIZE_MAX).

Lemma body_parse_tsteps dbg b ls s : (mu s <= B)%nat ->
  g_body_parse stream fill consume read_some max st mu dbg b ls s = g_body_parse stream fill consume read_some max st st dbg b ls s.
Proof.
  intros H. unfold g_body_parse, g_with_limit. destruct (usub dbg MAX_BODY_SIZE (body_read_so_far b)) as [lim|]; auto.
  destruct b as [b|d|c|]; auto. unfold g_eof_deframe.
  replace (g_read_to_end stream read_some (fun _ => USIZE_MAX)) with read_to_end by reflexivity.
  rewrite (read_to_end_fuel (S (mu s)) (S B)); auto; lia.
Qed.

Lemma msg_loop_tsteps {T} (pf : bytes -> perr + T) f dbg flag : forall m ls s, (mu s <= B)%nat ->
  g_msg_loop stream fill consume read_some max st mu f pf dbg flag m ls s = g_msg_loop stream fill consume read_some max st st f pf dbg flag m ls s.
Proof.
  induction f as [|f IH]; intros m ls s H; cbn [g_msg_loop]; auto.
  destruct m as [line|t h|t hm b|t hm body]; auto.
  - destruct (g_first_line_state stream fill consume st pf dbg line ls s) as [[y ls1] s1] eqn:E.
    apply (first_line_state_m _ fill consume mu fill_err_mu fill_ok_mu) in E as [E _]. destruct y; auto. apply IH. lia.
  - destruct (g_headers_state stream fill consume st dbg flag t h ls s) as [[y ls1] s1] eqn:E.
    apply (headers_state_m _ fill consume mu fill_err_mu fill_ok_mu) in E. destruct y; auto. apply IH. lia.
  - unfold g_body_state. rewrite (body_parse_tsteps _ _ _ _ H).
    destruct (g_body_parse stream fill consume read_some max st st dbg b ls s) as [[y ls1] s1] eqn:E.
    apply (body_parse_m _ fill consume read_some max st mu max_pos' fill_err_mu fill_ok_mu read_err_mu read_ok_mu) in E.
    destruct y; auto. apply IH. lia.
Qed.

Lemma msg_const {T} (pf : bytes -> perr + T) dbg flag m ls s : (mu s <= B)%nat ->
  msg_parse pf dbg flag m ls s = g_msg_loop stream fill consume read_some max st st 4 pf dbg flag m ls s.
Proof.
  intros H. rewrite <- msg_loop_tsteps by exact H.
  change (msg_parse pf dbg flag m ls s) with (g_msg_loop stream fill consume read_some max mu mu 4 pf dbg flag m ls s).
  apply (msg_loop_fuel _ fill consume read_some max mu mu max_pos' fill_err_mu fill_ok_mu read_err_mu read_ok_mu mu st B); auto.
Qed.
End Const.

(** ** Parsers of requests and responses *)

Lemma msg_fails {T} (pf : bytes -> perr + T) dbg flag k s2 m ls s : k <> InvalidData ->
  sim k s2 msg_data (msg_parse pf dbg flag m ls s) (msg_parse pf dbg flag m ls (s ++ RErr k :: s2)).
Proof.
  intros Hk. set (B := mu (s ++ RErr k :: s2)).
  rewrite (msg_const B pf dbg flag m ls s) by (unfold B; rewrite mu_app; lia).
  rewrite (msg_const B pf dbg flag m ls (s ++ _)) by (unfold B; lia). now apply msg_loop_sim.
Qed.

Lemma req_fails dbg k s2 st s r s' : k <> InvalidData -> req_parse dbg st s = (r, s') ->
  req_parse dbg st (s ++ RErr k :: s2) = (r, s' ++ RErr k :: s2) \/
  (s' = [] /\ exists st', r = PIo st' WouldBlock /\
    (k <> Interrupted \/ msg_data st' -> req_parse dbg st (s ++ RErr k :: s2) = (PIo st' k, s2))).
Proof.
  intros Hk E. unfold req_parse in *. pose proof (msg_fails parse_request_line dbg false k s2 st [] s Hk) as H.
  destruct (msg_parse parse_request_line dbg false st [] s) as [[r1 l1] s1]. destruct H as [-> | (-> & st' & -> & H)].
  - left. destruct r1 as [[[[? ?] ?] ?]|? ?|?|]; inversion E; subst; reflexivity.
  - right. inversion E; subst. split; auto. exists st'. split; auto. intros K. now rewrite (H K).
Qed.

Lemma resp_fails dbg k s2 st s r s' : k <> InvalidData -> resp_parse dbg st s = (r, s') ->
  resp_parse dbg st (s ++ RErr k :: s2) = (r, s' ++ RErr k :: s2) \/
  (s' = [] /\ exists st', r = PIo st' WouldBlock /\
    (k <> Interrupted \/ msg_data st' -> resp_parse dbg st (s ++ RErr k :: s2) = (PIo st' k, s2))).
Proof.
  intros Hk E. unfold resp_parse in *. pose proof (msg_fails parse_status_line dbg true k s2 st [] s Hk) as H.
  destruct (msg_parse parse_status_line dbg true st [] s) as [[r1 l1] s1]. destruct H as [-> | (-> & st' & -> & H)].
  - left. destruct r1 as [[[? ?] ?]|? ?|?|]; inversion E; subst; reflexivity.
  - right. inversion E; subst. split; auto. exists st'. split; auto. intros K. now rewrite (H K).
Qed.
