(** C96 and C97: addresses, and how a server starts. *)
From Coq Require Import List Ascii String NArith Bool Lia.
From Verif.Model Require Import Bytes Io Pool Addr.
From Verif.Spec Require Import Numerals Jobs Addr.
From Verif.Proofs Require Import CommonFacts PoolFacts AddrFacts.
From Verif.Properties Require Import Pool.
Import ListNotations.
Local Open Scope N_scope.

(** ** C96 *)

Lemma parse_addr_plain sd v6 s : (forall r, s <> "["%char :: r) -> parse_addr sd v6 s = match parse_v4 sd s with Some (ip, p) => Some (V4 ip p) | None => None end.
Proof.
  intros H. unfold parse_addr. destruct s as [|c s]; auto. destruct c as [[] [] [] [] [] [] [] []]; try reflexivity. now destruct (H s).
Qed.
Lemma dotted_plain zeros digits s ip p : dotted zeros digits s ip p -> forall r, s <> "["%char :: r.
Proof.
  destruct ip as [[[na nb] nc] nd]. intros (a & b & c & d & q & -> & A & _) r E. destruct A as ((ds & A1 & A2 & _) & _).
  destruct a as [|x a]; [now destruct A1|]. inversion E; subst. inversion A2; subst. destruct H1 as [_ H1]. cbn in H1. lia.
Qed.

(** The addresses that a server accepts, other than bracketed ones: exactly the IPv4 addresses with a port. *)
Theorem C96_server_address sd v6 threads addr os : (forall r, addr <> "["%char :: r) -> threads <> 0%nat ->
  (snd (listen_start sd v6 threads addr os) <> StartPanics <-> exists ip p, dotted (sd_zeros sd) (sd_port_digits sd) addr ip p).
Proof.
  intros Br Th. unfold listen_start. rewrite parse_addr_plain by auto. split.
  - intros H. destruct (parse_v4 sd addr) as [[ip p]|] eqn:E; [|now destruct H]. exists ip, p. now apply parse_v4_iff.
  - intros (ip & p & D). apply parse_v4_iff in D. rewrite D. destruct threads; [now destruct Th|]. destruct (sy_bind os), (sy_poll os), (sy_register os); discriminate.
Qed.
Print Assumptions C96_server_address.

(** An IPv4 address means the numbers it is written with. *)
Theorem C96_server_binds sd v6 threads addr os ip p a : dotted (sd_zeros sd) (sd_port_digits sd) addr ip p ->
  In (Bound a) (fst (listen_start sd v6 threads addr os)) -> a = V4 ip p.
Proof.
  intros D I. pose proof (dotted_plain _ _ _ _ _ D) as Br. apply parse_v4_iff in D. unfold listen_start in I. rewrite parse_addr_plain, D in I by auto.
  destruct threads; [destruct I|]. destruct (sy_bind os), (sy_poll os), (sy_register os); cbn in I; intuition (try discriminate; try congruence).
Qed.
Print Assumptions C96_server_binds.

(** A client given an IPv4 address with a port connects to that address, the one that a server given the same text binds to. *)
Theorem C96_client_address sd v6 threads addr os ip p : dotted (sd_zeros sd) (sd_port_digits sd) addr ip p ->
  target_of sd v6 addr = Direct (V4 ip p) /\ (forall a, In (Bound a) (fst (listen_start sd v6 threads addr os)) -> target_of sd v6 addr = Direct a).
Proof.
  intros D. assert (E : target_of sd v6 addr = Direct (V4 ip p)).
  { unfold target_of. rewrite parse_addr_plain by (eapply dotted_plain; eauto). apply parse_v4_iff in D. now rewrite D. }
  split; auto. intros a I. now rewrite (C96_server_binds _ _ _ _ _ _ _ _ D I).
Qed.
Print Assumptions C96_client_address.

Lemma before_colon_cut s : forall r, ~ In ":"%char s -> before_colon (s ++ ":"%char :: r) = s.
Proof. induction s as [|c s IH]; intros r N; cbn; auto. destruct (Ascii.eqb_spec c ":"%char) as [->|E]; [destruct N; now left|]. rewrite IH; auto. intros I. apply N. now right. Qed.
Lemma before_colon_none s : ~ In ":"%char s -> before_colon s = s.
Proof. induction s as [|c s IH]; intros N; cbn; auto. destruct (Ascii.eqb_spec c ":"%char) as [->|E]; [destruct N; now left|]. rewrite IH; auto. intros I. apply N. now right. Qed.
Lemma before_colon_spec s : ~ In ":"%char (before_colon s) /\ (s = before_colon s \/ exists r, s = before_colon s ++ ":"%char :: r).
Proof.
  induction s as [|c s [IH1 IH2]]; cbn; [split; auto|]. destruct (Ascii.eqb_spec c ":"%char) as [->|E]; [split; [intros []|right; exists s; reflexivity]|]. split.
  - intros [X|X]; [congruence|auto].
  - destruct IH2 as [IH2|[r IH2]]; [left; congruence|right; exists r; cbn; congruence].
Qed.
Lemma labels_chars under s : labels under s -> forall x, In x s -> of_label under x \/ x = "."%char.
Proof.
  induction 1 as [l (_ & _ & F & _)|l (_ & _ & F & _)|l t (_ & _ & F & _) L IH]; intros x I; rewrite Forall_forall in F; [auto| |].
  - apply in_app_or in I as [I|[<-|[]]]; auto.
  - apply in_app_or in I as [I|[<-|I]]; auto.
Qed.
Lemma name_no_colon under s : host_name under s -> ~ In ":"%char s.
Proof.
  intros [L _] I. destruct (labels_chars _ _ L _ I) as [X|X]; [|discriminate]. apply of_label_iff in X. destruct under; vm_compute in X; discriminate.
Qed.

(** A client for https can be had exactly for addresses that consist of a host name, or start with one and a colon; and it checks certificates against that
    name. *)
Theorem C96_https_name under conns addr n name :
  new_https under conns addr = Some (n, name) <->
  n = conns /\ conns <> 0%nat /\ host_name under name /\ (addr = name \/ exists r, addr = name ++ ":"%char :: r).
Proof.
  unfold new_https, new_client. split.
  - intros E. destruct (dns_ok under (before_colon addr)) eqn:D; [|discriminate]. apply dns_ok_iff in D. destruct conns; [discriminate|]. inversion E; subst.
    split; auto. split; [discriminate|]. split; auto. apply before_colon_spec.
  - intros (-> & C & H & A). pose proof (name_no_colon _ _ H) as N.
    assert (E : before_colon addr = name) by (destruct A as [->|[r ->]]; [now apply before_colon_none|now apply before_colon_cut]).
    rewrite E. apply dns_ok_iff in H. rewrite H. destruct conns; [now destruct C|reflexivity].
Qed.
Print Assumptions C96_https_name.

Lemma octet_part under zeros s n : octet zeros s n -> part under s /\ digitsb s = true /\ ~ In ":"%char s.
Proof.
  intros ((ds & A & F & _) & _ & L & _).
  assert (D : Forall (fun c => In c numbers) s).
  { clear A L. induction F as [|c d s ds H F IH]; constructor; auto. apply in_numbers. unfold between. destruct H as [H1 H2]. apply andb_true_iff. rewrite !N.leb_le. lia. }
  split; [|split; [apply digitsb_iff, D|]].
  - split; auto. split; [lia|]. split; [|intros r ->; inversion D as [|x y H]; subst; apply in_numbers in H; vm_compute in H; discriminate].
    eapply Forall_impl; [|exact D]. intros c I. right. now left.
  - intros I. rewrite Forall_forall in D. apply D in I. apply in_numbers in I. vm_compute in I. discriminate.
Qed.
Lemma no_digits_name under zeros digits addr ip p : dotted zeros digits addr ip p -> dns_ok under (before_colon addr) = false.
Proof.
  destruct ip as [[[na nb] nc] nd]. intros (a & b & c & d & q & -> & A & B & C & D & _).
  apply (octet_part under) in A as (A1 & A2 & A3), B as (B1 & B2 & B3), C as (C1 & C2 & C3), D as (D1 & D2 & D3).
  replace (a ++ "."%char :: b ++ "."%char :: c ++ "."%char :: d ++ ":"%char :: q) with ((a ++ "."%char :: b ++ "."%char :: c ++ "."%char :: d) ++ ":"%char :: q)
    by (repeat (rewrite <- app_assoc; cbn [app]); reflexivity).
  rewrite before_colon_cut.
  - destruct (dns_ok under _) eqn:E; auto. apply dns_ok_iff in E as [E _]. exfalso.
    assert (X : forall p s, part under p -> labels under (p ++ "."%char :: s) -> s <> [] -> labels under s).
    { intros x s P L Ne. apply labels_dotted in L as [_ [[L _]|L]]; auto. contradiction. }
    apply X in E; auto; [|destruct b; discriminate]. apply X in E; auto; [|destruct c; discriminate]. apply X in E; auto; [|destruct D1; auto].
    apply labels_plain in E as [_ E]; auto. congruence.
  - rewrite in_app_iff. cbn [In]. rewrite in_app_iff. cbn [In]. rewrite in_app_iff. cbn [In]. intuition discriminate.
Qed.
Lemma bracket_name under r : dns_ok under (before_colon ("["%char :: r)) = false.
Proof.
  destruct (dns_ok under _) eqn:E; auto. apply dns_ok_iff in E as [E _]. cbn in E. apply labels_first in E as [E _]. apply of_label_iff in E. destruct under; vm_compute in E; discriminate.
Qed.
Lemma parsed_no_name sd v6 under addr a : parse_addr sd v6 addr = Some a -> dns_ok under (before_colon addr) = false.
Proof.
  intros E. assert (Dec : (exists r, addr = "["%char :: r) \/ forall r, addr <> "["%char :: r).
  { destruct addr as [|c r]; [right; discriminate|]. destruct (Ascii.ascii_dec c "["%char) as [->|N]; [left; eauto|right; congruence]. }
  destruct Dec as [[r ->]|N]; [apply bracket_name|]. rewrite parse_addr_plain in E by auto. destruct (parse_v4 sd addr) as [[ip p]|] eqn:D; [|discriminate].
  apply parse_v4_iff in D. eapply no_digits_name; eauto.
Qed.

(** No address serves for both: an address with which a server can be started cannot be given to a client for https, which panics.  (One for http takes
    any.)  So the property "a client for https can be created for every address that a server listens on" fails on all of them. *)
Theorem C96_server_address_for_client_refuted sd v6 threads addr os under conns :
  snd (listen_start sd v6 threads addr os) <> StartPanics -> new_https under conns addr = None.
Proof.
  unfold listen_start, new_https. intros H. destruct (parse_addr sd v6 addr) as [a|] eqn:E; [|now destruct H]. now rewrite (parsed_no_name _ _ under _ _ E).
Qed.
Print Assumptions C96_server_address_for_client_refuted.

Lemma rsplit_cut h : forall q, ~ In ":"%char q -> rsplit_colon (h ++ ":"%char :: q) = Some (h, q).
Proof.
  assert (Z : forall q, ~ In ":"%char q -> rsplit_colon q = None).
  { induction q as [|c q IH]; intros N; cbn; auto. rewrite IH by (intros I; apply N; now right). destruct (Ascii.eqb_spec c ":"%char) as [->|E]; auto. destruct N. now left. }
  induction h as [|c h IH]; intros q N; cbn; [now rewrite Z|]. now rewrite IH.
Qed.
Lemma rsplit_spec s : forall h q, rsplit_colon s = Some (h, q) -> s = h ++ ":"%char :: q.
Proof.
  induction s as [|c s IH]; intros h q E; cbn in E; [discriminate|]. destruct (rsplit_colon s) as [[a b]|] eqn:R.
  - inversion E; subst. cbn. now rewrite (IH _ _ eq_refl).
  - destruct (Ascii.eqb_spec c ":"%char) as [->|]; inversion E; subst. reflexivity.
Qed.
Lemma numeral_no_colon q n : denotes 10 q n -> ~ In ":"%char q.
Proof.
  intros (digits & ds & E & _ & F & _) I.
  assert (X : ~ In ":"%char digits).
  { clear E I. induction F as [|c d l m H F IH]; [intros []|]. intros [->|I]; [|auto]. destruct H as [_ H]. cbn in H. lia. }
  destruct E as [->| ->]; [auto|]. destruct I as [I|I]; [discriminate|auto].
Qed.

(** With the name of a host and a port a client connects to a host of that name, at that port, and checks its certificate against that name; a server cannot be
    started on it. *)
Theorem C96_host_and_port sd v6 under name q p conns threads os : host_name under name -> denotes 10 q p -> p <= 65535 -> conns <> 0%nat ->
  let addr := name ++ ":"%char :: q in
  target_of sd v6 addr = Lookup name p /\ new_https under conns addr = Some (conns, name) /\ listen_start sd v6 threads addr os = ([], StartPanics).
Proof.
  intros H D L C addr.
  assert (E : new_https under conns addr = Some (conns, name)) by (apply C96_https_name; split; auto; split; auto; split; auto; right; exists q; reflexivity).
  assert (P : parse_addr sd v6 addr = None).
  { destruct (parse_addr sd v6 addr) as [a|] eqn:A; auto. exfalso. unfold new_https in E. rewrite (parsed_no_name _ _ under _ _ A) in E. discriminate. }
  split; [|split; auto].
  - unfold target_of. rewrite P. unfold addr. rewrite rsplit_cut by (eapply numeral_no_colon; eauto).
    assert (U : parse_uint 10 U16_MAX q = Some p) by (apply parse_uint_spec; [lia|split; auto]). now rewrite U.
  - unfold listen_start. now rewrite P.
Qed.
Print Assumptions C96_host_and_port.

(** A client for https never connects to an address as such; and the host it looks up is the one whose certificate it checks, unless there is a
    colon in it. *)
Theorem C96_host_checked sd v6 under conns addr n name : new_https under conns addr = Some (n, name) ->
  match target_of sd v6 addr with
  | Direct _ => False
  | Lookup h p => h = name \/ (In ":"%char h /\ exists r, h = name ++ ":"%char :: r)
  | NoTarget => True
  end.
Proof.
  intros E. assert (P : parse_addr sd v6 addr = None).
  { destruct (parse_addr sd v6 addr) as [a|] eqn:A; auto. exfalso. unfold new_https in E. rewrite (parsed_no_name _ _ under _ _ A) in E. discriminate. }
  unfold target_of. rewrite P. destruct (rsplit_colon addr) as [[h q]|] eqn:R; auto. destruct (parse_uint 10 U16_MAX q); auto.
  apply rsplit_spec in R. apply C96_https_name in E as (_ & _ & H & A). apply name_no_colon in H.
  destruct (before_colon_spec h) as [B1 B2]. assert (X : before_colon addr = name) by (destruct A as [->|[r ->]]; [now apply before_colon_none|now apply before_colon_cut]).
  destruct B2 as [B2|[r B2]].
  - left. rewrite R, before_colon_cut in X by congruence. auto.
  - right. split; [rewrite B2; apply in_or_app; right; now left|]. exists r. rewrite B2, <- app_assoc in R. cbn [app] in R. rewrite R, before_colon_cut in X by auto. congruence.
Qed.
Print Assumptions C96_host_checked.

(** The exception occurs: for "fe80::1:443" the host fe80::1 is looked up, and the certificate is checked against the name fe80. *)
Theorem C96_host_always_checked_refuted :
  exists addr, forall sd v6 under, exists name h p, new_https under 1 addr = Some (1%nat, name) /\ target_of sd v6 addr = Lookup h p /\ h <> name.
Proof.
  exists (lit "fe80::1:443"). intros sd v6 under. exists (lit "fe80"), (lit "fe80::1"), 443. split; [|split; [|discriminate]].
  - destruct under; vm_compute; reflexivity.
  - destruct sd as [z d]. unfold target_of. assert (P : parse_addr (mk_std z d) v6 (lit "fe80::1:443") = None) by (destruct z; vm_compute; reflexivity).
    rewrite P. vm_compute. reflexivity.
Qed.
Print Assumptions C96_host_always_checked_refuted.

(** ** C97 *)

(** Starting a server panics exactly if its address is not one or it is to have no threads, and then nothing has been done yet. *)
Theorem C97_panics sd v6 threads addr os :
  snd (listen_start sd v6 threads addr os) = StartPanics <-> parse_addr sd v6 addr = None \/ threads = 0%nat.
Proof.
  unfold listen_start. destruct (parse_addr sd v6 addr); [|tauto]. destruct threads; [tauto|].
  destruct (sy_bind os), (sy_poll os), (sy_register os); cbn; split; try discriminate; intros [X|X]; discriminate.
Qed.
Print Assumptions C97_panics.
Theorem C97_panics_early sd v6 threads addr os es : listen_start sd v6 threads addr os = (es, StartPanics) -> es = [].
Proof.
  unfold listen_start. destruct (parse_addr sd v6 addr); [|congruence]. destruct threads; [congruence|].
  destruct (sy_bind os), (sy_poll os), (sy_register os); congruence.
Qed.
Print Assumptions C97_panics_early.

(** If the operating system refuses, the first error is returned, no events are waited for, and not before all threads of the server have ended: the drop of the
    pool goes through, in whatever order its threads run, after a bounded number of steps. *)
Theorem C97_fails sd v6 threads addr os es e p : listen_start sd v6 threads addr os = (es, StartFails e p) ->
  first_error os = Some e /\ ~ In Registered es /\ In (Spawned threads) es /\
  forall ls st, run p ls st -> submitted ls = [] -> In DropCalled ls ->
    exists bound, forall ls' st', run st ls' st' ->
      (List.length ls' <= bound)%nat /\
      ((forall l st'', ~ step st' l st'') -> count live (po_workers st') = 0%nat /\ po_owner st' = ODropped).
Proof.
  intros E. unfold listen_start in E. destruct (parse_addr sd v6 addr) as [a|] eqn:A; [|discriminate]. destruct threads as [|t]; [discriminate|].
  assert (X : first_error os = Some e /\ ~ In Registered es /\ In (Spawned (S t)) es /\ p = pool_new (S t)).
  { unfold first_error. destruct (sy_bind os), (sy_poll os), (sy_register os); inversion E; subst; cbn; intuition discriminate. }
  destruct X as (X1 & X2 & X3 & ->). repeat split; auto. intros ls st R Sub D. exists (left_to_do st). intros ls' st' R'.
  destruct (C47_drop_ends (S t) ls st ltac:(lia) R D ls' st' R') as [B F]. split; auto. intros Stuck. destruct (F Stuck) as [F1 [[_ F2]|[F2 _]]]; [auto|]. exfalso. apply F2.
  assert (RR : run (pool_new (S t)) (ls' ++ ls) st').
  { clear - R R'. induction R' as [|s l s' x s'' R' IH Sp]; cbn; auto. econstructor; eauto. }
  assert (Ow : po_owner st <> OLive).
  { clear - R D. induction R as [s|s l s' x s'' R IH Sp]; [destruct D|]. destruct D as [->|D]; [inversion Sp; subst; discriminate|]. apply IH in D. eapply closing_step; eauto. }
  assert (Sub' : submitted (ls' ++ ls) = []).
  { unfold submitted. rewrite rev_app_distr, flat_map_app. fold (submitted ls). rewrite Sub. cbn [app]. clear - R' Ow.
    assert (Y : po_owner st' <> OLive /\ flat_map submitted_by (rev ls') = []); [|tauto].
    induction R' as [|s l s' x s'' R' IH Sp]; [split; auto|]. destruct (IH Ow) as [IH1 IH2]. destruct (closing_step _ _ _ IH1 Sp) as [C _]. split; auto.
    cbn [rev]. rewrite flat_map_app, IH2. inversion Sp; subst; try reflexivity. contradiction. }
  destruct (C46_order (S t) _ _ ltac:(lia) RR) as (_ & w & W). rewrite Sub' in W. symmetry in W. apply app_eq_nil in W as [W _].
  destruct (C46_each_once (S t) _ _ ltac:(lia) RR) as [Pm _]. rewrite W in Pm. apply Permutation.Permutation_sym, Permutation.Permutation_nil in Pm.
  apply app_eq_nil in Pm as [_ Pm]. now apply app_eq_nil in Pm.
Qed.
Print Assumptions C97_fails.

(** And an error is returned whenever there is one: the first. *)
Theorem C97_first_error sd v6 threads addr os e : parse_addr sd v6 addr <> None -> threads <> 0%nat ->
  (first_error os = Some e <-> exists p, snd (listen_start sd v6 threads addr os) = StartFails e p).
Proof.
  intros A T. unfold listen_start, first_error. destruct (parse_addr sd v6 addr); [|now destruct A]. destruct threads; [now destruct T|].
  destruct (sy_bind os), (sy_poll os), (sy_register os); cbn [snd]; split; intros X; try (inversion X; subst; eauto; fail); try (destruct X as (p & X); inversion X; subst; auto; fail).
Qed.
Print Assumptions C97_first_error.

(** Otherwise it serves on its address, with as many threads as asked for; bound before anything is waited for. *)
Theorem C97_starts sd v6 threads addr os a : parse_addr sd v6 addr = Some a -> threads <> 0%nat -> first_error os = None ->
  listen_start sd v6 threads addr os = ([Spawned threads; Bound a; Polling; Registered], Starts a (pool_new threads)) /\
  po_workers (pool_new threads) = repeat WIdle threads.
Proof.
  intros A T F. unfold listen_start. rewrite A. destruct threads; [now destruct T|]. unfold first_error in F. destruct (sy_bind os); [discriminate|]. destruct (sy_poll os); [discriminate|]. rewrite F.
  split; reflexivity.
Qed.
Print Assumptions C97_starts.

(** ** Cases *)
Definition sd_now := mk_std false None.
Definition sd_then := mk_std true (Some 5%nat).
Definition all_well := mk_sys None None None.
Example C96_case : dotted false None (lit "127.0.0.1:7878") (127, 0, 0, 1) 7878 /\ host_name true (lit "localhost") /\ host_name false (lit "www.example.org.") /\
  new_https true 3 (lit "localhost:443") = Some (3%nat, lit "localhost") /\ new_https true 3 (lit "127.0.0.1:443") = None /\
  parse_v4 sd_then (lit "010.0.0.1:08080") = Some ((10, 0, 0, 1), 8080) /\ parse_v4 sd_now (lit "010.0.0.1:8080") = None.
Proof.
  split; [apply (parse_v4_iff sd_now); vm_compute; reflexivity|]. split; [apply dns_ok_iff; vm_compute; reflexivity|]. split; [apply dns_ok_iff; vm_compute; reflexivity|].
  vm_compute. auto.
Qed.
Example C97_case : exists e p es, listen_start sd_now (fun _ => false) 4 (lit "0.0.0.0:80") (mk_sys (Some (OtherKind 13)) None None) = (es, StartFails e p) /\
  exists ls st, run p ls st /\ submitted ls = [] /\ In DropCalled ls.
Proof.
  do 3 eexists. split; [vm_compute; reflexivity|]. exists [DropCalled]. eexists. split; [eapply run_step; [apply run_nil|apply step_drop; reflexivity]|]. split; [reflexivity|now left].
Qed.
