(** Addresses of version 6 in the configurations of servers and clients: C96. *)
From Coq Require Import List Ascii String NArith Bool Lia.
From Verif.Model Require Import Bytes Io Pool Addr.
From Verif.Spec Require Import Numerals Addr.
From Verif.Proofs Require Import AddrFacts.
From Verif.Model Require Import Addr6.
From Verif.Spec Require Import Addr6.
From Verif.Proofs Require Import Addr6Facts.
Import ListNotations.
Local Open Scope N_scope.

(** What is read from a text after an opening bracket is what is written there. *)
Theorem C96_brackets sd o s ip z p : parse_v6 sd o s = Some (ip, z, p) <->
  bracketed (sd_zeros sd) (sd_port_digits sd) (gap_of o) (s6_scopes o) s ip z p.
Proof. apply parse_v6_iff. Qed.

(** A server accepts exactly the IPv4 addresses with a port and the IPv6 addresses in brackets with a port; a client connects to
    these without looking anything up. *)
Definition some_address (sd : std) (o : std6) (addr : bytes) : Prop :=
  (exists ip p, dotted (sd_zeros sd) (sd_port_digits sd) addr ip p) \/
  (exists s ip z p, addr = "["%char :: s /\ bracketed (sd_zeros sd) (sd_port_digits sd) (gap_of o) (s6_scopes o) s ip z p).
Lemma parse_addr_some sd o addr : parse_addr sd (v6_of sd o) addr <> None <-> some_address sd o addr.
Proof.
  unfold some_address. assert (B : (exists r, addr = "["%char :: r) \/ (forall r, addr <> "["%char :: r)).
  { destruct addr as [|c r]; [right; discriminate|]. destruct (Ascii.ascii_dec c "["%char) as [-> |Ne]; [left; eauto|right; congruence]. }
  destruct B as [(r & ->)|Ne].
  - change (parse_addr sd (v6_of sd o) ("["%char :: r)) with (if v6_of sd o r then Some (V6 ("["%char :: r)) else None). unfold v6_of.
    destruct (parse_v6 sd o r) as [[[ip z] p]|] eqn:E.
    + split; [|discriminate]. intros _. right. exists r, ip, z, p. split; auto. now apply parse_v6_iff.
    + split; [congruence|]. intros [(ip & p & D)|(s & ip & z & p & X & D)].
      * exfalso. destruct ip as [[[na nb] nc] nd]. destruct D as (a & b & c & d & q & H & ((ds & N0 & F & _) & _) & _).
        destruct a as [|x a]; [now destruct N0|]. inversion H; subst. inversion F as [|? ? ? ? Dg]; subst. apply digit10 in Dg. discriminate.
      * inversion X; subst. apply parse_v6_iff in D. congruence.
  - assert (E : parse_addr sd (v6_of sd o) addr = match parse_v4 sd addr with Some (ip, p) => Some (V4 ip p) | None => None end).
    { unfold parse_addr. destruct addr as [|[[] [] [] [] [] [] [] []] r]; auto. now destruct (Ne r). }
    rewrite E. destruct (parse_v4 sd addr) as [[ip p]|] eqn:P.
    + split; [|discriminate]. intros _. left. exists ip, p. now apply parse_v4_iff.
    + split; [congruence|]. intros [(ip & p & D)|(s & ip & z & p & X & D)]; [apply parse_v4_iff in D; congruence|now destruct (Ne s)].
Qed.
Theorem C96_server_address_all sd o threads addr os : threads <> 0%nat ->
  snd (listen_start sd (v6_of sd o) threads addr os) <> StartPanics <-> some_address sd o addr.
Proof.
  intros T. rewrite <- parse_addr_some. unfold listen_start. destruct (parse_addr sd (v6_of sd o) addr) as [a|].
  - split; [discriminate|]. intros _. destruct threads; [now destruct T|]. destruct (sy_bind os); [discriminate|]. destruct (sy_poll os); [discriminate|]. destruct (sy_register os); discriminate.
  - split; intros H; [now destruct H|now destruct H].
Qed.
Theorem C96_client_address_all sd o addr : (exists a, target_of sd (v6_of sd o) addr = Direct a) <-> some_address sd o addr.
Proof.
  rewrite <- parse_addr_some. unfold target_of. destruct (parse_addr sd (v6_of sd o) addr) as [a|]; [split; [discriminate|eauto]|]. split; [|congruence].
  intros (a & E). destruct (rsplit_colon addr) as [[h p]|]; [|discriminate]. destruct (parse_uint 10 U16_MAX p); discriminate.
Qed.
(** And the two use the same numbers: the text, which is all that is kept here, has only one reading, of eight groups. *)
Lemma hextet_small s n : hextet s n -> n < 65536.
Proof.
  intros (_ & L & ds & F & ->). assert (B : positional 16 ds < 16 ^ len ds).
  { clear L. induction F as [|c d s ds (D & _) F IH]; [reflexivity|]. cbn [positional]. unfold len in *. cbn [List.length].
    rewrite Nnat.Nat2N.inj_succ, N.pow_succ_r'. nia. }
  unfold len in B. rewrite <- (F2_length _ _ _ F) in B. eapply N.lt_le_trans; [exact B|]. change 65536 with (16 ^ 4). apply N.pow_le_mono_r; lia.
Qed.
Lemma groups_small zeros q s ns : groups zeros q s ns -> Forall (fun n => n < 65536) ns.
Proof.
  intros G. induction G as [g n H|s ns H|q g n s ns H G IH].
  - constructor; auto. eapply hextet_small; eauto.
  - destruct H as (a & b & c & d & na & nb & nc & nd & _ & (_ & A & _) & (_ & B & _) & (_ & C & _) & (_ & D & _) & ->).
    constructor; [lia|constructor; [lia|constructor]].
  - constructor; auto. eapply hextet_small; eauto.
Qed.
Theorem C96_brackets_one_reading zeros digits (g : bool) scopes s ip z p ip' z' p' :
  bracketed zeros digits (if g then 1 else 0) scopes s ip z p -> bracketed zeros digits (if g then 1 else 0) scopes s ip' z' p' ->
  ip = ip' /\ z = z' /\ p = p' /\ List.length ip = 8%nat /\ Forall (fun n => n < 65536) ip.
Proof.
  intros A B.
  assert (L : List.length ip = 8%nat /\ Forall (fun n => n < 65536) ip).
  { destruct A as (t & zs & q & _ & [(L & k & G)|(h & hs & u & ts & _ & H & T & L8 & L & ->)] & _).
    - split; auto. eapply groups_small; eauto.
    - split; [rewrite !app_length, repeat_length; lia|]. apply Forall_app. split; [|apply Forall_app; split].
      + destruct H as [(_ & ->)|G]; [constructor|eapply groups_small; eauto].
      + apply Forall_forall. intros x I. apply repeat_spec in I. subst. lia.
      + destruct T as [(_ & ->)|(k & G)]; [constructor|eapply groups_small; eauto]. }
  pose proof (proj2 (parse_v6_iff (mk_std zeros digits) (mk_std6 g scopes) s ip z p) A) as A'.
  pose proof (proj2 (parse_v6_iff (mk_std zeros digits) (mk_std6 g scopes) s ip' z' p') B) as B'.
  rewrite A' in B'. inversion B'; subst. tauto.
Qed.

(** ** Cases *)
Definition new_std : std := mk_std false None.
Definition new_std6 : std6 := mk_std6 true true.
Example C96_brackets_case :
  parse_v6 new_std new_std6 (lit "::1]:7878") = Some ([0; 0; 0; 0; 0; 0; 0; 1], 0, 7878) /\
  parse_v6 new_std new_std6 (lit "fe80::1%3]:80") = Some ([65152; 0; 0; 0; 0; 0; 0; 1], 3, 80) /\
  parse_v6 new_std new_std6 (lit "2001:DB8::192.0.2.1]:443") = Some ([8193; 3512; 0; 0; 0; 0; 49152; 513], 0, 443) /\
  parse_v6 new_std new_std6 (lit "1:2:3:4:5:6:7:8]:1") = Some ([1; 2; 3; 4; 5; 6; 7; 8], 0, 1) /\
  parse_v6 new_std new_std6 (lit "1:2:3:4:5:6:7::8]:1") = None /\ parse_v6 new_std (mk_std6 false true) (lit "1:2:3:4:5:6:7::8]:1") <> None /\
  parse_v6 new_std new_std6 (lit "1::2::3]:1") = None /\ parse_v6 new_std new_std6 (lit "1.2.3.4::]:1") = None /\
  parse_v6 new_std new_std6 (lit "::1]") = None /\ parse_v6 new_std new_std6 (lit "12345::]:1") = None.
Proof. vm_compute. intuition discriminate. Qed.
Example C96_server_address_all_case :
  snd (listen_start new_std (v6_of new_std new_std6) 4 (lit "[::1]:7878") (mk_sys None None None)) = Starts (V6 (lit "[::1]:7878")) (pool_new 4) /\
  target_of new_std (v6_of new_std new_std6) (lit "[::1]:7878") = Direct (V6 (lit "[::1]:7878")) /\
  snd (listen_start new_std (v6_of new_std new_std6) 4 (lit "::1:7878") (mk_sys None None None)) = StartPanics.
Proof. vm_compute. auto. Qed.

Print Assumptions C96_brackets.
Print Assumptions C96_server_address_all.
Print Assumptions C96_client_address_all.
Print Assumptions C96_brackets_one_reading.
