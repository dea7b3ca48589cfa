(** The texts of socket addresses of version 6. *)
From Coq Require Import List Ascii String NArith Bool.
From Verif.Model Require Import Bytes Addr.
From Verif.Spec Require Import Numerals Addr.
Import ListNotations.
Local Open Scope N_scope.

(** A group: one to four hexadecimal digits. *)
Definition hextet (s : bytes) (n : N) : Prop :=
  s <> [] /\ (List.length s <= 4)%nat /\ exists ds, Forall2 (is_digit 16) s ds /\ n = positional 16 ds.
(** An IPv4 address, as two groups. *)
Definition quad (zeros : bool) (s : bytes) (ns : list N) : Prop :=
  exists a b c d na nb nc nd, s = a ++ "."%char :: b ++ "."%char :: c ++ "."%char :: d /\
    octet zeros a na /\ octet zeros b nb /\ octet zeros c nc /\ octet zeros d nd /\ ns = [256 * na + nb; 256 * nc + nd].
(** Groups separated by colons; [q]: the last two are written as an IPv4 address. *)
Inductive groups (zeros : bool) : bool -> bytes -> list N -> Prop :=
| groups_one g n : hextet g n -> groups zeros false g [n]
| groups_quad s ns : quad zeros s ns -> groups zeros true s ns
| groups_more q g n s ns : hextet g n -> groups zeros q s ns -> groups zeros q (g ++ ":"%char :: s) (n :: ns).
Definition maybe (P : bytes -> list N -> Prop) (s : bytes) (ns : list N) : Prop := (s = [] /\ ns = []) \/ P s ns.
(** Eight groups, or fewer with a "::" in place of zeros ([gap]: of how many at least).  An IPv4 address is the last. *)
Definition v6_text (zeros : bool) (gap : nat) (s : bytes) (ns : list N) : Prop :=
  (List.length ns = 8%nat /\ exists q, groups zeros q s ns) \/
  (exists h hs t ts, s = h ++ ":"%char :: ":"%char :: t /\ maybe (groups zeros false) h hs /\ maybe (fun s ns => exists q, groups zeros q s ns) t ts /\
     (List.length hs < 8)%nat /\ (List.length hs + gap + List.length ts <= 8)%nat /\
     ns = hs ++ repeat 0 (8 - List.length hs - List.length ts) ++ ts).
(** In brackets, perhaps with a scope, and with a port: [fe80::1%3]:80.  Here without the first bracket. *)
Definition bracketed (zeros : bool) (digits : option nat) (gap : nat) (scopes : bool) (s : bytes) (ip : list N) (scope p : N) : Prop :=
  exists t z q, s = t ++ z ++ "]"%char :: ":"%char :: q /\ v6_text zeros gap t ip /\ port digits q p /\
    ((z = [] /\ scope = 0) \/ (scopes = true /\ exists d, z = "%"%char :: d /\ decimal d scope /\ scope <= 4294967295)).
