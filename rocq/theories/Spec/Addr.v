(** The texts of addresses and names. *)
From Coq Require Import List Ascii String NArith Bool.
From Verif.Model Require Import Bytes Io Pool Addr.
From Verif.Spec Require Import Numerals.
Import ListNotations.
Local Open Scope N_scope.

(** A decimal numeral. *)
Definition decimal (s : bytes) (n : N) : Prop := exists ds, s <> [] /\ Forall2 (is_digit 10) s ds /\ n = positional 10 ds.
(** A number of an IPv4 address: at most 255, in at most three digits; without superfluous zeros unless [zeros]. *)
Definition octet (zeros : bool) (s : bytes) (n : N) : Prop :=
  decimal s n /\ n <= 255 /\ (List.length s <= 3)%nat /\ (zeros = false -> forall r, s = "0"%char :: r -> r = []).
Definition port (digits : option nat) (s : bytes) (n : N) : Prop :=
  decimal s n /\ n <= 65535 /\ (forall m, digits = Some m -> (List.length s <= m)%nat).
(** An IPv4 address with a port: 127.0.0.1:7878. *)
Definition dotted (zeros : bool) (digits : option nat) (s : bytes) (ip : v4) (p : N) : Prop :=
  exists a b c d q, let '(na, nb, nc, nd) := ip in
    s = a ++ "."%char :: b ++ "."%char :: c ++ "."%char :: d ++ ":"%char :: q /\
    octet zeros a na /\ octet zeros b nb /\ octet zeros c nc /\ octet zeros d nd /\ port digits q p.

(** Host names: labels of letters, digits, hyphens (and underscores), none starting or ending with a hyphen, separated by dots; the last is not a
    number, and there may be a dot after it. *)
Definition letters : bytes := lit "abcdefghijklmnopqrstuvwxyzABCDEFGHIJKLMNOPQRSTUVWXYZ".
Definition numbers : bytes := lit "0123456789".
Definition of_label (under : bool) (c : ascii) : Prop := In c letters \/ In c numbers \/ c = "-"%char \/ (under = true /\ c = "_"%char).
Definition label (under : bool) (l : bytes) : Prop :=
  l <> [] /\ (List.length l <= 63)%nat /\ Forall (of_label under) l /\
  (forall r, l <> "-"%char :: r) /\ (forall r, l <> r ++ ["-"%char]).
Definition all_digits (l : bytes) : Prop := Forall (fun c => In c numbers) l.
Inductive labels (under : bool) : bytes -> Prop :=
| labels_last l : label under l -> ~ all_digits l -> labels under l
| labels_dot l : label under l -> ~ all_digits l -> labels under (l ++ ["."%char])
| labels_more l s : label under l -> labels under s -> labels under (l ++ "."%char :: s).
Definition host_name (under : bool) (s : bytes) : Prop := labels under s /\ (List.length s <= 253)%nat.

(** The first thing that goes wrong when a listener is bound, a poll created, and the one registered with the other. *)
Definition first_error (os : sys) : option ekind :=
  match sy_bind os with Some e => Some e | None => match sy_poll os with Some e => Some e | None => sy_register os end end.
