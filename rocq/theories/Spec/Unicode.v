(** UTF-8 as defined by Unicode (RFC 3629): the encoding of a sequence of scalar values. *)
From Coq Require Import List NArith Bool.
From Verif.Model Require Import Bytes.
Import ListNotations.
Local Open Scope N_scope.

(** Code points except surrogates. *)
Definition scalar (n : N) : Prop := n < 55296 \/ 57344 <= n < 1114112.

(** The shortest form: 1 to 4 bytes. *)
Definition encode_scalar (n : N) : list N :=
  if n <? 128 then [n]
  else if n <? 2048 then [192 + n / 64; 128 + n mod 64]
  else if n <? 65536 then [224 + n / 4096; 128 + (n / 64) mod 64; 128 + n mod 64]
  else [240 + n / 262144; 128 + (n / 4096) mod 64; 128 + (n / 64) mod 64; 128 + n mod 64].

Definition unicode (s : bytes) : Prop :=
  exists ns, Forall scalar ns /\ map bval s = List.concat (map encode_scalar ns).
