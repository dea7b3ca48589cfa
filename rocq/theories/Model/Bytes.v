(** Bytes, strings and the parts of Rust's [str]/integer API the code uses.
    Models the standard-library functions called from the cited lines of /repo. *)
From Coq Require Import List Ascii String NArith Bool.
Import ListNotations.
Local Open Scope N_scope.

(** A byte (u8).  [ascii] has exactly 256 values. *)
Notation byte := ascii (only parsing).
(** Vec<u8>, &[u8]; also String and &str, which are byte sequences that are valid UTF-8. *)
Notation bytes := (list ascii) (only parsing).

(** A literal. *)
(* byte and string literals, such as server/server.rs:24 *)
Definition lit (s : string) : bytes := list_ascii_of_string s.

(** Numeric value of a byte. *)
(* u8 as a number *)
Definition bval (c : byte) : N := N_of_ascii c.

(* parse/deframe/line.rs:21 *)
Definition LF : byte := ascii_of_N 10.
(* parse/crlf_line.rs:40 *)
Definition CR : byte := ascii_of_N 13.
(* parse/request.rs:57, parse/response.rs:52 *)
Definition SP : byte := ascii_of_N 32.
(* parse/headers.rs:51 *)
Definition COLON : byte := ascii_of_N 58.
(* server/router.rs, main.rs:43 *)
Definition SLASH : byte := ascii_of_N 47.
(* client/client.rs:145-151, server/server.rs:143-149 *)
Definition crlf : bytes := [CR; LF].

(** Length as a binary number (usize). *)
(* len() of String, Vec and slices, such as parse/crlf_line.rs:28 *)
Definition len {A} (l : list A) : N := N.of_nat (List.length l).

(** Equality of byte strings (String/&str [==], slice [==]). *)
(* such as parse/request.rs:57-73 *)
Fixpoint beqb (a b : bytes) : bool :=
  match a, b with
  | [], [] => true
  | x :: a', y :: b' => Ascii.eqb x y && beqb a' b'
  | _, _ => false
  end.

(** u8::to_ascii_lowercase; String::make_ascii_lowercase (common/header.rs:48). *)
Definition lower_byte (c : byte) : byte :=
  if (65 <=? bval c) && (bval c <=? 90) then ascii_of_N (bval c + 32) else c.
Definition lower (s : bytes) : bytes := map lower_byte s.

(** str::starts_with (server/router.rs:72). *)
Fixpoint starts_with (pre s : bytes) : bool :=
  match pre, s with
  | [], _ => true
  | x :: pre', y :: s' => Ascii.eqb x y && starts_with pre' s'
  | _ :: _, [] => false
  end.

(** str::ends_with (main.rs:43, 74-83). *)
Definition ends_with (suf s : bytes) : bool := starts_with (rev suf) (rev s).

(** str::contains (parse/body.rs:65). *)
Fixpoint contains (pat s : bytes) : bool :=
  starts_with pat s || match s with [] => false | _ :: s' => contains pat s' end.

(** str::split(" ") (parse/request.rs:57, parse/response.rs:52): the list of the pieces between
    single spaces; never empty. *)
Fixpoint split_sp (s : bytes) : list bytes :=
  match s with
  | [] => [[]]
  | c :: s' =>
      if Ascii.eqb c SP then [] :: split_sp s'
      else match split_sp s' with
           | w :: ws => (c :: w) :: ws
           | [] => [[c]]
           end
  end.

(** str::splitn(2, ": ") (parse/headers.rs:51): [None] if the pattern does not occur (the
    iterator then yields one item only), else the parts before and after its first occurrence. *)
Fixpoint split_colon (s : bytes) : option (bytes * bytes) :=
  match s with
  | [] => None
  | c :: s' =>
      if starts_with [COLON; SP] s then Some ([], tl s')
      else match split_colon s' with
           | Some (a, b) => Some (c :: a, b)
           | None => None
           end
  end.

(** str::from_utf8, as a byte automaton following the table of well-formed UTF-8 sequences
    (Unicode 3.9 table 3-7, the one core::str uses).  [UNext n lo hi]: n more continuation bytes
    are needed and the next must be in lo..hi. *)
(* inside read_line, called at parse/deframe/line.rs:19 *)
Inductive ustate := UStart | UNext (n : nat) (lo hi : N).

(* inside read_line, called at parse/deframe/line.rs:19 *)
Definition ustep (st : ustate) (c : byte) : option ustate :=
  let b := bval c in
  match st with
  | UStart =>
      if b <=? 127 then Some UStart
      else if b <=? 193 then None
      else if b <=? 223 then Some (UNext 1 128 191)
      else if b =? 224 then Some (UNext 2 160 191)
      else if b =? 237 then Some (UNext 2 128 159)
      else if b <=? 239 then Some (UNext 2 128 191)
      else if b =? 240 then Some (UNext 3 144 191)
      else if b <=? 243 then Some (UNext 3 128 191)
      else if b =? 244 then Some (UNext 3 128 143)
      else None
  | UNext n lo hi =>
      if (lo <=? b) && (b <=? hi) then
        match n with
        | S (S n') => Some (UNext (S n') 128 191)
        | _ => Some UStart
        end
      else None
  end.

(* inside read_line, called at parse/deframe/line.rs:19 *)
Fixpoint urun (st : ustate) (s : bytes) : option ustate :=
  match s with
  | [] => Some st
  | c :: s' => match ustep st c with Some st' => urun st' s' | None => None end
  end.

(* inside read_line, called at parse/deframe/line.rs:19 *)
Definition utf8 (s : bytes) : bool :=
  match urun UStart s with Some UStart => true | _ => false end.

(** String::pop (parse/deframe/line.rs:21, parse/crlf_line.rs:40): removes the last character,
    i.e. the trailing continuation bytes (0x80..0xBF) and the byte before them.  Works on the
    reversed string; returns the rest (reversed) and the character. *)
Definition is_cont (c : byte) : bool := (128 <=? bval c) && (bval c <=? 191).

(* String::pop, parse/crlf_line.rs:40 *)
Fixpoint pop_rev (r : bytes) (ch : bytes) : option (bytes * bytes) :=
  match r with
  | [] => None
  | c :: r' => if is_cont c then pop_rev r' (c :: ch) else Some (r', c :: ch)
  end.

(* String::pop, parse/crlf_line.rs:40 *)
Definition str_pop (s : bytes) : option (bytes * bytes) :=
  match pop_rev (rev s) [] with
  | Some (r, ch) => Some (rev r, ch)
  | None => None
  end.

(** char::to_digit for radix 10 / 16. *)
(* usize::from_str_radix and str::parse, parse/body.rs, parse/response.rs:66 *)
Definition digit_val (radix : N) (c : byte) : option N :=
  let b := bval c in
  let d := if (48 <=? b) && (b <=? 57) then Some (b - 48)
           else if (97 <=? b) && (b <=? 102) then Some (b - 87)
           else if (65 <=? b) && (b <=? 70) then Some (b - 55)
           else None in
  match d with
  | Some v => if v <? radix then Some v else None
  | None => None
  end.

(** The checked-multiply / checked-add loop of from_str_radix. *)
(* usize::from_str_radix and str::parse, parse/body.rs, parse/response.rs:66 *)
Fixpoint parse_digits (radix max : N) (acc : N) (s : bytes) : option N :=
  match s with
  | [] => Some acc
  | c :: s' =>
      match digit_val radix c with
      | None => None
      | Some d =>
          let acc' := acc * radix + d in
          if acc' <=? max then parse_digits radix max acc' s' else None
      end
  end.

(** {u16,usize}::from_str_radix and FromStr (parse/body.rs:59, 181; parse/response.rs:66):
    empty input, a lone sign, '-', non-digits and overflow are errors; one leading '+' is allowed. *)
Definition parse_uint (radix max : N) (s : bytes) : option N :=
  match s with
  | [] => None
  | [c] => match digit_val radix c with
           | Some d => if d <=? max then Some d else None
           | None => None
           end
  | c :: s' => if Ascii.eqb c "+"%char then parse_digits radix max 0 s'
               else parse_digits radix max 0 s
  end.

(* usize::MAX on a 64-bit machine; server/poll.rs:17 *)
Definition USIZE_MAX : N := 18446744073709551615.
(* u16::MAX, for the parse at parse/response.rs:66 *)
Definition U16_MAX : N := 65535.

(** Display for unsigned integers / to_string (common/response.rs:47, server/server.rs:143,
    main.rs:64): decimal without leading zeros.  [fuel] bounds the number of digits. *)
Definition dec_digit (n : N) : byte := ascii_of_N (48 + n).
Fixpoint dec_aux (fuel : nat) (n : N) (acc : bytes) : bytes :=
  match fuel with
  | O => acc
  | S f => let acc' := dec_digit (n mod 10) :: acc in
           if n <? 10 then acc' else dec_aux f (n / 10) acc'
  end.
Definition dec (n : N) : bytes := dec_aux (S (N.size_nat n)) n [].
