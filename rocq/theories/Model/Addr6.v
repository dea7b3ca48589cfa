(** Socket addresses of version 6 in the configurations: the parser behind [v6] of Model/Addr.v, as called by server.rs:49 and by
    TcpStream::connect (stream_factory.rs:32).  It is the standard library's (core::net::parser), not part of the repository. *)
From Coq Require Import List Ascii String NArith Bool.
From Verif.Model Require Import Bytes Addr.
Import ListNotations.
Local Open Scope N_scope.

(** Versions differ in whether "::" must stand for at least one group, and in whether there may be a scope. *)
Record std6 := mk_std6 { s6_gap : bool; s6_scopes : bool }.
(* server.rs:49, stream_factory.rs:32 *)
Definition gap_of (o : std6) : nat := if s6_gap o then 1 else 0.

(** [Parser::read_number(16, Some(4), true)] for a u16, which four digits cannot overflow: as [read_number_f] in Model/Addr.v. *)
(* server.rs:49, stream_factory.rs:32 *)
Fixpoint read_hex_f (n : nat) (r : N) (s : bytes) : option (N * bytes) :=
  match s with
  | [] => match n with O => None | S _ => Some (r, []) end
  | c :: s' =>
      match digit_val 16 c with
      | Some d => if Nat.ltb 4 (S n) then None else read_hex_f (S n) (16 * r + d) s'
      | None => match n with O => None | S _ => Some (r, s) end
      end
  end.
(* server.rs:49, stream_factory.rs:32 *)
Definition read_hex (s : bytes) : option (N * bytes) := read_hex_f 0 0 s.

(** [Parser::read_separator(':', ..)]: a colon before all but the first. *)
(* server.rs:49, stream_factory.rs:32 *)
Definition read_sep {A} (first : bool) (inner : bytes -> option (A * bytes)) (s : bytes) : option (A * bytes) :=
  if first then inner s else match read_char ":"%char s with Some s1 => inner s1 | None => None end.

(** [read_groups] inside [Parser::read_ipv6_addr]: the groups, at most [limit]; whether the last two were an IPv4 address; the
    rest. *)
(* server.rs:49, stream_factory.rs:32 *)
Fixpoint read_groups (sd : std) (limit : nat) (first : bool) (s : bytes) : list N * bool * bytes :=
  match limit with
  | O => ([], false, s)
  | S l =>
      match match l with O => None | S _ => read_sep first (read_v4 sd) s end with
      | Some ((a, b, c, d), s1) => ([256 * a + b; 256 * c + d], true, s1)
      | None =>
          match read_sep first read_hex s with
          | Some (g, s1) => match read_groups sd l false s1 with (gs, q, s2) => (g :: gs, q, s2) end
          | None => ([], false, s)
          end
      end
  end.

(** [Parser::read_ipv6_addr]. *)
(* server.rs:49, stream_factory.rs:32 *)
Definition read_v6 (sd : std) (o : std6) (s : bytes) : option (list N * bytes) :=
  match read_groups sd 8 true s with
  | (hs, q, s1) =>
      if Nat.eqb (List.length hs) 8 then Some (hs, s1)
      else if q then None
      else
        match read_char ":"%char s1 with
        | Some s2 =>
            match read_char ":"%char s2 with
            | Some s3 =>
                match read_groups sd (8 - (List.length hs + gap_of o)) true s3 with
                | (ts, _, s4) => Some (hs ++ repeat 0 (8 - List.length hs - List.length ts) ++ ts, s4)
                end
            | None => None
            end
        | None => None
        end
  end.

(** [Parser::read_scope_id], 0 if there is none. *)
(* server.rs:49, stream_factory.rs:32 *)
Definition read_scope (o : std6) (s : bytes) : N * bytes :=
  if s6_scopes o then
    match read_char "%"%char s with
    | Some s1 => match read_number None 4294967296 true s1 with Some (n, s2) => (n, s2) | None => (0, s) end
    | None => (0, s)
    end
  else (0, s).

(** [Parser::read_socket_addr_v6] after the bracket, and nothing after it: address, scope, port. *)
(* server.rs:49, stream_factory.rs:32 *)
Definition parse_v6 (sd : std) (o : std6) (s : bytes) : option (list N * N * N) :=
  match read_v6 sd o s with
  | Some (ip, s1) =>
      match read_scope o s1 with
      | (z, s2) =>
          match read_char "]"%char s2 with
          | Some s3 =>
              match read_char ":"%char s3 with
              | Some s4 => match read_number (sd_port_digits sd) 65536 true s4 with Some (p, []) => Some (ip, z, p) | _ => None end
              | None => None
              end
          | None => None
          end
      end
  | None => None
  end.
(** The parameter [v6] of Model/Addr.v. *)
(* server.rs:49, stream_factory.rs:32 *)
Definition v6_of (sd : std) (o : std6) (s : bytes) : bool := match parse_v6 sd o s with Some _ => true | None => false end.
