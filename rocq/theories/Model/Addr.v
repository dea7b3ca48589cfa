(** Addresses in the configurations (server/config.rs:6, client/config.rs:6) and what is done with them before anything is sent:
    server.rs:47-49, stream_factory.rs:32-35 and 54-58, client.rs:66-77; poll.rs:25-28.
    The parsers are those of the standard library (FromStr of SocketAddr, ToSocketAddrs of str) and of webpki 0.21
    (DNSNameRef::try_from_ascii_str), which are not part of the repository. *)
From Coq Require Import List Ascii String NArith Bool.
From Verif.Model Require Import Bytes Io Pool.
Import ListNotations.
Local Open Scope N_scope.

(** Versions of the standard library differ in whether the numbers of an IPv4 address may have leading zeros, and in how many digits a
    port may have (five, or any number). *)
Record std := mk_std { sd_zeros : bool; sd_port_digits : option nat }.

(** [Parser::read_number]: the digits up to the next character that is not one; [n] of them read so far, with value [r]. *)
(* the digit bound of read_number in core::net, called by the parse of server.rs:49 and by TcpStream::connect (stream_factory.rs:33-36) *)
Definition too_many (max : option nat) (n : nat) : bool := match max with Some m => Nat.ltb m n | None => false end.
(* as above: server.rs:49, stream_factory.rs:33-36 *)
Fixpoint read_number_f (max : option nat) (upto : N) (n : nat) (r : N) (s : bytes) : option (N * bytes) :=
  match s with
  | [] => match n with O => None | S _ => Some (r, []) end
  | c :: s' =>
      match digit_val 10 c with
      | Some d =>
          if too_many max (S n) || (upto <=? 10 * r + d) then None else read_number_f max upto (S n) (10 * r + d) s'
      | None => match n with O => None | S _ => Some (r, s) end
      end
  end.
(* as above: server.rs:49, stream_factory.rs:33-36 *)
Definition leading_zero (s : bytes) : bool :=
  match s with
  | "0"%char :: c :: _ => match digit_val 10 c with Some _ => true | None => false end
  | _ => false
  end.
(* as above: server.rs:49, stream_factory.rs:33-36 *)
Definition read_number (max : option nat) (upto : N) (zeros : bool) (s : bytes) : option (N * bytes) :=
  if negb zeros && leading_zero s then None else read_number_f max upto 0 0 s.
(** [Parser::read_given_char]. *)
(* as above: server.rs:49, stream_factory.rs:33-36 *)
Definition read_char (c : ascii) (s : bytes) : option bytes :=
  match s with x :: s' => if Ascii.eqb x c then Some s' else None | [] => None end.

(** [Parser::read_ipv4_addr]: four numbers, separated by dots; the rest. *)
(* the addresses of server.rs:49 and stream_factory.rs:33-36 *)
Definition v4 := (N * N * N * N)%type.
Definition read_octet (sd : std) (s : bytes) : option (N * bytes) := read_number (Some 3%nat) 256 (sd_zeros sd) s.
Definition read_v4 (sd : std) (s : bytes) : option (v4 * bytes) :=
  match read_octet sd s with
  | Some (a, s1) =>
    match read_char "."%char s1 with
    | Some s2 =>
      match read_octet sd s2 with
      | Some (b, s3) =>
        match read_char "."%char s3 with
        | Some s4 =>
          match read_octet sd s4 with
          | Some (c, s5) =>
            match read_char "."%char s5 with
            | Some s6 => match read_octet sd s6 with Some (d, s7) => Some ((a, b, c, d), s7) | None => None end
            | None => None
            end
          | None => None
          end
        | None => None
        end
      | None => None
      end
    | None => None
    end
  | None => None
  end.
(** [Parser::read_socket_addr_v4], and nothing after it. *)
Definition parse_v4 (sd : std) (s : bytes) : option (v4 * N) :=
  match read_v4 sd s with
  | Some (ip, s1) =>
    match read_char ":"%char s1 with
    | Some s2 => match read_number (sd_port_digits sd) 65536 true s2 with Some (p, []) => Some (ip, p) | _ => None end
    | None => None
    end
  | None => None
  end.

(** A socket address.  Those of version 6 are opaque here; the parser [v6] stands for their part of FromStr after the opening bracket that all of
    them have. *)
(* SocketAddr of server.rs:49, poll.rs:22 *)
Inductive saddr := V4 (ip : v4) (port : N) | V6 (a : bytes).
Definition parse_addr (sd : std) (v6 : bytes -> bool) (s : bytes) : option saddr :=
  match s with
  | "["%char :: s' => if v6 s' then Some (V6 s) else None
  | _ => match parse_v4 sd s with Some (ip, p) => Some (V4 ip p) | None => None end
  end.

(** ** The client *)

(** [str::split(":")], its first part (stream_factory.rs:55). *)
Fixpoint before_colon (s : bytes) : bytes :=
  match s with
  | [] => []
  | c :: s' => if Ascii.eqb c ":"%char then [] else c :: before_colon s'
  end.
(** [str::rsplit_once(':')] (in ToSocketAddrs). *)
Fixpoint rsplit_colon (s : bytes) : option (bytes * bytes) :=
  match s with
  | [] => None
  | c :: s' =>
      match rsplit_colon s' with
      | Some (a, b) => Some (c :: a, b)
      | None => if Ascii.eqb c ":"%char then Some ([], s') else None
      end
  end.

(** What TcpStream::connect tries (stream_factory.rs:32): an address, or the addresses of a host, to be looked up; or nothing. *)
Inductive target := Direct (a : saddr) | Lookup (host : bytes) (port : N) | NoTarget.
Definition target_of (sd : std) (v6 : bytes -> bool) (s : bytes) : target :=
  match parse_addr sd v6 s with
  | Some a => Direct a
  | None =>
      match rsplit_colon s with
      | Some (h, p) => match parse_uint 10 U16_MAX p with Some n => Lookup h n | None => NoTarget end
      | None => NoTarget
      end
  end.

(** webpki's [is_valid_dns_id] for reference names: [n] characters of the current label read, whether it is all digits so far, and whether it ends in a
    hyphen.  Versions differ on the underscore. *)
(* used by DNSNameRef::try_from_ascii_str, stream_factory.rs:55 *)
Definition between (a b : N) (c : ascii) : bool := (a <=? bval c) && (bval c <=? b).
(* used by DNSNameRef::try_from_ascii_str, stream_factory.rs:55 *)
Definition is_letter (under : bool) (c : ascii) : bool :=
  between 97 122 c || between 65 90 c || (under && Ascii.eqb c "_"%char).
(* used by DNSNameRef::try_from_ascii_str, stream_factory.rs:55 *)
Definition MAX_LABEL : nat := 63.
(* DNSNameRef::try_from_ascii_str, stream_factory.rs:55 *)
Fixpoint dns_loop (under : bool) (n : nat) (num hyp : bool) (s : bytes) : bool :=
  match s with
  | [] => negb hyp && negb num
  | c :: s' =>
      if Ascii.eqb c "-"%char then
        match n with O => false | S _ => if Nat.ltb MAX_LABEL (S n) then false else dns_loop under (S n) false true s' end
      else if between 48 57 c then
        if Nat.ltb MAX_LABEL (S n) then false
        else dns_loop under (S n) (match n with O => true | S _ => num end) false s'
      else if is_letter under c then
        if Nat.ltb MAX_LABEL (S n) then false else dns_loop under (S n) false false s'
      else if Ascii.eqb c "."%char then
        match n with O => false | S _ => if hyp then false else dns_loop under 0 num false s' end
      else false
  end.
(* DNSNameRef::try_from_ascii_str, stream_factory.rs:55 *)
Definition dns_ok (under : bool) (s : bytes) : bool :=
  match s with
  | [] => false
  | _ => if Nat.ltb 253 (List.length s) then false else dns_loop under 0 false false s
  end.

(** Client::new_http, Client::new_https: None is a panic (stream_factory.rs:56, client.rs:67); else the number of connections, none of them
    open (client.rs:69-72, 105-107), and the name that certificates are checked against. *)
Definition new_client (conns : nat) : option nat := match conns with O => None | S _ => Some conns end.
Definition new_http (conns : nat) (addr : bytes) : option nat := new_client conns.
Definition new_https (under : bool) (conns : nat) (addr : bytes) : option (nat * bytes) :=
  let name := before_colon addr in
  if dns_ok under name then match new_client conns with Some n => Some (n, name) | None => None end else None.

(** ** The server *)

(** What the operating system says to binding, creating the poll, registering the listener (poll.rs:25-28). *)
Record sys := mk_sys { sy_bind : option ekind; sy_poll : option ekind; sy_register : option ekind }.
(** What a start has done to the outside, in order. *)
Inductive effect := Spawned (n : nat) | Bound (a : saddr) | Polling | Registered.
(** A panic; an error, on which the pool is dropped before [listen_abstract] returns it; or the event loop. *)
Inductive start := StartPanics | StartFails (e : ekind) (p : pool) | Starts (a : saddr) (p : pool).

(** server.rs:46-66 up to the event loop. *)
Definition listen_start (sd : std) (v6 : bytes -> bool) (threads : nat) (addr : bytes) (os : sys) : list effect * start :=
  match parse_addr sd v6 addr with
  | None => ([], StartPanics)
  | Some a =>
    match threads with
    | O => ([], StartPanics)
    | S _ =>
      match sy_bind os with
      | Some e => ([Spawned threads], StartFails e (pool_new threads))
      | None =>
        match sy_poll os with
        | Some e => ([Spawned threads; Bound a], StartFails e (pool_new threads))
        | None =>
          match sy_register os with
          | Some e => ([Spawned threads; Bound a; Polling], StartFails e (pool_new threads))
          | None => ([Spawned threads; Bound a; Polling; Registered], Starts a (pool_new threads))
          end
        end
      end
    end
  end.
