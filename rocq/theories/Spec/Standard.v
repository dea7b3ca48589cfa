(** Messages as RFC 7230 lets a sender write them (sections 3.1, 3.2, 3.3 and 4.1), for the methods, versions and statuses
    of the library, with ASCII text and without obsolete line folding.  Of chunk extensions only the semicolon is kept. *)
From Coq Require Import List Ascii String NArith Bool.
From Verif.Model Require Import Bytes Common.
From Verif.Spec Require Import Numerals Names Grammar.
Import ListNotations.
Local Open Scope N_scope.

Definition HT : byte := "009"%char.
Definition blank (c : byte) : Prop := c = SP \/ c = HT.
(** tchar, token, field-vchar, field-value. *)
Definition tchar (c : byte) : Prop :=
  48 <= bval c <= 57 \/ 65 <= bval c <= 90 \/ 97 <= bval c <= 122 \/ In c (lit "!#$%&'*+-.^_`|~").
Definition token (n : bytes) : Prop := n <> [] /\ Forall tchar n.
Definition visible (c : byte) : Prop := 33 <= bval c <= 126.
Definition field_byte (c : byte) : Prop := blank c \/ visible c.
Definition field_value (v : bytes) : Prop :=
  Forall field_byte v /\ (forall c x, v = c :: x -> ~ blank c) /\ (forall c x, v = x ++ [c] -> ~ blank c).

(** field-name ":" OWS field-value OWS *)
Definition field_line (p : bytes * bytes) (line : bytes) : Prop :=
  token (fst p) /\ field_value (snd p) /\
  exists o1 o2, Forall blank o1 /\ Forall blank o2 /\ line = fst p ++ ":"%char :: o1 ++ snd p ++ o2.
Definition lines (ls : list bytes) : bytes := List.concat (map (fun l => l ++ crlf) ls).

(** chunk-size [ chunk-ext ] *)
Definition std_size (l : bytes) (n : N) : Prop := denotes 16 l n /\ ~ In "+"%char l.
Definition extension (e : bytes) : Prop := e = [] \/ exists x, e = ";"%char :: x /\ Forall field_byte x.
Definition used (e : bytes) : list bytes := match e with [] => [] | _ => [e] end.
(** A chunked body, its data, and the extensions and trailer lines that it has. *)
Inductive std_chunked : bytes -> bytes -> list bytes -> Prop :=
| std_last l e ts tl : std_size l 0 -> extension e -> Forall2 field_line ts tl ->
    std_chunked ((l ++ e) ++ crlf ++ lines tl ++ crlf) [] (used e ++ tl)
| std_more l n e d w body xs : std_size l n -> 0 < n -> extension e -> len d = n -> std_chunked w body xs ->
    std_chunked ((l ++ e) ++ crlf ++ d ++ crlf ++ w) (d ++ body) (used e ++ xs).

(** One content-length, or the coding chunked, which is compared ignoring case. *)
Inductive std_body (ps : list (bytes * bytes)) : bytes -> bytes -> list bytes -> Prop :=
| std_sized v w : values_named (lit "content-length") ps [v] -> values_named (lit "transfer-encoding") ps [] ->
    denotes 10 v (len w) -> ~ In "+"%char v -> std_body ps w w []
| std_coded te w body xs : values_named (lit "content-length") ps [] -> values_named (lit "transfer-encoding") ps [te] ->
    same_name te (lit "chunked") -> std_chunked w body xs -> std_body ps w body xs.
(** Requests may have neither. *)
Inductive std_request_body (ps : list (bytes * bytes)) : bytes -> bytes -> list bytes -> Prop :=
| std_some w body xs : std_body ps w body xs -> std_request_body ps w body xs
| std_none : values_named (lit "content-length") ps [] -> values_named (lit "transfer-encoding") ps [] ->
    std_request_body ps [] [] [].

(** The request with header lines ls for the headers ps, and extensions and trailer lines xs. *)
Definition std_request (w : bytes) (m : method) (u : bytes) (ps : list (bytes * bytes)) (body : bytes)
  (ls xs : list bytes) (wire : bytes) : Prop :=
  exists v, supported_version v /\ u <> [] /\ Forall visible u /\ Forall2 field_line ps ls /\
    std_request_body ps wire body xs /\
    w = (method_name m ++ SP :: u ++ SP :: v) ++ crlf ++ lines ls ++ crlf ++ wire.
(** A final response that has a body, to a request other than HEAD and CONNECT. *)
Definition std_response (w : bytes) (code : N) (ps : list (bytes * bytes)) (body : bytes)
  (ls xs : list bytes) (wire : bytes) : Prop :=
  exists v c reason, supported_version v /\ denotes 10 c code /\ ~ In "+"%char c /\ List.length c = 3%nat /\
    In code known_codes /\ 200 <= code /\ code <> 204 /\ code <> 304 /\
    Forall field_byte reason /\ Forall2 field_line ps ls /\ std_body ps wire body xs /\
    w = (v ++ SP :: c ++ SP :: reason) ++ crlf ++ lines ls ++ crlf ++ wire.

(** The forms that the library knows: one space after each colon and none at the end; the word chunked in lower case; no
    extensions, no trailer lines. *)
Definition plain_line (p : bytes * bytes) : bytes := fst p ++ lit ": " ++ snd p.
Definition plain_forms (ps : list (bytes * bytes)) (ls xs : list bytes) : Prop :=
  ls = map plain_line ps /\ xs = [] /\
  (forall te, values_named (lit "transfer-encoding") ps [te] -> te = lit "chunked").
