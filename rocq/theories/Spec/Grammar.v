(** The message grammar, as relations between byte strings and their meaning.  Nothing here refers to
    how the library parses. *)
From Coq Require Import List Ascii String NArith Bool.
From Verif.Model Require Import Bytes Common.
From Verif.Spec Require Import Numerals Names.
Import ListNotations.
Local Open Scope N_scope.

(** The text of a line: UTF-8 without a newline. *)
Definition text (l : bytes) : Prop := utf8 l = true /\ ~ In LF l.

Definition method_name (m : method) : bytes :=
  lit match m with GET => "GET" | POST => "POST" | DELETE => "DELETE" | PUT => "PUT" end.
Definition supported_version (v : bytes) : Prop := v = lit "HTTP/1.1" \/ v = lit "HTTP/1.0".

(** The words w, separated by single spaces, possibly followed by a space and more. *)
Fixpoint words (ws : list bytes) (l : bytes) : Prop :=
  match ws with
  | [] => True
  | [w] => ~ In SP w /\ (l = w \/ exists t, l = w ++ SP :: t)
  | w :: ws' => ~ In SP w /\ exists l', l = w ++ SP :: l' /\ words ws' l'
  end.

Definition request_line (m : method) (u : bytes) (l : bytes) : Prop :=
  exists v, supported_version v /\ words [method_name m; u; v] l.

(** The codes in the library's table. *)
Definition known_codes : list N :=
  [200;201;202;203;204;205;206;207;208;226;
   300;301;302;303;304;305;307;308;
   400;401;402;403;404;405;406;407;408;409;410;411;412;413;414;415;416;417;418;
   421;422;423;424;426;428;429;431;444;451;499;
   500;501;502;503;504;505;506;507;508;510;511;599].

(** The phrases that the HTTP registry (for 416 that of RFC 2616; for 444, 499 and 599 common usage) gives these codes. *)
Definition registered_phrases : list (N * string) :=
  [ (200, "OK"); (201, "Created"); (202, "Accepted"); (203, "Non-Authoritative Information"); (204, "No Content");
    (205, "Reset Content"); (206, "Partial Content"); (207, "Multi-Status"); (208, "Already Reported");
    (226, "IM Used"); (300, "Multiple Choices"); (301, "Moved Permanently"); (302, "Found"); (303, "See Other");
    (304, "Not Modified"); (305, "Use Proxy"); (307, "Temporary Redirect"); (308, "Permanent Redirect");
    (400, "Bad Request"); (401, "Unauthorized"); (402, "Payment Required"); (403, "Forbidden"); (404, "Not Found");
    (405, "Method Not Allowed"); (406, "Not Acceptable"); (407, "Proxy Authentication Required");
    (408, "Request Timeout"); (409, "Conflict"); (410, "Gone"); (411, "Length Required");
    (412, "Precondition Failed"); (413, "Payload Too Large"); (414, "URI Too Long");
    (415, "Unsupported Media Type"); (416, "Requested Range Not Satisfiable"); (417, "Expectation Failed");
    (418, "I'm a teapot"); (421, "Misdirected Request"); (422, "Unprocessable Entity"); (423, "Locked");
    (424, "Failed Dependency"); (426, "Upgrade Required"); (428, "Precondition Required");
    (429, "Too Many Requests"); (431, "Request Header Fields Too Large");
    (444, "Connection Closed Without Response"); (451, "Unavailable For Legal Reasons");
    (499, "Client Closed Request"); (500, "Internal Server Error"); (501, "Not Implemented"); (502, "Bad Gateway");
    (503, "Service Unavailable"); (504, "Gateway Timeout"); (505, "HTTP Version Not Supported");
    (506, "Variant Also Negotiates"); (507, "Insufficient Storage"); (508, "Loop Detected"); (510, "Not Extended");
    (511, "Network Authentication Required"); (599, "Network Connect Timeout Error") ]%string.

Definition status_line (code : N) (l : bytes) : Prop :=
  exists v c, supported_version v /\ words [v; c] l /\ denotes 10 c code /\ In code known_codes.

(** Header lines, as (name, value) pairs. *)
Definition header_ok (p : bytes * bytes) : Prop :=
  text (fst p ++ lit ": " ++ snd p) /\ ~ exists a r, fst p = a ++ lit ": " ++ r.
Definition header_line (p : bytes * bytes) : bytes := fst p ++ lit ": " ++ snd p ++ crlf.
Definition header_lines (ps : list (bytes * bytes)) : bytes := List.concat (map header_line ps).

(** The values with the given name (ignoring case), in order. *)
Inductive values_named (name : bytes) : list (bytes * bytes) -> list bytes -> Prop :=
| vn_nil : values_named name [] []
| vn_same n v ps vs : same_name n name -> values_named name ps vs ->
    values_named name ((n, v) :: ps) (v :: vs)
| vn_other n v ps vs : ~ same_name n name -> values_named name ps vs ->
    values_named name ((n, v) :: ps) vs.

(** The map h holds exactly the headers ps. *)
Definition headers_are (h : header_map) (ps : list (bytes * bytes)) : Prop :=
  forall name vs, values_named name ps vs -> hm_get (header_from name) h = nonempty vs.

(** A chunked body: the bytes on the wire and the data. *)
Inductive chunked : bytes -> bytes -> Prop :=
| chunked_last l : denotes 16 l 0 -> chunked (l ++ crlf ++ crlf) []
| chunked_more l n d w body : denotes 16 l n -> 0 < n <= 3145728 -> len d = n -> chunked w body ->
    chunked (l ++ crlf ++ d ++ crlf ++ w) (d ++ body).

(** The body, given the headers; [default] for messages with neither header. *)
Inductive body_syntax (ps : list (bytes * bytes)) (default : bytes -> bytes -> Prop)
  : bytes -> bytes -> Prop :=
| body_sized v vs n w : values_named (lit "content-length") ps (v :: vs) ->
    denotes 10 v n -> n <= 3145728 -> len w = n -> body_syntax ps default w w
| body_chunked v vs w body : values_named (lit "content-length") ps [] ->
    values_named (lit "transfer-encoding") ps (v :: vs) ->
    (exists a r, v = a ++ lit "chunked" ++ r) -> chunked w body -> body_syntax ps default w body
| body_default vs w body : values_named (lit "content-length") ps [] ->
    values_named (lit "transfer-encoding") ps vs ->
    (forall v vs', vs = v :: vs' -> ~ exists a r, v = a ++ lit "chunked" ++ r) ->
    default w body -> body_syntax ps default w body.

(** A whole request: method, uri, headers, body. *)
Definition request_syntax (w : bytes) (m : method) (u : bytes) (ps : list (bytes * bytes))
  (body : bytes) : Prop :=
  exists l wire,
    request_line m u l /\ text l /\ Forall header_ok ps /\
    body_syntax ps (fun w body => w = [] /\ body = []) wire body /\
    w = l ++ crlf ++ header_lines ps ++ crlf ++ wire.

(** A whole response that does not extend to the end of the stream. *)
Definition response_syntax (w : bytes) (code : N) (ps : list (bytes * bytes)) (body : bytes) : Prop :=
  exists l wire,
    status_line code l /\ text l /\ Forall header_ok ps /\
    body_syntax ps (fun _ _ => False) wire body /\
    w = l ++ crlf ++ header_lines ps ++ crlf ++ wire.

(** A response whose body is whatever follows up to the end of the stream. *)
Definition response_syntax_eof (w : bytes) (code : N) (ps : list (bytes * bytes)) (body : bytes) : Prop :=
  exists l, status_line code l /\ text l /\ Forall header_ok ps /\
    values_named (lit "content-length") ps [] /\
    (exists vs, values_named (lit "transfer-encoding") ps vs /\
       forall v vs', vs = v :: vs' -> ~ exists a r, v = a ++ lit "chunked" ++ r) /\
    w = l ++ crlf ++ header_lines ps ++ crlf ++ body.

(** ** The documented size limits, for complete messages *)

(** Chunk-size lines of at most 512 bytes with their CRLF. *)
Inductive chunk_lines_fit : bytes -> Prop :=
| clf_last l : denotes 16 l 0 -> len l <= 510 -> chunk_lines_fit (l ++ crlf ++ crlf)
| clf_more l n d w : denotes 16 l n -> len l <= 510 -> 0 < n -> len d = n -> chunk_lines_fit w ->
    chunk_lines_fit (l ++ crlf ++ d ++ crlf ++ w).

Definition head_fits (l : bytes) (ps : list (bytes * bytes)) : Prop :=
  len l <= 510 /\ Forall (fun p => len (header_line p) <= 512) ps /\
  len (header_lines ps ++ crlf) <= 4096.

(** Wire form of a body: at most 1572864 bytes if sized, at most 3145728 encoded bytes if chunked. *)
Definition body_fits (ps : list (bytes * bytes)) (wire : bytes) : Prop :=
  (forall v vs, values_named (lit "content-length") ps (v :: vs) -> 2 * len wire <= 3145728) /\
  (values_named (lit "content-length") ps [] -> wire = [] \/ (chunk_lines_fit wire /\ len wire <= 3145728)).

(** Requests and responses, as above, within the limits. *)
Definition small_request (w : bytes) (m : method) (u : bytes) (ps : list (bytes * bytes))
  (body : bytes) : Prop :=
  exists l wire,
    request_line m u l /\ text l /\ Forall header_ok ps /\
    body_syntax ps (fun w body => w = [] /\ body = []) wire body /\
    w = l ++ crlf ++ header_lines ps ++ crlf ++ wire /\
    head_fits l ps /\ body_fits ps wire.
Definition small_response (w : bytes) (code : N) (ps : list (bytes * bytes)) (body : bytes) : Prop :=
  exists l wire,
    status_line code l /\ text l /\ Forall header_ok ps /\
    body_syntax ps (fun _ _ => False) wire body /\
    w = l ++ crlf ++ header_lines ps ++ crlf ++ wire /\
    head_fits l ps /\ body_fits ps wire.
Definition small_response_eof (w : bytes) (code : N) (ps : list (bytes * bytes)) (body : bytes) : Prop :=
  exists l, status_line code l /\ text l /\ Forall header_ok ps /\
    values_named (lit "content-length") ps [] /\
    (exists vs, values_named (lit "transfer-encoding") ps vs /\
       forall v vs', vs = v :: vs' -> ~ exists a r, v = a ++ lit "chunked" ++ r) /\
    w = l ++ crlf ++ header_lines ps ++ crlf ++ body /\
    head_fits l ps /\ len body < 3145728.

Definition ascii (l : bytes) : Prop := Forall (fun c => bval c < 128) l.
Definition headers_ascii (ps : list (bytes * bytes)) : Prop :=
  Forall (fun p => ascii (fst p) /\ ascii (snd p)) ps.

(** The first line and the headers of the message w. *)
Definition head_ascii (w : bytes) (ps : list (bytes * bytes)) : Prop :=
  headers_ascii ps /\ forall l r, text l -> w = l ++ crlf ++ r -> ascii l.

