(** Headers, header maps, methods, versions, statuses, requests and responses
    (/repo/src/common). *)
From Coq Require Import List Ascii String NArith Bool.
From Verif.Model Require Import Bytes.
Import ListNotations.
Local Open Scope N_scope.

(** common/header.rs:8-12, [enum Header] with derived equality. *)
Inductive header := Standard (name : bytes) | Custom (name : bytes).

(** common/header.rs:15-20 [Header::as_str], also Display (23-30). *)
Definition header_str (h : header) : bytes :=
  match h with Standard s => s | Custom s => s end.

(** Derived PartialEq (common/header.rs:8). *)
Definition header_eqb (a b : header) : bool :=
  match a, b with
  | Standard x, Standard y => beqb x y
  | Custom x, Custom y => beqb x y
  | _, _ => false
  end.

(** common/header.rs:68-148, the table of standard header names. *)
Definition standard_names : list string :=
  [ "accept";
    "accept-charset";
    "accept-encoding";
    "accept-language";
    "accept-ranges";
    "access-control-allow-credentials";
    "access-control-allow-headers";
    "access-control-allow-methods";
    "access-control-allow-origin";
    "access-control-expose-headers";
    "access-control-max-age";
    "access-control-request-headers";
    "access-control-request-method";
    "age";
    "allow";
    "alt-svc";
    "authorization";
    "cache-control";
    "connection";
    "content-disposition";
    "content-encoding";
    "content-language";
    "content-length";
    "content-location";
    "content-range";
    "content-security-policy";
    "content-security-policy-report-only";
    "content-type";
    "cookie";
    "dnt";
    "date";
    "etag";
    "expect";
    "expires";
    "forwarded";
    "from";
    "host";
    "if-match";
    "if-modified-since";
    "if-none-match";
    "if-range";
    "if-unmodified-since";
    "last-modified";
    "link";
    "location";
    "max-forwards";
    "origin";
    "pragma";
    "proxy-authenticate";
    "proxy-authorization";
    "public-key-pins";
    "public-key-pins-report-only";
    "range";
    "referer";
    "referrer-policy";
    "refresh";
    "retry-after";
    "sec-websocket-accept";
    "sec-websocket-extensions";
    "sec-websocket-key";
    "sec-websocket-protocol";
    "sec-websocket-version";
    "server";
    "set-cookie";
    "strict-transport-security";
    "te";
    "trailer";
    "transfer-encoding";
    "user-agent";
    "upgrade";
    "upgrade-insecure-requests";
    "vary";
    "via";
    "warning";
    "www-authenticate";
    "x-content-type-options";
    "x-dns-prefetch-control";
    "x-frame-options";
    "x-xss-protection" ]%string.

(* common/header.rs:68-148 *)
Definition standard_table : list bytes := map lit standard_names.

(** common/header.rs:45-56 [From<String> for Header] (and From<&str>, 60-65): lower-case, then the
    standard header of that name if there is one. *)
Definition header_from (s : bytes) : header :=
  let v := lower s in
  if existsb (beqb v) standard_table then Standard v else Custom v.

(** common/header.rs:41, the constants used by the code. *)
Definition CONTENT_LENGTH : header := Standard (lit "content-length").
Definition TRANSFER_ENCODING : header := Standard (lit "transfer-encoding").
Definition CONNECTION : header := Standard (lit "connection").
Definition CONTENT_TYPE : header := Standard (lit "content-type").

(** common/header.rs:192 [HeaderMap = HashMap<Header, Vec<String>>], as an association list.  The
    order of the entries is not observable through the map operations; where the code iterates over
    a map, the theorems quantify over all orders of the entries. *)
Definition header_map := list (header * list bytes).

(** HashMap::get. *)
(* called at common/header.rs:192 *)
Fixpoint hm_get (k : header) (m : header_map) : option (list bytes) :=
  match m with
  | [] => None
  | (k', vs) :: m' => if header_eqb k' k then Some vs else hm_get k m'
  end.

(** common/header.rs:202-204 [add_header]: entry(k).or_insert(vec![]).push(v). *)
Fixpoint add_header (m : header_map) (k : header) (v : bytes) : header_map :=
  match m with
  | [] => [(k, [v])]
  | (k', vs) :: m' => if header_eqb k' k then (k', vs ++ [v]) :: m' else (k', vs) :: add_header m' k v
  end.

(** common/header.rs:195-200 [from_pairs]. *)
Definition from_pairs (ps : list (header * bytes)) : header_map :=
  fold_left (fun m p => add_header m (fst p) (snd p)) ps [].

(** common/header.rs:206-211 [contains_header_value]. *)
Definition contains_header_value (m : header_map) (k : header) (v : bytes) : bool :=
  match hm_get k m with
  | Some vs => existsb (beqb v) vs
  | None => false
  end.

(** common/header.rs:213-215 [get_first_header_value]. *)
Definition get_first_header_value (m : header_map) (k : header) : option bytes :=
  match hm_get k m with
  | Some (v :: _) => Some v
  | _ => None
  end.

(** common/method.rs:5-14. *)
Inductive method := GET | POST | DELETE | PUT.

(** common/method.rs:16-20, Display (= Debug name). *)
Definition method_str (m : method) : bytes :=
  match m with
  | GET => lit "GET" | POST => lit "POST" | DELETE => lit "DELETE" | PUT => lit "PUT"
  end.

(** common/method.rs:25-33 [try_from_str] (36-44 [try_from_bytes] is the same on bytes). *)
Definition method_from_str (s : bytes) : option method :=
  if beqb s (lit "GET") then Some GET
  else if beqb s (lit "POST") then Some POST
  else if beqb s (lit "DELETE") then Some DELETE
  else if beqb s (lit "PUT") then Some PUT
  else None.

(** common/version.rs:1-4. *)
Definition HTTP_VERSION_1_0 : bytes := lit "HTTP/1.0".
Definition HTTP_VERSION_1_1 : bytes := lit "HTTP/1.1".

(** common/version.rs:7-9 [is_supported]. *)
Definition is_supported (raw : bytes) : bool :=
  beqb HTTP_VERSION_1_1 raw || beqb HTTP_VERSION_1_0 raw.

(** common/status.rs:3-8 [struct Status]. *)
Record status := mk_status { st_code : N; st_reason : bytes }.

(** common/status.rs:36-97, the table of statuses. *)
Definition status_entries : list (N * string) :=
  [ (200, "OK");
    (201, "CREATED");
    (202, "ACCEPTED");
    (203, "NON-AUTHORITATIVE INFORMATION");
    (204, "NO CONTENT");
    (205, "RESET CONTENT");
    (206, "PARTIAL CONTENT");
    (207, "MULTI-STATUS");
    (208, "ALREADY REPORTED");
    (226, "IM USED");
    (300, "MULTIPLE CHOICES");
    (301, "MOVED PERMANENTLY");
    (302, "FOUND");
    (303, "SEE OTHER");
    (304, "NOT MODIFIED");
    (305, "USE PROXY");
    (307, "TEMPORARY REDIRECT");
    (308, "PERMANENT REDIRECT");
    (400, "BAD REQUEST");
    (401, "UNAUTHORIZED");
    (402, "PAYMENT REQUIRED");
    (403, "FORBIDDEN");
    (404, "NOT FOUND");
    (405, "METHOD NOT ALLOWED");
    (406, "NOT ACCEPTABLE");
    (407, "PROXY AUTHENTICATION REQUIRED");
    (408, "REQUEST TIMEOUT");
    (409, "CONFLICT");
    (410, "GONE");
    (411, "LENGTH REQUIRED");
    (412, "PRECONDITION FAILED");
    (413, "PAYLOAD TOO LARGE");
    (414, "URI TOO LONG");
    (415, "UNSUPPORTED MEDIA TYPE");
    (416, "REQUESTED RANGE NOT SATISFIABLE");
    (417, "EXPECTATION FAILED");
    (418, "I'M A TEAPOT");
    (421, "MISDIRECTED REQUEST");
    (422, "UNPROCESSABLE ENTITY");
    (423, "LOCKED");
    (424, "FAILED DEPENDENCY");
    (426, "UPGRADE REQUIRED");
    (428, "PRECONDITION REQUIRED");
    (429, "TOO MANY REQUESTS");
    (431, "REQUEST HEADER FIELDS TOO LARGE");
    (444, "CONNECTION CLOSED WITHOUT RESPONSE");
    (451, "UNAVAILABLE FOR LEGAL REASONS");
    (499, "CLIENT CLOSED REQUEST");
    (500, "INTERNAL SERVER ERROR");
    (501, "NOT IMPLEMENTED");
    (502, "BAD GATEWAY");
    (503, "SERVICE UNAVAILABLE");
    (504, "GATEWAY TIMEOUT");
    (505, "HTTP VERSION NOT SUPPORTED");
    (506, "VARIANT ALSO NEGOTIATES");
    (507, "INSUFFICIENT STORAGE");
    (508, "LOOP DETECTED");
    (510, "NOT EXTENDED");
    (511, "NETWORK AUTHENTICATION REQUIRED");
    (599, "NETWORK CONNECT TIMEOUT ERROR") ]%string.

(* common/status.rs:36-97 *)
Definition status_table : list status :=
  map (fun p => mk_status (fst p) (lit (snd p))) status_entries.

(** common/status.rs:24-31 [Status::from_code]: match over the table, first entry wins. *)
Definition status_from_code (code : N) : option status :=
  find (fun st => st_code st =? code) status_table.

(** status::OK (status.rs:37) and status::NOT_FOUND (status.rs:59). *)
Definition STATUS_OK : status := mk_status 200 (lit "OK").
Definition STATUS_NOT_FOUND : status := mk_status 404 (lit "NOT FOUND").

(** common/request.rs:6-15. *)
Record request := mk_request
  { rq_method : method; rq_uri : bytes; rq_headers : header_map; rq_body : bytes }.

(** common/response.rs:8-15. *)
Record response := mk_response
  { rs_status : status; rs_headers : header_map; rs_body : bytes }.

(** common/response.rs:17-26 [From<Status> for Response]. *)
Definition response_of_status (st : status) : response :=
  mk_response st (from_pairs [(CONTENT_LENGTH, lit "0")]) [].

(** common/response.rs:42-51 [From<Vec<u8>> for Response] (and 28-40 for strings, whose bytes are
    passed on). *)
Definition response_of_body (body : bytes) : response :=
  mk_response STATUS_OK (from_pairs [(CONTENT_LENGTH, dec (len body))]) body.
