(** The example program: /repo/src/main.rs. *)
From Coq Require Import List Ascii String NArith Bool.
From Verif.Model Require Import Bytes Common Server Router.
Import ListNotations.

(** ** The file system, as far as fs::read (main.rs:62) shows it *)

(** Files and directories.  Left out: symbolic links, permissions, special files, limits on the length of names. *)
(* what fs::read of main.rs:62 finds *)
Inductive node := NFile (contents : bytes) | NDir (entries : list (bytes * node)).
(* what fs::read of main.rs:62 finds *)
Record fsys := mk_fsys { f_root : node; f_cwd : bytes }.

(* main.rs:43 *)
Definition SLASH : Ascii.ascii := "/"%char.

(** The parts of a path between slashes. *)
(* fs::read, main.rs:62 *)
Fixpoint components (p : bytes) : list bytes :=
  match p with
  | [] => [[]]
  | c :: p' =>
      if Ascii.eqb c SLASH then [] :: components p'
      else match components p' with [] => [[c]] | h :: t => (c :: h) :: t end
  end.

(* fs::read, main.rs:62 *)
Fixpoint entry (name : bytes) (es : list (bytes * node)) : option node :=
  match es with
  | [] => None
  | (k, n) :: es' => if beqb k name then Some n else entry name es'
  end.

(** Pathname resolution (POSIX 4.13): the current node, the directories above it. *)
(* fs::read, main.rs:62 *)
Fixpoint walk (above : list node) (cur : node) (cs : list bytes) : option node :=
  match cs with
  | [] => Some cur
  | c :: cs' =>
      match cur with
      | NFile _ => None
      | NDir es =>
          if beqb c [] || beqb c (lit ".") then walk above cur cs'
          else if beqb c (lit "..") then
            match above with [] => walk [] cur cs' | p :: above' => walk above' p cs' end
          else match entry c es with None => None | Some n => walk (cur :: above) n cs' end
      end
  end.
(* fs::read, main.rs:62 *)
Definition resolve (f : fsys) (p : bytes) : option node :=
  walk [] (f_root f) (components (if starts_with [SLASH] p then p else f_cwd f ++ SLASH :: p)).

(** fs::read (main.rs:62); [None]: any error.  A path with a zero byte is refused by the standard library. *)
Definition fs_read (f : fsys) (p : bytes) : option bytes :=
  if existsb (Ascii.eqb Ascii.zero) p then None
  else match resolve f p with Some (NFile b) => Some b | _ => None end.

(** ** main.rs:34-86 *)

(** main.rs:73-86 [get_content_type]. *)
Definition get_content_type (path : bytes) : bytes :=
  if ends_with (lit ".ico") path then lit "image/x-icon"
  else if ends_with (lit ".js") path then lit "application/javascript"
  else if ends_with (lit ".svg") path then lit "image/svg+xml"
  else if ends_with (lit ".html") path then lit "text/html"
  else if ends_with (lit ".css") path then lit "text/css"
  else lit "text/plain".

(** main.rs:61-71 [file_response]. *)
Definition file_response (f : fsys) (path : bytes) : response :=
  match fs_read f path with
  | Some contents =>
      mk_response STATUS_OK (from_pairs [(CONTENT_LENGTH, dec (len contents)); (CONTENT_TYPE, get_content_type path)]) contents
  | None => response_of_status STATUS_NOT_FOUND
  end.

(** main.rs:40-45: the path for a local uri. *)
Definition file_path (directory uri : bytes) : bytes :=
  let path := directory ++ uri in
  if ends_with (lit "/") path then path ++ lit "index.html" else path.

(** The HashMap (main.rs:37): [cache_get], and [insert], which replaces. *)
Definition fcache := list (bytes * response).
Fixpoint cache_get (p : bytes) (c : fcache) : option response :=
  match c with
  | [] => None
  | (k, r) :: c' => if beqb k p then Some r else cache_get p c'
  end.
Fixpoint cache_put (p : bytes) (r : response) (c : fcache) : fcache :=
  match c with
  | [] => [(p, r)]
  | (k, r') :: c' => if beqb k p then (k, r) :: c' else (k, r') :: cache_put p r c'
  end.

(** A call of the listener (main.rs:39-56) by one of the threads of the server, between its steps: not in it;
    the path was not in the cache (47-49, the read lock is dropped); the file was read (51). *)
Inductive fthr := Away | Missed (path : bytes) | Loaded (path : bytes) (r : response).

(** The file system, the cache of one file router, its threads. *)
(* main.rs:34-59 *)
Record ffile := mk_ffile { ff_fs : fsys; ff_cache : fcache; ff_thr : nat -> fthr }.
(* main.rs:37 *)
Definition ff_init (f : fsys) : ffile := mk_ffile f [] (fun _ => Away).
(* the threads that call the closure of main.rs:39-56 *)
Definition ff_set (s : nat -> fthr) (t : nat) (x : fthr) : nat -> fthr := fun t' => if Nat.eqb t t' then x else s t'.

(** [FChange]: somebody changes the file system.  [FHit]: the call returns what is in the cache.  [FMiss], [FRead].
    [FStore]: the response is put in the cache (under the write lock, 53) and returned.  The lookup and the insertion are
    each one step, as they happen under the lock; nothing panics under it, so it is not poisoned and the unwraps (47, 53)
    succeed. *)
(* main.rs:39-56 *)
Inductive flabel :=
| FChange (f : fsys)
| FHit (t : nat) (path : bytes) (r : response)
| FMiss (t : nat) (path : bytes)
| FRead (t : nat) (path : bytes) (r : response)
| FStore (t : nat) (path : bytes) (r : response).

(* main.rs:39-56 *)
Inductive fstep (directory : bytes) : ffile -> flabel -> ffile -> Prop :=
| fs_change f s : fstep directory s (FChange f) (mk_ffile f (ff_cache s) (ff_thr s))
| fs_hit s t uri path r : ff_thr s t = Away -> path = file_path directory uri -> cache_get path (ff_cache s) = Some r ->
    fstep directory s (FHit t path r) s
| fs_miss s t uri path : ff_thr s t = Away -> path = file_path directory uri -> cache_get path (ff_cache s) = None ->
    fstep directory s (FMiss t path) (mk_ffile (ff_fs s) (ff_cache s) (ff_set (ff_thr s) t (Missed path)))
| fs_load s t path r : ff_thr s t = Missed path -> r = file_response (ff_fs s) path ->
    fstep directory s (FRead t path r) (mk_ffile (ff_fs s) (ff_cache s) (ff_set (ff_thr s) t (Loaded path r)))
| fs_store s t path r : ff_thr s t = Loaded path r ->
    fstep directory s (FStore t path r) (mk_ffile (ff_fs s) (cache_put path r (ff_cache s)) (ff_set (ff_thr s) t Away)).

(** A run: the labels, the latest last. *)
(* main.rs:39-56 *)
Inductive frun (directory : bytes) : ffile -> list flabel -> ffile -> Prop :=
| fr_nil s : frun directory s [] s
| fr_step s ls s1 l s2 : frun directory s ls s1 -> fstep directory s1 l s2 -> frun directory s (ls ++ [l]) s2.

(** One call after the other: the whole listener at once. *)
(* main.rs:39-56 *)
Definition file_listener (directory : bytes) (f : fsys) (c : fcache) (uri : bytes) : response * fcache :=
  let path := file_path directory uri in
  match cache_get path c with
  | Some r => (r, c)
  | None => let r := file_response f path in (r, cache_put path r c)
  end.

(** ** main.rs:12-32 *)

(** main.rs:15-22: the response of the first listener. *)
Definition secret_message : bytes := lit "You found the secret message!".
Definition secret_response : response :=
  mk_response STATUS_OK (from_pairs [(CONTENT_LENGTH, lit "29")]) secret_message.

(** main.rs:15-25: the routes; the listeners are numbered 0, 1, 2. *)
Definition main_routes : list route :=
  [OnExact (lit "/secret/message/path") 0;
   Mount (lit "/my/middleton/website/") [OnPrefix [] 1];
   Mount (lit "/") [OnPrefix [] 2]].
Definition main_directory (l : nat) : bytes :=
  match l with
  | 1 => lit "/Users/Ben/Code/middletonSite/"
  | _ => lit "/Users/Ben/Code/ReactTetris/tetris-app/build/"
  end.

(** The cache of listener l after the calls made before, the file system being [fs n] at the n-th call. *)
(* main.rs:37, 39-56 *)
Fixpoint cache_after (fs : nat -> fsys) (l n : nat) (c : fcache) (calls : list call) : fcache :=
  match calls with
  | [] => c
  | (l', uri) :: calls' =>
      cache_after fs l (S n) (if Nat.eqb l' l then snd (file_listener (main_directory l) (fs n) c uri) else c) calls'
  end.

(** The listeners of main.rs, called one after the other.  SendResponse and SendResponseArc are one (see Model/Server.v). *)
Definition main_behaviour (fs : nat -> fsys) : behaviour := fun calls c _ =>
  match c with
  | (O, _) => LSend secret_response
  | (l, uri) => LSend (fst (file_listener (main_directory l) (fs (List.length calls)) (cache_after fs l 0 [] calls) uri))
  end.
