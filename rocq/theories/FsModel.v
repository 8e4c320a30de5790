(** Model of the code that writes files: the schema cache (/repo/crates/styx-lsp/src/cache.rs) and
    in-place formatting (/repo/crates/styx-cli/src/main.rs 329-407).

    A program is a tree of file system operations; any operation may fail, and the process may be
    killed before, between and inside operations.  A file is its bytes; a write that is cut short
    leaves a prefix.  What a power failure does to unsynced data is not modelled: it can only make
    more states possible. *)
From Coq Require Import String.
From Verif Require Import Base.
Local Open Scope nat_scope.

Section Fs.
Variable path : Type.
Variable path_eqb : path -> path -> bool.

(** Contents of the files; [None] is a missing file. *)
Definition fs := path -> option str.
Definition put (d : fs) (p : path) (c : option str) : fs := fun q => if path_eqb q p then c else d q.

(** The operations used: [Path::exists], [create_dir_all], [File::create], [write_all] of a file
    just created, [read_to_string]. *)
Inductive prog (A : Type) : Type :=
| Ret (a : A)
| Exists (p : path) (k : bool -> prog A)
| MkDirs (k : bool -> prog A)
| Create (p : path) (k : bool -> prog A)
| Write (p : path) (text : str) (k : bool -> prog A)
| ReadFile (p : path) (k : option str -> prog A).

(** How a run ends: with a result, or killed. *)
Inductive ending (A : Type) : Type :=
| Done (a : A)
| Killed.

(** The possible runs. *)
Inductive runs {A : Type} : fs -> prog A -> fs -> ending A -> Prop :=
| run_ret : forall d a, runs d (Ret A a) d (Done A a)
| run_killed : forall d m, runs d m d (Killed A)
| run_exists : forall d p k d' e,
    runs d (k (match d p with Some _ => true | None => false end)) d' e ->
    runs d (Exists A p k) d' e
| run_mkdirs : forall d k ok d' e, runs d (k ok) d' e -> runs d (MkDirs A k) d' e
| run_create : forall d p k d' e,
    runs (put d p (Some [])) (k true) d' e -> runs d (Create A p k) d' e
| run_create_fails : forall d p k d' e, runs d (k false) d' e -> runs d (Create A p k) d' e
| run_write : forall d p text k d' e,
    runs (put d p (Some text)) (k true) d' e -> runs d (Write A p text k) d' e
| run_write_fails : forall d p a b k d' e,
    runs (put d p (Some a)) (k false) d' e -> runs d (Write A p (a ++ b) k) d' e
| run_write_killed : forall d p a b k,
    runs d (Write A p (a ++ b) k) (put d p (Some a)) (Killed A)
| run_read : forall d p k d' e, runs d (k (d p)) d' e -> runs d (ReadFile A p k) d' e
| run_read_fails : forall d p k d' e, runs d (k None) d' e -> runs d (ReadFile A p k) d' e.
End Fs.
Arguments Ret {path A} a.
Arguments Exists {path A} p k.
Arguments MkDirs {path A} k.
Arguments Create {path A} p k.
Arguments Write {path A} p text k.
Arguments ReadFile {path A} p k.
Arguments Done {A} a.
Arguments Killed {A}.
Arguments runs {path} path_eqb {A} _ _ _ _.
Arguments put {path} path_eqb d p c.

(** ** The schema cache (cache.rs 20-62) *)

(** A cache path: the name and the hash of the content ([embedded_cache_path], 23-30).  The cache
    directory exists: without one the functions return [None] at once. *)
Definition cpath := (str * N)%type.
Definition cpath_eqb (p q : cpath) : bool := str_eqb (fst p) (fst q) && (snd p =? snd q)%N.

Section Cache.
(** [content_hash] (35-40), the first 64 bits of SHA-256. *)
Variable content_hash : str -> N.

Definition embedded_cache_path (cli_name content : str) : cpath := (cli_name, content_hash content).

(** [cache_embedded_schema] (44-62). *)
Definition cache_embedded_schema (cli_name content : str) : prog cpath (option cpath) :=
  let path := embedded_cache_path cli_name content in
  Exists path (fun there =>
  if there then Ret (Some path) else
  MkDirs (fun ok => if negb ok then Ret None else
  Create path (fun ok => if negb ok then Ret None else
  Write path content (fun ok => if negb ok then Ret None else
  Ret (Some path))))).
End Cache.

(** ** Cache paths as texts *)

(** [Path::join] on Unix: an absolute second path replaces the first. *)
Definition path_join (a b : str) : str :=
  if starts_with [cSLASH] b then b
  else match rev a with
       | [] => b
       | c :: _ => if (c =? cSLASH)%N then a ++ b else a ++ [cSLASH] ++ b
       end.

(** [embedded_cache_path] (23-30) and the key it is called with
    (/repo/crates/styx-lsp/src/schema_validation.rs 90-91); [dir] is the cache directory and
    [hash] the hexadecimal hash. *)
Definition cache_key (cli id : str) : str := cli ++ [cSLASH] ++ id.
Definition cache_file (dir key hash : str) : str :=
  path_join (path_join (path_join dir (lit "embedded")) key) (hash ++ lit ".styx").

(** ** In-place formatting (main.rs 329-407)

    [run_file_mode] with [--in-place] and without JSON output: read, parse, validate if asked,
    format, write.  Parsing, validation and formatting are parameters here. *)
Section InPlace.
Variable path : Type.
Variable parse_ok : str -> bool.
Variable validate_ok : str -> bool.
Variable format_source : str -> str.

(** [std::fs::write]: create, then write. *)
Definition fs_write {A} (p : path) (text : str) (k : bool -> prog path A) : prog path A :=
  Create p (fun ok => if ok then Write p text k else k false).

Definition run_in_place (validate : bool) (input : path) : prog path bool :=
  ReadFile input (fun o =>
  match o with
  | None => Ret false
  | Some source =>
      if negb (parse_ok source) then Ret false
      else if validate && negb (validate_ok source) then Ret false
      else fs_write input (format_source source) (fun ok => Ret ok)
  end).
End InPlace.
