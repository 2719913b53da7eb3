(** Downloading and unpacking of the example dataset
    (torch_harmonics/examples/stanford_2d3ds_dataset.py:71-224).

    A file is a list of bytes, represented by a list over any type; [None] in place
    of a file means that it does not exist.  Progress bars, headers other than the
    range, time-outs and the parsing of the archive are not modelled. *)
From Coq Require Import List Arith Bool String.
Import ListNotations.
Local Open Scope nat_scope.

(** ** _download_file (128-165) *)

Section Download.
Context {byte digest : Type}.
Variable sha256 : list byte -> digest.
Variable digest_eqb : digest -> digest -> bool.

(** The two files of a download: name.part and name. *)
Record files := mkfiles { f_part : option (list byte); f_final : option (list byte) }.

(** What requests.get gives: an error (no connection, or an error status), or a
    status and the bytes that arrive before the end ([complete]) or an exception. *)
Inductive response := HttpError | Reply (partial : bool) (body : list byte) (complete : bool).

Inductive result := Done | Raised.

(** 114-126 [_verify_checksum]; [None] stands for verification switched off and for
    a file without a known checksum. *)
Definition verify (expected : option digest) (content : list byte) : result :=
  match expected with
  | Some e => if digest_eqb (sha256 content) e then Done else Raised
  | None => Done
  end.

(** 128-165.  The server is a function of the start of the requested range. *)
Definition download (expected : option digest) (server : option nat -> response) (w : files) : files * result :=
  match f_final w with
  | Some content => (w, verify expected content)
  | None =>
      match server (option_map (@List.length byte) (f_part w)) with
      | HttpError => (w, Raised)
      | Reply partial body complete =>
          let old := match f_part w with Some p => if partial then p else [] | None => [] end in
          let new := old ++ body in
          if complete then (mkfiles None (Some new), verify expected new)
          else (mkfiles (Some new) None, Raised)
      end
  end.

(** Any number of calls, each with its own server behaviour. *)
Fixpoint downloads (expected : option digest) (servers : list (option nat -> response)) (w : files) : files * list result :=
  match servers with
  | [] => (w, [])
  | s :: l => let '(w1, r) := download expected s w in
              let '(w2, rs) := downloads expected l w1 in (w2, r :: rs)
  end.

(** ** download_dataset (196-224) for one archive

    The state adds the unpacked folder, as the list of members that are in it; it
    exists from the first member on.  [_extract_tar] (179-194) unpacks the members
    of the archive, given by [unpack], one by one; [stop] is the number of members
    after which it is interrupted.  Afterwards it takes the name of the first
    member, an error when there is none, and removes the archive. *)
Context {member : Type}.
Variable unpack : list byte -> list member.
Record state := mkstate { s_files : files; s_folder : option (list member) }.
Definition folder_of (l : list member) : option (list member) := match l with [] => None | _ => Some l end.
Definition fetch (expected : option digest) (server : option nat -> response) (stop : option nat) (s : state) : state * result :=
  match s_folder s with
  | Some _ => (s, Done)
  | None =>
      let '(w, r) := download expected server (s_files s) in
      match r, f_final w with
      | Done, Some content =>
          match stop with
          | Some n => (mkstate w (folder_of (firstn n (unpack content))), Raised)
          | None => match unpack content with
                    | [] => (mkstate w None, Raised)
                    | l => (mkstate (mkfiles (f_part w) None) (Some l), Done)
                    end
          end
      | _, _ => (mkstate w None, Raised)
      end
  end.
(** Any number of calls of download_dataset. *)
Fixpoint fetches (expected : option digest) (calls : list ((option nat -> response) * option nat)) (s : state) : state * list result :=
  match calls with
  | [] => (s, [])
  | (server, stop) :: l => let '(s1, r) := fetch expected server stop s in
                           let '(s2, rs) := fetches expected l s1 in (s2, r :: rs)
  end.
End Download.

(** ** _check_tar_members (167-177) and tarfile's extractall without a filter *)

(** A path from the root, and a name as written in an archive, which may contain
    "..", "." and empty parts. *)
Definition path := list string.
Record name := mkname { n_abs : bool; n_parts : list string }.

(** os.path.normpath on the parts of an absolute path (a second leading slash, which
    it keeps, is not modelled) *)
Definition norm_step (p : path) (c : string) : path :=
  if (String.eqb c "" || String.eqb c ".")%string then p
  else if String.eqb c ".." then removelast p else p ++ [c].
Definition norm (start : path) (parts : list string) : path := fold_left norm_step parts start.
(** os.path.abspath(os.path.join(base, name)) *)
Definition abs_join (base : path) (n : name) : path := norm (if n_abs n then [] else base) (n_parts n).

Fixpoint prefixb (p q : path) : bool :=
  match p, q with
  | [], _ => true
  | a :: p, b :: q => String.eqb a b && prefixb p q
  | _, _ => false
  end.
Definition path_eqb (p q : path) : bool := if list_eq_dec string_dec p q then true else false.
(** 172: member_path != base_dir and not member_path.startswith(base_dir + os.sep); for the
    root as base the string is "//" *)
Definition allowed (base p : path) : bool :=
  path_eqb p base || (negb (path_eqb base []) && prefixb base p).

Inductive kind := KFile | KDir | KSym (target : name) | KHard (target : name).
Record tmember := mkmember { t_name : name; t_kind : kind }.

(** 170-177, one member *)
Definition check_member (base : path) (m : tmember) : bool :=
  let p := abs_join base (t_name m) in
  allowed base p &&
  match t_kind m with
  | KSym t | KHard t => allowed base (abs_join (removelast p) t)
  | _ => true
  end.
Definition check_members (base : path) (l : list tmember) : bool := forallb (check_member base) l.

(** The file system: what is at a path; only links matter here. *)
Inductive node := NFile | NDir | NLink (target : name).
Definition fsys := path -> option node.
Definition update (fs : fsys) (p : path) (n : node) : fsys := fun q => if path_eqb q p then Some n else fs q.

(** How the operating system walks a path, following links; it gives up after
    [limit] steps. *)
Fixpoint walk (limit : nat) (fs : fsys) (cur : path) (parts : list string) : option path :=
  match parts with
  | [] => Some cur
  | c :: r =>
      match limit with
      | 0 => None
      | S n =>
          if (String.eqb c "" || String.eqb c ".")%string then walk n fs cur r
          else if String.eqb c ".." then walk n fs (removelast cur) r
          else match fs (cur ++ [c]) with
               | Some (NLink t) => walk n fs (if n_abs t then [] else cur) (n_parts t ++ r)
               | _ => walk n fs (cur ++ [c]) r
               end
      end
  end.
Definition walk_name (limit : nat) (fs : fsys) (base : path) (n : name) (parts : list string) : option path :=
  walk limit fs (if n_abs n then [] else base) parts.

(** TarFile.extractall(path=base): what one member does.  Files are opened for writing
    and so follow a link at the end of the name; links are created in the
    directory the name leads to; the target of a hard link is looked up from the
    extraction directory.  The second component is the list of files and
    directories created, written or made accessible under a new name. *)
Definition extract (limit : nat) (base : path) (fs : fsys) (m : tmember) : option (fsys * list path) :=
  let n := t_name m in
  match t_kind m with
  | KFile => match walk_name limit fs base n (n_parts n) with
             | Some p => Some (update fs p NFile, [p]) | None => None end
  | KDir => match walk_name limit fs base n (n_parts n) with
            | Some p => Some (update fs p NDir, [p]) | None => None end
  | KSym t => match walk_name limit fs base n (removelast (n_parts n)) with
              | Some d => let p := d ++ [last (n_parts n) ""%string] in Some (update fs p (NLink t), [p]) | None => None end
  | KHard t => match walk_name limit fs base n (removelast (n_parts n)), walk_name limit fs base t (n_parts t) with
               | Some d, Some q => let p := d ++ [last (n_parts n) ""%string] in Some (update fs p NFile, [p; q])
               | _, _ => None end
  end.
Fixpoint extract_all (limit : nat) (base : path) (fs : fsys) (l : list tmember) : option (fsys * list path) :=
  match l with
  | [] => Some (fs, [])
  | m :: l => match extract limit base fs m with
              | Some (fs1, a) => match extract_all limit base fs1 l with
                                 | Some (fs2, b) => Some (fs2, a ++ b) | None => None end
              | None => None end
  end.
(** 188-190: the fallback of [_extract_tar] *)
Definition extract_tar (limit : nat) (base : path) (fs : fsys) (l : list tmember) : option (fsys * list path) :=
  if check_members base l then extract_all limit base fs l else None.
