(** Loading the source files of directories.

    Models compiler/src/source_map.rs 20-35 (Files::from_dirs, from_dir, from_files),
    78-91 (filtered_file_iter) and 228-256 (SourceFilter).

    The file system is given by what each path leads to, links being followed.
    Paths are byte strings with the separator /, and names of entries are without
    it.  Files do not change while they are loaded. *)
From Coq Require Import String.
From Coq Require Import ZArith List Bool.
From Verif Require Import Bytes Bytecode Definitions Bundle Ast TypeNames SourceMap.
Import ListNotations.
Open Scope Z_scope.

(** A file with its contents ([None]: it cannot be read), a directory with its
    entries in the order in which the system lists them, or something that walkdir
    reports an error for: a broken link, a loop of links.  A directory that cannot
    be listed is like an empty one. *)
Inductive node := NFile (contents : option str) | NDir (entries : list (str * node)) | NBroken.
Definition filesystem := str -> option node.

(** PathBuf::push of a name. *)
Definition child (path name : str) : str :=
  match rev path with
  | [] => name
  | b :: _ => if Byte.eqb b x2f then path ++ name else path ++ x2f :: name
  end.
(** The iterator of WalkDir (source_map.rs 82-86): every directory before its
    entries, entries with errors left out.  The second component is the path
    relative to the start (strip_prefix, line 87). *)
Fixpoint walk (path : str) (rel : list str) (n : node) {struct n} : list (str * list str * node) :=
  match n with
  | NBroken => []
  | NFile _ => [(path, rel, n)]
  | NDir entries => (path, rel, n) :: flat_map (fun x => walk (child path (fst x)) (rel ++ [fst x]) (snd x)) entries
  end.

(** std's rsplit_file_at_dot, behind Path::extension and Path::file_stem: the part of
    a name before the last dot and the part after it; a dot at the start does not
    count. *)
Fixpoint split_dot (s : str) : option (str * str) :=
  match s with
  | [] => None
  | b :: s' =>
    match split_dot s' with
    | Some (x, y) => Some (b :: x, y)
    | None => if Byte.eqb b x2e then Some ([], s') else None
    end
  end.
Definition stem_extension (name : str) : str * option str :=
  if str_eqb name (lit "..") then (name, None)
  else match split_dot name with
       | None | Some ([], _) => (name, None)
       | Some (stem, ext) => (stem, Some ext)
       end.
(** Path::extension; the empty path has none. *)
Definition extension (rel : list str) : option str :=
  match rev rel with [] => None | name :: _ => snd (stem_extension name) end.
(** Path::with_extension with an empty extension. *)
Definition without_extension (rel : list str) : list str :=
  match rev rel with [] => [] | name :: dirs => rev dirs ++ [fst (stem_extension name)] end.

(** enum SourceFilter (source_map.rs 228-231); the set is a list. *)
Inductive source_filter := KeepAll | Exclude (names : list str).
(** SourceFilter::apply (source_map.rs 233-255). *)
Definition filter_apply (f : source_filter) (rel : list str) : bool :=
  let is_correct_extension := match extension rel with Some e => str_eqb e (lit "reds") | None => false end in
  let is_matching :=
    match f with
    | KeepAll => true
    | Exclude names =>
      match without_extension rel with
      | [] => false
      | name :: _ => if utf8_valid name then negb (existsb (str_eqb name) names) else false
      end
    end in
  is_correct_extension && is_matching.

(** filtered_file_iter (source_map.rs 78-91), with what is found at each path. *)
Definition filtered_files (fs : filesystem) (f : source_filter) (path : str) : list (str * node) :=
  match fs path with
  | Some (NFile c) => [(path, NFile c)]
  | Some n => map (fun x => (fst (fst x), snd x)) (List.filter (fun x => filter_apply f (snd (fst x))) (walk path [] n))
  | None => []
  end.
(** std::fs::read_to_string. *)
Definition read_to_string (n : node) : option str :=
  match n with
  | NFile (Some c) => if utf8_valid c then Some c else None
  | _ => None
  end.
(** Files::from_files (source_map.rs 29-36). *)
Fixpoint from_files (files : list file) (l : list (str * node)) : option (list file) :=
  match l with
  | [] => Some files
  | (path, n) :: l' => match read_to_string n with
                       | Some s => from_files (files_add files path s) l'
                       | None => None
                       end
  end.
(** Files::from_dirs (source_map.rs 20-23). *)
Definition from_dirs (fs : filesystem) (paths : list str) (f : source_filter) : option (list file) :=
  from_files [] (flat_map (filtered_files fs f) paths).
