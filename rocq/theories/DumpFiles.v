(** The files that the decompiler writes with --dump-files: decompiler/src/files.rs and
    cli/src/main.rs 141-156.  A definition that is listed is given by its index.  Files
    are written one after the other; here the list is made first, so a panic shows as the
    failure of the whole.  The two hash maps are walked in some order, which is an
    argument. *)
From Coq Require Import String.
From Coq Require Import ZArith List Bool.
From Verif Require Import Bytes Bytecode Definitions Bundle Ast Pool Scope Printer Parser Decompiler Dump.
Import ListNotations.
Open Scope Z_scope.

(** Definition::source (core/src/definition.rs 59-64). *)
Definition source_of (d : definition) : option source_ref := match df_value d with DFunction f => fu_source f | _ => None end.
(** The lines of the functions of a class (definition.rs 69-78). *)
Definition lines_of (p : pool) (fs : list pidx) : list Z :=
  flat_map (fun i => match get_function p i with Done f => match fu_source f with Some s => [sr_line s] | None => [] end | Fail _ => [] end) fs.
Definition least (l : list Z) : option Z := match l with [] => None | x :: l' => Some (fold_left Z.min l' x) end.
(** Definition::first_line (definition.rs 66-81). *)
Definition first_line (p : pool) (d : definition) : option Z :=
  match df_value d with
  | DFunction f => option_map sr_line (fu_source f)
  | DClass k => least (lines_of p (cl_functions k))
  | _ => None
  end.

(** ConstantPool::definitions (core/src/bundle.rs 318-324). *)
Fixpoint numbered (n : Z) (l : list definition) : list (pidx * definition) := match l with [] => [] | d :: l' => (n, d) :: numbered (n + 1) l' end.
Definition definitions (p : pool) : list (pidx * definition) := tl (numbered 0 (pl_defs p)).

(** The map from source files to sets of definitions, and FileIndex::from_pool (files.rs 15-30). *)
Definition file_map : Type := list (pidx * list pidx).
Fixpoint into_file (m : file_map) (k i : pidx) : file_map :=
  match m with
  | [] => [(k, [i])]
  | (k', l) :: m' => if k' =? k then (k', if existsb (Z.eqb i) l then l else l ++ [i]) :: m' else (k', l) :: into_file m' k i
  end.
Definition root_of (i : pidx) (d : definition) : pidx := if df_parent d =? UNDEFINED then i else df_parent d.
Definition from_pool (p : pool) : file_map :=
  fold_left (fun m x => match source_of (snd x) with Some s => into_file m (sr_file s) (root_of (fst x) (snd x)) | None => m end) (definitions p) [].

(** sorted_by_key: a stable sort. *)
Fixpoint place {A} (key : A -> Z) (a : A) (l : list A) : list A :=
  match l with [] => [a] | b :: l' => if key a <=? key b then a :: l else b :: place key a l' end.
Definition sort_by {A} (key : A -> Z) (l : list A) : list A := fold_right (place key) [] l.

(** FileEntry (files.rs 76-79) and FileIndex::orphans (files.rs 53-73). *)
Definition file_entry : Type := str * list pidx.
Definition is_orphan (p : pool) (d : definition) : bool :=
  match df_value d with
  | DClass k => forallb (fun i => match get_function p i with Done f => get_flag fn_is_native (fu_flags f) | Fail _ => true end) (cl_functions k)
  | DEnum _ => true
  | DFunction f => (df_parent d =? UNDEFINED) && get_flag fn_is_native (fu_flags f)
  | _ => false
  end.
Definition orphans_path : str := lit "orphans.script".
Definition orphans (p : pool) : file_entry := (orphans_path, map fst (filter (fun x => is_orphan p (snd x)) (definitions p))).

(** The orders in which hash maps are walked. *)
Record walk := Walk { wk_files : file_map -> file_map; wk_children : list pidx -> list pidx }.
Definition line_key (p : pool) (i : pidx) : Z :=
  match get_def p i with Done d => match first_line p d with Some n => n | None => 0 end | Fail _ => 0 end.
Definition is_there (p : pool) (i : pidx) : bool := match get_def p i with Done _ => true | Fail _ => false end.
(** One source file (files.rs 34-47); a file that is not in the pool is a panic. *)
Definition source_entry (w : walk) (p : pool) (x : pidx * list pidx) : outcome derror (option file_entry) :=
  match get_def p (fst x) with
  | Fail _ => Fail DPanic
  | Done d => match df_value d with
              | DSourceFile f => Done (Some (sf_path f, sort_by (line_key p) (filter (is_there p) (wk_children w (snd x)))))
              | _ => Done None
              end
  end.
Fixpoint source_entries (w : walk) (p : pool) (l : file_map) : outcome derror (list file_entry) :=
  match l with
  | [] => Done []
  | x :: l' => let* e := source_entry w p x in let* es := source_entries w p l' in
               Done (match e with Some e => e :: es | None => es end)
  end.
(** FileIndex::iter (files.rs 32-51). *)
Definition entries (w : walk) (p : pool) : outcome derror (list file_entry) :=
  let* es := source_entries w p (wk_files w (from_pool p)) in Done (orphans p :: es).

(** Path::join: an absolute path replaces the directory.  Only paths of Unix are
    modelled, and only directories that do not end with a slash. *)
Definition slash : byte := byte_of_Z 47.
Definition join_path (dir path : str) : str :=
  match path with b :: _ => if Byte.eqb b slash then path else dir ++ slash :: path | [] => dir ++ [slash] end.
(** What is written to one file (main.rs 149-153). *)
Definition file_text (fl : float_text) (v : bool) (p : pool) (n : nat) (ids : list pidx) : written :=
  wall (map (fun i => wlogged (wget (of_pool (get_def p i)) (fun d => write_definition fl v p n d 0))) ids).
(** What is in a file at the end: opening a file empties it (main.rs 147). *)
Fixpoint at_end (l : list file_entry) (path : str) : option (list pidx) :=
  match l with
  | [] => None
  | e :: l' => match at_end l' path with Some x => Some x | None => if str_eqb (fst e) path then Some (snd e) else None end
  end.
(** All the files of the directory [dir] (main.rs 141-156). *)
Definition dump_files (w : walk) (p : pool) (dir : str) : outcome derror (list file_entry) :=
  let* es := entries w p in Done (map (fun e => (join_path dir (fst e), snd e)) es).
