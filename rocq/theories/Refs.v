(** What the native caller is told about the declarations of a compilation.

    Models scc/lib/src/api.rs 86-170: the functions that take a SourceRef.  The output
    they take is the pool of the bundle, the references of the compilation
    (CompilationOutput::source_refs, unit.rs 1326-1328) and the files.  The pointers and
    lengths of StrWithLen (api.rs 199-221) stand for the strings; the default is the
    empty string. *)
From Coq Require Import String.
From Coq Require Import ZArith List Bool.
From Verif Require Import Bytes Bytecode Definitions Bundle Ast Pool Scope Search SourceMap.
Import ListNotations.
Open Scope Z_scope.

(** struct SourceRef (unit.rs 1356-1376): index and position. *)
Definition link : Type := pidx * Z.
(** enum SourceRefType (api.rs 223-231). *)
Inductive ref_type := RefUndefined | RefClass | RefField | RefFunction | RefEnum.
(** scc_source_ref_type (api.rs 96-108). *)
Definition type_of_ref (p : pool) (l : link) : ref_type :=
  match get_def p (fst l) with
  | Fail _ => RefUndefined
  | Done d => match df_value d with
              | DClass _ => RefClass | DEnum _ => RefEnum | DFunction _ => RefFunction | DField _ => RefField
              | _ => RefUndefined
              end
  end.
(** scc_source_ref_is_native (api.rs 110-121). *)
Definition ref_is_native (p : pool) (l : link) : bool :=
  match get_def p (fst l) with
  | Fail _ => false
  | Done d => match df_value d with
              | DFunction f => get_flag fn_is_native (fu_flags f)
              | DClass c => get_flag cf_is_native (cl_flags c)
              | DField f => get_flag ff_is_native (fi_flags f)
              | _ => false
              end
  end.
(** scc_source_ref_name (api.rs 123-131). *)
Definition ref_name (p : pool) (l : link) : str := match def_name p (fst l) with Done n => n | Fail _ => [] end.
(** scc_source_ref_parent_name (api.rs 133-145). *)
Definition ref_parent_name (p : pool) (l : link) : str :=
  match get_def p (fst l) with
  | Fail _ => []
  | Done d => if df_parent d =? UNDEFINED then []
              else match def_name p (df_parent d) with Done n => n | Fail _ => [] end
  end.
(** scc_source_ref_path (api.rs 147-155); paths are taken to be UTF-8. *)
Definition ref_path (fs : list file) (l : link) : str := match lookup_file fs (snd l) with Some f => f_path f | None => [] end.
(** scc_source_ref_line (api.rs 157-163); usize::MAX if there is none. *)
Definition ref_line (fs : list file) (l : link) : outcome unwind Z :=
  match lookup_file fs (snd l) with
  | None => Done (2 ^ 64 - 1)
  | Some f => let* o := file_lookup f (snd l) in
              Done match o with Some (line, _) => Z.of_nat line | None => 2 ^ 64 - 1 end
  end.
