(** Modules without the declarations whose conditions do not hold. *)
From Coq Require Import ZArith List Bool.
From Verif Require Import Bytes Ast Pool Symbols Unit UnitSpec.
Import ListNotations.

(** The conditions evaluate, and do not hold. *)
Definition disabled (mods : list module_path) (anns : list annotation) : bool :=
  match eval_conditions mods anns with Done false => true | _ => false end.
Definition enabled (mods : list module_path) (anns : list annotation) : bool := negb (disabled mods anns).

Definition member_decl (m : member_source) : declaration := match m with MemberFunction f => fs_decl f | MemberField f => fd_decl f end.
(** A class without its disabled members, a module without its disabled entries and
    imports. *)
Definition strip_class (mods : list module_path) (c : class_source) : class_source :=
  ClassSource (cs_decl c) (cs_base c) (filter (fun m => enabled mods (dc_annotations (member_decl m))) (cs_members c)) (cs_span c).
Definition strip_entry (mods : list module_path) (e : source_entry) : source_entry :=
  match e with EntryClass is_struct c => EntryClass is_struct (strip_class mods c) | _ => e end.
Definition strip_module (mods : list module_path) (m : source_module) : source_module :=
  SourceModule (sm_path m) (filter (fun i => enabled mods (snd i)) (sm_imports m))
    (map (strip_entry mods) (filter (fun e => enabled mods (dc_annotations (entry_decl e))) (sm_entries m))).
Definition strip (l : list source_module) : list source_module := map (strip_module (module_names l)) l.
