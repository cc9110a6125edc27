(** What the caller should be told about the declarations of the modules. *)
From Coq Require Import String.
From Coq Require Import ZArith List Bool.
From Verif Require Import Bytes Bytecode Definitions Bundle Ast TypeNames Pool Scope TypeCheck Symbols SourceMap Desugar Diagnostics Printer Assembler PoolSpec TypeIndexSpec Wrappers WrapSpec
  Unit UnitSpec EffectSpec Refs.
Import ListNotations.
Open Scope Z_scope.

(** What the caller can ask about one reference, and the position it is asked for. *)
Record told := Told { td_type : ref_type; td_name : str; td_parent : str; td_native : bool; td_at : Z }.
Definition told_of (p : pool) (l : link) : told := Told (type_of_ref p l) (ref_name p l) (ref_parent_name p l) (ref_is_native p l) (snd l).

(** A function and a field [owner] of which is the class they belong to, if any. *)
Definition function_told (name owner : str) (native : bool) (src : function_source) : told := Told RefFunction name owner native (sp_low (fs_span src)).
Definition field_told (owner : str) (src : field_source) : told :=
  Told RefField (dc_name (fd_decl src)) owner (contain QNative (dc_qualifiers (fd_decl src))) (sp_low (dc_span (fd_decl src))).
(** The members of a class, without those that are disabled. *)
Definition member_told (mods : list module_path) (owner : str) (m : member_source) : list told :=
  match m with
  | MemberFunction f => match eval_conditions mods (dc_annotations (fs_decl f)) with
                        | Done true => [function_told (source_signature f) owner (contain QNative (dc_qualifiers (fs_decl f))) f]
                        | _ => [] end
  | MemberField f => match eval_conditions mods (dc_annotations (fd_decl f)) with Done true => [field_told owner f] | _ => [] end
  end.
(** What is told about one declaration in the module [path]: for a class its members
    and then itself.  [p] is the bundle at the start; [syms] are the symbols of the scope of
    the module and [called] gives the names of the classes they stand for. *)
Definition entry_told (mods : list module_path) (p : pool) (syms : amap symbol) (called : pidx -> str -> Prop) (path : module_path) (e : source_entry) (l : list told) : Prop :=
  match e with
  | EntryClass _ src =>
    let qs := dc_qualifiers (cs_decl src) in
    let name := path_render (with_child path (dc_name (cs_decl src))) in
    l = flat_map (member_told mods name) (cs_members src) ++ [Told RefClass name [] (contain QImportOnly qs || contain QNative qs) (sp_low (cs_span src))]
  | EntryEnum src => l = [Told RefEnum (path_render (with_child path (dc_name (es_decl src)))) [] false (sp_low (es_span src))]
  | EntryLet src =>
    exists a n c w owner, In a (dc_annotations (fd_decl src)) /\ an_kind a = AAddField /\ ann_ident a = Done n /\
      am_find syms n = Some (SClass c w) /\ called c owner /\ l = [field_told owner src]
  | EntryFunction src =>
    let native := contain QNative (dc_qualifiers (fs_decl src)) in
    let sig := source_signature src in
    match find places (dc_annotations (fs_decl src)) with
    | None => l = [function_told (path_render (with_child path sig)) [] native src]
    | Some a =>
      match an_kind a with
      | AReplaceGlobal => l = [function_told sig [] false src]
      | AReplaceMethod => exists n c owner, ann_ident a = Done n /\ def_name p c = Done owner /\ path_parse owner = [n] /\ l = [function_told sig owner false src]
      | AAddMethod => exists n c owner, ann_ident a = Done n /\ def_name p c = Done owner /\ path_parse owner = [n] /\ l = [function_told sig owner native src]
      | _ => False
      end
    end
  end.
(** The first definition of a bundle stands for none. *)
Definition reserved (p : pool) : Prop := exists d, def_at p UNDEFINED = Some d /\ (forall k, df_value d <> DClass k) /\ (forall x, df_value d <> DFunction x).
