(** Rules for declarations in scripts. *)
From Coq Require Import String.
From Coq Require Import ZArith List Bool.
From Verif Require Import Bytes Bytecode Definitions Bundle Ast TypeNames Pool Scope TypeCheck Symbols PoolSpec Wrappers WrapSpec Unit UnitSpec.
Import ListNotations.
Open Scope Z_scope.

(** The declarations whose conditions hold, in order, with the modules they are in. *)
Definition enabled_entries (l : list source_module) : list (module_path * source_entry) :=
  flat_map (fun m => flat_map (fun e => match eval_conditions (module_names l) (dc_annotations (entry_decl e)) with
                                        | Done true => [(path_of m, e)] | _ => [] end) (sm_entries m)) l.

(** The name [n] occurs in a type as one of its innermost names. *)
Inductive mentions (n : str) : typename -> Prop :=
| mentions_name : mentions n (TypeName n None)
| mentions_inside m args t : In t args -> mentions n t -> mentions n (TypeName m (Some args)).
Definition not_stored : list str := [lit "String"; lit "Variant"; lit "ResRef"].

(** The class a function belongs to, as far as natives and bodies are concerned. *)
Record owner := Owner { ow_native : bool; ow_abstract : bool }.
(** A native function has no body and its class is native; any other function has a
    body, unless its class is abstract. *)
Definition lawful_function (o : option owner) (native : bool) (src : function_source) : Prop :=
  (native = true -> fs_body src = None /\ forall c, o = Some c -> ow_native c = true) /\
  (native = false -> fs_body src = None -> exists c, o = Some c /\ ow_abstract c = true).
(** A native field is in a native class, a persistent field has a type that can be
    stored, and properties are given by two strings. *)
Definition lawful_field (class_native : bool) (src : field_source) : Prop :=
  (In QNative (dc_qualifiers (fd_decl src)) -> class_native = true) /\
  (In QPersistent (dc_qualifiers (fd_decl src)) -> forall n, In n not_stored -> ~ mentions n (fd_type src)) /\
  (forall a, In a (dc_annotations (fd_decl src)) -> an_kind a = ARuntimeProperty -> exists k v s1 s2,
     an_args a = [EConstant (N := source_ast) (CString LString k) s1; EConstant (CString LString v) s2]).
(** The enabled members of a class or struct. *)
Definition lawful_members (mods : list module_path) (is_struct : bool) (src : class_source) : Prop :=
  let qs := dc_qualifiers (cs_decl src) in
  let o := Owner (contain QImportOnly qs || contain QNative qs) (negb is_struct && contain QAbstract qs) in
  forall m, In m (cs_members src) ->
    match m with
    | MemberFunction f => eval_conditions mods (dc_annotations (fs_decl f)) = Done true ->
        (is_struct = true -> In QStatic (dc_qualifiers (fs_decl f))) /\ lawful_function (Some o) (contain QNative (dc_qualifiers (fs_decl f))) f
    | MemberField f => eval_conditions mods (dc_annotations (fd_decl f)) = Done true -> lawful_field (ow_native o) f
    end.

Section Rules.
(** [l] are the modules, [p] is the bundle they are compiled into and [ds] are the
    diagnostics. *)
Variables (l : list source_module) (p : pool) (ds : list diagnostic).

(** A class of the bundle; index zero stands for no class. *)
Definition owner_at (c : pidx) (k : class) : option owner :=
  if c =? UNDEFINED then None else Some (Owner (get_flag cf_is_native (cl_flags k)) (get_flag cf_is_abstract (cl_flags k))).
(** The annotation [a] is about class [c] of the bundle. *)
Definition concerns (a : annotation) (c : pidx) (k : class) : Prop :=
  exists n, ann_ident a = Done n /\ goes_by p c n /\ get_class p c = Done k.
(** The field is added to a class of the bundle without a field of this name, or to a
    class that the modules declare. *)
Definition field_place (n : str) (native : bool) (src : field_source) : Prop :=
  (exists c k, goes_by_in p c n /\ get_class p c = Done k /\ native = get_flag cf_is_native (cl_flags k) /\
     forall f, In f (cl_fields k) -> def_name p f <> Done (dc_name (fd_decl src))) \/
  (exists m is_struct cs, In (m, EntryClass is_struct cs) (enabled_entries l) /\ dc_name (cs_decl cs) = n).

Definition lawful (e : source_entry) : Prop :=
  match e with
  | EntryClass is_struct src => lawful_members (module_names l) is_struct src
  | EntryEnum _ => True
  | EntryLet src =>
    exists a n, In a (dc_annotations (fd_decl src)) /\ an_kind a = AAddField /\ ann_ident a = Done n /\
      (In (FieldConflict (dc_span (fd_decl src))) ds \/ exists native, lawful_field native src /\ field_place n native src)
  | EntryFunction src =>
    let native := contain QNative (dc_qualifiers (fs_decl src)) in
    match find places (dc_annotations (fs_decl src)) with
    | None => lawful_function None native src
    | Some a =>
      match an_kind a with
      | AReplaceGlobal => lawful_function None false src
      | AReplaceMethod => exists c k, concerns a c k /\ lawful_function (owner_at c k) false src
      | AWrapMethod => exists c k, concerns a c k /\ lawful_function (owner_at c k) false src /\ native = false
      | AAddMethod => exists c k, concerns a c k /\ lawful_function (owner_at c k) native src /\
          (~ In x3b (dc_name (fs_decl src)) -> forall f, In f (cl_functions k) -> def_name p f = Done (source_signature src) ->
             In (AddMethodConflict (an_span a)) ds)
      | _ => False
      end
    end
  end.

(** Two functions are about the same method: both annotations are of kind [k] and
    name the same class, and the signatures are the same. *)
Definition same_method (k : annotation_kind) (s1 s2 : function_source) (a1 a2 : annotation) : Prop :=
  find places (dc_annotations (fs_decl s1)) = Some a1 /\ find places (dc_annotations (fs_decl s2)) = Some a2 /\
  an_kind a1 = k /\ an_kind a2 = k /\ (exists n, ann_ident a1 = Done n /\ ann_ident a2 = Done n) /\
  dc_name (fs_decl s1) = dc_name (fs_decl s2) /\ source_signature s1 = source_signature s2.
(** At most one class of the bundle has each name. *)
Definition distinct_classes : Prop :=
  forall n c c' k k', goes_by p c n -> goes_by p c' n -> get_class p c = Done k -> get_class p c' = Done k' -> c = c'.
End Rules.
