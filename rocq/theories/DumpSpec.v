(** What the printed definitions of a bundle say when they are read as source code (C56).

    [describes d e]: the declaration [e] says what the definition [d] of the pool says.
    [readable d]: conditions on [d] under which its text is read back.  Both speak of
    the pool and of what has been read only, not of texts. *)
From Coq Require Import String.
From Coq Require Import ZArith List Bool.
From Verif Require Import Bytes Bytecode Definitions Bundle Ast TypeNames Pool Scope TypeCheck Symbols Printer Decompiler Dump PrintSpec Unit StatementSpec.
Import ListNotations.
Open Scope Z_scope.

(** The words of declarations that stand for qualifiers (parser.rs 180-195). *)
Definition qualifier_word (q : qualifier) : string :=
  match q with
  | QPublic => "public" | QProtected => "protected" | QPrivate => "private" | QAbstract => "abstract" | QStatic => "static"
  | QFinal => "final" | QConst => "const" | QNative => "native" | QExec => "exec" | QCallback => "cb" | QOut => "out"
  | QOptional => "opt" | QQuest => "quest" | QImportOnly => "importonly" | QPersistent => "persistent"
  end.
Definition all_qualifiers : list qualifier :=
  [QPublic; QProtected; QPrivate; QAbstract; QStatic; QFinal; QConst; QNative; QExec; QCallback; QOut; QOptional; QQuest; QImportOnly; QPersistent].
Definition is_qualifier_word (w : str) : bool := existsb (fun q => str_eqb w (lit (qualifier_word q))) all_qualifiers.
Definition of_visibility (v : visibility) : qualifier := match v with Public => QPublic | Protected => QProtected | Private => QPrivate end.
(** [qs] are those of the table whose condition holds. *)
Definition exactly (qs : list qualifier) (table : list (bool * qualifier)) : Prop := forall q, contain q qs = true <-> In (true, q) table.

Section Spec.
Variables (v : bool) (p : pool).

(** The name of a definition, and the type that a type definition stands for. *)
Definition named (d : definition) (name : str) : Prop := st_get (Some none_str) (pl_names p) (df_name d) = inl name.
Definition at_ (i : pidx) (d : definition) : Prop := get_def p i = Done d.
Definition wrapper (t : ty) : option (string * pidx) :=
  match t with
  | TRef i => Some ("ref"%string, i) | TWeakRef i => Some ("wref"%string, i) | TArray i => Some ("array"%string, i) | TScriptRef i => Some ("script_ref"%string, i)
  | _ => None
  end.
Inductive typed : pidx -> typename -> Prop :=
| typed_plain i d t name : at_ i d -> df_value d = DType t -> t = TPrim \/ t = TClass -> named d name -> typed i (TypeName name None)
| typed_wrapped i d t w j u : at_ i d -> df_value d = DType t -> wrapper t = Some (w, j) -> typed j u -> typed i (TypeName (lit w) (Some [u])).

(** The decompiler yields the code, given enough steps. *)
Definition yields (f : function) (d : definition) (code : list sexpr) : Prop := exists n0, forall n, (n0 <= n)%nat -> decompiled n f d p = Done code.

Record describes_parameter (i : pidx) (s : parameter_source) : Prop := {
  parameter_said : exists d a, at_ i d /\ df_value d = DParameter a /\ named d (ps_name s) /\ typed (pa_type a) (ps_type s) /\
    exactly (ps_qualifiers s) [(get_flag pf_is_const (pa_flags a), QConst); (get_flag pf_is_out (pa_flags a), QOut); (get_flag pf_is_optional (pa_flags a), QOptional)] }.
Record describes_function (d : definition) (f : function) (s : function_source) : Prop := {
  function_named : exists name, named d name /\ dc_name (fs_decl s) = short_name name;
  function_plain : dc_annotations (fs_decl s) = [];
  function_qualified : exactly (dc_qualifiers (fs_decl s))
    [(true, of_visibility (fu_visibility f)); (get_flag fn_is_final (fu_flags f), QFinal); (get_flag fn_is_static (fu_flags f), QStatic);
     (get_flag fn_is_native (fu_flags f), QNative); (get_flag fn_is_exec (fu_flags f), QExec); (get_flag fn_is_const (fu_flags f), QConst);
     (get_flag fn_is_quest (fu_flags f), QQuest); (get_flag fn_is_callback (fu_flags f), QCallback)];
  function_typed : match fu_return_type f with None => fs_type s = Some (TypeName (lit "Void") None) | Some i => exists t, fs_type s = Some t /\ typed i t end;
  function_takes : Forall2 describes_parameter (fu_parameters f) (fs_parameters s);
  function_does : if get_flag fn_has_body (fu_flags f) then exists code body, yields f d code /\ fs_body s = Some body /\ same_body v code body else fs_body s = None }.
(** A runtime property is an annotation with two texts. *)
Definition property_annotation (q : property) : annotation :=
  {| an_kind := ARuntimeProperty; an_args := [EConstant (N := source_ast) (CString LString (pp_name q)) span0; EConstant (N := source_ast) (CString LString (pp_value q)) span0];
     an_span := span0 |}.
Record describes_field (d : definition) (f : field) (s : field_source) : Prop := {
  field_named : named d (dc_name (fd_decl s));
  field_annotated : dc_annotations (fd_decl s) = map property_annotation (fi_attributes f);
  field_qualified : exactly (dc_qualifiers (fd_decl s))
    [(true, of_visibility (fi_visibility f)); (get_flag ff_is_native (fi_flags f), QNative); (get_flag ff_is_persistent (fi_flags f), QPersistent);
     (get_flag ff_is_const (fi_flags f), QConst)];
  field_typed : typed (fi_type f) (fd_type s);
  field_bare : fd_default s = None }.
Record describes_class (d : definition) (k : class) (s : class_source) : Prop := {
  class_named : named d (dc_name (cs_decl s));
  class_plain : dc_annotations (cs_decl s) = [];
  class_qualified : exactly (dc_qualifiers (cs_decl s))
    [(true, of_visibility (cl_visibility k)); (get_flag cf_is_abstract (cl_flags k), QAbstract); (get_flag cf_is_final (cl_flags k), QFinal);
     (get_flag cf_is_import_only (cl_flags k), QImportOnly); (negb (get_flag cf_is_import_only (cl_flags k)) && get_flag cf_is_native (cl_flags k), QNative)];
  class_based : if cl_base k =? UNDEFINED then cs_base s = None else exists b base, at_ (cl_base k) b /\ named b base /\ cs_base s = Some base;
  class_has : exists fs gs, cs_members s = map MemberField fs ++ map MemberFunction gs /\
    Forall2 (fun i s => exists d f, at_ i d /\ df_value d = DField f /\ describes_field d f s) (cl_fields k) fs /\
    Forall2 (fun i s => exists d f, at_ i d /\ df_value d = DFunction f /\ describes_function d f s) (cl_functions k) gs }.
Record describes_enum (d : definition) (e : enum) (s : enum_source) : Prop := {
  enum_named : named d (dc_name (es_decl s));
  enum_plain : dc_annotations (es_decl s) = [] /\ dc_qualifiers (es_decl s) = [];
  enum_has : Forall2 (fun i m => exists d, at_ i d /\ df_value d = DEnumValue (snd m) /\ named d (fst m)) (en_members e) (es_members s) }.
Definition describes (d : definition) (e : source_entry) : Prop :=
  match df_value d with
  | DClass k => exists s, e = EntryClass (get_flag cf_is_struct (cl_flags k)) s /\ describes_class d k s
  | DEnum n => exists s, e = EntryEnum s /\ describes_enum d n s
  | DFunction f => exists s, e = EntryFunction s /\ describes_function d f s
  | _ => False
  end.

(** ** Conditions

    Names that the grammar takes for names, types that it can write, and code in the
    fragment of StatementSpec.v. *)
Definition has_name (d : definition) : Prop := exists name, named d name /\ is_name name = true.
Definition has_type (i : pidx) : Prop := exists t, typed i t /\ type_ok t = true.
Definition readable_parameter (i : pidx) : Prop :=
  exists d a name, at_ i d /\ df_value d = DParameter a /\ named d name /\ is_name name = true /\ is_qualifier_word name = false /\ has_type (pa_type a).
Record readable_function (d : definition) (f : function) : Prop := {
  rf_name : exists name, named d name /\ is_name (short_name name) = true;
  rf_return : match fu_return_type f with None => True | Some i => has_type i end;
  rf_params : Forall readable_parameter (fu_parameters f);
  rf_body : get_flag fn_has_body (fu_flags f) = true -> exists code, yields f d code /\ body_ok v true code = true }.
(** Texts that are printed as they are and read back as they are. *)
Definition plain_text (s : str) : Prop := utf8_valid s = true /\ escape s = s.
(** The language has no words for fields that are inline, replicated or editable, and
    default values of fields are not declared by annotations. *)
Record readable_field (d : definition) (f : field) : Prop := {
  rd_name : has_name d;
  rd_type : has_type (fi_type f);
  rd_flags : get_flag ff_is_inline (fi_flags f) = false /\ get_flag ff_is_replicated (fi_flags f) = false /\ get_flag ff_is_editable (fi_flags f) = false;
  rd_defaults : fi_defaults f = [];
  rd_attributes : Forall (fun q => plain_text (pp_name q) /\ plain_text (pp_value q)) (fi_attributes f) }.
Record readable_class (d : definition) (k : class) : Prop := {
  rc_name : has_name d;
  rc_base : cl_base k = UNDEFINED \/ get_flag cf_is_struct (cl_flags k) = false /\ exists b, at_ (cl_base k) b /\ has_name b;
  rc_fields : Forall (fun i => exists d f, at_ i d /\ df_value d = DField f /\ readable_field d f) (cl_fields k);
  rc_functions : Forall (fun i => exists d f, at_ i d /\ df_value d = DFunction f /\ readable_function d f) (cl_functions k) }.
Record readable_enum (d : definition) (e : enum) : Prop := {
  re_name : has_name d;
  re_members : Forall (fun i => exists d z, at_ i d /\ df_value d = DEnumValue z /\ has_name d /\ - 2 ^ 31 <= z < 2 ^ 31) (en_members e) }.
Definition readable (d : definition) : Prop :=
  match df_value d with
  | DClass k => readable_class d k
  | DEnum e => readable_enum d e
  | DFunction f => readable_function d f
  | _ => False
  end.

(** The declarations of a pool are the classes, enums and functions that are in
    nothing else.  [selects P l ds]: [ds] are those of [l] with the property, in the
    same order. *)
Definition top_level (d : definition) : Prop :=
  df_parent d = UNDEFINED /\ match df_value d with DClass _ | DEnum _ | DFunction _ => True | _ => False end.
Inductive selects {A} (P : A -> Prop) : list A -> list A -> Prop :=
| selects_none : selects P [] []
| selects_this a l ds : P a -> selects P l ds -> selects P (a :: l) (a :: ds)
| selects_not a l ds : ~ P a -> selects P l ds -> selects P (a :: l) ds.

(** The printed text of the whole pool, given enough steps. *)
Definition prints (fl : float_text) (text : str) : Prop := exists n0, forall n, (n0 <= n)%nat -> dump fl v p n = (text, Done tt).
End Spec.
