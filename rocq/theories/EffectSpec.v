(** What declarations in scripts stand for in the resulting bundle. *)
From Coq Require Import String.
From Coq Require Import ZArith List Bool.
From Verif Require Import Bytes Bytecode Definitions Bundle Ast TypeNames Pool Scope TypeCheck Symbols SourceMap Desugar Diagnostics Printer Assembler PoolSpec TypeIndexSpec Wrappers WrapSpec
  Unit UnitSpec.
Import ListNotations.
Open Scope Z_scope.

(** The flags that are set in [fl] are those of [l] with [true]. *)
Definition flags_are (l : list (Z * bool)) (fl : Z) : Prop :=
  forall k, 0 <= k -> get_flag k fl = existsb (fun x => (fst x =? k) && snd x) l.

(** The warnings that leave everything as it is declared: about deprecated things,
    variables that are not used, missing returns, and a method that is added although
    the class has it. *)
Definition harmless (d : diagnostic) : Prop :=
  match d with Deprecated _ _ | UnusedLocal _ | MissingReturn _ | AddMethodConflict _ => True | _ => False end.

(** The scope in which the declarations of module [m] are read: the top-level
    symbols, then those of its own module, then its enabled imports. *)
Definition imported (ev : env) (mods : list module_path) (m : source_module) (st : ustate) : scope :=
  let bring s i v := fst (populate_import (ev_children ev) (us_symbols st) i s v) in
  let own := if is_nil (path_of m) then us_scope st else bring (us_scope st) (IAll (path_of m) span_zero) Private in
  fold_left (fun s i => match eval_conditions mods (snd i) with Done true => bring s (fst i) Public | _ => s end) (sm_imports m) own.
(** The unit after all modules have been gone through for the first time. *)
Definition declared (ev : env) (l : list source_module) (p : pool) : outcome error ustate :=
  let* st := unit_new ev p in
  match umap (declare_module false (module_names l)) l st with
  | (Done _, st') => Done st'
  | (Fail e, _) => Fail e
  end.

(** The declarations that are enabled. *)
Definition enabled_entries (mods : list module_path) (l : list source_entry) : list source_entry :=
  filter (fun e => match eval_conditions mods (dc_annotations (entry_decl e)) with Done true => true | _ => false end) l.

(** The pool [p1] is on the way to [q]. *)
Definition earlier (p1 q : pool) : Prop := forall i n, def_name p1 i = Done n -> def_name q i = Done n.
(** All declarations are in [p1], and only code is missing. *)
Definition same_but_code (d d' : definition) : Prop :=
  d' = d \/ exists x code locals, df_value d = DFunction x /\ d' = with_value d (DFunction (with_locals (with_code x code) locals)).
Definition ready (count : Z) (p1 q : pool) : Prop :=
  count <= size p1 /\ earlier p1 q /\ forall i d, def_at p1 i = Some d -> exists d', def_at q i = Some d' /\ same_but_code d d'.

Section Effect.
(** [p] is the bundle at the start, [q] at the end, [count] the number of its
    definitions when all modules have been gone through for the first time, and
    [syms] are the symbols of the scope of the module. *)
Variables (ev : env) (mods : list module_path) (p : pool) (count : Z) (syms : amap symbol) (q : pool).

(** [i] is a definition with the name of the type that [t] stands for (C40). *)
Definition type_is (t : typename) (i : pidx) : Prop :=
  exists s p1 ty n, sc_symbols s = syms /\ types_named s p1 /\ earlier p1 q /\
    resolve_type s p1 t = Done ty /\ ti_repr p1 ty = Done n /\ def_name q i = Done n.

Definition parameter_is (f : pidx) (src : parameter_source) (i : pidx) : Prop :=
  exists d t fl, def_at q i = Some d /\ def_name q i = Done (ps_name src) /\ df_parent d = f /\
    df_value d = DParameter {| pa_type := t; pa_flags := fl |} /\ type_is (ps_type src) t /\
    flags_are [(pf_is_optional, contain QOptional (ps_qualifiers src)); (pf_is_out, contain QOut (ps_qualifiers src));
               (pf_is_const, contain QConst (ps_qualifiers src))] fl.
(** The type a function returns: none if it is left out or Void. *)
Definition returns (o : option typename) (r : option pidx) : Prop :=
  match o, r with
  | None, None => True
  | Some t, None => t = tn_basic (lit "Void")
  | Some t, Some i => t <> tn_basic (lit "Void") /\ type_is t i
  | None, Some _ => False
  end.
(** What a function says except its code; [base] is the method it overrides. *)
Definition heading (f c : pidx) (v : visibility) (base : option pidx) (replaced : bool) (src : function_source) (d : definition) (x : function) : Prop :=
  let qs := dc_qualifiers (fs_decl src) in
  df_parent d = c /\ fu_visibility x = v /\
  returns (fs_type src) (fu_return_type x) /\ Forall2 (parameter_is f) (fs_parameters src) (fu_parameters x) /\
  flags_are [(fn_is_static, contain QStatic qs || (c =? UNDEFINED)); (fn_is_native, negb replaced && contain QNative qs);
             (fn_is_cast, str_eqb (dc_name (fs_decl src)) (lit "Cast")); (fn_is_exec, contain QExec qs); (fn_is_final, contain QFinal qs);
             (fn_is_callback, contain QCallback qs); (fn_is_const, contain QConst qs); (fn_is_quest, contain QQuest qs);
             (fn_has_return_value, is_some (fu_return_type x)); (fn_has_parameters, negb (is_nil (fs_parameters src)))] (fu_flags x) /\
  fu_base_method x = if contain QStatic qs || (c =? UNDEFINED) then None else base.
(** A function records the line its name is on, counted from zero. *)
Definition line_of (sp : span) (line : Z) : Prop :=
  match files_lookup (ev_files ev) sp with
  | Done (Some (_, start, _)) => line = wrap_u 32 (Z.of_nat (fst start))
  | Done None => line = 0
  | Fail _ => False
  end.
Definition written_at (src : function_source) (x : function) : Prop :=
  exists r, fu_source x = Some r /\ line_of (dc_span (fs_decl src)) (sr_line r).
(** The scope of a body: the names of the module; the parameters and nothing else as
    variables; `this` if the function is not static. *)
Definition scope_is (f c : pidx) (x : function) (s : scope) : Prop :=
  sc_symbols s = syms /\ sc_function s = Some f /\ sc_this s = (if get_flag fn_is_static (fu_flags x) then None else Some c) /\
  (forall n v, am_find (sc_references s) n = Some v -> exists i, v = VParam i /\ In i (fu_parameters x) /\ def_name q i = Done n) /\
  (forall i n, In i (fu_parameters x) -> def_name q i = Done n -> exists v, am_find (sc_references s) n = Some v).
(** The code of a function is that of its body: the body was checked in its scope with
    no complaint but harmless ones, desugared, the passes found no case that falls
    through and no temporary passed on, and it was assembled.
    The variables are those that checking and desugaring have made. *)
Definition body_is (f c : pidx) (src : function_source) (x : function) : Prop :=
  match fs_body src with
  | None => fu_code x = [] /\ fu_locals x = []
  | Some body => exists p1 s1 checked t simple made s2 p2 p3 s3 p4,
      ready count p1 q /\ ready count p3 q /\ scope_is f c x s1 /\
      check_seq (check (ev_fuel ev) false) body {| ts_pool := p1; ts_locals := []; ts_diags := []; ts_scope := s1 |} = Done (checked, t) /\ Forall harmless (ts_diags t) /\
      desugar checked (ts_scope t) (ts_pool t) = Done (simple, made, s2, p2) /\
      stmt_fallthrough simple = [] /\ invalid_temp_use simple = [] /\
      from_body (ev_files ev) simple s2 p3 = Done (fu_code x, s3, p4) /\ fu_locals x = ts_locals t ++ made
  end.
(** Function [f] of class [c] (or of none) is the one declared. *)
Definition function_is (f c : pidx) (v : visibility) (base : option pidx) (replaced : bool) (src : function_source) : Prop :=
  exists d x, def_at q f = Some d /\ df_value d = DFunction x /\ heading f c v base replaced src d x /\
    written_at src x /\ body_is f c src x.

(** The text that is stored for a default value. *)
Inductive default_text : sexpr -> str -> Prop :=
| dt_string k s sp : default_text (EConstant (N := source_ast) (CString k s) sp) s
| dt_true sp : default_text (EConstant (N := source_ast) (CBool true) sp) (lit "true")
| dt_false sp : default_text (EConstant (N := source_ast) (CBool false) sp) (lit "false")
| dt_i32 n sp : default_text (EConstant (N := source_ast) (CI32 n) sp) (show_int n)
| dt_i64 n sp : default_text (EConstant (N := source_ast) (CI64 n) sp) (show_int n)
| dt_u32 n sp : default_text (EConstant (N := source_ast) (CU32 n) sp) (show_int n)
| dt_u64 n sp : default_text (EConstant (N := source_ast) (CU64 n) sp) (show_int n)
| dt_f32 b sp : default_text (EConstant (N := source_ast) (CF32 b) sp) (ev_f32 ev b)
| dt_f64 b sp : default_text (EConstant (N := source_ast) (CF64 b) sp) (ev_f64 ev b)
| dt_enum e m sp1 sp2 : default_text (EMember (N := source_ast) (EIdent (N := source_ast) e sp1) m sp2) (e ++ lit "." ++ m)
| dt_null sp : default_text (ENull (N := source_ast) sp) (lit "null").
(** What a field says except its default value. *)
Definition field_heading (i c : pidx) (v : visibility) (src : field_source) (e : definition) (x : field) : Prop :=
  let d := fd_decl src in
  def_name q i = Done (dc_name d) /\ df_parent e = c /\
  fi_visibility x = v /\ type_is (fd_type src) (fi_type x) /\ fi_hint x = None /\
  flags_are [(ff_is_native, contain QNative (dc_qualifiers d)); (ff_is_persistent, contain QPersistent (dc_qualifiers d)); (ff_is_browsable, true)] (fi_flags x) /\
  Forall2 (fun a k => exists s1 s2, an_args a = [EConstant (N := source_ast) (CString LString (pp_name k)) s1; EConstant (CString LString (pp_value k)) s2])
    (filter is_property (dc_annotations d)) (fi_attributes x).
Definition field_is (i c : pidx) (v : visibility) (src : field_source) : Prop :=
  exists e x, def_at q i = Some e /\ df_value e = DField x /\ field_heading i c v src e x /\
    match fd_default src with
    | None => fi_defaults x = []
    | Some e => exists n text, def_name q c = Done n /\ default_text e text /\ fi_defaults x = [{| pp_name := n; pp_value := text |}]
    end.

(** The members of a class that are enabled. *)
Definition enabled_functions (l : list member_source) : list function_source :=
  flat_map (fun m => match m with
    | MemberFunction f => match eval_conditions mods (dc_annotations (fs_decl f)) with Done true => [f] | _ => [] end
    | MemberField _ => [] end) l.
Definition enabled_fields (l : list member_source) : list field_source :=
  flat_map (fun m => match m with
    | MemberField f => match eval_conditions mods (dc_annotations (fd_decl f)) with Done true => [f] | _ => [] end
    | MemberFunction _ => [] end) l.
(** Class [i] is the one declared, with functions and fields that are what [F] and
    [G] say; further fields may have been added to it. *)
Definition class_shape (F : function_source -> pidx -> Prop) (G : field_source -> pidx -> Prop)
  (i : pidx) (is_struct : bool) (v : visibility) (src : class_source) : Prop :=
  let qs := dc_qualifiers (cs_decl src) in
  exists d k fields more, def_at q i = Some d /\ df_parent d = UNDEFINED /\ df_value d = DClass k /\ cl_visibility k = v /\
    flags_are [(cf_is_struct, is_struct); (cf_is_import_only, contain QImportOnly qs); (cf_is_native, contain QImportOnly qs || contain QNative qs);
               (cf_is_final, contain QFinal qs); (cf_is_abstract, negb is_struct && contain QAbstract qs)] (cl_flags k) /\
    (if is_struct then cl_base k = UNDEFINED
     else match cs_base src with
          | Some b => exists w, am_find syms b = Some (SClass (cl_base k) w)
          | None => (exists w, am_find syms (lit "IScriptable") = Some (SClass (cl_base k) w)) \/
                    cl_base k = UNDEFINED /\ forall c w, am_find syms (lit "IScriptable") <> Some (SClass c w)
          end) /\
    Forall2 F (enabled_functions (cs_members src)) (cl_functions k) /\
    cl_fields k = fields ++ more /\ Forall2 G (enabled_fields (cs_members src)) fields /\ cl_overrides k = [].
(** The members of a class have the visibility of the class. *)
Definition class_is (i : pidx) (is_struct : bool) (v : visibility) (src : class_source) : Prop :=
  class_shape (fun f j => function_is j i v None false f /\ def_name q j = Done (source_signature f)) (fun f j => field_is j i v f) i is_struct v src.
Definition enum_is (i : pidx) (src : enum_source) : Prop :=
  exists d e, def_at q i = Some d /\ df_parent d = UNDEFINED /\ df_value d = DEnum e /\ en_size e = 4 /\
    Forall2 (fun m j => exists c, def_at q j = Some c /\ def_name q j = Done (fst m) /\ df_parent c = i /\ df_value c = DEnumValue (snd m)) (es_members src) (en_members e).

(** The method of class [c] of the bundle, as it was or as it is added, that a new
    method with signature [sig] overrides: one of the base class. *)
Definition overrides (c : pidx) (sig : str) (base : option pidx) : Prop :=
  exists k, get_class p c = Done k /\
    match base with
    | Some f => exists b, get_class q (cl_base k) = Done b /\ In f (cl_functions b) /\ def_name q f = Done sig
    | None => cl_base k = UNDEFINED \/ forall f b, get_class p (cl_base k) = Done b -> In f (cl_functions b) -> def_name p f <> Done sig
    end.

(** A declaration in the module [path] is there. *)
Definition takes_effect (path : module_path) (e : source_entry) : Prop :=
  match e with
  | EntryClass is_struct src =>
    exists i, def_name q i = Done (path_render (with_child path (dc_name (cs_decl src)))) /\
      class_is i is_struct (visibility_of (dc_qualifiers (cs_decl src))) src
  | EntryEnum src => exists i, def_name q i = Done (path_render (with_child path (dc_name (es_decl src)))) /\ enum_is i src
  | EntryLet src =>
    exists a n c w i k, In a (dc_annotations (fd_decl src)) /\ an_kind a = AAddField /\ ann_ident a = Done n /\
      am_find syms n = Some (SClass c w) /\ get_class q c = Done k /\ In i (cl_fields k) /\
      field_is i c (visibility_of (dc_qualifiers (fd_decl src))) src
  | EntryFunction src =>
    let v := visibility_of (dc_qualifiers (fs_decl src)) in
    let sig := source_signature src in
    match find places (dc_annotations (fs_decl src)) with
    | None => exists f, def_name q f = Done (path_render (with_child path sig)) /\ function_is f UNDEFINED v None false src
    | Some a =>
      match an_kind a with
      | AReplaceGlobal => exists f, def_name q f = Done sig /\ global p f /\ function_is f UNDEFINED v None true src
      | AReplaceMethod =>
        exists n c f x, ann_ident a = Done n /\ goes_by p c n /\ member p c f /\ def_name q f = Done sig /\
          get_function p f = Done x /\ function_is f c v (fu_base_method x) true src
      | AAddMethod =>
        exists n c f base, ann_ident a = Done n /\ goes_by p c n /\ member q c f /\ def_name q f = Done sig /\
          overrides c sig base /\ function_is f c v base false src
      | _ => False
      end
    end
  end.
End Effect.
