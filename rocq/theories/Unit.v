(** The compilation of source modules: from parsed declarations to the finished
    pool.

    Models compiler/src/unit.rs 31-1130 and 1212-1313 (CompilationUnit) and the
    declarations of compiler/src/parser.rs 13-132.  Parsing (unit.rs 141-151) is
    not part of it.

    A function of the unit takes a state and gives its result and the state it
    leaves, also if it fails: the unit goes on after most errors.  Two things are
    simplified.  When a name cannot be given a type (Scope::get_type_index) and
    when checking or desugaring a function body fails, the state is left as it was
    before that call; the code may have added names, types and locals to the pool.
    All these failures make the compilation fail (Diagnostic::is_fatal) or unwind. *)
From Coq Require Import String.
From Coq Require Import ZArith List Bool.
From Verif Require Import Bytes Bytecode Definitions Bundle Ast TypeNames Pool Scope TypeCheck Symbols SourceMap Cursor Assembler
  Desugar Diagnostics Report Printer Wrappers.
From Verif Require Cleanup.
Import ListNotations.
Open Scope Z_scope.

(** ** Declarations *)

(** enum Qualifier, struct Qualifiers (parser.rs 83-121). *)
Inductive qualifier :=
| QPublic | QProtected | QPrivate | QAbstract | QStatic | QFinal | QConst | QNative | QExec | QCallback
| QOut | QOptional | QQuest | QImportOnly | QPersistent.
Definition qualifier_eqb (a b : qualifier) : bool :=
  match a, b with
  | QPublic, QPublic | QProtected, QProtected | QPrivate, QPrivate | QAbstract, QAbstract | QStatic, QStatic
  | QFinal, QFinal | QConst, QConst | QNative, QNative | QExec, QExec | QCallback, QCallback | QOut, QOut
  | QOptional, QOptional | QQuest, QQuest | QImportOnly, QImportOnly | QPersistent, QPersistent => true
  | _, _ => false
  end.
Definition contain (q : qualifier) (qs : list qualifier) : bool := existsb (qualifier_eqb q) qs.
Fixpoint qs_visibility (qs : list qualifier) : option visibility :=
  match qs with
  | [] => None
  | QPublic :: _ => Some Public | QProtected :: _ => Some Protected | QPrivate :: _ => Some Private
  | _ :: qs' => qs_visibility qs'
  end.
(** .visibility().unwrap_or(Visibility::Private) *)
Definition visibility_of (qs : list qualifier) : visibility :=
  match qs_visibility qs with Some v => v | None => Private end.
(** struct Declaration (parser.rs 124-131). *)
Record declaration := Decl { dc_annotations : list annotation; dc_qualifiers : list qualifier; dc_name : str; dc_span : span }.
(** struct ParameterSource, FunctionSource, FieldSource, enum MemberSource, struct
    ClassSource, EnumMember, EnumSource (parser.rs 40-82). *)
Record parameter_source := ParamSource { ps_qualifiers : list qualifier; ps_name : str; ps_type : typename }.
Record function_source := FunctionSource { fs_decl : declaration; fs_type : option typename; fs_parameters : list parameter_source;
                                           fs_body : option (list sexpr); fs_span : span }.
Record field_source := FieldSource { fd_decl : declaration; fd_type : typename; fd_default : option sexpr }.
Inductive member_source := MemberFunction (f : function_source) | MemberField (f : field_source).
Record class_source := ClassSource { cs_decl : declaration; cs_base : option str; cs_members : list member_source; cs_span : span }.
Record enum_source := EnumSource { es_decl : declaration; es_members : list (str * Z); es_span : span }.
(** enum SourceEntry (parser.rs 20-39), SourceEntry::annotations. *)
Inductive source_entry :=
| EntryClass (is_struct : bool) (c : class_source)
| EntryFunction (f : function_source)
| EntryLet (f : field_source)
| EntryEnum (e : enum_source).
Definition entry_decl (e : source_entry) : declaration :=
  match e with
  | EntryClass _ c => cs_decl c | EntryFunction f => fs_decl f | EntryLet f => fd_decl f | EntryEnum e => es_decl e
  end.
(** struct SourceModule (parser.rs 13-18); imports come with their annotations
    (symbol.rs 145-157). *)
Record source_module := SourceModule { sm_path : option module_path; sm_imports : list (import * list annotation);
                                       sm_entries : list source_entry }.

(** FunctionSignature::from_source (symbol.rs 222-245) on a FunctionSource. *)
Definition source_signature (f : function_source) : str :=
  let qs := dc_qualifiers (fs_decl f) in
  signature {| ss_name := dc_name (fs_decl f); ss_callback := contain QCallback qs; ss_exec := contain QExec qs;
               ss_native := contain QNative qs;
               ss_params := map (fun x => (ps_type x, contain QOut (ps_qualifiers x))) (fs_parameters f);
               ss_return := fs_type f |}.

(** ** State *)

(** struct FunctionBody, struct FieldDefault (unit.rs 1229-1247). *)
Record function_body := FunctionBody { fb_class : pidx; fb_index : pidx; fb_wrapped : option pidx; fb_code : list sexpr;
                                       fb_scope : scope; fb_was_callback : bool; fb_span : span }.
Record field_default := FieldDefault { ft_class : pidx; ft_index : pidx; ft_value : sexpr; ft_scope : scope }.
(** struct CompiledFunction (unit.rs 1249-1256). *)
Record compiled_function := CompiledFunction { cf_index : pidx; cf_code : list texpr; cf_locals : list pidx; cf_scope : scope;
                                               cf_span : span }.
(** struct CompilationUnit (unit.rs 31-44), with the scope of the module at hand.
    The diagnostic passes are the default ones (unit.rs 48-53). *)
Record ustate := UState {
  us_pool : pool; us_symbols : symbol_map; us_scope : scope; us_module : scope;
  us_bodies : list function_body; us_defaults : list field_default; us_wrappers : pmap; us_proxies : pmap;
  us_refs : list (pidx * Z); us_diags : list diagnostic; us_files : amap pidx }.
Definition set_pool p st := UState p (us_symbols st) (us_scope st) (us_module st) (us_bodies st) (us_defaults st) (us_wrappers st) (us_proxies st) (us_refs st) (us_diags st) (us_files st).
Definition set_table m st := UState (us_pool st) m (us_scope st) (us_module st) (us_bodies st) (us_defaults st) (us_wrappers st) (us_proxies st) (us_refs st) (us_diags st) (us_files st).
Definition set_root s st := UState (us_pool st) (us_symbols st) s (us_module st) (us_bodies st) (us_defaults st) (us_wrappers st) (us_proxies st) (us_refs st) (us_diags st) (us_files st).
Definition set_module s st := UState (us_pool st) (us_symbols st) (us_scope st) s (us_bodies st) (us_defaults st) (us_wrappers st) (us_proxies st) (us_refs st) (us_diags st) (us_files st).
Definition set_bodies l st := UState (us_pool st) (us_symbols st) (us_scope st) (us_module st) l (us_defaults st) (us_wrappers st) (us_proxies st) (us_refs st) (us_diags st) (us_files st).
Definition set_defaults l st := UState (us_pool st) (us_symbols st) (us_scope st) (us_module st) (us_bodies st) l (us_wrappers st) (us_proxies st) (us_refs st) (us_diags st) (us_files st).
Definition set_wraps w q st := UState (us_pool st) (us_symbols st) (us_scope st) (us_module st) (us_bodies st) (us_defaults st) w q (us_refs st) (us_diags st) (us_files st).
Definition set_refs l st := UState (us_pool st) (us_symbols st) (us_scope st) (us_module st) (us_bodies st) (us_defaults st) (us_wrappers st) (us_proxies st) l (us_diags st) (us_files st).
Definition set_diags l st := UState (us_pool st) (us_symbols st) (us_scope st) (us_module st) (us_bodies st) (us_defaults st) (us_wrappers st) (us_proxies st) (us_refs st) l (us_files st).
Definition set_files l st := UState (us_pool st) (us_symbols st) (us_scope st) (us_module st) (us_bodies st) (us_defaults st) (us_wrappers st) (us_proxies st) (us_refs st) (us_diags st) l.

(** What the code takes from outside: the source files, a bound on recursion, the
    orders in which hash maps are walked, and the texts of floating-point numbers. *)
Record env := Env { ev_files : list file; ev_fuel : nat; ev_children : list (str * symbol) -> list (str * symbol);
                    ev_wrappers : pmap -> pmap; ev_proxies : pmap -> pmap; ev_locals : list pidx -> list pidx;
                    ev_f32 : Z -> str; ev_f64 : Z -> str }.

(** Steps of the unit. *)
Definition U (A : Type) := ustate -> outcome error A * ustate.
Definition uret {A} (a : A) : U A := fun st => (Done a, st).
Definition ufail {A} (e : error) : U A := fun st => (Fail e, st).
Definition ubind {A B} (m : U A) (k : A -> U B) : U B :=
  fun st => match m st with (Done a, st') => k a st' | (Fail e, st') => (Fail e, st') end.
Notation "'do' x <- m ; k" := (ubind m (fun x => k)) (at level 200, x pattern, m at level 100, k at level 200, right associativity).
Definition ulift {A} (m : outcome error A) : U A := fun st => (m, st).
Definition ufailc {A} (sp : span) (c : cause) : U A := ulift (failc sp c).
(** Reading the state. *)
Definition uread {A} (f : ustate -> outcome error A) : U A := fun st => (f st, st).
Definition uget {A} (f : ustate -> A) : U A := fun st => (Done (f st), st).
Definition uput (f : ustate -> ustate) : U unit := fun st => (Done tt, f st).
(** A change of the pool. *)
Definition on_pool {A} (f : pool -> outcome error (A * pool)) : U A :=
  fun st => match f (us_pool st) with Done (a, p) => (Done a, set_pool p st) | Fail e => (Fail e, st) end.
Definition change_pool (f : pool -> outcome error pool) : U unit := on_pool (fun p => let* p' := f p in Done (tt, p')).
Definition name_index (n : str) : U pidx := on_pool (fun p => let '(p', i) := add_name p n in Done (i, p')).
Definition new_definition (d : definition) : U pidx := on_pool (fun p => let '(p', i) := add_definition p d in Done (i, p')).
(** names.add followed by stub_definition. *)
Definition new_stub (n : str) : U pidx := do i <- name_index n; new_definition (stub i).
Definition umap {A B} (f : A -> U B) : list A -> U (list B) :=
  fix go l := match l with [] => uret [] | x :: l' => do y <- f x; do ys <- go l'; uret (y :: ys) end.
Definition ueach {A} (f : A -> U unit) : list A -> U unit :=
  fix go l := match l with [] => uret tt | x :: l' => do _ <- f x; go l' end.

Definition push_diagnostic (d : diagnostic) : U unit := uput (fun st => set_diags (us_diags st ++ [d]) st).
(** CompilationUnit::report (unit.rs 1223-1226). *)
Definition ureport (e : error) : U unit := do d <- ulift (diag_from_error e); push_diagnostic d.
(** A step whose error is reported (unit.rs 175-178, 193-199, 258-260). *)
Definition reported (m : U unit) : U unit :=
  fun st => match m st with (Fail e, st') => ureport e st' | r => r end.
Definition push_ref (i : pidx) (pos : Z) : U unit := uput (fun st => set_refs (us_refs st ++ [(i, pos)]) st).

(** ** Declaring symbols *)

(** enum Slot (unit.rs 1258-1289). *)
Inductive slot :=
| SlotFunction (index parent : pidx) (base wrapped : option pidx) (is_replacement : bool) (source : function_source) (v : visibility)
| SlotClass (is_struct : bool) (index : pidx) (source : class_source) (v : visibility)
| SlotField (index : pidx) (source : field_source) (v : visibility)
| SlotEnum (index : pidx) (source : enum_source).

(** ann.args.first().and_then(Expr::as_ident) (unit.rs 790-794). *)
Definition ann_ident (a : annotation) : outcome error str :=
  match an_args a with EIdent n _ :: _ => Done n | _ => failc (an_span a) InvalidAnnotationArgs end.
(** The class an annotation names (unit.rs 796-799, 849-852, 905-908). *)
Definition ann_class (a : annotation) (st : ustate) : outcome error pidx :=
  let* n := ann_ident a in
  let* s := with_span (an_span a) (resolve_symbol (us_scope st) n) in
  match s with SClass i _ | SStruct i _ => Done i | _ => failc (an_span a) (ClassNotFound n) end.
(** The method an annotation is about (unit.rs 800-813, 853-868). *)
Definition ann_method (a : annotation) (name sig : str) (c : pidx) (p : pool) : outcome error pidx :=
  match resolve_direct_method p name c with
  | Fail _ => failc (an_span a) NoMethodWithMatchingName
  | Done candidates => match by_id candidates sig p with Some f => Done f | None => failc (an_span a) NoMethodWithMatchingSignature end
  end.
(** pool.function(fun_idx).ok().and_then(|fun| fun.base_method) *)
Definition base_method_of (p : pool) (f : pidx) : option pidx :=
  match get_function p f with Done x => fu_base_method x | Fail _ => None end.
(** The search for the overridden method (unit.rs 922-924); a missing name is a
    failing unwrap. *)
Fixpoint find_signature (p : pool) (sig : str) (fs : list pidx) : outcome error (option pidx) :=
  match fs with
  | [] => Done None
  | f :: fs' =>
    match def_name p f with
    | Done n => if str_eqb n sig then Done (Some f) else find_signature p sig fs'
    | Fail _ => Fail (ErrUnwind Panicked)
    end
  end.
(** unit.rs 919-928. *)
Definition overridden (p : pool) (c : pidx) (sig : str) : outcome error (option pidx) :=
  let* k := pe (get_class p c) in
  if cl_base k =? UNDEFINED then Done None
  else let* b := pe (get_class p (cl_base k)) in find_signature p sig (cl_functions b).
(** The kinds of annotation that say where a function goes (unit.rs 783-940). *)
Definition places (a : annotation) : bool :=
  match an_kind a with AWrapMethod | AReplaceMethod | AReplaceGlobal | AAddMethod => true | _ => false end.
(** CompilationUnit::determine_function_location (unit.rs 774-975).  The branch of
    @wrapMethod after the class is known is [register] (Wrappers.v). *)
Definition place_annotated (src : function_source) (sig : str) (a : annotation) : U slot :=
  let name := dc_name (fs_decl src) in
  let v := visibility_of (dc_qualifiers (fs_decl src)) in
  match an_kind a with
  | AWrapMethod =>
    if contain QNative (dc_qualifiers (fs_decl src)) then ufailc (an_span a) (UnsupportedFeature (lit "wrapping natives"))
    else
      do c <- uread (ann_class a);
      do p <- uget us_pool;
      do x <- uread (fun st => register c name sig (an_span a) (WrapState (us_pool st) (us_wrappers st) (us_proxies st)));
      let '(w, ws) := x in
      do _ <- uput (fun st => set_pool (ws_pool ws) (set_wraps (ws_wrappers ws) (ws_proxies ws) st));
      uret (SlotFunction (wr_index w) c (base_method_of p (wr_fun w)) (Some (wr_wrapped w)) true src v)
  | AReplaceMethod =>
    do c <- uread (ann_class a);
    do f <- uread (fun st => ann_method a name sig c (us_pool st));
    do p <- uget us_pool;
    uret (SlotFunction f c (base_method_of p f) None true src v)
  | AReplaceGlobal =>
    do fs <- uread (fun st => with_span (an_span a) (resolve_function (us_scope st) name));
    do f <- uread (fun st => match by_id fs sig (us_pool st) with
                             | Some f => Done f
                             | None => failc (an_span a) (FunctionNotFound name)
                             end);
    uret (SlotFunction f UNDEFINED None None true src v)
  | _ =>
    do c <- uread (ann_class a);
    do clash <- uget (fun st => match resolve_direct_method (us_pool st) name c with
                                | Done fs => is_some (by_id fs sig (us_pool st))
                                | Fail _ => false
                                end);
    do _ <- (if clash then push_diagnostic (AddMethodConflict (an_span a)) else uret tt);
    do base <- uread (fun st => overridden (us_pool st) c sig);
    do f <- new_stub sig;
    do _ <- change_pool (fun p => push_member p c f);
    uret (SlotFunction f c base None false src v)
  end.
Definition place_function (src : function_source) (m : module_path) : U slot :=
  let sig := source_signature src in
  match find places (dc_annotations (fs_decl src)) with
  | Some a => place_annotated src sig a
  | None =>
    let name := dc_name (fs_decl src) in
    let v := visibility_of (dc_qualifiers (fs_decl src)) in
    do f <- new_stub (path_render (with_child m sig));
    do _ <- uput (fun st => set_table (sy_add_function (us_symbols st) (with_child m name) f v) st);
    do _ <- (if is_nil m then uput (fun st => set_root (sc_add_symbol (us_scope st) name (SFunctions [(f, v)])) st) else uret tt);
    uret (SlotFunction f UNDEFINED None None false src v)
  end.
(** CompilationUnit::define_symbol (unit.rs 333-431). *)
Definition define_symbol (permissive : bool) (e : source_entry) (m : module_path) : U slot :=
  match e with
  | EntryClass is_struct src =>
    let name := dc_name (cs_decl src) in
    let path := with_child m name in
    let v := visibility_of (dc_qualifiers (cs_decl src)) in
    do known <- uget (fun st => match sy_get (us_symbols st) path with Some (SClass _ _ | SStruct _ _) => true | _ => false end);
    do _ <- (if known && negb permissive then ufailc (cs_span src) SymbolRedefinition else uret tt);
    do i <- new_stub (path_render path);
    let s := if is_struct then SStruct i v else SClass i v in
    do _ <- uput (fun st => set_table (if is_struct then sy_add_struct (us_symbols st) path i v else sy_add_class (us_symbols st) path i v) st);
    do _ <- (if is_nil m then uput (fun st => set_root (sc_add_symbol (us_scope st) name s) st) else uret tt);
    uret (SlotClass is_struct i src v)
  | EntryFunction src => place_function src m
  | EntryLet src =>
    do i <- new_stub (dc_name (fd_decl src));
    uret (SlotField i src (visibility_of (dc_qualifiers (fd_decl src))))
  | EntryEnum src =>
    let name := dc_name (es_decl src) in
    let path := with_child m name in
    do i <- new_stub (path_render path);
    do _ <- uput (fun st => set_table (sy_add_enum (us_symbols st) path i) st);
    do _ <- (if is_nil m then uput (fun st => set_root (sc_add_symbol (us_scope st) name (SEnum i)) st) else uret tt);
    uret (SlotEnum i src)
  end.

(** ** Defining them *)

(** CompilationUnit::try_resolve_type (unit.rs 1212-1221). *)
Definition try_resolve_type (n : typename) (sp : span) : U typeid :=
  fun st =>
    match with_span sp (resolve_type (us_module st) (us_pool st) n) with
    | Done t => (Done t, st)
    | Fail e => (do _ <- ureport e; uret TINull) st
    end.
(** scope.get_type_index on the scope of the module. *)
Definition type_index (t : typeid) (sp : span) : U pidx :=
  fun st =>
    match with_span sp (get_type_index t (us_module st) (us_pool st)) with
    | Done (i, s, p) => (Done i, set_pool p (set_module s st))
    | Fail e => (Fail e, st)
    end.
Definition declared_type (n : typename) (sp : span) : U pidx := do t <- try_resolve_type n sp; type_index t sp.
(** type_ == TypeName::VOID (ast.rs 392-415). *)
Definition is_void (t : typename) : bool := match t with TypeName n None => str_eqb n (lit "Void") | _ => false end.

(** CompilationUnit::define_source_ref (unit.rs 756-772). *)
Definition define_source_ref (path : str) (line : nat) : U source_ref :=
  do known <- uget (fun st => am_find (us_files st) path);
  do file <- match known with
             | Some i => uret i
             | None =>
               do count <- uget (fun st => Z.of_nat (length (us_files st)));
               do i <- new_definition {| df_name := 0; df_parent := 0; df_unk1 := 0; df_unk2 := 0; df_unk3 := 0;
                          df_value := DSourceFile {| sf_id := wrap_u 32 count; sf_path_hash := 0; sf_path := path |} |};
               do _ <- uput (fun st => set_files (am_insert path i (us_files st)) st);
               uret i
             end;
  uret {| sr_file := file; sr_line := wrap_u 32 (Z.of_nat line) |}.
(** files.lookup(span).map(define_source_ref).unwrap_or_default() (unit.rs 229-230,
    479-480; definition.rs 780-787). *)
Definition source_ref_of (ev : env) (sp : span) : U source_ref :=
  do loc <- ulift (map_err ErrUnwind (files_lookup (ev_files ev) sp));
  match loc with
  | Some (f, start, _) => define_source_ref (f_path f) (fst start)
  | None => uret {| sr_file := 1; sr_line := 0 |}
  end.

(** struct FunctionSpec (unit.rs 1291-1302). *)
Record function_spec := FunctionSpec { sp_fun : pidx; sp_class : pidx; sp_class_flags : option Z; sp_base : option pidx;
                                       sp_ref : source_ref; sp_wrapped : option pidx; sp_replacement : bool;
                                       sp_visibility : visibility; sp_source : function_source }.
(** Definition::param, Definition::field, Definition::class, Definition::enum_,
    Definition::enum_value (definition.rs 92-126). *)
Definition plain_definition (n parent : pidx) (v : any_def) : definition :=
  {| df_name := n; df_parent := parent; df_unk1 := 0; df_unk2 := 0; df_unk3 := 0; df_value := v |}.
(** The flags of a parameter (unit.rs 572-575). *)
Definition parameter_flags (qs : list qualifier) : Z :=
  with_flag pf_is_const (contain QConst qs) (with_flag pf_is_out (contain QOut qs) (with_flag pf_is_optional (contain QOptional qs) 0)).
(** One parameter (unit.rs 569-582). *)
Definition define_parameter (f : pidx) (sp : span) (x : parameter_source) : U pidx :=
  do t <- declared_type (ps_type x) sp;
  do n <- name_index (ps_name x);
  new_definition (plain_definition n f (DParameter {| pa_type := t; pa_flags := parameter_flags (ps_qualifiers x) |})).
(** The flags of a function (unit.rs 584-594). *)
Definition function_flags (d : declaration) (is_static is_native is_callback has_return has_params : bool) : Z :=
  let qs := dc_qualifiers d in
  with_flag fn_has_parameters has_params (with_flag fn_has_return_value has_return
    (with_flag fn_is_quest (contain QQuest qs) (with_flag fn_is_const (contain QConst qs)
      (with_flag fn_is_callback is_callback (with_flag fn_is_final (contain QFinal qs)
        (with_flag fn_is_exec (contain QExec qs) (with_flag fn_is_cast (str_eqb (dc_name d) (lit "Cast"))
          (with_flag fn_is_native is_native (with_flag fn_is_static is_static 0))))))))).
(** The complaints about natives and bodies (unit.rs 544-552). *)
Definition check_native (x : function_spec) (is_native : bool) : U unit :=
  let sp := dc_span (fs_decl (sp_source x)) in
  let has_body := is_some (fs_body (sp_source x)) in
  let class_native := match sp_class_flags x with Some f => get_flag cf_is_native f | None => true end in
  let class_abstract := match sp_class_flags x with Some f => get_flag cf_is_abstract f | None => false end in
  do _ <- (if is_native && negb class_native then ureport (CompileError UnexpectedNative sp) else uret tt);
  do _ <- (if negb is_native && negb class_abstract && negb has_body then ureport (CompileError MissingBody sp) else uret tt);
  if is_native && has_body then ureport (CompileError UnexpectedBody sp) else uret tt.
(** CompilationUnit::define_function (unit.rs 538-637). *)
Definition define_function (x : function_spec) : U unit :=
  let d := fs_decl (sp_source x) in
  let is_native := negb (sp_replacement x) && contain QNative (dc_qualifiers d) in
  let is_static := contain QStatic (dc_qualifiers d) || (sp_class x =? UNDEFINED) in
  let is_callback := contain QCallback (dc_qualifiers d) in
  do _ <- check_native x is_native;
  do ret <- match fs_type (sp_source x) with
            | None => uret None
            | Some t => if is_void t then uret None else do i <- declared_type t (dc_span d); uret (Some i)
            end;
  do params <- umap (define_parameter (sp_fun x) (dc_span d)) (fs_parameters (sp_source x));
  let flags := function_flags d is_static is_native (is_callback && negb (is_some (sp_wrapped x))) (is_some ret) (negb (is_nil params)) in
  let f := {| fu_visibility := sp_visibility x; fu_flags := flags; fu_source := Some (sp_ref x); fu_return_type := ret; fu_unk1 := false;
              fu_base_method := if get_flag fn_is_static flags then None else sp_base x; fu_parameters := params; fu_locals := [];
              fu_operator := None; fu_cast := 0; fu_code := []; fu_unk2 := [] |} in
  do def <- uread (fun st => pe (get_def (us_pool st) (sp_fun x)));
  do _ <- match fs_body (sp_source x) with
      | Some body => uput (fun st => set_bodies (us_bodies st ++
          [FunctionBody (sp_class x) (sp_fun x) (sp_wrapped x) body (us_module st) is_callback (fs_span (sp_source x))]) st)
      | None => uret tt
      end;
  do _ <- change_pool (fun p => put_def p (sp_fun x) (function_definition (df_name def) (sp_class x) f));
  push_ref (sp_fun x) (sp_low (fs_span (sp_source x))).

(** can_be_persistent (unit.rs 656-663). *)
Fixpoint can_be_persistent (t : typename) : bool :=
  match t with
  | TypeName n args =>
    if match args with None => existsb (str_eqb n) [lit "String"; lit "Variant"; lit "ResRef"] | Some _ => false end then false
    else match args with None => true | Some l => forallb can_be_persistent l end
  end.
(** The attributes of a field (unit.rs 676-685). *)
Definition attribute_of (a : annotation) : outcome error property :=
  match an_args a with
  | [EConstant (CString LString k) _; EConstant (CString LString v) _] => Done {| pp_name := k; pp_value := v |}
  | _ => failc (an_span a) InvalidAnnotationArgs
  end.
Definition is_property (a : annotation) : bool := match an_kind a with ARuntimeProperty => true | _ => false end.
(** CompilationUnit::define_field (unit.rs 639-711). *)
Definition define_field (i c : pidx) (class_flags : Z) (v : visibility) (src : field_source) : U unit :=
  let d := fd_decl src in
  let is_native := contain QNative (dc_qualifiers d) in
  let is_persistent := contain QPersistent (dc_qualifiers d) in
  do _ <- (if is_native && negb (get_flag cf_is_native class_flags) then ureport (CompileError UnexpectedNative (dc_span d)) else uret tt);
  do _ <- (if is_persistent && negb (can_be_persistent (fd_type src))
       then ureport (CompileError (UnsupportedPersistent (pretty (fd_type src))) (dc_span d)) else uret tt);
  do t <- declared_type (fd_type src) (dc_span d);
  let flags := with_flag ff_is_persistent is_persistent (with_flag ff_is_native is_native (with_flag ff_is_browsable true 0)) in
  do attributes <- ulift (mapM attribute_of (filter is_property (dc_annotations d)));
  let f := {| fi_visibility := v; fi_type := t; fi_flags := flags; fi_hint := None; fi_attributes := attributes; fi_defaults := [] |} in
  do def <- uread (fun st => pe (get_def (us_pool st) i));
  do _ <- match fd_default src with
      | Some e => uput (fun st => set_defaults (us_defaults st ++ [FieldDefault c i e (us_module st)]) st)
      | None => uret tt
      end;
  do _ <- change_pool (fun p => put_def p i (plain_definition (df_name def) c (DField f)));
  push_ref i (sp_low (dc_span d)).

(** The flags of a class (unit.rs 444-455). *)
Definition class_flags_of (is_struct : bool) (qs : list qualifier) : Z :=
  let import_only := contain QImportOnly qs in
  with_flag cf_is_struct is_struct (with_flag cf_is_import_only import_only
    (with_flag cf_is_native (import_only || contain QNative qs) (with_flag cf_is_final (contain QFinal qs)
      (with_flag cf_is_abstract (negb is_struct && contain QAbstract qs) 0)))).
(** A member of a class (unit.rs 459-510): nothing if its conditions do not hold. *)
Definition define_member (ev : env) (mods : list module_path) (is_struct : bool) (c : pidx) (flags : Z) (v : visibility)
  (m : member_source) : U (option (pidx + pidx)) :=
  match m with
  | MemberFunction src =>
    do here <- ulift (eval_conditions mods (dc_annotations (fs_decl src)));
    if here then
      do _ <- (if is_struct && negb (contain QStatic (dc_qualifiers (fs_decl src)))
           then ureport (CompileError (UnsupportedFeature (lit "defining non-static struct methods")) (dc_span (fs_decl src))) else uret tt);
      do f <- new_stub (source_signature src);
      do r <- source_ref_of ev (dc_span (fs_decl src));
      do _ <- define_function (FunctionSpec f c (Some flags) None r None false v src);
      uret (Some (inl f))
    else uret None
  | MemberField src =>
    do here <- ulift (eval_conditions mods (dc_annotations (fd_decl src)));
    if here then
      do i <- new_stub (dc_name (fd_decl src));
      do _ <- define_field i c flags v src;
      uret (Some (inr i))
    else uret None
  end.
Definition functions_of (l : list (option (pidx + pidx))) : list pidx :=
  flat_map (fun x => match x with Some (inl i) => [i] | _ => [] end) l.
Definition fields_of (l : list (option (pidx + pidx))) : list pidx :=
  flat_map (fun x => match x with Some (inr i) => [i] | _ => [] end) l.
(** The base class (unit.rs 512-529); the warning of the log is left out. *)
Definition base_class (is_struct : bool) (src : class_source) : U pidx :=
  if is_struct then uret UNDEFINED
  else match cs_base src with
  | Some b =>
    do s <- uget (fun st => resolve_symbol (us_module st) b);
    match s with
    | Done (SClass i _) => uret i
    | _ => do _ <- ureport (CompileError (ClassNotFound b) (cs_span src)); uret UNDEFINED
    end
  | None =>
    do s <- uget (fun st => resolve_symbol (us_module st) (lit "IScriptable"));
    match s with Done (SClass i _) => uret i | _ => uret UNDEFINED end
  end.
(** CompilationUnit::define_class (unit.rs 433-536). *)
Definition define_class (ev : env) (mods : list module_path) (is_struct : bool) (c : pidx) (v : visibility) (src : class_source) : U unit :=
  let flags := class_flags_of is_struct (dc_qualifiers (cs_decl src)) in
  do members <- umap (define_member ev mods is_struct c flags v) (cs_members src);
  do base <- base_class is_struct src;
  do def <- uread (fun st => pe (get_def (us_pool st) c));
  do _ <- change_pool (fun p => put_def p c (plain_definition (df_name def) UNDEFINED (DClass
        {| cl_visibility := v; cl_flags := flags; cl_base := base; cl_functions := functions_of members;
           cl_fields := fields_of members; cl_overrides := [] |})));
  push_ref c (sp_low (cs_span src)).

(** CompilationUnit::define_enum (unit.rs 713-733). *)
Definition define_enum (i : pidx) (src : enum_source) : U unit :=
  do members <- umap (fun m => do n <- name_index (fst m); new_definition (plain_definition n i (DEnumValue (snd m)))) (es_members src);
  do def <- uread (fun st => pe (get_def (us_pool st) i));
  do _ <- change_pool (fun p => put_def p i (plain_definition (df_name def) UNDEFINED (DEnum
        {| en_flags := 0; en_size := 4; en_members := members; en_unk1 := false |})));
  push_ref i (sp_low (es_span src)).

(** pool.class_mut(c)?.fields.push(i) (unit.rs 749). *)
Definition with_fields (k : class) (fs : list pidx) : class :=
  {| cl_visibility := cl_visibility k; cl_flags := cl_flags k; cl_base := cl_base k; cl_functions := cl_functions k;
     cl_fields := fs; cl_overrides := cl_overrides k |}.
Definition push_field (p : pool) (c i : pidx) : outcome error pool :=
  let* k := pe (get_class p c) in
  let* d := pe (get_def p c) in
  put_def p c (with_value d (DClass (with_fields k (cl_fields k ++ [i])))).
Definition is_add_field (a : annotation) : bool := match an_kind a with AAddField => true | _ => false end.
(** CompilationUnit::define_global_let (unit.rs 735-754). *)
Definition define_global_let (i : pidx) (v : visibility) (src : field_source) : U unit :=
  match find is_add_field (dc_annotations (fd_decl src)) with
  | None => ufailc (dc_span (fd_decl src)) (UnsupportedFeature (lit "global let binding"))
  | Some a =>
    do n <- ulift (ann_ident a);
    do s <- uread (fun st => with_span (an_span a) (resolve_symbol (us_module st) n));
    match s with
    | SClass c _ =>
      do known <- uread (fun st => match resolve_field (us_pool st) (dc_name (fd_decl src)) c with
                                   | Done _ => Done true
                                   | Fail (CauseUnwind u) => Fail (ErrUnwind u)
                                   | Fail _ => Done false
                                   end);
      if known then push_diagnostic (FieldConflict (dc_span (fd_decl src)))
      else
        do k <- uread (fun st => pe (get_class (us_pool st) c));
        do _ <- define_field i c (cl_flags k) v src;
        change_pool (fun p => push_field p c i)
    | _ => ufailc (an_span a) (ClassNotFound n)
    end
  end.

(** One slot (unit.rs 202-257); [seen] are the functions defined before. *)
Definition define_slot (ev : env) (mods : list module_path) (seen : list pidx) (s : slot) : U unit :=
  match s with
  | SlotFunction i parent base wrapped replacement src v =>
    do _ <- (if existsb (Z.eqb i) seen then push_diagnostic (ReplaceMethodConflict i (dc_span (fs_decl src))) else uret tt);
    do flags <- uread (fun st => if parent =? UNDEFINED then Done None
                                 else let* k := pe (get_class (us_pool st) parent) in Done (Some (cl_flags k)));
    do r <- source_ref_of ev (dc_span (fs_decl src));
    define_function (FunctionSpec i parent flags base r wrapped replacement v src)
  | SlotClass is_struct i src v => define_class ev mods is_struct i v src
  | SlotField i src v => define_global_let i v src
  | SlotEnum i src => define_enum i src
  end.
Definition slot_function (s : slot) : list pidx := match s with SlotFunction i _ _ _ _ _ _ => [i] | _ => [] end.
(** A [?] inside the match on a slot leaves compile_modules at once (unit.rs
    222-226), unlike the errors of the functions that define it.  In [define_slot]
    above the class of a function is only missing if the pool is broken, and that
    error (ErrPool) cannot be reported, so it leaves compile_modules as well. *)
Fixpoint define_slots (ev : env) (mods : list module_path) (seen : list pidx) (l : list slot) : U (list pidx) :=
  match l with
  | [] => uret seen
  | s :: l' => do _ <- reported (define_slot ev mods seen s); define_slots ev mods (seen ++ slot_function s) l'
  end.

(** ** Modules *)

Definition path_of (m : source_module) : module_path := match sm_path m with Some p => p | None => [] end.
(** The first loop over the entries of a module (unit.rs 166-180). *)
Definition declare_entry (permissive : bool) (mods : list module_path) (m : module_path) (e : source_entry) : U (list slot) :=
  do here <- ulift (eval_conditions mods (dc_annotations (entry_decl e)));
  if here then
    fun st => match define_symbol permissive e m st with
              | (Done s, st') => (Done [s], st')
              | (Fail err, st') => (do _ <- ureport err; uret []) st'
              end
  else uret [].
Definition declare_module (permissive : bool) (mods : list module_path) (m : source_module) : U (source_module * list slot) :=
  do slots <- umap (declare_entry permissive mods (path_of m)) (sm_entries m);
  uret (m, concat slots).
(** Running an import on the scope of the module. *)
Definition import_into (ev : env) (i : import) (v : visibility) : U unit :=
  fun st => let '(s, r) := populate_import (ev_children ev) (us_symbols st) i (us_module st) v in (r, set_module s st).
(** The second loop over the modules (unit.rs 183-262). *)
Definition define_module (ev : env) (mods : list module_path) (seen : list pidx) (x : source_module * list slot) : U (list pidx) :=
  let '(m, slots) := x in
  do _ <- uput (fun st => set_module (us_scope st) st);
  do _ <- (if is_nil (path_of m) then uret tt
       else fun st => (Done tt, snd (import_into ev (IAll (path_of m) span_zero) Private st)));
  do _ <- ueach (fun i => do here <- ulift (eval_conditions mods (snd i));
                      if here then reported (import_into ev (fst i) Public) else uret tt) (sm_imports m);
  define_slots ev mods seen slots.
Fixpoint define_modules (ev : env) (mods : list module_path) (seen : list pidx) (l : list (source_module * list slot)) : U unit :=
  match l with
  | [] => uret tt
  | x :: l' => do seen' <- define_module ev mods seen x; define_modules ev mods seen' l'
  end.

(** ** Bodies *)

(** stringify_default (unit.rs 1024-1047). *)
Definition stringify_default (ev : env) (e : sexpr) : outcome error str :=
  match e with
  | EConstant c _ =>
    Done match c with
         | CString _ s => s
         | CF32 v => ev_f32 ev v | CF64 v => ev_f64 ev v
         | CI32 v | CI64 v | CU32 v | CU64 v => show_int v
         | CBool b => if b then lit "true" else lit "false"
         end
  | EMember r n sp => match r with EIdent x _ => Done (x ++ lit "." ++ n) | _ => failc (expr_span e) InvalidConstant end
  | ENull _ => Done (lit "null")
  | _ => failc (expr_span e) InvalidConstant
  end.
Definition with_defaults (f : field) (l : list property) : field :=
  {| fi_visibility := fi_visibility f; fi_type := fi_type f; fi_flags := fi_flags f; fi_hint := fi_hint f;
     fi_attributes := fi_attributes f; fi_defaults := l |}.
(** pool.field_mut(i)?.defaults = l (unit.rs 1057). *)
Definition put_defaults (p : pool) (i : pidx) (l : list property) : outcome error pool :=
  let* f := pe (get_field p i) in
  let* d := pe (get_def p i) in
  put_def p i (with_value d (DField (with_defaults f l))).
Definition fresh_checker (s : scope) (p : pool) : tstate := {| ts_pool := p; ts_locals := []; ts_diags := []; ts_scope := s |}.
(** CompilationUnit::compile_default (unit.rs 1023-1063). *)
Definition compile_default (ev : env) (x : field_default) : U unit :=
  do p <- uget us_pool;
  do f <- ulift (pe (get_field p (ft_index x)));
  do t <- ulift (with_span (expr_span (ft_value x)) (resolve_type_from_pool (ft_scope x) p (fi_type f)));
  do n <- ulift (pe (def_name p (ft_class x)));
  do v <- ulift (stringify_default ev (ft_value x));
  do _ <- change_pool (fun p => put_defaults p (ft_index x) [{| pp_name := n; pp_value := v |}]);
  do p <- uget us_pool;
  do r <- ulift (check_and_convert (check (ev_fuel ev) false) (ft_value x) t (fresh_checker (ft_scope x) p));
  uput (fun st => set_diags (us_diags st ++ ts_diags (snd r)) (set_pool (ts_pool (snd r)) st)).

(** The scope of a body (unit.rs 985-1002). *)
Fixpoint add_parameters (p : pool) (ps : list pidx) (s : scope) : outcome error scope :=
  match ps with
  | [] => Done s
  | i :: ps' => let* n := pe (def_name p i) in add_parameters p ps' (sc_add_parameter s n i)
  end.
Definition body_scope (p : pool) (x : function_body) (f : function) : outcome error scope :=
  let s := with_context (fb_scope x) (if get_flag fn_is_static (fu_flags f) then None else Some (fb_class x)) (fb_index x) in
  let* s := add_parameters p (fu_parameters f) s in
  Done match fb_wrapped x with
       | Some w => sc_add_symbol s (lit "wrappedMethod") (SFunctions [(w, Public)])
       | None => s
       end.
(** CompilationUnit::compile_function (unit.rs 977-1021). *)
Definition compile_function (ev : env) (sugar permissive : bool) (x : function_body) (p : pool)
  : outcome error (compiled_function * list diagnostic * pool) :=
  let* f := pe (get_function p (fb_index x)) in
  let* s := body_scope p x f in
  let* (body, t) := check_seq (check (ev_fuel ev) permissive) (fb_code x) (fresh_checker s p) in
  if sugar then
    let* (body', ls, s', p') := desugar body (ts_scope t) (ts_pool t) in
    Done (CompiledFunction (fb_index x) body' (ts_locals t ++ ls) s' (fb_span x), ts_diags t, p')
  else Done (CompiledFunction (fb_index x) body (ts_locals t) (ts_scope t) (fb_span x), ts_diags t, ts_pool t).
(** The passes over a compiled body (unit.rs 281-285). *)
Definition passes (body : list texpr) (m : fun_metadata) : list diagnostic :=
  unused_local body ++ missing_return body m ++ stmt_fallthrough body ++ invalid_temp_use body.
(** One body (unit.rs 275-290). *)
Definition compile_body (ev : env) (sugar permissive : bool) (x : function_body) : U (list compiled_function) :=
  do p <- uget us_pool;
  match compile_function ev sugar permissive x p with
  | Done (f, ds, p') =>
    do _ <- uput (fun st => set_diags (us_diags st ++ ds) (set_pool p' st));
    do g <- ulift (pe (get_function p' (cf_index f)));
    do _ <- uput (fun st => set_diags (us_diags st ++ passes (cf_code f)
               {| fm_flags := fu_flags g; fm_was_callback := fb_was_callback x; fm_span := cf_span f |}) st);
    uret [f]
  | Fail e => do _ <- ureport e; uret []
  end.

(** CompilationUnit::compile_modules (unit.rs 153-293). *)
Definition compile_modules (ev : env) (sugar permissive : bool) (l : list source_module) : U (list compiled_function) :=
  let mods := flat_map (fun m => match sm_path m with Some p => [p] | None => [] end) l in
  do queue <- umap (declare_module permissive mods) l;
  do _ <- define_modules ev mods [] queue;
  do ds <- uget us_defaults;
  do _ <- ueach (compile_default ev) ds;
  do _ <- (fun st => match construct_proxies (ev_files ev) (us_proxies st) (ev_wrappers ev (us_wrappers st)) (us_scope st) (us_pool st) with
                 | Done (s, p) => (Done tt, set_pool p (set_root s st))
                 | Fail e => (Fail e, st)
                 end);
  do bodies <- uget us_bodies;
  do fs <- umap (compile_body ev sugar permissive) bodies;
  uret (concat fs).

(** The first loop of finish (unit.rs 299-304). *)
Fixpoint install_all (ev : env) (fs : list compiled_function) (p : pool) : outcome error pool :=
  match fs with
  | [] => Done p
  | f :: fs' => let* p' := install (ev_files ev) (cf_index f) (cf_code f) (cf_locals f) (cf_scope f) p in install_all ev fs' p'
  end.
(** finish up to cleanup_pool (unit.rs 299-318). *)
Definition assemble_all (ev : env) (fs : list compiled_function) (st : ustate) : outcome error pool :=
  let* p := install_all ev fs (us_pool st) in
  swap_proxies (ev_locals ev) (ev_proxies ev (us_proxies st)) p.
Definition of_cleanup {A} (m : outcome Cleanup.cleanup_error A) : outcome error A :=
  map_err (fun e => ErrUnwind match e with Cleanup.CleanupPanic => Panicked | Cleanup.CleanupFuel => NoFuel end) m.
(** struct CompilationOutput (unit.rs 1315-1319), with the finished pool. *)
Record output := Output { out_pool : pool; out_diags : list diagnostic; out_refs : list (pidx * Z) }.
(** CompilationUnit::finish (unit.rs 298-331). *)
Definition finish (ev : env) (fs : list compiled_function) (st : ustate) : outcome error output :=
  let* p := assemble_all ev fs st in
  let* (p', refs) := of_cleanup (Cleanup.cleanup_pool (ev_fuel ev) p (map fst (us_refs st))) in
  Done (Output p' (sort_diags (us_diags st)) (combine refs (map snd (us_refs st)))).

(** CompilationUnit::new (unit.rs 57-80). *)
Definition unit_new (ev : env) (p : pool) : outcome error ustate :=
  let* m := sy_new p in
  let* s := scope_new p in
  let '(s', r) := populate_import (ev_children ev) m (IAll [] span_zero) s Private in
  let* _ := r in
  Done (UState p m s' s' [] [] [] [] [] [] []).
(** CompilationUnit::compile (unit.rs 82-85). *)
Definition compile (ev : env) (l : list source_module) (p : pool) : outcome error output :=
  let* st := unit_new ev p in
  match compile_modules ev true false l st with
  | (Done fs, st') => finish ev fs st'
  | (Fail e, _) => Fail e
  end.
