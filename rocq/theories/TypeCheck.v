(** The type checker.

    Models compiler/src/typechecker.rs. *)
From Coq Require Import String.
From Coq Require Import ZArith List Bool.
From Verif Require Import Bytes Bytecode Definitions Bundle Ast TypeNames Pool Scope.
Import ListNotations.
Open Scope Z_scope.

(** enum Callable, enum Member, TypedAst (typechecker.rs 1003-1014, 968-979). *)
Inductive callable := CFunction (f : pidx) | CIntrinsic (i : intrinsic) (t : typeid).
Inductive member := ClassField (f : pidx) | StructField (f : pidx) | EnumMember (e m : pidx).
Definition typed_ast : kinds := Kinds reference callable pidx pidx member typeid.
Notation texpr := (expr typed_ast).
Notation sexpr := (expr source_ast).

(** enum Diagnostic (diagnostics.rs 19-53); messages of syntax errors are left
    out.  enum Deprecation (diagnostics.rs). *)
Inductive deprecation := UnrelatedTypeEquals.
Inductive diagnostic :=
| ReplaceMethodConflict (f : pidx) (sp : span)
| FieldConflict (sp : span)
| Deprecated (d : deprecation) (sp : span)
| UnusedLocal (sp : span)
| MissingReturn (sp : span)
| StatementFallthrough (sp : span)
| InvalidUseOfTemporary (sp : span)
| AddMethodConflict (sp : span)
| DSyntaxError (sp : span)
| DCompileError (c : cause) (sp : span)
| DCteError (msg : str) (sp : span).
(** Diagnostic::from_error (diagnostics.rs 90-97). *)
Definition diag_from_error (e : error) : outcome error diagnostic :=
  match e with
  | SyntaxError sp => Done (DSyntaxError sp)
  | CompileError c sp => Done (DCompileError c sp)
  | CteError m sp => Done (DCteError m sp)
  | other => Fail other
  end.

(** enum Conversion (typechecker.rs, derived PartialEq). *)
Inductive conversion := Identity | RefToWeakRef | WeakRefToRef | ToScriptRef | ToVariant.
Definition is_identity (c : option conversion) : bool := match c with Some Identity => true | _ => false end.

(** The base class walk of find_conversion (typechecker.rs 845-860), which is the
    same for classes and structs. *)
Fixpoint upcast (fuel : nat) (p : pool) (from to : pidx) : outcome error (option conversion) :=
  match fuel with
  | O => Fail (ErrUnwind NoFuel)
  | S fuel' =>
    if from =? to then Done (Some Identity)
    else let* c := pe (get_class p from) in
         if negb (cl_base c =? UNDEFINED) then upcast fuel' p (cl_base c) to else Done None
  end.
(** find_conversion (typechecker.rs 838-885). *)
Fixpoint find_conversion (p : pool) (from to : typeid) {struct to} : outcome error (option conversion) :=
  if typeid_eqb from to then Done (Some Identity)
  else match to with
  | TIRef t =>
    match from with
    | TINull => Done (Some Identity)
    | TIRef f => let* c := find_conversion p f t in Done (if is_identity c then Some Identity else None)
    | TIWeakRef f => let* c := find_conversion p f t in Done (if is_identity c then Some WeakRefToRef else None)
    | _ => Done None
    end
  | TIWeakRef t =>
    match from with
    | TINull => Done (Some RefToWeakRef)
    | TIWeakRef f => let* c := find_conversion p f t in Done (if is_identity c then Some Identity else None)
    | TIRef f => let* c := find_conversion p f t in Done (if is_identity c then Some RefToWeakRef else None)
    | _ => Done None
    end
  | TIClass t => match from with TIClass f => upcast (pool_fuel p) p f t | _ => Done None end
  | TIStruct t => match from with TIStruct f => upcast (pool_fuel p) p f t | _ => Done None end
  | TIScriptRef t => let* c := find_conversion p from t in Done (if is_identity c then Some ToScriptRef else None)
  | TIVariant => Done (Some ToVariant)
  | _ => Done None
  end.

(** insert_conversion (typechecker.rs 887-915). *)
Definition insert_conversion (e : texpr) (t : typeid) (c : conversion) : texpr :=
  let call i := ECall (N := typed_ast) (CIntrinsic i t) [] [e] (expr_span e) in
  match c with
  | Identity => e
  | RefToWeakRef => call IRefToWeakRef
  | WeakRefToRef => call IWeakRefToRef
  | ToScriptRef => call IAsRef
  | ToVariant => call IToVariant
  end.

(** collect_supertypes (typechecker.rs 795-807): root first. *)
Fixpoint collect_supertypes (fuel : nat) (p : pool) (c : pidx) : outcome cause (list pidx) :=
  if c =? UNDEFINED then Done []
  else match fuel with
  | O => Fail (CauseUnwind NoFuel)
  | S fuel' =>
    let* k := pc (get_class p c) in
    let* r := collect_supertypes fuel' p (cl_base k) in
    Done (r ++ [c])
  end.
(** zip, take_while equal, last (typechecker.rs 814). *)
Fixpoint last_common (a b : list pidx) : option pidx :=
  match a, b with
  | x :: a', y :: b' =>
    if x =? y then match last_common a' b' with Some z => Some z | None => Some x end else None
  | _, _ => None
  end.
(** lub_class (typechecker.rs 811-821). *)
Definition lub_class (p : pool) (a b : pidx) : outcome cause pidx :=
  let* sa := collect_supertypes (pool_fuel p) p a in
  let* sb := collect_supertypes (pool_fuel p) p b in
  match last_common sa sb with
  | Some i => Done i
  | None => match def_name p a, def_name p b with
            | Done na, Done nb => Fail (UnificationFailed na nb)
            | _, _ => Fail (CauseUnwind Panicked)
            end
  end.
(** lub (typechecker.rs 810-836). *)
Fixpoint lub (p : pool) (a b : typeid) {struct a} : outcome cause typeid :=
  if typeid_eqb a b then Done a
  else match a, b with
  | TIRef x, TINull | TINull, TIRef x => Done (TIRef x)
  | TIWeakRef x, TINull | TINull, TIWeakRef x => Done (TIWeakRef x)
  | TIRef x, TIRef y => omap TIRef (lub p x y)
  | TIWeakRef x, TIWeakRef y => omap TIWeakRef (lub p x y)
  | TIClass x, TIClass y => omap TIClass (lub_class p x y)
  | TIStruct x, TIStruct y => omap TIStruct (lub_class p x y)
  | _, _ => let* na := pc (ti_pretty p a) in let* nb := pc (ti_pretty p b) in
            Fail (UnificationFailed na nb)
  end.

(** The type constants (ast.rs 399-415) used below. *)
Definition tn_BOOL := tn_basic (lit "Bool").
Definition tn_CNAME := tn_basic (lit "CName").
Definition tn_DOUBLE := tn_basic (lit "Double").
Definition tn_FLOAT := tn_basic (lit "Float").
Definition tn_INT32 := tn_basic (lit "Int32").
Definition tn_INT64 := tn_basic (lit "Int64").
Definition tn_RESOURCE := tn_basic (lit "ResRef").
Definition tn_STRING := tn_basic (lit "String").
Definition tn_TWEAKDB_ID := tn_basic (lit "TweakDBID").
Definition tn_UINT32 := tn_basic (lit "Uint32").
Definition tn_UINT64 := tn_basic (lit "Uint64").
Definition tn_VARIANT := tn_basic (lit "Variant").

Definition constant_type (c : constant) : typename :=
  match c with
  | CString LString _ => tn_STRING
  | CString LName _ => tn_CNAME
  | CString LResource _ => tn_RESOURCE
  | CString LTweakDbId _ => tn_TWEAKDB_ID
  | CF32 _ => tn_FLOAT
  | CF64 _ => tn_DOUBLE
  | CI32 _ => tn_INT32
  | CI64 _ => tn_INT64
  | CU32 _ => tn_UINT32
  | CU64 _ => tn_UINT64
  | CBool _ => tn_BOOL
  end.

Definition pool_type (s : scope) (p : pool) (sp : span) (i : pidx) : outcome error typeid :=
  with_span sp (resolve_type_from_pool s p i).
Definition named_type (s : scope) (p : pool) (sp : span) (n : typename) : outcome error typeid :=
  with_span sp (resolve_type s p n).
Definition failc {A} (sp : span) (c : cause) : outcome error A := with_span sp (Fail c).

(** type_of (typechecker.rs 702-793). *)
Fixpoint type_of (e : texpr) (s : scope) (p : pool) {struct e} : outcome error typeid :=
  match e with
  | EIdent (RValue (VLocal i)) sp => let* l := pe (get_local p i) in pool_type s p sp (lo_type l)
  | EIdent (RValue (VParam i)) sp => let* l := pe (get_parameter p i) in pool_type s p sp (pa_type l)
  | EIdent (RSymbol (SClass i _)) _ => Done (TIClass i)
  | EIdent (RSymbol (SStruct i _)) _ => Done (TIStruct i)
  | EIdent (RSymbol (SEnum i)) _ => Done (TIEnum i)
  | EIdent (RSymbol (SFunctions _)) sp => failc sp (UnexpectedToken (lit "function"))
  | EConstant c sp => named_type s p sp (constant_type c)
  | EArrayLit _ (Some t) _ => Done (TIArray t)
  | EArrayLit _ None _ => Fail (ErrUnwind Panicked)
  | EInterpolated _ _ sp => named_type s p sp tn_STRING
  | ECast t e _ =>
    let* et := type_of e s p in
    Done (match et with
          | TIWeakRef _ | TIRef _ => TIRef t
          | TIScriptRef _ => TIScriptRef t
          | _ => t
          end)
  | ECall (CFunction f) _ _ sp | EMethodCall _ f _ sp =>
    let* fn := pe (get_function p f) in
    match fu_return_type fn with
    | None => Done TIVoid
    | Some r => pool_type s p sp r
    end
  | ECall (CIntrinsic _ t) _ _ _ => Done t
  | EMember _ (StructField f) sp | EMember _ (ClassField f) sp =>
    let* fd := pe (get_field p f) in pool_type s p sp (fi_type fd)
  | EMember _ (EnumMember en _) _ => Done (TIEnum en)
  | EArrayElem e _ sp =>
    let* et := type_of e s p in
    match et with
    | TIStaticArray inner _ | TIArray inner => Done inner
    | t => let* n := pe (ti_pretty p t) in failc sp (UnsupportedOperation (lit "indexing") n)
    end
  | ENew (TIStruct c) _ _ => Done (TIStruct c)
  | ENew (TIClass c) _ _ => Done (TIRef (TIClass c))
  | ENew t _ sp => let* n := pe (ti_pretty p t) in failc sp (UnsupportedOperation (lit "constructing") n)
  | EConditional _ l r sp =>
    let* lt := type_of l s p in
    let* rt := type_of r s p in
    with_span sp (lub p lt rt)
  | EThis sp => match sc_this s with
                | Some c => Done (TIRef (TIClass c))
                | None => failc sp UnexpectedThis
                end
  | ESuper sp => match sc_this s with
                 | Some c => let* k := pe (get_class p c) in Done (TIRef (TIClass (cl_base k)))
                 | None => failc sp UnexpectedThis
                 end
  | ENull _ => Done TINull
  | EBinOp _ _ _ sp => failc sp (UnsupportedFeature (lit "BinOp"))
  | EUnOp _ _ sp => failc sp (UnsupportedFeature (lit "UnOp"))
  | EDeclare _ _ _ _ | EAssign _ _ _ | ESeq _ | EIf _ _ _ _ | ESwitch _ _ _ _ | EWhile _ _ _
  | EForIn _ _ _ _ | EReturn _ _ | EGoto _ _ | EBreak _ => Done TIVoid
  end.

(** is_prvalue (typechecker.rs 984-1000). *)
Fixpoint is_prvalue (e : texpr) : bool :=
  match e with
  | EConstant _ _ | EIdent _ _ | EThis _ | ESuper _ | ECall (CIntrinsic IDeref _) _ _ _
  | EMember _ (ClassField _) _ => false
  | EMember inner (StructField _) _ | EArrayElem inner _ _ => is_prvalue inner
  | _ => true
  end.

(** Rounding an integer to a binary float with [prec] significant bits and the
    exponent bias [bias], to nearest, ties to even: the bit pattern
    (`as f32`, f64::from). *)
Definition float_of_int (prec bias : Z) (width : Z) (i : Z) : Z :=
  if i =? 0 then 0
  else
    let m := Z.abs i in
    let e := Z.log2 m in
    let q :=
      if e <? prec then Z.shiftl m (prec - 1 - e)
      else let sh := e - (prec - 1) in
           let q := Z.shiftr m sh in
           let r := m - Z.shiftl q sh in
           let half := Z.shiftl 1 (sh - 1) in
           if (half <? r) || ((r =? half) && Z.odd q) then q + 1 else q in
    (if i <? 0 then Z.shiftl 1 (width - 1) else 0) +
    Z.shiftl (e + bias) (prec - 1) + (q - Z.shiftl 1 (prec - 1)).
Definition f32_of_i32 (i : Z) : Z := float_of_int 24 127 32 i.
Definition f64_of_i32 (i : Z) : Z := float_of_int 53 1023 64 i.
(** f64::from(f32) on bit patterns.  A signalling NaN keeps its payload here; the
    parser never produces one. *)
Definition f64_of_f32 (b : Z) : Z :=
  let s := Z.shiftl (Z.shiftr b 31) 63 in
  let e := Z.land (Z.shiftr b 23) 255 in
  let m := Z.land b (2 ^ 23 - 1) in
  if e =? 255 then s + Z.shiftl 2047 52 + Z.shiftl m 29
  else if e =? 0 then
    if m =? 0 then s
    else let k := Z.log2 m in s + Z.shiftl (k - 149 + 1023) 52 + (Z.shiftl m (52 - k) - 2 ^ 52)
  else s + Z.shiftl (e - 127 + 1023) 52 + Z.shiftl m 29.

(** The adjustment of literals to the expected type (typechecker.rs 49-64). *)
Definition adjust_constant (c : constant) (type_name : str) : constant :=
  match c with
  | CI32 i => if str_eqb type_name (lit "Float") then CF32 (f32_of_i32 i)
              else if str_eqb type_name (lit "Double") then CF64 (f64_of_i32 i)
              else if str_eqb type_name (lit "Int64") then CI64 i else c
  | CU32 i => if str_eqb type_name (lit "Uint64") then CU64 i else c
  | CF32 i => if str_eqb type_name (lit "Double") then CF64 (f64_of_f32 i) else c
  | _ => c
  end.

(** The state of struct TypeChecker (typechecker.rs 17-22) together with the
    scope; [permissive] is an argument. *)
Record tstate := { ts_pool : pool; ts_locals : list pidx; ts_diags : list diagnostic; ts_scope : scope }.
Definition set_scope (s : scope) (t : tstate) : tstate :=
  {| ts_pool := ts_pool t; ts_locals := ts_locals t; ts_diags := ts_diags t; ts_scope := s |}.
Definition M (A : Type) := tstate -> outcome error (A * tstate).
Definition mret {A} (a : A) : M A := fun t => Done (a, t).
Definition mbind {A B} (m : M A) (k : A -> M B) : M B :=
  fun t => match m t with Done (a, t') => k a t' | Fail e => Fail e end.
Notation "'do' x '<-' m ';' k" := (mbind m (fun x => k)) (at level 200, x pattern, m at level 100, k at level 200).
Definition mfail {A} (e : error) : M A := fun _ => Fail e.
Definition mfailc {A} (sp : span) (c : cause) : M A := fun _ => failc sp c.
(** A computation that only reads the scope and the pool. *)
Definition reading {A} (f : scope -> pool -> outcome error A) : M A :=
  fun t => match f (ts_scope t) (ts_pool t) with Done a => Done (a, t) | Fail e => Fail e end.
(** TypeChecker::report (typechecker.rs 688-691). *)
Definition push_diag (d : diagnostic) : M unit :=
  fun t => Done (tt, {| ts_pool := ts_pool t; ts_locals := ts_locals t; ts_diags := ts_diags t ++ [d];
                        ts_scope := ts_scope t |}).
Definition report (e : error) : M unit :=
  match diag_from_error e with Done d => push_diag d | Fail e => mfail e end.
(** Working on a clone of the scope. *)
Definition scoped {A} (m : M A) : M A :=
  fun t => match m t with Done (a, t') => Done (a, set_scope (ts_scope t) t') | Fail e => Fail e end.
Fixpoint mmap {A B} (f : A -> M B) (l : list A) : M (list B) :=
  match l with
  | [] => mret []
  | x :: l' => do y <- f x; do ys <- mmap f l'; mret (y :: ys)
  end.
Definition mopt {A B} (f : A -> M B) (o : option A) : M (option B) :=
  match o with None => mret None | Some x => do y <- f x; mret (Some y) end.

(** Definition::local (definition.rs 94-96). *)
Definition local_definition (n parent : pidx) (l : local) : definition :=
  {| df_name := n; df_parent := parent; df_unk1 := 0; df_unk2 := 0; df_unk3 := 0; df_value := DLocal l |}.
(** TypeChecker::add_local (typechecker.rs 675-686). *)
Definition add_local (name : str) (t : typeid) (sp : span) : M pidx :=
  fun st =>
    let mangled := name ++ lit "$local$" ++ dec (Z.of_nat (length (ts_locals st))) in
    let '(p1, name_idx) := add_name (ts_pool st) mangled in
    let* (ti, s', p2) := with_span sp (get_type_index t (ts_scope st) p1) in
    match sc_function (ts_scope st) with
    | None => Fail (ErrUnwind Panicked)
    | Some fn =>
      let '(p3, li) := add_definition p2 (local_definition name_idx fn {| lo_type := ti; lo_flags := 0 |}) in
      Done (li, {| ts_pool := p3; ts_locals := ts_locals st ++ [li]; ts_diags := ts_diags st;
                   ts_scope := sc_add_local s' name li |})
    end.

(** enum MatcherError (typechecker.rs 917-923). *)
Inductive matcher_error := MatchError (e : match_error) | Other (e : error).
Definition oth {A} (m : outcome error A) : outcome matcher_error A := map_err Other m.

(** TypeChecker::validate_call (typechecker.rs 608-635).  [filter_ok(..).count()]
    counts failed lookups as required parameters. *)
Definition min_params (p : pool) (params : list pidx) : nat :=
  length (filter (fun i => match get_parameter p i with
                           | Done q => negb (get_flag pf_is_optional (pa_flags q))
                           | Fail _ => true end) params).
Definition validate_call (s : scope) (p : pool) (f : pidx) (given : nat) (sp : span)
  : outcome matcher_error (pidx * list typeid) :=
  let* fn := oth (pe (get_function p f)) in
  let params := fu_parameters fn in
  let min := min_params p params in
  if (given <? min)%nat || (length params <? given)%nat
  then Fail (MatchError (ArgumentCountMismatch given min (length params)))
  else
    let* types := oth (mapM (fun i => let* q := pe (get_parameter p i) in pool_type s p sp (pa_type q)) params) in
    Done (f, types).

(** struct ArgConversion (typechecker.rs 931-945). *)
Record arg_conversion := { ac_conversion : conversion; ac_target : typeid }.
(** The conversion of one argument (typechecker.rs 660-671). *)
Definition validate_arg (s : scope) (p : pool) (index : nat) (arg : texpr) (t : typeid)
  : outcome matcher_error arg_conversion :=
  let* at_ := oth (type_of arg s p) in
  let* c := oth (find_conversion p at_ t) in
  match c with
  | Some c => Done {| ac_conversion := c; ac_target := t |}
  | None =>
    let* given := oth (pe (ti_pretty p at_)) in
    let* expected := oth (pe (ti_pretty p t)) in
    Fail (MatchError (ParameterMismatch given expected index))
  end.
Fixpoint validate_arg_list (s : scope) (p : pool) (index : nat) (args : list texpr) (types : list typeid)
  : outcome matcher_error (list arg_conversion) :=
  match args, types with
  | a :: args', t :: types' =>
    let* c := validate_arg s p index a t in
    let* cs := validate_arg_list s p (S index) args' types' in
    Done (c :: cs)
  | _, _ => Done []
  end.
(** TypeChecker::validate_args (typechecker.rs 637-673). *)
Definition validate_args (s : scope) (p : pool) (f : pidx) (args : list texpr) (types : list typeid)
  (wanted : option typeid) (sp : span) : outcome matcher_error (list arg_conversion) :=
  let* fn := oth (pe (get_function p f)) in
  let* _ := (match wanted with
             | Some w =>
               if get_flag fn_is_cast (fu_flags fn) then
                 let* r := oth (match fu_return_type fn with Some r => Done r | None => failc sp VoidCannotBeUsed end) in
                 let* rt := oth (pool_type s p sp r) in
                 let* c := oth (find_conversion p rt w) in
                 match c with
                 | Some _ => Done tt
                 | None =>
                   let* given := oth (pe (ti_pretty p w)) in
                   let* expected := oth (pe (ti_pretty p rt)) in
                   Fail (MatchError (ReturnMismatch given expected))
                 end
               else Done tt
             | None => Done tt
             end) in
  validate_arg_list s p 0 args types.

(** The loop collecting eligible overloads (typechecker.rs 551-557). *)
Fixpoint eligible_loop (s : scope) (p : pool) (given : nat) (sp : span) (cands : list pidx)
  : outcome error (list (pidx * list typeid) * list match_error) :=
  match cands with
  | [] => Done ([], [])
  | f :: cands' =>
    match validate_call s p f given sp with
    | Done r => let* (el, errs) := eligible_loop s p given sp cands' in Done (r :: el, errs)
    | Fail (MatchError e) => let* (el, errs) := eligible_loop s p given sp cands' in Done (el, e :: errs)
    | Fail (Other e) => Fail e
    end
  end.
(** The loop collecting matches (typechecker.rs 579-585). *)
Fixpoint matches_loop (s : scope) (p : pool) (args : list texpr) (expected : option typeid) (sp : span)
  (eligible : list (pidx * list typeid)) : outcome error (list (pidx * list arg_conversion) * list match_error) :=
  match eligible with
  | [] => Done ([], [])
  | (f, types) :: eligible' =>
    match validate_args s p f args types expected sp with
    | Done cs => let* (ms, errs) := matches_loop s p args expected sp eligible' in Done ((f, cs) :: ms, errs)
    | Fail (MatchError e) => let* (ms, errs) := matches_loop s p args expected sp eligible' in Done (ms, e :: errs)
    | Fail (Other e) => Fail e
    end
  end.

(** FunctionMatch::new (typechecker.rs 953-963). *)
Fixpoint zip_with {A B C} (f : A -> B -> C) (a : list A) (b : list B) : list C :=
  match a, b with x :: a', y :: b' => f x y :: zip_with f a' b' | _, _ => [] end.
Definition function_match (f : pidx) (args : list texpr) (cs : list arg_conversion) : pidx * list texpr :=
  (f, zip_with (fun e c => insert_conversion e (ac_target c) (ac_conversion c)) args cs).

(** The functions below call [check] through the argument [rec]. *)
Definition checker := sexpr -> option typeid -> M texpr.

(** TypeChecker::check_and_convert (typechecker.rs 522-536). *)
Definition check_and_convert (rec : checker) (e : sexpr) (to : typeid) : M texpr :=
  do checked <- rec e (Some to);
  do from <- reading (type_of checked);
  do c <- reading (fun _ p => find_conversion p from to);
  match c with
  | Some c => mret (insert_conversion checked to c)
  | None =>
    do fn <- reading (fun _ p => pe (ti_pretty p from));
    do tn <- reading (fun _ p => pe (ti_pretty p to));
    do _ <- report (CompileError (TypeError fn tn) (expr_span e));
    mret checked
  end.

(** TypeChecker::check_seq (typechecker.rs 356-362). *)
Definition check_seq (rec : checker) (es : list sexpr) : M (list texpr) := mmap (fun e => rec e None) es.

(** The two ways of picking an overload (typechecker.rs 559-593): [inr] is the
    error that the permissive mode reports and recovers from. *)
Fixpoint check_zip (rec : checker) (args : list sexpr) (types : list typeid) : M (list texpr) :=
  match args, types with
  | a :: args', t :: types' => do x <- rec a (Some t); do xs <- check_zip rec args' types'; mret (x :: xs)
  | _, _ => mret []
  end.
Definition no_matching (name : str) (errs : list match_error) (sp : span) : error :=
  CompileError (NoMatchingOverload name errs) sp.
Definition pick_overload (rec : checker) (name : str) (args : list sexpr) (expected : option typeid) (sp : span)
  (eligible : list (pidx * list typeid)) (errs : list match_error) : M (pidx * list texpr + error) :=
  match eligible with
  | [(f, types)] =>
    do checked <- check_zip rec args types;
    fun t => match validate_args (ts_scope t) (ts_pool t) f checked types expected sp with
             | Done cs => Done (inl (function_match f checked cs), t)
             | Fail (MatchError e) => Done (inr (no_matching name (errs ++ [e]) sp), t)
             | Fail (Other e) => Done (inr e, t)
             end
  | _ =>
    do checked <- mmap (fun e => rec e None) args;
    do (ms, errs') <- reading (fun s p => matches_loop s p checked expected sp eligible);
    match ms with
    | [] => mret (inr (no_matching name (errs ++ errs') sp))
    | (f, cs) :: _ => mret (inl (function_match f checked cs))
    end
  end.
(** TypeChecker::resolve_overload (typechecker.rs 538-606). *)
Definition identity_conversion : arg_conversion := {| ac_conversion := Identity; ac_target := TIVoid |}.
Definition resolve_overload (permissive : bool) (rec : checker) (name : str) (overloads : list pidx)
  (args : list sexpr) (expected : option typeid) (sp : span) : M (pidx * list texpr) :=
  do (eligible, errs) <- reading (fun s p => eligible_loop s p (length args) sp overloads);
  do r <- pick_overload rec name args expected sp eligible errs;
  match r with
  | inl m => mret m
  | inr e =>
    if permissive then
      do _ <- report e;
      do dummy <- mmap (fun e => rec e None) args;
      match overloads with
      | [] => mfail (ErrUnwind Panicked)
      | f :: _ => mret (function_match f dummy (map (fun _ => identity_conversion) dummy))
      end
    else mfail e
  end.

Definition typed_call (c : callable) (args : list texpr) (sp : span) : texpr := ECall (N := typed_ast) c [] args sp.

(** TypeChecker::check_intrinsic (typechecker.rs 365-520). *)
Definition check_intrinsic (rec : checker) (i : intrinsic) (args : list sexpr) (expected : option typeid)
  (sp : span) : M texpr :=
  if negb (length args =? arg_count i)%nat then mfailc sp (InvalidArgCount (intrinsic_name i) (arg_count i))
  else
    let arg n := nth n args (ENull span0) in
    let named n := reading (fun s p => named_type s p sp n) in
    let conv n t := check_and_convert rec (arg n) t in
    do first <- rec (arg 0%nat) None;
    do ft <- reading (type_of first);
    do (t, checked) <-
      match i, ft with
      | IEquals, arg_type | INotEquals, arg_type =>
        do snd_arg <- rec (arg 1%nat) (Some arg_type);
        do st <- reading (type_of snd_arg);
        do _ <- (fun ts => match lub (ts_pool ts) arg_type st with
                           | Fail (CauseUnwind u) => Fail (ErrUnwind u)
                           | Fail _ => push_diag (Deprecated UnrelatedTypeEquals sp) ts
                           | Done _ => mret tt ts
                           end);
        do t <- named tn_BOOL; mret (t, [first; snd_arg])
      | IArrayClear, TIArray _ => mret (TIVoid, [first])
      | IArraySize, TIArray _ => do t <- named tn_INT32; mret (t, [first])
      | IArrayResize, TIArray _ => do st <- named tn_INT32; do a <- conv 1%nat st; mret (TIVoid, [first; a])
      | IArrayFindFirst, TIArray elem => do a <- conv 1%nat elem; mret (elem, [first; a])
      | IArrayFindLast, TIArray elem => do a <- conv 1%nat elem; mret (elem, [first; a])
      | IArrayContains, TIArray elem => do a <- conv 1%nat elem; do t <- named tn_BOOL; mret (t, [first; a])
      | IArrayCount, TIArray elem => do a <- conv 1%nat elem; do t <- named tn_INT32; mret (t, [first; a])
      | IArrayPush, TIArray elem => do a <- conv 1%nat elem; mret (TIVoid, [first; a])
      | IArrayPop, TIArray elem => mret (elem, [first])
      | IArrayInsert, TIArray elem =>
        do it <- named tn_INT32; do a <- conv 1%nat it; do b <- conv 2%nat elem; mret (TIVoid, [first; a; b])
      | IArrayRemove, TIArray elem => do a <- conv 1%nat elem; do t <- named tn_BOOL; mret (t, [first; a])
      | IArrayGrow, TIArray _ => do st <- named tn_INT32; do a <- conv 1%nat st; mret (TIVoid, [first; a])
      | IArrayErase, TIArray _ =>
        do it <- named tn_INT32; do a <- conv 1%nat it; do t <- named tn_BOOL; mret (t, [first; a])
      | IArrayLast, TIArray elem => mret (elem, [first])
      | IToString, _ => do t <- named tn_STRING; mret (t, [first])
      | IEnumInt, TIEnum _ => do t <- named tn_INT32; mret (t, [first])
      | IIntEnum, _ =>
        match expected with
        | Some (TIEnum e) => mret (TIEnum e, [first])
        | Some t => do n <- reading (fun _ p => pe (ti_pretty p t)); mfailc sp (TypeError (lit "enum") n)
        | None => do n <- reading (fun _ p => pe (ti_pretty p ft)); mfailc sp (InvalidIntrinsicUse i n)
        end
      | IToVariant, _ => do t <- named tn_VARIANT; mret (t, [first])
      | IFromVariant, TIVariant =>
        match expected with
        | Some t => mret (t, [first])
        | None => do n <- reading (fun _ p => pe (ti_pretty p ft)); mfailc sp (InvalidIntrinsicUse i n)
        end
      | IVariantTypeName, TIVariant => do t <- named tn_CNAME; mret (t, [first])
      | IVariantIsRef, TIVariant => do t <- named tn_BOOL; mret (t, [first])
      | IVariantIsArray, TIVariant => do t <- named tn_BOOL; mret (t, [first])
      | IAsRef, t => mret (TIScriptRef t, [first])
      | IDeref, TIScriptRef inner => mret (inner, [first])
      | IIsDefined, TIRef _ | IIsDefined, TIWeakRef _ | IIsDefined, TINull | IIsDefined, TIVariant =>
        do t <- named tn_BOOL; mret (t, [first])
      | _, _ => do n <- reading (fun _ p => pe (ti_pretty p ft)); mfailc sp (InvalidIntrinsicUse i n)
      end;
    mret (typed_call (CIntrinsic i t) checked sp).

(** The conversion of a weak receiver (typechecker.rs 176-181, 229-234). *)
Definition strengthen (e : texpr) (t : typeid) : texpr :=
  match t with TIWeakRef inner => insert_conversion e (TIRef inner) WeakRefToRef | _ => e end.

(** The fold of lub over the elements of an array literal (typechecker.rs 86-91). *)
Fixpoint lub_fold (s : scope) (p : pool) (sp : span) (acc : typeid) (es : list texpr) : outcome error typeid :=
  match es with
  | [] => Done acc
  | e :: es' =>
    let* t := type_of e s p in
    let* acc' := with_span sp (lub p acc t) in
    lub_fold s p sp acc' es'
  end.

(** The loop over constructor arguments (typechecker.rs 263-269). *)
Fixpoint check_fields (rec : checker) (sp : span) (args : list sexpr) (fields : list pidx) : M (list texpr) :=
  match args, fields with
  | a :: args', f :: fields' =>
    do fd <- reading (fun _ p => pe (get_field p f));
    do ft <- reading (fun s p => pool_type s p sp (fi_type fd));
    do x <- check_and_convert rec a ft;
    do xs <- check_fields rec sp args' fields';
    mret (x :: xs)
  | _, _ => mret []
  end.

(** TypeChecker::check (typechecker.rs 34-354), one level. *)
Definition check_step (permissive : bool) (rec : checker) (e : sexpr) (expected : option typeid) : M texpr :=
  let resolve name := resolve_overload permissive rec name in
  let named sp n := reading (fun s p => named_type s p sp n) in
  match e with
  | EIdent name sp =>
    fun t => match resolve_reference (ts_scope t) name with
             | Done r => Done (EIdent (N := typed_ast) r sp, t)
             | Fail c => if permissive
                         then (do _ <- report (CompileError c sp); mret (ENull (N := typed_ast) sp)) t
                         else failc sp c
             end
  | EConstant c sp =>
    match expected with
    | Some ty => do n <- reading (fun _ p => pe (ti_pretty p ty)); mret (EConstant (adjust_constant c n) sp)
    | None => mret (EConstant c sp)
    end
  | EArrayLit [] _ sp =>
    match expected with
    | Some (TIArray inner) => mret (EArrayLit (N := typed_ast) [] (Some inner) sp)
    | Some t => do n <- reading (fun _ p => pe (ti_pretty p t)); mfailc sp (TypeError (lit "array") n)
    | None => mfailc sp TypeAnnotationRequired
    end
  | EArrayLit es _ sp =>
    do checked <- mmap (fun e => match expected with
                                 | Some (TIArray elem) => check_and_convert rec e elem
                                 | _ => rec e None
                                 end) es;
    match checked with
    | [] => mfail (ErrUnwind Panicked)
    | x :: xs =>
      do t0 <- reading (type_of x);
      do t <- reading (fun s p => lub_fold s p sp t0 xs);
      mret (EArrayLit (N := typed_ast) checked (Some t) sp)
    end
  | EInterpolated prefix parts sp =>
    do checked <- mmap (fun x => do y <- rec (fst x) None; mret (y, snd x)) parts;
    mret (EInterpolated (N := typed_ast) prefix checked sp)
  | EDeclare name ty init sp =>
    do (init', t) <-
      match ty, init with
      | None, None => mfailc sp TypeAnnotationRequired
      | None, Some e =>
        do checked <- rec e None; do t <- reading (type_of checked); mret (Some checked, t)
      | Some tn, None => do t <- named sp tn; mret (None, t)
      | Some tn, Some e => do t <- named sp tn; do checked <- check_and_convert rec e t; mret (Some checked, t)
      end;
    do l <- add_local name t sp;
    mret (EDeclare (N := typed_ast) l (Some t) init' sp)
  | ECast tn e sp =>
    do t <- named sp tn;
    do checked <- rec e None;
    do et <- reading (type_of checked);
    mret (ECast (N := typed_ast) t (strengthen checked et) sp)
  | EAssign lhs rhs sp =>
    do l <- rec lhs None;
    do t <- reading (type_of l);
    do r <- check_and_convert rec rhs t;
    mret (EAssign l r sp)
  | ECall name targs args sp =>
    do expected' <- match targs with
                    | [target] => do t <- named sp target; mret (Some t)
                    | _ => mret expected
                    end;
    match intrinsic_of_name name with
    | Some i => check_intrinsic rec i args expected' sp
    | None =>
      do cands <- reading (fun s _ => with_span sp (resolve_function s name));
      do (f, args') <- resolve name cands args expected' sp;
      mret (typed_call (CFunction f) args' sp)
    end
  | EMethodCall ctx name args sp =>
    do c <- rec ctx None;
    do t <- reading (type_of c);
    do class <- match ti_unwrapped t with
                | TIStruct k | TIClass k => mret k
                | u => do n <- reading (fun _ p => pe (ti_pretty p u)); mfailc sp (InvalidMemberAccess n)
                end;
    do cands <- reading (fun _ p => with_span sp (resolve_method p name class));
    do (f, args') <- resolve name cands args expected sp;
    mret (EMethodCall (N := typed_ast) (strengthen c t) f args' sp)
  | EBinOp l r op sp =>
    do cands <- reading (fun s _ => with_span sp (resolve_function s (binop_name op)));
    do (f, args') <- resolve (binop_name op) cands [l; r] expected sp;
    mret (typed_call (CFunction f) args' sp)
  | EUnOp e op sp =>
    do cands <- reading (fun s _ => with_span sp (resolve_function s (unop_name op)));
    do (f, args') <- resolve (unop_name op) cands [e] expected sp;
    mret (typed_call (CFunction f) args' sp)
  | EMember ctx name sp =>
    do c <- rec ctx None;
    do t <- reading (type_of c);
    do m <- match ti_unwrapped t with
            | TIClass k => do f <- reading (fun _ p => with_span sp (resolve_field p name k)); mret (ClassField f)
            | TIStruct k => do f <- reading (fun _ p => with_span sp (resolve_field p name k)); mret (StructField f)
            | TIEnum k =>
              do m <- reading (fun _ p => with_span sp (resolve_enum_member p name k)); mret (EnumMember k m)
            | u => do n <- reading (fun _ p => pe (ti_pretty p u)); mfailc sp (InvalidMemberAccess n)
            end;
    mret (EMember (N := typed_ast) (strengthen c t) m sp)
  | EArrayElem e i sp =>
    do it <- named sp tn_INT32;
    do e' <- rec e None;
    do i' <- check_and_convert rec i it;
    mret (EArrayElem e' i' sp)
  | ENew tn args sp =>
    do t <- named sp tn;
    match t with
    | TIClass c =>
      do k <- reading (fun _ p => pe (get_class p c));
      if get_flag cf_is_abstract (cl_flags k) then mfailc sp (InstantiatingAbstract (pretty tn))
      else match args with
           | [] => mret (ENew (N := typed_ast) t [] sp)
           | _ => mfailc sp (InvalidArgCount (pretty tn) 0)
           end
    | TIStruct c =>
      do k <- reading (fun _ p => pe (get_class p c));
      if negb (length (cl_fields k) =? length args)%nat
      then mfailc sp (InvalidArgCount (pretty tn) (length (cl_fields k)))
      else do args' <- check_fields rec sp args (cl_fields k);
           mret (ENew (N := typed_ast) t args' sp)
    | _ => mfailc sp (UnsupportedOperation (lit "constructing") (pretty tn))
    end
  | EReturn oe sp =>
    do f <- (fun ts => match sc_function (ts_scope ts) with
                       | None => Fail (ErrUnwind Panicked)
                       | Some f => reading (fun _ p => pe (get_function p f)) ts
                       end);
    match oe, fu_return_type f with
    | None, Some r =>
      do t <- reading (fun s p => pool_type s p sp r);
      do n <- reading (fun _ p => pe (ti_pretty p t));
      mfailc sp (UnexpectedVoidReturn n)
    | None, None => mret (EReturn None sp)
    | Some e, Some r =>
      do t <- reading (fun s p => pool_type s p sp r);
      do checked <- check_and_convert rec e t;
      mret (EReturn (Some checked) sp)
    | Some _, None => mfailc sp UnexpectedValueReturn
    end
  | ESeq es => do es' <- check_seq rec es; mret (ESeq es')
  | ESwitch m cases default sp =>
    do m' <- rec m None;
    do mt <- (fun t => match type_of m' (ts_scope t) (ts_pool t) with
                       | Done a => Done (Some a, t)
                       | Fail (ErrUnwind u) => Fail (ErrUnwind u)
                       | Fail _ => Done (None, t)
                       end);
    do cases' <- mmap (fun c => do x <- rec (fst c) mt; do b <- scoped (check_seq rec (snd c)); mret (x, b)) cases;
    do default' <- mopt (fun b => scoped (check_seq rec b)) default;
    mret (ESwitch m' cases' default' sp)
  | EGoto t sp => mret (EGoto t sp)
  | EIf c t f sp =>
    do ct <- named sp tn_BOOL;
    do c' <- check_and_convert rec c ct;
    do t' <- scoped (check_seq rec t);
    do f' <- mopt (fun b => scoped (check_seq rec b)) f;
    mret (EIf c' t' f' sp)
  | EConditional c t f sp =>
    do ct <- named sp tn_BOOL;
    do c' <- check_and_convert rec c ct;
    do t' <- rec t None;
    do lt <- reading (type_of t');
    do f' <- rec f (Some lt);
    mret (EConditional c' t' f' sp)
  | EWhile c body sp =>
    do ct <- named sp tn_BOOL;
    do c' <- check_and_convert rec c ct;
    do body' <- scoped (check_seq rec body);
    mret (EWhile c' body' sp)
  | EForIn name array body sp =>
    do array' <- rec array None;
    do at_ <- reading (type_of array');
    match at_ with
    | TIArray inner =>
      do (l, body') <- scoped (do l <- add_local name inner sp; do b <- check_seq rec body; mret (l, b));
      mret (EForIn (N := typed_ast) l array' body' sp)
    | other => do n <- reading (fun _ p => pe (ti_pretty p other)); mfailc sp (TypeError n (lit "array"))
    end
  | EThis sp => mret (EThis sp)
  | ESuper sp => mret (ESuper sp)
  | EBreak sp => mret (EBreak sp)
  | ENull sp => mret (ENull sp)
  end.

(** TypeChecker::check; [fuel] bounds the nesting depth. *)
Fixpoint check (fuel : nat) (permissive : bool) : checker :=
  match fuel with
  | O => fun _ _ => mfail (ErrUnwind NoFuel)
  | S n => check_step permissive (check n permissive)
  end.
