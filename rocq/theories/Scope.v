(** Names and types in scope.

    Models compiler/src/scope.rs, compiler/src/symbol.rs 118-143 (Symbol) and
    compiler/src/error.rs (Error, Cause). *)
From Coq Require Import String DecimalString.
From Coq Require Import ZArith NArith List Bool.
From Verif Require Import Bytes Bytecode Definitions Bundle Ast TypeNames Pool.
Import ListNotations.
Open Scope Z_scope.

(** How the model reports a Rust panic and an exhausted recursion bound (the
    latter stands for unbounded recursion in the code). *)
Inductive unwind := Panicked | NoFuel.

(** enum FunctionMatchError (error.rs 156-167). *)
Inductive match_error :=
| ParameterMismatch (given expected : str) (index : nat)
| ReturnMismatch (given expected : str)
| ArgumentCountMismatch (given min max : nat).

(** enum IntrinsicOp (bytecode.rs 1094-1127). *)
Inductive intrinsic :=
| IEquals | INotEquals | IArrayClear | IArraySize | IArrayResize | IArrayFindFirst | IArrayFindLast
| IArrayContains | IArrayCount | IArrayPush | IArrayPop | IArrayInsert | IArrayRemove | IArrayGrow
| IArrayErase | IArrayLast | IArraySort | IArraySortByPredicate | IToString | IEnumInt | IIntEnum
| IToVariant | IFromVariant | IVariantIsRef | IVariantIsArray | IVariantTypeName | IAsRef | IDeref
| IRefToWeakRef | IWeakRefToRef | IIsDefined.
Definition all_intrinsics : list intrinsic :=
  [IEquals; INotEquals; IArrayClear; IArraySize; IArrayResize; IArrayFindFirst; IArrayFindLast;
   IArrayContains; IArrayCount; IArrayPush; IArrayPop; IArrayInsert; IArrayRemove; IArrayGrow;
   IArrayErase; IArrayLast; IArraySort; IArraySortByPredicate; IToString; IEnumInt; IIntEnum;
   IToVariant; IFromVariant; IVariantIsRef; IVariantIsArray; IVariantTypeName; IAsRef; IDeref;
   IRefToWeakRef; IWeakRefToRef; IIsDefined].
Definition intrinsic_name (i : intrinsic) : str :=
  match i with
  | IEquals => lit "Equals" | INotEquals => lit "NotEquals" | IArrayClear => lit "ArrayClear"
  | IArraySize => lit "ArraySize" | IArrayResize => lit "ArrayResize"
  | IArrayFindFirst => lit "ArrayFindFirst" | IArrayFindLast => lit "ArrayFindLast"
  | IArrayContains => lit "ArrayContains" | IArrayCount => lit "ArrayCount"
  | IArrayPush => lit "ArrayPush" | IArrayPop => lit "ArrayPop" | IArrayInsert => lit "ArrayInsert"
  | IArrayRemove => lit "ArrayRemove" | IArrayGrow => lit "ArrayGrow" | IArrayErase => lit "ArrayErase"
  | IArrayLast => lit "ArrayLast" | IArraySort => lit "ArraySort"
  | IArraySortByPredicate => lit "ArraySortByPredicate" | IToString => lit "ToString"
  | IEnumInt => lit "EnumInt" | IIntEnum => lit "IntEnum" | IToVariant => lit "ToVariant"
  | IFromVariant => lit "FromVariant" | IVariantIsRef => lit "VariantIsRef"
  | IVariantIsArray => lit "VariantIsArray" | IVariantTypeName => lit "VariantTypeName"
  | IAsRef => lit "AsRef" | IDeref => lit "Deref" | IRefToWeakRef => lit "RefToWeakRef"
  | IWeakRefToRef => lit "WeakRefToRef" | IIsDefined => lit "IsDefined"
  end.
(** IntrinsicOp::from_str (strum EnumString, bytecode.rs 1094). *)
Definition intrinsic_of_name (s : str) : option intrinsic :=
  find (fun i => str_eqb (intrinsic_name i) s) all_intrinsics.
(** IntrinsicOp::arg_count (bytecode.rs 1130-1165). *)
Definition arg_count (i : intrinsic) : nat :=
  match i with
  | IArrayInsert => 3
  | IEquals | INotEquals | IArrayResize | IArrayFindFirst | IArrayFindLast | IArrayContains
  | IArrayCount | IArrayPush | IArrayRemove | IArrayGrow | IArrayErase | IArraySortByPredicate => 2
  | _ => 1
  end.

(** enum Cause (error.rs 29-107), and the two ways to unwind. *)
Inductive cause :=
| PoolError (e : pool_error)
| TypeError (from to : str)
| FunctionNotFound (n : str)
| MemberNotFound (m t : str)
| MethodNotFound (m t : str)
| ClassNotFound (n : str)
| InstantiatingAbstract (n : str)
| UnresolvedReference (n : str)
| UnresolvedType (n : str)
| UnresolvedImport (n : str)
| UnresolvedModule (n : str)
| InvalidAnnotationArgs
| TypeAnnotationRequired
| InvalidMemberAccess (t : str)
| UnsupportedOperation (op t : str)
| InvalidArgCount (n : str) (k : nat)
| VoidCannotBeUsed
| UnexpectedToken (t : str)
| UnexpectedVoidReturn (t : str)
| UnexpectedValueReturn
| InvalidIntrinsicUse (i : intrinsic) (t : str)
| InvalidStaticMethodCall (n : str)
| InvalidNonStaticMethodCall (n : str)
| UnexpectedThis
| UnsupportedFeature (n : str)
| SymbolRedefinition
| FieldRedefinition
| MissingBody
| UnexpectedBody
| UnexpectedNative
| UnificationFailed (a b : str)
| UnsupportedPersistent (t : str)
| InvalidConstant
| NoMatchingOverload (n : str) (es : list match_error)
| NoMethodWithMatchingSignature
| NoMethodWithMatchingName
| CauseUnwind (u : unwind).

(** enum Error (error.rs 13-26), and the two ways to unwind.  The message of a
    syntax error and the kind of an I/O error are left out. *)
Inductive error :=
| IoError
| SyntaxError (sp : span)
| CompileError (c : cause) (sp : span)
| ErrPool (e : pool_error)
| MultipleErrors (l : list (str * span))
| CteError (msg : str) (sp : span)
| ErrUnwind (u : unwind).

(** Cause::with_span and ResultSpan (error.rs 110-113, 183-196). *)
Definition with_span {A} (sp : span) (m : outcome cause A) : outcome error A :=
  map_err (fun c => match c with CauseUnwind u => ErrUnwind u | _ => CompileError c sp end) m.
(** The conversions of PoolError made by [?]. *)
Definition pc {A} (m : outcome pool_error A) : outcome cause A := map_err PoolError m.
Definition pe {A} (m : outcome pool_error A) : outcome error A := map_err ErrPool m.

(** enum Symbol (symbol.rs 118-124). *)
Inductive symbol :=
| SClass (i : pidx) (v : visibility)
| SStruct (i : pidx) (v : visibility)
| SEnum (i : pidx)
| SFunctions (l : list (pidx * visibility)).

(** enum Value, enum Reference, enum TypeId (scope.rs 282-307). *)
Inductive value_ref := VLocal (i : pidx) | VParam (i : pidx).
Inductive reference := RValue (v : value_ref) | RSymbol (s : symbol).
Inductive typeid :=
| TIPrim (i : pidx) | TIClass (i : pidx) | TIStruct (i : pidx) | TIEnum (i : pidx)
| TIRef (t : typeid) | TIWeakRef (t : typeid) | TIArray (t : typeid)
| TIStaticArray (t : typeid) (size : Z) | TIScriptRef (t : typeid)
| TIVariant | TINull | TIVoid.
(** PartialEq for TypeId (derived). *)
Fixpoint typeid_eqb (a b : typeid) : bool :=
  match a, b with
  | TIPrim i, TIPrim j | TIClass i, TIClass j | TIStruct i, TIStruct j | TIEnum i, TIEnum j => i =? j
  | TIRef x, TIRef y | TIWeakRef x, TIWeakRef y | TIArray x, TIArray y | TIScriptRef x, TIScriptRef y =>
    typeid_eqb x y
  | TIStaticArray x n, TIStaticArray y m => typeid_eqb x y && (n =? m)
  | TIVariant, TIVariant | TINull, TINull | TIVoid, TIVoid => true
  | _, _ => false
  end.

(** Display for u32. *)
Definition dec (n : Z) : str := lit (NilEmpty.string_of_uint (N.to_uint (Z.to_N n))).

(** TypeId::unwrapped (scope.rs 310-315). *)
Fixpoint ti_unwrapped (t : typeid) : typeid :=
  match t with TIRef i | TIWeakRef i | TIScriptRef i => ti_unwrapped i | _ => t end.
(** TypeId::repr (scope.rs 317-332). *)
Fixpoint ti_repr (p : pool) (t : typeid) : outcome pool_error str :=
  match t with
  | TIPrim i | TIClass i | TIStruct i | TIEnum i => def_name p i
  | TIRef i => let* s := ti_repr p i in Done (lit "ref:" ++ s)
  | TIWeakRef i => let* s := ti_repr p i in Done (lit "wref:" ++ s)
  | TIArray i => let* s := ti_repr p i in Done (lit "array:" ++ s)
  | TIStaticArray i n => let* s := ti_repr p i in Done (s ++ lit "[" ++ dec n ++ lit "]")
  | TIScriptRef i => let* s := ti_repr p i in Done (lit "script_ref:" ++ s)
  | TIVariant => Done (lit "Variant")
  | TINull => Done (lit "ref:IScriptable")
  | TIVoid => Fail (UnexpectedEntry (lit "void type"))
  end.
(** TypeId::pretty (scope.rs 334-349). *)
Fixpoint ti_pretty (p : pool) (t : typeid) : outcome pool_error str :=
  match t with
  | TIPrim i | TIClass i | TIStruct i | TIEnum i => def_name p i
  | TIRef i => let* s := ti_pretty p i in Done (lit "ref<" ++ s ++ lit ">")
  | TIWeakRef i => let* s := ti_pretty p i in Done (lit "wref<" ++ s ++ lit ">")
  | TIArray i => let* s := ti_pretty p i in Done (lit "array<" ++ s ++ lit ">")
  | TIStaticArray i n => let* s := ti_pretty p i in Done (lit "array<" ++ s ++ lit ", " ++ dec n ++ lit ">")
  | TIScriptRef i => let* s := ti_pretty p i in Done (lit "script_ref<" ++ s ++ lit ">")
  | TIVariant => Done (lit "Variant")
  | TINull => Done (lit "Null")
  | TIVoid => Done (lit "Void")
  end.

(** hamt_sync::Map keyed by Ident, as an association list: [am_find] returns the
    latest insertion. *)
Definition amap (A : Type) := list (str * A).
Fixpoint am_find {A} (m : amap A) (s : str) : option A :=
  match m with
  | [] => None
  | (k, v) :: m' => if str_eqb k s then Some v else am_find m' s
  end.
Definition am_insert {A} (s : str) (v : A) (m : amap A) : amap A := (s, v) :: m.

(** struct Scope (scope.rs 10-18). *)
Record scope := { sc_symbols : amap symbol; sc_references : amap value_ref; sc_types : amap pidx;
                  sc_this : option pidx; sc_function : option pidx }.
Definition set_types (s : scope) (m : amap pidx) : scope :=
  {| sc_symbols := sc_symbols s; sc_references := sc_references s; sc_types := m;
     sc_this := sc_this s; sc_function := sc_function s |}.
Definition set_references (s : scope) (m : amap value_ref) : scope :=
  {| sc_symbols := sc_symbols s; sc_references := m; sc_types := sc_types s;
     sc_this := sc_this s; sc_function := sc_function s |}.
Definition set_symbols (s : scope) (m : amap symbol) : scope :=
  {| sc_symbols := m; sc_references := sc_references s; sc_types := sc_types s;
     sc_this := sc_this s; sc_function := sc_function s |}.

(** Scope::new (scope.rs 21-39). *)
Definition root_types_step (p : pool) (acc : outcome error (amap pidx)) (x : pidx * definition)
  : outcome error (amap pidx) :=
  let* m := acc in
  match df_value (snd x) with
  | DType _ => let* n := pe (def_name p (fst x)) in Done (am_insert n (fst x) m)
  | _ => Done m
  end.
Definition scope_new (p : pool) : outcome error scope :=
  let* types := fold_left (root_types_step p) (roots p) (Done []) in
  Done {| sc_symbols := []; sc_references := []; sc_types := types; sc_this := None; sc_function := None |}.
(** Scope::with_context (scope.rs 41-47). *)
Definition with_context (s : scope) (this : option pidx) (fn : pidx) : scope :=
  {| sc_symbols := sc_symbols s; sc_references := sc_references s; sc_types := sc_types s;
     sc_this := this; sc_function := Some fn |}.
(** Scope::add_local, add_parameter, add_type (scope.rs 49-59). *)
Definition sc_add_local (s : scope) (n : str) (i : pidx) : scope :=
  set_references s (am_insert n (VLocal i) (sc_references s)).
Definition sc_add_parameter (s : scope) (n : str) (i : pidx) : scope :=
  set_references s (am_insert n (VParam i) (sc_references s)).
Definition sc_add_type (s : scope) (n : str) (i : pidx) : scope :=
  set_types s (am_insert n i (sc_types s)).
(** Scope::add_symbol (scope.rs 61-77). *)
Definition sc_add_symbol (s : scope) (n : str) (sym : symbol) : scope :=
  match sym with
  | SFunctions funs =>
    match am_find (sc_symbols s) n with
    | Some (SFunctions existing) => set_symbols s (am_insert n (SFunctions (existing ++ funs)) (sc_symbols s))
    | _ => set_symbols s (am_insert n (SFunctions funs) (sc_symbols s))
    end
  | _ => set_symbols s (am_insert n sym (sc_symbols s))
  end.

(** Scope::resolve_function (scope.rs 79-87). *)
Definition resolve_function (s : scope) (n : str) : outcome cause (list pidx) :=
  match am_find (sc_symbols s) n with
  | Some (SFunctions l) => Done (map fst l)
  | _ => Fail (FunctionNotFound n)
  end.

(** The loop over fields / members with the first matching name
    (scope.rs 95-99, 118-122). *)
Fixpoint find_named (p : pool) (n : str) (l : list pidx) : outcome cause (option pidx) :=
  match l with
  | [] => Done None
  | i :: l' => let* m := pc (def_name p i) in if str_eqb m n then Done (Some i) else find_named p n l'
  end.
(** Number of recursion steps granted for walks in the pool; any walk without a
    cycle is shorter. *)
Definition pool_fuel (p : pool) : nat := S (length (pl_defs p)).
(** Scope::resolve_field (scope.rs 89-109).  The error of the recursive call is
    replaced; [unwrap] of the class name panics if it fails. *)
Fixpoint resolve_field_loop (fuel : nat) (p : pool) (n : str) (c : pidx) : outcome cause pidx :=
  match fuel with
  | O => Fail (CauseUnwind NoFuel)
  | S fuel' =>
    let* k := pc (get_class p c) in
    let* f := find_named p n (cl_fields k) in
    match f with
    | Some i => Done i
    | None =>
      if negb (cl_base k =? UNDEFINED) then
        match resolve_field_loop fuel' p n (cl_base k) with
        | Done i => Done i
        | Fail (CauseUnwind u) => Fail (CauseUnwind u)
        | Fail _ => match def_name p c with
                    | Done cn => Fail (MemberNotFound n cn)
                    | Fail _ => Fail (CauseUnwind Panicked)
                    end
        end
      else let* cn := pc (def_name p c) in Fail (MemberNotFound n cn)
    end
  end.
Definition resolve_field (p : pool) (n : str) (c : pidx) : outcome cause pidx :=
  resolve_field_loop (pool_fuel p) p n c.
(** Scope::resolve_enum_member (scope.rs 111-124). *)
Definition resolve_enum_member (p : pool) (n : str) (e : pidx) : outcome cause pidx :=
  let* k := pc (get_enum p e) in
  let* f := find_named p n (en_members k) in
  match f with
  | Some i => Done i
  | None => let* en := pc (def_name p e) in Fail (MemberNotFound n en)
  end.
(** The filter on function names (scope.rs 137-141, 164-168). *)
Fixpoint functions_named (p : pool) (n : str) (l : list pidx) : outcome cause (list pidx) :=
  match l with
  | [] => Done []
  | i :: l' =>
    let* m := pc (def_name p i) in
    let* rest := functions_named p n l' in
    Done (if str_eqb (sig_name m) n then i :: rest else rest)
  end.
(** The while loop of Scope::resolve_method (scope.rs 135-143). *)
Fixpoint resolve_method_loop (fuel : nat) (p : pool) (n : str) (c : pidx) : outcome cause (list pidx) :=
  if c =? UNDEFINED then Done []
  else match fuel with
  | O => Fail (CauseUnwind NoFuel)
  | S fuel' =>
    let* k := pc (get_class p c) in
    let* fs := functions_named p n (cl_functions k) in
    let* rest := resolve_method_loop fuel' p n (cl_base k) in
    Done (fs ++ rest)
  end.
(** Scope::resolve_method (scope.rs 126-152). *)
Definition resolve_method (p : pool) (n : str) (c : pidx) : outcome cause (list pidx) :=
  let* fs := resolve_method_loop (pool_fuel p) p n c in
  match fs with
  | [] => let* cn := pc (def_name p c) in Fail (MethodNotFound n cn)
  | _ => Done fs
  end.
(** Scope::resolve_direct_method (scope.rs 154-176). *)
Definition resolve_direct_method (p : pool) (n : str) (c : pidx) : outcome cause (list pidx) :=
  let* k := pc (get_class p c) in
  let* fs := functions_named p n (cl_functions k) in
  match fs with
  | [] => let* cn := pc (def_name p c) in Fail (MethodNotFound n cn)
  | _ => Done fs
  end.
(** Scope::resolve_value, resolve_symbol, resolve_reference (scope.rs 178-196). *)
Definition resolve_value (s : scope) (n : str) : outcome cause value_ref :=
  match am_find (sc_references s) n with Some v => Done v | None => Fail (UnresolvedReference n) end.
Definition resolve_symbol (s : scope) (n : str) : outcome cause symbol :=
  match am_find (sc_symbols s) n with Some v => Done v | None => Fail (UnresolvedReference n) end.
Definition resolve_reference (s : scope) (n : str) : outcome cause reference :=
  match resolve_value s n with
  | Done v => Done (RValue v)
  | Fail _ => omap RSymbol (resolve_symbol s n)
  end.

(** Definition::default, Definition::type_ (definition.rs 83-92, 106-108). *)
Definition type_definition (n : pidx) (t : ty) : definition :=
  {| df_name := n; df_parent := 0; df_unk1 := 0; df_unk2 := 0; df_unk3 := 0; df_value := DType t |}.
(** Scope::get_type_index (scope.rs 198-218). *)
Fixpoint get_type_index (t : typeid) (s : scope) (p : pool) {struct t} : outcome cause (pidx * scope * pool) :=
  let* name := pc (ti_repr p t) in
  match am_find (sc_types s) name with
  | Some i => Done (i, s, p)
  | None =>
    let '(p1, name_idx) := add_name p name in
    let add (value : ty) (s : scope) (p : pool) :=
      let '(p', i) := add_definition p (type_definition name_idx value) in
      Done (i, sc_add_type s name i, p') in
    let nested (inner : typeid) (mk : pidx -> ty) :=
      let* (i, s', p') := get_type_index inner s p1 in add (mk i) s' p' in
    match t with
    | TIPrim _ | TIVariant => add TPrim s p1
    | TIClass _ | TIStruct _ | TIEnum _ => add TClass s p1
    | TIRef inner => nested inner TRef
    | TIWeakRef inner => nested inner TWeakRef
    | TIArray inner => nested inner TArray
    | TIStaticArray inner size => nested inner (fun i => TStaticArray i size)
    | TIScriptRef inner => nested inner TScriptRef
    | TINull | TIVoid => Fail (CauseUnwind Panicked)
    end
  end.

(** The last component of a dotted name (scope.rs 248). *)
Definition last_part (n : str) : str := last (split x2e n) [].
(** The symbol lookups of resolve_type and resolve_type_from_pool
    (scope.rs 229-234, 249-254). *)
Definition symbol_type (s : scope) (n : str) : option typeid :=
  match am_find (sc_symbols s) n with
  | Some (SClass i _) => Some (TIClass i)
  | Some (SStruct i _) => Some (TIStruct i)
  | Some (SEnum i) => Some (TIEnum i)
  | _ => None
  end.
(** Scope::resolve_type_from_pool (scope.rs 240-280). *)
Fixpoint resolve_type_from_pool_loop (fuel : nat) (s : scope) (p : pool) (i : pidx) : outcome cause typeid :=
  match fuel with
  | O => Fail (CauseUnwind NoFuel)
  | S fuel' =>
    let rec := resolve_type_from_pool_loop fuel' s p in
    let* t := pc (get_type p i) in
    match t with
    | TPrim => let* n := pc (def_name p i) in
               Done (if str_eqb n (lit "Variant") then TIVariant else TIPrim i)
    | TClass => let* n := pc (def_name p i) in
                match symbol_type s (last_part n) with
                | Some t => Done t
                | None => Fail (UnresolvedType (last_part n))
                end
    | TRef j => omap TIRef (rec j)
    | TWeakRef j => omap TIWeakRef (rec j)
    | TArray j => omap TIArray (rec j)
    | TStaticArray j n => let* x := rec j in Done (TIStaticArray x n)
    | TScriptRef j => omap TIScriptRef (rec j)
    end
  end.
Definition resolve_type_from_pool (s : scope) (p : pool) (i : pidx) : outcome cause typeid :=
  resolve_type_from_pool_loop (pool_fuel p) s p i.

(** Scope::resolve_type (scope.rs 220-238). *)
Fixpoint resolve_type (s : scope) (p : pool) (n : typename) {struct n} : outcome cause typeid :=
  match am_find (sc_types s) (repr n) with
  | Some i => resolve_type_from_pool s p i
  | None =>
    let other :=
      match symbol_type s (repr n) with
      | Some t => Done t
      | None => Fail (UnresolvedType (pretty n))
      end in
    match n with
    | TypeName _ (Some [nested]) =>
      match tn_kind n with
      | KRef => omap TIRef (resolve_type s p nested)
      | KWRef => omap TIWeakRef (resolve_type s p nested)
      | KScriptRef => omap TIScriptRef (resolve_type s p nested)
      | KArray => omap TIArray (resolve_type s p nested)
      | KPrim => other
      end
    | _ => other
    end
  end.

(** FunctionCandidates::by_id (scope.rs 356-364). *)
Definition by_id (candidates : list pidx) (sig : str) (p : pool) : option pidx :=
  find (fun i => match def_name p i with Done n => str_eqb n sig | Fail _ => false end) candidates.
