(** Code generation: from a typed function body to instructions with labels.

    Models compiler/src/assembler.rs 13-575, 595-607; into_code (577-593) is in
    Cursor.v. *)
From Coq Require Import String.
From Coq Require Import ZArith List Bool.
From Verif Require Import Bytes Bytecode Definitions Bundle Ast Pool Scope TypeCheck Cursor SourceMap.
Import ListNotations.
Open Scope Z_scope.

(** struct Assembler (assembler.rs 13-17) without the instructions, with the scope
    and the pool it is given.  The instructions are only ever appended to, so an
    action returns those it appends. *)
Record astate := { as_labels : nat; as_scope : scope; as_pool : pool }.
Definition A (X : Type) := astate -> outcome error (X * code label * astate).
Definition aret {X} (x : X) : A X := fun t => Done (x, [], t).
Definition abind {X Y} (m : A X) (k : X -> A Y) : A Y :=
  fun t => match m t with
           | Fail e => Fail e
           | Done (x, c1, t1) =>
             match k x t1 with Fail e => Fail e | Done (y, c2, t2) => Done (y, c1 ++ c2, t2) end
           end.
Notation "'gen' x '<-' m ';' k" := (abind m (fun x => k)) (at level 200, x pattern, m at level 100, k at level 200).
(** A computation that only reads the scope and the pool. *)
Definition aread {X} (f : scope -> pool -> outcome error X) : A X :=
  fun t => match f (as_scope t) (as_pool t) with Done x => Done (x, [], t) | Fail e => Fail e end.
Definition afail {X} (e : error) : A X := fun _ => Fail e.
Definition afailc {X} (sp : span) (c : cause) : A X := fun _ => failc sp c.

(** Assembler::emit, emit_label (assembler.rs 28-36). *)
Definition emit (i : instr label) : A unit := fun t => Done (tt, [i], t).
(** Assembler::new_label (assembler.rs 38-43). *)
Definition new_label : A nat :=
  fun t => Done (as_labels t, [], {| as_labels := S (as_labels t); as_scope := as_scope t; as_pool := as_pool t |}).
(** Scope::get_type_index (scope.rs 198-218) on the state. *)
Definition type_index (sp : span) (ty : typeid) : A pidx :=
  fun t => match with_span sp (get_type_index ty (as_scope t) (as_pool t)) with
           | Done (i, s, p) => Done (i, [], {| as_labels := as_labels t; as_scope := s; as_pool := p |})
           | Fail e => Fail e
           end.
(** strings.add, names.add, resources.add, tweakdb_ids.add on the pool. *)
Definition add_literal (k : literal) (s : str) (p : pool) : pool * pidx :=
  match k with
  | LString => let '(n, i) := st_add None (pl_strings p) s in
               ({| pl_names := pl_names p; pl_tweakdb := pl_tweakdb p; pl_resources := pl_resources p;
                   pl_strings := n; pl_defs := pl_defs p |}, i)
  | LName => add_name p s
  | LResource => let '(n, i) := st_add None (pl_resources p) s in
                 ({| pl_names := pl_names p; pl_tweakdb := pl_tweakdb p; pl_resources := n;
                     pl_strings := pl_strings p; pl_defs := pl_defs p |}, i)
  | LTweakDbId => let '(n, i) := st_add None (pl_tweakdb p) s in
                  ({| pl_names := pl_names p; pl_tweakdb := n; pl_resources := pl_resources p;
                      pl_strings := pl_strings p; pl_defs := pl_defs p |}, i)
  end.
Definition literal_index (k : literal) (s : str) : A pidx :=
  fun t => let '(p, i) := add_literal k s (as_pool t) in
           Done (i, [], {| as_labels := as_labels t; as_scope := as_scope t; as_pool := p |}).

(** A loop over the elements of a vector. *)
Definition each {X} (f : X -> A unit) : list X -> A unit :=
  fix go l := match l with [] => aret tt | x :: l' => gen _ <- f x; go l' end.

(** The constants (assembler.rs 60-97). *)
Definition emit_constant (c : constant) : A unit :=
  match c with
  | CString LString s => gen i <- literal_index LString s; emit (StringConst i)
  | CString LName s => gen i <- literal_index LName s; emit (NameConst i)
  | CString LResource s => gen i <- literal_index LResource s; emit (ResourceConst i)
  | CString LTweakDbId s => gen i <- literal_index LTweakDbId s; emit (TweakDbIdConst i)
  | CF32 v => emit (F32Const v)
  | CF64 v => emit (F64Const v)
  | CI32 v => emit (I32Const v)
  | CI64 v => emit (I64Const v)
  | CU32 v => emit (U32Const v)
  | CU64 v => emit (U64Const v)
  | CBool true => emit TrueConst
  | CBool false => emit FalseConst
  end.

(** Assembler::emit_initializer (assembler.rs 319-376). *)
Definition emit_initializer (sp : span) (local : pidx) (ty : typeid) : A unit :=
  let assign (i : instr label) := gen _ <- emit Assign; gen _ <- emit (Local local); emit i in
  match ty with
  | TIPrim i =>
    gen n <- aread (fun _ p => with_span sp (pc (def_name p i)));
    if str_eqb n (lit "Bool") then assign FalseConst
    else if str_eqb n (lit "Int8") then assign (I8Const 0)
    else if str_eqb n (lit "Int16") then assign (I16Const 0)
    else if str_eqb n (lit "Int32") then assign I32Zero
    else if str_eqb n (lit "Int64") then assign (I64Const 0)
    else if str_eqb n (lit "Uint8") then assign (U8Const 0)
    else if str_eqb n (lit "Uint16") then assign (U16Const 0)
    else if str_eqb n (lit "Uint32") then assign (U32Const 0)
    else if str_eqb n (lit "Uint64") then assign (U64Const 0)
    else if str_eqb n (lit "Float") then assign (F32Const 0)
    else if str_eqb n (lit "Double") then assign (F64Const 0)
    else if str_eqb n (lit "String") then gen e <- literal_index LString []; assign (StringConst e)
    else if str_eqb n (lit "CName") then assign (NameConst UNDEFINED)
    else if str_eqb n (lit "TweakDBID") then assign (TweakDbIdConst UNDEFINED)
    else if str_eqb n (lit "ResRef") then assign (ResourceConst UNDEFINED)
    else aret tt
  | TIStruct s => assign (Construct 0 s)
  | TIEnum e =>
    gen en <- aread (fun _ p => with_span sp (pc (get_enum p e)));
    match en_members en with m :: _ => assign (EnumConst e m) | [] => aret tt end
  | TIRef _ => assign Null
  | TIWeakRef _ => assign WeakRefNull
  | TIArray _ => gen i <- type_index sp ty; gen _ <- emit (ArrayClear i); emit (Local local)
  | _ => aret tt
  end.

(** Assembler::is_rvalue_ref (assembler.rs 438-450), with unwrap_or(false). *)
Definition is_rvalue_ref (e : texpr) (s : scope) (p : pool) : bool :=
  match type_of e s p with
  | Done (TIScriptRef _) =>
    match e with
    | ECall (CIntrinsic IAsRef _) _ (a :: _) _ => is_prvalue a
    | _ => true
    end
  | _ => false
  end.
(** The loop computing invoke_flags (assembler.rs 394-400).  The shift amount of
    a u16 is taken modulo 16 in release builds. *)
Fixpoint invoke_flags (n : nat) (args : list texpr) (s : scope) (p : pool) : Z :=
  match args with
  | [] => 0
  | a :: args' =>
    Z.lor (if is_rvalue_ref a s p then Z.shiftl 1 (Z.of_nat n mod 16) else 0) (invoke_flags (S n) args' s p)
  end.
(** The line number of a call (assembler.rs 402-406). *)
Definition call_line (files : list file) (sp : span) : outcome error Z :=
  match files_lookup files sp with
  | Done (Some (_, (line, _), _)) => Done (if Z.of_nat line <? 65536 then Z.of_nat line else 0)
  | Done None => Done 0
  | Fail u => Fail (ErrUnwind u)
  end.
(** The arguments and the parameter flags, zipped (assembler.rs 413-422). *)
Definition emit_args (asm : texpr -> A unit) : list texpr -> list Z -> A unit :=
  fix go args flags :=
    match args, flags with
    | a :: args', fl :: flags' =>
      gen _ <- (if get_flag pf_is_short_circuit fl
                then gen skip <- new_label; gen _ <- emit (Skip skip); gen _ <- asm a; emit (Target skip)
                else asm a);
      go args' flags'
    | _, _ => aret tt
    end.
Definition span_zero : span := Span 0 0.
(** Assembler::assemble_call (assembler.rs 378-436). *)
Definition emit_call (files : list file) (asm : texpr -> A unit)
    (f : pidx) (args : list texpr) (force_static : bool) (sp : span) : A unit :=
  gen fn <- aread (fun _ p => pe (get_function p f));
  gen flags <- aread (fun _ p => mapM (fun i => omap pa_flags (pe (get_parameter p i))) (fu_parameters fn));
  gen exit <- new_label;
  gen inv <- aread (fun s p => Done (invoke_flags 0 args s p));
  gen line <- aread (fun _ _ => call_line files sp);
  gen _ <- (if negb force_static && negb (get_flag fn_is_final (fu_flags fn)) &&
               negb (get_flag fn_is_static (fu_flags fn)) && negb (get_flag fn_is_native (fu_flags fn))
            then gen d <- aread (fun _ p => pe (get_def p f)); emit (InvokeVirtual exit line (df_name d) inv)
            else emit (InvokeStatic exit line f inv));
  gen _ <- emit_args asm args flags;
  if (length flags <? length args)%nat
  then afail (CompileError (UnsupportedFeature (lit "cannot emit function call (probably invalid signature)")) span_zero)
  else
    gen _ <- each (fun _ => emit Nop) (repeat tt (length flags - length args));
    gen _ <- emit ParamEnd;
    emit (Target exit).

(** get_arg_type(0) (assembler.rs 461-462); indexing panics without arguments. *)
Definition arg_type (args : list texpr) : A typeid :=
  match args with
  | [] => afail (ErrUnwind Panicked)
  | a :: _ => aread (fun s p => type_of a s p)
  end.
(** Assembler::assemble_intrinsic (assembler.rs 452-575), the instruction. *)
Definition emit_intrinsic (op : intrinsic) (args : list texpr) (ret : typeid) (sp : span) : A unit :=
  let of_arg (k : pidx -> instr label) := gen t <- arg_type args; gen i <- type_index sp t; emit (k i) in
  match op with
  | IEquals => of_arg Equals
  | INotEquals => of_arg NotEquals
  | IArrayClear => of_arg ArrayClear
  | IArraySize => of_arg ArraySize
  | IArrayResize => of_arg ArrayResize
  | IArrayFindFirst => of_arg ArrayFindFirst
  | IArrayFindLast => of_arg ArrayFindLast
  | IArrayContains => of_arg ArrayContains
  | IArrayCount => of_arg ArrayCount
  | IArrayPush => of_arg ArrayPush
  | IArrayPop => of_arg ArrayPop
  | IArrayInsert => of_arg ArrayInsert
  | IArrayRemove => of_arg ArrayRemove
  | IArrayGrow => of_arg ArrayGrow
  | IArrayErase => of_arg ArrayErase
  | IArrayLast => of_arg ArrayLast
  | IArraySort => of_arg ArraySort
  | IArraySortByPredicate => of_arg ArraySortByPredicate
  | IToString =>
    gen t <- arg_type args;
    match t with
    | TIVariant => emit VariantToString
    | _ => gen i <- type_index sp t; emit (ToString i)
    end
  | IEnumInt => of_arg (fun i => EnumToI32 i 4)
  | IIntEnum => gen i <- type_index sp ret; emit (I32ToEnum i 4)
  | IToVariant => of_arg Bytecode.ToVariant
  | IFromVariant => gen i <- type_index sp ret; emit (Bytecode.FromVariant i)
  | IVariantIsRef => emit VariantIsRef
  | IVariantIsArray => emit VariantIsArray
  | IVariantTypeName => emit VariantTypeName
  | IAsRef => of_arg AsRef
  | IDeref => of_arg Deref
  | IRefToWeakRef => emit Bytecode.RefToWeakRef
  | IWeakRefToRef => emit Bytecode.WeakRefToRef
  | IIsDefined =>
    gen t <- arg_type args;
    match t with
    | TIRef _ | TINull => emit RefToBool
    | TIWeakRef _ => emit WeakRefToBool
    | TIVariant => emit VariantIsDefined
    | _ => afail (ErrUnwind Panicked)
    end
  end.

(** The loops over the cases of a switch (assembler.rs 174-191).  The inner for
    loop shares the outer iterator and ends at the first case with a body that
    is not empty: [body] is the label of the running iteration of the outer loop,
    [None] when the next case starts a new one.  Returns next_case_label. *)
Definition emit_cases (asm : texpr -> option nat -> A unit) (exit : nat) :
    list (texpr * list texpr) -> option nat -> nat -> A nat :=
  fix go cases body next :=
    match cases with
    | [] => aret next
    | (m, stmts) :: cases' =>
      gen body <- (match body with Some b => aret b | None => new_label end);
      gen _ <- emit (Target next);
      gen next <- new_label;
      gen _ <- emit (SwitchLabel next body);
      gen _ <- asm m None;
      if forallb is_empty stmts then go cases' (Some body) next
      else
        gen _ <- emit (Target body);
        gen _ <- each (fun e => asm e (Some exit)) stmts;
        go cases' None next
    end.

(** Assembler::assemble and assemble_seq (assembler.rs 45-317).  [exit] is the
    label a break jumps to. *)
Fixpoint asm (files : list file) (e : texpr) (exit : option nat) {struct e} : A unit :=
  let value (e : texpr) := asm files e None in
  let seq (l : list texpr) (exit : option nat) := each (fun e => asm files e exit) l in
  match e with
  | EIdent (RValue (VLocal i)) _ => emit (Local i)
  | EIdent (RValue (VParam i)) _ => emit (Param i)
  | EIdent (RSymbol _) sp => afailc sp (UnexpectedToken (lit "symbol"))
  | EConstant c _ => emit_constant c
  | ECast t e sp =>
    match t with
    | TIClass c => gen _ <- emit (DynamicCast c 0); value e
    | _ => gen n <- aread (fun _ p => pe (ti_pretty p t)); afailc sp (UnsupportedOperation (lit "casting") n)
    end
  | EDeclare l _ (Some init) _ => gen _ <- emit Assign; gen _ <- emit (Local l); value init
  | EDeclare l (Some t) None sp => emit_initializer sp l t
  | EDeclare _ None None _ => afail (ErrUnwind Panicked)
  | EAssign lhs rhs _ => gen _ <- emit Assign; gen _ <- value lhs; value rhs
  | EArrayElem e i sp =>
    gen t <- aread (fun s p => type_of e s p);
    gen _ <- match t with
             | TIArray _ => gen k <- type_index sp t; emit (ArrayElement k)
             | TIStaticArray _ _ => gen k <- type_index sp t; emit (StaticArrayElement k)
             | _ => gen n <- aread (fun _ p => pe (ti_pretty p t)); afailc sp (UnsupportedOperation (lit "indexing") n)
             end;
    gen _ <- value e;
    value i
  | ENew t args sp =>
    match t with
    | TIClass c => emit (New c)
    | TIStruct c => gen _ <- emit (Construct (wrap_u 8 (Z.of_nat (length args))) c); each value args
    | _ => gen n <- aread (fun _ p => pe (ti_pretty p t)); afailc sp (UnsupportedOperation (lit "constructing") n)
    end
  | EReturn (Some e) _ => gen _ <- emit Return; value e
  | EReturn None _ => gen _ <- emit Return; emit Nop
  | ESeq es => seq es exit
  | ESwitch e cases default sp =>
    gen t <- aread (fun s p => type_of e s p);
    gen first <- new_label;
    gen next <- new_label;
    gen exit <- new_label;
    gen k <- type_index sp t;
    gen _ <- emit (Switch k first);
    gen _ <- value e;
    gen _ <- emit (Target first);
    gen next <- emit_cases (asm files) exit cases None next;
    gen _ <- emit (Target next);
    gen _ <- match default with
             | Some body => gen _ <- emit SwitchDefault; seq body (Some exit)
             | None => aret tt
             end;
    emit (Target exit)
  | EIf c t f _ =>
    gen else_ <- new_label;
    gen _ <- emit (JumpIfFalse else_);
    gen _ <- value c;
    gen _ <- seq t exit;
    match f with
    | Some f =>
      gen out <- new_label;
      gen _ <- emit (Jump out);
      gen _ <- emit (Target else_);
      gen _ <- seq f exit;
      emit (Target out)
    | None => emit (Target else_)
    end
  | EConditional c t f _ =>
    gen false_ <- new_label;
    gen out <- new_label;
    gen _ <- emit (Conditional false_ out);
    gen _ <- value c;
    gen _ <- value t;
    gen _ <- emit (Target false_);
    gen _ <- value f;
    emit (Target out)
  | EWhile c body _ =>
    gen out <- new_label;
    gen loop <- new_label;
    gen _ <- emit (Target loop);
    gen _ <- emit (JumpIfFalse out);
    gen _ <- value c;
    gen _ <- seq body (Some out);
    gen _ <- emit (Jump loop);
    emit (Target out)
  | EMember e (ClassField f) _ =>
    gen out <- new_label;
    gen _ <- emit (Context out);
    gen _ <- value e;
    gen _ <- emit (ObjectField f);
    emit (Target out)
  | EMember e (StructField f) _ => gen _ <- emit (Bytecode.StructField f); value e
  | EMember _ (EnumMember en m) _ => emit (EnumConst en m)
  | ECall (CFunction f) _ args sp => emit_call files value f args false sp
  | ECall (CIntrinsic op t) _ args sp => gen _ <- emit_intrinsic op args t sp; each value args
  | EMethodCall e f args sp =>
    gen fn <- aread (fun _ p => pe (get_function p f));
    let static := get_flag fn_is_static (fu_flags fn) in
    let on_instance :=
      if static then
        gen n <- aread (fun _ p => pe (def_name p f)); afailc sp (InvalidStaticMethodCall n)
      else
        gen out <- new_label;
        gen _ <- emit (Context out);
        gen _ <- value e;
        gen _ <- emit_call files value f args (match e with ESuper _ => true | _ => false end) sp;
        emit (Target out) in
    match e with
    | EIdent (RSymbol (SClass _ _)) isp | EIdent (RSymbol (SStruct _ _)) isp =>
      if static then emit_call files value f args true isp
      else gen n <- aread (fun _ p => pe (def_name p f)); afailc isp (InvalidNonStaticMethodCall n)
    | _ => on_instance
    end
  | ENull _ => emit Null
  | EThis _ | ESuper _ => emit This
  | EBreak sp => match exit with Some l => emit (Jump l) | None => afailc sp (UnsupportedFeature (lit "Break")) end
  | EArrayLit _ _ sp => afailc sp (UnsupportedFeature (lit "ArrayLit"))
  | EInterpolated _ _ sp => afailc sp (UnsupportedFeature (lit "InterpolatedString"))
  | EForIn _ _ _ sp => afailc sp (UnsupportedFeature (lit "For-in"))
  | EBinOp _ _ _ sp => afailc sp (UnsupportedFeature (lit "BinOp"))
  | EUnOp _ _ sp => afailc sp (UnsupportedFeature (lit "UnOp"))
  | EGoto _ sp => afailc sp (UnsupportedFeature (lit "Goto"))
  end.

(** Assembler::from_body (assembler.rs 595-607), before into_code. *)
Definition asm_body (files : list file) (body : list texpr) : A unit :=
  gen _ <- each (fun e => asm files e None) body; emit Nop.
(** Assembler::from_body (assembler.rs 595-607); into_code panics on labels out of
    range. *)
Definition from_body (files : list file) (body : list texpr) (s : scope) (p : pool) :
    outcome error (code Z * scope * pool) :=
  match asm_body files body {| as_labels := 0; as_scope := s; as_pool := p |} with
  | Fail e => Fail e
  | Done (_, c, t) =>
    match into_code (as_labels t) c with
    | Some out => Done (out, as_scope t, as_pool t)
    | None => Fail (ErrUnwind Panicked)
    end
  end.
