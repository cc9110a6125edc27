(** The decompiler: from code to source statements.

    Models decompiler/src/lib.rs. *)
From Coq Require Import String.
From Coq Require Import ZArith List Bool.
From Verif Require Import Bytes Definitions Bundle Ast TypeNames Pool Scope TypeCheck Cursor Bytecode.
Import ListNotations.
Open Scope Z_scope.

(** decompiler/src/error.rs, with an explicit value for running out of fuel (the
    Rust functions are not known to terminate on arbitrary code). *)
Inductive derror := DEnd | DCursor (e : cursor_error) | DPool (e : pool_error) | DBad (msg : str) | DPanic | DFuel.
(** The decompiler's state is the cursor (lib.rs 14-18). *)
Definition dcursor : Type := cursor Z.
Definition X (A : Type) : Type := dcursor -> outcome derror (A * dcursor).
Definition xret {A} (a : A) : X A := fun c => Done (a, c).
Definition xfail {A} (e : derror) : X A := fun _ => Fail e.
Definition xbind {A B} (m : X A) (k : A -> X B) : X B := fun c => match m c with Done (a, c') => k a c' | Fail e => Fail e end.
Notation "'get' x <- m ; k" := (xbind m (fun x => k)) (at level 200, x pattern, right associativity).

Definition of_cursor {A} (r : A + cursor_error) : outcome derror A :=
  match r with inl a => Done a | inr EndOfCode => Fail DEnd | inr e => Fail (DCursor e) end.
Definition of_pool {A} (r : outcome pool_error A) : outcome derror A := map_err DPool r.
Definition of_string (r : str + pool_error) : outcome derror str := match r with inl s => Done s | inr e => Fail (DPool e) end.
Definition xlift {A} (r : outcome derror A) : X A := fun c => match r with Done a => Done (a, c) | Fail e => Fail e end.
(** The operations of CodeCursor (bytecode.rs 1191-1224). *)
Definition xpos : X Z := fun c => match of_cursor (pos c) with Done l => Done (l, c) | Fail e => Fail e end.
Definition xpop : X (instr Z) := fun c => of_cursor (pop c).
Definition xpeek : X (option (instr Z)) := fun c => Done (peek c, c).
Definition xseek (l : Z) : X unit := fun c => match of_cursor (seek_abs c l) with Done c' => Done (tt, c') | Fail e => Fail e end.
Definition xseek_rel (o : Z) : X unit := fun c => match of_cursor (seek_rel c o) with Done c' => Done (tt, c') | Fail e => Fail e end.
Definition xrange (from to : Z) : X (list (Z * instr Z)) := fun c => match of_cursor (range c from to) with Done l => Done (l, c) | Fail e => Fail e end.

(** enum BlockContext (lib.rs 497-511). *)
Inductive block := BLoop (prologue epilogue : Z) | BSwitch (epilogue : Z).
(** Expr::EMPTY (ast.rs 84). *)
Definition s_empty : sexpr := ESeq (N := source_ast) [].

(** resolve_jump (lib.rs 484-495): the last goto, found through the branches of
    conditionals, is taken out.  [expr] level. *)
Definition last_map (f : sexpr -> option (Z * sexpr)) : list sexpr -> option (Z * list sexpr) :=
  fix go l :=
    match l with
    | [] => None
    | e :: l' =>
      match go l' with
      | Some (t, l'') => Some (t, e :: l'')
      | None => match f e with Some (t, e') => Some (t, e' :: l') | None => None end
      end
    end.
Fixpoint resolve_jump_in (e : sexpr) : option (Z * sexpr) :=
  match e with
  | EGoto t _ => Some (t, s_empty)
  | EIf c b None sp => match last_map resolve_jump_in b with Some (t, b') => Some (t, EIf (N := source_ast) c b' None sp) | None => None end
  | EIf c b (Some f) sp =>
    match last_map resolve_jump_in b with
    | Some (t, b') => Some (t, EIf (N := source_ast) c b' (Some f) sp)
    | None => match last_map resolve_jump_in f with Some (t, f') => Some (t, EIf (N := source_ast) c b (Some f') sp) | None => None end
    end
  | _ => None
  end.
Definition resolve_jump : list sexpr -> option (Z * list sexpr) := last_map resolve_jump_in.

(** The end of a statement list that consume_path looks for (lib.rs 57-63). *)
Definition ends_path (e : sexpr) : bool := match e with EGoto _ _ | EBreak _ | EReturn _ _ => true | _ => false end.
Definition last_ends (body : list sexpr) : bool := match rev body with e :: _ => ends_path e | [] => false end.

(** slice::sort_by_key (stable) on the second component (lib.rs 157). *)
Fixpoint insert_label (x : Z * Z) (l : list (Z * Z)) : list (Z * Z) :=
  match l with
  | [] => [x]
  | y :: l' => if snd x <? snd y then x :: l else y :: insert_label x l'
  end.
Definition sort_labels (l : list (Z * Z)) : list (Z * Z) := fold_left (fun acc x => insert_label x acc) l [].

Section Decompile.
Variables (p : pool) (this_def : definition).

(** Decompiler::definition_ident (lib.rs 42-44). *)
Definition ident_of (i : pidx) : X str := xlift (of_pool (def_name p i)).
Definition type_named (i : pidx) : X typename := get n <- ident_of i; xret (from_repr n).

Section With.
(** consume_with with less fuel, and the fuel of the loops. *)
Variable rec : option sexpr -> option block -> X sexpr.
Variable fuel : nat.
(** Decompiler::consume (lib.rs 202-204). *)
Definition consume : X sexpr := rec None None.
(** Decompiler::consume_n (lib.rs 46-52). *)
Fixpoint consume_n (n : nat) : X (list sexpr) :=
  match n with
  | O => xret []
  | S n' => get e <- consume; get l <- consume_n n'; xret (e :: l)
  end.
(** Decompiler::consume_path (lib.rs 54-72); [body] is reversed.  A pop only fails at
    the end of the code, where the cursor stays. *)
Fixpoint consume_path_loop (n : nat) (target : Z) (b : option block) (body : list sexpr) : X (list sexpr) :=
  match n with
  | O => xfail DFuel
  | S n' =>
    get here <- xpos;
    if (target <=? here) || match body with e :: _ => ends_path e | [] => false end then xret (rev body)
    else fun c =>
      match rec None b c with
      | Done (e, c') => consume_path_loop n' target b (e :: body) c'
      | Fail DEnd => Done (rev body, {| cu_code := cu_code c; cu_offsets := cu_offsets c; cu_index := length (cu_code c) |})
      | Fail e => Fail e
      end
  end.
Definition consume_path (target : Z) (b : option block) : X (list sexpr) := consume_path_loop fuel target b [].
(** Decompiler::consume_intrisnic_typed, consume_call (lib.rs 74-95). *)
Definition consume_intrinsic_typed (i : intrinsic) (ts : list typename) : X sexpr :=
  get params <- consume_n (arg_count i); xret (ECall (N := source_ast) (intrinsic_name i) ts params span0).
Definition consume_intrinsic (i : intrinsic) : X sexpr := consume_intrinsic_typed i [].
(** Decompiler::consume_params (lib.rs 97-110). *)
Fixpoint skip_padding (n : nat) : X unit :=
  match n with
  | O => xfail DFuel
  | S n' => get i <- xpeek; match i with Some (Skip _) | Some Nop => get _ <- xpop; skip_padding n' | _ => xret tt end
  end.
Fixpoint consume_params_loop (n : nat) : X (list sexpr) :=
  match n with
  | O => xfail DFuel
  | S n' =>
    get _ <- skip_padding fuel;
    get i <- xpeek;
    match i with
    | Some ParamEnd => get _ <- xpop; xret []
    | _ => get e <- consume; get l <- consume_params_loop n'; xret (e :: l)
    end
  end.
Definition consume_params : X (list sexpr) := consume_params_loop fuel.
(** Decompiler::consume_conditional_jump (lib.rs 112-142). *)
Definition jumps_to (l : Z) (x : Z * instr Z) : bool := match snd x with Jump o => absolute o (fst x) =? l | _ => false end.
Definition consume_conditional_jump (position offset : Z) (b : option block) : X sexpr :=
  get condition <- consume;
  let target := absolute offset position in
  get code <- xrange position target;
  if existsb (jumps_to position) code then
    get body <- consume_path target (Some (BLoop position target));
    xret (EWhile (N := source_ast) condition body span0)
  else
    get body <- consume_path target b;
    get _ <- xseek target;
    match resolve_jump body with
    | Some (jump, body) =>
      get else_case <- consume_path jump b;
      xret (EIf (N := source_ast) condition body (Some else_case) span0)
    | None => xret (EIf (N := source_ast) condition body None span0)
    end.
(** Decompiler::consume_switch (lib.rs 144-200): the labels, in order. *)
Fixpoint switch_labels (n : nat) : X (list (Z * Z)) :=
  match n with
  | O => xfail DFuel
  | S n' =>
    get i <- xpeek;
    match i with
    | Some (SwitchLabel exit_ start) =>
      get position <- xpos;
      get _ <- xseek_rel exit_;
      get l <- switch_labels n';
      xret ((position, absolute start position) :: l)
    | Some SwitchDefault => get position <- xpos; xret [(position, position)]
    | _ => xret []
    end
  end.
(** The jump in a case that leaves the switch (lib.rs 172-177). *)
Definition leaves (exit_ : Z) (x : Z * instr Z) : option Z :=
  match snd x with Jump o => if exit_ <? absolute o (fst x) then Some (absolute o (fst x)) else None | _ => None end.
Fixpoint find_map {A B} (f : A -> option B) (l : list A) : option B :=
  match l with [] => None | x :: l' => match f x with Some y => Some y | None => find_map f l' end end.
Definition break_last (body : list sexpr) : list sexpr :=
  match rev body with EGoto _ _ :: r => rev (EBreak (N := source_ast) span0 :: r) | _ => body end.
Fixpoint switch_cases (labels : list (Z * Z)) (b : option block) : X (list (sexpr * list sexpr) * option (list sexpr)) :=
  match labels with
  | [] => xret ([], None)
  | (label, start) :: labels' =>
    get _ <- xseek label;
    get i <- xpop;
    match i with
    | SwitchLabel exit_offset _ =>
      let exit_ := absolute exit_offset label in
      get matcher <- consume;
      get b' <- match b with
                | Some _ => xret b
                | None => if start <? exit_ then get code <- xrange start exit_; xret (option_map BSwitch (find_map (leaves exit_) code)) else xret None
                end;
      get _ <- xseek start;
      get body <- consume_path exit_ b';
      get rest <- switch_cases labels' b';
      xret ((matcher, break_last body) :: fst rest, snd rest)
    | SwitchDefault =>
      get d <- match b with
               | Some (BSwitch epilogue) => consume_path epilogue b
               | _ => get e <- rec None b; xret [e]
               end;
      get rest <- switch_cases labels' b;
      xret (fst rest, Some (match snd rest with Some d' => d' | None => d end))
    | _ => xfail (DBad (lit "Unexpected switch label instruction"))
    end
  end.
Definition consume_switch (start : Z) : X sexpr :=
  get subject <- consume;
  get _ <- xseek start;
  get labels <- switch_labels fuel;
  get cd <- switch_cases (sort_labels labels) None;
  xret (ESwitch (N := source_ast) subject (fst cd) (snd cd) span0).
End With.

(** str::starts_with("Cast;") (lib.rs 321). *)
Definition starts_cast (n : str) : bool := str_eqb (firstn 5 n) (lit "Cast;").
Definition s_const (c : constant) : X sexpr := xret (EConstant (N := source_ast) c span0).
Definition s_text (l : literal) (r : str + pool_error) : X sexpr := get s <- xlift (of_string r); s_const (CString l s).
Definition s_ident (n : str) : sexpr := EIdent (N := source_ast) n span0.
Definition s_this : sexpr := EThis (N := source_ast) span0.
Definition s_method (e : sexpr) (n : str) (args : list sexpr) : sexpr := EMethodCall (N := source_ast) e n args span0.

(** Decompiler::consume_with (lib.rs 206-449). *)
Fixpoint consume_with (fuel : nat) (context : option sexpr) (b : option block) : X sexpr :=
  match fuel with
  | O => xfail DFuel
  | S fuel' =>
    let rec := consume_with fuel' in
    let intr := consume_intrinsic rec in
    get position <- xpos;
    get i <- xpop;
    match i with
    | Null | WeakRefNull => xret (ENull (N := source_ast) span0)
    | I32One => s_const (CI32 1)
    | I32Zero => s_const (CI32 0)
    | I8Const v | I16Const v | I32Const v => s_const (CI32 v)
    | I64Const v => s_const (CI64 v)
    | U8Const v | U16Const v | U32Const v => s_const (CU32 v)
    | U64Const v => s_const (CU64 v)
    | F32Const v => s_const (CF32 v)
    | F64Const v => s_const (CF64 v)
    | StringConst x => s_text LString (st_get None (pl_strings p) x)
    | NameConst x => s_text LName (st_get (Some none_str) (pl_names p) x)
    | TweakDbIdConst x => s_text LTweakDbId (st_get None (pl_tweakdb p) x)
    | ResourceConst x => s_text LResource (st_get None (pl_resources p) x)
    | TrueConst => s_const (CBool true)
    | FalseConst => s_const (CBool false)
    | EnumConst e m => get en <- ident_of e; get mn <- ident_of m; xret (EMember (N := source_ast) (s_ident en) mn span0)
    | Assign => get l <- consume rec; get r <- consume rec; xret (EAssign (N := source_ast) l r span0)
    | Target _ => xfail (DBad (lit "Unexpected Target"))
    | Local x | Param x => get n <- ident_of x; xret (s_ident n)
    | ObjectField x =>
      get n <- ident_of x;
      xret (EMember (N := source_ast) (match context with Some o => o | None => s_this end) n span0)
    | ExternalVar => xfail (DBad (lit "Unexpected ExternalVar"))
    | Switch _ start => consume_switch rec fuel' (absolute start position)
    | SwitchLabel _ _ => xfail (DBad (lit "Unexpected SwitchLabel"))
    | SwitchDefault => xfail (DBad (lit "Unexpected SwitchDefault"))
    | JumpIfFalse offset => if offset <? 0 then xfail DPanic else consume_conditional_jump rec fuel' position offset b
    | Skip offset => xret (EGoto (N := source_ast) (absolute offset position) span0)
    | Conditional _ _ =>
      get c <- consume rec; get t <- consume rec; get f <- consume rec; xret (EConditional (N := source_ast) c t f span0)
    | Construct n c =>
      get params <- consume_n rec (Z.to_nat n);
      get name <- ident_of c;
      xret (ENew (N := source_ast) (tn_basic name) params span0)
    | InvokeStatic _ _ f _ =>
      get def <- xlift (of_pool (get_def p f));
      get fn <- xlift (of_pool (get_function p f));
      get name <- xlift (of_string (st_get (Some none_str) (pl_names p) (df_name def)));
      get params <- consume_params rec fuel';
      match context with
      | Some ctx => xret (s_method ctx name params)
      | None =>
        if get_flag fn_is_static (fu_flags fn) then
          if df_parent def =? UNDEFINED then
            if starts_cast name then
              match fu_return_type fn with
              | None => xfail (DBad (lit "Cast without return type"))
              | Some t => get t <- type_named t; xret (ECall (N := source_ast) name [t] params span0)
              end
            else xret (ECall (N := source_ast) name [] params span0)
          else
            get cn <- ident_of (df_parent def);
            xret (s_method (s_ident cn) name params)
        else
          xret (s_method (if (df_name this_def =? df_name def) && negb (df_parent this_def =? df_parent def)
                          then ESuper (N := source_ast) span0 else s_this) name params)
      end
    | InvokeVirtual _ _ n _ =>
      get name <- xlift (of_string (st_get (Some none_str) (pl_names p) n));
      get params <- consume_params rec fuel';
      xret (s_method (match context with Some ctx => ctx | None => s_this end) name params)
    | ParamEnd => xfail (DBad (lit "Unexpected ParamEnd"))
    | Return =>
      get i <- xpeek;
      match i with
      | Some Nop => get _ <- xpop; xret (EReturn (N := source_ast) None span0)
      | _ => get e <- consume rec; xret (EReturn (N := source_ast) (Some e) span0)
      end
    | StructField x => get target <- consume rec; get n <- ident_of x; xret (EMember (N := source_ast) target n span0)
    | Context _ => get e <- consume rec; rec (Some e) None
    | Equals _ | RefStringEqualsString _ | StringEqualsRefString _ => intr IEquals
    | NotEquals _ | RefStringNotEqualsString _ | StringNotEqualsRefString _ => intr INotEquals
    | New c => get name <- ident_of c; xret (ENew (N := source_ast) (tn_basic name) [] span0)
    | Delete => get params <- consume_n rec 1; xret (ECall (N := source_ast) (lit "Delete") [] params span0)
    | This => xret s_this
    | ArrayClear _ => intr IArrayClear
    | ArraySize _ | StaticArraySize _ => intr IArraySize
    | ArrayResize _ => intr IArrayResize
    | ArrayFindFirst _ | ArrayFindFirstFast _ | StaticArrayFindFirst _ | StaticArrayFindFirstFast _ => intr IArrayFindFirst
    | ArrayFindLast _ | ArrayFindLastFast _ | StaticArrayFindLast _ | StaticArrayFindLastFast _ => intr IArrayFindLast
    | ArrayContains _ | ArrayContainsFast _ | StaticArrayContains _ | StaticArrayContainsFast _ => intr IArrayContains
    | ArrayCount _ | ArrayCountFast _ | StaticArrayCount _ | StaticArrayCountFast _ => intr IArrayCount
    | ArrayPush _ => intr IArrayPush
    | ArrayPop _ => intr IArrayPop
    | ArrayInsert _ => intr IArrayInsert
    | ArrayRemove _ | ArrayRemoveFast _ => intr IArrayRemove
    | ArrayGrow _ => intr IArrayGrow
    | ArrayErase _ | ArrayEraseFast _ => intr IArrayErase
    | ArrayLast _ | StaticArrayLast _ => intr IArrayLast
    | ArraySort _ => intr IArraySort
    | ArraySortByPredicate _ => intr IArraySortByPredicate
    | ArrayElement _ | StaticArrayElement _ =>
      get a <- consume rec; get x <- consume rec; xret (EArrayElem (N := source_ast) a x span0)
    | RefToBool | WeakRefToBool | VariantIsDefined => intr IIsDefined
    | EnumToI32 _ _ => intr IEnumInt
    | I32ToEnum t _ => get t <- type_named t; consume_intrinsic_typed rec IIntEnum [t]
    | DynamicCast t _ => get t <- type_named t; get e <- consume rec; xret (ECast (N := source_ast) t e span0)
    | ToString _ | VariantToString => intr IToString
    | ToVariant _ => intr IToVariant
    | FromVariant t => get t <- type_named t; consume_intrinsic_typed rec IFromVariant [t]
    | VariantIsRef => intr IVariantIsRef
    | VariantIsArray => intr IVariantIsArray
    | VariantTypeName => intr IVariantTypeName
    | WeakRefToRef => intr IWeakRefToRef
    | RefToWeakRef => intr IRefToWeakRef
    | AsRef _ => intr IAsRef
    | Deref _ => intr IDeref
    | Nop | Breakpoint _ | StartProfiling _ => xret s_empty
    | Jump offset =>
      if offset =? 3 then xret s_empty else
      let loc := absolute offset position in
      let goto := xret (EGoto (N := source_ast) loc span0) in
      match b with
      | Some (BLoop prologue epilogue) =>
        if loc =? epilogue then xret (EBreak (N := source_ast) span0)
        else get here <- xpos; if (loc =? prologue) && (here =? epilogue) then xret s_empty else goto
      | Some (BSwitch epilogue) => if loc =? epilogue then xret (EBreak (N := source_ast) span0) else goto
      | None => goto
      end
    end
  end.

(** Location::MAX (bytecode.rs 974). *)
Definition location_max : Z := 2 ^ 16 - 1.
(** Decompiler::decompile (lib.rs 38-40). *)
Definition decompile (fuel : nat) (code : code Z) : outcome derror (list sexpr) :=
  match consume_path (consume_with fuel) fuel location_max None (new_cursor code) with Done (body, _) => Done body | Fail e => Fail e end.
End Decompile.

(** BTreeMap<Ident, TypeName> (lib.rs 25): entries in the order of their names. *)
Fixpoint str_leb (a b : str) : bool :=
  match a, b with
  | [], _ => true
  | _, [] => false
  | x :: a', y :: b' => if Byte.eqb x y then str_leb a' b' else Z_of_byte x <? Z_of_byte y
  end.
Definition locals_map : Type := list (str * typename).
(** BTreeMap::insert: a value that is there already is replaced. *)
Fixpoint lm_place (n : str) (t : typename) (m : locals_map) : locals_map :=
  match m with
  | [] => [(n, t)]
  | (k, u) :: m' => if str_leb n k then (n, t) :: m else (k, u) :: lm_place n t m'
  end.
Definition lm_insert (n : str) (t : typename) (m : locals_map) : locals_map :=
  if existsb (fun x => str_eqb n (fst x)) m
  then map (fun x => if str_eqb n (fst x) then (n, t) else x) m
  else lm_place n t m.
(** BTreeMap::remove. *)
Fixpoint lm_remove (n : str) (m : locals_map) : option (typename * locals_map) :=
  match m with
  | [] => None
  | (k, u) :: m' =>
    if str_eqb n k then Some (u, m')
    else match lm_remove n m' with Some (t, m'') => Some (t, (k, u) :: m'') | None => None end
  end.

(** The leading assignments of merge_declarations (lib.rs 457-472): the locals that
    are left, the new statements, the statements that follow. *)
Fixpoint merge_leading (m : locals_map) (seq : list sexpr) : locals_map * list sexpr * list sexpr :=
  match seq with
  | EAssign lhs rhs _ :: seq' =>
    let again m e := let '(m', init, rest) := merge_leading m seq' in (m', e :: init, rest) in
    match lhs with
    | EIdent n _ =>
      match lm_remove n m with
      | Some (t, m') => again m' (EDeclare (N := source_ast) n (Some t) (Some rhs) span0)
      | None => again m (EAssign (N := source_ast) lhs rhs span0)
      end
    | _ => again m (EAssign (N := source_ast) lhs rhs span0)
    end
  | _ => (m, [], seq)
  end.
(** merge_declarations (lib.rs 452-482). *)
Definition merge_declarations (m : locals_map) (seq : list sexpr) : list sexpr :=
  let '(m', init, rest) := merge_leading m seq in
  map (fun x => EDeclare (N := source_ast) (fst x) (Some (snd x)) None span0) m' ++ init ++ rest.

(** The names and types of the locals (lib.rs 25-31). *)
Fixpoint named_locals (p : pool) (l : list pidx) (m : locals_map) : outcome derror locals_map :=
  match l with
  | [] => Done m
  | i :: l' =>
    let* lo := of_pool (get_local p i) in
    let* n := of_pool (def_name p i) in
    let* t := of_pool (def_name p (lo_type lo)) in
    named_locals p l' (lm_insert n (from_repr t) m)
  end.
(** Decompiler::decompiled (lib.rs 24-36). *)
Definition decompiled (fuel : nat) (f : function) (def : definition) (p : pool) : outcome derror (list sexpr) :=
  let* m := named_locals p (fu_locals f) [] in
  let* body := decompile p def fuel (fu_code f) in
  Done (merge_declarations m body).
