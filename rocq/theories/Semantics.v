(** The meaning of typed function bodies, as a specification.

    What a single operation does (reading a variable, calling a function, adding
    to an array) is left to an abstract runtime; this file says which operations a
    body performs, in which order, and what it returns.  The assembler is not
    mentioned here. *)
From Coq Require Import String.
From Coq Require Import ZArith List Bool.
From Verif Require Import Bytes Bytecode Definitions Bundle Ast Pool Scope TypeCheck.
Import ListNotations.
Open Scope Z_scope.

(** Constants. *)
Inductive const :=
| KInt (bits v : Z) | KUint (bits v : Z) | KFloat (bits v : Z) | KBool (b : bool)
| KText (k : literal) (s : str) | KEnum (e m : pidx) | KNull | KWeakNull.
(** Which function a call reaches: this very one, or the one the receiver has
    under a name. *)
Inductive callee := Direct (f : pidx) | Virtual (name : str).
(** What a definedness test looks at. *)
Inductive nullable := NRef | NWeak | NVariant.
(** Operations.  Types are given by their names. *)
Inductive op :=
| OpConst (k : const) | OpLocal (i : pidx) | OpParam (i : pidx) | OpThis
| OpAssign | OpCast (class : pidx) | OpElement (static : bool) (type : str)
| OpNew (class : pidx) | OpConstruct (class : pidx) | OpField (f : pidx) | OpStructField (f : pidx)
| OpIntrinsic (i : intrinsic) (type : option str) | OpIsDefined (k : nullable)
| OpCall (c : callee).

(** A runtime: [apply o this args] performs an operation, on the object [this] if
    there is one; an argument is [None] if it was omitted.  [None] as a result
    means that the operation never returns.  [skips o this args] says that, the
    arguments so far being [args], the next one need not be evaluated (&& and ||).
    [same t] compares the value of a switch of type [t] with a case label. *)
Record runtime := {
  state : Type;
  value : Type;
  apply : op -> option value -> list (option value) -> state -> option (value * state);
  skips : op -> option value -> list (option value) -> state -> bool;
  truth : value -> state -> bool;
  is_null : value -> state -> bool;
  same : str -> value -> value -> state -> bool;
  no_value : value
}.

(** Why there is no answer: an operation that does not return, a case body that
    runs into the next case, not a program, or not within the given number of
    loop iterations. *)
Inductive halt := Aborted | FellThrough | Malformed | OutOfFuel.
Inductive answer (A : Type) := Ans (a : A) | Halt (h : halt).
Arguments Ans {A}. Arguments Halt {A}.
Definition then_ {A B} (m : answer A) (k : A -> answer B) : answer B :=
  match m with Ans a => k a | Halt h => Halt h end.
Notation "'ask' x ':=' m 'in' k" := (then_ m (fun x => k)) (at level 200, x pattern, right associativity).
Definition need {A} (o : option A) : answer A := match o with Some a => Ans a | None => Halt Malformed end.

(** The constant a literal denotes. *)
Definition const_of (c : constant) : const :=
  match c with
  | CString k s => KText k s
  | CF32 v => KFloat 32 v
  | CF64 v => KFloat 64 v
  | CI32 v => KInt 32 v
  | CI64 v => KInt 64 v
  | CU32 v => KUint 32 v
  | CU64 v => KUint 64 v
  | CBool b => KBool b
  end.
(** The text with index [i] in a pool. *)
Definition text_at (p : pool) (k : literal) (i : pidx) : option str :=
  match (match k with
         | LString => st_get None (pl_strings p) i
         | LName => st_get (Some none_str) (pl_names p) i
         | LResource => st_get None (pl_resources p) i
         | LTweakDbId => st_get None (pl_tweakdb p) i
         end) with inl s => Some s | inr _ => None end.

(** The name of a type, the type of an expression, its name. *)
Definition name_of (p : pool) (t : typeid) : option str := match ti_repr p t with Done n => Some n | Fail _ => None end.
Definition static_type (s : scope) (p : pool) (e : texpr) : option typeid :=
  match type_of e s p with Done t => Some t | Fail _ => None end.
Definition bind_opt {A B} (o : option A) (k : A -> option B) : option B := match o with Some a => k a | None => None end.
Definition static_name (s : scope) (p : pool) (e : texpr) : option str := bind_opt (static_type s p e) (name_of p).

(** What a variable declared without a value starts as. *)
Inductive initial := InitTo (o : op) | InitEmptyArray (type : str) | InitNothing.
Definition initial_value (p : pool) (t : typeid) : option initial :=
  match t with
  | TIPrim i =>
    bind_opt (name_of p t) (fun n =>
    if str_eqb n (lit "Bool") then Some (InitTo (OpConst (KBool false)))
    else if str_eqb n (lit "Int8") then Some (InitTo (OpConst (KInt 8 0)))
    else if str_eqb n (lit "Int16") then Some (InitTo (OpConst (KInt 16 0)))
    else if str_eqb n (lit "Int32") then Some (InitTo (OpConst (KInt 32 0)))
    else if str_eqb n (lit "Int64") then Some (InitTo (OpConst (KInt 64 0)))
    else if str_eqb n (lit "Uint8") then Some (InitTo (OpConst (KUint 8 0)))
    else if str_eqb n (lit "Uint16") then Some (InitTo (OpConst (KUint 16 0)))
    else if str_eqb n (lit "Uint32") then Some (InitTo (OpConst (KUint 32 0)))
    else if str_eqb n (lit "Uint64") then Some (InitTo (OpConst (KUint 64 0)))
    else if str_eqb n (lit "Float") then Some (InitTo (OpConst (KFloat 32 0)))
    else if str_eqb n (lit "Double") then Some (InitTo (OpConst (KFloat 64 0)))
    else if str_eqb n (lit "String") then Some (InitTo (OpConst (KText LString [])))
    else if str_eqb n (lit "CName") then bind_opt (text_at p LName 0) (fun s => Some (InitTo (OpConst (KText LName s))))
    else if str_eqb n (lit "TweakDBID") then bind_opt (text_at p LTweakDbId 0) (fun s => Some (InitTo (OpConst (KText LTweakDbId s))))
    else if str_eqb n (lit "ResRef") then bind_opt (text_at p LResource 0) (fun s => Some (InitTo (OpConst (KText LResource s))))
    else Some InitNothing)
  | TIStruct c => Some (InitTo (OpConstruct c))
  | TIEnum e => match get_enum p e with
                | Done en => match en_members en with
                             | m :: _ => Some (InitTo (OpConst (KEnum e m)))
                             | [] => Some InitNothing
                             end
                | Fail _ => None
                end
  | TIRef _ => Some (InitTo (OpConst KNull))
  | TIWeakRef _ => Some (InitTo (OpConst KWeakNull))
  | TIArray _ => bind_opt (name_of p t) (fun n => Some (InitEmptyArray n))
  | _ => Some InitNothing
  end.

(** The operation of an intrinsic: most of them depend on the type of their first
    argument, two on the type expected of the result.  Each takes a fixed number
    of arguments. *)
Definition intrinsic_op (s : scope) (p : pool) (i : intrinsic) (ret : typeid) (args : list texpr) : option op :=
  if negb (length args =? arg_count i)%nat then None else
  match i, args with
  | (IVariantIsRef | IVariantIsArray | IVariantTypeName | IRefToWeakRef | IWeakRefToRef), _ => Some (OpIntrinsic i None)
  | (IIntEnum | IFromVariant), _ => bind_opt (name_of p ret) (fun n => Some (OpIntrinsic i (Some n)))
  | IIsDefined, a :: _ =>
    bind_opt (static_type s p a) (fun t =>
    match t with
    | TIRef _ | TINull => Some (OpIsDefined NRef)
    | TIWeakRef _ => Some (OpIsDefined NWeak)
    | TIVariant => Some (OpIsDefined NVariant)
    | _ => None
    end)
  | _, a :: _ => bind_opt (static_name s p a) (fun n => Some (OpIntrinsic i (Some n)))
  | _, [] => None
  end.

(** Calls of final, static and native functions and calls through super go to the
    function itself, others to the implementation the receiver has. *)
Definition callee_of (p : pool) (f : pidx) (super : bool) : option callee :=
  match get_function p f, def_name p f with
  | Done fn, Done n =>
    Some (if super || get_flag fn_is_final (fu_flags fn) || get_flag fn_is_static (fu_flags fn) || get_flag fn_is_native (fu_flags fn)
          then Direct f else Virtual n)
  | Done fn, Fail _ =>
    if super || get_flag fn_is_final (fu_flags fn) || get_flag fn_is_static (fu_flags fn) || get_flag fn_is_native (fu_flags fn)
    then Some (Direct f) else None
  | Fail _, _ => None
  end.
(** For each parameter, whether it is short-circuiting. *)
Definition short_params (p : pool) (f : pidx) : option (list bool) :=
  match get_function p f with
  | Done fn => match mapM (fun i => omap (fun x => get_flag pf_is_short_circuit (pa_flags x)) (get_parameter p i)) (fu_parameters fn) with
               | Done l => Some l
               | Fail _ => None
               end
  | Fail _ => None
  end.

Section Run.
Variables (R : runtime) (s : scope) (p : pool).
Notation St := (state R).
Notation Val := (value R).

Definition perform (o : op) (this : option Val) (args : list (option Val)) (w : St) : answer (Val * St) :=
  match apply R o this args w with Some x => Ans x | None => Halt Aborted end.
(** Arguments, left to right. *)
Definition eval_all (ev : texpr -> St -> answer (Val * St)) : list texpr -> St -> answer (list (option Val) * St) :=
  fix go l w :=
    match l with
    | [] => Ans ([], w)
    | e :: l' => ask (v, w1) := ev e w in ask (vs, w2) := go l' w1 in Ans (Some v :: vs, w2)
    end.
Definition strict (ev : texpr -> St -> answer (Val * St)) (o : option op) (args : list texpr) (w : St) : answer (Val * St) :=
  ask o := need o in ask (vs, w1) := eval_all ev args w in perform o None vs w1.
(** The arguments of a call: one for each parameter, the last ones may be missing,
    those of short-circuiting parameters may be skipped. *)
Definition eval_args (ev : texpr -> St -> answer (Val * St)) (o : op) (this : option Val) :
    list texpr -> list bool -> list (option Val) -> St -> answer (list (option Val) * St) :=
  fix go args params acc w :=
    match args with
    | [] => Ans (acc ++ repeat None (length params), w)
    | e :: args' =>
      match params with
      | [] => Halt Malformed
      | short :: params' =>
        if short && skips R o this acc w then go args' params' (acc ++ [None]) w
        else ask (v, w1) := ev e w in go args' params' (acc ++ [Some v]) w1
      end
    end.
Definition eval_call (ev : texpr -> St -> answer (Val * St)) (f : pidx) (super : bool) (this : option Val)
    (args : list texpr) (w : St) : answer (Val * St) :=
  ask c := need (callee_of p f super) in
  ask params := need (short_params p f) in
  ask (vs, w1) := eval_args ev (OpCall c) this args params [] w in
  perform (OpCall c) this vs w1.

(** The value of an expression. *)
Fixpoint eval (e : texpr) (w : St) {struct e} : answer (Val * St) :=
  match e with
  | EIdent (RValue (VLocal i)) _ => perform (OpLocal i) None [] w
  | EIdent (RValue (VParam i)) _ => perform (OpParam i) None [] w
  | EConstant c _ => perform (OpConst (const_of c)) None [] w
  | ECast (TIClass c) e _ => strict eval (Some (OpCast c)) [e] w
  | EAssign l r _ => strict eval (Some OpAssign) [l; r] w
  | EArrayElem a i _ =>
    strict eval
      (match static_type s p a with
       | Some (TIArray _) => bind_opt (static_name s p a) (fun n => Some (OpElement false n))
       | Some (TIStaticArray _ _) => bind_opt (static_name s p a) (fun n => Some (OpElement true n))
       | _ => None
       end) [a; i] w
  | ENew (TIClass c) [] _ => perform (OpNew c) None [] w
  | ENew (TIStruct c) args _ => strict eval (Some (OpConstruct c)) args w
  | EConditional c t f _ => ask (v, w1) := eval c w in if truth R v w1 then eval t w1 else eval f w1
  | EMember e (ClassField f) _ =>
    ask (v, w1) := eval e w in
    if is_null R v w1 then Ans (no_value R, w1) else perform (OpField f) (Some v) [] w1
  | EMember e (StructField f) _ => strict eval (Some (OpStructField f)) [e] w
  | EMember _ (EnumMember en m) _ => perform (OpConst (KEnum en m)) None [] w
  | ECall (CFunction f) _ args _ => eval_call eval f false None args w
  | ECall (CIntrinsic i t) _ args _ => strict eval (intrinsic_op s p i t args) args w
  | EMethodCall e f args _ =>
    match e with
    | EIdent (RSymbol (SClass _ _)) _ | EIdent (RSymbol (SStruct _ _)) _ => eval_call eval f true None args w
    | _ =>
      ask (v, w1) := eval e w in
      if is_null R v w1 then Ans (no_value R, w1)
      else eval_call eval f (match e with ESuper _ => true | _ => false end) (Some v) args w1
    end
  | ENull _ => perform (OpConst KNull) None [] w
  | EThis _ | ESuper _ => perform OpThis None [] w
  | _ => Halt Malformed
  end.

(** How a statement ends. *)
Inductive end_ := Normal (w : St) | Broke (w : St) | Returned (v : option Val) (w : St).

(** Statements one after the other, until one does not end normally. *)
Definition run_all (run : texpr -> St -> answer end_) : list texpr -> St -> answer end_ :=
  fix go l w :=
    match l with
    | [] => Ans (Normal w)
    | e :: l' => ask r := run e w in match r with Normal w1 => go l' w1 | _ => Ans r end
    end.
(** At most [fuel] iterations of a loop. *)
Fixpoint loop (fuel : nat) (cond : St -> answer (Val * St)) (body : St -> answer end_) (w : St) : answer end_ :=
  match fuel with
  | O => Halt OutOfFuel
  | S fuel' =>
    ask (v, w1) := cond w in
    if truth R v w1 then
      ask r := body w1 in
      match r with
      | Normal w2 => loop fuel' cond body w2
      | Broke w2 => Ans (Normal w2)
      | Returned v w2 => Ans (Returned v w2)
      end
    else Ans (Normal w1)
  end.
(** The number of the first case whose label equals the value of the switch; the
    number of cases if there is none. *)
Definition select (ev : texpr -> St -> answer (Val * St)) (t : str) (v : Val) :
    list (texpr * list texpr) -> St -> answer (nat * St) :=
  fix go cases w :=
    match cases with
    | [] => Ans (O, w)
    | (m, _) :: cases' =>
      ask (x, w1) := ev m w in
      if same R t v x w1 then Ans (O, w1) else ask (k, w2) := go cases' w1 in Ans (S k, w2)
    end.
(** The statements run when case number [k] is selected: those of the first case
    from there on that has any.  Only after the last case may control continue, to
    the default statements. *)
Definition run_case (seq : list texpr -> St -> answer end_) (default : St -> answer end_) :
    nat -> list (texpr * list texpr) -> St -> answer end_ :=
  fix go k cases w :=
    match cases with
    | [] => default w
    | (_, body) :: cases' =>
      match k with
      | S k' => go k' cases' w
      | O =>
        if forallb is_empty body then go O cases' w
        else
          ask r := seq body w in
          match r with
          | Normal w1 => match cases' with [] => default w1 | _ => Halt FellThrough end
          | _ => Ans r
          end
      end
    end.
(** A break ends the switch. *)
Definition leave_switch (r : end_) : end_ := match r with Broke w => Normal w | _ => r end.

(** The effect of a statement; every loop may iterate [fuel] times. *)
Fixpoint run (fuel : nat) (e : texpr) (w : St) {struct e} : answer end_ :=
  let seq := run_all (run fuel) in
  match e with
  | EDeclare l _ (Some x) _ =>
    ask (v, w1) := perform (OpLocal l) None [] w in
    ask (x, w2) := eval x w1 in
    ask (_, w3) := perform OpAssign None [Some v; Some x] w2 in
    Ans (Normal w3)
  | EDeclare l (Some t) None _ =>
    ask i := need (initial_value p t) in
    match i with
    | InitNothing => Ans (Normal w)
    | InitTo o =>
      ask (v, w1) := perform (OpLocal l) None [] w in
      ask (x, w2) := perform o None [] w1 in
      ask (_, w3) := perform OpAssign None [Some v; Some x] w2 in
      Ans (Normal w3)
    | InitEmptyArray n =>
      ask (v, w1) := perform (OpLocal l) None [] w in
      ask (_, w2) := perform (OpIntrinsic IArrayClear (Some n)) None [Some v] w1 in
      Ans (Normal w2)
    end
  | EReturn (Some x) _ => ask (v, w1) := eval x w in Ans (Returned (Some v) w1)
  | EReturn None _ => Ans (Returned None w)
  | EBreak _ => Ans (Broke w)
  | ESeq es => seq es w
  | EIf c t f _ =>
    ask (v, w1) := eval c w in
    if truth R v w1 then seq t w1 else match f with Some f => seq f w1 | None => Ans (Normal w1) end
  | EWhile c body _ => loop fuel (eval c) (seq body) w
  | ESwitch x cases default _ =>
    ask t := need (static_name s p x) in
    ask (v, w1) := eval x w in
    ask (k, w2) := select eval t v cases w1 in
    ask r := run_case seq (match default with Some d => seq d | None => fun w => Ans (Normal w) end) k cases w2 in
    Ans (leave_switch r)
  | _ => ask (_, w1) := eval e w in Ans (Normal w1)
  end.

(** How a function ends: with a return, or at the end of its body. *)
Inductive finish := Return_ (v : option Val) (w : St) | End_ (w : St).
Definition run_body (fuel : nat) (body : list texpr) (w : St) : answer finish :=
  ask r := run_all (run fuel) body w in
  match r with
  | Normal w1 => Ans (End_ w1)
  | Returned v w1 => Ans (Return_ v w1)
  | Broke _ => Halt Malformed
  end.
End Run.
