(** What is recovered from compiled code (specification).

    [show] puts names in place of indices, [normal] says which statements of a body
    are left when it is compiled and how conditionals are laid out, [clean] forgets
    the empty statements the decompiler leaves behind.  Neither the assembler nor
    the decompiler is mentioned here. *)
From Coq Require Import String.
From Coq Require Import ZArith List Bool.
From Verif Require Import Bytes Bytecode Definitions Bundle Ast TypeNames Pool Scope TypeCheck PartsSpec Semantics BodySpec.
Import ListNotations.
Open Scope Z_scope.

(** * Empty statements *)
Definition blank (e : sexpr) : bool := match e with ESeq [] => true | _ => false end.
Fixpoint clean1 (e : sexpr) : sexpr :=
  let clean := fix clean (l : list sexpr) : list sexpr :=
    match l with [] => [] | x :: l' => if blank x then clean l' else clean1 x :: clean l' end in
  match e with
  | EIf c t f sp => EIf c (clean t) (match f with Some f => Some (clean f) | None => None end) sp
  | EWhile c b sp => EWhile c (clean b) sp
  | _ => e
  end.
Fixpoint clean (l : list sexpr) : list sexpr :=
  match l with [] => [] | x :: l' => if blank x then clean l' else clean1 x :: clean l' end.

Section Spec.
Variable p : pool.

(** * Names *)
Definition named (i : pidx) : Prop := exists n, def_name p i = Done n.
Definition name (i : pidx) : str := match def_name p i with Done n => n | Fail _ => [] end.
Definition type_text (t : typeid) : typename := from_repr (match name_of p t with Some n => n | None => [] end).
Definition shown (i : pidx) : sexpr := EIdent (N := source_ast) (name i) span0.
(** The class a function belongs to. *)
Definition parent_of (f : pidx) : pidx := match get_def p f with Done d => df_parent d | Fail _ => 0 end.
(** Casts between numbers are functions that differ in their result only: their calls
    name the type of the result. *)
Definition cast_name (n : str) : bool := str_eqb (firstn 5 n) (lit "Cast;").
Definition call_types (f : pidx) : list typename :=
  if cast_name (name f)
  then match get_function p f with
       | Done fn => match fu_return_type fn with Some t => [from_repr (name t)] | None => [] end
       | Fail _ => []
       end
  else [].

(** A class or struct in place of a receiver. *)
Definition by_class (e : texpr) : bool :=
  match e with EIdent (RSymbol (SClass _ _)) _ | EIdent (RSymbol (SStruct _ _)) _ => true | _ => false end.

(** Constants as they are written. *)
Definition show_const (k : const) : sexpr :=
  match k with
  | KInt bits v => EConstant (N := source_ast) (if bits =? 64 then CI64 v else CI32 v) span0
  | KUint bits v => EConstant (N := source_ast) (if bits =? 64 then CU64 v else CU32 v) span0
  | KFloat bits v => EConstant (N := source_ast) (if bits =? 64 then CF64 v else CF32 v) span0
  | KBool b => EConstant (N := source_ast) (CBool b) span0
  | KText k s => EConstant (N := source_ast) (CString k s) span0
  | KEnum e m => EMember (N := source_ast) (shown e) (name m) span0
  | KNull | KWeakNull => ENull (N := source_ast) span0
  end.

(** The source of a typed expression.  A declaration is the assignment of its value,
    or of what the variable starts as. *)
Fixpoint show (e : texpr) : sexpr :=
  match e with
  | EIdent (RValue (VLocal i)) _ | EIdent (RValue (VParam i)) _ => shown i
  | EConstant c _ => EConstant (N := source_ast) c span0
  | ECast (TIClass c) x _ => ECast (N := source_ast) (from_repr (name c)) (show x) span0
  | EAssign l r _ => EAssign (N := source_ast) (show l) (show r) span0
  | EArrayElem a i _ => EArrayElem (N := source_ast) (show a) (show i) span0
  | ENew (TIClass c) args _ | ENew (TIStruct c) args _ => ENew (N := source_ast) (tn_basic (name c)) (map show args) span0
  | EMember x (ClassField f) _ | EMember x (StructField f) _ => EMember (N := source_ast) (show x) (name f) span0
  | EMember _ (EnumMember en m) _ => EMember (N := source_ast) (shown en) (name m) span0
  | ECall (CFunction f) _ args _ => ECall (N := source_ast) (name f) (call_types f) (map show args) span0
  | ECall (CIntrinsic i t) _ args _ =>
    ECall (N := source_ast) (intrinsic_name i) (match i with IIntEnum | IFromVariant => [type_text t] | _ => [] end) (map show args) span0
  | EMethodCall x f args _ =>
    EMethodCall (N := source_ast) (if by_class x then shown (parent_of f) else show x) (name f) (map show args) span0
  | EConditional c t f _ => EConditional (N := source_ast) (show c) (show t) (show f) span0
  | EThis _ => EThis (N := source_ast) span0
  | ESuper _ => ESuper (N := source_ast) span0
  | ENull _ => ENull (N := source_ast) span0
  | EDeclare l _ (Some x) _ => EAssign (N := source_ast) (shown l) (show x) span0
  | EDeclare l (Some t) None _ =>
    match initial_value p t with
    | Some (InitTo (OpConst k)) => EAssign (N := source_ast) (shown l) (show_const k) span0
    | Some (InitTo (OpConstruct c)) => EAssign (N := source_ast) (shown l) (ENew (N := source_ast) (tn_basic (name c)) [] span0) span0
    | Some (InitEmptyArray _) => ECall (N := source_ast) (lit "ArrayClear") [] [shown l] span0
    | _ => ESeq (N := source_ast) []
    end
  | EReturn x _ => EReturn (N := source_ast) (match x with Some x => Some (show x) | None => None end) span0
  | EBreak _ => EBreak (N := source_ast) span0
  | ESeq es => ESeq (N := source_ast) (map show es)
  | EIf c t f _ => EIf (N := source_ast) (show c) (map show t) (match f with Some f => Some (map show f) | None => None end) span0
  | EWhile c b _ => EWhile (N := source_ast) (show c) (map show b) span0
  | _ => ESeq (N := source_ast) []
  end.

(** * Which statements are left *)
Definition stop (e : texpr) : bool := match e with EReturn _ _ | EBreak _ => true | _ => false end.
Definition stops (l : list texpr) : bool := match rev l with e :: _ => stop e | [] => false end.
(** No statements after one that does not end normally, no blocks in blocks, no
    declarations that do nothing, no empty else; what follows [else] after a then-part
    that does not end normally follows the conditional. *)
Fixpoint normal1 (e : texpr) : list texpr :=
  let normal := fix normal (l : list texpr) : list texpr :=
    match l with [] => [] | x :: l' => let o := normal1 x in if stops o then o else o ++ normal l' end in
  match e with
  | ESeq es => normal es
  | EDeclare _ (Some t) None _ => match initial_value p t with Some InitNothing => [] | _ => [e] end
  | EIf c t f sp =>
    match f with
    | None => [EIf c (normal t) None sp]
    | Some f =>
      if stops (normal t) then EIf c (normal t) None sp :: normal f
      else [EIf c (normal t) (match normal f with [] => None | f' => Some f' end) sp]
    end
  | EWhile c b sp => [EWhile c (normal b) sp]
  | _ => [e]
  end.
Fixpoint normal (l : list texpr) : list texpr :=
  match l with [] => [] | x :: l' => let o := normal1 x in if stops o then o else o ++ normal l' end.
(** A statement that does not end normally is followed by others. *)
Fixpoint dead1 (e : texpr) : bool :=
  let dead := fix dead (l : list texpr) : bool :=
    match l with
    | [] => false
    | x :: l' => if stops (normal1 x) then dead1 x || negb (match l' with [] => true | _ => false end) else dead l'
    end in
  match e with
  | ESeq es => dead es
  | EIf _ _ (Some f) _ => dead f
  | _ => false
  end.
Fixpoint dead (l : list texpr) : bool :=
  match l with
  | [] => false
  | x :: l' => if stops (normal1 x) then dead1 x || negb (match l' with [] => true | _ => false end) else dead l'
  end.

(** * The fragment *)
Definition initial_named (t : typeid) : Prop :=
  match t with
  | TIStruct c => named c
  | TIEnum e => match get_enum p e with Done en => named e /\ Forall named (en_members en) | Fail _ => True end
  | _ => True
  end.
(** A global function. *)
Definition global (f : pidx) : Prop := exists d fn n, get_def p f = Done d /\ get_function p f = Done fn /\ def_name p f = Done n /\
  get_flag fn_is_static (fu_flags fn) = true /\ df_parent d = UNDEFINED /\
  (cast_name n = true -> exists t, fu_return_type fn = Some t /\ named t).
(** A static function of a class. *)
Definition static_method (f : pidx) : Prop := exists d fn, get_def p f = Done d /\ get_function p f = Done fn /\ named f /\
  get_flag fn_is_static (fu_flags fn) = true /\ df_parent d <> UNDEFINED /\ named (df_parent d).
(** Indices have names, functions are called in the way they are declared; no super,
    no switch; the body of a loop may end; nothing in an else-part is unreachable
    unless the then-part does not end normally. *)
Definition recoverable_here (e : texpr) : Prop :=
  match e with
  | EIdent (RValue (VLocal i)) _ | EIdent (RValue (VParam i)) _ => named i
  | EDeclare l t init _ => named l /\ match t, init with Some t, None => initial_named t | _, _ => True end
  | ECast (TIClass c) _ _ | ENew (TIClass c) _ _ | ENew (TIStruct c) _ _ => named c
  | EMember _ (ClassField f) _ | EMember _ (StructField f) _ => named f
  | EMember _ (EnumMember en m) _ => named en /\ named m
  | ECall (CFunction f) _ _ _ => global f
  | EMethodCall x f _ _ => if by_class x then static_method f else named f
  | ESuper _ | ESwitch _ _ _ _ => False
  | EIf _ t (Some f) _ => stops (normal t) = true \/ dead f = false
  | EWhile _ b _ => stops (normal b) = false
  | _ => True
  end.
Definition recoverable (e : texpr) : Prop := forall x, within x e -> recoverable_here x.
End Spec.
