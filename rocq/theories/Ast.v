(** Abstract syntax shared by the parser, the compiler and the decompiler.

    Models core/src/ast.rs. *)
From Coq Require Import String.
From Coq Require Import ZArith List Bool.
From Verif Require Import Bytes Bytecode Bundle.
Import ListNotations.
Open Scope Z_scope.

(** Text written in this model: the bytes of an ASCII string. *)
Definition lit (s : string) : str := list_byte_of_string s.
Arguments lit s%string.

(** struct Pos, struct Span (ast.rs 304-381); positions are u32. *)
Record span := Span { sp_low : Z; sp_high : Z }.
(** Span::ZERO (ast.rs 356). *)
Definition span0 : span := Span 0 0.
(** Span::merge (ast.rs 362-364). *)
Definition span_merge (a b : span) : span :=
  Span (Z.min (sp_low a) (sp_low b)) (Z.max (sp_high a) (sp_high b)).
(** Span::contains (ast.rs 366-368). *)
Definition span_contains (a : span) (p : Z) : bool := (sp_low a <=? p) && (p <? sp_high a).
(** Span::compare_pos (ast.rs 370-378). *)
Definition span_compare (a : span) (p : Z) : comparison :=
  if p <? sp_low a then Gt else if sp_high a <? p then Lt else Eq.

(** enum Literal, enum Constant (ast.rs 298-304, 128-138); floats are bit patterns. *)
Inductive literal := LString | LName | LResource | LTweakDbId.
Inductive constant :=
| CString (l : literal) (s : str)
| CF32 (v : Z) | CF64 (v : Z) | CI32 (v : Z) | CI64 (v : Z) | CU32 (v : Z) | CU64 (v : Z)
| CBool (b : bool).

(** enum BinOp (ast.rs 142-188), enum UnOp (244-252). *)
Inductive binop :=
| AssignAdd | AssignSubtract | AssignMultiply | AssignDivide | AssignOr | AssignAnd
| LogicOr | LogicAnd | BOr | BXor | BAnd | Equal | NotEqual
| Less | LessEqual | Greater | GreaterEqual | BAdd | BSubtract | Multiply | Divide | Modulo.
Inductive unop := BitNot | LogicNot | Neg.

(** BinOp::precedence (ast.rs 191-210). *)
Definition precedence (o : binop) : nat :=
  match o with
  | AssignAdd | AssignSubtract | AssignMultiply | AssignDivide | AssignOr | AssignAnd => 10
  | LogicOr => 9 | LogicAnd => 8 | BOr => 7 | BXor => 6 | BAnd => 5
  | Equal | NotEqual => 4
  | Less | LessEqual | Greater | GreaterEqual => 3
  | BAdd | BSubtract => 2
  | Multiply | Divide | Modulo => 1
  end.
(** BinOp::associative (ast.rs 212-237). *)
Definition associative (o : binop) : bool :=
  match o with
  | LogicOr | LogicAnd | BOr | BXor | BAnd | BAdd | BSubtract | Multiply => true
  | _ => false
  end.
(** BinOp::does_associate (ast.rs 239-241). *)
Definition does_associate (self parent : binop) : bool :=
  (precedence self <? precedence parent)%nat ||
  ((precedence parent =? precedence self)%nat && associative parent).

(** Display for BinOp and UnOp (strum names, ast.rs 143-187, 246-251). *)
Definition binop_name (o : binop) : str :=
  match o with
  | AssignAdd => lit "OperatorAssignAdd" | AssignSubtract => lit "OperatorAssignSubtract"
  | AssignMultiply => lit "OperatorAssignMultiply" | AssignDivide => lit "OperatorAssignDivide"
  | AssignOr => lit "OperatorAssignOr" | AssignAnd => lit "OperatorAssignAnd"
  | LogicOr => lit "OperatorLogicOr" | LogicAnd => lit "OperatorLogicAnd"
  | BOr => lit "OperatorOr" | BXor => lit "OperatorXor" | BAnd => lit "OperatorAnd"
  | Equal => lit "OperatorEqual" | NotEqual => lit "OperatorNotEqual"
  | Less => lit "OperatorLess" | LessEqual => lit "OperatorLessEqual"
  | Greater => lit "OperatorGreater" | GreaterEqual => lit "OperatorGreaterEqual"
  | BAdd => lit "OperatorAdd" | BSubtract => lit "OperatorSubtract"
  | Multiply => lit "OperatorMultiply" | Divide => lit "OperatorDivide" | Modulo => lit "OperatorModulo"
  end.
Definition unop_name (o : unop) : str :=
  match o with
  | BitNot => lit "OperatorBitNot" | LogicNot => lit "OperatorLogicNot" | Neg => lit "OperatorNeg"
  end.
Definition all_binops : list binop :=
  [AssignAdd; AssignSubtract; AssignMultiply; AssignDivide; AssignOr; AssignAnd; LogicOr; LogicAnd;
   BOr; BXor; BAnd; Equal; NotEqual; Less; LessEqual; Greater; GreaterEqual; BAdd; BSubtract;
   Multiply; Divide; Modulo].
Definition all_unops : list unop := [BitNot; LogicNot; Neg].
(** BinOp::from_str, UnOp::from_str (strum EnumString). *)
Definition binop_of_name (s : str) : option binop := find (fun o => str_eqb (binop_name o) s) all_binops.
Definition unop_of_name (s : str) : option unop := find (fun o => str_eqb (unop_name o) s) all_unops.

(** struct TypeName (ast.rs 393-396).  [None] and [Some []] are different
    values in the code, so both are kept. *)
Inductive typename := TypeName (name : str) (args : option (list typename)).
Definition tn_name (t : typename) : str := let 'TypeName n _ := t in n.
(** TypeName::arguments (ast.rs 447-449). *)
Definition tn_args (t : typename) : list typename :=
  let 'TypeName _ a := t in match a with Some l => l | None => [] end.
(** TypeName::new (ast.rs 418-424). *)
Definition tn_new (name : str) (args : list typename) : typename :=
  TypeName name (match args with [] => None | _ => Some args end).
(** TypeName::basic (ast.rs 426-432). *)
Definition tn_basic (name : str) : typename := TypeName name None.

(** trait NameKind (ast.rs 53-60). *)
Record kinds := Kinds { kRef : Type; kCall : Type; kLocal : Type; kFun : Type; kMember : Type; kType : Type }.
(** SourceAst (ast.rs 62-72). *)
Definition source_ast : kinds := Kinds str str str str str typename.

(** enum Expr<Name> (ast.rs 14-51); Seq (271-282) is a list, SwitchCase (254-268)
    a pair; boxes are dropped. *)
Inductive expr (N : kinds) : Type :=
| EIdent (r : kRef N) (sp : span)
| EConstant (c : constant) (sp : span)
| EArrayLit (es : list (expr N)) (t : option (kType N)) (sp : span)
| EInterpolated (prefix : str) (parts : list (expr N * str)) (sp : span)
| EDeclare (l : kLocal N) (t : option (kType N)) (init : option (expr N)) (sp : span)
| ECast (t : kType N) (e : expr N) (sp : span)
| EAssign (lhs rhs : expr N) (sp : span)
| ECall (c : kCall N) (targs : list (kType N)) (args : list (expr N)) (sp : span)
| EMethodCall (e : expr N) (f : kFun N) (args : list (expr N)) (sp : span)
| EMember (e : expr N) (m : kMember N) (sp : span)
| EArrayElem (e i : expr N) (sp : span)
| ENew (t : kType N) (args : list (expr N)) (sp : span)
| EReturn (e : option (expr N)) (sp : span)
| ESeq (es : list (expr N))
| ESwitch (e : expr N) (cases : list (expr N * list (expr N))) (default : option (list (expr N))) (sp : span)
| EGoto (target : Z) (sp : span)
| EIf (c : expr N) (t : list (expr N)) (f : option (list (expr N))) (sp : span)
| EConditional (c t f : expr N) (sp : span)
| EWhile (c : expr N) (body : list (expr N)) (sp : span)
| EForIn (l : kLocal N) (e : expr N) (body : list (expr N)) (sp : span)
| EBinOp (l r : expr N) (o : binop) (sp : span)
| EUnOp (e : expr N) (o : unop) (sp : span)
| EThis (sp : span)
| ESuper (sp : span)
| EBreak (sp : span)
| ENull (sp : span).

Arguments EIdent {N}. Arguments EConstant {N}. Arguments EArrayLit {N}. Arguments EInterpolated {N}.
Arguments EDeclare {N}. Arguments ECast {N}. Arguments EAssign {N}. Arguments ECall {N}.
Arguments EMethodCall {N}. Arguments EMember {N}. Arguments EArrayElem {N}. Arguments ENew {N}.
Arguments EReturn {N}. Arguments ESeq {N}. Arguments ESwitch {N}. Arguments EGoto {N}. Arguments EIf {N}.
Arguments EConditional {N}. Arguments EWhile {N}. Arguments EForIn {N}. Arguments EBinOp {N}.
Arguments EUnOp {N}. Arguments EThis {N}. Arguments ESuper {N}. Arguments EBreak {N}. Arguments ENull {N}.

(** Expr::is_empty (ast.rs 86-91). *)
Fixpoint is_empty {N} (e : expr N) : bool :=
  match e with
  | ESeq es => forallb is_empty es
  | _ => false
  end.

(** Expr::span (ast.rs 93-125). *)
Fixpoint expr_span {N} (e : expr N) : span :=
  match e with
  | EIdent _ sp | EConstant _ sp | EArrayLit _ _ sp | EInterpolated _ _ sp | EDeclare _ _ _ sp
  | ECast _ _ sp | EAssign _ _ sp | ECall _ _ _ sp | EMethodCall _ _ _ sp | EMember _ _ sp
  | EArrayElem _ _ sp | ENew _ _ sp | EReturn _ sp | ESwitch _ _ _ sp | EGoto _ sp | EIf _ _ _ sp
  | EConditional _ _ _ sp | EWhile _ _ sp | EForIn _ _ _ sp | EBinOp _ _ _ sp | EUnOp _ _ sp
  | EThis sp | ESuper sp | EBreak sp | ENull sp => sp
  | ESeq es =>
    let fix first l := match l with [] => span0 | x :: _ => expr_span x end in
    let fix last l := match l with [] => span0 | [x] => expr_span x | _ :: l' => last l' end in
    span_merge (first es) (last es)
  end.

(** Induction with hypotheses for all sub-expressions. *)
Definition opt_all {A} (P : A -> Prop) (o : option A) : Prop := match o with Some a => P a | None => True end.

Fixpoint expr_ind' (N : kinds) (P : expr N -> Prop)
  (hIdent : forall r sp, P (EIdent r sp))
  (hConstant : forall c sp, P (EConstant c sp))
  (hArrayLit : forall es t sp, Forall P es -> P (EArrayLit es t sp))
  (hInterpolated : forall p parts sp, Forall (fun x => P (fst x)) parts -> P (EInterpolated p parts sp))
  (hDeclare : forall l t i sp, opt_all P i -> P (EDeclare l t i sp))
  (hCast : forall t e sp, P e -> P (ECast t e sp))
  (hAssign : forall l r sp, P l -> P r -> P (EAssign l r sp))
  (hCall : forall c ts args sp, Forall P args -> P (ECall c ts args sp))
  (hMethodCall : forall e f args sp, P e -> Forall P args -> P (EMethodCall e f args sp))
  (hMember : forall e m sp, P e -> P (EMember e m sp))
  (hArrayElem : forall e i sp, P e -> P i -> P (EArrayElem e i sp))
  (hNew : forall t args sp, Forall P args -> P (ENew t args sp))
  (hReturn : forall e sp, opt_all P e -> P (EReturn e sp))
  (hSeq : forall es, Forall P es -> P (ESeq es))
  (hSwitch : forall e cases d sp, P e -> Forall (fun c => P (fst c) /\ Forall P (snd c)) cases ->
     opt_all (Forall P) d -> P (ESwitch e cases d sp))
  (hGoto : forall t sp, P (EGoto t sp))
  (hIf : forall c t f sp, P c -> Forall P t -> opt_all (Forall P) f -> P (EIf c t f sp))
  (hConditional : forall c t f sp, P c -> P t -> P f -> P (EConditional c t f sp))
  (hWhile : forall c b sp, P c -> Forall P b -> P (EWhile c b sp))
  (hForIn : forall l e b sp, P e -> Forall P b -> P (EForIn l e b sp))
  (hBinOp : forall l r o sp, P l -> P r -> P (EBinOp l r o sp))
  (hUnOp : forall e o sp, P e -> P (EUnOp e o sp))
  (hThis : forall sp, P (EThis sp)) (hSuper : forall sp, P (ESuper sp))
  (hBreak : forall sp, P (EBreak sp)) (hNull : forall sp, P (ENull sp))
  (e : expr N) {struct e} : P e :=
  let rec := expr_ind' N P hIdent hConstant hArrayLit hInterpolated hDeclare hCast hAssign hCall
    hMethodCall hMember hArrayElem hNew hReturn hSeq hSwitch hGoto hIf hConditional hWhile hForIn
    hBinOp hUnOp hThis hSuper hBreak hNull in
  let fix all (l : list (expr N)) : Forall P l :=
    match l with [] => Forall_nil _ | x :: l' => Forall_cons _ (rec x) (all l') end in
  match e with
  | EIdent r sp => hIdent r sp
  | EConstant c sp => hConstant c sp
  | EArrayLit es t sp => hArrayLit es t sp (all es)
  | EInterpolated p parts sp => hInterpolated p parts sp
      ((fix go (l : list (expr N * str)) : Forall (fun x => P (fst x)) l :=
          match l with [] => Forall_nil _ | x :: l' => Forall_cons _ (rec (fst x)) (go l') end) parts)
  | EDeclare l t i sp => hDeclare l t i sp
      (match i return opt_all P i with Some x => rec x | None => I end)
  | ECast t e sp => hCast t e sp (rec e)
  | EAssign l r sp => hAssign l r sp (rec l) (rec r)
  | ECall c ts args sp => hCall c ts args sp (all args)
  | EMethodCall e f args sp => hMethodCall e f args sp (rec e) (all args)
  | EMember e m sp => hMember e m sp (rec e)
  | EArrayElem e i sp => hArrayElem e i sp (rec e) (rec i)
  | ENew t args sp => hNew t args sp (all args)
  | EReturn e sp => hReturn e sp (match e return opt_all P e with Some x => rec x | None => I end)
  | ESeq es => hSeq es (all es)
  | ESwitch e cases d sp => hSwitch e cases d sp (rec e)
      ((fix go (l : list (expr N * list (expr N))) : Forall (fun c => P (fst c) /\ Forall P (snd c)) l :=
          match l with
          | [] => Forall_nil _
          | x :: l' => Forall_cons _ (conj (rec (fst x)) (all (snd x))) (go l')
          end) cases)
      (match d return opt_all (Forall P) d with Some l => all l | None => I end)
  | EGoto t sp => hGoto t sp
  | EIf c t f sp => hIf c t f sp (rec c) (all t)
      (match f return opt_all (Forall P) f with Some l => all l | None => I end)
  | EConditional c t f sp => hConditional c t f sp (rec c) (rec t) (rec f)
  | EWhile c b sp => hWhile c b sp (rec c) (all b)
  | EForIn l e b sp => hForIn l e b sp (rec e) (all b)
  | EBinOp l r o sp => hBinOp l r o sp (rec l) (rec r)
  | EUnOp e o sp => hUnOp e o sp (rec e)
  | EThis sp => hThis sp | ESuper sp => hSuper sp | EBreak sp => hBreak sp | ENull sp => hNull sp
  end.
