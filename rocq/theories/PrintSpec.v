(** What it means that a printed expression is read back. *)
From Coq Require Import String.
From Coq Require Import ZArith List Bool.
From Verif Require Import Bytes Definitions Bundle Ast TypeNames Pool Scope TypeCheck Printer Parser.
Import ListNotations.
Open Scope Z_scope.

(** A name written by [binop_name] is an operator, a name written by [unop_name] too;
    everything else is a function. *)
Definition plain_function (verbose : bool) (name : str) : Prop :=
  binop_of_name (short_name name) = None /\ unop_of_name (short_name name) = None /\
  hidden verbose (short_name name) = false.

(** [same v e e']: the expression [e'] of the source language says what the expression
    [e] of the decompiler says.  A call of an operator function is the operator; a
    function is called by its name without the signature; positions do not matter;
    unless the output is verbose, the conversions between kinds of references are
    left out. *)
Inductive same (v : bool) : sexpr -> sexpr -> Prop :=
| same_ident n s s' : same v (EIdent (N := source_ast) n s) (EIdent (N := source_ast) n s')
| same_constant c s s' : same v (EConstant (N := source_ast) c s) (EConstant (N := source_ast) c s')
| same_null s s' : same v (ENull (N := source_ast) s) (ENull (N := source_ast) s')
| same_this s s' : same v (EThis (N := source_ast) s) (EThis (N := source_ast) s')
| same_super s s' : same v (ESuper (N := source_ast) s) (ESuper (N := source_ast) s')
| same_binary c ts l r s o l' r' s' :
  binop_of_name (short_name c) = Some o -> same v l l' -> same v r r' ->
  same v (ECall (N := source_ast) c ts [l; r] s) (EBinOp (N := source_ast) l' r' o s')
| same_unary c ts a s o a' s' :
  binop_of_name (short_name c) = None -> unop_of_name (short_name c) = Some o -> same v a a' ->
  same v (ECall (N := source_ast) c ts [a] s) (EUnOp (N := source_ast) a' o s')
| same_hidden c ts a s a' :
  binop_of_name (short_name c) = None -> unop_of_name (short_name c) = None ->
  hidden v (short_name c) = true -> same v a a' ->
  same v (ECall (N := source_ast) c ts [a] s) a'
| same_call c ts args s args' s' :
  plain_function v c -> Forall2 (same v) args args' ->
  same v (ECall (N := source_ast) c ts args s) (ECall (N := source_ast) (short_name c) ts args' s')
| same_method o c args s o' args' s' :
  same v o o' -> Forall2 (same v) args args' ->
  same v (EMethodCall (N := source_ast) o c args s) (EMethodCall (N := source_ast) o' (short_name c) args' s')
| same_member x m s x' s' : same v x x' -> same v (EMember (N := source_ast) x m s) (EMember (N := source_ast) x' m s')
| same_element a i s a' i' s' :
  same v a a' -> same v i i' -> same v (EArrayElem (N := source_ast) a i s) (EArrayElem (N := source_ast) a' i' s')
| same_new t args s args' s' :
  Forall2 (same v) args args' -> same v (ENew (N := source_ast) t args s) (ENew (N := source_ast) t args' s')
| same_cast t x s x' s' : same v x x' -> same v (ECast (N := source_ast) t x s) (ECast (N := source_ast) t x' s')
| same_conditional c a b s c' a' b' s' :
  same v c c' -> same v a a' -> same v b b' ->
  same v (EConditional (N := source_ast) c a b s) (EConditional (N := source_ast) c' a' b' s')
| same_assign l r s l' r' s' :
  same v l l' -> same v r r' -> same v (EAssign (N := source_ast) l r s) (EAssign (N := source_ast) l' r' s').

(** Reading back an expression. *)
Definition reads_back (fl : float_text) (v : bool) (e : sexpr) : Prop :=
  exists t e', show fl v e None 0 = Some t /\ parse_expr fl t = Some e' /\ same v e e'.

(** Identifiers. *)
Definition is_name (s : str) : bool :=
  match s with b :: s' => is_alpha b && forallb is_word_char s' | [] => false end.
Definition reserved (s : str) : bool :=
  existsb (str_eqb s) [lit "new"; lit "null"; lit "this"; lit "super"; lit "true"; lit "false"].
Fixpoint type_ok (t : typename) : bool :=
  match t with
  | TypeName n None => is_name n
  | TypeName n (Some []) => false
  | TypeName n (Some l) => is_name n && forallb type_ok l
  end.
(** Constants whose text is read as the same constant. *)
Definition constant_ok (c : constant) : bool :=
  match c with
  | CString _ s => utf8_valid s
  | CI32 z => (0 <=? z) && (z <? 2 ^ 31)
  | CI64 z => (0 <=? z) && (z <? 2 ^ 63)
  | CU32 z => (0 <=? z) && (z <? 2 ^ 32)
  | CBool _ => true
  | _ => false
  end.

(** A text with an escape [\u{..}] of up to six digits that names no character. *)
Definition bad_escape (i : str) : Prop :=
  exists p w s, i = p ++ lit "\u{" ++ w ++ lit "}" ++ s /\
    w <> [] /\ forallb is_hex w = true /\ (length w <= 6)%nat /\ is_char (read_hex w) = false.

(** The level of an operator in the grammar's table (parser.rs 390-430). *)
Definition level (o : binop) : nat := 10 - precedence o.

Section Fragment.
Variable v : bool.
(** The level of the outermost operator that is not between parentheses. *)
Fixpoint shown_level (parent : option parent_op) (e : sexpr) : nat :=
  match e with
  | ECall c _ args _ =>
    match binop_of_name (short_name c) with
    | Some o => if needs_parens o parent then 11 else level o
    | None =>
      match unop_of_name (short_name c) with
      | Some _ => 10
      | None => if hidden v (short_name c) then match args with a :: _ => shown_level None a | [] => 11 end else 11
      end
    end
  | EConditional _ _ _ _ | EAssign _ _ _ => 0
  | _ => 11
  end%nat.
(** Is the text a number? *)
Fixpoint shown_number (e : sexpr) : bool :=
  match e with
  | EConstant (CI32 _ | CI64 _ | CU32 _ | CU64 _ | CF32 _ | CF64 _) _ => true
  | ECall c _ (a :: _) _ =>
    match binop_of_name (short_name c), unop_of_name (short_name c) with
    | None, None => hidden v (short_name c) && shown_number a
    | _, _ => false
    end
  | _ => false
  end.
(** Is the text one word? *)
Fixpoint shown_word (e : sexpr) : bool :=
  match e with
  | EIdent _ _ | ENull _ | EThis _ | ESuper _ | EConstant (CBool _) _ => true
  | ECall c _ (a :: _) _ =>
    match binop_of_name (short_name c), unop_of_name (short_name c) with
    | None, None => hidden v (short_name c) && shown_word a
    | _, _ => false
    end
  | _ => false
  end.
(** Does the text end in [< word], outside of parentheses?  Followed by a comma it may
    be the start of type arguments. *)
Fixpoint open_less (parent : option parent_op) (e : sexpr) : bool :=
  match e with
  | ECall c _ args _ =>
    match binop_of_name (short_name c) with
    | Some o =>
      if needs_parens o parent then false else
      match args with
      | _ :: r :: _ => (match o with Less => shown_word r | _ => false end) || open_less (Some (PBinOp o)) r
      | _ => false
      end
    | None =>
      match unop_of_name (short_name c) with
      | Some _ => match args with a :: _ => open_less (Some PUnOp) a | [] => false end
      | None => if hidden v (short_name c) then match args with a :: _ => open_less None a | [] => false end else false
      end
    end
  | EConditional _ _ f _ => open_less None f
  | EAssign _ r _ => open_less None r
  | _ => false
  end.
Definition args_ok (args : list sexpr) : bool := forallb (fun a => negb (open_less None a)) (removelast args).

(** The lowest levels of the operands of an operator. *)
Definition left_min (o : binop) : nat :=
  match o with
  | AssignAdd | AssignSubtract | AssignMultiply | AssignDivide | AssignOr | AssignAnd => 1
  | Equal | NotEqual => 7
  | Less | LessEqual | Greater | GreaterEqual => 8
  | _ => level o
  end.
Definition right_min (o : binop) : nat :=
  match o with
  | AssignAdd | AssignSubtract | AssignMultiply | AssignDivide | AssignOr | AssignAnd => 0
  | Equal | NotEqual => 7
  | Less | LessEqual | Greater | GreaterEqual => 8
  | _ => level o
  end.

(** Expressions whose operands the printer keeps apart as far as levels go: an operand
    has no operator outside of parentheses that binds more weakly than its place
    allows.  [strict] asks moreover that no right operand has an operator of the same
    level outside of parentheses. *)
Section Levels.
Variable strict : bool.
Definition right_least (o : binop) : nat :=
  if strict then match level o with O => O | l => S l end else right_min o.
Fixpoint levels_ok (e : sexpr) : bool :=
  match e with
  | EIdent n _ => is_name n && negb (reserved n)
  | EConstant c _ => constant_ok c
  | ENull _ | EThis _ | ESuper _ => true
  | ECall c ts args _ =>
    match binop_of_name (short_name c) with
    | Some o =>
      match args with
      | [l; r] =>
        levels_ok l && levels_ok r && (left_min o <=? shown_level (Some (PBinOp o)) l)%nat &&
        (right_least o <=? shown_level (Some (PBinOp o)) r)%nat
      | _ => false
      end
    | None =>
      match unop_of_name (short_name c) with
      | Some _ => match args with [a] => levels_ok a && (10 <=? shown_level (Some PUnOp) a)%nat | _ => false end
      | None =>
        if hidden v (short_name c) then match args with [a] => levels_ok a | _ => false end
        else is_name (short_name c) && negb (reserved (short_name c)) && forallb type_ok ts &&
             forallb levels_ok args && args_ok args
      end
    end
  | EMethodCall o f args _ =>
    levels_ok o && (11 <=? shown_level (Some PDot) o)%nat && negb (shown_number o) && is_name (short_name f) &&
    match binop_of_name (short_name f), unop_of_name (short_name f) with None, None => true | _, _ => false end &&
    negb (hidden v (short_name f)) && forallb levels_ok args && args_ok args
  | EMember x m _ => levels_ok x && (11 <=? shown_level None x)%nat && negb (shown_number x) && is_name m
  | EArrayElem a i _ => levels_ok a && (11 <=? shown_level None a)%nat && levels_ok i
  | ENew (TypeName n None) args _ => is_name n && forallb levels_ok args && args_ok args
  | ECast t x _ => levels_ok x && (11 <=? shown_level None x)%nat && type_ok t
  | EConditional c a b _ => levels_ok c && (1 <=? shown_level None c)%nat && levels_ok a && levels_ok b
  | EAssign l r _ => levels_ok l && (1 <=? shown_level None l)%nat && levels_ok r
  | _ => false
  end.
End Levels.

(** The expression that the printed text denotes.  [pending] is the operator in front
    of the text and its left operand: operators of one level group to the left. *)
Definition finish (pending : option (binop * sexpr)) (y : sexpr) : sexpr :=
  match pending with Some (o, x) => EBinOp (N := source_ast) x y o span0 | None => y end.
Definition groups (pending : option (binop * sexpr)) (o : binop) (parent : option parent_op) : bool :=
  match pending with
  | Some (p, _) => (level p =? level o)%nat && (1 <=? level o)%nat && negb (needs_parens o parent)
  | None => false
  end.
Fixpoint denoted (pending : option (binop * sexpr)) (parent : option parent_op) (e : sexpr) : sexpr :=
  match e with
  | EIdent n _ => finish pending (EIdent (N := source_ast) n span0)
  | EConstant c _ => finish pending (EConstant (N := source_ast) c span0)
  | ENull _ => finish pending (ENull (N := source_ast) span0)
  | EThis _ => finish pending (EThis (N := source_ast) span0)
  | ESuper _ => finish pending (ESuper (N := source_ast) span0)
  | ECall c ts args _ =>
    match binop_of_name (short_name c) with
    | Some o =>
      match args with
      | l :: r :: _ =>
        if groups pending o parent
        then denoted (Some (o, denoted pending (Some (PBinOp o)) l)) (Some (PBinOp o)) r
        else finish pending (denoted (Some (o, denoted None (Some (PBinOp o)) l)) (Some (PBinOp o)) r)
      | _ => e
      end
    | None =>
      match unop_of_name (short_name c) with
      | Some o => match args with a :: _ => finish pending (EUnOp (N := source_ast) (denoted None (Some PUnOp) a) o span0) | [] => e end
      | None =>
        if hidden v (short_name c) then match args with a :: _ => denoted pending None a | [] => e end
        else finish pending (ECall (N := source_ast) (short_name c) ts (map (denoted None None) args) span0)
      end
    end
  | EMethodCall o f args _ =>
    finish pending (EMethodCall (N := source_ast) (denoted None (Some PDot) o) (short_name f) (map (denoted None None) args) span0)
  | EMember x m _ => finish pending (EMember (N := source_ast) (denoted None None x) m span0)
  | EArrayElem a i _ => finish pending (EArrayElem (N := source_ast) (denoted None None a) (denoted None None i) span0)
  | ENew t args _ => finish pending (ENew (N := source_ast) t (map (denoted None None) args) span0)
  | ECast t x _ => finish pending (ECast (N := source_ast) t (denoted None None x) span0)
  | EConditional c a b _ =>
    finish pending (EConditional (N := source_ast) (denoted None None c) (denoted None None a) (denoted None None b) span0)
  | EAssign l r _ => finish pending (EAssign (N := source_ast) (denoted None None l) (denoted None None r) span0)
  | _ => finish pending e
  end.
End Fragment.

(** Operator expressions over names and constants, as the decompiler builds them:
    calls of the functions that stand for operators. *)
Fixpoint operator_tree (e : sexpr) : bool :=
  match e with
  | EIdent n _ => is_name n && negb (reserved n)
  | EConstant c _ => constant_ok c
  | ECall c _ args _ =>
    match binop_of_name (short_name c), unop_of_name (short_name c), args with
    | Some _, _, [l; r] => operator_tree l && operator_tree r
    | None, Some _, [a] => operator_tree a
    | _, _, _ => false
    end
  | _ => false
  end.
(** The operator of a binary operation. *)
Definition operation (e : sexpr) : option binop :=
  match e with ECall c _ _ _ => binop_of_name (short_name c) | _ => None end.
(** Somewhere a right operand has an operator of the same precedence as the operator
    above it, one of those that the printer takes for associative. *)
Fixpoint regroups (e : sexpr) : bool :=
  match e with
  | ECall c _ args _ =>
    match binop_of_name (short_name c), args with
    | Some o, [l; r] =>
      match operation r with
      | Some p => (precedence p =? precedence o)%nat && associative o
      | None => false
      end || regroups l || regroups r
    | _, [a] => regroups a
    | _, _ => false
    end
  | _ => false
  end.
(** The operands and operators of an expression in the order of the text: an
    expression of the decompiler, and one of the source language. *)
Inductive token := TOperand (e : sexpr) | TBinary (o : binop) | TUnary (o : unop).
Fixpoint tokens (e : sexpr) : list token :=
  match e with
  | EIdent n _ => [TOperand (EIdent (N := source_ast) n span0)]
  | EConstant c _ => [TOperand (EConstant (N := source_ast) c span0)]
  | ECall c _ [l; r] _ => match binop_of_name (short_name c) with Some o => tokens l ++ TBinary o :: tokens r | None => [] end
  | ECall c _ [a] _ => match unop_of_name (short_name c) with Some o => TUnary o :: tokens a | None => [] end
  | EBinOp l r o _ => tokens l ++ TBinary o :: tokens r
  | EUnOp a o _ => TUnary o :: tokens a
  | _ => []
  end.
(** The value of a sum, difference or product of whole numbers. *)
Fixpoint int_value (env : str -> Z) (e : sexpr) : option Z :=
  let arith o x y :=
    match x, y, o with
    | Some a, Some b, BAdd => Some (a + b)
    | Some a, Some b, BSubtract => Some (a - b)
    | Some a, Some b, Multiply => Some (a * b)
    | _, _, _ => None
    end in
  match e with
  | EIdent n _ => Some (env n)
  | ECall c _ [l; r] _ =>
    match binop_of_name (short_name c) with Some o => arith o (int_value env l) (int_value env r) | None => None end
  | EBinOp l r o _ => arith o (int_value env l) (int_value env r)
  | _ => None
  end.
