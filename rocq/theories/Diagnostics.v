(** The checks that run over a typed function body.

    Models compiler/src/diagnostics/*.rs, compiler/src/diagnostics.rs 148-190 and
    visit_expr! (compiler/src/transform.rs 247-341). *)
From Coq Require Import String.
From Coq Require Import ZArith List Bool.
From Verif Require Import Bytes Bytecode Definitions Bundle Ast Pool Scope TypeCheck.
Import ListNotations.
Open Scope Z_scope.

Definition opt_list {A B} (f : A -> list B) (o : option A) : list B := match o with Some a => f a | None => [] end.

(** The expressions met by a visitor that handles an expression and then applies
    visit_expr! to it (transform.rs 248-335), in the order they are met. *)
Fixpoint visited (e : texpr) : list texpr :=
  e :: match e with
       | EArrayLit es _ _ => flat_map visited es
       | EInterpolated _ parts _ => flat_map (fun x => visited (fst x)) parts
       | EDeclare _ _ (Some x) _ => visited x
       | ECast _ x _ => visited x
       | EAssign l r _ => visited l ++ visited r
       | ECall _ _ args _ => flat_map visited args
       | EMethodCall x _ args _ => visited x ++ flat_map visited args
       | EMember x _ _ => visited x
       | EArrayElem x i _ => visited x ++ visited i
       | ENew _ args _ => flat_map visited args
       | EReturn (Some x) _ => visited x
       | ESeq es => flat_map visited es
       | ESwitch x cases d _ =>
         visited x ++ flat_map (fun c => visited (fst c) ++ flat_map visited (snd c)) cases ++
         match d with Some l => flat_map visited l | None => [] end
       | EIf c t f _ =>
         visited c ++ flat_map visited t ++ match f with Some l => flat_map visited l | None => [] end
       | EConditional c t f _ => visited c ++ visited t ++ visited f
       | EWhile c b _ => visited c ++ flat_map visited b
       | EForIn _ x b _ => visited x ++ flat_map visited b
       | EBinOp l r _ _ => visited l ++ visited r
       | EUnOp x _ _ => visited x
       | _ => []
       end.

(** struct FunctionMetadata (diagnostics.rs 171-190). *)
Record fun_metadata := { fm_flags : Z; fm_was_callback : bool; fm_span : span }.

(** UsedNames::on_expr (unused_local.rs 45-60); used parameters are never read. *)
Definition declared_here (e : texpr) : list (pidx * span) :=
  match e with
  | EDeclare l _ _ sp | EForIn l _ _ sp => [(l, sp)]
  | _ => []
  end.
Definition used_here (e : texpr) : list pidx :=
  match e with
  | EIdent (RValue (VLocal l)) _ => [l]
  | _ => []
  end.
(** UnusedLocalCheck::diagnose (unused_local.rs 15-28). *)
Definition unused_local (body : list texpr) : list diagnostic :=
  let met := flat_map visited body in
  let used := flat_map used_here met in
  map (fun d => UnusedLocal (snd d))
    (filter (fun d => negb (existsb (Z.eqb (fst d)) used)) (flat_map declared_here met)).

(** does_always_return, does_seq_return (missing_return.rs 19-39). *)
Fixpoint does_always_return (e : texpr) : bool :=
  match e with
  | EReturn _ _ => true
  | ESeq es => existsb does_always_return es
  | ESwitch _ cases d _ =>
    forallb (fun c => existsb does_always_return (snd c)) cases &&
    match d with Some l => existsb does_always_return l | None => true end
  | EIf _ t (Some f) _ => existsb does_always_return t && existsb does_always_return f
  | _ => false
  end.
Definition does_seq_return (es : list texpr) : bool := existsb does_always_return es.
(** MissingReturnCheck::diagnose (missing_return.rs 10-17). *)
Definition missing_return (body : list texpr) (m : fun_metadata) : list diagnostic :=
  if get_flag fn_has_return_value (fm_flags m) && negb (fm_was_callback m) && negb (does_seq_return body)
  then [MissingReturn (fm_span m)] else [].

(** StatementFallthroughVisitor::on_expr (stmt_fallthrough.rs 22-32), without the
    recursion, which is in [visited]. *)
Definition ends_case (body : list texpr) : bool :=
  match rev body with
  | [] | EBreak _ :: _ | EReturn _ _ :: _ => true
  | _ => false
  end.
Definition fallthrough_here (e : texpr) : list diagnostic :=
  match e with
  | ESwitch _ cases _ _ =>
    map (fun c => StatementFallthrough (expr_span (fst c)))
      (filter (fun c => negb (ends_case (snd c))) (removelast cases))
  | _ => []
  end.
(** StatementFallthroughCheck::diagnose (stmt_fallthrough.rs 12-16) through the
    loop over the body (diagnostics.rs 161-169). *)
Definition stmt_fallthrough (body : list texpr) : list diagnostic :=
  flat_map fallthrough_here (flat_map visited body).

(** InvalidUseOfTemporaryVisitor::on_expr (invalid_temp_use.rs 22-50). *)
Definition temp_operand (e : texpr) : option texpr :=
  match e with
  | EMember x (StructField _) _ => Some x
  | EArrayElem x _ _ => Some x
  | ECall (CIntrinsic (IArrayContains | IArrayCount | IArrayFindFirst | IArrayFindLast | IArrayLast | IArrayPop | IArraySize) _)
      _ (x :: _) _ => Some x
  | _ => None
  end.
Definition temp_use_here (e : texpr) : list diagnostic :=
  match temp_operand e with
  | Some x => if is_prvalue x then [InvalidUseOfTemporary (expr_span x)] else []
  | None => []
  end.
Definition invalid_temp_use (body : list texpr) : list diagnostic :=
  flat_map temp_use_here (flat_map visited body).
