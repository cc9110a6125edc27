(** Bodies that have a meaning, and the pools they are assembled with
    (specification). *)
From Coq Require Import String.
From Coq Require Import ZArith List Bool.
From Verif Require Import Bytes Bytecode Definitions Bundle Ast TypeNames Pool Scope TypeCheck PartsSpec Semantics.
Import ListNotations.
Open Scope Z_scope.

(** The scope has the types of literals by name. *)
Definition knows_literals (s : scope) : Prop := forall c, exists i, am_find (sc_types s) (repr (constant_type c)) = Some i.

(** Statements; everything else is run for its effect. *)
Definition is_statement (e : texpr) : bool :=
  match e with
  | EDeclare _ _ _ _ | EReturn _ _ | EBreak _ | ESeq _ | EIf _ _ _ _ | EWhile _ _ _ | ESwitch _ _ _ _ => true
  | _ => false
  end.
(** The structs constructed have less than 256 fields. *)
Definition few_fields (e : texpr) : Prop := match e with ENew (TIStruct _) args _ => (length args < 256)%nat | _ => True end.
Definition few (e : texpr) : Prop := forall x, within x e -> few_fields x.
(** Too many or too few arguments. *)
Definition wrong_arity (e : texpr) : Prop :=
  match e with
  | ENew (TIClass _) (_ :: _) _ => True
  | ECall (CIntrinsic i _) _ args _ => length args <> arg_count i
  | _ => False
  end.
(** The parts of an expression whose value is used. *)
Inductive operand : texpr -> texpr -> Prop :=
| on_init x l t sp : operand x (EDeclare (N := typed_ast) l t (Some x) sp)
| on_cast x t sp : operand x (ECast (N := typed_ast) t x sp)
| on_left x r sp : operand x (EAssign x r sp)
| on_right x l sp : operand x (EAssign l x sp)
| on_call x c ts args sp : In x args -> operand x (ECall (N := typed_ast) c ts args sp)
| on_receiver x f args sp : operand x (EMethodCall (N := typed_ast) x f args sp)
| on_method_arg x e f args sp : In x args -> operand x (EMethodCall (N := typed_ast) e f args sp)
| on_member x m sp : operand x (EMember (N := typed_ast) x m sp)
| on_array x i sp : operand x (EArrayElem x i sp)
| on_index x e sp : operand x (EArrayElem e x sp)
| on_new x t args sp : In x args -> operand x (ENew (N := typed_ast) t args sp)
| on_return x sp : operand x (EReturn (Some x) sp)
| on_matched x cs d sp : operand x (ESwitch x cs d sp)
| on_matcher x e b cs d sp : In (x, b) cs -> operand x (ESwitch e cs d sp)
| on_if x t f sp : operand x (EIf x t f sp)
| on_cond x t f sp : operand x (EConditional x t f sp)
| on_cond_then x c f sp : operand x (EConditional c x f sp)
| on_cond_else x c t sp : operand x (EConditional c t x sp)
| on_while x b sp : operand x (EWhile x b sp).
(** No statement is used as a value, and the arguments are as many as needed. *)
Definition tidy_here (e : texpr) : Prop := (forall x, operand x e -> is_statement x = false) /\ ~ wrong_arity e.
Definition tidy (e : texpr) : Prop := forall x, within x e -> tidy_here x.
(** Functions have names; the first names, tweak db ids and resources of the pool,
    which stand for empty ones, exist. *)
Definition complete (p : pool) : Prop :=
  (forall f fn, get_function p f = Done fn -> exists n, def_name p f = Done n) /\
  (forall k, k <> LString -> exists x, text_at p k 0 = Some x).
