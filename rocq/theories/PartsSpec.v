(** Parts of an expression, position by position, said without a traversal. *)
From Coq Require Import String.
From Coq Require Import ZArith List Bool.
From Verif Require Import Bytes Bytecode Definitions Bundle Ast Pool Scope TypeCheck Diagnostics.
Import ListNotations.
Open Scope Z_scope.

Inductive part {N} : expr N -> expr N -> Prop :=
| pt_element x es t sp : In x es -> part x (EArrayLit es t sp)
| pt_interpolated x s p parts sp : In (x, s) parts -> part x (EInterpolated p parts sp)
| pt_init x l t sp : part x (EDeclare l t (Some x) sp)
| pt_cast x t sp : part x (ECast t x sp)
| pt_assign_left x r sp : part x (EAssign x r sp)
| pt_assign_right x l sp : part x (EAssign l x sp)
| pt_call x c ts args sp : In x args -> part x (ECall c ts args sp)
| pt_receiver x f args sp : part x (EMethodCall x f args sp)
| pt_method_arg x e f args sp : In x args -> part x (EMethodCall e f args sp)
| pt_member x m sp : part x (EMember x m sp)
| pt_array x i sp : part x (EArrayElem x i sp)
| pt_index x e sp : part x (EArrayElem e x sp)
| pt_new x t args sp : In x args -> part x (ENew t args sp)
| pt_return x sp : part x (EReturn (Some x) sp)
| pt_seq x es : In x es -> part x (ESeq es)
| pt_matched x cs d sp : part x (ESwitch x cs d sp)
| pt_matcher x e b cs d sp : In (x, b) cs -> part x (ESwitch e cs d sp)
| pt_case_body x e m b cs d sp : In (m, b) cs -> In x b -> part x (ESwitch e cs d sp)
| pt_default x e cs d sp : In x d -> part x (ESwitch e cs (Some d) sp)
| pt_if x t f sp : part x (EIf x t f sp)
| pt_then x c t f sp : In x t -> part x (EIf c t f sp)
| pt_else x c t f sp : In x f -> part x (EIf c t (Some f) sp)
| pt_cond x t f sp : part x (EConditional x t f sp)
| pt_cond_then x c f sp : part x (EConditional c x f sp)
| pt_cond_else x c t sp : part x (EConditional c t x sp)
| pt_while x b sp : part x (EWhile x b sp)
| pt_while_body x c b sp : In x b -> part x (EWhile c b sp)
| pt_for x l b sp : part x (EForIn l x b sp)
| pt_for_body x l e b sp : In x b -> part x (EForIn l e b sp)
| pt_left x r o sp : part x (EBinOp x r o sp)
| pt_right x l o sp : part x (EBinOp l x o sp)
| pt_operand x o sp : part x (EUnOp x o sp).

(** [x] is [e] or occurs somewhere in it. *)
Inductive within {N} (x : expr N) : expr N -> Prop :=
| wi_here : within x x
| wi_part y e : part y e -> within x y -> within x e.
(** [x] occurs somewhere in a body. *)
Definition occurs {N} (x : expr N) (body : list (expr N)) : Prop := exists e, In e body /\ within x e.
