(** What stays when a part of it is taken, in expressions and in instructions. *)
From Coq Require Import String.
From Coq Require Import ZArith List Bool.
From Verif Require Import Bytes Bytecode Definitions Bundle Ast Pool Scope TypeCheck Cursor.
Import ListNotations.
Open Scope Z_scope.

(** An expression stands for something that stays: a constant, a name, the instance,
    what a script reference refers to, the field of an object, and the field of a
    structure or the element of an array that stays itself. *)
Inductive stays : texpr -> Prop :=
| st_constant c sp : stays (EConstant (N := typed_ast) c sp)
| st_name r sp : stays (EIdent (N := typed_ast) r sp)
| st_this sp : stays (EThis (N := typed_ast) sp)
| st_super sp : stays (ESuper (N := typed_ast) sp)
| st_dereferenced t ts args sp : stays (ECall (N := typed_ast) (CIntrinsic IDeref t) ts args sp)
| st_object_field e f sp : stays (EMember (N := typed_ast) e (ClassField f) sp)
| st_struct_field e f sp : stays e -> stays (EMember (N := typed_ast) e (StructField f) sp)
| st_element e i sp : stays e -> stays (EArrayElem (N := typed_ast) e i sp).

(** The intrinsics that need an array to look at. *)
Definition looks (op : intrinsic) : Prop :=
  op = IArrayContains \/ op = IArrayCount \/ op = IArrayFindFirst \/ op = IArrayFindLast \/ op = IArrayLast \/
  op = IArrayPop \/ op = IArraySize.
(** [e] takes a part of [x]. *)
Inductive part_taken : texpr -> texpr -> Prop :=
| ta_field x f sp : part_taken (EMember (N := typed_ast) x (StructField f) sp) x
| ta_element x i sp : part_taken (EArrayElem (N := typed_ast) x i sp) x
| ta_array op t ts x args sp : looks op -> part_taken (ECall (N := typed_ast) (CIntrinsic op t) ts (x :: args) sp) x.

(** The instructions that take a part of the operand that follows them. *)
Definition takes_part {L} (i : instr L) : Prop :=
  match i with
  | Bytecode.StructField _ | ArrayElement _ | StaticArrayElement _ | ArrayContains _ | ArrayCount _ | ArrayFindFirst _
  | ArrayFindLast _ | ArrayLast _ | ArrayPop _ | ArraySize _ => True
  | _ => False
  end.
Definition constant_instr {L} (i : instr L) : Prop :=
  match i with
  | StringConst _ | NameConst _ | ResourceConst _ | TweakDbIdConst _ | F32Const _ | F64Const _ | I32Const _ | I64Const _
  | U32Const _ | U64Const _ | TrueConst | FalseConst => True
  | _ => False
  end.
(** The code starts with the operand that stays: a constant, a variable, the
    instance, what a reference refers to, the field of an object (whose context ends
    behind the field), or the field or element of such an operand. *)
Inductive operand_stays : code label -> Prop :=
| os_constant i rest : constant_instr i -> operand_stays (i :: rest)
| os_local l rest : operand_stays (Local l :: rest)
| os_param p rest : operand_stays (Param p :: rest)
| os_this rest : operand_stays (This :: rest)
| os_dereferenced t rest : operand_stays (Deref t :: rest)
| os_object_field l object f rest : operand_stays (Context l :: object ++ ObjectField f :: Target l :: rest)
| os_struct_field f rest : operand_stays rest -> operand_stays (Bytecode.StructField f :: rest)
| os_element t rest : operand_stays rest -> operand_stays (ArrayElement t :: rest)
| os_static_element t rest : operand_stays rest -> operand_stays (StaticArrayElement t :: rest).
(** Nothing in the code takes a part of a temporary. *)
Definition no_part_of_temporary (c : code label) : Prop :=
  forall pre i post, c = pre ++ i :: post -> takes_part i -> operand_stays post.

(** The case that [switch] falls through: it is not the last of the cases, has
    statements, and the last one neither breaks nor returns. *)
Definition leaves (e : texpr) : Prop := (exists sp, e = EBreak sp) \/ (exists x sp, e = EReturn x sp).
Definition falls_through (cases : list (texpr * list texpr)) (m : texpr) : Prop :=
  exists before stmts last after, cases = before ++ (m, stmts ++ [last]) :: after /\ after <> [] /\ ~ leaves last.
