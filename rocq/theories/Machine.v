(** A machine running compiled code, as a specification.

    The project contains no interpreter: the code is run by the game.  The machine
    below gives every instruction the assembler emits its evident meaning (prefix
    code: an instruction is followed by the code of its operands); it runs the
    resolved code by byte positions.  What an instruction does to the state is
    left to the runtime of Semantics.v.  Line numbers, the flags of calls and
    the exit operand of calls are not interpreted. *)
From Coq Require Import String.
From Coq Require Import ZArith List Bool.
From Verif Require Import Bytes Bytecode Definitions Bundle Ast Pool Scope TypeCheck Cursor Semantics.
Import ListNotations.
Open Scope Z_scope.

(** The instruction at a byte position. *)
Fixpoint fetch (c : code Z) (at_ : Z) : option (instr Z) :=
  match c with
  | [] => None
  | i :: c' => if at_ =? 0 then Some i else fetch c' (at_ - instr_size i)
  end.
Fixpoint code_size (c : code Z) : Z := match c with [] => 0 | i :: c' => instr_size i + code_size c' end.

(** The operation an instruction stands for, and the number of its operands. *)
Definition operation (p : pool) (i : instr Z) : option (op * nat) :=
  let const k := Some (OpConst k, O) in
  let text k i := bind_opt (text_at p k i) (fun s => const (KText k s)) in
  let typed op t n := match def_name p t with Done s => Some (OpIntrinsic op (Some s), n) | Fail _ => None end in
  let plain op n := Some (OpIntrinsic op None, n) in
  match i with
  | Null => const KNull
  | WeakRefNull => const KWeakNull
  | I32One => const (KInt 32 1)
  | I32Zero => const (KInt 32 0)
  | I8Const v => const (KInt 8 v)
  | I16Const v => const (KInt 16 v)
  | I32Const v => const (KInt 32 v)
  | I64Const v => const (KInt 64 v)
  | U8Const v => const (KUint 8 v)
  | U16Const v => const (KUint 16 v)
  | U32Const v => const (KUint 32 v)
  | U64Const v => const (KUint 64 v)
  | F32Const v => const (KFloat 32 v)
  | F64Const v => const (KFloat 64 v)
  | TrueConst => const (KBool true)
  | FalseConst => const (KBool false)
  | EnumConst e m => const (KEnum e m)
  | NameConst i => text LName i
  | StringConst i => text LString i
  | ResourceConst i => text LResource i
  | TweakDbIdConst i => text LTweakDbId i
  | Local i => Some (OpLocal i, O)
  | Param i => Some (OpParam i, O)
  | This => Some (OpThis, O)
  | Assign => Some (OpAssign, 2%nat)
  | DynamicCast c 0 => Some (OpCast c, 1%nat)
  | ArrayElement t => match def_name p t with Done n => Some (OpElement false n, 2%nat) | Fail _ => None end
  | StaticArrayElement t => match def_name p t with Done n => Some (OpElement true n, 2%nat) | Fail _ => None end
  | New c => Some (OpNew c, O)
  | Construct n c => Some (OpConstruct c, Z.to_nat n)
  | ObjectField f => Some (OpField f, O)
  | Bytecode.StructField f => Some (OpStructField f, 1%nat)
  | Equals t => typed IEquals t 2%nat
  | NotEquals t => typed INotEquals t 2%nat
  | ArrayClear t => typed IArrayClear t 1%nat
  | ArraySize t => typed IArraySize t 1%nat
  | ArrayResize t => typed IArrayResize t 2%nat
  | ArrayFindFirst t => typed IArrayFindFirst t 2%nat
  | ArrayFindLast t => typed IArrayFindLast t 2%nat
  | ArrayContains t => typed IArrayContains t 2%nat
  | ArrayCount t => typed IArrayCount t 2%nat
  | ArrayPush t => typed IArrayPush t 2%nat
  | ArrayPop t => typed IArrayPop t 1%nat
  | ArrayInsert t => typed IArrayInsert t 3%nat
  | ArrayRemove t => typed IArrayRemove t 2%nat
  | ArrayGrow t => typed IArrayGrow t 2%nat
  | ArrayErase t => typed IArrayErase t 2%nat
  | ArrayLast t => typed IArrayLast t 1%nat
  | ArraySort t => typed IArraySort t 1%nat
  | ArraySortByPredicate t => typed IArraySortByPredicate t 2%nat
  | ToString t => typed IToString t 1%nat
  | VariantToString => Some (OpIntrinsic IToString (Some (lit "Variant")), 1%nat)
  | EnumToI32 t 4 => typed IEnumInt t 1%nat
  | I32ToEnum t 4 => typed IIntEnum t 1%nat
  | Bytecode.ToVariant t => typed IToVariant t 1%nat
  | Bytecode.FromVariant t => typed IFromVariant t 1%nat
  | VariantIsRef => plain IVariantIsRef 1%nat
  | VariantIsArray => plain IVariantIsArray 1%nat
  | VariantTypeName => plain IVariantTypeName 1%nat
  | AsRef t => typed IAsRef t 1%nat
  | Deref t => typed IDeref t 1%nat
  | Bytecode.RefToWeakRef => plain IRefToWeakRef 1%nat
  | Bytecode.WeakRefToRef => plain IWeakRefToRef 1%nat
  | RefToBool => Some (OpIsDefined NRef, 1%nat)
  | WeakRefToBool => Some (OpIsDefined NWeak, 1%nat)
  | VariantIsDefined => Some (OpIsDefined NVariant, 1%nat)
  | _ => None
  end.
(** The callee of a call instruction. *)
Definition called (p : pool) (i : instr Z) : option callee :=
  match i with
  | InvokeStatic _ _ f _ => Some (Direct f)
  | InvokeVirtual _ _ n _ => bind_opt (text_at p LName n) (fun s => Some (Virtual s))
  | _ => None
  end.

Section Machine.
Variables (R : runtime) (p : pool) (out : code Z).
Notation St := (state R).
Notation Val := (value R).

(** [k] operands from a position on, one after the other. *)
Definition operands (ev : Z -> option Val -> St -> answer (Val * Z * St)) :
    nat -> Z -> St -> answer (list (option Val) * Z * St) :=
  fix go k at_ w :=
    match k with
    | O => Ans ([], at_, w)
    | S k' =>
      ask (v, at1, w1) := ev at_ None w in
      ask (vs, at2, w2) := go k' at1 w1 in
      Ans (Some v :: vs, at2, w2)
    end.
(** The arguments of a call up to the end marker.  Nop stands for an omitted
    argument; an argument after Skip is jumped over if it is not needed. *)
Fixpoint arguments (ev : Z -> option Val -> St -> answer (Val * Z * St)) (o : op) (this : option Val)
    (fuel : nat) (at_ : Z) (acc : list (option Val)) (w : St) : answer (list (option Val) * Z * St) :=
  match fuel with
  | O => Halt OutOfFuel
  | S fuel' =>
    match fetch out at_ with
    | None => Halt Malformed
    | Some ParamEnd => Ans (acc, at_ + instr_size (L := Z) ParamEnd, w)
    | Some Nop => arguments ev o this fuel' (at_ + instr_size (L := Z) Nop) (acc ++ [None]) w
    | Some (Skip l) =>
      if skips R o this acc w then arguments ev o this fuel' (absolute l at_) (acc ++ [None]) w
      else ask (v, at1, w1) := ev (at_ + instr_size (Skip l)) None w in
           arguments ev o this fuel' at1 (acc ++ [Some v]) w1
    | Some _ =>
      ask (v, at1, w1) := ev at_ None w in
      arguments ev o this fuel' at1 (acc ++ [Some v]) w1
    end
  end.
(** The value of the expression whose code starts at a position, and the position
    after it. *)
Fixpoint value_at (fuel : nat) (at_ : Z) (this : option Val) (w : St) : answer (Val * Z * St) :=
  match fuel with
  | O => Halt OutOfFuel
  | S fuel' =>
    let ev := value_at fuel' in
    match fetch out at_ with
    | None => Halt Malformed
    | Some i =>
      let next := at_ + instr_size i in
      match i with
      | Conditional f e =>
        ask (v, at1, w1) := ev next None w in
        if truth R v w1 then ask (r, _, w2) := ev at1 None w1 in Ans (r, absolute e at_, w2)
        else ev (absolute f at_) None w1
      | Context e =>
        ask (v, at1, w1) := ev next None w in
        if is_null R v w1 then Ans (no_value R, absolute e at_, w1) else ev at1 (Some v) w1
      | InvokeStatic _ _ _ _ | InvokeVirtual _ _ _ _ =>
        ask c := need (called p i) in
        ask (vs, at1, w1) := arguments ev (OpCall c) this fuel' next [] w in
        ask (v, w2) := perform R (OpCall c) this vs w1 in
        Ans (v, at1, w2)
      | _ =>
        ask (o, k) := need (operation p i) in
        ask (vs, at1, w1) := operands ev k next w in
        ask (v, w2) := perform R o this vs w1 in
        Ans (v, at1, w2)
      end
    end
  end.

(** Running statements, or looking for the case of a switch. *)
Inductive mode := Running | Matching (type : str) (v : Val).
Fixpoint go (fuel : nat) (m : mode) (at_ : Z) (w : St) : answer (finish R) :=
  match fuel with
  | O => Halt OutOfFuel
  | S fuel' =>
    match m with
    | Matching t v =>
      match fetch out at_ with
      | Some (SwitchLabel next body) =>
        ask (x, _, w1) := value_at fuel' (at_ + instr_size (SwitchLabel next body)) None w in
        if same R t v x w1 then go fuel' Running (absolute body at_) w1
        else go fuel' (Matching t v) (absolute next at_) w1
      | _ => go fuel' Running at_ w
      end
    | Running =>
      match fetch out at_ with
      | None => if at_ =? code_size out then Ans (End_ R w) else Halt Malformed
      | Some i =>
        let next := at_ + instr_size i in
        match i with
        | Nop | SwitchDefault => go fuel' Running next w
        | Jump l => go fuel' Running (absolute l at_) w
        | JumpIfFalse l =>
          ask (v, at1, w1) := value_at fuel' next None w in
          go fuel' Running (if truth R v w1 then at1 else absolute l at_) w1
        | Return =>
          match fetch out next with
          | Some Nop => Ans (Return_ R None w)
          | _ => ask (v, _, w1) := value_at fuel' next None w in Ans (Return_ R (Some v) w1)
          end
        | Switch t first =>
          ask (v, _, w1) := value_at fuel' next None w in
          match def_name p t with
          | Done n => go fuel' (Matching n v) (absolute first at_) w1
          | Fail _ => Halt Malformed
          end
        | SwitchLabel _ _ => Halt FellThrough
        | _ => ask (_, at1, w1) := value_at fuel' at_ None w in go fuel' Running at1 w1
        end
      end
    end
  end.
(** Running a function from its first instruction. *)
Definition run_code (fuel : nat) (w : St) : answer (finish R) := go fuel Running 0 w.
End Machine.
