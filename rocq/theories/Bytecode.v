(** Bytecode instructions and function bodies.

    Models core/src/bytecode.rs lines 1-961 and 1018-1092 (instructions, their
    in-memory size, label resolution, and their file encoding). *)
From Coq Require Import ZArith List Bool.
From Verif Require Import Bytes.
Import ListNotations.
Open Scope Z_scope.

(** PoolIndex<A>: a u32 (core/src/bundle.rs 616-657); the phantom type is dropped. *)
Definition pidx := Z.
(** Decode/Encode for PoolIndex (core/src/bundle.rs 659-675). *)
Definition dec_idx : parser pidx := dec_u32.
Definition enc_idx (i : pidx) : writer := enc_32 i.

(** struct Breakpoint (core/src/bytecode.rs 903-911). *)
Record breakpoint := { bp_line : Z; bp_line_start : Z; bp_col : Z; bp_length : Z;
                       bp_enabled : bool; bp_padding : Z }.
(** Decode for Breakpoint (bytecode.rs 913-931). *)
Definition dec_breakpoint : parser breakpoint :=
  a <- dec_u16 ;; b <- dec_u32 ;; c <- dec_u16 ;; d <- dec_u16 ;; e <- dec_bool ;; f <- dec_u64 ;;
  pret {| bp_line := a; bp_line_start := b; bp_col := c; bp_length := d;
          bp_enabled := e; bp_padding := f |}.
(** Encode for Breakpoint (bytecode.rs 933-943). *)
Definition enc_breakpoint (p : breakpoint) : writer :=
  enc_16 (bp_line p) +++ enc_32 (bp_line_start p) +++ enc_16 (bp_col p) +++
  enc_16 (bp_length p) +++ enc_bool (bp_enabled p) +++ enc_64 (bp_padding p).

(** struct StartProfiling (bytecode.rs 945-946). *)
Record profiling := { pr_function : list byte; pr_enabled : Z }.
(** Decode for StartProfiling (bytecode.rs 948-954). *)
Definition dec_profiling : parser profiling :=
  f <- dec_str_prefixed 4 ;; e <- dec_u8 ;; pret {| pr_function := f; pr_enabled := e |}.
(** Encode for StartProfiling (bytecode.rs 956-961). *)
Definition enc_profiling (p : profiling) : writer :=
  enc_str_prefixed 4 (pr_function p) +++ enc_8 (pr_enabled p).

(** enum Instr<Loc> (bytecode.rs 12-118).  Integers are [Z]; floats are bit
    patterns; boxes are dropped. *)
Inductive instr (Loc : Type) :=
| Nop
| Null
| I32One
| I32Zero
| I8Const (a : Z)
| I16Const (a : Z)
| I32Const (a : Z)
| I64Const (a : Z)
| U8Const (a : Z)
| U16Const (a : Z)
| U32Const (a : Z)
| U64Const (a : Z)
| F32Const (a : Z)
| F64Const (a : Z)
| NameConst (a : pidx)
| EnumConst (a : pidx) (b : pidx)
| StringConst (a : pidx)
| TweakDbIdConst (a : pidx)
| ResourceConst (a : pidx)
| TrueConst
| FalseConst
| Breakpoint (a : breakpoint)
| Assign
| Target (a : Loc)
| Local (a : pidx)
| Param (a : pidx)
| ObjectField (a : pidx)
| ExternalVar
| Switch (a : pidx) (b : Loc)
| SwitchLabel (a : Loc) (b : Loc)
| SwitchDefault
| Jump (a : Loc)
| JumpIfFalse (a : Loc)
| Skip (a : Loc)
| Conditional (a : Loc) (b : Loc)
| Construct (a : Z) (b : pidx)
| InvokeStatic (a : Loc) (b : Z) (c : pidx) (d : Z)
| InvokeVirtual (a : Loc) (b : Z) (c : pidx) (d : Z)
| ParamEnd
| Return
| StructField (a : pidx)
| Context (a : Loc)
| Equals (a : pidx)
| RefStringEqualsString (a : pidx)
| StringEqualsRefString (a : pidx)
| NotEquals (a : pidx)
| RefStringNotEqualsString (a : pidx)
| StringNotEqualsRefString (a : pidx)
| New (a : pidx)
| Delete
| This
| StartProfiling (a : profiling)
| ArrayClear (a : pidx)
| ArraySize (a : pidx)
| ArrayResize (a : pidx)
| ArrayFindFirst (a : pidx)
| ArrayFindFirstFast (a : pidx)
| ArrayFindLast (a : pidx)
| ArrayFindLastFast (a : pidx)
| ArrayContains (a : pidx)
| ArrayContainsFast (a : pidx)
| ArrayCount (a : pidx)
| ArrayCountFast (a : pidx)
| ArrayPush (a : pidx)
| ArrayPop (a : pidx)
| ArrayInsert (a : pidx)
| ArrayRemove (a : pidx)
| ArrayRemoveFast (a : pidx)
| ArrayGrow (a : pidx)
| ArrayErase (a : pidx)
| ArrayEraseFast (a : pidx)
| ArrayLast (a : pidx)
| ArrayElement (a : pidx)
| ArraySort (a : pidx)
| ArraySortByPredicate (a : pidx)
| StaticArraySize (a : pidx)
| StaticArrayFindFirst (a : pidx)
| StaticArrayFindFirstFast (a : pidx)
| StaticArrayFindLast (a : pidx)
| StaticArrayFindLastFast (a : pidx)
| StaticArrayContains (a : pidx)
| StaticArrayContainsFast (a : pidx)
| StaticArrayCount (a : pidx)
| StaticArrayCountFast (a : pidx)
| StaticArrayLast (a : pidx)
| StaticArrayElement (a : pidx)
| RefToBool
| WeakRefToBool
| EnumToI32 (a : pidx) (b : Z)
| I32ToEnum (a : pidx) (b : Z)
| DynamicCast (a : pidx) (b : Z)
| ToString (a : pidx)
| ToVariant (a : pidx)
| FromVariant (a : pidx)
| VariantIsDefined
| VariantIsRef
| VariantIsArray
| VariantTypeName
| VariantToString
| WeakRefToRef
| RefToWeakRef
| WeakRefNull
| AsRef (a : pidx)
| Deref (a : pidx)
.
Arguments Nop {Loc}.
Arguments Null {Loc}.
Arguments I32One {Loc}.
Arguments I32Zero {Loc}.
Arguments I8Const {Loc} a.
Arguments I16Const {Loc} a.
Arguments I32Const {Loc} a.
Arguments I64Const {Loc} a.
Arguments U8Const {Loc} a.
Arguments U16Const {Loc} a.
Arguments U32Const {Loc} a.
Arguments U64Const {Loc} a.
Arguments F32Const {Loc} a.
Arguments F64Const {Loc} a.
Arguments NameConst {Loc} a.
Arguments EnumConst {Loc} a b.
Arguments StringConst {Loc} a.
Arguments TweakDbIdConst {Loc} a.
Arguments ResourceConst {Loc} a.
Arguments TrueConst {Loc}.
Arguments FalseConst {Loc}.
Arguments Breakpoint {Loc} a.
Arguments Assign {Loc}.
Arguments Target {Loc} a.
Arguments Local {Loc} a.
Arguments Param {Loc} a.
Arguments ObjectField {Loc} a.
Arguments ExternalVar {Loc}.
Arguments Switch {Loc} a b.
Arguments SwitchLabel {Loc} a b.
Arguments SwitchDefault {Loc}.
Arguments Jump {Loc} a.
Arguments JumpIfFalse {Loc} a.
Arguments Skip {Loc} a.
Arguments Conditional {Loc} a b.
Arguments Construct {Loc} a b.
Arguments InvokeStatic {Loc} a b c d.
Arguments InvokeVirtual {Loc} a b c d.
Arguments ParamEnd {Loc}.
Arguments Return {Loc}.
Arguments StructField {Loc} a.
Arguments Context {Loc} a.
Arguments Equals {Loc} a.
Arguments RefStringEqualsString {Loc} a.
Arguments StringEqualsRefString {Loc} a.
Arguments NotEquals {Loc} a.
Arguments RefStringNotEqualsString {Loc} a.
Arguments StringNotEqualsRefString {Loc} a.
Arguments New {Loc} a.
Arguments Delete {Loc}.
Arguments This {Loc}.
Arguments StartProfiling {Loc} a.
Arguments ArrayClear {Loc} a.
Arguments ArraySize {Loc} a.
Arguments ArrayResize {Loc} a.
Arguments ArrayFindFirst {Loc} a.
Arguments ArrayFindFirstFast {Loc} a.
Arguments ArrayFindLast {Loc} a.
Arguments ArrayFindLastFast {Loc} a.
Arguments ArrayContains {Loc} a.
Arguments ArrayContainsFast {Loc} a.
Arguments ArrayCount {Loc} a.
Arguments ArrayCountFast {Loc} a.
Arguments ArrayPush {Loc} a.
Arguments ArrayPop {Loc} a.
Arguments ArrayInsert {Loc} a.
Arguments ArrayRemove {Loc} a.
Arguments ArrayRemoveFast {Loc} a.
Arguments ArrayGrow {Loc} a.
Arguments ArrayErase {Loc} a.
Arguments ArrayEraseFast {Loc} a.
Arguments ArrayLast {Loc} a.
Arguments ArrayElement {Loc} a.
Arguments ArraySort {Loc} a.
Arguments ArraySortByPredicate {Loc} a.
Arguments StaticArraySize {Loc} a.
Arguments StaticArrayFindFirst {Loc} a.
Arguments StaticArrayFindFirstFast {Loc} a.
Arguments StaticArrayFindLast {Loc} a.
Arguments StaticArrayFindLastFast {Loc} a.
Arguments StaticArrayContains {Loc} a.
Arguments StaticArrayContainsFast {Loc} a.
Arguments StaticArrayCount {Loc} a.
Arguments StaticArrayCountFast {Loc} a.
Arguments StaticArrayLast {Loc} a.
Arguments StaticArrayElement {Loc} a.
Arguments RefToBool {Loc}.
Arguments WeakRefToBool {Loc}.
Arguments EnumToI32 {Loc} a b.
Arguments I32ToEnum {Loc} a b.
Arguments DynamicCast {Loc} a b.
Arguments ToString {Loc} a.
Arguments ToVariant {Loc} a.
Arguments FromVariant {Loc} a.
Arguments VariantIsDefined {Loc}.
Arguments VariantIsRef {Loc}.
Arguments VariantIsArray {Loc}.
Arguments VariantTypeName {Loc}.
Arguments VariantToString {Loc}.
Arguments WeakRefToRef {Loc}.
Arguments RefToWeakRef {Loc}.
Arguments WeakRefNull {Loc}.
Arguments AsRef {Loc} a.
Arguments Deref {Loc} a.

(** Instr::size (bytecode.rs 120-227): u16.  [StartProfiling] truncates the
    length of its string to u16 and the additions wrap (release build). *)
Definition instr_size {L} (i : instr L) : Z :=
  match i with
  | Nop  => 1 + 0
  | Null  => 1 + 0
  | I32One  => 1 + 0
  | I32Zero  => 1 + 0
  | I8Const _ => 1 + 1
  | I16Const _ => 1 + 2
  | I32Const _ => 1 + 4
  | I64Const _ => 1 + 8
  | U8Const _ => 1 + 1
  | U16Const _ => 1 + 2
  | U32Const _ => 1 + 4
  | U64Const _ => 1 + 8
  | F32Const _ => 1 + 4
  | F64Const _ => 1 + 8
  | NameConst _ => 1 + 8
  | EnumConst _ _ => 1 + 16
  | StringConst _ => 1 + 4
  | TweakDbIdConst _ => 1 + 8
  | ResourceConst _ => 1 + 8
  | TrueConst  => 1 + 0
  | FalseConst  => 1 + 0
  | Breakpoint _ => 1 + 19
  | Assign  => 1 + 0
  | Target _ => 0
  | Local _ => 1 + 8
  | Param _ => 1 + 8
  | ObjectField _ => 1 + 8
  | ExternalVar  => 1 + 0
  | Switch _ _ => 1 + 10
  | SwitchLabel _ _ => 1 + 4
  | SwitchDefault  => 1 + 0
  | Jump _ => 1 + 2
  | JumpIfFalse _ => 1 + 2
  | Skip _ => 1 + 2
  | Conditional _ _ => 1 + 4
  | Construct _ _ => 1 + 9
  | InvokeStatic _ _ _ _ => 1 + 14
  | InvokeVirtual _ _ _ _ => 1 + 14
  | ParamEnd  => 1 + 0
  | Return  => 1 + 0
  | StructField _ => 1 + 8
  | Context _ => 1 + 2
  | Equals _ => 1 + 8
  | RefStringEqualsString _ => 1 + 8
  | StringEqualsRefString _ => 1 + 8
  | NotEquals _ => 1 + 8
  | RefStringNotEqualsString _ => 1 + 8
  | StringNotEqualsRefString _ => 1 + 8
  | New _ => 1 + 8
  | Delete  => 1 + 0
  | This  => 1 + 0
  | StartProfiling a => wrap_u 16 (1 + wrap_u 16 (5 + wrap_u 16 (Z.of_nat (length (pr_function a)))))
  | ArrayClear _ => 1 + 8
  | ArraySize _ => 1 + 8
  | ArrayResize _ => 1 + 8
  | ArrayFindFirst _ => 1 + 8
  | ArrayFindFirstFast _ => 1 + 8
  | ArrayFindLast _ => 1 + 8
  | ArrayFindLastFast _ => 1 + 8
  | ArrayContains _ => 1 + 8
  | ArrayContainsFast _ => 1 + 8
  | ArrayCount _ => 1 + 8
  | ArrayCountFast _ => 1 + 8
  | ArrayPush _ => 1 + 8
  | ArrayPop _ => 1 + 8
  | ArrayInsert _ => 1 + 8
  | ArrayRemove _ => 1 + 8
  | ArrayRemoveFast _ => 1 + 8
  | ArrayGrow _ => 1 + 8
  | ArrayErase _ => 1 + 8
  | ArrayEraseFast _ => 1 + 8
  | ArrayLast _ => 1 + 8
  | ArrayElement _ => 1 + 8
  | ArraySort _ => 1 + 8
  | ArraySortByPredicate _ => 1 + 8
  | StaticArraySize _ => 1 + 8
  | StaticArrayFindFirst _ => 1 + 8
  | StaticArrayFindFirstFast _ => 1 + 8
  | StaticArrayFindLast _ => 1 + 8
  | StaticArrayFindLastFast _ => 1 + 8
  | StaticArrayContains _ => 1 + 8
  | StaticArrayContainsFast _ => 1 + 8
  | StaticArrayCount _ => 1 + 8
  | StaticArrayCountFast _ => 1 + 8
  | StaticArrayLast _ => 1 + 8
  | StaticArrayElement _ => 1 + 8
  | RefToBool  => 1 + 0
  | WeakRefToBool  => 1 + 0
  | EnumToI32 _ _ => 1 + 9
  | I32ToEnum _ _ => 1 + 9
  | DynamicCast _ _ => 1 + 9
  | ToString _ => 1 + 8
  | ToVariant _ => 1 + 8
  | FromVariant _ => 1 + 8
  | VariantIsDefined  => 1 + 0
  | VariantIsRef  => 1 + 0
  | VariantIsArray  => 1 + 0
  | VariantTypeName  => 1 + 0
  | VariantToString  => 1 + 0
  | WeakRefToRef  => 1 + 0
  | RefToWeakRef  => 1 + 0
  | WeakRefNull  => 1 + 0
  | AsRef _ => 1 + 8
  | Deref _ => 1 + 8
  end.

(** Instr::resolve_labels (bytecode.rs 229-349), with the label-to-offset map
    [f] = |label| targets[label.index].relative(location); a functional update of
    every label operand. *)
Definition map_loc {L M} (f : L -> M) (i : instr L) : instr M :=
  match i with
  | Nop  => Nop 
  | Null  => Null 
  | I32One  => I32One 
  | I32Zero  => I32Zero 
  | I8Const a => I8Const a
  | I16Const a => I16Const a
  | I32Const a => I32Const a
  | I64Const a => I64Const a
  | U8Const a => U8Const a
  | U16Const a => U16Const a
  | U32Const a => U32Const a
  | U64Const a => U64Const a
  | F32Const a => F32Const a
  | F64Const a => F64Const a
  | NameConst a => NameConst a
  | EnumConst a b => EnumConst a b
  | StringConst a => StringConst a
  | TweakDbIdConst a => TweakDbIdConst a
  | ResourceConst a => ResourceConst a
  | TrueConst  => TrueConst 
  | FalseConst  => FalseConst 
  | Breakpoint a => Breakpoint a
  | Assign  => Assign 
  | Target a => Target (f a)
  | Local a => Local a
  | Param a => Param a
  | ObjectField a => ObjectField a
  | ExternalVar  => ExternalVar 
  | Switch a b => Switch a (f b)
  | SwitchLabel a b => SwitchLabel (f a) (f b)
  | SwitchDefault  => SwitchDefault 
  | Jump a => Jump (f a)
  | JumpIfFalse a => JumpIfFalse (f a)
  | Skip a => Skip (f a)
  | Conditional a b => Conditional (f a) (f b)
  | Construct a b => Construct a b
  | InvokeStatic a b c d => InvokeStatic (f a) b c d
  | InvokeVirtual a b c d => InvokeVirtual (f a) b c d
  | ParamEnd  => ParamEnd 
  | Return  => Return 
  | StructField a => StructField a
  | Context a => Context (f a)
  | Equals a => Equals a
  | RefStringEqualsString a => RefStringEqualsString a
  | StringEqualsRefString a => StringEqualsRefString a
  | NotEquals a => NotEquals a
  | RefStringNotEqualsString a => RefStringNotEqualsString a
  | StringNotEqualsRefString a => StringNotEqualsRefString a
  | New a => New a
  | Delete  => Delete 
  | This  => This 
  | StartProfiling a => StartProfiling a
  | ArrayClear a => ArrayClear a
  | ArraySize a => ArraySize a
  | ArrayResize a => ArrayResize a
  | ArrayFindFirst a => ArrayFindFirst a
  | ArrayFindFirstFast a => ArrayFindFirstFast a
  | ArrayFindLast a => ArrayFindLast a
  | ArrayFindLastFast a => ArrayFindLastFast a
  | ArrayContains a => ArrayContains a
  | ArrayContainsFast a => ArrayContainsFast a
  | ArrayCount a => ArrayCount a
  | ArrayCountFast a => ArrayCountFast a
  | ArrayPush a => ArrayPush a
  | ArrayPop a => ArrayPop a
  | ArrayInsert a => ArrayInsert a
  | ArrayRemove a => ArrayRemove a
  | ArrayRemoveFast a => ArrayRemoveFast a
  | ArrayGrow a => ArrayGrow a
  | ArrayErase a => ArrayErase a
  | ArrayEraseFast a => ArrayEraseFast a
  | ArrayLast a => ArrayLast a
  | ArrayElement a => ArrayElement a
  | ArraySort a => ArraySort a
  | ArraySortByPredicate a => ArraySortByPredicate a
  | StaticArraySize a => StaticArraySize a
  | StaticArrayFindFirst a => StaticArrayFindFirst a
  | StaticArrayFindFirstFast a => StaticArrayFindFirstFast a
  | StaticArrayFindLast a => StaticArrayFindLast a
  | StaticArrayFindLastFast a => StaticArrayFindLastFast a
  | StaticArrayContains a => StaticArrayContains a
  | StaticArrayContainsFast a => StaticArrayContainsFast a
  | StaticArrayCount a => StaticArrayCount a
  | StaticArrayCountFast a => StaticArrayCountFast a
  | StaticArrayLast a => StaticArrayLast a
  | StaticArrayElement a => StaticArrayElement a
  | RefToBool  => RefToBool 
  | WeakRefToBool  => WeakRefToBool 
  | EnumToI32 a b => EnumToI32 a b
  | I32ToEnum a b => I32ToEnum a b
  | DynamicCast a b => DynamicCast a b
  | ToString a => ToString a
  | ToVariant a => ToVariant a
  | FromVariant a => FromVariant a
  | VariantIsDefined  => VariantIsDefined 
  | VariantIsRef  => VariantIsRef 
  | VariantIsArray  => VariantIsArray 
  | VariantTypeName  => VariantTypeName 
  | VariantToString  => VariantToString 
  | WeakRefToRef  => WeakRefToRef 
  | RefToWeakRef  => RefToWeakRef 
  | WeakRefNull  => WeakRefNull 
  | AsRef a => AsRef a
  | Deref a => Deref a
  end.

(** The label operands of an instruction, in field order (bytecode.rs 12-118). *)
Definition locs {L} (i : instr L) : list L :=
  match i with
  | Target a => [a]
  | Switch _ b => [b]
  | SwitchLabel a b => [a; b]
  | Jump a => [a]
  | JumpIfFalse a => [a]
  | Skip a => [a]
  | Conditional a b => [a; b]
  | InvokeStatic a _ _ _ => [a]
  | InvokeVirtual a _ _ _ => [a]
  | Context a => [a]
  | _ => []
  end.

(** Jump offsets are stored relative to the end of the operand: [Offset::new(v - bias)]
    on writing and [+ bias] on reading, both in wrapping i16 arithmetic
    (bytecode.rs 383-412, 596-658). *)
Definition enc_off (bias : Z) (v : Z) : writer := enc_16 (wrap_s 16 (v - bias)).
Definition dec_off (bias : Z) : parser Z := v <- dec_i16 ;; pret (wrap_s 16 (v + bias)).

(** Encode for Instr<Offset> (bytecode.rs 489-901). *)
Definition enc_instr (i : instr Z) : writer :=
  match i with
  | Nop  => enc_8 0
  | Null  => enc_8 1
  | I32One  => enc_8 2
  | I32Zero  => enc_8 3
  | I8Const a => enc_8 4 +++ enc_8 a
  | I16Const a => enc_8 5 +++ enc_16 a
  | I32Const a => enc_8 6 +++ enc_32 a
  | I64Const a => enc_8 7 +++ enc_64 a
  | U8Const a => enc_8 8 +++ enc_8 a
  | U16Const a => enc_8 9 +++ enc_16 a
  | U32Const a => enc_8 10 +++ enc_32 a
  | U64Const a => enc_8 11 +++ enc_64 a
  | F32Const a => enc_8 12 +++ enc_32 a
  | F64Const a => enc_8 13 +++ enc_64 a
  | NameConst a => enc_8 14 +++ enc_idx a
  | EnumConst a b => enc_8 15 +++ enc_idx a +++ enc_idx b
  | StringConst a => enc_8 16 +++ enc_idx a
  | TweakDbIdConst a => enc_8 17 +++ enc_idx a
  | ResourceConst a => enc_8 18 +++ enc_idx a
  | TrueConst  => enc_8 19
  | FalseConst  => enc_8 20
  | Breakpoint a => enc_8 21 +++ enc_breakpoint a
  | Assign  => enc_8 22
  | Target _ => enc_8 23
  | Local a => enc_8 24 +++ enc_idx a
  | Param a => enc_8 25 +++ enc_idx a
  | ObjectField a => enc_8 26 +++ enc_idx a
  | ExternalVar  => enc_8 27
  | Switch a b => enc_8 28 +++ enc_idx a +++ enc_off 11 b
  | SwitchLabel a b => enc_8 29 +++ enc_off 3 a +++ enc_off 5 b
  | SwitchDefault  => enc_8 30
  | Jump a => enc_8 31 +++ enc_off 3 a
  | JumpIfFalse a => enc_8 32 +++ enc_off 3 a
  | Skip a => enc_8 33 +++ enc_off 3 a
  | Conditional a b => enc_8 34 +++ enc_off 3 a +++ enc_off 5 b
  | Construct a b => enc_8 35 +++ enc_8 a +++ enc_idx b
  | InvokeStatic a b c d => enc_8 36 +++ enc_off 3 a +++ enc_16 b +++ enc_idx c +++ enc_16 d
  | InvokeVirtual a b c d => enc_8 37 +++ enc_off 3 a +++ enc_16 b +++ enc_idx c +++ enc_16 d
  | ParamEnd  => enc_8 38
  | Return  => enc_8 39
  | StructField a => enc_8 40 +++ enc_idx a
  | Context a => enc_8 41 +++ enc_off 3 a
  | Equals a => enc_8 42 +++ enc_idx a
  | RefStringEqualsString a => enc_8 43 +++ enc_idx a
  | StringEqualsRefString a => enc_8 44 +++ enc_idx a
  | NotEquals a => enc_8 45 +++ enc_idx a
  | RefStringNotEqualsString a => enc_8 46 +++ enc_idx a
  | StringNotEqualsRefString a => enc_8 47 +++ enc_idx a
  | New a => enc_8 48 +++ enc_idx a
  | Delete  => enc_8 49
  | This  => enc_8 50
  | StartProfiling a => enc_8 51 +++ enc_profiling a
  | ArrayClear a => enc_8 52 +++ enc_idx a
  | ArraySize a => enc_8 53 +++ enc_idx a
  | ArrayResize a => enc_8 54 +++ enc_idx a
  | ArrayFindFirst a => enc_8 55 +++ enc_idx a
  | ArrayFindFirstFast a => enc_8 56 +++ enc_idx a
  | ArrayFindLast a => enc_8 57 +++ enc_idx a
  | ArrayFindLastFast a => enc_8 58 +++ enc_idx a
  | ArrayContains a => enc_8 59 +++ enc_idx a
  | ArrayContainsFast a => enc_8 60 +++ enc_idx a
  | ArrayCount a => enc_8 61 +++ enc_idx a
  | ArrayCountFast a => enc_8 62 +++ enc_idx a
  | ArrayPush a => enc_8 63 +++ enc_idx a
  | ArrayPop a => enc_8 64 +++ enc_idx a
  | ArrayInsert a => enc_8 65 +++ enc_idx a
  | ArrayRemove a => enc_8 66 +++ enc_idx a
  | ArrayRemoveFast a => enc_8 67 +++ enc_idx a
  | ArrayGrow a => enc_8 68 +++ enc_idx a
  | ArrayErase a => enc_8 69 +++ enc_idx a
  | ArrayEraseFast a => enc_8 70 +++ enc_idx a
  | ArrayLast a => enc_8 71 +++ enc_idx a
  | ArrayElement a => enc_8 72 +++ enc_idx a
  | ArraySort a => enc_8 73 +++ enc_idx a
  | ArraySortByPredicate a => enc_8 74 +++ enc_idx a
  | StaticArraySize a => enc_8 75 +++ enc_idx a
  | StaticArrayFindFirst a => enc_8 76 +++ enc_idx a
  | StaticArrayFindFirstFast a => enc_8 77 +++ enc_idx a
  | StaticArrayFindLast a => enc_8 78 +++ enc_idx a
  | StaticArrayFindLastFast a => enc_8 79 +++ enc_idx a
  | StaticArrayContains a => enc_8 80 +++ enc_idx a
  | StaticArrayContainsFast a => enc_8 81 +++ enc_idx a
  | StaticArrayCount a => enc_8 82 +++ enc_idx a
  | StaticArrayCountFast a => enc_8 83 +++ enc_idx a
  | StaticArrayLast a => enc_8 84 +++ enc_idx a
  | StaticArrayElement a => enc_8 85 +++ enc_idx a
  | RefToBool  => enc_8 86
  | WeakRefToBool  => enc_8 87
  | EnumToI32 a b => enc_8 88 +++ enc_idx a +++ enc_8 b
  | I32ToEnum a b => enc_8 89 +++ enc_idx a +++ enc_8 b
  | DynamicCast a b => enc_8 90 +++ enc_idx a +++ enc_8 b
  | ToString a => enc_8 91 +++ enc_idx a
  | ToVariant a => enc_8 92 +++ enc_idx a
  | FromVariant a => enc_8 93 +++ enc_idx a
  | VariantIsDefined  => enc_8 94
  | VariantIsRef  => enc_8 95
  | VariantIsArray  => enc_8 96
  | VariantTypeName  => enc_8 97
  | VariantToString  => enc_8 98
  | WeakRefToRef  => enc_8 99
  | RefToWeakRef  => enc_8 100
  | WeakRefNull  => enc_8 101
  | AsRef a => enc_8 102 +++ enc_idx a
  | Deref a => enc_8 103 +++ enc_idx a
  end.

(** Decode for Instr<Offset> (bytecode.rs 351-487). *)
Definition dec_instr : parser (instr Z) :=
  code <- dec_u8 ;;
  match code with
  | 0 => pret (Nop )
  | 1 => pret (Null )
  | 2 => pret (I32One )
  | 3 => pret (I32Zero )
  | 4 => a <- dec_i8 ;; pret (I8Const a)
  | 5 => a <- dec_i16 ;; pret (I16Const a)
  | 6 => a <- dec_i32 ;; pret (I32Const a)
  | 7 => a <- dec_i64 ;; pret (I64Const a)
  | 8 => a <- dec_u8 ;; pret (U8Const a)
  | 9 => a <- dec_u16 ;; pret (U16Const a)
  | 10 => a <- dec_u32 ;; pret (U32Const a)
  | 11 => a <- dec_u64 ;; pret (U64Const a)
  | 12 => a <- dec_u32 ;; pret (F32Const a)
  | 13 => a <- dec_u64 ;; pret (F64Const a)
  | 14 => a <- dec_idx ;; pret (NameConst a)
  | 15 => a <- dec_idx ;; b <- dec_idx ;; pret (EnumConst a b)
  | 16 => a <- dec_idx ;; pret (StringConst a)
  | 17 => a <- dec_idx ;; pret (TweakDbIdConst a)
  | 18 => a <- dec_idx ;; pret (ResourceConst a)
  | 19 => pret (TrueConst )
  | 20 => pret (FalseConst )
  | 21 => a <- dec_breakpoint ;; pret (Breakpoint a)
  | 22 => pret (Assign )
  | 23 => pret (Target 0)
  | 24 => a <- dec_idx ;; pret (Local a)
  | 25 => a <- dec_idx ;; pret (Param a)
  | 26 => a <- dec_idx ;; pret (ObjectField a)
  | 27 => pret (ExternalVar )
  | 28 => a <- dec_idx ;; b <- dec_off 11 ;; pret (Switch a b)
  | 29 => a <- dec_off 3 ;; b <- dec_off 5 ;; pret (SwitchLabel a b)
  | 30 => pret (SwitchDefault )
  | 31 => a <- dec_off 3 ;; pret (Jump a)
  | 32 => a <- dec_off 3 ;; pret (JumpIfFalse a)
  | 33 => a <- dec_off 3 ;; pret (Skip a)
  | 34 => a <- dec_off 3 ;; b <- dec_off 5 ;; pret (Conditional a b)
  | 35 => a <- dec_u8 ;; b <- dec_idx ;; pret (Construct a b)
  | 36 => a <- dec_off 3 ;; b <- dec_u16 ;; c <- dec_idx ;; d <- dec_u16 ;; pret (InvokeStatic a b c d)
  | 37 => a <- dec_off 3 ;; b <- dec_u16 ;; c <- dec_idx ;; d <- dec_u16 ;; pret (InvokeVirtual a b c d)
  | 38 => pret (ParamEnd )
  | 39 => pret (Return )
  | 40 => a <- dec_idx ;; pret (StructField a)
  | 41 => a <- dec_off 3 ;; pret (Context a)
  | 42 => a <- dec_idx ;; pret (Equals a)
  | 43 => a <- dec_idx ;; pret (RefStringEqualsString a)
  | 44 => a <- dec_idx ;; pret (StringEqualsRefString a)
  | 45 => a <- dec_idx ;; pret (NotEquals a)
  | 46 => a <- dec_idx ;; pret (RefStringNotEqualsString a)
  | 47 => a <- dec_idx ;; pret (StringNotEqualsRefString a)
  | 48 => a <- dec_idx ;; pret (New a)
  | 49 => pret (Delete )
  | 50 => pret (This )
  | 51 => a <- dec_profiling ;; pret (StartProfiling a)
  | 52 => a <- dec_idx ;; pret (ArrayClear a)
  | 53 => a <- dec_idx ;; pret (ArraySize a)
  | 54 => a <- dec_idx ;; pret (ArrayResize a)
  | 55 => a <- dec_idx ;; pret (ArrayFindFirst a)
  | 56 => a <- dec_idx ;; pret (ArrayFindFirstFast a)
  | 57 => a <- dec_idx ;; pret (ArrayFindLast a)
  | 58 => a <- dec_idx ;; pret (ArrayFindLastFast a)
  | 59 => a <- dec_idx ;; pret (ArrayContains a)
  | 60 => a <- dec_idx ;; pret (ArrayContainsFast a)
  | 61 => a <- dec_idx ;; pret (ArrayCount a)
  | 62 => a <- dec_idx ;; pret (ArrayCountFast a)
  | 63 => a <- dec_idx ;; pret (ArrayPush a)
  | 64 => a <- dec_idx ;; pret (ArrayPop a)
  | 65 => a <- dec_idx ;; pret (ArrayInsert a)
  | 66 => a <- dec_idx ;; pret (ArrayRemove a)
  | 67 => a <- dec_idx ;; pret (ArrayRemoveFast a)
  | 68 => a <- dec_idx ;; pret (ArrayGrow a)
  | 69 => a <- dec_idx ;; pret (ArrayErase a)
  | 70 => a <- dec_idx ;; pret (ArrayEraseFast a)
  | 71 => a <- dec_idx ;; pret (ArrayLast a)
  | 72 => a <- dec_idx ;; pret (ArrayElement a)
  | 73 => a <- dec_idx ;; pret (ArraySort a)
  | 74 => a <- dec_idx ;; pret (ArraySortByPredicate a)
  | 75 => a <- dec_idx ;; pret (StaticArraySize a)
  | 76 => a <- dec_idx ;; pret (StaticArrayFindFirst a)
  | 77 => a <- dec_idx ;; pret (StaticArrayFindFirstFast a)
  | 78 => a <- dec_idx ;; pret (StaticArrayFindLast a)
  | 79 => a <- dec_idx ;; pret (StaticArrayFindLastFast a)
  | 80 => a <- dec_idx ;; pret (StaticArrayContains a)
  | 81 => a <- dec_idx ;; pret (StaticArrayContainsFast a)
  | 82 => a <- dec_idx ;; pret (StaticArrayCount a)
  | 83 => a <- dec_idx ;; pret (StaticArrayCountFast a)
  | 84 => a <- dec_idx ;; pret (StaticArrayLast a)
  | 85 => a <- dec_idx ;; pret (StaticArrayElement a)
  | 86 => pret (RefToBool )
  | 87 => pret (WeakRefToBool )
  | 88 => a <- dec_idx ;; b <- dec_u8 ;; pret (EnumToI32 a b)
  | 89 => a <- dec_idx ;; b <- dec_u8 ;; pret (I32ToEnum a b)
  | 90 => a <- dec_idx ;; b <- dec_u8 ;; pret (DynamicCast a b)
  | 91 => a <- dec_idx ;; pret (ToString a)
  | 92 => a <- dec_idx ;; pret (ToVariant a)
  | 93 => a <- dec_idx ;; pret (FromVariant a)
  | 94 => pret (VariantIsDefined )
  | 95 => pret (VariantIsRef )
  | 96 => pret (VariantIsArray )
  | 97 => pret (VariantTypeName )
  | 98 => pret (VariantToString )
  | 99 => pret (WeakRefToRef )
  | 100 => pret (RefToWeakRef )
  | 101 => pret (WeakRefNull )
  | 102 => a <- dec_idx ;; pret (AsRef a)
  | 103 => a <- dec_idx ;; pret (Deref a)
  | _ => pfail InvalidData
  end.

(** Operand ranges guaranteed by the Rust field types (bytecode.rs 12-118,
    903-911, 945-946).  The length bound on the profiling string is the panic
    condition of its length prefix (encode.rs 120). *)
Definition breakpoint_wf (p : breakpoint) : Prop :=
  in_u 16 (bp_line p) /\ in_u 32 (bp_line_start p) /\ in_u 16 (bp_col p) /\
  in_u 16 (bp_length p) /\ in_u 64 (bp_padding p).
Definition profiling_wf (p : profiling) : Prop :=
  utf8_valid (pr_function p) = true /\ Z.of_nat (length (pr_function p)) < 2 ^ 32 /\
  in_u 8 (pr_enabled p).
Definition instr_typed (i : instr Z) : Prop :=
  match i with
  | I8Const a => in_s 8 a
  | I16Const a => in_s 16 a
  | I32Const a => in_s 32 a
  | I64Const a => in_s 64 a
  | U8Const a => in_u 8 a
  | U16Const a => in_u 16 a
  | U32Const a => in_u 32 a
  | U64Const a => in_u 64 a
  | F32Const a => in_u 32 a
  | F64Const a => in_u 64 a
  | NameConst a => in_u 32 a
  | EnumConst a b => in_u 32 a /\ in_u 32 b
  | StringConst a => in_u 32 a
  | TweakDbIdConst a => in_u 32 a
  | ResourceConst a => in_u 32 a
  | Breakpoint a => breakpoint_wf a
  | Target a => in_s 16 a
  | Local a => in_u 32 a
  | Param a => in_u 32 a
  | ObjectField a => in_u 32 a
  | Switch a b => in_u 32 a /\ in_s 16 b
  | SwitchLabel a b => in_s 16 a /\ in_s 16 b
  | Jump a => in_s 16 a
  | JumpIfFalse a => in_s 16 a
  | Skip a => in_s 16 a
  | Conditional a b => in_s 16 a /\ in_s 16 b
  | Construct a b => in_u 8 a /\ in_u 32 b
  | InvokeStatic a b c d => in_s 16 a /\ in_u 16 b /\ in_u 32 c /\ in_u 16 d
  | InvokeVirtual a b c d => in_s 16 a /\ in_u 16 b /\ in_u 32 c /\ in_u 16 d
  | StructField a => in_u 32 a
  | Context a => in_s 16 a
  | Equals a => in_u 32 a
  | RefStringEqualsString a => in_u 32 a
  | StringEqualsRefString a => in_u 32 a
  | NotEquals a => in_u 32 a
  | RefStringNotEqualsString a => in_u 32 a
  | StringNotEqualsRefString a => in_u 32 a
  | New a => in_u 32 a
  | StartProfiling a => profiling_wf a
  | ArrayClear a => in_u 32 a
  | ArraySize a => in_u 32 a
  | ArrayResize a => in_u 32 a
  | ArrayFindFirst a => in_u 32 a
  | ArrayFindFirstFast a => in_u 32 a
  | ArrayFindLast a => in_u 32 a
  | ArrayFindLastFast a => in_u 32 a
  | ArrayContains a => in_u 32 a
  | ArrayContainsFast a => in_u 32 a
  | ArrayCount a => in_u 32 a
  | ArrayCountFast a => in_u 32 a
  | ArrayPush a => in_u 32 a
  | ArrayPop a => in_u 32 a
  | ArrayInsert a => in_u 32 a
  | ArrayRemove a => in_u 32 a
  | ArrayRemoveFast a => in_u 32 a
  | ArrayGrow a => in_u 32 a
  | ArrayErase a => in_u 32 a
  | ArrayEraseFast a => in_u 32 a
  | ArrayLast a => in_u 32 a
  | ArrayElement a => in_u 32 a
  | ArraySort a => in_u 32 a
  | ArraySortByPredicate a => in_u 32 a
  | StaticArraySize a => in_u 32 a
  | StaticArrayFindFirst a => in_u 32 a
  | StaticArrayFindFirstFast a => in_u 32 a
  | StaticArrayFindLast a => in_u 32 a
  | StaticArrayFindLastFast a => in_u 32 a
  | StaticArrayContains a => in_u 32 a
  | StaticArrayContainsFast a => in_u 32 a
  | StaticArrayCount a => in_u 32 a
  | StaticArrayCountFast a => in_u 32 a
  | StaticArrayLast a => in_u 32 a
  | StaticArrayElement a => in_u 32 a
  | EnumToI32 a b => in_u 32 a /\ in_u 8 b
  | I32ToEnum a b => in_u 32 a /\ in_u 8 b
  | DynamicCast a b => in_u 32 a /\ in_u 8 b
  | ToString a => in_u 32 a
  | ToVariant a => in_u 32 a
  | FromVariant a => in_u 32 a
  | AsRef a => in_u 32 a
  | Deref a => in_u 32 a
  | _ => True
  end.

(** struct Code<Loc> (bytecode.rs 1023-1024). *)
Definition code (L : Type) := list (instr L).

(** Encode for Code<Offset> (bytecode.rs 1083-1092); the u32 sum wraps. *)
Definition code_size {L} (c : code L) : Z :=
  fold_left (fun acc i => wrap_u 32 (acc + instr_size i)) c 0.
Definition enc_code (c : code Z) : writer :=
  enc_32 (code_size c) +++ enc_slice enc_instr c.

(** The while loop of Decode for Code<Offset> (bytecode.rs 1074-1078).  Every
    iteration consumes at least one byte, so the number of remaining bytes plus
    one is enough fuel. *)
Fixpoint dec_code_loop (fuel : nat) (max offset : Z) : parser (code Z) :=
  match fuel with
  | O => pfail OutOfFuel
  | S fuel' =>
    if offset <? max then
      i <- dec_instr ;;
      is <- dec_code_loop fuel' max (wrap_u 32 (offset + instr_size i)) ;;
      pret (i :: is)
    else pret []
  end.
(** Decode for Code<Offset> (bytecode.rs 1069-1081). *)
Definition dec_code : parser (code Z) :=
  max <- dec_u32 ;;
  fun i => dec_code_loop (S (length i)) max 0 i.
