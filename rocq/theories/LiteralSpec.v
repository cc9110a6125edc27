(** The numbers that literals stand for (specification).  Floating-point numbers are
    those of Flocq (IEEE 754). *)
From Coq Require Import String.
From Coq Require Import ZArith List Bool Reals.
From Flocq Require Import Core IEEE754.Binary IEEE754.Bits.
From Verif Require Import Bytes Bytecode Definitions Bundle Ast TypeNames.
Import ListNotations.
Open Scope Z_scope.

Inductive number := Real (r : R) | NegativeZero | Infinite (negative : bool) | NotANumber.
Definition of_float {prec emax} (x : binary_float prec emax) : number :=
  match x with
  | B754_zero _ _ true => NegativeZero
  | B754_infinity _ _ s => Infinite s
  | B754_nan _ _ _ _ _ => NotANumber
  | _ => Real (B2R prec emax x)
  end.
(** The number a constant stands for. *)
Definition number_of (c : constant) : option number :=
  match c with
  | CI32 i | CI64 i | CU32 i | CU64 i => Some (Real (IZR i))
  | CF32 b => Some (of_float (b32_of_bits b))
  | CF64 b => Some (of_float (b64_of_bits b))
  | CString _ _ | CBool _ => None
  end.
(** Its type. *)
Definition number_type (c : constant) : str :=
  lit match c with
      | CI32 _ => "Int32" | CI64 _ => "Int64" | CU32 _ => "Uint32" | CU64 _ => "Uint64"
      | CF32 _ => "Float" | CF64 _ => "Double" | CString _ _ | CBool _ => "" end.
(** The constants there are: integers of their sizes, bit patterns of 32 and 64 bits. *)
Definition constant_in_range (c : constant) : Prop :=
  match c with
  | CI32 i => in_s 32 i | CI64 i => in_s 64 i | CU32 i | CF32 i => in_u 32 i | CU64 i | CF64 i => in_u 64 i
  | CString _ _ | CBool _ => True
  end.
(** Literals that become literals of another type if that type is needed. *)
Definition widens (from to : str) : Prop :=
  In (from, to) [(lit "Int32", lit "Float"); (lit "Int32", lit "Double"); (lit "Int32", lit "Int64");
                 (lit "Uint32", lit "Uint64"); (lit "Float", lit "Double")].
(** The float that is nearest to a number, and even if there are two. *)
Definition nearest_float (r : R) : R := round radix2 (FLT_exp (-149) 24) ZnearestE r.

(** Integer literals are digits with a suffix that says which type they have. *)
Inductive suffix := NoSuffix | SuffixL | SuffixU | SuffixUL.
Definition suffix_text (k : suffix) : str :=
  lit match k with NoSuffix => "" | SuffixL => "l" | SuffixU => "u" | SuffixUL => "ul" end.
Definition with_suffix (k : suffix) : Z -> constant :=
  match k with NoSuffix => CI32 | SuffixL => CI64 | SuffixU => CU32 | SuffixUL => CU64 end.
Definition signed (k : suffix) : bool := match k with NoSuffix | SuffixL => true | _ => false end.
(** The value of digits. *)
Definition digit (b : byte) : Prop := 48 <= Z_of_byte b <= 57.
Definition decimal (w : str) : Z := fold_left (fun a b => 10 * a + (Z_of_byte b - 48)) w 0.
(** What follows a number: nothing that could belong to it. *)
Definition ends_number (rest : list byte) : Prop :=
  match rest with [] => True | b :: _ => ~ digit b /\ ~ In b [x2e; x75; x6c; x64] (* . u l d *) end.
(** The constant that an instruction loads. *)
Definition loaded {L} (i : instr L) : option constant :=
  match i with
  | I32Const v => Some (CI32 v) | I64Const v => Some (CI64 v) | U32Const v => Some (CU32 v) | U64Const v => Some (CU64 v)
  | F32Const v => Some (CF32 v) | F64Const v => Some (CF64 v)
  | TrueConst => Some (CBool true) | FalseConst => Some (CBool false)
  | _ => None
  end.
