(** What ordering the classes of a pool means, said without the algorithm. *)
From Coq Require Import ZArith List Bool.
From Verif Require Import Bytes Definitions Bundle Pool Bytecode Scope TypeCheck TypingSpec.
Import ListNotations.
Open Scope Z_scope.

(** Every class has a finite chain of bases, all of which are classes; the index
    that stands for "none" is not a class. *)
Definition acyclic (p : pool) : Prop :=
  (forall k, get_class p UNDEFINED <> Done k) /\ (forall c k, get_class p c = Done k -> exists l, chain p c l).

(** Every class comes after its base. *)
Definition bases_first (p : pool) : Prop :=
  forall c k, get_class p c = Done k -> cl_base k <> UNDEFINED -> cl_base k < c.

(** The references to classes in an instruction: all operands whose type in
    bytecode.rs is PoolIndex<Class>. *)
Definition operand_classes (i : instr Z) : list pidx :=
  match i with Construct _ c | New c | DynamicCast c _ => [c] | _ => [] end.
Definition forget_operand (i : instr Z) : instr Z :=
  match i with Construct n _ => Construct n 0 | New _ => New 0 | DynamicCast _ f => DynamicCast 0 f | i => i end.
(** The references to classes in a definition: the base of a class, the class a
    function or a field belongs to, operands in code. *)
Definition class_refs (d : definition) : list pidx :=
  match df_value d with
  | DClass k => [cl_base k]
  | DFunction f => df_parent d :: flat_map operand_classes (fu_code f)
  | DField _ => [df_parent d]
  | _ => []
  end.
(** All the rest of a definition. *)
Definition forget_refs (d : definition) : definition :=
  let renew parent v := {| df_name := df_name d; df_parent := parent; df_unk1 := df_unk1 d; df_unk2 := df_unk2 d; df_unk3 := df_unk3 d; df_value := v |} in
  match df_value d with
  | DClass k => renew (df_parent d)
      (DClass {| cl_visibility := cl_visibility k; cl_flags := cl_flags k; cl_base := 0; cl_functions := cl_functions k;
                 cl_fields := cl_fields k; cl_overrides := cl_overrides k |})
  | DFunction f => renew 0
      (DFunction {| fu_visibility := fu_visibility f; fu_flags := fu_flags f; fu_source := fu_source f; fu_return_type := fu_return_type f;
                    fu_unk1 := fu_unk1 f; fu_base_method := fu_base_method f; fu_parameters := fu_parameters f; fu_locals := fu_locals f;
                    fu_operator := fu_operator f; fu_cast := fu_cast f; fu_code := map forget_operand (fu_code f); fu_unk2 := fu_unk2 f |})
  | DField f => renew 0 (DField f)
  | _ => d
  end.

(** [p'] is [p] with the definition at [i] moved to [move i]: definitions are only
    moved about, only classes move, every reference to a class follows it, and
    nothing else is different. *)
Record moved_by (move : pidx -> pidx) (p p' : pool) : Prop := {
  mb_names : pl_names p' = pl_names p;
  mb_tweakdb : pl_tweakdb p' = pl_tweakdb p;
  mb_resources : pl_resources p' = pl_resources p;
  mb_strings : pl_strings p' = pl_strings p;
  mb_length : length (pl_defs p') = length (pl_defs p);
  mb_injective : forall i j, move i = move j -> i = j;
  mb_classes : forall i, move i <> i -> (exists k, get_class p i = Done k) /\ (exists k, get_class p (move i) = Done k);
  mb_content : forall i d, get_def p i = Done d -> exists d', get_def p' (move i) = Done d' /\
    class_refs d' = map move (class_refs d) /\ forget_refs d' = forget_refs d
}.
