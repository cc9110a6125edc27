(** Access to the constant pool, and the result type of the compiler model.

    Models core/src/bundle.rs 244-355. *)
From Coq Require Import String.
From Coq Require Import ZArith List Bool.
From Verif Require Import Bytes Bytecode Definitions Bundle Ast.
Import ListNotations.
Open Scope Z_scope.

(** Rust's Result. *)
Inductive outcome (E A : Type) := Done (a : A) | Fail (e : E).
Arguments Done {E A}. Arguments Fail {E A}.
Definition obind {E A B} (m : outcome E A) (k : A -> outcome E B) : outcome E B :=
  match m with Done a => k a | Fail e => Fail e end.
Notation "'let*' x ':=' m 'in' k" := (obind m (fun x => k)) (at level 200, x pattern, right associativity).
Definition map_err {E F A} (f : E -> F) (m : outcome E A) : outcome F A :=
  match m with Done a => Done a | Fail e => Fail (f e) end.
Definition omap {E A B} (f : A -> B) (m : outcome E A) : outcome E B :=
  match m with Done a => Done (f a) | Fail e => Fail e end.
(** Iterator::collect into a Result / try_collect. *)
Fixpoint mapM {E A B} (f : A -> outcome E B) (l : list A) : outcome E (list B) :=
  match l with
  | [] => Done []
  | x :: l' => let* y := f x in let* ys := mapM f l' in Done (y :: ys)
  end.

(** PoolIndex::UNDEFINED (bundle.rs). *)
Definition UNDEFINED : pidx := 0.

(** Indexing by a PoolIndex (a u32). *)
Definition nth_def (l : list definition) (i : pidx) : option definition :=
  if i <? 0 then None else nth_error l (Z.to_nat i).
(** ConstantPool::definition (bundle.rs 256-260). *)
Definition get_def (p : pool) (i : pidx) : outcome pool_error definition :=
  match nth_def (pl_defs p) i with Some d => Done d | None => Fail (DefinitionNotFound i) end.
(** ConstantPool::definition_by (bundle.rs 244-254). *)
Definition def_by {A} (g : any_def -> option A) (p : pool) (i : pidx) : outcome pool_error A :=
  match nth_def (pl_defs p) i with
  | Some d => match g (df_value d) with Some a => Done a | None => Fail (DefinitionNotFound i) end
  | None => Fail (DefinitionNotFound i)
  end.
(** AnyDefinition::as_* (definition.rs 60-133). *)
Definition as_type d := match d with DType t => Some t | _ => None end.
Definition as_class d := match d with DClass c => Some c | _ => None end.
Definition as_enum d := match d with DEnum e => Some e | _ => None end.
Definition as_enum_value d := match d with DEnumValue v => Some v | _ => None end.
Definition as_function d := match d with DFunction f => Some f | _ => None end.
Definition as_parameter d := match d with DParameter p => Some p | _ => None end.
Definition as_local d := match d with DLocal l => Some l | _ => None end.
Definition as_field d := match d with DField f => Some f | _ => None end.
(** ConstantPool::type_, class, enum_, enum_value, function, parameter, local,
    field (bundle.rs 262-309). *)
Definition get_type := def_by as_type.
Definition get_class := def_by as_class.
Definition get_enum := def_by as_enum.
Definition get_enum_value := def_by as_enum_value.
Definition get_function := def_by as_function.
Definition get_parameter := def_by as_parameter.
Definition get_local := def_by as_local.
Definition get_field := def_by as_field.
(** ConstantPool::def_name (bundle.rs 314-316). *)
Definition def_name (p : pool) (i : pidx) : outcome pool_error str :=
  let* d := get_def p i in
  match st_get (Some none_str) (pl_names p) (df_name d) with inl s => Done s | inr e => Fail e end.

Definition set_defs (p : pool) (ds : list definition) : pool :=
  {| pl_names := pl_names p; pl_tweakdb := pl_tweakdb p; pl_resources := pl_resources p;
     pl_strings := pl_strings p; pl_defs := ds |}.
Definition set_names (p : pool) (n : strings) : pool :=
  {| pl_names := n; pl_tweakdb := pl_tweakdb p; pl_resources := pl_resources p;
     pl_strings := pl_strings p; pl_defs := pl_defs p |}.
(** names.add on the pool. *)
Definition add_name (p : pool) (s : str) : pool * pidx :=
  let '(n, i) := st_add (Some none_str) (pl_names p) s in (set_names p n, i).
(** ConstantPool::add_definition (bundle.rs 338-342). *)
Definition add_definition (p : pool) (d : definition) : pool * pidx :=
  (set_defs p (pl_defs p ++ [d]), wrap_u 32 (Z.of_nat (length (pl_defs p)))).
(** ConstantPool::definitions (bundle.rs 318-324): the entry with index zero is
    skipped. *)
Fixpoint number {A} (i : nat) (l : list A) : list (pidx * A) :=
  match l with [] => [] | x :: l' => (Z.of_nat i, x) :: number (S i) l' end.
Definition definitions (p : pool) : list (pidx * definition) :=
  match pl_defs p with [] => [] | _ :: ds => number 1 ds end.
(** ConstantPool::roots (bundle.rs 352-354). *)
Definition roots (p : pool) : list (pidx * definition) :=
  filter (fun x => df_parent (snd x) =? UNDEFINED) (definitions p).
