(** Specification of class hierarchies, conversions and least common types. *)
From Coq Require Import ZArith List Bool.
From Verif Require Import Bytes Bytecode Definitions Bundle Ast TypeNames Pool Scope TypeCheck.
Import ListNotations.
Open Scope Z_scope.

(** [chain p c l]: [l] lists the class [c], its base, the base of that, ... up to
    a class without base. *)
Inductive chain (p : pool) : pidx -> list pidx -> Prop :=
| chain_nil : chain p UNDEFINED []
| chain_cons c k l : c <> UNDEFINED -> get_class p c = Done k -> chain p (cl_base k) l -> chain p c (c :: l).

(** [ancestor p a b]: [b] is [a] or a (transitive) base class of [a]. *)
Definition ancestor (p : pool) (a b : pidx) : Prop := exists l, chain p a l /\ In b l.

(** All classes a type mentions have a finite chain of bases. *)
Fixpoint grounded (p : pool) (t : typeid) : Prop :=
  match t with
  | TIClass c | TIStruct c => c <> UNDEFINED /\ exists l, chain p c l
  | TIRef t | TIWeakRef t | TIArray t | TIStaticArray t _ | TIScriptRef t => grounded p t
  | _ => True
  end.

(** A value of type [a] can be used as is where [b] is wanted: the language rules
    for upcasts. *)
Inductive subsumes (p : pool) : typeid -> typeid -> Prop :=
| sub_same t : subsumes p t t
| sub_null t : subsumes p TINull (TIRef t)
| sub_class a b : ancestor p a b -> subsumes p (TIClass a) (TIClass b)
| sub_struct a b : ancestor p a b -> subsumes p (TIStruct a) (TIStruct b)
| sub_ref a b : subsumes p a b -> subsumes p (TIRef a) (TIRef b)
| sub_wref a b : subsumes p a b -> subsumes p (TIWeakRef a) (TIWeakRef b).

(** The conversion the language inserts. *)
Inductive converts (p : pool) : typeid -> typeid -> conversion -> Prop :=
| conv_same a b : subsumes p a b -> converts p a b Identity
| conv_null_wref t : converts p TINull (TIWeakRef t) RefToWeakRef
| conv_ref_wref a b : subsumes p a b -> converts p (TIRef a) (TIWeakRef b) RefToWeakRef
| conv_wref_ref a b : subsumes p a b -> converts p (TIWeakRef a) (TIRef b) WeakRefToRef
| conv_script_ref a b : subsumes p a b -> converts p a (TIScriptRef b) ToScriptRef
| conv_variant a : a <> TIVariant -> converts p a TIVariant ToVariant.

(** The order of unification: as [subsumes], and null is also below every weak
    reference. *)
Definition below (p : pool) (a b : typeid) : Prop :=
  subsumes p a b \/ (a = TINull /\ exists t, b = TIWeakRef t).

(** No null type under a reference (the type checker never builds one). *)
Fixpoint null_free (t : typeid) : Prop :=
  match t with
  | TINull => False
  | TIRef t | TIWeakRef t | TIArray t | TIStaticArray t _ | TIScriptRef t => null_free t
  | _ => True
  end.
Definition proper (t : typeid) : Prop := t = TINull \/ null_free t.

(** * Members *)

(** [f] is the first definition of [l] that has the name [n]. *)
Definition first_named (p : pool) (n : str) (l : list pidx) (f : pidx) : Prop :=
  exists a b, l = a ++ f :: b /\ def_name p f = Done n /\ forall x, In x a -> def_name p x <> Done n.
Definition class_fields (p : pool) (c : pidx) : list pidx :=
  match get_class p c with Done k => cl_fields k | Fail _ => [] end.
Definition class_functions (p : pool) (c : pidx) : list pidx :=
  match get_class p c with Done k => cl_functions k | Fail _ => [] end.
(** The class declares a field called [n]. *)
Definition has_field (p : pool) (n : str) (c : pidx) : Prop :=
  exists f, In f (class_fields p c) /\ def_name p f = Done n.
(** The methods of one class whose signature has the name [n], in declaration
    order. *)
Definition methods_named (p : pool) (n : str) (c : pidx) : list pidx :=
  filter (fun f => match def_name p f with Done m => str_eqb (sig_name m) n | Fail _ => false end)
         (class_functions p c).
(** The classes in [l], their fields and their methods all have names. *)
Definition named_members (p : pool) (l : list pidx) : Prop :=
  forall c, In c l -> (exists m, def_name p c = Done m) /\
    (forall f, In f (class_fields p c) -> exists m, def_name p f = Done m) /\
    (forall f, In f (class_functions p c) -> exists m, def_name p f = Done m).
