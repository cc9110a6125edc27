(** Well typed expressions (specification): every operation is applied to operands
    of the types it is declared for. *)
From Coq Require Import String.
From Coq Require Import ZArith List Bool.
From Verif Require Import Bytes Bytecode Definitions Bundle Ast TypeNames Pool Scope TypeCheck TypingSpec PartsSpec BodySpec.
Import ListNotations.
Open Scope Z_scope.

(** Diagnostics that make a compilation fail. *)
Definition is_failure (d : diagnostic) : bool :=
  match d with DSyntaxError _ | DCompileError _ _ | DCteError _ _ => true | _ => false end.
Definition no_failures (ds : list diagnostic) : Prop := forall d, In d ds -> is_failure d = false.

(** Every class has a finite chain of bases. *)
Definition rooted (p : pool) : Prop := forall c k, get_class p c = Done k -> c <> UNDEFINED /\ exists l, chain p c l.
(** The scope has the types of literals and the type Variant by name. *)
Definition basics (s : scope) : Prop :=
  knows_literals s /\ exists i, am_find (sc_types s) (lit "Variant") = Some i.

Section WellTyped.
(** The scope of the function and the pool. *)
Variables (s : scope) (p : pool).

Definition has (e : texpr) (t : typeid) : Prop := type_of e s p = Done t.
(** A value of [e] can be used as a [t] as it is. *)
Definition suits (e : texpr) (t : typeid) : Prop := exists u, has e u /\ subsumes p u t.
Definition is_weak (t : typeid) : Prop := exists u, t = TIWeakRef u.
Definition called (n : string) (t : typeid) : Prop := resolve_type s p (tn_basic (lit n)) = Done t.
(** The entry [i] of the pool stands for the type [t]. *)
Definition entry (i : pidx) (t : typeid) : Prop := resolve_type_from_pool s p i = Done t.

(** As [subsumes], and null is also below weak references. *)
Inductive under : typeid -> typeid -> Prop :=
| under_same t : under t t
| under_null t : under TINull (TIRef t)
| under_null_weak t : under TINull (TIWeakRef t)
| under_class a b : ancestor p a b -> under (TIClass a) (TIClass b)
| under_struct a b : ancestor p a b -> under (TIStruct a) (TIStruct b)
| under_ref a b : under a b -> under (TIRef a) (TIRef b)
| under_weak a b : under a b -> under (TIWeakRef a) (TIWeakRef b).

(** The local [l] was declared with the type [t]: its type entry has the name of
    [t]. *)
Definition local_of (l : pidx) (t : typeid) : Prop :=
  exists lo n, get_local p l = Done lo /\ def_name p (lo_type lo) = Done n /\ ti_repr p t = Done n.

Definition needed (q : parameter) : bool := negb (get_flag pf_is_optional (pa_flags q)).
(** The function [g] can be given [args]: not fewer than it has parameters that
    are not optional, not more than it has parameters, each of them of the type of
    its parameter. *)
Definition applies (g : pidx) (args : list texpr) : Prop :=
  exists fn ps ts, get_function p g = Done fn /\
    Forall2 (fun i q => get_parameter p i = Done q) (fu_parameters fn) ps /\
    Forall2 (fun q t => entry (pa_type q) t) ps ts /\
    (length (filter needed ps) <= length args <= length ps)%nat /\
    Forall2 suits args (firstn (length args) ts).

(** Argument and result types of the built-in operations. *)
Inductive builtin : intrinsic -> list typeid -> typeid -> Prop :=
| bi_equals a b t : called "Bool" t -> builtin IEquals [a; b] t
| bi_not_equals a b t : called "Bool" t -> builtin INotEquals [a; b] t
| bi_clear e : builtin IArrayClear [TIArray e] TIVoid
| bi_size e t : called "Int32" t -> builtin IArraySize [TIArray e] t
| bi_resize e n a : called "Int32" n -> subsumes p a n -> builtin IArrayResize [TIArray e; a] TIVoid
| bi_find_first e a : subsumes p a e -> builtin IArrayFindFirst [TIArray e; a] e
| bi_find_last e a : subsumes p a e -> builtin IArrayFindLast [TIArray e; a] e
| bi_contains e a t : subsumes p a e -> called "Bool" t -> builtin IArrayContains [TIArray e; a] t
| bi_count e a t : subsumes p a e -> called "Int32" t -> builtin IArrayCount [TIArray e; a] t
| bi_push e a : subsumes p a e -> builtin IArrayPush [TIArray e; a] TIVoid
| bi_pop e : builtin IArrayPop [TIArray e] e
| bi_insert e n a b : called "Int32" n -> subsumes p a n -> subsumes p b e -> builtin IArrayInsert [TIArray e; a; b] TIVoid
| bi_remove e a t : subsumes p a e -> called "Bool" t -> builtin IArrayRemove [TIArray e; a] t
| bi_grow e n a : called "Int32" n -> subsumes p a n -> builtin IArrayGrow [TIArray e; a] TIVoid
| bi_erase e n a t : called "Int32" n -> subsumes p a n -> called "Bool" t -> builtin IArrayErase [TIArray e; a] t
| bi_last e : builtin IArrayLast [TIArray e] e
| bi_to_string a t : called "String" t -> builtin IToString [a] t
| bi_enum_int e t : called "Int32" t -> builtin IEnumInt [TIEnum e] t
| bi_int_enum a e : builtin IIntEnum [a] (TIEnum e)
| bi_to_variant a t : called "Variant" t -> builtin IToVariant [a] t
| bi_from_variant t : builtin IFromVariant [TIVariant] t
| bi_type_name t : called "CName" t -> builtin IVariantTypeName [TIVariant] t
| bi_is_ref t : called "Bool" t -> builtin IVariantIsRef [TIVariant] t
| bi_is_array t : called "Bool" t -> builtin IVariantIsArray [TIVariant] t
| bi_as_ref a : builtin IAsRef [a] (TIScriptRef a)
| bi_deref t : builtin IDeref [TIScriptRef t] t
| bi_is_defined a t : a = TIVariant \/ a = TINull \/ (exists u, a = TIRef u \/ a = TIWeakRef u) -> called "Bool" t ->
    builtin IIsDefined [a] t
(** Inserted conversions. *)
| bi_weaken_null t : builtin IRefToWeakRef [TINull] (TIWeakRef t)
| bi_weaken a t : subsumes p a t -> builtin IRefToWeakRef [TIRef a] (TIWeakRef t)
| bi_strengthen a t : subsumes p a t -> builtin IWeakRefToRef [TIWeakRef a] (TIRef t)
| bi_convert_ref a t : subsumes p a t -> builtin IAsRef [a] (TIScriptRef t)
| bi_convert_variant a : builtin IToVariant [a] TIVariant.

(** What [e] is a receiver of: the class, struct or enum of its value, which is
    not a weak reference. *)
Definition receiver (e : texpr) (k : typeid) : Prop := exists u, has e u /\ ~ is_weak u /\ ti_unwrapped u = k.
Definition receiver_class (e : texpr) (c : pidx) : Prop := receiver e (TIClass c) \/ receiver e (TIStruct c).

(** The rule for the operation at the top of an expression. *)
Definition obeys (e : texpr) : Prop :=
  match e with
  | EArrayLit es t _ => exists u, t = Some u /\ Forall (fun x => exists a, has x a /\ under a u) es
  | EDeclare l t init _ => exists u, t = Some u /\ local_of l u /\ match init with Some x => suits x u | None => True end
  | ECast _ x _ => exists u, has x u /\ ~ is_weak u
  | EAssign x y _ => exists u, has x u /\ suits y u
  | ECall (CFunction g) _ args _ => applies g args
  | ECall (CIntrinsic i t) _ args _ => exists us, Forall2 has args us /\ builtin i us t
  | EMethodCall x g args _ =>
    (exists c k, receiver_class x c /\ ancestor p c k /\ In g (class_functions p k)) /\ applies g args
  | EMember x (ClassField f) _ => exists c k, receiver x (TIClass c) /\ ancestor p c k /\ In f (class_fields p k)
  | EMember x (StructField f) _ => exists c k, receiver x (TIStruct c) /\ ancestor p c k /\ In f (class_fields p k)
  | EMember x (EnumMember en m) _ => receiver x (TIEnum en) /\ exists k, get_enum p en = Done k /\ In m (en_members k)
  | EArrayElem _ i _ => exists n, called "Int32" n /\ suits i n
  | ENew (TIClass c) args _ =>
    args = [] /\ exists k, get_class p c = Done k /\ get_flag cf_is_abstract (cl_flags k) = false
  | ENew (TIStruct c) args _ =>
    exists k ts, get_class p c = Done k /\
      Forall2 (fun f t => exists fd, get_field p f = Done fd /\ entry (fi_type fd) t) (cl_fields k) ts /\ Forall2 suits args ts
  | ENew _ _ _ => False
  | EReturn r _ =>
    exists f fn, sc_function s = Some f /\ get_function p f = Done fn /\
      match r, fu_return_type fn with
      | Some x, Some i => exists t, entry i t /\ suits x t
      | None, None => True
      | _, _ => False
      end
  | EIf c _ _ _ | EWhile c _ _ | EConditional c _ _ _ => exists b, called "Bool" b /\ suits c b
  | EForIn l x _ _ => exists t, has x (TIArray t) /\ local_of l t
  | EBinOp _ _ _ _ | EUnOp _ _ _ => False
  | _ => True
  end.
(** All operations in [e] follow their rules. *)
Definition well_typed (e : texpr) : Prop := forall x, within x e -> obeys x.
End WellTyped.
