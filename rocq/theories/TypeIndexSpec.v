(** Specification of type indices. *)
From Coq Require Import String.
From Coq Require Import ZArith List Bool.
From Verif Require Import Bytes Bytecode Definitions Bundle Ast TypeNames Pool Scope PoolSpec.
Import ListNotations.
Open Scope Z_scope.

(** The text of a base type name does not look like a composed type name. *)
Definition plain_type_name (n : str) : Prop := ~ In x3a n /\ ~ In x5b n.

(** [shaped s p i n]: entry [i] is a type definition called [n], and its kind and
    the types it is composed of are those its name says. A primitive type is the
    one the scope has under its name; a class type is named after a symbol. *)
Inductive shaped (s : scope) (p : pool) : pidx -> str -> Prop :=
| sh_prim i n : get_type p i = Done TPrim -> def_name p i = Done n -> plain_type_name n ->
    symbol_type s (last_part n) = None -> am_find (sc_types s) n = Some i -> shaped s p i n
| sh_class i n : get_type p i = Done TClass -> def_name p i = Done n -> plain_type_name n ->
    symbol_type s (last_part n) <> None -> shaped s p i n
| sh_ref i j n : get_type p i = Done (TRef j) -> def_name p i = Done (lit "ref:" ++ n) -> shaped s p j n ->
    shaped s p i (lit "ref:" ++ n)
| sh_wref i j n : get_type p i = Done (TWeakRef j) -> def_name p i = Done (lit "wref:" ++ n) -> shaped s p j n ->
    shaped s p i (lit "wref:" ++ n)
| sh_array i j n : get_type p i = Done (TArray j) -> def_name p i = Done (lit "array:" ++ n) -> shaped s p j n ->
    shaped s p i (lit "array:" ++ n)
| sh_sref i j n : get_type p i = Done (TScriptRef j) -> def_name p i = Done (lit "script_ref:" ++ n) -> shaped s p j n ->
    shaped s p i (lit "script_ref:" ++ n)
| sh_static i j n k : get_type p i = Done (TStaticArray j k) -> def_name p i = Done (n ++ lit "[" ++ dec k ++ lit "]") ->
    shaped s p j n -> ~ In x3a n -> 0 <= k -> shaped s p i (n ++ lit "[" ++ dec k ++ lit "]").

(** The types the scope knows by name have these names, and are what the names
    say. *)
Definition types_named (s : scope) (p : pool) : Prop := forall n i, am_find (sc_types s) n = Some i -> def_name p i = Done n.
Definition types_shaped (s : scope) (p : pool) : Prop := forall n i, am_find (sc_types s) n = Some i -> shaped s p i n.

(** Everything that can happen to the scope and the pool between two requests
    while a function body is compiled: requests for any types, new names, new
    definitions, new variables in scope. *)
Inductive later : scope * pool -> scope * pool -> Prop :=
| later_now x : later x x
| later_request t s p i s1 p1 y : get_type_index t s p = Done (i, s1, p1) -> later (s1, p1) y -> later (s, p) y
| later_name s p n p1 i y : add_name p n = (p1, i) -> later (s, p1) y -> later (s, p) y
| later_definition s p d p1 i y : add_definition p d = (p1, i) -> later (s, p1) y -> later (s, p) y
| later_variables s p m y : later (set_references s m, p) y -> later (s, p) y.

(** Types not written with a prefix. *)
Fixpoint elementary (t : typeid) : Prop :=
  match t with
  | TIPrim _ | TIClass _ | TIStruct _ | TIEnum _ | TIVariant => True
  | TIStaticArray t _ => elementary t
  | _ => False
  end.

(** The base types of [t] are known to the scope by their plain names, the
    element types of static arrays are written without a prefix, and [t] is not
    null or void. *)
Fixpoint known (s : scope) (p : pool) (t : typeid) : Prop :=
  match t with
  | TIPrim k => exists n, def_name p k = Done n /\ plain_type_name n /\ n <> lit "Variant" /\
      symbol_type s (last_part n) = None /\ am_find (sc_types s) n = Some k
  | TIClass c | TIStruct c | TIEnum c => exists n, def_name p c = Done n /\ plain_type_name n /\
      symbol_type s (last_part n) = Some t
  | TIVariant => symbol_type s (last_part (lit "Variant")) = None
  | TIRef t | TIWeakRef t | TIArray t | TIScriptRef t => known s p t
  | TIStaticArray t n => known s p t /\ elementary t /\ 0 <= n
  | TINull | TIVoid => False
  end.

(** The type a type name stands for: primitive types are those known by name, other
    plain names are those of classes, structures and enumerations in scope, and the
    four composed kinds are written with their names. *)
Inductive denotes (s : scope) (p : pool) : typename -> typeid -> Prop :=
| dn_prim n k : am_find (sc_types s) n = Some k -> get_type p k = Done TPrim -> plain_type_name n -> n <> lit "Variant" ->
    denotes s p (TypeName n None) (TIPrim k)
| dn_variant k : am_find (sc_types s) (lit "Variant") = Some k -> get_type p k = Done TPrim -> denotes s p (TypeName (lit "Variant") None) TIVariant
| dn_symbol n t : symbol_type s n = Some t -> plain_type_name n -> ~ In x2e n -> denotes s p (TypeName n None) t
| dn_ref n t : denotes s p n t -> denotes s p (TypeName (lit "ref") (Some [n])) (TIRef t)
| dn_wref n t : denotes s p n t -> denotes s p (TypeName (lit "wref") (Some [n])) (TIWeakRef t)
| dn_array n t : denotes s p n t -> denotes s p (TypeName (lit "array") (Some [n])) (TIArray t)
| dn_script_ref n t : denotes s p n t -> denotes s p (TypeName (lit "script_ref") (Some [n])) (TIScriptRef t).
