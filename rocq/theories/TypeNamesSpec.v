(** Specification vocabulary for type names and signatures. *)
From Coq Require Import String.
From Coq Require Import ZArith List Bool.
From Verif Require Import Bytes Bytecode Bundle Ast TypeNames.
Import ListNotations.
Open Scope Z_scope.

(** Identifiers (grammar rule [ident], parser.rs 211-215) plus what pool names
    may contain: no separator used by the representations. *)
Definition plain_byte (b : byte) : Prop := ~ In b (lit ":<>,; ").
Definition plain (s : str) : Prop := Forall plain_byte s.

(** All names in a type name are plain, and applied types have at least one
    argument (TypeName::new never stores an empty list). *)
Inductive tn_ok : typename -> Prop :=
| tn_ok_basic n : plain n -> tn_ok (TypeName n None)
| tn_ok_app n a l : plain n -> tn_ok a -> Forall tn_ok l -> tn_ok (TypeName n (Some (a :: l))).

(** At most one argument everywhere: what every pool type is. *)
Inductive unary : typename -> Prop :=
| unary_basic n : unary (TypeName n None)
| unary_app n a : unary a -> unary (TypeName n (Some [a])).

(** "The same up to ref/wref wrappers". *)
Inductive same_unwrapped : typename -> typename -> Prop :=
| su_left w a b : w = lit "ref" \/ w = lit "wref" -> same_unwrapped a b ->
    same_unwrapped (TypeName w (Some [a])) b
| su_right w a b : w = lit "ref" \/ w = lit "wref" -> same_unwrapped a b ->
    same_unwrapped a (TypeName w (Some [b]))
| su_basic n : same_unwrapped (TypeName n None) (TypeName n None)
| su_app n l l' : Forall2 same_unwrapped l l' -> same_unwrapped (TypeName n (Some l)) (TypeName n (Some l')).

(** No string of the list is a proper prefix of another. *)
Definition prefix_free (ss : list str) : Prop :=
  forall a b x, In a ss -> In b ss -> b = a ++ x -> x = [].
