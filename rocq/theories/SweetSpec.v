(** Sugar, as a specification. *)
From Coq Require Import ZArith List Bool String.
From Verif Require Import Bytes Bytecode Definitions Bundle Ast Pool Scope TypeCheck PartsSpec.
Import ListNotations.
Open Scope Z_scope.

(** The constructs the assembler has no code for but the language does. *)
Definition sugar (e : texpr) : Prop :=
  match e with EArrayLit _ _ _ | EInterpolated _ _ _ | EForIn _ _ _ _ => True | _ => False end.
(** There is none of them anywhere in an expression. *)
Definition sugar_free (e : texpr) : Prop := forall x, within x e -> ~ sugar x.
(** The errors with which one of them is rejected. *)
Definition about_sugar (e : error) : Prop :=
  match e with
  | CompileError (UnsupportedFeature n) _ => In n [lit "ArrayLit"; lit "InterpolatedString"; lit "For-in"]
  | _ => False
  end.
