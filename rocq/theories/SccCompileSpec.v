(** Comparing the game's compiler with the command line tool (C68). *)
From Coq Require Import ZArith List Bool Permutation.
From Verif Require Import Bytes Bytecode Definitions Bundle Ast Pool Scope TypeCheck Report SourceMap Unit.
Import ListNotations.
Open Scope Z_scope.

(** What the passes complain about: unused variables, ways through a function that do not
    return, cases of a switch that fall through, and temporary values used in place of
    variables. *)
Definition of_a_pass (d : diagnostic) : Prop :=
  match d with UnusedLocal _ | MissingReturn _ | StatementFallthrough _ | InvalidUseOfTemporary _ => True | _ => False end.
(** Those of them that are errors. *)
Definition strict (d : diagnostic) : Prop := match d with StatementFallthrough _ | InvalidUseOfTemporary _ => True | _ => False end.
(** [l] has what [l'] has and otherwise only complaints of the passes. *)
Definition more_of_passes (l l' : list diagnostic) : Prop := exists extra, Permutation l (l' ++ extra) /\ Forall of_a_pass extra.
(** The same result, apart from complaints of the passes. *)
Definition same_result (a b : outcome error output) : Prop :=
  match a, b with
  | Done x, Done y => out_pool x = out_pool y /\ out_refs x = out_refs y /\ more_of_passes (out_diags x) (out_diags y)
  | Fail e, Fail e' => e = e'
  | _, _ => False
  end.
