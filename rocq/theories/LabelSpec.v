(** Labels and breaks, as a specification. *)
From Coq Require Import ZArith List Bool.
From Verif Require Import Bytes Bytecode Ast Pool Scope TypeCheck Cursor PartsSpec.
Import ListNotations.
Open Scope Z_scope.

(** The marker of a label occurs exactly once. *)
Definition placed_once (l : nat) (c : code label) : Prop :=
  exists c1 c2, c = c1 ++ Target l :: c2 /\ ~ In (Target l) c1 /\ ~ In (Target l) c2.
(** A label is an operand of an instruction. *)
Definition used (l : nat) (c : code label) : Prop := exists i, In i c /\ is_target i = false /\ In l (locs i).

(** The last case of a switch has a statement. *)
Definition ends_with_statements (e : texpr) : Prop :=
  match e with
  | ESwitch _ cases _ _ =>
    forall before m body, cases = before ++ [(m, body)] -> exists x, In x body /\ is_empty x = false
  | _ => True
  end.
Definition closed (e : texpr) : Prop := forall x, within x e -> ends_with_statements x.

(** [free_break e]: there is a break in [e] that is not inside a loop or switch
    of [e]. *)
Inductive free_break : texpr -> Prop :=
| fb_break sp : free_break (EBreak sp)
| fb_seq x es : In x es -> free_break x -> free_break (ESeq es)
| fb_then x c t f sp : In x t -> free_break x -> free_break (EIf c t f sp)
| fb_else x c t f sp : In x f -> free_break x -> free_break (EIf c t (Some f) sp).
(** The number of breaks in [e] outside of the loops and switches of [e]. *)
Fixpoint breaks (e : texpr) : nat :=
  match e with
  | EBreak _ => 1
  | ESeq es => list_sum (map breaks es)
  | EIf _ t f _ => list_sum (map breaks t) + match f with Some f => list_sum (map breaks f) | None => 0 end
  | _ => 0
  end.
