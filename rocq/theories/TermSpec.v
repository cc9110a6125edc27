(** When the decompiler is known to come to an end (specification). *)
From Coq Require Import ZArith List Bool.
From Verif Require Import Bytes Bytecode BytecodeFacts Cursor CursorSpec.
Import ListNotations.
Open Scope Z_scope.

(** Conditional jumps do not lead to themselves, and switches lead ahead. *)
Definition leads_ahead (x : Z * instr Z) : Prop :=
  match snd x with
  | JumpIfFalse o => absolute o (fst x) <> fst x
  | Switch _ o => fst x < absolute o (fst x)
  | SwitchLabel exit_ start => fst x < absolute exit_ (fst x) /\ fst x < absolute start (fst x)
  | _ => True
  end.
(** Code that has no marker of a jump target left, fits the range of positions and
    leads ahead everywhere. *)
Definition forward (c : code Z) : Prop :=
  sized c /\ total c < 65536 /\ Forall leads_ahead (code_iter 0 c).
