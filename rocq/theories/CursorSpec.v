(** Specification vocabulary for code positions. *)
From Coq Require Import ZArith List Bool.
From Verif Require Import Bytes BytesFacts Bytecode BytecodeFacts Search Cursor.
Import ListNotations.
Open Scope Z_scope.

(** [total c] (BytecodeFacts) is the exact sum of the instruction sizes: the
    position right after [c].  Every instruction other than a jump target marker
    has a positive size. *)
Definition sized {L} (c : code L) : Prop := Forall (fun i => 0 < instr_size i) c.

(** The cursors over [c] that a client can obtain. *)
Inductive cursor_of {L} (c : code L) : cursor L -> Prop :=
| cur_new : cursor_of c (new_cursor c)
| cur_pop cur i cur' : cursor_of c cur -> pop cur = inl (i, cur') -> cursor_of c cur'
| cur_seek cur p cur' : cursor_of c cur -> seek_abs cur p = inl cur' -> cursor_of c cur'
| cur_seek_rel cur o cur' : cursor_of c cur -> seek_rel cur o = inl cur' -> cursor_of c cur'.

(** Reading from a cursor to the end: pairs of position and instruction. *)
Fixpoint drain {L} (fuel : nat) (cur : cursor L) : list (Z * instr L) :=
  match fuel with
  | O => []
  | S fuel' => match pos cur, pop cur with
               | inl p, inl (i, cur') => (p, i) :: drain fuel' cur'
               | _, _ => []
               end
  end.


(** All labels in the stream are below [n]. *)
Definition labels_below {n : nat} (c : code label) : Prop :=
  Forall (fun i => Forall (fun l => (l < n)%nat) (locs i)) c.
Arguments labels_below n c : clear implicits.

