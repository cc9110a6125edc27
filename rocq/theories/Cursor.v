(** The code cursor, the code iterator and label resolution.

    Models core/src/bytecode.rs 964-1012, 1168-1282 and
    compiler/src/assembler.rs 577-593. *)
From Coq Require Import ZArith List Bool.
From Verif Require Import Bytes Bytecode Search.
Import ListNotations.
Open Scope Z_scope.

(** Location::relative (bytecode.rs 976-979): both operands are converted to i16,
    the subtraction wraps in release builds. *)
Definition relative (self base : Z) : Z := wrap_s 16 (wrap_s 16 self - wrap_s 16 base).
(** Offset::absolute (bytecode.rs 998-1001): i32 addition, truncated to u16. *)
Definition absolute (self position : Z) : Z := wrap_u 16 (position + self).

Inductive cursor_error := EndOfCode | InvalidInstructionOffset (l : Z) | CursorPanic.

(** struct CodeCursor (bytecode.rs 1168-1173). *)
Record cursor (L : Type) := { cu_code : code L; cu_offsets : list Z; cu_index : nat }.
Arguments cu_code {L}. Arguments cu_offsets {L}. Arguments cu_index {L}.

(** The loop of CodeCursor::new: u16 running sums (bytecode.rs 1177-1182). *)
Fixpoint running (size : Z) {L} (c : code L) : list Z :=
  match c with
  | [] => []
  | i :: c' => let size' := wrap_u 16 (size + instr_size i) in size' :: running size' c'
  end.
(** CodeCursor::new (bytecode.rs 1176-1189). *)
Definition new_cursor {L} (c : code L) : cursor L :=
  {| cu_code := c; cu_offsets := running 0 c; cu_index := 0 |}.
(** CodeCursor::pop (bytecode.rs 1191-1195). *)
Definition pop {L} (c : cursor L) : (instr L * cursor L) + cursor_error :=
  match nth_error (cu_code c) (cu_index c) with
  | Some i => inl (i, {| cu_code := cu_code c; cu_offsets := cu_offsets c; cu_index := S (cu_index c) |})
  | None => inr EndOfCode
  end.
(** CodeCursor::peek (bytecode.rs 1197-1200). *)
Definition peek {L} (c : cursor L) : option (instr L) := nth_error (cu_code c) (cu_index c).
(** CodeCursor::pos (bytecode.rs 1202-1208). *)
Definition pos {L} (c : cursor L) : Z + cursor_error :=
  match cu_index c with
  | O => inl 0
  | S n => match nth_error (cu_offsets c) n with Some o => inl o | None => inr CursorPanic end
  end.
(** CodeCursor::get_index (bytecode.rs 1228-1238). *)
Definition get_index {L} (c : cursor L) (position : Z) : nat + cursor_error :=
  if position =? 0 then inl O
  else match binary_search (fun i => i ?= position) (cu_offsets c) with
       | Some (inl idx) => inl (S idx)
       | Some (inr _) => inr (InvalidInstructionOffset position)
       | None => inr CursorPanic
       end.
(** CodeCursor::seek_abs (bytecode.rs 1217-1220). *)
Definition seek_abs {L} (c : cursor L) (position : Z) : cursor L + cursor_error :=
  match get_index c position with
  | inl i => inl {| cu_code := cu_code c; cu_offsets := cu_offsets c; cu_index := i |}
  | inr e => inr e
  end.
(** CodeCursor::seek_rel (bytecode.rs 1222-1224). *)
Definition seek_rel {L} (c : cursor L) (offset : Z) : cursor L + cursor_error :=
  match pos c with inl p => seek_abs c (absolute offset p) | inr e => inr e end.

(** CodeIter (bytecode.rs 1241-1275): the (location, instruction) pairs it
    yields; the u16 offset wraps. *)
Fixpoint code_iter {L} (offset : Z) (c : code L) : list (Z * instr L) :=
  match c with
  | [] => []
  | i :: c' => (offset, i) :: code_iter (wrap_u 16 (offset + instr_size i)) c'
  end.
(** CodeCursor::range (bytecode.rs 1210-1215), as the pairs its iterator yields;
    slicing with start > end panics. *)
Definition range {L} (c : cursor L) (from to : Z) : list (Z * instr L) + cursor_error :=
  match get_index c from with
  | inr e => inr e
  | inl s =>
    match get_index c to with
    | inr e => inr e
    | inl e => if (s <=? e)%nat then inl (code_iter from (firstn (e - s) (skipn s (cu_code c)))) else inr CursorPanic
    end
  end.

(** Labels are numbered from 0 (bytecode.rs 1018-1021). *)
Notation label := nat (only parsing).
Definition is_target {L} (i : instr L) : bool := match i with Target _ => true | _ => false end.
(** locations[i] = v. *)
Definition set_nth (l : list Z) (i : nat) (v : Z) : list Z := firstn i l ++ v :: skipn (S i) l.
(** The first loop of Assembler::into_code (assembler.rs 581-586): later targets
    overwrite earlier ones; [None] if a label is out of range (panic). *)
Fixpoint place_labels (cs : list (Z * instr label)) (locations : list Z) : option (list Z) :=
  match cs with
  | [] => Some locations
  | (loc, Target l) :: cs' =>
    if (l <? length locations)%nat then place_labels cs' (set_nth locations l loc) else None
  | _ :: cs' => place_labels cs' locations
  end.
(** Instr::resolve_labels (bytecode.rs 231-349) at [location]; [None] if a label
    is out of range. *)
Definition resolve_labels (targets : list Z) (location : Z) (i : instr label) : option (instr Z) :=
  if forallb (fun l => (l <? length targets)%nat) (locs i)
  then Some (map_loc (fun l => relative (nth l targets 0) location) i)
  else None.
(** The second loop of Assembler::into_code (assembler.rs 588-592). *)
Fixpoint resolve_all (targets : list Z) (cs : list (Z * instr label)) : option (code Z) :=
  match cs with
  | [] => Some []
  | (loc, i) :: cs' =>
    if is_target i then resolve_all targets cs'
    else match resolve_labels targets loc i, resolve_all targets cs' with
         | Some i', Some r => Some (i' :: r)
         | _, _ => None
         end
  end.
(** Assembler::into_code (assembler.rs 577-593). *)
Definition into_code (labels : nat) (instructions : code label) : option (code Z) :=
  let cs := code_iter 0 instructions in
  match place_labels cs (repeat 0 labels) with
  | Some locations => resolve_all locations cs
  | None => None
  end.
