(** The positions of loaded source files.

    Models compiler/src/source_map.rs 10-18, 42-74, 115-184 and Pos, Span of
    core/src/ast.rs.  Source texts are the bytes of UTF-8 strings; paths are
    byte strings.  Directory walking and filtering are left out. *)
From Coq Require Import String.
From Coq Require Import ZArith List Bool.
From Verif Require Import Bytes Bytecode Definitions Bundle Ast Pool Scope Search.
Import ListNotations.
Open Scope Z_scope.

(** struct File (source_map.rs 115-121); [f_low] and [f_lines] are the
    NonEmptyVec. *)
Record file := { f_path : str; f_low : Z; f_lines : list Z; f_high : Z; f_source : str }.
Definition blen (s : str) : Z := Z.of_nat (length s).
(** Add<usize> for Pos (ast.rs 325-331): u32, wrapping. *)
Definition pos_add (p n : Z) : Z := wrap_u 32 (p + n).
(** source.match_indices('\n') (source_map.rs 46): the offsets of newlines. *)
Fixpoint newline_offsets (at_ : Z) (s : str) : list Z :=
  match s with
  | [] => []
  | b :: s' => if Byte.eqb b x0a then at_ :: newline_offsets (at_ + 1) s' else newline_offsets (at_ + 1) s'
  end.
(** Files::add (source_map.rs 42-56). *)
Definition new_file (low : Z) (path source : str) : file :=
  {| f_path := path; f_low := low; f_lines := map (fun o => pos_add (pos_add low o) 1) (newline_offsets 0 source);
     f_high := pos_add low (blen source); f_source := source |}.
Definition files_add (fs : list file) (path source : str) : list file :=
  let low := match rev fs with [] => 0 | f :: _ => pos_add (f_high f) 1 end in
  fs ++ [new_file low path source].

(** File::span (source_map.rs 124-127). *)
Definition file_span (f : file) : span := Span (f_low f) (f_high f).
(** Files::lookup_file (source_map.rs 58-64). *)
Definition lookup_file (fs : list file) (pos : Z) : option file :=
  match binary_search (fun f => span_compare (file_span f) pos) fs with
  | Some (inl i) => nth_error fs i
  | _ => None
  end.

(** str::is_char_boundary: a continuation byte is 10xxxxxx. *)
Definition is_cont (b : byte) : bool := Z.land (Z.of_N (Byte.to_N b)) 192 =? 128.
Definition char_boundary (s : str) (i : nat) : bool :=
  match i with
  | O => true
  | _ => match nth_error s i with Some b => negb (is_cont b) | None => Nat.eqb i (length s) end
  end.
(** [&s[start..end]]: panics outside of the string or inside a character. *)
Definition slice (s : str) (start end_ : Z) : outcome unwind str :=
  if (0 <=? start) && (start <=? end_) && (end_ <=? blen s) &&
     char_boundary s (Z.to_nat start) && char_boundary s (Z.to_nat end_)
  then Done (firstn (Z.to_nat (end_ - start)) (skipn (Z.to_nat start) s))
  else Fail Panicked.
(** File::source_slice (source_map.rs 167-171); the subtractions of usize wrap
    below zero to numbers outside of any string. *)
Definition source_slice (f : file) (sp : span) : outcome unwind str :=
  slice (f_source f) (sp_low sp - f_low f) (sp_high sp - f_low f).
(** str::chars().count(): the bytes that start a character. *)
Definition char_count (s : str) : nat := length (filter (fun b => negb (is_cont b)) s).

(** File::lookup (source_map.rs 141-154): line and column. *)
Definition file_lookup (f : file) (pos : Z) : outcome unwind (option (nat * nat)) :=
  match binary_search (fun l => l ?= pos) (f_lines f) with
  | None => Fail NoFuel
  | Some r =>
    let index := match r with inl i => (i + 1)%nat | inr i => i end in
    if pos <? f_low f then Done None
    else
      match (match index with
             | O => Some (O, f_low f)
             | S i => match nth_error (f_lines f) i with Some low => Some (index, low) | None => None end
             end) with
      | None => Done None
      | Some (line, low) =>
        let* s := source_slice f (Span low pos) in
        Done (Some (line, char_count s))
      end
  end.
(** File::enclosing_line (source_map.rs 156-165). *)
Definition enclosing_line (f : file) (line : nat) : outcome unwind str :=
  let* low := match line with
              | O => Done (f_low f)
              | S i => match nth_error (f_lines f) i with Some l => Done l | None => Fail Panicked end
              end in
  let high := match nth_error (f_lines f) line with Some h => h | None => f_high f end in
  source_slice f (Span low high).
(** Files::lookup (source_map.rs 66-72). *)
Definition files_lookup (fs : list file) (sp : span) : outcome unwind (option (file * (nat * nat) * (nat * nat))) :=
  match lookup_file fs (sp_low sp) with
  | None => Done None
  | Some f =>
    let* start := file_lookup f (sp_low sp) in
    match start with
    | None => Done None
    | Some start =>
      let* end_ := file_lookup f (sp_high sp) in
      match end_ with None => Done None | Some end_ => Done (Some (f, start, end_)) end
    end
  end.
