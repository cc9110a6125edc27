(** Small pieces of the scc library: the timestamp file, the error text copied to
    the caller, and the user hints.

    Models scc/lib/src/timestamp.rs, scc_copy_error of scc/lib/src/api.rs and
    scc/lib/src/hints.rs. *)
From Coq Require Import ZArith List Bool.
From Verif Require Import Bytes Bundle.
Import ListNotations.
Open Scope Z_scope.

(** * The timestamp file *)

(** An open file: its bytes and the current position.  I/O errors other than
    reaching the end of the file are not modelled. *)
Record ofile := { of_bytes : list byte; of_pos : nat }.
(** Seek::seek(SeekFrom::End(0)), returning the new position (timestamp.rs 14). *)
Definition seek_end (f : ofile) : ofile * nat :=
  ({| of_bytes := of_bytes f; of_pos := length (of_bytes f) |}, length (of_bytes f)).
(** Seek::rewind (timestamp.rs 18, 24). *)
Definition rewind (f : ofile) : ofile := {| of_bytes := of_bytes f; of_pos := 0 |}.
(** Read::read_exact of [n] bytes. *)
Definition read_exact (n : nat) (f : ofile) : ofile * res (list byte) :=
  let rest := skipn (of_pos f) (of_bytes f) in
  if (n <=? length rest)%nat
  then ({| of_bytes := of_bytes f; of_pos := of_pos f + n |}, Ok (firstn n rest))
  else ({| of_bytes := of_bytes f; of_pos := length (of_bytes f) |}, Err Eof).
(** Write::write_all at the position, overwriting and extending the file.  A gap
    left by a position past the end is filled with zeros. *)
Definition write_all (bs : list byte) (f : ofile) : ofile :=
  {| of_bytes := firstn (of_pos f) (of_bytes f) ++ repeat x00 (of_pos f - length (of_bytes f)) ++ bs ++
                 skipn (of_pos f + length bs) (of_bytes f);
     of_pos := of_pos f + length bs |}.

(** CompileTimestamp::read (timestamp.rs 13-21).  A timestamp is its number of
    nanoseconds, a u128. *)
Definition ts_read (f : ofile) : ofile * res (option Z) :=
  let (f1, len) := seek_end f in
  if (len =? 0)%nat then (f1, Ok None)
  else
    let (f2, r) := read_exact 16 (rewind f1) in
    (f2, match r with Ok bs => Ok (Some (le_val bs)) | Err e => Err e end).
(** CompileTimestamp::write (timestamp.rs 23-27). *)
Definition ts_write (nanos : Z) (f : ofile) : ofile := write_all (le_enc 16 nanos) (rewind f).

(** * Copying the error text *)

(** The memory of the process: a byte for every address. *)
Definition memory := Z -> byte.
Definition poke (a : Z) (b : byte) (m : memory) : memory := fun x => if x =? a then b else m x.
(** ptr::copy_nonoverlapping of [length bs] bytes to address [a]. *)
Fixpoint copy_to (a : Z) (bs : list byte) (m : memory) : memory :=
  match bs with [] => m | b :: bs' => copy_to (a + 1) bs' (poke a b m) end.

(** enum SccResult (api.rs 174-178); an error is its text. *)
Inductive scc_result := SccSuccess | SccError (text : list byte).
(** scc_copy_error (api.rs 71-84).  The subtraction is on usize; overflow checks
    are off in release builds, so it wraps. *)
Definition copy_error (r : scc_result) (buffer size : Z) (m : memory) : memory * Z :=
  match r with
  | SccSuccess => (m, 0)
  | SccError text =>
    let max_len := Z.min (Z.of_nat (length text)) (wrap_u 64 (size - 1)) in
    let m' := copy_to buffer (firstn (Z.to_nat max_len) text) m in
    (poke (buffer + max_len) x00 m', max_len)
  end.

(** * User hints *)

(** A path is modelled by the list of its components, which is what Path's
    equality compares. *)
Definition fpath := list str.
Fixpoint fpath_eqb (a b : fpath) : bool :=
  match a, b with
  | [], [] => true
  | x :: a', y :: b' => str_eqb x y && fpath_eqb a' b'
  | _, _ => false
  end.
(** struct UserHint (hints.rs 9-16). *)
Record hint := { hi_id : str; hi_message : str; hi_file : option fpath; hi_span_starts_with : option str;
                 hi_line_contains : option str }.
(** HashMap<String, Vec<UserHint>> (hints.rs 28-31). *)
Definition hints := list (str * list hint).
Fixpoint hints_find (h : hints) (code : str) : option (list hint) :=
  match h with
  | [] => None
  | (k, v) :: h' => if str_eqb k code then Some v else hints_find h' code
  end.
(** hints.entry(key).or_default().extend(val) (hints.rs 48-50). *)
Fixpoint hints_extend (key : str) (val : list hint) (h : hints) : hints :=
  match h with
  | [] => [(key, val)]
  | (k, v) :: h' => if str_eqb k key then (k, v ++ val) :: h' else (k, v) :: hints_extend key val h'
  end.
(** The part of UserHints::load that merges the files of the directory, in the
    order read_dir lists them (hints.rs 42-52); reading and parsing them is not
    modelled.  The tables of a file have distinct keys. *)
Definition hints_load (files : list hints) : hints :=
  fold_left (fun h file => fold_left (fun h kv => hints_extend (fst kv) (snd kv) h) file h) files [].

(** str::starts_with and str::contains. *)
Fixpoint starts_with (s prefix : str) : bool :=
  match prefix, s with
  | [], _ => true
  | a :: prefix', b :: s' => Byte.eqb a b && starts_with s' prefix'
  | _ :: _, [] => false
  end.
Fixpoint contains (s sub : str) : bool :=
  starts_with s sub || match s with [] => false | _ :: s' => contains s' sub end.

(** The closure of UserHints::get_by_error (hints.rs 62-66). *)
Definition hint_matches (path : option fpath) (source line : str) (a : hint) : bool :=
  match hi_file a with
  | None => true
  | Some p => match path with Some q => fpath_eqb p q | None => false end
  end &&
  (match hi_span_starts_with a with Some s => starts_with source s | None => false end ||
   match hi_line_contains a with Some s => contains line s | None => false end).
(** UserHints::get_by_error (hints.rs 55-67). *)
Definition get_by_error (h : hints) (code : str) (path : option fpath) (source line : str) : option hint :=
  match hints_find h code with
  | None => None
  | Some l => find (hint_matches path source line) l
  end.
