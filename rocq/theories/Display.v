(** The text that a diagnostic is reported with.

    Models Diagnostic::log and Diagnostic::display (compiler/src/diagnostics.rs
    56-88), SourceLoc::enclosing_line and the Display of SourceLoc and FilePos
    (compiler/src/source_map.rs 187-226), str::trim_end and str::replace of the
    standard library.  The last line, the message of the diagnostic (derived by
    thiserror, diagnostics.rs 18-54), is a parameter [message].  Paths are byte
    strings: the replacement of invalid UTF-8 by Path::display is left out. *)
From Coq Require Import String.
From Coq Require Import ZArith List Bool.
From Verif Require Import Bytes Bytecode Definitions Bundle Ast Pool Scope TypeCheck Report Search SourceMap.
Import ListNotations.
Open Scope Z_scope.

(** str::chars, each character as its bytes: a character starts at every byte
    that is no continuation. *)
Definition starts_char (s : str) : bool := match s with [] => true | b :: _ => negb (is_cont b) end.
Fixpoint split_chars (s : str) : list str :=
  match s with
  | [] => []
  | b :: s' => if starts_char s' then [b] :: split_chars s'
               else match split_chars s' with c :: cs => (b :: c) :: cs | [] => [[b]] end
  end.
(** char::is_whitespace: the characters with the Unicode property White_Space,
    in UTF-8. *)
Definition white_space : list str :=
  [[x09]; [x0a]; [x0b]; [x0c]; [x0d]; [x20]; [xc2; x85]; [xc2; xa0]; [xe1; x9a; x80];
   [xe2; x80; x80]; [xe2; x80; x81]; [xe2; x80; x82]; [xe2; x80; x83]; [xe2; x80; x84]; [xe2; x80; x85];
   [xe2; x80; x86]; [xe2; x80; x87]; [xe2; x80; x88]; [xe2; x80; x89]; [xe2; x80; x8a];
   [xe2; x80; xa8]; [xe2; x80; xa9]; [xe2; x80; xaf]; [xe2; x81; x9f]; [xe3; x80; x80]].
Definition is_white (c : str) : bool := existsb (str_eqb c) white_space.
(** str::trim_end: removes characters from the end while they are white. *)
Fixpoint drop_white (cs : list str) : list str :=
  match cs with
  | [] => []
  | c :: cs' => if is_white c then drop_white cs' else cs
  end.
Definition trim_end (s : str) : str := concat (rev (drop_white (rev (split_chars s)))).
(** [replace('\t', " ")]. *)
Definition replace_tabs (s : str) : str := map (fun b => if Byte.eqb b x09 then x20 else b) s.

(** Display of SourceLoc and FilePos (source_map.rs 196-226): lines and columns
    are counted from one. *)
Definition show_loc (f : file) (line col : nat) : str :=
  f_path f ++ lit ":" ++ dec (Z.of_nat line + 1) ++ lit ":" ++ dec (Z.of_nat col + 1).
(** Diagnostic::display (diagnostics.rs 68-88).  The difference of the columns is
    of usize: below zero it wraps to a length that no string can have, where
    repeat panics. *)
Definition display (fs : list file) (message : diagnostic -> str) (d : diagnostic) : outcome unwind str :=
  let* loc := files_lookup fs (diag_span d) in
  match loc with
  | None => Fail Panicked
  | Some (f, (line1, col1), (line2, col2)) =>
    let* enclosing := enclosing_line f line1 in
    let line := replace_tabs (trim_end enclosing) in
    let padding := repeat x20 col1 in
    let* underline_len :=
      (if Nat.eqb line1 line2 then if Nat.ltb col2 col1 then Fail Panicked else Done (Nat.max (col2 - col1) 1)
       else Done 3%nat) in
    let code := match d with DCompileError c _ => lit "[" ++ cause_code c ++ lit "] " | _ => [] end in
    Done (code ++ lit "At " ++ show_loc f line1 col1 ++ lit ":" ++ [x0a] ++ line ++ [x0a] ++
          padding ++ repeat x5e underline_len ++ [x0a] ++ message d ++ [x0a])
  end.
(** Whether Diagnostic::log (diagnostics.rs 56-66) gets through: the parameter
    [known] of Report.v. *)
Definition displayable (fs : list file) (sp : span) : bool :=
  match display fs (fun _ => []) (DSyntaxError sp) with Done _ => true | Fail _ => false end.
