(** The command line of the launcher.

    Models fix_args (scc/cli/src/opts.rs 6-50) and, as the environment it is made
    for, the splitting of a command line into arguments on Windows (what
    std::env::args and, in the tests, winsplit::split do).  Arguments are the bytes
    of UTF-8 strings. *)
From Coq Require Import String.
From Coq Require Import ZArith List Bool.
From Verif Require Import Bytes Bytecode Definitions Bundle Ast Pool Scope.
Import ListNotations.

Definition quote : byte := x22.
Definition backslash : byte := x5c.
Definition space : byte := x20.
Definition tab : byte := x09.

(** str::contains(char). *)
Definition contains (c : byte) (s : str) : bool := existsb (Byte.eqb c) s.
(** str::split(char): at least one part. *)
Fixpoint split_at (c : byte) (s : str) : list str :=
  match s with
  | [] => [[]]
  | b :: s' =>
    if Byte.eqb b c then [] :: split_at c s'
    else match split_at c s' with x :: l => (b :: x) :: l | [] => [[b]] end
  end.
(** Replacing each quote by a backslash and a quote (opts.rs 16), and by a backslash
    (opts.rs 29). *)
Definition escape_quotes (s : str) : str := flat_map (fun b => if Byte.eqb b quote then [backslash; quote] else [b]) s.
Definition quotes_to_slashes (s : str) : str := map (fun b => if Byte.eqb b quote then backslash else b) s.
(** Removing a space after each quote (opts.rs 16). *)
Fixpoint unspace (s : str) : str :=
  match s with
  | [] => []
  | b :: s' =>
    if Byte.eqb b quote then match s' with c :: s'' => if Byte.eqb c space then b :: unspace s'' else b :: unspace s' | [] => [b] end
    else b :: unspace s'
  end.
(** Adding a space and a string to the last argument, with last_mut().unwrap()
    (opts.rs 32-33, 38-39). *)
Definition extend_last (l : list str) (s : str) : outcome unwind (list str) :=
  match rev l with
  | x :: r => Done (rev r ++ [x ++ space :: s])
  | [] => Fail Panicked
  end.
(** The body of the loop (opts.rs 11-45): the arguments so far and [broken]. *)
Definition fix_step (st : list str * bool) (arg : str) : outcome unwind (list str * bool) :=
  let '(fixed, broken) := st in
  let quoted := contains quote arg in
  let* fixed' :=
    (if negb quoted && negb broken then Done (fixed ++ [arg])
     else if negb broken then
       match split_at quote (unspace (escape_quotes arg)) with
       | [] => Fail Panicked
       | first :: parts =>
         Done (fixed ++ [first] ++ flat_map (fun part => match part with [] => [] | _ => split_at space part end) parts)
       end
     else
       let broken_arg := if quoted then quotes_to_slashes arg else arg in
       if contains space broken_arg then
         match split_at space broken_arg with
         | [] => Fail Panicked
         | first :: parts => let* l := extend_last fixed first in Done (l ++ parts)
         end
       else extend_last fixed broken_arg) in
  Done (fixed', if quoted then negb broken else broken).
Fixpoint fix_all (st : list str * bool) (args : list str) : outcome unwind (list str * bool) :=
  match args with
  | [] => Done st
  | a :: args' => let* st' := fix_step st a in fix_all st' args'
  end.
(** fix_args (opts.rs 6-50). *)
Definition fix_args (args : list str) : outcome unwind (list str) :=
  let* st := fix_all ([], false) args in
  Done (filter (fun s => match s with [] => false | _ => true end) (fst st)).

(** Splitting a command line.  Blanks end an argument outside of quotes; 2n
    backslashes before a quote are n backslashes, 2n+1 of them are n backslashes and
    a quote that is part of the argument; other backslashes are as they are; two
    quotes in a row inside of quotes are a quote that is part of the argument.
    [n] is the number of backslashes just met, [cur] has them all. *)
Fixpoint split_line (quoted started : bool) (cur : str) (n : nat) (s : str) : list str :=
  match s with
  | [] => if started then [cur] else []
  | b :: s' =>
    if Byte.eqb b backslash then split_line quoted true (cur ++ [b]) (S n) s'
    else if Byte.eqb b quote then
      let cur := firstn (length cur - (n - n / 2)) cur in
      if Nat.odd n then split_line quoted true (cur ++ [b]) 0 s'
      else if quoted then
        match s' with
        | c :: s'' => if Byte.eqb c quote then split_line quoted true (cur ++ [c]) 0 s'' else split_line false true cur 0 s'
        | [] => split_line false true cur 0 s'
        end
      else split_line true true cur 0 s'
    else if (Byte.eqb b space || Byte.eqb b tab) && negb quoted then
      if started then cur :: split_line false false [] 0 s' else split_line false false [] 0 s'
    else split_line quoted true (cur ++ [b]) 0 s'
  end.
Definition windows_args (line : str) : list str := split_line false false [] 0 line.
