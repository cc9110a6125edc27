(** Which files are scripts (specification). *)
From Coq Require Import String.
From Coq Require Import ZArith List Bool.
From Verif Require Import Bytes Bytecode Definitions Bundle Ast TypeNames SourceMap Sources.
Import ListNotations.
Open Scope Z_scope.

(** [lies n rel m]: following the names of [rel] from [n] leads to [m]. *)
Inductive lies : node -> list str -> node -> Prop :=
| lies_here n : lies n [] n
| lies_in entries name m rel x : In (name, m) entries -> lies m rel x -> lies (NDir entries) (name :: rel) x.
(** A path below a directory. *)
Definition below (dir : str) (rel : list str) : str := fold_left child rel dir.

(** Scripts are named something.reds. *)
Definition script_name (name stem : str) : Prop := stem <> [] /\ name = stem ++ lit ".reds".
(** The name a script is excluded by: that of the entry of the directory that it is
    in, or its own without the extension. *)
Definition mod_name (rel : list str) (name : str) : Prop :=
  match rel with
  | [] => False
  | [file] => script_name file name
  | top :: _ => name = top
  end.
Definition excluded (f : source_filter) (rel : list str) : Prop :=
  match f with
  | KeepAll => False
  | Exclude names => forall name, mod_name rel name -> In name names \/ utf8_valid name = false
  end.
(** What is at [rel] of a directory is to be loaded. *)
Definition wanted (f : source_filter) (rel : list str) : Prop :=
  (exists dirs name stem, rel = dirs ++ [name] /\ script_name name stem) /\ ~ excluded f rel.

(** [offers fs f arg path n]: [n], to be found at [path], is wanted because of the
    argument [arg].  A file that is named is wanted whatever it is called. *)
Definition offers (fs : filesystem) (f : source_filter) (arg path : str) (n : node) : Prop :=
  (exists c, fs arg = Some (NFile c) /\ path = arg /\ n = NFile c) \/
  (exists entries rel, fs arg = Some (NDir entries) /\ lies (NDir entries) rel n /\ n <> NBroken /\ wanted f rel /\ path = below arg rel).
(** Readable text. *)
Definition is_text (n : node) (text : str) : Prop := n = NFile (Some text) /\ utf8_valid text = true.
Definition is_file (n : node) : Prop := exists c, n = NFile c.

(** Names of entries are not empty, have no separator, and are different in each
    directory. *)
Definition well_named (n : node) : Prop := forall rel entries, lies n rel (NDir entries) ->
  NoDup (map fst entries) /\ forall name, In name (map fst entries) -> name <> [] /\ ~ In x2f name.
(** A path that is not empty and does not end with a separator. *)
Definition proper (arg : str) : Prop := exists s b, arg = s ++ [b] /\ b <> x2f.
(** Different paths neither of which is inside of the other. *)
Definition apart (a b : str) : Prop := a <> b /\ forall s, a <> b ++ x2f :: s /\ b <> a ++ x2f :: s.
