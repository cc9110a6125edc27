(** Where definitions belong when a bundle is written as one file for each source file. *)
From Coq Require Import String.
From Coq Require Import ZArith List Bool Permutation Sorted.
From Verif Require Import Bytes Bytecode Definitions Bundle Ast Pool Scope DumpFiles PoolSpec WrapSpec.
Import ListNotations.
Open Scope Z_scope.

(** Hash maps are walked in some order. *)
Definition any_order (w : walk) : Prop := (forall l, Permutation (wk_files w l) l) /\ (forall l, Permutation (wk_children w l) l).

Section Spec.
Variable p : pool.
(** Definition 0 stands for none. *)
Definition listed (i : pidx) (d : definition) : Prop := 1 <= i /\ def_at p i = Some d.
(** Definition [k] is a source file with that path. *)
Definition is_file (k : pidx) (path : str) : Prop := exists d f, def_at p k = Some d /\ df_value d = DSourceFile f /\ sf_path f = path.
(** Some function was compiled from file [k], at that line. *)
Definition comes_from (i : pidx) (d : definition) (k line : Z) : Prop :=
  exists f s, listed i d /\ df_value d = DFunction f /\ fu_source f = Some s /\ sr_file s = k /\ sr_line s = line.
(** [i] belongs into file [k]: it is a global function from there or what a function from there is a member of. *)
Definition belongs (k i : pidx) : Prop :=
  exists j d line, comes_from j d k line /\ (df_parent d = UNDEFINED /\ i = j \/ df_parent d <> UNDEFINED /\ i = df_parent d).
(** What belongs into none: enums, native functions, and classes all functions of which are native. *)
Definition orphan (i : pidx) : Prop :=
  exists d, listed i d /\
    match df_value d with
    | DClass k => forall f x, In f (cl_functions k) -> get_function p f = Done x -> get_flag fn_is_native (fu_flags x) = true
    | DEnum _ => True
    | DFunction f => df_parent d = UNDEFINED /\ get_flag fn_is_native (fu_flags f) = true
    | _ => False
    end.
(** The line a definition starts at: the first line of a function of it, 0 if there is none. *)
Definition starts_at (i : pidx) (line : Z) : Prop :=
  exists d, def_at p i = Some d /\
    match df_value d with
    | DFunction f => match fu_source f with Some s => line = sr_line s | None => line = 0 end
    | DClass k =>
      let on f n := In f (cl_functions k) /\ exists x s, get_function p f = Done x /\ fu_source x = Some s /\ sr_line s = n in
      (exists f, on f line) /\ (forall f n, on f n -> line <= n) \/ (forall f n, ~ on f n) /\ line = 0
    | _ => line = 0
    end.
Definition in_order (l : list pidx) : Prop := exists lines, Forall2 starts_at l lines /\ StronglySorted Z.le lines.

(** What a script bundle that was loaded has: functions that are not native have a
    source (definition.rs 302); and what one expects of it: sources are files, and the
    functions of a class know it. *)
Definition sourced : Prop := forall i d f, def_at p i = Some d -> df_value d = DFunction f -> get_flag fn_is_native (fu_flags f) = false -> exists s, fu_source f = Some s.
Definition filed : Prop := forall i d k line, comes_from i d k line -> exists path, is_file k path.
Definition membered : Prop := forall c d k f x, def_at p c = Some d -> df_value d = DClass k -> In f (cl_functions k) -> get_function p f = Done x ->
  1 <= f /\ exists e, def_at p f = Some e /\ df_parent e = c.
(** No two files that anything comes from have the same path. *)
Definition apart : Prop := forall k k' path, (exists i, belongs k i) -> (exists i, belongs k' i) -> is_file k path -> is_file k' path -> k = k'.
Definition no_file_called (path : str) : Prop := forall k, (exists i, belongs k i) -> ~ is_file k path.
(** The classes, enums and global functions of a bundle. *)
Definition top (i : pidx) : Prop :=
  exists d, listed i d /\ match df_value d with DClass _ | DEnum _ => True | DFunction _ => df_parent d = UNDEFINED | _ => False end.
End Spec.

(** A path in the directory [dir], with no step upwards. *)
Fixpoint steps (cur : str) (path : str) : list str :=
  match path with [] => [cur] | b :: r => if Byte.eqb b slash then cur :: steps [] r else steps (cur ++ [b]) r end.
Definition inside (dir path : str) : Prop := exists rest, path = dir ++ slash :: rest /\ ~ In (lit "..") (steps [] rest).
(** A relative path with no step upwards. *)
Definition tame (path : str) : Prop := (forall r, path <> slash :: r) /\ ~ In (lit "..") (steps [] path).
