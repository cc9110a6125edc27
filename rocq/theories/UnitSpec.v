(** Specification vocabulary for compiling modules: what the declarations of a set
    of modules name in a bundle, and when a bundle is otherwise unchanged. *)
From Coq Require Import String.
From Coq Require Import ZArith List Bool Permutation.
From Verif Require Import Bytes Bytecode Definitions Bundle Ast TypeNames Pool Scope TypeCheck Symbols PoolSpec Wrappers WrapSpec Unit.
Import ListNotations.
Open Scope Z_scope.

(** The paths of the modules, against which conditions are evaluated. *)
Definition module_names (l : list source_module) : list module_path :=
  flat_map (fun m => match sm_path m with Some p => [p] | None => [] end) l.
(** The modules declare [e], and the conditions on it hold. *)
Definition declares (l : list source_module) (e : source_entry) : Prop :=
  exists m, In m l /\ In e (sm_entries m) /\ eval_conditions (module_names l) (dc_annotations (entry_decl e)) = Done true.
(** The declaration has an annotation of kind [k], which is about [n]. *)
Definition annotated (d : declaration) (k : annotation_kind) : Prop := exists a, In a (dc_annotations d) /\ an_kind a = k.
Definition about (d : declaration) (k : annotation_kind) (n : str) : Prop :=
  exists a sp rest, In a (dc_annotations d) /\ an_kind a = k /\ an_args a = EIdent (N := source_ast) n sp :: rest.

(** [c] is called [n] in the bundle, at the top level or in some module. *)
Definition goes_by (p : pool) (c : pidx) (n : str) : Prop := exists full, def_name p c = Done full /\ path_parse full = [n].
Definition goes_by_in (p : pool) (c : pidx) (n : str) : Prop :=
  exists full pre, def_name p c = Done full /\ path_parse full = pre ++ [n].
(** [f] is a global function. *)
Definition global (p : pool) (f : pidx) : Prop :=
  exists d x, def_at p f = Some d /\ df_value d = DFunction x /\ df_parent d = UNDEFINED.

(** The functions of the bundle that the modules replace and wrap: those with the
    signature of a declaration, in the class its annotation is about. *)
Definition replaces (l : list source_module) (p : pool) (f : pidx) : Prop :=
  exists src, declares l (EntryFunction src) /\ def_name p f = Done (source_signature src) /\
    ((exists n c, about (fs_decl src) AReplaceMethod n /\ goes_by p c n /\ member p c f) \/
     annotated (fs_decl src) AReplaceGlobal /\ global p f).
Definition wraps (l : list source_module) (p : pool) (f : pidx) : Prop :=
  exists src n c, declares l (EntryFunction src) /\ def_name p f = Done (source_signature src) /\
    about (fs_decl src) AWrapMethod n /\ goes_by p c n /\ member p c f.
(** The classes of the bundle that get new functions and new fields. *)
Definition gains_functions (l : list source_module) (p : pool) (c : pidx) : Prop :=
  exists src n, declares l (EntryFunction src) /\ goes_by p c n /\ (about (fs_decl src) AAddMethod n \/ about (fs_decl src) AWrapMethod n).
Definition gains_fields (l : list source_module) (p : pool) (c : pidx) : Prop :=
  exists src n, declares l (EntryLet src) /\ goes_by_in p c n /\ about (fd_decl src) AAddField n.

(** What may become of definition [i] of the bundle [p]: it stays as it is; a class
    gets new functions and fields at the end of its lists; a function is replaced
    by another with the same name in the same place; a method is wrapped. *)
Inductive preserved (l : list source_module) (p : pool) (i : pidx) (d d' : definition) : Prop :=
| preserved_same : d' = d -> preserved l p i d d'
| preserved_class k fs gs : df_value d = DClass k ->
    d' = with_value d (DClass (with_fields (with_functions k (cl_functions k ++ fs)) (cl_fields k ++ gs))) ->
    (fs <> [] -> gains_functions l p i) -> (gs <> [] -> gains_fields l p i) -> Forall (fun j => size p <= j) (fs ++ gs) ->
    preserved l p i d d'
| preserved_replaced x x' : replaces l p i -> df_value d = DFunction x -> df_value d' = DFunction x' ->
    df_name d' = df_name d -> df_parent d' = df_parent d -> preserved l p i d d'
| preserved_wrapped : wraps l p i -> df_name d' = df_name d -> preserved l p i d d'.
(** The bundle [p'] has all strings and definitions of [p] where they were. *)
Definition frame (l : list source_module) (p p' : pool) : Prop :=
  prefix (st_list (pl_names p)) (st_list (pl_names p')) /\ prefix (st_list (pl_tweakdb p)) (st_list (pl_tweakdb p')) /\
  prefix (st_list (pl_resources p)) (st_list (pl_resources p')) /\ prefix (st_list (pl_strings p)) (st_list (pl_strings p')) /\
  forall i d, def_at p i = Some d -> exists d', def_at p' i = Some d' /\ preserved l p i d d'.

(** Bundles of real programs: everything has a name, and what a class lists as its
    functions are functions that belong to it. *)
Definition proper (p : pool) : Prop :=
  (forall i d, def_at p i = Some d -> exists n, def_name p i = Done n) /\
  (forall c f, member p c f -> exists d x, def_at p f = Some d /\ df_value d = DFunction x /\ df_parent d = c).
(** Hash maps are walked in some order. *)
Definition fair (ev : env) : Prop :=
  (forall l, Permutation (ev_children ev l) l) /\ (forall l, Permutation (ev_wrappers ev l) l) /\
  (forall l, Permutation (ev_proxies ev l) l) /\ (forall l, Permutation (ev_locals ev l) l).
