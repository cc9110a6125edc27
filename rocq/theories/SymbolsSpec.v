(** What a symbol table offers, what a scope exposes and what a condition means,
    said without the functions of the model. *)
From Coq Require Import String.
From Coq Require Import ZArith List Bool.
From Verif Require Import Bytes Bytecode Definitions Bundle Ast Pool Scope TypeCheck Symbols.
Import ListNotations.
Open Scope Z_scope.

(** An identifier as it occurs in module paths: no ['.'] and no [';']. *)
Definition plain_part (s : str) : Prop := ~ In x2e s /\ ~ In x3b s.

(** One thing that can be imported. *)
Inductive entity := OneClass (i : pidx) | OneStruct (i : pidx) | OneEnum (i : pidx) | OneFunction (i : pidx).
Definition is_function (e : entity) : Prop := exists i, e = OneFunction i.
(** [holds_entity s e v]: the symbol [s] contains [e], declared with visibility
    [v].  Enums have no visibility of their own: they are public. *)
Inductive holds_entity : symbol -> entity -> visibility -> Prop :=
| he_class i v : holds_entity (SClass i v) (OneClass i) v
| he_struct i v : holds_entity (SStruct i v) (OneStruct i) v
| he_enum i : holds_entity (SEnum i) (OneEnum i) Public
| he_function l i v : In (i, v) l -> holds_entity (SFunctions l) (OneFunction i) v.
(** [Public] can be seen from everywhere, [Private] only at [Private]. *)
Definition visible_at (v at_ : visibility) : Prop :=
  match v, at_ with
  | Public, _ => True
  | Protected, Public => False
  | Protected, _ => True
  | Private, Private => True
  | Private, _ => False
  end.

(** The table holds the symbol [s] under the path [p]. *)
Definition entry (m : symbol_map) (p : module_path) (s : symbol) : Prop := In (p, s) m.
(** The names an import refers to, and what the table holds for them. *)
Definition refers (m : symbol_map) (i : import) (n : str) (s : symbol) : Prop :=
  match i with
  | IExact p _ => exists q, p = q ++ [n] /\ entry m p s
  | ISelected p names _ => In n names /\ entry m (p ++ [n]) s
  | IAll p _ => entry m (p ++ [n]) s
  end.
(** What an import offers for the name [n] at the visibility [v]. *)
Definition offers (m : symbol_map) (i : import) (v : visibility) (n : str) (e : entity) : Prop :=
  exists s w, refers m i n s /\ holds_entity s e w /\ visible_at w v.
(** What a scope finds under the name [n]. *)
Definition exposes (sc : scope) (n : str) (e : entity) : Prop :=
  exists s w, am_find (sc_symbols sc) n = Some s /\ holds_entity s e w.

(** Tables the compiler can build. *)
Inductive built : symbol_map -> Prop :=
| bu_new p m : sy_new p = Done m -> built m
| bu_class m p i v : built m -> built (sy_add_class m p i v)
| bu_struct m p i v : built m -> built (sy_add_struct m p i v)
| bu_enum m p i : built m -> built (sy_add_enum m p i)
| bu_function m p i v : built m -> built (sy_add_function m p i v).

(** The entity a root definition stands for. *)
Definition root_entity (p : pool) (path : module_path) (e : entity) (v : visibility) : Prop :=
  exists i d name, In (i, d) (roots p) /\ def_name p i = Done name /\ path_parse name = path /\
    match df_value d with
    | DClass c => v = cl_visibility c /\ (if get_flag cf_is_struct (cl_flags c) then e = OneStruct i else e = OneClass i)
    | DEnum _ => v = Public /\ e = OneEnum i
    | DFunction f => v = fu_visibility f /\ e = OneFunction i
    | _ => False
    end.

(** ** Conditions *)

(** Formulas over the existence of modules. *)
Inductive formula :=
| FBool (b : bool) | FModule (name : str) | FNot (f : formula) | FAnd (f g : formula) | FOr (f g : formula)
| FIf (c f g : formula).
(** [exists_ m] says whether the module with the rendered name [m] exists. *)
Fixpoint true_in (exists_ : str -> Prop) (f : formula) : Prop :=
  match f with
  | FBool b => b = true
  | FModule n => exists_ n
  | FNot f => ~ true_in exists_ f
  | FAnd f g => true_in exists_ f /\ true_in exists_ g
  | FOr f g => true_in exists_ f \/ true_in exists_ g
  | FIf c f g => (true_in exists_ c -> true_in exists_ f) /\ (~ true_in exists_ c -> true_in exists_ g)
  end.
(** The source text of a formula. *)
Inductive written : sexpr -> formula -> Prop :=
| wr_bool b sp : written (EConstant (CBool b) sp) (FBool b)
| wr_module n ts sp sp' : ~ In x3b n -> written (ECall (N := source_ast) (lit "ModuleExists") ts [EConstant (CString LString n) sp'] sp) (FModule n)
| wr_not e f sp : written e f -> written (EUnOp e LogicNot sp) (FNot f)
| wr_and a b f g sp : written a f -> written b g -> written (EBinOp a b LogicAnd sp) (FAnd f g)
| wr_or a b f g sp : written a f -> written b g -> written (EBinOp a b LogicOr sp) (FOr f g)
| wr_if c a b h f g sp : written c h -> written a f -> written b g -> written (EConditional c a b sp) (FIf h f g).
(** A formula some branches of which, not needed, may be anything. *)
Inductive lazily_written (ex : str -> Prop) : sexpr -> formula -> Prop :=
| lw_bool b sp : lazily_written ex (EConstant (CBool b) sp) (FBool b)
| lw_module n ts sp sp' :
    lazily_written ex (ECall (N := source_ast) (lit "ModuleExists") ts [EConstant (CString LString n) sp'] sp) (FModule n)
| lw_not e f sp : lazily_written ex e f -> lazily_written ex (EUnOp e LogicNot sp) (FNot f)
| lw_and a b f g sp : lazily_written ex a f -> lazily_written ex b g -> lazily_written ex (EBinOp a b LogicAnd sp) (FAnd f g)
| lw_or a b f g sp : lazily_written ex a f -> lazily_written ex b g -> lazily_written ex (EBinOp a b LogicOr sp) (FOr f g)
| lw_then c a b h f sp : lazily_written ex c h -> true_in ex h -> lazily_written ex a f ->
    lazily_written ex (EConditional c a b sp) (FIf h f (FBool false))
| lw_else c a b h g sp : lazily_written ex c h -> ~ true_in ex h -> lazily_written ex b g ->
    lazily_written ex (EConditional c a b sp) (FIf h (FBool false) g).
(** The conditions attached to a definition. *)
Definition conditions (anns : list annotation) (e : sexpr) : Prop :=
  exists a rest, In a anns /\ an_kind a = AIf /\ an_args a = e :: rest.
