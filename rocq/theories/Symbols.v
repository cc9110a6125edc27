(** Module paths, the table of global symbols, imports and compile-time
    conditions.

    Models compiler/src/symbol.rs 12-210, compiler/src/cte.rs,
    compiler/src/parser.rs 134-152 (Annotation) and compiler/src/unit.rs
    1302-1313 (eval_conditions). *)
From Coq Require Import String.
From Coq Require Import ZArith List Bool.
From Verif Require Import Bytes Bytecode Definitions Bundle Ast TypeNames Pool Scope TypeCheck.
Import ListNotations.
Open Scope Z_scope.

(** ** Module paths *)

(** struct ModulePath (symbol.rs 159-162). *)
Definition module_path := list str.
(** ModulePath::parse (symbol.rs 171-177): [str.split(';').next().unwrap()] is
    the part up to the first [';']. *)
Definition path_parse (s : str) : module_path :=
  map (fun part => hd [] (split x3b part)) (split x2e s).
(** ModulePath::with_child (symbol.rs 183-187). *)
Definition with_child (p : module_path) (n : str) : module_path := p ++ [n].
(** ModulePath::render (symbol.rs 198-201). *)
Definition path_render (p : module_path) : str := join [x2e] p.
(** Derived equality of ModulePath. *)
Fixpoint path_eqb (a b : module_path) : bool :=
  match a, b with
  | [], [] => true
  | x :: a', y :: b' => str_eqb x y && path_eqb a' b'
  | _, _ => false
  end.
(** Whether [b] starts with [a]. *)
Fixpoint path_prefix (a b : module_path) : bool :=
  match a, b with
  | [], _ => true
  | x :: a', y :: b' => str_eqb x y && path_prefix a' b'
  | _, [] => false
  end.

(** ** Table of symbols *)

(** struct SymbolMap (symbol.rs 12-15).  The SequenceTrie is a map from paths to
    symbols; it is kept as an association list without repeated keys. *)
Definition symbol_map := list (module_path * symbol).
(** SequenceTrie::get. *)
Fixpoint sy_get (m : symbol_map) (p : module_path) : option symbol :=
  match m with
  | [] => None
  | (k, s) :: m' => if path_eqb k p then Some s else sy_get m' p
  end.
(** SequenceTrie::insert. *)
Fixpoint sy_insert (p : module_path) (s : symbol) (m : symbol_map) : symbol_map :=
  match m with
  | [] => [(p, s)]
  | (k, s') :: m' => if path_eqb k p then (k, s) :: m' else (k, s') :: sy_insert p s m'
  end.
(** The shared part of SymbolMap::new and add_function (symbol.rs 35-42, 62-71):
    functions are added to existing functions, anything else replaces. *)
Definition sy_put (m : symbol_map) (p : module_path) (s : symbol) : symbol_map :=
  match sy_get m p, s with
  | Some (SFunctions existing), SFunctions new => sy_insert p (SFunctions (existing ++ new)) m
  | _, _ => sy_insert p s m
  end.
(** The symbol for a root definition (symbol.rs 25-33). *)
Definition root_symbol (i : pidx) (d : any_def) : option symbol :=
  match d with
  | DClass c => if get_flag cf_is_struct (cl_flags c) then Some (SStruct i (cl_visibility c)) else Some (SClass i (cl_visibility c))
  | DEnum _ => Some (SEnum i)
  | DFunction f => Some (SFunctions [(i, fu_visibility f)])
  | _ => None
  end.
(** SymbolMap::new (symbol.rs 20-48). *)
Definition sy_new_step (p : pool) (m : outcome error symbol_map) (x : pidx * definition) : outcome error symbol_map :=
  let* m := m in
  let* name := pe (def_name p (fst x)) in
  match root_symbol (fst x) (df_value (snd x)) with
  | Some s => Done (sy_put m (path_parse name) s)
  | None => Done m
  end.
Definition sy_new (p : pool) : outcome error symbol_map := fold_left (sy_new_step p) (roots p) (Done []).
(** SymbolMap::add_class, add_struct, add_enum, add_function (symbol.rs 50-72). *)
Definition sy_add_class (m : symbol_map) (p : module_path) (i : pidx) (v : visibility) := sy_insert p (SClass i v) m.
Definition sy_add_struct (m : symbol_map) (p : module_path) (i : pidx) (v : visibility) := sy_insert p (SStruct i v) m.
Definition sy_add_enum (m : symbol_map) (p : module_path) (i : pidx) := sy_insert p (SEnum i) m.
Definition sy_add_function (m : symbol_map) (p : module_path) (i : pidx) (v : visibility) := sy_put m p (SFunctions [(i, v)]).

(** Derived order of Visibility (definition.rs 744-749). *)
Definition vis_rank (v : visibility) : nat := match v with Public => 0 | Protected => 1 | Private => 2 end.
Definition vis_leb (a b : visibility) : bool := Nat.leb (vis_rank a) (vis_rank b).
(** Symbol::visible (symbol.rs 126-143). *)
Definition sym_visible (s : symbol) (v : visibility) : option symbol :=
  match s with
  | SClass _ w | SStruct _ w => if vis_leb w v then Some s else None
  | SEnum _ => Some s
  | SFunctions l =>
    match filter (fun x => vis_leb (snd x) v) l with [] => None | vs => Some (SFunctions vs) end
  end.

(** enum Import (symbol.rs 145-149); annotations are left out, [eval_conditions]
    deals with them. *)
Inductive import :=
| IExact (p : module_path) (sp : span)
| ISelected (p : module_path) (names : list str) (sp : span)
| IAll (p : module_path) (sp : span).

(** SymbolMap::get_symbol (symbol.rs 101-106). *)
Definition sy_get_symbol (m : symbol_map) (p : module_path) : outcome cause symbol :=
  match sy_get m p with Some s => Done s | None => Fail (UnresolvedImport (path_render p)) end.
(** The key of an entry below [p], if it is one step away. *)
Fixpoint child_of (p k : module_path) : option str :=
  match p, k with
  | [], [n] => Some n
  | x :: p', y :: k' => if str_eqb x y then child_of p' k' else None
  | _, _ => None
  end.
Fixpoint sy_children (p : module_path) (m : symbol_map) : list (str * symbol) :=
  match m with
  | [] => []
  | (k, s) :: m' => match child_of p k with Some n => (n, s) :: sy_children p m' | None => sy_children p m' end
  end.
(** SymbolMap::get_direct_children (symbol.rs 108-117).  A node of the trie
    exists for every prefix of a key, and for the root.  The order in which the
    children are visited is that of a hash map: [order] is any rearrangement. *)
Definition sy_direct_children (order : list (str * symbol) -> list (str * symbol)) (m : symbol_map) (p : module_path)
  : outcome cause (list (str * symbol)) :=
  match p with
  | [] => Done (order (sy_children p m))
  | _ => if existsb (fun e => path_prefix p (fst e)) m then Done (order (sy_children p m))
         else Fail (UnresolvedModule (path_render p))
  end.

(** Adds the visible part of a symbol to a scope (symbol.rs 77-79, 84-86, 92-94). *)
Definition add_visible (v : visibility) (sc : scope) (n : str) (s : symbol) : scope :=
  match sym_visible s v with Some s' => sc_add_symbol sc n s' | None => sc end.
(** The loop over selected names (symbol.rs 90-95). *)
Fixpoint add_selected (m : symbol_map) (p : module_path) (sp : span) (v : visibility) (names : list str) (sc : scope)
  : scope * outcome error unit :=
  match names with
  | [] => (sc, Done tt)
  | n :: ns =>
    match with_span sp (sy_get_symbol m (with_child p n)) with
    | Done s => add_selected m p sp v ns (add_visible v sc n s)
    | Fail e => (sc, Fail e)
    end
  end.
(** SymbolMap::populate_import (symbol.rs 74-99): the scope as it is left, and
    the result.  [path.last().unwrap()] panics for the empty path. *)
Definition populate_import order (m : symbol_map) (i : import) (sc : scope) (v : visibility) : scope * outcome error unit :=
  match i with
  | IExact p sp =>
    match with_span sp (sy_get_symbol m p) with
    | Done s =>
      match sym_visible s v with
      | None => (sc, Done tt)
      | Some s' =>
        match rev p with
        | [] => (sc, Fail (ErrUnwind Panicked))
        | n :: _ => (sc_add_symbol sc n s', Done tt)
        end
      end
    | Fail e => (sc, Fail e)
    end
  | IAll p sp =>
    match with_span sp (sy_direct_children order m p) with
    | Done l => (fold_left (fun sc x => add_visible v sc (fst x) (snd x)) l sc, Done tt)
    | Fail e => (sc, Fail e)
    end
  | ISelected p names sp => add_selected m p sp v names sc
  end.

(** ** Compile-time conditions *)

(** Context::eval (cte.rs 23-50); the only values are booleans.  [mods] is the
    set of existing modules. *)
Fixpoint cte_eval (mods : list module_path) (e : sexpr) : outcome error bool :=
  match e with
  | EConstant (CBool b) _ => Done b
  | EConstant _ sp => Fail (CteError (lit "unsupported constant") sp)
  | ECall f _ args sp =>
    match args with
    | [EConstant (CString LString s) _] =>
      if str_eqb f (lit "ModuleExists") then Done (existsb (path_eqb (path_parse s)) mods)
      else Fail (CteError (lit "unsupported funtion") sp)
    | _ => Fail (CteError (lit "unsupported funtion") sp)
    end
  | EConditional c t f _ => let* b := cte_eval mods c in if b then cte_eval mods t else cte_eval mods f
  | EBinOp l r o sp =>
    let* x := cte_eval mods l in
    let* y := cte_eval mods r in
    match o with
    | LogicAnd => Done (x && y)
    | LogicOr => Done (x || y)
    | _ => Fail (CteError (lit "unsupported operation") sp)
    end
  | EUnOp e' o sp =>
    let* x := cte_eval mods e' in
    match o with
    | LogicNot => Done (negb x)
    | _ => Fail (CteError (lit "unsupported operation") sp)
    end
  | _ => Fail (CteError (lit "unsupported expression") (expr_span e))
  end.

(** enum AnnotationKind, struct Annotation (parser.rs 134-152). *)
Inductive annotation_kind := AReplaceMethod | AWrapMethod | AReplaceGlobal | AAddMethod | AAddField | AIf | ARuntimeProperty.
Record annotation := { an_kind : annotation_kind; an_args : list sexpr; an_span : span }.
Definition is_if (a : annotation) : bool := match an_kind a with AIf => true | _ => false end.
(** eval_conditions (unit.rs 1302-1313). *)
Definition eval_conditions (mods : list module_path) (anns : list annotation) : outcome error bool :=
  (fix go acc l :=
     match l with
     | [] => Done acc
     | a :: l' =>
       if is_if a then
         match an_args a with
         | [] => go acc l'
         | e :: _ => let* r := cte_eval mods e in go (acc && r) l'
         end
       else go acc l'
     end) true anns.
