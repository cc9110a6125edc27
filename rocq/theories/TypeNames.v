(** Type names and function signatures.

    Models core/src/ast.rs 393-540 and compiler/src/symbol.rs 214-290. *)
From Coq Require Import String.
From Coq Require Import ZArith List Bool.
From Verif Require Import Bytes Bytecode Bundle Ast.
Import ListNotations.
Open Scope Z_scope.

(** enum Kind, TypeName::kind (ast.rs 451-459, 527-534). *)
Inductive tkind := KPrim | KRef | KWRef | KScriptRef | KArray.
Definition tn_kind (t : typename) : tkind :=
  if str_eqb (tn_name t) (lit "ref") then KRef
  else if str_eqb (tn_name t) (lit "wref") then KWRef
  else if str_eqb (tn_name t) (lit "script_ref") then KScriptRef
  else if str_eqb (tn_name t) (lit "array") then KArray
  else KPrim.
Definition is_ref_kind (k : tkind) : bool := match k with KRef | KWRef => true | _ => false end.

(** TypeName::unwrapped (ast.rs 461-466). *)
Fixpoint unwrapped (t : typename) : typename :=
  match t with
  | TypeName _ (Some [arg]) => if is_ref_kind (tn_kind t) then unwrapped arg else t
  | _ => t
  end.

(** itertools join/format. *)
Fixpoint join (sep : str) (l : list str) : str :=
  match l with
  | [] => []
  | [x] => x
  | x :: l' => x ++ sep ++ join sep l'
  end.

(** TypeName::mangled (ast.rs 469-478): the name is unwrapped first, at every
    level.  The recursion is written on the wrapped type; TypeNamesFacts.mangled_eq
    gives the equation of the code. *)
Fixpoint mangled (t : typename) : str :=
  match t with
  | TypeName n (Some args) =>
    let plain := n ++ lit "<" ++ join (lit ",") (map mangled args) ++ lit ">" in
    match args with
    | [arg] => if is_ref_kind (tn_kind t) then mangled arg else plain
    | _ => plain
    end
  | TypeName n None => n
  end.
(** TypeName::pretty (ast.rs 480-488). *)
Fixpoint pretty (t : typename) : str :=
  match t with
  | TypeName n (Some args) => n ++ lit "<" ++ join (lit ", ") (map pretty args) ++ lit ">"
  | TypeName n None => n
  end.
(** TypeName::repr (ast.rs 491-501). *)
Fixpoint repr (t : typename) : str :=
  match t with
  | TypeName n (Some args) => join (lit ":") (n :: map repr args)
  | TypeName n None => n
  end.

(** str::split(char) and the part before/after the first separator. *)
Fixpoint split (c : byte) (s : str) : list str :=
  match s with
  | [] => [[]]
  | b :: s' =>
    if Byte.eqb b c then [] :: split c s'
    else match split c s' with [] => [[b]] | p :: ps => (b :: p) :: ps end
  end.
(** TypeName::from_parts (ast.rs 508-522). *)
Fixpoint from_parts (name : str) (parts : list str) : typename :=
  match parts with
  | tail :: parts' => TypeName name (Some [from_parts tail parts'])
  | [] => TypeName name None
  end.
(** TypeName::from_repr (ast.rs 503-506); split never yields an empty list. *)
Definition from_repr (s : str) : typename :=
  match split x3a s with
  | n :: parts => from_parts n parts
  | [] => TypeName [] None
  end.

(** FunctionSignatureBuilder (symbol.rs 261-290). *)
Definition sig_new (name : str) : str := name ++ lit ";".
Definition sig_parameter (sig : str) (t : typename) (is_out : bool) : str :=
  sig ++ (if is_out then lit "Out" else []) ++ mangled t.
Definition sig_return (sig : str) (t : typename) : str := sig ++ lit ";" ++ mangled t.

(** The parts of a FunctionSource that FunctionSignature::from_source uses
    (compiler/src/parser.rs: FunctionSource, Declaration, Qualifiers). *)
Record sig_source := { ss_name : str; ss_callback : bool; ss_exec : bool; ss_native : bool;
                       ss_params : list (typename * bool (* out *)); ss_return : option typename }.
(** FunctionSignature::from_source (symbol.rs 222-245). *)
Definition signature (f : sig_source) : str :=
  let is_operator := match binop_of_name (ss_name f) with Some _ => true | None => false end in
  let is_cast := str_eqb (ss_name f) (lit "Cast") in
  if negb is_operator && negb is_cast && (ss_callback f || ss_exec f || ss_native f) then ss_name f
  else
    let sig := fold_left (fun acc p => sig_parameter acc (fst p) (snd p && is_operator))
                 (ss_params f) (sig_new (ss_name f)) in
    if is_operator || is_cast
    then sig_return sig (match ss_return f with Some t => t | None => tn_basic (lit "Void") end)
    else sig.
(** str::split_once. *)
Fixpoint split_once (c : byte) (s : str) : option (str * str) :=
  match s with
  | [] => None
  | b :: s' => if Byte.eqb b c then Some ([], s')
               else match split_once c s' with Some (p, q) => Some (b :: p, q) | None => None end
  end.
(** FunctionSignature::name (symbol.rs 247-251). *)
Definition sig_name (sig : str) : str :=
  match split_once x3b sig with Some (p, _) => p | None => sig end.
