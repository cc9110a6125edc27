(** The meaning of interpolated strings, and what is assumed of a runtime to replace
    them by concatenations (specification). *)
From Coq Require Import String.
From Coq Require Import ZArith List Bool.
From Verif Require Import Bytes Bytecode Definitions Bundle Ast TypeNames Pool Scope TypeCheck Semantics BodySpec.
Import ListNotations.
Open Scope Z_scope.

(** Texts in a runtime.  [text v w] is the text a string or a reference to a string
    stands for in the state [w], [shown n v w] what a value of type [n] is written
    as.  Text constants, references, conversions and the concatenation have no
    effect; a reference goes on denoting what it refers to, the others make a text
    of their own. *)
Record texts (R : runtime) (p : pool) := {
  text : value R -> state R -> str;
  shown : str -> value R -> state R -> str;
  x_const : forall s w, exists v, apply R (OpConst (KText LString s)) None [] w = Some (v, w) /\ forall u, text v u = s;
  x_ref : forall v w, exists x, apply R (OpIntrinsic IAsRef (Some (lit "String"))) None [Some v] w = Some (x, w) /\ forall u, text x u = text v u;
  x_show : forall n v w, exists x, apply R (OpIntrinsic IToString (Some n)) None [Some v] w = Some (x, w) /\ forall u, text x u = shown n v w;
  x_add : forall f, def_name p f = Done (lit "OperatorAdd;Script_RefStringScript_RefString;String") ->
    exists c, callee_of p f false = Some c /\ short_params p f = Some [false; false] /\
    forall a b w, exists x, apply R (OpCall c) None [Some a; Some b] w = Some (x, w) /\ forall u, text x u = text a w ++ text b w
}.
Arguments text {R p}. Arguments shown {R p}.

(** The type String. *)
Definition string_type (p : pool) (t : typeid) : bool :=
  match name_of p t with Some n => str_eqb n (lit "String") | None => false end.
(** Values of type String and references to them are taken as they are, others are
    converted. *)
Definition direct (p : pool) (t : typeid) : bool :=
  match t with TIScriptRef u => string_type p u | _ => string_type p t end.

Section Run.
Variables (R : runtime) (s : scope) (p : pool) (X : texts R p).
Notation St := (state R).

(** What a part of a given type is written as. *)
Definition written (e : texpr) (v : value R) (w : St) : answer str :=
  ask t := need (static_type s p e) in
  ask n := need (name_of p t) in
  Ans (if direct p t then text X v w else shown X n v w).
(** The parts, each followed by its text: each is evaluated once, from left to
    right, and written before the next one is evaluated. *)
Fixpoint spelt (parts : list (texpr * str)) (w : St) : answer (str * St) :=
  match parts with
  | [] => Ans ([], w)
  | (e, after) :: rest =>
    ask (v, w1) := eval R s p e w in
    ask x := written e v w1 in
    ask (y, w2) := spelt rest w1 in
    Ans (x ++ after ++ y, w2)
  end.
Definition interpolate (prefix : str) (parts : list (texpr * str)) (w : St) : answer (str * St) :=
  ask (x, w1) := spelt parts w in Ans (prefix ++ x, w1).

(** A run yields a value that is the given text from now on, in the same state; or
    both stop in the same way. *)
Definition yields (x : answer (value R * St)) (y : answer (str * St)) : Prop :=
  match x, y with
  | Ans (v, w), Ans (t, w2) => w = w2 /\ forall u, text X v u = t
  | Halt h, Halt h2 => h = h2
  | _, _ => False
  end.
End Run.

(** The types of literals are known, String is the type of this name, and the
    concatenation of strings returns one. *)
Definition speaks (s : scope) (p : pool) : Prop :=
  knows_literals s /\
  (forall sp t, named_type s p sp tn_STRING = Done t -> name_of p t = Some (lit "String")) /\
  forall f, def_name p f = Done (lit "OperatorAdd;Script_RefStringScript_RefString;String") ->
    exists fn r t, get_function p f = Done fn /\ fu_return_type fn = Some r /\
      (forall sp, pool_type s p sp r = Done t) /\ name_of p t = Some (lit "String").
