(** What it means to add declarations of locals to a body, said without the
    decompiler. *)
From Coq Require Import String.
From Coq Require Import ZArith List Bool.
From Verif Require Import Bytes Bundle Ast Definitions TypeNames Pool Scope TypeCheck PartsSpec.
Import ListNotations.
Open Scope Z_scope.

(** A statement and what may stand for it: itself, the same assignment at another
    source position, or the declaration of the assigned variable with the assigned
    value. *)
Inductive keeps : sexpr -> sexpr -> Prop :=
| ke_same e : keeps e e
| ke_position l r s s' : keeps (EAssign (N := source_ast) l r s) (EAssign (N := source_ast) l r s')
| ke_declare n t r s s' s'' : keeps (EAssign (N := source_ast) (EIdent (N := source_ast) n s) r s') (EDeclare (N := source_ast) n (Some t) (Some r) s'').

(** [e] only declares, without a value. *)
Definition only_declares (e : sexpr) : Prop := exists n t s, e = EDeclare (N := source_ast) n (Some t) None s.

(** The variables a body declares, with their types. *)
Fixpoint declared (body : list sexpr) : list (str * option typename) :=
  match body with
  | [] => []
  | EDeclare n t _ _ :: body' => (n, t) :: declared body'
  | _ :: body' => declared body'
  end.

(** The variable [n] occurs in [e]. *)
Definition mentions (n : str) (e : sexpr) : Prop := exists s, within (EIdent (N := source_ast) n s) e.
(** No declaration at any depth. *)
Definition declares_nothing (e : sexpr) : Prop := forall n t i s, ~ within (EDeclare (N := source_ast) n t i s) e.

(** Every variable is declared before it occurs: neither an earlier statement nor
    the value it is declared with mentions it. *)
Definition declared_before_use (body : list sexpr) : Prop :=
  forall before n t i s after, body = before ++ EDeclare (N := source_ast) n t i s :: after ->
  (forall e, In e before -> ~ mentions n e) /\ (forall v, i = Some v -> ~ mentions n v).

(** In the run of assignments a body starts with, the first assignment to a local
    comes before everything else that mentions it. *)
Definition is_assign (e : sexpr) : Prop := exists l r s, e = EAssign (N := source_ast) l r s.
Definition assigned_before_use (locals : list str) (body : list sexpr) : Prop :=
  forall before n s v s' after, body = before ++ EAssign (N := source_ast) (EIdent (N := source_ast) n s) v s' :: after ->
  Forall is_assign before -> In n locals ->
  (forall u w u', ~ In (EAssign (N := source_ast) (EIdent (N := source_ast) n u) w u') before) ->
  (forall e, In e before -> ~ mentions n e) /\ ~ mentions n v.

(** The function [f] has a local called [n] of type [t]. *)
Definition has_local (p : pool) (f : function) (n : str) (t : typename) : Prop :=
  exists i l tn, In i (fu_locals f) /\ get_local p i = Done l /\ def_name p i = Done n /\
    def_name p (lo_type l) = Done tn /\ t = from_repr tn.
