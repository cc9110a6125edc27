(** Specification of overload resolution. *)
From Coq Require Import ZArith List Bool.
From Verif Require Import Bytes Bytecode Definitions Bundle Ast TypeNames Pool Scope TypeCheck TypingSpec.
Import ListNotations.
Open Scope Z_scope.

(** The parameter is declared optional. *)
Definition optional (p : pool) (i : pidx) : Prop :=
  exists q, get_parameter p i = Done q /\ get_flag pf_is_optional (pa_flags q) = true.
(** [required p l k]: [k] of the parameters in [l] are not optional. *)
Inductive required (p : pool) : list pidx -> nat -> Prop :=
| req_nil : required p [] 0
| req_optional i l k : optional p i -> required p l k -> required p (i :: l) k
| req_needed i l k : ~ optional p i -> required p l k -> required p (i :: l) (S k).
(** The function [f] can be given [n] arguments. *)
Definition accepts (p : pool) (f : pidx) (n : nat) : Prop :=
  exists fn k, get_function p f = Done fn /\ required p (fu_parameters fn) k /\
               (k <= n)%nat /\ (n <= length (fu_parameters fn))%nat.
(** The types of the parameters of [f]. *)
Definition param_types (s : scope) (p : pool) (f : pidx) (types : list typeid) : Prop :=
  exists fn, get_function p f = Done fn /\
    Forall2 (fun i t => exists q, get_parameter p i = Done q /\ resolve_type_from_pool s p (pa_type q) = Done t)
            (fu_parameters fn) types.

(** Checking the arguments from left to right, each one against the type wanted
    for it. *)
Inductive checks (rec : checker) : list sexpr -> list (option typeid) -> tstate -> list texpr -> tstate -> Prop :=
| checks_nil st : checks rec [] [] st [] st
| checks_cons a args w ws st x st1 xs st2 : rec a w st = Done (x, st1) -> checks rec args ws st1 xs st2 ->
    checks rec (a :: args) (w :: ws) st (x :: xs) st2.

(** [converted s p xs ts ys]: every checked argument in [xs] converts to its type
    in [ts] ([ts] may go on for parameters without an argument), and [ys] are the
    arguments with these conversions. *)
Inductive converted (s : scope) (p : pool) : list texpr -> list typeid -> list texpr -> Prop :=
| converted_nil ts : converted s p [] ts []
| converted_cons x xs t ts a c ys : type_of x s p = Done a -> converts p a t c -> converted s p xs ts ys ->
    converted s p (x :: xs) (t :: ts) (insert_conversion x t c :: ys).

(** A cast function must also return the type that is wanted. *)
Definition returns_wanted (s : scope) (p : pool) (f : pidx) (wanted : option typeid) : Prop :=
  match wanted with
  | None => True
  | Some w => forall fn, get_function p f = Done fn -> get_flag fn_is_cast (fu_flags fn) = true ->
      exists r t c, fu_return_type fn = Some r /\ resolve_type_from_pool s p r = Done t /\ converts p t w c
  end.

(** [fits n st st' checked f wanted ys]: [f] can be called with [n] arguments
    (judged in the state [st] before they are checked) and the checked arguments
    convert to its parameter types (judged in the state [st'] after). *)
Definition fits (n : nat) (st st' : tstate) (checked : list texpr) (wanted : option typeid) (f : pidx)
  (ys : list texpr) : Prop :=
  accepts (ts_pool st) f n /\
  exists types, param_types (ts_scope st) (ts_pool st) f types /\
    converted (ts_scope st') (ts_pool st') checked types ys /\
    returns_wanted (ts_scope st') (ts_pool st') f wanted.

(** The types wanted while the arguments are checked: those of the parameters if
    only one candidate takes that many arguments, none otherwise. *)
Definition wanted_types (st : tstate) (cands : list pidx) (n : nat) (ws : list (option typeid)) : Prop :=
  (exists a f b types, cands = a ++ f :: b /\ accepts (ts_pool st) f n /\
     (forall g, In g (a ++ b) -> ~ accepts (ts_pool st) g n) /\
     param_types (ts_scope st) (ts_pool st) f types /\ ws = map Some (firstn n types)) \/
  (~ (exists a f b, cands = a ++ f :: b /\ accepts (ts_pool st) f n /\
        forall g, In g (a ++ b) -> ~ accepts (ts_pool st) g n) /\ ws = repeat None n).

(** The types involved have finite chains of bases. *)
Definition grounded_types (s : scope) (p : pool) (checked : list texpr) : Prop :=
  forall x t, In x checked -> type_of x s p = Done t -> grounded p t.
Definition grounded_returns (s : scope) (p : pool) (cands : list pidx) : Prop :=
  forall f fn r t, In f cands -> get_function p f = Done fn -> fu_return_type fn = Some r ->
    resolve_type_from_pool s p r = Done t -> grounded p t.

(** All lookups the resolution may need succeed: parameters of the candidates
    before the arguments are checked; candidates, argument types, return types of
    cast functions and readable names after. *)
Definition known_before (st : tstate) (cands : list pidx) : Prop :=
  forall f, In f cands -> exists types, param_types (ts_scope st) (ts_pool st) f types.
Definition known_after (st st' : tstate) (cands : list pidx) (checked : list texpr) (wanted : option typeid) : Prop :=
  let s := ts_scope st' in let p := ts_pool st' in
  (forall x, In x checked -> exists t n, type_of x s p = Done t /\ ti_pretty p t = Done n) /\
  (forall f, In f cands -> exists fn, get_function p f = Done fn /\
     (get_flag fn_is_cast (fu_flags fn) = true ->
        exists r t n, fu_return_type fn = Some r /\ resolve_type_from_pool s p r = Done t /\ ti_pretty p t = Done n)) /\
  (forall f types t, In f cands -> param_types (ts_scope st) (ts_pool st) f types -> In t types ->
     exists n, ti_pretty p t = Done n) /\
  match wanted with Some w => exists n, ti_pretty p w = Done n | None => True end.
