(** Specification vocabulary for wrapped methods: which function a call instruction
    reaches, and what the rest of the compiler may do to the pool meanwhile.

    The first part does not mention the compiler.  A virtual call looks for a member
    with the given name in the class of the receiver, then in its base class, and so
    on. *)
From Coq Require Import String.
From Coq Require Import ZArith List Bool Permutation.
From Verif Require Import Bytes Bytecode Definitions Bundle Ast Pool Scope TypeCheck SourceMap PoolSpec Semantics Wrappers.
Import ListNotations.
Open Scope Z_scope.

Notation def_at p i := (nth_def (pl_defs p) i).
Definition size (p : pool) : Z := Z.of_nat (length (pl_defs p)).

(** [i] is listed among the functions of class [c]. *)
Definition member (p : pool) (c i : pidx) : Prop := exists k, get_class p c = Done k /\ In i (cl_functions k).
(** What a receiver of class [c] has under the name [n]. *)
Inductive dispatch (p : pool) : pidx -> str -> pidx -> Prop :=
| dispatch_own c n i : member p c i -> def_name p i = Done n -> dispatch p c n i
| dispatch_base c k n i : get_class p c = Done k -> (forall j, In j (cl_functions k) -> def_name p j <> Done n) ->
    dispatch p (cl_base k) n i -> dispatch p c n i.
(** [c] is [d] or one of its ancestors. *)
Inductive below (p : pool) : pidx -> pidx -> Prop :=
| below_self c k : get_class p c = Done k -> below p c c
| below_base d k c : get_class p d = Done k -> below p (cl_base k) c -> below p d c.
(** A call by a receiver of class [d] reaches function [i], and no other. *)
Definition reaches (p : pool) (d : pidx) (c : callee) (i : pidx) : Prop :=
  match c with
  | Direct f => f = i
  | Virtual n => forall j, dispatch p d n j <-> j = i
  end.
(** The callee of a call instruction, the calls of a piece of code, the parameters
    it mentions. *)
Definition called {L} (p : pool) (i : instr L) : option callee :=
  match i with
  | InvokeStatic _ _ f _ => Some (Direct f)
  | InvokeVirtual _ _ n _ => match st_get (Some none_str) (pl_names p) n with inl s => Some (Virtual s) | inr _ => None end
  | _ => None
  end.
Definition calls {L} (p : pool) (c : code L) : list callee :=
  flat_map (fun i => match called p i with Some x => [x] | None => [] end) c.
Definition params_used {L} (c : code L) : list pidx := flat_map (fun i => match i with Param x => [x] | _ => [] end) c.

(** The code is one call and, if the function has a result, returns that of the
    call. *)
Definition just_calls {L} (p : pool) (result : option pidx) (c : code L) (f : callee) : Prop :=
  calls p c = [f] /\ exists i r, called p i = Some f /\ c = match result with Some _ => Return :: i :: r | None => i :: r end.

(** A name of a declaration in source code: it has no dollar sign, so it is not one
    of those the compiler generates. *)
Definition plain (n : str) : Prop := forall k, n <> wrapper_name k /\ n <> proxy_name k.

(** Names and definitions are fewer than 2^32. *)
Definition fits (p : pool) : Prop :=
  Z.of_nat (length (pl_defs p)) < 2 ^ 32 /\ Z.of_nat (length (st_list (pl_names p))) < 2 ^ 32.
Definition names_ok (p : pool) : Prop := indexed (Some none_str) (pl_names p).
(** All members of classes have names.  The pool the compiler starts from may
    contain wrappers of an earlier run, whose names carry an index of that pool. *)
Definition members_named (p : pool) : Prop :=
  forall c i, member p c i -> exists n, def_name p i = Done n /\
    forall k, n = wrapper_name k \/ n = proxy_name k -> k < Z.of_nat (length (pl_defs p)).

(** What the rest of the compiler does to the pool.  It adds names and definitions
    and redefines existing ones under their names; classes keep their base and
    their members; it leaves the definitions [own] and all parameters alone; a new
    member of a class is a new definition with a name from the source code. *)
Record keeps (own : list pidx) (p p' : pool) : Prop := Keeps {
  keeps_ok : names_ok p -> names_ok p';
  keeps_names : prefix (st_list (pl_names p)) (st_list (pl_names p'));
  keeps_def : forall i d, def_at p i = Some d -> exists d', def_at p' i = Some d' /\ df_name d' = df_name d;
  keeps_own : forall i, In i own -> def_at p' i = def_at p i;
  keeps_param : forall i d x, def_at p i = Some d -> df_value d = DParameter x -> def_at p' i = Some d;
  keeps_class : forall c k, get_class p c = Done k ->
    exists k', get_class p' c = Done k' /\ cl_base k' = cl_base k /\ incl (cl_functions k) (cl_functions k');
  keeps_members : forall c i, member p' c i ->
    member p c i \/ Z.of_nat (length (pl_defs p)) <= i /\ exists n, def_name p' i = Done n /\ plain n }.
(** While bodies are compiled, functions only change code and locals, and classes
    do not change. *)
Definition bodies_only (p p' : pool) : Prop :=
  (forall i d x, def_at p i = Some d -> df_value d = DFunction x ->
   exists c ls, def_at p' i = Some (with_value d (DFunction (with_locals (with_code x c) ls)))) /\
  (forall c k, get_class p' c = Done k -> get_class p c = Done k) /\ (forall c k, get_class p c = Done k -> get_class p' c = Done k).

(** The declarations of the modules in turn: each registers a wrapper or does
    something else. *)
Inductive registers (p0 : pool) : list wrapping -> wrap_state -> Prop :=
| registers_none : registers p0 [] (WrapState p0 [] [])
| registers_wrapper ws st c name sig sp w st' : registers p0 ws st -> plain sig ->
    register c name sig sp st = Done (w, st') -> registers p0 (ws ++ [w]) st'
| registers_other ws st p' : registers p0 ws st -> keeps (map snd (ws_proxies st)) (ws_pool st) p' ->
    registers p0 ws (WrapState p' (ws_wrappers st) (ws_proxies st)).

(** A compilation: [defined] is the pool when all declarations have been processed,
    [proxied] when the proxies have been built, [compiled] when all bodies have been
    installed, [final] at the end.  [ws] are the wrappers in the order of their
    registration. *)
Inductive compilation (p0 : pool) (ws : list wrapping) (defined proxied compiled final : pool) : Prop :=
| Compilation (st : wrap_state) (files : list file) (s s' : scope) (order1 order2 : pmap) (shuffle : list pidx -> list pidx) :
    registers p0 ws st ->
    keeps (map snd (ws_proxies st)) (ws_pool st) defined ->
    Permutation order1 (ws_wrappers st) ->
    construct_proxies files (ws_proxies st) order1 s defined = Done (s', proxied) ->
    keeps (map snd (ws_proxies st)) proxied compiled -> bodies_only proxied compiled ->
    Permutation order2 (ws_proxies st) -> (forall l, Permutation (shuffle l) l) ->
    swap_proxies shuffle order2 compiled = Done final ->
    compilation p0 ws defined proxied compiled final.

(** The pools are those of real programs: a method's definition names its class and
    its parameters are parameter definitions when the proxies are built, its locals
    are local definitions at the end. *)
Definition method_of (p : pool) (c f : pidx) : Prop :=
  exists d x, def_at p f = Some d /\ df_value d = DFunction x /\ df_parent d = c /\ c <> UNDEFINED /\
    Forall (fun i => exists e y, def_at p i = Some e /\ df_value e = DParameter y) (fu_parameters x).
Definition locals_of (p : pool) (f : pidx) : Prop :=
  forall d x, def_at p f = Some d -> df_value d = DFunction x ->
  Forall (fun i => exists e y, def_at p i = Some e /\ df_value e = DLocal y) (fu_locals x).

(** The wrappers of one method, in the order of their registration. *)
Definition wrappers_of (f : pidx) (ws : list wrapping) : list wrapping := filter (fun w => wr_fun w =? f) ws.

(** Renaming the locals of a piece of code. *)
Definition rename_local (r : pidx -> pidx) (i : instr Z) : instr Z := match i with Local l => Local (r l) | _ => i end.
(** The method whose definition was [d] with function [x] is found under index [P]
    with name [n]: its locals are copied to new definitions, one for each, its code
    uses the copies, the callback flag is off, nothing else differs. *)
Definition moved (p p' : pool) (P : pidx) (d : definition) (x : function) (n : pidx) : Prop :=
  exists r ls, def_at p' P = Some (with_name (with_value d (DFunction
      (with_code (with_locals (with_flags x (with_flag fn_is_callback false (fu_flags x))) ls) (map (rename_local r) (fu_code x))))) n) /\
    NoDup ls /\ (forall j, In j ls <-> exists l, In l (fu_locals x) /\ r l = j) /\
    (forall l, In (Local l) (fu_code x) -> In l (fu_locals x)) /\
    (forall l, In l (fu_locals x) -> size p <= r l /\ exists e, def_at p l = Some e /\ def_at p' (r l) = Some (with_parent e P)) /\
    (forall l l', In l (fu_locals x) -> In l' (fu_locals x) -> r l = r l' -> l = l').

(** A compilation of a real program whose output fits the index type. *)
Definition real_compilation (p0 : pool) (ws : list wrapping) (defined proxied compiled final : pool) : Prop :=
  compilation p0 ws defined proxied compiled final /\ names_ok p0 /\ members_named p0 /\ fits final /\
  (forall w, In w ws -> method_of defined (wr_class w) (wr_fun w)) /\ (forall w, In w ws -> locals_of compiled (wr_fun w)).
(** A pool in which the body of some function is compiled. *)
Definition between (p q p' : pool) : Prop := keeps [] p q /\ prefix (st_list (pl_names q)) (st_list (pl_names p')).
