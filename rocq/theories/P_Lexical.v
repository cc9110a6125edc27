(** Names stand for the nearest variable; code names the variables of its function
    only: C55. *)
From Coq Require Import String.
From Coq Require Import ZArith List Bool Lia.
From Verif Require Import Bytes BytesFacts Bytecode Definitions Bundle BundleFacts Ast TypeNames Pool Scope TypeCheck PoolSpec PoolFacts SourceMap Assembler Desugar Diagnostics
  TypeIndexSpec TypeIndexFacts PartsSpec BodySpec WellTypedSpec WellTypedFacts Unit EffectSpec LexicalSpec LexicalFacts OwnFacts P_Assembler P_WellTyped.
Import ListNotations.
Open Scope Z_scope.

Lemma names_of n body t0 checked t : check_seq (check n false) body t0 = Done (checked, t) ->
  exists f', lexical (sc_symbols (ts_scope t0)) [sc_references (ts_scope t0)] (body_events body) (body_events checked) [f'] /\
    made (sc_function (ts_scope t0)) t0 t (declared (body_events body)) (declared (body_events checked)).
Proof.
  intros E. assert (G : agrees (sc_symbols (ts_scope t0)) (sc_function (ts_scope t0)) [sc_references (ts_scope t0)] (ts_scope t0)).
  { split; [|now split]. intros m. cbn [nearest]. now destruct (am_find _ m). }
  pose proof (follows_seq (sc_symbols (ts_scope t0)) (sc_function (ts_scope t0)) (check n false) (follows_check _ _ n) body) as (_ & H).
  destruct (H _ _ _ _ _ E G) as (e & f' & -> & Lx & _ & Ml). exists f'. split; [exact Lx|exact Ml].
Qed.
(** Whatever body is accepted, each name in it has become the nearest variable that
    is declared before it in an enclosing block, or the parameter of that name, or
    the symbol of that name if there is no such variable.  No declaration, no use
    and no block is lost or moved, and the variables of the function are those
    declared, in order. *)
Theorem C55_names_are_lexical n body t0 checked t : check_seq (check n false) body t0 = Done (checked, t) ->
  exists f', lexical (sc_symbols (ts_scope t0)) [sc_references (ts_scope t0)] (body_events body) (body_events checked) [f'] /\
    ts_locals t = ts_locals t0 ++ declared (body_events checked).
Proof. intros E. destruct (names_of _ _ _ _ _ E) as (f' & L & M & _). eauto. Qed.
Print Assumptions C55_names_are_lexical.
(** Each declaration has made a variable of its own: a local of the function, new in
    the pool, named after the declared name and the number of variables before. *)
Theorem C55_declarations_make_variables n body t0 checked t : check_seq (check n false) body t0 = Done (checked, t) ->
  pool_ok (ts_pool t0) -> types_named (ts_scope t0) (ts_pool t0) -> small (ts_pool t) ->
  variables (ts_pool t) (sc_function (ts_scope t0)) (length (ts_locals t0)) (Z.of_nat (length (pl_defs (ts_pool t0))))
    (declared (body_events body)) (declared (body_events checked)) /\
  NoDup (declared (body_events checked)).
Proof.
  intros E P T S. destruct (names_of _ _ _ _ _ E) as (f' & _ & _ & M). pose proof (M S (conj P T)) as V. split; [exact V|]. eapply variables_distinct, V.
Qed.
Print Assumptions C55_declarations_make_variables.
(** The code made from a body reads and writes parameters and variables of its
    function only: those in scope at its start, those declared in it and those made
    by desugaring. *)
Theorem C55_code_names_own_variables n body t0 checked t simple made s2 p2 files s3 p3 out s4 p4 params :
  check_seq (check n false) body t0 = Done (checked, t) -> ts_locals t0 = [] ->
  (forall m v, am_find (sc_references (ts_scope t0)) m = Some v -> exists i, v = VParam i /\ In i params) ->
  desugar checked (ts_scope t) (ts_pool t) = Done (simple, made, s2, p2) -> from_body files simple s3 p3 = Done (out, s4, p4) ->
  forall i, (In (Local i) out -> In i (ts_locals t ++ made)) /\ (In (Param i) out -> In i params).
Proof.
  intros E L R D F i. pose proof (own_code _ _ _ _ _ _ _ _ _ _ _ _ _ _ _ _ E R D F L) as H. rewrite Forall_forall in H.
  split; intros I; exact (H _ I).
Qed.
Print Assumptions C55_code_names_own_variables.
(** So a function that is in the bundle as declared (C51) names variables and
    parameters listed in its own definition only. *)
Theorem C55_function_names_own_variables ev count syms q f c src x : body_is ev count syms q f c src x ->
  forall i, (In (Local i) (fu_code x) -> In i (fu_locals x)) /\ (In (Param i) (fu_code x) -> In i (fu_parameters x)).
Proof.
  unfold body_is. destruct (fs_body src) as [body|]; [|intros (-> & _) i; split; intros []].
  intros (p1 & s1 & checked & t & simple & made & s2 & p2 & p3 & s3 & p4 & _ & _ & (_ & _ & _ & R & _) & E & _ & D & _ & _ & F & ->).
  eapply C55_code_names_own_variables; [exact E|reflexivity| |exact D|exact F].
  intros m v Em. destruct (R _ _ Em) as (i & X & Y & _). eauto.
Qed.
Print Assumptions C55_function_names_own_variables.

(** func F(c: wref<Cat>) -> wref<Animal> {
      let x: Int32 = c.age;
      if true { let x: Int32 = x; let c: Int32 = x; let y: Int32 = c; x; }
      while true { let y: Int32 = x; y; }
      for x in [x, x] { c; x; }
      x;
    } *)
Definition lx_let (n : string) (e : sexpr) : sexpr := EDeclare (N := source_ast) (lit n) (Some tn_INT32) (Some e) sp0.
Definition lx_start : list sexpr :=
  [lx_let "x" (EMember (N := source_ast) (var "c") (lit "age") sp0);
   EIf (EConstant (CBool true) sp0) [lx_let "x" (var "x"); lx_let "c" (var "x"); lx_let "y" (var "c"); var "x"] None sp0;
   EWhile (EConstant (CBool true) sp0) [lx_let "y" (var "x"); var "y"] sp0].
Definition lx_body : list sexpr := lx_start ++
  [EForIn (N := source_ast) (lit "x") (EArrayLit (N := source_ast) [var "x"; var "x"] None sp0) [var "c"; var "x"] sp0; var "x"].
Definition lx_done (b : list sexpr) : list texpr * tstate := match check_seq (check 9 false) b wt_state with Done r => r | Fail _ => ([], wt_state) end.
(** The second `x` is made from the first one and hides it until the block ends; the
    parameter `c` is hidden there as well; `y` names two variables; the variable of
    the `for` is not seen by its array. *)
Example C55_nonvacuous :
  check_seq (check 9 false) lx_body wt_state = Done (lx_done lx_body) /\ pool_ok wt_pool /\ types_named wt_scope wt_pool /\ small (ts_pool (snd (lx_done lx_body))) /\
  length (pl_defs wt_pool) = 24%nat /\
  body_events lx_body = [Uses (lit "c"); Declares (lit "x"); Opens; Uses (lit "x"); Declares (lit "x"); Uses (lit "x"); Declares (lit "c"); Uses (lit "c"); Declares (lit "y");
    Uses (lit "x"); Closes; Opens; Uses (lit "x"); Declares (lit "y"); Uses (lit "y"); Closes; Uses (lit "x"); Uses (lit "x"); Opens; Declares (lit "x");
    Uses (lit "c"); Uses (lit "x"); Closes; Uses (lit "x")] /\
  body_events (fst (lx_done lx_body)) = [Uses (RValue (VParam 19)); Declares 24; Opens; Uses (RValue (VLocal 24)); Declares 25; Uses (RValue (VLocal 25)); Declares 26;
    Uses (RValue (VLocal 26)); Declares 27; Uses (RValue (VLocal 25)); Closes; Opens; Uses (RValue (VLocal 24)); Declares 28; Uses (RValue (VLocal 28));
    Closes; Uses (RValue (VLocal 24)); Uses (RValue (VLocal 24)); Opens; Declares 29; Uses (RValue (VParam 19)); Uses (RValue (VLocal 29)); Closes; Uses (RValue (VLocal 24))].
Proof.
  destruct wt_ok as (H1 & H2 & _). split; [vm_compute; reflexivity|]. split; [exact H1|]. split; [exact H2|].
  split; [repeat split; vm_compute; reflexivity|]. split; [reflexivity|]. split; vm_compute; reflexivity.
Qed.
(** A name is gone where its block ends: with `y` after the loop nothing is accepted. *)
Example C55_unseen : exists e, check_seq (check 9 false) (lx_start ++ [var "y"]) wt_state = Fail e.
Proof. eexists. vm_compute. reflexivity. Qed.
(** The same beginning, then `let a: array<Int32> = [x];` for which desugaring makes a
    variable. *)
Definition lx_array : list sexpr := lx_start ++
  [EDeclare (N := source_ast) (lit "a") (Some (TypeName (lit "array") (Some [tn_INT32]))) (Some (EArrayLit (N := source_ast) [var "x"] None sp0)) sp0].
Definition lx_code : option (list pidx * list pidx * code Z) :=
  let '(checked, t) := lx_done lx_array in
  match desugar checked (ts_scope t) (ts_pool t) with
  | Done (simple, made, s, p) => match from_body [] simple s p with Done (out, _, _) => Some (ts_locals t, made, out) | Fail _ => None end
  | Fail _ => None
  end.
Example C55_code_nonvacuous : (forall m v, am_find (sc_references wt_scope) m = Some v -> exists i, v = VParam i /\ In i [19]) /\
  lx_code = Some ([24; 25; 26; 27; 28; 30], [31],
    [Assign; Local 24; Context 22; Bytecode.WeakRefToRef; Param 19; ObjectField 15; JumpIfFalse 70; TrueConst; Assign; Local 25; Local 24; Assign; Local 26; Local 25;
     Assign; Local 27; Local 26; Local 25; JumpIfFalse 35; TrueConst; Assign; Local 28; Local 24; Local 28; Jump (-32); ArrayResize 29; Local 31; U64Const 1; Assign;
     ArrayElement 29; Local 31; U64Const 0; Local 24; Assign; Local 30; Local 31; Nop]).
Proof.
  split; [|vm_compute; reflexivity]. intros m v. cbn [wt_scope sc_references am_find]. destruct (str_eqb _ _); [|discriminate]. intros [= <-]. exists 19. split; [reflexivity|now left].
Qed.
