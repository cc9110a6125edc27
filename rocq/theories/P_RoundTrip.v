(** C18: decompiling what was assembled. *)
From Coq Require Import String.
From Coq Require Import ZArith List Bool Lia.
From Verif Require Import Bytes BytesFacts Bytecode BytecodeFacts Definitions Bundle BundleFacts Ast TypeNames Pool Scope TypeCheck Diagnostics PoolSpec PoolFacts
  TypeIndexSpec TypeIndexFacts PartsSpec P_Checks Cursor CursorSpec SourceMap Decompiler Assembler AssemblerFacts LabelSpec
  P_Assembler Semantics BodySpec Machine P_Flow P_Machine RecoverSpec NormalFacts RecoverBody.
Import ListNotations.
Open Scope Z_scope.

(** The statements of the body come back: names and types are those of the pool, empty
    statements are dropped, and the body is in the form [normal] (see RecoverSpec.v and
    the next theorem).  The fragment has no super, no switch, no loop whose body never
    ends normally, no unreachable statements in else-parts (unless the then-part does
    not end normally), and the code takes less than 32768 bytes. *)
Theorem C18_decompile_recovers_partial : forall files body s p out s' p' this, assembled files body s p out s' p' ->
  Forall (recoverable p') body -> total out < 32768 ->
  exists N, forall fuel, (N <= fuel)%nat -> exists stmts, decompile p' this fuel out = Done stmts /\ clean stmts = map (show p') (normal p' body).
Proof.
  intros files body s p out s' p' this A Rc L. destruct A as [(c & t & E & Lc & <- & <-) O Cl Fe Ti _ [P1 P2] K Sm Co].
  assert (Eo : into_code (as_labels t) c = Some out).
  { unfold from_body in O. rewrite E in O. destruct (into_code (as_labels t) c); [|discriminate O]. injection O as ->. reflexivity. }
  apply (body_read files body s p c t out E Cl L Lc Eo this P1 P2 K Sm Co Fe Ti Rc).
Qed.
Print Assumptions C18_decompile_recovers_partial.

(** The form [normal] means the same as the body. *)
Theorem C18_normal_form_means_the_same : forall R s p N body w, run_body R s p N (normal p body) w = run_body R s p N body w.
Proof. intros R s p N body w. unfold run_body. rewrite normal_same. reflexivity. Qed.
Print Assumptions C18_normal_form_means_the_same.

(** * The hypotheses can be met *)
Definition rt_names : list str := Eval vm_compute in lit_names ++ [lit "x"; lit "Beast"; lit "roar"; lit "Go"].
Definition rt_def (name parent : Z) (v : any_def) : definition :=
  {| df_name := name; df_parent := parent; df_unk1 := 0; df_unk2 := 0; df_unk3 := 0; df_value := v |}.
Definition rt_fun (flags : Z) : any_def := DFunction
  {| fu_visibility := Public; fu_flags := flags; fu_source := None; fu_return_type := None; fu_unk1 := false; fu_base_method := None;
     fu_parameters := []; fu_locals := []; fu_operator := None; fu_cast := 0; fu_code := []; fu_unk2 := [] |}.
(** The variable x (12), the class Beast (13) with its method roar (14), the function Go (15). *)
Definition rt_pool : pool := Eval vm_compute in
  {| pl_names := {| st_list := rt_names; st_map := numbered rt_names |};
     pl_tweakdb := one_entry; pl_resources := one_entry; pl_strings := empty_strings;
     pl_defs := pl_defs lit_pool ++
       [rt_def 12 0 (DLocal {| lo_type := 7; lo_flags := 0 |});
        rt_def 13 0 (DClass {| cl_visibility := Public; cl_flags := 0; cl_base := 0; cl_functions := [14]; cl_fields := []; cl_overrides := [] |});
        rt_def 14 13 (rt_fun 0); rt_def 15 0 (rt_fun (with_flag fn_is_static true 0))] |}.
Lemma rt_ok : pool_ok rt_pool /\ types_named lit_scope rt_pool /\ knows_literals lit_scope.
Proof.
  assert (E : indexed None empty_strings) by (split; [discriminate|split; [intros s []|exact I]]).
  assert (E1 : indexed None one_entry).
  { split; [|split; [|exact I]].
    - intros s i H. cbn [one_entry st_map sm_find] in H. by_name. split; [cbn; lia|reflexivity].
    - intros s [<-|[]]. eexists. reflexivity. }
  split; [|split].
  - split; [|auto]. split; [|split; [|reflexivity]].
    + intros s i H. cbn [rt_pool pl_names st_map sm_find] in H. by_name; (split; [cbn; lia|reflexivity]).
    + intros s H. cbn [rt_pool pl_names st_list In] in H. repeat match type of H with _ \/ _ => destruct H as [<-|H]; [eexists; reflexivity|] end; contradiction H.
  - intros n i H. cbn [lit_scope sc_types am_find] in H. by_name; reflexivity.
  - apply lit_ok.
Qed.
Lemma rt_complete : complete rt_pool.
Proof.
  split.
  - intros f fn H. unfold get_function, def_by in H. destruct (nth_def _ f) as [d|] eqn:E; [|discriminate H].
    unfold nth_def in E. destruct (Z.ltb_spec f 0); [discriminate E|]. remember (Z.to_nat f) as n eqn:En.
    do 16 (destruct n as [|n]; [cbn in E; injection E as <-; try discriminate H;
      match goal with En : ?k = Z.to_nat f |- _ => assert (f = Z.of_nat k) as -> by lia end; eexists; reflexivity|]).
    destruct n; discriminate E.
  - intros [] K; [destruct (K eq_refl)| | |]; eexists; reflexivity.
Qed.
Definition rt_code (body : list texpr) : code Z := match from_body [] body lit_scope rt_pool with Done (c, _, _) => c | Fail _ => [] end.
Ltac rt_assembled := destruct rt_ok as (P1 & P2 & P3); split; try assumption;
  [ match goal with |- exists c t, asm_body _ ?body ?st = _ /\ _ /\ as_scope _ = ?s /\ as_pool _ = ?p =>
      assert (X : exists x, asm_body [] body st = Done x /\ total (snd (fst x)) < 65536 /\ as_scope (snd x) = s /\ as_pool (snd x) = p)
        by (eexists; split; [vm_compute; reflexivity|]; vm_compute; auto);
      destruct X as ([[[] c] t] & X); exists c, t; exact X end
  | vm_compute; reflexivity
  | apply each_within; cbn; repeat (apply Forall_cons; [try exact I|]); apply Forall_nil
  | apply each_within; cbn; repeat (apply Forall_cons; [try exact I|]); apply Forall_nil
  | apply each_within; cbn; repeat (apply Forall_cons; [split; [intros x O; inversion O; subst; try reflexivity|intros []]|]); try apply Forall_nil;
    repeat match goal with K : In _ _ |- _ => cbn [In] in K | K : _ \/ _ |- _ => destruct K as [<-|K]; [reflexivity|] end; try contradiction
  | vm_compute; reflexivity
  | split; assumption
  | repeat split
  | exact rt_complete ].
Definition var_x : texpr := EIdent (N := typed_ast) (RValue (VLocal 12)) sp0.
Definition to_x (e : texpr) : texpr := EAssign var_x e sp0.
Definition call_go : texpr := ECall (N := typed_ast) (CFunction 15) [] [] sp0.
Definition call_roar (e : texpr) : texpr := EMethodCall (N := typed_ast) e 14 [] sp0.
(** let x = 1; while x { if x { break; Go(); } else { Go(); } this.roar(); if 0 { x = 0 } else {} { x = x ? 2 : 3; } } return; Go(); *)
Definition rt_body : list texpr :=
  [EDeclare (N := typed_ast) 12 None (Some (num 1)) sp0;
   EWhile var_x
     [EIf var_x [EBreak sp0; call_go] (Some [call_go]) sp0;
      call_roar (EThis sp0);
      EIf (num 0) [to_x (num 0)] (Some []) sp0;
      EIf (num 4) [call_go] (Some [to_x (num 4)]) sp0;
      ESeq [to_x (EConditional var_x (num 2) (num 3) sp0)]] sp0;
   EReturn None sp0; call_go].
Example C18_nonvacuous : assembled [] rt_body lit_scope rt_pool (rt_code rt_body) lit_scope rt_pool /\ Forall (recoverable rt_pool) rt_body /\
  total (rt_code rt_body) < 32768 /\ length (normal rt_pool rt_body) = 3%nat /\
  exists stmts, decompile rt_pool default_definition 100 (rt_code rt_body) = Done stmts /\ clean stmts = map (show rt_pool) (normal rt_pool rt_body).
Proof.
  split; [rt_assembled|]. split.
  - apply each_within. cbn [rt_body flat_map visited app].
    assert (N12 : named rt_pool 12) by (eexists; reflexivity). assert (N14 : named rt_pool 14) by (eexists; reflexivity).
    assert (G : global rt_pool 15).
    { eexists _, _, _. split; [reflexivity|]. split; [reflexivity|]. split; [reflexivity|]. split; [reflexivity|]. split; [reflexivity|]. discriminate. }
    cbn. repeat (apply Forall_cons; [first [exact I|exact N12|exact N14|exact G|left; reflexivity|right; reflexivity|split; [exact N12|exact I]|reflexivity|idtac]|]); try apply Forall_nil.
  - split; [vm_compute; reflexivity|]. split; [vm_compute; reflexivity|]. eexists. split; vm_compute; reflexivity.
Qed.

(** * Outside of the fragment *)
(** What follows a loop whose body ends with a return is lost: the jump back is read
    as the statement after the loop, and nothing is read after a jump. *)
Definition lost_body : list texpr := [EWhile (num 1) [EReturn None sp0] sp0; to_x (num 2)].
Theorem C18_after_loop_lost_refuted : exists body out stmts fuel, assembled [] body lit_scope rt_pool out lit_scope rt_pool /\ total out < 32768 /\
  decompile rt_pool default_definition fuel out = Done stmts /\ clean stmts <> map (show rt_pool) (normal rt_pool body) /\
  In (show rt_pool (to_x (num 2))) (map (show rt_pool) (normal rt_pool body)) /\ ~ In (show rt_pool (to_x (num 2))) stmts.
Proof.
  exists lost_body, (rt_code lost_body). eexists. exists 100%nat. split; [rt_assembled|]. split; [vm_compute; reflexivity|].
  split; [vm_compute; reflexivity|]. split; [vm_compute; discriminate|]. split; [right; left; reflexivity|].
  cbn. intros [X|[X|X]]; [discriminate X|discriminate X|exact X].
Qed.
Print Assumptions C18_after_loop_lost_refuted.

(** A statement after a return in an else-part runs in the decompiled program. *)
Definition dead_body : list texpr := [EIf (num 1) [to_x (num 1)] (Some [EReturn None sp0; to_x (num 2)]) sp0].
Theorem C18_unreachable_becomes_reachable_refuted : exists body out stmts fuel, assembled [] body lit_scope rt_pool out lit_scope rt_pool /\ total out < 32768 /\
  decompile rt_pool default_definition fuel out = Done stmts /\
  clean stmts = map (show rt_pool) [EIf (num 1) [to_x (num 1)] (Some [EReturn None sp0]) sp0; to_x (num 2)] /\
  run_body toy lit_scope rt_pool 5 body [] <> run_body toy lit_scope rt_pool 5 [EIf (num 1) [to_x (num 1)] (Some [EReturn None sp0]) sp0; to_x (num 2)] [].
Proof.
  exists dead_body, (rt_code dead_body). eexists. exists 100%nat. split; [rt_assembled|]. split; [vm_compute; reflexivity|].
  split; [vm_compute; reflexivity|]. split; [vm_compute; reflexivity|]. vm_compute. discriminate.
Qed.
Print Assumptions C18_unreachable_becomes_reachable_refuted.

(** super becomes this: decompiled calls of replaced methods call themselves. *)
Theorem C18_super_becomes_this_refuted : exists body out stmts fuel, assembled [] body lit_scope rt_pool out lit_scope rt_pool /\ total out < 32768 /\
  decompile rt_pool default_definition fuel out = Done stmts /\
  body = [call_roar (ESuper sp0)] /\ clean stmts = map (show rt_pool) [call_roar (EThis sp0)].
Proof.
  exists [call_roar (ESuper sp0)], (rt_code [call_roar (ESuper sp0)]). eexists. exists 100%nat. split; [rt_assembled|]. split; [vm_compute; reflexivity|].
  split; [vm_compute; reflexivity|]. split; [reflexivity|vm_compute; reflexivity].
Qed.
Print Assumptions C18_super_becomes_this_refuted.

(** A conditional with 33000 bytes in its then-part is assembled, and stops the
    decompiler. *)
Definition long_body : list texpr := [EIf (num 1) (repeat (to_x (num 1)) 2200) None sp0].
Lemma long_recoverable n : recoverable rt_pool (EIf (num 1) (repeat (to_x (num 1)) n) None sp0).
Proof.
  assert (N12 : named rt_pool 12) by (eexists; reflexivity). intros x W. inversion W as [|y ? P W']; subst; [exact I|].
  assert (T : forall x e, within x e -> e = num 1 \/ e = to_x (num 1) -> recoverable_here rt_pool x).
  { clear - N12. intros x e W [->| ->].
    - inversion W as [|y ? P W']; subst; [exact I|inversion P].
    - inversion W as [|y ? P W']; subst; [exact I|]. inversion P; subst; inversion W' as [|z ? P' W'']; subst; try exact N12; try exact I; inversion P'. }
  inversion P; subst; eapply T; first [exact W'|left; reflexivity|right; eapply repeat_spec; eassumption].
Qed.
Theorem C18_long_conditional_refuted : exists body out, from_body [] body lit_scope rt_pool = Done (out, lit_scope, rt_pool) /\ total out < 65536 /\
  Forall (recoverable rt_pool) body /\ forall fuel, decompile rt_pool default_definition (S (S fuel)) out = Fail DPanic.
Proof.
  exists long_body, (rt_code long_body). split; [vm_compute; reflexivity|]. split; [vm_compute; reflexivity|]. split.
  - constructor; [|constructor]. apply long_recoverable.
  - intros fuel. assert (E : exists rest, rt_code long_body = JumpIfFalse (-32528) :: rest) by (vm_compute; eexists; reflexivity).
    destruct E as [rest ->]. reflexivity.
Qed.
Print Assumptions C18_long_conditional_refuted.
