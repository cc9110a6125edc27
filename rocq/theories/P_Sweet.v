(** C30: desugaring removes all sugar. *)
From Coq Require Import String.
From Coq Require Import ZArith List Bool Lia.
From Verif Require Import Bytes Bytecode Definitions Bundle Ast TypeNames Pool Scope TypeCheck PartsSpec P_Checks SourceMap Cursor Assembler
  P_Assembler BodySpec P_Machine Desugar SweetSpec SweetFacts.
Import ListNotations.
Open Scope Z_scope.

(** No array literal, interpolated string or for-in loop is left anywhere in a body
    that has been desugared, however they were nested. *)
Theorem C30_no_sugar_left body s p body' ls s' p' :
  desugar body s p = Done (body', ls, s', p') -> forall x, occurs x body' -> ~ sugar x.
Proof.
  intros H x (e & I & W). unfold desugar in H. destruct (on_seq body (desugar_new s p)) as [[b d]|] eqn:E; [|discriminate]. injection H as <- _ _ _.
  assert (G : gives (Forall sugar_free) (on_seq_with on_expr body)) by (apply gives_seq, Forall_forall; intros; apply gives_expr).
  destruct (G _ _ _ E (Forall_nil _)) as [F _]. rewrite Forall_forall in F. exact (F e I x W).
Qed.
Print Assumptions C30_no_sugar_left.
(** The assembler therefore never rejects one of them, whichever pool it then works
    with. *)
Theorem C30_assembler_never_rejects body s p body' ls s' p' files s2 p2 e :
  desugar body s p = Done (body', ls, s', p') -> from_body files body' s2 p2 = Fail e -> ~ about_sugar e.
Proof.
  intros H A. assert (F : Forall sugar_free body').
  { apply Forall_forall. intros y I x W. apply (C30_no_sugar_left _ _ _ _ _ _ _ H). exists y. auto. }
  assert (P : polite (asm_body files body')).
  { unfold asm_body. apply polite_bind; [|intros _; apply polite_emit]. apply polite_each.
    apply Forall_forall. intros y I. apply polite_asm. rewrite Forall_forall in F. apply F, I. }
  unfold from_body in A. destruct (asm_body files body' _) as [[[u c] t]|e1] eqn:E.
  - destruct (into_code _ c); [discriminate|]. injection A as <-. exact (fun x => x).
  - injection A as <-. exact (P _ _ E).
Qed.
Print Assumptions C30_assembler_never_rejects.

(** The operators the desugaring calls, a function to compile and a local. *)
Definition sweet_function : function :=
  {| fu_visibility := Public; fu_flags := 0; fu_source := None; fu_return_type := Some 1; fu_unk1 := false; fu_base_method := None;
     fu_parameters := [13; 13]; fu_locals := []; fu_operator := None; fu_cast := 0; fu_code := []; fu_unk2 := [] |}.
Definition named (p : pool) (n : str) (v : any_def) : pool :=
  let '(p1, i) := add_name p n in
  fst (add_definition p1 {| df_name := i; df_parent := 0; df_unk1 := 0; df_unk2 := 0; df_unk3 := 0; df_value := v |}).
Definition sweet_pool : pool :=
  fold_left (fun p n => named p n (DFunction sweet_function)) [assign_add_sig; less_sig; add_str_sig; lit "Main;"]
    (named (named lit_pool (lit "x") (DLocal {| lo_type := 1; lo_flags := 0 |})) (lit "n") (DParameter {| pa_type := 7; pa_flags := 0 |})).
Definition sweet_scope : scope :=
  {| sc_symbols := [(lit "OperatorAssignAdd", SFunctions [(14, Public)]); (lit "OperatorLess", SFunctions [(15, Public)]); (lit "OperatorAdd", SFunctions [(16, Public)])];
     sc_references := []; sc_types := sc_types lit_scope; sc_this := None; sc_function := Some 17 |}.
(** for x in [s"n=\(1)!", "b"] { for x in ["c"] { return s"\(x)"; } } *)
Definition sweet_body : list texpr :=
  let text s := EConstant (N := typed_ast) (CString LString (lit s)) sp0 in
  [EForIn (N := typed_ast) 12
     (EArrayLit (N := typed_ast) [EInterpolated (N := typed_ast) (lit "n=") [(num 1, lit "!")] sp0; text "b"%string] (Some (TIPrim 1)) sp0)
     [EForIn (N := typed_ast) 12 (EArrayLit (N := typed_ast) [text "c"%string] (Some (TIPrim 1)) sp0)
        [EReturn (N := typed_ast) (Some (EInterpolated (N := typed_ast) [] [(EIdent (N := typed_ast) (RValue (VLocal 12)) sp0, [])] sp0)) sp0] sp0] sp0].
(** Its six pieces of sugar are removed, and the result assembles; without desugaring
    the body is rejected. *)
Example C30_nonvacuous :
  (exists body' ls s' p' out s2 p2, desugar sweet_body sweet_scope sweet_pool = Done (body', ls, s', p') /\ length ls = 6%nat /\
     from_body [] body' s' p' = Done (out, s2, p2) /\ (30 < length out)%nat) /\
  (exists e, from_body [] sweet_body sweet_scope sweet_pool = Fail e /\ about_sugar e).
Proof.
  split.
  - destruct (desugar sweet_body sweet_scope sweet_pool) as [[[[body' ls] s'] p']|e] eqn:E; [|exfalso; vm_compute in E; discriminate E].
    destruct (from_body [] body' s' p') as [[[out s2] p2]|e] eqn:F.
    + exists body', ls, s', p', out, s2, p2. vm_compute in E. injection E as <- <- <- <-. split; [reflexivity|]. split; [reflexivity|].
      vm_compute in F. injection F as <- <- <-. split; [reflexivity|]. cbn. lia.
    + exfalso. vm_compute in E. injection E as <- <- <- <-. vm_compute in F. discriminate F.
  - eexists. split; [vm_compute; reflexivity|]. cbn. auto.
Qed.
