(** C46: decompiling comes to an end. *)
From Coq Require Import String.
From Coq Require Import ZArith List Bool Lia.
From Verif Require Import Bytes BytesFacts Bytecode BytecodeFacts Definitions Bundle Ast TypeNames Pool Scope TypeCheck
  PartsSpec Cursor CursorSpec CursorFacts ReadFacts SourceMap Decompiler Assembler AssemblerFacts LabelSpec LabelFacts BodyFacts P_Cursor P_Assembler
  TypeIndexSpec P_TypeIndex P_RoundTrip P_Machine TermSpec TermFacts AheadFacts.
Import ListNotations.
Open Scope Z_scope.

(** There is an answer (statements or an error) that is reached. *)
Definition ends (p : pool) (this_def : definition) (code : code Z) : Prop :=
  exists r, r <> Fail DFuel /\ exists N, forall fuel, (N <= fuel)%nat -> decompile p this_def fuel code = r.
(** Decompiling goes on for ever. *)
Definition never_ends (p : pool) (this_def : definition) (code : code Z) : Prop :=
  forall fuel, decompile p this_def fuel code = Fail DFuel.

(** Code that leads ahead ([forward], TermSpec.v) is decompiled to an end.  Missing: code
    that does not; it may go on for ever (C46_jump_to_itself_refuted). *)
Theorem C46_forward_code_ends_partial : forall p this_def code, forward code -> ends p this_def code.
Proof.
  intros p this_def code F. pose proof (decompile_ends p this_def code F (S (length code)) ltac:(lia)) as N.
  exists (decompile p this_def (S (length code)) code). split; [exact N|]. exists (S (length code)). intros fuel L.
  apply decompile_same; assumption.
Qed.
Print Assumptions C46_forward_code_ends_partial.

(** What the compiler emits leads ahead, if the last case of every switch has a
    statement and the code takes less than 64 KiB. *)
Theorem C46_compiled_code_is_forward : forall files body s p out s' p', from_body files body s p = Done (out, s', p') ->
  Forall closed body -> total out < 65536 -> forward out.
Proof.
  intros files body s p out s' p' O Cl L. unfold from_body in O.
  destruct (asm_body files body _) as [[[[] c] t]|] eqn:E; [|discriminate O].
  destruct (into_code (as_labels t) c) as [o|] eqn:Eo; [|discriminate O]. injection O as -> <- <-.
  pose proof (into_code_total _ _ _ Eo) as T. rewrite T in L.
  destruct (C15_labels_placed_once_partial _ _ _ _ _ _ E Cl) as (P & U & Ta).
  assert (LB : labels_below (as_labels t) c).
  { apply Forall_forall. intros i I. apply Forall_forall. intros l J. destruct (is_target i) eqn:Ti.
    - destruct i; try discriminate Ti. destruct J as [<-|[]]. apply Ta, I.
    - apply U. exists i. auto. }
  assert (A : ahead nowhere c).
  { destruct (body_sound _ _ _ _ _ E) as (c' & G & ->). destruct gens_ahead as (_ & _ & Q & _).
    apply ahead_app; [apply ahead_any, (Q _ _ _ _ _ G Cl)|]. split; [constructor|exact I]. }
  destruct (into_code_lemma _ _ LB L) as (out' & Eo' & _ & NT & Len & J). rewrite Eo in Eo'. injection Eo' as <-.
  split; [|split].
  - exact (out_sized _ _ _ _ _ _ _ E Eo).
  - lia.
  - apply Forall_forall. intros [pos i] I.
    assert (X : exists a b, out = a ++ i :: b /\ pos = total a).
    { apply in_split in I. destruct I as (l1 & l2 & I).
      assert (Y : forall (o : code Z) z l1, 0 <= z -> z + total o < 65536 -> code_iter z o = l1 ++ (pos, i) :: l2 ->
        exists a b, o = a ++ i :: b /\ pos = z + total a).
      { clear. induction o as [|j o IH]; intros z l1 Z B E; cbn [code_iter] in E; [destruct l1; discriminate E|].
        cbn [total] in B. pose proof (instr_size_range j). pose proof (total_nonneg o).
        destruct l1 as [|x l1]; injection E as E1 E2.
        - subst. exists [], o. split; [reflexivity|cbn; lia].
        - subst. rewrite wrap_u_id in E2 by (unfold in_u; change (2 ^ 16) with 65536; lia).
          destruct (IH (z + instr_size j) l1 ltac:(lia) ltac:(lia) E2) as (a & b & -> & ->). exists (j :: a), b. split; [reflexivity|cbn [total]; lia]. }
      destruct (Y out 0 l1 ltac:(lia) ltac:(lia) I) as (a & b & -> & ->). exists a, b. split; [reflexivity|lia]. }
    destruct X as (a & b & -> & ->). clear I.
    destruct (nth_code c (length a)) as (pre & k & post & Ec & Tk & Lk).
    { rewrite <- Len, app_length. cbn [length]. lia. }
    destruct (J _ _ _ Ec Tk) as (q & j & r & H1 & H2 & H3 & H4 & H5).
    assert (Q : a = q /\ i = j).
    { rewrite Lk in H3. clear - H1 H3. revert q H1 H3. induction a as [|x a IH]; intros [|y q] H1 H3; try discriminate H3; cbn in H1.
      - injection H1 as -> _. auto.
      - injection H1 as -> H1. injection H3 as H3. destruct (IH _ H1 H3) as [-> ->]. auto. }
    destruct Q as [<- <-].
    assert (G : forall l o, In l (later k) -> (forall p1 p2, c = p1 ++ Target l :: p2 -> ~ In (Target l) p2 -> absolute o (total a) = total p1) ->
      total a < absolute o (total a)).
    { intros l o Il H. pose proof (ahead_split _ _ _ _ A Ec _ Il) as It. apply in_split in It. destruct It as (p1 & p2 & It).
      assert (Ul : used l c). { exists k. split; [rewrite Ec; apply in_elt|]. split; [exact Tk|].
        destruct k; try contradiction; cbn in Il |- *; tauto. }
      destruct (P l (U _ Ul)) as (c1 & c2 & E1 & N1 & N2).
      rewrite (H _ _ E1 N2), H2. rewrite It in Ec.
      assert (Q : c1 = pre ++ k :: p1).
      { rewrite E1 in Ec. replace (pre ++ k :: p1 ++ Target l :: p2) with ((pre ++ k :: p1) ++ Target l :: p2) in Ec by (rewrite <- app_assoc; reflexivity).
        revert Ec N1 N2. generalize (pre ++ k :: p1). clear. induction c1 as [|x c1 IH]; intros [|y m] Ec N1 N2; cbn in Ec.
        - reflexivity.
        - injection Ec as <- ->. contradiction N2. apply in_elt.
        - injection Ec as -> _. contradiction N1. left. reflexivity.
        - injection Ec as -> Ec. f_equal. apply IH; [exact Ec| |exact N2]. intros I. apply N1. right. exact I. }
      rewrite Q, total_app. cbn [total]. pose proof (total_nonneg p1). assert (0 < instr_size k) by (destruct k; try contradiction; reflexivity). lia. }
    destruct i; try exact I; destruct k; try discriminate H4; cbn [locs] in H5; unfold leads_ahead; cbn [fst snd later] in *;
      repeat match goal with H : Forall2 _ (_ :: _) (_ :: _) |- _ => inversion H; clear H; subst end;
      repeat match goal with H : in_s 16 _ /\ _ |- _ => destruct H as [_ H] end.
    + eapply G; [|eassumption]. left. reflexivity.
    + split; (eapply G; [|eassumption]); [left|right; left]; reflexivity.
    + match goal with |- absolute ?o _ <> _ => assert (total a < absolute o (total a)); [|lia] end.
      eapply G; [|eassumption]. left. reflexivity.
Qed.
Print Assumptions C46_compiled_code_is_forward.

(** Hence: decompiling what was compiled comes to an end, whatever the pool is. *)
Theorem C46_compiled_code_ends_partial : forall files body s p out s' p' pool this_def, from_body files body s p = Done (out, s', p') ->
  Forall closed body -> total out < 65536 -> ends pool this_def out.
Proof. intros. apply C46_forward_code_ends_partial. eapply C46_compiled_code_is_forward; eassumption. Qed.
Print Assumptions C46_compiled_code_ends_partial.

(** A switch with three cases and a default, a loop and breaks. *)
Example C46_nonvacuous : exists out s' p', from_body [] as_body ti_scope ti_pool = Done (out, s', p') /\ Forall closed as_body /\
  total out < 65536 /\ length out = 19%nat /\ exists e cases d, decompile ti_pool default_definition 100 out =
    Done [ESwitch (N := source_ast) e cases (Some d) span0; s_empty] /\ length cases = 3%nat.
Proof.
  eexists _, _, _. split; [vm_compute; reflexivity|]. split; [exact as_body_closed|]. split; [reflexivity|]. split; [reflexivity|].
  eexists _, _, _. split; [vm_compute; reflexivity|reflexivity].
Qed.

(** A conditional jump that leads to itself: the decompiler adds conditionals to the body
    for ever. *)
Definition self_jump : code Z := [JumpIfFalse 0; TrueConst].
Theorem C46_jump_to_itself_refuted : exists code, Forall (fun i => is_target i = false) code /\ forall p this_def, never_ends p this_def code.
Proof.
  exists self_jump. split; [repeat constructor|]. intros p this_def fuel.
  assert (Q : forall n body, body = [] \/ (exists e b, body = e :: b /\ ends_path e = false) ->
    consume_path_loop (consume_with p this_def fuel) n location_max None body (new_cursor self_jump) = Fail DFuel).
  { induction n as [|n IH]; intros body B; [reflexivity|]. cbn [consume_path_loop]. unfold xbind at 1.
    change (xpos (new_cursor self_jump)) with (Done (E := derror) (0, new_cursor self_jump)). cbv beta iota.
    replace ((location_max <=? 0) || _) with false.
    2: { destruct B as [->|(e & b & -> & ->)]; reflexivity. }
    destruct fuel as [|[|fuel']]; [reflexivity|reflexivity|].
    assert (R : exists e, consume_with p this_def (S (S fuel')) None None (new_cursor self_jump) = Done (e, new_cursor self_jump) /\ ends_path e = false).
    { eexists. split; [vm_compute; reflexivity|reflexivity]. }
    destruct R as (e & R & Ee). rewrite R. apply IH. right. eauto. }
  unfold decompile, consume_path. rewrite (Q fuel []) by auto. reflexivity.
Qed.
Print Assumptions C46_jump_to_itself_refuted.

(** A switch whose last case is empty: its label for the case leads to the start of the
    function (C15_empty_last_case_refuted), so the decompiler, reading the body of that
    case, reads the switch again, and so on. *)
Definition endless_body : list texpr := [ESwitch (num 7) [(num 1, [])] None sp0].
Definition endless_code : code Z := Eval vm_compute in
  match from_body [] endless_body ti_scope ti_pool with Done (c, _, _) => c | Fail _ => [] end.
Definition endless_at (i : nat) : cursor Z := {| cu_code := endless_code; cu_offsets := cu_offsets (new_cursor endless_code); cu_index := i |}.
Lemma at_pos : xpos (endless_at 0) = Done (0, endless_at 0). Proof. vm_compute. reflexivity. Qed.
Lemma at_switch : xpop (endless_at 0) = Done (Switch 1 16, endless_at 1). Proof. vm_compute. reflexivity. Qed.
Lemma at_label : xpop (endless_at 2) = Done (SwitchLabel 10 (-16), endless_at 3). Proof. vm_compute. reflexivity. Qed.
Lemma at_seek i : (i <= 5)%nat -> xseek 16 (endless_at i) = Done (tt, endless_at 2) /\ xseek 0 (endless_at i) = Done (tt, endless_at 0).
Proof. intros L. do 6 (destruct i as [|i]; [vm_compute; auto|]). lia. Qed.
Lemma at_labels f : switch_labels (S (S f)) (endless_at 2) = Done ([(16, 0)], endless_at 4). Proof. vm_compute. reflexivity. Qed.
Lemma at_range : xrange 0 (absolute 10 16) (endless_at 4) =
  Done ([(0, Switch 1 16); (11, I32Const 7); (16, SwitchLabel 10 (-16)); (21, I32Const 1)], endless_at 4).
Proof. vm_compute. reflexivity. Qed.
Lemma endless_switch (rec : option sexpr -> option block -> X sexpr) f a b : rec None None (endless_at 0) = Fail DFuel ->
  rec None None (endless_at 1) = Done (a, endless_at 2) -> rec None None (endless_at 3) = Done (b, endless_at 4) ->
  consume_switch rec (S (S f)) 16 (endless_at 1) = Fail DFuel.
Proof.
  intros IH F1 F2. unfold consume_switch. rewrite (xbind_done _ _ _ _ _ F1). cbv beta.
  rewrite (xbind_done _ _ _ _ _ (proj1 (at_seek 2 ltac:(lia)))). cbv beta. rewrite (xbind_done _ _ _ _ _ (at_labels f)). cbv beta.
  replace (sort_labels [(16, 0)]) with [(16, 0)] by reflexivity. cbn [switch_cases].
  match goal with |- xbind ?m _ _ = _ => assert (E : m (endless_at 4) = Fail DFuel) end; [|unfold xbind at 1; rewrite E; reflexivity].
  rewrite (xbind_done _ _ _ _ _ (proj1 (at_seek 4 ltac:(lia)))). cbv beta. rewrite (xbind_done _ _ _ _ _ at_label). cbv beta iota zeta.
  rewrite (xbind_done _ _ _ _ _ F2). cbv beta. replace (0 <? absolute 10 16) with true by reflexivity.
  rewrite (xbind_done _ _ _ None (endless_at 4)) by (rewrite (xbind_done _ _ _ _ _ at_range); reflexivity). cbv beta.
  rewrite (xbind_done _ _ _ _ _ (proj2 (at_seek 4 ltac:(lia)))). cbv beta.
  match goal with |- xbind ?m _ _ = _ => assert (E : m (endless_at 0) = Fail DFuel) end; [|unfold xbind at 1; rewrite E; reflexivity].
  unfold consume_path. cbn [consume_path_loop]. rewrite (xbind_done _ _ _ _ _ at_pos). cbv beta.
  replace ((absolute 10 16 <=? 0) || false) with false by reflexivity. rewrite IH. reflexivity.
Qed.
Lemma read_switch p this_def g c c' k r : xpos c = Done (0, c) -> xpop c = Done (Switch k 16, c') ->
  consume_switch (consume_with p this_def g) g 16 c' = r -> consume_with p this_def (S g) None None c = r.
Proof.
  intros P Q H. cbn [consume_with]. rewrite (xbind_done _ _ _ _ _ P). cbv beta. rewrite (xbind_done _ _ _ _ _ Q). cbv beta iota. exact H.
Qed.
Lemma endless p this_def fuel : consume_with p this_def fuel None None (endless_at 0) = Fail DFuel.
Proof.
  induction fuel as [|fuel IH]; [reflexivity|]. destruct fuel as [|[|f]]; [vm_compute; reflexivity|vm_compute; reflexivity|].
  assert (F1 : consume_with p this_def (S (S f)) None None (endless_at 1%nat) = Done (EConstant (N := source_ast) (CI32 7) span0, endless_at 2%nat))
    by (vm_compute; reflexivity).
  assert (F2 : consume_with p this_def (S (S f)) None None (endless_at 3%nat) = Done (EConstant (N := source_ast) (CI32 1) span0, endless_at 4%nat))
    by (vm_compute; reflexivity).
  apply (read_switch _ _ _ _ _ _ _ at_pos at_switch). eapply endless_switch; eassumption.
Qed.
Theorem C46_compiled_code_never_ends_refuted : exists files body s p out s' p',
  from_body files body s p = Done (out, s', p') /\ forall pool this_def, never_ends pool this_def out.
Proof.
  exists [], endless_body, ti_scope, ti_pool, endless_code. eexists _, _. split; [vm_compute; reflexivity|].
  intros p this_def fuel. unfold decompile, consume_path. destruct fuel as [|fuel]; [reflexivity|]. cbn [consume_path_loop].
  assert (E : new_cursor endless_code = endless_at 0) by reflexivity. rewrite E. rewrite (xbind_done _ _ _ _ _ at_pos). cbv beta.
  replace ((location_max <=? 0) || false) with false by reflexivity. rewrite endless. reflexivity.
Qed.
Print Assumptions C46_compiled_code_never_ends_refuted.
