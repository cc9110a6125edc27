(** The decompiler does not make up declarations. *)
From Coq Require Import String.
From Coq Require Import ZArith List Bool Lia Permutation.
From Verif Require Import Bytes Definitions Bundle BundleFacts Ast TypeNames Pool Scope TypeCheck PartsSpec Cursor Bytecode Decompiler MergeSpec MergeFacts.
Import ListNotations.
Open Scope Z_scope.

Lemma dn_intro (e : sexpr) : (forall n t i s, e <> EDeclare (N := source_ast) n t i s) ->
  (forall y, part y e -> declares_nothing y) -> declares_nothing e.
Proof.
  intros H P n t i s W. inversion W; subst; [exact (H _ _ _ _ eq_refl)|]. exact (P _ H0 _ _ _ _ H1).
Qed.
Lemma dn_part e y : declares_nothing e -> part y e -> declares_nothing y.
Proof. intros H P n t i s W. apply (H n t i s). eapply wi_part; [exact P|exact W]. Qed.

(** What a step of the decompiler returns. *)
Definition Returns {A} (m : X A) (Q : A -> Prop) : Prop := forall c a c', m c = Done (a, c') -> Q a.
Lemma ret_bind {A B} (m : X A) (k : A -> X B) (Q : A -> Prop) (R : B -> Prop) :
  Returns m Q -> (forall a, Q a -> Returns (k a) R) -> Returns (xbind m k) R.
Proof.
  intros H K c b c' E. unfold xbind in E. destruct (m c) as [[a c1]|e] eqn:M; [|discriminate].
  exact (K a (H _ _ _ M) _ _ _ E).
Qed.
Lemma ret_any {A B} (m : X A) (k : A -> X B) (R : B -> Prop) : (forall a, Returns (k a) R) -> Returns (xbind m k) R.
Proof. intros K. eapply ret_bind with (Q := fun _ => True); [intros c a c' _; exact I|intros a _; apply K]. Qed.
Lemma ret_ret {A} (a : A) (Q : A -> Prop) : Q a -> Returns (xret a) Q.
Proof. intros H c b c' E. injection E as <- _. exact H. Qed.
Lemma ret_fail {A} e (Q : A -> Prop) : Returns (xfail e) Q.
Proof. intros c b c' E. discriminate. Qed.

Notation DN := declares_nothing.
Notation DNS := (Forall declares_nothing).
Lemma dns_in l y : In y l -> DNS l -> DN y.
Proof. intros I H. rewrite Forall_forall in H. exact (H _ I). Qed.
Ltac leaf := apply dn_intro; [intros ? ? ? ? ?; discriminate|
  let y := fresh "y" in let P := fresh "P" in intros y P; inversion P; subst; try assumption; try (eapply dns_in; eassumption)].

Lemma dn_empty : DN s_empty.
Proof. leaf. contradiction. Qed.
Lemma last_map_dn f l : Forall (fun e => forall t e', f e = Some (t, e') -> DN e -> DN e') l ->
  forall t l', last_map f l = Some (t, l') -> DNS l -> DNS l'.
Proof.
  induction 1 as [|e l He _ IH]; intros t l' E D; [discriminate|].
  cbn [last_map] in E. inversion D; subst. fold (last_map f) in E. destruct (last_map f l) as [[t1 l1]|] eqn:L.
  - injection E as <- <-. constructor; [assumption|]. eapply IH; eauto.
  - destruct (f e) as [[t1 e1]|] eqn:F; [|discriminate]. injection E as <- <-. constructor; [eapply He; eauto|assumption].
Qed.
Lemma resolve_jump_in_dn e : forall t e', resolve_jump_in e = Some (t, e') -> DN e -> DN e'.
Proof.
  induction e using expr_ind'; intros tt e' E D; try discriminate.
  - injection E as <- <-. exact dn_empty.
  - cbn [resolve_jump_in] in E.
    assert (D1 : DN e) by (eapply dn_part; [exact D|constructor]).
    assert (D2 : DNS t) by (apply Forall_forall; intros y Y; eapply dn_part; [exact D|]; apply pt_then; exact Y).
    destruct f as [f|].
    + assert (D3 : DNS f) by (apply Forall_forall; intros y Y; eapply dn_part; [exact D|]; apply pt_else; exact Y).
      destruct (last_map resolve_jump_in t) as [[t1 b']|] eqn:L1.
      * injection E as <- <-. assert (DNS b') by (exact (last_map_dn _ _ H _ _ L1 D2)). leaf.
      * destruct (last_map resolve_jump_in f) as [[t1 f']|] eqn:L2; [|discriminate].
        injection E as <- <-. assert (DNS f') by exact (last_map_dn _ _ H0 _ _ L2 D3). leaf.
    + destruct (last_map resolve_jump_in t) as [[t1 b']|] eqn:L1; [|discriminate].
      injection E as <- <-. assert (DNS b') by exact (last_map_dn _ _ H _ _ L1 D2). leaf.
Qed.
Lemma resolve_jump_dn l t l' : resolve_jump l = Some (t, l') -> DNS l -> DNS l'.
Proof. apply last_map_dn. apply Forall_forall. intros e _. apply resolve_jump_in_dn. Qed.

Section Facts.
Variables (p : pool) (this_def : definition).
Section With.
Variable rec : option sexpr -> option block -> X sexpr.
Hypothesis rec_dn : forall ctx b, (forall e, ctx = Some e -> DN e) -> Returns (rec ctx b) DN.
Lemma consume_dn : Returns (consume rec) DN.
Proof. apply rec_dn. intros e H; discriminate. Qed.
Lemma consume_n_dn n : Returns (consume_n rec n) DNS.
Proof.
  induction n; cbn [consume_n]; [apply ret_ret; constructor|].
  eapply ret_bind; [apply consume_dn|]. intros e He. eapply ret_bind; [exact IHn|]. intros l Hl. apply ret_ret. constructor; assumption.
Qed.
Lemma consume_path_loop_dn n target b : forall body, DNS body -> Returns (consume_path_loop rec n target b body) DNS.
Proof.
  induction n as [|n IH]; intros body D; cbn [consume_path_loop]; [apply ret_fail|].
  apply ret_any. intros here. destruct ((_ || _)%bool); [apply ret_ret; apply Forall_rev; exact D|].
  intros c a c' E. destruct (rec None b c) as [[e c1]|e] eqn:R.
  - eapply IH; [|exact E]. constructor; [|exact D]. eapply rec_dn; [|exact R]. intros ? ?; discriminate.
  - destruct e; try discriminate. injection E as <- _. apply Forall_rev. exact D.
Qed.
Lemma consume_path_dn fuel target b : Returns (consume_path rec fuel target b) DNS.
Proof. apply consume_path_loop_dn. constructor. Qed.
Lemma consume_intrinsic_typed_dn i ts : Returns (consume_intrinsic_typed rec i ts) DN.
Proof. eapply ret_bind; [apply consume_n_dn|]. intros l Hl. apply ret_ret. leaf. Qed.
Lemma consume_params_dn fuel n : Returns (consume_params_loop rec fuel n) DNS.
Proof.
  induction n as [|n IH]; cbn [consume_params_loop]; [apply ret_fail|].
  apply ret_any; intros _. apply ret_any; intros i.
  assert (K : Returns (get e <- consume rec; get l <- consume_params_loop rec fuel n; xret (e :: l)) DNS).
  { eapply ret_bind; [apply consume_dn|]. intros e He. eapply ret_bind; [exact IH|]. intros l Hl. apply ret_ret. constructor; assumption. }
  destruct i as [i|]; [|exact K]. destruct i; try exact K. apply ret_any; intros _. apply ret_ret. constructor.
Qed.
Lemma consume_conditional_jump_dn fuel position offset b : Returns (consume_conditional_jump rec fuel position offset b) DN.
Proof.
  unfold consume_conditional_jump. eapply ret_bind; [apply consume_dn|]. intros c Hc. apply ret_any; intros code.
  destruct (existsb _ _).
  - eapply ret_bind; [apply consume_path_dn|]. intros body Hb. apply ret_ret. leaf.
  - eapply ret_bind; [apply consume_path_dn|]. intros body Hb. apply ret_any; intros _.
    destruct (resolve_jump body) as [[jump body']|] eqn:R.
    + pose proof (resolve_jump_dn _ _ _ R Hb) as Hb'. eapply ret_bind; [apply consume_path_dn|]. intros f Hf. apply ret_ret. leaf.
    + apply ret_ret. leaf.
Qed.
Definition cases_dn (cd : list (sexpr * list sexpr) * option (list sexpr)) : Prop :=
  (forall m b, In (m, b) (fst cd) -> DN m /\ DNS b) /\ (forall d, snd cd = Some d -> DNS d).
Lemma break_last_dn body : DNS body -> DNS (break_last body).
Proof.
  intros D. unfold break_last. destruct (rev body) as [|e r] eqn:R; [exact D|].
  destruct e; try exact D. apply Forall_rev in D. rewrite R in D. inversion D; subst.
  apply Forall_rev. constructor; [leaf|assumption].
Qed.
Lemma switch_cases_dn fuel labels : forall b, Returns (switch_cases rec fuel labels b) cases_dn.
Proof.
  induction labels as [|[label start] labels IH]; intros b; cbn [switch_cases].
  - apply ret_ret. split; [intros ? ? []|intros ? H; discriminate].
  - apply ret_any; intros _. apply ret_any; intros i. destruct i; try apply ret_fail.
    + eapply ret_bind; [apply consume_dn|]. intros m Hm. apply ret_any; intros b'. apply ret_any; intros _.
      eapply ret_bind; [apply consume_path_dn|]. intros body Hb. eapply ret_bind; [apply IH|]. intros [cs d] [H1 H2].
      apply ret_ret. split; cbn [fst snd] in *; [|exact H2].
      intros m' b1 [E|I]; [injection E as <- <-; split; [exact Hm|apply break_last_dn; exact Hb]|exact (H1 _ _ I)].
    + eapply ret_bind with (Q := DNS).
      * assert (K : Returns (get e <- rec None b; xret [e]) DNS).
        { eapply ret_bind; [apply rec_dn; intros ? ?; discriminate|]. intros e He. apply ret_ret. constructor; [exact He|constructor]. }
        destruct b as [[? ?|?]|]; [exact K|apply consume_path_dn|exact K].
      * intros d Hd. eapply ret_bind; [apply IH|]. intros [cs d'] [H1 H2]. apply ret_ret. split; cbn [fst snd] in *; [exact H1|].
        intros d0 E. injection E as <-. destruct d'; [apply H2; reflexivity|exact Hd].
Qed.
Lemma consume_switch_dn fuel start : Returns (consume_switch rec fuel start) DN.
Proof.
  unfold consume_switch. eapply ret_bind; [apply consume_dn|]. intros s Hs. apply ret_any; intros _. apply ret_any; intros ls.
  eapply ret_bind; [apply switch_cases_dn|]. intros [cs d] [H1 H2]. cbn [fst snd] in *. apply ret_ret.
  apply dn_intro; [intros; discriminate|]. intros y P. inversion P; subst; [exact Hs| | |].
  - match goal with J : In (_, _) _ |- _ => destruct (H1 _ _ J) as [K _] end. exact K.
  - match goal with J : In (_, _) _ |- _ => destruct (H1 _ _ J) as [_ K] end. eapply dns_in; eassumption.
  - eapply dns_in; [eassumption|apply H2; reflexivity].
Qed.
End With.

Lemma consume_with_dn fuel : forall ctx b, (forall e, ctx = Some e -> DN e) -> Returns (consume_with p this_def fuel ctx b) DN.
Proof.
  induction fuel as [|fuel IH]; intros ctx b HC; [apply ret_fail|].
  cbn [consume_with]. apply ret_any; intros position. apply ret_any; intros i.
  assert (CTX : DN (match ctx with Some o => o | None => s_this end)).
  { destruct ctx as [o|]; [exact (HC _ eq_refl)|leaf]. }
  assert (ID : forall n, DN (s_ident n)) by (intros n; leaf).
  unfold s_text, s_const, s_method, s_ident, s_this in *.
  destruct i;
    first
    [ apply ret_fail
    | solve [apply ret_ret; leaf]
    | apply ret_ret; exact dn_empty
    | apply (consume_intrinsic_typed_dn _ IH)
    | apply ret_any; intros ?; apply (consume_intrinsic_typed_dn _ IH)
    | apply (consume_switch_dn _ IH)
    | repeat first [apply ret_bind with (Q := DN); [apply (consume_dn _ IH)|intros ? ?] | apply ret_any; intros ?]; solve [apply ret_ret; leaf]
    | idtac ].
  - (* EnumConst *) apply ret_any; intros en. apply ret_any; intros mn. apply ret_ret. leaf. apply ID.
  - (* Jump *) destruct (a =? 3); [apply ret_ret; exact dn_empty|].
    assert (G : forall l, Returns (xret (EGoto (N := source_ast) l span0)) DN) by (intros l; apply ret_ret; leaf).
    assert (B : Returns (xret (EBreak (N := source_ast) span0)) DN) by (apply ret_ret; leaf).
    destruct b as [[pro epi|epi]|]; [| |apply G].
    + destruct (_ =? _); [exact B|]. apply ret_any; intros here. destruct (_ && _); [apply ret_ret; exact dn_empty|apply G].
    + destruct (_ =? _); [exact B|apply G].
  - (* JumpIfFalse *) destruct (a <? 0); [apply ret_fail|]. apply (consume_conditional_jump_dn _ IH).
  - (* Construct *) eapply ret_bind; [apply (consume_n_dn _ IH)|]. intros ps Hp. apply ret_any; intros n. apply ret_ret. leaf.
  - (* InvokeStatic *) apply ret_any; intros def. apply ret_any; intros fn. apply ret_any; intros name.
    eapply ret_bind; [apply (consume_params_dn _ IH)|]. intros ps Hp.
    destruct ctx as [o|]; [apply ret_ret; leaf|].
    destruct (get_flag _ _).
    + destruct (_ =? _).
      * destruct (starts_cast name); [destruct (fu_return_type fn); [apply ret_any; intros ty|apply ret_fail]|]; apply ret_ret; leaf.
      * apply ret_any; intros cn. apply ret_ret. leaf. apply ID.
    + apply ret_ret. destruct (_ && _); leaf; leaf.
  - (* InvokeVirtual *) apply ret_any; intros name. eapply ret_bind; [apply (consume_params_dn _ IH)|]. intros ps Hp. apply ret_ret. leaf.
  - (* Return *) apply ret_any; intros i.
    assert (K : Returns (get e <- consume (consume_with p this_def fuel); xret (EReturn (N := source_ast) (Some e) span0)) DN).
    { eapply ret_bind; [apply (consume_dn _ IH)|]. intros e He. apply ret_ret. leaf. }
    destruct i as [i|]; [|exact K]. destruct i; try exact K. apply ret_any; intros _. apply ret_ret. leaf.
  - (* Context *) eapply ret_bind; [apply (consume_dn _ IH)|]. intros e He. apply IH. intros x E. injection E as <-. exact He.
  - (* New *) apply ret_any; intros n. apply ret_ret. leaf. contradiction.
  - (* Delete *) eapply ret_bind; [apply (consume_n_dn _ IH)|]. intros ps Hp. apply ret_ret. leaf.
Qed.

Lemma decompile_dn fuel code body : decompile p this_def fuel code = Done body -> DNS body.
Proof.
  unfold decompile. intros E. destruct (consume_path _ _ _ _ _) as [[b c]|e] eqn:C; [|discriminate]. injection E as <-.
  eapply consume_path_dn; [|exact C]. intros ctx b0 H. apply consume_with_dn. exact H.
Qed.
End Facts.
