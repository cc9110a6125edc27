(** Property C61. *)
From Coq Require Import String.
From Coq Require Import ZArith List Bool Lia.
From Verif Require Import Bytes Bytecode Definitions Bundle Ast Pool Scope TypeCheck Diagnostics PartsSpec P_Checks.
From Verif Require Import Unit EffectSpec TypeCheck Cursor SourceMap Assembler TempSpec.
Import ListNotations.
Open Scope Z_scope.

Lemma stays_iff e : stays e <-> is_prvalue e = false.
Proof.
  split.
  - intros H. induction H; auto.
  - induction e using expr_ind'; cbn [is_prvalue]; try discriminate; try (intros; constructor; fail).
    + destruct c as [f|op t]; [discriminate|]. destruct op; try discriminate. intros _. constructor.
    + destruct m; try discriminate; intros; constructor; auto.
    + intros; constructor; auto.
Qed.
Lemma taken_iff e x : part_taken e x <-> temp_operand e = Some x.
Proof.
  split.
  - intros H. destruct H as [| |op t ts x args sp H]; try reflexivity. unfold looks in H. destruct H as [->|[->|[->|[->|[->|[->| ->]]]]]]; reflexivity.
  - destruct e as [| | | | | | |fn ts args sp| |x0 member sp| | | | | | | | | | | | | | | |]; try discriminate; cbn [temp_operand].
    + destruct fn as [|op t]; [discriminate|]. destruct args as [|a args]; [destruct op; discriminate|].
      destruct op; try discriminate; intros [= <-]; constructor; unfold looks; tauto.
    + destruct member; try discriminate. intros [= <-]. constructor.
    + intros [= <-]. constructor.
Qed.

(** A temporary is reported exactly where a part of it is taken. *)
Theorem C61_temporaries_exact body sp :
  In (InvalidUseOfTemporary sp) (invalid_temp_use body) <->
  exists e x, occurs e body /\ part_taken e x /\ ~ stays x /\ sp = expr_span x.
Proof.
  unfold invalid_temp_use. rewrite in_flat_map. split.
  - intros (e & A & B). unfold temp_use_here in B. destruct (temp_operand e) as [x|] eqn:E; [|destruct B].
    destruct (is_prvalue x) eqn:P; [|destruct B]. destruct B as [[= <-]|[]]. exists e, x.
    split; [now apply occurs_visited|]. split; [now apply taken_iff|]. split; [|reflexivity]. rewrite stays_iff. congruence.
  - intros (e & x & A & B & C & ->). exists e. split; [now apply occurs_visited|]. apply taken_iff in B. unfold temp_use_here. rewrite B.
    rewrite stays_iff in C. destruct (is_prvalue x); [now left|easy].
Qed.
Print Assumptions C61_temporaries_exact.
Theorem C61_only_temporaries body d : In d (invalid_temp_use body) -> exists sp, d = InvalidUseOfTemporary sp.
Proof.
  unfold invalid_temp_use. rewrite in_flat_map. intros (e & _ & B). unfold temp_use_here in B.
  destruct (temp_operand e) as [x|]; [|destruct B]. destruct (is_prvalue x); [|destruct B]. destruct B as [<-|[]]. eauto.
Qed.
Print Assumptions C61_only_temporaries.

Lemma removelast_in {X} (x : X) l : In x (removelast l) <-> exists before after, l = before ++ x :: after /\ after <> [].
Proof.
  split.
  - induction l as [|y l IH]; [easy|]. cbn [removelast]. destruct l as [|z l]; [easy|]. intros [->|I].
    + exists [], (z :: l). split; [reflexivity|discriminate].
    + destruct (IH I) as (b & a & E & N). exists (y :: b), a. split; [cbn; congruence|exact N].
  - intros (b & a & -> & N). rewrite removelast_app by discriminate. apply in_app_iff. right. cbn [removelast]. destruct a; [easy|now left].
Qed.
Lemma ends_case_iff b : ends_case b = false <-> exists stmts last, b = stmts ++ [last] /\ ~ leaves last.
Proof.
  unfold ends_case. split.
  - destruct (rev b) as [|x r] eqn:E; [discriminate|]. intros H. exists (rev r), x. split.
    + rewrite <- (rev_involutive b), E. reflexivity.
    + intros [(sp & ->)|(y & sp & ->)]; discriminate.
  - intros (s & l & -> & N). rewrite rev_app_distr. cbn [rev app]. destruct l; auto; exfalso; apply N; [right|left]; eauto.
Qed.
(** A case is reported exactly if the switch falls through it. *)
Theorem C61_fallthrough_exact body sp :
  In (StatementFallthrough sp) (stmt_fallthrough body) <->
  exists x cases default ssp m, occurs (ESwitch (N := typed_ast) x cases default ssp) body /\ falls_through cases m /\ sp = expr_span m.
Proof.
  unfold stmt_fallthrough. rewrite in_flat_map. split.
  - intros (e & A & B). apply occurs_visited in A. destruct e; try (now destruct B). cbn [fallthrough_here] in B.
    apply in_map_iff in B. destruct B as ([m b] & [= <-] & F). apply filter_In in F. destruct F as [F G]. cbn [fst snd] in *.
    apply removelast_in in F. destruct F as (be & af & E & N). apply negb_true_iff, ends_case_iff in G. destruct G as (s & l & -> & L).
    do 5 eexists. split; [exact A|]. split; [|reflexivity]. exists be, s, l, af. auto.
  - intros (x & cs & d & ssp & m & A & (be & s & l & af & -> & N & L) & ->). eexists. split; [apply occurs_visited; exact A|].
    cbn [fallthrough_here]. apply in_map_iff. exists (m, s ++ [l]). split; [reflexivity|]. apply filter_In. split.
    + apply removelast_in. exists be, af. auto.
    + apply negb_true_iff, ends_case_iff. exists s, l. auto.
Qed.
Print Assumptions C61_fallthrough_exact.
Theorem C61_only_fallthrough body d : In d (stmt_fallthrough body) -> exists sp, d = StatementFallthrough sp.
Proof.
  unfold stmt_fallthrough. rewrite in_flat_map. intros (e & _ & B). destruct e; try (now destruct B).
  apply in_map_iff in B. destruct B as (c & <- & _). eauto.
Qed.
Print Assumptions C61_only_fallthrough.

(** ** The code *)
Inductive closed : code label -> Prop :=
| cl_nil : closed []
| cl_cons i c : (takes_part i -> operand_stays c) -> closed c -> closed (i :: c).
Lemma operand_app c d : operand_stays c -> operand_stays (c ++ d).
Proof.
  induction 1; cbn [app]; auto using operand_stays.
  replace ((object ++ ObjectField f :: Target l :: rest) ++ d) with (object ++ ObjectField f :: Target l :: rest ++ d)
    by now rewrite <- app_assoc.
  apply os_object_field.
Qed.
Lemma closed_app c d : closed c -> closed d -> closed (c ++ d).
Proof. induction 1 as [|i c H C IH]; intros D; [exact D|]. cbn [app]. constructor; [|auto]. intros T. apply operand_app. auto. Qed.
Lemma closed_all c : closed c -> no_part_of_temporary c.
Proof.
  intros H. induction H as [|j c H C IH]; intros pre i post E T; [now destruct pre|]. destruct pre as [|k pre].
  - cbn in E. injection E as -> ->. auto.
  - cbn in E. injection E as -> ->. now apply (IH pre i).
Qed.

Definition emits {X} (Q : code label -> Prop) (m : A X) : Prop := forall t x c t', m t = Done (x, c, t') -> Q c.
Lemma emits_bind {X Y} (P Q R : code label -> Prop) (m : A X) (k : X -> A Y) :
  emits P m -> (forall x, emits Q (k x)) -> (forall c d, P c -> Q d -> R (c ++ d)) -> emits R (abind m k).
Proof.
  intros M K H t y c t' E. unfold abind in E. destruct (m t) as [[[x c1] t1]|] eqn:E1; [|discriminate].
  destruct (k x t1) as [[[y' c2] t2]|] eqn:E2; [|discriminate]. injection E as <- <- <-. apply H; [exact (M _ _ _ _ E1)|exact (K _ _ _ _ _ E2)].
Qed.
Lemma closed_bind {X Y} (m : A X) (k : X -> A Y) : emits closed m -> (forall x, emits closed (k x)) -> emits closed (abind m k).
Proof. intros M K. eapply emits_bind; [exact M|exact K|]. intros; now apply closed_app. Qed.
Definition silent {X} (m : A X) : Prop := emits (fun c => c = []) m.
Lemma silent_bind {X Y} Q (m : A X) (k : X -> A Y) : silent m -> (forall x, emits Q (k x)) -> emits Q (abind m k).
Proof. intros M K. eapply emits_bind; [exact M|exact K|]. intros c d -> H. exact H. Qed.
Lemma silent_closed {X} (m : A X) : silent m -> emits closed m.
Proof. intros M t x c t' E. rewrite (M _ _ _ _ E). constructor. Qed.
Lemma silent_ret {X} (x : X) : silent (aret x).
Proof. intros t y c t' [= <- <- <-]. reflexivity. Qed.
Lemma silent_read {X} (f : scope -> pool -> outcome error X) : silent (aread f).
Proof. intros t y c t' E. unfold aread in E. destruct (f _ _); [|discriminate]. now injection E as <- <- <-. Qed.
Lemma silent_fail {X} e : silent (X := X) (afail e).
Proof. intros t y c t' E. discriminate. Qed.
Lemma silent_failc {X} sp e : silent (X := X) (afailc sp e).
Proof. intros t y c t' E. discriminate. Qed.
Lemma silent_label : silent new_label.
Proof. intros t y c t' [= <- <- <-]. reflexivity. Qed.
Lemma silent_type sp ty : silent (type_index sp ty).
Proof. intros t y c t' E. unfold type_index in E. destruct (with_span sp _) as [[[i s] p]|]; [|discriminate]. now injection E as <- <- <-. Qed.
Lemma silent_literal k s : silent (literal_index k s).
Proof. intros t y c t' E. unfold literal_index in E. destruct (add_literal k s _) as [p i]. now injection E as <- <- <-. Qed.
Lemma silent_arg args : silent (arg_type args).
Proof. destruct args; [apply silent_fail|apply silent_read]. Qed.
Lemma emits_fail {X} Q e : emits (X := X) Q (afail e).
Proof. intros t y c t' E. discriminate. Qed.
Lemma emits_failc {X} Q sp e : emits (X := X) Q (afailc sp e).
Proof. intros t y c t' E. discriminate. Qed.
Lemma emits_emit (Q : code label -> Prop) i : Q [i] -> emits Q (emit i).
Proof. intros H t y c t' [= <- <- <-]. exact H. Qed.
Lemma closed_emit i : ~ takes_part i -> emits closed (emit i).
Proof. intros N. apply emits_emit. constructor; [easy|constructor]. Qed.
Lemma closed_each {X} (f : X -> A unit) l : (forall x, In x l -> emits closed (f x)) -> emits closed (each f l).
Proof.
  induction l as [|x l IH]; intros H; [apply silent_closed, silent_ret|]. cbn [each].
  apply closed_bind; [apply H; now left|]. intros _. apply IH. intros y I. apply H. now right.
Qed.
#[local] Hint Resolve silent_ret silent_read silent_fail silent_failc silent_label silent_type silent_literal silent_arg emits_fail emits_failc : sil.
Ltac go :=
  repeat match goal with
  | |- forall _, _ => intros
  | |- emits _ (abind _ _) => first [apply silent_bind; [solve [auto with sil]|]|apply closed_bind]
  | |- emits closed (emit _) => apply closed_emit; solve [cbn; tauto]
  | |- emits _ (afail _) => apply emits_fail
  | |- emits _ (afailc _ _) => apply emits_failc
  | |- emits closed (aret _) => apply silent_closed, silent_ret
  | |- emits closed (if ?b then _ else _) => destruct b
  end.

(** Nothing in the expression takes a part of a temporary. *)
Definition fine (e : texpr) : Prop := forall x y, within x e -> part_taken x y -> stays y.
Lemma fine_part x e : part x e -> fine e -> fine x.
Proof. intros P F y z W T. eapply F; [eapply wi_part; eassumption|exact T]. Qed.

Lemma constant_stays c : emits operand_stays (emit_constant c).
Proof.
  destruct c as [[] s| | | | | | |[]]; cbn [emit_constant]; go; apply emits_emit; now apply os_constant.
Qed.
Lemma constant_closed c : emits closed (emit_constant c).
Proof. destruct c as [[] s| | | | | | |[]]; cbn [emit_constant]; go. Qed.
Lemma initializer_closed sp l ty : emits closed (emit_initializer sp l ty).
Proof.
  destruct ty; cbn [emit_initializer]; try (go; fail).
  go; destruct (en_members _); go.
Qed.
Lemma args_closed (f : texpr -> A unit) args : (forall a, In a args -> emits closed (f a)) -> forall flags, emits closed (emit_args f args flags).
Proof.
  induction args as [|a args IH]; intros H flags; [destruct flags; cbn [emit_args]; go|].
  destruct flags as [|fl flags]; cbn [emit_args]; [go|].
  assert (K : emits closed (f a)) by (apply H; now left).
  apply closed_bind; [go; assumption|]. intros _. apply IH. intros b I. apply H. now right.
Qed.
Lemma call_closed files (f : texpr -> A unit) fn args st sp : (forall a, In a args -> emits closed (f a)) -> emits closed (emit_call files f fn args st sp).
Proof.
  intros H. unfold emit_call. go; auto using args_closed. apply closed_each. go.
Qed.
Lemma intrinsic_closed op args ret sp : ~ looks op -> emits closed (emit_intrinsic op args ret sp).
Proof.
  intros N. destruct op; cbn [emit_intrinsic]; try (exfalso; apply N; unfold looks; tauto); go.
  - destruct x; go.
  - destruct x; go.
Qed.
Lemma looks_dec op : {looks op} + {~ looks op}.
Proof. destruct op; try (left; unfold looks; tauto); right; unfold looks; intuition discriminate. Qed.

(** An instruction that takes a part, which leaves open what it is of. *)
Definition taker (c : code label) : Prop := exists i, c = [i] /\ takes_part i.
Lemma taken_closed {X} (m0 : A unit) (m : A X) : emits taker m0 -> emits (fun c => closed c /\ operand_stays c) m -> emits closed (gen _ <- m0; m).
Proof.
  intros T M. eapply emits_bind; [exact T|intros _; exact M|]. intros c d (i & -> & H) [A B]. cbn. now constructor.
Qed.
Lemma both {X} P Q (m : A X) : emits P m -> emits Q m -> emits (fun c => P c /\ Q c) m.
Proof. intros A B t x c t' E. split; [exact (A _ _ _ _ E)|exact (B _ _ _ _ E)]. Qed.
Lemma starts_bind {X Y} (m : A X) (k : X -> A Y) : emits operand_stays m -> emits operand_stays (abind m k).
Proof.
  intros M. eapply emits_bind with (Q := fun _ => True); [exact M|intros x t y c t' _; exact I|]. intros c d C _. now apply operand_app.
Qed.
Lemma element_taker sp t : emits taker (match t with
    | TIArray _ => gen k <- type_index sp t; emit (ArrayElement k)
    | TIStaticArray _ _ => gen k <- type_index sp t; emit (StaticArrayElement k)
    | _ => gen n <- aread (fun _ p => pe (ti_pretty p t)); afailc sp (UnsupportedOperation (lit "indexing") n)
    end).
Proof. destruct t; go; apply emits_emit; eexists; (split; [reflexivity|exact I]). Qed.
Lemma element_stays sp t : emits (fun c => exists i, c = [i] /\ forall rest, operand_stays rest -> operand_stays (i :: rest)) (match t with
    | TIArray _ => gen k <- type_index sp t; emit (ArrayElement k)
    | TIStaticArray _ _ => gen k <- type_index sp t; emit (StaticArrayElement k)
    | _ => gen n <- aread (fun _ p => pe (ti_pretty p t)); afailc sp (UnsupportedOperation (lit "indexing") n)
    end).
Proof. destruct t; go; apply emits_emit; eexists; (split; [reflexivity|]); auto using operand_stays. Qed.
Lemma looks_taker op args ret sp : looks op -> emits taker (emit_intrinsic op args ret sp).
Proof.
  intros [->|[->|[->|[->|[->|[->| ->]]]]]]; cbn [emit_intrinsic]; go; apply emits_emit; eexists; (split; [reflexivity|exact I]).
Qed.
Lemma cases_closed (f : texpr -> option nat -> A unit) exit cases :
  (forall m b, In (m, b) cases -> (forall x, emits closed (f m x)) /\ forall e x, In e b -> emits closed (f e x)) ->
  forall body next, emits closed (emit_cases f exit cases body next).
Proof.
  induction cases as [|[m b] cases IH]; intros H body next; cbn [emit_cases]; [go|].
  destruct (H m b (or_introl eq_refl)) as [M B].
  assert (K : forall body next, emits closed (emit_cases f exit cases body next)) by (apply IH; intros; apply H; now right).
  apply silent_bind; [destruct body; auto with sil|]. go; auto; apply closed_each; auto.
Qed.

Lemma asm_closed files e : fine e -> forall exit, emits closed (asm files e exit) /\ (stays e -> emits operand_stays (asm files e exit)).
Proof.
  induction e using expr_ind'; intros F exit.
  all: assert (FP : forall x, part x _ -> fine x) by (intros x P; exact (fine_part x _ P F)).
  all: split; [|intros S; inversion S; subst; clear S].
  all: cbn [asm].
  all: try (go; fail).
  - destruct r as [[]|]; go.
  - destruct r as [[]|]; go; apply emits_emit; auto using operand_stays.
  - apply constant_closed.
  - apply constant_stays.
  - destruct i as [x|].
    + assert (K : emits closed (asm files x None)) by (apply H; apply FP; constructor). destruct t; go; exact K.
    + destruct t; go. apply initializer_closed.
  - destruct t; go. apply IHe. apply FP. constructor.
  - go; [apply IHe1|apply IHe2]; apply FP; constructor.
  - rewrite Forall_forall in H.
    assert (K : forall a, In a args -> emits closed (asm files a None)) by (intros a Ia; apply H; [exact Ia|apply FP; now constructor]).
    destruct c as [f|op t]; [now apply call_closed|]. destruct (looks_dec op) as [L|L].
    + destruct args as [|a args].
      * intros s x c s' E. unfold looks in L. destruct L as [->|[->|[->|[->|[->|[->| ->]]]]]]; discriminate E.
      * apply taken_closed; [now apply looks_taker|]. assert (SA : stays a) by (eapply F; [apply wi_here|now constructor]).
        apply both; [apply closed_each; exact K|]. cbn [each]. apply starts_bind. apply H; [now left|apply FP; constructor; now left|exact SA].
    + apply closed_bind; [now apply intrinsic_closed|]. intros _. now apply closed_each.
  - apply starts_bind. cbn [emit_intrinsic]. go. apply emits_emit. apply os_dereferenced.
  - rewrite Forall_forall in H.
    assert (K : forall a, In a args -> emits closed (asm files a None)) by (intros a Ia; apply H; [exact Ia|apply FP; now constructor]).
    assert (R : emits closed (asm files e None)) by (apply IHe; apply FP; constructor).
    apply silent_bind; [auto with sil|]. intros fn.
    assert (G : forall isp, emits closed (if get_flag fn_is_static (fu_flags fn) then emit_call files (fun e0 => asm files e0 None) f args true isp
       else gen n <- aread (fun _ p => pe (def_name p f)); afailc isp (InvalidNonStaticMethodCall n))) by (intros isp; go; now apply call_closed).
    assert (O : forall st, emits closed (if get_flag fn_is_static (fu_flags fn)
        then gen n <- aread (fun _ p => pe (def_name p f)); afailc sp (InvalidStaticMethodCall n)
        else gen out <- new_label; gen _ <- emit (Context out); gen _ <- asm files e None;
             gen _ <- emit_call files (fun e0 => asm files e0 None) f args st sp; emit (Target out)))
      by (intros st; go; [exact R|now apply call_closed]).
    clear - G O. destruct e as [r isp| | | | | | | | | | | | | | | | | | | | | | | | |]; try apply O.
    destruct r as [|y]; [apply O|]. destruct y; solve [apply O|apply G].
  - assert (R : emits closed (asm files e None)) by (apply IHe; apply FP; constructor). destruct m; [go; exact R| |go].
    apply taken_closed; [apply emits_emit; eexists; split; [reflexivity|exact I]|]. apply both; [exact R|].
    apply IHe; [apply FP; constructor|]. eapply F; [apply wi_here|constructor].
  - apply silent_bind; [auto with sil|]. intros out.
    eapply emits_bind with (P := fun c => c = [Context out]) (Q := fun c => exists o, c = o ++ [ObjectField f; Target out]).
    + now apply emits_emit.
    + intros _. eapply emits_bind with (P := fun _ => True) (Q := fun c => c = [ObjectField f; Target out]).
      * intros s x c s' _. exact I.
      * intros _. eapply emits_bind with (P := fun c => c = [ObjectField f]) (Q := fun c => c = [Target out]); [now apply emits_emit|intros _; now apply emits_emit|].
        intros c d -> ->. reflexivity.
      * intros c d _ ->. eauto.
    + intros c d -> (o & ->). cbn [app]. apply os_object_field.
  - eapply emits_bind with (P := fun c => c = [Bytecode.StructField f]); [now apply emits_emit| |].
    + intros _. apply IHe; [apply FP; constructor|eassumption].
    + intros c d -> D. now apply os_struct_field.
  - apply silent_bind; [auto with sil|]. intros t. apply taken_closed; [apply element_taker|].
    assert (S : stays e1) by (eapply F; [apply wi_here|constructor]).
    destruct (IHe1 (FP _ (pt_array _ _ _)) None) as [C1 S1]. destruct (IHe2 (FP _ (pt_index _ _ _)) None) as [C2 _].
    apply both; [go; assumption|]. apply starts_bind. auto.
  - apply silent_bind; [auto with sil|]. intros t. eapply emits_bind; [apply element_stays| |].
    + intros _. apply starts_bind. apply IHe1; [apply FP; constructor|eassumption].
    + intros c d (i & -> & G) D. now apply G.
  - rewrite Forall_forall in H.
    assert (K : forall a, In a args -> emits closed (asm files a None)) by (intros a Ia; apply H; [exact Ia|apply FP; now constructor]).
    destruct t; go. now apply closed_each.
  - destruct e as [x|]; go. apply H. apply FP. constructor.
  - rewrite Forall_forall in H. apply closed_each. intros x I. apply H; [exact I|apply FP; now constructor].
  - rewrite Forall_forall in H. go.
    + apply IHe. apply FP. constructor.
    + apply cases_closed. intros m b I. destruct (H _ I) as [HM HB]. cbn [fst snd] in *. rewrite Forall_forall in HB. split.
      * intros x'. apply HM. apply FP. econstructor. exact I.
      * intros y x' Iy. apply HB; [exact Iy|]. apply FP. eapply pt_case_body; eassumption.
    + destruct d as [b|]; go. pose proof (proj1 (Forall_forall _ b) H0) as H0'. clear H0; rename H0' into H0. apply closed_each. intros y I. apply H0; [exact I|]. apply FP. now constructor.
  - rewrite Forall_forall in H. go.
    + apply IHe. apply FP. constructor.
    + apply closed_each. intros y I. apply H; [exact I|]. apply FP. now constructor.
    + destruct f as [b|]; go. pose proof (proj1 (Forall_forall _ b) H0) as H0'. clear H0; rename H0' into H0. apply closed_each. intros y I. apply H0; [exact I|]. apply FP. now constructor.
  - go; [apply IHe1|apply IHe2|apply IHe3]; apply FP; constructor.
  - rewrite Forall_forall in H. go.
    + apply IHe. apply FP. constructor.
    + apply closed_each. intros y I. apply H; [exact I|]. apply FP. now constructor.
  - apply emits_emit. apply os_this.
  - apply emits_emit. apply os_this.
  - destruct exit; go.
Qed.

(** The code of a body in which no temporary is reported takes parts only of what
    stays.  The code is that before the labels are replaced by offsets, which neither
    adds nor removes nor exchanges instructions (C14). *)
Theorem C61_code_takes_parts_of_what_stays files body s p out s' p' :
  invalid_temp_use body = [] -> from_body files body s p = Done (out, s', p') ->
  exists n c, into_code n c = Some out /\ no_part_of_temporary c.
Proof.
  intros I E. unfold from_body in E. destruct (asm_body files body _) as [[[x c] t]|] eqn:A; [|discriminate].
  destruct (into_code (as_labels t) c) as [o|] eqn:O; [|discriminate]. injection E as -> <- <-. exists (as_labels t), c. split; [exact O|].
  apply closed_all. assert (K : emits closed (asm_body files body)); [|exact (K _ _ _ _ A)]. unfold asm_body. apply closed_bind; [|intros _; apply closed_emit; cbn; tauto].
  apply closed_each. intros e Ie. apply asm_closed. intros y z W T. apply stays_iff. destruct (is_prvalue z) eqn:P; [|reflexivity]. exfalso.
  assert (J : In (InvalidUseOfTemporary (expr_span z)) (invalid_temp_use body)); [|rewrite I in J; destruct J].
  apply C61_temporaries_exact. exists y, z. split; [exists e; auto|]. split; [exact T|]. split; [rewrite stays_iff; congruence|reflexivity].
Qed.
Print Assumptions C61_code_takes_parts_of_what_stays.

(** So it is with every function with a body that takes effect in an accepted
    program (C51). *)
Theorem C61_accepted_code ev count syms q f c src x body : body_is ev count syms q f c src x -> fs_body src = Some body ->
  exists n labelled, into_code n labelled = Some (fu_code x) /\ no_part_of_temporary labelled.
Proof.
  unfold body_is. intros B E. rewrite E in B. destruct B as (p1 & s1 & checked & t & simple & made & s2 & p2 & p3 & s3 & p4 & _ & _ & _ & _ & _ & _ & _ & I & A & _).
  exact (C61_code_takes_parts_of_what_stays _ _ _ _ _ _ _ I A).
Qed.
Print Assumptions C61_accepted_code.

(** A body that is accepted, [v.items[0].x; this.f.x], and what is reported for
    [g().x; ArraySize(g()); switch v { case 1: g(); case 2: g(); default: }]. *)
Definition te_v : texpr := EIdent (N := typed_ast) (RValue (VLocal 7)) span0.
Definition te_g (sp : span) : texpr := ECall (N := typed_ast) (CFunction 9) [] [] sp.
Definition te_one : texpr := EConstant (N := typed_ast) (CI32 1) (Span 40 41).
Definition te_body : list texpr :=
  [EMember (N := typed_ast) (EMember (N := typed_ast) te_v (StructField 3) span0) (StructField 4) span0;
   EMember (N := typed_ast) (EMember (N := typed_ast) (EThis span0) (ClassField 5) span0) (StructField 4) span0].
Definition te_bad : list texpr :=
  [EMember (N := typed_ast) (te_g (Span 1 2)) (StructField 3) span0;
   ECall (N := typed_ast) (CIntrinsic IArraySize TIVoid) [] [te_g (Span 3 4)] span0;
   ESwitch (N := typed_ast) te_v [(te_one, [te_g span0]); (te_one, [te_g span0])] (Some []) span0].
Example C61_nonvacuous :
  invalid_temp_use te_body = [] /\
  (forall s p, exists c t, asm_body [] te_body {| as_labels := 0; as_scope := s; as_pool := p |} = Done (tt, c, t) /\
     c = [Bytecode.StructField 4; Bytecode.StructField 3; Local 7; Bytecode.StructField 4; Context 0%nat; This; ObjectField 5; Target 0%nat; Nop]) /\
  invalid_temp_use te_bad = [InvalidUseOfTemporary (Span 1 2); InvalidUseOfTemporary (Span 3 4)] /\
  stmt_fallthrough te_bad = [StatementFallthrough (Span 40 41)].
Proof. repeat split. intros s p. eexists _, _. split; reflexivity. Qed.
