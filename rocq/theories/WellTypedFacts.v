(** What the type checker does to the pool, the scope and the diagnostics, and
    what it checks. *)
From Coq Require Import String.
From Coq Require Import ZArith List Bool Lia.
From Verif Require Import Bytes BytesFacts Bytecode Definitions Bundle BundleFacts Ast TypeNames Pool Scope TypeCheck PoolSpec PoolFacts
  TypeIndexSpec TypeIndexFacts TypingSpec TypingFacts OverloadSpec OverloadFacts PartsSpec BodySpec GrowFacts WellTypedSpec.
From Verif Require WrapSteps.
Import ListNotations.
Open Scope Z_scope.

(** * Steps of the checker *)

Definition near (s s' : scope) : Prop :=
  scope_grows s s' /\ sc_this s' = sc_this s /\ sc_function s' = sc_function s.
Lemma near_refl s : near s s.
Proof. split; [apply scope_grows_refl|auto]. Qed.
Lemma near_trans a b c : near a b -> near b c -> near a c.
Proof. intros (A1 & A2 & A3) (B1 & B2 & B3). split; [eapply scope_grows_trans; eassumption|split; congruence]. Qed.

Definition sound_state (st : tstate) : Prop := pool_ok (ts_pool st) /\ types_named (ts_scope st) (ts_pool st).
Record progress (st st' : tstate) : Prop := {
  pr_extends : extends (ts_pool st) (ts_pool st');
  pr_adds : WrapSteps.adds (ts_pool st) (ts_pool st');
  pr_classes : forall c k, get_class (ts_pool st') c = Done k -> get_class (ts_pool st) c = Done k;
  pr_scope : near (ts_scope st) (ts_scope st');
  pr_diags : prefix (ts_diags st) (ts_diags st');
  pr_sound : small (ts_pool st') -> sound_state st -> sound_state st' }.
Lemma progress_refl st : progress st st.
Proof. split; auto using extends_refl, WrapSteps.adds_refl, near_refl, prefix_refl. Qed.
Lemma progress_trans a b c : progress a b -> progress b c -> progress a c.
Proof.
  intros [A1 AA A2 A3 A4 A5] [B1 BB B2 B3 B4 B5]. split; eauto using extends_trans, WrapSteps.adds_trans, near_trans, prefix_trans.
  intros Sm F. apply B5; [exact Sm|]. apply A5; [|exact F]. eapply extends_small; eassumption.
Qed.

Definition moves {A} (m : M A) : Prop := forall st a st', m st = Done (a, st') -> progress st st'.
Lemma bind_done {A B} (m : M A) (k : A -> M B) st b st2 : mbind m k st = Done (b, st2) ->
  exists a st1, m st = Done (a, st1) /\ k a st1 = Done (b, st2).
Proof. unfold mbind. destruct (m st) as [[a st1]|]; [|discriminate]. eauto. Qed.
Lemma reading_done {A} (f : scope -> pool -> outcome error A) st a st' : reading f st = Done (a, st') ->
  f (ts_scope st) (ts_pool st) = Done a /\ st' = st.
Proof. unfold reading. destruct (f _ _); [|discriminate]. intros [= <- <-]. auto. Qed.
Lemma moves_bind {A B} (m : M A) (k : A -> M B) : moves m -> (forall a, moves (k a)) -> moves (mbind m k).
Proof. intros H K st b st2 E. apply bind_done in E as (a & st1 & E1 & E2). eapply progress_trans; [eapply H, E1|eapply K, E2]. Qed.
Lemma moves_ret {A} (a : A) : moves (mret a).
Proof. intros st x st' [= <- <-]. apply progress_refl. Qed.
Lemma moves_read {A} (f : scope -> pool -> outcome error A) : moves (reading f).
Proof. intros st a st' E. apply reading_done in E as (_ & ->). apply progress_refl. Qed.
Lemma moves_fail {A} e : moves (@mfail A e).
Proof. intros st a st' E. discriminate E. Qed.
Lemma moves_failc {A} sp e : moves (@mfailc A sp e).
Proof. intros st a st' E. unfold mfailc, failc, with_span, map_err in E. discriminate E. Qed.
Lemma moves_push d : moves (push_diag d).
Proof.
  intros st a st' [= <- <-]. split; cbn; auto using extends_refl, WrapSteps.adds_refl, near_refl. now exists [d].
Qed.
Lemma moves_report e : moves (report e).
Proof. unfold report. destruct (diag_from_error e); [apply moves_push|apply moves_fail]. Qed.
Lemma moves_scoped {A} (m : M A) : moves m -> moves (scoped m).
Proof.
  intros H st a st'. unfold scoped. destruct (m st) as [[x st1]|] eqn:E; [|discriminate]. intros [= <- <-].
  destruct (H _ _ _ E) as [P1 PA P2 P3 P4 P5]. split; cbn [set_scope ts_pool ts_scope ts_diags]; auto using near_refl.
  intros Sm F. destruct (P5 Sm F) as [F1 _]. split; cbn [set_scope ts_pool ts_scope]; [exact F1|].
  eapply types_named_extends; [exact P1|apply F].
Qed.
Lemma moves_map {A B} (f : A -> M B) l : (forall x, moves (f x)) -> moves (mmap f l).
Proof.
  intros H. induction l as [|x l IH]; cbn [mmap]; [apply moves_ret|].
  apply moves_bind; [apply H|intros y]. apply moves_bind; [exact IH|intros ys]. apply moves_ret.
Qed.
Lemma moves_opt {A B} (f : A -> M B) o : (forall x, moves (f x)) -> moves (mopt f o).
Proof. intros H. destruct o; cbn [mopt]; [|apply moves_ret]. apply moves_bind; [apply H|intros y; apply moves_ret]. Qed.

Lemma nth_app_last l d c : nth_def (l ++ [d]) c = if c =? Z.of_nat (length l) then Some d else nth_def l c.
Proof.
  unfold nth_def. destruct (Z.ltb_spec c 0).
  - destruct (Z.eqb_spec c (Z.of_nat (length l))); [lia|reflexivity].
  - destruct (Z.eqb_spec c (Z.of_nat (length l))) as [->|N].
    + rewrite nth_error_app2 by lia. replace (Z.to_nat _ - length l)%nat with 0%nat by lia. reflexivity.
    + destruct (Nat.ltb_spec (Z.to_nat c) (length l)).
      * now rewrite nth_error_app1.
      * rewrite nth_error_app2 by lia. transitivity (@None definition); [|symmetry; apply nth_error_None; lia].
        apply nth_error_None. cbn. lia.
Qed.
Definition no_class (d : definition) : Prop := match df_value d with DClass _ => False | _ => True end.
Lemma add_no_class p d p' i : add_definition p d = (p', i) -> no_class d ->
  forall c k, get_class p' c = Done k -> get_class p c = Done k.
Proof.
  intros E N c k. unfold add_definition in E. injection E as <- _. unfold get_class, def_by. cbn [set_defs pl_defs].
  rewrite nth_app_last. destruct (c =? _); [|exact (fun H => H)].
  unfold no_class in N. destruct (df_value d); try contradiction; discriminate.
Qed.
Lemma add_name_defs p n p' i : add_name p n = (p', i) -> pl_defs p' = pl_defs p.
Proof. unfold add_name. destruct (st_add _ _ _). intros [= <- _]. reflexivity. Qed.
Lemma add_name_class p n p' i : add_name p n = (p', i) -> forall c k, get_class p' c = Done k -> get_class p c = Done k.
Proof. intros E c k. unfold get_class, def_by. rewrite (add_name_defs _ _ _ _ E). exact (fun H => H). Qed.
Lemma request_class t : forall s p i s' p', get_type_index t s p = Done (i, s', p') ->
  forall c k, get_class p' c = Done k -> get_class p c = Done k.
Proof.
  induction t; intros s p j s' p' H;
    apply gti_cases in H as (name & En & [(_ & _ & ->)|(_ & p1 & ni & s1 & p2 & v & Ea & Ed & _ & C)]);
    try (exact (fun c k E => E)); try contradiction;
    intros c k E; apply (add_name_class _ _ _ _ Ea); apply (add_no_class _ _ _ _ Ed I) in E;
    try (destruct C as (_ & -> & _); exact E).
  all: destruct C as (q & C & _); eapply IHt; [exact C|exact E].
Qed.
Lemma request_function t s p i s' p' : get_type_index t s p = Done (i, s', p') -> sc_function s' = sc_function s.
Proof. intros H. apply request_scope in H. rewrite H. reflexivity. Qed.

Lemma add_local_done n t sp st l st' : add_local n t sp st = Done (l, st') ->
  progress st st' /\ (small (ts_pool st') -> sound_state st -> local_of (ts_pool st') l t).
Proof.
  unfold add_local. destruct (add_name (ts_pool st) _) as [p1 ni] eqn:E1.
  destruct (get_type_index t (ts_scope st) p1) as [[[ti s'] p2]|] eqn:E2; [|discriminate]. cbn [with_span map_err obind].
  destruct (sc_function (ts_scope st)) as [fn|]; [|discriminate].
  destruct (add_definition p2 _) as [p3 li] eqn:E3. intros [= <- <-].
  pose proof (add_name_extends _ _ _ _ E1) as X1. pose proof (inner_extends _ _ _ _ _ _ E2) as X2.
  pose proof (extends_add_definition _ _ _ _ E3) as X3.
  assert (N : near (ts_scope st) (sc_add_local s' n li)).
  { split; [exact (gti_scope _ _ _ _ _ _ E2)|]. split; [exact (gti_this _ _ _ _ _ _ E2)|exact (request_function _ _ _ _ _ _ E2)]. }
  assert (S0 : small p3 -> sound_state st -> pool_ok p3 /\ types_named s' p3 /\ local_of p3 li t).
  { intros Sm [F1 F2]. pose proof (extends_small _ _ X3 Sm) as S2. pose proof (extends_small _ _ X2 S2) as S1.
    destruct (add_name_spec _ _ _ _ E1 F1 S1) as (Q & _).
    destruct (request_names _ _ _ _ _ _ E2 Q S2 (types_named_extends _ _ _ X1 F2)) as (P2 & T2 & _ & nm & R & D & _).
    destruct (add_definition_spec _ _ _ _ E3 Sm) as (_ & _ & L & _ & _ & P3). split; [exact (P3 P2)|]. split; [eapply types_named_extends; eassumption|].
    eexists _, nm. split; [unfold get_local, def_by; rewrite L; reflexivity|]. cbn [lo_type]. split; [eapply extends_def_name; eassumption|].
    eapply extends_repr; [|exact R]. eapply extends_trans; eassumption. }
  split; [split; cbn [ts_pool ts_scope ts_diags]|cbn [ts_pool]; intros Sm F; apply (S0 Sm F)].
  - eauto using extends_trans.
  - eapply WrapSteps.adds_trans; [exact (WrapSteps.adds_name _ _ _ _ E1)|]. eapply WrapSteps.adds_trans; [exact (WrapSteps.adds_gti _ _ _ _ _ _ E2)|].
    apply (WrapSteps.adds_def _ _ _ _ E3). exact I.
  - intros c k E. eapply add_name_class; [exact E1|]. eapply request_class; [exact E2|]. eapply add_no_class; [exact E3|exact I|exact E].
  - exact N.
  - apply prefix_refl.
  - intros Sm F. destruct (S0 Sm F) as (A & B & _). split; cbn [ts_pool ts_scope]; assumption.
Qed.
Lemma moves_local n t sp : moves (add_local n t sp).
Proof. intros st l st' E. apply (add_local_done _ _ _ _ _ _ E). Qed.

Ltac moves Hrec := repeat match goal with
  | |- moves (mret _) => apply moves_ret
  | |- moves (reading _) => apply moves_read
  | |- moves (mfail _) => apply moves_fail
  | |- moves (mfailc _ _) => apply moves_failc
  | |- moves (push_diag _) => apply moves_push
  | |- moves (report _) => apply moves_report
  | |- moves (add_local _ _ _) => apply moves_local
  | |- moves (scoped _) => apply moves_scoped
  | |- moves (mmap _ _) => apply moves_map; intros ?
  | |- moves (mopt _ _) => apply moves_opt; intros ?
  | |- moves (mbind _ _) => apply moves_bind; [|intros ?]
  | |- moves (match ?x with _ => _ end) => destruct x
  | |- _ => simple apply Hrec
  end.

Section Moves.
Variable rec : checker.
Hypothesis Hrec : forall e w, moves (rec e w).
Lemma moves_convert e t : moves (check_and_convert rec e t).
Proof. unfold check_and_convert. moves Hrec. Qed.
Lemma moves_seq es : moves (check_seq rec es).
Proof. unfold check_seq. moves Hrec. Qed.
Lemma moves_zip args : forall types, moves (check_zip rec args types).
Proof. induction args as [|a args IH]; intros [|t types]; cbn [check_zip]; moves Hrec. apply IH. Qed.
Lemma moves_fields sp args : forall fields, moves (check_fields rec sp args fields).
Proof. induction args as [|a args IH]; intros [|t types]; cbn [check_fields]; moves Hrec; [apply moves_convert|apply IH]. Qed.
Lemma moves_pick name args w sp el errs : moves (pick_overload rec name args w sp el errs).
Proof.
  unfold pick_overload. destruct el as [|[f ts] [|]]; moves Hrec; [apply moves_zip|].
  intros st r st' E. destruct (validate_args _ _ _ _ _ _ _) as [|[|]]; injection E as _ <-; apply progress_refl.
Qed.
Lemma moves_overload pm name ov args w sp : moves (resolve_overload pm rec name ov args w sp).
Proof. unfold resolve_overload. moves Hrec. apply moves_pick. Qed.
Lemma moves_related (a b : typeid) sp : moves (fun ts => match lub (ts_pool ts) a b with
   | Fail (CauseUnwind u) => Fail (ErrUnwind u)
   | Fail _ => push_diag (Deprecated UnrelatedTypeEquals sp) ts
   | Done _ => mret tt ts
   end).
Proof.
  intros st r st' E. destruct (lub _ _ _) as [|c]; [revert E; apply moves_ret|].
  destruct c; try (revert E; apply moves_push); discriminate.
Qed.
Lemma moves_intrinsic i args w sp : moves (check_intrinsic rec i args w sp).
Proof.
  unfold check_intrinsic. destruct (negb _); [apply moves_failc|].
  apply moves_bind; [apply Hrec|intros first]. apply moves_bind; [apply moves_read|intros ft].
  apply moves_bind; [|intros [t checked]; apply moves_ret].
  destruct i, ft; moves Hrec; try apply moves_convert; try apply moves_related.
Qed.
End Moves.

Lemma moves_step pm rec : (forall e w, moves (rec e w)) -> forall e w, moves (check_step pm rec e w).
Proof.
  intros Hrec e w. destruct e; cbn [check_step]; try (moves Hrec; fail).
  - intros st res st'. destruct (resolve_reference _ _); [intros [= _ <-]; apply progress_refl|].
    destruct pm; [|discriminate]. apply (moves_bind _ _ (moves_report _)). intros _. apply moves_ret.
  - destruct es; moves Hrec; apply moves_convert, Hrec.
  - moves Hrec; apply moves_convert, Hrec.
  - moves Hrec; apply moves_convert, Hrec.
  - moves Hrec; [apply moves_intrinsic, Hrec|apply moves_overload, Hrec].
  - moves Hrec; apply moves_overload, Hrec.
  - moves Hrec; apply moves_convert, Hrec.
  - moves Hrec; apply moves_fields, Hrec.
  - moves Hrec; try apply moves_convert, Hrec.
    intros st res st'. destruct (sc_function _); [|discriminate]. apply moves_read.
  - moves Hrec; apply moves_seq, Hrec.
  - moves Hrec; try apply moves_seq, Hrec.
    intros st res st'. destruct (type_of _ _ _) as [|e']; [intros [= _ <-]; apply progress_refl|].
    destruct e'; try discriminate; intros [= _ <-]; apply progress_refl.
  - moves Hrec; try apply moves_seq, Hrec; apply moves_convert, Hrec.
  - moves Hrec; apply moves_convert, Hrec.
  - moves Hrec; try apply moves_seq, Hrec; apply moves_convert, Hrec.
  - moves Hrec; apply moves_seq, Hrec.
  - moves Hrec; apply moves_overload, Hrec.
  - moves Hrec; apply moves_overload, Hrec.
Qed.
Lemma moves_check fuel pm : forall e w, moves (check fuel pm e w).
Proof. induction fuel as [|n IH]; cbn [check]; [intros; apply moves_fail|apply moves_step, IH]. Qed.
