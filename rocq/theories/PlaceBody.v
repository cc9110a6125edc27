(** Where errors of desugaring and of the assembler, and the complaints of the checks
    over bodies, are reported. *)
From Coq Require Import String.
From Coq Require Import ZArith List Bool Lia.
From Verif Require Import Bytes Bytecode Definitions Bundle Ast TypeNames Pool Scope TypeCheck Symbols SourceMap Cursor Assembler Desugar Diagnostics Report Printer Wrappers Unit PlaceSpec PlaceCheck.
Import ListNotations.
Open Scope Z_scope.

Section Places.
Variable P : span -> Prop.
Notation here := (placed P).
Notation ok := (ok P).

(** * Desugaring *)
Definition okD {A} (Q : A -> Prop) (m : D A) : Prop :=
  forall d, All here (ds_prefix d) -> ok (fun r => Q (fst r) /\ All here (ds_prefix (snd r))) (m d).
Lemma D_ret {A} (a : A) (Q : A -> Prop) : Q a -> okD Q (dret a).
Proof. intros H d C. cbn. auto. Qed.
Lemma D_bind {A B} (Q : A -> Prop) (R : B -> Prop) m k : okD Q m -> (forall a, Q a -> okD R (k a)) -> okD R (dbind m k).
Proof. intros H K d C. unfold dbind. specialize (H d C). destruct (m d) as [[a d']|e]; cbn in *; [destruct H; exact (K _ H _ H0)|exact H]. Qed.
Lemma D_read {A} (f : scope -> pool -> outcome error A) (Q : A -> Prop) : (forall s p, ok Q (f s p)) -> okD Q (dread f).
Proof. intros H d C. unfold dread. specialize (H (ds_scope d) (ds_pool d)). destruct (f _ _); cbn in *; auto. Qed.
Lemma D_map {A B} (f : A -> D B) (Q : A -> Prop) (R : B -> Prop) l : Forall (fun a => Q a -> okD R (f a)) l -> All Q l -> okD (All R) (dmap f l).
Proof.
  intros H. induction H as [|a l X H IH]; cbn [dmap All]; [intros; now apply D_ret|]. intros (Y & Z). eapply D_bind; [exact (X Y)|]. intros b Hb.
  eapply D_bind; [exact (IH Z)|]. intros bs Hs. apply D_ret. cbn. auto.
Qed.
Lemma D_opt {A B} (f : A -> D B) (R : B -> Prop) o : match o with Some a => okD R (f a) | None => True end -> okD (opt_ok R) (dopt f o).
Proof. destruct o; cbn; intros X; [|now apply D_ret]. eapply D_bind; [exact X|]. intros. now apply D_ret. Qed.
Lemma D_prefix e : here e -> okD any (add_prefix e).
Proof. intros H d C. cbn. split; [exact I|]. apply All_app. cbn. auto. Qed.
Lemma D_function sig sp : P sp -> okD any (find_function sig sp).
Proof. intros H. apply D_read. intros. now apply ok_span. Qed.
Lemma D_fresh t sp : P sp -> okD any (fresh_local t sp).
Proof.
  intros H d C. unfold fresh_local. destruct (sc_function _); [|exact I]. destruct (add_name _ _) as [p1 i].
  pose proof (ok_span P sp (get_type_index t (ds_scope d) p1) H) as K. destruct (with_span sp _) as [[[ti s'] p2]|e]; cbn in *; [|exact K]. split; [exact I|exact C].
Qed.
Lemma ok_text st sp part t p : P sp -> here part -> ok here (as_text st sp part t p).
Proof.
  intros H K. assert (O : ok here (let* n := pe (ti_pretty p t) in
    Done (if str_eqb n (lit "String") then as_ref st sp part else as_ref st sp (ECall (N := typed_ast) (CIntrinsic IToString st) [] [part] sp)))).
  { eapply ok_bind; [apply ok_pe|]. intros n _. destruct (str_eqb _ _); cbn; auto. }
  unfold as_text. destruct t; try exact O; try (now apply ok_failc). eapply ok_bind; [apply ok_pe|]. intros n _. destruct (str_eqb _ _); [exact K|exact O].
Qed.
Ltac conjs := repeat match goal with H : _ /\ _ |- _ => destruct H end.
Section Rec.
Variable rec : texpr -> D texpr.
Lemma D_seq l : Forall (fun e => here e -> okD here (rec e)) l -> All here l -> okD (All here) (on_seq_with rec l).
Proof.
  intros H. induction H as [|a l X H IH]; cbn [on_seq_with All]; [intros; now apply D_ret|]. intros (Y & Z). eapply D_bind; [exact (X Y)|]. intros b Hb.
  eapply (D_bind (All here)); [intros d C; cbn; auto|]. intros pre Hp. eapply D_bind; [exact (IH Z)|]. intros rest Hr. apply D_ret. apply All_app. cbn. auto.
Qed.
Lemma D_elements local sp : P sp -> forall l n, Forall (fun e => here e -> okD here (rec e)) l -> All here l -> okD any (array_elements rec local sp n l).
Proof.
  intros S. induction l as [|a l IH]; intros n F H; cbn [array_elements]; [now apply D_ret|]. inversion F; subst. destruct H. eapply D_bind; [now apply H2|]. intros x X.
  eapply D_bind; [apply D_prefix; cbn; auto|]. intros. now apply IH.
Qed.
Lemma D_parts add st sp : P sp -> forall l acc, Forall (fun x => here (fst x) -> okD here (rec (fst x))) l -> All (fun x => here (fst x)) l -> here acc ->
  okD here (text_parts rec add st sp acc l).
Proof.
  intros S. induction l as [|[a s] l IH]; intros acc F H K; cbn [text_parts]; [now apply D_ret|]. inversion F; subst. destruct H. cbn [fst] in *. eapply D_bind; [now apply H2|]. intros x X.
  eapply D_bind; [apply D_read; intros; now apply ok_type|]. intros t _. eapply D_bind; [apply D_read; intros; now apply ok_text|]. intros y Y. apply IH; auto. destruct s; cbn; repeat split; auto.
Qed.
Lemma D_cases l : Forall (fun c => (here (fst c) -> okD here (rec (fst c))) /\ Forall (fun e => here e -> okD here (rec e)) (snd c)) l ->
  All (fun c => here (fst c) /\ All here (snd c)) l -> okD (All (fun c => here (fst c) /\ All here (snd c))) (on_cases rec (on_seq_with rec) l).
Proof.
  intros H. induction H as [|[a b] l (X & X') H IH]; cbn [on_cases All fst snd] in *; [intros; now apply D_ret|]. intros ((Y & Y') & Z).
  eapply D_bind; [now apply D_seq|]. intros. eapply D_bind; [now apply X|]. intros. eapply D_bind; [now apply IH|]. intros. apply D_ret. cbn; auto.
Qed.
End Rec.
Lemma D_expr : forall e, here e -> okD here (on_expr e).
Proof.
  induction e using expr_ind'; intros HH; cbn in HH; conjs; cbn [on_expr]; try (apply D_ret; assumption).
  - unfold on_array_lit. destruct t; [|intros d C; exact I]. eapply D_bind; [now apply D_fresh|]. intros. eapply D_bind; [apply D_prefix; cbn; auto|]. intros.
    eapply D_bind; [now apply D_elements|]. intros. now apply D_ret.
  - unfold on_interpolated. eapply D_bind; [apply D_read; intros; now apply ok_span|]. intros. eapply D_bind; [now apply D_function|]. intros. apply D_parts; assumption.
  - eapply D_bind; [apply D_opt; destruct i; [now apply H|exact I]|]. intros. apply D_ret. cbn; auto.
  - eapply D_bind; [now apply IHe|]. intros. apply D_ret. cbn; auto.
  - eapply D_bind; [now apply IHe1|]. intros. eapply D_bind; [now apply IHe2|]. intros. apply D_ret. cbn; auto.
  - eapply D_bind; [eapply D_map; eassumption|]. intros. apply D_ret. cbn; auto.
  - eapply D_bind; [now apply IHe|]. intros. eapply D_bind; [eapply D_map; eassumption|]. intros. apply D_ret. cbn; auto.
  - eapply D_bind; [now apply IHe|]. intros. apply D_ret. cbn; auto.
  - eapply D_bind; [now apply IHe1|]. intros. eapply D_bind; [now apply IHe2|]. intros. apply D_ret. cbn; auto.
  - eapply D_bind; [eapply D_map; eassumption|]. intros. apply D_ret. cbn; auto.
  - eapply D_bind; [apply D_opt; destruct e; [now apply H|exact I]|]. intros. apply D_ret. cbn; auto.
  - destruct HH.
  - eapply D_bind; [now apply D_cases|]. intros. eapply D_bind; [apply (D_opt _ (All here)); destruct d; [now apply D_seq|exact I]|]. intros.
    eapply D_bind; [now apply IHe|]. intros. apply D_ret. cbn; auto.
  - eapply D_bind; [now apply D_seq|]. intros. eapply D_bind; [apply (D_opt _ (All here)); destruct f; [now apply D_seq|exact I]|]. intros.
    eapply D_bind; [now apply IHe|]. intros. apply D_ret. cbn; auto.
  - eapply D_bind; [now apply IHe1|]. intros. eapply D_bind; [now apply IHe2|]. intros. eapply D_bind; [now apply IHe3|]. intros. apply D_ret. cbn; auto.
  - eapply D_bind; [now apply D_seq|]. intros. eapply D_bind; [now apply IHe|]. intros. apply D_ret. cbn; auto.
  - unfold on_for_in. eapply D_bind; [now apply D_seq|]. intros seq Hs. eapply D_bind; [now apply IHe|]. intros arr Ha. eapply D_bind; [apply D_read; intros; now apply ok_type|]. intros.
    eapply D_bind; [now apply D_fresh|]. intros. eapply D_bind; [apply D_read; intros; now apply ok_span|]. intros. eapply D_bind; [now apply D_fresh|]. intros.
    eapply D_bind; [apply D_prefix; cbn; auto|]. intros. eapply D_bind; [apply D_prefix; cbn; auto|]. intros. eapply D_bind; [now apply D_function|]. intros.
    eapply D_bind; [now apply D_function|]. intros. apply D_ret. cbn. repeat split; auto; try (apply All_app; cbn; repeat split; auto).
  - eapply D_bind; [now apply IHe1|]. intros. eapply D_bind; [now apply IHe2|]. intros. apply D_ret. cbn; auto.
  - eapply D_bind; [now apply IHe|]. intros. apply D_ret. cbn; auto.
Qed.
Lemma ok_desugar body s p : All here body -> ok (fun r => All here (fst (fst (fst r)))) (desugar body s p).
Proof.
  intros H. unfold desugar. assert (F : Forall (fun e => here e -> okD here (on_expr e)) body) by (apply Forall_forall; intros; now apply D_expr).
  pose proof (D_seq _ _ F H (desugar_new s p) I) as K. unfold on_seq. destruct (on_seq_with _ _ _) as [[b d]|e]; cbn in *; [exact (proj1 K)|exact K].
Qed.

(** * The checks over bodies *)
Lemma all_flat {A} (f : A -> list texpr) l (Q : A -> Prop) : Forall (fun a => Q a -> All here (f a)) l -> All Q l -> All here (flat_map f l).
Proof. induction 1; cbn; [auto|]. intros (?&?). apply All_app. auto. Qed.
Lemma here_visited : forall e : texpr, here e -> All here (visited e).
Proof.
  induction e using expr_ind'; intros HH; pose proof HH as H9; cbn in HH; conjs; cbn [visited]; (split; [exact H9|]); rewrite ?All_app;
    repeat match goal with |- _ /\ _ => split end; try exact I; auto; try (eapply all_flat; eassumption).
  - eapply (all_flat _ _ (fun x => here (fst x))); eassumption.
  - destruct i; [now apply H|exact I].
  - destruct e; [now apply H|exact I].
  - destruct HH.
  - eapply (all_flat _ _ (fun c => here (fst c) /\ All here (snd c))); [|eassumption]. eapply Forall_impl; [|eassumption]. cbn. intros c (X & Y) (X' & Y'). apply All_app. split; [auto|].
    eapply all_flat; eassumption.
  - destruct d; [|exact I]. eapply all_flat; eassumption.
  - destruct f; [|exact I]. eapply all_flat; eassumption.
Qed.
Lemma here_met body : All here body -> All here (flat_map visited body).
Proof. intros H. eapply all_flat; [|exact H]. apply Forall_forall. intros. now apply here_visited. Qed.
Notation told := (diag_placed P).
Lemma all_map {A B} (f : A -> B) (Q : B -> Prop) l : (forall a, In a l -> Q (f a)) -> All Q (map f l).
Proof. intros H. apply All_in. intros x X. apply in_map_iff in X as (a & <- & X). auto. Qed.
Lemma all_flat_map {A B} (f : A -> list B) (Q : B -> Prop) l : (forall a, In a l -> All Q (f a)) -> All Q (flat_map f l).
Proof. intros H. apply All_in. intros x X. apply in_flat_map in X as (a & X & Y). now apply (proj1 (All_in _ _) (H a X)). Qed.
Lemma told_passes body m : All here body -> P (fm_span m) -> All told (passes body m).
Proof.
  intros H K. pose proof (proj1 (All_in _ _) (here_met _ H)) as V. unfold passes. rewrite !All_app. repeat split.
  - unfold unused_local. apply all_map. intros [i sp] X. apply filter_In in X as (X & _). apply in_flat_map in X as (e & X & Y). specialize (V _ X). unfold diag_placed. cbn.
    destruct e; cbn in Y; try contradiction; destruct Y as [[= <- <-]|[]]; cbn in V; tauto.
  - unfold missing_return. destruct (_ && _); cbn; auto.
  - apply all_flat_map. intros e X. specialize (V _ X). destruct e; try exact I. cbn [fallthrough_here]. cbn in V. conjs. apply all_map. intros c C. apply filter_In in C as (C & _).
    assert (D : In c cases). { clear - C. induction cases as [|x l IH]; [exact C|]. cbn [removelast] in C. destruct l; [destruct C|]. destruct C as [<-|C]; [now left|right; auto]. }
    pose proof (proj1 (All_in _ _) H2 _ D) as (Y & _). unfold diag_placed. cbn. now apply here_span.
  - apply all_flat_map. intros e X. specialize (V _ X). unfold temp_use_here. destruct (temp_operand e) as [x|] eqn:O; [|exact I]. destruct (is_prvalue x); [|exact I]. cbn. split; [|exact I].
    unfold diag_placed. cbn. apply here_span. destruct e; try discriminate O; cbn in V, O; conjs.
    + destruct c as [|i t]; [discriminate|]. destruct i; try discriminate; destruct args; try discriminate; injection O as <-; cbn in H1; tauto.
    + destruct m0; try discriminate. now injection O as <-.
    + now injection O as <-.
Qed.
End Places.

(** * The assembler *)
Lemma placed_weaken (P Q : span -> Prop) : (forall sp, P sp -> Q sp) -> forall e : texpr, placed P e -> placed Q e.
Proof.
  intros W. assert (L : forall l : list texpr, Forall (fun e => placed P e -> placed Q e) l -> All (placed P) l -> All (placed Q) l).
  { induction 1; cbn; [auto|]. intros (?&?); auto. }
  induction e using expr_ind'; cbn; intros HH; repeat match goal with H : _ /\ _ |- _ => destruct H end; repeat match goal with |- _ /\ _ => split end; auto.
  - clear - H H1. induction H; cbn in *; [auto|]. destruct H1; auto.
  - destruct i; auto.
  - destruct e; auto.
  - match goal with X : All _ cases |- _ => revert X end. clear - H L. induction H as [|c l (X & Y) H IH]; cbn in *; [auto|]. intros ((?&?)&?). repeat split; auto.
  - destruct d; cbn in *; auto.
  - destruct f; cbn in *; auto.
Qed.
Section Assembled.
Variable P : span -> Prop.
Hypothesis Z0 : P span_zero.
Notation here := (placed P).
Notation ok := (ok P).
Definition okA {X} (m : A X) : Prop := forall t, ok any (m t).
Lemma A_ret {X} (a : X) : okA (aret a). Proof. intros t. exact I. Qed.
Lemma A_emit i : okA (emit i). Proof. intros t. exact I. Qed.
Lemma A_label : okA new_label. Proof. intros t. exact I. Qed.
Lemma A_bind {X Y} (m : A X) (k : X -> A Y) : okA m -> (forall a, okA (k a)) -> okA (abind m k).
Proof. intros H K t. unfold abind. specialize (H t). destruct (m t) as [[[a c] t1]|e]; cbn in *; [|exact H]. specialize (K a t1). destruct (k a t1) as [[[b c'] t2]|e]; cbn in *; [exact I|exact K]. Qed.
Lemma A_read {X} (f : scope -> pool -> outcome error X) : (forall s p, ok any (f s p)) -> okA (aread f).
Proof. intros H t. unfold aread. specialize (H (as_scope t) (as_pool t)). destruct (f _ _); cbn in *; [exact I|exact H]. Qed.
Lemma A_each {X} (f : X -> A unit) l : Forall (fun x => okA (f x)) l -> okA (each f l).
Proof. induction 1; cbn [each]; [apply A_ret|]. apply A_bind; auto. Qed.
Lemma A_failc {X} sp c : P sp -> okA (afailc (X := X) sp c).
Proof. intros H t. now apply ok_failc. Qed.
Lemma A_index sp t : P sp -> okA (Assembler.type_index sp t).
Proof. intros H st. unfold Assembler.type_index. pose proof (ok_span P sp (get_type_index t (as_scope st) (as_pool st)) H) as K. destruct (with_span _ _) as [[[i s] p]|e]; [exact I|exact K]. Qed.
Lemma A_literal k s : okA (literal_index k s).
Proof. intros t. unfold literal_index. destruct (add_literal _ _ _). exact I. Qed.
Lemma A_panic {X} u : okA (afail (X := X) (ErrUnwind u)). Proof. intros t. exact I. Qed.
Lemma A_argtype args : All here args -> okA (arg_type args).
Proof. destruct args; intros H; [apply A_panic|]. destruct H. apply A_read. intros. now apply ok_type. Qed.
Ltac prim := first [apply A_ret | apply A_emit | apply A_label | apply A_literal | apply A_panic | apply A_failc; assumption | apply A_index; assumption | apply A_argtype; assumption
  | apply A_read; intros; first [apply ok_pe | apply ok_span; assumption | apply ok_type; assumption | exact I] | assumption].
Ltac step := first [prim | apply A_bind; [|intros ?]].
Lemma A_initializer sp l t : P sp -> okA (emit_initializer sp l t).
Proof.
  intros H. destruct t; cbn [emit_initializer]; repeat step; try (destruct (en_members _); repeat step).
  repeat (match goal with |- okA (if ?c then _ else _) => destruct c end; repeat step).
Qed.
Lemma A_constant c : okA (emit_constant c).
Proof. destruct c; try destruct l; try destruct b; cbn [emit_constant]; repeat step. Qed.
Lemma A_intrinsic i args t sp : P sp -> All here args -> okA (emit_intrinsic i args t sp).
Proof. intros H K. destruct i; cbn [emit_intrinsic]; repeat step; match goal with |- okA (match ?t with _ => _ end) => destruct t end; repeat step. Qed.
Lemma A_args f : forall args flags, Forall (fun a => okA (f a)) args -> okA (emit_args f args flags).
Proof.
  induction args as [|a args IH]; intros [|fl flags] H; cbn [emit_args]; try apply A_ret. inversion H; subst. apply A_bind; [destruct (get_flag _ _); repeat step|]. intros. now apply IH.
Qed.
Lemma A_call fs f i args b sp : Forall (fun a => okA (f a)) args -> okA (emit_call fs f i args b sp).
Proof.
  intros H. unfold emit_call. step; [step|]. step. { apply A_read. intros. eapply ok_mapM; [|apply all_any]. intros x _. destruct (get_parameter _ _); exact I. }
  step; [step|]. step; [step|]. step. { apply A_read. intros. unfold call_line. destruct (files_lookup _ _) as [[[[? []] ?]|]|]; exact I. }
  step. { destruct (_ && _); repeat step. }
  step; [now apply A_args|]. destruct (_ <? _)%nat; [intros t; exact Z0|]. step; [apply A_each; apply Forall_forall; intros; apply A_emit|]. repeat step.
Qed.
Lemma all_forall {X} (Q R : X -> Prop) l : Forall (fun x => Q x -> R x) l -> All Q l -> Forall R l.
Proof. induction 1; cbn; [constructor|]. intros (?&?). constructor; auto. Qed.
Lemma A_cases f exit : forall l body next, Forall (fun c => okA (f (fst c) None) /\ Forall (fun e => okA (f e (Some exit))) (snd c)) l -> okA (emit_cases f exit l body next).
Proof.
  induction l as [|[m b] l IH]; intros body next H; cbn [emit_cases]; [apply A_ret|]. inversion H; subst. destruct H2 as (X & Y). cbn [fst snd] in *.
  step; [destruct body; repeat step|]. step; [step|]. step; [step|]. step; [step|]. step; [exact X|]. destruct (forallb _ _); [now apply IH|]. step; [step|]. step; [now apply A_each|]. now apply IH.
Qed.
Lemma A_asm fs : forall e, here e -> forall exit, okA (asm fs e exit).
Proof.
  assert (S : forall l exit, Forall (fun e => here e -> forall exit, okA (asm fs e exit)) l -> All here l -> Forall (fun e => okA (asm fs e exit)) l).
  { intros l exit F H. eapply all_forall; [|exact H]. eapply Forall_impl; [|exact F]. cbn. auto. }
  induction e using expr_ind'; intros HH exit; pose proof HH as H9; cbn in HH; repeat match goal with H : _ /\ _ |- _ => destruct H end; cbn [asm]; try (repeat step; fail).
  - destruct r as [[]|]; repeat step.
  - apply A_constant.
  - destruct i; [cbn in H; destruct t; repeat step; now apply H|]. destruct t; [now apply A_initializer|apply A_panic].
  - destruct t; repeat step. now apply IHe.
  - repeat step; auto.
  - destruct c; [now apply A_call, S|]. step; [now apply A_intrinsic|]. now apply A_each, S.
  - step; [step|]. assert (O : okA (if get_flag fn_is_static (fu_flags a) then gen n <- aread (fun _ p => pe (def_name p f)); afailc sp (InvalidStaticMethodCall n)
      else gen out <- new_label; gen _ <- emit (Context out); gen _ <- asm fs e None; gen _ <- emit_call fs (fun e => asm fs e None) f args (match e with ESuper _ => true | _ => false end) sp; emit (Target out))).
    { destruct (get_flag _ _); [repeat step|]. step; [step|]. step; [step|]. step; [now apply IHe|]. step; [now apply A_call, S|]. step. }
    destruct e; try exact O. destruct r as [|[]]; try exact O; cbn in H1; (destruct (get_flag _ _); [now apply A_call, S|repeat step]).
  - destruct m; repeat step; now apply IHe.
  - step; [step|]. step; [destruct a; repeat step|]. step; auto.
  - destruct t; repeat step. now apply A_each, S.
  - destruct e; repeat step. now apply H.
  - destruct HH.
  - step; [step|]. step; [step|]. step; [step|]. step; [step|]. step; [step|]. step; [step|]. step; [now apply IHe|]. step; [step|]. step.
    { apply A_cases. eapply all_forall; [|exact H3]. eapply Forall_impl; [|exact H]. cbn. intros c (X & Y) (X' & Y'). split; auto. }
    step; [step|]. step; [|step]. destruct d; repeat step. now apply A_each, S.
  - step; [step|]. step; [step|]. step; [now apply IHe|]. step; [now apply A_each, S|]. destruct f; repeat step. now apply A_each, S.
  - repeat step; auto.
  - step; [step|]. step; [step|]. step; [step|]. step; [step|]. step; [now apply IHe|]. step; [now apply A_each, S|]. repeat step.
  - destruct exit; repeat step.
Qed.
Lemma ok_body fs body s p : All here body -> ok any (from_body fs body s p).
Proof.
  intros H. unfold from_body, asm_body.
  assert (K : okA (gen _ <- each (fun e => asm fs e None) body; emit Nop)).
  { apply A_bind; [|intros; apply A_emit]. apply A_each. eapply all_forall; [|exact H]. apply Forall_forall. intros. now apply A_asm. }
  specialize (K {| as_labels := 0; as_scope := s; as_pool := p |}). destruct (abind _ _ _) as [[[u c] t]|e]; [|exact K]. destruct (into_code _ _); exact I.
Qed.
Lemma ok_put p i d : ok any (put_def p i d). Proof. unfold put_def. destruct (nth_def _ _); exact I. Qed.
Lemma ok_update p i u : ok any (update_function p i u).
Proof. unfold update_function. eapply ok_bind; [apply ok_pe|]. intros. eapply ok_bind; [apply ok_pe|]. intros. apply ok_put. Qed.
Lemma ok_push p c f : ok any (push_member p c f).
Proof. unfold push_member. eapply ok_bind; [apply ok_pe|]. intros. eapply ok_bind; [apply ok_pe|]. intros. apply ok_put. Qed.
Lemma ok_install fs i body ls s p : All here body -> ok any (install fs i body ls s p).
Proof. intros H. unfold install. eapply ok_bind; [now apply ok_body|]. intros [[c s'] p'] _. apply ok_update. Qed.
Lemma ok_copies : forall ps p, ok any (copy_parameters ps p).
Proof. induction ps as [|i ps IH]; intros p; cbn; [exact I|]. eapply ok_bind; [apply ok_pe|]. intros. eapply ok_bind; [apply IH|]. intros [] _. exact I. Qed.
Lemma here_proxy x w ps : All here (proxy_body x w ps).
Proof.
  assert (A : All here (map (fun i => EIdent (N := typed_ast) (RValue (VParam i)) span_zero) ps)) by (induction ps; cbn; auto).
  unfold proxy_body. destruct (fu_return_type x); cbn; auto.
Qed.
Lemma ok_proxy fs slot wrapped wrapper s p : ok any (construct_proxy fs slot wrapped wrapper s p).
Proof.
  unfold construct_proxy. eapply ok_bind; [apply ok_pe|]. intros d _. destruct (df_value d); try exact I. eapply ok_bind; [apply ok_copies|]. intros [ps p1] _.
  eapply ok_bind; [apply ok_body, here_proxy|]. intros [[c s1] p2] _. destruct (add_name _ _). eapply ok_bind; [apply ok_put|]. intros p4 _. destruct (_ =? _); [exact I|].
  eapply ok_bind; [apply ok_push|]. intros; exact I.
Qed.
Lemma ok_proxies fs m : forall order s p, ok any (construct_proxies fs m order s p).
Proof. induction order as [|[a b] order IH]; intros s p; cbn; [exact I|]. destruct (find_key _ _); [|exact I]. eapply ok_bind; [apply ok_proxy|]. intros [] _. apply IH. Qed.
Lemma ok_rename p i n : ok any (rename p i n). Proof. unfold rename. destruct (nth_def _ _); [apply ok_put|exact I]. Qed.
Lemma ok_locals q : forall ls m p, ok any (copy_locals q ls m p).
Proof. induction ls as [|i ls IH]; intros m p; cbn; [exact I|]. eapply ok_bind; [apply ok_pe|]. intros. apply IH. Qed.
Lemma ok_swap sh w q p : ok any (swap_proxy sh w q p).
Proof.
  unfold swap_proxy, remap_locals, swap_definition. eapply ok_bind; [apply ok_pe|]. intros. eapply ok_bind; [apply ok_pe|]. intros. eapply ok_bind; [apply ok_update|]. intros.
  eapply (ok_bind _ any). { eapply ok_bind; [apply ok_pe|]. intros. eapply ok_bind; [apply ok_locals|]. intros [m p1] _. eapply ok_bind; [apply ok_pe|]. intros. destruct (remap_code _ _); [apply ok_update|exact I]. }
  intros. eapply ok_bind; [apply ok_rename|]. intros. eapply ok_bind; [apply ok_rename|]. intros. destruct (nth_def _ _); [|exact I]. destruct (nth_def _ _); [|exact I].
  eapply ok_bind; [apply ok_put|]. intros. apply ok_put.
Qed.
Lemma ok_swaps sh : forall order p, ok any (swap_proxies sh order p).
Proof. induction order as [|[a b] order IH]; intros p; cbn; [exact I|]. eapply ok_bind; [apply ok_swap|]. intros. apply IH. Qed.
End Assembled.
