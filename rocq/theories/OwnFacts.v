(** The variables that the code of a function names are its own. *)
From Coq Require Import String.
From Coq Require Import ZArith List Bool Lia.
From Verif Require Import Bytes BytesFacts Bytecode Definitions Bundle Ast TypeNames Pool Scope TypeCheck PartsSpec PoolSpec Cursor SourceMap Assembler
  BodySpec Desugar SugarSpec WellTypedSpec WellTypedFacts LexicalSpec LexicalFacts DesugarFacts.
Import ListNotations.
Open Scope Z_scope.

(** * Desugaring only adds to the list of variables *)

Definition dgrows (d d' : dstate) : Prop := incl (ds_locals d) (ds_locals d').
Lemma dgrows_refl d : dgrows d d. Proof. apply incl_refl. Qed.
Lemma dgrows_trans a b c : dgrows a b -> dgrows b c -> dgrows a c. Proof. intros H K. exact (incl_tran H K). Qed.
Definition steps {A} (m : D A) : Prop := forall d a d', m d = Done (a, d') -> dgrows d d'.
Lemma steps_ret {A} (a : A) : steps (dret a).
Proof. intros d b d' [= <- <-]. apply dgrows_refl. Qed.
Lemma steps_bind {A B} (m : D A) (k : A -> D B) : steps m -> (forall a, steps (k a)) -> steps (dbind m k).
Proof.
  intros M K d b d' E. unfold dbind in E. destruct (m d) as [[a d1]|] eqn:Em; [|discriminate].
  eapply dgrows_trans; [exact (M _ _ _ Em)|exact (K a _ _ _ E)].
Qed.
Lemma steps_read {A} (f : scope -> pool -> outcome error A) : steps (dread f).
Proof. intros d a d' E. unfold dread in E. destruct (f _ _); [|discriminate]. injection E as <- <-. apply dgrows_refl. Qed.
Lemma steps_fail {A} e : steps (@dfail A e).
Proof. intros d a d' E. discriminate E. Qed.
Lemma steps_prefix e : steps (add_prefix e).
Proof. intros d a d' [= <- <-]. exact (dgrows_refl d). Qed.
Lemma steps_local t sp : steps (fresh_local t sp).
Proof.
  intros d r d' E. apply fresh_cases in E as (fn & p1 & ni & ti & p2 & i & _ & _ & _ & _ & _ & _ & El). unfold dgrows. rewrite El. apply incl_appl, incl_refl.
Qed.
Lemma steps_map {A B} (f : A -> D B) l : Forall (fun x => steps (f x)) l -> steps (dmap f l).
Proof.
  induction 1 as [|x l Hx _ IH]; cbn [dmap]; [apply steps_ret|].
  apply steps_bind; [exact Hx|]. intros y. apply steps_bind; [exact IH|]. intros ys. apply steps_ret.
Qed.
Lemma steps_opt {A B} (f : A -> D B) o : opt_all (fun x => steps (f x)) o -> steps (dopt f o).
Proof. destruct o as [x|]; cbn [dopt opt_all]; intros H; [|apply steps_ret]. apply steps_bind; [exact H|]. intros y. apply steps_ret. Qed.
Lemma steps_seq rec l : Forall (fun e => steps (rec e)) l -> steps (on_seq_with rec l).
Proof.
  induction 1 as [|e l He _ IH]; cbn [on_seq_with]; [apply steps_ret|]. apply steps_bind; [exact He|]. intros done. apply steps_bind.
  - intros d a d' [= <- <-]. exact (dgrows_refl d).
  - intros pre. apply steps_bind; [exact IH|]. intros rest. apply steps_ret.
Qed.
Lemma steps_cases rec rec_seq cases : Forall (fun c => steps (rec (fst c)) /\ steps (rec_seq (snd c))) cases -> steps (on_cases rec rec_seq cases).
Proof.
  induction 1 as [|[m b] l [Hm Hb] _ IH]; cbn [on_cases fst snd] in *; [apply steps_ret|].
  apply steps_bind; [exact Hb|]. intros b'. apply steps_bind; [exact Hm|]. intros m'. apply steps_bind; [exact IH|]. intros rest. apply steps_ret.
Qed.
Lemma steps_elements rec local sp es : Forall (fun e => steps (rec e)) es -> forall i, steps (array_elements rec local sp i es).
Proof.
  induction 1 as [|e l He _ IH]; intros i; cbn [array_elements]; [apply steps_ret|].
  apply steps_bind; [exact He|]. intros e'. apply steps_bind; [apply steps_prefix|]. intros _. apply IH.
Qed.
Lemma steps_parts rec add st sp parts : Forall (fun x => steps (rec (fst x))) parts -> forall acc, steps (text_parts rec add st sp acc parts).
Proof.
  induction 1 as [|[e s] l He _ IH]; intros acc; cbn [text_parts fst] in *; [apply steps_ret|].
  apply steps_bind; [exact He|]. intros e1. apply steps_bind; [apply steps_read|]. intros t. apply steps_bind; [apply steps_read|]. intros e2. apply IH.
Qed.
Lemma steps_expr e : steps (on_expr e).
Proof.
  induction e using expr_ind'; cbn [on_expr]; unfold on_array_lit, on_interpolated, on_for_in, find_function;
  repeat first
    [ apply steps_ret | apply steps_fail | assumption | apply steps_read | apply steps_local | apply steps_prefix
    | match goal with |- forall _, steps _ => intros ? end
    | apply steps_bind | apply steps_seq; assumption | apply steps_map; assumption | apply steps_opt; assumption | apply steps_parts; assumption
    | apply steps_elements; assumption
    | match goal with |- steps (match ?x with _ => _ end) => destruct x end
    | apply steps_opt; match goal with H : opt_all _ ?o |- opt_all _ ?o => destruct o; [apply steps_seq, H|exact I] end ].
  apply steps_cases. eapply Forall_impl; [|eassumption]. intros c [Hm Hb]. split; [exact Hm|]. apply steps_seq, Hb.
Qed.
Lemma steps_on_seq l : steps (on_seq l).
Proof. apply steps_seq, Forall_forall. intros. apply steps_expr. Qed.


(** * The variables named *)

Section Own.
Variable ok : value_ref -> Prop.
Definition here (e : texpr) : Prop :=
  match e with EIdent (RValue v) _ => ok v | EDeclare i _ _ _ | EForIn i _ _ _ => ok (VLocal i) | _ => True end.
Definition nb (e : texpr) : Prop := forall x, within x e -> here x.
Lemma nb_part x e : nb e -> part x e -> nb x.
Proof. intros N P y W. apply N. econstructor; eassumption. Qed.
Lemma nb_intro e : here e -> (forall x, part x e -> nb x) -> nb e.
Proof. intros N P x W. inversion W; subst; [exact N|]. eapply P; eassumption. Qed.
Ltac named := apply nb_intro; [first [exact I | assumption]|]; intros ? P; inversion P; subst; clear P;
  repeat match goal with H : In _ (_ :: _) |- _ => cbn [In] in H | H : _ \/ _ |- _ => destruct H as [H|H] | H : False |- _ => destruct H
         | H : In ?x ?l, F : Forall _ ?l |- _ => exact (proj1 (Forall_forall _ _) F x H) end; subst; try assumption.
Variable L : list pidx.
Hypothesis HL : forall i, In i L -> ok (VLocal i).
(** If the variables made are in [L], the result satisfies [Q] and what waits in
    front names permitted variables only. *)
Definition gb {A} (Q : A -> Prop) (m : D A) : Prop := steps m /\ forall d a d', m d = Done (a, d') -> incl (ds_locals d') L ->
  Forall nb (ds_prefix d) -> Q a /\ Forall nb (ds_prefix d').
Lemma gb_ret {A} (Q : A -> Prop) a : Q a -> gb Q (dret a).
Proof. intros H. split; [apply steps_ret|]. intros d b d' [= <- <-] _ F. auto. Qed.
Lemma gb_bind {A B} (P : A -> Prop) (Q : B -> Prop) (m : D A) (k : A -> D B) :
  gb P m -> (forall a, steps (k a)) -> (forall a, P a -> gb Q (k a)) -> gb Q (dbind m k).
Proof.
  intros [S M] SK K. split; [apply steps_bind; assumption|]. intros d b d' E Bl F. unfold dbind in E. destruct (m d) as [[a d1]|] eqn:Em; [|discriminate].
  pose proof (SK a _ _ _ E) as G. destruct (M _ _ _ Em (incl_tran G Bl) F) as [Pa F1]. exact (proj2 (K a Pa) _ _ _ E Bl F1).
Qed.
Definition any {A} (a : A) : Prop := True.
Lemma gb_read {A} (f : scope -> pool -> outcome error A) : gb any (dread f).
Proof. split; [apply steps_read|]. intros d a d' E _ F. unfold dread in E. destruct (f _ _); [|discriminate]. injection E as <- <-. split; [exact I|exact F]. Qed.
Lemma gb_fail {A} (Q : A -> Prop) e : gb Q (dfail e).
Proof. split; [apply steps_fail|]. intros d a d' E. discriminate E. Qed.
Lemma gb_prefix e : nb e -> gb any (add_prefix e).
Proof. intros H. split; [apply steps_prefix|]. intros d a d' [= <- <-] _ F. split; [exact I|]. cbn [set_prefix ds_prefix]. apply Forall_app. auto. Qed.
Definition low (r : reference) : Prop := forall sp, nb (tident r sp).
Lemma gb_local t sp : gb low (fresh_local t sp).
Proof.
  split; [apply steps_local|]. intros d r d' E B F. apply fresh_cases in E as (fn & p1 & ni & ti & p2 & i & _ & _ & _ & _ & -> & Ep & El).
  split; [|rewrite Ep; exact F]. intros sp'. apply nb_intro; [|intros x P; inversion P]. cbn [here tident]. apply HL, B. rewrite El. apply in_or_app. right. now left.
Qed.
Lemma gb_map {A B} (Q : B -> Prop) (f : A -> D B) l : Forall (fun x => gb Q (f x)) l -> gb (Forall Q) (dmap f l).
Proof.
  induction 1 as [|x l Hx Hl IH]; cbn [dmap]; [apply gb_ret; constructor|].
  eapply gb_bind; [exact Hx|intros y; apply steps_bind; [apply IH|intros; apply steps_ret]|]. intros y Qy.
  eapply gb_bind; [exact IH|intros; apply steps_ret|]. intros ys Qs. apply gb_ret. constructor; assumption.
Qed.
Lemma gb_opt {A B} (Q : B -> Prop) (f : A -> D B) o : opt_all (fun x => gb Q (f x)) o -> gb (opt_all Q) (dopt f o).
Proof.
  destruct o as [x|]; cbn [dopt opt_all]; intros H; [|apply gb_ret; exact I].
  eapply gb_bind; [exact H|intros; apply steps_ret|]. intros y Qy. apply gb_ret. exact Qy.
Qed.
Lemma gb_seq rec l : Forall (fun e => gb nb (rec e)) l -> gb (Forall nb) (on_seq_with rec l).
Proof.
  induction 1 as [|e l He _ IH]; cbn [on_seq_with]; [apply gb_ret; constructor|].
  assert (S0 : steps (fun d => Done (ds_prefix d, set_prefix [] d))) by (intros d a d' [= <- <-]; exact (dgrows_refl d)).
  eapply gb_bind; [exact He|intros; apply steps_bind; [exact S0|intros; apply steps_bind; [apply IH|intros; apply steps_ret]]|].
  intros done Qd. eapply gb_bind with (P := Forall nb).
  - split; [exact S0|]. intros d a d' [= <- <-] _ F. split; [exact F|constructor].
  - intros; apply steps_bind; [apply IH|intros; apply steps_ret].
  - intros pre Qp. eapply gb_bind; [exact IH|intros; apply steps_ret|]. intros rest Qr. apply gb_ret. apply Forall_app. split; [exact Qp|]. constructor; assumption.
Qed.
Lemma gb_cases rec rec_seq cases :
  Forall (fun c => gb nb (rec (fst c)) /\ gb (Forall nb) (rec_seq (snd c))) cases ->
  gb (Forall (fun c => nb (fst c) /\ Forall nb (snd c))) (on_cases rec rec_seq cases).
Proof.
  induction 1 as [|[m b] l [Hm Hb] _ IH]; cbn [on_cases fst snd] in *; [apply gb_ret; constructor|].
  assert (S1 : forall m' b', steps (then rest <- on_cases rec rec_seq l; dret ((m', b') :: rest))) by (intros; apply steps_bind; [apply IH|intros; apply steps_ret]).
  eapply gb_bind; [exact Hb|intros b'; apply steps_bind; [apply Hm|intros m'; apply S1]|]. intros b' Qb.
  eapply gb_bind; [exact Hm|intros m'; apply S1|]. intros m' Qm. eapply gb_bind; [exact IH|intros; apply steps_ret|].
  intros rest Qr. apply gb_ret. constructor; [split; assumption|exact Qr].
Qed.
Lemma nb_constant c sp : nb (EConstant c sp). Proof. named. Qed.
Lemma nb_call c ts args sp : Forall nb args -> nb (ECall c ts args sp).
Proof. intros F. named. Qed.
Lemma nb_assign l r sp : nb l -> nb r -> nb (EAssign l r sp).
Proof. intros. named. Qed.
Lemma nb_elem l r sp : nb l -> nb r -> nb (EArrayElem l r sp).
Proof. intros. named. Qed.
Lemma nb_as_ref t sp e : nb e -> nb (as_ref t sp e).
Proof. intros. apply nb_call. auto. Qed.
Lemma nb_while c b sp : nb c -> Forall nb b -> nb (EWhile c b sp).
Proof. intros. named. Qed.
Lemma gb_elements rec local sp es : Forall (fun e => gb nb (rec e)) es -> low local ->
  forall i, gb any (array_elements rec local sp i es).
Proof.
  intros H Lo. assert (S : forall e, In e es -> steps (rec e)) by (rewrite Forall_forall in H; intros e I; apply H, I).
  induction H as [|e l He _ IH]; intros i; cbn [array_elements]; [apply gb_ret; exact I|].
  assert (S1 : forall j, steps (array_elements rec local sp j l)) by (apply steps_elements; apply Forall_forall; intros x Ix; apply S; right; exact Ix).
  eapply gb_bind; [exact He|intros; apply steps_bind; [apply steps_prefix|intros; apply S1]|]. intros e' Qe. eapply gb_bind; [apply gb_prefix|intros; apply S1|].
  - apply nb_assign; [apply nb_elem; [apply Lo|apply nb_constant]|exact Qe].
  - intros _ _. apply IH. intros x Ix. apply S. right. exact Ix.
Qed.
Lemma nb_as_text st sp part t p e : nb part -> as_text st sp part t p = Done e -> nb e.
Proof.
  intros F. unfold as_text.
  assert (O : (let* n := pe (ti_pretty p t) in Done (if str_eqb n (lit "String") then as_ref st sp part
    else as_ref st sp (ECall (N := typed_ast) (CIntrinsic IToString st) [] [part] sp))) = Done e -> nb e).
  { destruct (pe _) as [m|]; [|discriminate]. cbn [obind]. intros [= <-].
    destruct (str_eqb _ _); apply nb_as_ref; [exact F|]. apply nb_call. auto. }
  destruct t; try exact O; try discriminate. destruct (pe (ti_pretty p t)) as [m|]; [|discriminate]. cbn [obind].
  destruct (str_eqb m _); [|exact O]. intros [= <-]. exact F.
Qed.
Lemma gb_parts rec add st sp parts : Forall (fun x => gb nb (rec (fst x))) parts ->
  forall acc, nb acc -> gb nb (text_parts rec add st sp acc parts).
Proof.
  intros H. assert (S : Forall (fun x => steps (rec (fst x))) parts) by (eapply Forall_impl; [|exact H]; intros x Hx; apply Hx). revert S.
  induction H as [|[e s] l He _ IH]; intros S acc Fa; cbn [text_parts fst] in *; [apply gb_ret, Fa|].
  assert (Sl : forall acc, steps (text_parts rec add st sp acc l)) by (apply steps_parts; inversion S; assumption).
  eapply gb_bind; [exact He| |].
  { intros. apply steps_bind; [apply steps_read|]. intros. apply steps_bind; [apply steps_read|]. intros. apply Sl. }
  intros e1 F1. eapply gb_bind; [apply gb_read| |].
  { intros. apply steps_bind; [apply steps_read|]. intros. apply Sl. }
  intros t _. eapply gb_bind with (P := nb); [|intros; apply Sl|].
  - split; [apply steps_read|]. intros d a d' E _ F. unfold dread in E. destruct (as_text _ _ _ _ _) as [x|] eqn:X; [|discriminate]. injection E as <- <-.
    split; [eapply nb_as_text; eassumption|exact F].
  - intros e2 F2. apply IH; [inversion S; assumption|]. apply nb_call. constructor; [apply nb_as_ref, Fa|]. constructor; [|constructor].
    destruct s; [exact F2|]. apply nb_as_ref, nb_call. constructor; [exact F2|]. constructor; [apply nb_as_ref, nb_constant|constructor].
Qed.
Lemma gb_expr e : nb e -> gb nb (on_expr e).
Proof.
  assert (Q : forall l e, Forall (fun e => nb e -> gb nb (on_expr e)) l -> nb e -> (forall x, In x l -> part x e) -> Forall (fun e => gb nb (on_expr e)) l).
  { intros l e0 H N P. rewrite Forall_forall in *. intros x I. apply H; [exact I|]. eapply nb_part; [exact N|apply P, I]. }
  induction e using expr_ind'; intros Nm; split; try apply steps_expr; cbn [on_expr].
  all: match goal with |- forall d a d', ?m d = _ -> _ => cut (gb nb m); [intros G; exact (proj2 G)|] end.
  all: pose proof (Nm _ (wi_here _)) as Hn; cbn in Hn.
  all: repeat match goal with H : nb ?e -> _, N : nb _ |- _ => specialize (H ltac:(eapply nb_part; [exact N|constructor])) end.
  - apply gb_ret, Nm.
  - apply gb_ret, Nm.
  - unfold on_array_lit. destruct t as [t|]; [|apply gb_fail]. assert (H' := Q es _ H Nm ltac:(intros; constructor; assumption)).
    assert (S1 : forall r i, steps (array_elements on_expr r sp i es)) by (intros; apply steps_elements, Forall_forall; intros; apply steps_expr).
    eapply gb_bind; [apply gb_local| |].
    { intros. apply steps_bind; [apply steps_prefix|]. intros. apply steps_bind; [apply S1|]. intros. apply steps_ret. }
    intros local Ql. eapply gb_bind; [apply gb_prefix, nb_call; repeat constructor; [apply Ql|apply nb_constant]| |].
    { intros. apply steps_bind; [apply S1|]. intros. apply steps_ret. }
    intros _ _. eapply gb_bind; [apply gb_elements; assumption|intros; apply steps_ret|]. intros _ _. apply gb_ret, Ql.
  - unfold on_interpolated.
    assert (S1 : forall add st acc, steps (text_parts on_expr add st sp acc parts)) by (intros; apply steps_parts, Forall_forall; intros; apply steps_expr).
    eapply gb_bind; [apply gb_read| |]. { intros. apply steps_bind; [apply steps_read|]. intros. apply S1. }
    intros st _. eapply gb_bind; [apply gb_read|intros; apply S1|]. intros add _.
    apply gb_parts; [|apply nb_constant]. rewrite Forall_forall in *. intros [x t] Ix. apply (H _ Ix). eapply nb_part; [exact Nm|]. econstructor. exact Ix.
  - eapply gb_bind; [apply gb_opt|intros; apply steps_ret|].
    { destruct i; [|exact I]. apply H. eapply nb_part; [exact Nm|constructor]. }
    intros i' Qi. apply gb_ret. destruct i'; named.
  - eapply gb_bind; [exact IHe|intros; apply steps_ret|]. intros e' Qe. apply gb_ret. named.
  - eapply gb_bind; [exact IHe1|intros; apply steps_bind; [apply steps_expr|intros; apply steps_ret]|]. intros l' Ql.
    eapply gb_bind; [exact IHe2|intros; apply steps_ret|]. intros r' Qr. apply gb_ret. named.
  - eapply gb_bind; [apply gb_map, (Q args _ H Nm); intros; constructor; assumption|intros; apply steps_ret|]. intros l' Ql. apply gb_ret. named.
  - eapply gb_bind; [exact IHe|intros; apply steps_bind; [apply steps_map, Forall_forall; intros; apply steps_expr|intros; apply steps_ret]|]. intros e' Qe.
    eapply gb_bind; [apply gb_map, (Q args _ H Nm); intros; constructor; assumption|intros; apply steps_ret|]. intros l' Ql. apply gb_ret. named.
  - eapply gb_bind; [exact IHe|intros; apply steps_ret|]. intros e' Qe. apply gb_ret. named.
  - eapply gb_bind; [exact IHe1|intros; apply steps_bind; [apply steps_expr|intros; apply steps_ret]|]. intros l' Ql.
    eapply gb_bind; [exact IHe2|intros; apply steps_ret|]. intros r' Qr. apply gb_ret. named.
  - eapply gb_bind; [apply gb_map, (Q args _ H Nm); intros; constructor; assumption|intros; apply steps_ret|]. intros l' Ql. apply gb_ret. named.
  - eapply gb_bind; [apply gb_opt|intros; apply steps_ret|].
    { destruct e; [|exact I]. apply H. eapply nb_part; [exact Nm|constructor]. }
    intros i' Qi. apply gb_ret. destruct i'; named.
  - eapply gb_bind; [apply gb_seq, (Q es _ H Nm); intros; constructor; assumption|intros; apply steps_ret|]. intros l' Ql. apply gb_ret. named.
  - assert (Sd : steps (dopt (on_seq_with on_expr) d)) by (apply steps_opt; destruct d; [apply steps_on_seq|exact I]).
    eapply gb_bind; [apply gb_cases| |].
    { apply Forall_forall. intros [m b] Ic. rewrite Forall_forall in H. destruct (H _ Ic) as [Hm Hb]. cbn [fst snd] in *. split.
      - apply Hm. eapply nb_part; [exact Nm|]. econstructor. exact Ic.
      - apply gb_seq, (Q b _ Hb Nm). intros x Ix. econstructor; eassumption. }
    { intros. apply steps_bind; [exact Sd|]. intros. apply steps_bind; [apply steps_expr|]. intros. apply steps_ret. }
    intros cs Qc. eapply gb_bind; [apply gb_opt|intros; apply steps_bind; [apply steps_expr|intros; apply steps_ret]|].
    { destruct d; [|exact I]. cbn [opt_all] in *. apply gb_seq, (Q l _ H0 Nm). intros x Ix. apply pt_default, Ix. }
    intros d' Qd. eapply gb_bind; [exact IHe|intros; apply steps_ret|]. intros x' Qx. apply gb_ret.
    rewrite Forall_forall in Qc. named; try match goal with K : In _ cs |- _ => destruct (Qc _ K) as [Q1 Q2]; cbn [fst snd] in Q1, Q2 end.
    + exact Q1.
    + rewrite Forall_forall in Q2. auto.
    + cbn [opt_all] in Qd. rewrite Forall_forall in Qd. auto.
  - apply gb_ret, Nm.
  - assert (Sf : steps (dopt (on_seq_with on_expr) f)) by (apply steps_opt; destruct f; [apply steps_on_seq|exact I]).
    eapply gb_bind; [apply gb_seq, (Q t _ H Nm); intros; apply pt_then; assumption| |].
    { intros. apply steps_bind; [exact Sf|]. intros. apply steps_bind; [apply steps_expr|]. intros. apply steps_ret. }
    intros t' Qt. eapply gb_bind; [apply gb_opt|intros; apply steps_bind; [apply steps_expr|intros; apply steps_ret]|].
    { destruct f; [|exact I]. cbn [opt_all] in *. apply gb_seq, (Q l _ H0 Nm). intros x Ix. apply pt_else, Ix. }
    intros f' Qf. eapply gb_bind; [exact IHe|intros; apply steps_ret|]. intros x' Qx. apply gb_ret. named.
    cbn [opt_all] in Qf. rewrite Forall_forall in Qf. auto.
  - eapply gb_bind; [exact IHe1|intros; apply steps_bind; [apply steps_expr|intros; apply steps_bind; [apply steps_expr|intros; apply steps_ret]]|]. intros c' Qc.
    eapply gb_bind; [exact IHe2|intros; apply steps_bind; [apply steps_expr|intros; apply steps_ret]|]. intros t' Qt.
    eapply gb_bind; [exact IHe3|intros; apply steps_ret|]. intros f' Qf. apply gb_ret. named.
  - eapply gb_bind; [apply gb_seq, (Q b _ H Nm); intros; constructor; assumption|intros; apply steps_bind; [apply steps_expr|intros; apply steps_ret]|].
    intros b' Qb. eapply gb_bind; [exact IHe|intros; apply steps_ret|]. intros c' Qc. apply gb_ret. named.
  - unfold on_for_in, find_function.
    Ltac stepping := intros; repeat first [apply steps_ret | apply steps_expr | apply steps_read | apply steps_local | apply steps_prefix | apply steps_bind; [|intros ?]].
    eapply gb_bind; [apply gb_seq, (Q b _ H Nm); intros; constructor; assumption|stepping|]. intros b' Qb. eapply gb_bind; [exact IHe|stepping|]. intros a' Qa.
    eapply gb_bind; [apply gb_read|stepping|]. intros at_ _. eapply gb_bind; [apply gb_local|stepping|]. intros arr La.
    eapply gb_bind; [apply gb_read|stepping|]. intros int _. eapply gb_bind; [apply gb_local|stepping|]. intros counter Lc.
    eapply gb_bind; [apply gb_prefix, nb_assign; [apply La|assumption]|stepping|]. intros _ _.
    eapply gb_bind; [apply gb_prefix, nb_assign; [apply Lc|apply nb_constant]|stepping|]. intros _ _.
    eapply gb_bind; [apply gb_read|stepping|]. intros add _. eapply gb_bind; [apply gb_read|stepping|]. intros less _.
    apply gb_ret. apply nb_while.
    + apply nb_call. constructor; [apply Lc|]. constructor; [|constructor]. apply nb_call. repeat constructor. apply La.
    + constructor; [apply nb_assign; [|apply nb_elem; [apply La|apply Lc]]|].
      * apply nb_intro; [exact Hn|intros x P; inversion P].
      * apply Forall_app. split; [exact Qb|]. constructor; [|constructor]. apply nb_call. repeat constructor; [apply Lc|apply nb_constant].
  - eapply gb_bind; [exact IHe1|intros; apply steps_bind; [apply steps_expr|intros; apply steps_ret]|]. intros l' Ql.
    eapply gb_bind; [exact IHe2|intros; apply steps_ret|]. intros r' Qr. apply gb_ret. named.
  - eapply gb_bind; [exact IHe|intros; apply steps_ret|]. intros e' Qe. apply gb_ret. named.
  - apply gb_ret, Nm.
  - apply gb_ret, Nm.
  - apply gb_ret, Nm.
  - apply gb_ret, Nm.
Qed.

Lemma gb_body l d l' d' : Forall nb l -> on_seq l d = Done (l', d') -> ds_prefix d = [] -> incl (ds_locals d') L -> Forall nb l'.
Proof.
  intros F E P B. assert (G : gb (Forall nb) (on_seq l)) by (apply gb_seq; eapply Forall_impl; [|exact F]; intros e He; apply gb_expr, He).
  apply (proj2 G _ _ _ E B). rewrite P. constructor.
Qed.
End Own.

(** * The names of a body and the variables of its checked form *)

Section Code.
Variable ok : value_ref -> Prop.
Definition iok {Loc} (i : instr Loc) : Prop := match i with Local l => ok (VLocal l) | Param p => ok (VParam p) | _ => True end.
Definition eok (e : event reference pidx) : Prop := match e with Uses (RValue v) => ok v | Declares l => ok (VLocal l) | _ => True end.
Lemma flat_all {A B} (P : B -> Prop) (f : A -> list B) l : Forall P (flat_map f l) -> forall x, In x l -> Forall P (f x).
Proof. rewrite Forall_forall. intros H x I. apply Forall_forall. intros y J. apply H, in_flat_map. eauto. Qed.
Lemma own_events (e : texpr) : Forall eok (events e) -> nb ok e.
Proof.
  induction e using expr_ind'; cbn [events]; intros F.
  all: rewrite ?Forall_app in F.
  all: apply nb_intro; [|intros y P; inversion P; subst; clear P].
  all: repeat match goal with H : _ /\ _ |- _ => destruct H | H : Forall _ (Opens :: _) |- _ => apply Forall_inv_tail in H; rewrite ?Forall_app in H
         | H : Forall _ (Declares _ :: _) |- _ => pose proof (Forall_inv H); apply Forall_inv_tail in H; rewrite ?Forall_app in H end.
  all: cbn [here] in *; try exact I; try (cbn [eok] in *; assumption); auto.
  all: try match goal with H : Forall (fun _ => _ -> _) ?l, K : Forall _ (flat_map events ?l), J : In _ ?l |- _ => rewrite Forall_forall in H; apply H; [exact J|exact (flat_all _ _ _ K _ J)] end.
  - destruct r; [|exact I]. exact (Forall_inv F).
  - rewrite Forall_forall in H. match goal with J : In _ parts |- _ => exact (H _ J (flat_all _ _ _ F _ J)) end.
  - match goal with J : In _ cases |- _ => pose proof (flat_all _ _ _ H2 _ J) as K; rewrite Forall_forall in H; destruct (H _ J) as [H5 _]; apply H5 end. cbn [fst]. rewrite Forall_app in K. apply K.
  - match goal with J : In _ cases |- _ => pose proof (flat_all _ _ _ H2 _ J) as K; rewrite Forall_forall in H; destruct (H _ J) as [_ H5] end. cbn [snd] in *. rewrite Forall_forall in H5.
    match goal with J : In y _ |- _ => apply (H5 _ J) end. rewrite Forall_app in K. destruct K as [_ K]. apply Forall_inv_tail in K. rewrite Forall_app in K. destruct K as [K _].
    match goal with J : In y _ |- _ => exact (flat_all _ _ _ K _ J) end.
  - cbn [opt_all] in *. rewrite Forall_forall in H0. apply H0; [assumption|]. eapply flat_all; eassumption.
  - cbn [opt_all] in *. rewrite Forall_forall in H0. apply H0; [assumption|]. eapply flat_all; eassumption.
Qed.
Definition shows (f : amap value_ref) : Prop := forall n v, am_find f n = Some v -> ok v.
Lemma nearest_ok st n v : Forall shows st -> nearest st n = Some v -> ok v.
Proof.
  induction 1 as [|f st H _ IH]; cbn [nearest]; [discriminate|]. destruct (am_find f n) as [w|] eqn:E; [|exact IH]. intros [= <-]. eapply H, E.
Qed.
Lemma lexical_ok sy st src e st' : lexical sy st src e st' -> Forall shows st -> (forall l, In l (declared e) -> ok (VLocal l)) -> Forall eok e.
Proof.
  induction 1; intros F D; cbn [declared flat_map app] in *; [constructor|..]; constructor; cbn [eok]; auto.
  - eapply nearest_ok; eassumption.
  - apply D. now left.
  - apply IHlexical.
    + constructor; [|exact (Forall_inv_tail F)]. intros m v. cbn [am_find]. destruct (str_eqb n m); [|apply (Forall_inv F)]. intros [= <-]. apply D. now left.
    + intros k K. apply D. now right.
  - apply IHlexical; [|exact D]. constructor; [|exact F]. intros m v E. discriminate E.
  - apply IHlexical; [|exact D]. exact (Forall_inv_tail F).
Qed.

(** * Code generation names what the body names *)

Definition em {X} (m : A X) : Prop := forall t x c t', m t = Done (x, c, t') -> Forall iok c.
Lemma em_ret {X} (x : X) : em (aret x). Proof. intros t y c t' [= <- <- <-]. constructor. Qed.
Lemma em_bind {X Y} (m : A X) (k : X -> A Y) : em m -> (forall x, em (k x)) -> em (abind m k).
Proof.
  intros H K t y c t' E. unfold abind in E. destruct (m t) as [[[x c1] t1]|] eqn:E1; [|discriminate]. destruct (k x t1) as [[[z c2] t2]|] eqn:E2; [|discriminate].
  injection E as <- <- <-. apply Forall_app. split; [eapply H, E1|eapply K, E2].
Qed.
Lemma em_read {X} (f : scope -> pool -> outcome error X) : em (aread f).
Proof. intros t y c t' E. unfold aread in E. destruct (f _ _); [|discriminate]. injection E as <- <- <-. constructor. Qed.
Lemma em_fail {X} e : em (@afail X e). Proof. intros t y c t' E. discriminate E. Qed.
Lemma em_failc {X} sp e : em (@afailc X sp e). Proof. intros t y c t' E. discriminate E. Qed.
Lemma em_emit i : iok i -> em (emit i). Proof. intros H t y c t' [= <- <- <-]. auto. Qed.
Lemma em_label : em new_label. Proof. intros t y c t' [= <- <- <-]. constructor. Qed.
Lemma em_type sp ty : em (type_index sp ty).
Proof. intros t y c t' E. unfold type_index in E. destruct (with_span _ _) as [[[i s] p]|]; [|discriminate]. injection E as <- <- <-. constructor. Qed.
Lemma em_literal k s : em (literal_index k s).
Proof. intros t y c t' E. unfold literal_index in E. destruct (add_literal _ _ _). injection E as <- <- <-. constructor. Qed.
Lemma em_each {X} (f : X -> A unit) l : (forall x, In x l -> em (f x)) -> em (each f l).
Proof. induction l as [|x l IH]; cbn [each]; intros H; [apply em_ret|]. apply em_bind; [apply H; now left|]. intros _. apply IH. intros y I. apply H. now right. Qed.
Ltac em := repeat first [apply em_ret | apply em_read | apply em_fail | apply em_failc | apply em_label | apply em_type | apply em_literal
  | assumption | apply em_emit; first [exact I|assumption] | match goal with |- em (abind _ _) => apply em_bind; [|intros ?] end | progress intros
  | match goal with |- em (match ?x with _ => _ end) => destruct x end ].
Lemma em_constant c : em (emit_constant c). Proof. unfold emit_constant. em. Qed.
Lemma em_initializer sp l t : ok (VLocal l) -> em (emit_initializer sp l t).
Proof. intros H. unfold emit_initializer. destruct t; em. Qed.
Lemma em_args (f : texpr -> A unit) args : (forall x, In x args -> em (f x)) -> forall flags, em (emit_args f args flags).
Proof.
  induction args as [|a args IH]; intros H [|fl flags]; cbn [emit_args]; try apply em_ret. assert (em (f a)) by (apply H; now left).
  apply em_bind; [em|]. intros _. apply IH. intros x I. apply H. now right.
Qed.
Lemma em_call files (f : texpr -> A unit) g args st sp : (forall x, In x args -> em (f x)) -> em (emit_call files f g args st sp).
Proof.
  intros H. unfold emit_call. em; first [apply em_args, H|apply em_each; intros; apply em_emit; exact I].
Qed.
Lemma em_intrinsic op args t sp : em (emit_intrinsic op args t sp).
Proof. unfold emit_intrinsic, arg_type. destruct op, args; em. Qed.
Lemma em_cases (f : texpr -> option nat -> A unit) exit cases : (forall c, In c cases -> forall o, em (f (fst c) o) /\ (forall e, In e (snd c) -> em (f e o))) ->
  forall body next, em (emit_cases f exit cases body next).
Proof.
  induction cases as [|[m stmts] cases IH]; intros H body next; cbn [emit_cases]; [apply em_ret|].
  assert (H1 : forall o, em (f m o) /\ (forall e, In e stmts -> em (f e o))) by (intros o; apply (H _ (or_introl eq_refl) o)).
  assert (H2 : forall b n, em (emit_cases f exit cases b n)) by (apply IH; intros c I; apply H; now right).
  assert (H3 := proj1 (H1 None)). assert (H4 : em (each (fun e => f e (Some exit)) stmts)) by (apply em_each; intros x J; exact (proj2 (H1 _) x J)).
  em; apply H2.
Qed.
Lemma em_asm files e : nb ok e -> forall exit, em (asm files e exit).
Proof.
  assert (Q : forall l e, Forall (fun e => nb ok e -> forall exit, em (asm files e exit)) l -> nb ok e -> (forall x, In x l -> part x e) -> forall o x, In x l -> em (asm files x o)).
  { intros l e0 H N P o x I. rewrite Forall_forall in H. apply H; [exact I|]. eapply nb_part; [exact N|apply P, I]. }
  induction e using expr_ind'; intros Nm exit; cbn [asm].
  all: pose proof (Nm _ (wi_here _)) as Hn; cbn [here] in Hn.
  all: repeat match goal with H : nb ok ?e -> _, N : nb ok _ |- _ => specialize (H ltac:(eapply nb_part; [exact N|constructor])) end.
  all: repeat match goal with H : Forall _ ?l |- _ => pose proof (Q l _ H Nm ltac:(intros; first [now constructor|econstructor; eassumption])); clear H end.
  - destruct r as [[]|]; em.
  - apply em_constant.
  - em.
  - em.
  - destruct t, i; em; try (apply em_initializer; exact Hn); apply H; eapply nb_part; [exact Nm|constructor|exact Nm|constructor].
  - em; apply IHe.
  - em; [apply IHe1|apply IHe2].
  - destruct c; [apply em_call; auto|]. em; [apply em_intrinsic|]. apply em_each. auto.
  - assert (C : forall st isp, em (emit_call files (fun e => asm files e None) f args st isp)) by (intros; apply em_call; auto).
    assert (He : em (asm files e None)) by apply IHe. revert He. generalize (asm files e None). intros m He.
    assert (On : forall fn b, em (if get_flag fn_is_static (fu_flags fn) then gen n <- aread (fun _ p => pe (def_name p f)); afailc sp (InvalidStaticMethodCall n)
      else gen out <- new_label; gen _ <- emit (Context out); gen _ <- m; gen _ <- emit_call files (fun e => asm files e None) f args b sp; emit (Target out))).
    { intros. destruct (get_flag _ _); em. apply C. }
    apply em_bind; [apply em_read|]. intros fn. cbv zeta. destruct e; try apply On. destruct r; try apply On. destruct s; try apply On; destruct (get_flag _ _); em; apply C.
  - destruct m; em; apply IHe.
  - em; [apply IHe1|apply IHe2].
  - em. apply em_each. auto.
  - destruct e as [e|]; em. apply H. eapply nb_part; [exact Nm|constructor].
  - apply em_each. auto.
  - assert (Hd : forall b, d = Some b -> forall o x, In x b -> em (asm files x o)).
    { intros b ->. cbn [opt_all] in H0. apply (Q b _ H0 Nm). intros x J. apply pt_default, J. }
    assert (Hc : forall ex n, em (emit_cases (asm files) ex cases None n)).
    { intros. apply em_cases. intros [m b] J o. rewrite Forall_forall in H. destruct (H _ J) as [Hm Hb]. cbn [fst snd] in *. split.
      - apply Hm. eapply nb_part; [exact Nm|]. econstructor. exact J.
      - intros x Jx. apply (Q b _ Hb Nm); [|exact Jx]. intros y Jy. econstructor; eassumption. }
    em; [apply IHe|apply Hc|apply em_each; eauto].
  - em.
  - assert (Hf : forall b, f = Some b -> forall o x, In x b -> em (asm files x o)).
    { intros b ->. cbn [opt_all] in H0. apply (Q b _ H0 Nm). intros x J. apply pt_else, J. }
    em; [apply IHe|apply em_each; auto|apply em_each; eauto].
  - em; [apply IHe1|apply IHe2|apply IHe3].
  - em; [apply IHe|apply em_each; auto].
  - em.
  - em.
  - em.
  - em.
  - em.
  - em.
  - em.
Qed.
Lemma iok_loc {L1 L2} (g : L1 -> L2) i : iok i -> iok (map_loc g i).
Proof. destruct i; intros H; exact H. Qed.
Lemma resolve_ok targets cs : forall out, resolve_all targets cs = Some out -> Forall (fun c => iok (snd c)) cs -> Forall iok out.
Proof.
  induction cs as [|[loc i] cs IH]; cbn [resolve_all]; intros out E F; [injection E as <-; constructor|].
  destruct (is_target i); [apply IH; [exact E|exact (Forall_inv_tail F)]|]. unfold resolve_labels in E. destruct (forallb _ _); [|discriminate].
  destruct (resolve_all targets cs) as [r|]; [|discriminate]. injection E as <-. constructor; [apply iok_loc, (Forall_inv F)|]. eapply IH; [reflexivity|exact (Forall_inv_tail F)].
Qed.
Lemma iter_ok (c : code label) : Forall iok c -> forall o, Forall (fun x => iok (snd x)) (code_iter o c).
Proof. induction 1 as [|i c H _ IH]; intros o; cbn [code_iter]; constructor; [exact H|apply IH]. Qed.
Lemma from_body_ok files body s p out s' p' : Forall (nb ok) body -> from_body files body s p = Done (out, s', p') -> Forall iok out.
Proof.
  intros F E. unfold from_body in E. destruct (asm_body _ _ _) as [[[u c] t]|] eqn:Ec; [|discriminate].
  assert (Fc : Forall iok c).
  { eapply (em_bind _ _); [| |exact Ec]; [|intros; apply em_emit; exact I]. apply em_each. intros x J. apply em_asm. rewrite Forall_forall in F. auto. }
  unfold into_code in E. destruct (place_labels _ _); [|discriminate]. destruct (resolve_all _ _) as [o|] eqn:Er; [|discriminate]. injection E as <- <- <-.
  eapply resolve_ok; [exact Er|]. apply iter_ok, Fc.
Qed.
End Code.
(** From the names of the source to the code. *)
Lemma own_code n body t0 checked t simple made s2 p2 files s3 p3 out s4 p4 (params : list pidx) :
  check_seq (check n false) body t0 = Done (checked, t) -> (forall m v, am_find (sc_references (ts_scope t0)) m = Some v -> exists i, v = VParam i /\ In i params) ->
  desugar checked (ts_scope t) (ts_pool t) = Done (simple, made, s2, p2) -> from_body files simple s3 p3 = Done (out, s4, p4) -> ts_locals t0 = [] ->
  Forall (iok (fun v => match v with VLocal i => In i (ts_locals t ++ made) | VParam i => In i params end)) out.
Proof.
  intros E R D F L0. set (ok := fun v => _).
  assert (G : agrees (sc_symbols (ts_scope t0)) (sc_function (ts_scope t0)) [sc_references (ts_scope t0)] (ts_scope t0)).
  { split; [|now split]. intros m. cbn [nearest]. now destruct (am_find _ m). }
  pose proof (follows_seq (sc_symbols (ts_scope t0)) (sc_function (ts_scope t0)) (check n false) (follows_check _ _ n) body) as (_ & H).
  destruct (H _ _ _ _ _ E G) as (e & f' & -> & Lx & _ & Ml & _). rewrite L0 in Ml. cbn [app] in Ml.
  assert (Fe : Forall (eok ok) (flat_map events checked)).
  { eapply lexical_ok; [exact Lx| |].
    - constructor; [|constructor]. intros m v Em. destruct (R _ _ Em) as (i & -> & I). exact I.
    - intros l I. cbn [ok]. apply in_or_app. left. rewrite Ml. exact I. }
  assert (Fn : Forall (nb ok) checked).
  { apply Forall_forall. intros x I. apply own_events. eapply flat_all; eassumption. }
  unfold desugar in D. destruct (on_seq checked _) as [[body' d]|] eqn:Ed; [|discriminate]. injection D as <- <- <- <-.
  eapply from_body_ok; [|exact F]. eapply (gb_body ok (ds_locals d)); [|exact Fn|exact Ed|reflexivity|apply incl_refl].
  intros i I. cbn [ok]. apply in_or_app. right. exact I.
Qed.
