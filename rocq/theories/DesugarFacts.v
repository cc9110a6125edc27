(** What desugaring does to the pool, and which variables its output names. *)
From Coq Require Import String.
From Coq Require Import ZArith List Bool Lia.
From Verif Require Import Bytes BytesFacts Bytecode Definitions Bundle Ast TypeNames Pool Scope TypeCheck PartsSpec PoolSpec PoolFacts TypeIndexSpec TypeIndexFacts BundleFacts
  SourceMap Assembler AssemblerFacts LabelFacts Semantics BodySpec GrowFacts Desugar SugarSpec.
Import ListNotations.
Open Scope Z_scope.

Definition dgrows (d d' : dstate) : Prop := grows (ds_scope d, ds_pool d) (ds_scope d', ds_pool d').
Lemma dgrows_refl d : dgrows d d. Proof. apply grows_refl. Qed.
Lemma dgrows_trans a b c : dgrows a b -> dgrows b c -> dgrows a c. Proof. apply grows_trans. Qed.
(** The number of definitions, which is the index of the next one. *)
Definition size (p : pool) : Z := Z.of_nat (length (pl_defs p)).
Definition len (d : dstate) : Z := size (ds_pool d).
Lemma extends_size p p' : extends p p' -> size p <= size p'.
Proof. intros (H & _). apply prefix_length in H. unfold size. lia. Qed.
Lemma dgrows_len d d' : dgrows d d' -> len d <= len d'.
Proof. intros (H & _). apply extends_size, H. Qed.

Definition steps {A} (m : D A) : Prop := forall d a d', m d = Done (a, d') -> dgrows d d'.
Lemma steps_ret {A} (a : A) : steps (dret a).
Proof. intros d b d' [= <- <-]. apply dgrows_refl. Qed.
Lemma steps_bind {A B} (m : D A) (k : A -> D B) : steps m -> (forall a, steps (k a)) -> steps (dbind m k).
Proof.
  intros M K d b d' E. unfold dbind in E. destruct (m d) as [[a d1]|] eqn:Em; [|discriminate].
  eapply dgrows_trans; [exact (M _ _ _ Em)|exact (K a _ _ _ E)].
Qed.
Lemma steps_read {A} (f : scope -> pool -> outcome error A) : steps (dread f).
Proof. intros d a d' E. unfold dread in E. destruct (f _ _); [|discriminate]. injection E as <- <-. apply dgrows_refl. Qed.
Lemma steps_fail {A} e : steps (@dfail A e).
Proof. intros d a d' E. discriminate E. Qed.
Lemma steps_prefix e : steps (add_prefix e).
Proof. intros d a d' [= <- <-]. exact (dgrows_refl d). Qed.
Lemma span_done {A} sp (m : outcome cause A) a : with_span sp m = Done a -> m = Done a.
Proof. destruct m; cbn [with_span map_err]; [intros [= ->]; reflexivity|discriminate]. Qed.
(** What is known about a fresh local. *)
Lemma fresh_cases t sp d r d' : fresh_local t sp d = Done (r, d') ->
  exists fn p1 ni ti p2 i, sc_function (ds_scope d) = Some fn /\ add_name (ds_pool d) (lit "synthetic$" ++ dec (ds_count d)) = (p1, ni) /\
    get_type_index t (ds_scope d) p1 = Done (ti, ds_scope d', p2) /\
    add_definition p2 (local_definition ni fn {| lo_type := ti; lo_flags := 0 |}) = (ds_pool d', i) /\
    r = RValue (VLocal i) /\ ds_prefix d' = ds_prefix d /\ ds_locals d' = ds_locals d ++ [i].
Proof.
  intros E. unfold fresh_local in E. destruct (sc_function _) as [fn|]; [|discriminate]. destruct (add_name _ _) as [p1 ni] eqn:En.
  destruct (with_span _ _) as [[[ti s'] p2]|] eqn:Et; [|discriminate]. cbn [obind] in E. destruct (add_definition _ _) as [p3 li] eqn:Ed.
  injection E as <- <-. apply span_done in Et. exists fn, p1, ni, ti, p2, li. cbn [ds_scope ds_pool ds_prefix ds_locals]. auto 10.
Qed.
Lemma steps_local t sp : steps (fresh_local t sp).
Proof.
  intros d r d' E. apply fresh_cases in E as (fn & p1 & ni & ti & p2 & i & _ & En & Et & Ed & _). split; [|split]; cbn [fst snd].
  - eapply extends_trans; [eapply add_name_extends, En|]. eapply extends_trans; [eapply inner_extends, Et|]. eapply extends_add_definition, Ed.
  - eapply gti_scope, Et.
  - eapply gti_this, Et.
Qed.
Lemma steps_map {A B} (f : A -> D B) l : Forall (fun x => steps (f x)) l -> steps (dmap f l).
Proof.
  induction 1 as [|x l Hx _ IH]; cbn [dmap]; [apply steps_ret|].
  apply steps_bind; [exact Hx|]. intros y. apply steps_bind; [exact IH|]. intros ys. apply steps_ret.
Qed.
Lemma steps_opt {A B} (f : A -> D B) o : opt_all (fun x => steps (f x)) o -> steps (dopt f o).
Proof. destruct o as [x|]; cbn [dopt opt_all]; intros H; [|apply steps_ret]. apply steps_bind; [exact H|]. intros y. apply steps_ret. Qed.
Lemma steps_seq rec l : Forall (fun e => steps (rec e)) l -> steps (on_seq_with rec l).
Proof.
  induction 1 as [|e l He _ IH]; cbn [on_seq_with]; [apply steps_ret|]. apply steps_bind; [exact He|]. intros done. apply steps_bind.
  - intros d a d' [= <- <-]. exact (dgrows_refl d).
  - intros pre. apply steps_bind; [exact IH|]. intros rest. apply steps_ret.
Qed.
Lemma steps_cases rec rec_seq cases : Forall (fun c => steps (rec (fst c)) /\ steps (rec_seq (snd c))) cases -> steps (on_cases rec rec_seq cases).
Proof.
  induction 1 as [|[m b] l [Hm Hb] _ IH]; cbn [on_cases fst snd] in *; [apply steps_ret|].
  apply steps_bind; [exact Hb|]. intros b'. apply steps_bind; [exact Hm|]. intros m'. apply steps_bind; [exact IH|]. intros rest. apply steps_ret.
Qed.
Lemma steps_elements rec local sp es : Forall (fun e => steps (rec e)) es -> forall i, steps (array_elements rec local sp i es).
Proof.
  induction 1 as [|e l He _ IH]; intros i; cbn [array_elements]; [apply steps_ret|].
  apply steps_bind; [exact He|]. intros e'. apply steps_bind; [apply steps_prefix|]. intros _. apply IH.
Qed.
Lemma steps_parts rec add st sp parts : Forall (fun x => steps (rec (fst x))) parts -> forall acc, steps (text_parts rec add st sp acc parts).
Proof.
  induction 1 as [|[e s] l He _ IH]; intros acc; cbn [text_parts fst] in *; [apply steps_ret|].
  apply steps_bind; [exact He|]. intros e1. apply steps_bind; [apply steps_read|]. intros t. apply steps_bind; [apply steps_read|]. intros e2. apply IH.
Qed.
Lemma steps_expr e : steps (on_expr e).
Proof.
  induction e using expr_ind'; cbn [on_expr]; unfold on_array_lit, on_interpolated, on_for_in, find_function;
  repeat first
    [ apply steps_ret | apply steps_fail | assumption | apply steps_read | apply steps_local | apply steps_prefix
    | match goal with |- forall _, steps _ => intros ? end
    | apply steps_bind | apply steps_seq; assumption | apply steps_map; assumption | apply steps_opt; assumption | apply steps_parts; assumption
    | apply steps_elements; assumption
    | match goal with |- steps (match ?x with _ => _ end) => destruct x end
    | apply steps_opt; match goal with H : opt_all _ ?o |- opt_all _ ?o => destruct o; [apply steps_seq, H|exact I] end ].
  apply steps_cases. eapply Forall_impl; [|eassumption]. intros c [Hm Hb]. split; [exact Hm|]. apply steps_seq, Hb.
Qed.
Lemma steps_on_seq l : steps (on_seq l).
Proof. apply steps_seq, Forall_forall. intros. apply steps_expr. Qed.

(** * The variables named *)

Definition nb (n : Z) : texpr -> Prop := names_no (fun i => n <= i).
Lemma nb_part n x e : nb n e -> part x e -> nb n x.
Proof. intros N P y W. apply N. econstructor; eassumption. Qed.
Lemma nb_less n m e : n <= m -> nb n e -> nb m e.
Proof.
  intros L N x W. specialize (N x W). destruct x; try exact I; [destruct r as [[]|]; try exact I| |]; intros Q; apply N; lia.
Qed.
Definition here (n : Z) (e : texpr) : Prop :=
  match e with EIdent (RValue (VLocal i)) _ | EDeclare i _ _ _ | EForIn i _ _ _ => ~ n <= i | _ => True end.
Lemma nb_intro n e : here n e -> (forall x, part x e -> nb n x) -> nb n e.
Proof. intros N P x W. inversion W; subst; [exact N|]. eapply P; eassumption. Qed.
Ltac named := apply nb_intro; [first [exact I | assumption]|]; intros ? P; inversion P; subst; clear P;
  repeat match goal with H : In _ (_ :: _) |- _ => cbn [In] in H | H : _ \/ _ |- _ => destruct H as [H|H] | H : False |- _ => destruct H
         | H : In ?x ?l, F : Forall _ ?l |- _ => exact (proj1 (Forall_forall _ _) F x H) end; subst; try assumption.

Section Below.
Variable n : Z.
(** If everything is below [n], the result satisfies [Q] and what waits in front
    names variables below [n] only. *)
Definition gb {A} (Q : A -> Prop) (m : D A) : Prop := steps m /\ forall d a d', m d = Done (a, d') -> len d' <= n ->
  Forall (nb n) (ds_prefix d) -> Q a /\ Forall (nb n) (ds_prefix d').
Lemma gb_ret {A} (Q : A -> Prop) a : Q a -> gb Q (dret a).
Proof. intros H. split; [apply steps_ret|]. intros d b d' [= <- <-] _ F. auto. Qed.
Lemma gb_bind {A B} (P : A -> Prop) (Q : B -> Prop) (m : D A) (k : A -> D B) :
  gb P m -> (forall a, steps (k a)) -> (forall a, P a -> gb Q (k a)) -> gb Q (dbind m k).
Proof.
  intros [S M] SK K. split; [apply steps_bind; assumption|]. intros d b d' E L F. unfold dbind in E. destruct (m d) as [[a d1]|] eqn:Em; [|discriminate].
  pose proof (dgrows_len _ _ (SK a _ _ _ E)). destruct (M _ _ _ Em ltac:(lia) F) as [Pa F1]. exact (proj2 (K a Pa) _ _ _ E L F1).
Qed.
Definition any {A} (a : A) : Prop := True.
Lemma gb_read {A} (f : scope -> pool -> outcome error A) : gb any (dread f).
Proof. split; [apply steps_read|]. intros d a d' E _ F. unfold dread in E. destruct (f _ _); [|discriminate]. injection E as <- <-. split; [exact I|exact F]. Qed.
Lemma gb_fail {A} (Q : A -> Prop) e : gb Q (dfail e).
Proof. split; [apply steps_fail|]. intros d a d' E. discriminate E. Qed.
Lemma gb_prefix e : nb n e -> gb any (add_prefix e).
Proof. intros H. split; [apply steps_prefix|]. intros d a d' [= <- <-] _ F. split; [exact I|]. cbn [set_prefix ds_prefix]. apply Forall_app. auto. Qed.
Definition low (r : reference) : Prop := forall sp, nb n (tident r sp).
Lemma add_definition_low p d p' i : add_definition p d = (p', i) -> i < size p'.
Proof.
  unfold add_definition, size, set_defs. intros [= <- <-]. cbn [pl_defs]. rewrite app_length. cbn [length].
  pose proof (Z.mod_le (Z.of_nat (length (pl_defs p))) (2 ^ 32)). unfold wrap_u. lia.
Qed.
Lemma gb_local t sp : gb low (fresh_local t sp).
Proof.
  split; [apply steps_local|]. intros d r d' E L F. apply fresh_cases in E as (fn & p1 & ni & ti & p2 & i & _ & _ & _ & Ed & -> & Ep & _).
  split; [|rewrite Ep; exact F]. intros sp'. apply nb_intro; [|intros x P; inversion P]. cbn [here tident]. apply add_definition_low in Ed. unfold len in L. lia.
Qed.
Lemma gb_map {A B} (Q : B -> Prop) (f : A -> D B) l : Forall (fun x => gb Q (f x)) l -> gb (Forall Q) (dmap f l).
Proof.
  induction 1 as [|x l Hx Hl IH]; cbn [dmap]; [apply gb_ret; constructor|].
  eapply gb_bind; [exact Hx|intros y; apply steps_bind; [apply IH|intros; apply steps_ret]|]. intros y Qy.
  eapply gb_bind; [exact IH|intros; apply steps_ret|]. intros ys Qs. apply gb_ret. constructor; assumption.
Qed.
Lemma gb_opt {A B} (Q : B -> Prop) (f : A -> D B) o : opt_all (fun x => gb Q (f x)) o -> gb (opt_all Q) (dopt f o).
Proof.
  destruct o as [x|]; cbn [dopt opt_all]; intros H; [|apply gb_ret; exact I].
  eapply gb_bind; [exact H|intros; apply steps_ret|]. intros y Qy. apply gb_ret. exact Qy.
Qed.
Lemma gb_seq rec l : Forall (fun e => gb (nb n) (rec e)) l -> gb (Forall (nb n)) (on_seq_with rec l).
Proof.
  induction 1 as [|e l He _ IH]; cbn [on_seq_with]; [apply gb_ret; constructor|].
  assert (S0 : steps (fun d => Done (ds_prefix d, set_prefix [] d))) by (intros d a d' [= <- <-]; exact (dgrows_refl d)).
  eapply gb_bind; [exact He|intros; apply steps_bind; [exact S0|intros; apply steps_bind; [apply IH|intros; apply steps_ret]]|].
  intros done Qd. eapply gb_bind with (P := Forall (nb n)).
  - split; [exact S0|]. intros d a d' [= <- <-] _ F. split; [exact F|constructor].
  - intros; apply steps_bind; [apply IH|intros; apply steps_ret].
  - intros pre Qp. eapply gb_bind; [exact IH|intros; apply steps_ret|]. intros rest Qr. apply gb_ret. apply Forall_app. split; [exact Qp|]. constructor; assumption.
Qed.
Lemma gb_cases rec rec_seq cases :
  Forall (fun c => gb (nb n) (rec (fst c)) /\ gb (Forall (nb n)) (rec_seq (snd c))) cases ->
  gb (Forall (fun c => nb n (fst c) /\ Forall (nb n) (snd c))) (on_cases rec rec_seq cases).
Proof.
  induction 1 as [|[m b] l [Hm Hb] _ IH]; cbn [on_cases fst snd] in *; [apply gb_ret; constructor|].
  assert (S1 : forall m' b', steps (then rest <- on_cases rec rec_seq l; dret ((m', b') :: rest))) by (intros; apply steps_bind; [apply IH|intros; apply steps_ret]).
  eapply gb_bind; [exact Hb|intros b'; apply steps_bind; [apply Hm|intros m'; apply S1]|]. intros b' Qb.
  eapply gb_bind; [exact Hm|intros m'; apply S1|]. intros m' Qm. eapply gb_bind; [exact IH|intros; apply steps_ret|].
  intros rest Qr. apply gb_ret. constructor; [split; assumption|exact Qr].
Qed.
Lemma nb_constant c sp : nb n (EConstant c sp). Proof. named. Qed.
Lemma nb_call c ts args sp : Forall (nb n) args -> nb n (ECall c ts args sp).
Proof. intros F. named. Qed.
Lemma nb_assign l r sp : nb n l -> nb n r -> nb n (EAssign l r sp).
Proof. intros. named. Qed.
Lemma nb_elem l r sp : nb n l -> nb n r -> nb n (EArrayElem l r sp).
Proof. intros. named. Qed.
Lemma nb_as_ref t sp e : nb n e -> nb n (as_ref t sp e).
Proof. intros. apply nb_call. auto. Qed.
Lemma nb_while c b sp : nb n c -> Forall (nb n) b -> nb n (EWhile c b sp).
Proof. intros. named. Qed.
Lemma gb_elements rec local sp es : Forall (fun e => gb (nb n) (rec e)) es -> low local ->
  forall i, gb any (array_elements rec local sp i es).
Proof.
  intros H Lo. assert (S : forall e, In e es -> steps (rec e)) by (rewrite Forall_forall in H; intros e I; apply H, I).
  induction H as [|e l He _ IH]; intros i; cbn [array_elements]; [apply gb_ret; exact I|].
  assert (S1 : forall j, steps (array_elements rec local sp j l)) by (apply steps_elements; apply Forall_forall; intros x Ix; apply S; right; exact Ix).
  eapply gb_bind; [exact He|intros; apply steps_bind; [apply steps_prefix|intros; apply S1]|]. intros e' Qe. eapply gb_bind; [apply gb_prefix|intros; apply S1|].
  - apply nb_assign; [apply nb_elem; [apply Lo|apply nb_constant]|exact Qe].
  - intros _ _. apply IH. intros x Ix. apply S. right. exact Ix.
Qed.
Lemma nb_as_text st sp part t p e : nb n part -> as_text st sp part t p = Done e -> nb n e.
Proof.
  intros F. unfold as_text.
  assert (O : (let* n := pe (ti_pretty p t) in Done (if str_eqb n (lit "String") then as_ref st sp part
    else as_ref st sp (ECall (N := typed_ast) (CIntrinsic IToString st) [] [part] sp))) = Done e -> nb n e).
  { destruct (pe _) as [m|]; [|discriminate]. cbn [obind]. intros [= <-].
    destruct (str_eqb _ _); apply nb_as_ref; [exact F|]. apply nb_call. auto. }
  destruct t; try exact O; try discriminate. destruct (pe (ti_pretty p t)) as [m|]; [|discriminate]. cbn [obind].
  destruct (str_eqb m _); [|exact O]. intros [= <-]. exact F.
Qed.
Lemma gb_parts rec add st sp parts : Forall (fun x => gb (nb n) (rec (fst x))) parts ->
  forall acc, nb n acc -> gb (nb n) (text_parts rec add st sp acc parts).
Proof.
  intros H. assert (S : Forall (fun x => steps (rec (fst x))) parts) by (eapply Forall_impl; [|exact H]; intros x Hx; apply Hx). revert S.
  induction H as [|[e s] l He _ IH]; intros S acc Fa; cbn [text_parts fst] in *; [apply gb_ret, Fa|].
  assert (Sl : forall acc, steps (text_parts rec add st sp acc l)) by (apply steps_parts; inversion S; assumption).
  eapply gb_bind; [exact He| |].
  { intros. apply steps_bind; [apply steps_read|]. intros. apply steps_bind; [apply steps_read|]. intros. apply Sl. }
  intros e1 F1. eapply gb_bind; [apply gb_read| |].
  { intros. apply steps_bind; [apply steps_read|]. intros. apply Sl. }
  intros t _. eapply gb_bind with (P := nb n); [|intros; apply Sl|].
  - split; [apply steps_read|]. intros d a d' E _ F. unfold dread in E. destruct (as_text _ _ _ _ _) as [x|] eqn:X; [|discriminate]. injection E as <- <-.
    split; [eapply nb_as_text; eassumption|exact F].
  - intros e2 F2. apply IH; [inversion S; assumption|]. apply nb_call. constructor; [apply nb_as_ref, Fa|]. constructor; [|constructor].
    destruct s; [exact F2|]. apply nb_as_ref, nb_call. constructor; [exact F2|]. constructor; [apply nb_as_ref, nb_constant|constructor].
Qed.
Lemma gb_expr e : nb n e -> gb (nb n) (on_expr e).
Proof.
  assert (Q : forall l e, Forall (fun e => nb n e -> gb (nb n) (on_expr e)) l -> nb n e -> (forall x, In x l -> part x e) -> Forall (fun e => gb (nb n) (on_expr e)) l).
  { intros l e0 H N P. rewrite Forall_forall in *. intros x I. apply H; [exact I|]. eapply nb_part; [exact N|apply P, I]. }
  induction e using expr_ind'; intros Nm; split; try apply steps_expr; cbn [on_expr].
  all: match goal with |- forall d a d', ?m d = _ -> _ => cut (gb (nb n) m); [intros G; exact (proj2 G)|] end.
  all: pose proof (Nm _ (wi_here _)) as Hn; cbn in Hn.
  all: repeat match goal with H : nb n ?e -> _, N : nb n _ |- _ => specialize (H ltac:(eapply nb_part; [exact N|constructor])) end.
  - apply gb_ret, Nm.
  - apply gb_ret, Nm.
  - unfold on_array_lit. destruct t as [t|]; [|apply gb_fail]. assert (H' := Q es _ H Nm ltac:(intros; constructor; assumption)).
    assert (S1 : forall r i, steps (array_elements on_expr r sp i es)) by (intros; apply steps_elements, Forall_forall; intros; apply steps_expr).
    eapply gb_bind; [apply gb_local| |].
    { intros. apply steps_bind; [apply steps_prefix|]. intros. apply steps_bind; [apply S1|]. intros. apply steps_ret. }
    intros local Ql. eapply gb_bind; [apply gb_prefix, nb_call; repeat constructor; [apply Ql|apply nb_constant]| |].
    { intros. apply steps_bind; [apply S1|]. intros. apply steps_ret. }
    intros _ _. eapply gb_bind; [apply gb_elements; assumption|intros; apply steps_ret|]. intros _ _. apply gb_ret, Ql.
  - unfold on_interpolated.
    assert (S1 : forall add st acc, steps (text_parts on_expr add st sp acc parts)) by (intros; apply steps_parts, Forall_forall; intros; apply steps_expr).
    eapply gb_bind; [apply gb_read| |]. { intros. apply steps_bind; [apply steps_read|]. intros. apply S1. }
    intros st _. eapply gb_bind; [apply gb_read|intros; apply S1|]. intros add _.
    apply gb_parts; [|apply nb_constant]. rewrite Forall_forall in *. intros [x t] Ix. apply (H _ Ix). eapply nb_part; [exact Nm|]. econstructor. exact Ix.
  - eapply gb_bind; [apply gb_opt|intros; apply steps_ret|].
    { destruct i; [|exact I]. apply H. eapply nb_part; [exact Nm|constructor]. }
    intros i' Qi. apply gb_ret. destruct i'; named.
  - eapply gb_bind; [exact IHe|intros; apply steps_ret|]. intros e' Qe. apply gb_ret. named.
  - eapply gb_bind; [exact IHe1|intros; apply steps_bind; [apply steps_expr|intros; apply steps_ret]|]. intros l' Ql.
    eapply gb_bind; [exact IHe2|intros; apply steps_ret|]. intros r' Qr. apply gb_ret. named.
  - eapply gb_bind; [apply gb_map, (Q args _ H Nm); intros; constructor; assumption|intros; apply steps_ret|]. intros l' Ql. apply gb_ret. named.
  - eapply gb_bind; [exact IHe|intros; apply steps_bind; [apply steps_map, Forall_forall; intros; apply steps_expr|intros; apply steps_ret]|]. intros e' Qe.
    eapply gb_bind; [apply gb_map, (Q args _ H Nm); intros; constructor; assumption|intros; apply steps_ret|]. intros l' Ql. apply gb_ret. named.
  - eapply gb_bind; [exact IHe|intros; apply steps_ret|]. intros e' Qe. apply gb_ret. named.
  - eapply gb_bind; [exact IHe1|intros; apply steps_bind; [apply steps_expr|intros; apply steps_ret]|]. intros l' Ql.
    eapply gb_bind; [exact IHe2|intros; apply steps_ret|]. intros r' Qr. apply gb_ret. named.
  - eapply gb_bind; [apply gb_map, (Q args _ H Nm); intros; constructor; assumption|intros; apply steps_ret|]. intros l' Ql. apply gb_ret. named.
  - eapply gb_bind; [apply gb_opt|intros; apply steps_ret|].
    { destruct e; [|exact I]. apply H. eapply nb_part; [exact Nm|constructor]. }
    intros i' Qi. apply gb_ret. destruct i'; named.
  - eapply gb_bind; [apply gb_seq, (Q es _ H Nm); intros; constructor; assumption|intros; apply steps_ret|]. intros l' Ql. apply gb_ret. named.
  - assert (Sd : steps (dopt (on_seq_with on_expr) d)) by (apply steps_opt; destruct d; [apply steps_on_seq|exact I]).
    eapply gb_bind; [apply gb_cases| |].
    { apply Forall_forall. intros [m b] Ic. rewrite Forall_forall in H. destruct (H _ Ic) as [Hm Hb]. cbn [fst snd] in *. split.
      - apply Hm. eapply nb_part; [exact Nm|]. econstructor. exact Ic.
      - apply gb_seq, (Q b _ Hb Nm). intros x Ix. econstructor; eassumption. }
    { intros. apply steps_bind; [exact Sd|]. intros. apply steps_bind; [apply steps_expr|]. intros. apply steps_ret. }
    intros cs Qc. eapply gb_bind; [apply gb_opt|intros; apply steps_bind; [apply steps_expr|intros; apply steps_ret]|].
    { destruct d; [|exact I]. cbn [opt_all] in *. apply gb_seq, (Q l _ H0 Nm). intros x Ix. apply pt_default, Ix. }
    intros d' Qd. eapply gb_bind; [exact IHe|intros; apply steps_ret|]. intros x' Qx. apply gb_ret.
    rewrite Forall_forall in Qc. named; try match goal with K : In _ cs |- _ => destruct (Qc _ K) as [Q1 Q2]; cbn [fst snd] in Q1, Q2 end.
    + exact Q1.
    + rewrite Forall_forall in Q2. auto.
    + cbn [opt_all] in Qd. rewrite Forall_forall in Qd. auto.
  - apply gb_ret, Nm.
  - assert (Sf : steps (dopt (on_seq_with on_expr) f)) by (apply steps_opt; destruct f; [apply steps_on_seq|exact I]).
    eapply gb_bind; [apply gb_seq, (Q t _ H Nm); intros; apply pt_then; assumption| |].
    { intros. apply steps_bind; [exact Sf|]. intros. apply steps_bind; [apply steps_expr|]. intros. apply steps_ret. }
    intros t' Qt. eapply gb_bind; [apply gb_opt|intros; apply steps_bind; [apply steps_expr|intros; apply steps_ret]|].
    { destruct f; [|exact I]. cbn [opt_all] in *. apply gb_seq, (Q l _ H0 Nm). intros x Ix. apply pt_else, Ix. }
    intros f' Qf. eapply gb_bind; [exact IHe|intros; apply steps_ret|]. intros x' Qx. apply gb_ret. named.
    cbn [opt_all] in Qf. rewrite Forall_forall in Qf. auto.
  - eapply gb_bind; [exact IHe1|intros; apply steps_bind; [apply steps_expr|intros; apply steps_bind; [apply steps_expr|intros; apply steps_ret]]|]. intros c' Qc.
    eapply gb_bind; [exact IHe2|intros; apply steps_bind; [apply steps_expr|intros; apply steps_ret]|]. intros t' Qt.
    eapply gb_bind; [exact IHe3|intros; apply steps_ret|]. intros f' Qf. apply gb_ret. named.
  - eapply gb_bind; [apply gb_seq, (Q b _ H Nm); intros; constructor; assumption|intros; apply steps_bind; [apply steps_expr|intros; apply steps_ret]|].
    intros b' Qb. eapply gb_bind; [exact IHe|intros; apply steps_ret|]. intros c' Qc. apply gb_ret. named.
  - unfold on_for_in, find_function.
    Ltac stepping := intros; repeat first [apply steps_ret | apply steps_expr | apply steps_read | apply steps_local | apply steps_prefix | apply steps_bind; [|intros ?]].
    eapply gb_bind; [apply gb_seq, (Q b _ H Nm); intros; constructor; assumption|stepping|]. intros b' Qb. eapply gb_bind; [exact IHe|stepping|]. intros a' Qa.
    eapply gb_bind; [apply gb_read|stepping|]. intros at_ _. eapply gb_bind; [apply gb_local|stepping|]. intros arr La.
    eapply gb_bind; [apply gb_read|stepping|]. intros int _. eapply gb_bind; [apply gb_local|stepping|]. intros counter Lc.
    eapply gb_bind; [apply gb_prefix, nb_assign; [apply La|assumption]|stepping|]. intros _ _.
    eapply gb_bind; [apply gb_prefix, nb_assign; [apply Lc|apply nb_constant]|stepping|]. intros _ _.
    eapply gb_bind; [apply gb_read|stepping|]. intros add _. eapply gb_bind; [apply gb_read|stepping|]. intros less _.
    apply gb_ret. apply nb_while.
    + apply nb_call. constructor; [apply Lc|]. constructor; [|constructor]. apply nb_call. repeat constructor. apply La.
    + constructor; [apply nb_assign; [|apply nb_elem; [apply La|apply Lc]]|].
      * apply nb_intro; [exact Hn|intros x P; inversion P].
      * apply Forall_app. split; [exact Qb|]. constructor; [|constructor]. apply nb_call. repeat constructor; [apply Lc|apply nb_constant].
  - eapply gb_bind; [exact IHe1|intros; apply steps_bind; [apply steps_expr|intros; apply steps_ret]|]. intros l' Ql.
    eapply gb_bind; [exact IHe2|intros; apply steps_ret|]. intros r' Qr. apply gb_ret. named.
  - eapply gb_bind; [exact IHe|intros; apply steps_ret|]. intros e' Qe. apply gb_ret. named.
  - apply gb_ret, Nm.
  - apply gb_ret, Nm.
  - apply gb_ret, Nm.
  - apply gb_ret, Nm.
Qed.
End Below.

(** * Fresh locals *)

(** What the pool and the scope are like before and after each step. *)
Record sound (d : dstate) : Prop := { so_ok : pool_ok (ds_pool d); so_shaped : types_shaped (ds_scope d) (ds_pool d) }.
Lemma fresh_spec t sp d r d' : fresh_local t sp d = Done (r, d') -> small (ds_pool d') ->
  exists i ti, r = RValue (VLocal i) /\ len d <= i /\ len d' = i + 1 /\ ds_prefix d' = ds_prefix d /\
    get_local (ds_pool d') i = Done {| lo_type := ti; lo_flags := 0 |} /\
    (sound d -> known (ds_scope d) (ds_pool d) t -> sound d' /\ resolve_type_from_pool (ds_scope d') (ds_pool d') ti = Done t).
Proof.
  intros E Hs. apply fresh_cases in E as (fn & p1 & ni & ti & p2 & i & _ & En & Et & Ed & -> & Ep & _).
  destruct (add_definition_spec _ _ _ _ Ed Hs) as (D1 & _ & D3 & D4 & D5 & D6).
  pose proof (add_name_extends _ _ _ _ En) as X1. pose proof (inner_extends _ _ _ _ _ _ Et) as X2.
  exists i, ti. split; [reflexivity|]. pose proof (extends_size _ _ X1). pose proof (extends_size _ _ X2).
  assert (size p2 = i) by (unfold size; lia). split; [unfold len; lia|]. split.
  { unfold len, size in *. injection Ed as <- _. cbn [set_defs pl_defs]. rewrite app_length. cbn [length]. lia. }
  split; [exact Ep|]. split; [unfold get_local, def_by; rewrite D3; reflexivity|].
  intros [Hok Ht] Hk. pose proof (extends_small _ _ D1 Hs) as S2. pose proof (extends_small _ _ X2 S2) as S1.
  destruct (add_name_spec _ _ _ _ En Hok S1) as (O1 & _).
  assert (T1 : types_shaped (ds_scope d) p1) by (intros m j Ej; eapply shaped_grows; [exact X1|apply scope_grows_refl|apply Ht, Ej]).
  assert (K1 : known (ds_scope d) p1 t) by (eapply known_grows; [exact X1|apply scope_grows_refl|exact Hk]).
  destruct (request_names _ _ _ _ _ _ Et O1 S2 (types_shaped_named _ _ T1)) as (R1 & R2 & R3 & _).
  destruct (request_shapes _ _ _ _ _ _ Et O1 S2 K1 T1) as (W1 & m & W2 & W3). split.
  - split; [exact (D6 R1)|]. intros k j Ej. eapply shaped_grows; [exact D1|apply scope_grows_refl|apply W1, Ej].
  - eapply shaped_resolve.
    + eapply known_grows; [exact D1|apply scope_grows_refl|]. eapply known_grows; [exact X2|exact R3|exact K1].
    + eapply extends_repr; [eapply extends_trans; [exact X2|exact D1]|exact W2].
    + eapply shaped_grows; [exact D1|apply scope_grows_refl|exact W3].
Qed.
Lemma fresh_type sp i ti t d s p : get_local (ds_pool d) i = Done {| lo_type := ti; lo_flags := 0 |} ->
  resolve_type_from_pool (ds_scope d) (ds_pool d) ti = Done t -> grows (ds_scope d, ds_pool d) (s, p) ->
  type_of (tident (RValue (VLocal i)) sp) s p = Done t.
Proof.
  intros L Rt G. cbn [tident type_of]. assert (L' : get_local p i = Done {| lo_type := ti; lo_flags := 0 |}) by exact (extends_def_by _ _ _ _ _ (proj1 G) L).
  rewrite L'. cbn [pe map_err obind lo_type].
  eapply pool_type_stable; [exact G|]. unfold pool_type. rewrite Rt. reflexivity.
Qed.
Lemma known_name s p t : known s p t -> exists n, name_of p t = Some n.
Proof. intros K. destruct (known_repr s p p t (extends_refl p) K) as (n & E & _). exists n. unfold name_of. rewrite E. reflexivity. Qed.

(** * What a for-in loop becomes *)

Lemma find_cases sig sp d c d' : find_function sig sp d = Done (c, d') -> d' = d /\ exists f, c = CFunction f /\ def_name (ds_pool d) f = Done sig.
Proof.
  unfold find_function, dread. destruct (resolve_function _ _) as [l|]; cbn [obind with_span map_err]; [|discriminate].
  destruct (by_id l sig _) as [i|] eqn:B; [|discriminate]. intros [= <- <-]. split; [reflexivity|]. exists i. split; [reflexivity|].
  unfold by_id in B. apply find_some in B as [_ B]. destruct (def_name _ i) as [m|]; [|discriminate]. destruct (str_eqb_spec m sig); [congruence|discriminate].
Qed.
Definition setup (arr counter : reference) (a : texpr) (sp : span) : list texpr :=
  [EAssign (N := typed_ast) (tident arr sp) a sp; EAssign (N := typed_ast) (tident counter sp) (EConstant (CI32 0) sp) sp].
Definition the_loop (l : pidx) (arr counter : reference) (less add : pidx) (int : typeid) (body : list texpr) (sp : span) : texpr :=
  EWhile (N := typed_ast) (loop_condition (CFunction less) int arr counter sp)
    (loop_element l arr counter sp :: body ++ [loop_step (CFunction add) counter sp]) sp.
Lemma for_in_cases l a body sp d out d' : on_expr (EForIn l a body sp) d = Done (out, d') ->
  exists body' d1 a' d2 t arr d3 int counter d4 less add,
    on_seq body d = Done (body', d1) /\ on_expr a d1 = Done (a', d2) /\ type_of a' (ds_scope d2) (ds_pool d2) = Done t /\
    fresh_local t sp d2 = Done (arr, d3) /\ named_type (ds_scope d3) (ds_pool d3) sp tn_INT32 = Done int /\ fresh_local int sp d3 = Done (counter, d4) /\
    def_name (ds_pool d') less = Done (lit "OperatorLess;Int32Int32;Bool") /\ def_name (ds_pool d') add = Done (lit "OperatorAssignAdd;OutInt32Int32;Int32") /\
    ds_scope d' = ds_scope d4 /\ ds_pool d' = ds_pool d4 /\ ds_prefix d' = ds_prefix d4 ++ setup arr counter a' sp /\
    out = the_loop l arr counter less add int body' sp.
Proof.
  cbn [on_expr]. unfold on_for_in, dbind. fold on_seq. intros E.
  destruct (on_seq body d) as [[body' d1]|] eqn:E1; [|discriminate]. destruct (on_expr a d1) as [[a' d2]|] eqn:E2; [|discriminate].
  unfold dread at 1 in E. destruct (type_of a' _ _) as [t|] eqn:E3; [|discriminate].
  destruct (fresh_local t sp d2) as [[arr d3]|] eqn:E4; [|discriminate].
  unfold dread at 1 in E. destruct (named_type _ _ _ _) as [int|] eqn:E5; [|discriminate].
  destruct (fresh_local int sp d3) as [[counter d4]|] eqn:E6; [|discriminate]. cbn [add_prefix] in E.
  destruct (find_function assign_add_sig sp _) as [[add d5]|] eqn:E7; [|discriminate]. apply find_cases in E7 as (-> & f & -> & E7).
  destruct (find_function less_sig sp _) as [[less d5]|] eqn:E8; [|discriminate]. apply find_cases in E8 as (-> & g & -> & E8).
  injection E as <- <-. cbn [set_prefix ds_pool ds_scope ds_prefix] in *.
  exists body', d1, a', d2, t, arr, d3, int, counter, d4, g, f. rewrite <- app_assoc. auto 15.
Qed.
