(** Type checking, desugaring and code generation only append to the pool, and what
    they append are not classes. *)
From Coq Require Import String.
From Coq Require Import ZArith List Bool Lia.
From Verif Require Import Bytes Bytecode Definitions Bundle Ast TypeNames Pool Scope TypeCheck PartsSpec PoolSpec PoolFacts TypeIndexSpec TypeIndexFacts
  SourceMap Cursor Assembler AssemblerFacts LabelFacts Desugar Wrappers WrapSpec WrapFacts WrapSteps.
From Verif Require GrowFacts DesugarFacts WellTypedFacts.
Import ListNotations.
Open Scope Z_scope.

Definition tidy (p p' : pool) : Prop := extends p p' /\ adds p p'.
Lemma tidy_refl p : tidy p p.
Proof. split; [apply extends_refl|apply adds_refl]. Qed.
Lemma tidy_trans p q r : tidy p q -> tidy q r -> tidy p r.
Proof. intros [A B] [C D]. split; [exact (extends_trans _ _ _ A C)|exact (adds_trans _ _ _ B D)]. Qed.
Lemma tidy_name p n p' i : add_name p n = (p', i) -> tidy p p'.
Proof. intros E. split; [exact (add_name_extends _ _ _ _ E)|exact (adds_name _ _ _ _ E)]. Qed.
Lemma tidy_def p d p' i : add_definition p d = (p', i) -> passive d -> tidy p p'.
Proof. intros E I. split; [exact (extends_add_definition _ _ _ _ E)|exact (adds_def _ _ _ _ E I)]. Qed.
Lemma tidy_type t s p i s' p' : get_type_index t s p = Done (i, s', p') -> tidy p p'.
Proof. intros E. split; [exact (inner_extends _ _ _ _ _ _ E)|exact (adds_gti _ _ _ _ _ _ E)]. Qed.

(** The checker. *)
Lemma tidy_moves {A} (m : M A) st a st' : WellTypedFacts.moves m -> m st = Done (a, st') -> tidy (ts_pool st) (ts_pool st').
Proof. intros H E. destruct (H _ _ _ E) as [X Y _ _ _ _]. now split. Qed.
Lemma tidy_check_seq fuel pm es st r st' : check_seq (check fuel pm) es st = Done (r, st') -> tidy (ts_pool st) (ts_pool st').
Proof. apply tidy_moves, WellTypedFacts.moves_seq, WellTypedFacts.moves_check. Qed.
Lemma tidy_convert fuel pm e t st r st' : check_and_convert (check fuel pm) e t st = Done (r, st') -> tidy (ts_pool st) (ts_pool st').
Proof. apply tidy_moves, WellTypedFacts.moves_convert, WellTypedFacts.moves_check. Qed.

(** The code generator. *)
Lemma tidy_body files body s p c s1 p1 : from_body files body s p = Done (c, s1, p1) -> tidy p p1.
Proof.
  intros E. split; [|exact (from_body_adds _ _ _ _ _ _ _ E)]. revert E.
  unfold from_body. destruct (asm_body files body _) as [[[u lc] t]|] eqn:EA; [|discriminate]. destruct u.
  destruct (into_code (as_labels t) lc) as [out|] eqn:EI; [|discriminate]. intros [= <- <- <-]. apply body_sound in EA as (lc' & GS & ->).
  destruct GrowFacts.gens_keeps as (_ & _ & G & _). exact (proj1 (proj1 (G _ _ _ _ _ GS))).
Qed.

(** The desugarer. *)
Definition lays {A} (m : D A) : Prop := forall d a d', m d = Done (a, d') -> tidy (ds_pool d) (ds_pool d').
Lemma lays_ret {A} (a : A) : lays (dret a).
Proof. intros d b d' [= <- <-]. apply tidy_refl. Qed.
Lemma lays_bind {A B} (m : D A) (k : A -> D B) : lays m -> (forall a, lays (k a)) -> lays (dbind m k).
Proof.
  intros M K d b d' E. unfold dbind in E. destruct (m d) as [[a d1]|] eqn:Em; [|discriminate].
  eapply tidy_trans; [exact (M _ _ _ Em)|exact (K a _ _ _ E)].
Qed.
Lemma lays_read {A} (f : scope -> pool -> outcome error A) : lays (dread f).
Proof. intros d a d' E. unfold dread in E. destruct (f _ _); [|discriminate]. injection E as <- <-. apply tidy_refl. Qed.
Lemma lays_fail {A} e : lays (@dfail A e).
Proof. intros d a d' E. discriminate E. Qed.
Lemma lays_prefix e : lays (add_prefix e).
Proof. intros d a d' [= <- <-]. apply tidy_refl. Qed.
Lemma lays_local t sp : lays (fresh_local t sp).
Proof.
  intros d r d' E. apply DesugarFacts.fresh_cases in E as (fn & p1 & ni & ti & p2 & i & _ & En & Et & Ed & _).
  eapply tidy_trans; [exact (tidy_name _ _ _ _ En)|]. eapply tidy_trans; [exact (tidy_type _ _ _ _ _ _ Et)|]. apply (tidy_def _ _ _ _ Ed). exact I.
Qed.
Lemma lays_map {A B} (f : A -> D B) l : Forall (fun x => lays (f x)) l -> lays (dmap f l).
Proof.
  induction 1 as [|x l Hx _ IH]; cbn [dmap]; [apply lays_ret|].
  apply lays_bind; [exact Hx|]. intros y. apply lays_bind; [exact IH|]. intros ys. apply lays_ret.
Qed.
Lemma lays_opt {A B} (f : A -> D B) o : opt_all (fun x => lays (f x)) o -> lays (dopt f o).
Proof. destruct o as [x|]; cbn [dopt opt_all]; intros H; [|apply lays_ret]. apply lays_bind; [exact H|]. intros y. apply lays_ret. Qed.
Lemma lays_seq rec l : Forall (fun e => lays (rec e)) l -> lays (on_seq_with rec l).
Proof.
  induction 1 as [|e l He _ IH]; cbn [on_seq_with]; [apply lays_ret|]. apply lays_bind; [exact He|]. intros done. apply lays_bind.
  - intros d a d' [= <- <-]. exact (tidy_refl _).
  - intros pre. apply lays_bind; [exact IH|]. intros rest. apply lays_ret.
Qed.
Lemma lays_cases rec rec_seq cases : Forall (fun c => lays (rec (fst c)) /\ lays (rec_seq (snd c))) cases -> lays (on_cases rec rec_seq cases).
Proof.
  induction 1 as [|[m b] l [Hm Hb] _ IH]; cbn [on_cases fst snd] in *; [apply lays_ret|].
  apply lays_bind; [exact Hb|]. intros b'. apply lays_bind; [exact Hm|]. intros m'. apply lays_bind; [exact IH|]. intros rest. apply lays_ret.
Qed.
Lemma lays_elements rec local sp es : Forall (fun e => lays (rec e)) es -> forall i, lays (array_elements rec local sp i es).
Proof.
  induction 1 as [|e l He _ IH]; intros i; cbn [array_elements]; [apply lays_ret|].
  apply lays_bind; [exact He|]. intros e'. apply lays_bind; [apply lays_prefix|]. intros _. apply IH.
Qed.
Lemma lays_parts rec add st sp parts : Forall (fun x => lays (rec (fst x))) parts -> forall acc, lays (text_parts rec add st sp acc parts).
Proof.
  induction 1 as [|[e s] l He _ IH]; intros acc; cbn [text_parts fst] in *; [apply lays_ret|].
  apply lays_bind; [exact He|]. intros e1. apply lays_bind; [apply lays_read|]. intros t. apply lays_bind; [apply lays_read|]. intros e2. apply IH.
Qed.
Lemma lays_expr e : lays (on_expr e).
Proof.
  induction e using expr_ind'; cbn [on_expr]; unfold on_array_lit, on_interpolated, on_for_in, find_function;
  repeat first
    [ apply lays_ret | apply lays_fail | assumption | apply lays_read | apply lays_local | apply lays_prefix
    | match goal with |- forall _, lays _ => intros ? end
    | apply lays_bind | apply lays_seq; assumption | apply lays_map; assumption | apply lays_opt; assumption | apply lays_parts; assumption
    | apply lays_elements; assumption
    | match goal with |- lays (match ?x with _ => _ end) => destruct x end
    | apply lays_opt; match goal with H : opt_all _ ?o |- opt_all _ ?o => destruct o; [apply lays_seq, H|exact I] end ].
  apply lays_cases. eapply Forall_impl; [|eassumption]. intros c [Hm Hb]. split; [exact Hm|]. apply lays_seq, Hb.
Qed.
Lemma tidy_desugar body s p body' ls s' p' : desugar body s p = Done (body', ls, s', p') -> tidy p p'.
Proof.
  unfold desugar. destruct (on_seq body _) as [[b d]|] eqn:E; [|discriminate]. intros [= <- <- <- <-].
  apply (lays_seq on_expr body (proj2 (Forall_forall _ _) (fun e _ => lays_expr e)) _ _ _ E).
Qed.
