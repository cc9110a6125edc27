(** Property C33 and the exactness of the other checks. *)
From Coq Require Import String.
From Coq Require Import ZArith List Bool Lia.
From Verif Require Import Bytes Bytecode Definitions Bundle Ast Pool Scope TypeCheck Diagnostics PartsSpec.
Import ListNotations.
Open Scope Z_scope.

Lemma in_flat_list {A B} (f : A -> list B) x l a : In a l -> In x (f a) -> In x (flat_map f l).
Proof. intros. apply in_flat_map. eauto. Qed.

Lemma visited_self e : In e (visited e).
Proof. destruct e; now left. Qed.

Lemma part_visited x e : part x e -> incl (visited x) (visited e).
Proof.
  intros H y Hy. destruct H; cbn [visited]; right; repeat rewrite in_app_iff; auto;
    try (eapply in_flat_list; [eassumption|exact Hy]).
  - right. apply in_flat_map. eauto.
  - right. left. apply in_flat_map. exists (x, b). split; [assumption|]. apply in_app_iff. auto.
  - right. left. apply in_flat_map. exists (m, b). split; [assumption|]. apply in_app_iff. right. apply in_flat_map. eauto.
  - right. right. apply in_flat_map. eauto.
  - right. left. apply in_flat_map. eauto.
  - right. right. apply in_flat_map. eauto.
  - right. apply in_flat_map. eauto.
  - right. apply in_flat_map. eauto.
Qed.

Lemma visited_within e : forall x, In x (visited e) <-> within x e.
Proof.
  assert (G : forall x e, within x e -> In x (visited e)).
  { intros x e0 H. induction H as [|y e0 P W IH]; [apply visited_self|exact (part_visited _ _ P _ IH)]. }
  assert (L : forall (f : texpr -> list texpr) es x e0, (forall y, In y es -> part y e0) ->
     Forall (fun y => forall x, In x (visited y) <-> within x y) es -> In x (flat_map visited es) -> within x e0).
  { intros _ es x e0 P F K. apply in_flat_map in K. destruct K as (y & A & B). rewrite Forall_forall in F.
    apply (F _ A) in B. eapply wi_part; [exact (P _ A)|exact B]. }
  specialize (L (fun _ => [])).
  induction e using expr_ind'; intros x; (split; [|apply G]); cbn [visited]; intros [<-|K]; try constructor; try (now destruct K).
  all: repeat match goal with K : In _ (_ ++ _) |- _ => apply in_app_iff in K; destruct K as [K|K] end.
  all: try (eapply L; [|eassumption|eassumption]; intros; constructor; assumption).
  all: try (match goal with K : In _ (visited ?y), IH : forall x, In x (visited ?y) <-> within x ?y |- _ =>
              apply IH in K; eapply wi_part; [|exact K]; constructor end; fail).
  - apply in_flat_map in K. destruct K as ([y s] & A & B). rewrite Forall_forall in H. apply (H _ A) in B.
    eapply wi_part; [|exact B]. econstructor. exact A.
  - destruct i as [y|]; [|destruct K]. apply H in K. eapply wi_part; [constructor|exact K].
  - destruct e as [y|]; [|destruct K]. apply H in K. eapply wi_part; [constructor|exact K].
  - apply in_flat_map in K. destruct K as ([m b] & A & B). rewrite Forall_forall in H. destruct (H _ A) as [H1 H2].
    cbn [fst snd] in *. apply in_app_iff in B. destruct B as [B|B].
    + apply H1 in B. eapply wi_part; [|exact B]. econstructor. exact A.
    + eapply L; [|exact H2|exact B]. intros y Hy. eapply pt_case_body; eassumption.
  - destruct d as [l|]; [|destruct K]. eapply L; [|exact H0|exact K]. intros; constructor; assumption.
  - destruct f as [l|]; [|destruct K]. eapply L; [|exact H0|exact K]. intros; constructor; assumption.
Qed.

Lemma occurs_visited body x : In x (flat_map visited body) <-> occurs x body.
Proof.
  rewrite in_flat_map. unfold occurs. split; intros (e & A & B); exists e; (split; [exact A|]); now apply visited_within.
Qed.

(** A local is declared by a [let] or by a for-in loop, with the span of the
    statement. *)
Definition declares (body : list texpr) (l : pidx) (sp : span) : Prop :=
  (exists t i, occurs (EDeclare (N := typed_ast) l t i sp) body) \/ (exists a b, occurs (EForIn (N := typed_ast) l a b sp) body).
(** Some expression of the body refers to the local. *)
Definition mentions (body : list texpr) (l : pidx) : Prop := exists sp, occurs (EIdent (N := typed_ast) (RValue (VLocal l)) sp) body.

(** A warning is given for a declaration exactly if nothing in the body mentions
    the declared local. *)
Theorem C33_unused_exact body sp :
  In (UnusedLocal sp) (unused_local body) <-> exists l, declares body l sp /\ ~ mentions body l.
Proof.
  assert (U : forall l, existsb (Z.eqb l) (flat_map used_here (flat_map visited body)) = true <-> mentions body l).
  { intros l. rewrite existsb_exists. split.
    - intros (l' & A & B). apply Z.eqb_eq in B. subst l'. apply in_flat_map in A. destruct A as (x & A & B).
      destruct x as [r sp'| | | | | | | | | | | | | | | | | | | | | | | | |]; try (now destruct B).
      destruct r as [[]|]; cbn in B; try tauto. destruct B as [<-|[]]. exists sp'. now apply occurs_visited.
    - intros (sp' & A). exists l. split; [|apply Z.eqb_refl]. apply in_flat_map. eexists. split; [apply occurs_visited; exact A|].
      now left. }
  assert (D : forall l sp, In (l, sp) (flat_map declared_here (flat_map visited body)) <-> declares body l sp).
  { intros l sp'. rewrite in_flat_map. split.
    - intros (x & A & B). apply occurs_visited in A.
      destruct x; cbn in B; try tauto; destruct B as [[= <- <-]|[]]; [left|right]; eauto.
    - intros [(t & i & A)|(a & b & A)]; (eexists; split; [apply occurs_visited; exact A|now left]). }
  unfold unused_local. rewrite in_map_iff. split.
  - intros ([l sp'] & [= <-] & A). apply filter_In in A. destruct A as [A B]. cbn [fst snd] in *. exists l.
    split; [now apply D|]. rewrite <- U. now destruct (existsb _ _).
  - intros (l & A & B). exists (l, sp). split; [reflexivity|]. apply filter_In. split; [now apply D|]. cbn [fst].
    rewrite <- U in B. now destruct (existsb _ _).
Qed.
Print Assumptions C33_unused_exact.

(** Nothing but unused locals is reported. *)
Theorem C33_only_unused body d : In d (unused_local body) -> exists sp, d = UnusedLocal sp.
Proof. unfold unused_local. rewrite in_map_iff. intros ([l sp] & <- & _). eauto. Qed.
Print Assumptions C33_only_unused.

(** [let a; let b; while true { a = 1; }]: only [b] is reported. *)
Example C33_example :
  unused_local [EDeclare (N := typed_ast) 7 None None (Span 1 2); EDeclare (N := typed_ast) 8 None None (Span 3 4);
    EWhile (EConstant (CBool true) span0)
      [EAssign (EIdent (N := typed_ast) (RValue (VLocal 7)) span0) (EConstant (CI32 1) span0) span0] span0] = [UnusedLocal (Span 3 4)] /\
  declares [EDeclare (N := typed_ast) 8 None None (Span 3 4)] 8 (Span 3 4).
Proof. split; [reflexivity|]. left. exists None, None. eexists. split; [left; reflexivity|constructor]. Qed.
