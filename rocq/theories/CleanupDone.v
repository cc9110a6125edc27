(** When cleanup_pool has ended, it has moved classes about and done nothing else,
    whatever the hierarchy is. *)
From Coq Require Import ZArith List Bool Lia Permutation Sorted.
From Verif Require Import Bytes Definitions Bundle Pool Bytecode Scope TypeCheck TypingSpec TypingFacts Mapper Cleanup CleanupSpec CleanupFacts CleanupSort.
Import ListNotations.
Open Scope Z_scope.

Lemma each_done {A S Err} (f : A -> S -> outcome Err S) (Inv : S -> Prop) l : forall s s',
  (forall x s s', In x l -> Inv s -> f x s = Done s' -> Inv s') -> Inv s -> each f l s = Done s' -> Inv s'.
Proof.
  induction l as [|x l IH]; intros s s' H I E; cbn [each] in E; [now injection E as <-|]. destruct (f x s) as [s1|] eqn:F; [|discriminate].
  apply (IH s1 s'); [|exact (H _ _ _ (or_introl eq_refl) I F)|exact E]. intros y a b Y. apply H. now right.
Qed.

(** A set of indices that are not the one that stands for "none". *)
Definition set_of_some (u : list pidx) : Prop := sorted u /\ Forall (fun c => 0 < c) u.
Lemma some_insert x u : 0 < x -> set_of_some u -> set_of_some (set_insert x u).
Proof.
  intros P (S & F). split; [now apply set_insert_sorted|]. rewrite Forall_forall in *. intros y Y. apply set_insert_in in Y as [->|Y]; auto.
Qed.
Lemma collect_some p fuel : forall c acc acc', 0 < c -> set_of_some acc -> collect_subtypes fuel p c acc = Done acc' -> set_of_some acc'.
Proof.
  induction fuel as [|n IH]; intros c acc acc' P S E; cbn [collect_subtypes] in E; [discriminate|].
  revert E. apply each_done; [|now apply some_insert]. intros x s s' I Q. apply IH; [|exact Q]. now apply children_in in I as (I & _).
Qed.
Lemma climb_some p fuel def : 0 < def -> forall cur cur', 0 < cur -> climb_above fuel p def cur = Done cur' -> 0 < cur'.
Proof.
  intros P. induction fuel as [|n IH]; intros cur cur' C E; cbn [climb_above] in E; [discriminate|].
  destruct (get_class p cur) as [k|]; [|now injection E as <-]. destruct (Z.ltb_spec def (cl_base k)); [apply (IH (cl_base k)); [lia|exact E]|now injection E as <-].
Qed.
Lemma outside_some p fuel least u : 0 < least -> forall cur cur', 0 < cur -> climb_outside fuel p least u cur = Done cur' -> 0 < cur'.
Proof.
  intros P. induction fuel as [|n IH]; intros cur cur' C E; cbn [climb_outside] in E; [discriminate|].
  destruct (get_class p cur) as [k|]; [|now injection E as <-]. destruct (Z.ltb_spec least (cl_base k)); cbn [andb] in E; [|now injection E as <-].
  destruct (negb _); [apply (IH (cl_base k)); [lia|exact E]|now injection E as <-].
Qed.
Lemma unsorted_some p fuel u : find_unsorted fuel p = Done u -> set_of_some u.
Proof.
  apply each_done; [|split; constructor]. intros def s s' I S E. apply in_map_iff in I as ((i & d) & <- & I). apply definitions_in in I as (I & _). cbn [fst] in E.
  destruct (climb_above fuel p i i) as [cur|] eqn:C; [|discriminate]. destruct (cur =? i); [now injection E as <-|].
  exact (collect_some _ _ _ _ _ (climb_some _ _ _ I _ _ I C) S E).
Qed.
Lemma superclasses_some p fuel u u' : set_of_some u -> add_superclasses fuel p u = Done u' -> set_of_some u'.
Proof.
  intros S E. unfold add_superclasses in E. destruct u as [|least u]; [now injection E as <-|]. pose proof (proj2 S) as F. rewrite Forall_forall in F.
  revert E. apply each_done; [|exact S]. intros c s s' I Q E. destruct (climb_outside _ _ _ _ _) as [cur|] eqn:C; [|discriminate]. destruct (cur =? c); [now injection E as <-|].
  exact (collect_some _ _ _ _ _ (outside_some _ _ _ _ (F _ (or_introl eq_refl)) _ _ (F _ I) C) Q E).
Qed.
Lemma depth_done p u keyed : with_depth p u = Done keyed -> Forall (fun c => 0 < c) u -> map snd keyed = u /\ forall c, In c u -> exists k, get_class p c = Done k.
Proof.
  revert keyed. induction u as [|c u IH]; intros keyed E F; cbn [with_depth] in E; [injection E as <-; split; [reflexivity|intros ? []]|].
  inversion F as [|? ? P F']; subst. destruct (collect_supertypes _ p c) as [s|[]] eqn:C; try discriminate; try (destruct u0; discriminate).
  destruct (with_depth p u) as [r|] eqn:W; [|discriminate]. injection E as <-. destruct (IH _ eq_refl F') as (A & B). split; [cbn; now rewrite A|].
  intros c' [<-|I]; [|exact (B _ I)]. unfold pool_fuel in C. cbn [collect_supertypes] in C. destruct (Z.eqb_spec c UNDEFINED) as [->|_]; [unfold UNDEFINED in P; lia|].
  destruct (get_class p c) as [k|]; [eauto|discriminate].
Qed.
Theorem cleanup_moves fuel p refs p' refs' : cleanup_pool fuel p refs = Done (p', refs') -> exists move, refs' = map move refs /\ moved_by move p p' /\ move UNDEFINED = UNDEFINED.
Proof.
  intros E. unfold cleanup_pool in E. destruct (find_unsorted fuel p) as [u0|] eqn:E0; [|discriminate]. destruct (add_superclasses fuel p u0) as [u|] eqn:E1; [|discriminate].
  pose proof (superclasses_some _ _ _ _ (unsorted_some _ _ _ E0) E1) as (S & SP). destruct (with_depth p u) as [keyed|] eqn:E2; [|discriminate].
  destruct (depth_done _ _ _ E2 SP) as (SK & K).
  destruct (sort_by_key_ok keyed) as [PS _]. set (so := map snd (sort_by_key keyed)) in *.
  assert (PU : Permutation so u) by (unfold so; rewrite PS, SK; reflexivity).
  assert (NU : NoDup u) by (apply sorted_nodup; exact S).
  assert (NS : NoDup so) by (eapply Permutation_NoDup; [symmetry; exact PU|exact NU]).
  assert (LS : length so = length u) by (apply Permutation_length; exact PU).
  assert (KS : forall c, In c so -> exists d, get_def p c = Done d).
  { intros c I. destruct (K c) as (k & G); [eapply Permutation_in; [exact PU|exact I]|]. apply get_class_def in G. destruct G as (d & G & _). eauto. }
  destruct (definitions_of_ok p so KS) as (ds & E3 & LD & ND). rewrite E3 in E.
  destruct (put_all_ok (combine ds u) (pl_defs p)) as (defs & E4 & LP & NP & OP).
  { rewrite map_snd_combine by (exact (eq_trans LD LS)). exact NU. }
  { intros [d i] I. apply in_combine_r in I. destruct (K _ I) as (k & G). apply get_class_bound in G. cbn [snd]. lia. }
  rewrite E4 in E. rewrite map_snd_combine in OP by (exact (eq_trans LD LS)).
  set (m := multi_mapper (combine so u)) in *.
  assert (OUT : forall x, ~ In x u -> m x = x).
  { intros x NI. apply multi_mapper_out. intros I. apply NI. eapply Permutation_in; [exact PU|exact I]. }
  assert (PLACE : forall x, In x u -> exists k, nth_error so k = Some x /\ nth_error u k = Some (m x)).
  { intros x I. assert (I' : In x so) by (eapply Permutation_in; [symmetry; exact PU|exact I]).
    apply In_nth_error in I'. destruct I' as (k & Hk). exists k. split; [exact Hk|].
    assert (L : (k < length u)%nat) by (rewrite <- LS; apply nth_error_Some; congruence).
    destruct (nth_error u k) as [y|] eqn:Y; [|apply nth_error_None in Y; lia].
    f_equal. symmetry. eapply multi_mapper_nth; eassumption. }
  assert (IN : forall x, In x u -> In (m x) u).
  { intros x I. destruct (PLACE x I) as (k & _ & Y). eapply nth_error_In; exact Y. }
  assert (INJ : forall i j, m i = m j -> i = j).
  { intros i j Q. destruct (in_dec Z.eq_dec i u) as [I|I]; destruct (in_dec Z.eq_dec j u) as [J|J].
    - destruct (PLACE i I) as (ki & Si & Ui). destruct (PLACE j J) as (kj & Sj & Uj). rewrite Q in Ui.
      assert (ki = kj). { eapply NoDup_nth_error; [exact NU| |congruence]. apply nth_error_Some. congruence. }
      congruence.
    - exfalso. apply J. rewrite <- (OUT _ J), <- Q. apply IN. exact I.
    - exfalso. apply I. rewrite <- (OUT _ I), Q. apply IN. exact J.
    - rewrite <- (OUT _ I), <- (OUT _ J). exact Q. }
  assert (CLS : forall i, m i <> i -> (exists k, get_class p i = Done k) /\ (exists k, get_class p (m i) = Done k)).
  { intros i NE. destruct (in_dec Z.eq_dec i u) as [I|I]; [split; apply K; [exact I|apply IN; exact I]|]. exfalso. apply NE, OUT, I. }
  assert (MOVED : forall i d, get_def p i = Done d -> nth_def defs (m i) = Some d).
  { intros i d G. destruct (in_dec Z.eq_dec i u) as [I|I].
    - destruct (PLACE i I) as (k & Sk & Uk). destruct (ND _ _ Sk) as (d' & Dk & G'). assert (d' = d) by congruence. subst d'.
      apply NP. eapply nth_error_In. apply nth_combine; eassumption.
    - rewrite (OUT _ I), (OP _ I). unfold get_def in G. destruct (nth_def (pl_defs p) i); congruence. }
  assert (Z0 : m UNDEFINED = UNDEFINED).
  { apply OUT. intros J. rewrite Forall_forall in SP. specialize (SP _ J). unfold UNDEFINED in SP. lia. }
  set (q := map_pool m (fun i => i) (set_defs p defs)) in *.
  assert (NTH : forall j, nth_def (pl_defs q) j = option_map (map_definition m (fun i => i)) (nth_def defs j)).
  { intros j. unfold q, map_pool, nth_def. cbn [pl_defs set_defs]. destruct (j <? 0); [reflexivity|]. apply nth_error_map. }
  assert (MB : moved_by m p q).
  { constructor; try reflexivity.
    - unfold q, map_pool. cbn [pl_defs set_defs]. rewrite map_length. exact LP.
    - exact INJ.
    - exact CLS.
    - intros i d G. exists (map_definition m (fun i => i) d). split; [|apply mapped_refs].
      unfold get_def. rewrite NTH, (MOVED _ _ G). reflexivity. }
  exists m. destruct u as [|u1 u'] eqn:U.
  - assert (M : forall i, m i = i) by (intros i; apply OUT; intros []).
    assert (EP : q = set_defs p defs).
    { unfold q, map_pool, set_defs. cbn. f_equal. rewrite <- (map_id defs) at 2. apply map_ext. intros d.
      destruct d as [n pa u1 u2 u3 v]. destruct v as [t|k|v|e|f|x|l|f|s]; cbn; rewrite ?M; try reflexivity; unfold with_value; cbn.
      - destruct k; reflexivity.
      - f_equal. f_equal. destruct f; unfold with_code; cbn. f_equal. rewrite <- (map_id fu_code) at 2. apply map_ext. intros i. destruct i; cbn; rewrite ?M; reflexivity. }
    injection E as <- <-. rewrite <- EP. split; [|auto]. rewrite <- (map_id refs) at 1. apply map_ext. intros i. now rewrite M.
  - injection E as <- <-. auto.
Qed.
