(** Sorting the classes and moving them: the rest of the proofs about cleanup_pool. *)
From Coq Require Import ZArith List Bool Lia Permutation Sorted.
From Verif Require Import Bytes Definitions Bundle Pool Bytecode Scope TypeCheck TypingSpec TypingFacts Mapper Cleanup CleanupSpec CleanupFacts.
Import ListNotations.
Open Scope Z_scope.

(** ** Sorting by key. *)
Notation key_le := (fun a b : nat * pidx => (fst a <= fst b)%nat).
Lemma insert_by_key_perm x l : Permutation (insert_by_key x l) (x :: l).
Proof.
  induction l as [|y l IH]; [reflexivity|]. cbn [insert_by_key]. destruct (fst x <? fst y)%nat; [reflexivity|].
  rewrite IH. apply perm_swap.
Qed.
Lemma insert_by_key_sorted x l : StronglySorted key_le l -> StronglySorted key_le (insert_by_key x l).
Proof.
  induction 1 as [|y l H IH F]; cbn [insert_by_key]; [constructor; constructor|].
  destruct (Nat.ltb_spec (fst x) (fst y)) as [L|L].
  - constructor; [constructor; assumption|]. constructor; [lia|]. eapply Forall_impl; [|exact F]. cbn. intros; lia.
  - constructor; [exact IH|]. eapply Permutation_Forall; [symmetry; apply insert_by_key_perm|]. constructor; [exact L|exact F].
Qed.
Lemma sort_by_key_ok l : Permutation (sort_by_key l) l /\ StronglySorted key_le (sort_by_key l).
Proof.
  unfold sort_by_key. assert (G : forall acc, StronglySorted key_le acc ->
    Permutation (fold_left (fun acc x => insert_by_key x acc) l acc) (l ++ acc) /\
    StronglySorted key_le (fold_left (fun acc x => insert_by_key x acc) l acc)).
  { induction l as [|x l IH]; intros acc S; [split; [reflexivity|exact S]|]. cbn [fold_left].
    destruct (IH (insert_by_key x acc) (insert_by_key_sorted _ _ S)) as [P S']. split; [|exact S'].
    rewrite P, insert_by_key_perm. cbn [app]. symmetry. apply Permutation_middle. }
  destruct (G [] (SSorted_nil _)) as [P S]. rewrite app_nil_r in P. split; assumption.
Qed.
Lemma sorted_nth {A} (R : A -> A -> Prop) l : StronglySorted R l -> forall i j x y, (i < j)%nat ->
  nth_error l i = Some x -> nth_error l j = Some y -> R x y.
Proof.
  induction 1 as [|a l H IH F]; intros i j x y L X Y; [destruct i; discriminate|].
  destruct j as [|j]; [lia|]. cbn [nth_error] in Y. destruct i as [|i]; cbn [nth_error] in X.
  - injection X as <-. rewrite Forall_forall in F. apply F. eapply nth_error_In; exact Y.
  - eapply (IH i j); eauto. lia.
Qed.

(** ** The mapping. *)
Lemma multi_mapper_nth so : forall u k x y, NoDup so -> nth_error so k = Some x -> nth_error u k = Some y ->
  multi_mapper (combine so u) x = y.
Proof.
  induction so as [|a so IH]; intros [|b u] [|k] x y ND X Y; try discriminate; cbn [nth_error] in *; cbn [combine multi_mapper].
  - injection X as <-. injection Y as <-. rewrite Z.eqb_refl. reflexivity.
  - inversion ND as [|? ? NI ND']; subst. destruct (Z.eqb_spec a x) as [->|_]; [exfalso; apply NI; eapply nth_error_In; exact X|].
    eapply IH; eassumption.
Qed.
Lemma multi_mapper_out so : forall u x, ~ In x so -> multi_mapper (combine so u) x = x.
Proof.
  induction so as [|a so IH]; intros [|b u] x NI; try reflexivity. cbn [combine multi_mapper].
  destruct (Z.eqb_spec a x) as [->|_]; [exfalso; apply NI; left; reflexivity|]. apply IH. intros I. apply NI. right; exact I.
Qed.

(** ** Replacing definitions. *)
Lemma put_def_ok ds i d : 0 <= i < Z.of_nat (length ds) -> exists ds', put_def ds i d = Done ds' /\ length ds' = length ds /\
  nth_def ds' i = Some d /\ (forall j, j <> i -> nth_def ds' j = nth_def ds j).
Proof.
  intros [L1 L2]. unfold put_def. destruct (Z.leb_spec 0 i); [|lia]. destruct (Z.ltb_spec i (Z.of_nat (length ds))); [|lia]. cbn [andb].
  eexists. split; [reflexivity|]. set (n := Z.to_nat i). assert (Ln : (n < length ds)%nat) by lia.
  assert (LF : length (firstn n ds) = n) by (rewrite firstn_length; lia).
  split; [|split].
  - rewrite app_length. cbn [length]. rewrite LF, skipn_length. lia.
  - unfold nth_def. destruct (Z.ltb_spec i 0); [lia|]. fold n. rewrite nth_error_app2 by lia. rewrite LF, Nat.sub_diag. reflexivity.
  - intros j NE. unfold nth_def. destruct (Z.ltb_spec j 0) as [|PJ]; [reflexivity|]. set (m := Z.to_nat j).
    assert (m <> n) by (subst m n; lia). destruct (Nat.lt_ge_cases m n) as [LM|GM].
    + rewrite nth_error_app1 by lia. rewrite <- (firstn_skipn n ds) at 2. rewrite nth_error_app1 by lia. reflexivity.
    + rewrite nth_error_app2 by lia. rewrite LF. destruct (m - n)%nat as [|q] eqn:Q; [lia|]. cbn [nth_error].
      rewrite <- (firstn_skipn (S n) ds) at 2. rewrite nth_error_app2 by (rewrite firstn_length; lia).
      f_equal. rewrite firstn_length. lia.
Qed.
Lemma put_all_ok l : forall ds, NoDup (map snd l) -> (forall x, In x l -> 0 <= snd x < Z.of_nat (length ds)) ->
  exists ds', each (fun x l => put_def l (snd x) (fst x)) l ds = Done ds' /\ length ds' = length ds /\
    (forall d i, In (d, i) l -> nth_def ds' i = Some d) /\ (forall j, ~ In j (map snd l) -> nth_def ds' j = nth_def ds j).
Proof.
  induction l as [|[d i] l IH]; intros ds ND R.
  - exists ds. split; [reflexivity|]. split; [reflexivity|]. split; [intros ? ? []|]. reflexivity.
  - cbn [map snd] in ND. inversion ND as [|? ? NI ND']; subst.
    destruct (put_def_ok ds i d (R _ (or_introl eq_refl))) as (d1 & E1 & L1 & N1 & O1).
    destruct (IH d1 ND') as (d2 & E2 & L2 & N2 & O2); [intros x X; rewrite L1; apply R; right; exact X|].
    exists d2. split; [cbn [each fst snd]; rewrite E1; exact E2|]. split; [lia|]. split.
    + intros d' i' [Q|Q]; [|exact (N2 _ _ Q)]. injection Q as <- <-. rewrite (O2 _ NI). exact N1.
    + intros j NJ. cbn [map snd In] in NJ. rewrite O2 by (intros J; apply NJ; right; exact J). apply O1. intros ->. apply NJ. left; reflexivity.
Qed.
Lemma definitions_of_ok p l : (forall c, In c l -> exists d, get_def p c = Done d) ->
  exists ds, definitions_of p l = Done ds /\ length ds = length l /\ (forall k c, nth_error l k = Some c -> exists d, nth_error ds k = Some d /\ get_def p c = Done d).
Proof.
  induction l as [|c l IH]; intros H.
  - exists []. split; [reflexivity|]. split; [reflexivity|]. intros [|k] c E; discriminate.
  - destruct (H c (or_introl eq_refl)) as (d & D). destruct IH as (ds & E & L & N); [intros x X; apply H; right; exact X|].
    exists (d :: ds). split; [cbn [definitions_of]; rewrite D, E; reflexivity|]. split; [cbn [length]; lia|].
    intros [|k] c' X; cbn [nth_error] in *; [injection X as <-; exists d; split; [reflexivity|exact D]|exact (N _ _ X)].
Qed.
Lemma nth_combine {A B} (a : list A) : forall (b : list B) k x y, nth_error a k = Some x -> nth_error b k = Some y -> nth_error (combine a b) k = Some (x, y).
Proof.
  induction a as [|x0 a IH]; intros [|y0 b] [|k] x y X Y; try discriminate; cbn [nth_error combine] in *; [congruence|exact (IH _ _ _ _ X Y)].
Qed.
Lemma map_snd_combine {A B} (a : list A) : forall (b : list B), length a = length b -> map snd (combine a b) = b.
Proof. induction a as [|x a IH]; intros [|y b] L; try discriminate; [reflexivity|]. cbn. rewrite IH by (cbn in L; lia). reflexivity. Qed.

(** ** References follow. *)
Lemma mapped_refs m d : class_refs (map_definition m (fun i => i) d) = map m (class_refs d) /\ forget_refs (map_definition m (fun i => i) d) = forget_refs d.
Proof.
  destruct d as [n pa u1 u2 u3 v]. destruct v as [t|k|v|e|f|q|l|f|s]; cbn; try (split; reflexivity).
  assert (C : flat_map operand_classes (map (map_instr m (fun i => i)) (fu_code f)) = map m (flat_map operand_classes (fu_code f)) /\
    map forget_operand (map (map_instr m (fun i => i)) (fu_code f)) = map forget_operand (fu_code f)).
  { induction (fu_code f) as [|i c [IH1 IH2]]; [split; reflexivity|]. cbn [map flat_map].
    rewrite IH1, IH2, map_app. split; [f_equal; destruct i; reflexivity|f_equal; destruct i; reflexivity]. }
  destruct C as [C1 C2]. rewrite C1, C2. split; reflexivity.
Qed.
Lemma mapped_class m d k' : df_value (map_definition m (fun i => i) d) = DClass k' -> exists k, df_value d = DClass k /\ cl_base k' = m (cl_base k).
Proof.
  destruct d as [n pa u1 u2 u3 v]. destruct v as [t|k|v|e|f|q|l|f|s]; cbn; intros E; try discriminate.
  injection E as <-. exists k. split; reflexivity.
Qed.

Section Acyclic.
Variable p : pool.
Hypothesis AC : acyclic p.
Definition depth (c : pidx) (n : nat) : Prop := exists l, chain p c l /\ length l = n.
Lemma with_depth_ok u : (forall c, In c u -> exists k, get_class p c = Done k) ->
  exists keyed, with_depth p u = Done keyed /\ map snd keyed = u /\ (forall n c, In (n, c) keyed -> depth c n).
Proof.
  induction u as [|c u IH]; intros K.
  - exists []. split; [reflexivity|]. split; [reflexivity|]. intros ? ? [].
  - destruct (K c (or_introl eq_refl)) as (k & G). destruct AC as [Z0 A]. destruct (A _ _ G) as (l & H).
    destruct IH as (r & E & S & D); [intros x X; apply K; right; exact X|].
    exists ((length l, c) :: r). cbn [with_depth].
    rewrite (collect_supertypes_chain p l c) by (try exact H; pose proof (chain_length _ _ _ H); unfold pool_fuel; lia).
    rewrite E, rev_length. split; [reflexivity|]. split; [cbn; rewrite S; reflexivity|].
    intros n c' [Q|Q]; [injection Q as <- <-; exists l; split; [exact H|reflexivity]|exact (D _ _ Q)].
Qed.
Lemma depth_base c k n m : get_class p c = Done k -> depth c n -> depth (cl_base k) m -> (m < n)%nat.
Proof.
  intros G (l & H & <-) (l' & H' & <-).
  assert (N : c <> UNDEFINED) by (intros ->; destruct AC as [Z0 _]; exact (Z0 _ G)).
  destruct (chain_inv _ _ _ _ H G N) as (l1 & -> & C). rewrite (chain_det _ _ _ H' _ C). cbn. lia.
Qed.

Lemma cleanup_pool_ok fuel refs : (length (pl_defs p) < fuel)%nat ->
  exists p' move, cleanup_pool fuel p refs = Done (p', map move refs) /\ moved_by move p p' /\ bases_first p' /\
    (bases_first p -> p' = p /\ forall i, move i = i).
Proof.
  intros F. unfold cleanup_pool.
  destruct (find_unsorted_ok p AC fuel F) as (u0 & E0 & S0 & CL0 & K0 & O0 & W0). rewrite E0.
  destruct (add_superclasses_ok p AC fuel u0 F S0 CL0 K0 O0) as (u & E1 & S & CL & K & O & NIL & B). rewrite E1.
  destruct (with_depth_ok u K) as (keyed & E2 & SK & DK). rewrite E2.
  destruct (sort_by_key_ok keyed) as [PS SS]. set (so := map snd (sort_by_key keyed)).
  assert (PU : Permutation so u) by (unfold so; rewrite PS, SK; reflexivity).
  assert (NU : NoDup u) by (apply sorted_nodup; exact S).
  assert (NS : NoDup so) by (eapply Permutation_NoDup; [symmetry; exact PU|exact NU]).
  assert (LS : length so = length u) by (apply Permutation_length; exact PU).
  assert (KS : forall c, In c so -> exists d, get_def p c = Done d).
  { intros c I. destruct (K c) as (k & G); [eapply Permutation_in; [exact PU|exact I]|]. apply get_class_def in G. destruct G as (d & G & _). eauto. }
  destruct (definitions_of_ok p so KS) as (ds & E3 & LD & ND). rewrite E3.
  destruct (put_all_ok (combine ds u) (pl_defs p)) as (defs & E4 & LP & NP & OP).
  { rewrite map_snd_combine by (exact (eq_trans LD LS)). exact NU. }
  { intros [d i] I. apply in_combine_r in I. destruct (K _ I) as (k & G). apply get_class_bound in G. cbn [snd]. lia. }
  rewrite E4. rewrite map_snd_combine in OP by (exact (eq_trans LD LS)).
  set (m := multi_mapper (combine so u)).
  assert (OUT : forall x, ~ In x u -> m x = x).
  { intros x NI. apply multi_mapper_out. intros I. apply NI. eapply Permutation_in; [exact PU|exact I]. }
  assert (PLACE : forall x, In x u -> exists k, nth_error so k = Some x /\ nth_error u k = Some (m x)).
  { intros x I. assert (I' : In x so) by (eapply Permutation_in; [symmetry; exact PU|exact I]).
    apply In_nth_error in I'. destruct I' as (k & Hk). exists k. split; [exact Hk|].
    assert (L : (k < length u)%nat) by (rewrite <- LS; apply nth_error_Some; congruence).
    destruct (nth_error u k) as [y|] eqn:Y; [|apply nth_error_None in Y; lia].
    f_equal. symmetry. eapply multi_mapper_nth; eassumption. }
  assert (IN : forall x, In x u -> In (m x) u).
  { intros x I. destruct (PLACE x I) as (k & _ & Y). eapply nth_error_In; exact Y. }
  assert (INJ : forall i j, m i = m j -> i = j).
  { intros i j E. destruct (in_dec Z.eq_dec i u) as [I|I]; destruct (in_dec Z.eq_dec j u) as [J|J].
    - destruct (PLACE i I) as (ki & Si & Ui). destruct (PLACE j J) as (kj & Sj & Uj). rewrite E in Ui.
      assert (ki = kj). { eapply NoDup_nth_error; [exact NU| |congruence]. apply nth_error_Some. congruence. }
      congruence.
    - exfalso. apply J. rewrite <- (OUT _ J), <- E. apply IN. exact I.
    - exfalso. apply I. rewrite <- (OUT _ I), E. apply IN. exact J.
    - rewrite <- (OUT _ I), <- (OUT _ J). exact E. }
  assert (CLS : forall i, m i <> i -> (exists k, get_class p i = Done k) /\ (exists k, get_class p (m i) = Done k)).
  { intros i NE. destruct (in_dec Z.eq_dec i u) as [I|I]; [split; apply K; [exact I|apply IN; exact I]|]. exfalso. apply NE, OUT, I. }
  assert (MOVED : forall i d, get_def p i = Done d -> nth_def defs (m i) = Some d).
  { intros i d G. destruct (in_dec Z.eq_dec i u) as [I|I].
    - destruct (PLACE i I) as (k & Sk & Uk). destruct (ND _ _ Sk) as (d' & Dk & G'). assert (d' = d) by congruence. subst d'.
      apply NP. eapply nth_error_In. apply nth_combine; eassumption.
    - rewrite (OUT _ I), (OP _ I). unfold get_def in G. destruct (nth_def (pl_defs p) i); congruence. }
  assert (BACK : forall j d, nth_def defs j = Some d -> exists i, m i = j /\ get_def p i = Done d).
  { intros j d G. destruct (in_dec Z.eq_dec j u) as [J|J].
    - apply In_nth_error in J. destruct J as (k & Uk).
      assert (L : (k < length so)%nat) by (rewrite LS; apply (proj1 (nth_error_Some u k)); intros Q; pose proof (eq_trans (eq_sym Uk) Q) as X; discriminate X).
      destruct (nth_error so k) as [i|] eqn:Sk; [|apply nth_error_None in Sk; lia].
      exists i. split; [eapply multi_mapper_nth; eassumption|]. destruct (ND _ _ Sk) as (d' & Dk & G').
      assert (N' : nth_def defs j = Some d') by (apply NP; eapply nth_error_In; apply nth_combine; eassumption). congruence.
    - exists j. split; [apply OUT; exact J|]. rewrite (OP _ J) in G. unfold get_def. rewrite G. reflexivity. }
  assert (ORDER : forall i k, get_class p i = Done k -> cl_base k <> UNDEFINED -> m (cl_base k) < m i).
  { intros i k G N. destruct (in_dec Z.eq_dec i u) as [I|I].
    - destruct (B _ _ I G) as [IB|LB].
      + destruct (PLACE i I) as (ki & Si & Ui). destruct (PLACE _ IB) as (kb & Sb & Ub).
        unfold so in Si, Sb. rewrite nth_error_map in Si, Sb.
        destruct (nth_error (sort_by_key keyed) ki) as [[ni ci]|] eqn:Xi; [|discriminate]. cbn in Si. injection Si as ->.
        destruct (nth_error (sort_by_key keyed) kb) as [[nb cb]|] eqn:Xb; [|discriminate]. cbn in Sb. injection Sb as ->.
        assert (Di : depth i ni) by (apply DK; eapply Permutation_in; [exact PS|eapply nth_error_In; exact Xi]).
        assert (Db : depth (cl_base k) nb) by (apply DK; eapply Permutation_in; [exact PS|eapply nth_error_In; exact Xb]).
        pose proof (depth_base _ _ _ _ G Di Db) as LT.
        destruct (Nat.lt_trichotomy kb ki) as [L|[->|L]].
        * exact (sorted_nth _ _ S _ _ _ _ L Ub Ui).
        * rewrite Xi in Xb. injection Xb as -> _. lia.
        * pose proof (sorted_nth _ _ SS _ _ _ _ L Xi Xb) as Q. cbn in Q. lia.
      + assert (NB : ~ In (cl_base k) u) by (intros J; specialize (LB _ J); lia). rewrite (OUT _ NB). apply LB, IN, I.
    - assert (NB : ~ In (cl_base k) u) by (intros J; apply I; exact (CL _ _ G J)). rewrite (OUT _ NB), (OUT _ I).
      destruct (Z.lt_trichotomy (cl_base k) i) as [L|[L|L]]; [exact L| |].
      + exfalso. exact (base_differs p AC _ _ G L).
      + exfalso. apply I, O. exists k. split; assumption. }
  assert (Z0 : m UNDEFINED = UNDEFINED).
  { apply OUT. intros J. destruct (K _ J) as (k & G). destruct AC as [Z0 _]. exact (Z0 _ G). }
  set (p' := map_pool m (fun i => i) (set_defs p defs)).
  assert (NTH : forall j, nth_def (pl_defs p') j = option_map (map_definition m (fun i => i)) (nth_def defs j)).
  { intros j. unfold p', map_pool, nth_def. cbn [pl_defs set_defs]. destruct (j <? 0); [reflexivity|]. apply nth_error_map. }
  assert (MB : moved_by m p p').
  { constructor; try reflexivity.
    - unfold p', map_pool. cbn [pl_defs set_defs]. rewrite map_length. exact LP.
    - exact INJ.
    - exact CLS.
    - intros i d G. exists (map_definition m (fun i => i) d). split; [|apply mapped_refs].
      unfold get_def. rewrite NTH, (MOVED _ _ G). reflexivity. }
  assert (BF : bases_first p').
  { intros c k' G' N'. apply get_class_def in G'. destruct G' as (d' & G' & V').
    unfold get_def in G'. rewrite NTH in G'. destruct (nth_def defs c) as [d|] eqn:D; [|discriminate]. cbn in G'. injection G' as <-.
    destruct (mapped_class _ _ _ V') as (k & V & EB). destruct (BACK _ _ D) as (i & <- & G).
    rewrite EB in *. apply ORDER; [apply get_class_def; exists d; split; assumption|]. intros Q. rewrite Q in N'. exact (N' Z0). }
  destruct u as [|u1 u'] eqn:U.
  - assert (EP : p' = set_defs p defs).
    { unfold p', map_pool, set_defs. cbn. f_equal. rewrite <- (map_id defs) at 2. apply map_ext. intros d.
      assert (M : forall i, m i = i) by (intros i; apply OUT; intros []).
      destruct d as [n pa u1 u2 u3 v]. destruct v as [t|k|v|e|f|q|l|f|s]; cbn; rewrite ?M; try reflexivity; unfold with_value; cbn.
      - destruct k; reflexivity.
      - f_equal. f_equal. destruct f; unfold with_code; cbn. f_equal. rewrite <- (map_id fu_code) at 2. apply map_ext. intros i. destruct i; cbn; rewrite ?M; reflexivity. }
    rewrite <- EP. exists p', m. split; [|split; [exact MB|split; [exact BF|]]].
    + f_equal. f_equal. rewrite <- (map_id refs) at 1. apply map_ext. intros i. symmetry. apply OUT. intros [].
    + intros _. split; [|intros i; apply OUT; intros []]. rewrite EP. clear -E4 LD LS. destruct ds; cbn in *; injection E4 as <-; destruct p; reflexivity.
  - exists p', m. split; [reflexivity|]. split; [exact MB|]. split; [exact BF|].
    intros BF0. exfalso. assert (U0 : u0 <> []) by (intros Q; apply NIL in Q; discriminate).
    destruct u0 as [|c u0']; [contradiction|]. destruct (W0 c (or_introl eq_refl)) as (c' & k & G & L).
    assert (NB : cl_base k <> UNDEFINED) by (intros Q; pose proof (class_pos p AC _ _ G); unfold UNDEFINED in Q; lia).
    specialize (BF0 _ _ G NB). lia.
Qed.
End Acyclic.
