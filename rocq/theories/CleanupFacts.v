(** Proofs about cleanup_pool. *)
From Coq Require Import ZArith List Bool Lia Permutation Sorted.
From Verif Require Import Bytes Definitions Bundle Pool Bytecode Scope TypeCheck TypingSpec TypingFacts Mapper Cleanup CleanupSpec.
Import ListNotations.
Open Scope Z_scope.

(** ** Ordered sets. *)
Notation sorted := (StronglySorted Z.lt).
Lemma set_insert_in x s y : In y (set_insert x s) <-> y = x \/ In y s.
Proof.
  induction s as [|z s IH]; cbn [set_insert In]; [intuition|].
  destruct (Z.eqb_spec x z) as [<-|N]; [cbn [In]; intuition|].
  destruct (x <? z); cbn [In]; [intuition|]. rewrite IH. intuition.
Qed.
Lemma set_insert_sorted x s : sorted s -> sorted (set_insert x s).
Proof.
  induction 1 as [|z s H IH F]; cbn [set_insert]; [constructor; constructor|].
  destruct (Z.eqb_spec x z) as [<-|N]; [constructor; assumption|].
  destruct (Z.ltb_spec x z) as [L|L].
  - constructor; [constructor; assumption|]. constructor; [exact L|]. eapply Forall_impl; [|exact F]. cbn. intros; lia.
  - constructor; [exact IH|]. apply Forall_forall. intros y Y. apply set_insert_in in Y. rewrite Forall_forall in F.
    destruct Y as [->|Y]; [lia|exact (F _ Y)].
Qed.
Lemma set_mem_spec x s : set_mem x s = true <-> In x s.
Proof.
  unfold set_mem. rewrite existsb_exists. split.
  - intros (y & I & E). apply Z.eqb_eq in E. subst. exact I.
  - intros I. exists x. split; [exact I|apply Z.eqb_refl].
Qed.
Lemma sorted_nodup s : sorted s -> NoDup s.
Proof.
  induction 1 as [|z s H IH F]; constructor; [|exact IH]. intros I. rewrite Forall_forall in F. specialize (F _ I). lia.
Qed.

(** ** Loops. *)
Lemma each_ok {A S E} (f : A -> S -> outcome E S) (Inv : list A -> S -> Prop) l : forall s,
  (forall x l' s, Inv (x :: l') s -> exists s', f x s = Done s' /\ Inv l' s') ->
  Inv l s -> exists s', each f l s = Done s' /\ Inv [] s'.
Proof.
  intros s H. revert s. induction l as [|x l IH]; intros s I; [exists s; split; [reflexivity|exact I]|].
  destruct (H _ _ _ I) as (s1 & E1 & I1). destruct (IH _ I1) as (s' & E2 & I2). exists s'. split; [|exact I2].
  cbn [each]. rewrite E1. exact E2.
Qed.

(** ** Definitions. *)
Lemma number_in {A} (l : list A) : forall n i x, In (i, x) (number n l) <-> exists k, i = Z.of_nat (n + k) /\ nth_error l k = Some x.
Proof.
  induction l as [|a l IH]; intros n i x; cbn [number In].
  - split; [intros []|intros ([|k] & _ & H); discriminate].
  - rewrite IH. split.
    + intros [E|(k & -> & H)].
      * injection E as <- <-. exists 0%nat. rewrite Nat.add_0_r. split; reflexivity.
      * exists (S k). split; [f_equal; lia|exact H].
    + intros ([|k] & -> & H).
      * left. injection H as <-. rewrite Nat.add_0_r. reflexivity.
      * right. exists k. split; [f_equal; lia|exact H].
Qed.
Lemma definitions_in p i d : In (i, d) (definitions p) <-> 0 < i /\ get_def p i = Done d.
Proof.
  unfold definitions, get_def, nth_def. destruct (pl_defs p) as [|d0 ds].
  - split; [intros []|]. intros [L H]. destruct (i <? 0); [discriminate|]. destruct (Z.to_nat i); discriminate.
  - rewrite number_in. split.
    + intros (k & -> & H). split; [lia|]. destruct (Z.ltb_spec (Z.of_nat (1 + k)) 0); [lia|]. rewrite Nat2Z.id. cbn. rewrite H. reflexivity.
    + intros [L H]. destruct (Z.ltb_spec i 0); [lia|]. exists (Z.to_nat i - 1)%nat. split; [lia|].
      destruct (Z.to_nat i) as [|k] eqn:E; [lia|]. cbn [nth_error] in H. replace (S k - 1)%nat with k by lia.
      destruct (nth_error ds k); [congruence|discriminate].
Qed.
Lemma get_class_def p c k : get_class p c = Done k <-> exists d, get_def p c = Done d /\ df_value d = DClass k.
Proof.
  unfold get_class, def_by, get_def. destruct (nth_def (pl_defs p) c) as [d|].
  - split.
    + intros H. exists d. split; [reflexivity|]. destruct (df_value d); try discriminate. cbn in H. congruence.
    + intros (d' & E & V). injection E as <-. rewrite V. reflexivity.
  - split; [discriminate|]. intros (d' & E & _). discriminate.
Qed.
Lemma children_in p c s : In s (children p c) <-> 0 < s /\ c <> UNDEFINED /\ exists k, get_class p s = Done k /\ cl_base k = c.
Proof.
  unfold children. rewrite in_map_iff. split.
  - intros ([i d] & <- & I). apply filter_In in I. destruct I as [I F]. cbn [fst snd] in *. apply definitions_in in I. destruct I as [L G].
    split; [exact L|]. destruct (df_value d) as [| k | | | | | | |] eqn:V; try discriminate. cbn [as_class] in F.
    apply andb_prop in F. destruct F as [F1 F2]. apply Z.eqb_eq in F2. apply negb_true_iff in F1. apply Z.eqb_neq in F1.
    split; [congruence|]. exists k. split; [|exact F2]. apply get_class_def. exists d. split; assumption.
  - intros (L & N & k & G & B). apply get_class_def in G. destruct G as (d & G & V). exists (s, d). split; [reflexivity|].
    apply filter_In. split; [apply definitions_in; split; assumption|]. cbn [snd]. rewrite V. cbn [as_class].
    subst c. destruct (Z.eqb_spec (cl_base k) UNDEFINED); [contradiction|]. rewrite Z.eqb_refl. reflexivity.
Qed.

Lemma chain_inv p c l k : chain p c l -> get_class p c = Done k -> c <> UNDEFINED -> exists l', l = c :: l' /\ chain p (cl_base k) l'.
Proof.
  intros H G N. destruct H as [|c k' l N' G' H]; [contradiction|]. rewrite G in G'. injection G' as <-. exists l. split; [reflexivity|exact H].
Qed.
Lemma chain_head p c x l : chain p c (x :: l) -> x = c /\ c <> UNDEFINED.
Proof. intros H. inversion H; subst. split; [reflexivity|assumption]. Qed.

Section Acyclic.
Variable p : pool.
Hypothesis AC : acyclic p.
Notation isclass c := (exists k, get_class p c = Done k).
Lemma class_chain c k : get_class p c = Done k -> exists l, chain p c (c :: l).
Proof.
  intros G. destruct AC as [Z0 A]. destruct (A _ _ G) as (l & H). destruct l as [|x l].
  - inversion H; subst. exfalso. exact (Z0 _ G).
  - exists l. inversion H; subst. exact H.
Qed.
Lemma class_pos c k : get_class p c = Done k -> 0 < c.
Proof.
  intros G. pose proof (get_class_bound _ _ _ G). destruct AC as [Z0 _]. assert (c <> 0) by (intros ->; exact (Z0 _ G)). lia.
Qed.
Lemma base_class c k : get_class p c = Done k -> cl_base k <> UNDEFINED -> exists b, get_class p (cl_base k) = Done b.
Proof.
  intros G N. destruct (class_chain _ _ G) as (l & H). destruct (chain_head _ _ _ _ H) as [_ NC].
  destruct (chain_inv _ _ _ _ H G NC) as (l' & _ & C). inversion C; subst; [congruence|]. eauto.
Qed.
Lemma base_differs c k : get_class p c = Done k -> cl_base k <> c.
Proof.
  intros G E. destruct (class_chain _ _ G) as (l & H). pose proof (chain_nodup _ _ _ H) as ND.
  destruct (chain_head _ _ _ _ H) as [_ NC]. destruct (chain_inv _ _ _ _ H G NC) as (l' & EL & C). injection EL as <-.
  rewrite E in C. pose proof (chain_det _ _ _ H _ C) as D. apply (f_equal (@length _)) in D. cbn [length] in D. lia.
Qed.

(** ** Subclasses. *)
Lemma ancestor_refl c k : get_class p c = Done k -> ancestor p c c.
Proof. intros G. destruct (class_chain _ _ G) as (l & H). exists (c :: l). split; [exact H|left; reflexivity]. Qed.
Lemma ancestor_class x c : ancestor p x c -> isclass x /\ isclass c.
Proof.
  intros (l & H & I). destruct (chain_class _ _ _ _ H I) as (k & G & _). split; [|eauto].
  inversion H; subst; [destruct I|]. eauto.
Qed.
Lemma ancestor_base x c k : ancestor p x c -> get_class p c = Done k -> cl_base k <> UNDEFINED -> ancestor p x (cl_base k).
Proof.
  intros (l & H & I) G N. exists l. split; [exact H|]. apply in_split in I. destruct I as (a & b & ->).
  pose proof (chain_suffix _ _ _ H _ _ _ eq_refl) as S. destruct (chain_head _ _ _ _ S) as [_ NC].
  destruct (chain_inv _ _ _ _ S G NC) as (l' & EL & C). injection EL as <-.
  destruct C; [contradiction|]. apply in_or_app. right; right; left. reflexivity.
Qed.
Lemma ancestor_up x c k : get_class p x = Done k -> ancestor p x c -> x = c \/ (cl_base k <> UNDEFINED /\ ancestor p (cl_base k) c).
Proof.
  intros G (l & H & I). destruct (Z.eq_dec x UNDEFINED) as [->|NX]; [exfalso; destruct AC as [Z0 _]; exact (Z0 _ G)|].
  destruct (chain_inv _ _ _ _ H G NX) as (l' & -> & C).
  destruct I as [->|I]; [left; reflexivity|]. right. split; [|exists l'; split; assumption].
  intros E. rewrite E in C. inversion C; subst; [destruct I|congruence].
Qed.
Lemma ancestor_down x c : ancestor p x c -> x = c \/ exists s, In s (children p c) /\ ancestor p x s.
Proof.
  intros (l & H & I). apply in_split in I. destruct I as (a & b & ->).
  destruct (rev a) as [|s r] eqn:R.
  - left. assert (a = []) as -> by (rewrite <- (rev_involutive a), R; reflexivity). inversion H; subst. reflexivity.
  - right. exists s. assert (a = rev r ++ [s]) as -> by (rewrite <- (rev_involutive a), R; reflexivity).
    rewrite <- app_assoc in H. cbn [app] in H. pose proof (chain_suffix _ _ _ H _ _ _ eq_refl) as S.
    inversion S as [|? k ? NS GS CS]; subst. destruct (chain_head _ _ _ _ CS) as [-> NB]. split.
    + apply children_in. split; [eapply class_pos; eassumption|]. split; [assumption|]. eauto.
    + exists (rev r ++ s :: cl_base k :: b). split; [exact H|]. apply in_or_app. right; left; reflexivity.
Qed.
Lemma ancestor_child x s c : In s (children p c) -> ancestor p x s -> ancestor p x c.
Proof.
  intros I A. apply children_in in I. destruct I as (_ & N & k & G & <-). eapply ancestor_base; eassumption.
Qed.

Lemma collect_subtypes_ok fuel : forall c l acc, chain p c (c :: l) -> (length (pl_defs p) < fuel + S (length l))%nat -> sorted acc ->
  exists r, collect_subtypes fuel p c acc = Done r /\ sorted r /\ (forall x, In x r <-> In x acc \/ ancestor p x c).
Proof.
  induction fuel as [|fuel IH]; intros c l acc H L S.
  - exfalso. pose proof (chain_length _ _ _ H) as B. cbn [length] in B. lia.
  - cbn [collect_subtypes].
    destruct (each_ok (collect_subtypes fuel p)
      (fun todo a => sorted a /\ (forall x, In x todo -> In x (children p c)) /\
         (forall x, In x a -> In x acc \/ ancestor p x c) /\
         (forall x, In x acc \/ x = c -> In x a) /\
         (forall s x, In s (children p c) -> ancestor p x s -> In x a \/ In s todo)) (children p c) (set_insert c acc)) as (r & E & R).
    + intros s todo a (Sa & T & A1 & A2 & A3).
      assert (Is : In s (children p c)) by (apply T; left; reflexivity).
      pose proof Is as Is'. apply children_in in Is'. destruct Is' as (P & N & k & G & B).
      destruct (IH s (c :: l) a) as (r & E & Sr & M).
      { econstructor; [unfold UNDEFINED; lia|exact G|]. rewrite B. exact H. }
      { cbn [length]. lia. }
      { exact Sa. }
      exists r. split; [exact E|]. split; [exact Sr|]. split; [intros x X; apply T; right; exact X|]. split; [|split].
      * intros x X. apply M in X. destruct X as [X|X]; [exact (A1 _ X)|]. right. eapply ancestor_child; eassumption.
      * intros x X. apply M. left. exact (A2 _ X).
      * intros s' x I' A'. destruct (A3 _ _ I' A') as [X|[<-|X]]; [left; apply M; left; exact X|left; apply M; right; exact A'|right; exact X].
    + split; [apply set_insert_sorted; exact S|]. split; [auto|]. split; [|split].
      * intros x X. apply set_insert_in in X. destruct X as [->|X]; [right|left; exact X]. exists (c :: l). split; [exact H|left; reflexivity].
      * intros x X. apply set_insert_in. destruct X; auto.
      * intros s x I _. right. exact I.
    + exists r. split; [exact E|]. destruct R as (Sr & _ & A1 & A2 & A3). split; [exact Sr|]. intros x. split; [apply A1|].
      intros [X|X]; [apply A2; left; exact X|]. destruct (ancestor_down _ _ X) as [->|(s & I & A)]; [apply A2; right; reflexivity|].
      destruct (A3 _ _ I A) as [Y|[]]. exact Y.
Qed.
Lemma collect_class fuel c acc : isclass c -> (length (pl_defs p) < fuel)%nat -> sorted acc ->
  exists r, collect_subtypes fuel p c acc = Done r /\ sorted r /\ (forall x, In x r <-> In x acc \/ ancestor p x c).
Proof. intros (k & G) L S. destruct (class_chain _ _ G) as (l & H). apply (collect_subtypes_ok fuel c l acc H); [lia|exact S]. Qed.

(** ** Climbing. *)
Lemma climb_above_ok fuel : forall l def cur, 0 <= def -> chain p cur l -> (length l < fuel)%nat ->
  exists r, climb_above fuel p def cur = Done r /\ (r = cur \/ def < r) /\ (isclass cur -> ancestor p cur r) /\
    (forall k, get_class p cur = Done k -> def < cl_base k -> def < r).
Proof.
  induction fuel as [|fuel IH]; intros l def cur P H L; [lia|]. cbn [climb_above].
  destruct (get_class p cur) as [k|] eqn:G.
  - destruct (Z.ltb_spec def (cl_base k)) as [LT|GE].
    + assert (NC : cur <> UNDEFINED) by (intros ->; destruct AC as [Z0 _]; exact (Z0 _ G)).
      destruct (chain_inv _ _ _ _ H G NC) as (l' & -> & C).
      destruct (IH _ def (cl_base k) P C) as (r & E & O & A & _); [cbn [length] in L; lia|]. exists r. split; [exact E|].
      assert (NB : cl_base k <> UNDEFINED) by (unfold UNDEFINED; lia).
      assert (LR : def < r) by (destruct O; lia).
      split; [right; exact LR|]. split; [|intros; exact LR].
      intros _. destruct (A (base_class _ _ G NB)) as (l1 & C1 & I1).
      exists (cur :: l1). split; [econstructor; eassumption|right; exact I1].
    + exists cur. split; [reflexivity|]. split; [left; reflexivity|]. split; [intros _; eapply ancestor_refl; exact G|].
      intros k' E. injection E as <-. lia.
  - exists cur. split; [reflexivity|]. split; [left; reflexivity|]. split; [intros (k & E); congruence|]. intros k E; discriminate.
Qed.

(** Subclasses of members are members. *)
Definition closed (u : list pidx) : Prop := forall c k, get_class p c = Done k -> In (cl_base k) u -> In c u.
Lemma closed_below u x c : closed u -> ancestor p x c -> In c u -> In x u.
Proof.
  intros CL (l & H & I). revert I. induction H as [|x k l N G H IH]; intros I J; [destruct I|]. destruct I as [->|I]; [exact J|].
  apply (CL _ _ G). exact (IH I J).
Qed.
Lemma closed_union u u' c : closed u -> (forall x, In x u' <-> In x u \/ ancestor p x c) -> closed u'.
Proof.
  intros CL M x k G I. apply M in I. apply M. destruct I as [I|I]; [left; exact (CL _ _ G I)|]. right.
  destruct I as (l & H & I). exists (x :: l). split; [|right; exact I]. econstructor; [|exact G|exact H].
  pose proof (class_pos _ _ G). unfold UNDEFINED; lia.
Qed.
Definition out_of_order (c : pidx) : Prop := exists k, get_class p c = Done k /\ c < cl_base k.

Lemma find_unsorted_ok fuel : (length (pl_defs p) < fuel)%nat -> exists u, find_unsorted fuel p = Done u /\ sorted u /\ closed u /\
  (forall c, In c u -> isclass c) /\ (forall c, out_of_order c -> In c u) /\ (forall c, In c u -> exists c', out_of_order c').
Proof.
  intros F. unfold find_unsorted.
  set (f := fun def acc => match climb_above fuel p def def with Done cur => if cur =? def then Done acc else collect_subtypes fuel p cur acc | Fail e => Fail e end).
  destruct (each_ok f (fun todo u => sorted u /\ closed u /\ (forall x, In x todo -> 0 < x) /\ (forall c, In c u -> isclass c) /\
      (forall c, out_of_order c -> In c u \/ In c todo) /\ (forall c, In c u -> exists c', out_of_order c')) (map fst (definitions p)) []) as (u & E & R).
  - intros def todo u (S & CL & P & K & O & W). unfold f.
    assert (PD : 0 < def) by (apply P; left; reflexivity).
    assert (P' : forall x, In x todo -> 0 < x) by (intros x X; apply P; right; exact X).
    destruct (get_class p def) as [k|] eqn:G.
    + destruct (class_chain _ _ G) as (l & H).
      destruct (climb_above_ok fuel (def :: l) def def) as (r & E & OR & A & LT); [lia|exact H|pose proof (chain_length _ _ _ H); lia|].
      rewrite E. destruct (Z.eqb_spec r def) as [->|NE].
      * exists u. split; [reflexivity|]. split; [exact S|]. split; [exact CL|]. split; [exact P'|]. split; [exact K|]. split; [|exact W].
        intros c Oc. destruct (O _ Oc) as [X|[<-|X]]; [left; exact X| |right; exact X].
        exfalso. destruct Oc as (k' & G' & L'). specialize (LT _ G' L'). lia.
      * pose proof (A (ex_intro _ _ G)) as AN. destruct (ancestor_class _ _ AN) as [_ KR].
        destruct (collect_class fuel r u KR F S) as (u' & E' & S' & M). exists u'. split; [exact E'|].
        split; [exact S'|]. split; [eapply closed_union; eassumption|]. split; [exact P'|]. split; [|split].
        -- intros c I. apply M in I. destruct I as [I|I]; [exact (K _ I)|]. destruct (ancestor_class _ _ I) as [X _]. exact X.
        -- intros c Oc. destruct (O _ Oc) as [X|[<-|X]]; [left; apply M; left; exact X|left; apply M; right; exact AN|right; exact X].
        -- intros c _. exists def. exists k. split; [exact G|].
           destruct (Z.ltb_spec def (cl_base k)) as [L|L]; [exact L|]. exfalso. apply NE.
           destruct fuel; [lia|]. cbn [climb_above] in E. rewrite G in E. destruct (Z.ltb_spec def (cl_base k)); [lia|]. congruence.
    + assert (E : climb_above fuel p def def = Done def) by (destruct fuel; [lia|]; cbn [climb_above]; rewrite G; reflexivity).
      rewrite E, Z.eqb_refl. exists u. split; [reflexivity|]. split; [exact S|]. split; [exact CL|]. split; [exact P'|]. split; [exact K|]. split; [|exact W].
      intros c Oc. destruct (O _ Oc) as [X|[<-|X]]; [left; exact X| |right; exact X]. destruct Oc as (k' & G' & _). congruence.
  - split; [constructor|]. split; [intros c k _ []|]. split; [|split; [intros c []|split; [|intros c []]]].
    + intros x X. apply in_map_iff in X. destruct X as ([i d] & <- & I). apply definitions_in in I. exact (proj1 I).
    + intros c (k & G & L). right. pose proof (class_pos _ _ G) as PC. apply get_class_def in G. destruct G as (d & G & _).
      apply in_map_iff. exists (c, d). split; [reflexivity|]. apply definitions_in. split; assumption.
  - exists u. split; [exact E|]. destruct R as (S & CL & _ & K & O & W). split; [exact S|]. split; [exact CL|]. split; [exact K|].
    split; [|exact W]. intros c Oc. destruct (O _ Oc) as [X|[]]. exact X.
Qed.

(** ** Superclasses of members. *)
Lemma climb_outside_ok fuel u least : forall l cur, 0 <= least -> chain p cur l -> (length l < fuel)%nat ->
  exists r, climb_outside fuel p least u cur = Done r /\ (r = cur \/ (least < r /\ ~ In r u)) /\ (isclass cur -> ancestor p cur r) /\
    (forall k, get_class p r = Done k -> cl_base k <= least \/ In (cl_base k) u).
Proof.
  induction fuel as [|fuel IH]; intros l cur P H L; [lia|]. cbn [climb_outside].
  destruct (get_class p cur) as [k|] eqn:G.
  - destruct ((least <? cl_base k) && negb (set_mem (cl_base k) u)) eqn:B.
    + apply andb_prop in B. destruct B as [B1 B2]. apply Z.ltb_lt in B1. apply negb_true_iff in B2.
      assert (NI : ~ In (cl_base k) u) by (intros I; apply set_mem_spec in I; congruence).
      assert (NC : cur <> UNDEFINED) by (intros ->; destruct AC as [Z0 _]; exact (Z0 _ G)).
      destruct (chain_inv _ _ _ _ H G NC) as (l' & -> & C).
      destruct (IH _ (cl_base k) P C) as (r & E & O & A & T); [cbn [length] in L; lia|]. exists r. split; [exact E|].
      assert (NB : cl_base k <> UNDEFINED) by (unfold UNDEFINED; lia).
      split; [right; destruct O as [->|O]; [split; assumption|exact O]|]. split; [|exact T].
      intros _. destruct (A (base_class _ _ G NB)) as (l1 & C1 & I1).
      exists (cur :: l1). split; [econstructor; eassumption|right; exact I1].
    + exists cur. split; [reflexivity|]. split; [left; reflexivity|]. split; [intros _; eapply ancestor_refl; exact G|].
      intros k' E. rewrite G in E. injection E as <-. apply andb_false_iff in B. destruct B as [B|B].
      * left. apply Z.ltb_ge in B. exact B.
      * right. apply set_mem_spec. apply negb_false_iff in B. exact B.
  - exists cur. split; [reflexivity|]. split; [left; reflexivity|]. split; [intros (k & E); congruence|]. intros k E; congruence.
Qed.

(** Classes outside a closed set that has all classes out of order come after their
    superclasses. *)
Lemma above_outside u x c : closed u -> (forall c, out_of_order c -> In c u) -> ancestor p x c -> ~ In x u -> c <= x.
Proof.
  intros CL O (l & H & I). revert I. induction H as [|x k l N G H IH]; intros I NI; [destruct I|]. destruct I as [->|I]; [lia|].
  assert (NB : ~ In (cl_base k) u) by (intros J; apply NI; exact (CL _ _ G J)).
  specialize (IH I NB). destruct (Z.lt_ge_cases x (cl_base k)) as [L|L]; [|lia].
  exfalso. apply NI, O. exists k. split; assumption.
Qed.

Lemma add_superclasses_ok fuel u0 : (length (pl_defs p) < fuel)%nat -> sorted u0 -> closed u0 -> (forall c, In c u0 -> isclass c) ->
  (forall c, out_of_order c -> In c u0) ->
  exists u, add_superclasses fuel p u0 = Done u /\ sorted u /\ closed u /\ (forall c, In c u -> isclass c) /\ (forall c, out_of_order c -> In c u) /\
    (u = [] <-> u0 = []) /\
    (forall c k, In c u -> get_class p c = Done k -> In (cl_base k) u \/ forall x, In x u -> cl_base k < x).
Proof.
  intros F S0 CL0 K0 O0. destruct u0 as [|least u0'] eqn:U0.
  - exists []. split; [reflexivity|]. split; [constructor|]. split; [intros c k _ []|]. split; [intros c []|]. split; [exact O0|].
    split; [split; reflexivity|]. intros c k [].
  - rewrite <- U0 in *. assert (ML : forall x, In x u0 -> least <= x).
    { rewrite U0 in S0 |- *. inversion S0 as [|? ? _ FA]; subst. intros x [<-|X]; [lia|]. rewrite Forall_forall in FA. specialize (FA _ X). lia. }
    assert (IL : In least u0) by (rewrite U0; left; reflexivity).
    assert (PL : 0 <= least) by (destruct (K0 _ IL) as (k & G); pose proof (class_pos _ _ G); lia).
    assert (EQ : add_superclasses fuel p u0 = each (fun cls acc =>
      match climb_outside fuel p least acc cls with
      | Done cur => if cur =? cls then Done acc else collect_subtypes fuel p cur acc
      | Fail e => Fail e
      end) u0 u0) by (rewrite U0; reflexivity).
    destruct (each_ok (fun cls acc =>
      match climb_outside fuel p least acc cls with
      | Done cur => if cur =? cls then Done acc else collect_subtypes fuel p cur acc
      | Fail e => Fail e
      end) (fun todo u => sorted u /\ closed u /\ (forall c, In c u -> isclass c) /\ (forall x, In x u0 -> In x u) /\
          (forall x, In x u -> least <= x) /\ (forall x, In x todo -> In x u0) /\
          (forall c k, In c u -> get_class p c = Done k -> In (cl_base k) u \/ cl_base k < least \/ In c todo)) u0 u0) as (u & E & R).
    + intros cls todo u (S & CL & K & SUB & MIN & T & B).
      assert (T' : forall x, In x todo -> In x u0) by (intros x X; apply T; right; exact X).
      assert (IC : In cls u) by (apply SUB, T; left; reflexivity).
      destruct (K _ IC) as (k & G). destruct (class_chain _ _ G) as (l & H).
      destruct (climb_outside_ok fuel u least (cls :: l) cls PL H) as (r & E & OR & A & ST); [pose proof (chain_length _ _ _ H); lia|].
      rewrite E. destruct (Z.eqb_spec r cls) as [->|NE].
      * exists u. split; [reflexivity|]. split; [exact S|]. split; [exact CL|]. split; [exact K|]. split; [exact SUB|]. split; [exact MIN|].
        split; [exact T'|]. intros c kc I Gc. destruct (B _ _ I Gc) as [X|[X|[<-|X]]]; [left; exact X|right; left; exact X| |right; right; exact X].
        destruct (ST _ Gc) as [X|X]; [|left; exact X]. destruct (Z.eq_dec (cl_base kc) least) as [Q|Q]; [left; rewrite Q; apply SUB; exact IL|right; left; lia].
      * destruct OR as [OR|[LR NR]]; [contradiction|].
        pose proof (A (ex_intro _ _ G)) as AN. destruct (ancestor_class _ _ AN) as [_ KR].
        destruct (collect_class fuel r u KR F S) as (u' & E' & S' & M). exists u'. split; [exact E'|].
        split; [exact S'|]. split; [eapply closed_union; eassumption|]. split; [|split; [|split; [|split; [exact T'|]]]].
        -- intros c I. apply M in I. destruct I as [I|I]; [exact (K _ I)|]. destruct (ancestor_class _ _ I) as [X _]. exact X.
        -- intros x X. apply M. left. exact (SUB _ X).
        -- intros x X. apply M in X. destruct X as [X|X]; [exact (MIN _ X)|].
           destruct (in_dec Z.eq_dec x u) as [J|J]; [exact (MIN _ J)|].
           assert (OU : forall c, out_of_order c -> In c u) by (intros c Oc; apply SUB, O0; exact Oc).
           pose proof (above_outside _ _ _ CL OU X J). lia.
        -- assert (NEW : forall c kc, ancestor p c r -> get_class p c = Done kc -> In (cl_base kc) u' \/ cl_base kc < least).
           { intros c kc I Gc. destruct (ancestor_up _ _ _ Gc I) as [->|[_ Y]]; [|left; apply M; right; exact Y].
             destruct (ST _ Gc) as [X|X].
             + destruct (Z.eq_dec (cl_base kc) least) as [Q|Q]; [left; apply M; left; rewrite Q; apply SUB; exact IL|right; lia].
             + left. apply M. left. exact X. }
           intros c kc I Gc. apply M in I. destruct I as [I|I].
           ++ destruct (B _ _ I Gc) as [X|[X|[<-|X]]]; [left; apply M; left; exact X|right; left; exact X| |right; right; exact X].
              destruct (NEW _ _ AN Gc) as [X|X]; [left; exact X|right; left; exact X].
           ++ destruct (NEW _ _ I Gc) as [X|X]; [left; exact X|right; left; exact X].
    + split; [exact S0|]. split; [exact CL0|]. split; [exact K0|]. split; [auto|]. split; [exact ML|]. split; [auto|].
      intros c k I _. right; right; exact I.
    + exists u. split; [rewrite EQ; exact E|]. destruct R as (S & CL & K & SUB & MIN & _ & B). split; [exact S|]. split; [exact CL|]. split; [exact K|].
      split; [intros c Oc; apply SUB, O0; exact Oc|]. split.
      * split; intros Q; exfalso; [|rewrite Q in IL; destruct IL]. specialize (SUB _ IL). rewrite Q in SUB. destruct SUB.
      * intros c k I G. destruct (B _ _ I G) as [X|[X|[]]]; [left; exact X|]. right. intros x J. specialize (MIN _ J). lia.
Qed.
End Acyclic.
