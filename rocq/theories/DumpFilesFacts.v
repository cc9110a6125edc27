(** Facts about the files that the decompiler writes. *)
From Coq Require Import String.
From Coq Require Import ZArith List Bool Lia Permutation Sorted.
From Verif Require Import Bytes Bytecode Definitions Bundle BundleFacts Ast Pool Scope Printer Parser Decompiler Dump DumpFiles PoolSpec WrapSpec DumpFilesSpec.
Import ListNotations.
Open Scope Z_scope.

(** * The definitions of a pool *)
Lemma numbered_in l : forall n i d, In (i, d) (numbered n l) <-> n <= i /\ nth_error l (Z.to_nat (i - n)) = Some d.
Proof.
  induction l as [|a l IH]; intros n i d; cbn [numbered In].
  - split; [intros []|]. intros (_ & H). now destruct (Z.to_nat (i - n)).
  - rewrite IH. split.
    + intros [[= -> ->]|(A & B)]; [split; [lia|]; now rewrite Z.sub_diag|]. split; [lia|]. replace (Z.to_nat (i - n)) with (S (Z.to_nat (i - (n + 1)))) by lia. exact B.
    + intros (A & B). destruct (Z.eq_dec i n) as [->|NE]; [left; rewrite Z.sub_diag in B; injection B as ->; reflexivity|right]. split; [lia|].
      replace (Z.to_nat (i - n)) with (S (Z.to_nat (i - (n + 1)))) in B by lia. exact B.
Qed.
Lemma definitions_in p i d : In (i, d) (definitions p) <-> listed p i d.
Proof.
  unfold definitions, listed, nth_def. destruct (pl_defs p) as [|a l]; cbn [numbered tl].
  - split; [intros []|]. intros (A & B). destruct (i <? 0); [discriminate|]. now destruct (Z.to_nat i).
  - rewrite numbered_in. split; intros (A & B).
    + split; [lia|]. destruct (Z.ltb_spec i 0); [lia|]. replace (Z.to_nat i) with (S (Z.to_nat (i - (0 + 1)))) by lia. exact B.
    + split; [lia|]. destruct (Z.ltb_spec i 0); [lia|]. replace (Z.to_nat i) with (S (Z.to_nat (i - (0 + 1)))) in B by lia. exact B.
Qed.
Lemma numbered_sorted f l : forall n, StronglySorted Z.lt (map fst (filter f (numbered n l))) /\ Forall (fun i => n <= i) (map fst (filter f (numbered n l))).
Proof.
  induction l as [|a l IH]; intros n; cbn [numbered filter map]; [split; constructor|]. destruct (IH (n + 1)) as (A & B).
  assert (C : Forall (fun i => n <= i) (map fst (filter f (numbered (n + 1) l)))) by (eapply Forall_impl; [|exact B]; cbn; lia).
  destruct (f (n, a)); [|auto]. cbn [map fst]. split; [constructor; [exact A|eapply Forall_impl; [|exact B]; cbn; lia]|constructor; [lia|exact C]].
Qed.
Lemma definitions_sorted f p : StronglySorted Z.lt (map fst (filter f (definitions p))).
Proof. unfold definitions. destruct (pl_defs p) as [|a l]; [constructor|]. apply numbered_sorted. Qed.

(** * The map of files *)
Definition has (m : file_map) (k i : pidx) : Prop := exists l, In (k, l) m /\ In i l.
Definition tidy (m : file_map) : Prop := NoDup (map fst m) /\ Forall (fun x => NoDup (snd x) /\ snd x <> []) m.
Lemma into_keys m k i x : In x (map fst (into_file m k i)) <-> x = k \/ In x (map fst m).
Proof.
  induction m as [|[k' l] m IH]; cbn [into_file map fst In]; [intuition|]. destruct (Z.eqb_spec k' k) as [->|NE]; cbn [map fst In]; [intuition|]. rewrite IH. intuition.
Qed.
Lemma existsb_in i l : existsb (Z.eqb i) l = true <-> In i l.
Proof. rewrite existsb_exists. split; [intros (x & A & B); apply Z.eqb_eq in B; now subst|intros A; exists i; split; [exact A|apply Z.eqb_refl]]. Qed.
Lemma into_tidy m k i : tidy m -> tidy (into_file m k i).
Proof.
  intros (A & B). split.
  - induction m as [|[k' l] m IH]; cbn [into_file map fst]; [repeat constructor; intros []|]. cbn [map fst] in A. inversion A as [|? ? N A']; subst. inversion B as [|? ? _ B']; subst.
    destruct (Z.eqb_spec k' k) as [->|NE]; cbn [map fst]; constructor; auto. rewrite into_keys. intros [X|X]; [congruence|contradiction].
  - clear A. induction B as [|[k' l] m (N & E) B IH]; cbn [into_file]; [constructor; [|constructor]; split; [repeat constructor; intros []|discriminate]|].
    destruct (k' =? k); constructor; auto. cbn [snd] in *. destruct (existsb (Z.eqb i) l) eqn:X; [auto|]. split; [|now destruct l].
    apply Permutation_NoDup with (l := i :: l); [apply Permutation_cons_append|]. constructor; [|exact N]. rewrite <- existsb_in, X. discriminate.
Qed.
Lemma into_has m k i k' i' : tidy m -> has (into_file m k i) k' i' <-> has m k' i' \/ k' = k /\ i' = i.
Proof.
  intros (A & _). unfold has. induction m as [|[k0 l] m IH]; cbn [into_file].
  - split; [intros (l & [[= <- <-]|[]] & [<-|[]]); auto|]. intros [(l & [] & _)|(-> & ->)]. exists [i]. split; now left.
  - cbn [map fst] in A. inversion A as [|? ? N A']; subst. specialize (IH A'). destruct (Z.eqb_spec k0 k) as [->|NE].
    + destruct (existsb (Z.eqb i) l) eqn:X.
      * apply existsb_in in X. split; [intros H; now left|]. intros [H|(-> & ->)]; [exact H|]. exists l. split; [now left|exact X].
      * split.
        -- intros (l' & [[= <- <-]|I] & J); [|left; exists l'; split; [now right|exact J]]. apply in_app_or in J as [J|[<-|[]]]; [left; exists l; split; [now left|exact J]|auto].
        -- intros [(l' & [[= <- <-]|I] & J)|(-> & ->)].
           ++ eexists. split; [left; reflexivity|apply in_or_app; now left].
           ++ exists l'. split; [now right|exact J].
           ++ eexists. split; [left; reflexivity|apply in_or_app; right; now left].
    + split.
      * intros (l' & [[= <- <-]|I] & J); [left; exists l; split; [now left|exact J]|]. destruct (proj1 IH (ex_intro _ l' (conj I J))) as [(l2 & I2 & J2)|H]; [left; exists l2; split; [now right|exact J2]|now right].
      * intros [(l' & [[= <- <-]|I] & J)|H]; [exists l; split; [now left|exact J]| |].
        -- destruct (proj2 IH (or_introl (ex_intro _ l' (conj I J)))) as (l2 & I2 & J2). exists l2. split; [now right|exact J2].
        -- destruct (proj2 IH (or_intror H)) as (l2 & I2 & J2). exists l2. split; [now right|exact J2].
Qed.
Lemma from_pool_spec p : tidy (from_pool p) /\ forall k i, has (from_pool p) k i <-> belongs p k i.
Proof.
  unfold from_pool.
  assert (G : forall l m, tidy m -> let m' := fold_left (fun m x => match source_of (snd x) with Some s => into_file m (sr_file s) (root_of (fst x) (snd x)) | None => m end) l m in
    tidy m' /\ forall k i, has m' k i <-> has m k i \/ exists j d s, In (j, d) l /\ source_of d = Some s /\ sr_file s = k /\ i = root_of j d).
  { induction l as [|[j d] l IH]; intros m T; cbn [fold_left snd fst].
    - split; [exact T|]. intros k i. split; [auto|]. intros [H|(j & d & s & [] & _)]. exact H.
    - assert (T' : tidy (match source_of d with Some s => into_file m (sr_file s) (root_of j d) | None => m end)) by (destruct (source_of d); [now apply into_tidy|exact T]).
      destruct (IH _ T') as (A & B). split; [exact A|]. intros k i. rewrite B. destruct (source_of d) as [s|] eqn:S.
      + rewrite (into_has _ _ _ _ _ T). split.
        * intros [[H|(-> & ->)]|(j' & d' & s' & I & H)]; [auto|right; exists j, d, s; repeat split; auto; now left|right; exists j', d', s'; split; [now right|exact H]].
        * intros [H|(j' & d' & s' & [[= <- <-]|I] & S' & F & R)]; [auto| |right; exists j', d', s'; auto]. left. right. assert (s' = s) by congruence. subst. auto.
      + split.
        * intros [H|(j' & d' & s' & I & H)]; [auto|right; exists j', d', s'; split; [now right|exact H]].
        * intros [H|(j' & d' & s' & [[= <- <-]|I] & S' & F & R)]; [auto|congruence|right; exists j', d', s'; auto]. }
  destruct (G (definitions p) [] ltac:(split; constructor)) as (A & B). split; [exact A|]. intros k i. rewrite B. split.
  - intros [(l & [] & _)|(j & d & s & I & S & <- & ->)]. apply definitions_in in I. unfold source_of in S. destruct (df_value d) as [ | | | |f| | | | ] eqn:V; try discriminate.
    exists j, d, (sr_line s). split; [exists f, s; auto|]. unfold root_of. destruct (Z.eqb_spec (df_parent d) UNDEFINED); auto.
  - intros (j & d & line & (f & s & L & V & S & F & _) & R). right. exists j, d, s. split; [now apply definitions_in|]. split; [unfold source_of; now rewrite V|]. split; [exact F|].
    unfold root_of. destruct R as [(-> & ->)|(N & ->)]; [reflexivity|]. destruct (Z.eqb_spec (df_parent d) UNDEFINED); [contradiction|reflexivity].
Qed.

(** * Sorting *)
Lemma place_perm {A} (key : A -> Z) a l : Permutation (place key a l) (a :: l).
Proof. induction l as [|b l IH]; cbn [place]; [reflexivity|]. destruct (key a <=? key b); [reflexivity|]. rewrite IH. apply perm_swap. Qed.
Lemma sort_perm {A} (key : A -> Z) l : Permutation (sort_by key l) l.
Proof. induction l as [|a l IH]; [reflexivity|]. cbn [sort_by fold_right]. rewrite place_perm. now constructor. Qed.
Lemma place_sorted {A} (key : A -> Z) a l : StronglySorted Z.le (map key l) -> StronglySorted Z.le (map key (place key a l)).
Proof.
  induction l as [|b l IH]; cbn [place map]; intros S; [repeat constructor|]. inversion S as [|? ? S' F]; subst. destruct (Z.leb_spec (key a) (key b)) as [L|L]; cbn [map].
  - constructor; [exact S|]. constructor; [exact L|]. eapply Forall_impl; [|exact F]. cbn. lia.
  - constructor; [exact (IH S')|]. apply (Permutation_Forall (x := map key (a :: l))); [symmetry; apply Permutation_map, place_perm|]. cbn [map]. constructor; [lia|exact F].
Qed.
Lemma sort_sorted {A} (key : A -> Z) l : StronglySorted Z.le (map key (sort_by key l)).
Proof. induction l as [|a l IH]; [constructor|]. cbn [sort_by fold_right]. now apply place_sorted. Qed.

(** * Lines *)
Lemma least_spec l : match least l with None => l = [] | Some m => In m l /\ forall n, In n l -> m <= n end.
Proof.
  destruct l as [|x l]; [reflexivity|]. cbn [least]. revert x. induction l as [|y l IH]; intros x; cbn [fold_left].
  - split; [now left|]. intros n [<-|[]]. lia.
  - destruct (IH (Z.min x y)) as (A & B). set (m := fold_left Z.min l (Z.min x y)) in *. split.
    + destruct A as [A|A]; [|now right; right]. cbn [In]. destruct (Z.min_spec x y) as [(_ & E)|(_ & E)]; lia.
    + intros n [<-|[<-|I]]; [|specialize (B (Z.min x y) (or_introl eq_refl)); lia|apply B; now right]. specialize (B (Z.min x y) (or_introl eq_refl)). lia.
Qed.
Lemma lines_in p fs n : In n (lines_of p fs) <-> exists f x s, In f fs /\ get_function p f = Done x /\ fu_source x = Some s /\ sr_line s = n.
Proof.
  unfold lines_of. rewrite in_flat_map. split.
  - intros (f & I & H). destruct (get_function p f) as [x|] eqn:G; [|destruct H]. destruct (fu_source x) as [s|] eqn:S; [|destruct H]. destruct H as [<-|[]]. exists f, x, s. auto.
  - intros (f & x & s & I & G & S & <-). exists f. split; [exact I|]. rewrite G, S. now left.
Qed.
Lemma line_starts p i d : def_at p i = Some d -> starts_at p i (line_key p i).
Proof.
  intros D. exists d. split; [exact D|]. unfold line_key, get_def. rewrite D. cbn. unfold first_line. destruct (df_value d) as [t|k|v|e|f|x|lc|fl|s]; try reflexivity.
  - pose proof (least_spec (lines_of p (cl_functions k))) as L. destruct (least _) as [m|].
    + left. destruct L as (A & B). split.
      * apply lines_in in A as (f & x & s & I & G & S & E). exists f. split; [exact I|]. exists x, s. auto.
      * intros f n (I & x & s & G & S & E). apply B, lines_in. exists f, x, s. auto.
    + right. split; [|reflexivity]. intros f n (I & x & s & G & S & E). assert (J : In n (lines_of p (cl_functions k))) by (apply lines_in; exists f, x, s; auto). rewrite L in J. exact J.
  - destruct (fu_source f); reflexivity.
Qed.
Lemma is_there_at p i : is_there p i = true <-> exists d, def_at p i = Some d.
Proof. unfold is_there, get_def. destruct (def_at p i) as [d|]; split; intros H; try discriminate; eauto. now destruct H. Qed.

(** * The entries *)
Definition entry_of (p : pool) (x : pidx * list pidx) (e : file_entry) : Prop :=
  is_file p (fst x) (fst e) /\ (NoDup (snd x) -> NoDup (snd e)) /\ in_order p (snd e) /\ forall i, In i (snd e) <-> In i (snd x) /\ exists d, def_at p i = Some d.
Lemma entry_done w p x o : any_order w -> source_entry w p x = Done o ->
  match o with Some e => entry_of p x e | None => forall path, ~ is_file p (fst x) path end.
Proof.
  intros (_ & W) H. unfold source_entry in H. unfold get_def in H. destruct (def_at p (fst x)) as [d|] eqn:D; [|discriminate].
  destruct (df_value d) as [t|k|v|e|f|y|lc|fl|s] eqn:V; injection H as <-; try (intros path (d' & f' & D' & V' & _); congruence).
  set (l := filter (is_there p) (wk_children w (snd x))). pose proof (sort_perm (line_key p) l) as P.
  assert (IN : forall i, In i (sort_by (line_key p) l) <-> In i (snd x) /\ exists d, def_at p i = Some d).
  { intros i. split.
    - intros I. apply (Permutation_in _ P), filter_In in I as (I & T). apply (Permutation_in _ (W _)) in I. apply is_there_at in T. auto.
    - intros (I & T). apply (Permutation_in _ (Permutation_sym P)), filter_In. split; [apply (Permutation_in _ (Permutation_sym (W _)) I)|now apply is_there_at]. }
  split; [exists d, s; auto|]. cbn [fst snd]. split; [|split; [|exact IN]].
  - intros N. apply (Permutation_NoDup (Permutation_sym P)), NoDup_filter, (Permutation_NoDup (Permutation_sym (W _)) N).
  - exists (map (line_key p) (sort_by (line_key p) l)). split; [|apply sort_sorted].
    assert (A : forall i, In i (sort_by (line_key p) l) -> starts_at p i (line_key p i)) by (intros i I; apply IN in I as (_ & d' & D'); exact (line_starts _ _ _ D')).
    clear P IN. induction (sort_by (line_key p) l) as [|i m IH]; cbn [map]; [constructor|constructor; [apply A; now left|apply IH; intros; apply A; now right]].
Qed.
Lemma entries_done w p l : any_order w -> forall es, source_entries w p l = Done es ->
  exists xs, Forall2 (entry_of p) xs es /\ (forall x, In x xs -> In x l) /\ (NoDup (map fst l) -> NoDup (map fst xs)) /\ (forall x path, In x l -> is_file p (fst x) path -> In x xs).
Proof.
  intros W. induction l as [|x l IH]; intros es H; cbn [source_entries] in H.
  - injection H as <-. exists []. split; [constructor|]. split; [auto|]. split; [auto|]. intros x path [].
  - destruct (source_entry w p x) as [o|] eqn:E; [|discriminate]. cbn [obind] in H. destruct (source_entries w p l) as [es'|] eqn:E'; [|discriminate]. cbn [obind] in H. injection H as <-.
    destruct (IH _ eq_refl) as (xs & A & B & C & D). apply (entry_done _ _ _ _ W) in E. destruct o as [e|].
    + exists (x :: xs). split; [now constructor|]. split; [intros y [<-|I]; [now left|right; auto]|]. split.
      * cbn [map]. intros N. inversion N as [|? ? N1 N2]; subst. constructor; [|auto]. intros I. apply N1. apply in_map_iff in I as (y & Y & I). rewrite <- Y. apply in_map. auto.
      * intros y path [<-|I] F; [now left|right; eauto].
    + exists xs. split; [exact A|]. split; [intros y I; right; auto|]. split; [cbn [map]; intros N; inversion N; auto|].
      intros y path [<-|I] F; [destruct (E _ F)|eauto].
Qed.
Lemma entries_go w p l : (forall x, In x l -> exists d, def_at p (fst x) = Some d) -> exists es, source_entries w p l = Done es.
Proof.
  induction l as [|x l IH]; intros H; cbn [source_entries]; [eauto|]. destruct (IH (fun y I => H y (or_intror I))) as (es & ->). destruct (H x (or_introl eq_refl)) as (d & D).
  unfold source_entry, get_def. rewrite D. destruct (df_value d); cbn [obind]; eauto.
Qed.
Lemma entries_stop w p l x : In x l -> def_at p (fst x) = None -> source_entries w p l = Fail DPanic.
Proof.
  induction l as [|y l IH]; intros [] N; cbn [source_entries].
  - subst y. unfold source_entry, get_def. now rewrite N.
  - rewrite (IH H N). unfold source_entry. destruct (get_def p (fst y)) as [d|]; [|reflexivity]. now destruct (df_value d).
Qed.
Lemma orphans_in p i : In i (snd (orphans p)) <-> orphan p i.
Proof.
  unfold orphans. cbn [snd]. rewrite in_map_iff. split.
  - intros ([j d] & <- & I). apply filter_In in I as (I & O). apply definitions_in in I. exists d. split; [exact I|]. unfold is_orphan in O. cbn [fst snd] in *. destruct (df_value d) as [t|k|v|e|f|x|lc|fl|s]; try discriminate; auto.
    + intros f x I' G. rewrite forallb_forall in O. specialize (O _ I'). now rewrite G in O.
    + apply andb_prop in O as (A & B). apply Z.eqb_eq in A. auto.
  - intros (d & L & H). exists (i, d). split; [reflexivity|]. apply filter_In. split; [now apply definitions_in|]. unfold is_orphan. cbn [snd]. destruct (df_value d) as [t|k|v|e|f|x|lc|fl|s]; try contradiction; auto.
    + apply forallb_forall. intros f I. destruct (get_function p f) as [x|] eqn:G; [|reflexivity]. eauto.
    + destruct H as (-> & ->). reflexivity.
Qed.
(** * What is there at the end *)
Lemma end_none l path : at_end l path = None <-> forall e, In e l -> fst e <> path.
Proof.
  induction l as [|[q is] l IH]; cbn [at_end]; [split; [intros _ e []|reflexivity]|]. destruct (at_end l path) as [x|].
  - split; [discriminate|]. intros H. discriminate (proj2 IH (fun e I => H e (or_intror I))).
  - cbn [fst snd]. destruct (str_eqb_spec q path) as [->|NE]; split; intros H.
    + discriminate.
    + destruct (H (path, is) (or_introl eq_refl) eq_refl).
    + intros e [<-|I]; [exact NE|exact (proj1 IH eq_refl e I)].
    + reflexivity.
Qed.
Lemma end_last l path : forall ids, at_end l path = Some ids <-> exists a b, l = a ++ (path, ids) :: b /\ forall e, In e b -> fst e <> path.
Proof.
  induction l as [|[q is] l IH]; intros ids; cbn [at_end].
  - split; [discriminate|]. intros (a & b & E & _). now destruct a.
  - destruct (at_end l path) as [x|] eqn:E.
    + split; [intros [= <-]; destruct (proj1 (IH x) eq_refl) as (a & b & -> & H); exists ((q, is) :: a), b; auto|].
      intros (a & b & E2 & H). destruct a as [|y a]; cbn [app] in E2; injection E2 as E1 E2.
      * subst. apply end_none in H. congruence.
      * apply IH. eauto.
    + cbn [fst snd]. split.
      * destruct (str_eqb_spec q path) as [->|NE]; [|discriminate]. intros [= <-]. exists [], l. split; [reflexivity|now apply end_none].
      * intros (a & b & E2 & H). destruct a as [|y a]; cbn [app] in E2.
        -- injection E2 as -> -> <-. now destruct (str_eqb_spec path path).
        -- injection E2 as E1 E2. assert (X : None = Some ids) by (apply IH; eauto). discriminate X.
Qed.
