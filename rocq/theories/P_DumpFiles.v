(** C58: which definitions the decompiler writes to which file. *)
From Coq Require Import String.
From Coq Require Import ZArith List Bool Lia Permutation Sorted.
From Verif Require Import Bytes BytesFacts Bytecode Definitions Bundle BundleFacts Ast Pool Scope TypeNames Printer Parser Decompiler Dump PrintSpec Unit Grammar StatementSpec DumpSpec DumpFacts DumpWritten P_Dump
  DumpFiles PoolSpec WrapSpec WrapFacts DumpFilesSpec DumpFilesFacts.
From Verif Require Import BundleLoad P_Bundle.
Import ListNotations.
Open Scope Z_scope.

(** The first file has the orphans, in the order of the bundle.  Then there is one entry
    for each source file that something belongs to; it lists what belongs there, each
    once, by lines. *)
Theorem C58_entries w p es : any_order w -> entries w p = Done es ->
  exists os rest ks, es = (orphans_path, os) :: rest /\ StronglySorted Z.lt os /\ (forall i, In i os <-> orphan p i) /\
    NoDup ks /\ (forall k, In k ks <-> (exists path, is_file p k path) /\ exists i, belongs p k i) /\
    Forall2 (fun k e => is_file p k (fst e) /\ NoDup (snd e) /\ in_order p (snd e) /\ forall i, In i (snd e) <-> belongs p k i /\ exists d, def_at p i = Some d) ks rest.
Proof.
  intros W E. unfold entries in E. destruct (source_entries w p (wk_files w (from_pool p))) as [rest|] eqn:S; [|discriminate]. cbn [obind] in E. injection E as <-.
  destruct (entries_done _ _ _ W _ S) as (xs & A & B & C & D). destruct (from_pool_spec p) as ((T1 & T2) & H). pose proof (proj1 W (from_pool p)) as PM.
  exists (snd (orphans p)), rest, (map fst xs). split; [reflexivity|]. split; [apply definitions_sorted|]. split; [apply orphans_in|].
  assert (IN : forall x, In x xs -> In x (from_pool p)) by (intros x I; exact (Permutation_in _ PM (B _ I))). clear B.
  assert (KEY : forall k l i, In (k, l) (from_pool p) -> In i l <-> belongs p k i).
  { intros k l i I. rewrite <- H. split; [intros J; exists l; auto|]. intros (l' & I' & J). assert (l' = l); [|now subst].
    clear - T1 I I'. induction (from_pool p) as [|[k0 l0] m IH]; [destruct I|]. cbn [map fst] in T1. inversion T1 as [|? ? N T]; subst.
    destruct I as [E1|I], I' as [E2|I']; [congruence| | |auto]; exfalso; apply N; [injection E1 as -> _; change k with (fst (k, l'))|injection E2 as -> _; change k with (fst (k, l))]; now apply in_map. }
  split; [|split].
  - apply C. apply (Permutation_NoDup (l := map fst (from_pool p))); [apply Permutation_map, Permutation_sym, PM|exact T1].
  - intros k. split.
    + intros I. apply in_map_iff in I as ([k' l] & <- & I). cbn [fst]. split.
      * clear - A I. induction A as [|x e xs es X _ IH]; [destruct I|]. destruct I as [->|I]; [exists (fst e); apply X|auto].
      * rewrite Forall_forall in T2. destruct (T2 _ (IN _ I)) as (_ & NE). cbn [snd] in NE. destruct l as [|i l]; [now destruct NE|]. exists i. apply (KEY _ (i :: l)); [auto|now left].
    + intros ((path & F) & i & BL). apply H in BL as (l & I & _). change k with (fst (k, l)). apply in_map. apply (D (k, l) path); [exact (Permutation_in _ (Permutation_sym PM) I)|exact F].
  - clear C D S. induction A as [|x e xs es (X1 & X2 & X3 & X4) _ IH]; cbn [map]; constructor; [|apply IH; intros; apply IN; now right].
    assert (I : In x (from_pool p)) by (apply IN; now left). rewrite Forall_forall in T2. split; [exact X1|]. split; [apply X2, (T2 _ I)|]. split; [exact X3|].
    intros i. rewrite X4, (KEY (fst x) (snd x)) by (rewrite <- surjective_pairing; exact I). reflexivity.
Qed.
Print Assumptions C58_entries.

(** It fails only if a function comes from something that is not there. *)
Theorem C58_no_panic w p : any_order w -> (exists es, entries w p = Done es) <-> forall i d k line, comes_from p i d k line -> exists e, def_at p k = Some e.
Proof.
  intros W. destruct (from_pool_spec p) as ((_ & T2) & H). pose proof (proj1 W (from_pool p)) as PM. unfold entries. split.
  - intros (es & E) i d k line CF. destruct (def_at p k) as [e|] eqn:D; [eauto|]. exfalso.
    assert (BL : exists r, belongs p k r) by (destruct (Z.eq_dec (df_parent d) UNDEFINED); [exists i|exists (df_parent d)]; exists i, d, line; auto). destruct BL as (r & BL). apply H in BL as (l & I & _).
    rewrite (entries_stop w p _ (k, l)) in E; [discriminate| |exact D]. exact (Permutation_in _ (Permutation_sym PM) I).
  - intros A. destruct (entries_go w p (wk_files w (from_pool p))) as (es & ->); [|cbn [obind]; eauto].
    intros [k l] I. apply (Permutation_in _ PM) in I. rewrite Forall_forall in T2. destruct (T2 _ I) as (_ & NE). destruct l as [|r l]; [now destruct NE|].
    assert (BL : has (from_pool p) k r) by (exists (r :: l); split; [exact I|now left]). apply H in BL as (j & d & line & CF & _). eauto.
Qed.
Print Assumptions C58_no_panic.

(** Every class, enum and global function is in a file at the end.  Missing: pools with
    source files that have the same path; see below. *)
Theorem C58_nothing_is_lost_partial w p : any_order w -> sourced p -> filed p -> membered p -> apart p -> no_file_called p orphans_path ->
  exists es, entries w p = Done es /\ forall i, top p i -> exists path ids, at_end es path = Some ids /\ In i ids.
Proof.
  intros W SO FI ME AP NO.
  destruct (proj2 (C58_no_panic w p W)) as (es & E). { intros i d k line CF. destruct (FI _ _ _ _ CF) as (path & e & f & D & _). eauto. }
  exists es. split; [exact E|]. destruct (C58_entries _ _ _ W E) as (os & rest & ks & -> & _ & OS & ND & KS & R). intros i T.
  assert (BEL : forall k, belongs p k i -> (exists d, def_at p i = Some d) -> exists path ids, at_end ((orphans_path, os) :: rest) path = Some ids /\ In i ids).
  { intros k BL DI. assert (F : exists path, is_file p k path) by (destruct BL as (j & d & line & CF & _); exact (FI _ _ _ _ CF)). pose proof (proj2 (KS k) (conj F (ex_intro _ i BL))) as IK.
    assert (X : exists a e b, rest = a ++ e :: b /\ is_file p k (fst e) /\ In i (snd e) /\ forall e', In e' b -> fst e' <> fst e).
    { clear OS E. assert (KS' : forall k, In k ks -> exists i, belongs p k i) by (intros k' I'; apply KS; exact I'). clear KS.
      induction R as [|k' e ks rest (R1 & R2 & R3 & R4) R IH]; [destruct IK|]. inversion ND as [|? ? N1 N2]; subst. destruct IK as [->|IK].
      - exists [], e, rest. split; [reflexivity|]. split; [exact R1|]. split; [apply R4; auto|]. intros e' I' EQ. apply N1.
        assert (Y : exists k2, In k2 ks /\ is_file p k2 (fst e')).
        { clear - R I'. induction R as [|k2 e2 ks rest (R1 & _) R IH]; [destruct I'|]. destruct I' as [->|I']; [exists k2; split; [now left|exact R1]|]. destruct (IH I') as (k3 & A & B). exists k3. split; [now right|exact B]. }
        destruct Y as (k2 & I2 & F2). rewrite EQ in F2. rewrite (AP k k2 (fst e)); auto; [eauto|]. apply KS'. now right.
      - destruct (IH N2 IK) as (a & e2 & b & -> & A & B & C); [intros; apply KS'; now right|]. exists (e :: a), e2, b. auto. }
    destruct X as (a & [path ids] & b & -> & F1 & I1 & L). exists path, ids. split; [|exact I1]. apply end_last. exists ((orphans_path, os) :: a), b. auto. }
  assert (ORP : orphan p i -> exists path ids, at_end ((orphans_path, os) :: rest) path = Some ids /\ In i ids).
  { intros O. exists orphans_path, os. split; [|now apply OS]. apply end_last. exists [], rest. split; [reflexivity|]. intros e I EQ.
    assert (Y : exists k, In k ks /\ is_file p k (fst e)).
    { clear - R I. induction R as [|k2 e2 ks rest (R1 & _) R IH]; [destruct I|]. destruct I as [->|I]; [exists k2; split; [now left|exact R1]|]. destruct (IH I) as (k3 & A & B). exists k3. split; [now right|exact B]. }
    destruct Y as (k & IK & F). rewrite EQ in F. apply (NO k); [apply KS; exact IK|exact F]. }
  destruct T as (d & L & V). destruct (df_value d) as [t|k|v|e|f|x|lc|fl|s] eqn:VD; try contradiction.
  - destruct (is_orphan p d) eqn:O.
    + apply ORP. exists d. split; [exact L|]. unfold is_orphan in O. rewrite VD in *. intros f x I G. rewrite forallb_forall in O. specialize (O _ I). now rewrite G in O.
    + unfold is_orphan in O. rewrite VD in O. assert (X : exists f x, In f (cl_functions k) /\ get_function p f = Done x /\ get_flag fn_is_native (fu_flags x) = false).
      { clear - O. induction (cl_functions k) as [|f l IH]; [discriminate|]. cbn [forallb] in O. destruct (get_function p f) as [x|] eqn:G.
        - destruct (get_flag fn_is_native (fu_flags x)) eqn:F; [|exists f, x; split; [now left|auto]]. destruct (IH O) as (f' & x' & A & B). exists f', x'. split; [now right|exact B].
        - destruct (IH O) as (f' & x' & A & B). exists f', x'. split; [now right|exact B]. }
      destruct X as (f & x & I & G & N). destruct L as (L1 & L2). destruct (ME _ _ _ _ _ L2 VD I G) as (F1 & e & DE & PA).
      assert (VE : df_value e = DFunction x) by (apply function_at in G as (e' & DE' & VE'); congruence).
      destruct (SO _ _ _ DE VE N) as (s & S). apply (BEL (sr_file s)); [|eauto]. exists f, e, (sr_line s). split; [exists x, s; repeat split; auto|]. right. unfold UNDEFINED. split; [lia|auto].
  - apply ORP. exists d. rewrite VD. auto.
  - destruct (get_flag fn_is_native (fu_flags f)) eqn:N; [apply ORP; exists d; rewrite VD; auto|]. destruct L as (L1 & L2).
    destruct (SO _ _ _ L2 VD N) as (s & S). apply (BEL (sr_file s)); [|eauto]. exists i, d, (sr_line s). split; [exists f, s; repeat split; auto|]. auto.
Qed.
Print Assumptions C58_nothing_is_lost_partial.

(** Of these conditions the first always holds of a bundle that was loaded. *)
Theorem C58_loaded_has_sources file b : load file = Ok b -> sourced (bn_pool b).
Proof.
  intros H. unfold load in H. destruct (dec_header file) as [[h i]|]; [|discriminate]. destruct (dec_pool file h i) as [[p r]|] eqn:E; [|discriminate]. injection H as <-. cbn [bn_pool].
  unfold dec_pool in E. do 7 (apply pbind_inv in E as (? & ? & _ & E)). apply pbind_inv in E as (hs & ? & _ & E). do 2 (apply pbind_inv in E as (? & ? & _ & E)). apply pbind_inv in E as (defs & j & P & E). unfold plift in P. destruct (dec_definitions file _) as [ds|] eqn:D; [|discriminate]. injection P as <- <-.
  injection E as <- _. intros k d f A V N. unfold nth_def in A. cbn [pl_defs] in A. destruct (k <? 0); [discriminate|]. apply nth_error_In in A as [<-|I]; [discriminate V|]. clear - D V N I.
  revert ds D I. generalize (skipn 1 hs). clear hs. intros hs. induction hs as [|a hs IH]; intros ds D I; cbn [dec_definitions] in D; [injection D as <-; destruct I|].
  destruct (dec_definition file a) as [e|] eqn:DD; [|discriminate]. destruct (dec_definitions file hs) as [l|] eqn:DL; [|discriminate]. injection D as <-. destruct I as [->|I]; [|exact (IH _ eq_refl I)].
  unfold dec_definition in DD. destruct (dec_any _ _) as [[v rest]|] eqn:DA; [|discriminate]. injection DD as <-. cbn [df_value] in V. subst v. clear - DA N.
  unfold dec_any in DA. destruct (dh_type a) as [|t|t]; [| |discriminate]; [apply pbind_inv in DA as (x & y & _ & DA); discriminate DA|].
  do 4 (destruct t as [t|t|]; try discriminate DA; try (apply pbind_inv in DA as (x & y & F & DA); try discriminate DA; injection DA as <- _;
    unfold dec_function in F; apply pbind_inv in F as (v & ? & _ & F); apply pbind_inv in F as (fl & ? & _ & F); apply pbind_inv in F as (src & ? & SR & F); do 9 (apply pbind_inv in F as (? & ? & _ & F));
    injection F as <- _; cbn [fu_flags fu_source] in *; rewrite N in SR; cbn [negb dec_opt] in SR; apply pbind_inv in SR as (s & ? & _ & SR); injection SR as <- _; eauto)).
Qed.
Print Assumptions C58_loaded_has_sources.

(** Each file with readable definitions is read back as their declarations (C56). *)
Theorem C58_files_read_back fl v p ids ds : Forall2 (fun i d => def_at p i = Some d) ids ds -> Forall (readable v p) ds ->
  exists text es n0, (forall n, (n0 <= n)%nat -> file_text fl v p n ids = (text, Done tt)) /\ parse_module fl text = PMatch (SourceModule None [] es) [] /\ Forall2 (describes v p) ds es.
Proof.
  intros D R. destruct (list_written fl v p ds R) as (text & es & (n0 & W) & M & X). exists text, es, n0. split; [|auto]. intros n L. rewrite <- (W n L). unfold file_text. f_equal.
  clear - D. induction D as [|i d ids ds D _ IH]; cbn [map]; [reflexivity|]. rewrite IH. unfold get_def. now rewrite D.
Qed.
Print Assumptions C58_files_read_back.

(** Files with tame paths are written into the directory. *)
Theorem C58_inside w p dir es : any_order w -> (forall k path, is_file p k path -> tame path) -> dump_files w p dir = Done es -> Forall (fun e => inside dir (fst e)) es.
Proof.
  intros W T E. unfold dump_files in E. destruct (entries w p) as [es0|] eqn:E0; [|discriminate]. cbn [obind] in E. injection E as <-. destruct (C58_entries _ _ _ W E0) as (os & rest & ks & -> & _ & _ & _ & _ & R).
  assert (J : forall path, tame path -> inside dir (join_path dir path)).
  { intros path (A & B). exists path. split; [|exact B]. unfold join_path. destruct path as [|b r]; [reflexivity|]. destruct (Byte.eqb b slash) eqn:X; [|reflexivity]. apply Byte.byte_dec_bl in X. subst b. destruct (A r eq_refl). }
  cbn [map]. constructor; [apply J; split; [intros r; discriminate|vm_compute; intuition discriminate]|]. apply Forall_map.
  clear E0. induction R as [|k e ks rest (F & _) _ IH]; [constructor|constructor; [exact (J _ (T _ _ F))|exact IH]].
Qed.
Print Assumptions C58_inside.

(** * Examples *)
Definition by_index : walk := Walk (fun l => l) (fun l => l).
Lemma by_index_any : any_order by_index.
Proof. split; reflexivity. Qed.
Definition from_file (flags : Z) (file line : Z) : any_def :=
  DFunction {| fu_visibility := Public; fu_flags := flags; fu_source := Some {| sr_file := file; sr_line := line |}; fu_return_type := None; fu_unk1 := false; fu_base_method := None;
               fu_parameters := []; fu_locals := []; fu_operator := None; fu_cast := 0; fu_code := []; fu_unk2 := [] |}.
Definition a_file (path : string) : any_def := DSourceFile {| sf_id := 0; sf_path_hash := 0; sf_path := lit path |}.
(** A class with a method from each of two files, a function, an enum, a native function
    and a class without functions; [a] and [b] are the paths of the files. *)
Definition two_files (a b : string) : pool :=
  pool_of [item 3 0 (a_class 0 0 [2; 3] []); item 5 1 (from_file 0 8 7); item 4 1 (from_file 0 9 1); item 10 0 (from_file 0 8 3);
           item 7 0 (DEnum {| en_flags := 0; en_size := 4; en_members := []; en_unk1 := false |}); item 9 0 (a_function 16 None [] []); item 2 0 (a_class 0 0 [] []);
           item 0 0 (a_file a); item 0 0 (a_file b)].
Lemma two_at a b i d : def_at (two_files a b) i = Some d -> exists n, i = Z.of_nat n /\ nth_error (pl_defs (two_files a b)) n = Some d.
Proof. unfold nth_def. destruct (Z.ltb_spec i 0); [discriminate|]. intros E. exists (Z.to_nat i). split; [lia|exact E]. Qed.
Lemma two_from a b i d k line : comes_from (two_files a b) i d k line -> (i = 2 /\ k = 8 /\ df_parent d = 1) \/ (i = 3 /\ k = 9 /\ df_parent d = 1) \/ (i = 4 /\ k = 8 /\ df_parent d = 0).
Proof.
  intros (f & s & (_ & D) & V & S & <- & _). apply two_at in D as (n & -> & E).
  do 10 (destruct n as [|n]; [cbn in E; injection E as <-; cbn in V; try discriminate; injection V as <-; cbn in S; try discriminate; injection S as <-; cbn; auto|]). destruct n; discriminate E.
Qed.
Lemma two_file a b k path : is_file (two_files a b) k path -> k = 8 /\ path = lit a \/ k = 9 /\ path = lit b.
Proof.
  intros (d & f & D & V & <-). apply two_at in D as (n & -> & E).
  do 10 (destruct n as [|n]; [cbn in E; injection E as <-; cbn in V; try discriminate; injection V as <-; cbn; auto|]). destruct n; discriminate E.
Qed.
Lemma two_sane a b : sourced (two_files a b) /\ filed (two_files a b) /\ membered (two_files a b).
Proof.
  split; [|split].
  - intros i d f D V N. apply two_at in D as (n & -> & E).
    do 10 (destruct n as [|n]; [cbn in E; injection E as <-; cbn in V; try discriminate; injection V as <-; cbn in *; try discriminate; eauto|]). destruct n; discriminate E.
  - intros i d k line CF. apply two_from in CF as [(_ & -> & _)|[(_ & -> & _)|(_ & -> & _)]]; [exists (lit a)|exists (lit b)|exists (lit a)]; eexists _, _; repeat split.
  - intros c d k f x D V I G. apply two_at in D as (n & -> & E).
    do 10 (destruct n as [|n]; [cbn in E; injection E as <-; cbn in V; try discriminate; injection V as <-; cbn in I;
      first [destruct I as [<-|[<-|[]]]; (split; [lia|]); eexists; (split; [reflexivity|reflexivity]) | destruct I]|]). destruct n; discriminate E.
Qed.
Example C58_nonvacuous : any_order by_index /\ sourced (two_files "a.script" "b.script") /\ filed (two_files "a.script" "b.script") /\ membered (two_files "a.script" "b.script") /\
  apart (two_files "a.script" "b.script") /\ no_file_called (two_files "a.script" "b.script") orphans_path /\ (forall k path, is_file (two_files "a.script" "b.script") k path -> tame path) /\
  entries by_index (two_files "a.script" "b.script") = Done [(lit "orphans.script", [5; 6; 7]); (lit "a.script", [1; 4]); (lit "b.script", [1])].
Proof.
  destruct (two_sane "a.script" "b.script") as (A & B & C). split; [exact by_index_any|]. split; [exact A|]. split; [exact B|]. split; [exact C|]. split; [|split; [|split]].
  - intros k k' path _ _ F F'. apply two_file in F as [(-> & ->)|(-> & ->)], F' as [(-> & E)|(-> & E)]; try reflexivity; discriminate E.
  - intros k _ F. apply two_file in F as [(-> & E)|(-> & E)]; discriminate E.
  - intros k path F. apply two_file in F as [(-> & ->)|(-> & ->)]; (split; [intros r; discriminate|vm_compute; intuition discriminate]).
  - vm_compute. reflexivity.
Qed.

(** If two source files have the same path, then the second replaces the first, and
    what is in the first only is lost: of a bundle compiled twice with a script, for instance, as
    each compilation adds its own source files. *)
Theorem C58_same_path_refuted : exists w p, any_order w /\ sourced p /\ filed p /\ membered p /\ no_file_called p orphans_path /\
  ~ exists es, entries w p = Done es /\ forall i, top p i -> exists path ids, at_end es path = Some ids /\ In i ids.
Proof.
  exists by_index, (two_files "a.script" "a.script"). destruct (two_sane "a.script" "a.script") as (A & B & C). split; [exact by_index_any|]. split; [exact A|]. split; [exact B|]. split; [exact C|]. split.
  { intros k _ F. apply two_file in F as [(-> & E)|(-> & E)]; discriminate E. }
  intros (es & E & H). vm_compute in E. injection E as <-. destruct (H 4) as (path & ids & AE & I); [eexists; split; [split; [lia|reflexivity]|reflexivity]|].
  apply end_last in AE as (a & b & E & L). destruct a as [|x a]; [injection E as <- <- <-; vm_compute in I; intuition lia|]. destruct a as [|y a].
  - injection E as _ <- <- <-. eapply L; [now left|reflexivity].
  - destruct a as [|z a]; [injection E as _ _ <- <- <-; vm_compute in I; intuition lia|]. injection E as _ _ _ E. destruct a; discriminate E.
Qed.
Print Assumptions C58_same_path_refuted.
(** A source file called orphans.script replaces the orphans. *)
Theorem C58_orphans_refuted : exists w p, any_order w /\ sourced p /\ filed p /\ membered p /\ apart p /\
  ~ exists es, entries w p = Done es /\ forall i, top p i -> exists path ids, at_end es path = Some ids /\ In i ids.
Proof.
  exists by_index, (two_files "a.script" "orphans.script"). destruct (two_sane "a.script" "orphans.script") as (A & B & C). split; [exact by_index_any|]. split; [exact A|]. split; [exact B|]. split; [exact C|]. split.
  { intros k k' path _ _ F F'. apply two_file in F as [(-> & ->)|(-> & ->)], F' as [(-> & E)|(-> & E)]; try reflexivity; discriminate E. }
  intros (es & E & H). vm_compute in E. injection E as <-. destruct (H 5) as (path & ids & AE & I); [eexists; split; [split; [lia|reflexivity]|exact Logic.I]|].
  apply end_last in AE as (a & b & E & L). destruct a as [|x a]; [injection E as <- <- <-; eapply L; [right; now left|reflexivity]|]. destruct a as [|y a].
  - injection E as _ <- <- <-. vm_compute in I; intuition lia.
  - destruct a as [|z a]; [injection E as _ _ <- <- <-; vm_compute in I; intuition lia|]. injection E as _ _ _ E. destruct a; discriminate E.
Qed.
Print Assumptions C58_orphans_refuted.
(** A class with methods from two files is written to both, whole. *)
Theorem C58_once_refuted : exists w p es e e' i, any_order w /\ sourced p /\ filed p /\ membered p /\ apart p /\ no_file_called p orphans_path /\
  entries w p = Done es /\ In e es /\ In e' es /\ e <> e' /\ top p i /\ In i (snd e) /\ In i (snd e').
Proof.
  destruct C58_nonvacuous as (A & B & C & D & E & F & _ & G). exists by_index, (two_files "a.script" "b.script"). eexists. exists (lit "a.script", [1; 4]), (lit "b.script", [1]), 1.
  repeat (split; [assumption|]). split; [exact G|]. split; [right; now left|]. split; [right; right; now left|]. split; [discriminate|]. split; [eexists; split; [split; [lia|reflexivity]|exact I]|]. split; now left.
Qed.
Print Assumptions C58_once_refuted.
(** A bundle that is loaded from a file can have any file written: a path with steps
    upwards, or an absolute one, leaves the directory. *)
Definition evil (path : string) : list byte := match save {| bn_header := meta0; bn_pool := two_files path "b.script" |} [] with Ok f => f | Err _ => [] end.
Theorem C58_outside_refuted : exists w file b, any_order w /\ load file = Ok b /\
  forall dir, exists es e, dump_files w (bn_pool b) dir = Done es /\ In e es /\ fst e = lit "/etc/passwd".
Proof.
  exists by_index, (evil "/etc/passwd"). eexists. split; [exact by_index_any|]. split; [vm_compute; reflexivity|]. intros dir. unfold dump_files.
  match goal with |- exists es e, obind ?x _ = _ /\ _ => replace x with (Done (E := derror) [(lit "orphans.script", [5; 6; 7]); (lit "/etc/passwd", [1; 4]); (lit "b.script", [1])]) by (vm_compute; reflexivity) end.
  cbn [obind map]. eexists. eexists. split; [reflexivity|]. split; [right; left; reflexivity|reflexivity].
Qed.
Print Assumptions C58_outside_refuted.
Theorem C58_upwards_refuted : exists w file b, any_order w /\ load file = Ok b /\
  forall dir, exists es e, dump_files w (bn_pool b) dir = Done es /\ In e es /\ fst e = dir ++ lit "/../../.bashrc".
Proof.
  exists by_index, (evil "../../.bashrc"). eexists. split; [exact by_index_any|]. split; [vm_compute; reflexivity|]. intros dir. unfold dump_files.
  match goal with |- exists es e, obind ?x _ = _ /\ _ => replace x with (Done (E := derror) [(lit "orphans.script", [5; 6; 7]); (lit "../../.bashrc", [1; 4]); (lit "b.script", [1])]) by (vm_compute; reflexivity) end.
  cbn [obind map]. eexists. eexists. split; [reflexivity|]. split; [right; left; reflexivity|reflexivity].
Qed.
Print Assumptions C58_upwards_refuted.
