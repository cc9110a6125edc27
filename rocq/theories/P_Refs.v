(** C57: the native caller is told about every declaration that was compiled. *)
From Coq Require Import String.
From Coq Require Import ZArith List Bool Lia Permutation.
From Verif Require Import Bytes Bytecode Definitions Bundle BundleFacts Ast TypeNames Pool Scope TypeCheck Symbols SourceMap Cursor Assembler
  Desugar Diagnostics Report Printer PoolSpec PoolFacts TypeIndexSpec TypeIndexFacts Wrappers WrapSpec WrapFacts WrapSteps TidyFacts Unit UnitSpec UnitSteps UnitFacts
  P_Symbols P_Report P_Reproducible P_Unit EffectSpec EffectFacts EffectDefine EffectDeclare EffectFinish EffectBare EffectNoted EffectStages P_Effect
  CleanupSpec CleanupDone Refs RefSpec RefFacts.
From Verif Require Cleanup P_SourceMap.
Import ListNotations.
Open Scope Z_scope.

(** The enabled declarations of the modules, in order. *)
Definition all_entries (l : list source_module) : list (source_module * source_entry) :=
  flat_map (fun m => map (pair m) (enabled_entries (module_names l) (sm_entries m))) l.
(** The name of a class in the resulting bundle. *)
Definition called (q : pool) (c : pidx) (n : str) : Prop := match def_name q c with Done m => n = m | Fail _ => n = [] end.

Lemma Forall2_join {A B C} (P : A -> B -> Prop) (Q : B -> C -> Prop) (R : A -> C -> Prop) l l' l'' :
  Forall2 P l l' -> Forall2 Q l' l'' -> (forall a b c, P a b -> Q b c -> R a c) -> Forall2 R l l''.
Proof.
  intros H. revert l''. induction H as [|a b l l' X _ IH]; intros l'' G K; inversion G; subst; constructor; eauto.
Qed.
Lemma choose_told (P : (source_module * source_entry) -> list told -> Prop) q l chunks : Forall2 (fun x new => exists t, tells q new t /\ P x t) l chunks ->
  exists ts, Forall2 P l ts /\ tells q (concat chunks) (concat ts).
Proof.
  induction 1 as [|x new l chunks (t & T & X) _ (ts & A & B)]; [exists []; split; [constructor|split; constructor]|].
  exists (t :: ts). split; [now constructor|]. exact (tells_app _ _ _ _ _ T B).
Qed.
Lemma zero_stays l p q k : proper p -> reserved p -> frame l p q -> get_class q UNDEFINED <> Done k.
Proof.
  intros (_ & PM) (d & D & NC & NF) (_ & _ & _ & _ & F) K. apply class_at in K as (d1 & D1 & V1). destruct (F _ _ D) as (d' & D' & H). assert (d' = d1) by congruence. subst d'.
  destruct H as [->|k' fs gs V _ _ _ _|x x' _ V _ _ _|W _]; [exact (NC _ V1)|exact (NC _ V)|exact (NF _ V)|].
  destruct W as (src & n & c & _ & _ & _ & _ & M). destruct (PM _ _ M) as (d2 & x & D2 & V2 & _). apply (NF x). congruence.
Qed.
Lemma not_zero p c k : reserved p -> get_class p c = Done k -> c <> UNDEFINED.
Proof. intros (d & D & NC & _) K ->. apply class_at in K as (d' & D' & V). apply (NC k). congruence. Qed.
Lemma fresh_not_zero p i : reserved p -> fresh p i -> i <> UNDEFINED.
Proof.
  intros (d & D & _) F ->. unfold fresh, size in F. unfold nth_def in D. destruct (UNDEFINED <? 0); [discriminate|]. apply nth_error_Some_lt in D || (assert (Z.to_nat UNDEFINED < length (pl_defs p))%nat by (apply nth_error_Some; congruence)).
  unfold UNDEFINED in *. lia.
Qed.

Lemma told_all ev l p0 st0 fs st5 q : proper p0 -> names_ok p0 -> reserved p0 -> fair ev -> wraps_nothing l ->
  unit_new ev p0 = Done st0 -> compile_modules ev true false l st0 = (Done fs, st5) -> assemble_all ev fs st5 = Done q -> fits q -> no_harm (us_diags st5) ->
  exists st ts, declared ev l p0 = Done st /\ tells q (us_refs st5) (concat ts) /\
    Forall2 (fun x => entry_told (module_names l) p0 (sc_symbols (imported ev (module_names l) (fst x) st)) (called q) (path_of (fst x)) (snd x)) (all_entries l) ts.
Proof.
  intros PR NO RS FV NW E0 E EA FQ ND. destruct (stages_run ev l p0 st0 fs st5 q PR NO FV NW E0 E EA FQ ND) as (queue & st1 & st2 & p3 & gs & [DE PL C NI OS PE (r & E2) S2 BR O3 X5 F5 O6 C6 (N1 & N2)]).
  assert (FR : frame l p0 q) by (apply (assemble_frame l p0 PR ev FV _ _ _ _ _ _ E0 E EA); exact (grown_fits _ _ (assemble_grows ev _ _ _ EA) FQ)).
  exists st1.
  destruct (run_modules ev (module_names l) (size (us_pool st1)) st1 queue _ _ _ _ E2 S2 (co_good _ _ _ _ C) (co_root _ _ _ _ C) eq_refl eq_refl (Z.le_refl _) NI PE) as (ST & _ & NOW).
  destruct (refs_modules ev (module_names l) (size (us_pool st1)) st1 queue _ _ _ _ E2 S2 (co_good _ _ _ _ C) (co_root _ _ _ _ C) eq_refl eq_refl (Z.le_refl _) NI PE) as (chunks & RE & NT).
  rewrite N1 in RE. cbn [app] in RE. rewrite N2, RE.
  pose proof (sg_pool _ _ _ ST) as O2. cbn [set_module us_pool] in O2.
  pose proof (proj1 O2) as L2.
  assert (EE : earlier (us_pool st1) q) by (intros i n N; exact (end_earlier _ _ _ _ _ _ O3 X5 O6 _ _ (onto_name _ _ _ _ _ _ O2 N))).
  assert (EO : earlier p0 q) by (intros i n N; exact (EE _ _ (onto_name _ _ _ _ _ _ (co_onto _ _ _ _ C) N))).
  assert (PA : Forall2 (fun x s => placed p0 (path_of (fst x)) (snd x) s (us_pool st1) /\ slot_now (ev := ev) (module_names l) (sc_symbols (imported ev (module_names l) (fst x) st1)) st2 (size (us_pool st1)) s /\
      In s (flat_map snd queue)) (all_entries l) (flat_map snd queue)).
  { assert (G : forall l1 q1, Forall2 (fun m x => fst x = m /\ Forall2 (fun e s => placed p0 (path_of m) e s (us_pool st1)) (enabled_entries (module_names l) (sm_entries m)) (snd x)) l1 q1 ->
      (forall x, In x q1 -> In x queue) ->
      Forall2 (fun x s => placed p0 (path_of (fst x)) (snd x) s (us_pool st1) /\ slot_now (ev := ev) (module_names l) (sc_symbols (imported ev (module_names l) (fst x) st1)) st2 (size (us_pool st1)) s /\
        In s (flat_map snd queue)) (flat_map (fun m => map (pair m) (enabled_entries (module_names l) (sm_entries m))) l1) (flat_map snd q1)).
    { induction 1 as [|m [m' slots] l1 q1 (A & B) _ IH]; intros I; [constructor|]. cbn [fst snd] in A, B. subst m'. cbn [flat_map snd]. apply Forall2_app; [|apply IH; intros; apply I; now right].
      assert (Iq : In (m, slots) queue) by (apply I; now left). pose proof (NOW _ _ Iq) as NW'. rewrite Forall_forall in NW'.
      assert (IS : forall s, In s slots -> In s (flat_map snd queue)) by (intros s J; apply in_flat_map; exists (m, slots); auto).
      clear I IH Iq. revert NW' IS. induction B as [|e s es ss P _ IH]; intros NW' IS; cbn [map]; constructor.
      - cbn [fst snd]. split; [exact P|]. split; [apply NW'; now left|apply IS; now left].
      - apply IH; intros; [apply NW'|apply IS]; now right. }
    apply (G l queue PL). auto. }
  assert (NT' : Forall2 (noted (module_names l) q) (flat_map snd queue) chunks).
  { apply (Forall2_weaken _ _ _ _ NT). intros s new _ H. destruct s; cbn [noted] in *; auto. destruct H as (rs & k & more & A & B & H). exists rs, k, more. split; [exact A|]. split; [exact (end_class _ _ _ _ _ _ O3 X5 O6 _ _ B)|exact H]. }
  cut (Forall2 (fun x new => exists t, tells q new t /\ entry_told (module_names l) p0 (sc_symbols (imported ev (module_names l) (fst x) st1)) (called q) (path_of (fst x)) (snd x) t) (all_entries l) chunks).
  { intros G. apply choose_told in G as (ts & A & B). exists ts. auto. }
  refine (Forall2_join _ _ _ _ _ _ PA NT' _). intros [m e] sl new (P & NW' & Is) H. cbn [fst snd] in *. rewrite Forall_forall in OS. pose proof (OS _ Is) as OLD.
  set (syms := sc_symbols (imported ev (module_names l) m st1)) in *. set (count := size (us_pool st1)) in *.
  assert (FUN : forall f c v base repl src, fun_at (ev := ev) syms st2 count f c v base repl src -> function_is ev count syms q f c v base repl src)
    by (intros f c v base repl src; exact (end_function ev count syms st2 _ _ q _ O3 X5 F5 O6 C6 L2 BR count f c v base repl src)).
  assert (OW : forall c n k, get_class p0 c = Done k -> def_name p0 c = Done n -> owner q c = n).
  { intros c n k K N. unfold owner. destruct (Z.eqb_spec c UNDEFINED) as [Z0|_]; [destruct (not_zero _ _ _ RS K Z0)|]. now rewrite (EO _ _ N). }
  destruct e as [b src|src|src|src]; cbn [placed entry_told] in *.
  - destruct P as (i & -> & N). eexists. split; [|reflexivity].
    pose proof (end_shape ev count syms st2 _ _ q _ O3 X5 F5 O6 C6 L2 BR _ _ _ _ _ _ NW') as CI.
    refine (tell_whole ev count syms q _ _ _ _ _ _ _ _ CI (EE _ _ N) _ H).
    apply (fresh_not_zero p0); [exact RS|]. pose proof (co_fresh _ _ _ _ C) as CF. rewrite Forall_forall in CF. exact (CF _ Is eq_refl).
  - destruct (find places _) as [a|] eqn:FP; [destruct (an_kind a) eqn:KA; try contradiction|].
    + destruct P as (n & c & f & base & -> & A & (full & B & B') & D & R). cbn [old_slot slot_now noted] in *. destruct R as [FR1|(M & x & G & ->)]; [destruct (OLD FR1)|]. subst new.
      pose proof (tell_function _ _ _ _ _ _ _ _ _ _ _ (sp_low (fs_span src)) (FUN _ _ _ _ _ _ NW') (EE _ _ D)) as T. destruct M as (k & K & _). rewrite (OW _ _ _ K B) in T.
      eexists. split; [exact T|]. exists n, c, full. auto.
    + destruct P as (f & -> & D & R). cbn [old_slot slot_now noted] in *. subst new. eexists. split; [exact (tell_function _ _ _ _ _ _ _ _ _ _ _ (sp_low (fs_span src)) (FUN _ _ _ _ _ _ NW') (EE _ _ D))|reflexivity].
    + destruct P as (n & c & f & base & -> & A & (full & B & B') & M & D & (k & K & _)). cbn [slot_now noted] in *. subst new.
      pose proof (tell_function _ _ _ _ _ _ _ _ _ _ _ (sp_low (fs_span src)) (FUN _ _ _ _ _ _ NW') (EE _ _ D)) as T. rewrite (OW _ _ _ K B) in T.
      eexists. split; [exact T|]. exists n, c, full. auto.
    + destruct P as (f & -> & D). cbn [slot_now noted] in *. subst new. eexists. split; [exact (tell_function _ _ _ _ _ _ _ _ _ _ _ (sp_low (fs_span src)) (FUN _ _ _ _ _ _ NW') (EE _ _ D))|reflexivity].
  - destruct P as (i & ->). cbn [slot_now noted] in *. subst new. destruct NW' as (a & n & c & w & k & A & B & D & F & K & _ & G).
    pose proof (tell_field _ _ _ _ _ _ _ (sp_low (dc_span (fd_decl src))) (end_field ev syms st2 _ _ q _ O3 X5 O6 _ _ _ _ G)) as T. eexists. split; [exact T|].
    exists a, n, c, w, (owner q c). do 4 (split; [assumption|]). split; [|reflexivity]. unfold called, owner.
    destruct (Z.eqb_spec c UNDEFINED) as [->|_]; [destruct (zero_stays _ _ _ k PR RS FR); exact (end_class _ _ _ _ _ _ O3 X5 O6 _ _ K)|]. now destruct (def_name q c).
  - destruct P as (i & -> & N). cbn [slot_now noted] in *. subst new. eexists. split; [exact (tell_enum _ _ _ _ _ (end_enum _ _ _ _ _ _ O3 X5 O6 _ _ _ NW') (EE _ _ N))|reflexivity].
Qed.

(** C57.  When the modules [l] are compiled into the bundle [p] with no diagnostic but
    harmless warnings and none of them wraps a method, then what the caller is told
    about the references in the result is what each enabled declaration should tell, in
    the order of the declarations. *)
Theorem C57_caller_is_told ev l p out : proper p -> names_ok p -> reserved p -> fair ev -> wraps_nothing l ->
  compile ev l p = Done out -> fits (out_pool out) -> Forall harmless (out_diags out) ->
  exists q st ts, assembled ev l p = Done q /\ declared ev l p = Done st /\ map (told_of (out_pool out)) (out_refs out) = concat ts /\
    Forall2 (fun x => entry_told (module_names l) p (sc_symbols (imported ev (module_names l) (fst x) st)) (called q) (path_of (fst x)) (snd x)) (all_entries l) ts.
Proof.
  intros PR NO RS FV NW E F D. unfold compile in E. destruct (unit_new ev p) as [st0|] eqn:E0; [|discriminate]. cbn [obind] in E.
  destruct (compile_modules ev true false l st0) as [[fs|] st] eqn:E1; [|discriminate]. unfold finish in E.
  destruct (assemble_all ev fs st) as [q|] eqn:E2; [|discriminate]. cbn [obind] in E.
  destruct (Cleanup.cleanup_pool (ev_fuel ev) q (map fst (us_refs st))) as [[p' refs]|] eqn:E3; [|discriminate]. cbn [of_cleanup map_err obind] in E. injection E as <-. cbn [out_pool out_diags out_refs] in *.
  destruct (told_all ev l p st0 fs st q PR NO RS FV NW E0 E1 E2 (cleanup_fits _ _ _ _ _ E3 F) (sorted_harm _ D)) as (sd & ts & DE & (T & MV) & A).
  exists q, sd, ts. split; [unfold assembled; rewrite E0; cbn [obind]; now rewrite E1|]. split; [exact DE|]. split; [|exact A].
  destruct (cleanup_moves _ _ _ _ _ E3) as (move & -> & MB & Z0). rewrite <- T. clear - MV MB Z0. induction MV as [|[i z] rs M _ IH]; [reflexivity|]. cbn [map combine fst snd]. rewrite (told_moved _ _ _ _ _ MB Z0 M). f_equal. exact IH.
Qed.
Print Assumptions C57_caller_is_told.

(** The path and the line are those of the file that the position of a reference is
    in: the number of newlines before it. *)
Theorem C57_where fs i path text before left right after r : P_SourceMap.fits fs ->
  nth_error fs i = Some (path, text) -> P_SourceMap.on_line text before left right after -> snd r = P_SourceMap.base fs i + blen (concat (before ++ left)) ->
  ref_path (P_SourceMap.loaded fs) r = path /\ ref_line (P_SourceMap.loaded fs) r = Done (Z.of_nat (P_SourceMap.newlines before)).
Proof.
  intros F N L P. destruct (P_SourceMap.C34_lookup _ _ _ _ _ _ _ _ F N L) as (f & A & B & _ & D & _). rewrite <- P in A, D. unfold ref_path, ref_line. rewrite A, D. cbn [obind]. auto.
Qed.
Print Assumptions C57_where.
(** A position that is in no file gives neither. *)
Theorem C57_nowhere fs r : P_SourceMap.base fs (length fs) <= 2 ^ 32 -> P_SourceMap.base fs (length fs) <= snd r -> ref_path (P_SourceMap.loaded fs) r = [] /\ ref_line (P_SourceMap.loaded fs) r = Done (2 ^ 64 - 1).
Proof. intros A B. unfold ref_path, ref_line. rewrite (P_SourceMap.C34_outside _ _ A B). auto. Qed.
Print Assumptions C57_nowhere.

Lemma un_reserved : reserved un_pool.
Proof. eexists. split; [vm_compute; reflexivity|]. split; intros; discriminate. Qed.
(** The module of C51, with a class with two members, and what is told about it. *)
Example C57_nonvacuous : proper un_pool /\ names_ok un_pool /\ reserved un_pool /\ fair un_env /\ wraps_nothing [ef_module] /\ compile un_env [ef_module] un_pool = Done ef_result /\
  fits (out_pool ef_result) /\ Forall harmless (out_diags ef_result) /\
  map (fun x => (td_type (told_of (out_pool ef_result) x), td_name (told_of (out_pool ef_result) x), td_parent (told_of (out_pool ef_result) x))) (out_refs ef_result) =
  [(RefFunction, lit "speak;Int32", lit "Animal"); (RefFunction, lit "speak;Int32", lit "Cat"); (RefFunction, lit "G;Int32", []); (RefFunction, lit "H;Int32", []);
   (RefField, lit "lives", lit "Cat"); (RefFunction, lit "speak;Int32", lit "Dog"); (RefField, lit "legs", lit "Dog"); (RefClass, lit "Dog", []); (RefEnum, lit "Mood", [])].
Proof.
  destruct C51_nonvacuous as (A & B & C & D & E & F & G & _). split; [exact A|]. split; [exact B|]. split; [exact un_reserved|]. split; [exact C|]. split; [exact D|]. split; [exact E|]. split; [exact F|].
  split; [rewrite G; constructor|vm_compute; reflexivity].
Qed.
