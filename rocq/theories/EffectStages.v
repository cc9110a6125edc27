(** The stages of a compilation without harm. *)
From Coq Require Import String.
From Coq Require Import ZArith List Bool Lia Permutation.
From Verif Require Import Bytes Bytecode Definitions Bundle BundleFacts Ast TypeNames Pool Scope TypeCheck Symbols SourceMap Cursor Assembler
  Desugar Diagnostics Report Printer PoolSpec PoolFacts TypeIndexSpec TypeIndexFacts Wrappers WrapSpec WrapFacts WrapSteps TidyFacts Unit UnitSpec UnitSteps UnitFacts
  P_Symbols P_Report P_Reproducible P_Unit EffectSpec EffectFacts EffectDefine EffectDeclare EffectFinish EffectBare EffectNoted.
From Verif Require Cleanup.
Import ListNotations.
Open Scope Z_scope.

(** No enabled function is put in its place by a @wrapMethod annotation. *)
Definition wraps_nothing (l : list source_module) : Prop :=
  forall m src a, In m l -> In (EntryFunction src) (sm_entries m) -> eval_conditions (module_names l) (dc_annotations (fs_decl src)) = Done true ->
    find places (dc_annotations (fs_decl src)) = Some a -> an_kind a <> AWrapMethod.

Lemma sorted_harm ds : Forall harmless (sort_diags ds) -> no_harm ds.
Proof.
  rewrite sort_splits. unfold no_harm. rewrite Forall_app, !Forall_forall. intros (A & B) d I. destruct (is_fatal d) eqn:F; [apply B|apply A]; apply filter_In; rewrite F; auto.
Qed.
Lemma quiet_body ev x : quiet (compile_body ev true false x).
Proof. intros st a st' E H. exact (proj1 (body_done _ _ _ _ _ _ _ E H)). Qed.
Lemma back_bodies ev bs : back (umap (compile_body ev true false) bs).
Proof. apply back_of; [apply mono_map; intros; apply mono_body|apply quiet_map; intros; apply quiet_body]. Qed.

(** What is known after the stages: [st1] is the unit when
    all modules have been gone through for the first time, [st2] when all declarations
    have been, [p3] the pool with the default values, [p5] when all bodies are compiled,
    to the functions [gs], and [q] when they are assembled. *)
Record stages (ev : env) (l : list source_module) (p0 : pool) (queue : list (source_module * list slot)) (st1 st2 : ustate) (p3 : pool) (st5 : ustate)
  (gs : list compiled_function) (q : pool) : Prop := Stages {
  sa_declared : declared ev l p0 = Done st1;
  sa_placed : Forall2 (fun m x => fst x = m /\ Forall2 (fun e s => placed p0 (path_of m) e s (us_pool st1)) (enabled_entries (module_names l) (sm_entries m)) (snd x)) l queue;
  sa_core : core l p0 (flat_map snd queue) st1;
  sa_nodup : NoDup (map slot_index (flat_map snd queue));
  sa_old : Forall (old_slot p0) (flat_map snd queue);
  sa_pending : Forall (pending st1 (size (us_pool st1))) (flat_map snd queue);
  sa_defined : exists r, define_modules ev (module_names l) [] queue st1 = (Done r, st2);
  sa_safe : safe st2;
  sa_bare : Forall (fun b => sc_references (fb_scope b) = []) (us_bodies st2);
  sa_defaults : over (filled ev (us_defaults st2) p3) (us_pool st2) p3;
  sa_bodies : extends p3 (us_pool st5);
  sa_compiled : Forall2 (compiled_from ev p3 (us_pool st5)) (us_bodies st2) gs;
  sa_installed : over (installed ev gs (us_pool st5) q) (us_pool st5) q;
  sa_coded : over coded (us_pool st5) q;
  sa_noted : us_refs st1 = [] /\ us_refs st5 = us_refs st2 }.
Lemma stages_run ev l p0 st0 fs st5 q : proper p0 -> names_ok p0 -> fair ev -> wraps_nothing l ->
  unit_new ev p0 = Done st0 -> compile_modules ev true false l st0 = (Done fs, st5) -> assemble_all ev fs st5 = Done q -> fits q -> no_harm (us_diags st5) ->
  exists queue st1 st2 p3 gs, stages ev l p0 queue st1 st2 p3 st5 gs q.
Proof.
  intros PR NO FV NW E0 E EA FQ ND. assert (S5 : safe st5) by (split; [exact (grown_fits _ _ (assemble_grows ev _ _ _ EA) FQ)|exact ND]).
  unfold compile_modules in E. cbv zeta in E. change (flat_map _ l) with (module_names l) in E.
  apply bind_done in E as (queue & st1 & E1 & E). apply bind_done in E as (u2 & st2 & E2 & E). apply bind_done in E as (ds & sx & Ex & E). injection Ex as <- <-.
  apply bind_done in E as (u3 & st3 & E3 & E). apply bind_done in E as (u4 & st4 & E4 & E). apply bind_done in E as (bs & sx & Ex & E). injection Ex as <- <-.
  apply bind_done in E as (gs & sx & E5 & E). injection E as <- ->. pose proof (back_bodies _ _ _ _ _ E5 S5) as S4.
  assert (W12 : us_wrappers st3 = us_wrappers st1 /\ us_proxies st3 = us_proxies st1).
  { pose proof (steady_modules ev (module_names l) queue [] st1) as A. rewrite E2 in A. cbn [snd] in A.
    pose proof (steady_each (compile_default ev) (us_defaults st2) (steady_default ev) st2) as B. rewrite E3 in B. cbn [snd] in B. destruct A, B. split; congruence. }
  assert (BK : forall st, us_pool st = us_pool st4 -> us_diags st = us_diags st4 -> safe st) by (intros st A B; destruct S4; split; congruence).
  assert (EX : exists t s, st4 = set_pool t (set_root s st3) /\ construct_proxies (ev_files ev) (us_proxies st3) (ev_wrappers ev (us_wrappers st3)) (us_scope st3) (us_pool st3) = Done (s, t)).
  { destruct (construct_proxies _ _ _ _ _) as [[s t]|] eqn:C; [|discriminate]. injection E4 as _ <-. eauto. }
  destruct EX as (t & s & -> & EC). clear E4.
  assert (S1W : safe st1 -> t = us_pool st3 /\ us_proxies st3 = []).
  { intros S1. destruct (declare_all l p0 PR ev FV _ _ _ NO NW E0 E1 S1) as ((_ & (U1 & U2)) & _). destruct W12 as (W1 & W2). rewrite W1, U1 in EC.
    assert (X : ev_wrappers ev [] = []) by (apply Permutation_nil, Permutation_sym, (proj1 (proj2 FV))). rewrite X in EC. cbn [construct_proxies] in EC. injection EC as <- <-. split; congruence. }
  assert (S3 : safe st3).
  { destruct S4 as (F4 & D4). cbn [set_pool set_root us_pool us_diags] in F4, D4. split; [|exact D4]. exact (grown_fits _ _ (construct_proxies_grows _ _ _ _ _ _ _ EC) F4). }
  pose proof (back_defaults _ _ _ _ _ E3 S3) as S2. pose proof (back_modules _ _ _ _ _ _ _ E2 S2) as S1.
  destruct (S1W S1) as (-> & PX). clear S1W EC BK.
  destruct (declare_all l p0 PR ev FV _ _ _ NO NW E0 E1 S1) as ((C & _) & PL).
  assert (NF : NoDup (functions (flat_map snd queue))) by exact (modules_seen _ _ _ _ _ _ _ E2 (proj2 S2) (NoDup_nil _)).
  destruct (co_places _ _ _ _ C NF) as (NI & HP & OS).
  assert (PE : Forall (pending st1 (size (us_pool st1))) (flat_map snd queue)).
  { destruct (co_ledger _ _ _ _ C) as (LB & LD). pose proof (co_index _ _ _ _ C) as IX. pose proof (co_plain _ _ _ _ C) as PS. rewrite Forall_forall in *. intros sl I.
    split; [exact (IX _ I)|]. split; [exact (HP _ I)|]. rewrite LB, LD. split; [intros b []|]. split; [intros b []|]. exact (PS _ I). }
  destruct (run_defaults _ _ _ _ _ E3) as (B3 & O3). destruct (run_bodies _ _ _ _ _ E5 ND) as (X5 & F5 & P5 & _). cbn [set_pool set_root us_pool us_bodies us_proxies] in X5, F5, P5. rewrite B3 in F5.
  unfold assemble_all in EA. destruct (install_all ev (concat gs) (us_pool st5)) as [q'|] eqn:IA; [|discriminate]. cbn [obind] in EA.
  assert (X : ev_proxies ev (us_proxies st5) = []) by (rewrite P5, PX; apply Permutation_nil, Permutation_sym, (proj1 (proj2 (proj2 FV)))). rewrite X in EA. cbn [swap_proxies] in EA. injection EA as ->. clear X.
  destruct (run_install _ _ _ _ IA) as (O6 & C6).
  assert (BR : Forall (fun b => sc_references (fb_scope b) = []) (us_bodies st2)).
  { pose proof (kb_declare (module_names l) false l st0 (bare_new ev p0 st0 E0)) as B1. rewrite E1 in B1. cbn [snd] in B1.
    pose proof (kb_modules ev (module_names l) queue [] st1 B1) as B2. rewrite E2 in B2. exact (proj2 (proj2 B2)). }
  exists queue, st1, st2, (us_pool st3), (concat gs). split; auto.
  - unfold declared. rewrite E0. cbn [obind]. now rewrite E1.
  - eauto.
  - split.
    + pose proof (kr_declare (module_names l) false l st0) as K. rewrite E1 in K. cbn [snd] in K. rewrite K. exact (noted_new ev p0 st0 E0).
    + pose proof (f_equal (fun x => us_refs (snd x)) E5) as K. cbv beta in K. rewrite kr_bodies in K. cbn [snd set_pool set_root us_refs] in K. rewrite <- K.
      pose proof (kr_defaults ev (us_defaults st2) st2) as K3. rewrite E3 in K3. exact K3.
Qed.
