(** C51: what the modules declare is in the result as it is declared. *)
From Coq Require Import String.
From Coq Require Import ZArith List Bool Lia Permutation.
From Verif Require Import Bytes Bytecode Definitions Bundle BundleFacts Ast TypeNames Pool Scope TypeCheck Symbols SourceMap Cursor Assembler
  Desugar Diagnostics Report Printer PoolSpec PoolFacts TypeIndexSpec TypeIndexFacts Wrappers WrapSpec WrapFacts WrapSteps TidyFacts Unit UnitSpec UnitSteps UnitFacts
  P_Symbols P_Report P_Reproducible P_Unit EffectSpec EffectFacts EffectDefine EffectDeclare EffectFinish EffectBare EffectStages.
From Verif Require Cleanup.
Import ListNotations.
Open Scope Z_scope.

Lemma effects ev l p0 st0 fs st5 q : proper p0 -> names_ok p0 -> fair ev -> wraps_nothing l ->
  unit_new ev p0 = Done st0 -> compile_modules ev true false l st0 = (Done fs, st5) -> assemble_all ev fs st5 = Done q -> fits q -> no_harm (us_diags st5) ->
  exists st, declared ev l p0 = Done st /\ forall m e, In m l -> In e (sm_entries m) -> eval_conditions (module_names l) (dc_annotations (entry_decl e)) = Done true ->
    takes_effect ev (module_names l) p0 (size (us_pool st)) (sc_symbols (imported ev (module_names l) m st)) q (path_of m) e.
Proof.
  intros PR NO FV NW E0 E EA FQ ND. destruct (stages_run ev l p0 st0 fs st5 q PR NO FV NW E0 E EA FQ ND) as (queue & st1 & st2 & p3 & gs & [DE PL C NI OS PE (r & E2) S2 BR O3 X5 F5 O6 C6 _]).
  exists st1. split; [exact DE|].
  destruct (run_modules ev (module_names l) (size (us_pool st1)) st1 queue _ _ _ _ E2 S2 (co_good _ _ _ _ C) (co_root _ _ _ _ C) eq_refl eq_refl (Z.le_refl _) NI PE) as (ST & _ & NOW).
  pose proof (sg_pool _ _ _ ST) as O2. cbn [set_module us_pool] in O2.
  pose proof (proj1 O2) as L2.
  assert (EE : earlier (us_pool st1) q) by (intros i n N; exact (end_earlier _ _ _ _ _ _ O3 X5 O6 _ _ (onto_name _ _ _ _ _ _ O2 N))).
  assert (MM : forall c f, member (us_pool st1) c f -> member q c f) by (intros c f M; exact (end_member _ _ _ _ _ _ O3 X5 O6 _ _ (onto_member _ _ _ _ _ _ O2 M))).
  intros m e Im Ie Te. destruct (placed_in _ _ _ _ PL _ _ Im Ie Te) as (slots & sl & Iq & Is & P). pose proof (NOW _ _ Iq) as NW'. rewrite Forall_forall in NW', OS. specialize (NW' _ Is).
  assert (OLD : old_slot p0 sl) by (apply OS, in_flat_map; exists (m, slots); auto).
  set (syms := sc_symbols (imported ev (module_names l) m st1)) in *. set (count := size (us_pool st1)) in *.
  assert (FUN : forall f c v base repl src, fun_at (ev := ev) syms st2 count f c v base repl src -> function_is ev count syms q f c v base repl src)
    by (intros f c v base repl src; exact (end_function ev count syms st2 _ _ q _ O3 X5 F5 O6 C6 L2 BR count f c v base repl src)).
  destruct e as [b src|src|src|src]; cbn [placed takes_effect] in *.
  - destruct P as (i & -> & N). exists i. split; [exact (EE _ _ N)|]. cbn [slot_now] in NW'. exact (end_shape ev count syms st2 _ _ q _ O3 X5 F5 O6 C6 L2 BR _ _ _ _ _ _ NW').
  - destruct (find places _) as [a|] eqn:FP; [destruct (an_kind a) eqn:KA; try contradiction|].
    + destruct P as (n & c & f & base & -> & A & B & D & R). cbn [old_slot slot_now] in *. destruct R as [FR|(M & x & G & ->)]; [destruct (OLD FR)|].
      exists n, c, f, x. split; [exact A|]. split; [exact B|]. split; [exact M|]. split; [exact (EE _ _ D)|]. split; [exact G|exact (FUN _ _ _ _ _ _ NW')].
    + destruct P as (f & -> & D & R). cbn [old_slot slot_now] in *. destruct R as [FR|G]; [destruct (OLD FR)|]. exists f. split; [exact (EE _ _ D)|]. split; [exact G|exact (FUN _ _ _ _ _ _ NW')].
    + destruct P as (n & c & f & base & -> & A & B & M & D & OV). cbn [slot_now] in *. exists n, c, f, base. split; [exact A|]. split; [exact B|]. split; [exact (MM _ _ M)|]. split; [exact (EE _ _ D)|].
      split; [exact (end_overrides _ _ _ _ _ _ O3 X5 O6 _ _ _ _ (overrides_onto _ _ _ _ _ _ _ _ O2 OV))|exact (FUN _ _ _ _ _ _ NW')].
    + destruct P as (f & -> & D). cbn [slot_now] in *. exists f. split; [exact (EE _ _ D)|exact (FUN _ _ _ _ _ _ NW')].
  - destruct P as (i & ->). cbn [slot_now] in NW'. exact (end_let ev syms st2 _ _ q _ O3 X5 O6 _ _ _ NW').
  - destruct P as (i & -> & N). exists i. split; [exact (EE _ _ N)|]. cbn [slot_now] in NW'. exact (end_enum _ _ _ _ _ _ O3 X5 O6 _ _ _ NW').
Qed.

(** C51.  When the modules [l] are compiled into the bundle [p] with no diagnostic but
    harmless warnings and none of them wraps a method, the result is a bundle [q] with its
    classes put in order (C24), and every enabled declaration is in [q] as it is
    declared. *)
Theorem C51_declarations_take_effect ev l p out : proper p -> names_ok p -> fair ev -> wraps_nothing l ->
  compile ev l p = Done out -> fits (out_pool out) -> Forall harmless (out_diags out) ->
  exists q refs refs' st, assembled ev l p = Done q /\ Cleanup.cleanup_pool (ev_fuel ev) q refs = Done (out_pool out, refs') /\ declared ev l p = Done st /\
    forall m e, In m l -> In e (sm_entries m) -> eval_conditions (module_names l) (dc_annotations (entry_decl e)) = Done true ->
      takes_effect ev (module_names l) p (size (us_pool st)) (sc_symbols (imported ev (module_names l) m st)) q (path_of m) e.
Proof.
  intros PR NO FV NW E F D. unfold compile in E. destruct (unit_new ev p) as [st0|] eqn:E0; [|discriminate]. cbn [obind] in E.
  destruct (compile_modules ev true false l st0) as [[fs|] st] eqn:E1; [|discriminate]. unfold finish in E.
  destruct (assemble_all ev fs st) as [q|] eqn:E2; [|discriminate]. cbn [obind] in E.
  destruct (Cleanup.cleanup_pool (ev_fuel ev) q (map fst (us_refs st))) as [[p' refs]|] eqn:E3; [|discriminate]. cbn [of_cleanup map_err obind] in E. injection E as <-. cbn [out_pool out_diags] in *.
  destruct (effects ev l p st0 fs st q PR NO FV NW E0 E1 E2 (cleanup_fits _ _ _ _ _ E3 F) (sorted_harm _ D)) as (sd & DE & T).
  exists q, (map fst (us_refs st)), refs, sd. split; [unfold assembled; rewrite E0; cbn [obind]; now rewrite E1|]. auto.
Qed.
Print Assumptions C51_declarations_take_effect.

(** A module in which a class with members, an enum, a function, a method of another
    class and a field are declared, a method and a function replaced, and something
    disabled. *)
Definition ef_field (anns : list annotation) (qs : list qualifier) (name : string) (v : option Z) : field_source :=
  FieldSource (Decl anns qs (lit name) un_sp) (tn_basic (lit "Int32")) (match v with Some n => Some (EConstant (N := source_ast) (CI32 n) un_sp) | None => None end).
Definition ef_dog : class_source :=
  ClassSource (Decl [] [QPublic; QAbstract] (lit "Dog") un_sp) (Some (lit "Animal"))
    [MemberFunction (int_fun [] [QPrivate] "speak" (ecall "H" [evar "n"])); MemberField (ef_field [] [QPrivate] "legs" (Some 4))] un_sp.
Definition ef_module : source_module := SourceModule None []
  [EntryFunction (int_fun [ann AReplaceMethod "Animal"] [QPublic] "speak" (ecall "G" [evar "n"]));
   EntryFunction (int_fun [ann AAddMethod "Cat"] [QFinal] "speak" (evar "n"));
   EntryFunction (int_fun [ann AReplaceGlobal "Cat"] [] "G" (ecall "H" [evar "n"]));
   EntryFunction (int_fun [] [QPublic] "H" (evar "n"));
   EntryLet (ef_field [ann AAddField "Cat"] [QPersistent] "lives" (Some 9));
   EntryClass false ef_dog;
   EntryEnum (EnumSource (Decl [] [] (lit "Mood") un_sp) [(lit "Good", 0); (lit "Bad", 7)] un_sp)].
Definition ef_result : output := Eval vm_compute in match compile un_env [ef_module] un_pool with Done o => o | Fail _ => Output un_pool [] [] end.
Lemma un_names_ok : names_ok un_pool.
Proof.
  assert (FI : forall (m : list (str * Z)) s i, sm_find m s = Some i -> In (s, i) m).
  { induction m as [|[k v] m IH]; intros s i; cbn [sm_find]; [discriminate|]. destruct (str_eqb_spec k s) as [->|_]; [intros [= ->]; now left|intros H; right; auto]. }
  split; [|split; [|reflexivity]].
  - intros s i H. apply FI in H.
    assert (X : forallb (fun x => (0 <=? snd x) && match nth_error (st_list (pl_names un_pool)) (Z.to_nat (snd x)) with Some t => str_eqb t (fst x) | None => false end) (st_map (pl_names un_pool)) = true)
      by (vm_compute; reflexivity).
    rewrite forallb_forall in X. specialize (X _ H). cbn [fst snd] in X. apply andb_prop in X as (X & Y). apply Z.leb_le in X. split; [exact X|].
    destruct (nth_error _ _) as [t|]; [|discriminate]. destruct (str_eqb_spec t s); [now subst|discriminate].
  - intros s H. assert (X : forallb (fun s => match sm_find (st_map (pl_names un_pool)) s with Some _ => true | None => false end) (st_list (pl_names un_pool)) = true) by (vm_compute; reflexivity).
    rewrite forallb_forall in X. specialize (X _ H). destruct (sm_find _ _) as [i|]; [eauto|discriminate].
Qed.
Example C51_nonvacuous : proper un_pool /\ names_ok un_pool /\ fair un_env /\ wraps_nothing [ef_module] /\ compile un_env [ef_module] un_pool = Done ef_result /\
  fits (out_pool ef_result) /\ out_diags ef_result = [] /\ (length (pl_defs un_pool) < length (pl_defs (out_pool ef_result)))%nat /\
  code_at (out_pool ef_result) 16 <> code_at un_pool 16 /\ code_at (out_pool ef_result) 18 <> code_at un_pool 18.
Proof.
  split; [exact un_proper|]. split; [exact un_names_ok|]. split; [exact un_fair|]. split.
  { intros m src a [<-|[]] I _ F K. cbn in I. repeat destruct I as [[= <-]|I]; try destruct I; cbn in F; try discriminate; injection F as <-; discriminate K. }
  split; [vm_compute; reflexivity|]. split; [vm_compute; split; reflexivity|]. split; [vm_compute; reflexivity|]. split; [apply Nat.ltb_lt; vm_compute; reflexivity|]. split; vm_compute; discriminate.
Qed.

(** The same with a method that the class has already. *)
Definition ef_module2 : source_module := SourceModule None [] (EntryFunction (int_fun [ann AAddMethod "Animal"] [QFinal] "speak" (evar "n")) :: sm_entries ef_module).
Definition ef_result2 : output := Eval vm_compute in match compile un_env [ef_module2] un_pool with Done o => o | Fail _ => Output un_pool [] [] end.
Example C51_with_warnings : wraps_nothing [ef_module2] /\ compile un_env [ef_module2] un_pool = Done ef_result2 /\
  fits (out_pool ef_result2) /\ Forall harmless (out_diags ef_result2) /\ length (out_diags ef_result2) = 1%nat.
Proof.
  split.
  { intros m src a [<-|[]] I _ F K. cbn in I. repeat destruct I as [[= <-]|I]; try destruct I; cbn in F; try discriminate; injection F as <-; discriminate K. }
  split; [vm_compute; reflexivity|]. split; [vm_compute; split; reflexivity|]. split; [|reflexivity]. repeat constructor.
Qed.

(** Two things one may expect of a member that are not so.  A private method of a
    public class is public, and a method with the signature of one of the base class
    does not name that one as what it overrides, as a method added with @addMethod
    does (unit.rs 477-502). *)
Definition member_becomes (ev : env) (l : list source_module) (p : pool) (R : pool -> class_source -> function_source -> class -> function -> Prop) : Prop :=
  forall out m b src f, compile ev l p = Done out -> out_diags out = [] -> In m l -> In (EntryClass b src) (sm_entries m) -> In (MemberFunction f) (cs_members src) ->
    forall i k j x, def_name (out_pool out) i = Done (path_render (with_child (path_of m) (dc_name (cs_decl src)))) -> get_class (out_pool out) i = Done k ->
      In j (cl_functions k) -> get_function (out_pool out) j = Done x -> def_name (out_pool out) j = Done (source_signature f) -> R (out_pool out) src f k x.
Definition ef_index (n : str) : pidx := match find (fun i => match def_name (out_pool ef_result) i, get_class (out_pool ef_result) i with Done m, Done _ => str_eqb m n | _, _ => false end)
  (map Z.of_nat (seq 0 (length (pl_defs (out_pool ef_result))))) with Some i => i | None => 0 end.
Lemma ef_member (R : pool -> class_source -> function_source -> class -> function -> Prop) : (forall k x, R (out_pool ef_result) ef_dog (int_fun [] [QPrivate] "speak" (ecall "H" [evar "n"])) k x -> fu_visibility x = Public -> fu_base_method x = None ->
    (exists b f, get_class (out_pool ef_result) (cl_base k) = Done b /\ In f (cl_functions b) /\ def_name (out_pool ef_result) f = Done (lit "speak;Int32")) -> False) ->
  ~ member_becomes un_env [ef_module] un_pool R.
Proof.
  intros H M.
  assert (X : exists i k j x, def_name (out_pool ef_result) i = Done (path_render (with_child [] (lit "Dog"))) /\ get_class (out_pool ef_result) i = Done k /\ In j (cl_functions k) /\
    get_function (out_pool ef_result) j = Done x /\ def_name (out_pool ef_result) j = Done (lit "speak;Int32") /\ fu_visibility x = Public /\ fu_base_method x = None /\
    exists b f, get_class (out_pool ef_result) (cl_base k) = Done b /\ In f (cl_functions b) /\ def_name (out_pool ef_result) f = Done (lit "speak;Int32")).
  { exists (ef_index (lit "Dog")). eexists. eexists. eexists. split; [vm_compute; reflexivity|]. split; [vm_compute; reflexivity|]. split; [left; reflexivity|]. split; [vm_compute; reflexivity|].
    split; [vm_compute; reflexivity|]. split; [vm_compute; reflexivity|]. split; [vm_compute; reflexivity|]. eexists. eexists. split; [vm_compute; reflexivity|]. split; [left; reflexivity|]. vm_compute. reflexivity. }
  destruct X as (i & k & j & x & A & B & C & D & E & F & G & K).
  apply (H k x); [|exact F|exact G|exact K]. eapply M; [vm_compute; reflexivity|vm_compute; reflexivity|now left|do 5 right; left; reflexivity|left; reflexivity|exact A|exact B|exact C|exact D|].
  exact E.
Qed.
Theorem C51_member_visibility_refuted : exists ev l p, proper p /\ names_ok p /\ fair ev /\ wraps_nothing l /\
  ~ member_becomes ev l p (fun _ _ f _ x => fu_visibility x = visibility_of (dc_qualifiers (fs_decl f))).
Proof.
  exists un_env, [ef_module], un_pool. destruct C51_nonvacuous as (A & B & C & D & _). repeat (split; [assumption|]).
  apply ef_member. intros k x H V _ _. rewrite V in H. discriminate H.
Qed.
Print Assumptions C51_member_visibility_refuted.
Theorem C51_overriding_member_refuted : exists ev l p, proper p /\ names_ok p /\ fair ev /\ wraps_nothing l /\
  ~ member_becomes ev l p (fun q _ f k x => forall b g, get_class q (cl_base k) = Done b -> In g (cl_functions b) -> def_name q g = Done (source_signature f) -> fu_base_method x <> None).
Proof.
  exists un_env, [ef_module], un_pool. destruct C51_nonvacuous as (A & B & C & D & _). repeat (split; [assumption|]).
  apply ef_member. intros k x H _ N (b & g & X & Y & Z). apply (H b g X Y); [|exact N]. exact Z.
Qed.
Print Assumptions C51_overriding_member_refuted.
