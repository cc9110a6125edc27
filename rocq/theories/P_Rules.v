(** C52: the rules for declarations are enforced and conflicts are reported. *)
From Coq Require Import String.
From Coq Require Import ZArith List Bool Lia Permutation.
From Verif Require Import Bytes Bytecode Definitions Bundle BundleFacts Ast TypeNames Pool Scope TypeCheck Symbols SourceMap Cursor Assembler
  Desugar Diagnostics Report Printer PoolSpec PoolFacts TypeIndexSpec TypeIndexFacts Wrappers WrapSpec WrapFacts WrapSteps TidyFacts Unit UnitSpec UnitSteps UnitFacts
  P_Symbols P_Report P_Unit EffectSpec EffectFacts RuleSpec RuleFacts P_Effect.
From Verif Require Cleanup.
Import ListNotations.
Open Scope Z_scope.

Lemma sort_in d ds : In d (sort_diags ds) <-> In d ds.
Proof.
  rewrite sort_splits, in_app_iff, !filter_In. destruct (is_fatal d) eqn:E; split; intros H; intuition congruence.
Qed.

Section Compile.
Variables (ev : env) (l : list source_module) (p : pool) (out : output).
Hypothesis PR : proper p.
Hypothesis NO : names_ok p.
Hypothesis FV : fair ev.
Hypothesis E : compile ev l p = Done out.
Hypothesis FT : fits (out_pool out).
Hypothesis ML : mild (out_diags out).
Lemma passes : exists st0 st1 ss st2, ready l p st0 /\ trace (enabled_entries l) ss st0 st1 /\ fits (us_pool st1) /\
  (forall pre s post, ss = pre ++ s :: post -> visited l p ev (module_names l) (seen_in pre) s st2) /\
  mild (us_diags st2) /\ (forall d, In d (us_diags st1) -> In d (out_diags out)) /\ forall d, In d (us_diags st2) -> In d (out_diags out).
Proof.
  revert E. unfold compile. destruct (unit_new ev p) as [st0|] eqn:E0; [|discriminate]. cbn [obind].
  destruct (compile_modules ev true false l st0) as [[fs|] st5] eqn:EC; [|discriminate]. unfold finish. destruct (assemble_all ev fs st5) as [q|] eqn:EA; [|discriminate]. cbn [obind].
  destruct (Cleanup.cleanup_pool (ev_fuel ev) q (map fst (us_refs st5))) as [[p' refs]|] eqn:E3; [|discriminate]. cbn [of_cleanup map_err obind]. intros [= OUT].
  assert (F5 : fits (us_pool st5)).
  { apply (fun x => grown_fits _ _ x (cleanup_fits _ _ _ _ _ E3 (eq_ind_r (fun o => fits (out_pool o)) FT OUT))). exact (assemble_grows ev _ _ _ EA). }
  assert (D5 : forall d, In d (us_diags st5) -> In d (out_diags out)) by (intros d I; rewrite <- OUT; cbn [out_diags]; now apply sort_in).
  unfold compile_modules in EC. cbv zeta in EC. change (flat_map _ l) with (module_names l) in EC.
  apply bind_done in EC as (queue & st1 & E1 & EC). apply bind_done in EC as (u2 & st2 & E2 & EC). apply bind_done in EC as (dd & sx & Ex & EC). injection Ex as <- <-.
  apply bind_done in EC as (u3 & st3 & E4 & EC). apply bind_done in EC as (u4 & st4 & E5 & EC). apply bind_done in EC as (bs & sx & Ex & EC). injection Ex as <- <-.
  apply bind_done in EC as (gs & sx & E6 & EC). injection EC as <- ->.
  assert (B45 : before (us_diags st4) (us_diags st5)) by exact (late_map _ _ (late_body ev true false) _ _ _ E6).
  assert (B34 : before (us_diags st3) (us_diags st4)) by (destruct (construct_proxies _ _ _ _ _) as [[s t]|]; [|discriminate]; injection E5 as _ <-; apply before_refl).
  assert (B23 : before (us_diags st2) (us_diags st3)) by exact (late_each _ _ (late_default ev) _ _ _ E4).
  assert (B12 : before (us_diags st1) (us_diags st2)) by exact (late_modules _ _ _ _ _ _ _ E2).
  assert (B25 : before (us_diags st2) (us_diags st5)) by (eapply before_trans; [exact B23|eapply before_trans; [exact B34|exact B45]]).
  assert (M2 : mild (us_diags st2)) by (intros d I; apply ML, D5; exact (before_in _ _ _ B25 I)).
  assert (M1 : mild (us_diags st1)) by exact (mild_before _ _ B12 M2).
  assert (F4 : fits (us_pool st4)) by (apply (fun x => grown_fits _ _ x F5); eapply (mono_map (compile_body ev true false)); [intros; apply mono_body|exact E6]).
  assert (F3 : fits (us_pool st3)) by exact (grown_fits _ _ (mono_proxies _ _ _ _ E5) F4).
  assert (F2 : fits (us_pool st2)) by (apply (fun x => grown_fits _ _ x F3); eapply (mono_each (compile_default ev)); [intros; apply mono_default|exact E4]).
  assert (F1 : fits (us_pool st1)) by exact (grown_fits _ _ (mono_modules _ _ _ _ _ _ _ E2) F2).
  pose proof (trace_modules l queue st0 st1 (module_names l) E1 M1) as T. pose proof (ready_start l p PR ev st0 FV NO E0) as R0.
  assert (H1 : holds (inv l p true) (umap (declare_module false (module_names l)) l) (Forall (fun x => Forall (slot_ok l p) (snd x)))).
  { apply holds_map; [intros; unfold declare_module; mono; apply mono_entry|]. intros m Im. now apply holds_declare. }
  destruct (H1 _ _ _ E1 F1 (rd_inv _ _ _ R0)) as (I1 & Q). apply holds_first in I1. specialize (Q _ eq_refl).
  exists st0, st1, (flat_map snd queue), st2. split; [exact R0|]. split; [exact T|]. split; [exact F1|]. split; [|split; [exact M2|split]].
  - exact (modules_visited l p PR ev FV _ queue Q [] _ _ _ E2 F2 M2 I1).
  - intros d I. apply D5. exact (before_in _ _ _ (before_trans _ _ _ B12 B25) I).
  - intros d I. apply D5. exact (before_in _ _ _ B25 I).
Qed.
(** One entry. *)
Lemma entry_passes pre m e post : enabled_entries l = pre ++ (m, e) :: post -> exists sp s st1 st1' st2,
  ready l p st1 /\ placing p e s st1 st1' /\ (forall d, In d (us_diags st1') -> In d (out_diags out)) /\
  visited l p ev (module_names l) (seen_in sp) s st2 /\ mild (us_diags st2) /\ (forall d, In d (us_diags st2) -> In d (out_diags out)) /\
  (forall q1 m1 e1 q2, pre = q1 ++ (m1, e1) :: q2 -> exists s1 t t', In s1 sp /\ ready l p t /\ placing p e1 s1 t t' /\ onto true none (us_pool t') (us_pool st1) /\ onto true none (us_pool t) (us_pool st1)).
Proof.
  intros EE. destruct passes as (st0 & stE & ss & st2 & R0 & T & F1 & V & M2 & D1 & D2). rewrite EE in T.
  assert (DE : forall m' e', In (m', e') (pre ++ (m, e) :: post) -> declares l e') by (intros m' e' I; rewrite <- EE in I; exact (enabled_declares _ _ _ I)).
  apply trace_split in T as (sp & s2 & st1 & -> & _ & TA & TB). inversion TB as [|m' e' s es ss' sta st1' ste D R]; subst.
  assert (F1' : fits (us_pool st1')) by exact (grown_fits _ _ (trace_grown _ _ _ _ R) F1). assert (Fs : fits (us_pool st1)) by exact (grown_fits _ _ (trace_grown _ _ _ _ TB) F1).
  destruct (trace_ready l p PR _ _ _ _ TA (fun m' e' I => DE m' e' (in_or_app _ _ _ (or_introl I))) Fs R0) as (R1 & _).
  assert (De : declares l e) by (apply (DE m e); apply in_or_app; right; now left).
  destruct (symbol_ready l p PR e m st1 s st1' De R1 D F1') as (R1' & _ & P).
  exists sp, s, st1, st1', st2. split; [exact R1|]. split; [exact P|]. split; [|split; [exact (V _ _ _ eq_refl)|split; [exact M2|split; [exact D2|]]]].
  - intros d I. apply D1. exact (before_in _ _ _ (trace_before _ _ _ _ R) I).
  - intros q1 m1 e1 q2 ->. apply trace_split in TA as (sa & sb & t & -> & _ & TC & TD). inversion TD as [|m' e' s1 es sc tx t' ty D' R']; subst.
    assert (Ft' : fits (us_pool t')) by exact (grown_fits _ _ (trace_grown _ _ _ _ R') Fs). assert (Ft : fits (us_pool t)) by exact (grown_fits _ _ (trace_grown _ _ _ _ TD) Fs).
    destruct (trace_ready l p PR _ _ _ _ TC (fun m' e' I => DE m' e' (in_or_app _ _ _ (or_introl (in_or_app _ _ _ (or_introl I))))) Ft R0) as (Rt & _).
    assert (De1 : declares l e1) by (apply (DE m1 e1); apply in_or_app; left; apply in_or_app; right; now left).
    destruct (symbol_ready l p PR e1 m1 t s1 t' De1 Rt D' Ft') as (Rt' & Ot & Pt).
    assert (DR : forall m' e', In (m', e') q2 -> declares l e') by (intros m' e' I; apply (DE m' e'); apply in_or_app; left; apply in_or_app; right; now right).
    destruct (trace_ready l p PR _ _ _ _ R' DR Fs Rt') as (_ & O2). exists s1, t, t'. split; [apply in_or_app; right; now left|]. split; [exact Rt|]. split; [exact Pt|]. split; [exact O2|exact (onto_trans _ _ _ _ _ Ot O2)].
Qed.
Lemma function_visited seen f c b w r src v st2 : visited l p ev (module_names l) seen (SlotFunction f c b w r src v) st2 -> mild (us_diags st2) ->
  (In f seen -> In (ReplaceMethodConflict f (dc_span (fs_decl src))) (us_diags st2)) /\
  (c = UNDEFINED -> lawful_function None (negb r && contain QNative (dc_qualifiers (fs_decl src))) src) /\
  (forall k, get_class p c = Done k -> lawful_function (owner_at c k) (negb r && contain QNative (dc_qualifiers (fs_decl src))) src).
Proof.
  intros (sa & sb & D & I & B) M. pose proof (mild_before _ _ B M) as Mb. cbn [define_slot] in D. apply bind_done in D as (u & s1 & D1 & D). apply bind_done in D as (fl & s2 & D2 & D). injection D2 as D2 <-.
  apply bind_done in D as (rf & s3 & D3 & D). pose proof (function_rules _ _ _ _ D Mb) as L. cbn [sp_class_flags sp_replacement sp_source] in L.
  assert (PS : us_pool s1 = us_pool sa) by (destruct (existsb _ _); now injection D1 as _ <-). rewrite PS in D2. split; [|split].
  - intros IS. assert (X : existsb (Z.eqb f) seen = true) by (apply existsb_exists; exists f; split; [exact IS|apply Z.eqb_refl]). rewrite X in D1. injection D1 as _ <-.
    apply (before_in _ _ _ B). apply (before_in _ _ _ (late_function _ _ _ _ D)). apply (before_in _ _ _ (late_ref _ _ _ _ _ D3)). cbn [set_diags us_diags]. apply in_or_app. right. now left.
  - intros ->. cbn in D2. injection D2 as <-. exact L.
  - intros k K. unfold owner_at. destruct (c =? UNDEFINED) eqn:U; [injection D2 as <-; exact L|]. destruct (pe (get_class (us_pool sa) c)) as [k'|] eqn:K'; [|discriminate]. injection D2 as <-. apply pe_done in K'.
    destruct (stays_class _ _ _ _ _ (iv_stays _ _ _ _ I) K') as [F|(d & k0 & fs & gs & D0 & V0 & _ & -> & _)].
    + apply class_at in K as (d & D0 & _). destruct (old_not_fresh _ _ _ D0 F).
    + assert (k0 = k) by (apply class_at in K as (d' & D' & V'); congruence). subst k0. exact L.
Qed.
Lemma old_name st i n : inv l p false st -> def_name p i = Done n -> def_name (us_pool st) i = Done n.
Proof.
  intros I N. destruct (iv_stays _ _ _ _ I) as (T & S). destruct (name_def _ _ _ N) as (d & D). destruct (S _ _ D) as (d' & D' & K). exact (name_same _ _ _ _ _ _ (proj1 T) D D' (kept_name _ _ _ _ _ K) N).
Qed.
Lemma find_named_hit (q : pool) n fs : forall gs, (forall f, In f fs -> exists m, def_name q f = Done m) -> (exists f, In f fs /\ def_name q f = Done n) -> exists i, find_named q n (fs ++ gs) = Done (Some i).
Proof.
  induction fs as [|f fs IH]; intros gs A (g & I & N); [destruct I|]. cbn [app find_named]. destruct (A f (or_introl eq_refl)) as (m & Nm). rewrite Nm. cbn [pc map_err obind].
  destruct (str_eqb_spec m n) as [->|NE]; [eauto|]. apply IH; [intros h Ih; apply A; now right|]. exists g. split; [|exact N]. destruct I as [->|I]; [congruence|exact I].
Qed.
(** The fields of the classes in the bundle exist. *)
Hypothesis FD : forall c k f, get_class p c = Done k -> In f (cl_fields k) -> exists d, def_at p f = Some d.
Lemma let_visited seen i src v st2 : visited l p ev (module_names l) seen (SlotField i src v) st2 -> mild (us_diags st2) ->
  exists a n, In a (dc_annotations (fd_decl src)) /\ an_kind a = AAddField /\ ann_ident a = Done n /\
    (In (FieldConflict (dc_span (fd_decl src))) (us_diags st2) \/ exists native, lawful_field native src /\ field_place l p n native src).
Proof.
  intros (sa & sb & D & I & B) M. pose proof (mild_before _ _ B M) as Mb. cbn [define_slot] in D. unfold define_global_let in D.
  destruct (find is_add_field _) as [a|] eqn:FA; [|discriminate]. apply find_some in FA as (Ia & Ka). assert (KA : an_kind a = AAddField) by (unfold is_add_field in Ka; destruct (an_kind a); congruence).
  apply bind_done in D as (n & s1 & D1 & D). injection D1 as AN <-. apply bind_done in D as (s & s1 & D2 & D). injection D2 as RS <-.
  exists a, n. split; [exact Ia|]. split; [exact KA|]. split; [exact AN|].
  destruct s as [c w| | | ]; try discriminate. unfold resolve_symbol in RS. destruct (am_find (sc_symbols (us_module sa)) n) as [sy|] eqn:G; [|discriminate]. cbn [with_span map_err] in RS. injection RS as ->.
  apply (iv_module _ _ _ _ I) in G as (pre & ES). cbn [entry_ok] in ES. apply bind_done in D as (known & s1 & D3 & D). injection D3 as KN <-. destruct known.
  - left. injection D as <-. apply (before_in _ _ _ B). cbn [set_diags us_diags]. apply in_or_app. right. now left.
  - right. apply bind_done in D as (k & s1 & D4 & D). injection D4 as K <-. apply pe_done in K. apply bind_done in D as (u & s2 & D5 & D).
    assert (M2 : mild (us_diags s2)) by (eapply mild_before; [|exact Mb]; exact (late_pool _ _ _ _ D)). pose proof (field_rules _ _ _ _ _ _ _ _ D5 M2) as L.
    exists (get_flag cf_is_native (cl_flags k)). split; [exact L|]. destruct ES as [(_ & (pr & b & cs & DC & EQ))|(full & N & P)].
    + right. destruct (declares_enabled _ _ DC) as (m & Im). exists m, b, cs. split; [exact Im|]. apply app_inj_tail in EQ as (_ & ->). reflexivity.
    + left. destruct (name_def _ _ _ N) as (d0 & D0). destruct (stays_class _ _ _ _ _ (iv_stays _ _ _ _ I) K) as [F|(d & k0 & fs & gs & D' & V' & _ & -> & _)]; [destruct (old_not_fresh _ _ _ D0 F)|].
      assert (K0 : get_class p c = Done k0) by (apply class_at; eauto). exists c, k0. split; [now exists full, pre|]. split; [exact K0|]. split; [reflexivity|]. intros f If Nf.
      unfold resolve_field in KN. cbn [pool_fuel resolve_field_loop] in KN. unfold pool_fuel in KN. cbn [resolve_field_loop] in KN. rewrite K in KN. cbn [pc map_err obind] in KN.
      cbn [with_fields with_functions cl_fields] in KN.
      destruct (find_named_hit (us_pool sa) (dc_name (fd_decl src)) (cl_fields k0) gs) as (j & FN).
      * intros g Ig. destruct (FD _ _ _ K0 Ig) as (dg & Dg). destruct (proj1 PR _ _ Dg) as (ng & Ng). exists ng. exact (old_name _ _ _ I Ng).
      * exists f. split; [exact If|exact (old_name _ _ _ I Nf)].
      * rewrite FN in KN. cbn [obind] in KN. discriminate.
Qed.
Lemma all_lawful m e : In (m, e) (enabled_entries l) -> lawful l p (out_diags out) e.
Proof.
  intros I. apply in_split in I as (pre & post & EE). destruct (entry_passes _ _ _ _ EE) as (sp & s & st1 & st1' & st2 & R1 & P & D1 & V & M2 & D2 & _).
  destruct e as [b src|src|src|src]; cbn [placing lawful] in *.
  - destruct P as (i & v & ->). destruct V as (sa & sb & D & _ & B). cbn [define_slot] in D. exact (class_rules _ _ _ _ _ _ _ _ _ D (mild_before _ _ B M2)).
  - destruct (find places _) as [a|] eqn:FP.
    + destruct (an_kind a) eqn:KA; try contradiction.
      * destruct P as (f & c & b & v & -> & (k & C) & _). exists c, k. split; [exact C|]. destruct C as (n & _ & _ & K). exact (proj2 (proj2 (function_visited _ _ _ _ _ _ _ _ _ V M2)) _ K).
      * destruct P as (f & c & b & w & v & -> & (k & C) & QN). exists c, k. split; [exact C|]. destruct C as (n & _ & _ & K). split; [exact (proj2 (proj2 (function_visited _ _ _ _ _ _ _ _ _ V M2)) _ K)|exact QN].
      * destruct P as (f & v & ->). exact (proj1 (proj2 (function_visited _ _ _ _ _ _ _ _ _ V M2)) eq_refl).
      * destruct P as (f & c & b & v & -> & (k & C) & _ & _ & CL). exists c, k. split; [exact C|]. destruct C as (n & _ & _ & K). split; [exact (proj2 (proj2 (function_visited _ _ _ _ _ _ _ _ _ V M2)) _ K)|].
        intros NS g Ig Ng. apply D1. pose proof (holds_first _ _ _ (rd_inv _ _ _ R1)) as I1. apply (CL NS g); [|exact (old_name _ _ _ I1 Ng)].
        apply class_at in K as (d & Dd & Vd). destruct (iv_stays _ _ _ _ I1) as (_ & ST). destruct (ST _ _ Dd) as (d' & Dd' & [->|k1 fs gs V1 -> _ _ _|x x' _ V1 _ _ _]).
        -- exists k. split; [apply class_at; eauto|exact Ig].
        -- assert (k1 = k) by congruence. subst k1. eexists. split; [apply class_at; eexists; split; [exact Dd'|reflexivity]|]. cbn. apply in_or_app. now left.
        -- congruence.
    + destruct P as (f & v & ->). exact (proj1 (proj2 (function_visited _ _ _ _ _ _ _ _ _ V M2)) eq_refl).
  - destruct P as (i & v & ->). destruct (let_visited _ _ _ _ _ V M2) as (a & n & A1 & A2 & A3 & [A4|A4]); exists a, n; repeat split; auto.
  - exact I.
Qed.
End Compile.

(** * Two declarations *)
Lemma named_split q n a : forall b r, functions_named q n (a ++ b) = Done r -> exists ra rb, functions_named q n a = Done ra /\ r = ra ++ rb.
Proof.
  induction a as [|i a IH]; intros b r H; cbn [app functions_named] in *; [now exists [], r|]. destruct (def_name q i) as [m|]; [|discriminate]. cbn [pc map_err obind] in *.
  destruct (functions_named q n (a ++ b)) as [r'|] eqn:E; [|discriminate]. cbn [obind] in H. injection H as <-. destruct (IH _ _ E) as (ra & rb & -> & ->). cbn [obind].
  destruct (str_eqb _ n); [exists (i :: ra), rb|exists ra, rb]; auto.
Qed.
Lemma named_later p q n a : earlier p q -> forall r, functions_named p n a = Done r -> functions_named q n a = Done r /\ forall f, In f r -> exists m, def_name p f = Done m.
Proof.
  intros EA. induction a as [|i a IH]; intros r H; cbn [functions_named] in *; [injection H as <-; split; [reflexivity|intros f []]|]. destruct (def_name p i) as [m|] eqn:N; [|discriminate]. cbn [pc map_err obind] in *.
  rewrite (EA _ _ N). cbn [pc map_err obind]. destruct (functions_named p n a) as [r'|] eqn:E; [|discriminate]. cbn [obind] in H. injection H as <-. destruct (IH _ eq_refl) as (-> & A). cbn [obind].
  split; [reflexivity|]. destruct (str_eqb _ n); [|exact A]. intros f [<-|I]; [eauto|exact (A _ I)].
Qed.
Lemma found_again p q n sig c fs f gs g : onto true none p q -> resolve_direct_method p n c = Done fs -> by_id fs sig p = Some f ->
  resolve_direct_method q n c = Done gs -> by_id gs sig q = Some g -> g = f.
Proof.
  intros O R1 B1 R2 B2. unfold resolve_direct_method in *. destruct (get_class p c) as [k|] eqn:K; [|discriminate]. cbn [pc map_err obind] in R1.
  destruct (functions_named p n (cl_functions k)) as [r|] eqn:F1; [|discriminate]. cbn [obind] in R1. assert (r = fs) by (destruct r; [destruct (pc _); discriminate|now injection R1 as <-]). subst r. clear R1.
  destruct (onto_class _ _ _ _ _ _ O K) as (xs & ys & _ & K'). rewrite K' in R2. cbn [pc map_err obind with_fields with_functions cl_functions] in R2.
  destruct (functions_named q n (cl_functions k ++ xs)) as [r|] eqn:F2; [|discriminate]. cbn [obind] in R2. assert (r = gs) by (destruct r; [destruct (pc _); discriminate|now injection R2 as <-]). subst r. clear R2.
  assert (EA : earlier p q) by (intros i m; apply (onto_name _ _ _ _ _ _ O)).
  destruct (named_split _ _ _ _ _ F2) as (ra & rb & F3 & ->). destruct (named_later _ _ _ _ EA _ F1) as (F4 & A). rewrite F4 in F3. injection F3 as <-.
  clear - B1 B2 A EA. unfold by_id in *. induction fs as [|i fs IH]; [discriminate|]. cbn [app find] in *. destruct (A i (or_introl eq_refl)) as (m & N). rewrite (EA _ _ N) in B2. rewrite N in B1.
  destruct (str_eqb m sig); [congruence|]. exact (IH B1 B2 (fun h Ih => A h (or_intror Ih))).
Qed.

(** C52.  When the modules [l] are compiled into the bundle [p] and no error is
    reported, every enabled declaration follows the rules: native functions have no
    body and are in native classes, other functions have a body unless their class is
    abstract, structs have only static methods, persistent fields have types that can
    be stored, and so on.  A method that is added to a class which has it, and a field
    that is added to a class which has one of this name, are reported. *)
Theorem C52_rules_are_enforced ev l p out : proper p -> names_ok p -> fair ev ->
  (forall c k f, get_class p c = Done k -> In f (cl_fields k) -> exists d, def_at p f = Some d) ->
  compile ev l p = Done out -> fits (out_pool out) -> (forall d, In d (out_diags out) -> is_fatal d = false) ->
  forall m e, In (m, e) (enabled_entries l) -> lawful l p (out_diags out) e.
Proof. intros PR NO FV FD E F M m e. exact (all_lawful ev l p out PR NO FV E F M FD m e). Qed.
Print Assumptions C52_rules_are_enforced.

(** When a method is added twice or replaced twice, this is reported at the second
    place. *)
Theorem C52_conflicts_are_reported ev l p out : proper p -> names_ok p -> fair ev -> distinct_classes p ->
  compile ev l p = Done out -> fits (out_pool out) -> (forall d, In d (out_diags out) -> is_fatal d = false) ->
  forall before m1 s1 a1 between m2 s2 a2 after,
  enabled_entries l = before ++ (m1, EntryFunction s1) :: between ++ (m2, EntryFunction s2) :: after ->
  (same_method AAddMethod s1 s2 a1 a2 -> ~ In x3b (dc_name (fs_decl s2)) -> In (AddMethodConflict (an_span a2)) (out_diags out)) /\
  (same_method AReplaceMethod s1 s2 a1 a2 -> exists f, In (ReplaceMethodConflict f (dc_span (fs_decl s2))) (out_diags out)).
Proof.
  intros PR NO FV DC E F M be m1 s1 a1 bt m2 s2 a2 af EE. change (be ++ (m1, EntryFunction s1) :: bt ++ (m2, EntryFunction s2) :: af) with (be ++ ((m1, EntryFunction s1) :: bt) ++ (m2, EntryFunction s2) :: af) in EE. rewrite app_assoc in EE.
  destruct (entry_passes ev l p out PR NO FV E F M _ _ _ _ EE) as (sp & s & st1 & st1' & st2 & R1 & P & D1 & V & M2 & D2 & EA).
  destruct (EA be m1 (EntryFunction s1) bt eq_refl) as (sl & t & t' & Is & Rt & Pt & O' & O). cbn [placing] in P, Pt. split.
  - intros (A1 & A2 & K1 & K2 & (n & N1 & N2) & DN & SG) NS. rewrite A1, K1 in Pt. rewrite A2, K2 in P.
    destruct Pt as (f1 & c1 & b1 & v1 & -> & (k1 & n1 & I1 & G1 & C1) & M1 & F1 & _). destruct P as (f2 & c2 & b2 & v2 & -> & (k2 & n2 & I2 & G2 & C2) & _ & _ & CL).
    assert (n1 = n) by congruence. assert (n2 = n) by congruence. subst n1 n2. assert (c1 = c2) by exact (DC _ _ _ _ _ G1 G2 C1 C2). subst c2. apply D1.
    apply (CL NS f1); [exact (onto_member _ _ _ _ _ _ O' M1)|]. rewrite <- SG. exact (onto_name _ _ _ _ _ _ O' F1).
  - intros (A1 & A2 & K1 & K2 & (n & N1 & N2) & DN & SG). rewrite A1, K1 in Pt. rewrite A2, K2 in P.
    destruct Pt as (f1 & c1 & b1 & v1 & -> & (k1 & n1 & I1 & G1 & C1) & fs1 & RD1 & BI1). destruct P as (f2 & c2 & b2 & v2 & -> & (k2 & n2 & I2 & G2 & C2) & fs2 & RD2 & BI2).
    assert (n1 = n) by congruence. assert (n2 = n) by congruence. subst n1 n2. assert (c1 = c2) by exact (DC _ _ _ _ _ G1 G2 C1 C2). subst c2. rewrite DN, SG in *.
    assert (f2 = f1) by exact (found_again _ _ _ _ _ _ _ _ _ O RD1 BI1 RD2 BI2). subst f2. exists f1. apply D2. apply (proj1 (function_visited ev l p _ _ _ _ _ _ _ _ _ V M2)).
    apply in_flat_map. exists (SlotFunction f1 c1 b1 None true s1 v1). split; [exact Is|now left].
Qed.
Print Assumptions C52_conflicts_are_reported.

(** A module with every kind of declaration: additions and replacements that conflict,
    a wrapper, a native abstract class, a struct, added fields and a native function. *)
Definition at_span (n : Z) (a : annotation) : annotation := {| an_kind := an_kind a; an_args := an_args a; an_span := Span n n |}.
Definition in_span (n : Z) (f : function_source) : function_source :=
  FunctionSource (Decl (dc_annotations (fs_decl f)) (dc_qualifiers (fs_decl f)) (dc_name (fs_decl f)) (Span n n)) (fs_type f) (fs_parameters f) (fs_body f) (fs_span f).
Definition without_body (f : function_source) : function_source := FunctionSource (fs_decl f) (fs_type f) (fs_parameters f) None (fs_span f).
Definition rl_native : class_source :=
  ClassSource (Decl [] [QNative; QAbstract] (lit "Engine") un_sp) None
    [MemberFunction (without_body (int_fun [] [QNative] "Start" (evar "n"))); MemberFunction (without_body (int_fun [] [] "Stop" (evar "n")));
     MemberField (ef_field [] [QNative] "gear" None)] un_sp.
Definition rl_struct : class_source :=
  ClassSource (Decl [] [] (lit "Wheel") un_sp) None [MemberFunction (int_fun [] [QStatic] "Spin" (evar "n")); MemberField (ef_field [] [QPersistent] "size" None)] un_sp.
Definition rl_module : source_module := SourceModule None []
  [EntryFunction (int_fun [at_span 1 (ann AAddMethod "Animal")] [] "speak" (evar "n"));
   EntryFunction (int_fun [at_span 2 (ann AAddMethod "Cat")] [] "purr" (evar "n"));
   EntryFunction (int_fun [at_span 3 (ann AAddMethod "Cat")] [] "purr" (evar "n"));
   EntryFunction (int_fun [ann AReplaceMethod "Animal"] [] "speak" (evar "n"));
   EntryFunction (in_span 4 (int_fun [ann AReplaceMethod "Animal"] [] "speak" (evar "n")));
   EntryFunction (int_fun [ann AReplaceGlobal "Cat"] [] "G" (evar "n"));
   EntryFunction (int_fun [ann AWrapMethod "Animal"] [] "speak" (evar "n"));
   EntryClass false rl_native; EntryClass true rl_struct; EntryClass false ef_dog;
   EntryLet (ef_field [ann AAddField "Cat"] [] "lives" None);
   EntryLet (ef_field [ann AAddField "Animal"] [] "age" None);
   EntryLet (ef_field [ann AAddField "Dog"] [] "lives" None);
   EntryFunction (int_fun [] [QPublic] "H" (evar "n")); EntryFunction (without_body (int_fun [] [QNative] "N" (evar "n")))].
Definition rl_result : output := Eval vm_compute in match compile un_env [rl_module] un_pool with Done o => o | Fail _ => Output un_pool [] [] end.
Definition pool_scan (p : pool) (f : pidx -> definition -> bool) : bool :=
  forallb (fun i => match def_at p (Z.of_nat i) with Some d => f (Z.of_nat i) d | None => true end) (seq 0 (length (pl_defs p))).
Lemma pool_scan_at p f : pool_scan p f = true -> forall i d, def_at p i = Some d -> f i d = true.
Proof.
  unfold pool_scan. rewrite forallb_forall. intros H i d D. pose proof (at_bounds _ _ _ D) as B. unfold size in B. specialize (H (Z.to_nat i)). rewrite Z2Nat.id in H by lia.
  specialize (H ltac:(apply in_seq; lia)). now rewrite D in H.
Qed.
Lemma un_fields c k f : get_class un_pool c = Done k -> In f (cl_fields k) -> exists d, def_at un_pool f = Some d.
Proof.
  intros C I. apply class_at in C as (d & D & V).
  assert (X : pool_scan un_pool (fun _ d => match df_value d with DClass k => forallb (fun f => match def_at un_pool f with Some _ => true | None => false end) (cl_fields k) | _ => true end) = true) by (vm_compute; reflexivity).
  pose proof (pool_scan_at _ _ X _ _ D) as Y. cbv beta in Y. rewrite V, forallb_forall in Y. specialize (Y _ I). destruct (def_at un_pool f); [eauto|discriminate].
Qed.
Lemma un_distinct : distinct_classes un_pool.
Proof.
  intros n c c' k k' (full & N & P) (full' & N' & P') C C'. apply class_at in C as (d & D & V). apply class_at in C' as (d' & D' & V').
  assert (X : pool_scan un_pool (fun i d => match df_value d with DClass _ => pool_scan un_pool (fun j e => match df_value e with
    | DClass _ => (i =? j) || negb match def_name un_pool i, def_name un_pool j with Done a, Done b => if list_eq_dec (list_eq_dec Byte.byte_eq_dec) (path_parse a) (path_parse b) then true else false | _, _ => false end
    | _ => true end) | _ => true end) = true) by (vm_compute; reflexivity).
  pose proof (pool_scan_at _ _ X _ _ D) as Y. cbv beta in Y. rewrite V in Y. pose proof (pool_scan_at _ _ Y _ _ D') as Z. cbv beta in Z. rewrite V', N, N', P, P' in Z.
  destruct (list_eq_dec (list_eq_dec Byte.byte_eq_dec) [n] [n]) as [_|W]; [|now elim W]. apply orb_prop in Z as [Z|Z]; [now apply Z.eqb_eq|discriminate Z].
Qed.
Example C52_nonvacuous : proper un_pool /\ names_ok un_pool /\ fair un_env /\
  (forall c k f, get_class un_pool c = Done k -> In f (cl_fields k) -> exists d, def_at un_pool f = Some d) /\ distinct_classes un_pool /\
  compile un_env [rl_module] un_pool = Done rl_result /\ fits (out_pool rl_result) /\ (forall d, In d (out_diags rl_result) -> is_fatal d = false) /\
  length (enabled_entries [rl_module]) = 15%nat /\
  out_diags rl_result = [AddMethodConflict (Span 1 1); AddMethodConflict (Span 3 3); ReplaceMethodConflict 16 (Span 4 4); FieldConflict un_sp].
Proof.
  split; [exact un_proper|]. split; [exact un_names_ok|]. split; [exact un_fair|]. split; [exact un_fields|]. split; [exact un_distinct|].
  split; [vm_compute; reflexivity|]. split; [vm_compute; split; reflexivity|]. split; [intros d I; vm_compute in I; repeat destruct I as [<-|I]; try destruct I; reflexivity|].
  split; vm_compute; reflexivity.
Qed.
(** Each of the rules turns something away: a native method in a class that is not
    native, a function without a body, a method of a struct that is not static, a
    persistent field of type String, a method added to an unknown class. *)
Example C52_turned_away : Forall (fun e => match compile un_env [SourceModule None [] [e]] un_pool with Done o => existsb is_fatal (out_diags o) = true | Fail _ => False end)
  [EntryFunction (without_body (int_fun [ann AAddMethod "Cat"] [QNative] "purr" (evar "n"))); EntryFunction (without_body (int_fun [] [] "H" (evar "n")));
   EntryClass true (ClassSource (Decl [] [] (lit "Wheel") un_sp) None [MemberFunction (int_fun [] [] "Spin" (evar "n"))] un_sp);
   EntryClass false (ClassSource (Decl [] [] (lit "Wheel") un_sp) None [MemberField (FieldSource (Decl [] [QPersistent] (lit "label") un_sp) (tn_basic (lit "String")) None)] un_sp);
   EntryFunction (int_fun [ann AAddMethod "Bird"] [] "purr" (evar "n"))].
Proof. repeat (constructor; [vm_compute; reflexivity|]). constructor. Qed.

(** What is declared twice without an annotation is not always reported: two functions
    with the same signature, two enums of the same name, an enum and a class of the
    same name, two fields of the same name in one class. *)
Definition unreported (T : list source_entry -> Prop) : Prop :=
  exists ev es p out, proper p /\ names_ok p /\ fair ev /\ distinct_classes p /\ T es /\
    compile ev [SourceModule None [] es] p = Done out /\ fits (out_pool out) /\ out_diags out = [].
Definition bare (d : declaration) : Prop := dc_annotations d = [].
Definition rl_enum (n : string) : source_entry := EntryEnum (EnumSource (Decl [] [] (lit n) un_sp) [(lit "Good", 0)] un_sp).
Definition rl_class (n : string) (ms : list member_source) : source_entry := EntryClass false (ClassSource (Decl [] [] (lit n) un_sp) None ms un_sp).
Theorem C52_duplicates_refuted :
  unreported (fun es => exists s1 s2, es = [EntryFunction s1; EntryFunction s2] /\ bare (fs_decl s1) /\ bare (fs_decl s2) /\ source_signature s1 = source_signature s2) /\
  unreported (fun es => exists s1 s2, es = [EntryEnum s1; EntryEnum s2] /\ bare (es_decl s1) /\ bare (es_decl s2) /\ dc_name (es_decl s1) = dc_name (es_decl s2)) /\
  unreported (fun es => exists s1 b s2, es = [EntryEnum s1; EntryClass b s2] /\ bare (es_decl s1) /\ bare (cs_decl s2) /\ dc_name (es_decl s1) = dc_name (cs_decl s2)) /\
  unreported (fun es => exists b s f1 f2, es = [EntryClass b s] /\ cs_members s = [MemberField f1; MemberField f2] /\ bare (fd_decl f1) /\ bare (fd_decl f2) /\ dc_name (fd_decl f1) = dc_name (fd_decl f2)).
Proof.
  split; [|split; [|split]]; exists un_env.
  - exists [EntryFunction (int_fun [] [] "H" (evar "n")); EntryFunction (int_fun [] [] "H" (evar "n"))], un_pool. eexists. split; [exact un_proper|]. split; [exact un_names_ok|]. split; [exact un_fair|]. split; [exact un_distinct|].
    split; [repeat eexists|]. split; [vm_compute; reflexivity|]. split; [vm_compute; split; reflexivity|vm_compute; reflexivity].
  - exists [rl_enum "Mood"; rl_enum "Mood"], un_pool. eexists. split; [exact un_proper|]. split; [exact un_names_ok|]. split; [exact un_fair|]. split; [exact un_distinct|].
    split; [repeat eexists|]. split; [vm_compute; reflexivity|]. split; [vm_compute; split; reflexivity|vm_compute; reflexivity].
  - exists [rl_enum "Mood"; rl_class "Mood" []], un_pool. eexists. split; [exact un_proper|]. split; [exact un_names_ok|]. split; [exact un_fair|]. split; [exact un_distinct|].
    split; [repeat eexists|]. split; [vm_compute; reflexivity|]. split; [vm_compute; split; reflexivity|vm_compute; reflexivity].
  - exists [rl_class "Mood" [MemberField (ef_field [] [] "x" None); MemberField (ef_field [] [] "x" None)]], un_pool. eexists. split; [exact un_proper|]. split; [exact un_names_ok|]. split; [exact un_fair|]. split; [exact un_distinct|].
    split; [repeat eexists|]. split; [vm_compute; reflexivity|]. split; [vm_compute; split; reflexivity|vm_compute; reflexivity].
Qed.
Print Assumptions C52_duplicates_refuted.
