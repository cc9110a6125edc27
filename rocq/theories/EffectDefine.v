(** Declarations take effect: functions, fields, classes and enums as they are defined. *)
From Coq Require Import String.
From Coq Require Import ZArith List Bool Lia Permutation.
From Verif Require Import Bytes Bytecode Definitions Bundle BundleFacts Ast TypeNames Pool Scope TypeCheck Symbols SourceMap Cursor Assembler
  Desugar Diagnostics Report Printer PoolSpec PoolFacts TypeIndexSpec TypeIndexFacts Wrappers WrapSpec WrapFacts WrapSteps TidyFacts Unit UnitSpec UnitSteps UnitFacts
  P_Symbols EffectSpec EffectFacts.
Import ListNotations.
Open Scope Z_scope.

Ltac flags := let k := fresh "k" in let K := fresh "K" in intros k K; rewrite !with_flag_testbit by (first [exact K|discriminate]);
  cbn [existsb fst snd];
  repeat match goal with |- context [?c =? k] => destruct (Z.eqb_spec c k) as [<-|?]; cbn [andb orb];
    [repeat match goal with |- context [?a =? ?b] =>
       let r := eval vm_compute in (a =? b) in match r with true => change (a =? b) with true | false => change (a =? b) with false end end;
     cbn [andb orb]; rewrite ?orb_false_r; reflexivity|] end;
  apply Z.testbit_0_l.
Lemma parameter_flags_are qs : flags_are [(pf_is_optional, contain QOptional qs); (pf_is_out, contain QOut qs); (pf_is_const, contain QConst qs)] (parameter_flags qs).
Proof. unfold parameter_flags. flags. Qed.
Lemma function_flags_are d s n c r ps : flags_are
  [(fn_is_static, s); (fn_is_native, n);
   (fn_is_cast, str_eqb (dc_name d) (lit "Cast")); (fn_is_exec, contain QExec (dc_qualifiers d)); (fn_is_final, contain QFinal (dc_qualifiers d));
   (fn_is_callback, c); (fn_is_const, contain QConst (dc_qualifiers d)); (fn_is_quest, contain QQuest (dc_qualifiers d));
   (fn_has_return_value, r); (fn_has_parameters, ps)] (function_flags d s n c r ps).
Proof. unfold function_flags. cbv zeta. flags. Qed.
Lemma field_flags_are n r : flags_are [(ff_is_native, n); (ff_is_persistent, r); (ff_is_browsable, true)]
  (with_flag ff_is_persistent r (with_flag ff_is_native n (with_flag ff_is_browsable true 0))).
Proof. flags. Qed.
Lemma class_flags_are b qs : flags_are
  [(cf_is_struct, b); (cf_is_import_only, contain QImportOnly qs); (cf_is_native, contain QImportOnly qs || contain QNative qs);
   (cf_is_final, contain QFinal qs); (cf_is_abstract, negb b && contain QAbstract qs)] (class_flags_of b qs).
Proof. unfold class_flags_of. cbv zeta. flags. Qed.

(** Parameters. *)
Lemma run_parameter f sp x st i st' : define_parameter f sp x st = (Done i, st') -> safe st' -> good st ->
  step none st st' /\ good st' /\ size (us_pool st) <= i /\ parameter_is (sc_symbols (us_module st)) (us_pool st') f x i.
Proof.
  intros E S G. unfold define_parameter in E. apply bind_done in E as (t & st1 & E1 & E). apply bind_done in E as (n & st2 & E2 & E3).
  pose proof (back_def _ _ _ _ E3 S) as S2. pose proof (back_name _ _ _ _ E2 S2) as S1.
  destruct (run_declared _ _ _ _ _ E1 S1 G) as (P1 & G1 & T1). destruct (run_name _ _ _ _ E2 S2 G1) as (P2 & G2 & M2 & N2 & D2).
  destruct (run_def _ _ _ _ E3 S G2) as (P3 & G3 & M3 & -> & D3 & N3).
  split; [exact (step_trans _ _ _ _ P1 (step_trans _ _ _ _ P2 P3))|]. split; [exact G3|]. split.
  - pose proof (proj1 (sg_pool _ _ _ P1)). pose proof (proj1 (sg_pool _ _ _ P2)). lia.
  - eexists _, t, _. split; [exact D3|]. split; [apply (name_at _ _ _ _ D3); cbn [plain_definition df_name]; now rewrite N3|]. split; [reflexivity|]. split; [reflexivity|].
    split; [|apply parameter_flags_are]. exact (type_onto _ _ _ _ _ _ _ (sg_pool _ _ _ P3) (type_onto _ _ _ _ _ _ _ (sg_pool _ _ _ P2) T1)).
Qed.
Lemma back_parameter f sp x : back (define_parameter f sp x).
Proof. apply back_of; [unfold define_parameter; mono|apply quiet_parameter]. Qed.
Lemma back_parameters f sp xs : back (umap (define_parameter f sp) xs).
Proof. apply back_of; [apply mono_map; intros; unfold define_parameter; mono|apply quiet_map; intros; apply quiet_parameter]. Qed.
Lemma run_parameters f sp xs : forall st is st', umap (define_parameter f sp) xs st = (Done is, st') -> safe st' -> good st ->
  step none st st' /\ good st' /\ Forall (fun i => size (us_pool st) <= i) is /\ Forall2 (parameter_is (sc_symbols (us_module st)) (us_pool st') f) xs is.
Proof.
  induction xs as [|x xs IH]; intros st is st' E S G.
  - injection E as <- <-. split; [apply step_refl|]. split; [exact G|]. split; constructor.
  - cbn [umap] in E. apply bind_done in E as (i & st1 & E1 & E). apply bind_done in E as (js & st2 & E2 & E). injection E as <- <-.
    assert (S1 : safe st1) by exact (back_parameters _ _ _ _ _ _ E2 S).
    destruct (run_parameter _ _ _ _ _ _ E1 S1 G) as (P1 & G1 & L1 & X1). destruct (IH _ _ _ E2 S G1) as (P2 & G2 & L2 & X2).
    split; [exact (step_trans _ _ _ _ P1 P2)|]. split; [exact G2|]. pose proof (proj1 (sg_pool _ _ _ P1)) as L. split.
    + constructor; [exact L1|]. eapply Forall_impl; [|exact L2]. cbv beta. intros; lia.
    + constructor; [exact (parameter_onto _ _ _ _ _ _ _ _ (sg_pool _ _ _ P2) (fun X => X) X1)|]. rewrite <- (sg_syms _ _ _ P1). exact X2.
Qed.
Lemma run_warn (b : bool) e st r st' : (if b then ureport e else uret tt) st = (Done r, st') -> safe st' -> b = false /\ st' = st.
Proof. destruct b; [intros E (_ & S); destruct (report_loud _ _ _ _ E S)|intros [= _ <-]; auto]. Qed.
Lemma run_native x b st r st' : check_native x b st = (Done r, st') -> safe st' -> st' = st.
Proof.
  unfold check_native. cbv zeta. intros E S. apply bind_done in E as (u1 & st1 & E1 & E). apply bind_done in E as (u2 & st2 & E2 & E3).
  apply run_warn in E3 as (_ & ->); [|exact S]. apply run_warn in E2 as (_ & ->); [|exact S]. now apply run_warn in E1 as (_ & ->).
Qed.
Lemma is_void_spec t : is_void t = true <-> t = tn_basic (lit "Void").
Proof.
  unfold is_void, tn_basic. destruct t as [n [a|]]; [split; [discriminate|intros [=]]|]. destruct (str_eqb_spec n (lit "Void")) as [->|N]; [tauto|].
  split; [discriminate|]. intros [= ->]. now destruct N.
Qed.
Lemma run_return o sp st r st' : match o with
    | None => uret None
    | Some t => if is_void t then uret None else do i <- declared_type t sp; uret (Some i)
    end st = (Done r, st') -> safe st' -> good st ->
  step none st st' /\ good st' /\ returns (sc_symbols (us_module st)) (us_pool st') o r.
Proof.
  destruct o as [t|]; [|intros [= <- <-] S G; split; [apply step_refl|]; now split]. destruct (is_void t) eqn:V.
  - intros [= <- <-] S G. split; [apply step_refl|]. split; [exact G|]. cbn [returns]. now apply is_void_spec.
  - intros E S G. apply bind_done in E as (i & st1 & E1 & E). injection E as <- <-. destruct (run_declared _ _ _ _ _ E1 S G) as (P & G' & T).
    split; [exact P|]. split; [exact G'|]. cbn [returns]. split; [|exact T]. intros X. apply is_void_spec in X. congruence.
Qed.
Lemma back_return o sp : back (match o with
    | None => uret None
    | Some t => if is_void t then uret None else do i <- declared_type t sp; uret (Some i)
    end).
Proof. apply back_of; [mono|quiet]. Qed.
Lemma run_ref ev sp st r st' : source_ref_of ev sp st = (Done r, st') -> safe st' -> good st -> step none st st' /\ good st' /\ us_module st' = us_module st /\ line_of ev sp (sr_line r).
Proof.
  intros E S G. unfold source_ref_of in E. apply bind_done in E as (loc & st1 & E1 & E). unfold ulift in E1. injection E1 as EL <-.
  unfold line_of. destruct (files_lookup _ _) as [l|]; [|discriminate]. injection EL as ->.
  destruct loc as [[[f start] e]|]; [|injection E as <- <-; split; [apply step_refl|split; [exact G|now split]]]. unfold define_source_ref in E.
  apply bind_done in E as (known & st1 & E1 & E). injection E1 as <- <-. apply bind_done in E as (file & st2 & E2 & E). injection E as <- <-.
  destruct (am_find _ _) as [i|]; [injection E2 as _ <-; split; [apply step_refl|split; [exact G|now split]]|].
  apply bind_done in E2 as (n & st1 & E1 & E2). injection E1 as _ <-. apply bind_done in E2 as (i & st3 & E3 & E2). apply bind_done in E2 as (u & st4 & E4 & E2).
  injection E4 as _ <-. injection E2 as _ <-. assert (S3 : safe st3) by exact S. destruct (run_def _ _ _ _ E3 S3 G) as (P & G' & M & _).
  split; [eapply step_trans; [exact P|apply step_same; reflexivity]|]. split; [apply (good_same st3); auto|]. split; [exact M|reflexivity].
Qed.

Lemma back_put i d st r st' : change_pool (fun p => put_def p i d) st = (Done r, st') -> safe st' -> safe st.
Proof.
  intros E (F & D). split; [|exact (quiet_pool _ _ _ _ E D)]. unfold change_pool, on_pool in E. destruct (put_def _ _ _) as [p|] eqn:P; [|discriminate].
  injection E as _ <-. exact (grown_fits _ _ (grown_put _ _ _ _ P) F).
Qed.

(** What is known of the body of a function before it is compiled. *)
Definition body_about (syms : amap symbol) (f c : pidx) (src : function_source) (body : list sexpr) (b : function_body) : Prop :=
  fb_index b = f /\ fb_class b = c /\ fb_wrapped b = None /\ fb_code b = body /\ sc_symbols (fb_scope b) = syms /\
  fb_was_callback b = contain QCallback (dc_qualifiers (fs_decl src)) /\ fb_span b = fs_span src.
(** A function without its code. *)
Definition fun_at {ev : env} (syms : amap symbol) (st : ustate) (lo : Z) (f c : pidx) (v : visibility) (base : option pidx) (repl : bool) (src : function_source) : Prop :=
  exists d x, def_at (us_pool st) f = Some d /\ df_value d = DFunction x /\ heading syms (us_pool st) f c v base repl src d x /\ written_at ev src x /\
    fu_code x = [] /\ fu_locals x = [] /\ Forall (fun i => lo <= i) (fu_parameters x) /\
    (forall body, fs_body src = Some body -> exists b, In b (us_bodies st) /\ fb_index b = f) /\
    forall b, In b (us_bodies st) -> fb_index b = f -> exists body, fs_body src = Some body /\ body_about syms f c src body b.
Lemma fun_step {ev} (T : pidx -> Prop) syms st st' lo f c v base repl src : step T st st' -> ~ T f -> (forall i, T i -> i < lo) ->
  fun_at (ev := ev) syms st lo f c v base repl src -> fun_at (ev := ev) syms st' lo f c v base repl src.
Proof.
  intros P N L (d & x & D & V & H & W & C & LO & PA & B1 & B2). exists d, x. pose proof (sg_pool _ _ _ P) as O.
  split; [apply (onto_at _ _ _ _ _ _ O D N); intros k; congruence|]. split; [exact V|]. split.
  { apply (heading_onto _ _ _ _ _ _ _ _ _ _ _ _ _ O); [|exact H]. eapply Forall_impl; [|exact PA]. cbv beta. intros i X Y. apply L in Y. lia. }
  split; [exact W|]. split; [exact C|]. split; [exact LO|]. split; [exact PA|]. destruct (sg_bodies _ _ _ P) as (bs & -> & F). split.
  - intros body X. destruct (B1 _ X) as (b & Ib & Eb). exists b. split; [apply in_or_app; now left|exact Eb].
  - intros b Ib Eb. apply in_app_or in Ib as [Ib|Ib]; [now apply B2|]. rewrite Forall_forall in F. destruct (F _ Ib) as [X|X]; [rewrite Eb in X; contradiction|].
    apply at_bounds in D. lia.
Qed.
Lemma run_function {ev} x st r st' d : define_function x st = (Done r, st') -> safe st' -> good st -> sp_wrapped x = None ->
  def_at (us_pool st) (sp_fun x) = Some d -> no_class d -> (forall b, In b (us_bodies st) -> fb_index b <> sp_fun x) ->
  line_of ev (dc_span (fs_decl (sp_source x))) (sr_line (sp_ref x)) ->
  step (eq (sp_fun x)) st st' /\ good st' /\
  fun_at (ev := ev) (sc_symbols (us_module st)) st' (size (us_pool st)) (sp_fun x) (sp_class x) (sp_visibility x) (sp_base x) (sp_replacement x) (sp_source x).
Proof.
  intros E S G W D NC NB LN. unfold define_function in E. cbv zeta in E. rewrite W in E. cbn [is_some negb] in E. rewrite andb_true_r in E.
  apply bind_done in E as (u1 & st1 & E1 & E). apply bind_done in E as (ret & st2 & E2 & E). apply bind_done in E as (ps & st3 & E3 & E).
  apply bind_done in E as (def & st4 & E4 & E). apply bind_done in E as (u5 & st5 & E5 & E). apply bind_done in E as (u6 & st6 & E6 & E7).
  injection E7 as _ <-. assert (S6 : safe st6) by exact S. pose proof (back_put _ _ _ _ _ E6 S6) as S5.
  assert (S4 : safe st4) by (clear - E5 S5; destruct (fs_body (sp_source x)); injection E5 as _ <-; exact S5).
  injection E4 as E4 <-. assert (S2 : safe st2) by exact (back_parameters _ _ _ _ _ _ E3 S4).
  assert (S1 : safe st1) by exact (back_return _ _ _ _ _ E2 S2).
  apply run_native in E1; [|exact S1]. subst st1.
  destruct (run_return _ _ _ _ _ E2 S2 G) as (P2 & G2 & R2). destruct (run_parameters _ _ _ _ _ _ E3 S4 G2) as (P3 & G3 & L3 & R3).
  set (syms := sc_symbols (us_module st)) in *. rewrite (sg_syms _ _ _ P2) in R3. fold syms in R3.
  assert (P : step none st st3) by exact (step_trans _ _ _ _ P2 P3).
  assert (D3 : def_at (us_pool st3) (sp_fun x) = Some d) by exact (onto_at _ _ _ _ _ _ (sg_pool _ _ _ P) D (fun X => X) NC).
  apply def_done in E4. assert (def = d) by congruence. subst def.
  assert (X5 : us_pool st5 = us_pool st3 /\ us_module st5 = us_module st3 /\ us_defaults st5 = us_defaults st3 /\ us_scope st5 = us_scope st3 /\ us_symbols st5 = us_symbols st3 /\
    us_bodies st5 = us_bodies st3 ++ match fs_body (sp_source x) with None => [] | Some body =>
      [FunctionBody (sp_class x) (sp_fun x) None body (us_module st3) (contain QCallback (dc_qualifiers (fs_decl (sp_source x)))) (fs_span (sp_source x))] end).
  { destruct (fs_body _); injection E5 as _ <-; cbn; rewrite ?app_nil_r; auto 10. }
  destruct X5 as (Q1 & Q2 & Q3 & Q4 & Q5 & Q6). unfold change_pool, on_pool in E6. rewrite Q1 in E6. destruct (put_def (us_pool st3) (sp_fun x) _) as [p6|] eqn:PD; [|discriminate].
  cbn [obind] in E6. injection E6 as _ <-.
  assert (O6 : onto false (eq (sp_fun x)) (us_pool st3) p6) by (apply (onto_put _ _ _ _ _ _ _ PD eq_refl D3); [reflexivity|exact NC]).
  destruct (put_spec _ _ _ _ PD) as (D6 & _ & N6 & Z6). pose proof (proj1 (at_bounds _ _ _ D3)) as B0. pose proof (proj2 (at_bounds _ _ _ D3)) as B1.
  assert (P6 : step (eq (sp_fun x)) st3 (set_refs (us_refs (set_pool p6 st5) ++ [(sp_fun x, sp_low (fs_span (sp_source x)))]) (set_pool p6 st5))).
  { split; cbn; [exact O6| | |now rewrite Q2|auto].
    - eexists. split; [exact Q6|]. destruct (fs_body _); constructor; [now left|constructor].
    - exists []. rewrite app_nil_r. auto. }
  split; [eapply step_trans; [apply step_none; exact P|exact P6]|]. split.
  - destruct G3 as [H1 H2 H3 H4]. split; cbn.
    + unfold names_ok. now rewrite N6.
    + rewrite Q2. exact (types_onto _ _ _ _ _ O6 H2).
    + rewrite Q6, Z6. apply Forall_app. split; [exact H3|]. destruct (fs_body _); constructor; [exact B1|constructor].
    + now rewrite Q3, Z6.
  - eexists _, _. split; [exact D6|]. split; [reflexivity|].
    assert (PN : Forall (fun i => size (us_pool st) <= i) ps) by (eapply Forall_impl; [|exact L3]; cbv beta; intros; pose proof (proj1 (sg_pool _ _ _ P2)); lia).
    split; [|split; [eexists; split; [reflexivity|exact LN]|split; [reflexivity|split; [reflexivity|split; [exact PN|]]]]].
    + split; [reflexivity|]. split; [reflexivity|]. cbn [fu_return_type fu_parameters fu_flags fu_base_method set_pool set_refs us_pool].
      split; [exact (returns_onto _ _ _ _ _ _ _ O6 (returns_onto _ _ _ _ _ _ _ (sg_pool _ _ _ P3) R2))|]. split.
      { rewrite Forall_forall in PN. apply (Forall2_weaken _ _ _ _ R3). intros y i I. apply (parameter_onto _ _ _ _ _ _ _ _ O6).
        intros <-. apply PN in I. apply at_bounds in D. lia. }
      split.
      { assert (NP : is_nil ps = is_nil (fs_parameters (sp_source x))) by (inversion R3; reflexivity). rewrite <- NP. apply function_flags_are. }
      pose proof (function_flags_are (fs_decl (sp_source x)) (contain QStatic (dc_qualifiers (fs_decl (sp_source x))) || (sp_class x =? UNDEFINED))
        (negb (sp_replacement x) && contain QNative (dc_qualifiers (fs_decl (sp_source x)))) (contain QCallback (dc_qualifiers (fs_decl (sp_source x))))
        (is_some ret) (negb (is_nil ps)) fn_is_static (Z.le_refl 0)) as FS. rewrite FS. cbn [existsb fst snd]. change (fn_is_static =? fn_is_static) with true. cbn [andb orb].
      destruct (contain QStatic _ || _); [reflexivity|]. reflexivity.
    + cbn [set_pool set_refs us_bodies]. rewrite Q6. destruct (sg_bodies _ _ _ P) as (bs & BE & BF). rewrite BE. split.
      * intros body HB. rewrite HB. eexists. split; [apply in_or_app; right; now left|reflexivity].
      * intros b Ib Eb. apply in_app_or in Ib as [Ib|Ib].
        -- exfalso. apply in_app_or in Ib as [Ib|Ib]; [exact (NB _ Ib Eb)|]. rewrite Forall_forall in BF. destruct (BF _ Ib) as [[]|X]. apply at_bounds in D. lia.
        -- destruct (fs_body (sp_source x)) as [body|]; [|destruct Ib]. destruct Ib as [<-|[]]. exists body. split; [reflexivity|]. unfold body_about. repeat split; auto. cbn.
           exact (sg_syms _ _ _ P).
Qed.

(** A field without its default value. *)
Lemma field_heading_onto b T syms p q i c v src e x : onto b T p q -> field_heading syms p i c v src e x -> field_heading syms q i c v src e x.
Proof.
  intros O (A & B & C & D & E). split; [exact (onto_name _ _ _ _ _ _ O A)|]. split; [exact B|]. split; [exact C|]. split; [exact (type_onto _ _ _ _ _ _ _ O D)|exact E].
Qed.
Definition field_at (syms : amap symbol) (st : ustate) (i c : pidx) (v : visibility) (src : field_source) : Prop :=
  exists e x, def_at (us_pool st) i = Some e /\ df_value e = DField x /\ field_heading syms (us_pool st) i c v src e x /\ fi_defaults x = [] /\
    (forall w, fd_default src = Some w -> exists b, In b (us_defaults st) /\ ft_index b = i) /\
    forall b, In b (us_defaults st) -> ft_index b = i -> ft_class b = c /\ fd_default src = Some (ft_value b).
Lemma field_step (T : pidx -> Prop) syms st st' i c v src : step T st st' -> ~ T i -> field_at syms st i c v src -> field_at syms st' i c v src.
Proof.
  intros P N (d & x & D & V & H & C & B1 & B2). exists d, x. pose proof (sg_pool _ _ _ P) as O.
  split; [apply (onto_at _ _ _ _ _ _ O D N); intros k; congruence|]. split; [exact V|]. split; [exact (field_heading_onto _ _ _ _ _ _ _ _ _ _ _ O H)|].
  split; [exact C|]. destruct (sg_defaults _ _ _ P) as (bs & -> & F). split.
  - intros w X. destruct (B1 _ X) as (b & Ib & Eb). exists b. split; [apply in_or_app; now left|exact Eb].
  - intros b Ib Eb. apply in_app_or in Ib as [Ib|Ib]; [now apply B2|]. rewrite Forall_forall in F. destruct (F _ Ib) as [X|X]; [rewrite Eb in X; contradiction|].
    apply at_bounds in D. lia.
Qed.
Lemma attributes_are l : forall ks, mapM attribute_of l = Done ks ->
  Forall2 (fun a k => exists s1 s2, an_args a = [EConstant (N := source_ast) (CString LString (pp_name k)) s1; EConstant (CString LString (pp_value k)) s2]) l ks.
Proof.
  induction l as [|a l IH]; intros ks; cbn [mapM]; [intros [= <-]; constructor|]. destruct (attribute_of a) as [k|] eqn:A; [|discriminate]. cbn [obind].
  destruct (mapM attribute_of l) as [ks'|]; [|discriminate]. cbn [obind]. intros [= <-]. constructor; [|now apply IH]. revert A. unfold attribute_of.
  destruct (an_args a) as [|e1 [|e2 [|e3 r]]]; try discriminate.
  - destruct e1; try discriminate. destruct c; try discriminate. destruct l0; discriminate.
  - destruct e1; try discriminate. destruct c; try discriminate. destruct l0; try discriminate. destruct e2; try discriminate. destruct c; try discriminate. destruct l0; try discriminate.
    intros [= <-]. eauto.
  - destruct e1; try discriminate. destruct c; try discriminate. destruct l0; try discriminate. destruct e2; try discriminate. destruct c; try discriminate. destruct l0; discriminate.
Qed.
Lemma run_field i c fl v src st r st' d : define_field i c fl v src st = (Done r, st') -> safe st' -> good st ->
  def_at (us_pool st) i = Some d -> no_class d -> def_name (us_pool st) i = Done (dc_name (fd_decl src)) -> (forall b, In b (us_defaults st) -> ft_index b <> i) ->
  step (eq i) st st' /\ good st' /\ field_at (sc_symbols (us_module st)) st' i c v src.
Proof.
  intros E S G D NC NM NB. unfold define_field in E. cbv zeta in E.
  apply bind_done in E as (u1 & st1 & E1 & E). apply bind_done in E as (u2 & st2 & E2 & E). apply bind_done in E as (t & st3 & E3 & E).
  apply bind_done in E as (attrs & st4 & E4 & E). unfold ulift in E4. injection E4 as E4 <-. apply bind_done in E as (def & st4 & E5 & E). injection E5 as E5 <-.
  apply bind_done in E as (u6 & st6 & E6 & E). apply bind_done in E as (u7 & st7 & E7 & E8).
  injection E8 as _ <-. assert (S7 : safe st7) by exact S. pose proof (back_put _ _ _ _ _ E7 S7) as S6.
  assert (S3 : safe st3) by (clear - E6 S6; destruct (fd_default src); injection E6 as _ <-; exact S6).
  pose proof (back_declared _ _ _ _ _ E3 S3) as S2.
  apply run_warn in E2 as (_ & ->); [|exact S2]. apply run_warn in E1 as (_ & ->); [|exact S2].
  destruct (run_declared _ _ _ _ _ E3 S3 G) as (P & G3 & TY).
  assert (D3 : def_at (us_pool st3) i = Some d) by exact (onto_at _ _ _ _ _ _ (sg_pool _ _ _ P) D (fun X => X) NC).
  apply def_done in E5. assert (def = d) by congruence. subst def.
  assert (X6 : us_pool st6 = us_pool st3 /\ us_module st6 = us_module st3 /\ us_bodies st6 = us_bodies st3 /\ us_scope st6 = us_scope st3 /\ us_symbols st6 = us_symbols st3 /\
    us_defaults st6 = us_defaults st3 ++ match fd_default src with None => [] | Some e => [FieldDefault c i e (us_module st3)] end).
  { destruct (fd_default _); injection E6 as _ <-; cbn; rewrite ?app_nil_r; auto 10. }
  destruct X6 as (Q1 & Q2 & Q3 & Q4 & Q5 & Q6). unfold change_pool, on_pool in E7. rewrite Q1 in E7. destruct (put_def (us_pool st3) i _) as [p7|] eqn:PD; [|discriminate].
  cbn [obind] in E7. injection E7 as _ <-.
  assert (O7 : onto false (eq i) (us_pool st3) p7) by (apply (onto_put _ _ _ _ _ _ _ PD eq_refl D3); [reflexivity|exact NC]).
  destruct (put_spec _ _ _ _ PD) as (D7 & _ & N7 & Z7). pose proof (proj2 (at_bounds _ _ _ D3)) as B1.
  split; [eapply step_trans; [apply step_none; exact P|]|split].
  - split; cbn; [exact O7| | |now rewrite Q2|auto].
    + exists []. rewrite app_nil_r. auto.
    + eexists. split; [exact Q6|]. destruct (fd_default _); constructor; [now left|constructor].
  - destruct G3 as [H1 H2 H3 H4]. split; cbn.
    + unfold names_ok. now rewrite N7.
    + rewrite Q2. exact (types_onto _ _ _ _ _ O7 H2).
    + now rewrite Q3, Z7.
    + rewrite Q6, Z7. apply Forall_app. split; [exact H4|]. destruct (fd_default _); constructor; [exact B1|constructor].
  - eexists _, _. split; [exact D7|]. split; [reflexivity|]. cbn [set_refs set_pool us_pool us_defaults]. split; [|split; [reflexivity|]].
    + split; [exact (onto_name _ _ _ _ _ _ O7 (onto_name _ _ _ _ _ _ (sg_pool _ _ _ P) NM))|]. split; [reflexivity|]. split; [reflexivity|]. cbn [fi_type fi_hint fi_flags fi_attributes].
      split; [exact (type_onto _ _ _ _ _ _ _ O7 TY)|]. split; [reflexivity|]. split; [apply field_flags_are|now apply attributes_are].
    + rewrite Q6. destruct (sg_defaults _ _ _ P) as (bs & BE & BF). rewrite BE. split.
      * intros w HB. rewrite HB. eexists. split; [apply in_or_app; right; now left|reflexivity].
      * intros b Ib Eb. apply in_app_or in Ib as [Ib|Ib].
        -- exfalso. apply in_app_or in Ib as [Ib|Ib]; [exact (NB _ Ib Eb)|]. rewrite Forall_forall in BF. destruct (BF _ Ib) as [[]|X]. apply at_bounds in D. lia.
        -- destruct (fd_default src) as [w|]; [|destruct Ib]. destruct Ib as [<-|[]]. auto.
Qed.

(** Members of a class. *)
Definition new_function {ev : env} (syms : amap symbol) (st : ustate) (lo c : pidx) (v : visibility) (src : function_source) (f : pidx) : Prop :=
  lo <= f /\ fun_at (ev := ev) syms st lo f c v None false src /\ def_name (us_pool st) f = Done (source_signature src).
Definition new_field (syms : amap symbol) (st : ustate) (lo c : pidx) (v : visibility) (src : field_source) (i : pidx) : Prop :=
  lo <= i /\ field_at syms st i c v src.
Lemma new_function_step {ev} (T : pidx -> Prop) syms st st' lo c v src f : step T st st' -> (forall i, T i -> i < lo) -> new_function (ev := ev) syms st lo c v src f -> new_function (ev := ev) syms st' lo c v src f.
Proof.
  intros P L (A & B & C). split; [exact A|]. split; [|exact (onto_name _ _ _ _ _ _ (sg_pool _ _ _ P) C)]. apply (fun_step _ _ _ _ _ _ _ _ _ _ _ P); [|exact L|exact B].
  intros X. apply L in X. lia.
Qed.
Lemma new_field_step (T : pidx -> Prop) syms st st' lo c v src f : step T st st' -> (forall i, T i -> i < lo) -> new_field syms st lo c v src f -> new_field syms st' lo c v src f.
Proof. intros P L (A & B). split; [exact A|]. apply (field_step _ _ _ _ _ _ _ _ P); [|exact B]. intros X. apply L in X. lia. Qed.
Definition new_member {ev : env} (mods : list module_path) (syms : amap symbol) (st : ustate) (lo c : pidx) (v : visibility) (m : member_source) (r : option (pidx + pidx)) : Prop :=
  match m, r with
  | MemberFunction src, Some (inl f) => eval_conditions mods (dc_annotations (fs_decl src)) = Done true /\ new_function (ev := ev) syms st lo c v src f
  | MemberFunction src, None => eval_conditions mods (dc_annotations (fs_decl src)) = Done false
  | MemberField src, Some (inr i) => eval_conditions mods (dc_annotations (fd_decl src)) = Done true /\ new_field syms st lo c v src i
  | MemberField src, None => eval_conditions mods (dc_annotations (fd_decl src)) = Done false
  | _, _ => False
  end.
Lemma fun_lower {ev} syms st lo lo' f c v base repl src : lo' <= lo -> fun_at (ev := ev) syms st lo f c v base repl src -> fun_at (ev := ev) syms st lo' f c v base repl src.
Proof.
  intros L (d & x & A & B & C & W & D & E & F & H). exists d, x. do 6 (split; [assumption|]). split; [|exact H]. eapply Forall_impl; [|exact F]. cbv beta. intros; lia.
Qed.
Lemma back_ref ev sp : back (source_ref_of ev sp).
Proof. apply back_of; [unfold source_ref_of, define_source_ref; mono|apply quiet_ref]. Qed.
Lemma back_function x : back (define_function x).
Proof. apply back_of; [unfold define_function, check_native, define_parameter; cbv zeta; mono|apply quiet_function]. Qed.
Lemma back_field i c fl v src : back (define_field i c fl v src).
Proof. apply back_of; [unfold define_field; cbv zeta; mono|apply quiet_field]. Qed.
Lemma stub_ledger n st i st' : new_stub n st = (Done i, st') -> us_bodies st' = us_bodies st /\ us_defaults st' = us_defaults st.
Proof.
  intros E. apply bind_done in E as (a & st1 & A & B). unfold name_index, new_definition, on_pool in *.
  destruct (add_name _ _). destruct (add_definition _ _). injection A as _ <-. injection B as _ <-. auto.
Qed.
Lemma back_stub n : back (new_stub n).
Proof. apply back_of; [mono|quiet]. Qed.
Lemma run_member ev mods b c fl v m st r st' lo : define_member ev mods b c fl v m st = (Done r, st') -> safe st' -> good st -> lo <= size (us_pool st) ->
  step none st st' /\ good st' /\ new_member (ev := ev) mods (sc_symbols (us_module st)) st' lo c v m r.
Proof.
  intros E S G L. destruct m as [src|src]; cbn [define_member] in E.
  - apply bind_done in E as (here & st1 & E1 & E). unfold ulift in E1. injection E1 as E1 <-. destruct here; [|injection E as <- <-; split; [apply step_refl|]; split; [exact G|exact E1]].
    apply bind_done in E as (u2 & st2 & E2 & E). apply bind_done in E as (f & st3 & E3 & E). apply bind_done in E as (sr & st4 & E4 & E). apply bind_done in E as (u5 & st5 & E5 & E).
    injection E as <- <-. pose proof (back_function _ _ _ _ E5 S) as S4. pose proof (back_ref _ _ _ _ _ E4 S4) as S3. pose proof (back_stub _ _ _ _ E3 S3) as S2.
    apply run_warn in E2 as (_ & ->); [|exact S2].
    destruct (run_stub _ _ _ _ E3 S3 G) as (P3 & G3 & M3 & -> & (k & D3) & N3). destruct (run_ref _ _ _ _ _ E4 S4 G3) as (P4 & G4 & M4 & LN4).
    assert (D4 : def_at (us_pool st4) (size (us_pool st)) = Some (stub k)) by (apply (onto_at _ _ _ _ _ _ (sg_pool _ _ _ P4) D3 (fun X => X)); intros ?; discriminate).
    pose proof (step_trans _ _ _ _ P3 P4) as P34. pose proof (proj1 (sg_pool _ _ _ P34)) as L4.
    destruct (run_function (ev := ev) _ _ _ _ _ E5 S G4 eq_refl D4) as (P5 & G5 & F5); [intros ?; discriminate| |exact LN4|].
    { intros x X Y. cbn [sp_fun] in Y. destruct (sg_bodies _ _ _ P4) as (bs & BE & BF). rewrite BE in X. apply in_app_or in X as [X|X].
      - rewrite (proj1 (stub_ledger _ _ _ _ E3)) in X. pose proof (gd_bodies _ G) as GB. rewrite Forall_forall in GB. apply GB in X. lia.
      - rewrite Forall_forall in BF. destruct (BF _ X) as [[]|Z]. apply at_bounds in D3. lia. }
    cbn [sp_fun sp_class sp_visibility sp_base sp_replacement sp_source] in *.
    split; [eapply step_weaken; [eapply step_trans; [apply step_none; exact P34|exact P5]|]; intros i <-; right; lia|]. split; [exact G5|]. cbn [new_member].
    split; [exact E1|]. split; [exact L|]. split.
    + rewrite M4, M3 in F5. apply (fun_lower _ _ _ _ _ _ _ _ _ _ (Z.le_trans _ _ _ L L4) F5).
    + exact (onto_name _ _ _ _ _ _ (sg_pool _ _ _ P5) (onto_name _ _ _ _ _ _ (sg_pool _ _ _ P4) N3)).
  - apply bind_done in E as (here & st1 & E1 & E). unfold ulift in E1. injection E1 as E1 <-. destruct here; [|injection E as <- <-; split; [apply step_refl|]; split; [exact G|exact E1]].
    apply bind_done in E as (f & st3 & E3 & E). apply bind_done in E as (u5 & st5 & E5 & E). injection E as <- <-.
    pose proof (back_field _ _ _ _ _ _ _ _ E5 S) as S3. destruct (run_stub _ _ _ _ E3 S3 G) as (P3 & G3 & M3 & -> & (k & D3) & N3).
    destruct (run_field _ _ _ _ _ _ _ _ _ E5 S G3 D3) as (P5 & G5 & F5); [intros ?; discriminate|exact N3| |].
    { intros x X Y. rewrite (proj2 (stub_ledger _ _ _ _ E3)) in X. pose proof (gd_defaults _ G) as GB. rewrite Forall_forall in GB. apply GB in X. lia. }
    split; [eapply step_weaken; [eapply step_trans; [apply step_none; exact P3|exact P5]|]; intros i <-; right; lia|]. split; [exact G5|]. cbn [new_member].
    split; [exact E1|]. split; [exact L|]. now rewrite M3 in F5.
Qed.
Lemma new_member_step {ev} (T : pidx -> Prop) mods syms st st' lo c v m r : step T st st' -> (forall i, T i -> i < lo) -> new_member (ev := ev) mods syms st lo c v m r -> new_member (ev := ev) mods syms st' lo c v m r.
Proof.
  intros P L. destruct m, r as [[j|j]|]; cbn [new_member]; auto; intros (A & B); (split; [exact A|]); [apply (new_function_step _ _ _ _ _ _ _ _ _ P L B)|apply (new_field_step _ _ _ _ _ _ _ _ _ P L B)].
Qed.
Lemma back_member ev mods b c fl v m : back (define_member ev mods b c fl v m).
Proof.
  apply back_of; [|apply quiet_member]. unfold define_member. mono; unfold source_ref_of, define_source_ref, define_function, check_native, define_parameter, define_field; cbv zeta; mono.
Qed.
Lemma back_map {A B} (f : A -> U B) l : (forall x, back (f x)) -> back (umap f l).
Proof.
  intros H. induction l as [|x l IH]; intros st a st' E S; [now injection E as _ <-|]. cbn [umap] in E. apply bind_done in E as (y & st1 & E1 & E). apply bind_done in E as (ys & st2 & E2 & E).
  injection E as _ <-. exact (H _ _ _ _ E1 (IH _ _ _ E2 S)).
Qed.
Lemma run_members ev mods b c fl v lo ms : forall st rs st', umap (define_member ev mods b c fl v) ms st = (Done rs, st') -> safe st' -> good st -> lo <= size (us_pool st) ->
  step none st st' /\ good st' /\ Forall2 (new_member (ev := ev) mods (sc_symbols (us_module st)) st' lo c v) ms rs.
Proof.
  induction ms as [|m ms IH]; intros st rs st' E S G L.
  - injection E as <- <-. split; [apply step_refl|]. split; [exact G|constructor].
  - cbn [umap] in E. apply bind_done in E as (i & st1 & E1 & E). apply bind_done in E as (js & st2 & E2 & E). injection E as <- <-.
    pose proof (back_map _ ms (back_member ev mods b c fl v) _ _ _ E2 S) as S1.
    destruct (run_member _ _ _ _ _ _ _ _ _ _ _ E1 S1 G L) as (P1 & G1 & X1). pose proof (proj1 (sg_pool _ _ _ P1)) as L1.
    destruct (IH _ _ _ E2 S G1 (Z.le_trans _ _ _ L L1)) as (P2 & G2 & X2).
    split; [exact (step_trans _ _ _ _ P1 P2)|]. split; [exact G2|]. constructor; [apply (new_member_step _ _ _ _ _ _ _ _ _ _ P2); [intros ? []|exact X1]|].
    rewrite <- (sg_syms _ _ _ P1). exact X2.
Qed.
Lemma members_functions {ev} mods syms st lo c v ms rs : Forall2 (new_member (ev := ev) mods syms st lo c v) ms rs ->
  Forall2 (new_function (ev := ev) syms st lo c v) (enabled_functions mods ms) (functions_of rs) /\ Forall2 (new_field syms st lo c v) (enabled_fields mods ms) (fields_of rs).
Proof.
  unfold enabled_functions, enabled_fields, functions_of, fields_of.
  induction 1 as [|m r ms rs H _ (IH1 & IH2)]; [split; constructor|]. destruct m, r as [[j|j]|]; cbn [new_member] in H; try contradiction; cbn [flat_map].
  all: try (destruct H as (A & B)); try (rewrite A; cbn [app]); try (rewrite H; cbn [app]); split; try constructor; assumption.
Qed.

(** Classes. *)
Definition class_now {ev : env} (mods : list module_path) (syms : amap symbol) (st : ustate) (lo i : pidx) (b : bool) (v : visibility) (src : class_source) : Prop :=
  class_shape mods syms (us_pool st) (new_function (ev := ev) syms st lo i v) (new_field syms st lo i v) i b v src.
Lemma class_step {ev} (T : pidx -> Prop) mods syms st st' lo i b v src : step T st st' -> (forall i, T i -> i < lo) -> class_now (ev := ev) mods syms st lo i b v src -> class_now (ev := ev) mods syms st' lo i b v src.
Proof.
  intros P L (d & k & fields & more & D & PA & V & VI & FL & BA & FU & FI & GI & OV). pose proof (sg_pool _ _ _ P) as (_ & _ & O).
  assert (FU' : Forall2 (new_function (ev := ev) syms st' lo i v) (enabled_functions mods (cs_members src)) (cl_functions k)).
  { eapply Forall2_weaken; [exact FU|]. intros x y _. apply (new_function_step _ _ _ _ _ _ _ _ _ P L). }
  assert (GI' : Forall2 (new_field syms st' lo i v) (enabled_fields mods (cs_members src)) fields).
  { eapply Forall2_weaken; [exact GI|]. intros x y _. apply (new_field_step _ _ _ _ _ _ _ _ _ P L). }
  destruct (O _ _ D) as (d' & D' & _ & [[->|k' fs gs V' -> Z]|(_ & X)]); [| |destruct (X _ V)].
  - exists d, k, fields, more. auto 12.
  - assert (k' = k) by congruence. subst k'. rewrite (Z eq_refl) in D'. eexists _, _, fields, (more ++ gs). split; [exact D'|]. split; [exact PA|]. split; [reflexivity|].
    cbn [with_fields with_functions cl_visibility cl_flags cl_base cl_functions cl_fields cl_overrides]. rewrite app_nil_r. split; [exact VI|]. split; [exact FL|]. split; [exact BA|]. split; [exact FU'|].
    split; [rewrite FI; now rewrite app_assoc|]. auto.
Qed.
Lemma run_base b src st r st' : base_class b src st = (Done r, st') -> safe st' -> st' = st /\
  (if b then r = UNDEFINED
   else match cs_base src with
        | Some n => exists w, am_find (sc_symbols (us_module st)) n = Some (SClass r w)
        | None => (exists w, am_find (sc_symbols (us_module st)) (lit "IScriptable") = Some (SClass r w)) \/
                  r = UNDEFINED /\ forall c w, am_find (sc_symbols (us_module st)) (lit "IScriptable") <> Some (SClass c w)
        end).
Proof.
  unfold base_class. destruct b; [intros [= <- <-]; auto|]. destruct (cs_base src) as [n|].
  - intros E (_ & S). apply bind_done in E as (s & st1 & E1 & E). injection E1 as <- <-. unfold resolve_symbol in E. destruct (am_find _ n) as [[]|] eqn:A;
      try (apply bind_done in E as (u & st2 & E2 & E); injection E as _ <-; destruct (report_loud _ _ _ _ E2 S)). injection E as <- <-. eauto.
  - intros E _. apply bind_done in E as (s & st1 & E1 & E). injection E1 as <- <-. unfold resolve_symbol in E. destruct (am_find _ _) as [[]|] eqn:A;
      injection E as <- <-; (split; [reflexivity|]); try (right; split; [reflexivity|]; intros; congruence). left. eauto.
Qed.
Lemma back_base b src : back (base_class b src).
Proof. apply back_of; unfold base_class; [mono|quiet]. Qed.
Lemma run_class ev mods b c v src st r st' d lo : define_class ev mods b c v src st = (Done r, st') -> safe st' -> good st -> lo <= size (us_pool st) -> c < lo ->
  def_at (us_pool st) c = Some d -> no_class d ->
  step (eq c) st st' /\ good st' /\ class_now (ev := ev) mods (sc_symbols (us_module st)) st' lo c b v src.
Proof.
  intros E S G L CL D NC. unfold define_class in E. cbv zeta in E. apply bind_done in E as (ms & st1 & E1 & E). apply bind_done in E as (base & st2 & E2 & E).
  apply bind_done in E as (def & st3 & E3 & E). injection E3 as E3 <-. apply bind_done in E as (u4 & st4 & E4 & E5). injection E5 as _ <-. assert (S4 : safe st4) by exact S.
  pose proof (back_put _ _ _ _ _ E4 S4) as S2. pose proof (back_base _ _ _ _ _ E2 S2) as S1. apply run_base in E2 as (-> & BA); [|exact S2].
  destruct (run_members _ _ _ _ _ _ _ _ _ _ _ E1 S1 G L) as (P & G1 & M). apply members_functions in M as (M1 & M2).
  rewrite (sg_syms _ _ _ P) in BA. set (syms := sc_symbols (us_module st)) in *.
  assert (D1 : def_at (us_pool st1) c = Some d) by exact (onto_at _ _ _ _ _ _ (sg_pool _ _ _ P) D (fun X => X) NC).
  apply def_done in E3. assert (def = d) by congruence. subst def.
  unfold change_pool, on_pool in E4. destruct (put_def (us_pool st1) c _) as [p7|] eqn:PD; [|discriminate].
  cbn [obind] in E4. injection E4 as _ <-.
  assert (O7 : onto false (eq c) (us_pool st1) p7) by (apply (onto_put _ _ _ _ _ _ _ PD eq_refl D1); [reflexivity|exact NC]).
  destruct (put_spec _ _ _ _ PD) as (D7 & _ & N7 & Z7).
  match goal with |- step _ _ ?x /\ _ => assert (P7 : step (eq c) st1 x) by (split; cbn; [exact O7|exists []; rewrite app_nil_r; auto|exists []; rewrite app_nil_r; auto|reflexivity|auto]) end.
  split; [eapply step_trans; [apply step_none; exact P|exact P7]|]. split.
  - destruct G1 as [H1 H2 H3 H4]. split; cbn; [unfold names_ok; now rewrite N7|exact (types_onto _ _ _ _ _ O7 H2)|now rewrite Z7|now rewrite Z7].
  - eexists _, _, (fields_of ms), []. split; [exact D7|]. split; [reflexivity|]. split; [reflexivity|]. cbn [cl_visibility cl_flags cl_base cl_functions cl_fields cl_overrides].
    split; [reflexivity|]. split; [apply class_flags_are|]. split; [exact BA|]. assert (LT : forall i, c = i -> i < lo) by (intros i <-; exact CL).
    split; [eapply Forall2_weaken; [exact M1|]; intros x y _; apply (new_function_step _ _ _ _ _ _ _ _ _ P7 LT)|]. split; [now rewrite app_nil_r|].
    split; [eapply Forall2_weaken; [exact M2|]; intros x y _; apply (new_field_step _ _ _ _ _ _ _ _ _ P7 LT)|reflexivity].
Qed.

(** Enums. *)
Definition value_is (p : pool) (i : pidx) (m : str * Z) (j : pidx) : Prop :=
  exists c, def_at p j = Some c /\ def_name p j = Done (fst m) /\ df_parent c = i /\ df_value c = DEnumValue (snd m).
Definition enum_now (p : pool) (lo i : pidx) (src : enum_source) : Prop :=
  exists d e, def_at p i = Some d /\ df_parent d = UNDEFINED /\ df_value d = DEnum e /\ en_size e = 4 /\
    Forall2 (value_is p i) (es_members src) (en_members e) /\ Forall (fun j => lo <= j) (en_members e).
Lemma value_onto b (T : pidx -> Prop) p q i m j : onto b T p q -> ~ T j -> value_is p i m j -> value_is q i m j.
Proof.
  intros O N (c & A & B & C & D). exists c. split; [apply (onto_at _ _ _ _ _ _ O A N); intros k; congruence|]. split; [exact (onto_name _ _ _ _ _ _ O B)|auto].
Qed.
Lemma enum_onto b (T : pidx -> Prop) p q lo i src : onto b T p q -> ~ T i -> (forall i, T i -> i < lo) -> enum_now p lo i src -> enum_now q lo i src.
Proof.
  intros O N L (d & e & A & B & C & D & E & F). exists d, e. split; [apply (onto_at _ _ _ _ _ _ O A N); intros k; congruence|]. do 3 (split; [assumption|]). split; [|exact F].
  rewrite Forall_forall in F. apply (Forall2_weaken _ _ _ _ E). intros x y I. apply (value_onto _ _ _ _ _ _ _ O). intros X. apply L in X. apply F in I. lia.
Qed.
Definition define_value (i : pidx) (m : str * Z) : U pidx := do n <- name_index (fst m); new_definition (plain_definition n i (DEnumValue (snd m))).
Lemma back_value i m : back (define_value i m).
Proof. apply back_of; unfold define_value; [mono|quiet]. Qed.
Lemma run_values i ms : forall st rs st', umap (define_value i) ms st = (Done rs, st') -> safe st' -> good st ->
  step none st st' /\ good st' /\ Forall2 (value_is (us_pool st') i) ms rs /\ Forall (fun j => size (us_pool st) <= j) rs.
Proof.
  induction ms as [|m ms IH]; intros st rs st' E S G.
  - injection E as <- <-. split; [apply step_refl|]. split; [exact G|split; constructor].
  - cbn [umap] in E. apply bind_done in E as (j & st1 & E1 & E). apply bind_done in E as (js & st2 & E2 & E). injection E as <- <-.
    pose proof (back_map _ ms (back_value i) _ _ _ E2 S) as S1. apply bind_done in E1 as (n & st0 & E0 & E1). pose proof (back_def _ _ _ _ E1 S1) as S0.
    destruct (run_name _ _ _ _ E0 S0 G) as (P0 & G0 & M0 & X0 & D0). destruct (run_def _ _ _ _ E1 S1 G0) as (P1 & G1 & M1 & -> & D1 & N1).
    destruct (IH _ _ _ E2 S G1) as (P2 & G2 & X2 & L2). pose proof (proj1 (sg_pool _ _ _ P0)). pose proof (proj1 (sg_pool _ _ _ P1)).
    split; [exact (step_trans _ _ _ _ P0 (step_trans _ _ _ _ P1 P2))|]. split; [exact G2|]. split.
    + constructor; [|exact X2]. apply (value_onto _ _ _ _ _ _ _ (sg_pool _ _ _ P2)); [intros []|]. eexists. split; [exact D1|]. split; [|split; reflexivity].
      apply (name_at _ _ _ _ D1). cbn [plain_definition df_name]. now rewrite N1.
    + constructor; [lia|]. eapply Forall_impl; [|exact L2]. cbv beta. intros. lia.
Qed.
Lemma run_enum i src st r st' d lo : define_enum i src st = (Done r, st') -> safe st' -> good st -> lo <= size (us_pool st) -> i < lo ->
  def_at (us_pool st) i = Some d -> no_class d -> step (eq i) st st' /\ good st' /\ enum_now (us_pool st') lo i src.
Proof.
  intros E S G L CL D NC. unfold define_enum in E. apply bind_done in E as (ms & st1 & E1 & E). apply bind_done in E as (def & st3 & E3 & E). injection E3 as E3 <-.
  apply bind_done in E as (u4 & st4 & E4 & E5). injection E5 as _ <-. assert (S4 : safe st4) by exact S. pose proof (back_put _ _ _ _ _ E4 S4) as S1.
  destruct (run_values _ _ _ _ _ E1 S1 G) as (P & G1 & M & ML).
  assert (D1 : def_at (us_pool st1) i = Some d) by exact (onto_at _ _ _ _ _ _ (sg_pool _ _ _ P) D (fun X => X) NC).
  apply def_done in E3. assert (def = d) by congruence. subst def.
  unfold change_pool, on_pool in E4. destruct (put_def (us_pool st1) i _) as [p7|] eqn:PD; [|discriminate].
  cbn [obind] in E4. injection E4 as _ <-.
  assert (O7 : onto false (eq i) (us_pool st1) p7) by (apply (onto_put _ _ _ _ _ _ _ PD eq_refl D1); [reflexivity|exact NC]).
  destruct (put_spec _ _ _ _ PD) as (D7 & _ & N7 & Z7).
  match goal with |- step _ _ ?x /\ _ => assert (P7 : step (eq i) st1 x) by (split; cbn; [exact O7|exists []; rewrite app_nil_r; auto|exists []; rewrite app_nil_r; auto|reflexivity|auto]) end.
  split; [eapply step_trans; [apply step_none; exact P|exact P7]|]. split.
  - destruct G1 as [H1 H2 H3 H4]. split; cbn; [unfold names_ok; now rewrite N7|exact (types_onto _ _ _ _ _ O7 H2)|now rewrite Z7|now rewrite Z7].
  - eexists _, _. split; [exact D7|]. split; [reflexivity|]. split; [reflexivity|]. split; [reflexivity|]. cbn [en_members set_refs set_pool us_pool]. split.
    + rewrite Forall_forall in ML. apply (Forall2_weaken _ _ _ _ M). intros x y I. apply (value_onto _ _ _ _ _ _ _ O7). intros <-. apply ML in I. lia.
    + eapply Forall_impl; [|exact ML]. cbv beta. intros. lia.
Qed.

(** Added fields. *)
Definition let_now (syms : amap symbol) (st : ustate) (i : pidx) (v : visibility) (src : field_source) : Prop :=
  exists a n c w k, In a (dc_annotations (fd_decl src)) /\ an_kind a = AAddField /\ ann_ident a = Done n /\
    am_find syms n = Some (SClass c w) /\ get_class (us_pool st) c = Done k /\ In i (cl_fields k) /\ field_at syms st i c v src.
Lemma let_step (T : pidx -> Prop) syms st st' i v src : step T st st' -> ~ T i -> let_now syms st i v src -> let_now syms st' i v src.
Proof.
  intros P N (a & n & c & w & k & A & B & C & D & E & F & G). destruct (onto_class _ _ _ _ _ _ (sg_pool _ _ _ P) E) as (fs & gs & _ & K).
  exists a, n, c, w. eexists. do 4 (split; [assumption|]). split; [exact K|]. split; [cbn; apply in_or_app; now left|]. exact (field_step _ _ _ _ _ _ _ _ P N G).
Qed.
Lemma back_push_field c i st r st' : change_pool (fun p => push_field p c i) st = (Done r, st') -> safe st' -> safe st.
Proof.
  intros E (F & D). split; [|exact (quiet_pool _ _ _ _ E D)]. unfold change_pool, on_pool in E. destruct (push_field _ _ _) as [p|] eqn:P; [|discriminate].
  injection E as _ <-. exact (grown_fits _ _ (grown_field _ _ _ _ P) F).
Qed.
Lemma run_let i v src st r st' d : define_global_let i v src st = (Done r, st') -> safe st' -> good st ->
  def_at (us_pool st) i = Some d -> no_class d -> def_name (us_pool st) i = Done (dc_name (fd_decl src)) -> (forall b, In b (us_defaults st) -> ft_index b <> i) ->
  step (eq i) st st' /\ good st' /\ let_now (sc_symbols (us_module st)) st' i v src.
Proof.
  intros E S G D NC NM NB. unfold define_global_let in E. destruct (find is_add_field _) as [a|] eqn:FA; [|discriminate]. apply find_some in FA as (FA & FK).
  apply bind_done in E as (n & st1 & E1 & E). unfold ulift in E1. injection E1 as E1 <-. apply bind_done in E as (s & st1 & E2 & E). injection E2 as E2 <-.
  unfold resolve_symbol in E2. destruct (am_find _ n) as [s'|] eqn:A; [|discriminate]. cbn [with_span map_err] in E2. injection E2 as <-.
  destruct s' as [c w| | |]; try discriminate. apply bind_done in E as (known & st1 & E3 & E). injection E3 as E3 <-.
  destruct known; [destruct (diag_loud _ _ _ _ E (fun x => x) (proj2 S))|]. apply bind_done in E as (k & st1 & E4 & E). injection E4 as E4 <-. apply bind_done in E as (u5 & st5 & E5 & E6).
  pose proof (back_push_field _ _ _ _ _ E6 S) as S5. destruct (run_field _ _ _ _ _ _ _ _ _ E5 S5 G D NC NM NB) as (P5 & G5 & F5).
  unfold change_pool, on_pool in E6. destruct (push_field (us_pool st5) c i) as [p7|] eqn:PF; [|discriminate]. cbn [obind] in E6. injection E6 as _ <-.
  pose proof (onto_push_field false (eq i) _ _ _ _ PF) as O7. pose proof (onto_push_field false none _ _ _ _ PF) as O8. destruct (push_field_put _ _ _ _ PF) as (d7 & k7 & D7 & V7 & PD).
  destruct (put_spec _ _ _ _ PD) as (D8 & _ & N8 & Z8). split; [eapply step_trans; [exact P5|now apply step_change]|]. split.
  - apply (good_pool false none _ _ O8); [|exact G5]. unfold names_ok. rewrite N8. exact (gd_names _ G5).
  - exists a, n, c, w. eexists. split; [exact FA|]. split; [unfold is_add_field in FK; destruct (an_kind a); congruence|]. split; [exact E1|]. split; [exact A|].
    split; [apply class_at; eexists; split; [exact D8|reflexivity]|]. split; [cbn; apply in_or_app; right; now left|].
    apply (field_step none _ st5); [now apply step_change|intros []|exact F5].
Qed.

(** Slots. *)
Definition slot_index (s : slot) : pidx := match s with SlotFunction i _ _ _ _ _ _ | SlotClass _ i _ _ | SlotField i _ _ | SlotEnum i _ => i end.
Definition slot_now {ev : env} (mods : list module_path) (syms : amap symbol) (st : ustate) (lo : Z) (s : slot) : Prop :=
  match s with
  | SlotFunction i c base _ repl src v => fun_at (ev := ev) syms st lo i c v base repl src
  | SlotClass b i src v => class_now (ev := ev) mods syms st lo i b v src
  | SlotField i src v => let_now syms st i v src
  | SlotEnum i src => enum_now (us_pool st) lo i src
  end.
Lemma slot_step {ev} (T : pidx -> Prop) mods syms st st' lo s : step T st st' -> ~ T (slot_index s) -> (forall i, T i -> i < lo) -> slot_now (ev := ev) mods syms st lo s -> slot_now (ev := ev) mods syms st' lo s.
Proof.
  intros P N L. destruct s; cbn [slot_now slot_index] in *.
  - now apply (fun_step T).
  - now apply (class_step T).
  - now apply (let_step T).
  - apply (enum_onto _ _ _ _ _ _ _ (sg_pool _ _ _ P)); assumption.
Qed.
Definition pending (st : ustate) (lo : Z) (s : slot) : Prop :=
  slot_index s < lo /\ (exists d, def_at (us_pool st) (slot_index s) = Some d /\ no_class d) /\
  (forall b, In b (us_bodies st) -> fb_index b <> slot_index s) /\ (forall b, In b (us_defaults st) -> ft_index b <> slot_index s) /\
  match s with
  | SlotFunction _ _ _ w _ _ _ => w = None
  | SlotField i src _ => def_name (us_pool st) i = Done (dc_name (fd_decl src))
  | _ => True
  end.
Lemma pending_step (T : pidx -> Prop) st st' lo s : step T st st' -> ~ T (slot_index s) -> pending st lo s -> pending st' lo s.
Proof.
  intros P N (A & (d & B1 & B2) & C & D & E). pose proof (sg_pool _ _ _ P) as O. pose proof (at_bounds _ _ _ B1) as LT. split; [exact A|]. split; [exists d; split; [exact (onto_at _ _ _ _ _ _ O B1 N B2)|exact B2]|].
  split; [|split].
  - destruct (sg_bodies _ _ _ P) as (bs & -> & F). intros b I X. apply in_app_or in I as [I|I]; [exact (C _ I X)|]. rewrite Forall_forall in F.
    destruct (F _ I) as [Y|Y]; [rewrite X in Y; contradiction|lia].
  - destruct (sg_defaults _ _ _ P) as (bs & -> & F). intros b I X. apply in_app_or in I as [I|I]; [exact (D _ I X)|]. rewrite Forall_forall in F.
    destruct (F _ I) as [Y|Y]; [rewrite X in Y; contradiction|lia].
  - destruct s; auto. exact (onto_name _ _ _ _ _ _ O E).
Qed.
Lemma run_slot ev mods seen s st r st' lo : define_slot ev mods seen s st = (Done r, st') -> safe st' -> good st -> lo <= size (us_pool st) -> pending st lo s ->
  step (eq (slot_index s)) st st' /\ good st' /\ slot_now (ev := ev) mods (sc_symbols (us_module st)) st' lo s.
Proof.
  intros E S G L (A & (d & B1 & B2) & C & D & X). destruct s as [i c base wr repl src v|b i src v|i src v|i src]; cbn [define_slot slot_index] in *.
  - subst wr. apply bind_done in E as (u1 & st1 & E1 & E). apply bind_done in E as (fl & st2 & E2 & E). injection E2 as E2 <-. apply bind_done in E as (sr & st3 & E3 & E).
    pose proof (back_function _ _ _ _ E S) as S3. pose proof (back_ref _ _ _ _ _ E3 S3) as S1.
    assert (st1 = st) as -> by (destruct (existsb _ _); [destruct (diag_loud _ _ _ _ E1 (fun x => x) (proj2 S1))|now injection E1 as _ <-]).
    destruct (run_ref _ _ _ _ _ E3 S3 G) as (P3 & G3 & M3 & LN3). pose proof (proj1 (sg_pool _ _ _ P3)) as L3. pose proof (at_bounds _ _ _ B1) as LT.
    destruct (run_function (ev := ev) _ _ _ _ _ E S G3 eq_refl (onto_at _ _ _ _ _ _ (sg_pool _ _ _ P3) B1 (fun X => X) B2) B2) as (P & G' & F).
    { destruct (sg_bodies _ _ _ P3) as (bs & -> & F). intros b I Y. cbn [sp_fun] in Y. apply in_app_or in I as [I|I]; [exact (C _ I Y)|]. rewrite Forall_forall in F.
      destruct (F _ I) as [[]|Z]. lia. }
    { exact LN3. }
    cbn [sp_fun sp_class sp_visibility sp_base sp_replacement sp_source] in *. split; [eapply step_trans; [apply step_none; exact P3|exact P]|]. split; [exact G'|].
    rewrite M3 in F. cbn [slot_now]. eapply fun_lower; [|exact F]. lia.
  - exact (run_class _ _ _ _ _ _ _ _ _ _ _ E S G L A B1 B2).
  - exact (run_let _ _ _ _ _ _ _ E S G B1 B2 X D).
  - exact (run_enum _ _ _ _ _ _ _ E S G L A B1 B2).
Qed.
Lemma back_slot ev mods seen s : back (define_slot ev mods seen s).
Proof.
  apply back_of; [|apply quiet_slot]. destruct s; cbn [define_slot].
  - mono; unfold source_ref_of, define_source_ref, define_function, check_native, define_parameter, define_field; cbv zeta; mono.
  - unfold define_class, define_member, base_class, source_ref_of, define_source_ref, define_function, check_native, define_parameter, define_field. cbv zeta. mono.
  - unfold define_global_let, define_field. cbv zeta. mono.
  - unfold define_enum. mono.
Qed.
Lemma back_slots ev mods l : forall seen, back (define_slots ev mods seen l).
Proof.
  induction l as [|s l IH]; intros seen st a st' E S; cbn [define_slots] in E; [now injection E as _ <-|]. apply bind_done in E as (u & st1 & E1 & E2).
  pose proof (IH _ _ _ _ E2 S) as S1. apply reported_done in E1; [|exact (proj2 S1)]. exact (back_slot _ _ _ _ _ _ _ E1 S1).
Qed.
Lemma run_slots ev mods lo l : forall seen st r st', define_slots ev mods seen l st = (Done r, st') -> safe st' -> good st -> lo <= size (us_pool st) ->
  NoDup (map slot_index l) -> Forall (pending st lo) l ->
  step (fun i => In i (map slot_index l)) st st' /\ good st' /\ Forall (slot_now (ev := ev) mods (sc_symbols (us_module st)) st' lo) l.
Proof.
  induction l as [|s l IH]; intros seen st r st' E S G L ND PE; cbn [define_slots] in E.
  - injection E as <- <-. split; [apply step_refl|]. split; [exact G|constructor].
  - apply bind_done in E as (u & st1 & E1 & E2). pose proof (back_slots _ _ _ _ _ _ _ E2 S) as S1. apply reported_done in E1; [|exact (proj2 S1)].
    inversion PE as [|? ? PS PE']; subst. cbn [map] in ND. inversion ND as [|? ? N1 N2]; subst.
    destruct (run_slot _ _ _ _ _ _ _ _ E1 S1 G L PS) as (P1 & G1 & X1). pose proof (proj1 (sg_pool _ _ _ P1)) as L1.
    destruct (IH _ _ _ _ E2 S G1 (Z.le_trans _ _ _ L L1) N2) as (P2 & G2 & X2).
    { rewrite Forall_forall in *. intros s' I. apply (pending_step _ _ _ _ _ P1); [|auto]. intros X. apply N1. rewrite X. now apply in_map. }
    split; [|split; [exact G2|]].
    + eapply step_trans; [apply (step_weaken _ _ _ _ P1); intros i <-; left; now left|]. apply (step_weaken _ _ _ _ P2). intros i I. left. now right.
    + constructor; [|now rewrite <- (sg_syms _ _ _ P1)]. apply (slot_step _ _ _ _ _ _ _ P2); [exact N1| |exact X1].
      intros i I. apply in_map_iff in I as (s' & <- & I). rewrite Forall_forall in PE'. exact (proj1 (PE' _ I)).
Qed.

(** Imports. *)
Lemma add_visible_types v sc n s : sc_types (add_visible v sc n s) = sc_types sc.
Proof. apply add_visible_rest. Qed.
Lemma import_types order m i sc v : sc_types (fst (populate_import order m i sc v)) = sc_types sc.
Proof.
  destruct i as [p sp|p names sp|p sp]; cbn [populate_import].
  - destruct (with_span _ _) as [s|]; [|reflexivity]. destruct (sym_visible s v) as [s'|] eqn:V; [|reflexivity]. destruct (rev p) as [|n r]; [reflexivity|]. cbn [fst].
    pose proof (add_visible_types v sc n s) as X. unfold add_visible in X. now rewrite V in X.
  - revert sc. induction names as [|n names IH]; intros sc; cbn [add_selected]; [reflexivity|]. destruct (with_span _ _) as [s|]; [|reflexivity]. rewrite IH. apply add_visible_types.
  - destruct (with_span _ _) as [l|]; [|reflexivity]. cbn [fst]. revert sc. induction l as [|x l IH]; intros sc; cbn [fold_left]; [reflexivity|]. rewrite IH. apply add_visible_types.
Qed.
Definition bring (ev : env) (st : ustate) (s : scope) (i : import) (v : visibility) : scope := fst (populate_import (ev_children ev) (us_symbols st) i s v).
Lemma run_import ev i v st r st' : import_into ev i v st = (r, st') -> st' = set_module (bring ev st (us_module st) i v) st.
Proof. unfold import_into, bring. destruct (populate_import _ _ _ _ _). now intros [= _ <-]. Qed.
Definition do_import (ev : env) (mods : list module_path) (i : import * list annotation) : U Datatypes.unit :=
  do here <- ulift (eval_conditions mods (snd i)); if here then reported (import_into ev (fst i) Public) else uret tt.
Lemma quiet_imports ev mods l : quiet (ueach (do_import ev mods) l).
Proof. unfold do_import. quiet. Qed.
Lemma run_imports ev mods l : forall st r st', ueach (do_import ev mods) l st = (Done r, st') -> no_harm (us_diags st') ->
  st' = set_module (fold_left (fun s i => match eval_conditions mods (snd i) with Done true => bring ev st s (fst i) Public | _ => s end) l (us_module st)) st.
Proof.
  induction l as [|i l IH]; intros st r st' E H; cbn [ueach fold_left] in *; [injection E as _ <-; now destruct st|].
  apply bind_done in E as (u & st1 & E1 & E2). apply bind_done in E1 as (here & st0 & E0 & E1). unfold ulift in E0. injection E0 as E0 <-. rewrite E0.
  assert (Q : no_harm (us_diags st1)) by exact (quiet_imports _ _ _ _ _ _ E2 H). destruct here; [|injection E1 as _ <-; exact (IH _ _ _ E2 H)].
  apply reported_done in E1; [|exact Q]. apply run_import in E1. subst st1. exact (IH _ _ _ E2 H).
Qed.
Definition rooted (st : ustate) : Prop := types_named (us_scope st) (us_pool st).
Lemma imported_types ev mods m st : sc_types (imported ev mods m st) = sc_types (us_scope st).
Proof.
  unfold imported. cbv zeta. assert (X : forall l s, sc_types (fold_left (fun s i => match eval_conditions mods (snd i) with Done true => bring ev st s (fst i) Public | _ => s end) l s) = sc_types s).
  { induction l as [|i l IH]; intros s; cbn [fold_left]; [reflexivity|]. rewrite IH. destruct (eval_conditions _ _) as [[]|]; try reflexivity. apply import_types. }
  rewrite X. destruct (is_nil _); [reflexivity|]. apply import_types.
Qed.
Lemma run_module ev mods lo seen m slots st0 st r st' : define_module ev mods seen (m, slots) st = (Done r, st') -> safe st' -> good st -> rooted st ->
  us_scope st = us_scope st0 -> us_symbols st = us_symbols st0 ->
  lo <= size (us_pool st) -> NoDup (map slot_index slots) -> Forall (pending st lo) slots ->
  step (fun i => In i (map slot_index slots)) (set_module (us_module st') st) st' /\ good st' /\ Forall (slot_now (ev := ev) mods (sc_symbols (imported ev mods m st0)) st' lo) slots.
Proof.
  intros E S G R R1 R2 L ND PE. unfold define_module in E. apply bind_done in E as (u1 & st1 & E1 & E). injection E1 as _ <-.
  apply bind_done in E as (u2 & st2 & E2 & E). apply bind_done in E as (u3 & st3 & E3 & E4). pose proof (back_slots _ _ _ _ _ _ _ E4 S) as S3.
  apply run_imports in E3; [|exact (proj2 S3)].
  assert (X2 : st2 = set_module (if is_nil (path_of m) then us_scope st else bring ev st (us_scope st) (IAll (path_of m) span_zero) Private) st).
  { destruct (is_nil _); [now injection E2 as _ <-|]. injection E2 as <- <-. destruct (import_into _ _ _ _) as [x y] eqn:I. apply run_import in I. cbn [snd]. now rewrite I. }
  assert (X3 : st3 = set_module (imported ev mods m st0) st).
  { subst st3 st2. unfold imported. cbv zeta. rewrite <- R1, <- R2. reflexivity. }
  clear E2 E3 X2. subst st3. assert (G3 : good (set_module (imported ev mods m st0) st)).
  { destruct G as [G1 G2 G3 G4]. split; cbn; auto. intros n i F. apply R. rewrite imported_types, <- R1 in F. exact F. }
  destruct (run_slots _ _ _ _ _ _ _ _ E4 S G3 L ND PE) as (P & G' & X). cbn [set_module us_module] in X. split; [|auto].
  destruct P as [A B C D F]. split; auto.
Qed.
Lemma step_over T a b c s : step T a b -> step T (set_module s b) c -> step T (set_module (us_module c) a) c.
Proof.
  intros [A1 (x & A2 & A3) (y & A4 & A5) A6 (A7 & A8)] [B1 (z & B2 & B3) (w & B4 & B5) B6 (B7 & B8)]. cbn in *.
  pose proof (proj1 A1) as L. split; cbn; [exact (onto_trans _ _ _ _ _ A1 B1)| | |reflexivity|split; congruence].
  - exists (x ++ z). rewrite B2, A2, app_assoc. split; [reflexivity|]. apply Forall_app. split; [exact A3|]. eapply Forall_impl; [|exact B3]. cbv beta. intros u [X|X]; [auto|right; lia].
  - exists (y ++ w). rewrite B4, A4, app_assoc. split; [reflexivity|]. apply Forall_app. split; [exact A5|]. eapply Forall_impl; [|exact B5]. cbv beta. intros u [X|X]; [auto|right; lia].
Qed.
Lemma back_module ev mods seen x : back (define_module ev mods seen x).
Proof. apply back_of; [apply mono_module|apply quiet_module]. Qed.
Lemma back_modules ev mods l seen : back (define_modules ev mods seen l).
Proof. apply back_of; [apply mono_modules|apply quiet_modules]. Qed.
Lemma NoDup_app_l {A} (a b : list A) : NoDup (a ++ b) -> NoDup a /\ NoDup b /\ forall x, In x a -> ~ In x b.
Proof.
  induction a as [|x a IH]; cbn [app]; intros H; [split; [constructor|]; split; [exact H|intros ? []]|]. inversion H as [|? ? N H']; subst. destruct (IH H') as (A1 & A2 & A3).
  split; [constructor; [intros X; apply N, in_or_app; now left|exact A1]|]. split; [exact A2|]. intros y [->|I]; [|now apply A3]. intros X. apply N, in_or_app. now right.
Qed.
Lemma run_modules ev mods lo st0 l : forall seen st r st', define_modules ev mods seen l st = (Done r, st') -> safe st' -> good st -> rooted st ->
  us_scope st = us_scope st0 -> us_symbols st = us_symbols st0 -> lo <= size (us_pool st) ->
  NoDup (map slot_index (flat_map snd l)) -> Forall (pending st lo) (flat_map snd l) ->
  step (fun i => In i (map slot_index (flat_map snd l))) (set_module (us_module st') st) st' /\ good st' /\
  forall m slots, In (m, slots) l -> Forall (slot_now (ev := ev) mods (sc_symbols (imported ev mods m st0)) st' lo) slots.
Proof.
  induction l as [|[m slots] l IH]; intros seen st r st' E S G R R1 R2 L ND PE; cbn [define_modules] in E.
  - injection E as <- <-. split; [destruct st; apply step_refl|]. split; [exact G|]. intros m slots [].
  - apply bind_done in E as (seen' & st1 & E1 & E2). pose proof (back_modules _ _ _ _ _ _ _ E2 S) as S1.
    cbn [flat_map snd] in ND, PE. rewrite map_app in ND. apply NoDup_app_l in ND as (N1 & N2 & N3). apply Forall_app in PE as (PE1 & PE2).
    destruct (run_module _ _ _ _ _ _ st0 _ _ _ E1 S1 G R R1 R2 L N1 PE1) as (P1 & G1 & X1).
    pose proof (proj1 (sg_pool _ _ _ P1)) as L1. cbn in L1. destruct (sg_root _ _ _ P1) as (Q1 & Q2). cbn in Q1, Q2.
    assert (RR : rooted st1) by (unfold rooted; rewrite Q1; exact (types_onto _ _ _ _ _ (sg_pool _ _ _ P1) R)).
    destruct (IH _ _ _ _ E2 S G1 RR (eq_trans Q1 R1) (eq_trans Q2 R2) (Z.le_trans _ _ _ L L1) N2) as (P2 & G2 & X2).
    { rewrite Forall_forall in *. intros s I. apply (pending_step _ _ _ _ _ P1); [|exact (PE2 _ I)]. intros X. apply (N3 _ X). now apply in_map. }
    split; [|split; [exact G2|]].
    + cbn [flat_map snd]. rewrite map_app. eapply (step_over _ (set_module (us_module st1) st)); [apply (step_weaken _ _ _ _ P1)|apply (step_weaken _ _ _ _ P2)]; intros i I; left; apply in_or_app; auto.
    + intros m' slots' [[= <- <-]|I]; [|exact (X2 _ _ I)]. rewrite Forall_forall in *. intros s Is.
      apply (slot_step _ _ _ (set_module (us_module st') st1) _ _ _ P2).
      * intros X. apply (N3 (slot_index s)); [now apply in_map|exact X].
      * intros i Ii. apply in_map_iff in Ii as (s' & <- & Ii). exact (proj1 (PE2 _ Ii)).
      * assert (X : forall s0, slot_now (ev := ev) mods (sc_symbols (imported ev mods m st0)) st1 lo s0 -> slot_now (ev := ev) mods (sc_symbols (imported ev mods m st0)) (set_module (us_module st') st1) lo s0)
          by (intros []; exact (fun Y => Y)). apply X, X1, Is.
Qed.
(** No function is defined twice. *)
Lemma slots_seen ev mods l : forall seen st r st', define_slots ev mods seen l st = (Done r, st') -> no_harm (us_diags st') -> r = seen ++ flat_map slot_function l /\ (NoDup seen -> NoDup r).
Proof.
  induction l as [|s l IH]; intros seen st r st' E H; cbn [define_slots flat_map] in *; [injection E as <- <-; now rewrite app_nil_r|].
  apply bind_done in E as (u & st1 & E1 & E2). pose proof (quiet_slots _ _ _ _ _ _ _ E2 H) as Q. apply reported_done in E1; [|exact Q].
  destruct (IH _ _ _ _ E2 H) as (-> & X). split; [now rewrite app_assoc|]. intros N. apply X.
  destruct s; cbn [slot_function]; rewrite ?app_nil_r; auto. cbn [define_slot] in E1. apply bind_done in E1 as (u1 & st2 & E0 & E1).
  destruct (existsb (Z.eqb index) seen) eqn:EX.
  - assert (Q2 : no_harm (us_diags st2)).
    { apply bind_done in E1 as (fl & st3 & E3 & E1). injection E3 as _ <-. apply bind_done in E1 as (sr & st4 & E4 & E1). exact (quiet_ref _ _ _ _ _ E4 (quiet_function _ _ _ _ E1 Q)). }
    destruct (diag_loud _ _ _ _ E0 (fun x => x) Q2).
  - clear - N EX. induction seen as [|y seen IH]; cbn [app]; [constructor; [intros []|constructor]|]. inversion N as [|? ? N1 N2]; subst. cbn [existsb] in EX.
    apply orb_false_elim in EX as (A & B). constructor; [|now apply IH]. intros X. apply in_app_or in X as [X|[->|[]]]; [contradiction|]. now rewrite Z.eqb_refl in A.
Qed.
Lemma modules_seen ev mods l : forall seen st r st', define_modules ev mods seen l st = (Done r, st') -> no_harm (us_diags st') -> NoDup seen -> NoDup (seen ++ flat_map slot_function (flat_map snd l)).
Proof.
  induction l as [|[m slots] l IH]; intros seen st r st' E H N; cbn [define_modules flat_map snd] in *; [now rewrite app_nil_r|].
  apply bind_done in E as (seen' & st1 & E1 & E2). pose proof (quiet_modules _ _ _ _ _ _ _ E2 H) as Q.
  unfold define_module in E1. apply bind_done in E1 as (u1 & st2 & _ & E1). apply bind_done in E1 as (u2 & st3 & _ & E1). apply bind_done in E1 as (u3 & st4 & _ & E1).
  destruct (slots_seen _ _ _ _ _ _ _ E1 Q) as (-> & X). specialize (IH _ _ _ _ E2 H (X N)). now rewrite flat_map_app, app_assoc.
Qed.
