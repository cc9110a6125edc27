(** Rules for declarations: the steps of the compilation unit that enforce them. *)
From Coq Require Import String.
From Coq Require Import ZArith List Bool Lia.
From Verif Require Import Bytes Bytecode Definitions Bundle BundleFacts Ast TypeNames Pool Scope TypeCheck Symbols SourceMap Cursor Assembler
  Desugar Diagnostics Report Printer PoolSpec PoolFacts TypeIndexFacts Wrappers WrapSpec WrapFacts WrapSteps TidyFacts Unit UnitSpec UnitSteps UnitFacts TypeNamesFacts
  P_Report EffectFacts RuleSpec.
Import ListNotations.
Open Scope Z_scope.

(** * Diagnostics are only added *)
Definition before (ds ds' : list diagnostic) : Prop := exists more, ds' = ds ++ more.
Lemma before_refl ds : before ds ds.
Proof. exists []. now rewrite app_nil_r. Qed.
Lemma before_trans a b c : before a b -> before b c -> before a c.
Proof. intros (x & ->) (y & ->). exists (x ++ y). now rewrite app_assoc. Qed.
Lemma before_in a b d : before a b -> In d a -> In d b.
Proof. intros (x & ->) H. apply in_or_app. now left. Qed.
Definition late {A} (m : U A) : Prop := forall st r st', m st = (r, st') -> before (us_diags st) (us_diags st').
Lemma late_ret {A} (a : A) : late (uret a).
Proof. intros st r st' [= <- <-]. apply before_refl. Qed.
Lemma late_fail {A} e : late (@ufail A e).
Proof. intros st r st' [= <- <-]. apply before_refl. Qed.
Lemma late_lift {A} (m : outcome error A) : late (ulift m).
Proof. intros st r st' [= <- <-]. apply before_refl. Qed.
Lemma late_read {A} (f : ustate -> outcome error A) : late (uread f).
Proof. intros st r st' [= <- <-]. apply before_refl. Qed.
Lemma late_get {A} (f : ustate -> A) : late (uget f).
Proof. intros st r st' [= <- <-]. apply before_refl. Qed.
Lemma late_bind {A B} (m : U A) (k : A -> U B) : late m -> (forall a, late (k a)) -> late (ubind m k).
Proof.
  intros M K st r st'. unfold ubind. destruct (m st) as [[a|e] st1] eqn:E.
  - intros E2. exact (before_trans _ _ _ (M _ _ _ E) (K _ _ _ _ E2)).
  - intros [= <- <-]. exact (M _ _ _ E).
Qed.
Lemma late_put f : (forall st, before (us_diags st) (us_diags (f st))) -> late (uput f).
Proof. intros H st r st' [= <- <-]. apply H. Qed.
Lemma late_pool {A} (f : pool -> outcome error (A * pool)) : late (on_pool f).
Proof. intros st r st'. unfold on_pool. destruct (f (us_pool st)) as [[a p]|e]; intros [= <- <-]; apply before_refl. Qed.
Lemma late_map {A B} (f : A -> U B) l : (forall x, late (f x)) -> late (umap f l).
Proof. intros H. induction l as [|x l IH]; [apply late_ret|]. apply late_bind; [apply H|intros y]. apply late_bind; [exact IH|intros ys; apply late_ret]. Qed.
Lemma late_each {A} (f : A -> U Datatypes.unit) l : (forall x, late (f x)) -> late (ueach f l).
Proof. intros H. induction l as [|x l IH]; [apply late_ret|]. apply late_bind; [apply H|intros _; exact IH]. Qed.
Lemma late_diag d : late (push_diagnostic d).
Proof. apply late_put. intros st. now exists [d]. Qed.
Lemma late_report e : late (ureport e).
Proof. apply late_bind; [apply late_lift|intros d; apply late_diag]. Qed.
Lemma late_reported m : late m -> late (reported m).
Proof.
  intros M st r st'. unfold reported. destruct (m st) as [[a|e] st1] eqn:E; [intros [= <- <-]; exact (M _ _ _ E)|].
  intros E2. exact (before_trans _ _ _ (M _ _ _ E) (late_report _ _ _ _ E2)).
Qed.
Lemma late_type t sp : late (type_index t sp).
Proof. intros st r st'. unfold type_index. destruct (with_span sp _) as [[[i s] p]|]; intros [= <- <-]; apply before_refl. Qed.
Lemma late_resolve n sp : late (try_resolve_type n sp).
Proof.
  intros st r st'. unfold try_resolve_type. destruct (with_span sp _) as [t|e]; [intros [= <- <-]; apply before_refl|].
  apply late_bind; [apply late_report|intros _; apply late_ret].
Qed.
Lemma late_import ev i v : late (import_into ev i v).
Proof. intros st r st'. unfold import_into. destruct (populate_import _ _ _ _ _) as [s x]. intros [= <- <-]. apply before_refl. Qed.
Lemma late_snd {A} (m : U A) : late m -> late (fun st => (Done tt, snd (m st))).
Proof. intros H st r st' [= <- <-]. destruct (m st) as [x st1] eqn:E. exact (H _ _ _ E). Qed.
Ltac late := repeat match goal with
  | |- late (uret _) => apply late_ret
  | |- late (ufail _) => apply late_fail
  | |- late (ufailc _ _) => apply late_lift
  | |- late (ulift _) => apply late_lift
  | |- late (uread _) => apply late_read
  | |- late (uget _) => apply late_get
  | |- late (push_diagnostic _) => apply late_diag
  | |- late (ureport _) => apply late_report
  | |- late (reported _) => apply late_reported
  | |- late (name_index _) => apply late_pool
  | |- late (new_definition _) => apply late_pool
  | |- late (type_index _ _) => apply late_type
  | |- late (try_resolve_type _ _) => apply late_resolve
  | |- late (import_into _ _ _) => apply late_import
  | |- late (change_pool _) => apply late_pool
  | |- late (uput _) => apply late_put; intros ?; apply before_refl
  | |- late (umap _ _) => apply late_map; intros ?
  | |- late (ueach _ _) => apply late_each; intros ?
  | |- late (ubind _ _) => apply late_bind; [|intros ?]
  | |- late (if ?x then _ else _) => destruct x
  | |- late (match ?x with _ => _ end) => destruct x
  | |- late (let '_ := ?x in _) => destruct x
  | |- late (push_ref _ _) => unfold push_ref
  | |- late (new_stub _) => unfold new_stub
  | |- late (declared_type _ _) => unfold declared_type
  | H : _ |- _ => apply H
  end.
Lemma late_symbol pm e m : late (define_symbol pm e m).
Proof.
  destruct e; cbn [define_symbol]; unfold place_function; cbv zeta; try (late; fail).
  destruct (find _ _) as [a|]; [|late]. unfold place_annotated. cbv zeta. destruct (an_kind a); late.
Qed.
Lemma late_ref ev sp : late (source_ref_of ev sp).
Proof. unfold source_ref_of, define_source_ref. late. Qed.
Lemma late_function x : late (define_function x).
Proof. unfold define_function, check_native, define_parameter. cbv zeta. late. Qed.
Lemma late_field i c fl v src : late (define_field i c fl v src).
Proof. unfold define_field. cbv zeta. late. Qed.
Lemma late_member ev mods b c fl v m : late (define_member ev mods b c fl v m).
Proof. unfold define_member. late; try apply late_ref; try apply late_function; apply late_field. Qed.
Lemma late_base b src : late (base_class b src).
Proof. unfold base_class. late. Qed.
Lemma late_class ev mods b c v src : late (define_class ev mods b c v src).
Proof. unfold define_class. cbv zeta. late; [apply late_member|apply late_base]. Qed.
Lemma late_enum i src : late (define_enum i src).
Proof. unfold define_enum. late. Qed.
Lemma late_let i v src : late (define_global_let i v src).
Proof. unfold define_global_let. late; apply late_field. Qed.
Lemma late_slot ev mods seen s : late (define_slot ev mods seen s).
Proof. destruct s; cbn [define_slot]; [late; [apply late_ref|apply late_function]|apply late_class|apply late_let|apply late_enum]. Qed.
Lemma late_slots ev mods l : forall seen, late (define_slots ev mods seen l).
Proof. induction l as [|s l IH]; intros seen; cbn [define_slots]; late; apply late_slot. Qed.
Lemma late_entry pm mods m e : late (declare_entry pm mods m e).
Proof.
  unfold declare_entry. late. intros st r st'. destruct (define_symbol pm e m st) as [[s|err] st1] eqn:E.
  - intros [= <- <-]. exact (late_symbol _ _ _ _ _ _ E).
  - intros E2. eapply before_trans; [exact (late_symbol _ _ _ _ _ _ E)|]. revert E2. apply late_bind; [apply late_report|intros _; apply late_ret].
Qed.
Lemma late_declare pm mods m : late (declare_module pm mods m).
Proof. unfold declare_module. late. apply late_entry. Qed.
Lemma late_module ev mods seen x : late (define_module ev mods seen x).
Proof. destruct x as [m slots]. unfold define_module. late; [apply late_snd, late_import|apply late_slots]. Qed.
Lemma late_modules ev mods l : forall seen, late (define_modules ev mods seen l).
Proof. induction l as [|x l IH]; intros seen; cbn [define_modules]; late. apply late_module. Qed.
Lemma late_default ev x : late (compile_default ev x).
Proof.
  unfold compile_default. apply late_bind; [apply late_get|intros p]. do 4 (apply late_bind; [apply late_lift|intros ?]).
  apply late_bind; [late|intros _]. intros st r st' E. apply (check_default_pool ev x) in E as (_ & ds & ->). now exists ds.
Qed.
Lemma late_body ev sg pm x : late (compile_body ev sg pm x).
Proof.
  intros st r st'. unfold compile_body, ubind at 1, uget. destruct (compile_function ev sg pm x (us_pool st)) as [[[f ds] p']|e].
  - apply late_bind; [apply late_put; intros s; now exists ds|intros _]. apply late_bind; [apply late_lift|intros g].
    apply late_bind; [apply late_put; intros s; eexists; reflexivity|intros _; apply late_ret].
  - apply late_bind; [apply late_report|intros _; apply late_ret].
Qed.

(** * No errors *)
Definition mild (ds : list diagnostic) : Prop := forall d, In d ds -> is_fatal d = false.
Lemma mild_before a b : before a b -> mild b -> mild a.
Proof. intros H M d I. exact (M _ (before_in _ _ _ H I)). Qed.
Lemma report_fatal e st r st' : ureport e st = (Done r, st') -> ~ mild (us_diags st').
Proof.
  intros E. apply bind_done in E as (d & st1 & A & B). injection A as A <-. injection B as _ <-. intros M. specialize (M d). cbn [set_diags us_diags] in M.
  assert (F : is_fatal d = true) by (destruct e; cbn in A; try discriminate; injection A as <-; reflexivity).
  rewrite M in F; [discriminate|]. apply in_or_app. right. now left.
Qed.
Lemma reported_mild m st r st' : reported m st = (Done r, st') -> mild (us_diags st') -> m st = (Done r, st').
Proof. unfold reported. destruct (m st) as [[a|e] st1]; [auto|]. intros E H. destruct (report_fatal _ _ _ _ E H). Qed.
(** A check: something is reported if [b]. *)
Lemma check_passes (b : bool) e st r st' : (if b then ureport e else uret tt) st = (Done r, st') -> mild (us_diags st') -> b = false /\ st' = st.
Proof. destruct b; intros E M; [destruct (report_fatal _ _ _ _ E M)|]. injection E as _ <-. auto. Qed.

(** * What the definitions check *)
Lemma contain_in q l : contain q l = true <-> In q l.
Proof.
  unfold contain. rewrite existsb_exists. split; [intros (x & I & E)|intros I; exists q; split; [exact I|now destruct q]].
  assert (x = q) by (destruct q, x; cbn in E; congruence). now subst.
Qed.
Lemma stored_spec t : can_be_persistent t = true -> forall n, In n not_stored -> ~ mentions n t.
Proof.
  intros H n I M. induction M as [|m args t It M IH].
  - cbn [can_be_persistent] in H. destruct (existsb (str_eqb n) _) eqn:E; [discriminate|].
    assert (X : existsb (str_eqb n) not_stored = true) by (apply existsb_exists; exists n; split; [exact I|now destruct (str_eqb_spec n n)]). unfold not_stored in X. congruence.
  - cbn [can_be_persistent] in H. rewrite forallb_forall in H. exact (IH (H _ It)).
Qed.
Definition owner_of (o : option Z) : option owner := match o with None => None | Some f => Some (Owner (get_flag cf_is_native f) (get_flag cf_is_abstract f)) end.
Lemma function_rules x st r st' : define_function x st = (Done r, st') -> mild (us_diags st') ->
  lawful_function (owner_of (sp_class_flags x)) (negb (sp_replacement x) && contain QNative (dc_qualifiers (fs_decl (sp_source x)))) (sp_source x).
Proof.
  intros E M. unfold define_function in E. cbv zeta in E. apply bind_done in E as (u & st1 & E1 & E).
  assert (M1 : mild (us_diags st1)).
  { eapply mild_before; [|exact M]. match type of E with ?k st1 = _ => assert (L : late k) by (unfold define_parameter; late) end. exact (L _ _ _ E). }
  clear E. unfold check_native in E1. cbv zeta in E1. apply bind_done in E1 as (u1 & s1 & A & E1). apply bind_done in E1 as (u2 & s2 & B & C).
  destruct (check_passes _ _ _ _ _ C M1) as (C0 & ->). destruct (check_passes _ _ _ _ _ B M1) as (B0 & ->). destruct (check_passes _ _ _ _ _ A M1) as (A0 & _).
  set (native := negb _ && _) in *. clearbody native. unfold lawful_function, owner_of. split.
  - intros ->. cbn [andb negb] in *. split.
    + destruct (fs_body (sp_source x)); [discriminate|reflexivity].
    + intros c. destruct (sp_class_flags x) as [f|]; [|discriminate]. intros H. apply (f_equal (fun o => match o with Some k => ow_native k | None => true end)) in H. rewrite <- H. cbn [ow_native].
      destruct (get_flag cf_is_native f); [reflexivity|discriminate].
  - intros -> NB. rewrite NB in B0. cbn [andb negb is_some] in B0. destruct (sp_class_flags x) as [f|]; [|discriminate]. eexists. split; [reflexivity|]. cbn [ow_abstract].
    destruct (get_flag cf_is_abstract f); [reflexivity|discriminate].
Qed.
Lemma attributes_spec l : forall ks, mapM attribute_of l = Done ks -> forall a, In a l -> exists k v s1 s2,
  an_args a = [EConstant (N := source_ast) (CString LString k) s1; EConstant (CString LString v) s2].
Proof.
  induction l as [|b l IH]; intros ks E a I; [destruct I|]. cbn [mapM] in E. destruct (attribute_of b) as [k|] eqn:B; [|discriminate]. cbn [obind] in E.
  destruct (mapM attribute_of l) as [ks'|] eqn:L; [|discriminate]. destruct I as [<-|I]; [|exact (IH _ eq_refl _ I)]. clear - B. unfold attribute_of in B.
  repeat match type of B with context [match ?x with _ => _ end] => destruct x; try discriminate end. repeat eexists.
Qed.
Lemma field_rules i c fl v src st r st' : define_field i c fl v src st = (Done r, st') -> mild (us_diags st') -> lawful_field (get_flag cf_is_native fl) src.
Proof.
  intros E M. unfold define_field in E. cbv zeta in E. apply bind_done in E as (u1 & st1 & A & E). apply bind_done in E as (u2 & st2 & B & E).
  assert (M2 : mild (us_diags st2)).
  { eapply mild_before; [|exact M]. match type of E with ?k st2 = _ => assert (L : late k) by late end. exact (L _ _ _ E). }
  destruct (check_passes _ _ _ _ _ B M2) as (B0 & ->). destruct (check_passes _ _ _ _ _ A M2) as (A0 & ->).
  apply bind_done in E as (t & st3 & _ & E). apply bind_done in E as (ks & st4 & K & E). injection K as K <-. clear E. split; [|split].
  - intros I. apply contain_in in I. rewrite I in A0. cbn [andb] in A0. destruct (get_flag cf_is_native fl); [reflexivity|discriminate].
  - intros I. apply contain_in in I. rewrite I in B0. cbn [andb] in B0. apply stored_spec. destruct (can_be_persistent _); [reflexivity|discriminate].
  - intros a I KA. apply (attributes_spec _ _ K). apply filter_In. split; [exact I|]. unfold is_property. now rewrite KA.
Qed.
Lemma flag_native b qs : get_flag cf_is_native (class_flags_of b qs) = contain QImportOnly qs || contain QNative qs.
Proof. unfold class_flags_of. destruct b, (contain QImportOnly qs), (contain QNative qs), (contain QFinal qs), (contain QAbstract qs); reflexivity. Qed.
Lemma flag_abstract b qs : get_flag cf_is_abstract (class_flags_of b qs) = negb b && contain QAbstract qs.
Proof. unfold class_flags_of. destruct b, (contain QImportOnly qs), (contain QNative qs), (contain QFinal qs), (contain QAbstract qs); reflexivity. Qed.
Lemma member_rules ev mods b c qs v m st r st' : define_member ev mods b c (class_flags_of b qs) v m st = (Done r, st') -> mild (us_diags st') ->
  let o := Owner (contain QImportOnly qs || contain QNative qs) (negb b && contain QAbstract qs) in
    match m with
    | MemberFunction f => eval_conditions mods (dc_annotations (fs_decl f)) = Done true ->
        (b = true -> In QStatic (dc_qualifiers (fs_decl f))) /\ lawful_function (Some o) (contain QNative (dc_qualifiers (fs_decl f))) f
    | MemberField f => eval_conditions mods (dc_annotations (fd_decl f)) = Done true -> lawful_field (ow_native o) f
    end.
Proof.
  intros E M o. destruct m as [src|src]; cbn [define_member] in E; intros T; rewrite T in E; apply bind_done in E as (h & s & X & E); injection X as <- <-.
  - apply bind_done in E as (u & st1 & A & E). apply bind_done in E as (f & st2 & B & E). apply bind_done in E as (rf & st3 & C & E). apply bind_done in E as (u4 & st4 & D & E). injection E as _ <-.
    pose proof (function_rules _ _ _ _ D M) as L. cbn [sp_class_flags sp_replacement sp_source negb andb owner_of] in L. rewrite flag_native, flag_abstract in L. split; [|exact L].
    assert (M1 : mild (us_diags st1)).
    { eapply mild_before; [|exact M]. eapply before_trans; [|exact (late_function _ _ _ _ D)]. eapply before_trans; [|exact (late_ref _ _ _ _ _ C)].
      assert (X : late (new_stub (source_signature src))) by late. exact (X _ _ _ B). }
    destruct (check_passes _ _ _ _ _ A M1) as (A0 & _). intros ->. cbn [andb] in A0. apply contain_in. destruct (contain QStatic _); [reflexivity|discriminate].
  - apply bind_done in E as (i & st1 & A & E). apply bind_done in E as (u4 & st4 & D & E). injection E as _ <-. pose proof (field_rules _ _ _ _ _ _ _ _ D M) as L. now rewrite flag_native in L.
Qed.
Lemma class_rules ev mods b c v src st r st' : define_class ev mods b c v src st = (Done r, st') -> mild (us_diags st') -> lawful_members mods b src.
Proof.
  intros E M. unfold define_class in E. cbv zeta in E. apply bind_done in E as (ms & st1 & A & E).
  assert (M1 : mild (us_diags st1)).
  { eapply mild_before; [|exact M]. match type of E with ?k st1 = _ => assert (L : late k) by (late; apply late_base) end. exact (L _ _ _ E). }
  clear E M. unfold lawful_members. cbv zeta. set (qs := dc_qualifiers (cs_decl src)) in *. clearbody qs. revert st ms A. generalize (cs_members src) as l. induction l as [|m l IH]; intros st ms A x I; [destruct I|].
  cbn [umap] in A. apply bind_done in A as (y & s1 & A1 & A). apply bind_done in A as (ys & s2 & A2 & A). injection A as _ ->. destruct I as [<-|I].
  - refine (member_rules _ _ _ _ _ _ _ _ _ _ A1 _). eapply mild_before; [|exact M1]. assert (X : late (umap (define_member ev mods b c (class_flags_of b qs) v) l)) by (apply late_map; intros; apply late_member).
    exact (X _ _ _ A2).
  - exact (IH _ _ A2 _ I).
Qed.

(** * The entries one by one *)
Inductive trace : list (module_path * source_entry) -> list slot -> ustate -> ustate -> Prop :=
| trace_nil st : trace [] [] st st
| trace_cons m e s es ss st st1 st2 : define_symbol false e m st = (Done s, st1) -> trace es ss st1 st2 -> trace ((m, e) :: es) (s :: ss) st st2.
Lemma trace_app es ss st st1 : trace es ss st st1 -> forall es' ss' st2, trace es' ss' st1 st2 -> trace (es ++ es') (ss ++ ss') st st2.
Proof. induction 1; intros; cbn [app]; [assumption|]. econstructor; eauto. Qed.
Lemma trace_split a : forall b ss st st', trace (a ++ b) ss st st' -> exists s1 s2 st1, ss = s1 ++ s2 /\ length s1 = length a /\ trace a s1 st st1 /\ trace b s2 st1 st'.
Proof.
  induction a as [|x a IH]; intros b ss st st' T.
  - exists [], ss, st. repeat split; [constructor|exact T].
  - cbn [app] in T. inversion T as [|m e s es ss' st0 st1 st2 D R]; subst. destruct (IH _ _ _ _ R) as (s1 & s2 & q & -> & L & A & B). exists (s :: s1), s2, q. repeat split; [cbn [length]; now f_equal| |exact B]. econstructor; eauto.
Qed.
Lemma trace_before es ss st st' : trace es ss st st' -> before (us_diags st) (us_diags st').
Proof. induction 1; [apply before_refl|]. eapply before_trans; [exact (late_symbol _ _ _ _ _ _ H)|assumption]. Qed.
Lemma trace_grown es ss st st' : trace es ss st st' -> grown (us_pool st) (us_pool st').
Proof. induction 1; [apply grown_refl|]. eapply grown_trans; [exact (mono_symbol _ _ _ _ _ _ H)|assumption]. Qed.
Lemma entry_mild mods m e st r st' : declare_entry false mods m e st = (Done r, st') -> mild (us_diags st') ->
  eval_conditions mods (dc_annotations (entry_decl e)) = Done false /\ r = [] /\ st' = st \/
  exists s, eval_conditions mods (dc_annotations (entry_decl e)) = Done true /\ define_symbol false e m st = (Done s, st') /\ r = [s].
Proof.
  intros E H. apply bind_done in E as (here & st1 & E1 & E). unfold ulift in E1. injection E1 as E1 <-. destruct here; [|injection E as <- <-; auto].
  right. destruct (define_symbol false e m st) as [[s|err] st1] eqn:D; [injection E as <- <-; eauto|].
  apply bind_done in E as (u & st2 & E2 & E). injection E as <- <-. destruct (report_fatal _ _ _ _ E2 H).
Qed.
Lemma trace_entries mods m es : forall st rs st', umap (declare_entry false mods m) es st = (Done rs, st') -> mild (us_diags st') ->
  trace (flat_map (fun e => match eval_conditions mods (dc_annotations (entry_decl e)) with Done true => [(m, e)] | _ => [] end) es) (concat rs) st st'.
Proof.
  induction es as [|e es IH]; intros st rs st' E M; cbn [umap flat_map] in *; [injection E as <- <-; constructor|].
  apply bind_done in E as (r & st1 & E1 & E). apply bind_done in E as (rs' & st2 & E2 & E). injection E as <- <-.
  assert (M1 : mild (us_diags st1)) by (eapply mild_before; [|exact M]; exact (late_map _ es (late_entry false mods m) _ _ _ E2)).
  cbn [concat]. destruct (entry_mild _ _ _ _ _ _ E1 M1) as [(F & -> & ->)|(s & T & D & ->)].
  - rewrite F. exact (IH _ _ _ E2 M).
  - rewrite T. cbn [app]. econstructor; [exact D|exact (IH _ _ _ E2 M)].
Qed.
Lemma trace_modules l q st st' mods : umap (declare_module false mods) l st = (Done q, st') -> mild (us_diags st') ->
  trace (flat_map (fun m => flat_map (fun e => match eval_conditions mods (dc_annotations (entry_decl e)) with Done true => [(path_of m, e)] | _ => [] end) (sm_entries m)) l)
    (flat_map snd q) st st'.
Proof.
  revert q st st'. induction l as [|m l IH]; intros q st st' E M; cbn [umap flat_map] in *; [injection E as <- <-; constructor|].
  apply bind_done in E as (r & st1 & E1 & E). apply bind_done in E as (rs' & st2 & E2 & E). injection E as <- <-.
  assert (M1 : mild (us_diags st1)) by (eapply mild_before; [|exact M]; exact (late_map _ l (late_declare false mods) _ _ _ E2)).
  unfold declare_module in E1. apply bind_done in E1 as (slots & st0 & E0 & E1). injection E1 as <- <-. cbn [flat_map snd].
  eapply trace_app; [exact (trace_entries _ _ _ _ _ _ E0 M1)|exact (IH _ _ _ E2 M)].
Qed.
Lemma enabled_declares l m e : In (m, e) (enabled_entries l) -> declares l e.
Proof.
  intros H. apply in_flat_map in H as (x & Ix & H). apply in_flat_map in H as (y & Iy & H).
  destruct (eval_conditions _ _) as [[]|] eqn:E; [|destruct H|destruct H]. destruct H as [[= _ <-]|[]]. exists x. auto.
Qed.
Lemma declares_enabled l e : declares l e -> exists m, In (m, e) (enabled_entries l).
Proof.
  intros (x & Ix & Iy & E). exists (path_of x). apply in_flat_map. exists x. split; [exact Ix|]. apply in_flat_map. exists e. split; [exact Iy|]. rewrite E. now left.
Qed.

(** * The first pass *)
Lemma stub_spec n st i st' : new_stub n st = (Done i, st') -> names_ok (us_pool st) -> fits (us_pool st') ->
  extends (us_pool st) (us_pool st') /\ names_ok (us_pool st') /\ def_name (us_pool st') i = Done n /\ i = size (us_pool st) /\ us_diags st' = us_diags st.
Proof.
  intros E NO F. apply bind_done in E as (k & st1 & E1 & E2). unfold name_index, new_definition, on_pool in *. destruct (add_name (us_pool st) n) as [p1 j] eqn:A.
  injection E1 as -> <-. cbn [set_pool us_pool] in *. destruct (add_definition p1 (stub k)) as [p2 i'] eqn:B. injection E2 as <- <-. cbn [set_pool us_pool us_diags] in *.
  assert (F1 : fits p1) by (apply (fun x => grown_fits _ _ x F); exact (grown_extends _ _ (extends_add_definition _ _ _ _ B))).
  destruct (add_text _ _ _ _ A NO F1) as (N & X). destruct (add_def_spec _ _ _ _ B F) as (-> & D & _ & N2 & _).
  split; [exact (extends_trans _ _ _ (add_name_extends _ _ _ _ A) (extends_add_definition _ _ _ _ B))|]. split; [unfold names_ok; rewrite N2; exact N|].
  split; [apply (name_at _ _ _ _ D); cbn [stub df_name]; now rewrite N2|]. split; [|reflexivity]. unfold size. now rewrite (add_name_defs _ _ _ _ A).
Qed.
Section Pass.
Variable l : list source_module.
Variable p0 : pool.
Hypothesis PR : proper p0.

Definition all_named (p : pool) : Prop := forall c f, member p c f -> exists n, def_name p f = Done n.
Record ready (st : ustate) : Prop := Ready { rd_inv : inv l p0 true st; rd_names : names_ok (us_pool st); rd_members : all_named (us_pool st) }.
Lemma named_onto b T p q : onto b T p q -> (forall c f, member q c f -> member p c f \/ exists n, def_name q f = Done n) -> all_named p -> all_named q.
Proof. intros O H M c f X. destruct (H _ _ X) as [Y|Y]; [|exact Y]. destruct (M _ _ Y) as (n & N). exists n. exact (onto_name _ _ _ _ _ _ O N). Qed.
Lemma stub_calm' n st i st' : new_stub n st = (Done i, st') -> calm (us_pool st) (us_pool st').
Proof.
  intros E. apply bind_done in E as (a & st1 & A & B). unfold name_index, new_definition, on_pool in *. destruct (add_name (us_pool st) n) as [p1 k] eqn:E1.
  destruct (add_definition _ _) as [p2 j] eqn:E2. injection A as <- <-. injection B as _ <-. cbn [set_pool us_pool] in *.
  eapply calm_trans; [exact (calm_name _ _ _ _ E1)|]. apply (calm_def _ _ _ _ E2). split; intros ?; discriminate.
Qed.
Lemma calm_members p q c f : calm p q -> member q c f -> member p c f.
Proof.
  intros (_ & C) (k & K & I). exists k. split; [|exact I]. apply class_at in K as (d & D & V). apply class_at. destruct (C _ _ D) as [X|(X & _)]; [eauto|destruct (X _ V)].
Qed.
(** A step that only makes a stub. *)
Lemma ready_stub n st i st1 st' : ready st -> new_stub n st = (Done i, st1) -> us_pool st' = us_pool st1 -> fits (us_pool st') -> inv l p0 true st' ->
  ready st' /\ onto true none (us_pool st) (us_pool st').
Proof.
  intros [A B C] E Q F I. rewrite Q in F. destruct (stub_spec _ _ _ _ E B F) as (X & N & _). pose proof (onto_extends true none _ _ X) as O. rewrite <- Q in *. split; [|exact O].
  split; [exact I|exact N|]. apply (named_onto _ _ _ _ O); [|exact C]. intros c f M. left. rewrite Q in M. exact (calm_members _ _ _ _ (stub_calm' _ _ _ _ E) M).
Qed.
(** What a declaration gets. *)
Definition bundle_class (a : annotation) (c : pidx) : Prop := exists k, concerns p0 a c k.
Lemma class_back st c k n : inv l p0 true st -> get_class (us_pool st) c = Done k -> fresh p0 c \/ goes_by p0 c n -> goes_by p0 c n /\ exists k0 fs gs, get_class p0 c = Done k0 /\
  k = with_fields (with_functions k0 (cl_functions k0 ++ fs)) (cl_fields k0 ++ gs).
Proof.
  intros I K G. assert (NF : ~ fresh p0 c) by (intros F; exact (bare_class _ _ _ _ (iv_first _ _ _ _ I eq_refl) F K)). split; [destruct G; [contradiction|assumption]|].
  destruct (stays_class _ _ _ _ _ (iv_stays _ _ _ _ I) K) as [F|(d & k0 & fs & gs & D & V & _ & -> & _)]; [contradiction|]. exists k0, fs, gs. split; [apply class_at; eauto|reflexivity].
Qed.


Lemma functions_in p n l0 : forall fs, functions_named p n l0 = Done fs -> forall f m, In f l0 -> def_name p f = Done m -> sig_name m = n -> In f fs.
Proof.
  induction l0 as [|i l0 IH]; intros fs E f m I N S; [destruct I|]. cbn [functions_named] in E. destruct (def_name p i) as [x|] eqn:X; [|discriminate]. cbn [pc map_err obind] in E.
  destruct (functions_named p n l0) as [r|]; [|discriminate]. cbn [obind] in E. injection E as <-. destruct I as [->|I].
  - assert (x = m) by congruence. subst x. rewrite S. destruct (str_eqb_spec n n); [now left|congruence].
  - pose proof (IH _ eq_refl _ _ I N S) as H. destruct (str_eqb _ n); [now right|exact H].
Qed.
Lemma functions_total p n l0 : (forall f, In f l0 -> exists m, def_name p f = Done m) -> exists fs, functions_named p n l0 = Done fs.
Proof.
  induction l0 as [|i l0 IH]; intros H; [now exists []|]. cbn [functions_named]. destruct (H i (or_introl eq_refl)) as (m & ->). cbn [pc map_err obind].
  destruct IH as (fs & ->); [intros f I; apply H; now right|]. cbn [obind]. eauto.
Qed.
Lemma clash_seen p name sig c f : all_named p -> member p c f -> def_name p f = Done sig -> sig_name sig = name ->
  match resolve_direct_method p name c with Done fs => is_some (by_id fs sig p) | Fail _ => false end = true.
Proof.
  intros MN (k & K & I) N S. unfold resolve_direct_method. rewrite K. cbn [pc map_err obind].
  destruct (functions_total p name (cl_functions k)) as (fs & E); [intros g Ig; apply (MN c g); exists k; auto|]. rewrite E. cbn [obind].
  pose proof (functions_in _ _ _ _ E _ _ I N S) as If. destruct fs as [|x fs]; [destruct If|]. unfold by_id.
  destruct (find _ _) eqn:FD; [reflexivity|]. apply (fun h => List.find_none _ _ h f If) in FD. cbv beta in FD. rewrite N in FD. destruct (str_eqb_spec sig sig); congruence.
Qed.
Definition placing (e : source_entry) (s : slot) (st st' : ustate) : Prop :=
  match e with
  | EntryClass b src => exists i v, s = SlotClass b i src v
  | EntryEnum src => exists i, s = SlotEnum i src
  | EntryLet src => exists i v, s = SlotField i src v
  | EntryFunction src =>
    match find places (dc_annotations (fs_decl src)) with
    | None => exists f v, s = SlotFunction f UNDEFINED None None false src v
    | Some a =>
      match an_kind a with
      | AReplaceGlobal => exists f v, s = SlotFunction f UNDEFINED None None true src v
      | AReplaceMethod => exists f c b v, s = SlotFunction f c b None true src v /\ bundle_class a c /\ exists fs,
          resolve_direct_method (us_pool st) (dc_name (fs_decl src)) c = Done fs /\ by_id fs (source_signature src) (us_pool st) = Some f
      | AWrapMethod => exists f c b w v, s = SlotFunction f c b w true src v /\ bundle_class a c /\ contain QNative (dc_qualifiers (fs_decl src)) = false
      | AAddMethod => exists f c b v, s = SlotFunction f c b None false src v /\ bundle_class a c /\ member (us_pool st') c f /\ def_name (us_pool st') f = Done (source_signature src) /\
          (~ In x3b (dc_name (fs_decl src)) -> forall g, member (us_pool st) c g -> def_name (us_pool st) g = Done (source_signature src) -> In (AddMethodConflict (an_span a)) (us_diags st'))
      | _ => False
      end
    end
  end.
Lemma annotated_class st a c : inv l p0 true st -> ann_class a st = Done c -> exists n, ann_ident a = Done n /\ (fresh p0 c \/ goes_by p0 c n).
Proof.
  intros H. unfold ann_class. destruct (ann_ident a) as [n|]; [|discriminate]. cbn [obind]. unfold resolve_symbol.
  destruct (am_find (sc_symbols (us_scope st)) n) as [s|] eqn:G; [|discriminate]. cbn [with_span map_err obind]. apply (iv_root _ _ _ _ H) in G.
  intros X. exists n. split; [reflexivity|]. destruct s; try discriminate; injection X as <-; (destruct G as [(G & _)|G]; [now left|right; exact G]).
Qed.
Lemma is_class a c st k : inv l p0 true st -> ann_class a st = Done c -> get_class (us_pool st) c = Done k -> bundle_class a c.
Proof.
  intros I A K. destruct (annotated_class _ _ _ I A) as (n & AN & G). destruct (class_back _ _ _ _ I K G) as (Gn & k0 & _ & _ & K0 & _). exists k0, n. auto.
Qed.
Lemma source_name src : ~ In x3b (dc_name (fs_decl src)) -> sig_name (source_signature src) = dc_name (fs_decl src).
Proof. intros H. unfold source_signature. now apply sig_name_lemma. Qed.
Lemma symbol_ready e m st s st' : declares l e -> ready st -> define_symbol false e m st = (Done s, st') -> fits (us_pool st') ->
  ready st' /\ onto true none (us_pool st) (us_pool st') /\ placing e s st st'.
Proof.
  intros DE RD E F. destruct (holds_symbol l p0 PR false e m DE _ _ _ E F (rd_inv _ RD)) as (I' & _). destruct e as [b src|src|src|src]; cbn [define_symbol placing] in *; cbv zeta in E.
  - apply bind_done in E as (known & st0 & E0 & E). injection E0 as _ <-. apply bind_done in E as (u0 & st0 & E0 & E).
    assert (st0 = st) as -> by (destruct (_ && _); [discriminate|now injection E0 as _ <-]). clear E0.
    apply bind_done in E as (i & st1 & E1 & E). apply bind_done in E as (u2 & st2 & E2 & E). injection E2 as _ <-. apply bind_done in E as (u3 & st3 & E3 & E). injection E as <- <-.
    assert (Q : us_pool st3 = us_pool st1) by (destruct (is_nil m); now injection E3 as _ <-). destruct (ready_stub _ _ _ _ _ RD E1 Q F I') as (A & B). split; [exact A|]. split; [exact B|eauto].
  - unfold place_function in E. destruct (find places _) as [a|] eqn:FP.
    + apply find_some in FP as (Ia & Pa). unfold place_annotated in E. cbv zeta in E. destruct (an_kind a) eqn:KA; try (unfold places in Pa; rewrite KA in Pa; discriminate).
      * (* @replaceMethod *)
        apply bind_done in E as (c & st1 & E1 & E). injection E1 as E1 <-. apply bind_done in E as (f & st1 & E2 & E). injection E2 as E2 <-.
        apply bind_done in E as (p & st1 & E3 & E). injection E3 as <- <-. injection E as <- <-. split; [exact RD|]. split; [apply onto_refl|].
        unfold ann_method in E2. destruct (resolve_direct_method _ _ _) as [fs|] eqn:R; [|discriminate]. destruct (by_id _ _ _) as [g|] eqn:BI; [|discriminate]. injection E2 as ->.
        exists f, c, (base_method_of (us_pool st) f), (visibility_of (dc_qualifiers (fs_decl src))). split; [reflexivity|]. split; [|eauto]. destruct (found_method _ _ _ _ _ _ R BI) as ((k & K & _) & _). exact (is_class _ _ _ _ (rd_inv _ RD) E1 K).
      * (* @wrapMethod *)
        destruct (contain QNative _) eqn:QN; [discriminate|]. apply bind_done in E as (c & st1 & E1 & E). injection E1 as E1 <-. apply bind_done in E as (p & st1 & E2 & E). injection E2 as _ <-.
        apply bind_done in E as ([w ws] & st1 & E3 & E). injection E3 as E3 <-. apply bind_done in E as (u & st1 & E4 & E). injection E4 as _ <-. injection E as <- <-. cbn [set_pool us_pool] in F.
        destruct (register_steps _ _ _ _ _ _ _ E3 F) as (C1 & C2 & C3 & (q & T & PU) & W & PX & Lw). destruct (register_spec _ _ _ _ _ _ _ E3 F) as (_ & _ & _ & _ & _ & _ & _ & NM & _ & MM). cbn [ws_pool ws_wrappers ws_proxies set_pool us_pool] in *.
        destruct (NM (rd_names _ RD)) as (NO & NW). pose proof (onto_trans _ _ _ _ _ (onto_extends true none _ _ (proj1 (proj1 T))) (onto_push none _ _ _ _ PU)) as O. split; [|split; [exact O|]].
        -- split; [exact I'|exact NO|]. apply (named_onto _ _ _ _ O); [|exact (rd_members _ RD)]. intros c' f M. apply MM in M as [M|(-> & ->)]; [now left|right; eauto].
        -- do 5 eexists. split; [reflexivity|]. split; [|reflexivity]. destruct C2 as (k & K & _). exact (is_class _ _ _ _ (rd_inv _ RD) E1 K).
      * (* @replaceGlobal *)
        apply bind_done in E as (fs & st1 & E1 & E). injection E1 as E1 <-. apply bind_done in E as (f & st1 & E2 & E). injection E2 as E2 <-. injection E as <- <-.
        split; [exact RD|]. split; [apply onto_refl|]. eauto.
      * (* @addMethod *)
        apply bind_done in E as (c & st1 & E1 & E). injection E1 as E1 <-. apply bind_done in E as (clash & st1 & E2 & E). injection E2 as E2 <-.
        apply bind_done in E as (u & st1 & E3 & E). apply bind_done in E as (base & st2 & E4 & E). injection E4 as E4 <-. apply bind_done in E as (f & st2 & E5 & E).
        apply bind_done in E as (u6 & st3 & E6 & E). injection E as <- <-.
        unfold change_pool, on_pool in E6. destruct (push_member (us_pool st2) c f) as [p3|] eqn:PM; [|discriminate]. cbn [obind] in E6. injection E6 as _ <-. cbn [set_pool us_pool us_diags] in *.
        assert (P1 : us_pool st1 = us_pool st) by (destruct clash; now injection E3 as _ <-). rewrite P1 in E4.
        assert (F2 : fits (us_pool st2)) by exact (grown_fits _ _ (grown_push _ _ _ _ PM) F).
        assert (N1 : names_ok (us_pool st1)) by (rewrite P1; exact (rd_names _ RD)). destruct (stub_spec _ _ _ _ E5 N1 F2) as (X5 & N5 & D5 & IX & DD). rewrite P1 in X5, IX.
        pose proof (onto_trans _ _ _ _ _ (onto_extends true none _ _ X5) (onto_push none _ _ _ _ PM)) as O. destruct (push_spec _ _ _ _ PM) as (NM6 & _).
        assert (DF : def_name p3 f = Done (source_signature src)) by exact (onto_name _ _ _ _ _ _ (onto_push none _ _ _ _ PM) D5).
        unfold overridden in E4. destruct (pe (get_class (us_pool st) c)) as [k|] eqn:K; [|discriminate]. apply pe_done in K. split; [|split; [exact O|]].
        -- split; [exact I'|cbn; unfold names_ok; rewrite NM6; exact N5|]. cbn. apply (named_onto _ _ _ _ O); [|exact (rd_members _ RD)]. intros c' g M. apply (push_member_iff _ _ _ _ PM) in M as [M|(-> & ->)]; [left|right; eauto].
           rewrite <- P1. exact (calm_members _ _ _ _ (stub_calm' _ _ _ _ E5) M).
        -- exists f, c, base, (visibility_of (dc_qualifiers (fs_decl src))). split; [reflexivity|]. split; [exact (is_class _ _ _ _ (rd_inv _ RD) E1 K)|]. split; [apply (push_member_iff _ _ _ _ PM); now right|]. split; [exact DF|].
           intros NS g M N. rewrite (clash_seen _ _ _ _ _ (rd_members _ RD) M N (source_name _ NS)) in E2. subst clash. injection E3 as _ <-. rewrite DD. cbn [set_diags us_diags]. apply in_or_app. right. now left.
    + cbv zeta in E. apply bind_done in E as (f & st1 & E1 & E). apply bind_done in E as (u2 & st2 & E2 & E). injection E2 as _ <-. apply bind_done in E as (u3 & st3 & E3 & E). injection E as <- <-.
      assert (Q : us_pool st3 = us_pool st1) by (destruct (is_nil m); now injection E3 as _ <-). destruct (ready_stub _ _ _ _ _ RD E1 Q F I') as (A & B). split; [exact A|]. split; [exact B|eauto].
  - apply bind_done in E as (i & st1 & E1 & E). injection E as <- <-. destruct (ready_stub _ _ _ _ _ RD E1 eq_refl F I') as (A & B). split; [exact A|]. split; [exact B|eauto].
  - apply bind_done in E as (i & st1 & E1 & E). apply bind_done in E as (u2 & st2 & E2 & E). injection E2 as _ <-. apply bind_done in E as (u3 & st3 & E3 & E). injection E as <- <-.
    assert (Q : us_pool st3 = us_pool st1) by (destruct (is_nil m); now injection E3 as _ <-). destruct (ready_stub _ _ _ _ _ RD E1 Q F I') as (A & B). split; [exact A|]. split; [exact B|eauto].
Qed.
Lemma trace_ready es ss st st' : trace es ss st st' -> (forall m e, In (m, e) es -> declares l e) -> fits (us_pool st') -> ready st -> ready st' /\ onto true none (us_pool st) (us_pool st').
Proof.
  induction 1 as [|m e s es ss st st1 st2 D T IH]; intros DE F R; [split; [exact R|apply onto_refl]|].
  destruct (symbol_ready _ _ _ _ _ (DE _ _ (or_introl eq_refl)) R D (grown_fits _ _ (trace_grown _ _ _ _ T) F)) as (R1 & O1 & _).
  destruct (IH (fun m' e' I => DE m' e' (or_intror I)) F R1) as (R2 & O2). split; [exact R2|exact (onto_trans _ _ _ _ _ O1 O2)].
Qed.
Lemma ready_start ev st : fair ev -> names_ok p0 -> unit_new ev p0 = Done st -> ready st.
Proof.
  intros FV NO E. pose proof (inv_new l p0 ev FV st E) as I. assert (P : us_pool st = p0).
  { revert E. unfold unit_new. destruct (sy_new p0); [|discriminate]. cbn [obind]. destruct (scope_new p0); [|discriminate]. cbn [obind]. destruct (populate_import _ _ _ _ _) as [s' []]; [|discriminate]. now intros [= <-]. }
  split; [exact I|now rewrite P|]. rewrite P. intros c f M. destruct (proj2 PR _ _ M) as (d & x & D & _). exact (proj1 PR _ _ D).
Qed.
End Pass.

(** * The second pass *)
Definition seen_in (ss : list slot) : list pidx := flat_map slot_function ss.
Lemma cons_split {A} (x : A) xs a s b : x :: xs = a ++ s :: b -> (a = [] /\ s = x /\ b = xs) \/ exists a', a = x :: a' /\ xs = a' ++ s :: b.
Proof. destruct a as [|y a]; cbn; intros [= <- ->]; [left; auto|right; eauto]. Qed.
Section Second.
Variable l : list source_module.
Variable p0 : pool.
Hypothesis PR : proper p0.
Variable ev : env.
Hypothesis FV : fair ev.
Variable mods : list module_path.
(** The slot is defined at some point. *)
Definition visited (seen : list pidx) (s : slot) (st' : ustate) : Prop :=
  exists st1 st2, define_slot ev mods seen s st1 = (Done tt, st2) /\ inv l p0 false st1 /\ before (us_diags st2) (us_diags st').
Lemma visited_later seen s st st' : before (us_diags st) (us_diags st') -> visited seen s st -> visited seen s st'.
Proof. intros B (a & b & X & Y & Z). exists a, b. split; [exact X|]. split; [exact Y|exact (before_trans _ _ _ Z B)]. Qed.
Lemma slots_visited ss : Forall (slot_ok l p0) ss -> forall seen st seen' st', define_slots ev mods seen ss st = (Done seen', st') -> fits (us_pool st') -> mild (us_diags st') -> inv l p0 false st ->
  seen' = seen ++ seen_in ss /\ forall pre s post, ss = pre ++ s :: post -> visited (seen ++ seen_in pre) s st'.
Proof.
  induction 1 as [|x ss OK _ IH]; intros seen st seen' st' E F M H; cbn [define_slots] in E.
  - injection E as <- <-. cbn. rewrite app_nil_r. split; [reflexivity|]. intros pre s post X. destruct pre; discriminate.
  - apply bind_done in E as ([] & st1 & E1 & E). pose proof (late_slots _ _ _ _ _ _ _ E) as B. pose proof (grown_fits _ _ (mono_slots _ _ _ _ _ _ _ E) F) as F1.
    apply reported_mild in E1; [|exact (mild_before _ _ B M)]. destruct (holds_slot l p0 PR ev mods seen x OK _ _ _ E1 F1 H) as (I1 & _).
    destruct (IH _ _ _ _ E F M I1) as (-> & V). split; [unfold seen_in; cbn [flat_map]; now rewrite <- app_assoc|]. intros pre s post X. apply cons_split in X as [(-> & -> & ->)|(a' & -> & ->)].
    + cbn. rewrite app_nil_r. exists st, st1. auto.
    + unfold seen_in. cbn [flat_map]. rewrite app_assoc. exact (V _ _ _ eq_refl).
Qed.
Lemma app_split {A} (xs : list A) : forall ys a s b, xs ++ ys = a ++ s :: b -> (exists b', xs = a ++ s :: b') \/ exists a', a = xs ++ a' /\ ys = a' ++ s :: b.
Proof.
  induction xs as [|x xs IH]; intros ys a s b E; [right; exists a; auto|]. cbn [app] in E. apply cons_split in E as [(-> & -> & _)|(a' & -> & E)]; [left; now exists xs|].
  destruct (IH _ _ _ _ E) as [(b' & ->)|(a2 & -> & ->)]; [left; now exists b'|right; exists a2; auto].
Qed.
Lemma modules_visited q : Forall (fun x => Forall (slot_ok l p0) (snd x)) q -> forall seen st r st', define_modules ev mods seen q st = (Done r, st') -> fits (us_pool st') -> mild (us_diags st') -> inv l p0 false st ->
  forall pre s post, flat_map snd q = pre ++ s :: post -> visited (seen ++ seen_in pre) s st'.
Proof.
  induction 1 as [|[m ss] q OK _ IH]; intros seen st r st' E F M H pre s post X; [destruct pre; discriminate|]. cbn [define_modules flat_map snd] in *.
  apply bind_done in E as (seen1 & st1 & E1 & E). pose proof (late_modules _ _ _ _ _ _ _ E) as B. pose proof (grown_fits _ _ (mono_modules _ _ _ _ _ _ _ E) F) as F1.
  destruct (holds_module l p0 PR ev FV mods seen (m, ss) OK _ _ _ E1 F1 H) as (I1 & _). unfold define_module in E1.
  apply bind_done in E1 as (u & sa & A & E1). injection A as _ <-. apply bind_done in E1 as (u2 & sb & A2 & E1). apply bind_done in E1 as (u3 & sc & A3 & E1).
  assert (IC : fits (us_pool sc) -> inv l p0 false sc).
  { intros FC. assert (IB : inv l p0 false sb).
    { assert (IA : inv l p0 false (set_module (us_scope st) st)) by (apply inv_module; [exact H|apply root_scope, (iv_root _ _ _ _ H)]).
      destruct (is_nil _); [now injection A2 as _ <-|]. injection A2 as _ A2. destruct (import_into ev (IAll (path_of m) span_zero) Private (set_module (us_scope st) st)) as [x y] eqn:IM. cbn [snd] in A2. subst y.
      refine (proj1 (holds_import l p0 ev FV _ _ _ _ _ IM _ IA)). eapply grown_fits; [|exact FC].
      match type of A3 with ueach ?f ?k sb = _ => assert (G : mono (ueach f k)) by mono end. exact (G _ _ _ A3). }
    match type of A3 with ueach ?f ?k sb = _ => assert (G : holds (inv l p0 false) (ueach f k) yes) end.
    { apply holds_each; [intros; mono|]. intros i _. eapply holds_bind with (P := yes); [apply holds_lift; intros; exact I|intros; mono|].
      intros [] _; [|apply holds_ret; exact I]. apply holds_reported with (P := yes); [intros s0 ds; apply inv_diags|]. now apply holds_import. }
    exact (proj1 (G _ _ _ A3 FC IB)). }
  assert (FC : fits (us_pool sc)) by exact (grown_fits _ _ (mono_slots _ _ _ _ _ _ _ E1) F1).
  destruct (slots_visited _ OK _ _ _ _ E1 F1 (mild_before _ _ B M) (IC FC)) as (-> & V). apply app_split in X as [(b' & X)|(a' & -> & X)].
  - exact (visited_later _ _ _ _ B (V _ _ _ X)).
  - unfold seen_in. rewrite flat_map_app, app_assoc. exact (IH _ _ _ _ E F M I1 _ _ _ X).
Qed.
End Second.
