(** What is noted about each declaration while it is defined, and what it tells. *)
From Coq Require Import String.
From Coq Require Import ZArith List Bool Lia.
From Verif Require Import Bytes Bytecode Definitions Bundle BundleFacts Ast TypeNames Pool Scope TypeCheck Symbols SourceMap Cursor Assembler
  Desugar Diagnostics Report Printer PoolSpec PoolFacts TypeIndexSpec TypeIndexFacts Wrappers WrapSpec WrapFacts WrapSteps TidyFacts Unit UnitSpec UnitSteps UnitFacts
  P_Symbols EffectSpec EffectFacts EffectDefine EffectDeclare EffectNoted CleanupSpec Refs RefSpec.
Import ListNotations.
Open Scope Z_scope.

(** * The second pass *)
Definition fits_member (mods : list module_path) (m : member_source) (r : option (pidx + pidx)) : Prop :=
  match m, r with
  | MemberFunction f, Some (inl _) => eval_conditions mods (dc_annotations (fs_decl f)) = Done true
  | MemberFunction f, None => eval_conditions mods (dc_annotations (fs_decl f)) = Done false
  | MemberField f, Some (inr _) => eval_conditions mods (dc_annotations (fd_decl f)) = Done true
  | MemberField f, None => eval_conditions mods (dc_annotations (fd_decl f)) = Done false
  | _, _ => False
  end.
Definition member_links (x : member_source * option (pidx + pidx)) : list link :=
  match x with
  | (MemberFunction f, Some (inl i)) => [(i, sp_low (fs_span f))]
  | (MemberField f, Some (inr i)) => [(i, sp_low (dc_span (fd_decl f)))]
  | _ => []
  end.
Lemma refs_member ev mods b c fl v m st r st' : define_member ev mods b c fl v m st = (Done r, st') -> fits_member mods m r /\ us_refs st' = us_refs st ++ member_links (m, r).
Proof.
  destruct m as [src|src]; cbn [define_member]; intros E; apply bind_done in E as (here & st1 & E1 & E); unfold ulift in E1; injection E1 as E1 <-;
    (destruct here; [|injection E as <- <-; split; [exact E1|now rewrite app_nil_r]]).
  - apply kr_then in E as (? & s2 & E & K2); [|solve [kr]]. apply kr_then in E as (f & s3 & E & K3); [|apply kr_stub]. apply kr_then in E as (sr & s4 & E & K4); [|apply kr_source].
    apply bind_done in E as (u5 & s5 & E5 & E). injection E as <- <-. split; [exact E1|]. apply refs_function in E5. cbn [sp_fun sp_source] in E5. cbn [member_links]. congruence.
  - apply kr_then in E as (f & s3 & E & K3); [|apply kr_stub]. apply bind_done in E as (u5 & s5 & E5 & E). injection E as <- <-. split; [exact E1|]. apply refs_field in E5. cbn [member_links]. congruence.
Qed.
Lemma refs_members ev mods b c fl v ms : forall st rs st', umap (define_member ev mods b c fl v) ms st = (Done rs, st') ->
  Forall2 (fits_member mods) ms rs /\ us_refs st' = us_refs st ++ flat_map member_links (combine ms rs).
Proof.
  induction ms as [|m ms IH]; intros st rs st' E; cbn [umap] in E.
  - injection E as <- <-. split; [constructor|now rewrite app_nil_r].
  - apply bind_done in E as (r & st1 & E1 & E). apply bind_done in E as (rs' & st2 & E2 & E). injection E as <- <-.
    apply refs_member in E1 as (A & B). apply IH in E2 as (C & D). split; [now constructor|]. cbn [combine flat_map]. rewrite D, B. now rewrite app_assoc.
Qed.
Definition noted (mods : list module_path) (p : pool) (s : slot) (new : list link) : Prop :=
  match s with
  | SlotFunction i _ _ _ _ src _ => new = [(i, sp_low (fs_span src))]
  | SlotClass _ c src _ => exists rs k more, Forall2 (fits_member mods) (cs_members src) rs /\ get_class p c = Done k /\
      cl_functions k = functions_of rs /\ cl_fields k = fields_of rs ++ more /\ new = flat_map member_links (combine (cs_members src) rs) ++ [(c, sp_low (cs_span src))]
  | SlotField i src _ => new = [(i, sp_low (dc_span (fd_decl src)))]
  | SlotEnum i src => new = [(i, sp_low (es_span src))]
  end.
Lemma noted_onto T mods p q s new : onto false T p q -> noted mods p s new -> noted mods q s new.
Proof.
  intros O. destruct s; cbn [noted]; auto. intros (rs & k & more & A & B & C & D & E). destruct (onto_class _ _ _ _ _ _ O B) as (fs & gs & F & K). rewrite (F eq_refl), app_nil_r in K.
  eexists rs, _, (more ++ gs). split; [exact A|]. split; [exact K|]. cbn [with_fields with_functions cl_functions cl_fields]. split; [exact C|]. split; [|exact E]. rewrite D. now rewrite app_assoc.
Qed.
Lemma refs_class ev mods b c v src st r st' : define_class ev mods b c v src st = (Done r, st') ->
  exists new, us_refs st' = us_refs st ++ new /\ noted mods (us_pool st') (SlotClass b c src v) new.
Proof.
  intros E. unfold define_class in E. cbv zeta in E. apply bind_done in E as (ms & st1 & E1 & E). apply refs_members in E1 as (A & B). apply kr_then in E as (base & st2 & E & K2); [|apply kr_base].
  apply bind_done in E as (def & st3 & E3 & E). injection E3 as E3 <-. apply bind_done in E as (u4 & st4 & E4 & E5). injection E5 as _ <-.
  unfold change_pool, on_pool in E4. destruct (put_def (us_pool st2) c _) as [p7|] eqn:PD; [|discriminate]. cbn [obind] in E4. injection E4 as _ <-.
  destruct (put_spec _ _ _ _ PD) as (D7 & _). eexists. split.
  - cbn [set_refs us_refs set_pool]. rewrite K2, B, <- app_assoc. reflexivity.
  - cbn [noted set_refs set_pool us_pool]. eexists ms, _, []. split; [exact A|]. split; [apply class_at; eexists; split; [exact D7|reflexivity]|]. cbn [cl_functions cl_fields]. rewrite app_nil_r. auto.
Qed.
Lemma refs_slot ev mods seen s st r st' : define_slot ev mods seen s st = (Done r, st') -> safe st' -> exists new, us_refs st' = us_refs st ++ new /\ noted mods (us_pool st') s new.
Proof.
  intros E S. destruct s as [i c base wr repl src v|b i src v|i src v|i src]; cbn [define_slot] in E.
  - apply kr_then in E as (? & s2 & E & K2); [|solve [kr]]. apply kr_then in E as (f & s3 & E & K3); [|solve [kr]]. apply kr_then in E as (sr & s4 & E & K4); [|apply kr_source].
    apply refs_function in E. cbn [sp_fun sp_source] in E. eexists. split; [|reflexivity]. congruence.
  - exact (refs_class _ _ _ _ _ _ _ _ _ E).
  - unfold define_global_let in E. destruct (find is_add_field _) as [a|]; [|discriminate].
    apply kr_then in E as (n & s2 & E & K2); [|solve [kr]]. apply kr_then in E as (f & s3 & E & K3); [|solve [kr]]. destruct f as [c w| | |]; try discriminate.
    apply kr_then in E as (known & s4 & E & K4); [|solve [kr]]. destruct known; [destruct (diag_loud _ _ _ _ E (fun x => x) (proj2 S))|].
    apply kr_then in E as (k & s5 & E & K5); [|solve [kr]]. apply bind_done in E as (u6 & s6 & E6 & E7). apply refs_field in E6. pose proof (kr_pool (fun p => let* q := push_field p c i in Done (tt, q)) s6) as K7.
    change (on_pool _ s6) with (change_pool (fun p => push_field p c i) s6) in K7. rewrite E7 in K7. cbn [snd] in K7. eexists. split; [|reflexivity]. congruence.
  - apply refs_enum in E. eexists. split; [exact E|reflexivity].
Qed.
Lemma refs_slots ev mods lo l : forall seen st r st', define_slots ev mods seen l st = (Done r, st') -> safe st' -> good st -> lo <= size (us_pool st) ->
  NoDup (map slot_index l) -> Forall (pending st lo) l -> exists chunks, us_refs st' = us_refs st ++ concat chunks /\ Forall2 (noted mods (us_pool st')) l chunks.
Proof.
  induction l as [|s l IH]; intros seen st r st' E S G L ND PE; cbn [define_slots] in E.
  - injection E as <- <-. exists []. split; [now rewrite app_nil_r|constructor].
  - apply bind_done in E as (u & st1 & E1 & E2). pose proof (back_slots _ _ _ _ _ _ _ E2 S) as S1. apply reported_done in E1; [|exact (proj2 S1)].
    inversion PE as [|? ? PS PE']; subst. cbn [map] in ND. inversion ND as [|? ? N1 N2]; subst.
    destruct (run_slot _ _ _ _ _ _ _ _ E1 S1 G L PS) as (P1 & G1 & X1). pose proof (proj1 (sg_pool _ _ _ P1)) as L1.
    assert (PE1 : Forall (pending st1 lo) l).
    { rewrite Forall_forall in *. intros s' I. apply (pending_step _ _ _ _ _ P1); [|auto]. intros X. apply N1. rewrite X. now apply in_map. }
    destruct (run_slots _ _ _ _ _ _ _ _ E2 S G1 (Z.le_trans _ _ _ L L1) N2 PE1) as (P2 & _). destruct (IH _ _ _ _ E2 S G1 (Z.le_trans _ _ _ L L1) N2 PE1) as (ch & A & B).
    destruct (refs_slot _ _ _ _ _ _ _ E1 S1) as (new & C & D). exists (new :: ch). cbn [concat]. split; [rewrite A, C; now rewrite app_assoc|].
    constructor; [exact (noted_onto _ _ _ _ _ _ (sg_pool _ _ _ P2) D)|exact B].
Qed.
Lemma refs_module ev mods lo seen m slots st0 st r st' : define_module ev mods seen (m, slots) st = (Done r, st') -> safe st' -> good st -> rooted st ->
  us_scope st = us_scope st0 -> us_symbols st = us_symbols st0 ->
  lo <= size (us_pool st) -> NoDup (map slot_index slots) -> Forall (pending st lo) slots ->
  exists chunks, us_refs st' = us_refs st ++ concat chunks /\ Forall2 (noted mods (us_pool st')) slots chunks.
Proof.
  intros E S G R R1 R2 L ND PE. unfold define_module in E. apply bind_done in E as (u1 & st1 & E1 & E). injection E1 as _ <-.
  apply bind_done in E as (u2 & st2 & E2 & E). apply bind_done in E as (u3 & st3 & E3 & E4). pose proof (back_slots _ _ _ _ _ _ _ E4 S) as S3.
  apply run_imports in E3; [|exact (proj2 S3)].
  assert (X2 : st2 = set_module (if is_nil (path_of m) then us_scope st else bring ev st (us_scope st) (IAll (path_of m) span_zero) Private) st).
  { destruct (is_nil _); [now injection E2 as _ <-|]. injection E2 as <- <-. destruct (import_into _ _ _ _) as [x y] eqn:I. apply run_import in I. cbn [snd]. now rewrite I. }
  assert (X3 : st3 = set_module (imported ev mods m st0) st).
  { subst st3 st2. unfold imported. cbv zeta. rewrite <- R1, <- R2. reflexivity. }
  clear E2 E3 X2. subst st3. assert (G3 : good (set_module (imported ev mods m st0) st)).
  { destruct G as [G1 G2 G3 G4]. split; cbn; auto. intros n i F. apply R. rewrite imported_types, <- R1 in F. exact F. }
  exact (refs_slots _ _ _ _ _ _ _ _ E4 S G3 L ND PE).
Qed.
Lemma refs_modules ev mods lo st0 l : forall seen st r st', define_modules ev mods seen l st = (Done r, st') -> safe st' -> good st -> rooted st ->
  us_scope st = us_scope st0 -> us_symbols st = us_symbols st0 -> lo <= size (us_pool st) ->
  NoDup (map slot_index (flat_map snd l)) -> Forall (pending st lo) (flat_map snd l) ->
  exists chunks, us_refs st' = us_refs st ++ concat chunks /\ Forall2 (noted mods (us_pool st')) (flat_map snd l) chunks.
Proof.
  induction l as [|[m slots] l IH]; intros seen st r st' E S G R R1 R2 L ND PE; cbn [define_modules] in E.
  - injection E as <- <-. exists []. split; [now rewrite app_nil_r|constructor].
  - apply bind_done in E as (seen' & st1 & E1 & E2). pose proof (back_modules _ _ _ _ _ _ _ E2 S) as S1.
    cbn [flat_map snd] in ND, PE. rewrite map_app in ND. apply NoDup_app_l in ND as (N1 & N2 & N3). apply Forall_app in PE as (PE1 & PE2).
    destruct (run_module _ _ _ _ _ _ st0 _ _ _ E1 S1 G R R1 R2 L N1 PE1) as (P1 & G1 & X1).
    destruct (refs_module _ _ _ _ _ _ st0 _ _ _ E1 S1 G R R1 R2 L N1 PE1) as (ch1 & A1 & B1).
    pose proof (proj1 (sg_pool _ _ _ P1)) as L1. cbn in L1. destruct (sg_root _ _ _ P1) as (Q1 & Q2). cbn in Q1, Q2.
    assert (RR : rooted st1) by (unfold rooted; rewrite Q1; exact (types_onto _ _ _ _ _ (sg_pool _ _ _ P1) R)).
    assert (PE2' : Forall (pending st1 lo) (flat_map snd l)).
    { rewrite Forall_forall in *. intros s I. apply (pending_step _ _ _ _ _ P1); [|exact (PE2 _ I)]. intros X. apply (N3 _ X). now apply in_map. }
    destruct (run_modules _ _ _ st0 _ _ _ _ _ E2 S G1 RR (eq_trans Q1 R1) (eq_trans Q2 R2) (Z.le_trans _ _ _ L L1) N2 PE2') as (P2 & _).
    destruct (IH _ _ _ _ E2 S G1 RR (eq_trans Q1 R1) (eq_trans Q2 R2) (Z.le_trans _ _ _ L L1) N2 PE2') as (ch2 & A2 & B2).
    pose proof (sg_pool _ _ _ P2) as O2. cbn [set_module us_pool] in O2. exists (ch1 ++ ch2). rewrite concat_app. split; [rewrite A2, A1; now rewrite app_assoc|].
    cbn [flat_map snd]. apply Forall2_app; [|exact B2]. apply (Forall2_weaken _ _ _ _ B1). intros s new _. exact (noted_onto _ _ _ _ _ _ O2).
Qed.

(** * What is told *)
Definition owner (p : pool) (c : pidx) : str := if c =? UNDEFINED then [] else match def_name p c with Done n => n | Fail _ => [] end.
Lemma get_at p i d : def_at p i = Some d -> get_def p i = Done d.
Proof. unfold get_def. now intros ->. Qed.
Lemma flag_are l fl k : 0 <= k -> flags_are l fl -> get_flag k fl = existsb (fun x => (fst x =? k) && snd x) l.
Proof. intros K H. exact (H k K). Qed.
(** What stays as it is told when classes move about. *)
Definition movable (p : pool) (i : pidx) : Prop :=
  exists d, def_at p i = Some d /\ match df_value d with DFunction _ | DField _ => True | DClass _ | DEnum _ => df_parent d = UNDEFINED | _ => False end.
Definition tells (p : pool) (new : list link) (t : list told) : Prop := map (told_of p) new = t /\ Forall (fun x => movable p (fst x)) new.
Lemma tells_app p a b s t : tells p a s -> tells p b t -> tells p (a ++ b) (s ++ t).
Proof. intros (A & B) (C & D). split; [rewrite map_app; congruence|now apply Forall_app]. Qed.
Lemma tells_one p i z t : told_of p (i, z) = t -> movable p i -> tells p [(i, z)] [t].
Proof. intros <- M. split; [reflexivity|now constructor]. Qed.
Section Tell.
Variables (ev : env) (count : Z) (syms : amap symbol) (q : pool).
Lemma tell_function f c v base repl src n z : function_is ev count syms q f c v base repl src -> def_name q f = Done n ->
  tells q [(f, z)] [Told RefFunction n (owner q c) (negb repl && contain QNative (dc_qualifiers (fs_decl src))) z].
Proof.
  intros (d & x & D & V & (P & _ & _ & _ & F & _) & _) N. apply tells_one; [|exists d; now rewrite V]. unfold told_of, type_of_ref, ref_name, ref_parent_name, ref_is_native, owner. cbn [fst snd]. rewrite (get_at _ _ _ D), N, V, P.
  f_equal. rewrite (flag_are _ _ fn_is_native ltac:(discriminate) F). cbn. now rewrite orb_false_r.
Qed.
Lemma tell_field i c v src z : field_is ev syms q i c v src -> tells q [(i, z)] [Told RefField (dc_name (fd_decl src)) (owner q c) (contain QNative (dc_qualifiers (fd_decl src))) z].
Proof.
  intros (d & x & D & V & (N & P & _ & _ & _ & F & _) & _). apply tells_one; [|exists d; now rewrite V]. unfold told_of, type_of_ref, ref_name, ref_parent_name, ref_is_native, owner. cbn [fst snd]. rewrite (get_at _ _ _ D), N, V, P.
  f_equal. rewrite (flag_are _ _ ff_is_native ltac:(discriminate) F). cbn. now rewrite orb_false_r.
Qed.
Lemma tell_enum i src n z : enum_is q i src -> def_name q i = Done n -> tells q [(i, z)] [Told RefEnum n [] false z].
Proof.
  intros (d & x & D & P & V & _) N. apply tells_one; [|exists d; now rewrite V]. unfold told_of, type_of_ref, ref_name, ref_parent_name, ref_is_native. cbn [fst snd]. rewrite (get_at _ _ _ D), N, V, P. reflexivity.
Qed.
Lemma tell_class mods F G i b v src n z : class_shape mods syms q F G i b v src -> def_name q i = Done n ->
  tells q [(i, z)] [Told RefClass n [] (contain QImportOnly (dc_qualifiers (cs_decl src)) || contain QNative (dc_qualifiers (cs_decl src))) z].
Proof.
  intros (d & k & fields & more & D & P & V & _ & FL & _) N. apply tells_one; [|exists d; now rewrite V]. unfold told_of, type_of_ref, ref_name, ref_parent_name, ref_is_native. cbn [fst snd]. rewrite (get_at _ _ _ D), N, V, P.
  f_equal. rewrite (flag_are _ _ cf_is_native ltac:(discriminate) FL). cbn. now rewrite orb_false_r.
Qed.
Lemma fields_length mods ms rs : Forall2 (fits_member mods) ms rs -> length (enabled_fields mods ms) = length (fields_of rs).
Proof.
  induction 1 as [|m r ms rs H _ IH]; [reflexivity|]. unfold enabled_fields, fields_of in *. destruct m, r as [[j|j]|]; cbn [fits_member flat_map] in *; try contradiction; try rewrite H; cbn [app length]; try exact IH; now rewrite IH.
Qed.
Lemma tell_members mods (F : function_source -> pidx -> Prop) (G : field_source -> pidx -> Prop) name ms rs : Forall2 (fits_member mods) ms rs ->
  (forall f i, F f i -> tells q [(i, sp_low (fs_span f))] [function_told (source_signature f) name (contain QNative (dc_qualifiers (fs_decl f))) f]) ->
  (forall f i, G f i -> tells q [(i, sp_low (dc_span (fd_decl f)))] [field_told name f]) ->
  Forall2 F (enabled_functions mods ms) (functions_of rs) -> Forall2 G (enabled_fields mods ms) (fields_of rs) ->
  tells q (flat_map member_links (combine ms rs)) (flat_map (member_told mods name) ms).
Proof.
  intros H HF HG. induction H as [|m r ms rs H _ IH]; intros A B; [split; constructor|]. unfold enabled_functions, enabled_fields, functions_of, fields_of in A, B.
  destruct m as [f|f], r as [[j|j]|]; cbn [fits_member] in H; try contradiction; cbn [flat_map combine member_links] in *; cbn [member_told] in *; rewrite H in *; cbn [app] in *.
  - inversion A as [|? ? ? ? X A']; subst. exact (tells_app _ _ _ _ _ (HF _ _ X) (IH A' B)).
  - exact (IH A B).
  - inversion B as [|? ? ? ? X B']; subst. exact (tells_app _ _ _ _ _ (HG _ _ X) (IH A B')).
  - exact (IH A B).
Qed.
Lemma app_same {A} (a b c d : list A) : length a = length c -> a ++ b = c ++ d -> a = c.
Proof.
  revert c. induction a as [|x a IH]; intros [|y c]; cbn; try discriminate; [reflexivity|]. intros [= L] [= -> E]. f_equal. exact (IH _ L E).
Qed.
Lemma Forall2_same_length {A B} (P : A -> B -> Prop) l l' : Forall2 P l l' -> length l = length l'.
Proof. induction 1; cbn; congruence. Qed.
Lemma tell_whole mods i b v src n w new : class_is ev mods count syms q i b v src -> def_name q i = Done n -> i <> UNDEFINED ->
  noted mods q (SlotClass b i src w) new ->
  tells q new (flat_map (member_told mods n) (cs_members src) ++ [Told RefClass n [] (contain QImportOnly (dc_qualifiers (cs_decl src)) || contain QNative (dc_qualifiers (cs_decl src))) (sp_low (cs_span src))]).
Proof.
  intros H N NZ (rs & k & more & A & B & C & D & ->). assert (OW : owner q i = n) by (unfold owner; destruct (Z.eqb_spec i UNDEFINED); [contradiction|now rewrite N]).
  apply tells_app; [|exact (tell_class _ _ _ _ _ _ _ _ _ H N)].
  destruct H as (d & k' & fields & more' & DA & _ & V & _ & _ & _ & FU & FI & GI & _).
  assert (k' = k) by (apply class_at in B as (dk & DK & VK); congruence). subst k'. rewrite C in FU.
  assert (fields = fields_of rs).
  { apply (app_same _ more' _ more); [|congruence]. rewrite <- (Forall2_same_length _ _ _ GI). exact (fields_length _ _ _ A). }
  subst fields. eapply tell_members; [exact A| | |exact FU|exact GI]; cbv beta.
  - intros f j (X & Y). pose proof (tell_function _ _ _ _ _ _ _ (sp_low (fs_span f)) X Y) as T. rewrite OW in T. exact T.
  - intros f j X. pose proof (tell_field _ _ _ _ (sp_low (dc_span (fd_decl f))) X) as T. rewrite OW in T. exact T.
Qed.
End Tell.

(** * Moving classes about *)
Lemma told_moved move p p' i z : moved_by move p p' -> move UNDEFINED = UNDEFINED -> movable p i -> told_of p' (move i, z) = told_of p (i, z).
Proof.
  intros M Z0 (d & D & PA). apply get_at in D. assert (NM : forall j dj, get_def p j = Done dj -> def_name p' (move j) = def_name p j).
  { intros j dj X. destruct (mb_content _ _ _ M _ _ X) as (d' & D' & _ & F). unfold def_name. rewrite X, D', (mb_names _ _ _ M). cbn [obind].
    assert (E : df_name d' = df_name dj). { apply (f_equal df_name) in F. unfold forget_refs in F. destruct (df_value d'), (df_value dj); exact F. } now rewrite E. }
  destruct (mb_content _ _ _ M _ _ D) as (d' & D' & R & F).
  assert (OW : forall a, owner p' (move a) = owner p a).
  { intros a. unfold owner. destruct (Z.eqb_spec a UNDEFINED) as [->|NE]; [now rewrite Z0|]. destruct (Z.eqb_spec (move a) UNDEFINED) as [E|_]; [rewrite <- Z0 in E; now apply (mb_injective _ _ _ M) in E|].
    destruct (get_def p a) as [da|e] eqn:DA; [now rewrite (NM _ _ DA)|].
    assert (X : move a = a).
    { destruct (Z.eq_dec (move a) a) as [Y|Y]; [exact Y|]. destruct (mb_classes _ _ _ M _ Y) as ((k & K) & _). apply class_at in K as (dk & DK & _). apply get_at in DK. congruence. }
    rewrite X. unfold def_name. rewrite DA. destruct (get_def p' a) as [da'|e'] eqn:DA'; [|reflexivity]. exfalso.
    unfold get_def, nth_def in DA, DA'. destruct (a <? 0); [discriminate|]. destruct (nth_error (pl_defs p) (Z.to_nat a)) eqn:E1; [discriminate|]. destruct (nth_error (pl_defs p') (Z.to_nat a)) eqn:E2; [|discriminate].
    apply nth_error_None in E1. assert (Z.to_nat a < length (pl_defs p'))%nat by (apply nth_error_Some; congruence). rewrite (mb_length _ _ _ M) in *. lia. }
  assert (PN : forall a z, ref_parent_name a z = match get_def a (fst z) with Done d => owner a (df_parent d) | Fail _ => [] end) by reflexivity.
  unfold told_of. rewrite !PN. unfold type_of_ref, ref_name, ref_is_native. cbn [fst snd]. rewrite D, D', (NM _ _ D).
  unfold forget_refs, class_refs in *. destruct (df_value d) as [t|k|v|e|f|x|lc|fl|s] eqn:V; try contradiction.
  - destruct (df_value d'); try discriminate. injection F as _ F2 _ _ _ _ F3. rewrite F2, PA, F3. reflexivity.
  - assert (V' : df_value d' = DEnum e) by (apply (f_equal df_value) in F; destruct (df_value d') eqn:W; cbn in F; congruence). rewrite V' in *. rewrite F, PA. reflexivity.
  - destruct (df_value d') eqn:V'; try (apply (f_equal df_value) in F; cbn in F; congruence). injection F as _ _ _ _ _ F3. cbn [map] in R. injection R as R _. now rewrite R, OW, F3.
  - destruct (df_value d') eqn:V'; try (apply (f_equal df_value) in F; cbn in F; congruence). injection F as _ _ _ _ F3. cbn [map] in R. injection R as R. now rewrite R, OW, F3.
Qed.
