(** Declarations take effect: steps of the compilation unit followed one by one. *)
From Coq Require Import String.
From Coq Require Import ZArith List Bool Lia Permutation.
From Verif Require Import Bytes Bytecode Definitions Bundle BundleFacts Ast TypeNames Pool Scope TypeCheck Symbols SourceMap Cursor Assembler
  Desugar Diagnostics Report Printer PoolSpec PoolFacts TypeIndexSpec TypeIndexFacts Wrappers WrapSpec WrapFacts WrapSteps TidyFacts Unit UnitSpec UnitSteps UnitFacts
  P_Symbols EffectSpec.
Import ListNotations.
Open Scope Z_scope.

(** * Pools *)

(** Classes get new functions, if [first], and new fields; definitions in [T] that
    are not classes may change; names stay. *)
Definition no_class (d : definition) : Prop := forall k, df_value d <> DClass k.
Inductive like (first : bool) (d d' : definition) : Prop :=
| like_same : d' = d -> like first d d'
| like_class k fs gs : df_value d = DClass k -> d' = with_value d (DClass (with_fields (with_functions k (cl_functions k ++ fs)) (cl_fields k ++ gs))) ->
    (first = false -> fs = []) -> like first d d'.
Definition onto (first : bool) (T : pidx -> Prop) (p p' : pool) : Prop :=
  size p <= size p' /\ prefix (st_list (pl_names p)) (st_list (pl_names p')) /\
  forall i d, def_at p i = Some d -> exists d', def_at p' i = Some d' /\ df_name d' = df_name d /\
    (like first d d' \/ T i /\ no_class d).
Definition none (i : pidx) : Prop := False.
Lemma like_name b d d' : like b d d' -> df_name d' = df_name d.
Proof. intros [->|k fs gs _ -> _]; reflexivity. Qed.
Lemma like_refl b d : like b d d.
Proof. now apply like_same. Qed.
Lemma like_no_class b d d' : like b d d' -> no_class d -> d' = d.
Proof. intros [->|k fs gs V _ _] N; [reflexivity|destruct (N _ V)]. Qed.
Lemma like_trans b d d' d'' : like b d d' -> like b d' d'' -> like b d d''.
Proof.
  intros [->|k fs gs V -> F] H; [exact H|]. destruct H as [->|k2 fs2 gs2 V2 -> F2]; [now apply (like_class b d _ k fs gs)|].
  cbn [with_value df_value] in V2. injection V2 as <-. apply (like_class b d _ k (fs ++ fs2) (gs ++ gs2)); [exact V| |].
  - cbn [with_value with_functions with_fields cl_functions cl_fields cl_visibility cl_flags cl_base cl_overrides df_name df_parent df_unk1 df_unk2 df_unk3].
    now rewrite !app_assoc.
  - intros X. now rewrite (F X), (F2 X).
Qed.
Lemma onto_refl b T p : onto b T p p.
Proof. split; [lia|]. split; [apply prefix_refl|]. intros i d D. exists d. split; [exact D|]. split; [reflexivity|]. left. apply like_refl. Qed.
Lemma onto_trans b T p q r : onto b T p q -> onto b T q r -> onto b T p r.
Proof.
  intros (A1 & A2 & A3) (B1 & B2 & B3). split; [lia|]. split; [exact (prefix_trans _ _ _ A2 B2)|]. intros i d D.
  destruct (A3 _ _ D) as (d1 & D1 & N1 & K1). destruct (B3 _ _ D1) as (d2 & D2 & N2 & K2). exists d2. split; [exact D2|]. split; [congruence|].
  destruct K1 as [K1|K1]; [|now right]. destruct K2 as [K2|(Y1 & Y2)].
  - left. exact (like_trans _ _ _ _ K1 K2).
  - right. split; [exact Y1|]. destruct K1 as [->|k fs gs V -> _]; [exact Y2|]. destruct (Y2 _ eq_refl).
Qed.
Lemma onto_weaken b (T T' : pidx -> Prop) p q : (forall i, T i -> T' i) -> onto b T p q -> onto b T' p q.
Proof.
  intros H (A & B & C). split; [exact A|]. split; [exact B|]. intros i d D. destruct (C _ _ D) as (d' & X & Y & [K|(K & L)]); exists d'; split; auto.
Qed.
Lemma onto_first T p q : onto false T p q -> onto true T p q.
Proof.
  intros (A & B & C). split; [exact A|]. split; [exact B|]. intros i d D. destruct (C _ _ D) as (d' & X & Y & [[W|k fs gs V W Z]|K]); exists d'; (split; [exact X|]); (split; [exact Y|]); [| |now right].
  - left. now apply like_same.
  - left. apply (like_class true d d' k fs gs V W). discriminate.
Qed.
(** Definitions outside [T] that matter to nothing else. *)
Definition untaken (T : pidx -> Prop) (p : pool) : Prop := forall i, T i -> size p <= i.
Lemma onto_untaken b (T : pidx -> Prop) p q r : onto b none p q -> (forall i, T i -> size p <= i) -> onto b T q r -> onto b none p r.
Proof.
  intros (A1 & A2 & A3) U (B1 & B2 & B3). split; [lia|]. split; [exact (prefix_trans _ _ _ A2 B2)|]. intros i d D.
  destruct (A3 _ _ D) as (d1 & D1 & N1 & [K1|([] & _)]). destruct (B3 _ _ D1) as (d2 & D2 & N2 & K2). exists d2. split; [exact D2|]. split; [congruence|].
  destruct K2 as [K2|(Y1 & _)]; [left; exact (like_trans _ _ _ _ K1 K2)|]. apply U in Y1. apply at_bounds in D. lia.
Qed.
Lemma onto_extends b T p q : extends p q -> onto b T p q.
Proof.
  intros X. pose proof (grown_extends _ _ X) as (A & B). split; [exact A|]. split; [exact B|]. intros i d D. exists d. split; [exact (extends_nth _ _ _ _ X D)|].
  split; [reflexivity|]. left. apply like_refl.
Qed.
Lemma onto_put b (T : pidx -> Prop) p i d e q : put_def p i e = Done q -> T i -> def_at p i = Some d -> df_name e = df_name d -> no_class d -> onto b T p q.
Proof.
  intros E H D N C. pose proof (grown_put _ _ _ _ E) as (A & B). split; [exact A|]. split; [exact B|]. apply put_spec in E as (P & O & _). intros j f F.
  destruct (Z.eq_dec j i) as [->|Q]; [|rewrite O by exact Q; exists f; split; [exact F|]; split; [reflexivity|]; left; apply like_refl].
  exists e. split; [exact P|]. assert (f = d) by congruence. subst. split; [exact N|]. right. auto.
Qed.
Lemma onto_push T p c f q : push_member p c f = Done q -> onto true T p q.
Proof.
  intros E. pose proof (grown_push _ _ _ _ E) as (A & B). split; [exact A|]. split; [exact B|]. apply push_spec in E as (_ & _ & O & d & k & D & V & P). intros j e F.
  destruct (Z.eq_dec j c) as [->|Q]; [|rewrite O by exact Q; exists e; split; [exact F|]; split; [reflexivity|]; left; apply like_refl].
  rewrite D in F. injection F as <-. eexists. split; [exact P|]. split; [reflexivity|]. left. apply (like_class true d _ k [f] []); [exact V| |discriminate].
  now rewrite app_nil_r.
Qed.
Lemma onto_push_field b T p c f q : push_field p c f = Done q -> onto b T p q.
Proof.
  intros E. pose proof (grown_field _ _ _ _ E) as (A & B). split; [exact A|]. split; [exact B|]. apply push_field_put in E as (d & k & D & V & E). apply put_spec in E as (P & O & _). intros j e F.
  destruct (Z.eq_dec j c) as [->|Q]; [|rewrite O by exact Q; exists e; split; [exact F|]; split; [reflexivity|]; left; apply like_refl].
  rewrite D in F. injection F as <-. eexists. split; [exact P|]. split; [reflexivity|]. left. apply (like_class b d _ k [] [f]); [exact V| |reflexivity].
  rewrite app_nil_r. now destruct k.
Qed.

Lemma onto_name b T p q i n : onto b T p q -> def_name p i = Done n -> def_name q i = Done n.
Proof.
  intros (_ & B & C) N. destruct (name_def _ _ _ N) as (d & D). destruct (C _ _ D) as (d' & D' & E & _). exact (name_same _ _ _ _ _ _ B D D' E N).
Qed.
Lemma onto_earlier b T p q r : onto b T p q -> earlier r p -> earlier r q.
Proof. intros O H i n N. exact (onto_name _ _ _ _ _ _ O (H _ _ N)). Qed.
Lemma earlier_onto b T p q : onto b T p q -> earlier p q.
Proof. intros O i n. exact (onto_name _ _ _ _ _ _ O). Qed.
Lemma onto_at b T p q i d : onto b T p q -> def_at p i = Some d -> ~ T i -> no_class d -> def_at q i = Some d.
Proof. intros (_ & _ & C) D N K. destruct (C _ _ D) as (d' & D' & _ & [L|(X & _)]); [|contradiction]. now rewrite (like_no_class _ _ _ L K) in D'. Qed.
Lemma onto_class b T p q c k : onto b T p q -> get_class p c = Done k -> exists fs gs, (b = false -> fs = []) /\
  get_class q c = Done (with_fields (with_functions k (cl_functions k ++ fs)) (cl_fields k ++ gs)).
Proof.
  intros (_ & _ & C) K. apply class_at in K as (d & D & V). destruct (C _ _ D) as (d' & D' & _ & [[->|k' fs gs V' -> F]|(_ & X)]); [| |destruct (X _ V)].
  - exists [], []. split; [reflexivity|]. apply class_at. exists d. split; [exact D'|]. rewrite !app_nil_r. now destruct k.
  - assert (k' = k) by congruence. subst. exists fs, gs. split; [exact F|]. apply class_at. eauto.
Qed.
Lemma onto_member b T p q c f : onto b T p q -> member p c f -> member q c f.
Proof.
  intros O (k & K & H). destruct (onto_class _ _ _ _ _ _ O K) as (fs & gs & _ & K'). eexists. split; [exact K'|]. cbn. apply in_or_app. now left.
Qed.

(** * Going back from a step without complaints *)
Definition no_harm (ds : list diagnostic) : Prop := Forall harmless ds.
Lemma no_harm_app a b : no_harm (a ++ b) <-> no_harm a /\ no_harm b.
Proof. apply Forall_app. Qed.
Definition quiet {A} (m : U A) : Prop := forall st a st', m st = (Done a, st') -> no_harm (us_diags st') -> no_harm (us_diags st).
Lemma quiet_ret {A} (a : A) : quiet (uret a).
Proof. now intros st r st' [= <- <-]. Qed.
Lemma quiet_fail {A} e : quiet (@ufail A e).
Proof. intros st r st' [=]. Qed.
Lemma quiet_lift {A} (m : outcome error A) : quiet (ulift m).
Proof. intros st r st'. unfold ulift. now intros [= _ <-]. Qed.
Lemma quiet_read {A} (f : ustate -> outcome error A) : quiet (uread f).
Proof. intros st r st'. unfold uread. now intros [= _ <-]. Qed.
Lemma quiet_get {A} (f : ustate -> A) : quiet (uget f).
Proof. now intros st r st' [= <- <-]. Qed.
Lemma bind_done {A B} (m : U A) (k : A -> U B) st b st' : ubind m k st = (Done b, st') -> exists a st1, m st = (Done a, st1) /\ k a st1 = (Done b, st').
Proof. unfold ubind. destruct (m st) as [[a|e] st1]; [eauto|discriminate]. Qed.
Lemma quiet_bind {A B} (m : U A) (k : A -> U B) : quiet m -> (forall a, quiet (k a)) -> quiet (ubind m k).
Proof. intros M K st r st' E H. apply bind_done in E as (a & st1 & E1 & E2). exact (M _ _ _ E1 (K _ _ _ _ E2 H)). Qed.
Lemma quiet_put f : (forall st, us_diags (f st) = us_diags st) -> quiet (uput f).
Proof. intros H st r st' [= <- <-]. now rewrite H. Qed.
Lemma quiet_pool {A} (f : pool -> outcome error (A * pool)) : quiet (on_pool f).
Proof. intros st r st'. unfold on_pool. destruct (f (us_pool st)) as [[a p]|e]; [|discriminate]. now intros [= <- <-]. Qed.
Lemma quiet_map {A B} (f : A -> U B) l : (forall x, quiet (f x)) -> quiet (umap f l).
Proof.
  intros H. induction l as [|x l IH]; [apply quiet_ret|]. apply quiet_bind; [apply H|intros y]. apply quiet_bind; [exact IH|intros ys; apply quiet_ret].
Qed.
Lemma quiet_each {A} (f : A -> U Datatypes.unit) l : (forall x, quiet (f x)) -> quiet (ueach f l).
Proof. intros H. induction l as [|x l IH]; [apply quiet_ret|]. apply quiet_bind; [apply H|intros _; exact IH]. Qed.
Lemma diag_loud d st r st' : push_diagnostic d st = (r, st') -> ~ harmless d -> ~ no_harm (us_diags st').
Proof. intros [= <- <-] N. cbn [set_diags us_diags]. rewrite no_harm_app. intros (_ & X). now inversion X. Qed.
Lemma quiet_diag d : quiet (push_diagnostic d).
Proof. intros st r st' [= <- <-]. cbn [set_diags us_diags]. rewrite no_harm_app. tauto. Qed.
Lemma report_loud e st r st' : ureport e st = (Done r, st') -> ~ no_harm (us_diags st').
Proof.
  intros E. apply bind_done in E as (d & st1 & E1 & E). apply (diag_loud _ _ _ _ E). unfold ulift in E1. injection E1 as E1 _.
  destruct e; cbn [diag_from_error] in E1; try discriminate; injection E1 as <-; now cbn.
Qed.
Lemma quiet_report e : quiet (ureport e).
Proof. intros st r st' E H. destruct (report_loud _ _ _ _ E H). Qed.
Lemma reported_done m st r st' : reported m st = (Done r, st') -> no_harm (us_diags st') -> m st = (Done r, st').
Proof. unfold reported. destruct (m st) as [[a|e] st1]; [auto|]. intros E H. destruct (report_loud _ _ _ _ E H). Qed.
Lemma quiet_reported m : quiet m -> quiet (reported m).
Proof. intros M st r st' E H. exact (M _ _ _ (reported_done _ _ _ _ E H) H). Qed.
Lemma quiet_type t sp : quiet (type_index t sp).
Proof. intros st r st'. unfold type_index. destruct (with_span sp _) as [[[i s] p]|]; [|discriminate]. now intros [= <- <-]. Qed.
Lemma quiet_resolve n sp : quiet (try_resolve_type n sp).
Proof.
  intros st r st'. unfold try_resolve_type. destruct (with_span sp _) as [t|e]; [now intros [= <- <-]|].
  apply quiet_bind; [apply quiet_report|intros _; apply quiet_ret].
Qed.
Lemma quiet_import ev i v : quiet (import_into ev i v).
Proof. intros st r st'. unfold import_into. destruct (populate_import _ _ _ _ _) as [s x]. now intros [= _ <-]. Qed.
Ltac quiet := repeat match goal with
  | |- quiet (uret _) => apply quiet_ret
  | |- quiet (ufail _) => apply quiet_fail
  | |- quiet (ufailc _ _) => apply quiet_lift
  | |- quiet (ulift _) => apply quiet_lift
  | |- quiet (uread _) => apply quiet_read
  | |- quiet (uget _) => apply quiet_get
  | |- quiet (push_diagnostic _) => apply quiet_diag
  | |- quiet (ureport _) => apply quiet_report
  | |- quiet (reported _) => apply quiet_reported
  | |- quiet (name_index _) => apply quiet_pool
  | |- quiet (new_definition _) => apply quiet_pool
  | |- quiet (type_index _ _) => apply quiet_type
  | |- quiet (try_resolve_type _ _) => apply quiet_resolve
  | |- quiet (import_into _ _ _) => apply quiet_import
  | |- quiet (change_pool _) => apply quiet_pool
  | |- quiet (uput _) => apply quiet_put; reflexivity
  | |- quiet (umap _ _) => apply quiet_map; intros ?
  | |- quiet (ueach _ _) => apply quiet_each; intros ?
  | |- quiet (ubind _ _) => apply quiet_bind; [|intros ?]
  | |- quiet (if ?x then _ else _) => destruct x
  | |- quiet (match ?x with _ => _ end) => destruct x
  | |- quiet (let '_ := ?x in _) => destruct x
  | |- quiet (push_ref _ _) => unfold push_ref
  | |- quiet (new_stub _) => unfold new_stub
  | |- quiet (declared_type _ _) => unfold declared_type
  | H : _ |- _ => apply H
  end.
Lemma quiet_symbol pm e m : quiet (define_symbol pm e m).
Proof.
  destruct e; cbn [define_symbol]; unfold place_function; cbv zeta; try (quiet; fail).
  destruct (find _ _) as [a|]; [|quiet]. unfold place_annotated. cbv zeta. destruct (an_kind a); quiet.
Qed.
Lemma quiet_ref ev sp : quiet (source_ref_of ev sp).
Proof. unfold source_ref_of, define_source_ref. quiet. Qed.
Lemma quiet_parameter f sp x : quiet (define_parameter f sp x).
Proof. unfold define_parameter. quiet. Qed.
Lemma quiet_function x : quiet (define_function x).
Proof. unfold define_function, check_native, define_parameter. cbv zeta. quiet. Qed.
Lemma quiet_field i c fl v src : quiet (define_field i c fl v src).
Proof. unfold define_field. cbv zeta. quiet. Qed.
Lemma quiet_member ev mods b c fl v m : quiet (define_member ev mods b c fl v m).
Proof. unfold define_member. quiet; try apply quiet_ref; try apply quiet_function; apply quiet_field. Qed.
Lemma quiet_class ev mods b c v src : quiet (define_class ev mods b c v src).
Proof. unfold define_class, base_class. cbv zeta. quiet; apply quiet_member. Qed.
Lemma quiet_enum i src : quiet (define_enum i src).
Proof. unfold define_enum. quiet. Qed.
Lemma quiet_let i v src : quiet (define_global_let i v src).
Proof. unfold define_global_let. quiet; apply quiet_field. Qed.
Lemma quiet_slot ev mods seen s : quiet (define_slot ev mods seen s).
Proof. destruct s; cbn [define_slot]; [quiet; [apply quiet_ref|apply quiet_function]|apply quiet_class|apply quiet_let|apply quiet_enum]. Qed.
Lemma quiet_slots ev mods l : forall seen, quiet (define_slots ev mods seen l).
Proof. induction l as [|s l IH]; intros seen; cbn [define_slots]; quiet; apply quiet_slot. Qed.
Lemma entry_done pm mods m e st r st' : declare_entry pm mods m e st = (Done r, st') -> no_harm (us_diags st') ->
  eval_conditions mods (dc_annotations (entry_decl e)) = Done false /\ r = [] /\ st' = st \/
  exists s, eval_conditions mods (dc_annotations (entry_decl e)) = Done true /\ define_symbol pm e m st = (Done s, st') /\ r = [s].
Proof.
  intros E H. apply bind_done in E as (here & st1 & E1 & E). unfold ulift in E1. injection E1 as E1 <-. destruct here; [|injection E as <- <-; auto].
  right. destruct (define_symbol pm e m st) as [[s|err] st1] eqn:D; [injection E as <- <-; eauto|].
  apply bind_done in E as (u & st2 & E2 & E). injection E as <- <-. destruct (report_loud _ _ _ _ E2 H).
Qed.
Lemma quiet_entry pm mods m e : quiet (declare_entry pm mods m e).
Proof. intros st r st' E H. destruct (entry_done _ _ _ _ _ _ _ E H) as [(_ & _ & ->)|(s & _ & X & _)]; [exact H|exact (quiet_symbol _ _ _ _ _ _ X H)]. Qed.
Lemma quiet_module ev mods seen x : quiet (define_module ev mods seen x).
Proof.
  destruct x as [m slots]. unfold define_module. quiet; [|apply quiet_slots]. intros st r st' [= <- <-]. unfold import_into. destruct (populate_import _ _ _ _ _). now cbn.
Qed.
Lemma quiet_modules ev mods l : forall seen, quiet (define_modules ev mods seen l).
Proof. induction l as [|x l IH]; intros seen; cbn [define_modules]; quiet. apply quiet_module. Qed.
Lemma quiet_check ev x t : quiet (check_default ev x t).
Proof.
  intros st r st' E H. apply check_default_pool in E as (_ & ds & E). apply (f_equal us_diags) in E. cbn [set_diags us_diags] in E. rewrite E in H. now apply no_harm_app in H as (H & _).
Qed.
Lemma quiet_default ev x : quiet (compile_default ev x).
Proof. unfold compile_default. do 5 (apply quiet_bind; [quiet|intros ?]). apply quiet_bind; [quiet|intros _]. apply (quiet_check ev x). Qed.
Lemma body_done ev sg pm x st r st' : compile_body ev sg pm x st = (Done r, st') -> no_harm (us_diags st') ->
  no_harm (us_diags st) /\ exists f g ds, r = [f] /\ compile_function ev sg pm x (us_pool st) = Done (f, ds, us_pool st') /\ no_harm ds /\ us_proxies st' = us_proxies st /\
    get_function (us_pool st') (cf_index f) = Done g /\ no_harm (passes (cf_code f) {| fm_flags := fu_flags g; fm_was_callback := fb_was_callback x; fm_span := cf_span f |}).
Proof.
  intros E H. unfold compile_body in E. apply bind_done in E as (p & st1 & E1 & E). injection E1 as <- <-.
  destruct (compile_function ev sg pm x (us_pool st)) as [[[f ds] p']|e] eqn:C.
  - apply bind_done in E as (u & st2 & E2 & E). injection E2 as <- <-. apply bind_done in E as (g & st3 & E3 & E). unfold ulift in E3. injection E3 as E3 <-. apply pe_done in E3.
    apply bind_done in E as (u' & st4 & E4 & E). injection E4 as <- <-. injection E as <- <-. cbn [set_diags set_pool us_diags us_pool us_proxies] in *.
    apply no_harm_app in H as (H & HP). apply no_harm_app in H as (H1 & H2). split; [exact H1|]. exists f, g, ds. auto 10.
  - apply bind_done in E as (u & st2 & E2 & E). injection E as <- <-. destruct (report_loud _ _ _ _ E2 H).
Qed.

Definition safe (st : ustate) : Prop := fits (us_pool st) /\ no_harm (us_diags st).
Definition back {A} (m : U A) : Prop := forall st a st', m st = (Done a, st') -> safe st' -> safe st.
Lemma back_of {A} (m : U A) : mono m -> quiet m -> back m.
Proof. intros M Q st a st' E (F & D). split; [exact (grown_fits _ _ (M _ _ _ E) F)|exact (Q _ _ _ E D)]. Qed.

(** * Defining *)
Record good (st : ustate) : Prop := Good {
  gd_names : names_ok (us_pool st);
  gd_types : types_named (us_module st) (us_pool st);
  gd_bodies : Forall (fun b => fb_index b < size (us_pool st)) (us_bodies st);
  gd_defaults : Forall (fun b => ft_index b < size (us_pool st)) (us_defaults st) }.
Record step (T : pidx -> Prop) (st st' : ustate) : Prop := Step {
  sg_pool : onto false T (us_pool st) (us_pool st');
  sg_bodies : exists bs, us_bodies st' = us_bodies st ++ bs /\ Forall (fun b => T (fb_index b) \/ size (us_pool st) <= fb_index b) bs;
  sg_defaults : exists bs, us_defaults st' = us_defaults st ++ bs /\ Forall (fun b => T (ft_index b) \/ size (us_pool st) <= ft_index b) bs;
  sg_syms : sc_symbols (us_module st') = sc_symbols (us_module st);
  sg_root : us_scope st' = us_scope st /\ us_symbols st' = us_symbols st }.
Lemma step_refl T st : step T st st.
Proof. split; [apply onto_refl| | |reflexivity|auto]; exists []; rewrite app_nil_r; auto. Qed.
Lemma step_trans T a b c : step T a b -> step T b c -> step T a c.
Proof.
  intros [A1 (x & A2 & A3) (y & A4 & A5) A6 (A7 & A8)] [B1 (z & B2 & B3) (w & B4 & B5) B6 (B7 & B8)].
  pose proof (proj1 A1) as L. split; [exact (onto_trans _ _ _ _ _ A1 B1)| | |congruence|split; congruence].
  - exists (x ++ z). rewrite B2, A2, app_assoc. split; [reflexivity|]. apply Forall_app. split; [exact A3|]. eapply Forall_impl; [|exact B3]. cbv beta. intros u [X|X]; [auto|right; lia].
  - exists (y ++ w). rewrite B4, A4, app_assoc. split; [reflexivity|]. apply Forall_app. split; [exact A5|]. eapply Forall_impl; [|exact B5]. cbv beta. intros u [X|X]; [auto|right; lia].
Qed.
Lemma step_weaken (T T' : pidx -> Prop) a b : step T a b -> (forall i, T i -> T' i \/ size (us_pool a) <= i) -> step T' a b.
Proof.
  intros [A1 (x & A2 & A3) (y & A4 & A5) A6 A7] H. split; [| | |exact A6|exact A7].
  - destruct A1 as (B1 & B2 & B3). split; [exact B1|]. split; [exact B2|]. intros i d D. destruct (B3 _ _ D) as (d' & D' & N & K). exists d'. split; [exact D'|]. split; [exact N|].
    destruct K as [K|(K & L)]; [now left|]. destruct (H _ K) as [X|X]; [now right|]. apply at_bounds in D. lia.
  - exists x. split; [exact A2|]. eapply Forall_impl; [|exact A3]. cbv beta. intros u [X|X]; [destruct (H _ X); auto|auto].
  - exists y. split; [exact A4|]. eapply Forall_impl; [|exact A5]. cbv beta. intros u [X|X]; [destruct (H _ X); auto|auto].
Qed.
Lemma step_none T a b : step none a b -> step T a b.
Proof. intros H. apply (step_weaken _ _ _ _ H). intros i []. Qed.
(** Steps that only change the pool and the types of the scope. *)
Lemma step_pool T st p s : onto false T (us_pool st) p -> sc_symbols s = sc_symbols (us_module st) -> step T st (set_pool p (set_module s st)).
Proof. intros O S. split; cbn; [exact O| | |exact S|auto]; exists []; rewrite app_nil_r; auto. Qed.
Lemma step_same T st st' : us_pool st' = us_pool st -> us_bodies st' = us_bodies st -> us_defaults st' = us_defaults st -> us_module st' = us_module st ->
  us_scope st' = us_scope st -> us_symbols st' = us_symbols st -> step T st st'.
Proof. intros A B C D E F. split; [rewrite A; apply onto_refl| | |now rewrite D|auto]; exists []; rewrite app_nil_r; auto. Qed.
Lemma good_same st st' : us_pool st' = us_pool st -> us_bodies st' = us_bodies st -> us_defaults st' = us_defaults st -> us_module st' = us_module st -> good st -> good st'.
Proof. intros A B C D [G1 G2 G3 G4]. split; rewrite ?A, ?B, ?C, ?D; assumption. Qed.
Lemma types_onto b T s p q : onto b T p q -> types_named s p -> types_named s q.
Proof. intros O H n i E. exact (onto_name _ _ _ _ _ _ O (H _ _ E)). Qed.
Lemma good_pool b T st p : onto b T (us_pool st) p -> names_ok p -> good st -> good (set_pool p st).
Proof.
  intros O N [G1 G2 G3 G4]. pose proof (proj1 O) as L. split; cbn; [exact N|exact (types_onto _ _ _ _ _ O G2)| |].
  - eapply Forall_impl; [|exact G3]. cbv beta. intros. lia.
  - eapply Forall_impl; [|exact G4]. cbv beta. intros. lia.
Qed.
Lemma step_change T st p : onto false T (us_pool st) p -> step T st (set_pool p st).
Proof. intros O. split; cbn; [exact O| | |reflexivity|auto]; exists []; rewrite app_nil_r; auto. Qed.

Lemma run_name n st i st' : name_index n st = (Done i, st') -> safe st' -> good st ->
  step none st st' /\ good st' /\ us_module st' = us_module st /\ st_get (Some none_str) (pl_names (us_pool st')) i = inl n /\ pl_defs (us_pool st') = pl_defs (us_pool st).
Proof.
  unfold name_index, on_pool. destruct (add_name (us_pool st) n) as [p j] eqn:E. intros [= <- <-] (F & _) G. cbn [set_pool us_pool] in *.
  destruct (add_text _ _ _ _ E (gd_names _ G) F) as (N & X). assert (O : forall b T, onto b T (us_pool st) p) by (intros; apply onto_extends, (add_name_extends _ _ _ _ E)).
  split; [apply step_change, O|]. split; [apply (good_pool false none); auto|]. split; [reflexivity|]. split; [exact X|exact (add_name_defs _ _ _ _ E)].
Qed.
Lemma run_def d st i st' : new_definition d st = (Done i, st') -> safe st' -> good st ->
  step none st st' /\ good st' /\ us_module st' = us_module st /\ i = size (us_pool st) /\ def_at (us_pool st') i = Some d /\ pl_names (us_pool st') = pl_names (us_pool st).
Proof.
  unfold new_definition, on_pool. destruct (add_definition (us_pool st) d) as [p j] eqn:E. intros [= <- <-] (F & _) G. cbn [set_pool us_pool] in *.
  destruct (add_def_spec _ _ _ _ E F) as (-> & D & _ & N & _). assert (O : forall b T, onto b T (us_pool st) p) by (intros; apply onto_extends, (extends_add_definition _ _ _ _ E)).
  split; [apply step_change, O|]. split; [apply (good_pool false none); auto; unfold names_ok; rewrite N; exact (gd_names _ G)|]. auto.
Qed.
Lemma back_name n : back (name_index n).
Proof. apply back_of; [mono|quiet]. Qed.
Lemma back_def d : back (new_definition d).
Proof. apply back_of; [mono|quiet]. Qed.
Lemma run_stub n st i st' : new_stub n st = (Done i, st') -> safe st' -> good st ->
  step none st st' /\ good st' /\ us_module st' = us_module st /\ i = size (us_pool st) /\ (exists k, def_at (us_pool st') i = Some (stub k)) /\ def_name (us_pool st') i = Done n.
Proof.
  intros E S G. apply bind_done in E as (k & st1 & E1 & E2). pose proof (back_def _ _ _ _ E2 S) as S1.
  destruct (run_name _ _ _ _ E1 S1 G) as (P1 & G1 & M1 & X1 & D1). destruct (run_def _ _ _ _ E2 S G1) as (P2 & G2 & M2 & -> & D2 & N2).
  split; [exact (step_trans _ _ _ _ P1 P2)|]. split; [exact G2|]. split; [congruence|]. split; [unfold size; now rewrite D1|]. split; [eauto|].
  apply (name_at _ _ _ _ D2). cbn [stub df_name]. now rewrite N2.
Qed.

(** Types. *)
Lemma request_fits t : forall s p i s' p', get_type_index t s p = Done (i, s', p') -> names_ok p -> fits p' -> types_named s p ->
  types_named s' p' /\ sc_symbols s' = sc_symbols s /\ exists n, ti_repr p t = Done n /\ def_name p' i = Done n.
Proof.
  induction t; intros s p k s' p' H Hok Hs Ht;
    apply gti_cases in H as (name & En & [(Ef & -> & ->)|(Ef & p1 & ni & s1 & p2 & v & Ea & Ed & -> & C)]);
    try (split; [assumption|]; split; [reflexivity|]; exists name; split; [assumption|now apply Ht]); try contradiction.
  all: assert (G : extends p1 p2 /\ (fits p2 -> names_ok p1 -> types_named s p1 -> types_named s1 p2 /\ sc_symbols s1 = sc_symbols s)).
  1,3,5,7,19: destruct C as (-> & -> & ->); split; [apply extends_refl|auto].
  all: try (destruct C as (j & C & ->); split; [exact (inner_extends _ _ _ _ _ _ C)|]; intros F N TY; destruct (IHt _ _ _ _ _ C N F TY) as (X & Y & _); auto).
  all: destruct G as (G1 & G2); destruct (add_def_spec _ _ _ _ Ed Hs) as (-> & D & _ & N & _);
    assert (F2 : fits p2) by (exact (grown_fits _ _ (grown_extends _ _ (extends_add_definition _ _ _ _ Ed)) Hs));
    assert (F1 : fits p1) by (exact (grown_fits _ _ (grown_extends _ _ G1) F2));
    destruct (add_text _ _ _ _ Ea Hok F1) as (N1 & X1);
    destruct (G2 F2 N1 (types_named_extends _ _ _ (add_name_extends _ _ _ _ Ea) Ht)) as (T2 & S2);
    assert (NM : def_name p' (WrapSpec.size p2) = Done name) by (apply (name_at _ _ _ _ D); cbn [type_definition df_name]; rewrite N; eapply prefix_get; [exact (proj1 (proj2 G1))|exact X1]);
    (split; [|split; [exact S2|eauto]]);
    intros n j; cbn [sc_types sc_add_type set_types]; rewrite am_find_insert; destruct (str_eqb_spec name n) as [<-|];
    [intros [= <-]; exact NM|intros E; eapply extends_def_name; [exact (extends_add_definition _ _ _ _ Ed)|now apply T2]].
Qed.
Lemma run_declared n sp st i st' : declared_type n sp st = (Done i, st') -> safe st' -> good st ->
  step none st st' /\ good st' /\ type_is (sc_symbols (us_module st)) (us_pool st') n i.
Proof.
  intros E S G. apply bind_done in E as (t & st1 & E1 & E2).
  assert (S1 : safe st1) by (eapply back_of; [apply mono_type|apply quiet_type|exact E2|exact S]).
  assert (R : st1 = st /\ resolve_type (us_module st) (us_pool st) n = Done t).
  { revert E1. unfold try_resolve_type. destruct (resolve_type _ _ _) as [u|e]; cbn [with_span map_err]; [intros [= <- <-]; auto|].
    intros E1. apply bind_done in E1 as (u & st2 & E3 & E4). injection E4 as _ <-. destruct (report_loud _ _ _ _ E3 (proj2 S1)). }
  destruct R as (-> & R). revert E2. unfold type_index. destruct (get_type_index t _ _) as [[[j s] p]|] eqn:GT; cbn [with_span map_err]; [|discriminate].
  intros [= <- <-]. destruct S as (F & _). cbn [set_pool us_pool] in F. destruct (request_fits _ _ _ _ _ _ GT (gd_names _ G) F (gd_types _ G)) as (A & B & nm & C & D).
  pose proof (inner_extends _ _ _ _ _ _ GT) as X. assert (O : forall b T, onto b T (us_pool st) p) by (intros; apply onto_extends, X).
  split; [apply step_pool; auto|]. split.
  - destruct G as [G1 G2 G3 G4]. pose proof (proj1 (O false none)) as L. split; cbn; [|exact A| |].
    + exact (proj2 (proj2 (adds_gti _ _ _ _ _ _ GT)) F G1).
    + eapply Forall_impl; [|exact G3]. cbv beta. intros. lia.
    + eapply Forall_impl; [|exact G4]. cbv beta. intros. lia.
  - exists (us_module st), (us_pool st), t, nm. split; [reflexivity|]. split; [exact (gd_types _ G)|]. split; [exact (earlier_onto _ _ _ _ (O false none))|]. cbn [set_pool us_pool]. auto.
Qed.
Lemma back_declared n sp : back (declared_type n sp).
Proof. apply back_of; [mono|quiet]. Qed.

(** What has been said about types, parameters and the like remains so. *)
Lemma type_onto b T syms p q t i : onto b T p q -> type_is syms p t i -> type_is syms q t i.
Proof.
  intros O (s & p1 & ty & n & A & B & C & D & E & F). exists s, p1, ty, n. repeat split; auto; [exact (onto_earlier _ _ _ _ _ O C)|exact (onto_name _ _ _ _ _ _ O F)].
Qed.
Lemma parameter_onto b (T : pidx -> Prop) syms p q f x i : onto b T p q -> ~ T i -> parameter_is syms p f x i -> parameter_is syms q f x i.
Proof.
  intros O N (d & t & fl & A & B & C & D & E & F). exists d, t, fl. split; [apply (onto_at _ _ _ _ _ _ O A N); intros k; congruence|].
  split; [exact (onto_name _ _ _ _ _ _ O B)|]. split; [exact C|]. split; [exact D|]. split; [exact (type_onto _ _ _ _ _ _ _ O E)|exact F].
Qed.
Lemma returns_onto b T syms p q t r : onto b T p q -> returns syms p t r -> returns syms q t r.
Proof. intros O. destruct t, r; cbn [returns]; auto. intros (A & B). split; [exact A|exact (type_onto _ _ _ _ _ _ _ O B)]. Qed.
Lemma Forall2_weaken {A B} (P Q : A -> B -> Prop) l l' : Forall2 P l l' -> (forall x y, In y l' -> P x y -> Q x y) -> Forall2 Q l l'.
Proof. induction 1; intros H'; constructor; [apply H'; [now left|exact H]|]. apply IHForall2. intros x0 y0 I. apply H'. now right. Qed.
Lemma heading_onto b (T : pidx -> Prop) syms p q f c v base repl src d x : onto b T p q -> Forall (fun i => ~ T i) (fu_parameters x) ->
  heading syms p f c v base repl src d x -> heading syms q f c v base repl src d x.
Proof.
  intros O N (A & B & C & D & E & F). split; [exact A|]. split; [exact B|]. split; [exact (returns_onto _ _ _ _ _ _ _ O C)|]. split; [|auto].
  rewrite Forall_forall in N. apply (Forall2_weaken _ _ _ _ D). intros y i I. apply (parameter_onto _ _ _ _ _ _ _ _ O). auto.
Qed.

(** Flags. *)
Lemma with_flag_testbit i v fl k : 0 <= i -> 0 <= k -> get_flag k (with_flag i v fl) = if i =? k then v else get_flag k fl.
Proof.
  intros I K. unfold get_flag, with_flag. destruct v.
  - rewrite Z.setbit_eqb by exact I. destruct (i =? k); reflexivity.
  - rewrite Z.clearbit_eqb. destruct (i =? k); cbn [negb]; [apply andb_false_r|apply andb_true_r].
Qed.
