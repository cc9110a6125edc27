(** C49: declarations whose conditions do not hold have no effect. *)
From Coq Require Import String.
From Coq Require Import ZArith List Bool Lia.
From Verif Require Import Bytes Bytecode Definitions Bundle Ast TypeNames Pool Scope TypeCheck Symbols SourceMap Diagnostics Report Wrappers CleanupSpec
  Unit UnitSpec UnitSteps DisabledSpec P_Unit.
From Verif Require Cleanup P_Cleanup.
Import ListNotations.
Open Scope Z_scope.

(** Two steps that leave the same state and related results. *)
Definition alike {A B} (R : A -> B -> Prop) (m : U A) (m' : U B) : Prop :=
  forall st, snd (m st) = snd (m' st) /\ match fst (m st), fst (m' st) with Done a, Done b => R a b | Fail e, Fail e' => e = e' | _, _ => False end.
Lemma alike_refl {A} (m : U A) : alike eq m m.
Proof. intros st. split; [reflexivity|]. destruct (fst (m st)); reflexivity. Qed.
Lemma alike_ret {A B} (R : A -> B -> Prop) a b : R a b -> alike R (uret a) (uret b).
Proof. intros H st. split; [reflexivity|exact H]. Qed.
Lemma alike_bind {A A' B B'} (R : A -> A' -> Prop) (S : B -> B' -> Prop) m m' k k' :
  alike R m m' -> (forall a a', R a a' -> alike S (k a) (k' a')) -> alike S (ubind m k) (ubind m' k').
Proof.
  intros M K st. unfold ubind. destruct (M st) as (E & X). destruct (m st) as [[a|e] st1], (m' st) as [[a'|e'] st2]; cbn [fst snd] in *; try contradiction; subst.
  - apply K, X.
  - split; reflexivity.
Qed.
Lemma alike_then {A B B'} (S : B -> B' -> Prop) (m : U A) k k' : (forall a, alike S (k a) (k' a)) -> alike S (ubind m k) (ubind m k').
Proof. intros K. eapply alike_bind; [apply alike_refl|]. intros a a' <-. apply K. Qed.
Lemma alike_weaken {A B} (R S : A -> B -> Prop) m m' : alike R m m' -> (forall a b, R a b -> S a b) -> alike S m m'.
Proof. intros M H st. destruct (M st) as (E & X). split; [exact E|]. destruct (fst (m st)), (fst (m' st)); auto. Qed.
(** A loop over a list from which elements without effect are dropped; [none] is
    their result. *)
Section Loops.
Context {A B B' C : Type}.
Variables (f : A -> U B) (f' : A -> U B') (en : A -> bool) (g : A -> A) (h : B -> list C) (h' : B' -> list C).
Hypothesis Dropped : forall x, en x = false -> forall st, exists y, f x st = (Done y, st) /\ h y = [].
Hypothesis Kept : forall x, en x = true -> alike (fun a b => h a = h' b) (f x) (f' (g x)).
Lemma alike_map l : alike (fun a b => flat_map h a = flat_map h' b) (umap f l) (umap f' (map g (filter en l))).
Proof.
  induction l as [|x l IH]; [now apply alike_ret|]. cbn [filter]. destruct (en x) eqn:E.
  - cbn [map umap]. eapply alike_bind; [exact (Kept x E)|]. intros a b H. eapply alike_bind; [exact IH|]. intros a' b' H'. apply alike_ret. cbn [flat_map]. congruence.
  - intros st. cbn [umap]. destruct (Dropped x E st) as (y & Y & N). unfold ubind at 1 3. rewrite Y. destruct (IH st) as (S & R). unfold ubind.
    fold (umap f l). destruct (umap f l st) as [[a|e] st1], (umap f' (map g (filter en l)) st) as [[b|e'] st2]; cbn [fst snd uret] in *; try contradiction; subst; split; auto.
    cbn [flat_map]. now rewrite N.
Qed.
End Loops.
Lemma alike_each {A} (f : A -> U unit) en l : (forall x, en x = false -> forall st, f x st = (Done tt, st)) -> alike eq (ueach f l) (ueach f (filter en l)).
Proof.
  intros D. induction l as [|x l IH]; [now apply alike_ret|]. cbn [filter]. destruct (en x) eqn:E.
  - cbn [ueach]. apply alike_then. intros _. exact IH.
  - intros st. cbn [ueach]. unfold ubind at 1 2. rewrite (D x E st). exact (IH st).
Qed.
Lemma off mods anns : enabled mods anns = false -> eval_conditions mods anns = Done false.
Proof. unfold enabled, disabled. destruct (eval_conditions mods anns) as [[]|]; [discriminate|reflexivity|discriminate]. Qed.

Section Strip.
Variables (ev : env) (mods : list module_path).
Definition strip_slot (s : slot) : slot := match s with SlotClass b i c v => SlotClass b i (strip_class mods c) v | _ => s end.
(** Declaring. *)
Lemma alike_fail {A B} (R : A -> B -> Prop) sp c : alike R (ufailc sp c) (ufailc sp c).
Proof. intros st. split; reflexivity. Qed.
Ltac go := repeat first [ apply alike_fail | apply alike_ret; reflexivity | apply alike_then; intros ? | match goal with |- alike _ (if ?b then _ else _) _ => destruct b end
                        | match goal with |- alike _ (match ?x with _ => _ end) _ => destruct x end ].
Lemma alike_symbol pm m e : alike (fun a b => map strip_slot a = b) (do s <- define_symbol pm e m; uret [s]) (do s <- define_symbol pm (strip_entry mods e) m; uret [s]).
Proof.
  apply (alike_bind (fun a b => b = strip_slot a)); [|now intros a b ->; apply alike_ret].
  destruct e as [b c|src|src|src]; cbn [define_symbol strip_entry strip_class cs_decl cs_span]; cbv zeta.
  - go.
  - unfold place_function, place_annotated. cbv zeta. go.
  - go.
  - go.
Qed.
Lemma alike_entry pm m e : enabled mods (dc_annotations (entry_decl e)) = true ->
  alike (fun a b => map strip_slot a = b) (declare_entry pm mods m e) (declare_entry pm mods m (strip_entry mods e)).
Proof.
  intros _. unfold declare_entry. replace (entry_decl (strip_entry mods e)) with (entry_decl e) by now destruct e.
  apply alike_then. intros []; [|now apply alike_ret].
  intros st. destruct (alike_symbol pm m e st) as (S & R). unfold ubind, uret in S, R.
  destruct (define_symbol pm e m st) as [[a|x] st1], (define_symbol pm (strip_entry mods e) m st) as [[b|y] st2]; cbn [fst snd] in *; try contradiction; subst; [split; auto|].
  apply (alike_then _ (ureport y) (fun _ => uret []) (fun _ => uret [])). intros _. now apply alike_ret.
Qed.
Definition strip_queued (x : source_module * list slot) : source_module * list slot := (strip_module mods (fst x), map strip_slot (snd x)).
Lemma map_concat {A B} (f : A -> B) l : map f (concat l) = flat_map (map f) l.
Proof. induction l as [|x l IH]; [reflexivity|]. cbn [concat flat_map]. now rewrite map_app, IH. Qed.
Lemma flat_map_id' {A} (l : list (list A)) : flat_map (fun x => x) l = concat l.
Proof. induction l as [|x l IH]; [reflexivity|]. cbn [concat flat_map]. now rewrite IH. Qed.
Lemma alike_declare pm m : alike (fun a b => strip_queued a = b) (declare_module pm mods m) (declare_module pm mods (strip_module mods m)).
Proof.
  unfold declare_module. replace (path_of (strip_module mods m)) with (path_of m) by reflexivity. cbn [strip_module sm_entries].
  eapply alike_bind.
  - apply (alike_map (declare_entry pm mods (path_of m)) (declare_entry pm mods (path_of m))
             (fun e => enabled mods (dc_annotations (entry_decl e))) (strip_entry mods) (map strip_slot) (fun x => x)).
    + intros e E st. exists []. split; [|reflexivity]. unfold declare_entry, ubind, ulift. rewrite (off _ _ E). reflexivity.
    + apply alike_entry.
  - intros a b H. apply alike_ret. unfold strip_queued. cbn [fst snd]. f_equal. rewrite map_concat, H. apply flat_map_id'.
Qed.
Lemma alike_modules pm l : alike (fun a b => map strip_queued a = b) (umap (declare_module pm mods) l) (umap (declare_module pm mods) (map (strip_module mods) l)).
Proof.
  induction l as [|m l IH]; [now apply alike_ret|]. cbn [map umap]. eapply alike_bind; [apply alike_declare|]. intros a b <-.
  eapply alike_bind; [exact IH|]. intros a' b' <-. now apply alike_ret.
Qed.
(** Defining. *)
Definition members_of (x : option (pidx + pidx)) : list (pidx + pidx) := match x with Some y => [y] | None => [] end.
Lemma functions_flat l : functions_of l = flat_map (fun x => match x with inl i => [i] | _ => [] end) (flat_map members_of l).
Proof. induction l as [|[[i|i]|] l IH]; [reflexivity|..]; cbn; now rewrite <- ?IH. Qed.
Lemma fields_flat l : fields_of l = flat_map (fun x => match x with inr i => [i] | _ => [] end) (flat_map members_of l).
Proof. induction l as [|[[i|i]|] l IH]; [reflexivity|..]; cbn; now rewrite <- ?IH. Qed.
Lemma alike_class is_struct c v src : alike eq (define_class ev mods is_struct c v src) (define_class ev mods is_struct c v (strip_class mods src)).
Proof.
  unfold define_class. cbv zeta. cbn [strip_class cs_decl cs_members cs_span].
  eapply alike_bind.
  - rewrite <- (map_id (filter _ (cs_members src))).
    apply (alike_map _ _ _ (fun m => m) members_of members_of).
    + intros m E st. exists None. split; [|reflexivity]. destruct m; unfold define_member, ubind, ulift; cbn [member_decl] in E; rewrite (off _ _ E); reflexivity.
    + intros m _. eapply alike_weaken; [apply alike_refl|]. now intros a b <-.
  - intros a b H. rewrite !functions_flat, !fields_flat, H. change (base_class is_struct (strip_class mods src)) with (base_class is_struct src). apply alike_refl.
Qed.
Lemma alike_reported m m' : alike eq m m' -> alike eq (reported m) (reported m').
Proof.
  intros H st. destruct (H st) as (S & R). unfold reported. destruct (m st) as [[a|x] st1], (m' st) as [[b|y] st2]; cbn [fst snd] in *; try contradiction; subst; [split; reflexivity|].
  apply alike_refl.
Qed.
Lemma alike_slots l : forall seen, alike eq (define_slots ev mods seen l) (define_slots ev mods seen (map strip_slot l)).
Proof.
  induction l as [|s l IH]; intros seen; [now apply alike_ret|]. cbn [map define_slots].
  replace (slot_function (strip_slot s)) with (slot_function s) by now destruct s.
  eapply alike_bind; [|intros a b _; apply IH]. apply alike_reported. destruct s; cbn [strip_slot define_slot]; try apply alike_refl. apply alike_class.
Qed.
Lemma alike_define seen x : alike eq (define_module ev mods seen x) (define_module ev mods seen (strip_queued x)).
Proof.
  destruct x as [m slots]. unfold define_module, strip_queued. cbn [fst snd]. replace (path_of (strip_module mods m)) with (path_of m) by reflexivity.
  do 2 (apply alike_then; intros _). cbn [strip_module sm_imports]. eapply alike_bind; [|intros _ _ _; apply alike_slots].
  apply alike_each. intros i E st. unfold ubind, ulift. rewrite (off _ _ E). reflexivity.
Qed.
Lemma alike_defines l : forall seen, alike eq (define_modules ev mods seen l) (define_modules ev mods seen (map strip_queued l)).
Proof.
  induction l as [|x l IH]; intros seen; [now apply alike_ret|]. cbn [map define_modules]. eapply alike_bind; [apply alike_define|]. intros a b <-. apply IH.
Qed.
End Strip.

Lemma strip_names mods l : module_names (map (strip_module mods) l) = module_names l.
Proof. unfold module_names. induction l as [|m l IH]; [reflexivity|]. cbn [map flat_map strip_module sm_path]. now rewrite IH. Qed.
Lemma alike_compile ev sugar pm l : alike eq (compile_modules ev sugar pm l) (compile_modules ev sugar pm (strip l)).
Proof.
  unfold compile_modules. cbv zeta. fold (module_names l). fold (module_names (strip l)). unfold strip. rewrite strip_names.
  eapply alike_bind; [apply alike_modules|]. intros a b <-. eapply alike_bind; [apply alike_defines|]. intros _ _ _. apply alike_refl.
Qed.

(** C49.  Whatever the modules [l] and the bundle [p] are: compiling [l] gives what
    compiling [l] without its disabled declarations gives, the same bundle, the same
    diagnostics and the same error, if any.  Which conditions do not hold is C27. *)
Theorem C49_disabled_has_no_effect ev l p : compile ev l p = compile ev (strip l) p.
Proof.
  unfold compile. destruct (unit_new ev p) as [st|e]; [|reflexivity]. cbn [obind]. destruct (alike_compile ev true false l st) as (S & R).
  destruct (compile_modules ev true false l st) as [[a|e] st1], (compile_modules ev true false (strip l) st) as [[b|e'] st2]; cbn [fst snd] in *; try contradiction; congruence.
Qed.
Print Assumptions C49_disabled_has_no_effect.

(** Modules without entries. *)
Definition quiet (st st' : ustate) : Prop := us_pool st' = us_pool st /\ us_bodies st' = us_bodies st /\ us_defaults st' = us_defaults st /\
  us_wrappers st' = us_wrappers st /\ us_proxies st' = us_proxies st /\ us_refs st' = us_refs st.
Lemma quiet_refl st : quiet st st. Proof. repeat split. Qed.
Lemma quiet_trans a b c : quiet a b -> quiet b c -> quiet a c.
Proof. unfold quiet. intros (A & B & C & D & E & F) (A' & B' & C' & D' & E' & F'). repeat split; congruence. Qed.
Definition idle {A} (m : U A) : Prop := forall st, quiet st (snd (m st)).
Lemma idle_ret {A} (a : A) : idle (uret a). Proof. intros st. apply quiet_refl. Qed.
Lemma idle_lift {A} (a : outcome error A) : idle (ulift a). Proof. intros st. apply quiet_refl. Qed.
Lemma idle_bind {A B} (m : U A) (k : A -> U B) : idle m -> (forall a, idle (k a)) -> idle (ubind m k).
Proof. intros M K st. unfold ubind. pose proof (M st) as Q. destruct (m st) as [[a|e] st1]; cbn [snd] in *; [|exact Q]. exact (quiet_trans _ _ _ Q (K a st1)). Qed.
Lemma idle_report e : idle (ureport e).
Proof. apply idle_bind; [apply idle_lift|]. intros d st. repeat split. Qed.
Lemma idle_reported m : idle m -> idle (reported m).
Proof. intros M st. unfold reported. pose proof (M st) as Q. destruct (m st) as [[a|e] st1]; cbn [snd] in *; [exact Q|]. exact (quiet_trans _ _ _ Q (idle_report e st1)). Qed.
Lemma idle_import ev i v : idle (import_into ev i v).
Proof. intros st. unfold import_into. destruct (populate_import _ _ _ _ _) as [s r]. repeat split. Qed.
Lemma idle_each {A} (f : A -> U Datatypes.unit) l : (forall x, idle (f x)) -> idle (ueach f l).
Proof. intros H. induction l as [|x l IH]; [apply idle_ret|]. cbn [ueach]. apply idle_bind; [apply H|]. intros _. exact IH. Qed.
Lemma declare_none pm mods l : (forall m, In m l -> sm_entries m = []) -> forall st, umap (declare_module pm mods) l st = (Done (map (fun m => (m, [])) l), st).
Proof.
  induction l as [|m l IH]; intros H st; [reflexivity|]. cbn [umap map]. unfold ubind at 1. unfold declare_module at 1. rewrite (H m) by now left.
  change (ubind (umap (declare_entry pm mods (path_of m)) []) (fun slots => uret (m, concat slots)) st) with (Done (E := error) (m, @nil slot), st). cbv iota.
  unfold ubind. rewrite IH by (intros x X; apply H; now right). reflexivity.
Qed.
Lemma idle_defines ev mods l : forall seen, idle (define_modules ev mods seen (map (fun m => (m, [])) l)).
Proof.
  induction l as [|m l IH]; intros seen; [apply idle_ret|]. cbn [map define_modules]. apply idle_bind; [|intros x; apply IH].
  unfold define_module. apply idle_bind; [intros st; repeat split|]. intros _. apply idle_bind.
  - destruct (is_nil _); [apply idle_ret|]. intros st. cbn [snd]. apply idle_import.
  - intros _. apply idle_bind; [|intros _; apply idle_ret]. apply idle_each. intros i. apply idle_bind; [apply idle_lift|]. intros []; [|apply idle_ret].
    apply idle_reported, idle_import.
Qed.

(** If no declaration is enabled, the result is the bundle that was given. *)
Theorem C49_nothing_enabled ev l p out : fair ev -> compile ev l p = Done out ->
  (forall m e, In m l -> In e (sm_entries m) -> eval_conditions (module_names l) (dc_annotations (entry_decl e)) = Done false) ->
  acyclic p -> bases_first p -> (length (pl_defs p) < ev_fuel ev)%nat ->
  out_pool out = p /\ out_refs out = [].
Proof.
  intros (_ & FW & FP & _) C D AC BF FU. rewrite C49_disabled_has_no_effect in C. unfold compile in C.
  destruct (unit_new ev p) as [st|e] eqn:N; [|discriminate]. cbn [obind] in C.
  assert (I : us_pool st = p /\ us_bodies st = [] /\ us_defaults st = [] /\ us_wrappers st = [] /\ us_proxies st = [] /\ us_refs st = []).
  { unfold unit_new in N. destruct (sy_new p); [|discriminate]. cbn [obind] in N. destruct (scope_new p); [|discriminate]. cbn [obind] in N.
    destruct (populate_import _ _ _ _ _) as [s' [r|r]]; [|discriminate]. cbn [obind] in N. injection N as <-. repeat split. }
  assert (E : forall m, In m (strip l) -> sm_entries m = []).
  { intros m' M. unfold strip in M. apply in_map_iff in M as (m & <- & M). cbn [strip_module sm_entries].
    replace (filter _ (sm_entries m)) with (@nil source_entry); [reflexivity|]. symmetry. specialize (D m). clear - D M.
    induction (sm_entries m) as [|e l' IH]; [reflexivity|]. cbn [filter]. unfold enabled at 1, disabled. rewrite (D e M) by now left. cbn [negb].
    apply IH. intros x _ X. apply D; [exact M|now right]. }
  unfold compile_modules in C. cbv zeta in C. fold (module_names (strip l)) in C. unfold ubind at 1 in C. rewrite declare_none in C by exact E. cbv iota in C.
  unfold ubind at 1 in C. pose proof (idle_defines ev (module_names (strip l)) (strip l) [] st) as Q.
  destruct (define_modules _ _ _ _ st) as [[u|e] st1]; [|discriminate]. cbn [snd] in Q. destruct Q as (Q1 & Q2 & Q3 & Q4 & Q5 & Q6). destruct I as (I1 & I2 & I3 & I4 & I5 & I6).
  rewrite I1 in Q1. rewrite I2 in Q2. rewrite I3 in Q3. rewrite I4 in Q4. rewrite I5 in Q5. rewrite I6 in Q6.
  unfold ubind, uget in C. rewrite Q3 in C. cbn [ueach uret] in C. rewrite Q4 in C.
  assert (W : ev_wrappers ev [] = []) by (apply Permutation.Permutation_nil, Permutation.Permutation_sym, FW).
  assert (P : ev_proxies ev [] = []) by (apply Permutation.Permutation_nil, Permutation.Permutation_sym, FP).
  rewrite W in C. cbn [construct_proxies] in C. cbn [set_pool set_root us_bodies] in C. rewrite Q2 in C. cbn [umap uret concat] in C.
  unfold finish, assemble_all in C. cbn [install_all obind us_proxies us_pool us_refs set_pool set_root] in C. rewrite Q5, P in C. cbn [swap_proxies obind] in C.
  rewrite Q1, Q6 in C. cbn [map] in C.
  destruct (P_Cleanup.C24_classes_after_bases p [] (ev_fuel ev) AC FU) as (p' & move & CL & _ & _ & B). rewrite CL in C. cbn [of_cleanup map_err map obind combine] in C.
  destruct (B BF) as (-> & _). injection C as <-. split; reflexivity.
Qed.
Print Assumptions C49_nothing_enabled.

(** A class with a member that is there only without the module [Extra], an addition
    for [Extra] whose class does not exist, an import for [Extra] of a name that does
    not exist. *)
Definition di_if (negated : bool) : annotation :=
  let e := ECall (N := source_ast) (lit "ModuleExists") [] [EConstant (CString LString (lit "Extra")) un_sp] un_sp in
  {| an_kind := AIf; an_args := [if negated then EUnOp (N := source_ast) e LogicNot un_sp else e]; an_span := un_sp |}.
Definition di_broken : source_entry := EntryFunction (int_fun [di_if false; ann AAddMethod "Missing"] [] "speak" (evar "n")).
Definition di_module : source_module := SourceModule None [(IExact [lit "Extra"; lit "Thing"] un_sp, [di_if false])]
  [di_broken;
   EntryClass false (ClassSource (Decl [] [] (lit "Dog") un_sp) (Some (lit "Animal"))
     [MemberFunction (int_fun [di_if false] [] "bark" (evar "unknown")); MemberFunction (int_fun [di_if true] [] "bark" (evar "n"))] un_sp)].
Definition di_extra : source_module := SourceModule (Some [lit "Extra"]) [] [].
Definition di_result : output := Eval vm_compute in match compile un_env [di_module] un_pool with Done o => o | Fail _ => Output un_pool [] [] end.
Example C49_nonvacuous :
  strip [di_module] = [SourceModule None [] [EntryClass false (ClassSource (Decl [] [] (lit "Dog") un_sp) (Some (lit "Animal"))
     [MemberFunction (int_fun [di_if true] [] "bark" (evar "n"))] un_sp)]] /\
  compile un_env [di_module] un_pool = Done di_result /\ out_diags di_result = [] /\ Z.of_nat (length (pl_defs (out_pool di_result))) > 23 /\
  exists out, compile un_env [di_module; di_extra] un_pool = Done out /\ length (out_diags out) = 3%nat.
Proof.
  split; [vm_compute; reflexivity|]. split; [vm_compute; reflexivity|]. split; [reflexivity|]. split; [vm_compute; reflexivity|].
  eexists. split; [vm_compute; reflexivity|reflexivity].
Qed.
(** The bundle made above, and a module of which nothing is enabled. *)
Definition di_none : source_module := SourceModule None [] [di_broken].
Lemma di_classes (Q : Z -> class -> Prop) : Forall (fun c => forall k, get_class (out_pool di_result) c = Done k -> Q c k) [13; 14; 21; 22; 23] ->
  forall c k, get_class (out_pool di_result) c = Done k -> Q c k.
Proof.
  intros H c k G. pose proof G as G'. apply WrapFacts.class_at in G' as (d & D & V). pose proof (WrapFacts.at_bounds _ _ _ D) as B.
  assert (X : forallb (fun i => match WrapSpec.def_at (out_pool di_result) (Z.of_nat i) with
    | Some d => match df_value d with DClass _ => existsb (Z.eqb (Z.of_nat i)) [13; 14; 21; 22; 23] | _ => true end
    | None => true end) (seq 0 (length (pl_defs (out_pool di_result)))) = true) by (vm_compute; reflexivity).
  rewrite forallb_forall in X. specialize (X (Z.to_nat c)). rewrite Z2Nat.id in X by lia. specialize (X ltac:(apply in_seq; unfold WrapSpec.size in B; lia)).
  rewrite D, V in X. apply existsb_exists in X as (n & In & En). apply Z.eqb_eq in En. subst n. rewrite Forall_forall in H. exact (H _ In _ G).
Qed.
Example C49_nothing_nonvacuous :
  fair un_env /\ acyclic (out_pool di_result) /\ bases_first (out_pool di_result) /\ (length (pl_defs (out_pool di_result)) < ev_fuel un_env)%nat /\
  eval_conditions (module_names [di_none]) (dc_annotations (entry_decl di_broken)) = Done false /\
  exists out, compile un_env [di_none] (out_pool di_result) = Done out.
Proof.
  split; [exact un_fair|]. split; [|split; [|split; [apply Nat.ltb_lt; vm_compute; reflexivity|split; [vm_compute; reflexivity|eexists; vm_compute; reflexivity]]]].
  - split; [intros k H; discriminate H|]. apply di_classes. repeat constructor; intros k _.
    + exists [13]. repeat (econstructor; [discriminate|vm_compute; reflexivity|]). constructor.
    + exists [14; 13]. repeat (econstructor; [discriminate|vm_compute; reflexivity|]). constructor.
    + exists [21; 13]. repeat (econstructor; [discriminate|vm_compute; reflexivity|]). constructor.
    + exists [22; 14; 13]. repeat (econstructor; [discriminate|vm_compute; reflexivity|]). constructor.
    + exists [23; 14; 13]. repeat (econstructor; [discriminate|vm_compute; reflexivity|]). constructor.
  - unfold bases_first. apply (di_classes (fun c k => cl_base k <> UNDEFINED -> cl_base k < c)). repeat constructor; intros k E; vm_compute in E; injection E as <-; intros N; try (exfalso; apply N; reflexivity); vm_compute; reflexivity.
Qed.
