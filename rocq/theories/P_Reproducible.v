(** C50: compiling the same scripts again gives the same bundle. *)
From Coq Require Import String.
From Coq Require Import ZArith List Bool Lia Permutation.
From Verif Require Import Bytes Bytecode Definitions Bundle Ast TypeNames Pool Scope TypeCheck Symbols SourceMap Diagnostics Report Wrappers CleanupSpec
  Unit UnitSpec UnitSteps P_Unit.
From Verif Require Cleanup.
Import ListNotations.
Open Scope Z_scope.

(** The same files, with the hash maps of wrappers, of proxies and of the locals of a
    proxy walked in other orders. *)
Definition reorder (ev : env) (w q : pmap -> pmap) (lo : list pidx -> list pidx) : env :=
  Env (ev_files ev) (ev_fuel ev) (ev_children ev) w q lo (ev_f32 ev) (ev_f64 ev).

(** Steps that wrap nothing. *)
Definition steady {A} (m : U A) : Prop := forall st, us_wrappers (snd (m st)) = us_wrappers st /\ us_proxies (snd (m st)) = us_proxies st.
Lemma steady_ret {A} (a : A) : steady (uret a). Proof. split; reflexivity. Qed.
Lemma steady_lift {A} (m : outcome error A) : steady (ulift m). Proof. split; reflexivity. Qed.
Lemma steady_read {A} (f : ustate -> outcome error A) : steady (uread f). Proof. split; reflexivity. Qed.
Lemma steady_get {A} (f : ustate -> A) : steady (uget f). Proof. split; reflexivity. Qed.
Lemma steady_put f : (forall st, us_wrappers (f st) = us_wrappers st /\ us_proxies (f st) = us_proxies st) -> steady (uput f).
Proof. intros H st. apply H. Qed.
Lemma steady_pool {A} (f : pool -> outcome error (A * pool)) : steady (on_pool f).
Proof. intros st. unfold on_pool. destruct (f (us_pool st)) as [[a p]|]; split; reflexivity. Qed.
Lemma steady_bind {A B} (m : U A) (k : A -> U B) : steady m -> (forall a, steady (k a)) -> steady (ubind m k).
Proof.
  intros M K st. unfold ubind. destruct (M st) as (X & Y). destruct (m st) as [[a|e] st1]; cbn [snd] in *; [|split; assumption].
  destruct (K a st1) as (X' & Y'). split; congruence.
Qed.
Lemma steady_map {A B} (f : A -> U B) l : (forall x, steady (f x)) -> steady (umap f l).
Proof. intros H. induction l as [|x l IH]; [apply steady_ret|]. cbn [umap]. apply steady_bind; [apply H|]. intros a. apply steady_bind; [exact IH|]. intros b. apply steady_ret. Qed.
Lemma steady_each {A} (f : A -> U Datatypes.unit) l : (forall x, steady (f x)) -> steady (ueach f l).
Proof. intros H. induction l as [|x l IH]; [apply steady_ret|]. cbn [ueach]. apply steady_bind; [apply H|]. intros _. exact IH. Qed.
Lemma steady_report e : steady (ureport e).
Proof. apply steady_bind; [apply steady_lift|]. intros d. now apply steady_put. Qed.
Lemma steady_reported m : steady m -> steady (reported m).
Proof.
  intros M st. unfold reported. destruct (M st) as (X & Y). destruct (m st) as [[a|e] st1]; cbn [snd] in *; [split; assumption|].
  destruct (steady_report e st1) as (X' & Y'). split; congruence.
Qed.
Lemma steady_type t sp : steady (type_index t sp).
Proof. intros st. unfold type_index. destruct (with_span _ _) as [[[i s] p]|]; split; reflexivity. Qed.
Lemma steady_resolve n sp : steady (try_resolve_type n sp).
Proof.
  intros st. unfold try_resolve_type. destruct (with_span _ _) as [t|e]; [split; reflexivity|].
  apply (steady_bind (ureport e) (fun _ => uret TINull)); [apply steady_report|]. intros _. apply steady_ret.
Qed.
Lemma steady_import ev i v : steady (import_into ev i v).
Proof. intros st. unfold import_into. destruct (populate_import _ _ _ _ _). split; reflexivity. Qed.
Ltac steady := repeat match goal with
  | |- steady (uret _) => apply steady_ret
  | |- steady (ufailc _ _) => apply steady_lift
  | |- steady (ulift _) => apply steady_lift
  | |- steady (uread _) => apply steady_read
  | |- steady (uget _) => apply steady_get
  | |- steady (push_diagnostic _) => apply steady_put; split; reflexivity
  | |- steady (ureport _) => apply steady_report
  | |- steady (reported _) => apply steady_reported
  | |- steady (name_index _) => apply steady_pool
  | |- steady (new_definition _) => apply steady_pool
  | |- steady (type_index _ _) => apply steady_type
  | |- steady (try_resolve_type _ _) => apply steady_resolve
  | |- steady (import_into _ _ _) => apply steady_import
  | |- steady (change_pool _) => apply steady_pool
  | |- steady (uput _) => apply steady_put; split; reflexivity
  | |- steady (umap _ _) => apply steady_map; intros ?
  | |- steady (ueach _ _) => apply steady_each; intros ?
  | |- steady (ubind _ _) => apply steady_bind; [|intros ?]
  | |- steady (if ?x then _ else _) => destruct x
  | |- steady (match ?x with _ => _ end) => destruct x
  | |- steady (push_ref _ _) => unfold push_ref
  | |- steady (new_stub _) => unfold new_stub
  | |- steady (declared_type _ _) => unfold declared_type
  end.
Lemma steady_symbol pm e m : (forall src, e = EntryFunction src -> ~ annotated (fs_decl src) AWrapMethod) -> steady (define_symbol pm e m).
Proof.
  intros N. destruct e as [b c|src|src|src]; cbn [define_symbol]; cbv zeta; try solve [steady].
  unfold place_function, place_annotated. cbv zeta. destruct (find places _) as [a|] eqn:F; [|steady].
  destruct (an_kind a) eqn:K; try solve [steady]. exfalso. apply (N src eq_refl). apply find_some in F as (F & _). exists a. auto.
Qed.
Section Steady.
Variables (ev : env) (mods : list module_path).
Lemma steady_source sp : steady (source_ref_of ev sp).
Proof. unfold source_ref_of, define_source_ref. steady. Qed.
Lemma steady_function x : steady (define_function x).
Proof. unfold define_function, check_native, define_parameter. cbv zeta. steady. Qed.
Lemma steady_field i c fl v src : steady (define_field i c fl v src).
Proof. unfold define_field. cbv zeta. steady. Qed.
Lemma steady_slot seen s : steady (define_slot ev mods seen s).
Proof.
  destruct s; cbn [define_slot].
  - steady; [apply steady_source|apply steady_function].
  - unfold define_class, base_class, define_member. cbv zeta. steady; first [apply steady_source|apply steady_function|apply steady_field].
  - unfold define_global_let. steady. apply steady_field.
  - unfold define_enum. steady.
Qed.
Lemma steady_slots l : forall seen, steady (define_slots ev mods seen l).
Proof. induction l as [|s l IH]; intros seen; [apply steady_ret|]. cbn [define_slots]. steady; [apply steady_slot|apply IH]. Qed.
Lemma steady_modules l : forall seen, steady (define_modules ev mods seen l).
Proof.
  induction l as [|[m ss] l IH]; intros seen; [apply steady_ret|]. cbn [define_modules]. apply steady_bind; [|intros a; apply IH].
  unfold define_module. apply steady_bind; [steady|]. intros _. apply steady_bind.
  - destruct (is_nil _); [steady|]. intros st. cbn [snd]. apply steady_import.
  - intros _. steady. apply steady_slots.
Qed.
Lemma steady_default x : steady (compile_default ev x).
Proof. unfold compile_default. steady. Qed.
Lemma steady_body sg pm x : steady (compile_body ev sg pm x).
Proof. unfold compile_body. steady. Qed.
Lemma steady_declare pm l : (forall m e, In m l -> In e (sm_entries m) -> eval_conditions mods (dc_annotations (entry_decl e)) = Done true ->
    forall src, e = EntryFunction src -> ~ annotated (fs_decl src) AWrapMethod) ->
  steady (umap (declare_module pm mods) l).
Proof.
  induction l as [|m l IH]; intros N; [apply steady_ret|]. cbn [umap]. apply steady_bind; [|intros a; apply steady_bind; [apply IH; intros m' e Im; apply N; now right|intros; apply steady_ret]].
  unfold declare_module. apply steady_bind; [|intros; apply steady_ret]. specialize (N m). revert N. generalize (path_of m) as pt. intros pt N.
  induction (sm_entries m) as [|e es IHe]; [apply steady_ret|]. cbn [umap]. apply steady_bind; [|intros a; apply steady_bind; [apply IHe; intros e' Im Ie; apply N; [exact Im|now right]|intros; apply steady_ret]].
  unfold declare_entry. intros st. unfold ubind at 1 3, ulift. destruct (eval_conditions _ _) as [[]|] eqn:C; [|split; reflexivity|split; reflexivity].
  pose proof (steady_symbol pm e pt (N e (or_introl eq_refl) (or_introl eq_refl) C) st) as (X & Y). cbv beta iota.
  destruct (define_symbol pm e pt st) as [[s|err] st1]; cbn [snd] in *; [split; [rewrite <- X|rewrite <- Y]; reflexivity|].
  destruct (steady_bind (ureport err) (fun _ => uret (@nil slot)) (steady_report _) (fun _ => steady_ret _) st1) as (X' & Y').
  split; [rewrite <- X; exact X'|rewrite <- Y; exact Y'].
Qed.
End Steady.

Section Same.
Variables (ev : env) (w q : pmap -> pmap) (lo : list pidx -> list pidx).
Lemma same_slots mods l : forall seen st, define_slots (reorder ev w q lo) mods seen l st = define_slots ev mods seen l st.
Proof.
  induction l as [|s l IH]; intros seen st; [reflexivity|]. cbn [define_slots]. unfold ubind.
  change (define_slot (reorder ev w q lo)) with (define_slot ev). destruct (reported _ st) as [[u|e] st1]; [apply IH|reflexivity].
Qed.
Lemma same_modules mods l : forall seen st, define_modules (reorder ev w q lo) mods seen l st = define_modules ev mods seen l st.
Proof.
  induction l as [|[m ss] l IH]; intros seen st; [reflexivity|]. cbn [define_modules]. unfold ubind at 1 2.
  assert (E : define_module (reorder ev w q lo) mods seen (m, ss) st = define_module ev mods seen (m, ss) st).
  { unfold define_module. change (import_into (reorder ev w q lo)) with (import_into ev). unfold ubind.
    destruct (uput _ st) as [[u|e] st1]; [|reflexivity].
    match goal with |- context[(if ?b then uret tt else ?k) st1] => destruct ((if b then uret tt else k) st1) as [[u2|e] st2]; [|reflexivity] end.
    match goal with |- context[ueach ?f ?x st2] => destruct (ueach f x st2) as [[u3|e] st3]; [|reflexivity] end. apply same_slots. }
  rewrite E. destruct (define_module ev mods seen (m, ss) st) as [[u|e] st1]; [apply IH|reflexivity].
Qed.
Lemma same_install l : forall p, install_all (reorder ev w q lo) l p = install_all ev l p.
Proof. induction l as [|f l IH]; intros p; [reflexivity|]. cbn [install_all reorder ev_files]. destruct (install _ _ _ _ _ _); [apply IH|reflexivity]. Qed.
End Same.

(** The full statement: whatever the orders, the result is the same. *)
Definition C50_statement : Prop := forall ev w q lo l p, fair ev -> fair (reorder ev w q lo) -> compile (reorder ev w q lo) l p = compile ev l p.

(** It holds for scripts that wrap no method.  Missing: the order in which the
    members of an imported module are walked is the same in both runs. *)
Theorem C50_reproducible_partial ev w q lo l p : fair ev -> fair (reorder ev w q lo) ->
  (forall src, declares l (EntryFunction src) -> ~ annotated (fs_decl src) AWrapMethod) ->
  compile (reorder ev w q lo) l p = compile ev l p.
Proof.
  intros (_ & FW & FP & _) (_ & FW' & FP' & _) N. cbn [reorder ev_wrappers ev_proxies] in FW', FP'. unfold compile.
  change (unit_new (reorder ev w q lo) p) with (unit_new ev p). destruct (unit_new ev p) as [st|e] eqn:E; [|reflexivity]. cbn [obind].
  assert (I : us_wrappers st = [] /\ us_proxies st = []).
  { unfold unit_new in E. destruct (sy_new p); [|discriminate]. cbn [obind] in E. destruct (scope_new p); [|discriminate]. cbn [obind] in E.
    destruct (populate_import _ _ _ _ _) as [s' [r|r]]; [|discriminate]. cbn [obind] in E. injection E as <-. split; reflexivity. }
  destruct I as (I1 & I2). unfold compile_modules. cbv zeta. fold (module_names l).
  set (mods := module_names l) in *.
  assert (S1 : steady (umap (declare_module false mods) l)).
  { apply steady_declare. intros m e Im Ie C src ->. apply N. exists m. auto. }
  specialize (S1 st) as (X1 & Y1). unfold ubind.
  destruct (umap (declare_module false mods) l st) as [[qu|e] st1]; [|reflexivity]. cbn [snd] in X1, Y1.
  rewrite same_modules.
  destruct (steady_modules ev mods qu [] st1) as (X2 & Y2). destruct (define_modules ev mods [] qu st1) as [[u|e] st2]; [|reflexivity]. cbn [snd] in X2, Y2.
  unfold uget. change (compile_default (reorder ev w q lo)) with (compile_default ev).
  destruct (steady_each (compile_default ev) (us_defaults st2) (steady_default ev) st2) as (X3 & Y3).
  destruct (ueach (compile_default ev) (us_defaults st2) st2) as [[u3|e] st3]; [|reflexivity]. cbn [snd] in X3, Y3.
  assert (Z3 : us_wrappers st3 = [] /\ us_proxies st3 = []) by (split; congruence). destruct Z3 as (W3 & P3). rewrite !W3.
  assert (nil_of : forall f : pmap -> pmap, (forall l, Permutation (f l) l) -> f [] = []) by (intros f H; apply Permutation_nil, Permutation_sym, H).
  cbn [reorder ev_wrappers ev_files]. rewrite (nil_of _ FW), (nil_of _ FW'). cbn [construct_proxies].
  change (compile_body (reorder ev w q lo)) with (compile_body ev).
  match goal with |- context[umap ?f ?b ?s] => destruct (steady_map f b (steady_body ev true false) s) as (X4 & Y4); destruct (umap f b s) as [[fs|e] st4]; [|reflexivity] end.
  cbn [snd] in X4, Y4. cbn [set_root set_pool us_proxies] in Y4. rewrite P3 in Y4. cbn [uret].
  unfold finish, assemble_all. rewrite same_install.
  destruct (install_all ev (concat fs) (us_pool st4)) as [p4|e]; [|reflexivity]. cbn [obind]. rewrite Y4. cbn [reorder ev_proxies ev_locals]. rewrite (nil_of _ FP), (nil_of _ FP').
  reflexivity.
Qed.
Print Assumptions C50_reproducible_partial.

(** Two wrapped methods: the proxies are made in the order in which the map of
    wrappers is walked, so the definitions of the two are numbered differently. *)
Definition re_module : source_module := SourceModule None []
  [EntryFunction (int_fun [ann AAddMethod "Cat"] [] "purr" (evar "n"));
   EntryFunction (int_fun [ann AWrapMethod "Animal"] [] "speak" (ecall "wrappedMethod" [evar "n"]));
   EntryFunction (int_fun [ann AWrapMethod "Cat"] [] "purr" (ecall "wrappedMethod" [evar "n"]))].
Definition re_env : env := reorder un_env (@rev _) (fun l => l) (fun l => l).
Lemma re_fair : fair re_env.
Proof. repeat split; intros; try apply Permutation_refl. apply Permutation_sym, Permutation_rev. Qed.
Definition re_out (ev : env) : output := match compile ev [re_module] un_pool with Done o => o | Fail _ => Output un_pool [] [] end.
Theorem C50_reproducible_refuted : exists ev w q lo l p out out', fair ev /\ fair (reorder ev w q lo) /\
  compile ev l p = Done out /\ compile (reorder ev w q lo) l p = Done out' /\ out_diags out = [] /\ out_diags out' = [] /\ out_pool out <> out_pool out'.
Proof.
  exists un_env, (@rev _), (fun l => l), (fun l => l), [re_module], un_pool, (re_out un_env), (re_out re_env).
  split; [exact un_fair|]. split; [exact re_fair|]. split; [vm_compute; reflexivity|]. split; [vm_compute; reflexivity|]. split; [vm_compute; reflexivity|]. split; [vm_compute; reflexivity|].
  intros E. assert (X : map df_name (pl_defs (out_pool (re_out un_env))) = map df_name (pl_defs (out_pool (re_out re_env)))) by now rewrite E.
  vm_compute in X. discriminate X.
Qed.
Print Assumptions C50_reproducible_refuted.
Corollary C50_statement_refuted : ~ C50_statement.
Proof.
  intros H. destruct C50_reproducible_refuted as (ev & w & q & lo & l & p & out & out' & F & F' & C & C' & _ & _ & D).
  rewrite (H ev w q lo l p F F'), C in C'. congruence.
Qed.
(** Scripts that replace, add and declare, without wrapping. *)
Definition re_plain : source_module := SourceModule None []
  [EntryFunction (int_fun [ann AAddMethod "Cat"] [] "purr" (EMethodCall (N := source_ast) (EThis un_sp) (lit "speak") [evar "n"] un_sp));
   EntryFunction (int_fun [ann AReplaceGlobal "Cat"] [] "G" (evar "n"))].
Example C50_nonvacuous : fair un_env /\ fair re_env /\ (forall src, declares [re_plain] (EntryFunction src) -> ~ annotated (fs_decl src) AWrapMethod) /\
  exists out, compile un_env [re_plain] un_pool = Done out /\ out_diags out = [] /\ Z.of_nat (length (pl_defs (out_pool out))) > 23.
Proof.
  split; [exact un_fair|]. split; [exact re_fair|]. split.
  - intros src (m & [<-|[]] & I & _) (a & A & K). destruct I as [I|[I|[]]]; injection I as <-; destruct A as [<-|[]]; discriminate K.
  - eexists. split; [vm_compute; reflexivity|]. split; vm_compute; reflexivity.
Qed.
