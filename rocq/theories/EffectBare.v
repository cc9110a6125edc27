(** The scopes in which declarations are read hold no variables. *)
From Coq Require Import String.
From Coq Require Import ZArith List Bool Lia.
From Verif Require Import Bytes Bytecode Definitions Bundle Ast TypeNames Pool Scope TypeCheck Symbols SourceMap Assembler
  PoolSpec PoolFacts TypeIndexSpec TypeIndexFacts Wrappers Unit P_Symbols.
Import ListNotations.
Open Scope Z_scope.

Definition bare (st : ustate) : Prop :=
  sc_references (us_module st) = [] /\ sc_references (us_scope st) = [] /\ Forall (fun b => sc_references (fb_scope b) = []) (us_bodies st).
Definition keeps_bare {A} (m : U A) : Prop := forall st, bare st -> bare (snd (m st)).
Lemma kb_ret {A} (a : A) : keeps_bare (uret a). Proof. intros st B. exact B. Qed.
Lemma kb_lift {A} (m : outcome error A) : keeps_bare (ulift m). Proof. intros st B. exact B. Qed.
Lemma kb_read {A} (f : ustate -> outcome error A) : keeps_bare (uread f). Proof. intros st B. exact B. Qed.
Lemma kb_get {A} (f : ustate -> A) : keeps_bare (uget f). Proof. intros st B. exact B. Qed.
Lemma kb_put f : (forall st, bare st -> bare (f st)) -> keeps_bare (uput f).
Proof. intros H st. apply H. Qed.
Lemma kb_pool {A} (f : pool -> outcome error (A * pool)) : keeps_bare (on_pool f).
Proof. intros st B. unfold on_pool. destruct (f (us_pool st)) as [[a p]|]; exact B. Qed.
Lemma kb_bind {A B} (m : U A) (k : A -> U B) : keeps_bare m -> (forall a, keeps_bare (k a)) -> keeps_bare (ubind m k).
Proof. intros M K st X. unfold ubind. specialize (M st X). destruct (m st) as [[a|e] st1]; cbn [snd] in *; [apply K, M|exact M]. Qed.
Lemma kb_map {A B} (f : A -> U B) l : (forall x, keeps_bare (f x)) -> keeps_bare (umap f l).
Proof. intros H. induction l as [|x l IH]; [apply kb_ret|]. cbn [umap]. apply kb_bind; [apply H|]. intros a. apply kb_bind; [exact IH|]. intros b. apply kb_ret. Qed.
Lemma kb_each {A} (f : A -> U Datatypes.unit) l : (forall x, keeps_bare (f x)) -> keeps_bare (ueach f l).
Proof. intros H. induction l as [|x l IH]; [apply kb_ret|]. cbn [ueach]. apply kb_bind; [apply H|]. intros _. exact IH. Qed.
Lemma kb_report e : keeps_bare (ureport e).
Proof. apply kb_bind; [apply kb_lift|]. intros d. now apply kb_put. Qed.
Lemma kb_reported m : keeps_bare m -> keeps_bare (reported m).
Proof. intros M st B. unfold reported. specialize (M st B). destruct (m st) as [[a|e] st1]; cbn [snd] in *; [exact M|]. now apply kb_report. Qed.
Lemma gti_references t : forall s p i s' p', get_type_index t s p = Done (i, s', p') -> sc_references s' = sc_references s.
Proof.
  induction t; intros s p k s' p' H; apply gti_cases in H as (name & En & [(_ & -> & _)|(_ & p1 & ni & s1 & p2 & v & Ea & Ed & -> & C)]); try reflexivity;
    cbn [sc_add_type sc_references]; try contradiction; try (destruct C as (-> & _); reflexivity); destruct C as (j & C & _); exact (IHt _ _ _ _ _ C).
Qed.
Lemma kb_type t sp : keeps_bare (type_index t sp).
Proof.
  intros st (A & B & C). unfold type_index. destruct (get_type_index t (us_module st) (us_pool st)) as [[[i s] p]|] eqn:E; cbn [with_span map_err snd].
  - apply gti_references in E. split; [|split]; cbn; [congruence|exact B|exact C].
  - split; auto.
Qed.
Lemma kb_resolve n sp : keeps_bare (try_resolve_type n sp).
Proof.
  intros st B. unfold try_resolve_type. destruct (with_span _ _) as [t|e]; [exact B|].
  apply (kb_bind (ureport e) (fun _ => uret TINull)); [apply kb_report| |exact B]. intros _. apply kb_ret.
Qed.
Lemma import_references order m i sc v : sc_references (fst (populate_import order m i sc v)) = sc_references sc.
Proof.
  destruct i as [p sp|p ns sp|p sp]; cbn [populate_import].
  - destruct (with_span _ _) as [s|]; [|reflexivity]. pose proof (proj1 (add_visible_rest v sc [] s)) as R. unfold add_visible in R. destruct (sym_visible s v) as [t|]; [|reflexivity]. destruct (rev p); [reflexivity|]. cbn [fst].
    destruct t; cbn; try reflexivity. destruct (am_find _ _) as [[]|]; reflexivity.
  - revert sc. induction ns as [|n ns IH]; intros sc; cbn [add_selected]; [reflexivity|]. destruct (with_span _ _) as [s|]; [|reflexivity]. rewrite IH. apply add_visible_rest.
  - destruct (with_span _ _) as [l|]; [|reflexivity]. cbn [fst]. exact (proj1 (add_many_rest v l sc _ eq_refl)).
Qed.
Lemma kb_import ev i v : keeps_bare (import_into ev i v).
Proof.
  intros st (A & B & C). unfold import_into. pose proof (import_references (ev_children ev) (us_symbols st) i (us_module st) v) as R.
  destruct (populate_import _ _ _ _ _) as [s r]. cbn [fst snd] in *. split; [|split]; cbn; [congruence|exact B|exact C].
Qed.
Ltac kb := repeat match goal with
  | |- keeps_bare (uret _) => apply kb_ret
  | |- keeps_bare (ufailc _ _) => apply kb_lift
  | |- keeps_bare (ulift _) => apply kb_lift
  | |- keeps_bare (uread _) => apply kb_read
  | |- keeps_bare (uget _) => apply kb_get
  | |- keeps_bare (push_diagnostic _) => apply kb_put; intros ? ?; assumption
  | |- keeps_bare (ureport _) => apply kb_report
  | |- keeps_bare (reported _) => apply kb_reported
  | |- keeps_bare (name_index _) => apply kb_pool
  | |- keeps_bare (new_definition _) => apply kb_pool
  | |- keeps_bare (type_index _ _) => apply kb_type
  | |- keeps_bare (try_resolve_type _ _) => apply kb_resolve
  | |- keeps_bare (import_into _ _ _) => apply kb_import
  | |- keeps_bare (change_pool _) => apply kb_pool
  | |- keeps_bare (uput _) => apply kb_put; intros ? ?; assumption
  | |- keeps_bare (umap _ _) => apply kb_map; intros ?
  | |- keeps_bare (ueach _ _) => apply kb_each; intros ?
  | |- keeps_bare (ubind _ _) => apply kb_bind; [|intros ?]
  | |- keeps_bare (if ?x then _ else _) => destruct x
  | |- keeps_bare (match ?x with _ => _ end) => destruct x
  | |- keeps_bare (push_ref _ _) => unfold push_ref
  | |- keeps_bare (new_stub _) => unfold new_stub
  | |- keeps_bare (declared_type _ _) => unfold declared_type
  end.
Lemma add_symbol_references s n x : sc_references (sc_add_symbol s n x) = sc_references s.
Proof. destruct x; cbn; try reflexivity. destruct (am_find _ _) as [[]|]; reflexivity. Qed.
Section Bare.
Variables (ev : env) (mods : list module_path).
Lemma kb_symbol pm e m : keeps_bare (define_symbol pm e m).
Proof. destruct e as [b c|src|src|src]; cbn [define_symbol]; cbv zeta; unfold place_function, place_annotated; cbv zeta; kb.
  all: apply kb_put; intros st (A & B & C); split; [exact A|split; [|exact C]]; cbn [set_root us_scope]; rewrite add_symbol_references; exact B.
Qed.
Lemma kb_function x : keeps_bare (define_function x).
Proof.
  unfold define_function, check_native, define_parameter. cbv zeta. kb.
  apply kb_put. intros st (A & B & C). split; [exact A|]. split; [exact B|]. apply Forall_app. split; [exact C|]. constructor; [exact A|constructor].
Qed.
Lemma kb_field i c fl v src : keeps_bare (define_field i c fl v src).
Proof. unfold define_field. cbv zeta. kb. Qed.
Lemma kb_source sp : keeps_bare (source_ref_of ev sp).
Proof. unfold source_ref_of, define_source_ref. kb. Qed.
Lemma kb_slot seen s : keeps_bare (define_slot ev mods seen s).
Proof.
  destruct s; cbn [define_slot].
  - kb; [apply kb_source|apply kb_function].
  - unfold define_class, base_class, define_member. cbv zeta. kb; first [apply kb_source|apply kb_function|apply kb_field].
  - unfold define_global_let. kb. apply kb_field.
  - unfold define_enum. kb.
Qed.
Lemma kb_slots l : forall seen, keeps_bare (define_slots ev mods seen l).
Proof. induction l as [|s l IH]; intros seen; [apply kb_ret|]. cbn [define_slots]. kb; [apply kb_slot|apply IH]. Qed.
Lemma kb_modules l : forall seen, keeps_bare (define_modules ev mods seen l).
Proof.
  induction l as [|[m ss] l IH]; intros seen; [apply kb_ret|]. cbn [define_modules]. apply kb_bind; [|intros a; apply IH].
  unfold define_module. apply kb_bind; [apply kb_put; intros st (A & B & C); split; [exact B|split; assumption]|]. intros _. apply kb_bind.
  - destruct (is_nil _); [kb|]. intros st. cbn [snd]. apply kb_import.
  - intros _. kb. apply kb_slots.
Qed.
Lemma kb_declare pm l : keeps_bare (umap (declare_module pm mods) l).
Proof.
  apply kb_map. intros m. unfold declare_module. kb. unfold declare_entry. kb. intros st B. pose proof (kb_symbol pm x (path_of m) st B) as X.
  destruct (define_symbol pm x (path_of m) st) as [[s|err] st1]; cbn [snd] in *; [exact X|].
  apply (kb_bind (ureport err) (fun _ => uret (@nil slot)) (kb_report _) (fun _ => kb_ret _) st1 X).
Qed.
Lemma bare_new p st : unit_new ev p = Done st -> bare st.
Proof.
  unfold unit_new. destruct (sy_new p) as [m|]; [|discriminate]. cbn [obind]. destruct (scope_new p) as [s|] eqn:S; [|discriminate]. cbn [obind].
  pose proof (import_references (ev_children ev) m (IAll [] span_zero) s Private) as R. destruct (populate_import _ _ _ _ _) as [s' r]. cbn [fst] in R.
  destruct r as [u|]; [|discriminate]. cbn [obind]. intros [= <-].
  assert (X : sc_references s = []) by (unfold scope_new in S; destruct (fold_left _ _ _); [|discriminate]; now injection S as <-).
  rewrite X in R. split; [exact R|]. split; [exact R|constructor].
Qed.
End Bare.
