(** Only the definition of a declaration makes a reference to its source. *)
From Coq Require Import String.
From Coq Require Import ZArith List Bool Lia.
From Verif Require Import Bytes Bytecode Definitions Bundle Ast TypeNames Pool Scope TypeCheck Symbols SourceMap Assembler
  PoolSpec PoolFacts TypeIndexSpec TypeIndexFacts Wrappers Unit.
Import ListNotations.
Open Scope Z_scope.

Definition keeps_refs {A} (m : U A) : Prop := forall st, us_refs (snd (m st)) = us_refs st.
Lemma kr_ret {A} (a : A) : keeps_refs (uret a). Proof. intros st. reflexivity. Qed.
Lemma kr_lift {A} (m : outcome error A) : keeps_refs (ulift m). Proof. intros st. reflexivity. Qed.
Lemma kr_read {A} (f : ustate -> outcome error A) : keeps_refs (uread f). Proof. intros st. reflexivity. Qed.
Lemma kr_get {A} (f : ustate -> A) : keeps_refs (uget f). Proof. intros st. reflexivity. Qed.
Lemma kr_put f : (forall st, us_refs (f st) = us_refs st) -> keeps_refs (uput f).
Proof. intros H st. apply H. Qed.
Lemma kr_pool {A} (f : pool -> outcome error (A * pool)) : keeps_refs (on_pool f).
Proof. intros st. unfold on_pool. destruct (f (us_pool st)) as [[a p]|]; reflexivity. Qed.
Lemma kr_bind {A B} (m : U A) (k : A -> U B) : keeps_refs m -> (forall a, keeps_refs (k a)) -> keeps_refs (ubind m k).
Proof. intros M K st. unfold ubind. specialize (M st). destruct (m st) as [[a|e] st1]; cbn [snd] in *; [rewrite K|]; exact M. Qed.
Lemma kr_map {A B} (f : A -> U B) l : (forall x, keeps_refs (f x)) -> keeps_refs (umap f l).
Proof. intros H. induction l as [|x l IH]; [apply kr_ret|]. cbn [umap]. apply kr_bind; [apply H|]. intros a. apply kr_bind; [exact IH|]. intros b. apply kr_ret. Qed.
Lemma kr_each {A} (f : A -> U Datatypes.unit) l : (forall x, keeps_refs (f x)) -> keeps_refs (ueach f l).
Proof. intros H. induction l as [|x l IH]; [apply kr_ret|]. cbn [ueach]. apply kr_bind; [apply H|]. intros _. exact IH. Qed.
Lemma kr_report e : keeps_refs (ureport e).
Proof. apply kr_bind; [apply kr_lift|]. intros d. now apply kr_put. Qed.
Lemma kr_reported m : keeps_refs m -> keeps_refs (reported m).
Proof. intros M st. unfold reported. specialize (M st). destruct (m st) as [[a|e] st1]; cbn [snd] in *; [exact M|]. rewrite kr_report. exact M. Qed.
Lemma kr_type t sp : keeps_refs (type_index t sp).
Proof. intros st. unfold type_index. destruct (get_type_index t (us_module st) (us_pool st)) as [[[i s] p]|]; reflexivity. Qed.
Lemma kr_resolve n sp : keeps_refs (try_resolve_type n sp).
Proof.
  intros st. unfold try_resolve_type. destruct (with_span _ _) as [t|e]; [reflexivity|].
  apply (kr_bind (ureport e) (fun _ => uret TINull)); [apply kr_report|]. intros _. apply kr_ret.
Qed.
Lemma kr_import ev i v : keeps_refs (import_into ev i v).
Proof. intros st. unfold import_into. destruct (populate_import _ _ _ _ _) as [s r]. reflexivity. Qed.
Ltac kr := repeat match goal with
  | |- keeps_refs (uret _) => apply kr_ret
  | |- keeps_refs (ufailc _ _) => apply kr_lift
  | |- keeps_refs (ulift _) => apply kr_lift
  | |- keeps_refs (uread _) => apply kr_read
  | |- keeps_refs (uget _) => apply kr_get
  | |- keeps_refs (push_diagnostic _) => apply kr_put; reflexivity
  | |- keeps_refs (ureport _) => apply kr_report
  | |- keeps_refs (reported _) => apply kr_reported
  | |- keeps_refs (name_index _) => apply kr_pool
  | |- keeps_refs (new_definition _) => apply kr_pool
  | |- keeps_refs (type_index _ _) => apply kr_type
  | |- keeps_refs (try_resolve_type _ _) => apply kr_resolve
  | |- keeps_refs (import_into _ _ _) => apply kr_import
  | |- keeps_refs (change_pool _) => apply kr_pool
  | |- keeps_refs (uput _) => apply kr_put; reflexivity
  | |- keeps_refs (umap _ _) => apply kr_map; intros ?
  | |- keeps_refs (ueach _ _) => apply kr_each; intros ?
  | |- keeps_refs (ubind _ _) => apply kr_bind; [|intros ?]
  | |- keeps_refs (if ?x then _ else _) => destruct x
  | |- keeps_refs (match ?x with _ => _ end) => destruct x
  | |- keeps_refs (new_stub _) => unfold new_stub
  | |- keeps_refs (declared_type _ _) => unfold declared_type
  end.
Section Noted.
Variables (ev : env) (mods : list module_path).
Lemma kr_symbol pm e m : keeps_refs (define_symbol pm e m).
Proof. destruct e as [b c|src|src|src]; cbn [define_symbol]; cbv zeta; unfold place_function, place_annotated; cbv zeta; kr. Qed.
Lemma kr_declare pm l : keeps_refs (umap (declare_module pm mods) l).
Proof.
  apply kr_map. intros m. unfold declare_module. kr. unfold declare_entry. kr. intros st. pose proof (kr_symbol pm x (path_of m) st) as X.
  destruct (define_symbol pm x (path_of m) st) as [[s|err] st1]; cbn [snd] in *; [exact X|].
  rewrite (kr_bind (ureport err) (fun _ => uret (@nil slot)) (kr_report _) (fun _ => kr_ret _) st1). exact X.
Qed.
Lemma kr_defaults l : keeps_refs (ueach (compile_default ev) l).
Proof. unfold compile_default. kr. Qed.
Lemma kr_bodies sugar pm l : keeps_refs (umap (compile_body ev sugar pm) l).
Proof. unfold compile_body. kr. Qed.
Lemma noted_new p st : unit_new ev p = Done st -> us_refs st = [].
Proof.
  unfold unit_new. destruct (sy_new p) as [m|]; [|discriminate]. cbn [obind]. destruct (scope_new p) as [s|]; [|discriminate]. cbn [obind].
  destruct (populate_import _ _ _ _ _) as [s' r]. destruct r as [u|]; [|discriminate]. cbn [obind]. now intros [= <-].
Qed.
(** What the second pass makes refer to. *)
Lemma kr_source sp : keeps_refs (source_ref_of ev sp).
Proof. unfold source_ref_of, define_source_ref. kr. Qed.
Lemma kr_stub n : keeps_refs (new_stub n).
Proof. kr. Qed.
Lemma kr_base b src : keeps_refs (base_class b src).
Proof. unfold base_class. kr. Qed.
Lemma kr_imports l : keeps_refs (ueach (fun i => do here <- ulift (eval_conditions mods (snd i)); if here then reported (import_into ev (fst i) Public) else uret tt) l).
Proof. kr. Qed.
Lemma kr_then {A B} (m : U A) (k : A -> U B) st : keeps_refs m -> forall b st', ubind m k st = (Done b, st') -> exists a st1, k a st1 = (Done b, st') /\ us_refs st1 = us_refs st.
Proof.
  intros M b st' E. specialize (M st). unfold ubind in E. destruct (m st) as [[a|e] st1]; [|discriminate]. exists a, st1. auto.
Qed.
End Noted.
Lemma refs_function x st r st' : define_function x st = (Done r, st') -> us_refs st' = us_refs st ++ [(sp_fun x, sp_low (fs_span (sp_source x)))].
Proof.
  unfold define_function, check_native, define_parameter. cbv zeta. intros E.
  do 6 (apply kr_then in E as (? & ? & E & K); [cbv beta in E; rewrite <- K; clear K|solve [kr]]).
  injection E as _ <-. reflexivity.
Qed.
Lemma refs_field i c fl v src st r st' : define_field i c fl v src st = (Done r, st') -> us_refs st' = us_refs st ++ [(i, sp_low (dc_span (fd_decl src)))].
Proof.
  unfold define_field. cbv zeta. intros E.
  do 7 (apply kr_then in E as (? & ? & E & K); [cbv beta in E; rewrite <- K; clear K|solve [kr]]).
  injection E as _ <-. reflexivity.
Qed.
Lemma refs_enum i src st r st' : define_enum i src st = (Done r, st') -> us_refs st' = us_refs st ++ [(i, sp_low (es_span src))].
Proof.
  unfold define_enum. intros E.
  do 3 (apply kr_then in E as (? & ? & E & K); [cbv beta in E; rewrite <- K; clear K|solve [kr]]).
  injection E as _ <-. reflexivity.
Qed.
