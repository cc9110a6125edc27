(** Where errors and diagnostics of a whole compilation are reported. *)
From Coq Require Import String.
From Coq Require Import ZArith List Bool Lia.
From Verif Require Import Bytes Bytecode Definitions Bundle Ast TypeNames Pool Scope TypeCheck Symbols SourceMap Cursor Assembler Desugar Diagnostics Report Printer Wrappers Unit
  PlaceSpec PlaceCheck PlaceBody.
From Verif Require Cleanup.
Import ListNotations.
Open Scope Z_scope.

Section Places.
Variable P : span -> Prop.
Notation here := (placed P).
Notation told := (diag_placed P).
Notation ok := (ok P).
Definition body_placed (b : function_body) : Prop := All here (fb_code b) /\ P (fb_span b).
Definition default_placed (d : field_default) : Prop := here (ft_value d).
Record neat (st : ustate) : Prop := { neat_diags : All told (us_diags st); neat_bodies : All body_placed (us_bodies st); neat_defaults : All default_placed (us_defaults st) }.
Definition okU {A} (Q : A -> Prop) (m : U A) : Prop := forall st, neat st -> neat (snd (m st)) /\ ok Q (fst (m st)).
Lemma U_ret {A} (a : A) (Q : A -> Prop) : Q a -> okU Q (uret a).
Proof. intros H st N. auto. Qed.
Lemma U_bind {A B} (Q : A -> Prop) (R : B -> Prop) m k : okU Q m -> (forall a, Q a -> okU R (k a)) -> okU R (ubind m k).
Proof. intros H K st N. unfold ubind. specialize (H st N) as (X & Y). destruct (m st) as [[a|e] st']; cbn in *; [exact (K a Y st' X)|auto]. Qed.
Lemma U_lift {A} (Q : A -> Prop) m : ok Q m -> okU Q (ulift m).
Proof. intros H st N. auto. Qed.
Lemma U_failc {A} (Q : A -> Prop) sp c : P sp -> okU Q (ufailc sp c).
Proof. intros H. apply U_lift. now apply ok_failc. Qed.
Lemma U_read {A} (Q : A -> Prop) f : (forall st, neat st -> ok Q (f st)) -> okU Q (uread f).
Proof. intros H st N. cbn. auto. Qed.
Lemma U_get {A} (Q : A -> Prop) (f : ustate -> A) : (forall st, neat st -> Q (f st)) -> okU Q (uget f).
Proof. intros H st N. cbn. auto. Qed.
Lemma U_put f : (forall st, neat st -> neat (f st)) -> okU any (uput f).
Proof. intros H st N. cbn. split; [auto|exact I]. Qed.
Lemma U_pool {A} (f : pool -> outcome error (A * pool)) : (forall p, ok any (f p)) -> okU any (on_pool f).
Proof. intros H st N. unfold on_pool. specialize (H (us_pool st)). destruct (f _) as [[a p]|e]; cbn in *; (split; [|exact I || exact H]); [destruct N; now constructor|exact N]. Qed.
Lemma U_change f : (forall p, ok any (f p)) -> okU any (change_pool f).
Proof. intros H. apply U_pool. intros p. eapply ok_bind; [apply H|]. intros; exact I. Qed.
Lemma U_name n : okU any (name_index n).
Proof. apply U_pool. intros p. destruct (add_name _ _). exact I. Qed.
Lemma U_definition d : okU any (new_definition d).
Proof. apply U_pool. intros p. exact I. Qed.
Lemma U_stub n : okU any (new_stub n).
Proof. eapply U_bind; [apply U_name|]. intros. apply U_definition. Qed.
Lemma U_map {A B} (f : A -> U B) (Q : A -> Prop) (R : B -> Prop) l : (forall a, Q a -> okU R (f a)) -> All Q l -> okU (All R) (umap f l).
Proof.
  intros H. induction l as [|a l IH]; cbn [umap All]; [intros; now apply U_ret|]. intros (X & Y). eapply U_bind; [exact (H _ X)|]. intros b Hb. eapply U_bind; [exact (IH Y)|]. intros.
  apply U_ret. cbn; auto.
Qed.
Lemma U_each {A} (f : A -> U Datatypes.unit) (Q : A -> Prop) l : (forall a, Q a -> okU any (f a)) -> All Q l -> okU any (ueach f l).
Proof. intros H. induction l as [|a l IH]; cbn [ueach All]; [intros; now apply U_ret|]. intros (X & Y). eapply U_bind; [exact (H _ X)|]. intros. auto. Qed.
Lemma U_push d : told d -> okU any (push_diagnostic d).
Proof. intros H. apply U_put. intros st []. constructor; cbn; auto. apply All_app. cbn. auto. Qed.
Lemma ok_diag e : error_placed P e -> ok told (diag_from_error e).
Proof. intros H. destruct e; cbn; auto. Qed.
Lemma U_report e : error_placed P e -> okU any (ureport e).
Proof. intros H. eapply U_bind; [apply U_lift, ok_diag, H|]. intros. now apply U_push. Qed.
Lemma U_reported m : okU any m -> okU any (reported m).
Proof. intros H st N. unfold reported. specialize (H st N) as (X & Y). destruct (m st) as [[a|e] st']; cbn in *; [auto|]. now apply U_report. Qed.
Lemma U_ref i pos : okU any (push_ref i pos).
Proof. apply U_put. intros st []. now constructor. Qed.

(** * Declarations *)
Lemma ok_ident a : ann_placed P a -> ok any (ann_ident a).
Proof. intros (H & _). unfold ann_ident. destruct (an_args a) as [|[]]; try exact I; now apply ok_failc. Qed.
Lemma ok_class a st : ann_placed P a -> ok any (ann_class a st).
Proof.
  intros H. unfold ann_class. eapply ok_bind; [now apply ok_ident|]. intros n _. destruct H as (H & _). eapply ok_bind; [now apply ok_span|]. intros [] _; try exact I; now apply ok_failc.
Qed.
Lemma ok_method a n sig c p : ann_placed P a -> ok any (ann_method a n sig c p).
Proof. intros (H & _). unfold ann_method. destruct (resolve_direct_method _ _ _); [|now apply ok_failc]. destruct (by_id _ _ _); [exact I|now apply ok_failc]. Qed.
Lemma ok_register c n sig sp st : P sp -> ok any (register c n sig sp st).
Proof.
  intros H. unfold register. destruct (resolve_direct_method _ _ _); [|now apply ok_failc]. destruct (by_id _ _ _); [|now apply ok_failc].
  destruct (match find_key _ _ with Some _ => _ | None => _ end) as [[w p1] q]. destruct (add_name _ _). cbn [add_definition]. eapply ok_bind; [apply ok_push|]. intros; exact I.
Qed.
Lemma ok_signature p sig : forall l, ok any (find_signature p sig l).
Proof. induction l as [|f l IH]; cbn; [exact I|]. destruct (def_name _ _); [|exact I]. destruct (str_eqb _ _); [exact I|exact IH]. Qed.
Lemma ok_overridden p c sig : ok any (overridden p c sig).
Proof. unfold overridden. eapply ok_bind; [apply ok_pe|]. intros. destruct (_ =? _); [exact I|]. eapply ok_bind; [apply ok_pe|]. intros. apply ok_signature. Qed.
Definition slot_placed (s : slot) : Prop :=
  match s with SlotFunction _ _ _ _ _ src _ => fun_placed P src | SlotClass _ _ src _ => class_placed P src | SlotField _ src _ => field_placed P src | SlotEnum _ src => enum_placed P src end.
Ltac same := intros ? []; now constructor.
Lemma U_annotated src sig a : fun_placed P src -> ann_placed P a -> okU slot_placed (place_annotated src sig a).
Proof.
  intros H K. unfold place_annotated. destruct K as (K & K'). pose proof (conj K K' : ann_placed P a) as KK.
  assert (D : okU slot_placed (
    do c <- uread (ann_class a);
    do clash <- uget (fun st => match resolve_direct_method (us_pool st) (dc_name (fs_decl src)) c with
                                | Done fs => is_some (by_id fs sig (us_pool st))
                                | Fail _ => false
                                end);
    do _ <- (if clash then push_diagnostic (AddMethodConflict (an_span a)) else uret tt);
    do base <- uread (fun st => overridden (us_pool st) c sig);
    do f <- new_stub sig;
    do _ <- change_pool (fun p => push_member p c f);
    uret (SlotFunction f c base None false src (visibility_of (dc_qualifiers (fs_decl src)))))).
  { eapply U_bind; [apply U_read; intros; now apply ok_class|]. intros c _. eapply (U_bind any); [apply U_get; intros; exact I|]. intros clash _.
    eapply (U_bind any); [destruct clash; [now apply U_push|now apply U_ret]|]. intros. eapply U_bind; [apply U_read; intros; apply ok_overridden|]. intros.
    eapply U_bind; [apply U_stub|]. intros. eapply U_bind; [apply U_change; intros; apply ok_push|]. intros. now apply U_ret. }
  destruct (an_kind a); try exact D.
  - eapply U_bind; [apply U_read; intros; now apply ok_class|]. intros c _. eapply U_bind; [apply U_read; intros; now apply ok_method|]. intros f _.
    eapply (U_bind any); [apply U_get; intros; exact I|]. intros. now apply U_ret.
  - destruct (contain _ _); [now apply U_failc|]. eapply U_bind; [apply U_read; intros; now apply ok_class|]. intros c _. eapply (U_bind any); [apply U_get; intros; exact I|]. intros p _.
    eapply U_bind; [apply U_read; intros; now apply ok_register|]. intros [w ws] _. eapply U_bind; [apply U_put; same|]. intros. now apply U_ret.
  - eapply U_bind; [apply U_read; intros; now apply ok_span|]. intros fs _. eapply (U_bind any); [apply U_read; intros; destruct (by_id _ _ _); [exact I|now apply ok_failc]|]. intros. now apply U_ret.
Qed.
Lemma U_place src m : fun_placed P src -> okU slot_placed (place_function src m).
Proof.
  intros H. unfold place_function. destruct (find _ _) as [a|] eqn:F.
  - apply U_annotated; [exact H|]. apply find_some in F as (F & _). destruct H as (_ & (_ & H) & _). exact (proj1 (All_in _ _) H a F).
  - eapply U_bind; [apply U_stub|]. intros. eapply U_bind; [apply U_put; same|]. intros. eapply (U_bind any); [destruct (is_nil m); [apply U_put; same|now apply U_ret]|]. intros. now apply U_ret.
Qed.
Lemma U_symbol pm e m : entry_placed P e -> okU slot_placed (define_symbol pm e m).
Proof.
  intros H. destruct e; cbn [define_symbol entry_placed] in *.
  - eapply (U_bind any); [apply U_get; intros; exact I|]. intros k _. eapply (U_bind any); [destruct (_ && _); [apply U_failc; apply H|now apply U_ret]|]. intros.
    eapply U_bind; [apply U_stub|]. intros. eapply U_bind; [apply U_put; same|]. intros. eapply (U_bind any); [destruct (is_nil m); [apply U_put; same|now apply U_ret]|]. intros. now apply U_ret.
  - now apply U_place.
  - eapply U_bind; [apply U_stub|]. intros. now apply U_ret.
  - eapply U_bind; [apply U_stub|]. intros. eapply U_bind; [apply U_put; same|]. intros. eapply (U_bind any); [destruct (is_nil m); [apply U_put; same|now apply U_ret]|]. intros. now apply U_ret.
Qed.

(** * Definitions *)
Lemma U_type n sp : P sp -> okU any (declared_type n sp).
Proof.
  intros H. unfold declared_type. eapply (U_bind any).
  - intros st N. unfold try_resolve_type. pose proof (ok_span P sp (resolve_type (us_module st) (us_pool st) n) H) as K. destruct (with_span _ _) as [t|e]; [split; [exact N|exact I]|].
    refine (U_bind any any (ureport e) (fun _ => uret TINull) _ _ st N); [now apply U_report|]. intros; now apply U_ret.
  - intros t _ st N. unfold Unit.type_index. pose proof (ok_span P sp (get_type_index t (us_module st) (us_pool st)) H) as K. destruct (with_span _ _) as [[[i s] p]|e]; cbn in *; (split; [|exact I || exact K]); [destruct N; now constructor|exact N].
Qed.
Lemma U_source ev sp : okU any (source_ref_of ev sp).
Proof.
  unfold source_ref_of. eapply (U_bind any); [apply U_lift; destruct (files_lookup _ _); exact I|]. intros [[[f [l c]] e]|] _; [|now apply U_ret]. unfold define_source_ref.
  eapply (U_bind any); [apply U_get; intros; exact I|]. intros known _. eapply (U_bind any); [|intros; now apply U_ret]. destruct known; [now apply U_ret|].
  eapply (U_bind any); [apply U_get; intros; exact I|]. intros. eapply U_bind; [apply U_definition|]. intros. eapply U_bind; [apply U_put; same|]. intros. now apply U_ret.
Qed.
Lemma U_parameter f sp x : P sp -> okU any (define_parameter f sp x).
Proof. intros H. eapply U_bind; [now apply U_type|]. intros. eapply U_bind; [apply U_name|]. intros. apply U_definition. Qed.
Lemma U_when (b : bool) e : error_placed P e -> okU any (if b then ureport e else uret tt).
Proof. intros H. destruct b; [now apply U_report|now apply U_ret]. Qed.
Lemma U_function x : fun_placed P (sp_source x) -> okU any (define_function x).
Proof.
  intros (H1 & (H2 & H3) & H4). unfold define_function. eapply (U_bind any).
  { unfold check_native. eapply U_bind; [apply U_when; exact H2|]. intros. eapply U_bind; [apply U_when; exact H2|]. intros. apply U_when. exact H2. }
  intros. eapply (U_bind any). { destruct (fs_type _); [|now apply U_ret]. destruct (is_void _); [now apply U_ret|]. eapply U_bind; [now apply U_type|]. intros. now apply U_ret. }
  intros. eapply (U_bind (All any)). { eapply U_map; [|apply all_any]. intros. now apply U_parameter. }
  intros. eapply (U_bind any); [apply U_read; intros; apply ok_pe|]. intros. eapply (U_bind any).
  { destruct (fs_body _) as [b|]; [|now apply U_ret]. apply U_put. intros st []. constructor; cbn; auto. apply All_app. cbn. repeat split; auto. }
  intros. eapply U_bind; [apply U_change; intros; apply ok_put|]. intros. apply U_ref.
Qed.
Lemma U_field i c w v src : field_placed P src -> okU any (define_field i c w v src).
Proof.
  intros ((H1 & H2) & H3). unfold define_field. eapply U_bind; [apply U_when; exact H1|]. intros. eapply U_bind; [apply U_when; exact H1|]. intros. eapply U_bind; [now apply U_type|]. intros.
  eapply (U_bind any). { apply U_lift. eapply (ok_mapM P _ (ann_placed P)).
    - intros x (X & _). unfold attribute_of. assert (G : ok any (failc (A := property) (an_span x) InvalidAnnotationArgs)) by now apply ok_failc.
      destruct (an_args x) as [|[] [|[] [|]]]; try exact G; repeat match goal with |- context [match ?c with CString _ _ => _ | _ => _ end] => destruct c; try exact G
        | |- context [match ?l with LString => _ | _ => _ end] => destruct l; try exact G end; exact I.
    - apply All_in. intros x X. apply filter_In in X as (X & _). exact (proj1 (All_in _ _) H2 x X). }
  intros. eapply (U_bind any); [apply U_read; intros; apply ok_pe|]. intros. eapply (U_bind any).
  { destruct (fd_default _) as [b|]; [|now apply U_ret]. apply U_put. intros st []. constructor; cbn; auto. apply All_app. cbn. auto. }
  intros. eapply U_bind; [apply U_change; intros; apply ok_put|]. intros. apply U_ref.
Qed.
Lemma ok_cte mods : forall e : sexpr, here e -> ok any (cte_eval mods e).
Proof.
  induction e using expr_ind'; cbn [placed cte_eval]; intros HH; repeat match goal with H : _ /\ _ |- _ => destruct H end; try assumption; try contradiction.
  - destruct c; first [exact I|exact HH].
  - destruct args as [|x args]; [assumption|]. destruct x; try assumption. destruct c0; try assumption. destruct l; try assumption. destruct args; try assumption. destruct (str_eqb _ _); [exact I|assumption].
  - eapply ok_bind; [now apply IHe1|]. intros [] _; auto.
  - eapply ok_bind; [now apply IHe1|]. intros x _. eapply ok_bind; [now apply IHe2|]. intros y _. destruct o; try exact I; assumption.
  - eapply ok_bind; [now apply IHe|]. intros x _. destruct o; try exact I; assumption.
Qed.
Lemma ok_conditions mods l : All (ann_placed P) l -> ok any (eval_conditions mods l).
Proof.
  unfold eval_conditions. generalize true. induction l as [|a l IH]; intros b H; [exact I|]. destruct H as ((H1 & H2) & H). destruct (is_if a); [|now apply IH].
  destruct (an_args a); [now apply IH|]. destruct H2. eapply ok_bind; [now apply ok_cte|]. intros. now apply IH.
Qed.
Lemma U_member ev mods b c w v m : member_placed P m -> okU any (define_member ev mods b c w v m).
Proof.
  intros H. destruct m; cbn [define_member member_placed] in *.
  - eapply U_bind; [apply U_lift, ok_conditions; apply H|]. intros [] _; [|now apply U_ret]. eapply U_bind; [apply U_when; apply H|]. intros. eapply U_bind; [apply U_stub|]. intros.
    eapply U_bind; [apply U_source|]. intros. eapply U_bind; [now apply U_function|]. intros. now apply U_ret.
  - eapply U_bind; [apply U_lift, ok_conditions; apply H|]. intros [] _; [|now apply U_ret]. eapply U_bind; [apply U_stub|]. intros. eapply U_bind; [now apply U_field|]. intros. now apply U_ret.
Qed.
Lemma U_base b src : class_placed P src -> okU any (base_class b src).
Proof.
  intros (H & _). unfold base_class. destruct b; [now apply U_ret|]. destruct (cs_base src).
  - eapply (U_bind any); [apply U_get; intros; exact I|]. intros [[]|] _; try (now apply U_ret); (eapply U_bind; [now apply U_report|]; intros; now apply U_ret).
  - eapply (U_bind any); [apply U_get; intros; exact I|]. intros [[]|] _; now apply U_ret.
Qed.
Lemma U_class ev mods b c v src : class_placed P src -> okU any (define_class ev mods b c v src).
Proof.
  intros H. unfold define_class. eapply (U_bind (All any)). { eapply U_map; [|apply H]. intros. now apply U_member. }
  intros. eapply U_bind; [now apply U_base|]. intros. eapply (U_bind any); [apply U_read; intros; apply ok_pe|]. intros. eapply U_bind; [apply U_change; intros; apply ok_put|]. intros. apply U_ref.
Qed.
Lemma U_enum i src : okU any (define_enum i src).
Proof.
  unfold define_enum. eapply (U_bind (All any)). { eapply U_map; [|apply all_any]. intros. eapply U_bind; [apply U_name|]. intros. apply U_definition. }
  intros. eapply (U_bind any); [apply U_read; intros; apply ok_pe|]. intros. eapply U_bind; [apply U_change; intros; apply ok_put|]. intros. apply U_ref.
Qed.
Lemma U_let i v src : field_placed P src -> okU any (define_global_let i v src).
Proof.
  intros H. pose proof H as ((H1 & H2) & H3). unfold define_global_let. destruct (find _ _) as [a|] eqn:F; [|now apply U_failc]. apply find_some in F as (F & _).
  pose proof (proj1 (All_in _ _) H2 a F) as (K & K'). eapply U_bind; [apply U_lift, ok_ident; now split|]. intros n _. eapply U_bind; [apply U_read; intros; now apply ok_span|].
  intros [] _; try (now apply U_failc). eapply (U_bind any); [apply U_read; intros; destruct (resolve_field _ _ _) as [|[]]; exact I|]. intros [] _; [now apply U_push|].
  eapply (U_bind any); [apply U_read; intros; apply ok_pe|]. intros. eapply U_bind; [now apply U_field|]. intros. apply U_change. intros. unfold push_field. eapply ok_bind; [apply ok_pe|]. intros.
  eapply ok_bind; [apply ok_pe|]. intros. apply ok_put.
Qed.
Lemma U_slot ev mods seen s : slot_placed s -> okU any (define_slot ev mods seen s).
Proof.
  intros H. destruct s; cbn [define_slot slot_placed] in *.
  - eapply (U_bind any); [destruct (existsb _ _); [apply U_push; apply H|now apply U_ret]|]. intros. eapply (U_bind any).
    { apply U_read. intros. destruct (_ =? _); [exact I|]. eapply ok_bind; [apply ok_pe|]. intros; exact I. }
    intros. eapply U_bind; [apply U_source|]. intros. now apply U_function.
  - now apply U_class.
  - now apply U_let.
  - apply U_enum.
Qed.
Lemma U_slots ev mods : forall l seen, All slot_placed l -> okU any (define_slots ev mods seen l).
Proof. induction l as [|s l IH]; intros seen H; cbn [define_slots]; [now apply U_ret|]. destruct H. eapply U_bind; [now apply U_reported, U_slot|]. intros. now apply IH. Qed.

(** * Modules *)
Lemma U_declare pm mods m e : entry_placed P e -> okU (All slot_placed) (declare_entry pm mods m e).
Proof.
  intros H. unfold declare_entry. eapply U_bind; [apply U_lift, ok_conditions|].
  { destruct e; cbn in *; apply H. }
  intros [] _; [|now apply U_ret]. intros st N. pose proof (U_symbol pm e m H st N) as (X & Y). destruct (define_symbol pm e m st) as [[s|err] st']; cbn in *; [auto|].
  refine (U_bind any (All slot_placed) (ureport err) (fun _ => uret []) _ _ st' X); [now apply U_report|]. intros; now apply U_ret.
Qed.
Lemma U_declares pm mods m : module_placed P m -> okU (fun x => module_placed P (fst x) /\ All slot_placed (snd x)) (declare_module pm mods m).
Proof.
  intros H. unfold declare_module. eapply (U_bind (All (All slot_placed))). { eapply U_map; [|apply H]. intros. now apply U_declare. }
  intros l L. apply U_ret. split; [exact H|]. cbn. induction l; cbn in *; [auto|]. destruct L. apply All_app. auto.
Qed.
Lemma U_into ev i v : match i with IExact _ sp | ISelected _ _ sp | IAll _ sp => P sp end -> okU any (import_into ev i v).
Proof.
  intros H st N. unfold import_into. assert (G : ok any (snd (populate_import (ev_children ev) (us_symbols st) i (us_module st) v))).
  { unfold populate_import. destruct i.
    - pose proof (ok_span P sp (sy_get_symbol (us_symbols st) p) H) as K. destruct (with_span _ _); [|exact K]. destruct (sym_visible _ _); [|exact I]. destruct (rev p); exact I.
    - generalize (us_module st). induction names as [|n names IH]; intros sc; [exact I|]. cbn [add_selected]. pose proof (ok_span P sp (sy_get_symbol (us_symbols st) (with_child p n)) H) as K.
      destruct (with_span _ _); [|exact K]. apply IH.
    - pose proof (ok_span P sp (sy_direct_children (ev_children ev) (us_symbols st) p) H) as K. destruct (with_span _ _); [exact I|exact K]. }
  destruct (populate_import _ _ _ _ _) as [s r]. cbn in *. split; [destruct N; now constructor|exact G].
Qed.
Lemma U_module ev mods seen x : module_placed P (fst x) /\ All slot_placed (snd x) -> okU any (define_module ev mods seen x).
Proof.
  destruct x as [m slots]. intros ((H1 & H2) & H3). unfold define_module. cbn [fst snd] in *. eapply U_bind; [apply U_put; same|]. intros. eapply (U_bind any).
  { destruct (is_nil _); [now apply U_ret|]. intros st N. split; [|exact I]. cbn [snd]. unfold import_into. destruct (populate_import _ _ _ _ _). cbn. destruct N; now constructor. }
  intros. eapply (U_bind any). { eapply U_each; [|exact H1]. intros i (X & Y). eapply U_bind; [apply U_lift, ok_conditions; exact Y|]. intros [] _; [|now apply U_ret]. now apply U_reported, U_into. }
  intros. now apply U_slots.
Qed.
Lemma U_modules ev mods : forall l seen, All (fun x => module_placed P (fst x) /\ All slot_placed (snd x)) l -> okU any (define_modules ev mods seen l).
Proof. induction l as [|x l IH]; intros seen H; cbn [define_modules]; [now apply U_ret|]. destruct H. eapply U_bind; [now apply U_module|]. intros. now apply IH. Qed.

(** * Bodies *)
Lemma ok_stringify ev e : here e -> ok any (stringify_default ev e).
Proof.
  intros H. pose proof (here_span P e H) as S. unfold stringify_default. destruct e; try exact I; try (now apply ok_failc). destruct e; try (now apply ok_failc). exact I.
Qed.
Lemma U_default ev x : default_placed x -> okU any (compile_default ev x).
Proof.
  intros H. pose proof (here_span P _ H) as S. unfold compile_default. eapply (U_bind any); [apply U_get; intros; exact I|]. intros p _. eapply (U_bind any); [apply U_lift, ok_pe|]. intros f _.
  eapply (U_bind any); [apply U_lift; now apply ok_span|]. intros t _. eapply (U_bind any); [apply U_lift, ok_pe|]. intros n _. eapply (U_bind any); [apply U_lift; now apply ok_stringify|]. intros v _.
  eapply U_bind; [apply U_change; intros; unfold put_defaults; eapply ok_bind; [apply ok_pe|]; intros; eapply ok_bind; [apply ok_pe|]; intros; apply ok_put|]. intros _ _.
  eapply (U_bind any); [apply U_get; intros; exact I|]. intros p' _. eapply (U_bind (fun r => calm_state P (snd r))).
  { apply U_lift. eapply ok_weaken; [eapply (M_convert P _ (M_check P false (ev_fuel ev)) (ft_value x) t H (fresh_checker (ft_scope x) p') I)|]. cbn. tauto. }
  intros r R. apply U_put. intros st []. constructor; cbn; auto. apply All_app. auto.
Qed.
Definition compiled_placed (f : compiled_function) : Prop := All here (cf_code f) /\ P (cf_span f).
Lemma ok_compiled ev sg pm x p : body_placed x -> ok (fun r => compiled_placed (fst (fst r)) /\ All told (snd (fst r))) (compile_function ev sg pm x p).
Proof.
  intros (H & K). unfold compile_function. eapply ok_bind; [apply ok_pe|]. intros f _. eapply (ok_bind P any).
  { unfold body_scope. eapply (ok_bind P any); [|intros; exact I]. generalize (with_context (fb_scope x) (if get_flag fn_is_static (fu_flags f) then None else Some (fb_class x)) (fb_index x)).
    induction (fu_parameters f) as [|i l IH]; intros s; cbn; [exact I|]. eapply ok_bind; [apply ok_pe|]. intros. apply IH. }
  intros s _. eapply ok_bind; [exact (M_seq P _ (M_check P pm (ev_fuel ev)) (fb_code x) H (fresh_checker s p) I)|]. intros [body t] (B & T). cbn [fst snd] in *. destruct sg.
  - eapply ok_bind; [exact (ok_desugar P body (ts_scope t) (ts_pool t) B)|]. intros [[[b ls] s'] p'] B'. cbn in *. repeat split; auto.
  - cbn. repeat split; auto.
Qed.
Lemma U_body ev sg pm x : body_placed x -> okU (All compiled_placed) (compile_body ev sg pm x).
Proof.
  intros H. unfold compile_body. eapply (U_bind any); [apply U_get; intros; exact I|]. intros p _. pose proof (ok_compiled ev sg pm x p H) as K.
  destruct (compile_function _ _ _ _ _) as [[[f ds] p']|e]; cbn in K.
  - destruct K as ((K1 & K2) & K3). eapply (U_bind any); [apply U_put; intros st []; constructor; cbn; auto; apply All_app; auto|]. intros. eapply (U_bind any); [apply U_lift, ok_pe|]. intros g _.
    eapply (U_bind any); [apply U_put; intros st []; constructor; cbn; auto; apply All_app; split; auto; apply told_passes; auto|]. intros. apply U_ret. cbn. unfold compiled_placed. auto.
  - eapply U_bind; [now apply U_report|]. intros. now apply U_ret.
Qed.
End Places.

(** * The whole compilation *)
Section Whole.
Variable P : span -> Prop.
Definition or_zero (sp : span) : Prop := P sp \/ sp = span_zero.
Lemma or_zero_here : forall e : texpr, placed P e -> placed or_zero e.
Proof. apply placed_weaken. now left. Qed.
Lemma or_zero_error e : error_placed P e -> error_placed or_zero e.
Proof. destruct e; cbn; unfold or_zero; auto. Qed.
Lemma ok_zero {A} (Q : A -> Prop) m : ok P Q m -> ok or_zero Q m.
Proof. destruct m; cbn; [auto|apply or_zero_error]. Qed.
Definition okW {A} (Q : A -> Prop) (m : U A) : Prop := forall st, neat P st -> neat P (snd (m st)) /\ ok or_zero Q (fst (m st)).
Lemma W_bind {A B} (Q : A -> Prop) (R : B -> Prop) m k : okW Q m -> (forall a, Q a -> okW R (k a)) -> okW R (ubind m k).
Proof. intros H K st N. unfold ubind. specialize (H st N) as (X & Y). destruct (m st) as [[a|e] st']; cbn in *; [exact (K a Y st' X)|auto]. Qed.
Lemma W_of {A} (Q : A -> Prop) m : okU P Q m -> okW Q m.
Proof. intros H st N. specialize (H st N) as (X & Y). split; [exact X|now apply ok_zero]. Qed.
Lemma modules_placed ev sg pm l : All (module_placed P) l -> okW (All (compiled_placed P)) (compile_modules ev sg pm l).
Proof.
  intros H. unfold compile_modules. set (mods := flat_map _ l). clearbody mods.
  eapply W_bind; [apply W_of; eapply U_map; [|exact H]; intros; now apply U_declares|]. intros queue Q.
  eapply W_bind; [apply W_of; now apply U_modules|]. intros _ _. eapply (W_bind (All (default_placed P))); [apply W_of, U_get; now intros st []|]. intros ds D.
  eapply W_bind; [apply W_of; eapply U_each; [apply U_default|exact D]|]. intros _ _. eapply (W_bind any).
  - intros st N. pose proof (ok_proxies or_zero (or_intror eq_refl) (ev_files ev) (us_proxies st) (ev_wrappers ev (us_wrappers st)) (us_scope st) (us_pool st)) as Q4.
    destruct (construct_proxies _ _ _ _ _) as [[s p]|e]; cbn [fst snd] in *; (split; [|exact I || exact Q4]); [destruct N; now constructor|exact N].
  - intros _ _. eapply (W_bind (All (body_placed P))); [apply W_of, U_get; now intros st []|]. intros bs B. eapply W_bind; [apply W_of; eapply U_map; [apply U_body|exact B]|].
    intros fs F. apply W_of, U_ret. induction fs; cbn in *; [auto|]. destruct F. apply All_app. auto.
Qed.
Lemma sort_in d : forall l, In d (sort_diags l) -> In d l.
Proof.
  induction l as [|x l IH]; cbn; [auto|]. intros H. assert (G : forall m, In d (insert_diag x m) -> x = d \/ In d m).
  { induction m as [|y m IHm]; cbn; [tauto|]. destruct (_ && _); cbn; tauto. }
  apply G in H as [H|H]; auto.
Qed.
Lemma finish_placed ev fs st : All (compiled_placed P) fs -> neat P st -> ok or_zero (fun o => All (diag_placed P) (out_diags o)) (finish ev fs st).
Proof.
  intros H N. unfold finish. eapply (ok_bind _ any).
  - unfold assemble_all. eapply (ok_bind _ any); [|intros; apply ok_swaps]. revert H. generalize (us_pool st). induction fs as [|f fs IH]; intros p H; cbn [install_all]; [exact I|]. destruct H as ((H & _) & H').
    eapply ok_bind; [apply ok_install; [now right|]|]. { eapply All_impl; [|exact H]. apply or_zero_here. } intros. now apply IH.
  - intros p _. eapply (ok_bind _ any). { unfold of_cleanup. destruct (Cleanup.cleanup_pool _ _ _); exact I. }
    intros [p' refs] _. cbn. apply All_in. intros d D. apply sort_in in D. exact (proj1 (All_in _ _) (neat_diags _ _ N) d D).
Qed.
Lemma fold_ok {A B} (f : outcome error A -> B -> outcome error A) l : (forall m x, ok or_zero any m -> ok or_zero any (f m x)) -> forall m, ok or_zero any m -> ok or_zero any (fold_left f l m).
Proof. intros H. induction l; cbn; auto. Qed.
Lemma compile_placed ev l p : All (module_placed P) l -> ok or_zero (fun o => All (diag_placed P) (out_diags o)) (compile ev l p).
Proof.
  intros H. unfold compile. eapply (ok_bind _ (neat P)).
  - unfold unit_new. eapply (ok_bind _ any); [|intros m _; eapply (ok_bind _ any)].
    + apply fold_ok; [|exact I]. intros m x M. unfold sy_new_step. eapply ok_bind; [exact M|]. intros. eapply ok_bind; [apply ok_pe|]. intros. destruct (root_symbol _ _); exact I.
    + unfold scope_new. eapply (ok_bind _ any); [|intros; exact I]. apply fold_ok; [|exact I]. intros m' x M. unfold root_types_step. eapply ok_bind; [exact M|]. intros.
      destruct (df_value _); try exact I. eapply ok_bind; [apply ok_pe|]. intros; exact I.
    + intros s _. cbn. constructor; cbn; auto.
  - intros st N. pose proof (modules_placed ev true false l H st N) as (A & B). destruct (compile_modules _ _ _ _ _) as [[fs|e] st']; cbn in *; [|exact B]. now apply finish_placed.
Qed.
End Whole.
