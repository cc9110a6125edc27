(** Rules for reasoning about the steps of the compilation unit. *)
From Coq Require Import String.
From Coq Require Import ZArith List Bool Lia.
From Verif Require Import Bytes Bytecode Definitions Bundle Ast TypeNames Pool Scope TypeCheck Symbols SourceMap Cursor Assembler
  Desugar Diagnostics Report Printer PoolSpec PoolFacts Wrappers WrapSpec WrapFacts WrapSteps TidyFacts Unit.
Import ListNotations.
Open Scope Z_scope.

(** The pool never shrinks. *)
Definition grown (p p' : pool) : Prop := size p <= size p' /\ prefix (st_list (pl_names p)) (st_list (pl_names p')).
Lemma grown_refl p : grown p p.
Proof. split; [lia|apply prefix_refl]. Qed.
Lemma grown_trans a b c : grown a b -> grown b c -> grown a c.
Proof. intros [A B] [C D]. split; [lia|exact (prefix_trans _ _ _ B D)]. Qed.
Lemma grown_fits p p' : grown p p' -> fits p' -> fits p.
Proof. intros [A B]. exact (fits_back _ _ A B). Qed.
Lemma grown_tidy p p' : tidy p p' -> grown p p'.
Proof. intros [(_ & N & _) A]. split; [exact (adds_size _ _ A)|exact N]. Qed.
Lemma grown_extends p p' : extends p p' -> grown p p'.
Proof. intros (D & N & _). split; [|exact N]. apply prefix_length in D. unfold size. lia. Qed.
Lemma grown_put p i d p' : put_def p i d = Done p' -> grown p p'.
Proof. intros E. apply put_spec in E as (_ & _ & N & S). split; [lia|rewrite N; apply prefix_refl]. Qed.
Lemma grown_push p c f p' : push_member p c f = Done p' -> grown p p'.
Proof. intros E. apply push_spec in E as (N & S & _). split; [lia|rewrite N; apply prefix_refl]. Qed.
Lemma push_field_put p c i p' : push_field p c i = Done p' -> exists d k, def_at p c = Some d /\ df_value d = DClass k /\
  put_def p c (with_value d (DClass (with_fields k (cl_fields k ++ [i])))) = Done p'.
Proof.
  unfold push_field. intros H. destruct (pe (get_class p c)) as [k|] eqn:K; [|discriminate]. cbn [obind] in H.
  destruct (pe (get_def p c)) as [d|] eqn:D; [|discriminate]. cbn [obind] in H. apply pe_done, class_at in K as (d' & K1 & K2). apply def_done in D.
  assert (d' = d) by congruence. subst. eauto.
Qed.
Lemma grown_field p c i p' : push_field p c i = Done p' -> grown p p'.
Proof. intros E. apply push_field_put in E as (d & k & _ & _ & E). exact (grown_put _ _ _ _ E). Qed.
Lemma put_defaults_put p i l p' : put_defaults p i l = Done p' -> exists d f, def_at p i = Some d /\ df_value d = DField f /\
  put_def p i (with_value d (DField (with_defaults f l))) = Done p'.
Proof.
  unfold put_defaults. intros H. destruct (pe (get_field p i)) as [f|] eqn:K; [|discriminate]. cbn [obind] in H.
  destruct (pe (get_def p i)) as [d|] eqn:D; [|discriminate]. cbn [obind] in H. apply pe_done in K. apply def_done in D. exists d, f.
  split; [exact D|]. split; [|exact H]. revert K. unfold get_field, def_by, get_def. rewrite D. destruct (df_value d); try discriminate. intros [= <-]. reflexivity.
Qed.
Lemma grown_defaults p i l p' : put_defaults p i l = Done p' -> grown p p'.
Proof. intros E. apply put_defaults_put in E as (d & k & _ & _ & E). exact (grown_put _ _ _ _ E). Qed.

(** * Steps let the pool grow *)
Definition mono {A} (m : U A) : Prop := forall st r st', m st = (r, st') -> grown (us_pool st) (us_pool st').
Lemma mono_ret {A} (a : A) : mono (uret a).
Proof. intros st r st' [= <- <-]. apply grown_refl. Qed.
Lemma mono_fail {A} e : mono (@ufail A e).
Proof. intros st r st' [= <- <-]. apply grown_refl. Qed.
Lemma mono_lift {A} (m : outcome error A) : mono (ulift m).
Proof. intros st r st' [= <- <-]. apply grown_refl. Qed.
Lemma mono_read {A} (f : ustate -> outcome error A) : mono (uread f).
Proof. intros st r st' [= <- <-]. apply grown_refl. Qed.
Lemma mono_get {A} (f : ustate -> A) : mono (uget f).
Proof. intros st r st' [= <- <-]. apply grown_refl. Qed.
Lemma mono_bind {A B} (m : U A) (k : A -> U B) : mono m -> (forall a, mono (k a)) -> mono (ubind m k).
Proof.
  intros M K st r st'. unfold ubind. destruct (m st) as [[a|e] st1] eqn:E.
  - intros E2. eapply grown_trans; [exact (M _ _ _ E)|exact (K a _ _ _ E2)].
  - intros [= <- <-]. exact (M _ _ _ E).
Qed.
Lemma mono_put f : (forall st, us_pool (f st) = us_pool st) -> mono (uput f).
Proof. intros H st r st' [= <- <-]. rewrite H. apply grown_refl. Qed.
Lemma mono_pool {A} (f : pool -> outcome error (A * pool)) : (forall p a p', f p = Done (a, p') -> grown p p') -> mono (on_pool f).
Proof.
  intros H st r st'. unfold on_pool. destruct (f (us_pool st)) as [[a p]|e] eqn:E; intros [= <- <-]; [exact (H _ _ _ E)|apply grown_refl].
Qed.
Lemma mono_change f : (forall p p', f p = Done p' -> grown p p') -> mono (change_pool f).
Proof. intros H. apply mono_pool. intros p a p'. destruct (f p) as [q|] eqn:E; [|discriminate]. cbn [obind]. intros [= <- <-]. exact (H _ _ E). Qed.
Lemma mono_name n : mono (name_index n).
Proof.
  apply mono_pool. intros p a p'. destruct (add_name p n) as [q i] eqn:E. intros [= <- <-]. apply grown_tidy, (tidy_name _ _ _ _ E).
Qed.
Lemma mono_def d : mono (new_definition d).
Proof.
  apply mono_pool. intros p a p'. destruct (add_definition p d) as [q i] eqn:E. intros [= <- <-]. apply grown_extends, (extends_add_definition _ _ _ _ E).
Qed.
Lemma mono_map {A B} (f : A -> U B) l : (forall x, mono (f x)) -> mono (umap f l).
Proof.
  intros H. induction l as [|x l IH]; [apply mono_ret|]. apply mono_bind; [apply H|intros y]. apply mono_bind; [exact IH|intros ys; apply mono_ret].
Qed.
Lemma mono_each {A} (f : A -> U unit) l : (forall x, mono (f x)) -> mono (ueach f l).
Proof. intros H. induction l as [|x l IH]; [apply mono_ret|]. apply mono_bind; [apply H|intros _; exact IH]. Qed.
Lemma mono_diag d : mono (push_diagnostic d).
Proof. apply mono_put. reflexivity. Qed.
Lemma mono_report e : mono (ureport e).
Proof. apply mono_bind; [apply mono_lift|intros d; apply mono_diag]. Qed.
Lemma mono_reported m : mono m -> mono (reported m).
Proof.
  intros H st r st'. unfold reported. destruct (m st) as [[a|e] st1] eqn:E; [intros [= <- <-]; exact (H _ _ _ E)|].
  intros E2. eapply grown_trans; [exact (H _ _ _ E)|exact (mono_report _ _ _ _ E2)].
Qed.
Lemma mono_type t sp : mono (type_index t sp).
Proof.
  intros st r st'. unfold type_index. destruct (get_type_index t _ _) as [[[i s] p]|] eqn:E; cbn [with_span map_err]; intros [= <- <-]; [|apply grown_refl].
  exact (grown_tidy _ _ (tidy_type _ _ _ _ _ _ E)).
Qed.
Lemma mono_resolve n sp : mono (try_resolve_type n sp).
Proof.
  intros st r st'. unfold try_resolve_type. destruct (with_span sp _) as [t|e]; [intros [= <- <-]; apply grown_refl|].
  apply mono_bind; [apply mono_report|intros _; apply mono_ret].
Qed.
Lemma mono_import ev i v : mono (import_into ev i v).
Proof. intros st r st'. unfold import_into. destruct (populate_import _ _ _ _ _) as [s x]. intros [= <- <-]. apply grown_refl. Qed.
Lemma mono_snd {A} (m : U A) : mono m -> mono (fun st => (Done tt, snd (m st))).
Proof. intros H st r st' [= <- <-]. destruct (m st) as [x st1] eqn:E. exact (H _ _ _ E). Qed.

Ltac mono := repeat match goal with
  | |- mono (uret _) => apply mono_ret
  | |- mono (ufail _) => apply mono_fail
  | |- mono (ufailc _ _) => apply mono_lift
  | |- mono (ulift _) => apply mono_lift
  | |- mono (uread _) => apply mono_read
  | |- mono (uget _) => apply mono_get
  | |- mono (push_diagnostic _) => apply mono_diag
  | |- mono (ureport _) => apply mono_report
  | |- mono (reported _) => apply mono_reported
  | |- mono (name_index _) => apply mono_name
  | |- mono (new_definition _) => apply mono_def
  | |- mono (type_index _ _) => apply mono_type
  | |- mono (try_resolve_type _ _) => apply mono_resolve
  | |- mono (import_into _ _ _) => apply mono_import
  | |- mono (change_pool _) => apply mono_change; intros ? ?; first [apply grown_put|apply grown_push|apply grown_field|apply grown_defaults]
  | |- mono (uput _) => apply mono_put; reflexivity
  | |- mono (umap _ _) => apply mono_map; intros ?
  | |- mono (ueach _ _) => apply mono_each; intros ?
  | |- mono (ubind (uread (fun st => register _ _ _ _ _)) _) => fail 1
  | |- mono (ubind _ _) => apply mono_bind; [|intros ?]
  | |- mono (if ?x then _ else _) => destruct x
  | |- mono (match ?x with _ => _ end) => destruct x
  | |- mono (let '_ := ?x in _) => destruct x
  | |- mono (push_ref _ _) => unfold push_ref
  | |- mono (new_stub _) => unfold new_stub
  | |- mono (declared_type _ _) => unfold declared_type
  | H : _ |- _ => apply H
  end.

(** The registration of a wrapper. *)
Lemma mono_register {A} c name sig sp (k : wrapping -> U A) : (forall w, mono (k w)) ->
  mono (do x <- uread (fun st => register c name sig sp (WrapState (us_pool st) (us_wrappers st) (us_proxies st)));
        let '(w, ws) := x in
        do _ <- uput (fun st => set_pool (ws_pool ws) (set_wraps (ws_wrappers ws) (ws_proxies ws) st)); k w).
Proof.
  intros K st r st'. unfold ubind, uread, uput. cbv beta iota.
  destruct (register _ _ _ _ _) as [[w ws]|] eqn:E; [|intros [= <- <-]; apply grown_refl]. intros E2.
  apply register_grows in E. eapply grown_trans; [|exact (K _ _ _ _ E2)]. exact E.
Qed.
Lemma mono_place src m : mono (place_function src m).
Proof.
  unfold place_function. destruct (find _ _) as [a|]; [|mono]. unfold place_annotated. cbv zeta. destruct (an_kind a); mono.
  eapply mono_register. intros w. apply mono_ret.
Qed.
Lemma mono_symbol pm e m : mono (define_symbol pm e m).
Proof. destruct e; cbn [define_symbol]; cbv zeta; [mono|apply mono_place|mono|mono]. Qed.
Lemma mono_ref ev sp : mono (source_ref_of ev sp).
Proof. unfold source_ref_of, define_source_ref. mono. Qed.
Lemma mono_function x : mono (define_function x).
Proof. unfold define_function, check_native, define_parameter. cbv zeta. mono. Qed.
Lemma mono_field i c fl v src : mono (define_field i c fl v src).
Proof. unfold define_field. cbv zeta. mono. Qed.
Lemma mono_member ev mods b c fl v m : mono (define_member ev mods b c fl v m).
Proof. unfold define_member. mono; try apply mono_ref; try apply mono_function; apply mono_field. Qed.
Lemma mono_class ev mods b c v src : mono (define_class ev mods b c v src).
Proof. unfold define_class, base_class. cbv zeta. mono; apply mono_member. Qed.
Lemma mono_enum i src : mono (define_enum i src).
Proof. unfold define_enum. mono. Qed.
Lemma mono_let i v src : mono (define_global_let i v src).
Proof. unfold define_global_let. mono; apply mono_field. Qed.
Lemma mono_slot ev mods seen s : mono (define_slot ev mods seen s).
Proof. destruct s; cbn [define_slot]; [mono; [apply mono_ref|apply mono_function]|apply mono_class|apply mono_let|apply mono_enum]. Qed.
Lemma mono_slots ev mods l : forall seen, mono (define_slots ev mods seen l).
Proof. induction l as [|s l IH]; intros seen; cbn [define_slots]; mono; apply mono_slot. Qed.
Lemma mono_entry pm mods m e : mono (declare_entry pm mods m e).
Proof.
  unfold declare_entry. mono. intros st r st'. destruct (define_symbol pm e m st) as [[s|err] st1] eqn:E.
  - intros [= <- <-]. exact (mono_symbol _ _ _ _ _ _ E).
  - intros E2. eapply grown_trans; [exact (mono_symbol _ _ _ _ _ _ E)|]. revert E2. apply mono_bind; [apply mono_report|intros _; apply mono_ret].
Qed.
Lemma mono_module ev mods seen x : mono (define_module ev mods seen x).
Proof. destruct x as [m slots]. unfold define_module. mono; [apply mono_snd, mono_import|apply mono_slots]. Qed.
Lemma mono_modules ev mods l : forall seen, mono (define_modules ev mods seen l).
Proof. induction l as [|x l IH]; intros seen; cbn [define_modules]; mono. apply mono_module. Qed.
(** The check of a default value. *)
Definition check_default (ev : env) (x : field_default) (t : typeid) : U unit :=
  do p <- uget us_pool;
  do r <- ulift (check_and_convert (check (ev_fuel ev) false) (ft_value x) t (fresh_checker (ft_scope x) p));
  uput (fun st => set_diags (us_diags st ++ ts_diags (snd r)) (set_pool (ts_pool (snd r)) st)).
Lemma check_default_pool ev x t st r st' : check_default ev x t st = (r, st') ->
  tidy (us_pool st) (us_pool st') /\ exists ds, st' = set_diags (us_diags st ++ ds) (set_pool (us_pool st') st).
Proof.
  unfold check_default, ubind, uget, ulift, uput. cbv beta iota.
  destruct (check_and_convert _ _ _ _) as [[e u]|] eqn:E; intros [= <- <-].
  - cbn [snd set_diags set_pool us_pool]. split; [exact (tidy_convert _ _ _ _ _ _ _ E)|]. now exists (ts_diags u).
  - split; [apply tidy_refl|]. exists []. destruct st. cbn. now rewrite app_nil_r.
Qed.
Lemma mono_default ev x : mono (compile_default ev x).
Proof.
  unfold compile_default. apply mono_bind; [apply mono_get|intros p]. do 4 (apply mono_bind; [apply mono_lift|intros ?]).
  apply mono_bind; [mono|intros _]. intros st r st' E. apply (check_default_pool ev x) in E as (T & _). exact (grown_tidy _ _ T).
Qed.
Lemma tidy_function ev sg pm x p f ds p' : compile_function ev sg pm x p = Done (f, ds, p') -> tidy p p' /\ cf_index f = fb_index x.
Proof.
  unfold compile_function. destruct (pe _) as [g|]; [|discriminate]. cbn [obind]. destruct (body_scope _ _ _) as [s|]; [|discriminate]. cbn [obind].
  destruct (check_seq _ _ _) as [[body t]|] eqn:E; [|discriminate]. cbn [obind]. apply tidy_check_seq in E. cbn [fresh_checker ts_pool] in E.
  destruct sg.
  - destruct (desugar _ _ _) as [[[[b' ls] s'] q]|] eqn:E2; [|discriminate]. cbn [obind]. intros [= <- <- <-]. split; [|reflexivity].
    exact (tidy_trans _ _ _ E (tidy_desugar _ _ _ _ _ _ _ E2)).
  - intros [= <- <- <-]. split; [exact E|reflexivity].
Qed.
Lemma mono_body ev sg pm x : mono (compile_body ev sg pm x).
Proof.
  intros st r st'. unfold compile_body, ubind at 1, uget. destruct (compile_function ev sg pm x (us_pool st)) as [[[f ds] p']|e] eqn:E.
  - intros E2. apply grown_trans with p'; [exact (grown_tidy _ _ (proj1 (tidy_function _ _ _ _ _ _ _ _ E)))|].
    assert (M : mono (do g <- ulift (pe (get_function p' (cf_index f)));
      do _ <- uput (fun st => set_diags (us_diags st ++ passes (cf_code f)
                {| fm_flags := fu_flags g; fm_was_callback := fb_was_callback x; fm_span := cf_span f |}) st); uret [f])) by mono.
    exact (M (set_diags (us_diags st ++ ds) (set_pool p' st)) r st' E2).
  - apply mono_bind; [apply mono_report|intros _; apply mono_ret].
Qed.
Lemma mono_proxies ev : mono (fun st => match construct_proxies (ev_files ev) (us_proxies st) (ev_wrappers ev (us_wrappers st)) (us_scope st) (us_pool st) with
                 | Done (s, p) => (Done tt, set_pool p (set_root s st))
                 | Fail e => (Fail e, st)
                 end).
Proof.
  intros st r st'. destruct (construct_proxies _ _ _ _ _) as [[s p]|e] eqn:E; intros [= <- <-]; [|apply grown_refl].
  exact (construct_proxies_grows _ _ _ _ _ _ _ E).
Qed.

(** * Invariants *)
Section Holds.
Variable Inv : ustate -> Prop.
Definition holds {A} (m : U A) (Q : A -> Prop) : Prop :=
  forall st r st', m st = (r, st') -> fits (us_pool st') -> Inv st -> Inv st' /\ forall a, r = Done a -> Q a.
Lemma holds_ret {A} (a : A) (Q : A -> Prop) : Q a -> holds (uret a) Q.
Proof. intros H st r st' [= <- <-] _ I. split; [exact I|]. intros b [= <-]. exact H. Qed.
Lemma holds_fail {A} e (Q : A -> Prop) : holds (ufail e) Q.
Proof. intros st r st' [= <- <-] _ I. split; [exact I|discriminate]. Qed.
Lemma holds_lift {A} (m : outcome error A) (Q : A -> Prop) : (forall a, m = Done a -> Q a) -> holds (ulift m) Q.
Proof. intros H st r st' [= <- <-] _ I. split; [exact I|exact H]. Qed.
Lemma holds_failc {A} sp c (Q : A -> Prop) : holds (ufailc sp c) Q.
Proof. apply holds_lift. discriminate. Qed.
Lemma holds_read {A} (f : ustate -> outcome error A) (Q : A -> Prop) : (forall st a, Inv st -> f st = Done a -> Q a) -> holds (uread f) Q.
Proof. intros H st r st' [= <- <-] _ I. split; [exact I|]. intros a E. exact (H _ _ I E). Qed.
Lemma holds_get {A} (f : ustate -> A) (Q : A -> Prop) : (forall st, Inv st -> Q (f st)) -> holds (uget f) Q.
Proof. intros H st r st' [= <- <-] _ I. split; [exact I|]. intros a [= <-]. exact (H _ I). Qed.
Lemma holds_bind {A B} (m : U A) (k : A -> U B) (P : A -> Prop) (Q : B -> Prop) :
  holds m P -> (forall a, mono (k a)) -> (forall a, P a -> holds (k a) Q) -> holds (ubind m k) Q.
Proof.
  intros M G K st r st'. unfold ubind. destruct (m st) as [[a|e] st1] eqn:E.
  - intros E2 F I. destruct (M _ _ _ E (grown_fits _ _ (G a _ _ _ E2) F) I) as (I1 & Pa). exact (K a (Pa a eq_refl) _ _ _ E2 F I1).
  - intros [= <- <-] F I. split; [exact (proj1 (M _ _ _ E F I))|discriminate].
Qed.
Lemma holds_then {A B} (m : U A) (k : U B) (P : A -> Prop) (Q : B -> Prop) : holds m P -> mono k -> holds k Q -> holds (ubind m (fun _ => k)) Q.
Proof. intros M G K. eapply holds_bind; [exact M|intros _; exact G|intros _ _; exact K]. Qed.
Lemma holds_weaken {A} (m : U A) (P Q : A -> Prop) : holds m P -> (forall a, P a -> Q a) -> holds m Q.
Proof. intros M H st r st' E F I. destruct (M _ _ _ E F I) as (J & K). split; [exact J|]. intros a X. apply H, K, X. Qed.
Lemma holds_put f (Q : Datatypes.unit -> Prop) : (forall st, fits (us_pool (f st)) -> Inv st -> Inv (f st)) -> Q tt -> holds (uput f) Q.
Proof. intros H K st r st' [= <- <-] F I. split; [exact (H _ F I)|]. intros []. auto. Qed.
Lemma holds_pool {A} (f : pool -> outcome error (A * pool)) (Q : A -> Prop) :
  (forall st a p', f (us_pool st) = Done (a, p') -> fits p' -> Inv st -> Inv (set_pool p' st) /\ Q a) -> holds (on_pool f) Q.
Proof.
  intros H st r st'. unfold on_pool. destruct (f (us_pool st)) as [[a p]|e] eqn:E; intros [= <- <-] F I.
  - destruct (H _ _ _ E F I) as (J & K). split; [exact J|]. intros b [= <-]. exact K.
  - split; [exact I|discriminate].
Qed.
Lemma holds_change f (Q : Datatypes.unit -> Prop) : (forall st p', f (us_pool st) = Done p' -> fits p' -> Inv st -> Inv (set_pool p' st)) -> Q tt -> holds (change_pool f) Q.
Proof.
  intros H K. apply holds_pool. intros st a p'. destruct (f _) as [q|] eqn:E; [|discriminate]. cbn [obind]. intros [= <- <-] F I. split; [exact (H _ _ E F I)|exact K].
Qed.
Lemma holds_map {A B} (f : A -> U B) (Q : B -> Prop) l : (forall x, mono (f x)) -> (forall x, In x l -> holds (f x) Q) -> holds (umap f l) (Forall Q).
Proof.
  intros G. induction l as [|x l IH]; intros H; [apply holds_ret; constructor|]. eapply holds_bind with (P := Q); [apply H; now left| |].
  - intros a. apply mono_bind; [apply mono_map, G|intros ys; apply mono_ret].
  - intros y Qy. eapply holds_bind with (P := Forall Q); [apply IH; intros z Iz; apply H; now right|intros; apply mono_ret|].
    intros ys Qs. apply holds_ret. now constructor.
Qed.
Lemma holds_each {A} (f : A -> U Datatypes.unit) l : (forall x, mono (f x)) -> (forall x, In x l -> holds (f x) (fun _ => True)) -> holds (ueach f l) (fun _ => True).
Proof.
  intros G. induction l as [|x l IH]; intros H; [apply holds_ret; exact I|]. eapply holds_then; [apply H; now left|apply mono_each, G|].
  apply IH. intros z Iz. apply H. now right.
Qed.
Lemma holds_if {A} (b : bool) (m k : U A) (Q : A -> Prop) : (b = true -> holds m Q) -> (b = false -> holds k Q) -> holds (if b then m else k) Q.
Proof. destruct b; auto. Qed.
Lemma holds_snd {A} (m : U A) (P : A -> Prop) (Q : Datatypes.unit -> Prop) : holds m P -> Q tt -> holds (fun st => (Done tt, snd (m st))) Q.
Proof.
  intros H K st r st' [= <- <-] F I. destruct (m st) as [x st1] eqn:E. split; [exact (proj1 (H _ _ _ E F I))|]. intros []. auto.
Qed.
(** Diagnostics are of no concern. *)
Hypothesis Idiag : forall st l, Inv st -> Inv (set_diags l st).
Lemma holds_diag d : holds (push_diagnostic d) (fun _ => True).
Proof. apply holds_put; [|exact I]. intros st _ H. apply Idiag, H. Qed.
Lemma holds_report e : holds (ureport e) (fun _ => True).
Proof. eapply holds_bind with (P := fun _ => True); [apply holds_lift; auto|intros; apply mono_diag|intros; apply holds_diag]. Qed.
Lemma holds_reported m (P : Datatypes.unit -> Prop) : holds m P -> holds (reported m) (fun _ => True).
Proof.
  intros H st r st'. unfold reported. destruct (m st) as [[a|e] st1] eqn:E.
  - intros [= <- <-] F I. split; [exact (proj1 (H _ _ _ E F I))|auto].
  - intros E2 F I. pose proof (grown_fits _ _ (mono_report _ _ _ _ E2) F) as F1. exact (holds_report _ _ _ _ E2 F (proj1 (H _ _ _ E F1 I))).
Qed.
End Holds.
