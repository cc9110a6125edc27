(** What holds of every function of a bundle, and of every function that the compiler
    makes, holds of every function of the result. *)
From Coq Require Import String.
From Coq Require Import ZArith List Bool Lia.
From Verif Require Import Bytes Bytecode Definitions Bundle Ast TypeNames Pool Scope TypeCheck Symbols SourceMap Cursor Assembler
  Desugar Diagnostics Report Printer PoolSpec PoolFacts Wrappers WrapSpec WrapFacts WrapSteps TidyFacts Unit UnitSteps.
Import ListNotations.
Open Scope Z_scope.

Section Functions.
Variable V : function -> Prop.
Hypothesis V_code : forall f c, V f -> V (with_code f c).
Hypothesis V_locals : forall f l, V f -> V (with_locals f l).
Hypothesis V_parameters : forall f l, V f -> V (with_parameters f l).
Hypothesis V_callback : forall f, V f -> V (with_flags f (with_flag fn_is_callback false (fu_flags f))).
Hypothesis V_new : forall d v r t b ps st nat cb hr hp,
  V {| fu_visibility := v; fu_flags := function_flags d st nat cb hr hp; fu_source := Some r; fu_return_type := t; fu_unk1 := false;
       fu_base_method := b; fu_parameters := ps; fu_locals := []; fu_operator := None; fu_cast := 0; fu_code := []; fu_unk2 := [] |}.

Definition good (d : definition) : Prop := match df_value d with DFunction f => V f | _ => True end.
Definition all_good (p : pool) : Prop := Forall good (pl_defs p).
Definition goes (p p' : pool) : Prop := all_good p -> all_good p'.
Lemma goes_refl p : goes p p. Proof. intros H. exact H. Qed.
Lemma goes_trans p q r : goes p q -> goes q r -> goes p r. Proof. unfold goes. auto. Qed.
Lemma goes_adds p p' : adds p p' -> goes p p'.
Proof.
  intros ((m & E & F) & _) G. unfold all_good. rewrite E. apply Forall_app. split; [exact G|]. eapply Forall_impl; [|exact F]. unfold passive, good. intros d. now destruct (df_value d).
Qed.
Lemma goes_tidy p p' : tidy p p' -> goes p p'. Proof. intros [_ A]. now apply goes_adds. Qed.
Lemma goes_same p p' : pl_defs p' = pl_defs p -> goes p p'. Proof. intros E. unfold goes, all_good. now rewrite E. Qed.
Lemma good_at p i d : all_good p -> nth_def (pl_defs p) i = Some d -> good d.
Proof. intros G. unfold nth_def. destruct (i <? 0); [discriminate|]. intros E. unfold all_good in G. rewrite Forall_forall in G. exact (G _ (nth_error_In _ _ E)). Qed.
Lemma goes_add p d p' i : add_definition p d = (p', i) -> good d -> goes p p'.
Proof. intros [= <- _] D G. apply Forall_app. split; [exact G|]. now constructor. Qed.
Lemma put_good p i d p' : put_def p i d = Done p' -> all_good p -> good d -> all_good p'.
Proof.
  unfold put_def. destruct (nth_def _ _); [|discriminate]. intros [= <-] G D. unfold all_good in *. cbn [set_defs pl_defs]. unfold replace_at.
  rewrite Forall_forall in G. apply Forall_app. split; [|constructor; [exact D|]].
  - apply Forall_forall. intros e J. apply G. rewrite <- (firstn_skipn (Z.to_nat i) (pl_defs p)). apply in_or_app. now left.
  - apply Forall_forall. intros e J. apply G. rewrite <- (firstn_skipn (S (Z.to_nat i)) (pl_defs p)). apply in_or_app. now right.
Qed.
Lemma goes_put p i d p' : put_def p i d = Done p' -> good d -> goes p p'.
Proof. intros E D G. exact (put_good _ _ _ _ E G D). Qed.
Lemma goes_push p c f p' : push_member p c f = Done p' -> goes p p'.
Proof.
  unfold push_member. destruct (pe (get_class p c)); [|discriminate]. cbn [obind]. destruct (pe (get_def p c)); [|discriminate]. cbn [obind]. intros E. exact (goes_put _ _ _ _ E I).
Qed.
Lemma goes_field p c i p' : push_field p c i = Done p' -> goes p p'.
Proof. intros E. apply push_field_put in E as (d & k & _ & _ & E). exact (goes_put _ _ _ _ E I). Qed.
Lemma goes_defaults p i l p' : put_defaults p i l = Done p' -> goes p p'.
Proof. intros E. apply put_defaults_put in E as (d & k & _ & _ & E). exact (goes_put _ _ _ _ E I). Qed.
Lemma function_good p f x : all_good p -> pe (get_function p f) = Done x -> V x.
Proof.
  intros G E. apply pe_done, function_at in E as (d & D & F). pose proof (good_at p f d G D) as X. unfold good in X. now rewrite F in X.
Qed.
Lemma goes_update p f u p' : update_function p f u = Done p' -> (forall x, V x -> V (u x)) -> goes p p'.
Proof.
  unfold update_function. destruct (pe (get_function p f)) as [x|] eqn:E; [|discriminate]. cbn [obind]. destruct (pe (get_def p f)) as [d|]; [|discriminate]. cbn [obind]. intros P U G.
  apply (put_good _ _ _ _ P G). cbn. apply U. exact (function_good _ _ _ G E).
Qed.

(** * The steps *)
Definition steps {A} (m : U A) : Prop := forall st r st', m st = (r, st') -> goes (us_pool st) (us_pool st').
Lemma steps_ret {A} (a : A) : steps (uret a).
Proof. intros st r st' [= <- <-]. apply goes_refl. Qed.
Lemma steps_fail {A} e : steps (@ufail A e).
Proof. intros st r st' [= <- <-]. apply goes_refl. Qed.
Lemma steps_lift {A} (m : outcome error A) : steps (ulift m).
Proof. intros st r st' [= <- <-]. apply goes_refl. Qed.
Lemma steps_read {A} (f : ustate -> outcome error A) : steps (uread f).
Proof. intros st r st' [= <- <-]. apply goes_refl. Qed.
Lemma steps_get {A} (f : ustate -> A) : steps (uget f).
Proof. intros st r st' [= <- <-]. apply goes_refl. Qed.
Lemma steps_bind {A B} (m : U A) (k : A -> U B) : steps m -> (forall a, steps (k a)) -> steps (ubind m k).
Proof.
  intros M K st r st'. unfold ubind. destruct (m st) as [[a|e] st1] eqn:E.
  - intros E2. eapply goes_trans; [exact (M _ _ _ E)|exact (K a _ _ _ E2)].
  - intros [= <- <-]. exact (M _ _ _ E).
Qed.
Lemma steps_put f : (forall st, us_pool (f st) = us_pool st) -> steps (uput f).
Proof. intros H st r st' [= <- <-]. rewrite H. apply goes_refl. Qed.
Lemma steps_pool {A} (f : pool -> outcome error (A * pool)) : (forall p a p', f p = Done (a, p') -> goes p p') -> steps (on_pool f).
Proof.
  intros H st r st'. unfold on_pool. destruct (f (us_pool st)) as [[a p]|e] eqn:E; intros [= <- <-]; [exact (H _ _ _ E)|apply goes_refl].
Qed.
Lemma steps_change f : (forall p p', f p = Done p' -> goes p p') -> steps (change_pool f).
Proof. intros H. apply steps_pool. intros p a p'. destruct (f p) as [q|] eqn:E; [|discriminate]. cbn [obind]. intros [= <- <-]. exact (H _ _ E). Qed.
Lemma steps_name n : steps (name_index n).
Proof.
  apply steps_pool. intros p a p'. destruct (add_name p n) as [q i] eqn:E. intros [= <- <-]. apply goes_tidy, (tidy_name _ _ _ _ E).
Qed.
Lemma steps_def d : good d -> steps (new_definition d).
Proof.
  intros D. apply steps_pool. intros p a p'. destruct (add_definition p d) as [q i] eqn:E. intros [= <- <-]. exact (goes_add _ _ _ _ E D).
Qed.
Lemma steps_map {A B} (f : A -> U B) l : (forall x, steps (f x)) -> steps (umap f l).
Proof.
  intros H. induction l as [|x l IH]; [apply steps_ret|]. apply steps_bind; [apply H|intros y]. apply steps_bind; [exact IH|intros ys; apply steps_ret].
Qed.
Lemma steps_each {A} (f : A -> U Datatypes.unit) l : (forall x, steps (f x)) -> steps (ueach f l).
Proof. intros H. induction l as [|x l IH]; [apply steps_ret|]. apply steps_bind; [apply H|intros _; exact IH]. Qed.
Lemma steps_diag d : steps (push_diagnostic d).
Proof. apply steps_put. reflexivity. Qed.
Lemma steps_report e : steps (ureport e).
Proof. apply steps_bind; [apply steps_lift|intros d; apply steps_diag]. Qed.
Lemma steps_reported m : steps m -> steps (reported m).
Proof.
  intros H st r st'. unfold reported. destruct (m st) as [[a|e] st1] eqn:E; [intros [= <- <-]; exact (H _ _ _ E)|].
  intros E2. eapply goes_trans; [exact (H _ _ _ E)|exact (steps_report _ _ _ _ E2)].
Qed.
Lemma steps_type t sp : steps (type_index t sp).
Proof.
  intros st r st'. unfold type_index. destruct (get_type_index t _ _) as [[[i s] p]|] eqn:E; cbn [with_span map_err]; intros [= <- <-]; [|apply goes_refl].
  exact (goes_tidy _ _ (tidy_type _ _ _ _ _ _ E)).
Qed.
Lemma steps_resolve n sp : steps (try_resolve_type n sp).
Proof.
  intros st r st'. unfold try_resolve_type. destruct (with_span sp _) as [t|e]; [intros [= <- <-]; apply goes_refl|].
  apply steps_bind; [apply steps_report|intros _; apply steps_ret].
Qed.
Lemma steps_import ev i v : steps (import_into ev i v).
Proof. intros st r st'. unfold import_into. destruct (populate_import _ _ _ _ _) as [s x]. intros [= <- <-]. apply goes_refl. Qed.
Lemma steps_snd {A} (m : U A) : steps m -> steps (fun st => (Done tt, snd (m st))).
Proof. intros H st r st' [= <- <-]. destruct (m st) as [x st1] eqn:E. exact (H _ _ _ E). Qed.

Ltac steps := repeat match goal with
  | |- steps (uret _) => apply steps_ret
  | |- steps (ufail _) => apply steps_fail
  | |- steps (ufailc _ _) => apply steps_lift
  | |- steps (ulift _) => apply steps_lift
  | |- steps (uread _) => apply steps_read
  | |- steps (uget _) => apply steps_get
  | |- steps (push_diagnostic _) => apply steps_diag
  | |- steps (ureport _) => apply steps_report
  | |- steps (reported _) => apply steps_reported
  | |- steps (name_index _) => apply steps_name
  | |- steps (new_definition _) => apply steps_def; exact I
  | |- steps (type_index _ _) => apply steps_type
  | |- steps (try_resolve_type _ _) => apply steps_resolve
  | |- steps (import_into _ _ _) => apply steps_import
  | |- steps (change_pool (fun p => put_def p _ (function_definition _ _ _))) => apply steps_change; intros ? ? HH; apply (goes_put _ _ _ _ HH); apply V_new
  | |- steps (change_pool _) => apply steps_change; intros ? ? HH; first [exact (goes_put _ _ _ _ HH I)|exact (goes_push _ _ _ _ HH)|exact (goes_field _ _ _ _ HH)|exact (goes_defaults _ _ _ _ HH)]
  | |- steps (uput _) => apply steps_put; reflexivity
  | |- steps (umap _ _) => apply steps_map; intros ?
  | |- steps (ueach _ _) => apply steps_each; intros ?
  | |- steps (ubind (uread (fun st => register _ _ _ _ _)) _) => fail 1
  | |- steps (ubind _ _) => apply steps_bind; [|intros ?]
  | |- steps (if ?x then _ else _) => destruct x
  | |- steps (match ?x with _ => _ end) => destruct x
  | |- steps (let '_ := ?x in _) => destruct x
  | |- steps (push_ref _ _) => unfold push_ref
  | |- steps (new_stub _) => unfold new_stub
  | |- steps (declared_type _ _) => unfold declared_type
  | H : _ |- _ => apply H
  end.

(** The registration of a wrapper. *)
Lemma goes_register c name sig sp st w st' : register c name sig sp st = Done (w, st') -> goes (ws_pool st) (ws_pool st').
Proof.
  unfold register. destruct (resolve_direct_method _ _ _) as [cs|]; [|discriminate]. destruct (by_id _ _ _) as [f|]; [|discriminate].
  assert (X : exists a b d, match find_key (ws_wrappers st) f with
        | Some w => (w, ws_pool st, ws_proxies st)
        | None => let '(p1, proxy) := add_definition (ws_pool st) default_definition in (proxy, p1, put_key (ws_proxies st) f proxy)
        end = (a, b, d) /\ goes (ws_pool st) b).
  { destruct (find_key _ _); [do 3 eexists; split; [reflexivity|apply goes_refl]|]. destruct (add_definition _ _) as [p1 i] eqn:E. do 3 eexists. split; [reflexivity|]. exact (goes_add _ _ _ _ E I). }
  destruct X as (a & b & d & -> & G). destruct (add_name b _) as [p2 n] eqn:E2. destruct (add_definition p2 _) as [p3 w3] eqn:E3. destruct (push_member p3 c w3) as [p4|] eqn:E4; [|discriminate].
  cbn [obind]. intros [= <- <-]. cbn [ws_pool]. eapply goes_trans; [exact G|]. eapply goes_trans; [exact (goes_tidy _ _ (tidy_name _ _ _ _ E2))|].
  eapply goes_trans; [exact (goes_add _ _ _ _ E3 I)|exact (goes_push _ _ _ _ E4)].
Qed.
Lemma steps_register {A} c name sig sp (k : wrapping -> U A) : (forall w, steps (k w)) ->
  steps (do x <- uread (fun st => register c name sig sp (WrapState (us_pool st) (us_wrappers st) (us_proxies st)));
        let '(w, ws) := x in
        do _ <- uput (fun st => set_pool (ws_pool ws) (set_wraps (ws_wrappers ws) (ws_proxies ws) st)); k w).
Proof.
  intros K st r st'. unfold ubind, uread, uput. cbv beta iota.
  destruct (register _ _ _ _ _) as [[w ws]|] eqn:E; [|intros [= <- <-]; apply goes_refl]. intros E2.
  apply goes_register in E. eapply goes_trans; [|exact (K _ _ _ _ E2)]. exact E.
Qed.
Lemma steps_place src m : steps (place_function src m).
Proof.
  unfold place_function. destruct (find _ _) as [a|]; [|steps]. unfold place_annotated. cbv zeta. destruct (an_kind a); steps.
  eapply steps_register. intros w. apply steps_ret.
Qed.
Lemma steps_symbol pm e m : steps (define_symbol pm e m).
Proof. destruct e; cbn [define_symbol]; cbv zeta; [steps|apply steps_place|steps|steps]. Qed.
Lemma steps_ref ev sp : steps (source_ref_of ev sp).
Proof. unfold source_ref_of, define_source_ref. steps. Qed.
Lemma steps_function x : steps (define_function x).
Proof. unfold define_function, check_native, define_parameter. cbv zeta. steps. Qed.
Lemma steps_field i c fl v src : steps (define_field i c fl v src).
Proof. unfold define_field. cbv zeta. steps. Qed.
Lemma steps_member ev mods b c fl v m : steps (define_member ev mods b c fl v m).
Proof. unfold define_member. steps; try apply steps_ref; try apply steps_function; apply steps_field. Qed.
Lemma steps_class ev mods b c v src : steps (define_class ev mods b c v src).
Proof. unfold define_class, base_class. cbv zeta. steps; apply steps_member. Qed.
Lemma steps_enum i src : steps (define_enum i src).
Proof. unfold define_enum. steps. Qed.
Lemma steps_let i v src : steps (define_global_let i v src).
Proof. unfold define_global_let. steps; apply steps_field. Qed.
Lemma steps_slot ev mods seen s : steps (define_slot ev mods seen s).
Proof. destruct s; cbn [define_slot]; [steps; [apply steps_ref|apply steps_function]|apply steps_class|apply steps_let|apply steps_enum]. Qed.
Lemma steps_slots ev mods l : forall seen, steps (define_slots ev mods seen l).
Proof. induction l as [|s l IH]; intros seen; cbn [define_slots]; steps; apply steps_slot. Qed.
Lemma steps_entry pm mods m e : steps (declare_entry pm mods m e).
Proof.
  unfold declare_entry. steps. intros st r st'. destruct (define_symbol pm e m st) as [[s|err] st1] eqn:E.
  - intros [= <- <-]. exact (steps_symbol _ _ _ _ _ _ E).
  - intros E2. eapply goes_trans; [exact (steps_symbol _ _ _ _ _ _ E)|]. revert E2. apply steps_bind; [apply steps_report|intros _; apply steps_ret].
Qed.
Lemma steps_module ev mods seen x : steps (define_module ev mods seen x).
Proof. destruct x as [m slots]. unfold define_module. steps; [apply steps_snd, steps_import|apply steps_slots]. Qed.
Lemma steps_modules ev mods l : forall seen, steps (define_modules ev mods seen l).
Proof. induction l as [|x l IH]; intros seen; cbn [define_modules]; steps. apply steps_module. Qed.
Lemma steps_default ev x : steps (compile_default ev x).
Proof.
  unfold compile_default. apply steps_bind; [apply steps_get|intros p]. do 4 (apply steps_bind; [apply steps_lift|intros ?]).
  apply steps_bind; [steps|intros _]. intros st r st' E. apply (check_default_pool ev x) in E as (T & _). exact (goes_tidy _ _ T).
Qed.
Lemma steps_body ev sg pm x : steps (compile_body ev sg pm x).
Proof.
  intros st r st'. unfold compile_body, ubind at 1, uget. destruct (compile_function ev sg pm x (us_pool st)) as [[[f ds] p']|e] eqn:E.
  - intros E2. apply goes_trans with p'; [exact (goes_tidy _ _ (proj1 (tidy_function _ _ _ _ _ _ _ _ E)))|].
    assert (M : steps (do g <- ulift (pe (get_function p' (cf_index f)));
      do _ <- uput (fun st => set_diags (us_diags st ++ passes (cf_code f)
                {| fm_flags := fu_flags g; fm_was_callback := fb_was_callback x; fm_span := cf_span f |}) st); uret [f])) by steps.
    exact (M (set_diags (us_diags st ++ ds) (set_pool p' st)) r st' E2).
  - apply steps_bind; [apply steps_report|intros _; apply steps_ret].
Qed.

(** * Wrappers *)
Lemma goes_copy ps : forall p js p', copy_parameters ps p = Done (js, p') -> goes p p'.
Proof.
  induction ps as [|i ps IH]; intros p js p'; cbn [copy_parameters]; [intros [= <- <-]; apply goes_refl|].
  destruct (pe (get_def p i)) as [d|] eqn:D; [|discriminate]. cbn [obind]. destruct (add_definition p d) as [q j] eqn:E. destruct (copy_parameters ps q) as [[js2 q2]|] eqn:C; [|discriminate].
  cbn [obind]. intros [= <- <-] G. apply (IH _ _ _ C). apply (goes_add _ _ _ _ E); [|exact G]. exact (good_at _ _ _ G (def_done _ _ _ D)).
Qed.
Lemma goes_proxy files slot f w s p s' p' : construct_proxy files slot f w s p = Done (s', p') -> goes p p'.
Proof.
  unfold construct_proxy. destruct (pe (get_def p f)) as [d|] eqn:D; [|discriminate]. cbn [obind]. destruct (df_value d) as [?|?|?|?|x|?|?|?|?] eqn:VD; try discriminate.
  destruct (copy_parameters _ p) as [[params p1]|] eqn:E1; [|discriminate]. cbn [obind].
  destruct (from_body _ _ s p1) as [[[code s1] p2]|] eqn:E2; [|discriminate]. cbn [obind].
  destruct (add_name p2 _) as [p3 nm] eqn:E3. destruct (put_def p3 slot _) as [p4|] eqn:E4; [|discriminate]. cbn [obind].
  intros E G. assert (X : V x) by (pose proof (good_at _ _ _ G (def_done _ _ _ D)) as X; unfold good in X; now rewrite VD in X).
  assert (G4 : all_good p4).
  { apply (put_good _ _ _ _ E4); [|cbn; auto]. apply (goes_tidy _ _ (tidy_name _ _ _ _ E3)), (goes_tidy _ _ (tidy_body _ _ _ _ _ _ _ E2)), (goes_copy _ _ _ _ E1), G. }
  destruct (_ =? _); [now injection E as <- <-|]. destruct (push_member p4 _ slot) as [p5|] eqn:E5; [|discriminate]. cbn [obind] in E. injection E as <- <-. exact (goes_push _ _ _ _ E5 G4).
Qed.
Lemma goes_proxies files proxies order : forall s p s' p', construct_proxies files proxies order s p = Done (s', p') -> goes p p'.
Proof.
  induction order as [|[a b] l IH]; intros s p s' p'; cbn [construct_proxies]; [intros [= <- <-]; apply goes_refl|].
  destruct (find_key proxies a) as [slot|]; [|discriminate]. destruct (construct_proxy _ _ _ _ _ _) as [[s1 p1]|] eqn:E; [|discriminate]. cbn [obind]. intros E2.
  eapply goes_trans; [exact (goes_proxy _ _ _ _ _ _ _ _ E)|exact (IH _ _ _ _ E2)].
Qed.
Lemma goes_locals proxy ls : forall m p m' p', copy_locals proxy ls m p = Done (m', p') -> goes p p'.
Proof.
  induction ls as [|i ls IH]; intros m p m' p'; cbn [copy_locals]; [intros [= <- <-]; apply goes_refl|].
  destruct (pe (get_def p i)) as [d|] eqn:D; [|discriminate]. cbn [obind]. destruct (add_definition p _) as [q j] eqn:E. intros C G.
  apply (IH _ _ _ _ C). apply (goes_add _ _ _ _ E); [|exact G]. pose proof (good_at _ _ _ G (def_done _ _ _ D)) as X. exact X.
Qed.
Lemma goes_rename p i n p' : rename p i n = Done p' -> goes p p'.
Proof.
  unfold rename. destruct (nth_def _ _) as [d|] eqn:D; [|discriminate]. intros E G. apply (put_good _ _ _ _ E G). exact (good_at _ _ _ G D).
Qed.
Lemma goes_swap p i j p' : swap_definition p i j = Done p' -> goes p p'.
Proof.
  unfold swap_definition. destruct (nth_def _ i) as [a|] eqn:A; [|discriminate]. destruct (nth_def _ j) as [b|] eqn:B; [|discriminate].
  destruct (put_def p i b) as [p1|] eqn:E; [|discriminate]. cbn [obind]. intros E2 G. apply (put_good _ _ _ _ E2); [|exact (good_at _ _ _ G A)]. apply (put_good _ _ _ _ E G). exact (good_at _ _ _ G B).
Qed.
Lemma goes_swap_proxy sh a b p p' : swap_proxy sh a b p = Done p' -> goes p p'.
Proof.
  unfold swap_proxy. destruct (pe (get_def p a)) as [dw|]; [|discriminate]. cbn [obind]. destruct (pe (get_def p b)) as [dp|]; [|discriminate]. cbn [obind].
  destruct (update_function _ _ _) as [p1|] eqn:E1; [|discriminate]. cbn [obind]. destruct (remap_locals _ _ _ _) as [p2|] eqn:E2; [|discriminate]. cbn [obind].
  destruct (rename p2 _ _) as [p3|] eqn:E3; [|discriminate]. cbn [obind]. destruct (rename p3 _ _) as [p4|] eqn:E4; [|discriminate]. cbn [obind]. intros E5.
  eapply goes_trans; [exact (goes_update _ _ _ _ E1 V_callback)|]. eapply goes_trans; [|eapply goes_trans; [exact (goes_rename _ _ _ _ E3)|eapply goes_trans; [exact (goes_rename _ _ _ _ E4)|exact (goes_swap _ _ _ _ E5)]]].
  revert E2. unfold remap_locals. destruct (pe (get_function p1 a)) as [x|]; [|discriminate]. cbn [obind]. destruct (copy_locals _ _ _ _) as [[m q]|] eqn:C; [|discriminate]. cbn [obind].
  destruct (pe (get_function q a)) as [x1|]; [|discriminate]. cbn [obind]. destruct (remap_code _ _) as [c|]; [|discriminate]. intros U.
  eapply goes_trans; [exact (goes_locals _ _ _ _ _ _ C)|]. apply (goes_update _ _ _ _ U). auto.
Qed.
Lemma goes_swaps sh order : forall p p', swap_proxies sh order p = Done p' -> goes p p'.
Proof.
  induction order as [|[a b] l IH]; intros p p'; cbn [swap_proxies]; [intros [= <-]; apply goes_refl|]. destruct (swap_proxy _ _ _ _) as [p1|] eqn:E; [|discriminate]. cbn [obind]. intros E2.
  eapply goes_trans; [exact (goes_swap_proxy _ _ _ _ _ E)|exact (IH _ _ E2)].
Qed.
Lemma goes_install ev fs : forall p p', install_all ev fs p = Done p' -> goes p p'.
Proof.
  induction fs as [|f fs IH]; intros p p'; cbn [install_all]; [intros [= <-]; apply goes_refl|]. destruct (install _ _ _ _ _ _) as [q|] eqn:E; [|discriminate]. cbn [obind]. intros E2.
  eapply goes_trans; [|exact (IH _ _ E2)]. revert E. unfold install. destruct (from_body _ _ _ _) as [[[c s1] p1]|] eqn:B; [|discriminate]. cbn [obind]. intros U.
  eapply goes_trans; [exact (goes_tidy _ _ (tidy_body _ _ _ _ _ _ _ B))|]. apply (goes_update _ _ _ _ U). auto.
Qed.

(** * Putting the classes in order *)
Lemma map_good mc mf d : good d -> good (Mapper.map_definition mc mf d).
Proof. unfold good, Mapper.map_definition. destruct (df_value d) eqn:E; cbn [Mapper.with_value df_value]; rewrite ?E; try (intros; exact I); intros H; exact (V_code _ _ H). Qed.
Lemma goes_cleanup fuel p refs p' refs' : Cleanup.cleanup_pool fuel p refs = Done (p', refs') -> goes p p'.
Proof.
  unfold Cleanup.cleanup_pool. destruct (Cleanup.find_unsorted _ _) as [u|]; [|discriminate]. destruct (Cleanup.add_superclasses _ _ _) as [u1|]; [|discriminate].
  destruct (Cleanup.with_depth _ _) as [k|]; [|discriminate]. destruct (Cleanup.definitions_of _ _) as [ds|] eqn:D; [|discriminate].
  destruct (Cleanup.each _ _ _) as [defs|] eqn:E; [|discriminate]. intros H G.
  assert (GD : Forall good ds).
  { revert D. generalize (map snd (Cleanup.sort_by_key k)). intros l. clear - G. revert ds. induction l as [|c l IH]; intros ds; cbn [Cleanup.definitions_of]; [intros [= <-]; constructor|].
    destruct (get_def p c) as [d|] eqn:X; [|discriminate]. destruct (Cleanup.definitions_of p l) as [r|]; [|discriminate]. intros [= <-]. constructor; [|now apply IH].
    unfold get_def in X. destruct (nth_def _ _) as [d'|] eqn:Y; [|discriminate]. injection X as ->. exact (good_at _ _ _ G Y). }
  assert (GE : Forall good defs).
  { revert E. assert (GC : Forall (fun x => good (fst x)) (combine ds u1)).
    { clear - GD. revert u1. induction GD as [|d ds X Y IH]; intros [|a u]; cbn [combine]; constructor; auto. }
    generalize GC. generalize (combine ds u1). intros l. clear - G. intros GC. unfold all_good in G. revert G defs. generalize (pl_defs p) as l0. induction GC as [|x l X Y IH]; intros l0 G defs; cbn [Cleanup.each]; [intros [= <-]; exact G|].
    destruct (Cleanup.put_def l0 (snd x) (fst x)) as [l1|] eqn:P; [|discriminate]. apply IH. revert P. unfold Cleanup.put_def. destruct (_ && _); [|discriminate]. intros [= <-].
    apply Forall_app. split; [apply Forall_forall; intros d I0; rewrite Forall_forall in G; apply G; rewrite <- (firstn_skipn (Z.to_nat (snd x)) l0); apply in_or_app; now left|].
    constructor; [exact X|]. apply Forall_forall; intros d I0; rewrite Forall_forall in G; apply G; rewrite <- (firstn_skipn (S (Z.to_nat (snd x))) l0); apply in_or_app; now right. }
  destruct u1; injection H as <- _; [exact GE|]. unfold all_good, Mapper.map_pool. cbn [set_defs pl_defs]. apply Forall_map. eapply Forall_impl; [|exact GE]. intros d. apply map_good.
Qed.

Theorem compile_good ev l p out : compile ev l p = Done out -> all_good p -> all_good (out_pool out).
Proof.
  unfold compile. destruct (unit_new ev p) as [st|] eqn:N; [|discriminate]. cbn [obind]. destruct (compile_modules ev true false l st) as [[fs|e] st'] eqn:C; [|discriminate].
  intros F G. assert (P : us_pool st = p).
  { unfold unit_new in N. destruct (sy_new p); [|discriminate]. cbn [obind] in N. destruct (scope_new p); [|discriminate]. cbn [obind] in N. destruct (populate_import _ _ _ _ _) as [s' r].
    destruct r; [|discriminate]. cbn [obind] in N. now injection N as <-. }
  assert (S : steps (compile_modules ev true false l)).
  { unfold compile_modules. cbv zeta. apply steps_bind; [apply steps_map; intros m; unfold declare_module; steps; apply steps_entry|intros queue]. apply steps_bind; [apply steps_modules|intros _].
    apply steps_bind; [apply steps_get|intros ds]. apply steps_bind; [apply steps_each; intros x; apply steps_default|intros _]. apply steps_bind; [|intros _].
    - intros s r s'. destruct (construct_proxies _ _ _ _ _) as [[s1 p1]|e] eqn:E; intros [= <- <-]; [|apply goes_refl]. exact (goes_proxies _ _ _ _ _ _ _ E).
    - apply steps_bind; [apply steps_get|intros bodies]. apply steps_bind; [apply steps_map; intros x; apply steps_body|intros fs']. apply steps_ret. }
  pose proof (S _ _ _ C) as G1. rewrite P in G1. specialize (G1 G). revert F. unfold finish, assemble_all. destruct (install_all _ _ _) as [q|] eqn:I1; [|discriminate]. cbn [obind].
  destruct (swap_proxies _ _ _) as [q1|] eqn:I2; [|discriminate]. cbn [obind]. destruct (Cleanup.cleanup_pool _ _ _) as [[p' refs]|] eqn:I3; [|discriminate]. cbn. intros [= <-]. cbn [out_pool].
  exact (goes_cleanup _ _ _ _ _ I3 (goes_swaps _ _ _ _ I2 (goes_install _ _ _ _ I1 G1))).
Qed.
End Functions.
