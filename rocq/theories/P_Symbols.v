(** Properties C27, C38 and C39. *)
From Coq Require Import String.
From Coq Require Import ZArith List Bool Permutation Lia.
From Verif Require Import Bytes Bytecode Definitions Bundle BundleFacts Ast TypeNames TypeNamesFacts Pool Scope TypeCheck
  TypeIndexFacts Symbols SymbolsSpec.
Import ListNotations.
Open Scope Z_scope.

Lemma str_eqb_iff a b : str_eqb a b = true <-> a = b.
Proof. destruct (str_eqb_spec a b); split; congruence. Qed.

(** ** C38: module paths *)

Lemma cut_plain s : ~ In x3b s -> hd [] (split x3b s) = s.
Proof. intros H. now rewrite split_nosep. Qed.

Lemma split_join l : l <> [] -> Forall (fun s => ~ In x2e s) l -> split x2e (join [x2e] l) = l.
Proof.
  intros Hn H. induction H as [|x l Hx Hl IH]; [contradiction|].
  destruct l as [|y l].
  - cbn. now apply split_nosep.
  - change (join [x2e] (x :: y :: l)) with (x ++ x2e :: join [x2e] (y :: l)).
    rewrite split_app by exact Hx. f_equal. apply IH. discriminate.
Qed.

(** A non-empty path of plain parts is recovered from its rendering. *)
Theorem C38_round_trip p : p <> [] -> Forall plain_part p -> path_parse (path_render p) = p.
Proof.
  intros Hn H. unfold path_parse, path_render. rewrite split_join; [|exact Hn|].
  - induction H as [|x l [Hx1 Hx2] Hl IH]; [reflexivity|]. cbn [map]. rewrite cut_plain by exact Hx2. f_equal.
    destruct l; [reflexivity|]. apply IH. discriminate.
  - eapply Forall_impl; [|exact H]. now intros a [? ?].
Qed.
Print Assumptions C38_round_trip.

(** Two paths of plain, non-empty parts with the same rendering are equal; the
    empty path is covered. *)
Theorem C38_injective p q : Forall plain_part p -> Forall plain_part q -> ~ In [] p -> ~ In [] q ->
  path_render p = path_render q -> p = q.
Proof.
  intros Hp Hq Ep Eq E.
  assert (K : forall r, ~ In [] r -> path_render r = [] -> r = []).
  { intros r Hr Er. destruct r as [|x [|y r]]; [reflexivity| |].
    - cbn in Er. subst. exfalso. apply Hr. now left.
    - cbn in Er. destruct x; [exfalso; apply Hr; now left|discriminate]. }
  destruct p as [|x p].
  - symmetry. apply K; [exact Eq|]. now rewrite <- E.
  - destruct q as [|y q].
    + exfalso. now specialize (K _ Ep E).
    + rewrite <- (C38_round_trip (x :: p)), <- (C38_round_trip (y :: q)); [now rewrite E|discriminate|exact Hq|discriminate|exact Hp].
Qed.
Print Assumptions C38_injective.

(** The name of a function carries its signature after [';']; the path found for
    it in the symbol table is that of its module and its plain name. *)
Theorem C38_function_path p n sig : Forall plain_part p -> plain_part n -> ~ In x2e sig ->
  path_parse (path_render (p ++ [n ++ x3b :: sig])) = p ++ [n].
Proof.
  intros Hp [Hn1 Hn2] Hs. unfold path_parse, path_render. rewrite split_join.
  - rewrite map_app. f_equal.
    + induction Hp as [|x l [? Hx] Hl IH]; [reflexivity|]. cbn [map]. rewrite IH. now rewrite cut_plain.
    + cbn [map]. rewrite split_app by exact Hn2. reflexivity.
  - destruct p; discriminate.
  - apply Forall_app. split; [eapply Forall_impl; [|exact Hp]; now intros a [? ?]|].
    constructor; [|constructor]. rewrite in_app_iff. cbn. intros [K|[K|K]]; [tauto|discriminate|tauto].
Qed.
Print Assumptions C38_function_path.

(** The empty path is the exception: it is not recovered, its rendering is that
    of a path with one empty part. *)
Theorem C38_empty_path_refuted : exists p q, path_parse (path_render p) <> p /\ p <> q /\ path_render p = path_render q.
Proof. exists [], [[]]. repeat split; discriminate. Qed.
Print Assumptions C38_empty_path_refuted.

Example C38_example :
  Forall plain_part [lit "Codeware"; lit "UI"; lit "InkWidget"] /\
  path_render [lit "Codeware"; lit "UI"; lit "InkWidget"] = lit "Codeware.UI.InkWidget" /\
  path_parse (lit "Codeware.UI.Show;Int32") = [lit "Codeware"; lit "UI"; lit "Show"].
Proof. split; [|now vm_compute]. repeat constructor; vm_compute; intuition discriminate. Qed.

(** ** C39: imports *)

Lemma path_eqb_spec a : forall b, path_eqb a b = true <-> a = b.
Proof.
  induction a as [|x a IH]; destruct b as [|y b]; cbn [path_eqb]; try (split; congruence).
  rewrite andb_true_iff, IH, str_eqb_iff. split; [intros [-> ->]; reflexivity|intros [= -> ->]; auto].
Qed.
Lemma path_eqb_refl a : path_eqb a a = true.
Proof. now apply path_eqb_spec. Qed.

Lemma path_prefix_spec a : forall b, path_prefix a b = true <-> exists c, b = a ++ c.
Proof.
  induction a as [|x a IH]; destruct b as [|y b]; cbn [path_prefix].
  - split; [exists []; reflexivity|reflexivity].
  - split; [eexists; reflexivity|reflexivity].
  - split; [discriminate|intros [c [=]]].
  - rewrite andb_true_iff, IH, str_eqb_iff. split.
    + intros [-> [c ->]]. now exists c.
    + intros [c [= -> ->]]. split; [reflexivity|now exists c].
Qed.

Lemma child_of_spec p : forall k n, child_of p k = Some n <-> k = p ++ [n].
Proof.
  induction p as [|x p IH]; intros k n.
  - destruct k as [|y [|z k]]; cbn; split; try congruence.
  - destruct k as [|y k]; cbn [child_of app]; [split; congruence|].
    destruct (str_eqb x y) eqn:E.
    + apply str_eqb_iff in E. subst y. rewrite IH. split; congruence.
    + split; [discriminate|]. intros [= <- ->]. rewrite (proj2 (str_eqb_iff y y) eq_refl) in E. discriminate.
Qed.

Lemma children_spec p m n s : In (n, s) (sy_children p m) <-> In (p ++ [n], s) m.
Proof.
  induction m as [|[k s'] m IH]; cbn [sy_children]; [tauto|].
  destruct (child_of p k) as [n'|] eqn:E.
  - apply child_of_spec in E. subst k. cbn [In]. rewrite IH. split.
    + intros [K|K]; [left; injection K as -> ->; reflexivity|now right].
    + intros [K|K]; [left|now right]. injection K as K <-. apply app_inj_tail in K. destruct K as [_ ->]. reflexivity.
  - rewrite IH. cbn [In]. split; [auto|]. intros [K|K]; [|exact K]. injection K as -> ->.
    rewrite (proj2 (child_of_spec p (p ++ [n]) n) eq_refl) in E. discriminate.
Qed.

Lemma sy_get_in m p s : sy_get m p = Some s -> In (p, s) m.
Proof.
  induction m as [|[k s'] m IH]; cbn; [discriminate|]. destruct (path_eqb k p) eqn:E; [|auto].
  apply path_eqb_spec in E. intros [= ->]. left. congruence.
Qed.
Lemma sy_get_none m p : sy_get m p = None <-> ~ In p (map fst m).
Proof.
  induction m as [|[k s'] m IH]; cbn; [tauto|]. destruct (path_eqb k p) eqn:E.
  - apply path_eqb_spec in E. split; [discriminate|tauto].
  - rewrite IH. split; [intros H [K|K]; [|tauto]|tauto]. apply path_eqb_spec in K. congruence.
Qed.
Lemma in_sy_get m p s : NoDup (map fst m) -> In (p, s) m -> sy_get m p = Some s.
Proof.
  induction m as [|[k s'] m IH]; cbn; [tauto|]. intros Hd. inversion Hd as [|? ? Hk Hm]; subst.
  intros [[= -> ->]|K]; [now rewrite path_eqb_refl|].
  destruct (path_eqb k p) eqn:E; [|auto]. apply path_eqb_spec in E. subst. exfalso. apply Hk.
  apply (in_map fst) in K. exact K.
Qed.
Lemma sy_get_insert m p s q : sy_get (sy_insert p s m) q = if path_eqb p q then Some s else sy_get m q.
Proof.
  induction m as [|[k s'] m IH]; cbn; [reflexivity|].
  destruct (path_eqb k p) eqn:E; cbn.
  - apply path_eqb_spec in E. subst. now destruct (path_eqb p q).
  - rewrite IH. destruct (path_eqb k q) eqn:F; [|reflexivity].
    apply path_eqb_spec in F. subst q. destruct (path_eqb p k) eqn:G; [|reflexivity].
    apply path_eqb_spec in G. subst. rewrite path_eqb_refl in E. discriminate.
Qed.
Lemma sy_insert_keys m p s : forall x, In x (map fst (sy_insert p s m)) <-> x = p \/ In x (map fst m).
Proof.
  intros x. induction m as [|[k s'] m IH]; cbn; [intuition congruence|].
  destruct (path_eqb k p) eqn:E; cbn.
  - apply path_eqb_spec in E. subst. intuition congruence.
  - rewrite IH. tauto.
Qed.
Lemma sy_insert_nodup m p s : NoDup (map fst m) -> NoDup (map fst (sy_insert p s m)).
Proof.
  induction m as [|[k s'] m IH]; cbn; intros H.
  - constructor; [tauto|constructor].
  - inversion H as [|? ? Hk Hm]; subst. destruct (path_eqb k p) eqn:E; cbn; [exact H|].
    constructor; [|auto]. rewrite sy_insert_keys. intros [->|K]; [|tauto].
    rewrite path_eqb_refl in E. discriminate.
Qed.
Lemma sy_put_nodup m p s : NoDup (map fst m) -> NoDup (map fst (sy_put m p s)).
Proof. intros H. unfold sy_put. destruct (sy_get m p) as [[]|], s; now apply sy_insert_nodup. Qed.

Lemma fold_fail {A B E} (step : outcome E A -> B -> outcome E A) l e :
  (forall e x, step (Fail e) x = Fail e) -> fold_left step l (Fail e) = Fail e.
Proof. intros H. induction l as [|x l IH]; [reflexivity|]. cbn. now rewrite H. Qed.

Lemma built_nodup m : built m -> NoDup (map fst m).
Proof.
  induction 1 as [p m E| | | |]; try (now apply sy_insert_nodup); [|now apply sy_put_nodup].
  unfold sy_new in E. revert E. assert (K : NoDup (map fst ([] : symbol_map))) by constructor. revert K.
  generalize ([] : symbol_map) as m0. induction (roots p) as [|x l IH]; cbn [fold_left]; intros m0 K E.
  - injection E as <-. exact K.
  - unfold sy_new_step in E at 2. cbn [obind] in E.
    destruct (pe (def_name p (fst x))) as [name|e]; cbn [obind] in E.
    + destruct (root_symbol _ _); [|now apply IH in E]. apply IH in E; [exact E|]. now apply sy_put_nodup.
    + rewrite fold_fail in E by reflexivity. discriminate.
Qed.

Lemma vis_leb_spec w v : vis_leb w v = true <-> visible_at w v.
Proof. destruct w, v; cbn; split; (reflexivity || discriminate || tauto). Qed.

Lemma visible_some s v s' : sym_visible s v = Some s' ->
  (forall e, (exists w, holds_entity s' e w) <-> (exists w, holds_entity s e w /\ visible_at w v)) /\
  (exists e w, holds_entity s' e w) /\
  match s with SFunctions _ => exists l, s' = SFunctions l | _ => s' = s end.
Proof.
  assert (K : s' = s -> (forall e w, holds_entity s e w -> visible_at w v) -> (exists e w, holds_entity s e w) ->
     (forall e, (exists w, holds_entity s' e w) <-> (exists w, holds_entity s e w /\ visible_at w v)) /\
     (exists e w, holds_entity s' e w)).
  { intros -> H1 H2. split; [|exact H2]. intros e. split.
    - intros [w Hw]. exists w. split; [exact Hw|eauto].
    - intros (w & Hw & _). now exists w. }
  destruct s as [i w|i w|i|l]; cbn [sym_visible].
  - destruct (vis_leb w v) eqn:E; [|discriminate]. apply vis_leb_spec in E. intros [= <-].
    apply and_assoc. split; [|reflexivity]. apply K; [reflexivity| |exists (OneClass i), w; constructor].
    intros e w' H. inversion H; subst. exact E.
  - destruct (vis_leb w v) eqn:E; [|discriminate]. apply vis_leb_spec in E. intros [= <-].
    apply and_assoc. split; [|reflexivity]. apply K; [reflexivity| |exists (OneStruct i), w; constructor].
    intros e w' H. inversion H; subst. exact E.
  - intros [= <-]. apply and_assoc. split; [|reflexivity]. apply K; [reflexivity| |exists (OneEnum i), Public; constructor].
    intros e w' H. inversion H; subst. exact I.
  - destruct (filter _ l) as [|x r] eqn:E; [discriminate|]. intros [= <-]. rewrite <- E.
    split; [|split; [|eexists; reflexivity]].
    + intros e. split.
      * intros [w H]. inversion H as [| | |l' i w' Hin]; subst. apply filter_In in Hin. destruct Hin as [H1 H2].
        exists w. split; [now constructor|]. now apply vis_leb_spec.
      * intros (w & H & Hv). inversion H as [| | |l' i w' Hin]; subst. exists w. constructor.
        apply filter_In. split; [exact Hin|]. now apply vis_leb_spec.
    + destruct x as [i w]. exists (OneFunction i), w. constructor. rewrite E. now left.
Qed.
Lemma visible_none s v : sym_visible s v = None -> forall e w, holds_entity s e w -> ~ visible_at w v.
Proof.
  intros E e w H Hv. destruct H as [i w|i w|i|l i w Hin]; cbn in E.
  1,2: apply vis_leb_spec in Hv; rewrite Hv in E; discriminate.
  - discriminate.
  - destruct (filter _ l) as [|x r] eqn:F; [|discriminate].
    assert (K : In (i, w) []) by (rewrite <- F; apply filter_In; split; [exact Hin|now apply vis_leb_spec]). exact K.
Qed.

Lemma sc_add_find sc n s m : am_find (sc_symbols (sc_add_symbol sc n s)) m =
  if str_eqb n m then
    Some match s, am_find (sc_symbols sc) n with
         | SFunctions new, Some (SFunctions old) => SFunctions (old ++ new)
         | _, _ => s
         end
  else am_find (sc_symbols sc) m.
Proof.
  destruct s; cbn [sc_add_symbol set_symbols sc_symbols]; try apply am_find_insert.
  destruct (am_find (sc_symbols sc) n) as [[]|]; cbn [set_symbols sc_symbols]; apply am_find_insert.
Qed.

(** Adding symbols for the names of a list: what is found afterwards. *)
Definition from_list (v : visibility) (l : list (str * symbol)) n e : Prop :=
  exists s w, In (n, s) l /\ holds_entity s e w /\ visible_at w v.

Lemma add_one v sc n s m e :
  exposes (add_visible v sc n s) m e <->
  (m = n /\ (exists w, holds_entity s e w /\ visible_at w v)) \/
  (exposes sc m e /\ (m = n -> forall e' w, holds_entity s e' w -> visible_at w v -> is_function e /\ is_function e')).
Proof.
  unfold add_visible. destruct (sym_visible s v) as [s'|] eqn:E.
  - destruct (visible_some _ _ _ E) as (H1 & (e0 & w0 & H2) & H3).
    unfold exposes. setoid_rewrite sc_add_find. destruct (str_eqb n m) eqn:F.
    + apply str_eqb_iff in F. subst m.
      assert (Hfun : forall l e w, holds_entity (SFunctions l) e w -> is_function e)
        by (intros ? ? ? K; inversion K; eexists; reflexivity).
      split.
      * intros (t & w & [= <-] & Ht).
        destruct s' as [i u|i u|i|new].
        1-3: left; split; [reflexivity|]; apply H1; eauto.
        destruct (am_find (sc_symbols sc) n) as [[i u|i u|i|old]|] eqn:A.
        1-3,5: left; split; [reflexivity|]; apply H1; eauto.
        inversion Ht as [| | |l' i w' Hin]; subst. apply in_app_iff in Hin. destruct Hin as [Hin|Hin].
        -- right. split; [eexists _, w; split; [reflexivity|now constructor]|].
           intros _ e' w' He Hv. split; [eexists; reflexivity|].
           assert (K : exists w, holds_entity (SFunctions new) e' w) by (apply H1; eauto).
           destruct K as [? K]. eapply Hfun. exact K.
        -- left. split; [reflexivity|]. apply H1. exists w. now constructor.
      * intros [[_ K]|[(t & w & A & Ht) K]].
        -- apply H1 in K. destruct K as [w Hw].
           destruct s' as [i u|i u|i|new]; try (eexists _, w; split; [reflexivity|exact Hw]).
           destruct (am_find (sc_symbols sc) n) as [[i u|i u|i|old]|]; try (eexists _, w; split; [reflexivity|exact Hw]).
           eexists _, w; split; [reflexivity|]. inversion Hw; subst. constructor. apply in_app_iff. now right.
        -- assert (K' : exists w, holds_entity s e0 w /\ visible_at w v) by (apply H1; eauto).
           destruct K' as (u & Ku & Kv). destruct (K eq_refl _ _ Ku Kv) as [[i ->] [i0 ->]].
           inversion Ht as [| | |old i' w' Hin]; subst. rewrite A.
           inversion H2 as [| | |new i' w' Hin']; subst.
           eexists _, w. split; [reflexivity|]. constructor. apply in_app_iff. now left.
    + assert (N : m <> n) by (intros ->; rewrite (proj2 (str_eqb_iff n n) eq_refl) in F; discriminate).
      split; [intros K; right; split; [exact K|intros; contradiction]|intros [[? _]|[K _]]; [contradiction|exact K]].
  - split.
    + intros K. right. split; [exact K|]. intros _ e' w He Hv. exfalso. exact (visible_none _ _ E _ _ He Hv).
    + intros [[_ (w & Hw & Hv)]|[K _]]; [|exact K]. exfalso. exact (visible_none _ _ E _ _ Hw Hv).
Qed.

(** All symbols given for one name must be the same for the order not to matter. *)
Lemma add_many v l : (forall n s s', In (n, s) l -> In (n, s') l -> s = s') -> forall sc m e,
  exposes (fold_left (fun sc x => add_visible v sc (fst x) (snd x)) l sc) m e <->
  from_list v l m e \/
  (exposes sc m e /\ forall e', from_list v l m e' -> is_function e /\ is_function e').
Proof.
  unfold from_list. induction l as [|[n s] l IH]; intros Hf sc m e; cbn [fold_left fst snd].
  - split; [intros K; right; split; [exact K|intros e' (? & ? & [] & _)]|intros [(? & ? & [] & _)|[K _]]; exact K].
  - rewrite IH by (intros; eapply Hf; right; eassumption). rewrite add_one.
    assert (Same : forall s', In (n, s') l -> s' = s)
      by (intros s' K; apply (Hf n s' s); [right; exact K|left; reflexivity]).
    split.
    + intros [(t & w & Hin & Ht)|[[[-> (w & Hw)]|[He K1]] K2]].
      * left. exists t, w. split; [now right|exact Ht].
      * left. exists s, w. split; [now left|exact Hw].
      * right. split; [exact He|]. intros e' (t & w & [K|K] & Ht & Hv).
        -- injection K as -> ->. eapply K1; eauto.
        -- eapply K2. exists t, w. auto.
    + intros [(t & w & [K|K] & Ht & Hv)|[He K]].
      * injection K as -> ->.
        destruct (in_dec (list_eq_dec Byte.byte_eq_dec) m (map fst l)) as [Hin|Hout].
        -- apply in_map_iff in Hin. destruct Hin as ([n' s'] & <- & Hin). cbn [fst] in *. rewrite (Same _ Hin) in Hin.
           left. exists t, w. auto.
        -- right. split; [left; split; [reflexivity|]; eauto|].
           intros e' (t' & w' & Hin & _). exfalso. apply Hout. apply (in_map fst) in Hin. exact Hin.
      * left. exists t, w. auto.
      * right. split; [right; split; [exact He|]|].
        -- intros -> e' w Hw Hv. apply K. exists s, w. split; [now left|auto].
        -- intros e' (t & w & Hin & Ht). apply K. exists t, w. split; [now right|exact Ht].
Qed.

Lemma with_span_done {A} sp (m : outcome cause A) a : with_span sp m = Done a -> m = Done a.
Proof. destruct m; cbn; [congruence|discriminate]. Qed.

Lemma add_selected_done m p sp v names : forall sc sc', add_selected m p sp v names sc = (sc', Done tt) ->
  exists l, sc' = fold_left (fun sc x => add_visible v sc (fst x) (snd x)) l sc /\ map fst l = names /\
    Forall (fun x => sy_get m (p ++ [fst x]) = Some (snd x)) l.
Proof.
  induction names as [|n names IH]; cbn [add_selected]; intros sc sc' E.
  - injection E as <-. exists []. repeat split. constructor.
  - destruct (with_span sp (sy_get_symbol m (with_child p n))) as [s|e] eqn:F; [|discriminate].
    apply with_span_done in F. unfold sy_get_symbol, with_child in F.
    destruct (sy_get m (p ++ [n])) as [s0|] eqn:G; [|discriminate]. injection F as ->.
    destruct (IH _ _ E) as (l & -> & <- & Hl). exists ((n, s) :: l). repeat split. constructor; auto.
Qed.

Lemma add_visible_rest v sc n s : sc_references (add_visible v sc n s) = sc_references sc /\
  sc_types (add_visible v sc n s) = sc_types sc /\ sc_this (add_visible v sc n s) = sc_this sc /\
  sc_function (add_visible v sc n s) = sc_function sc.
Proof.
  unfold add_visible. destruct (sym_visible s v) as [t|]; [|auto].
  destruct t; cbn; auto. destruct (am_find (sc_symbols sc) n) as [[]|]; cbn; auto.
Qed.
Lemma add_many_rest v l : forall sc sc', sc' = fold_left (fun sc x => add_visible v sc (fst x) (snd x)) l sc ->
  sc_references sc' = sc_references sc /\ sc_types sc' = sc_types sc /\ sc_this sc' = sc_this sc /\
  sc_function sc' = sc_function sc.
Proof.
  induction l as [|[n s] l IH]; cbn [fold_left fst snd]; intros sc sc' ->; [auto|].
  destruct (IH (add_visible v sc n s) _ eq_refl) as (-> & -> & -> & ->). apply add_visible_rest.
Qed.

(** A successful import is one round of additions. *)
Lemma import_list order m i sc v sc' : (forall l, Permutation (order l) l) -> NoDup (map fst m) ->
  populate_import order m i sc v = (sc', Done tt) ->
  exists l, sc' = fold_left (fun sc x => add_visible v sc (fst x) (snd x)) l sc /\
    (forall n s, In (n, s) l <-> refers m i n s) .
Proof.
  intros Ho Hd E. destruct i as [p sp|p names sp|p sp]; cbn [populate_import] in E.
  - destruct (with_span sp (sy_get_symbol m p)) as [s|e] eqn:F; [|discriminate].
    apply with_span_done in F. unfold sy_get_symbol in F. destruct (sy_get m p) as [s0|] eqn:G; [|discriminate].
    injection F as ->. pose proof (sy_get_in _ _ _ G) as Hin.
    assert (Same : forall t, In (p, t) m -> t = s)
      by (intros t K; apply (in_sy_get _ _ _ Hd) in K; congruence).
    destruct (rev p) as [|n r] eqn:R.
    + destruct (sym_visible s v); [discriminate|]. injection E as <-. exists []. split; [reflexivity|].
      cbn. intros n t. split; [tauto|]. intros (q & -> & _). rewrite rev_app_distr in R. discriminate.
    + exists [(n, s)]. apply (f_equal (@rev str)) in R. rewrite rev_involutive in R. cbn [rev] in R. split.
      * cbn [fold_left fst snd]. unfold add_visible. destruct (sym_visible s v); congruence.
      * cbn. intros n' t. split.
        -- intros [[= <- <-]|[]]. exists (rev r). split; [exact R|]. exact Hin.
        -- intros (q & Eq & K). left. rewrite (Same _ K). rewrite R in Eq. apply app_inj_tail in Eq. now destruct Eq as [_ ->].
  - apply add_selected_done in E. destruct E as (l & -> & <- & Hl). exists l. split; [reflexivity|].
    intros n s. cbn [refers]. split.
    + intros K. split; [apply (in_map fst) in K; exact K|]. rewrite Forall_forall in Hl. apply sy_get_in. exact (Hl _ K).
    + intros [K Hin]. apply in_map_iff in K. destruct K as ([n' s'] & <- & K). cbn [fst] in *.
      rewrite Forall_forall in Hl. specialize (Hl _ K). cbn [fst snd] in Hl.
      apply (in_sy_get _ _ _ Hd) in Hin. congruence.
  - destruct (with_span sp (sy_direct_children order m p)) as [l|e] eqn:F; [|discriminate].
    apply with_span_done in F. injection E as <-. exists l. split; [reflexivity|].
    intros n s. cbn [refers]. unfold entry. rewrite <- children_spec.
    assert (l = order (sy_children p m)) as ->.
    { unfold sy_direct_children in F. destruct p; [congruence|]. destruct (existsb _ m); congruence. }
    split; apply Permutation_in; [apply Ho|symmetry; apply Ho].
Qed.

Lemma refers_functional m i n s s' : NoDup (map fst m) -> refers m i n s -> refers m i n s' -> s = s'.
Proof.
  intros Hd. assert (K : forall p, entry m p s -> entry m p s' -> s = s')
    by (intros p A B; apply (in_sy_get _ _ _ Hd) in A; apply (in_sy_get _ _ _ Hd) in B; congruence).
  destruct i; cbn.
  - intros (? & _ & A) (? & _ & B). eauto.
  - intros [_ A] [_ B]. eauto.
  - eauto.
Qed.

(** After a successful import the scope exposes, under every name, exactly what
    the import offers at its visibility, and what it exposed before unless the
    import offers something else for that name (functions are added to
    functions).  Nothing but the symbols of the scope changes. *)
Theorem C39_import_exact order m i sc v sc' : (forall l, Permutation (order l) l) -> built m ->
  populate_import order m i sc v = (sc', Done tt) ->
  (forall n e, exposes sc' n e <->
     offers m i v n e \/
     (exposes sc n e /\ forall e', offers m i v n e' -> is_function e /\ is_function e')) /\
  sc_references sc' = sc_references sc /\ sc_types sc' = sc_types sc /\ sc_this sc' = sc_this sc /\
  sc_function sc' = sc_function sc.
Proof.
  intros Ho Hb E. apply built_nodup in Hb.
  destruct (import_list _ _ _ _ _ _ Ho Hb E) as (l & El & Hl).
  split; [|exact (add_many_rest _ _ _ _ El)]. intros n e. subst sc'. rewrite add_many.
  - assert (K : forall x, from_list v l n x <-> offers m i v n x).
    { intros x. unfold from_list, offers. split; intros (s & w & A & B); exists s, w; split; auto; now apply Hl. }
    rewrite K. setoid_rewrite K. reflexivity.
  - intros n0 s s' A B. apply Hl in A, B. exact (refers_functional _ _ _ _ _ Hb A B).
Qed.
Print Assumptions C39_import_exact.

(** Raising the visibility never hides what an import offers. *)
Theorem C39_monotone order m i sc v w sc1 sc2 : (forall l, Permutation (order l) l) -> built m ->
  populate_import order m i sc v = (sc1, Done tt) ->
  populate_import order m i sc w = (sc2, Done tt) -> (forall u, visible_at u v -> visible_at u w) ->
  forall n e, offers m i v n e -> exposes sc1 n e /\ exposes sc2 n e.
Proof.
  intros Ho Hb E1 E2 Hvw n e H.
  destruct (C39_import_exact _ _ _ _ _ _ Ho Hb E1) as [K1 _].
  destruct (C39_import_exact _ _ _ _ _ _ Ho Hb E2) as [K2 _].
  split; [apply K1; now left|apply K2; left].
  destruct H as (s & u & A & B & C). exists s, u. auto.
Qed.
Print Assumptions C39_monotone.

(** An import fails exactly if what it refers to is missing; then an error is
    reported at the import. *)
Definition missing (m : symbol_map) (i : import) : Prop :=
  match i with
  | IExact p _ => forall s, ~ entry m p s
  | ISelected p names _ => exists n, In n names /\ forall s, ~ entry m (p ++ [n]) s
  | IAll p _ => p <> [] /\ forall q s, ~ entry m (p ++ q) s
  end.
Definition import_span (i : import) : span := match i with IExact _ sp | ISelected _ _ sp | IAll _ sp => sp end.
Theorem C39_import_fails order m i sc v : i <> IExact [] (import_span i) ->
  (missing m i <-> exists sc' c, populate_import order m i sc v = (sc', Fail (CompileError c (import_span i)))) /\
  (~ missing m i <-> exists sc', populate_import order m i sc v = (sc', Done tt)).
Proof.
  assert (G : forall p, (forall s, ~ entry m p s) <-> sy_get m p = None).
  { intros p. rewrite sy_get_none. unfold entry. split.
    - intros H K. apply in_map_iff in K. destruct K as ([p' s] & <- & K). exact (H _ K).
    - intros H s K. apply H. apply (in_map fst) in K. exact K. }
  intros Hne.
  assert (C : (missing m i /\ exists sc' c, populate_import order m i sc v = (sc', Fail (CompileError c (import_span i)))) \/
              (~ missing m i /\ exists sc', populate_import order m i sc v = (sc', Done tt))).
  { destruct i as [p sp|p names sp|p sp]; cbn [populate_import missing import_span] in *.
    - rewrite G. unfold sy_get_symbol. destruct (sy_get m p) as [s|]; cbn [with_span map_err].
      + right. split; [discriminate|]. destruct (sym_visible s v); [|eauto].
        destruct (rev p) as [|n r] eqn:R; [|eauto]. exfalso. apply Hne. f_equal.
        apply (f_equal (@rev str)) in R. now rewrite rev_involutive in R.
      + left. split; [reflexivity|eauto].
    - clear Hne. revert sc. induction names as [|n names IH]; intros sc; cbn [add_selected].
      + right. split; [intros (? & [] & _)|eauto].
      + unfold sy_get_symbol, with_child. destruct (sy_get m (p ++ [n])) as [s|] eqn:F; cbn [with_span map_err].
        * destruct (IH (add_visible v sc n s)) as [[(n' & A & B) K]|[A K]].
          -- left. split; [|exact K]. exists n'. split; [now right|exact B].
          -- right. split; [|exact K]. intros (n' & [<-|B] & H); [|apply A; eauto]. rewrite G in H. congruence.
        * left. split; [exists n; split; [now left|now apply G]|eauto].
    - unfold sy_direct_children. destruct p as [|x p].
      + right. split; [intros [H _]; now apply H|cbn [with_span map_err]; eauto].
      + destruct (existsb (fun e => path_prefix (x :: p) (fst e)) m) eqn:X; cbn [with_span map_err].
        * right. split; [|eauto]. intros [_ H]. apply existsb_exists in X. destruct X as ([k s] & A & B).
          apply path_prefix_spec in B. cbn [fst] in B. destruct B as [c B]. rewrite B in A. exact (H _ _ A).
        * left. split; [|eauto]. split; [discriminate|]. intros q s A.
          assert (existsb (fun e => path_prefix (x :: p) (fst e)) m = true); [|congruence].
          apply existsb_exists. exists ((x :: p) ++ q, s). split; [exact A|]. apply path_prefix_spec. now exists q. }
  destruct C as [[A (sc' & c & B)]|[A (sc' & B)]]; (split; split; intros H); eauto; try tauto.
  - destruct H as [? H]. congruence.
  - destruct H as (? & ? & H). congruence.
Qed.
Print Assumptions C39_import_fails.

(** The table built from a bundle holds exactly its root classes, enums and
    functions, if only functions share a path. *)
Definition only_functions_share (p : pool) : Prop := forall i j d d' name name',
  In (i, d) (roots p) -> In (j, d') (roots p) -> def_name p i = Done name -> def_name p j = Done name' ->
  path_parse name = path_parse name' -> root_symbol i (df_value d) <> None -> root_symbol j (df_value d') <> None ->
  i = j \/ (exists f, df_value d = DFunction f) /\ (exists f, df_value d' = DFunction f).

Lemma number_fst {A} (l : list A) : forall n i, In i (map fst (number n l)) -> Z.of_nat n <= i.
Proof.
  induction l as [|x l IH]; cbn; intros n i; [tauto|]. intros [<-|K]; [lia|]. apply IH in K. lia.
Qed.
Lemma number_nodup {A} (l : list A) : forall n, NoDup (map fst (number n l)).
Proof.
  induction l as [|x l IH]; cbn; intros n; [constructor|]. constructor; [|auto].
  intros K. apply number_fst in K. lia.
Qed.
Lemma filter_nodup {A B} (f : A -> bool) (g : A -> B) l : NoDup (map g l) -> NoDup (map g (filter f l)).
Proof.
  induction l as [|x l IH]; cbn; intros H; [constructor|]. inversion H as [|? ? H1 H2]; subst.
  destruct (f x); cbn; [|auto]. constructor; [|auto]. intros K. apply H1. apply in_map_iff in K.
  destruct K as (y & <- & K). apply filter_In in K. now apply in_map.
Qed.
Lemma roots_nodup p : NoDup (map fst (roots p)).
Proof. apply filter_nodup. unfold definitions. destruct (pl_defs p); [constructor|apply number_nodup]. Qed.

Lemma put_holds m p s q e v :
  (exists t, sy_get (sy_put m p s) q = Some t /\ holds_entity t e v) <->
  (p = q /\ holds_entity s e v) \/
  ((exists t, sy_get m q = Some t /\ holds_entity t e v) /\
   (p = q -> is_function e /\ exists l, s = SFunctions l)).
Proof.
  unfold sy_put. destruct (path_eqb p q) eqn:P.
  - apply path_eqb_spec in P. subst q. split.
    + intros (t & Ht & He).
      destruct s as [i w|i w|i|new].
      1-3: left; split; [reflexivity|]; destruct (sy_get m p) as [[]|]; rewrite sy_get_insert, path_eqb_refl in Ht; congruence.
      destruct (sy_get m p) as [[i w|i w|i|old]|] eqn:G; rewrite sy_get_insert, path_eqb_refl in Ht; injection Ht as <-.
      1-3,5: left; auto.
      inversion He as [| | |l' j w' Hin]; subst. apply in_app_iff in Hin. destruct Hin as [Hin|Hin].
      * right. split; [eexists; split; [reflexivity|now constructor]|]. intros _. split; [eexists; reflexivity|eauto].
      * left. split; [reflexivity|now constructor].
    + intros [[_ K]|[(t & Ht & He) K]].
      * destruct s as [i w|i w|i|new].
        1-3: eexists; split; [|exact K]; destruct (sy_get m p) as [[]|]; rewrite sy_get_insert, path_eqb_refl; reflexivity.
        destruct (sy_get m p) as [[i w|i w|i|old]|] eqn:G; rewrite sy_get_insert, path_eqb_refl.
        1-3,5: eexists; split; [reflexivity|exact K].
        eexists; split; [reflexivity|]. inversion K; subst. constructor. apply in_app_iff. now right.
      * destruct (K eq_refl) as [[i ->] [new ->]]. inversion He as [| | |old i' w' Hin]; subst. rewrite Ht.
        rewrite sy_get_insert, path_eqb_refl. eexists; split; [reflexivity|]. constructor. apply in_app_iff. now left.
  - assert (N : p <> q) by (intros ->; rewrite path_eqb_refl in P; discriminate).
    assert (G : sy_get match sy_get m p, s with
       | Some (SFunctions existing), SFunctions new => sy_insert p (SFunctions (existing ++ new)) m
       | _, _ => sy_insert p s m end q = sy_get m q)
      by (destruct (sy_get m p) as [[]|], s; rewrite sy_get_insert, P; reflexivity).
    rewrite G. split; [intros K; right; split; [exact K|contradiction]|intros [[K _]|[K _]]; [contradiction|exact K]].
Qed.

Lemma root_symbol_holds p path e v : root_entity p path e v <->
  exists i d name s, In (i, d) (roots p) /\ def_name p i = Done name /\ path_parse name = path /\
    root_symbol i (df_value d) = Some s /\ holds_entity s e v.
Proof.
  split.
  - intros (i & d & name & A & B & C & D). exists i, d, name.
    destruct (df_value d); try tauto; cbn [root_symbol].
    + destruct D as [-> D]. destruct (get_flag _ _); subst e; eexists; repeat (split; [eassumption || reflexivity|]); constructor.
    + destruct D as [-> ->]. eexists; repeat (split; [eassumption || reflexivity|]); constructor.
    + destruct D as [-> ->]. eexists; repeat (split; [eassumption || reflexivity|]); constructor. now left.
  - intros (i & d & name & s & A & B & C & D & F). exists i, d, name. repeat (split; [assumption|]).
    destruct (df_value d); try discriminate; cbn [root_symbol] in D.
    + destruct (get_flag _ _); injection D as <-; inversion F; auto.
    + injection D as <-. inversion F; auto.
    + injection D as <-. inversion F as [| | |l i' v' K]; subst. destruct K as [[= -> ->]|[]]; auto.
Qed.

Theorem C39_table_of_bundle p m : only_functions_share p -> sy_new p = Done m -> forall path e v,
  (exists s, entry m path s /\ holds_entity s e v) <-> root_entity p path e v.
Proof.
  intros Hs E path e v.
  assert (Hb := built_nodup _ (bu_new _ _ E)).
  transitivity (exists s, sy_get m path = Some s /\ holds_entity s e v).
  { split; intros (s & A & B); exists s; (split; [|exact B]); [now apply in_sy_get|now apply sy_get_in]. }
  rewrite root_symbol_holds. unfold sy_new in E.
  assert (G : forall rest done m0 m', done ++ rest = roots p ->
    (forall e v, (exists s, sy_get m0 path = Some s /\ holds_entity s e v) <->
       exists i d name s, In (i, d) done /\ def_name p i = Done name /\ path_parse name = path /\
         root_symbol i (df_value d) = Some s /\ holds_entity s e v) ->
    fold_left (sy_new_step p) rest (Done m0) = Done m' ->
    forall e v, (exists s, sy_get m' path = Some s /\ holds_entity s e v) <->
       exists i d name s, In (i, d) (roots p) /\ def_name p i = Done name /\ path_parse name = path /\
         root_symbol i (df_value d) = Some s /\ holds_entity s e v).
  2: { apply (G (roots p) [] [] m eq_refl); [|exact E]. intros e' v'. split; [intros (? & [=] & _)|intros (? & ? & ? & ? & [] & _)]. }
  clear E e v. induction rest as [|[i d] rest IH]; intros done m0 m' Hd Hm E.
  - rewrite app_nil_r in Hd. subst. cbn in E. injection E as <-. exact Hm.
  - cbn [fold_left] in E. unfold sy_new_step in E at 2. cbn [obind fst snd] in E.
    destruct (def_name p i) as [name|x] eqn:Nm; cbn [obind pe map_err] in E.
    2: { rewrite fold_fail in E by reflexivity. discriminate. }
    assert (Hd' : (done ++ [(i, d)]) ++ rest = roots p) by now rewrite <- app_assoc.
    assert (Hin : In (i, d) (roots p)) by (rewrite <- Hd; apply in_app_iff; right; now left).
    assert (Hdone : forall x, In x done -> In x (roots p)) by (intros x K; rewrite <- Hd; apply in_app_iff; now left).
    assert (Hfresh : forall d', ~ In (i, d') done).
    { intros d' K. pose proof (roots_nodup p) as N. rewrite <- Hd, map_app in N. cbn [map fst] in N.
      apply NoDup_remove_2 in N. apply N. apply in_app_iff. left. apply (in_map fst) in K. exact K. }
    destruct (root_symbol i (df_value d)) as [s|] eqn:S.
    + refine (IH (done ++ [(i, d)]) _ _ Hd' _ E).
      intros e v. rewrite put_holds. rewrite Hm. split.
      * intros [[<- K]|[(j & dj & nm & sj & A & B) _]].
        -- exists i, d, name, s. repeat (split; [assumption || reflexivity || (apply in_app_iff; right; now left)|]). exact K.
        -- exists j, dj, nm, sj. split; [apply in_app_iff; now left|exact B].
      * intros (j & dj & nm & sj & A & B & C & D & F). apply in_app_iff in A. destruct A as [A|[A|[]]].
        -- right. split; [exists j, dj, nm, sj; auto|]. intros Epath. subst path.
           destruct (Hs i j d dj name nm Hin (Hdone _ A) Nm B) as [->|[[f Hf] [f' Hf']]]; try congruence.
           { exfalso. exact (Hfresh _ A). }
           rewrite Hf in S. rewrite Hf' in D. cbn in S, D. injection S as <-. injection D as <-.
           inversion F. split; eexists; reflexivity.
        -- injection A as <- <-. left. rewrite Nm in B. injection B as <-. rewrite S in D. injection D as <-. auto.
    + refine (IH (done ++ [(i, d)]) _ _ Hd' _ E).
      intros e v. rewrite Hm. split.
      * intros (j & dj & nm & sj & A & B). exists j, dj, nm, sj. split; [apply in_app_iff; now left|exact B].
      * intros (j & dj & nm & sj & A & B & C & D & F). apply in_app_iff in A. destruct A as [A|[A|[]]].
        -- exists j, dj, nm, sj. auto.
        -- injection A as <- <-. congruence.
Qed.
Print Assumptions C39_table_of_bundle.

(** A module with a public and a private function of the same name, a protected
    class and an enum, imported into a scope that already has a function. *)
Definition ex_table : symbol_map :=
  sy_add_enum (sy_add_class (sy_add_function (sy_add_function [] [lit "M"; lit "f"] 5 Public) [lit "M"; lit "f"] 6 Private)
    [lit "M"; lit "C"] 7 Protected) [lit "M"; lit "E"] 8.
Definition ex_scope : scope :=
  {| sc_symbols := [(lit "f", SFunctions [(3, Public)])]; sc_references := []; sc_types := []; sc_this := None; sc_function := None |}.
Example C39_example :
  built ex_table /\
  (exists sc', populate_import (@rev _) ex_table (IAll [lit "M"] span0) ex_scope Public = (sc', Done tt) /\
     exposes sc' (lit "f") (OneFunction 3) /\ exposes sc' (lit "f") (OneFunction 5) /\
     ~ exposes sc' (lit "f") (OneFunction 6) /\ ~ exposes sc' (lit "C") (OneClass 7) /\ exposes sc' (lit "E") (OneEnum 8)) /\
  (exists sc', populate_import (@rev _) ex_table (ISelected [lit "M"] [lit "C"] span0) ex_scope Private = (sc', Done tt) /\
     exposes sc' (lit "C") (OneClass 7) /\ ~ exposes sc' (lit "E") (OneEnum 8)).
Proof.
  split; [|split].
  - unfold ex_table. constructor. constructor. constructor. constructor. apply bu_new with (p := {| pl_names := empty_strings; pl_tweakdb := empty_strings; pl_resources := empty_strings; pl_strings := empty_strings; pl_defs := [] |}). reflexivity.
  - eexists. split; [vm_compute; reflexivity|].
    assert (K : forall l n e, ~ In e (map (fun x => OneFunction (fst x)) l) -> forall sc, am_find (sc_symbols sc) n = Some (SFunctions l) ->
      ~ exposes sc n e).
    { intros l n e H sc A (s & w & B & C). rewrite A in B. injection B as <-. inversion C; subst. apply H.
      apply in_map_iff. eexists. split; [|eassumption]. reflexivity. }
    repeat split.
    + eexists _, Public. split; [vm_compute; reflexivity|constructor; now left].
    + eexists _, Public. split; [vm_compute; reflexivity|constructor; right; now left].
    + eapply K; [|vm_compute; reflexivity]. vm_compute. intuition discriminate.
    + intros (s & w & B & C). vm_compute in B. discriminate.
    + eexists _, Public. split; [vm_compute; reflexivity|constructor].
  - eexists. split; [vm_compute; reflexivity|]. split.
    + eexists _, Protected. split; [vm_compute; reflexivity|constructor].
    + intros (s & w & B & C). vm_compute in B. discriminate.
Qed.

(** ** C27: conditions *)

Definition wf_modules (mods : list module_path) : Prop := Forall (fun m => m <> [] /\ Forall plain_part m) mods.
Definition module_named (mods : list module_path) (n : str) : Prop := exists m, In m mods /\ path_render m = n.

Lemma existsb_parse mods n : existsb (path_eqb (path_parse n)) mods = true <-> In (path_parse n) mods.
Proof.
  rewrite existsb_exists. split.
  - intros (m & A & B). apply path_eqb_spec in B. now subst.
  - intros A. eexists. split; [exact A|apply path_eqb_refl].
Qed.

Lemma parse_named mods n : wf_modules mods -> ~ In x3b n -> (In (path_parse n) mods <-> module_named mods n).
Proof.
  intros Hw Hn. split.
  - intros A. exists (path_parse n). split; [exact A|]. unfold path_parse, path_render.
    rewrite map_ext_in with (g := fun x => x); [rewrite map_id; apply join_split|].
    intros part Hp. apply cut_plain. intros K. apply Hn.
    rewrite <- (join_split x2e n). revert Hp K. generalize (split x2e n). clear.
    induction l as [|x l IH]; [intros []|]. intros [->|H] K.
    + destruct l; [exact K|]. cbn [join]. apply in_app_iff. now left.
    + destruct l as [|y l]; [destruct H|]. cbn [join]. apply in_app_iff. right. right. exact (IH H K).
  - intros (m & A & <-). unfold wf_modules in Hw. rewrite Forall_forall in Hw. destruct (Hw _ A) as [H1 H2].
    now rewrite C38_round_trip.
Qed.

Lemma if_prop (C A B : Prop) (c a b : bool) : (c = true <-> C) -> (a = true <-> A) -> (b = true <-> B) ->
  ((if c then a else b) = true <-> ((C -> A) /\ (~ C -> B))).
Proof. destruct c, a, b; intuition discriminate. Qed.

(** A condition written with booleans, [ModuleExists], [!], [&&], [||] and
    [?:] evaluates, to true exactly if its formula holds for the modules. *)
Theorem C27_value mods e f : wf_modules mods -> written e f ->
  exists b, cte_eval mods e = Done b /\ (b = true <-> true_in (module_named mods) f).
Proof.
  intros Hw H. induction H as [b sp|n ts sp sp' Hn|e f sp H [b [E K]]|x y f g sp H1 [b1 [E1 K1]] H2 [b2 [E2 K2]]|
      x y f g sp H1 [b1 [E1 K1]] H2 [b2 [E2 K2]]|c x y h f g sp H0 [b0 [E0 K0]] H1 [b1 [E1 K1]] H2 [b2 [E2 K2]]];
    cbn [cte_eval true_in].
  - eauto using iff_refl.
  - rewrite (proj2 (str_eqb_iff _ _) eq_refl). eexists. split; [reflexivity|].
    rewrite existsb_parse. now apply parse_named.
  - rewrite E. cbn [obind]. eexists. split; [reflexivity|]. rewrite <- K. destruct b; cbn; intuition congruence.
  - rewrite E1, E2. cbn [obind]. eexists. split; [reflexivity|]. now rewrite andb_true_iff, K1, K2.
  - rewrite E1, E2. cbn [obind]. eexists. split; [reflexivity|]. now rewrite orb_true_iff, K1, K2.
  - rewrite E0. cbn [obind]. exists (if b0 then b1 else b2). split; [destruct b0; assumption|]. now apply if_prop.
Qed.
Print Assumptions C27_value.

(** Anything that evaluates is such a formula, apart from the branches of [?:]
    that are not taken; anything else is an error of conditional compilation. *)
Theorem C27_otherwise_error mods e :
  match cte_eval mods e with
  | Done b => exists f, lazily_written (fun n => In (path_parse n) mods) e f /\
                (b = true <-> true_in (fun n => In (path_parse n) mods) f)
  | Fail err => (exists msg sp, err = CteError msg sp) /\ forall f, ~ written e f
  end.
Proof.
  induction e using expr_ind'; cbn [cte_eval];
    try (split; [eauto|intros f0 K; inversion K; fail]).
  - destruct c; try (split; [eauto|intros f0 K; inversion K; fail]).
    exists (FBool b). split; [constructor|reflexivity].
  - destruct args as [|[| [l s| | | | | | |] sp0| | | | | | | | | | | | | | | | | | | | | | | |] [|]];
      try (split; [eauto|intros f0 K; inversion K; fail]).
    1: destruct l; try (split; [eauto|intros f0 K; inversion K; fail]).
    cbn [kCall source_ast] in c. destruct (str_eqb c (lit "ModuleExists")) eqn:F.
    + apply str_eqb_iff in F. subst c. exists (FModule s). split; [constructor|]. cbn [true_in]. apply existsb_parse.
    + split; [eauto|]. intros f K. inversion K; subst. vm_compute in F. discriminate.
    + destruct l; (split; [eauto|intros f0 K; inversion K; fail]).
  - destruct (cte_eval mods e1) as [b|err]; cbn [obind].
    + destruct IHe1 as (h & W & B). destruct b.
      * destruct (cte_eval mods e2) as [b|err].
        -- destruct IHe2 as (f & W2 & B2). exists (FIf h f (FBool false)). split; [apply lw_then; [exact W|now apply B|exact W2]|].
           cbn [true_in]. rewrite B2. intuition.
        -- destruct IHe2 as [A N]. split; [exact A|]. intros f K. inversion K; subst. eapply N; eassumption.
      * destruct (cte_eval mods e3) as [b|err].
        -- destruct IHe3 as (f & W2 & B2). assert (N : ~ true_in (fun n => In (path_parse n) mods) h) by (rewrite <- B; discriminate).
           exists (FIf h (FBool false) f). split; [apply lw_else; [exact W|exact N|exact W2]|].
           cbn [true_in]. rewrite B2. intuition.
        -- destruct IHe3 as [A N]. split; [exact A|]. intros f K. inversion K; subst. eapply N; eassumption.
    + destruct IHe1 as [A N]. split; [exact A|]. intros f K. inversion K; subst. eapply N; eassumption.
  - destruct (cte_eval mods e1) as [b1|err]; cbn [obind].
    + destruct IHe1 as (f1 & W1 & B1). destruct (cte_eval mods e2) as [b2|err]; cbn [obind].
      * destruct IHe2 as (f2 & W2 & B2). destruct o; try (split; [eauto|intros f0 K; inversion K; fail]).
        -- exists (FOr f1 f2). split; [now constructor|]. cbn [true_in]. now rewrite orb_true_iff, B1, B2.
        -- exists (FAnd f1 f2). split; [now constructor|]. cbn [true_in]. now rewrite andb_true_iff, B1, B2.
      * destruct IHe2 as [A N]. split; [exact A|]. intros f K. inversion K; subst; eapply N; eassumption.
    + destruct IHe1 as [A N]. split; [exact A|]. intros f K. inversion K; subst; eapply N; eassumption.
  - destruct (cte_eval mods e) as [b|err]; cbn [obind].
    + destruct IHe as (f & W & B). destruct o; try (split; [eauto|intros f0 K; inversion K; fail]).
      exists (FNot f). split; [now constructor|]. cbn [true_in]. rewrite <- B. destruct b; cbn; intuition congruence.
    + destruct IHe as [A N]. split; [exact A|]. intros f K. inversion K; subst; eapply N; eassumption.
Qed.
Print Assumptions C27_otherwise_error.

(** A definition is kept exactly if all of its conditions are true, and an error
    is reported exactly if one of them has no value. *)
Theorem C27_kept mods anns :
  (eval_conditions mods anns = Done true <-> forall e, conditions anns e -> cte_eval mods e = Done true) /\
  (eval_conditions mods anns = Done false <->
     (forall e, conditions anns e -> exists b, cte_eval mods e = Done b) /\
     (exists e, conditions anns e /\ cte_eval mods e = Done false)) /\
  ((exists err, eval_conditions mods anns = Fail err) <-> exists e err, conditions anns e /\ cte_eval mods e = Fail err).
Proof.
  unfold eval_conditions.
  set (go := fix go acc l := match l with [] => _ | _ => _ end).
  assert (Hgo : forall l acc,
    (go acc l = Done true /\ acc = true /\ forall e, conditions l e -> cte_eval mods e = Done true) \/
    (go acc l = Done false /\ (forall e, conditions l e -> exists b, cte_eval mods e = Done b) /\
       (acc = false \/ exists e, conditions l e /\ cte_eval mods e = Done false)) \/
    (exists err, go acc l = Fail err /\ exists e err, conditions l e /\ cte_eval mods e = Fail err)).
  { induction l as [|a l IH]; intros acc; cbn [go].
    - destruct acc; [left|right; left]; (split; [reflexivity|]); (split; [|]); auto; intros e (? & ? & [] & _).
    - fold go.
      assert (Tl : forall e, conditions l e -> conditions (a :: l) e)
        by (intros e (a' & r & A & B); exists a', r; split; [now right|exact B]).
      assert (Sk : (is_if a = false \/ an_args a = []) -> forall e, conditions (a :: l) e -> conditions l e).
      { intros H e (a' & r & [<-|A] & B & C); [|exists a', r; auto]. exfalso. unfold is_if in H. rewrite B in H.
        destruct H; congruence. }
      assert (Skip : (is_if a = false \/ an_args a = []) ->
        (go acc l = Done true /\ acc = true /\ forall e, conditions (a :: l) e -> cte_eval mods e = Done true) \/
        (go acc l = Done false /\ (forall e, conditions (a :: l) e -> exists b, cte_eval mods e = Done b) /\
           (acc = false \/ exists e, conditions (a :: l) e /\ cte_eval mods e = Done false)) \/
        (exists err, go acc l = Fail err /\ exists e err, conditions (a :: l) e /\ cte_eval mods e = Fail err)).
      { intros H. specialize (Sk H). destruct (IH acc) as [(A & B & C)|[(A & B & C)|(err & A & e & err' & B & C)]].
        - left. auto.
        - right. left. repeat split; auto. destruct C as [C|(e & C & D)]; [now left|right; eauto].
        - right. right. exists err. split; [exact A|eauto]. }
      destruct (is_if a) eqn:Ki; [|apply Skip; now left].
      destruct (an_args a) as [|e0 r] eqn:Ka; [apply Skip; now right|].
      assert (Kif : an_kind a = AIf) by (unfold is_if in Ki; destruct (an_kind a); congruence).
      assert (Hd : conditions (a :: l) e0) by (exists a, r; repeat split; auto; now left).
      assert (Cs : forall e, conditions (a :: l) e -> e = e0 \/ conditions l e).
      { intros e (a' & r' & [<-|A] & B & C); [left; congruence|right; exists a', r'; auto]. }
      destruct (cte_eval mods e0) as [b|err] eqn:E0; cbn [obind].
      + destruct (IH (acc && b)) as [(A & B & C)|[(A & B & C)|(err & A & e & err' & B & C)]].
        * apply andb_true_iff in B. destruct B as [-> ->]. left. repeat split; auto.
          intros e He. destruct (Cs e He) as [->|K]; auto.
        * right. left. split; [exact A|]. split.
          -- intros e He. destruct (Cs e He) as [->|K]; eauto.
          -- destruct C as [C|(e & C & D)]; [|right; eauto]. apply andb_false_iff in C. destruct C as [->| ->]; [now left|right; eauto].
        * right. right. exists err. split; [exact A|eauto].
      + right. right. exists err. split; [reflexivity|eauto]. }
  destruct (Hgo anns true) as [(A & _ & C)|[(A & B & C)|(err & A & e & err' & B & C)]]; rewrite A.
  - split; [tauto|]. split.
    + split; [discriminate|]. intros (_ & e & K & L). rewrite (C _ K) in L. discriminate.
    + split; [intros [? [=]]|]. intros (e & err & K & L). rewrite (C _ K) in L. discriminate.
  - destruct C as [C|(e & C & D)]; [discriminate|]. split; [|split].
    + split; [discriminate|]. intros K. rewrite (K _ C) in D. discriminate.
    + split; [eauto|reflexivity].
    + split; [intros [? [=]]|]. intros (e' & err & K & L). destruct (B _ K) as [b K']. congruence.
  - split; [|split].
    + split; [discriminate|]. intros K. rewrite (K _ B) in C. discriminate.
    + split; [discriminate|]. intros [K _]. destruct (K _ B) as [b K']. congruence.
    + split; [eauto|eauto].
Qed.
Print Assumptions C27_kept.

(** [!ModuleExists("A.B") && (ModuleExists("C") ? true : false)] for the modules
    [A] and [C]. *)
Definition ex_cond : sexpr :=
  EBinOp (EUnOp (ECall (N := source_ast) (lit "ModuleExists") [] [EConstant (CString LString (lit "A.B")) span0] span0) LogicNot span0)
    (EConditional (ECall (N := source_ast) (lit "ModuleExists") [] [EConstant (CString LString (lit "C")) span0] span0)
       (EConstant (CBool true) span0) (EConstant (CBool false) span0) span0) LogicAnd span0.
Example C27_example :
  wf_modules [[lit "A"]; [lit "C"]] /\
  (exists f, written ex_cond f) /\
  cte_eval [[lit "A"]; [lit "C"]] ex_cond = Done true /\
  cte_eval [[lit "A"; lit "B"]; [lit "C"]] ex_cond = Done false /\
  eval_conditions [[lit "A"]; [lit "C"]] [{| an_kind := AIf; an_args := [ex_cond]; an_span := span0 |}] = Done true.
Proof.
  split; [repeat constructor; try discriminate; vm_compute; intuition discriminate|].
  split; [|now vm_compute].
  eexists. unfold ex_cond. repeat constructor; vm_compute; intuition discriminate.
Qed.
