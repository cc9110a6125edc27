(** Compiling modules changes only what they name: the invariant and its proof. *)
From Coq Require Import String.
From Coq Require Import ZArith List Bool Lia Permutation.
From Verif Require Import Bytes Bytecode Definitions Bundle BundleFacts Ast TypeNames Pool Scope TypeCheck Symbols SourceMap Cursor Assembler
  Desugar Diagnostics Report Printer PoolSpec PoolFacts TypeIndexFacts Wrappers WrapSpec WrapFacts WrapSteps TidyFacts Unit UnitSpec UnitSteps P_Symbols.
Import ListNotations.
Open Scope Z_scope.

(** Adding what is neither a class nor a function. *)
Definition still (d : definition) : Prop := (forall k, df_value d <> DClass k) /\ forall x, df_value d <> DFunction x.
Lemma still_passive d : still d -> passive d.
Proof. unfold passive. intros [A B]. destruct (df_value d) eqn:E; try exact I; [exact (A _ eq_refl)|exact (B _ eq_refl)]. Qed.
Definition calm (p p' : pool) : Prop := tidy p p' /\ forall i d, def_at p' i = Some d -> def_at p i = Some d \/ still d.
Lemma calm_refl p : calm p p.
Proof. split; [apply tidy_refl|auto]. Qed.
Lemma calm_trans p q r : calm p q -> calm q r -> calm p r.
Proof. intros [A B] [C D]. split; [exact (tidy_trans _ _ _ A C)|]. intros i d H. destruct (D _ _ H) as [X|X]; auto. Qed.
Lemma calm_name p n p' i : add_name p n = (p', i) -> calm p p'.
Proof. intros E. split; [exact (tidy_name _ _ _ _ E)|]. intros j d. rewrite (add_name_defs _ _ _ _ E). auto. Qed.
Lemma calm_def p d p' i : add_definition p d = (p', i) -> still d -> calm p p'.
Proof.
  intros E S. split; [exact (tidy_def _ _ _ _ E (still_passive _ S))|]. revert E. unfold add_definition. intros [= <- _]. intros j e. cbn [set_defs pl_defs].
  unfold nth_def. destruct (j <? 0); [discriminate|]. intros H. destruct (Nat.lt_ge_cases (Z.to_nat j) (length (pl_defs p))) as [L|L].
  - rewrite nth_error_app1 in H by exact L. now left.
  - rewrite nth_error_app2 in H by exact L. destruct (Z.to_nat j - length (pl_defs p))%nat as [|[|]]; [|discriminate|discriminate]. injection H as <-. now right.
Qed.

(** Registering a wrapper, step by step. *)
Lemma register_steps c name sig sp st w st' : register c name sig sp st = Done (w, st') -> fits (ws_pool st') ->
  wr_class w = c /\ member (ws_pool st) c (wr_fun w) /\ def_name (ws_pool st) (wr_fun w) = Done sig /\
  (exists p, calm (ws_pool st) p /\ push_member p c (wr_index w) = Done (ws_pool st')) /\
  ws_wrappers st' = put_key (ws_wrappers st) (wr_fun w) (wr_index w) /\
  (ws_proxies st' = ws_proxies st \/ ws_proxies st' = put_key (ws_proxies st) (wr_fun w) (size (ws_pool st))) /\
  size (ws_pool st) <= wr_index w.
Proof.
  intros E F. destruct (register_spec _ _ _ _ _ _ _ E F) as (A & B & C & D & G & _).
  split; [exact A|]. split; [exact B|]. split; [exact C|]. split; [|split; [exact D|split; [destruct G as [(_ & _ & G)|(_ & _ & _ & G & _)]; auto|destruct G as [(_ & G & _)|(_ & _ & G & _)]; lia]]].
  revert E. unfold register. destruct (resolve_direct_method _ _ _) as [l|]; [|discriminate]. destruct (by_id _ _ _) as [f|]; [|discriminate].
  destruct (match find_key (ws_wrappers st) f with Some w0 => _ | None => _ end) as [[k p1] prox] eqn:E1.
  destruct (add_name p1 (wrapper_name k)) as [p2 nm] eqn:E2. destruct (add_definition p2 (stub nm)) as [p3 wi] eqn:E3.
  destruct (push_member p3 c wi) as [p4|] eqn:E4; [|discriminate]. cbn [obind]. intros [= <- <-]. cbn [ws_pool wr_index] in *.
  exists p3. split; [|exact E4]. eapply calm_trans; [|eapply calm_trans; [exact (calm_name _ _ _ _ E2)|apply (calm_def _ _ _ _ E3); split; discriminate]].
  destruct (find_key _ f); [injection E1 as _ <- _; apply calm_refl|]. destruct (add_definition (ws_pool st) default_definition) as [q i] eqn:E0.
  injection E1 as _ <- _. apply (calm_def _ _ _ _ E0). split; discriminate.
Qed.

Section Frame.
Variable l : list source_module.
Variable p0 : pool.
Hypothesis PR : proper p0.

Definition fresh (i : pidx) : Prop := size p0 <= i.
Lemma old_not_fresh i d : def_at p0 i = Some d -> ~ fresh i.
Proof. intros H. apply at_bounds in H. unfold fresh. lia. Qed.
Lemma fresh_or i d p : def_at p i = Some d -> fresh i \/ exists d0, def_at p0 i = Some d0.
Proof. intros H. apply at_bounds in H. destruct (Z.lt_ge_cases i (size p0)); [right; apply at_some; lia|left; exact H0]. Qed.

(** Before the proxies take the places of wrapped methods. *)
Inductive kept (i : pidx) (d d' : definition) : Prop :=
| kept_same : d' = d -> kept i d d'
| kept_class k fs gs : df_value d = DClass k ->
    d' = with_value d (DClass (with_fields (with_functions k (cl_functions k ++ fs)) (cl_fields k ++ gs))) ->
    (fs <> [] -> gains_functions l p0 i) -> (gs <> [] -> gains_fields l p0 i) -> Forall fresh (fs ++ gs) -> kept i d d'
| kept_replaced x x' : replaces l p0 i -> df_value d = DFunction x -> df_value d' = DFunction x' ->
    df_name d' = df_name d -> df_parent d' = df_parent d -> kept i d d'.
Definition texts (p p' : pool) : Prop :=
  prefix (st_list (pl_names p)) (st_list (pl_names p')) /\ prefix (st_list (pl_tweakdb p)) (st_list (pl_tweakdb p')) /\
  prefix (st_list (pl_resources p)) (st_list (pl_resources p')) /\ prefix (st_list (pl_strings p)) (st_list (pl_strings p')).
Definition stays (p : pool) : Prop := texts p0 p /\ forall i d, def_at p0 i = Some d -> exists d', def_at p i = Some d' /\ kept i d d'.

Lemma texts_refl p : texts p p.
Proof. repeat split; apply prefix_refl. Qed.
Lemma texts_trans a b c : texts a b -> texts b c -> texts a c.
Proof. intros (A1 & A2 & A3 & A4) (B1 & B2 & B3 & B4). repeat split; eapply prefix_trans; eassumption. Qed.
Lemma texts_extends p p' : extends p p' -> texts p p'.
Proof. intros (_ & H). exact H. Qed.
Lemma texts_put p i d p' : put_def p i d = Done p' -> texts p p'.
Proof. unfold put_def. destruct (def_at p i); [|discriminate]. intros [= <-]. exact (texts_refl p). Qed.

Lemma stays_start : stays p0.
Proof. split; [apply texts_refl|]. intros i d H. exists d. split; [exact H|now apply kept_same]. Qed.
Lemma stays_size p : stays p -> size p0 <= size p.
Proof.
  intros (_ & H). destruct (Z.lt_ge_cases (size p) (size p0)) as [L|L]; [|exact L]. exfalso.
  assert (0 <= size p) by (unfold size; lia). destruct (at_some p0 (size p)) as (d & D); [lia|]. destruct (H _ _ D) as (d' & D' & _). apply at_bounds in D'. lia.
Qed.
Lemma kept_name i d d' : kept i d d' -> df_name d' = df_name d.
Proof. intros [->|k fs gs _ -> _ _ _|x x' _ _ _ H _]; [reflexivity|reflexivity|exact H]. Qed.
Lemma stays_name p i d n : stays p -> def_at p0 i = Some d -> def_name p i = Done n -> def_name p0 i = Done n.
Proof.
  intros (T & H) D E. destruct (H _ _ D) as (d' & D' & K). destruct (proj1 PR _ _ D) as (m & M).
  pose proof (name_same _ _ _ _ _ _ (proj1 T) D D' (kept_name _ _ _ K) M). congruence.
Qed.
Lemma stays_extends p p' : extends p p' -> stays p -> stays p'.
Proof.
  intros X (T & H). split; [exact (texts_trans _ _ _ T (texts_extends _ _ X))|]. intros i d D. destruct (H _ _ D) as (d' & D' & K).
  exists d'. split; [exact (extends_nth _ _ _ _ X D')|exact K].
Qed.
Lemma stays_put p i d p' : put_def p i d = Done p' -> stays p -> (forall d0, def_at p0 i = Some d0 -> kept i d0 d) -> stays p'.
Proof.
  intros E (T & H) K. split; [exact (texts_trans _ _ _ T (texts_put _ _ _ _ E))|]. apply put_spec in E as (A & B & _).
  intros j e D. destruct (Z.eq_dec j i) as [->|N]; [eauto|]. rewrite B by exact N. exact (H _ _ D).
Qed.
Lemma stays_put_fresh p i d p' : put_def p i d = Done p' -> stays p -> fresh i -> stays p'.
Proof. intros E S F. apply (stays_put _ _ _ _ E S). intros d0 D. destruct (old_not_fresh _ _ D F). Qed.
Lemma replaces_function i : replaces l p0 i -> exists d x, def_at p0 i = Some d /\ df_value d = DFunction x.
Proof.
  intros (src & _ & _ & [(n & c & _ & _ & M)|(_ & d & x & A & B & _)]); [|eauto]. apply (proj2 PR) in M as (d & x & A & B & _). eauto.
Qed.
Lemma stays_put_replaced p i d' p' x : put_def p i d' = Done p' -> stays p -> replaces l p0 i -> df_value d' = DFunction x ->
  (forall d, def_at p0 i = Some d -> df_name d' = df_name d /\ df_parent d' = df_parent d) -> stays p'.
Proof.
  intros E S R V N. apply (stays_put _ _ _ _ E S). intros d0 D. destruct (replaces_function _ R) as (e & y & A & B). rewrite D in A. injection A as <-.
  destruct (N _ D). now apply (kept_replaced i d0 d' y x).
Qed.
(** Classes. *)
Lemma stays_class p c k : stays p -> get_class p c = Done k -> fresh c \/ exists d k0 fs gs, def_at p0 c = Some d /\ df_value d = DClass k0 /\
  def_at p c = Some (with_value d (DClass k)) /\
  k = with_fields (with_functions k0 (cl_functions k0 ++ fs)) (cl_fields k0 ++ gs) /\
  (fs <> [] -> gains_functions l p0 c) /\ (gs <> [] -> gains_fields l p0 c) /\ Forall fresh (fs ++ gs).
Proof.
  intros (T & H) K. apply class_at in K as (d & D & V). destruct (fresh_or _ _ _ D) as [F|(d0 & D0)]; [now left|]. right.
  destruct (H _ _ D0) as (d' & D' & [->|k0 fs gs A -> B1 B2 B3|x x' _ _ C _ _]).
  - assert (d0 = d) by congruence. subst. exists d, k, [], []. rewrite !app_nil_r. split; [exact D0|]. split; [exact V|]. split; [|split; [now destruct k|]].
    + rewrite D. f_equal. destruct d; cbn in *. now rewrite V.
    + repeat split; intros; try congruence. constructor.
  - rewrite D in D'. injection D' as ->. cbn [with_value df_value] in V. injection V as <-. exists d0, k0, fs, gs. repeat split; auto.
  - rewrite D in D'. injection D' as <-. congruence.
Qed.
Lemma with_fields_functions k fs gs hs : with_fields (with_functions (with_fields (with_functions k fs) gs) hs) gs = with_fields (with_functions k hs) gs.
Proof. reflexivity. Qed.
Lemma stays_push p c f p' : push_member p c f = Done p' -> stays p -> fresh f -> fresh c \/ gains_functions l p0 c -> stays p'.
Proof.
  unfold push_member. intros H S Ff G. destruct (pe (get_class p c)) as [k|] eqn:K; [|discriminate]. cbn [obind] in H. apply pe_done in K.
  destruct (pe (get_def p c)) as [d|] eqn:D; [|discriminate]. cbn [obind] in H. apply def_done in D. apply (stays_put _ _ _ _ H S).
  intros d0 D0. destruct (stays_class _ _ _ S K) as [F|(e & k0 & fs & gs & A & B & C & -> & G1 & G2 & G3)]; [destruct (old_not_fresh _ _ D0 F)|].
  assert (e = d0) by congruence. subst e. rewrite D in C. injection C as ->. apply (kept_class c d0 _ k0 (fs ++ [f]) gs B).
  - cbn [with_value with_functions with_fields cl_functions cl_fields cl_visibility cl_flags cl_base cl_overrides df_name df_parent df_unk1 df_unk2 df_unk3].
    now rewrite app_assoc.
  - intros _. destruct G as [F|G]; [destruct (old_not_fresh _ _ D0 F)|exact G].
  - exact G2.
  - rewrite <- app_assoc. apply Forall_app in G3 as (X & Y). apply Forall_app. split; [exact X|]. now constructor.
Qed.
Lemma stays_push_field p c f p' : push_field p c f = Done p' -> stays p -> fresh f -> fresh c \/ gains_fields l p0 c -> stays p'.
Proof.
  unfold push_field. intros H S Ff G. destruct (pe (get_class p c)) as [k|] eqn:K; [|discriminate]. cbn [obind] in H. apply pe_done in K.
  destruct (pe (get_def p c)) as [d|] eqn:D; [|discriminate]. cbn [obind] in H. apply def_done in D. apply (stays_put _ _ _ _ H S).
  intros d0 D0. destruct (stays_class _ _ _ S K) as [F|(e & k0 & fs & gs & A & B & C & -> & G1 & G2 & G3)]; [destruct (old_not_fresh _ _ D0 F)|].
  assert (e = d0) by congruence. subst e. rewrite D in C. injection C as ->. apply (kept_class c d0 _ k0 fs (gs ++ [f]) B).
  - cbn [with_value with_functions with_fields cl_functions cl_fields cl_visibility cl_flags cl_base cl_overrides df_name df_parent df_unk1 df_unk2 df_unk3].
    now rewrite app_assoc.
  - exact G1.
  - intros _. destruct G as [F|G]; [destruct (old_not_fresh _ _ D0 F)|exact G].
  - rewrite app_assoc. apply Forall_app. split; [exact G3|]. now constructor.
Qed.

(** Wrapped methods. *)
Definition host (c : pidx) : Prop := c = UNDEFINED \/ fresh c \/ gains_functions l p0 c.
Definition key_ok (p : pool) (f : pidx) : Prop :=
  exists d, def_at p f = Some d /\ (wraps l p0 f \/ fresh f /\ forall x, df_value d = DFunction x -> host (df_parent d)).
Definition map_ok (p : pool) (m : pmap) : Prop := forall k v, In (k, v) m -> key_ok p k /\ fresh v.
Lemma key_extends p p' f : extends p p' -> key_ok p f -> key_ok p' f.
Proof. intros X (d & D & H). exists d. split; [exact (extends_nth _ _ _ _ X D)|exact H]. Qed.
Lemma key_put p i d p' f : put_def p i d = Done p' -> (forall x, fresh i -> df_value d = DFunction x -> host (df_parent d)) -> key_ok p f -> key_ok p' f.
Proof.
  intros E H (e & D & K). apply put_spec in E as (A & B & _). destruct (Z.eq_dec f i) as [->|N].
  - exists d. split; [exact A|]. destruct K as [K|(F & _)]; [now left|right]. split; [exact F|]. intros x. exact (H x F).
  - exists e. split; [rewrite B by exact N; exact D|exact K].
Qed.
Lemma key_push p c f p' g : push_member p c f = Done p' -> key_ok p g -> key_ok p' g.
Proof.
  unfold push_member. intros H. destruct (pe (get_class p c)) as [k|]; [|discriminate]. cbn [obind] in H.
  destruct (pe (get_def p c)) as [d|]; [|discriminate]. cbn [obind] in H. apply (key_put _ _ _ _ _ H). discriminate.
Qed.
Lemma key_field p c f p' g : push_field p c f = Done p' -> key_ok p g -> key_ok p' g.
Proof. intros E. apply push_field_put in E as (d & k & _ & _ & E). apply (key_put _ _ _ _ _ E). discriminate. Qed.

(** Symbols. *)
(** A class of the scripts, by its name. *)
Definition scripted (path : module_path) : Prop :=
  exists pre b src, declares l (EntryClass b src) /\ path = pre ++ [dc_name (cs_decl src)].
Definition entry_ok (path : module_path) (s : symbol) : Prop :=
  match s with
  | SClass i _ | SStruct i _ => fresh i /\ scripted path \/ exists full, def_name p0 i = Done full /\ path_parse full = path
  | SEnum _ => True
  | SFunctions fs => Forall (fun x => fresh (fst x) \/ global p0 (fst x)) fs
  end.
Definition root_ok (s : scope) : Prop := forall n x, am_find (sc_symbols s) n = Some x -> entry_ok [n] x.
Definition scope_ok (s : scope) : Prop := forall n x, am_find (sc_symbols s) n = Some x -> exists pre, entry_ok (pre ++ [n]) x.
Definition table_ok (m : symbol_map) : Prop := forall p s, In (p, s) m -> entry_ok p s.
Lemma root_scope s : root_ok s -> scope_ok s.
Proof. intros H n x E. exists []. exact (H _ _ E). Qed.
Lemma entry_visible p s v s' : entry_ok p s -> sym_visible s v = Some s' -> entry_ok p s'.
Proof.
  destruct s as [i w|i w|i|fs]; cbn [sym_visible entry_ok]; intros H.
  1,2: destruct (vis_leb w v); [intros [= <-]; exact H|discriminate].
  - intros [= <-]. exact I.
  - intros E. assert (X : s' = SFunctions (filter (fun x => vis_leb (snd x) v) fs)) by (destruct (filter _ fs); [discriminate|now injection E as <-]).
    subst. cbn [entry_ok]. apply Forall_forall. intros x Ix. apply filter_In in Ix as (Ix & _). rewrite Forall_forall in H. exact (H _ Ix).
Qed.
Lemma entry_functions p q fs : entry_ok p (SFunctions fs) -> entry_ok q (SFunctions fs).
Proof. exact (fun H => H). Qed.
Lemma add_cases sc n s m x : am_find (sc_symbols (sc_add_symbol sc n s)) m = Some x ->
  n <> m /\ am_find (sc_symbols sc) m = Some x \/ n = m /\ (x = s \/ exists a b, am_find (sc_symbols sc) n = Some (SFunctions a) /\ s = SFunctions b /\ x = SFunctions (a ++ b)).
Proof.
  rewrite sc_add_find. intros H. destruct (str_eqb_spec n m) as [->|N]; [|now left]. right. split; [reflexivity|]. injection H as <-.
  destruct s; auto. destruct (am_find (sc_symbols sc) m) as [[]|]; eauto 8.
Qed.
Lemma root_add sc n s : root_ok sc -> entry_ok [n] s -> root_ok (sc_add_symbol sc n s).
Proof.
  intros R H m x E. apply add_cases in E as [(_ & E)|(<- & [->|(a & b & A & -> & ->)])]; [exact (R _ _ E)|exact H|].
  cbn [entry_ok] in *. apply Forall_app. split; [exact (R _ _ A)|exact H].
Qed.
Lemma scope_add sc n s pre : scope_ok sc -> entry_ok (pre ++ [n]) s -> scope_ok (sc_add_symbol sc n s).
Proof.
  intros R H m x E. apply add_cases in E as [(_ & E)|(<- & [->|(a & b & A & -> & ->)])]; [exact (R _ _ E)|eauto|].
  exists []. cbn [entry_ok] in *. destruct (R _ _ A) as (pre' & X). apply Forall_app. split; [exact X|exact H].
Qed.
Lemma insert_in p s m : forall q t, In (q, t) (sy_insert p s m) -> q = p /\ t = s \/ In (q, t) m.
Proof.
  induction m as [|[k u] m IH]; intros q t; cbn [sy_insert]; [intros [[= <- <-]|[]]; now left|].
  destruct (path_eqb k p) eqn:E; intros [[= <- <-]|H]; try (right; now right).
  - apply path_eqb_spec in E. now left.
  - right. now left.
  - destruct (IH _ _ H); [now left|right; now right].
Qed.
Lemma table_insert m p s : table_ok m -> entry_ok p s -> table_ok (sy_insert p s m).
Proof. intros T E q t H. apply insert_in in H as [(-> & ->)|H]; [exact E|exact (T _ _ H)]. Qed.
Lemma table_put m p s : table_ok m -> entry_ok p s -> table_ok (sy_put m p s).
Proof.
  intros T E. unfold sy_put. destruct (sy_get m p) as [x|] eqn:G; [|now apply table_insert]. apply sy_get_in in G.
  destruct x, s; try now apply table_insert. apply table_insert; [exact T|]. cbn [entry_ok] in *. apply Forall_app. split; [exact (T _ _ G)|exact E].
Qed.
Lemma table_get m p s : table_ok m -> sy_get m p = Some s -> entry_ok p s.
Proof. intros T E. apply sy_get_in in E. exact (T _ _ E). Qed.

Section Env.
Variable ev : env.
Hypothesis FV : fair ev.
Lemma import_scope m i s v : table_ok m -> scope_ok s -> scope_ok (fst (populate_import (ev_children ev) m i s v)).
Proof.
  intros T S. assert (AV : forall s n x pre, scope_ok s -> entry_ok (pre ++ [n]) x -> scope_ok (add_visible v s n x)).
  { intros s' n x pre S' E. unfold add_visible. destruct (sym_visible x v) as [y|] eqn:V; [|exact S']. eapply scope_add; [exact S'|]. eapply entry_visible; eassumption. }
  destruct i as [p sp|p names sp|p sp]; cbn [populate_import].
  - unfold sy_get_symbol. destruct (sy_get m p) as [x|] eqn:G; cbn [with_span map_err]; [|exact S]. destruct (sym_visible x v) as [y|] eqn:V; [|exact S].
    destruct (rev p) as [|n r] eqn:R; [exact S|]. cbn [fst]. apply (scope_add _ _ _ (rev r) S).
    assert (E : p = rev r ++ [n]) by (rewrite <- (rev_involutive p), R; reflexivity). rewrite <- E. eapply entry_visible; [eapply table_get; eassumption|exact V].
  - revert s S. induction names as [|n ns IH]; intros s S; cbn [add_selected]; [exact S|]. unfold sy_get_symbol.
    destruct (sy_get m (with_child p n)) as [x|] eqn:G; cbn [with_span map_err]; [|exact S]. apply IH. apply (AV s n x p S). exact (table_get _ _ _ T G).
  - assert (X : forall kids, (forall x, In x kids -> In (p ++ [fst x], snd x) m) -> forall s, scope_ok s -> scope_ok (fold_left (fun sc x => add_visible v sc (fst x) (snd x)) kids s)).
    { induction kids as [|x kids IH]; intros H s' S'; [exact S'|]. cbn [fold_left]. apply IH; [intros y Iy; apply H; now right|].
      apply (AV _ _ _ p S'). apply T, H. now left. }
    assert (Y : forall x, In x (ev_children ev (sy_children p m)) -> In (p ++ [fst x], snd x) m).
    { intros [n x] Ix. apply (Permutation_in _ (proj1 FV _)) in Ix. now apply children_spec in Ix. }
    unfold sy_direct_children. destruct p; [|destruct (existsb _ m)]; cbn [with_span map_err fst]; auto.
Qed.
Lemma import_root m s v sp : table_ok m -> root_ok s -> root_ok (fst (populate_import (ev_children ev) m (IAll [] sp) s v)).
Proof.
  intros T S. cbn [populate_import sy_direct_children with_span map_err fst].
  assert (Y : forall x, In x (ev_children ev (sy_children [] m)) -> In ([fst x], snd x) m).
  { intros [n x] Ix. apply (Permutation_in _ (proj1 FV _)) in Ix. now apply children_spec in Ix. }
  revert Y s S. generalize (ev_children ev (sy_children [] m)). induction l0 as [|x kids IH]; intros Y s S; [exact S|]. cbn [fold_left].
  apply IH; [intros y Iy; apply Y; now right|]. unfold add_visible. destruct (sym_visible (snd x) v) as [y|] eqn:V; [|exact S].
  apply root_add; [exact S|]. eapply entry_visible; [apply T, Y; now left|exact V].
Qed.
End Env.

(** * The invariant *)

Definition target (i : pidx) : Prop := fresh i \/ replaces l p0 i.
(** No new class or function has been defined. *)
Definition bare (p : pool) : Prop := forall i d, fresh i -> def_at p i = Some d -> still d.
Record inv (first : bool) (st : ustate) : Prop := Inv {
  iv_stays : stays (us_pool st);
  iv_root : root_ok (us_scope st);
  iv_module : scope_ok (us_module st);
  iv_table : table_ok (us_symbols st);
  iv_wrappers : map_ok (us_pool st) (us_wrappers st);
  iv_proxies : map_ok (us_pool st) (us_proxies st);
  iv_bodies : Forall (fun x => target (fb_index x)) (us_bodies st);
  iv_defaults : Forall (fun x => fresh (ft_index x)) (us_defaults st);
  iv_first : first = true -> bare (us_pool st) }.
Lemma inv_pool b st p : inv b st -> stays p -> (forall f, key_ok (us_pool st) f -> key_ok p f) -> (b = true -> bare p) -> inv b (set_pool p st).
Proof.
  intros [A1 A2 A3 A4 A5 A6 A7 A8 A9] S K U. split; cbn; auto.
  - intros k v H. destruct (A5 _ _ H). auto.
  - intros k v H. destruct (A6 _ _ H). auto.
Qed.
Lemma inv_diags b st ds : inv b st -> inv b (set_diags ds st).
Proof. intros [A1 A2 A3 A4 A5 A6 A7 A8 A9]. split; assumption. Qed.
Lemma inv_refs b st ds : inv b st -> inv b (set_refs ds st).
Proof. intros [A1 A2 A3 A4 A5 A6 A7 A8 A9]. split; assumption. Qed.
Lemma inv_files b st ds : inv b st -> inv b (set_files ds st).
Proof. intros [A1 A2 A3 A4 A5 A6 A7 A8 A9]. split; assumption. Qed.
Lemma inv_table b st m : inv b st -> table_ok m -> inv b (set_table m st).
Proof. intros [A1 A2 A3 A4 A5 A6 A7 A8 A9]. split; assumption. Qed.
Lemma inv_root b st m : inv b st -> root_ok m -> inv b (set_root m st).
Proof. intros [A1 A2 A3 A4 A5 A6 A7 A8 A9]. split; assumption. Qed.
Lemma inv_module b st m : inv b st -> scope_ok m -> inv b (set_module m st).
Proof. intros [A1 A2 A3 A4 A5 A6 A7 A8 A9]. split; assumption. Qed.
Lemma inv_bodies b st m : inv b st -> Forall (fun x => target (fb_index x)) m -> inv b (set_bodies m st).
Proof. intros [A1 A2 A3 A4 A5 A6 A7 A8 A9]. split; assumption. Qed.
Lemma inv_defaults b st m : inv b st -> Forall (fun x => fresh (ft_index x)) m -> inv b (set_defaults m st).
Proof. intros [A1 A2 A3 A4 A5 A6 A7 A8 A9]. split; assumption. Qed.
Lemma bare_class p c k : bare p -> fresh c -> get_class p c <> Done k.
Proof. intros B F K. apply class_at in K as (d & D & V). exact (proj1 (B _ _ F D) _ V). Qed.
Lemma bare_calm p p' : calm p p' -> bare p -> bare p'.
Proof. intros [_ A] B i d F D. destruct (A _ _ D) as [X|X]; [exact (B _ _ F X)|exact X]. Qed.
Lemma bare_push p c f p' : push_member p c f = Done p' -> bare p -> bare p'.
Proof.
  unfold push_member. intros H B. destruct (pe (get_class p c)) as [k|] eqn:K; [|discriminate]. cbn [obind] in H. apply pe_done in K.
  destruct (pe (get_def p c)) as [d|]; [|discriminate]. cbn [obind] in H. apply put_spec in H as (_ & O & _). intros i e F D.
  destruct (Z.eq_dec i c) as [->|N]; [destruct (bare_class _ _ _ B F K)|]. rewrite O in D by exact N. exact (B _ _ F D).
Qed.
Lemma inv_calm b st p : inv b st -> calm (us_pool st) p -> inv b (set_pool p st).
Proof.
  intros H T. apply inv_pool; [exact H|exact (stays_extends _ _ (proj1 (proj1 T)) (iv_stays _ _ H))|intros f; apply key_extends, (proj1 T)|].
  intros E. exact (bare_calm _ _ T (iv_first _ _ H E)).
Qed.
Lemma inv_extends st p : inv false st -> extends (us_pool st) p -> inv false (set_pool p st).
Proof. intros H T. apply inv_pool; [exact H|exact (stays_extends _ _ T (iv_stays _ _ H))|intros f; apply key_extends, T|discriminate]. Qed.

(** * Declaring *)

Definition yes {A} (_ : A) : Prop := True.
Ltac next := first
  [ eapply holds_then; [|solve [mono]|]
  | eapply holds_bind; [|intros; solve [mono]|] ].
Lemma holds_name b n : holds (inv b) (name_index n) yes.
Proof.
  apply holds_pool. intros st a p'. destruct (add_name (us_pool st) n) as [q i] eqn:E. intros [= <- <-] F H. split; [|exact I].
  apply inv_calm; [exact H|exact (calm_name _ _ _ _ E)].
Qed.
Lemma holds_def b d : still d -> holds (inv b) (new_definition d) fresh.
Proof.
  intros N. apply holds_pool. intros st a p'. destruct (add_definition (us_pool st) d) as [q i] eqn:E. intros [= <- <-] F H. split.
  - apply inv_calm; [exact H|exact (calm_def _ _ _ _ E N)].
  - destruct (add_def_spec _ _ _ _ E F) as (-> & _). exact (stays_size _ (iv_stays _ _ H)).
Qed.
Lemma holds_stub b n : holds (inv b) (new_stub n) fresh.
Proof. unfold new_stub. eapply holds_bind; [apply holds_name|intros; mono|]. intros i _. apply holds_def. split; discriminate. Qed.
Lemma holds_diagnostic b d : holds (inv b) (push_diagnostic d) yes.
Proof. apply holds_diag. intros st ds. apply inv_diags. Qed.
Lemma holds_complain b e : holds (inv b) (ureport e) yes.
Proof. apply holds_report. intros st ds. apply inv_diags. Qed.

Lemma holds_ann_class b a : holds (inv b) (uread (ann_class a))
  (fun c => exists n sp rest, an_args a = EIdent (N := source_ast) n sp :: rest /\ (fresh c \/ goes_by p0 c n)).
Proof.
  apply holds_read. intros st c H. unfold ann_class, ann_ident. destruct (an_args a) as [|[]] eqn:E; try discriminate. cbn [obind]. unfold resolve_symbol.
  match goal with |- context [am_find _ ?n] => destruct (am_find (sc_symbols (us_scope st)) n) as [s|] eqn:G end; [|discriminate]. cbn [with_span map_err obind]. apply (iv_root _ _ H) in G.
  intros X. do 3 eexists. split; [reflexivity|]. destruct s; try discriminate; injection X as <-; (destruct G as [(G & _)|G]; [now left|right; exact G]).
Qed.
(** The methods of a class named by an annotation. *)
Lemma old_class p c n : stays p -> bare p -> fresh c \/ goes_by p0 c n -> forall f, member p c f -> def_at p f <> None ->
  goes_by p0 c n /\ (fresh f /\ gains_functions l p0 c \/ member p0 c f).
Proof.
  intros S U G f (k & K & If) D. destruct G as [F|G]; [destruct (bare_class _ _ _ U F K)|]. split; [exact G|].
  destruct (stays_class _ _ _ S K) as [F|(d & k0 & fs & gs & A & B & C & -> & G1 & G2 & G3)]; [destruct (bare_class _ _ _ U F K)|].
  cbn [with_fields with_functions cl_functions] in If. apply in_app_or in If as [If|If].
  - right. exists k0. split; [apply class_at; eauto|exact If].
  - left. split; [|apply G1; intros ->; exact If]. apply Forall_app in G3 as (X & _). rewrite Forall_forall in X. exact (X _ If).
Qed.
Lemma named_at p f n : def_name p f = Done n -> def_at p f <> None.
Proof. intros H E. destruct (name_def _ _ _ H) as (d & D). congruence. Qed.
Definition spot (i parent : pidx) : Prop :=
  fresh i /\ host parent \/ replaces l p0 i /\ exists d, def_at p0 i = Some d /\ df_parent d = parent.
Definition slot_ok (s : slot) : Prop :=
  match s with
  | SlotFunction i parent _ _ _ _ _ => spot i parent
  | SlotClass _ i _ _ | SlotEnum i _ => fresh i
  | SlotField i src _ => fresh i /\ declares l (EntryLet src)
  end.

Lemma find_places src a : find places (dc_annotations (fs_decl src)) = Some a -> In a (dc_annotations (fs_decl src)) /\ places a = true.
Proof. apply find_some. Qed.
Lemma holds_register c name sig sp n src : declares l (EntryFunction src) -> sig = source_signature src -> about (fs_decl src) AWrapMethod n ->
  fresh c \/ goes_by p0 c n -> forall (k : wrapping -> U slot), (forall w, mono (k w)) ->
  (forall w, fresh (wr_index w) -> host c -> holds (inv true) (k w) slot_ok) ->
  holds (inv true) (do x <- uread (fun st => register c name sig sp (WrapState (us_pool st) (us_wrappers st) (us_proxies st)));
        let '(w, ws) := x in
        do _ <- uput (fun st => set_pool (ws_pool ws) (set_wraps (ws_wrappers ws) (ws_proxies ws) st)); k w) slot_ok.
Proof.
  intros DE -> AB G k GK K st r st'. unfold ubind, uread, uput. cbv beta iota.
  destruct (register _ _ _ _ _) as [[w ws]|] eqn:E; [|intros [= <- <-] F H; split; [exact H|discriminate]]. intros E2 F H.
  pose proof (grown_fits _ _ (GK _ _ _ _ E2) F) as F1. cbn [set_pool us_pool] in F1.
  destruct (register_steps _ _ _ _ _ _ _ E F1) as (C1 & C2 & C3 & (q & T & PU) & W & PX & Lw). cbn [ws_pool ws_wrappers ws_proxies] in *.
  destruct (old_class _ _ _ (iv_stays _ _ H) (iv_first _ _ H eq_refl) G _ C2 (named_at _ _ _ C3)) as (Gn & Or).
  assert (GF : gains_functions l p0 c) by (exists src, n; auto).
  pose proof (stays_size _ (iv_stays _ _ H)) as SZ. assert (FW : fresh (wr_index w)) by (unfold fresh; lia).
  assert (S1 : stays (ws_pool ws)).
  { apply (stays_push _ _ _ _ PU); [exact (stays_extends _ _ (proj1 (proj1 T)) (iv_stays _ _ H))|exact FW|now right]. }
  assert (KO : forall f, key_ok (us_pool st) f -> key_ok (ws_pool ws) f).
  { intros f X. eapply key_push; [exact PU|]. eapply key_extends; [exact (proj1 (proj1 T))|exact X]. }
  assert (KW : key_ok (ws_pool ws) (wr_fun w)).
  { apply KO. destruct (name_def _ _ _ C3) as (d & D). exists d. split; [exact D|]. destruct Or as [(Ff & _)|M].
    - right. split; [exact Ff|]. intros x V. destruct (proj2 (iv_first _ _ H eq_refl _ _ Ff D) _ V).
    - left. exists src, n, c. split; [exact DE|]. split; [|auto]. destruct (proj2 PR _ _ M) as (d0 & x & D0 & _). exact (stays_name _ _ _ _ (iv_stays _ _ H) D0 C3). }
  assert (PT : forall m v, map_ok (us_pool st) m -> fresh v -> map_ok (ws_pool ws) (put_key m (wr_fun w) v)).
  { intros m v M Fv a b. unfold put_key. intros [[= <- <-]|X]; [auto|]. apply filter_In in X as (X & _). destruct (M _ _ X). auto. }
  apply (K w FW (or_intror (or_intror GF)) _ _ _ E2 F). destruct H as [A1 A2 A3 A4 A5 A6 A7 A8 A9]. split; cbn; auto.
  - rewrite W. now apply PT.
  - destruct PX as [-> | ->]; [intros a b X; destruct (A6 _ _ X); auto|]. apply PT; [exact A6|]. unfold fresh. lia.
  - intros _. exact (bare_push _ _ _ _ PU (bare_calm _ _ T (A9 eq_refl))).
Qed.

Lemma holds_place src m : declares l (EntryFunction src) -> holds (inv true) (place_function src m) slot_ok.
Proof.
  intros DE. unfold place_function. destruct (find places _) as [a|] eqn:FP.
  - apply find_places in FP as (Ia & Pa). unfold place_annotated. cbv zeta. destruct (an_kind a) eqn:KA; try (unfold places in Pa; rewrite KA in Pa; discriminate).
    + (* @replaceMethod *)
      eapply holds_bind; [apply holds_ann_class|intros; mono|]. intros c (n & sp & rest & AR & G).
      eapply holds_bind with (P := fun f => fresh f /\ host c \/ replaces l p0 f /\ exists d, def_at p0 f = Some d /\ df_parent d = c); [|intros; mono|].
      * apply holds_read. intros st f H. unfold ann_method. destruct (resolve_direct_method _ _ _) as [fs|] eqn:R; [|discriminate].
        destruct (by_id _ _ _) as [g|] eqn:B; [|discriminate]. intros [= ->]. destruct (found_method _ _ _ _ _ _ R B) as (M & N).
        destruct (old_class _ _ _ (iv_stays _ _ H) (iv_first _ _ H eq_refl) G _ M (named_at _ _ _ N)) as (Gn & [(Ff & GF)|M0]); [left; split; [exact Ff|now right; right]|].
        right. destruct (proj2 PR _ _ M0) as (d & x & D & V & Q). split; [|eauto]. exists src. split; [exact DE|].
        split; [exact (stays_name _ _ _ _ (iv_stays _ _ H) D N)|]. left. exists n, c. split; [|auto]. exists a, sp, rest. auto.
      * intros f Hf. eapply holds_bind with (P := yes); [apply holds_get; intros; exact I|intros; mono|]. intros p _. apply holds_ret. exact Hf.
    + (* @wrapMethod *)
      apply holds_if; intros _; [apply holds_failc|]. eapply holds_bind; [apply holds_ann_class|intros; mono; eapply mono_register; intros; mono|].
      intros c (n & sp & rest & AR & G). eapply holds_bind with (P := yes); [apply holds_get; intros; exact I|intros; eapply mono_register; intros; mono|].
      intros p _. eapply holds_register; [exact DE|reflexivity| |exact G|intros; mono|].
      * exists a, sp, rest. auto.
      * intros w Fw Hc. apply holds_ret. left. auto.
    + (* @replaceGlobal *)
      eapply holds_bind with (P := fun fs => Forall (fun f => fresh f \/ global p0 f) fs); [|intros; mono|].
      * apply holds_read. intros st fs H. unfold resolve_function. destruct (am_find _ _) as [[]|] eqn:A; try discriminate. intros [= <-].
        apply (iv_root _ _ H) in A. cbn [entry_ok] in A. apply Forall_map. exact A.
      * intros fs Hfs. eapply holds_bind with (P := fun f => fresh f /\ host UNDEFINED \/ replaces l p0 f /\ exists d, def_at p0 f = Some d /\ df_parent d = UNDEFINED); [|intros; mono|].
        -- apply holds_read. intros st f H. destruct (by_id _ _ _) as [g|] eqn:B; [|discriminate]. intros [= ->]. unfold by_id in B. apply find_some in B as (B1 & B2).
           destruct (def_name (us_pool st) f) as [nm|] eqn:N; [|discriminate]. destruct (str_eqb_spec nm (source_signature src)) as [->|]; [|discriminate].
           rewrite Forall_forall in Hfs. destruct (Hfs _ B1) as [Ff|GL]; [left; split; [exact Ff|now left]|]. right. destruct GL as (d & x & D & V & Q).
           split; [|eauto]. exists src. split; [exact DE|]. split; [exact (stays_name _ _ _ _ (iv_stays _ _ H) D N)|]. right. split; [now exists a|]. now exists d, x.
        -- intros f Hf. apply holds_ret. exact Hf.
    + (* @addMethod *)
      eapply holds_bind; [apply holds_ann_class|intros; mono|]. intros c (n & sp & rest & AR & G).
      eapply holds_bind with (P := yes); [apply holds_get; intros; exact I|intros; mono|]. intros clash _.
      eapply holds_bind with (P := yes); [destruct clash; [apply holds_diagnostic|apply holds_ret; exact I]|intros; mono|]. intros _ _.
      eapply holds_bind with (P := fun _ => goes_by p0 c n); [|intros; mono|].
      * apply holds_read. intros st o H. unfold overridden. destruct (pe (get_class _ c)) as [k|] eqn:K; [|discriminate]. intros _. apply pe_done in K.
        destruct G as [F|G]; [|exact G]. destruct (bare_class _ _ _ (iv_first _ _ H eq_refl) F K).
      * intros base Gn. eapply holds_bind; [apply holds_stub|intros; mono|]. intros f Ff.
        assert (GF : gains_functions l p0 c) by (exists src, n; split; [exact DE|]; split; [exact Gn|]; left; exists a, sp, rest; auto).
        eapply holds_bind with (P := yes); [|intros; mono|intros _ _; apply holds_ret; left; split; [exact Ff|now right; right]].
        apply holds_change; [|exact I]. intros st p' E F H. apply inv_pool; [exact H| | |].
        -- apply (stays_push _ _ _ _ E (iv_stays _ _ H) Ff). now right.
        -- intros g. exact (key_push _ _ _ _ g E).
        -- intros T. exact (bare_push _ _ _ _ E (iv_first _ _ H T)).
  - cbv zeta. eapply holds_bind; [apply holds_stub|intros; mono|]. intros f Ff.
    assert (EO : forall p v, entry_ok p (SFunctions [(f, v)])) by (intros p v; constructor; [now left|constructor]).
    eapply holds_bind with (P := yes); [|intros; mono|intros _ _; eapply holds_bind with (P := yes); [|intros; mono|intros _ _; apply holds_ret; left; split; [exact Ff|now left]]].
    + apply holds_put; [|exact I]. intros st _ H. apply inv_table; [exact H|]. apply table_put; [exact (iv_table _ _ H)|apply EO].
    + destruct (is_nil m); [|apply holds_ret; exact I]. apply holds_put; [|exact I]. intros st _ H. apply inv_root; [exact H|]. apply root_add; [exact (iv_root _ _ H)|apply EO].
Qed.
Lemma holds_symbol pm e m : declares l e -> holds (inv true) (define_symbol pm e m) slot_ok.
Proof.
  intros DE. destruct e as [is_struct src|src|src|src]; cbn [define_symbol]; cbv zeta.
  - eapply holds_bind with (P := yes); [apply holds_get; intros; exact I|intros; mono|]. intros known _.
    eapply holds_bind with (P := yes); [destruct (_ && _); [apply holds_failc|apply holds_ret; exact I]|intros; mono|]. intros _ _.
    eapply holds_bind; [apply holds_stub|intros; mono|]. intros i Fi.
    assert (EO : forall p v (b : bool), entry_ok (with_child p (dc_name (cs_decl src))) (if b then SStruct i v else SClass i v)).
    { intros p v b. assert (X : scripted (with_child p (dc_name (cs_decl src)))) by (exists p, is_struct, src; auto). destruct b; left; auto. }
    eapply holds_bind with (P := yes); [|intros; mono|intros _ _; eapply holds_bind with (P := yes); [|intros; mono|intros _ _; apply holds_ret; exact Fi]].
    + apply holds_put; [|exact I]. intros st _ H. apply inv_table; [exact H|]. specialize (EO m (visibility_of (dc_qualifiers (cs_decl src))) is_struct). destruct is_struct; apply table_insert; try exact (iv_table _ _ H); exact EO.
    + destruct (is_nil m); [|apply holds_ret; exact I]. apply holds_put; [|exact I]. intros st _ H. apply inv_root; [exact H|]. apply root_add; [exact (iv_root _ _ H)|exact (EO [] _ _)].
  - apply holds_place, DE.
  - eapply holds_bind; [apply holds_stub|intros; mono|]. intros i Fi. apply holds_ret. split; [exact Fi|exact DE].
  - eapply holds_bind; [apply holds_stub|intros; mono|]. intros i Fi.
    eapply holds_bind with (P := yes); [|intros; mono|intros _ _; eapply holds_bind with (P := yes); [|intros; mono|intros _ _; apply holds_ret; exact Fi]].
    + apply holds_put; [|exact I]. intros st _ H. apply inv_table; [exact H|]. apply table_insert; [exact (iv_table _ _ H)|exact I].
    + destruct (is_nil m); [|apply holds_ret; exact I]. apply holds_put; [|exact I]. intros st _ H. apply inv_root; [exact H|]. apply root_add; [exact (iv_root _ _ H)|exact I].
Qed.
Lemma holds_entry pm m e : In m l -> In e (sm_entries m) -> holds (inv true) (declare_entry pm (module_names l) (path_of m) e) (Forall slot_ok).
Proof.
  intros Im Ie. unfold declare_entry.
  assert (MO : forall here : bool, mono (if here then fun st => match define_symbol pm e (path_of m) st with
              | (Done s, st') => (Done [s], st') | (Fail err, st') => (do _ <- ureport err; uret []) st' end else uret [])).
  { intros []; [|mono]. intros st r st'. destruct (define_symbol _ _ _ _) as [[s|err] st1] eqn:E; [intros [= <- <-]; exact (mono_symbol _ _ _ _ _ _ E)|].
    intros E2. eapply grown_trans; [exact (mono_symbol _ _ _ _ _ _ E)|]. revert E2. apply mono_bind; [apply mono_report|intros _; apply mono_ret]. }
  eapply holds_bind with (P := fun here => eval_conditions (module_names l) (dc_annotations (entry_decl e)) = Done here); [apply holds_lift; auto|exact MO|].
  intros [] EC; [|apply holds_ret; constructor]. intros st r st'. pose proof (holds_symbol pm e (path_of m) (ex_intro _ m (conj Im (conj Ie EC)))) as HS.
  destruct (define_symbol _ _ _ _) as [[s|err] st1] eqn:E.
  - intros [= <- <-] F H. destruct (HS _ _ _ E F H) as (A & B). split; [exact A|]. intros a [= <-]. constructor; [auto|constructor].
  - intros E2 F H. assert (MR : mono (do _ <- ureport err; uret (@nil slot))) by mono. assert (F1 := grown_fits _ _ (MR _ _ _ E2) F). destruct (HS _ _ _ E F1 H) as (A & _).
    assert (HR : holds (inv true) (do _ <- ureport err; uret (@nil slot)) (Forall slot_ok)).
    { eapply holds_bind with (P := yes); [apply holds_complain|intros; mono|]. intros _ _. apply holds_ret. constructor. }
    exact (HR _ _ _ E2 F A).
Qed.
Lemma holds_declare pm m : In m l -> holds (inv true) (declare_module pm (module_names l) m) (fun x => Forall slot_ok (snd x)).
Proof.
  intros Im. unfold declare_module. eapply holds_bind with (P := Forall (Forall slot_ok)); [|intros; mono|].
  - apply holds_map; [intros; apply mono_entry|]. intros e Ie. now apply holds_entry.
  - intros slots H. apply holds_ret. cbn [snd]. apply Forall_concat. exact H.
Qed.

(** * Defining *)

Lemma holds_first st : inv true st -> inv false st.
Proof. intros [A1 A2 A3 A4 A5 A6 A7 A8 A9]. split; auto. Qed.
Lemma holds_add d : holds (inv false) (new_definition d) fresh.
Proof.
  apply holds_pool. intros st a p'. destruct (add_definition (us_pool st) d) as [q i] eqn:E. intros [= <- <-] F H. split.
  - apply inv_extends; [exact H|exact (extends_add_definition _ _ _ _ E)].
  - destruct (add_def_spec _ _ _ _ E F) as (-> & _). exact (stays_size _ (iv_stays _ _ H)).
Qed.
Lemma holds_resolve n sp : holds (inv false) (try_resolve_type n sp) yes.
Proof.
  intros st r st'. unfold try_resolve_type. destruct (with_span sp _) as [t|e]; [intros [= <- <-] F H; split; [exact H|intros ? _; exact I]|].
  assert (HR : holds (inv false) (do _ <- ureport e; uret TINull) yes).
  { eapply holds_bind with (P := yes); [apply holds_complain|intros; mono|]. intros _ _. apply holds_ret. exact I. }
  apply HR.
Qed.
Lemma holds_type t sp : holds (inv false) (type_index t sp) yes.
Proof.
  intros st r st'. unfold type_index. destruct (get_type_index t _ _) as [[[i s] p]|] eqn:E; cbn [with_span map_err]; intros [= <- <-] F H; [|split; [exact H|discriminate]].
  split; [|intros ? _; exact I]. pose proof (request_scope _ _ _ _ _ _ E) as S. apply (inv_extends (set_module s st)); [|exact (inner_extends _ _ _ _ _ _ E)].
  apply inv_module; [exact H|]. rewrite S. intros n x X. exact (iv_module _ _ H n x X).
Qed.
Lemma holds_declared n sp : holds (inv false) (declared_type n sp) yes.
Proof. unfold declared_type. eapply holds_bind; [apply holds_resolve|intros; mono|]. intros t _. apply holds_type. Qed.
Lemma holds_reference i z : holds (inv false) (push_ref i z) yes.
Proof. apply holds_put; [|exact I]. intros st _ H. apply inv_refs, H. Qed.
Lemma holds_source ev sp : holds (inv false) (source_ref_of ev sp) yes.
Proof.
  unfold source_ref_of. eapply holds_bind with (P := yes); [apply holds_lift; intros; exact I|intros; unfold define_source_ref; mono|].
  intros [[[f start] e]|] _; [|apply holds_ret; exact I]. unfold define_source_ref.
  eapply holds_bind with (P := yes); [apply holds_get; intros; exact I|intros; mono|]. intros known _.
  eapply holds_bind with (P := yes); [|intros; mono|intros; apply holds_ret; exact I]. destruct known as [i|]; [apply holds_ret; exact I|].
  eapply holds_bind with (P := yes); [apply holds_get; intros; exact I|intros; mono|]. intros count _.
  eapply holds_bind; [apply holds_add|intros; mono|]. intros i _.
  eapply holds_bind with (P := yes); [|intros; mono|intros; apply holds_ret; exact I]. apply holds_put; [|exact I]. intros st _ H. apply inv_files, H.
Qed.
Lemma holds_warn (b : bool) e : holds (inv false) (if b then ureport e else uret tt) yes.
Proof. destruct b; [apply holds_complain|apply holds_ret; exact I]. Qed.
Lemma spot_target i c : spot i c -> target i.
Proof. intros [(F & _)|(R & _)]; [now left|now right]. Qed.

(** Writing a definition at a fresh index. *)
Lemma inv_put_fresh st i d p' : put_def (us_pool st) i d = Done p' -> inv false st -> fresh i -> (forall x, df_value d = DFunction x -> host (df_parent d)) ->
  inv false (set_pool p' st).
Proof.
  intros E H F K. apply inv_pool; [exact H|exact (stays_put_fresh _ _ _ _ E (iv_stays _ _ H) F)| |discriminate].
  intros f. apply (key_put _ _ _ _ f E). intros x _. exact (K x).
Qed.
Lemma inv_put_spot st i c x n p' : put_def (us_pool st) i (function_definition n c x) = Done p' -> inv false st -> spot i c ->
  (forall d, def_at p0 i = Some d -> n = df_name d) -> inv false (set_pool p' st).
Proof.
  intros E H [(F & K)|(R & d & D & Q)] N; [apply (inv_put_fresh _ _ _ _ E H F); intros; exact K|].
  apply inv_pool; [exact H| |intros f; apply (key_put _ _ _ _ f E); intros y F _; destruct (old_not_fresh _ _ D F)|discriminate].
  apply (stays_put_replaced _ _ _ _ x E (iv_stays _ _ H) R eq_refl). intros d' D'. split; [exact (N _ D')|]. cbn. congruence.
Qed.
Lemma holds_function x : spot (sp_fun x) (sp_class x) -> holds (inv false) (define_function x) yes.
Proof.
  intros SP. unfold define_function. cbv zeta. eapply holds_bind with (P := yes); [|intros; unfold define_parameter; mono|].
  { unfold check_native. cbv zeta. do 2 (eapply holds_bind with (P := yes); [apply holds_warn|intros; mono|intros _ _]). apply holds_warn. }
  intros _ _. eapply holds_bind with (P := yes); [|intros; unfold define_parameter; mono|].
  { destruct (fs_type _) as [t|]; [|apply holds_ret; exact I]. destruct (is_void t); [apply holds_ret; exact I|].
    eapply holds_bind; [apply holds_declared|intros; mono|]. intros; apply holds_ret; exact I. }
  intros ret _. eapply holds_bind with (P := Forall fresh); [|intros; mono|].
  { apply holds_map; [intros; unfold define_parameter; mono|]. intros y _. unfold define_parameter. eapply holds_bind; [apply holds_declared|intros; mono|]. intros t _.
    eapply holds_bind; [apply holds_name|intros; mono|]. intros n _. apply holds_add. }
  intros params _. eapply holds_bind with (P := fun def => forall d, def_at p0 (sp_fun x) = Some d -> df_name def = df_name d); [|intros; mono|].
  { apply holds_read. intros st def H D d0 D0. apply def_done in D. destruct (iv_stays _ _ H) as (_ & S). destruct (S _ _ D0) as (d' & D' & K).
    rewrite D in D'. injection D' as <-. exact (kept_name _ _ _ K). }
  intros def N. eapply holds_bind with (P := yes); [|intros; mono|].
  { destruct (fs_body _) as [body|]; [|apply holds_ret; exact I]. apply holds_put; [|exact I]. intros st _ H. apply inv_bodies; [exact H|].
    apply Forall_app. split; [exact (iv_bodies _ _ H)|]. constructor; [|constructor]. exact (spot_target _ _ SP). }
  intros _ _. eapply holds_bind with (P := yes); [|intros; mono|intros; apply holds_reference].
  apply holds_change; [|exact I]. intros st p' E F H. exact (inv_put_spot _ _ _ _ _ _ E H SP N).
Qed.
Lemma holds_field i c fl v src : fresh i -> holds (inv false) (define_field i c fl v src) yes.
Proof.
  intros Fi. unfold define_field. cbv zeta. do 2 (eapply holds_bind with (P := yes); [apply holds_warn|intros; mono|intros _ _]).
  eapply holds_bind; [apply holds_declared|intros; mono|]. intros t _.
  eapply holds_bind with (P := yes); [apply holds_lift; intros; exact I|intros; mono|]. intros attrs _.
  eapply holds_bind with (P := yes); [apply holds_read; intros; exact I|intros; mono|]. intros def _.
  eapply holds_bind with (P := yes); [|intros; mono|].
  { destruct (fd_default src) as [e|]; [|apply holds_ret; exact I]. apply holds_put; [|exact I]. intros st _ H. apply inv_defaults; [exact H|].
    apply Forall_app. split; [exact (iv_defaults _ _ H)|]. constructor; [exact Fi|constructor]. }
  intros _ _. eapply holds_bind with (P := yes); [|intros; mono|intros; apply holds_reference].
  apply holds_change; [|exact I]. intros st p' E F H. apply (inv_put_fresh _ _ _ _ E H Fi). discriminate.
Qed.
Section Env2.
Variable ev : env.
Hypothesis FV : fair ev.
Lemma holds_member mods b c fl v m : fresh c -> holds (inv false) (define_member ev mods b c fl v m) yes.
Proof.
  intros Fc. destruct m as [src|src]; cbn [define_member].
  - eapply holds_bind with (P := yes); [apply holds_lift; intros; exact I|intros; mono; first [apply mono_ref|apply mono_function]|]. intros [] _; [|apply holds_ret; exact I].
    eapply holds_bind with (P := yes); [apply holds_warn|intros; mono; first [apply mono_ref|apply mono_function]|]. intros _ _.
    eapply holds_bind; [apply holds_stub|intros; mono; first [apply mono_ref|apply mono_function]|]. intros f Ff.
    eapply holds_bind; [apply holds_source|intros; mono; apply mono_function|]. intros r _.
    eapply holds_bind with (P := yes); [|intros; mono|intros; apply holds_ret; exact I]. apply holds_function. left. split; [exact Ff|]. right. now left.
  - eapply holds_bind with (P := yes); [apply holds_lift; intros; exact I|intros; mono; apply mono_field|]. intros [] _; [|apply holds_ret; exact I].
    eapply holds_bind; [apply holds_stub|intros; mono; apply mono_field|]. intros f Ff.
    eapply holds_bind with (P := yes); [|intros; mono|intros; apply holds_ret; exact I]. now apply holds_field.
Qed.
Lemma holds_class mods b c v src : fresh c -> holds (inv false) (define_class ev mods b c v src) yes.
Proof.
  intros Fc. unfold define_class. cbv zeta. eapply holds_bind with (P := Forall yes); [|intros; unfold base_class; mono|].
  { apply holds_map; [intros; apply mono_member|]. intros m _. now apply holds_member. }
  intros ms _. eapply holds_bind with (P := yes); [|intros; mono|].
  { unfold base_class. destruct b; [apply holds_ret; exact I|]. destruct (cs_base src).
    - eapply holds_bind with (P := yes); [apply holds_get; intros; exact I|intros; mono|]. intros s0 _.
      assert (HR : forall e, holds (inv false) (do _ <- ureport e; uret UNDEFINED) yes).
      { intros e. eapply holds_bind with (P := yes); [apply holds_complain|intros; mono|]. intros; apply holds_ret; exact I. }
      destruct s0 as [[]|]; try apply HR. apply holds_ret; exact I.
    - eapply holds_bind with (P := yes); [apply holds_get; intros; exact I|intros; mono|]. intros s0 _. destruct s0 as [[]|]; apply holds_ret; exact I. }
  intros base _. eapply holds_bind with (P := yes); [apply holds_read; intros; exact I|intros; mono|]. intros def _.
  eapply holds_bind with (P := yes); [|intros; mono|intros; apply holds_reference].
  apply holds_change; [|exact I]. intros st p' E F H. apply (inv_put_fresh _ _ _ _ E H Fc). discriminate.
Qed.
Lemma holds_enum i src : fresh i -> holds (inv false) (define_enum i src) yes.
Proof.
  intros Fi. unfold define_enum. eapply holds_bind with (P := Forall fresh); [|intros; mono|].
  { apply holds_map; [intros; mono|]. intros m _. eapply holds_bind; [apply holds_name|intros; mono|]. intros n _. apply holds_add. }
  intros ms _. eapply holds_bind with (P := yes); [apply holds_read; intros; exact I|intros; mono|]. intros def _.
  eapply holds_bind with (P := yes); [|intros; mono|intros; apply holds_reference].
  apply holds_change; [|exact I]. intros st p' E F H. apply (inv_put_fresh _ _ _ _ E H Fi). discriminate.
Qed.
Lemma holds_let i v src : fresh i -> declares l (EntryLet src) -> holds (inv false) (define_global_let i v src) yes.
Proof.
  intros Fi DE. unfold define_global_let. destruct (find is_add_field _) as [a|] eqn:FA; [|apply holds_failc]. apply find_some in FA as (Ia & Ka).
  unfold is_add_field in Ka. destruct (an_kind a) eqn:KA; try discriminate.
  eapply holds_bind with (P := fun n => exists sp rest, an_args a = EIdent (N := source_ast) n sp :: rest); [|intros; mono; apply mono_field|].
  { apply holds_lift. intros n. unfold ann_ident. destruct (an_args a) as [|[]]; try discriminate. intros [= <-]. eauto. }
  intros n (sp & rest & AR). eapply holds_bind with (P := fun s => exists pre, entry_ok (pre ++ [n]) s); [|intros; mono; apply mono_field|].
  { apply holds_read. intros st s H. unfold resolve_symbol. destruct (am_find _ n) as [x|] eqn:G; [|discriminate]. cbn [with_span map_err]. intros [= <-]. exact (iv_module _ _ H _ _ G). }
  intros s (pre & ES). destruct s as [c w| | | ]; try apply holds_failc.
  eapply holds_bind with (P := yes); [apply holds_read; intros; exact I|intros; mono; apply mono_field|]. intros [] _; [apply holds_diagnostic|].
  eapply holds_bind with (P := yes); [apply holds_read; intros; exact I|intros; mono; apply mono_field|]. intros k _.
  eapply holds_bind with (P := yes); [now apply holds_field|intros; mono|]. intros _ _.
  apply holds_change; [|exact I]. intros st p' E F H. apply inv_pool; [exact H| |intros f; apply (key_field _ _ _ _ f E)|discriminate].
  apply (stays_push_field _ _ _ _ E (iv_stays _ _ H) Fi). destruct ES as [(Fc & _)|(full & N & P)]; [now left|right].
  exists src, n. split; [exact DE|]. split; [now exists full, pre|]. exists a, sp, rest. auto.
Qed.
Lemma holds_slot mods seen s : slot_ok s -> holds (inv false) (define_slot ev mods seen s) yes.
Proof.
  destruct s as [i parent base wrapped repl src v|b i src v|i src v|i src]; cbn [slot_ok define_slot].
  - intros SP. eapply holds_bind with (P := yes); [|intros; mono; first [apply mono_ref|apply mono_function]|].
    { destruct (existsb _ _); [apply holds_diagnostic|apply holds_ret; exact I]. }
    intros _ _. eapply holds_bind with (P := yes); [apply holds_read; intros; exact I|intros; mono; first [apply mono_ref|apply mono_function]|]. intros fl _.
    eapply holds_bind; [apply holds_source|intros; apply mono_function|]. intros r _. apply holds_function. exact SP.
  - apply holds_class.
  - intros (A & B). now apply holds_let.
  - apply holds_enum.
Qed.
Lemma holds_slots mods ss : Forall slot_ok ss -> forall seen, holds (inv false) (define_slots ev mods seen ss) yes.
Proof.
  induction 1 as [|s ss Hs _ IH]; intros seen; cbn [define_slots]; [apply holds_ret; exact I|].
  eapply holds_bind with (P := yes); [|intros; apply mono_slots|intros; apply IH].
  apply holds_reported with (P := yes); [intros st ds; apply inv_diags|]. now apply holds_slot.
Qed.
Lemma holds_import i v : holds (inv false) (import_into ev i v) yes.
Proof.
  intros st r st'. unfold import_into. pose proof (import_scope ev FV (us_symbols st) i (us_module st) v) as X. destruct (populate_import _ _ _ _ _) as [s x].
  intros [= <- <-] F H. split; [|intros ? _; exact I]. apply inv_module; [exact H|]. exact (X (iv_table _ _ H) (iv_module _ _ H)).
Qed.
Lemma holds_module mods seen x : Forall slot_ok (snd x) -> holds (inv false) (define_module ev mods seen x) yes.
Proof.
  destruct x as [m ss]. cbn [snd]. intros HS. unfold define_module.
  eapply holds_bind with (P := yes); [|intros; mono; [apply mono_snd, mono_import|apply mono_slots]|].
  { apply holds_put; [|exact I]. intros st _ H. apply inv_module; [exact H|]. apply root_scope, (iv_root _ _ H). }
  intros _ _. eapply holds_bind with (P := yes); [|intros; mono; apply mono_slots|].
  { destruct (is_nil _); [apply holds_ret; exact I|]. eapply holds_snd; [apply holds_import|exact I]. }
  intros _ _. eapply holds_bind with (P := yes); [|intros; apply mono_slots|intros; now apply holds_slots].
  apply holds_each; [intros; mono|]. intros i _. eapply holds_bind with (P := yes); [apply holds_lift; intros; exact I|intros; mono|].
  intros [] _; [|apply holds_ret; exact I]. apply holds_reported with (P := yes); [intros st ds; apply inv_diags|]. apply holds_import.
Qed.
Lemma holds_modules mods q : Forall (fun x => Forall slot_ok (snd x)) q -> forall seen, holds (inv false) (define_modules ev mods seen q) yes.
Proof.
  induction 1 as [|x q Hx _ IH]; intros seen; cbn [define_modules]; [apply holds_ret; exact I|].
  eapply holds_bind with (P := yes); [now apply holds_module|intros; apply mono_modules|intros; apply IH].
Qed.
Lemma holds_check x t : holds (inv false) (check_default ev x t) yes.
Proof.
  intros st r st' E F H. apply check_default_pool in E as (T & ds & ->). split; [|intros ? _; exact I]. apply inv_diags.
  apply inv_extends; [exact H|]. exact (proj1 T).
Qed.
Lemma holds_default x : fresh (ft_index x) -> holds (inv false) (compile_default ev x) yes.
Proof.
  intros Fx. unfold compile_default.
  assert (MC : forall t, mono (check_default ev x t)) by (intros t st r st' E; apply (check_default_pool ev x) in E as (T & _); exact (grown_tidy _ _ T)).
  eapply holds_bind with (P := yes); [apply holds_get; intros; exact I|intros; do 4 (apply mono_bind; [apply mono_lift|intros ?]); apply mono_bind; [mono|intros _; apply MC]|]. intros p _.
  eapply holds_bind with (P := yes); [apply holds_lift; intros; exact I|intros; do 3 (apply mono_bind; [apply mono_lift|intros ?]); apply mono_bind; [mono|intros _; apply MC]|]. intros f _.
  eapply holds_bind with (P := yes); [apply holds_lift; intros; exact I|intros; do 2 (apply mono_bind; [apply mono_lift|intros ?]); apply mono_bind; [mono|intros _; apply MC]|]. intros t _.
  eapply holds_bind with (P := yes); [apply holds_lift; intros; exact I|intros; apply mono_bind; [apply mono_lift|intros ?]; apply mono_bind; [mono|intros _; apply MC]|]. intros n _.
  eapply holds_bind with (P := yes); [apply holds_lift; intros; exact I|intros; apply mono_bind; [mono|intros _; apply MC]|]. intros v _.
  eapply holds_bind with (P := yes); [|intros; apply MC|intros; apply holds_check].
  apply holds_change; [|exact I]. intros st p' E F H. apply put_defaults_put in E as (d & g & _ & _ & E). apply (inv_put_fresh _ _ _ _ E H Fx). discriminate.
Qed.

(** * Proxies *)
Lemma copy_parameters_extends ps : forall p js p', copy_parameters ps p = Done (js, p') -> extends p p'.
Proof.
  induction ps as [|i ps IH]; intros p js p'; cbn [copy_parameters]; [intros [= <- <-]; apply extends_refl|].
  destruct (pe (get_def p i)) as [d|]; [|discriminate]. cbn [obind]. destruct (add_definition p d) as [p1 j] eqn:E.
  destruct (copy_parameters ps p1) as [[js' p2]|] eqn:C; [|discriminate]. cbn [obind]. intros [= <- <-].
  exact (extends_trans _ _ _ (extends_add_definition _ _ _ _ E) (IH _ _ _ C)).
Qed.
Lemma key_host p f d x : stays p -> key_ok p f -> def_at p f = Some d -> df_value d = DFunction x -> host (df_parent d).
Proof.
  intros S (e & De & K) D V. rewrite D in De. injection De as <-. destruct K as [(src & n & c & A1 & A2 & A3 & A4 & M)|(_ & K)]; [|exact (K _ V)].
  right. right. destruct (proj2 PR _ _ M) as (d0 & x0 & D0 & V0 & Q). destruct (proj2 S _ _ D0) as (d' & D' & KD). rewrite D in D'. injection D' as <-.
  assert (P : df_parent d = df_parent d0) by (destruct KD as [->|k fs gs X -> _ _ _|y y' _ _ _ _ X]; [reflexivity|reflexivity|exact X]).
  rewrite P, Q. exists src, n. auto.
Qed.
Lemma stays_proxy files slot f w s p s' p' : construct_proxy files slot f w s p = Done (s', p') -> stays p -> key_ok p f -> fresh slot ->
  stays p' /\ forall g, key_ok p g -> key_ok p' g.
Proof.
  unfold construct_proxy. intros E S K FS. destruct (pe (get_def p f)) as [d|] eqn:D; [|discriminate]. cbn [obind] in E. apply def_done in D.
  destruct (df_value d) as [| | | | |x| | | ] eqn:V; try discriminate. pose proof (key_host _ _ _ _ S K D V) as HO.
  destruct (copy_parameters _ p) as [[js p1]|] eqn:E1; [|discriminate]. cbn [obind] in E.
  destruct (from_body files _ s p1) as [[[c s1] p2]|] eqn:E2; [|discriminate]. cbn [obind] in E. destruct (add_name p2 _) as [p3 nm] eqn:E3.
  destruct (put_def p3 slot _) as [p4|] eqn:E4; [|discriminate]. cbn [obind] in E.
  assert (X : extends p p3) by exact (extends_trans _ _ _ (copy_parameters_extends _ _ _ _ E1) (extends_trans _ _ _ (proj1 (tidy_body _ _ _ _ _ _ _ E2)) (proj1 (tidy_name _ _ _ _ E3)))).
  assert (S4 : stays p4) by (apply (stays_put_fresh _ _ _ _ E4); [exact (stays_extends _ _ X S)|exact FS]).
  assert (K4 : forall g, key_ok p g -> key_ok p4 g).
  { intros g G. apply (key_put _ _ _ _ g E4); [intros; exact HO|]. exact (key_extends _ _ _ X G). }
  destruct (df_parent d =? UNDEFINED) eqn:Q; [injection E as <- <-; auto|]. destruct (push_member p4 _ slot) as [p5|] eqn:E5; [|discriminate]. cbn [obind] in E.
  injection E as <- <-. split; [|intros g G; exact (key_push _ _ _ _ _ E5 (K4 _ G))]. apply (stays_push _ _ _ _ E5 S4 FS).
  destruct HO as [HO|HO]; [apply Z.eqb_neq in Q; congruence|exact HO].
Qed.
Lemma stays_proxies files proxies order : (forall k v, In (k, v) proxies -> fresh v) -> forall s p s' p', construct_proxies files proxies order s p = Done (s', p') ->
  stays p -> (forall k v, In (k, v) order -> key_ok p k) -> stays p' /\ forall g, key_ok p g -> key_ok p' g.
Proof.
  intros FP. induction order as [|[f w] order IH]; intros s p s' p'; cbn [construct_proxies]; [intros [= <- <-]; auto|].
  destruct (find_key proxies f) as [slot|] eqn:FK; [|discriminate]. destruct (construct_proxy files slot f w s p) as [[s1 p1]|] eqn:E1; [|discriminate]. cbn [obind].
  intros E2 S K. apply find_in in FK. destruct (stays_proxy _ _ _ _ _ _ _ _ E1 S (K _ _ (or_introl eq_refl)) (FP _ _ FK)) as (S1 & K1).
  destruct (IH _ _ _ _ E2 S1) as (S2 & K2); [intros k v X; apply K1, (K k v); now right|]. auto.
Qed.
(** The scope is no longer needed when the proxies are there. *)
Record made (st : ustate) : Prop := Made {
  md_stays : stays (us_pool st);
  md_proxies : map_ok (us_pool st) (us_proxies st);
  md_bodies : Forall (fun x => target (fb_index x)) (us_bodies st) }.
Lemma made_proxies st r st' : (fun st => match construct_proxies (ev_files ev) (us_proxies st) (ev_wrappers ev (us_wrappers st)) (us_scope st) (us_pool st) with
                 | Done (s, p) => (Done tt, set_pool p (set_root s st))
                 | Fail e => (Fail e, st)
                 end) st = (r, st') -> inv false st -> made st'.
Proof.
  cbv beta. destruct (construct_proxies _ _ _ _ _) as [[s p]|e] eqn:E; intros [= <- <-] [A1 A2 A3 A4 A5 A6 A7 A8 A9]; [|now split].
  destruct (stays_proxies _ _ _ (fun k v H => proj2 (A6 k v H)) _ _ _ _ E A1) as (S & K).
  { intros k v H. apply (Permutation_in _ (proj1 (proj2 FV) _)) in H. exact (proj1 (A5 _ _ H)). }
  split; cbn; auto. intros k v H. destruct (A6 _ _ H). auto.
Qed.
Lemma made_body sg pm x : target (fb_index x) -> holds made (compile_body ev sg pm x) (Forall (fun f => target (cf_index f))).
Proof.
  intros T st r st'. unfold compile_body, ubind at 1, uget. destruct (compile_function ev sg pm x (us_pool st)) as [[[f ds] p']|e] eqn:E.
  - apply tidy_function in E as (TD & CI).
    assert (M : holds made (do g <- ulift (pe (get_function p' (cf_index f)));
      do _ <- uput (fun st => set_diags (us_diags st ++ passes (cf_code f)
                {| fm_flags := fu_flags g; fm_was_callback := fb_was_callback x; fm_span := cf_span f |}) st); uret [f]) (Forall (fun f => target (cf_index f)))).
    { eapply holds_bind with (P := yes); [apply holds_lift; intros; exact I|intros; mono|]. intros g _.
      eapply holds_bind with (P := yes); [|intros; mono|].
      - apply holds_put; [|exact I]. intros t _ [B1 B2 B3]. split; assumption.
      - intros _ _. apply holds_ret. constructor; [now rewrite CI|constructor]. }
    intros E2 F [B1 B2 B3]. apply (M (set_diags (us_diags st ++ ds) (set_pool p' st)) r st' E2 F). split; cbn.
    + exact (stays_extends _ _ (proj1 TD) B1).
    + intros k v H. destruct (B2 _ _ H) as (X & Y). split; [exact (key_extends _ _ _ (proj1 TD) X)|exact Y].
    + exact B3.
  - assert (M : holds made (do _ <- ureport e; uret []) (Forall (fun f => target (cf_index f)))); [|apply M].
    eapply holds_bind with (P := yes); [|intros; mono|intros; apply holds_ret; constructor]. apply holds_report. intros t ds [B1 B2 B3]. split; assumption.
Qed.

(** * The whole *)
Lemma stays_install files f body locals s p p' : install files f body locals s p = Done p' -> target f -> stays p -> stays p'.
Proof.
  unfold install. intros E T S. destruct (from_body files body s p) as [[[c s1] p1]|] eqn:E1; [|discriminate]. cbn [obind] in E.
  pose proof (stays_extends _ _ (proj1 (tidy_body _ _ _ _ _ _ _ E1)) S) as S1. unfold update_function in E.
  destruct (pe (get_function p1 f)) as [x|]; [|discriminate]. cbn [obind] in E. destruct (pe (get_def p1 f)) as [d|] eqn:D; [|discriminate]. cbn [obind] in E. apply def_done in D.
  destruct T as [F|R]; [exact (stays_put_fresh _ _ _ _ E S1 F)|]. eapply (stays_put_replaced _ _ _ _ _ E S1 R); [reflexivity|].
  intros d0 D0. destruct (proj2 S1 _ _ D0) as (d' & D' & K). rewrite D in D'. injection D' as <-. cbn [with_value df_name df_parent].
  destruct (replaces_function _ R) as (e & y & De & Ve). rewrite D0 in De. injection De as <-.
  destruct K as [->|k fs gs X -> _ _ _|y0 y' _ _ _ X Y]; [auto|auto|auto].
Qed.
Lemma stays_installs fs : Forall (fun f => target (cf_index f)) fs -> forall p p', install_all ev fs p = Done p' -> stays p -> stays p'.
Proof.
  induction 1 as [|f fs T _ IH]; intros p p'; cbn [install_all]; [intros [= <-]; auto|].
  destruct (install _ _ _ _ _ p) as [q|] eqn:E; [|discriminate]. cbn [obind]. intros E2 S. exact (IH _ _ E2 (stays_install _ _ _ _ _ _ _ E T S)).
Qed.

Definition shift (S : pidx -> Prop) (p p' : pool) : Prop := texts p p' /\ forall i d, ~ S i -> def_at p i = Some d -> def_at p' i = Some d.
Lemma shift_trans S a b c : shift S a b -> shift S b c -> shift S a c.
Proof. intros (A & B) (C & D). split; [exact (texts_trans _ _ _ A C)|auto]. Qed.
Lemma shift_put (S : pidx -> Prop) p i d p' : put_def p i d = Done p' -> S i -> shift S p p'.
Proof. intros E H. split; [exact (texts_put _ _ _ _ E)|]. apply put_spec in E as (_ & O & _). intros j e N D. rewrite O; [exact D|]. intros ->. auto. Qed.
Lemma shift_extends S p p' : extends p p' -> shift S p p'.
Proof. intros X. split; [exact (texts_extends _ _ X)|]. intros i d _. exact (extends_nth _ _ _ _ X). Qed.
Lemma shift_update (S : pidx -> Prop) p f u p' : update_function p f u = Done p' -> S f -> shift S p p'.
Proof.
  unfold update_function. destruct (pe (get_function p f)) as [x|]; [|discriminate]. cbn [obind]. destruct (pe (get_def p f)) as [d|]; [|discriminate]. cbn [obind].
  apply shift_put.
Qed.
Lemma shift_rename (S : pidx -> Prop) p f n p' : rename p f n = Done p' -> S f -> shift S p p'.
Proof. unfold rename. destruct (def_at p f); [|discriminate]. apply shift_put. Qed.
Lemma copy_locals_extends P ls : forall m p m' p', copy_locals P ls m p = Done (m', p') -> extends p p'.
Proof.
  induction ls as [|i ls IH]; intros m p m' p'; cbn [copy_locals]; [intros [= <- <-]; apply extends_refl|].
  destruct (pe (get_def p i)) as [d|]; [|discriminate]. cbn [obind]. destruct (add_definition p _) as [p1 j] eqn:E. intros C.
  exact (extends_trans _ _ _ (extends_add_definition _ _ _ _ E) (IH _ _ _ _ C)).
Qed.
Lemma shift_swap sh f P p p' : swap_proxy sh f P p = Done p' -> shift (fun i => i = f \/ i = P) p p' /\
  (f <> P -> exists d d', def_at p f = Some d /\ def_at p' f = Some d' /\ df_name d' = df_name d).
Proof.
  unfold swap_proxy. destruct (pe (get_def p f)) as [d|] eqn:D; [|discriminate]. cbn [obind]. apply def_done in D. destruct (pe (get_def p P)) as [dp|]; [|discriminate]. cbn [obind].
  destruct (update_function p f _) as [p1|] eqn:E1; [|discriminate]. cbn [obind]. destruct (remap_locals sh P f p1) as [p2|] eqn:E2; [|discriminate]. cbn [obind].
  destruct (rename p2 f _) as [p3|] eqn:E3; [|discriminate]. cbn [obind]. destruct (rename p3 P _) as [p4|] eqn:E4; [|discriminate]. cbn [obind]. intros E5.
  split.
  - eapply shift_trans; [apply (shift_update _ _ _ _ _ E1); now left|]. eapply shift_trans; [|eapply shift_trans; [apply (shift_rename _ _ _ _ _ E3); now left|eapply shift_trans; [apply (shift_rename _ _ _ _ _ E4); now right|]]].
    + unfold remap_locals in E2. destruct (pe (get_function p1 f)) as [x|]; [|discriminate]. cbn [obind] in E2. destruct (copy_locals P (fu_locals x) [] p1) as [[m q]|] eqn:C; [|discriminate]. cbn [obind] in E2.
      destruct (pe (get_function q f)) as [x2|]; [|discriminate]. cbn [obind] in E2. destruct (remap_code m (fu_code x2)) as [c|]; [|discriminate].
      eapply shift_trans; [apply shift_extends, (copy_locals_extends _ _ _ _ _ _ C)|]. apply (shift_update _ _ _ _ _ E2). now left.
    + unfold swap_definition in E5. destruct (def_at p4 f) as [a|]; [|discriminate]. destruct (def_at p4 P) as [b|]; [|discriminate]. destruct (put_def p4 f b) as [p5|] eqn:F1; [|discriminate]. cbn [obind] in E5.
      eapply shift_trans; [apply (shift_put _ _ _ _ _ F1); now left|apply (shift_put _ _ _ _ _ E5); now right].
  - intros N. destruct (swap_spec _ _ _ _ E5 N) as (A5 & _). destruct (rename_spec _ _ _ _ E4) as (d4 & _ & Y4 & _). rewrite Y4 in A5. eexists d, _. split; [exact D|]. split; [exact A5|reflexivity].
Qed.
Definition ends (p : pool) : Prop := texts p0 p /\ forall i d, def_at p0 i = Some d -> exists d', def_at p i = Some d' /\ (kept i d d' \/ wraps l p0 i /\ df_name d' = df_name d).
Lemma ends_swap sh f P p p' : swap_proxy sh f P p = Done p' -> wraps l p0 f \/ fresh f -> fresh P -> ends p -> ends p'.
Proof.
  intros E W FP (T & H). apply shift_swap in E as ((T' & SH) & NM). split; [exact (texts_trans _ _ _ T T')|]. intros i d D. destruct (H _ _ D) as (d' & D' & K).
  pose proof (old_not_fresh _ _ D) as NF. assert (NP : i <> P) by (intros ->; auto). destruct (Z.eq_dec i f) as [->|N].
  - destruct W as [W|W]; [|destruct (NF W)]. destruct (NM NP) as (e & e' & A & B & C). rewrite D' in A. injection A as <-. exists e'. split; [exact B|]. right. split; [exact W|].
    destruct K as [K|(_ & K)]; [rewrite C; exact (kept_name _ _ _ K)|congruence].
  - exists d'. split; [apply SH; [intros [X|X]; auto|exact D']|exact K].
Qed.
Lemma ends_swaps sh order : (forall k v, In (k, v) order -> (wraps l p0 k \/ fresh k) /\ fresh v) -> forall p p', swap_proxies sh order p = Done p' -> ends p -> ends p'.
Proof.
  induction order as [|[f P] order IH]; intros H p p'; cbn [swap_proxies]; [intros [= <-]; auto|].
  destruct (swap_proxy sh f P p) as [p1|] eqn:E; [|discriminate]. cbn [obind]. intros E2 S. destruct (H f P (or_introl eq_refl)) as (A & B).
  apply (IH (fun k v X => H k v (or_intror X)) _ _ E2). exact (ends_swap _ _ _ _ _ E A B S).
Qed.
Lemma ends_frame p : ends p -> frame l p0 p.
Proof.
  intros ((A & B & C & D) & H). unfold frame. split; [exact A|]. split; [exact B|]. split; [exact C|]. split; [exact D|]. intros i d X. destruct (H _ _ X) as (d' & Y & K). exists d'. split; [exact Y|].
  destruct K as [[->|k fs gs K1 -> K2 K3 K4|x x' K1 K2 K3 K4 K5]|(K1 & K2)].
  - now apply preserved_same.
  - now apply (preserved_class l p0 i d _ k fs gs).
  - now apply (preserved_replaced l p0 i d d' x x').
  - now apply preserved_wrapped.
Qed.

Lemma number_nth (ds : list definition) : forall k i d, In (i, d) (number k ds) -> (k <= Z.to_nat i)%nat /\ 0 <= i /\ nth_error ds (Z.to_nat i - k) = Some d.
Proof.
  induction ds as [|e ds IH]; intros k i d; [intros []|]. cbn [number]. intros [[= <- <-]|H].
  - rewrite Nat2Z.id, Nat.sub_diag. repeat split; lia.
  - destruct (IH _ _ _ H) as (A & B & C). split; [lia|]. split; [exact B|]. replace (Z.to_nat i - k)%nat with (S (Z.to_nat i - S k)) by lia. exact C.
Qed.
Lemma roots_at p i d : In (i, d) (roots p) -> def_at p i = Some d /\ df_parent d = UNDEFINED.
Proof.
  unfold roots. intros H. apply filter_In in H as (H & Q). apply Z.eqb_eq in Q. split; [|exact Q]. unfold definitions in H. unfold nth_def. destruct (pl_defs p) as [|e ds]; [destruct H|].
  apply number_nth in H as (A & B & C). destruct (Z.ltb_spec i 0); [lia|]. replace (Z.to_nat i) with (S (Z.to_nat i - 1)) by lia. exact C.
Qed.
Lemma table_new m : sy_new p0 = Done m -> table_ok m.
Proof.
  unfold sy_new. assert (X : forall ds m0 m, (forall x, In x ds -> In x (roots p0)) -> (forall a, m0 = Done a -> table_ok a) -> fold_left (sy_new_step p0) ds m0 = Done m -> table_ok m).
  { induction ds as [|x ds IH]; intros m0 m' S T; cbn [fold_left]; [apply T|]. apply IH; [intros y Iy; apply S; now right|]. intros a. unfold sy_new_step.
    destruct m0 as [m0|]; [|discriminate]. cbn [obind]. destruct (pe (def_name p0 (fst x))) as [n|] eqn:N; [|discriminate]. cbn [obind]. apply pe_done in N.
    destruct (root_symbol _ _) as [s|] eqn:R; [|intros [= <-]; now apply T]. intros [= <-]. apply table_put; [now apply T|].
    assert (IR : In (fst x, snd x) (roots p0)) by (rewrite <- surjective_pairing; apply S; now left). destruct (roots_at _ _ _ IR) as (D & Q).
    unfold root_symbol in R. destruct (df_value (snd x)) as [| | | | |f| | | ] eqn:V; try discriminate.
    - destruct (get_flag _ _); injection R as <-; right; eauto.
    - injection R as <-. exact I.
    - injection R as <-. cbn [entry_ok]. constructor; [|constructor]. right. exists (snd x), f. auto. }
  intros E. eapply X; [| |exact E]; [auto|]. intros a [= <-] p s [].
Qed.
Lemma inv_new st : unit_new ev p0 = Done st -> inv true st.
Proof.
  unfold unit_new. destruct (sy_new p0) as [m|] eqn:E; [|discriminate]. cbn [obind]. destruct (scope_new p0) as [s|] eqn:E2; [|discriminate]. cbn [obind].
  pose proof (table_new _ E) as T. assert (R : root_ok s).
  { revert E2. unfold scope_new. destruct (fold_left _ _ _); [|discriminate]. cbn [obind]. intros [= <-]. intros n x X. discriminate X. }
  pose proof (import_root ev FV m s Private span_zero T R) as X. destruct (populate_import _ _ _ _ _) as [s' r]. cbn [fst] in X. destruct r as [[]|]; [|discriminate]. cbn [obind].
  intros [= <-]. split; cbn; auto.
  - apply stays_start.
  - now apply root_scope.
  - intros k v [].
  - intros k v [].
  - intros _ i d F D. destruct (old_not_fresh _ _ D F).
Qed.
Lemma made_modules sg pm st fs st' : compile_modules ev sg pm l st = (Done fs, st') -> fits (us_pool st') -> inv true st ->
  made st' /\ Forall (fun f => target (cf_index f)) fs.
Proof.
  unfold compile_modules, ubind, uget. cbv beta zeta iota. change (flat_map _ l) with (module_names l). intros E F H.
  destruct (umap (declare_module pm (module_names l)) l st) as [[q|] st1] eqn:E1; [|discriminate].
  destruct (define_modules ev (module_names l) [] q st1) as [[u|] st2] eqn:E2; [|discriminate].
  destruct (ueach (compile_default ev) (us_defaults st2) st2) as [[u3|] st3] eqn:E3; [|discriminate].
  destruct (construct_proxies _ _ _ _ _) as [[s p]|] eqn:E4; [|discriminate].
  assert (E4' : (fun st => match construct_proxies (ev_files ev) (us_proxies st) (ev_wrappers ev (us_wrappers st)) (us_scope st) (us_pool st) with
                 | Done (s, p) => (Done tt, set_pool p (set_root s st))
                 | Fail e => (Fail e, st)
                 end) st3 = (Done tt, set_pool p (set_root s st3))) by (cbv beta; now rewrite E4).
  set (st4 := set_pool p (set_root s st3)) in *.
  destruct (umap (compile_body ev sg pm) (us_bodies st4) st4) as [[gs|] st5] eqn:E5; [|discriminate]. injection E as <- <-.
  assert (F4 : fits (us_pool st4)) by (apply (fun x => grown_fits _ _ x F); eapply (mono_map (compile_body ev sg pm)); [intros; apply mono_body|exact E5]).
  assert (F3 : fits (us_pool st3)) by exact (grown_fits _ _ (mono_proxies _ _ _ _ E4') F4).
  assert (F2 : fits (us_pool st2)) by (apply (fun x => grown_fits _ _ x F3); eapply (mono_each (compile_default ev)); [intros; apply mono_default|exact E3]).
  assert (F1 : fits (us_pool st1)) by exact (grown_fits _ _ (mono_modules _ _ _ _ _ _ _ E2) F2).
  assert (H1 : holds (inv true) (umap (declare_module pm (module_names l)) l) (Forall (fun x => Forall slot_ok (snd x)))).
  { apply holds_map; [intros; unfold declare_module; mono; apply mono_entry|]. intros m Im. now apply holds_declare. }
  destruct (H1 _ _ _ E1 F1 H) as (I1 & Q). apply holds_first in I1. specialize (Q _ eq_refl).
  destruct (holds_modules _ _ Q _ _ _ _ E2 F2 I1) as (I2 & _).
  assert (H3 : holds (inv false) (ueach (compile_default ev) (us_defaults st2)) (fun _ => True)).
  { apply holds_each; [intros; apply mono_default|]. intros x Ix. apply holds_default. pose proof (iv_defaults _ _ I2) as D. rewrite Forall_forall in D. exact (D _ Ix). }
  destruct (H3 _ _ _ E3 F3 I2) as (I3 & _). pose proof (made_proxies _ _ _ E4' I3) as M4.
  assert (H5 : holds made (umap (compile_body ev sg pm) (us_bodies st4)) (Forall (Forall (fun f => target (cf_index f))))).
  { apply holds_map; [intros; apply mono_body|]. intros x Ix. apply made_body. pose proof (md_bodies _ M4) as D. rewrite Forall_forall in D. exact (D _ Ix). }
  destruct (H5 _ _ _ E5 F M4) as (M5 & G). split; [exact M5|]. apply Forall_concat. exact (G _ eq_refl).
Qed.
Theorem assemble_frame st0 sg pm fs st p : unit_new ev p0 = Done st0 -> compile_modules ev sg pm l st0 = (Done fs, st) -> assemble_all ev fs st = Done p ->
  fits (us_pool st) -> frame l p0 p.
Proof.
  intros E0 E1 E2 F. destruct (made_modules _ _ _ _ _ E1 F (inv_new _ E0)) as ([M1 M2 M3] & G). unfold assemble_all in E2.
  destruct (install_all ev fs (us_pool st)) as [q|] eqn:E3; [|discriminate]. cbn [obind] in E2. pose proof (stays_installs _ G _ _ E3 M1) as (T & S).
  apply ends_frame. eapply ends_swaps; [|exact E2|].
  2: { split; [exact T|]. intros i d D. destruct (S _ _ D) as (d' & A & B). exists d'. auto. }
  intros k v X. apply (Permutation_in _ (proj1 (proj2 (proj2 FV)) _)) in X. destruct (M2 _ _ X) as ((d & _ & W) & FR). split; [tauto|exact FR].
Qed.
Lemma assemble_grows fs st p : assemble_all ev fs st = Done p -> grown (us_pool st) p.
Proof.
  unfold assemble_all. destruct (install_all ev fs (us_pool st)) as [q|] eqn:E; [|discriminate]. cbn [obind]. intros E2. apply swap_proxies_grows in E2 as (A & B).
  assert (G : forall fs p p', install_all ev fs p = Done p' -> grown p p').
  { clear. induction fs as [|f fs IH]; intros p p'; cbn [install_all]; [intros [= <-]; apply grown_refl|]. destruct (install _ _ _ _ _ p) as [q|] eqn:E; [|discriminate]. cbn [obind].
    intros E2. eapply grown_trans; [|exact (IH _ _ E2)]. unfold install in E. destruct (from_body _ _ _ p) as [[[c s1] p1]|] eqn:E1; [|discriminate]. cbn [obind] in E.
    eapply grown_trans; [exact (grown_tidy _ _ (tidy_body _ _ _ _ _ _ _ E1))|]. destruct (update_spec _ _ _ _ E) as (d & x & _ & _ & _ & _ & N & S). split; [lia|rewrite N; apply prefix_refl]. }
  eapply grown_trans; [exact (G _ _ _ E)|]. split; [exact A|rewrite B; apply prefix_refl].
Qed.
End Env2.
End Frame.
