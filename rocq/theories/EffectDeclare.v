(** Declarations take effect: the first pass over the modules, in which everything
    gets its place. *)
From Coq Require Import String.
From Coq Require Import ZArith List Bool Lia Permutation.
From Verif Require Import Bytes Bytecode Definitions Bundle BundleFacts Ast TypeNames Pool Scope TypeCheck Symbols SourceMap Cursor Assembler
  Desugar Diagnostics Report Printer PoolSpec PoolFacts TypeIndexSpec TypeIndexFacts Wrappers WrapSpec WrapFacts WrapSteps TidyFacts Unit UnitSpec UnitSteps UnitFacts
  P_Symbols P_Reproducible EffectSpec EffectFacts EffectDefine.
Import ListNotations.
Open Scope Z_scope.

(** * Going through all entries *)
Lemma back_entry mods m e : back (declare_entry false mods m e).
Proof. apply back_of; [apply mono_entry|apply quiet_entry]. Qed.
Lemma back_declare mods m : back (declare_module false mods m).
Proof. intros st a st' E S. apply bind_done in E as (x & st1 & E1 & E). injection E as _ <-. exact (back_map _ _ (back_entry mods (path_of m)) _ _ _ E1 S). Qed.
Section Drive.
Variables (mods : list module_path) (J : list slot -> ustate -> Prop) (R : module_path -> source_entry -> slot -> pool -> Prop) (ok : source_entry -> Prop).
Hypothesis R_onto : forall m e s p q, onto true none p q -> R m e s p -> R m e s q.
Hypothesis HS : forall m e S st s st', ok e -> J S st -> define_symbol false e m st = (Done s, st') -> safe st' ->
  J (S ++ [s]) st' /\ R m e s (us_pool st') /\ onto true none (us_pool st) (us_pool st').
Let here (e : source_entry) : Prop := eval_conditions mods (dc_annotations (entry_decl e)) = Done true.
Lemma drive_entries m es : forall S st rs st', (forall e, In e es -> here e -> ok e) -> umap (declare_entry false mods m) es st = (Done rs, st') -> safe st' -> J S st ->
  J (S ++ concat rs) st' /\ onto true none (us_pool st) (us_pool st') /\ Forall2 (fun e s => R m e s (us_pool st')) (enabled_entries mods es) (concat rs).
Proof.
  induction es as [|e es IH]; intros S st rs st' OK E SF H.
  - injection E as <- <-. cbn [concat]. rewrite app_nil_r. split; [exact H|]. split; [apply onto_refl|constructor].
  - cbn [umap] in E. apply bind_done in E as (r & st1 & E1 & E). apply bind_done in E as (rs' & st2 & E2 & E). injection E as <- <-.
    pose proof (back_map _ es (back_entry mods m) _ _ _ E2 SF) as S1. cbn [concat]. unfold enabled_entries. cbn [filter].
    destruct (entry_done _ _ _ _ _ _ _ E1 (proj2 S1)) as [(F & -> & ->)|(s & T & D & ->)].
    + cbn [app]. rewrite F. exact (IH _ _ _ _ (fun e' I => OK e' (or_intror I)) E2 SF H).
    + destruct (HS _ _ _ _ _ _ (OK e (or_introl eq_refl) T) H D S1) as (J1 & R1 & O1). rewrite T.
      destruct (IH _ _ _ _ (fun e' I => OK e' (or_intror I)) E2 SF J1) as (A & B & C). rewrite <- app_assoc in A. split; [exact A|].
      split; [exact (onto_trans _ _ _ _ _ O1 B)|]. cbn [app]. constructor; [exact (R_onto _ _ _ _ _ B R1)|exact C].
Qed.
Lemma drive_modules l : forall S st q st', (forall m e, In m l -> In e (sm_entries m) -> here e -> ok e) -> umap (declare_module false mods) l st = (Done q, st') -> safe st' -> J S st ->
  J (S ++ flat_map snd q) st' /\ onto true none (us_pool st) (us_pool st') /\
  Forall2 (fun m x => fst x = m /\ Forall2 (fun e s => R (path_of m) e s (us_pool st')) (enabled_entries mods (sm_entries m)) (snd x)) l q.
Proof.
  induction l as [|m l IH]; intros S st q st' OK E SF H.
  - injection E as <- <-. cbn [flat_map]. rewrite app_nil_r. split; [exact H|]. split; [apply onto_refl|constructor].
  - cbn [umap] in E. apply bind_done in E as (r & st1 & E1 & E). apply bind_done in E as (rs' & st2 & E2 & E). injection E as <- <-.
    pose proof (back_map _ l (back_declare mods) _ _ _ E2 SF) as S1. unfold declare_module in E1. apply bind_done in E1 as (slots & st0 & E0 & E1). injection E1 as <- <-.
    destruct (drive_entries _ _ _ _ _ _ (fun e I => OK m e (or_introl eq_refl) I) E0 S1 H) as (J1 & O1 & C1).
    destruct (IH _ _ _ _ (fun m' e I => OK m' e (or_intror I)) E2 SF J1) as (J2 & O2 & C2). cbn [flat_map snd]. rewrite <- app_assoc in J2. split; [exact J2|].
    split; [exact (onto_trans _ _ _ _ _ O1 O2)|]. constructor; [|exact C2]. split; [reflexivity|]. cbn [snd]. apply (Forall2_weaken _ _ _ _ C1). intros e s _ Y. exact (R_onto _ _ _ _ _ O2 Y).
Qed.
End Drive.

(** * One declaration *)
Section Place.
Variable l : list source_module.
Variable p0 : pool.
Hypothesis PR : proper p0.

Definition placed (path : module_path) (e : source_entry) (s : slot) (p : pool) : Prop :=
  match e with
  | EntryClass b src => exists i, s = SlotClass b i src (visibility_of (dc_qualifiers (cs_decl src))) /\ def_name p i = Done (path_render (with_child path (dc_name (cs_decl src))))
  | EntryEnum src => exists i, s = SlotEnum i src /\ def_name p i = Done (path_render (with_child path (dc_name (es_decl src))))
  | EntryLet src => exists i, s = SlotField i src (visibility_of (dc_qualifiers (fd_decl src)))
  | EntryFunction src =>
    let v := visibility_of (dc_qualifiers (fs_decl src)) in
    let sig := source_signature src in
    match find places (dc_annotations (fs_decl src)) with
    | None => exists f, s = SlotFunction f UNDEFINED None None false src v /\ def_name p f = Done (path_render (with_child path sig))
    | Some a =>
      match an_kind a with
      | AReplaceGlobal => exists f, s = SlotFunction f UNDEFINED None None true src v /\ def_name p f = Done sig /\ (fresh p0 f \/ global p0 f)
      | AReplaceMethod => exists n c f base, s = SlotFunction f c base None true src v /\ ann_ident a = Done n /\ goes_by p0 c n /\ def_name p f = Done sig /\
          (fresh p0 f \/ member p0 c f /\ exists x, get_function p0 f = Done x /\ base = fu_base_method x)
      | AAddMethod => exists n c f base, s = SlotFunction f c base None false src v /\ ann_ident a = Done n /\ goes_by p0 c n /\ member p c f /\ def_name p f = Done sig /\
          overrides p0 p c sig base
      | _ => False
      end
    end
  end.
Lemma overrides_onto b T p q c sig base : onto b T p q -> overrides p0 p c sig base -> overrides p0 q c sig base.
Proof.
  intros O (k & K & H). exists k. split; [exact K|]. destruct base as [f|]; [|exact H]. destruct H as (kb & B & I & N).
  destruct (onto_class _ _ _ _ _ _ O B) as (fs & gs & _ & B'). eexists. split; [exact B'|]. split; [cbn; apply in_or_app; now left|exact (onto_name _ _ _ _ _ _ O N)].
Qed.
Lemma placed_onto m e s p q : onto true none p q -> placed m e s p -> placed m e s q.
Proof.
  intros O. destruct e as [b src|src|src|src]; cbn [placed].
  - intros (i & A & B). exists i. split; [exact A|exact (onto_name _ _ _ _ _ _ O B)].
  - destruct (find _ _) as [a|]; [destruct (an_kind a); try contradiction|].
    + intros (n & c & f & base & A & B & C & D & E). exists n, c, f, base. repeat split; auto. exact (onto_name _ _ _ _ _ _ O D).
    + intros (f & A & B & C). exists f. repeat split; auto. exact (onto_name _ _ _ _ _ _ O B).
    + intros (n & c & f & base & A & B & C & D & E & F). exists n, c, f, base. split; [exact A|]. split; [exact B|]. split; [exact C|].
      split; [exact (onto_member _ _ _ _ _ _ O D)|]. split; [exact (onto_name _ _ _ _ _ _ O E)|exact (overrides_onto _ _ _ _ _ _ _ O F)].
    + intros (f & A & B). exists f. split; [exact A|exact (onto_name _ _ _ _ _ _ O B)].
  - exact (fun X => X).
  - intros (i & A & B). exists i. split; [exact A|exact (onto_name _ _ _ _ _ _ O B)].
Qed.

Definition functions (S : list slot) : list pidx := flat_map slot_function S.
Definition plain_slot (p : pool) (s : slot) : Prop :=
  match s with
  | SlotFunction _ _ _ w _ _ _ => w = None
  | SlotField i src _ => def_name p i = Done (dc_name (fd_decl src))
  | _ => True
  end.
Definition has_place (p : pool) (s : slot) : Prop := exists d, def_at p (slot_index s) = Some d /\ no_class d.
(** What is replaced was there before. *)
Definition old_slot (s : slot) : Prop := match s with SlotFunction f _ _ _ true _ _ => ~ fresh p0 f | _ => True end.
Record core (S : list slot) (st : ustate) : Prop := Core {
  co_inv : inv l p0 true st;
  co_good : good st;
  co_root : rooted st;
  co_onto : onto true none p0 (us_pool st);
  co_index : Forall (fun s => slot_index s < size (us_pool st)) S;
  co_fresh : Forall (fun s => slot_function s = [] -> fresh p0 (slot_index s)) S;
  co_members : forall c f, member (us_pool st) c f -> fresh p0 f -> In f (functions S);
  co_scope : forall n fs x, am_find (sc_symbols (us_scope st)) n = Some (SFunctions fs) -> In x fs -> fresh p0 (fst x) -> In (fst x) (functions S);
  co_places : NoDup (functions S) -> NoDup (map slot_index S) /\ Forall (has_place (us_pool st)) S /\ Forall old_slot S;
  co_plain : Forall (plain_slot (us_pool st)) S;
  co_ledger : us_bodies st = [] /\ us_defaults st = [] }.

Lemma core_diags S st ds : core S st -> core S (set_diags ds st).
Proof. intros [A1 [G1 G2 G3 G4] A3 A4 A5 A6 A7 A8 A9 A10 A11]. constructor; auto; [exact (inv_diags _ _ _ _ _ A1)|now constructor]. Qed.
Lemma functions_app a b : functions (a ++ b) = functions a ++ functions b.
Proof. apply flat_map_app. Qed.
Lemma function_index s f : In f (slot_function s) -> f = slot_index s.
Proof. destruct s; cbn; intros []; [auto|contradiction]. Qed.
Lemma function_slot s : slot_function s = [] \/ slot_function s = [slot_index s].
Proof. destruct s; cbn; auto. Qed.
Lemma NoDup_snoc (a : list Z) x : NoDup a -> ~ In x a -> NoDup (a ++ [x]).
Proof.
  induction 1 as [|y a N H IH]; intros X; cbn [app]; [constructor; [intros []|constructor]|]. constructor; [|apply IH; intros Y; apply X; now right].
  intros Y. apply in_app_or in Y as [Y|[->|[]]]; [contradiction|]. apply X. now left.
Qed.
Lemma has_onto p q s : onto true none p q -> has_place p s -> has_place q s.
Proof. intros O (d & D & N). exists d. split; [|exact N]. exact (onto_at _ _ _ _ _ _ O D (fun X => X) N). Qed.
Lemma plain_onto p q s : onto true none p q -> plain_slot p s -> plain_slot q s.
Proof. intros O. destruct s; cbn; auto. intros N. exact (onto_name _ _ _ _ _ _ O N). Qed.

Lemma core_new S st st' s k : core S st -> inv l p0 true st' -> good st' -> onto true none (us_pool st) (us_pool st') -> sc_types (us_scope st') = sc_types (us_scope st) ->
  slot_index s = size (us_pool st) -> def_at (us_pool st') (slot_index s) = Some (stub k) ->
  (forall c f, member (us_pool st') c f -> member (us_pool st) c f \/ In f (slot_function s)) ->
  (forall n fs x, am_find (sc_symbols (us_scope st')) n = Some (SFunctions fs) -> In x fs ->
     (exists gs, am_find (sc_symbols (us_scope st)) n = Some (SFunctions gs) /\ In x gs) \/ In (fst x) (slot_function s)) ->
  old_slot s -> plain_slot (us_pool st') s -> us_bodies st' = us_bodies st /\ us_defaults st' = us_defaults st -> core (S ++ [s]) st'.
Proof.
  intros [C1 C2 C3 C4 C5 C6 C7 C8 C9 C10 C11] I G O T IX D M R OS P (B1 & B2). pose proof (proj2 (at_bounds _ _ _ D)) as LT. pose proof (proj1 C4) as SZ. pose proof (proj1 O) as SO. split.
  - exact I.
  - exact G.
  - intros n i F. apply (onto_name _ _ _ _ _ _ O). apply C3. now rewrite <- T.
  - exact (onto_trans _ _ _ _ _ C4 O).
  - apply Forall_app. split; [|constructor; [exact LT|constructor]]. eapply Forall_impl; [|exact C5]. cbv beta. intros. lia.
  - apply Forall_app. split; [exact C6|]. constructor; [|constructor]. intros _. unfold fresh. lia.
  - intros c f X Y. rewrite functions_app. apply in_or_app. destruct (M _ _ X) as [Z|Z]; [left; exact (C7 _ _ Z Y)|right]. unfold functions. cbn [flat_map]. now rewrite app_nil_r.
  - intros n fs x X Y Z. rewrite functions_app. apply in_or_app. destruct (R _ _ _ X Y) as [(gs & W1 & W2)|W]; [left; exact (C8 _ _ _ W1 W2 Z)|right]. unfold functions. cbn [flat_map].
    now rewrite app_nil_r.
  - intros N. rewrite functions_app in N. apply NoDup_app_l in N as (N & _ & _). destruct (C9 N) as (X & Y & W). rewrite map_app. split; [|split].
    + cbn [map]. apply NoDup_snoc; [exact X|]. intros Z. apply in_map_iff in Z as (s' & E & Z). rewrite Forall_forall in C5. apply C5 in Z. lia.
    + apply Forall_app. split; [eapply Forall_impl; [|exact Y]; intros s'; apply (has_onto _ _ _ O)|]. constructor; [|constructor]. eexists. split; [exact D|]. intros ?; discriminate.
    + apply Forall_app. split; [exact W|]. constructor; [exact OS|constructor].
  - apply Forall_app. split; [eapply Forall_impl; [|exact C10]; intros s'; apply (plain_onto _ _ _ O)|]. constructor; [exact P|constructor].
  - destruct C11. split; congruence.
Qed.
Lemma core_old S st s f : core S st -> slot_index s = f -> slot_function s = [f] -> plain_slot (us_pool st) s ->
  (exists d, def_at (us_pool st) f = Some d) -> In f (functions S) \/ (~ fresh p0 f /\ has_place (us_pool st) s) -> core (S ++ [s]) st.
Proof.
  intros [C1 C2 C3 C4 C5 C6 C7 C8 C9 C10 C11] IX FX P (d & D) H. pose proof (proj2 (at_bounds _ _ _ D)) as LT. split; auto.
  - apply Forall_app. split; [exact C5|]. constructor; [rewrite IX; exact LT|constructor].
  - apply Forall_app. split; [exact C6|]. constructor; [rewrite FX; discriminate|constructor].
  - intros c g X Y. rewrite functions_app. apply in_or_app. left. exact (C7 _ _ X Y).
  - intros n fs x X Y Z. rewrite functions_app. apply in_or_app. left. exact (C8 _ _ _ X Y Z).
  - intros N. rewrite functions_app in N. unfold functions at 2 in N. cbn [flat_map] in N. rewrite FX, app_nil_r in N. apply NoDup_app_l in N as (N & _ & N3).
    destruct H as [H|(NF & HP)]; [destruct (N3 _ H); now left|]. destruct (C9 N) as (X & Y & W). rewrite map_app. split; [|split].
    + cbn [map]. apply NoDup_snoc; [exact X|]. intros Z. apply in_map_iff in Z as (s' & E & Z). destruct (function_slot s') as [FS|FS].
      * rewrite Forall_forall in C6. apply (C6 _ Z) in FS. apply NF. congruence.
      * apply (N3 f); [|now left]. apply in_flat_map. exists s'. split; [exact Z|]. rewrite FS. left. congruence.
    + apply Forall_app. split; [exact Y|]. now constructor.
    + apply Forall_app. split; [exact W|]. constructor; [|constructor]. destruct s; cbn; auto. destruct is_replacement; [cbn in IX; rewrite IX; exact NF|exact I].
  - apply Forall_app. split; [exact C10|]. now constructor.
Qed.

Lemma stub_calm n st i st' : new_stub n st = (Done i, st') -> calm (us_pool st) (us_pool st').
Proof.
  intros E. apply bind_done in E as (a & st1 & A & B). unfold name_index, new_definition, on_pool in *. destruct (add_name (us_pool st) n) as [p1 k] eqn:E1.
  destruct (add_definition _ _) as [p2 j] eqn:E2. injection A as <- <-. injection B as _ <-. cbn [set_pool us_pool] in *.
  eapply calm_trans; [exact (calm_name _ _ _ _ E1)|]. apply (calm_def _ _ _ _ E2). split; intros ?; discriminate.
Qed.
Lemma calm_member p q c f : calm p q -> member q c f -> member p c f.
Proof.
  intros (_ & C) (k & K & I). exists k. split; [|exact I]. apply class_at in K as (d & D & V). apply class_at. destruct (C _ _ D) as [X|(X & _)]; [eauto|destruct (X _ V)].
Qed.
Lemma stub_root n st i st' : new_stub n st = (Done i, st') -> us_scope st' = us_scope st.
Proof.
  intros E. apply bind_done in E as (a & st1 & A & B). unfold name_index, new_definition, on_pool in *. destruct (add_name (us_pool st) n) as [p1 k] eqn:E1.
  destruct (add_definition _ _) as [p2 j] eqn:E2. injection A as _ <-. now injection B as _ <-.
Qed.
Lemma onto_class_back b p q c d k : onto b none p q -> def_at p c = Some d -> get_class q c = Done k -> exists k0, get_class p c = Done k0 /\ cl_base k = cl_base k0.
Proof.
  intros (_ & _ & O) D K. apply class_at in K as (d' & D' & V). destruct (O _ _ D) as (e & E & _ & [L|([] & _)]). assert (e = d') by congruence. subst e.
  destruct L as [->|k0 fs gs V0 -> _].
  - exists k. split; [apply class_at; eauto|reflexivity].
  - exists k0. split; [apply class_at; eauto|]. cbn [with_value df_value] in V. injection V as <-. reflexivity.
Qed.
Lemma signature_spec p sig fs : forall o, find_signature p sig fs = Done o ->
  match o with Some f => In f fs /\ def_name p f = Done sig | None => forall f, In f fs -> def_name p f <> Done sig end.
Proof.
  induction fs as [|f fs IH]; intros o; cbn [find_signature]; [intros [= <-] f []|]. destruct (def_name p f) as [n|] eqn:N; [|discriminate].
  destruct (str_eqb_spec n sig) as [->|NE]; [intros [= <-]; split; [now left|exact N]|]. intros E. apply IH in E. destruct o as [g|]; [destruct E; split; [now right|assumption]|].
  intros g [<-|I]; [congruence|now apply E].
Qed.
Lemma ann_class_spec st a c : inv l p0 true st -> ann_class a st = Done c -> exists n, ann_ident a = Done n /\ (fresh p0 c \/ goes_by p0 c n).
Proof.
  intros H. unfold ann_class. destruct (ann_ident a) as [n|]; [|discriminate]. cbn [obind]. unfold resolve_symbol.
  destruct (am_find (sc_symbols (us_scope st)) n) as [s|] eqn:G; [|discriminate]. cbn [with_span map_err obind]. apply (iv_root _ _ _ _ H) in G.
  intros X. exists n. split; [reflexivity|]. destruct s; try discriminate; injection X as <-; (destruct G as [(G & _)|G]; [now left|right; exact G]).
Qed.
Lemma old_function f d x : onto true none p0 d -> def_at p0 f = Some x -> no_class x -> def_at d f = Some x.
Proof. intros O D N. exact (onto_at _ _ _ _ _ _ O D (fun X => X) N). Qed.

Lemma place_step src m S st s st' : declares l (EntryFunction src) -> (forall a, find places (dc_annotations (fs_decl src)) = Some a -> an_kind a <> AWrapMethod) ->
  core S st -> place_function src m st = (Done s, st') -> safe st' -> inv l p0 true st' ->
  core (S ++ [s]) st' /\ placed m (EntryFunction src) s (us_pool st') /\ onto true none (us_pool st) (us_pool st').
Proof.
  intros DE NW C E SF I'. unfold place_function in E. cbn [placed]. destruct (find places _) as [a|] eqn:FP.
  - apply find_some in FP as (Ia & Pa). specialize (NW a eq_refl). unfold place_annotated in E. cbv zeta in E. destruct (an_kind a) eqn:KA; try (unfold places in Pa; rewrite KA in Pa; discriminate); [| congruence | |].
    + (* @replaceMethod *)
      apply bind_done in E as (c & st1 & E1 & E). injection E1 as E1 <-. apply bind_done in E as (f & st1 & E2 & E). injection E2 as E2 <-.
      apply bind_done in E as (p & st1 & E3 & E). injection E3 as <- <-. injection E as <- <-. destruct (ann_class_spec _ _ _ (co_inv _ _ C) E1) as (n & AN & G).
      unfold ann_method in E2. destruct (resolve_direct_method _ _ _) as [fs|] eqn:RD; [|discriminate]. destruct (by_id _ _ _) as [g|] eqn:BI; [|discriminate]. injection E2 as ->.
      destruct (found_method _ _ _ _ _ _ RD BI) as (M & N).
      destruct (old_class _ _ _ _ _ (iv_stays _ _ _ _ (co_inv _ _ C)) (iv_first _ _ _ _ (co_inv _ _ C) eq_refl) G _ M (named_at _ _ _ N)) as (Gn & Or).
      assert (OL : member p0 c f -> exists d x, def_at p0 f = Some d /\ df_value d = DFunction x /\ def_at (us_pool st) f = Some d).
      { intros M0. destruct (proj2 PR _ _ M0) as (d & x & D & V & _). exists d, x. split; [exact D|]. split; [exact V|]. apply (old_function _ _ _ (co_onto _ _ C) D). intros k; congruence. }
      split; [|split; [|apply onto_refl]].
      * apply (core_old _ _ _ f C); [reflexivity|reflexivity|reflexivity|destruct (name_def _ _ _ N); eauto|]. destruct Or as [(FR & _)|M0].
        -- left. exact (co_members _ _ C _ _ M FR).
        -- right. destruct (OL M0) as (d & x & D & V & D'). split; [exact (old_not_fresh _ _ _ D)|]. exists d. split; [exact D'|]. intros k; congruence.
      * exists n, c, f, (base_method_of (us_pool st) f). split; [reflexivity|]. split; [exact AN|]. split; [exact Gn|]. split; [exact N|]. destruct Or as [(FR & _)|M0]; [now left|right].
        split; [exact M0|]. destruct (OL M0) as (d & x & D & V & D'). exists x. split; [apply function_at; eauto|]. unfold base_method_of.
        assert (X : get_function (us_pool st) f = Done x) by (apply function_at; eauto). now rewrite X.
    + (* @replaceGlobal *)
      apply bind_done in E as (fs & st1 & E1 & E). injection E1 as E1 <-. apply bind_done in E as (f & st1 & E2 & E). injection E2 as E2 <-. injection E as <- <-.
      destruct (by_id _ _ _) as [g|] eqn:BI; [|discriminate]. injection E2 as ->. unfold by_id in BI. apply find_some in BI as (B1 & B2).
      destruct (def_name (us_pool st) f) as [nm|] eqn:N; [|discriminate]. destruct (str_eqb_spec nm (source_signature src)) as [->|]; [|discriminate].
      unfold resolve_function in E1. destruct (am_find _ _) as [[]|] eqn:A; try discriminate. cbn [with_span map_err] in E1. injection E1 as <-.
      apply in_map_iff in B1 as (y & Y1 & Y2). pose proof (iv_root _ _ _ _ (co_inv _ _ C) _ _ A) as RO. cbn [entry_ok] in RO. rewrite Forall_forall in RO. pose proof (RO _ Y2) as OR. rewrite Y1 in OR.
      split; [|split; [|apply onto_refl]].
      * apply (core_old _ _ _ f C); [reflexivity|reflexivity|reflexivity|destruct (name_def _ _ _ N); eauto|]. destruct OR as [FR|(d & x & D & V & _)].
        -- left. rewrite <- Y1 in *. exact (co_scope _ _ C _ _ _ A Y2 FR).
        -- right. split; [exact (old_not_fresh _ _ _ D)|]. exists d. split; [|intros k; congruence]. apply (old_function _ _ _ (co_onto _ _ C) D). intros k; congruence.
      * exists f. auto.
    + (* @addMethod *)
      apply bind_done in E as (c & st1 & E1 & E). injection E1 as E1 <-. apply bind_done in E as (clash & st1 & E2 & E). injection E2 as _ <-.
      apply bind_done in E as (u & st1 & E3 & E). apply bind_done in E as (base & st2 & E4 & E). injection E4 as E4 <-. apply bind_done in E as (f & st2 & E5 & E).
      apply bind_done in E as (u6 & st3 & E6 & E). injection E as <- <-.
      unfold change_pool, on_pool in E6. destruct (push_member (us_pool st2) c f) as [p3|] eqn:PM; [|discriminate]. cbn [obind] in E6. injection E6 as _ <-.
      assert (S2 : safe st2) by (destruct SF as (F & DD); split; [exact (grown_fits _ _ (grown_push _ _ _ _ PM) F)|exact DD]). pose proof (back_stub _ _ _ _ E5 S2) as S1.
      assert (exists ds, st1 = set_diags ds st) as (ds & ->) by (destruct clash; injection E3 as _ <-; [eauto|exists (us_diags st); now destruct st]).
      apply core_diags with (ds := ds) in C. change (us_pool st) with (us_pool (set_diags ds st)) in |- *. change (ann_class a (set_diags ds st) = Done c) in E1. clear E3. set (sd := set_diags ds st) in *. clearbody sd. clear st. rename sd into st.
      destruct (run_stub _ _ _ _ E5 S2 (co_good _ _ C)) as (P5 & G5 & M5 & -> & (k & D5) & N5). pose proof (onto_first _ _ _ (sg_pool _ _ _ P5)) as O5.
      pose proof (onto_push none _ _ _ _ PM) as O6. destruct (push_spec _ _ _ _ PM) as (NM6 & _ & OT6 & dc & kc & DC & VC & _).
      assert (NC : c <> size (us_pool st)) by (intros ->; rewrite D5 in DC; injection DC as <-; discriminate).
      assert (O : onto true none (us_pool st) p3) by exact (onto_trans _ _ _ _ _ O5 O6).
      destruct (ann_class_spec _ _ _ (co_inv _ _ C) E1) as (n & AN & G).
      unfold overridden in E4. destruct (pe (get_class (us_pool st) c)) as [kk|] eqn:KK; [|discriminate]. cbn [obind] in E4. apply pe_done in KK.
      assert (Gn : goes_by p0 c n) by (destruct G as [FR|G]; [destruct (bare_class _ _ _ _ (iv_first _ _ _ _ (co_inv _ _ C) eq_refl) FR KK)|exact G]).
      split; [|split; [|exact O]].
      * eapply (core_new S st (set_pool p3 st2) _ k C I'); cbn [slot_index slot_function old_slot plain_slot set_pool us_pool us_scope us_bodies us_defaults]; auto.
        -- apply (good_pool true none _ _ O6); [|exact G5]. unfold names_ok. rewrite NM6. exact (gd_names _ G5).
        -- now rewrite (stub_root _ _ _ _ E5).
        -- rewrite OT6 by congruence. exact D5.
        -- intros c' f' M. apply (push_member_iff _ _ _ _ PM) in M as [M|(-> & ->)]; [left|right; now left]. exact (calm_member _ _ _ _ (stub_calm _ _ _ _ E5) M).
        -- intros n' fs x X Y. left. rewrite (stub_root _ _ _ _ E5) in X. eauto.
        -- exact (stub_ledger _ _ _ _ E5).
      * exists n, c, (size (us_pool st)), base. split; [reflexivity|]. split; [exact AN|]. split; [exact Gn|]. cbn [set_pool us_pool].
        split; [apply (push_member_iff _ _ _ _ PM); now right|]. split; [exact (onto_name _ _ _ _ _ _ O6 N5)|]. apply (overrides_onto _ _ _ _ _ _ _ O).
        destruct Gn as (full & DN & _). destruct (name_def _ _ _ DN) as (d0 & D0). destruct (onto_class_back _ _ _ _ _ _ (co_onto _ _ C) D0 KK) as (k0 & K0 & BE).
        exists k0. split; [exact K0|]. rewrite <- BE. destruct (Z.eqb_spec (cl_base kk) UNDEFINED) as [EU|NU]; [injection E4 as <-; now left|].
        destruct (pe (get_class (us_pool st) (cl_base kk))) as [kb|] eqn:KB; [|discriminate]. cbn [obind] in E4. apply pe_done in KB. apply signature_spec in E4.
        destruct base as [g|]; [exists kb; destruct E4; auto|]. right. intros g b0 GB IG NG. destruct (onto_class _ _ _ _ _ _ (co_onto _ _ C) GB) as (fs & gs & _ & KB').
        rewrite KB in KB'. injection KB' as ->. apply (E4 g); [cbn; apply in_or_app; now left|]. exact (onto_name _ _ _ _ _ _ (co_onto _ _ C) NG).
  - (* no annotation *)
    cbv zeta in E. apply bind_done in E as (f & st1 & E1 & E). apply bind_done in E as (u2 & st2 & E2 & E). injection E2 as _ <-. apply bind_done in E as (u3 & st3 & E3 & E). injection E as <- <-.
    assert (X3 : us_pool st3 = us_pool st1 /\ us_bodies st3 = us_bodies st1 /\ us_defaults st3 = us_defaults st1 /\ us_module st3 = us_module st1 /\ us_diags st3 = us_diags st1 /\
      us_scope st3 = if is_nil m then sc_add_symbol (us_scope st1) (dc_name (fs_decl src)) (SFunctions [(f, visibility_of (dc_qualifiers (fs_decl src)))]) else us_scope st1)
      by (destruct (is_nil m); injection E3 as _ <-; cbn; auto 10).
    destruct X3 as (Q1 & Q2 & Q3 & Q4 & Q5 & Q6). assert (S1 : safe st1) by (destruct SF; split; congruence).
    destruct (run_stub _ _ _ _ E1 S1 (co_good _ _ C)) as (P1 & G1 & M1 & -> & (k & D1) & N1). pose proof (onto_first _ _ _ (sg_pool _ _ _ P1)) as O1.
    assert (ADD : forall sc n v i n' fs x, am_find (sc_symbols (sc_add_symbol sc n (SFunctions [(i, v)]))) n' = Some (SFunctions fs) -> In x fs ->
      (exists gs, am_find (sc_symbols sc) n' = Some (SFunctions gs) /\ In x gs) \/ fst x = i).
    { intros sc n v i n' fs x X Y. apply add_cases in X as [(_ & X)|(<- & [X|(xa & xb & XA & XB & X)])]; [left; eauto| |].
      - injection X as ->. destruct Y as [<-|[]]. now right.
      - injection X as ->. injection XB as <-. apply in_app_or in Y as [Y|[<-|[]]]; [left; eauto|now right]. }
    split; [|split; [|rewrite Q1; exact O1]].
    + eapply (core_new S st st3 _ k C I'); cbn [slot_index slot_function old_slot plain_slot]; rewrite ?Q1, ?Q2, ?Q3; auto.
      * apply (good_same st1); auto.
      * rewrite Q6, (stub_root _ _ _ _ E1). destruct (is_nil m); [|reflexivity].
        pose proof (add_visible_types Private (us_scope st) (dc_name (fs_decl src)) (SFunctions [(size (us_pool st), Public)])) as X.
        unfold sc_add_symbol. destruct (am_find _ _) as [[]|]; reflexivity.
      * intros c f M. left. exact (calm_member _ _ _ _ (stub_calm _ _ _ _ E1) M).
      * intros n fs x X Y. rewrite Q6, (stub_root _ _ _ _ E1) in X. destruct (is_nil m); [|left; eauto]. destruct (ADD _ _ _ _ _ _ _ X Y) as [Z|Z]; [now left|right; now left].
      * exact (stub_ledger _ _ _ _ E1).
    + exists (size (us_pool st)). split; [reflexivity|]. now rewrite Q1.
Qed.

Lemma scope_types sc n s : sc_types (sc_add_symbol sc n s) = sc_types sc.
Proof. unfold sc_add_symbol. destruct s; try reflexivity. destruct (am_find _ _) as [[]|]; reflexivity. Qed.
Lemma scope_old sc n s n' fs (x : pidx * visibility) : (forall gs, s <> SFunctions gs) -> am_find (sc_symbols (sc_add_symbol sc n s)) n' = Some (SFunctions fs) -> In x fs ->
  exists gs, am_find (sc_symbols sc) n' = Some (SFunctions gs) /\ In x gs.
Proof.
  intros NF X Y. apply add_cases in X as [(_ & X)|(<- & [X|(xa & xb & XA & XB & X)])]; [eauto| |]; [destruct (NF fs); congruence|destruct (NF xb); congruence].
Qed.
Lemma symbol_step e m S st s st' : declares l e ->
  (forall src a, e = EntryFunction src -> find places (dc_annotations (fs_decl src)) = Some a -> an_kind a <> AWrapMethod) ->
  core S st -> define_symbol false e m st = (Done s, st') -> safe st' ->
  core (S ++ [s]) st' /\ placed m e s (us_pool st') /\ onto true none (us_pool st) (us_pool st').
Proof.
  intros DE NW C E SF. destruct (holds_symbol l p0 PR false e m DE _ _ _ E (proj1 SF) (co_inv _ _ C)) as (I' & _). destruct e as [b src|src|src|src]; cbn [define_symbol] in E; cbv zeta in E.
  - apply bind_done in E as (known & st0 & E0 & E). injection E0 as _ <-. apply bind_done in E as (u0 & st0 & E0 & E).
    assert (st0 = st) as -> by (destruct (_ && _); [discriminate|now injection E0 as _ <-]). clear E0.
    apply bind_done in E as (i & st1 & E1 & E). apply bind_done in E as (u2 & st2 & E2 & E). injection E2 as _ <-. apply bind_done in E as (u3 & st3 & E3 & E). injection E as <- <-.
    set (sy := if b then SStruct i (visibility_of (dc_qualifiers (cs_decl src))) else SClass i (visibility_of (dc_qualifiers (cs_decl src)))) in *.
    assert (X3 : us_pool st3 = us_pool st1 /\ us_bodies st3 = us_bodies st1 /\ us_defaults st3 = us_defaults st1 /\ us_module st3 = us_module st1 /\ us_diags st3 = us_diags st1 /\
      us_scope st3 = if is_nil m then sc_add_symbol (us_scope st1) (dc_name (cs_decl src)) sy else us_scope st1)
      by (destruct (is_nil m); injection E3 as _ <-; cbn; auto 10).
    assert (SY : forall gs, sy <> SFunctions gs) by (intros gs; subst sy; destruct b; discriminate). clearbody sy. clear E3.
    destruct X3 as (Q1 & Q2 & Q3 & Q4 & Q5 & Q6). assert (S1 : safe st1) by (destruct SF; split; congruence).
    destruct (run_stub _ _ _ _ E1 S1 (co_good _ _ C)) as (P1 & G1 & M1 & -> & (k & D1) & N1). pose proof (onto_first _ _ _ (sg_pool _ _ _ P1)) as O1.
    split; [|split; [|rewrite Q1; exact O1]].
    + eapply (core_new S st st3 _ k C I'); cbn [slot_index slot_function old_slot plain_slot]; rewrite ?Q1, ?Q2, ?Q3; auto.
      * apply (good_same st1); auto.
      * rewrite Q6, (stub_root _ _ _ _ E1). destruct (is_nil m); [apply scope_types|reflexivity].
      * intros c f M. left. exact (calm_member _ _ _ _ (stub_calm _ _ _ _ E1) M).
      * intros n fs x X Y. left. rewrite Q6, (stub_root _ _ _ _ E1) in X. destruct (is_nil m); [exact (scope_old _ _ _ _ _ _ SY X Y)|eauto].
      * exact (stub_ledger _ _ _ _ E1).
    + exists (size (us_pool st)). split; [reflexivity|]. now rewrite Q1.
  - eapply place_step; eauto.
  - apply bind_done in E as (i & st1 & E1 & E). injection E as <- <-.
    destruct (run_stub _ _ _ _ E1 SF (co_good _ _ C)) as (P1 & G1 & M1 & -> & (k & D1) & N1). pose proof (onto_first _ _ _ (sg_pool _ _ _ P1)) as O1.
    split; [|split; [|exact O1]].
    + eapply (core_new S st st1 _ k C I'); cbn [slot_index slot_function old_slot plain_slot]; auto.
      * now rewrite (stub_root _ _ _ _ E1).
      * intros c f M. left. exact (calm_member _ _ _ _ (stub_calm _ _ _ _ E1) M).
      * intros n fs x X Y. left. rewrite (stub_root _ _ _ _ E1) in X. eauto.
      * exact (stub_ledger _ _ _ _ E1).
    + exists (size (us_pool st)). reflexivity.
  - apply bind_done in E as (i & st1 & E1 & E). apply bind_done in E as (u2 & st2 & E2 & E). injection E2 as _ <-. apply bind_done in E as (u3 & st3 & E3 & E). injection E as <- <-.
    assert (X3 : us_pool st3 = us_pool st1 /\ us_bodies st3 = us_bodies st1 /\ us_defaults st3 = us_defaults st1 /\ us_module st3 = us_module st1 /\ us_diags st3 = us_diags st1 /\
      us_scope st3 = if is_nil m then sc_add_symbol (us_scope st1) (dc_name (es_decl src)) (SEnum i) else us_scope st1)
      by (destruct (is_nil m); injection E3 as _ <-; cbn; auto 10).
    assert (SY : forall gs, SEnum i <> SFunctions gs) by (intros gs; discriminate). clear E3.
    destruct X3 as (Q1 & Q2 & Q3 & Q4 & Q5 & Q6). assert (S1 : safe st1) by (destruct SF; split; congruence).
    destruct (run_stub _ _ _ _ E1 S1 (co_good _ _ C)) as (P1 & G1 & M1 & -> & (k & D1) & N1). pose proof (onto_first _ _ _ (sg_pool _ _ _ P1)) as O1.
    split; [|split; [|rewrite Q1; exact O1]].
    + eapply (core_new S st st3 _ k C I'); cbn [slot_index slot_function old_slot plain_slot]; rewrite ?Q1, ?Q2, ?Q3; auto.
      * apply (good_same st1); auto.
      * rewrite Q6, (stub_root _ _ _ _ E1). destruct (is_nil m); [apply scope_types|reflexivity].
      * intros c f M. left. exact (calm_member _ _ _ _ (stub_calm _ _ _ _ E1) M).
      * intros n fs x X Y. left. rewrite Q6, (stub_root _ _ _ _ E1) in X. destruct (is_nil m); [exact (scope_old _ _ _ _ _ _ SY X Y)|eauto].
      * exact (stub_ledger _ _ _ _ E1).
    + exists (size (us_pool st)). split; [reflexivity|]. now rewrite Q1.
Qed.

(** * The start *)
Definition olds (s : symbol) : Prop := match s with SFunctions fs => Forall (fun x => ~ fresh p0 (fst x)) fs | _ => True end.
Lemma olds_put m k s : (forall x y, In (x, y) m -> olds y) -> olds s -> forall x y, In (x, y) (sy_put m k s) -> olds y.
Proof.
  intros T E x y. unfold sy_put. assert (X : forall t, olds t -> In (x, y) (sy_insert k t m) -> olds y) by (intros t O I; apply insert_in in I as [(_ & ->)|I]; [exact O|exact (T _ _ I)]).
  destruct (sy_get m k) as [z|] eqn:G; [|now apply X]. apply sy_get_in in G. destruct z, s; try now apply X. apply X. cbn [olds] in *. apply Forall_app. split; [exact (T _ _ G)|exact E].
Qed.
Lemma olds_new m : sy_new p0 = Done m -> forall x y, In (x, y) m -> olds y.
Proof.
  unfold sy_new. assert (X : forall ds m0 m, (forall x, In x ds -> In x (roots p0)) -> (forall a, m0 = Done a -> forall x y, In (x, y) a -> olds y) ->
    fold_left (sy_new_step p0) ds m0 = Done m -> forall x y, In (x, y) m -> olds y).
  { induction ds as [|x ds IH]; intros m0 m' S T; cbn [fold_left]; [apply T|]. apply IH; [intros y Iy; apply S; now right|]. intros a. unfold sy_new_step.
    destruct m0 as [m0|]; [|discriminate]. cbn [obind]. destruct (pe (def_name p0 (fst x))) as [n|] eqn:N; [|discriminate]. cbn [obind].
    destruct (root_symbol _ _) as [s|] eqn:R; [|intros [= <-]; now apply T]. intros [= <-]. apply olds_put; [now apply T|].
    assert (IR : In (fst x, snd x) (roots p0)) by (rewrite <- surjective_pairing; apply S; now left). destruct (roots_at _ _ _ IR) as (D & Q).
    unfold root_symbol in R. destruct (df_value (snd x)) as [| | | | |f| | | ] eqn:V; try discriminate.
    - destruct (get_flag _ _); injection R as <-; exact I.
    - injection R as <-. exact I.
    - injection R as <-. cbn [olds]. constructor; [|constructor]. cbn [fst]. exact (old_not_fresh _ _ _ D). }
  intros E. eapply X; [| |exact E]; [auto|]. intros a [= <-] x y [].
Qed.
Lemma olds_visible s v s' : olds s -> sym_visible s v = Some s' -> olds s'.
Proof.
  destruct s as [i w|i w|i|fs]; cbn [sym_visible olds]; intros H.
  1,2: destruct (vis_leb w v); [intros [= <-]; exact H|discriminate].
  - intros [= <-]. exact I.
  - intros E. assert (X : s' = SFunctions (filter (fun x => vis_leb (snd x) v) fs)) by (destruct (filter _ fs); [discriminate|now injection E as <-]).
    subst. cbn [olds]. apply Forall_forall. intros x Ix. apply filter_In in Ix as (Ix & _). rewrite Forall_forall in H. exact (H _ Ix).
Qed.
Variable ev : env.
Hypothesis FV : fair ev.
Lemma core_start st : names_ok p0 -> unit_new ev p0 = Done st -> core [] st.
Proof.
  intros NO E. pose proof (inv_new l p0 ev FV st E) as I. revert E. unfold unit_new. destruct (sy_new p0) as [m|] eqn:E1; [|discriminate]. cbn [obind]. destruct (scope_new p0) as [s|] eqn:E2; [|discriminate]. cbn [obind].
  pose proof (import_types (ev_children ev) m (IAll [] span_zero) s Private) as TY. pose proof (scope_new_named _ _ E2) as TN.
  assert (OL : forall n x, am_find (sc_symbols (fst (populate_import (ev_children ev) m (IAll [] span_zero) s Private))) n = Some x -> olds x).
  { cbn [populate_import sy_direct_children with_span map_err fst]. assert (R : forall n x, am_find (sc_symbols s) n = Some x -> olds x).
    { revert E2. unfold scope_new. destruct (fold_left _ _ _); [|discriminate]. cbn [obind]. intros [= <-]. intros n x X. discriminate X. }
    assert (Y : forall x, In x (ev_children ev (sy_children [] m)) -> olds (snd x)).
    { intros [n x] Ix. apply (Permutation_in _ (proj1 FV _)) in Ix. apply children_spec in Ix. exact (olds_new _ E1 _ _ Ix). }
    clear TY TN E2. revert Y s R. generalize (ev_children ev (sy_children [] m)). induction l0 as [|x kids IH]; intros Y s R; [exact R|]. cbn [fold_left].
    apply IH; [intros y Iy; apply Y; now right|]. unfold add_visible. destruct (sym_visible (snd x) Private) as [y|] eqn:V; [|exact R].
    assert (OY : olds y) by (eapply olds_visible; [apply Y; now left|exact V]).
    intros n z F. apply add_cases in F as [(_ & F)|(<- & [->|(a & b & A & -> & ->)])]; [exact (R _ _ F)|exact OY|]. cbn [olds] in *. apply Forall_app. split; [exact (R _ _ A)|exact OY]. }
  destruct (populate_import _ _ _ _ _) as [s' r]. cbn [fst] in *. destruct r as [[]|]; [|discriminate]. cbn [obind]. intros [= <-].
  assert (TN' : types_named s' p0) by (intros n i F; apply TN; now rewrite <- TY).
  split; cbn [us_pool us_scope us_bodies us_defaults]; auto.
  - split; cbn; auto; contradiction.
  - apply onto_refl.
  - intros c f (k & K & IF) FR. destruct (proj2 PR c f (ex_intro _ k (conj K IF))) as (d & x & D & _). destruct (old_not_fresh _ _ _ D FR).
  - intros n fs x F Ix FR. apply OL in F. cbn [olds] in F. rewrite Forall_forall in F. destruct (F _ Ix FR).
Qed.
Definition unwrapped (st : ustate) : Prop := us_wrappers st = [] /\ us_proxies st = [].
Lemma symbol_unwrapped e m st r st' : (forall src a, e = EntryFunction src -> find places (dc_annotations (fs_decl src)) = Some a -> an_kind a <> AWrapMethod) ->
  define_symbol false e m st = (r, st') -> unwrapped st -> unwrapped st'.
Proof.
  intros N E (A & B). assert (X : steady (define_symbol false e m)).
  { destruct e as [b c|src|src|src]; cbn [define_symbol]; cbv zeta; try solve [steady].
    unfold place_function, place_annotated. cbv zeta. destruct (find places _) as [a|] eqn:F; [|steady].
    destruct (an_kind a) eqn:K; try solve [steady]. destruct (N src a eq_refl F K). }
  specialize (X st). rewrite E in X. cbn [snd] in X. destruct X. split; congruence.
Qed.
Lemma declare_all st0 q st1 : names_ok p0 -> (forall m src a, In m l -> In (EntryFunction src) (sm_entries m) -> eval_conditions (module_names l) (dc_annotations (fs_decl src)) = Done true ->
    find places (dc_annotations (fs_decl src)) = Some a -> an_kind a <> AWrapMethod) ->
  unit_new ev p0 = Done st0 -> umap (declare_module false (module_names l)) l st0 = (Done q, st1) -> safe st1 ->
  (core (flat_map snd q) st1 /\ unwrapped st1) /\
  Forall2 (fun m x => fst x = m /\ Forall2 (fun e s => placed (path_of m) e s (us_pool st1)) (enabled_entries (module_names l) (sm_entries m)) (snd x)) l q.
Proof.
  intros NO NW E0 E1 SF. pose proof (core_start _ NO E0) as C0.
  assert (U0 : unwrapped st0).
  { revert E0. unfold unit_new. destruct (sy_new p0); [|discriminate]. cbn [obind]. destruct (scope_new p0); [|discriminate]. cbn [obind].
    destruct (populate_import _ _ _ _ _) as [s' [[]|]]; [|discriminate]. cbn [obind]. intros [= <-]. split; reflexivity. }
  destruct (drive_modules (module_names l) (fun S st => core S st /\ unwrapped st) placed
    (fun e => declares l e /\ forall src a, e = EntryFunction src -> find places (dc_annotations (fs_decl src)) = Some a -> an_kind a <> AWrapMethod)
    placed_onto) with (l := l) (S := @nil slot) (st := st0) (q := q) (st' := st1) as (A & _ & B); auto.
  - intros m e S st s st' (D & W) (C & U) E SF'. destruct (symbol_step e m S st s st' D W C E SF') as (X & Y & Z). split; [|auto]. split; [exact X|].
    exact (symbol_unwrapped _ _ _ _ _ W E U).
  - intros m e Im Ie T. split; [exists m; auto|]. intros src a -> F. exact (NW _ _ _ Im Ie T F).
Qed.
Lemma placed_in q p : Forall2 (fun m x => fst x = m /\ Forall2 (fun e s => placed (path_of m) e s p) (enabled_entries (module_names l) (sm_entries m)) (snd x)) l q ->
  forall m e, In m l -> In e (sm_entries m) -> eval_conditions (module_names l) (dc_annotations (entry_decl e)) = Done true ->
    exists slots s, In (m, slots) q /\ In s slots /\ placed (path_of m) e s p.
Proof.
  assert (X : forall A B (P : A -> B -> Prop) xs ys, Forall2 P xs ys -> forall x, In x xs -> exists y, In y ys /\ P x y).
  { intros A B P xs ys F. induction F as [|x y xs ys H _ IH]; intros z []; [subst; exists y; split; [now left|exact H]|]. destruct (IH _ H0) as (w & I & K). exists w. split; [now right|exact K]. }
  intros F m e Im Ie T. destruct (X _ _ _ _ _ F _ Im) as ((m' & slots) & Iq & Q & G). cbn [fst snd] in *. subst m'.
  destruct (X _ _ _ _ _ G e) as (s & Is & P); [apply filter_In; now rewrite T|]. exists slots, s. auto.
Qed.
End Place.
