(** The type checker accepts only well typed expressions. *)
From Coq Require Import String.
From Coq Require Import ZArith List Bool Lia.
From Verif Require Import Bytes BytesFacts Bytecode Definitions Bundle BundleFacts Ast TypeNames Pool Scope TypeCheck PoolSpec PoolFacts
  TypeIndexSpec TypeIndexFacts TypingSpec TypingFacts OverloadSpec OverloadFacts PartsSpec BodySpec GrowFacts WellTypedSpec WellTypedFacts.
Import ListNotations.
Open Scope Z_scope.

Lemma obind_done {E A B} (m : outcome E A) (f : A -> outcome E B) b :
  obind m f = Done b -> exists a, m = Done a /\ f a = Done b.
Proof. destruct m; [eauto|discriminate]. Qed.
Lemma pe_done {A} (m : outcome pool_error A) x : pe m = Done x -> m = Done x.
Proof. destruct m; [intros [= ->]; reflexivity|discriminate]. Qed.
Lemma oth_done {A} (m : outcome error A) x : oth m = Done x -> m = Done x.
Proof. destruct m; [intros [= ->]; reflexivity|discriminate]. Qed.
Lemma span_done {A} sp (m : outcome cause A) x : with_span sp m = Done x -> m = Done x.
Proof. destruct m; [intros [= ->]; reflexivity|discriminate]. Qed.

Lemma Forall2_impl {A B} (P Q : A -> B -> Prop) l m : (forall x y, P x y -> Q x y) -> Forall2 P l m -> Forall2 Q l m.
Proof. intros H. induction 1; constructor; auto. Qed.

(** * Types in another scope *)

Lemma from_pool_symbols s s' p n : sc_symbols s' = sc_symbols s ->
  forall i, resolve_type_from_pool_loop n s' p i = resolve_type_from_pool_loop n s p i.
Proof.
  intros H. assert (Y : symbol_type s' = symbol_type s) by (unfold symbol_type; now rewrite H).
  induction n as [|n IH]; intros i; cbn [resolve_type_from_pool_loop]; [reflexivity|].
  destruct (get_type p i) as [x|]; cbn [pc map_err obind]; [|reflexivity]. destruct x; rewrite ?IH, ?Y; reflexivity.
Qed.
Lemma pool_type_symbols s s' p sp i : sc_symbols s' = sc_symbols s -> pool_type s' p sp i = pool_type s p sp i.
Proof. intros H. unfold pool_type, resolve_type_from_pool. now rewrite (from_pool_symbols s s'). Qed.
Lemma type_of_same s s' p : (forall sp i, pool_type s' p sp i = pool_type s p sp i) ->
  (forall c sp, named_type s' p sp (constant_type c) = named_type s p sp (constant_type c)) -> sc_this s' = sc_this s ->
  forall e, type_of e s' p = type_of e s p.
Proof.
  intros H1 H2 H3. induction e using expr_ind'; cbn [type_of];
    repeat match goal with |- context [match ?x with _ => _ end] => is_var x; destruct x end; rewrite ?H3; try reflexivity;
    try apply H2; try apply (H2 (CString LString []));
    repeat match goal with IH : type_of _ _ _ = type_of _ _ _ |- _ => rewrite IH; clear IH end; try reflexivity.
  all: match goal with |- context [pe ?m] => destruct m; cbn [pe map_err obind]; [|reflexivity] end; try apply H1.
  all: destruct (fu_return_type _); [apply H1|reflexivity].
Qed.

(** * Rules are about the pool in the end *)

Section Sound.
Variables (s0 : scope) (pF : pool).
Hypothesis (B : basics s0) (R : rooted pF) (Sm : small pF).

(** A state on the way to the end. *)
Definition before (s : scope) (p : pool) : Prop := near s0 s /\ extends p pF.

Lemma before_grows s p : before s p -> grows (set_types s0 (sc_types s), p) (set_types s0 (sc_types s), pF).
Proof. intros [_ H]. split; [exact H|]. split; [apply scope_grows_refl|reflexivity]. Qed.
Lemma entry_end s p i t : before s p -> resolve_type_from_pool s p i = Done t -> entry s0 pF i t.
Proof.
  intros H E. unfold entry. pose proof (before_grows _ _ H) as G. destruct H as [((Y & _) & _) X].
  unfold resolve_type_from_pool in *. rewrite (from_pool_symbols (set_types s0 (sc_types s)) s) in E by exact Y.
  rewrite (from_pool_symbols (set_types s0 (sc_types s)) s0) by reflexivity.
  apply (from_pool_stable _ _ _ _ G _ _ _ _ (fuel_grows _ _ _ _ G) E).
Qed.
Lemma pool_type_end s p sp i t : before s p -> pool_type s p sp i = Done t -> entry s0 pF i t.
Proof. intros H E. apply span_done in E. eapply entry_end; eassumption. Qed.
Lemma basic_end s p sp n t : before s p -> (exists i, am_find (sc_types s0) n = Some i) ->
  named_type s p sp (TypeName n None) = Done t -> resolve_type s0 pF (TypeName n None) = Done t.
Proof.
  intros H (i & I) E. apply span_done in E. cbn [resolve_type] in *. change (repr (TypeName n None)) with n in *.
  rewrite I. pose proof (proj2 (proj1 (proj1 H)) _ _ I) as I'. rewrite I' in E. eapply entry_end; [exact H|exact E].
Qed.

Lemma literal_end s p sp c t : before s p -> named_type s p sp (constant_type c) = Done t -> resolve_type s0 pF (constant_type c) = Done t.
Proof.
  intros H E. destruct (proj1 B c) as [i I].
  assert (X : exists n, constant_type c = TypeName n None) by (destruct c as [[]| | | | | | |]; eexists; reflexivity).
  destruct X as [n X]. rewrite X in *. eapply basic_end; eauto.
Qed.
Lemma type_end s p e t : before s p -> type_of e s p = Done t -> has s0 pF e t.
Proof.
  intros H E. unfold has. destruct H as [N X]. assert (K : knows_literals s0) by apply B.
  apply (type_of_stable s0 s0 p pF); [|exact K|].
  { split; [exact X|]. split; [apply scope_grows_refl|reflexivity]. }
  rewrite <- E. symmetry. destruct N as ((Y & T) & N1 & N2). apply type_of_same; [| |exact N1].
  - intros sp i. now apply pool_type_symbols.
  - intros c sp. destruct (K c) as [i I]. pose proof (T _ _ I) as I'.
    assert (Z : exists n, constant_type c = TypeName n None) by (destruct c as [[]| | | | | | |]; eexists; reflexivity).
    destruct Z as [n Z]. rewrite Z in *. unfold named_type. cbn [resolve_type]. rewrite I, I'.
    unfold resolve_type_from_pool. now rewrite (from_pool_symbols s0 s).
Qed.

(** * Conversions *)

Lemma upcast_end p : extends p pF -> forall n a b c, upcast n p a b = Done (Some c) -> c = Identity /\ (a = b \/ ancestor pF a b).
Proof.
  intros X. induction n as [|n IH]; intros a b c; cbn [upcast]; [discriminate|].
  destruct (Z.eqb_spec a b) as [->|N]; [intros [= <-]; auto|]. intros E. apply obind_done in E as (k & E & F). apply pe_done in E.
  destruct (Z.eqb_spec (cl_base k) UNDEFINED) as [|U]; [discriminate|]. cbn [negb] in F. apply IH in F as [-> F]. split; [reflexivity|right].
  assert (E' : get_class pF a = Done k) by exact (extends_def_by _ _ _ _ _ X E). destruct (R _ _ E') as (A & l & C).
  inversion C as [|? k' l' _ E2 C2]; subst; [contradiction|]. assert (k' = k) by congruence. subst k'.
  exists (a :: l'). split; [exact C|]. right. destruct F as [<-|(m & M & I)].
  - inversion C2; [congruence|now left].
  - now rewrite (chain_det _ _ _ C2 _ M).
Qed.
Lemma identity_subsumes a b : converts pF a b Identity -> subsumes pF a b.
Proof. now inversion 1. Qed.
Lemma conversion_end p : extends p pF -> forall to from c, find_conversion p from to = Done (Some c) -> converts pF from to c.
Proof.
  intros X. induction to; intros from c; cbn [find_conversion];
    match goal with |- context [typeid_eqb ?a ?b] => destruct (typeid_eqb a b) eqn:E end;
    try (intros [= <-]; apply typeid_eqb_spec in E; subst; constructor; constructor).
  all: try (intros H; discriminate H).
  - destruct from; try discriminate. intros F. apply (upcast_end p X) in F as [-> [->|F]]; constructor; now constructor.
  - destruct from; try discriminate. intros F. apply (upcast_end p X) in F as [-> [->|F]]; constructor; now constructor.
  - destruct from; try discriminate; try (intros F; apply obind_done in F as (r & F & G); destruct r as [[]|]; cbn in G; try discriminate; injection G as <-; apply IHto, identity_subsumes in F; constructor; try constructor; exact F).
    intros [= <-]. constructor. constructor.
  - destruct from; try discriminate; try (intros F; apply obind_done in F as (r & F & G); destruct r as [[]|]; cbn in G; try discriminate; injection G as <-; apply IHto, identity_subsumes in F; constructor; try constructor; exact F).
    intros [= <-]. constructor.
  - intros F; apply obind_done in F as (r & F & G); destruct r as [[]|]; cbn in G; try discriminate; injection G as <-; apply IHto, identity_subsumes in F. now constructor.
  - intros [= <-]. constructor. apply typeid_eqb_false in E. congruence.
Qed.

(** * Least common types *)

Lemma under_trans a b c : under pF a b -> under pF b c -> under pF a c.
Proof.
  intros H. revert c. induction H; intros c H2; try exact H2; inversion H2; subst; try (constructor; fail); try (now constructor);
    constructor; eauto using ancestor_trans.
Qed.
Lemma collect_chain p : forall n c l, collect_supertypes n p c = Done l -> chain p c (rev l).
Proof.
  induction n as [|n IH]; intros c l; cbn [collect_supertypes]; destruct (Z.eqb_spec c UNDEFINED) as [->|U];
    try (intros [= <-]; constructor); try discriminate.
  intros E. apply obind_done in E as (k & E & F). apply pc_done in E. apply obind_done in F as (r & F & G). injection G as <-.
  rewrite rev_app_distr. cbn. econstructor; eauto.
Qed.
Lemma chain_end p c l : extends p pF -> chain p c l -> chain pF c l.
Proof. intros X. induction 1; econstructor; eauto. exact (extends_def_by _ _ _ _ _ X H0). Qed.
Lemma ancestor_end p a b : extends p pF -> ancestor p a b -> ancestor pF a b.
Proof. intros X (l & C & I). exists l. split; [eapply chain_end; eassumption|exact I]. Qed.
Lemma lub_class_end p a b r : extends p pF -> lub_class p a b = Done r -> ancestor pF a r /\ ancestor pF b r.
Proof.
  intros X E. unfold lub_class in E. apply obind_done in E as (x & E1 & E). apply obind_done in E as (y & E2 & E).
  apply collect_chain in E1, E2. pose proof (lub_class_lemma _ _ _ _ _ E1 E2) as L. rewrite !rev_involutive in L.
  destruct (last_common x y) as [z|]; [|destruct (def_name p a), (def_name p b); discriminate]. injection E as <-.
  destruct L as (L1 & L2 & _). eauto using ancestor_end.
Qed.
Lemma lub_end p : extends p pF -> forall a b r, lub p a b = Done r -> under pF a r /\ under pF b r.
Proof.
  intros X. induction a; intros b r; cbn [lub]; match goal with |- context [typeid_eqb ?a ?b] => destruct (typeid_eqb a b) eqn:E end;
    try (intros [= <-]; apply typeid_eqb_spec in E; subst; split; constructor);
    destruct b; try (intros [= <-]; split; constructor; fail);
    try (intros H; exfalso; revert H; repeat match goal with |- context [pc ?m] => destruct m; cbn [pc map_err obind] end; discriminate).
  - destruct (lub_class p i i0) as [z|] eqn:L; [|discriminate]. intros [= <-]. apply (lub_class_end _ _ _ _ X) in L as [L1 L2]. split; now constructor.
  - destruct (lub_class p i i0) as [z|] eqn:L; [|discriminate]. intros [= <-]. apply (lub_class_end _ _ _ _ X) in L as [L1 L2]. split; now constructor.
  - destruct (lub p a b) as [z|] eqn:L; [|discriminate]. intros [= <-]. apply IHa in L as [L1 L2]. split; now constructor.
  - destruct (lub p a b) as [z|] eqn:L; [|discriminate]. intros [= <-]. apply IHa in L as [L1 L2]. split; now constructor.
Qed.

(** * Results of actions *)

Definition reach (st : tstate) : Prop := extends (ts_pool st) pF /\ no_failures (ts_diags st).
Definition good (st : tstate) : Prop := sound_state st /\ near s0 (ts_scope st).
Definition yields {A} (m : M A) (Q : A -> Prop) : Prop := forall st a st', m st = Done (a, st') -> good st -> reach st' -> Q a.

Lemma reach_back st st' : progress st st' -> reach st' -> reach st.
Proof.
  intros P [X F]. split; [eapply extends_trans; [apply P|exact X]|]. intros d I. apply F.
  destruct (pr_diags _ _ P) as (l & ->). apply in_or_app. now left.
Qed.
Lemma good_next st st' : progress st st' -> good st -> reach st' -> good st'.
Proof.
  intros P [G N] [X _]. split; [apply (pr_sound _ _ P); [eapply extends_small; eassumption|exact G]|].
  eapply near_trans; [exact N|apply P].
Qed.
Lemma good_before st : good st -> reach st -> before (ts_scope st) (ts_pool st).
Proof. intros [_ N] [X _]. split; assumption. Qed.

Lemma yields_bind {A C} (m : M A) (k : A -> M C) (Q1 : A -> Prop) (Q2 : C -> Prop) :
  moves m -> (forall a, moves (k a)) -> yields m Q1 -> (forall a, Q1 a -> yields (k a) Q2) -> yields (mbind m k) Q2.
Proof.
  intros Mm Mk H1 H2 st c st2 E G Re. apply bind_done in E as (a & st1 & E1 & E2).
  pose proof (reach_back _ _ (Mk _ _ _ _ E2) Re) as R1. eapply H2; [|exact E2| |exact Re].
  - eapply H1; eassumption.
  - eapply good_next; [eapply Mm; exact E1|exact G|exact R1].
Qed.
Lemma yields_ret {A} (a : A) (Q : A -> Prop) : Q a -> yields (mret a) Q.
Proof. intros H st x st' [= <- _] _ _. exact H. Qed.
Lemma yields_read {A} (f : scope -> pool -> outcome error A) (Q : A -> Prop) :
  (forall s p a, before s p -> f s p = Done a -> Q a) -> yields (reading f) Q.
Proof. intros H st a st' E G Re. apply reading_done in E as (E & ->). eapply H; [apply good_before; eassumption|exact E]. Qed.
Lemma yields_any {A} (m : M A) : yields m (fun _ => True).
Proof. intros st a st' _ _ _. exact I. Qed.
Lemma yields_weak {A} (m : M A) (Q Q' : A -> Prop) : yields m Q -> (forall a, Q a -> Q' a) -> yields m Q'.
Proof. intros H W st a st' E G Re. eauto. Qed.
Lemma yields_fail {A} e (Q : A -> Prop) : yields (mfail e) Q.
Proof. intros st a st' E. discriminate E. Qed.
Lemma yields_failc {A} sp e (Q : A -> Prop) : yields (mfailc sp e) Q.
Proof. intros st a st' E. unfold mfailc, failc, with_span, map_err in E. discriminate E. Qed.
Lemma yields_report e (Q : unit -> Prop) : yields (report e) Q.
Proof.
  unfold report. destruct (diag_from_error e) as [d|] eqn:D; [|apply yields_fail].
  intros st a st' [= <- <-] _ [_ F]. exfalso. specialize (F d). cbn [ts_diags] in F.
  assert (I : In d (ts_diags st ++ [d])) by (apply in_or_app; right; now left).
  specialize (F I). destruct e; try discriminate D; injection D as <-; discriminate F.
Qed.
Lemma yields_scoped {A} (m : M A) Q : moves m -> yields m Q -> yields (scoped m) Q.
Proof.
  intros Mm H st a st'. unfold scoped. destruct (m st) as [[x st1]|] eqn:E; [|discriminate]. intros [= <- <-] G Re.
  eapply H; [exact E|exact G|exact Re].
Qed.
Lemma yields_map {A C} (f : A -> M C) (P : C -> Prop) l : (forall x, moves (f x)) -> (forall x, yields (f x) P) -> yields (mmap f l) (Forall P).
Proof.
  intros Mm H. induction l as [|x l IH]; cbn [mmap]; [apply yields_ret; constructor|].
  apply yields_bind with (Q1 := P); [apply Mm| |apply H|].
  { intros y. apply moves_bind; [now apply moves_map|intros; apply moves_ret]. }
  intros y Py. eapply yields_bind; [now apply moves_map|intros; apply moves_ret|exact IH|].
  intros ys Pys. apply yields_ret. now constructor.
Qed.
Lemma yields_local n t sp : yields (add_local n t sp) (fun l => local_of pF l t).
Proof.
  intros st l st' E [G _] [X _]. apply add_local_done in E as [_ E]. destruct (E (extends_small _ _ X Sm) G) as (lo & nm & E1 & E2 & E3).
  exists lo, nm. split; [exact (extends_def_by _ _ _ _ _ X E1)|]. split; [eapply extends_def_name; eassumption|eapply extends_repr; eassumption].
Qed.

(** * Trees *)

Notation wt := (well_typed s0 pF).
Lemma wt_node e : obeys s0 pF e -> (forall x, part x e -> wt x) -> wt e.
Proof. intros O H x W. inversion W as [|y ? P W']; subst; [exact O|]. exact (H _ P _ W'). Qed.
Lemma wt_has e u t : wt e -> has s0 pF e u -> subsumes pF u t -> wt e /\ suits s0 pF e t.
Proof. intros W H S. split; [exact W|exists u; auto]. Qed.
Lemma wt_call1 i t e u : wt e -> has s0 pF e u -> builtin s0 pF i [u] t ->
  wt (ECall (N := typed_ast) (CIntrinsic i t) [] [e] (expr_span e)).
Proof.
  intros W H Bi. apply wt_node.
  - exists [u]. split; [now repeat constructor|exact Bi].
  - intros x P. inversion P; subst. match goal with I : In _ [_] |- _ => destruct I as [<-|[]] end. exact W.
Qed.
Lemma inserted e u t c : wt e -> has s0 pF e u -> converts pF u t c ->
  wt (insert_conversion e t c) /\ suits s0 pF (insert_conversion e t c) t.
Proof.
  intros W H C. inversion C; subst; cbn [insert_conversion].
  - now apply wt_has with u.
  - split; [eapply wt_call1; [exact W|exact H|constructor]|]. eexists. split; [reflexivity|constructor].
  - split; [eapply wt_call1; [exact W|exact H|now constructor]|]. eexists. split; [reflexivity|constructor].
  - split; [eapply wt_call1; [exact W|exact H|now constructor]|]. eexists. split; [reflexivity|constructor].
  - split; [eapply wt_call1; [exact W|exact H|now constructor]|]. eexists. split; [reflexivity|constructor].
  - split; [eapply wt_call1; [exact W|exact H|now constructor]|]. eexists. split; [reflexivity|constructor].
Qed.
Lemma strengthened e t : wt e -> has s0 pF e t ->
  wt (strengthen e t) /\ receiver s0 pF (strengthen e t) (ti_unwrapped t).
Proof.
  intros W H.
  assert (D : (exists v, t = TIWeakRef v) \/ (strengthen e t = e /\ ~ is_weak t)).
  { destruct t; try (right; split; [reflexivity|intros (v & V); discriminate]). left. eauto. }
  destruct D as [(v & ->)|(-> & D)].
  - cbn [strengthen insert_conversion]. split; [eapply wt_call1; [exact W|exact H|constructor; constructor]|].
    exists (TIRef v). split; [reflexivity|]. split; [intros (q & Q); discriminate|reflexivity].
  - split; [exact W|]. exists t. auto.
Qed.

(** * Overloads *)

Definition takes (g : pidx) (n : nat) (ts : list typeid) : Prop :=
  exists fn ps, get_function pF g = Done fn /\
    Forall2 (fun i q => get_parameter pF i = Done q) (fu_parameters fn) ps /\
    Forall2 (fun q t => entry s0 pF (pa_type q) t) ps ts /\
    (length (filter needed ps) <= n <= length ps)%nat.
Lemma takes_end s p g n ts : before s p -> accepts p g n -> param_types s p g ts -> takes g n ts.
Proof.
  intros Bf (fn & k & E & Rq & L1 & L2) (fn' & E' & F). assert (fn' = fn) by congruence. subst fn'.
  assert (X : exists ps, Forall2 (fun i q => get_parameter p i = Done q) (fu_parameters fn) ps /\
    Forall2 (fun q t => resolve_type_from_pool s p (pa_type q) = Done t) ps ts).
  { clear - F. induction F as [|i t is ts (q & Eq & Et) F (ps & I1 & I2)]; [exists []; auto|]. exists (q :: ps). auto. }
  destruct X as (ps & P1 & P2).
  assert (K : k = length (filter needed ps)).
  { clear - Rq P1. revert ps P1. induction Rq as [|i l k (q & Eq & O) Rq IH|i l k O Rq IH]; intros ps P1; inversion P1 as [|? q' ? ps' Eq' P1']; subst; cbn [filter].
    - reflexivity.
    - assert (q' = q) by congruence. subst q'. unfold needed at 1. rewrite O. cbn [negb]. now apply IH.
    - unfold needed at 1. destruct (get_flag _ _) eqn:O'; [exfalso; apply O; exists q'; auto|]. cbn. f_equal. now apply IH. }
  exists fn, ps. split; [exact (extends_def_by _ _ _ _ _ (proj2 Bf) E)|]. split.
  { eapply Forall2_impl; [|exact P1]. intros i q H. exact (extends_def_by _ _ _ _ _ (proj2 Bf) H). }
  split; [eapply Forall2_impl; [|exact P2]; intros; eapply entry_end; eassumption|].
  apply Forall2_len in P1. lia.
Qed.
Lemma takes_length g n ts : takes g n ts -> (n <= length ts)%nat.
Proof. intros (fn & ps & _ & _ & F & L). apply Forall2_len in F. lia. Qed.
Lemma converted_args s p : before s p -> forall xs ts k cs, validate_arg_list s p k xs ts = Done cs -> (length xs <= length ts)%nat -> Forall wt xs ->
  let ys := zip_with (fun e c => insert_conversion e (ac_target c) (ac_conversion c)) xs cs in
  Forall2 (suits s0 pF) ys (firstn (length xs) ts) /\ Forall wt ys /\ length ys = length xs.
Proof.
  intros Bf. induction xs as [|x xs IH]; intros [|t ts] k cs E L W; cbn [validate_arg_list length] in *; try lia.
  1,2: cbn; auto.
  apply obind_done in E as (c & E1 & E). apply obind_done in E as (cs' & E2 & E). injection E as <-.
  inversion W as [|? ? W1 W2]; subst. destruct (IH ts (S k) cs' E2 ltac:(lia) W2) as (I1 & I2 & I3).
  unfold validate_arg in E1. apply obind_done in E1 as (u & T & E1). apply oth_done in T. apply obind_done in E1 as (cv & C & E1). apply oth_done in C.
  destruct cv as [cv|]; [|apply obind_done in E1 as (? & _ & E1); apply obind_done in E1 as (? & _ & E1); discriminate].
  injection E1 as <-. cbn [zip_with firstn ac_target ac_conversion length].
  destruct (inserted x u t cv W1 (type_end _ _ _ _ Bf T) (conversion_end _ (proj2 Bf) _ _ _ C)) as [J1 J2].
  split; [now constructor|]. split; [now constructor|]. now f_equal.
Qed.
Lemma validated s p g xs ts w sp cs : before s p -> validate_args s p g xs ts w sp = Done cs -> takes g (length xs) ts -> Forall wt xs ->
  applies s0 pF g (snd (function_match g xs cs)) /\ Forall wt (snd (function_match g xs cs)).
Proof.
  intros Bf E T W. unfold validate_args in E. apply obind_done in E as (fn & _ & E). apply obind_done in E as (_ & _ & E).
  pose proof (takes_length _ _ _ T) as L. destruct (converted_args _ _ Bf _ _ _ _ E L W) as (C1 & C2 & C3).
  cbn [function_match snd]. split; [|exact C2]. destruct T as (fn' & ps & T1 & T2 & T3 & T4).
  exists fn', ps, ts. rewrite C3. auto.
Qed.

Section Rec.
Variable rec : checker.
Hypothesis (Hm : forall e w, moves (rec e w)) (Hr : forall e w, yields (rec e w) wt).

Ltac mv := moves Hm; try (apply moves_convert; exact Hm); try (apply moves_seq; exact Hm); try (apply moves_zip; exact Hm);
  try (apply moves_fields; exact Hm); try (apply moves_overload; exact Hm); try (apply moves_intrinsic; exact Hm); try (apply moves_pick; exact Hm).
Ltac bindw Q := apply yields_bind with (Q1 := Q); [mv|intros; mv| |].

Lemma yields_type e : yields (reading (type_of e)) (has s0 pF e).
Proof. apply yields_read. intros s p t Bf E. eapply type_end; eassumption. Qed.
Lemma yields_convert e t : yields (check_and_convert rec e t) (fun x => wt x /\ suits s0 pF x t).
Proof.
  unfold check_and_convert. bindw (well_typed s0 pF); [apply Hr|]. intros x W. bindw (has s0 pF x); [apply yields_type|]. intros u H.
  bindw (fun c => match c with Some c => converts pF u t c | None => True end).
  - apply yields_read. intros s p [c|] Bf E; [|exact I]. eapply conversion_end; [apply Bf|exact E].
  - intros [c|] C; [apply yields_ret; now apply inserted with u|].
    bindw (fun _ : str => True); [apply yields_any|]. intros n1 _. bindw (fun _ : str => True); [apply yields_any|]. intros n2 _.
    bindw (fun _ : unit => False); [apply yields_report|]. intros ? [].
Qed.
Lemma yields_seq es : yields (check_seq rec es) (Forall wt).
Proof. unfold check_seq. apply yields_map; [intros; apply Hm|intros; apply Hr]. Qed.
Lemma yields_zip args : forall ts, (length args <= length ts)%nat -> yields (check_zip rec args ts) (fun xs => Forall wt xs /\ length xs = length args).
Proof.
  induction args as [|a args IH]; intros [|t ts] L; cbn [check_zip length] in *; try lia; try (apply yields_ret; auto).
  bindw (well_typed s0 pF); [apply Hr|]. intros x W. bindw (fun xs => Forall wt xs /\ length xs = length args); [apply IH; lia|]. intros xs [Ws Ls].
  apply yields_ret. split; [now constructor|cbn; lia].
Qed.
Lemma mmap_length {A C} (f : A -> M C) l : forall st ys st', mmap f l st = Done (ys, st') -> length ys = length l.
Proof.
  induction l as [|x l IH]; intros st ys st' E; cbn [mmap] in E; [injection E as <- _; reflexivity|].
  apply bind_done in E as (y & st1 & _ & E). apply bind_done in E as (zs & st2 & E & F). injection F as <- _. cbn. f_equal. eapply IH, E.
Qed.
Lemma yields_args args : yields (mmap (fun e => rec e None) args) (fun xs => Forall wt xs /\ length xs = length args).
Proof.
  intros st xs st' E G Re. split; [|eapply mmap_length; exact E].
  revert E G Re. apply yields_map; [intros; apply Hm|intros; apply Hr].
Qed.

Definition chosen (cands : list pidx) (r : pidx * list texpr) : Prop :=
  In (fst r) cands /\ applies s0 pF (fst r) (snd r) /\ Forall wt (snd r).
Lemma matches_in s p xs w sp : forall el ms errs, matches_loop s p xs w sp el = Done (ms, errs) ->
  forall f cs, In (f, cs) ms -> exists ts, In (f, ts) el /\ validate_args s p f xs ts w sp = Done cs.
Proof.
  induction el as [|[f ts] el IH]; intros ms errs E g cs I; cbn [matches_loop] in E.
  - injection E as <- _. destruct I.
  - destruct (validate_args s p f xs ts w sp) as [c|[e|e]] eqn:V; [| |discriminate].
    + apply obind_done in E as ([ms' errs'] & E & F). injection F as <- _. destruct I as [[= <- <-]|I]; [exists ts; split; [now left|exact V]|].
      destruct (IH _ _ E _ _ I) as (ts' & J & V'). exists ts'. split; [now right|exact V'].
    + apply obind_done in E as ([ms' errs'] & E & F). injection F as <- _.
      destruct (IH _ _ E _ _ I) as (ts' & J & V'). exists ts'. split; [now right|exact V'].
Qed.
Lemma yields_pick name args w sp el errs cands :
  (forall f ts, In (f, ts) el -> In f cands /\ takes f (length args) ts) ->
  yields (pick_overload rec name args w sp el errs) (fun r => match r with inl m => chosen cands m | inr _ => True end).
Proof.
  intros H.
  assert (Many : yields (do checked <- mmap (fun e => rec e None) args;
     do (ms, errs') <- reading (fun s p => matches_loop s p checked w sp el);
     match ms with
     | [] => mret (inr (no_matching name (errs ++ errs') sp))
     | (f, cs) :: _ => mret (inl (function_match f checked cs))
     end) (fun r => match r with inl m => chosen cands m | inr _ => True end)).
  { bindw (fun xs => Forall wt xs /\ length xs = length args); [apply yields_args|]. intros xs [W L].
    bindw (fun r : list (pidx * list arg_conversion) * list match_error => forall f cs, In (f, cs) (fst r) -> chosen cands (function_match f xs cs)).
    - apply yields_read. intros s p [ms es] Bf E f cs I. destruct (matches_in _ _ _ _ _ _ _ _ E _ _ I) as (ts & J & V).
      destruct (H _ _ J) as [Hc T]. rewrite <- L in T. destruct (validated _ _ _ _ _ _ _ _ Bf V T W). split; [exact Hc|auto].
    - intros [ms es] Q. destruct ms as [|[f cs] ms]; apply yields_ret; [exact I|]. apply Q. now left. }
  destruct el as [|[f ts] [|x el]]; [exact Many| |exact Many]. clear Many. cbn [pick_overload].
  destruct (H f ts (or_introl eq_refl)) as [Hc T]. pose proof (takes_length _ _ _ T) as L.
  apply yields_bind with (Q1 := fun xs => Forall wt xs /\ length xs = length args); [mv| |now apply yields_zip|].
  - intros xs st r st' E. destruct (validate_args _ _ _ _ _ _ _) as [|[|]]; injection E as _ <-; apply progress_refl.
  - intros xs [W Lx] st r st' E G Re. destruct (validate_args _ _ f xs ts w sp) as [cs|[|]] eqn:V; injection E as <- <-; try exact I.
    rewrite <- Lx in T. destruct (validated _ _ _ _ _ _ _ _ (good_before _ G Re) V T W). split; [exact Hc|auto].
Qed.
Lemma elig_in s p n fs el : elig s p n fs el -> forall f ts, In (f, ts) el -> In f fs /\ accepts p f n /\ param_types s p f ts.
Proof.
  intros H f ts I. apply in_split in I as (a & b & I). destruct (elig_split _ _ _ _ _ H _ _ _ _ I) as (x & y & -> & _ & _ & A & P).
  split; [apply in_or_app; right; now left|auto].
Qed.
Lemma yields_overload pm name cands args w sp : yields (resolve_overload pm rec name cands args w sp) (chosen cands).
Proof.
  unfold resolve_overload.
  bindw (fun r : list (pidx * list typeid) * list match_error => forall f ts, In (f, ts) (fst r) -> In f cands /\ takes f (length args) ts).
  - apply yields_read. intros s p [el es] Bf E f ts I. apply eligible_loop_spec in E. destruct (elig_in _ _ _ _ _ E _ _ I) as (J & A & P).
    split; [exact J|]. eapply takes_end; eassumption.
  - intros [el es] H. eapply yields_bind; [mv|intros; mv|apply yields_pick; exact H|].
    intros [m|e] C; [apply yields_ret; exact C|]. destruct pm; [|apply yields_fail].
    bindw (fun _ : unit => False); [apply yields_report|]. intros ? [].
Qed.

(** * Built-in operations *)

Lemma yields_literal sp c : yields (reading (fun s p => named_type s p sp (constant_type c))) (fun t => resolve_type s0 pF (constant_type c) = Done t).
Proof. apply yields_read. intros s p t Bf E. eapply literal_end; eassumption. Qed.
Lemma yields_variant sp : yields (reading (fun s p => named_type s p sp tn_VARIANT)) (fun t => resolve_type s0 pF tn_VARIANT = Done t).
Proof. apply yields_read. intros s p t Bf E. eapply basic_end; [exact Bf|apply B|exact E]. Qed.

Ltac named_by c := eapply yields_bind; [mv|intros; mv|apply (yields_literal _ c)|intros ? ?].
Ltac known := match goal with
  | |- yields (mbind (reading (fun s p => named_type s p _ tn_BOOL)) _) _ => named_by (CBool true)
  | |- yields (mbind (reading (fun s p => named_type s p _ tn_INT32)) _) _ => named_by (CI32 0)
  | |- yields (mbind (reading (fun s p => named_type s p _ tn_STRING)) _) _ => named_by (CString LString [])
  | |- yields (mbind (reading (fun s p => named_type s p _ tn_CNAME)) _) _ => named_by (CString LName [])
  | |- yields (mbind (reading (fun s p => named_type s p _ tn_VARIANT)) _) _ =>
    eapply yields_bind; [mv|intros; mv|apply yields_variant|intros ? ?]
  | |- yields (mfailc _ _) _ => apply yields_failc
  | |- yields (mfail _) _ => apply yields_fail
  | |- yields (mbind (reading (fun _ p => pe (ti_pretty p _))) _) _ =>
    apply yields_bind with (Q1 := fun _ : str => True); [mv|intros; mv|apply yields_any|intros ? _]
  | |- yields (mbind (check_and_convert rec _ ?t) _) _ =>
    eapply yields_bind; [mv|intros; mv|apply yields_convert|intros ? (? & ? & ? & ?)]
  end.
Definition builtin_call (i : intrinsic) (r : typeid * list texpr) : Prop :=
  Forall wt (snd r) /\ exists us, Forall2 (has s0 pF) (snd r) us /\ builtin s0 pF i us (fst r).
Lemma yields_intrinsic i args w sp : yields (check_intrinsic rec i args w sp) wt.
Proof.
  unfold check_intrinsic. destruct (negb _); [apply yields_failc|].
  apply yields_bind with (Q1 := wt); [apply Hm| |apply Hr|].
  { intros first. apply moves_bind; [apply moves_read|intros ft]. apply moves_bind; [|intros [? ?]; mv].
    destruct i, ft; mv; apply moves_related. }
  intros first W. apply yields_bind with (Q1 := has s0 pF first); [mv| |apply yields_type|].
  { intros ft. apply moves_bind; [|intros [? ?]; mv]. destruct i, ft; mv; apply moves_related. }
  intros ft H. apply yields_bind with (Q1 := builtin_call i); [|intros [? ?]; mv| |].
  { destruct i, ft; mv; apply moves_related. }
  - assert (Eq : forall j, j = IEquals \/ j = INotEquals -> yields (do snd_arg <- rec (nth 1 args (ENull span0)) (Some ft);
        do st <- reading (type_of snd_arg);
        do _ <- (fun ts => match lub (ts_pool ts) ft st with
                           | Fail (CauseUnwind u) => Fail (ErrUnwind u)
                           | Fail _ => push_diag (Deprecated UnrelatedTypeEquals sp) ts
                           | Done _ => mret tt ts
                           end);
        do t <- reading (fun s p => named_type s p sp tn_BOOL); mret (t, [first; snd_arg])) (builtin_call j)).
    { intros j Hj. apply yields_bind with (Q1 := wt); [mv|intros; mv; apply moves_related|apply Hr|]. intros y Wy.
      apply yields_bind with (Q1 := has s0 pF y); [mv|intros; mv; apply moves_related|apply yields_type|]. intros st Hy.
      apply yields_bind with (Q1 := fun _ => True); [apply moves_related|intros; mv|apply yields_any|]. intros _ _.
      known. apply yields_ret. split; [cbn [snd]; auto|]. exists [ft; st]. split; [cbn [snd]; auto|].
      cbn [fst]. destruct Hj as [-> | ->]; now constructor. }
    destruct i; try (apply Eq; auto; fail); clear Eq; destruct ft; repeat known;
      try (destruct w as [w|]; [|repeat known]; [try destruct w; repeat known]; fail);
      try (destruct w as [w|]; [destruct w|]; repeat known);
      try (apply yields_ret; split; [cbn [snd]; repeat (apply Forall_cons; [assumption|]); apply Forall_nil|];
           eexists; cbn [fst snd]; split; [repeat (apply Forall2_cons; [eassumption|]); apply Forall2_nil|]; econstructor; eauto 6; fail).
  - intros [t checked] [Ws (us & Hs & Bi)]. apply yields_ret. apply wt_node.
    + exists us. split; assumption.
    + intros x P. inversion P; subst. rewrite Forall_forall in Ws. auto.
Qed.

(** * Members *)

Lemma found_named p n l : forall i, find_named p n l = Done (Some i) -> In i l.
Proof.
  induction l as [|x l IH]; intros i; cbn [find_named]; [discriminate|]. intros E. apply obind_done in E as (m & _ & E).
  destruct (str_eqb m n); [injection E as <-; now left|right; auto].
Qed.
Lemma class_end p c k : extends p pF -> get_class p c = Done k -> get_class pF c = Done k.
Proof. apply extends_def_by. Qed.
Lemma base_ancestor c k b : get_class pF c = Done k -> cl_base k <> UNDEFINED -> ancestor pF (cl_base k) b -> ancestor pF c b.
Proof.
  intros E U (l & C & I). destruct (R _ _ E) as (N & m & Cm). exists (c :: l). split; [econstructor; eauto|now right].
Qed.
Lemma self_ancestor c k : get_class pF c = Done k -> ancestor pF c c.
Proof. intros E. destruct (R _ _ E) as (N & l & C). apply ancestor_refl; eauto. Qed.
Lemma field_end p n : extends p pF -> forall fuel c f, resolve_field_loop fuel p n c = Done f ->
  exists k, ancestor pF c k /\ In f (class_fields pF k).
Proof.
  intros X. induction fuel as [|fuel IH]; intros c f; cbn [resolve_field_loop]; [discriminate|]. intros E.
  apply obind_done in E as (k & K & E). apply pc_done in K. apply (class_end _ _ _ X) in K.
  apply obind_done in E as (r & F & E). destruct r as [i|].
  - injection E as <-. exists c. split; [eapply self_ancestor; exact K|]. unfold class_fields. rewrite K. eapply found_named, F.
  - destruct (Z.eqb_spec (cl_base k) UNDEFINED) as [|U]; cbn [negb] in E; [apply obind_done in E as (? & _ & E); discriminate|].
    destruct (resolve_field_loop fuel p n (cl_base k)) as [i|e] eqn:L.
    + injection E as <-. destruct (IH _ _ L) as (b & A & I). exists b. split; [eapply base_ancestor; eassumption|exact I].
    + destruct e; try discriminate E; destruct (def_name p c); discriminate.
Qed.
Lemma functions_in p n l : forall fs, functions_named p n l = Done fs -> forall f, In f fs -> In f l.
Proof.
  induction l as [|x l IH]; intros fs; cbn [functions_named]; [intros [= <-] f []|]. intros E.
  apply obind_done in E as (m & _ & E). apply obind_done in E as (r & E1 & E). injection E as <-. intros f I.
  destruct (str_eqb _ _); [destruct I as [<-|I]; [now left|]|]; right; eapply IH; eassumption.
Qed.
Lemma method_end p n : extends p pF -> forall fuel c fs, resolve_method_loop fuel p n c = Done fs ->
  forall f, In f fs -> exists k, ancestor pF c k /\ In f (class_functions pF k).
Proof.
  intros X. induction fuel as [|fuel IH]; intros c fs; cbn [resolve_method_loop]; destruct (Z.eqb_spec c UNDEFINED) as [|U]; try discriminate;
    try (intros [= <-] f []). intros E f I.
  apply obind_done in E as (k & K & E). apply pc_done in K. apply (class_end _ _ _ X) in K.
  apply obind_done in E as (gs & F & E). apply obind_done in E as (rest & L & E). injection E as <-.
  apply in_app_iff in I as [I|I].
  - exists c. split; [eapply self_ancestor; exact K|]. unfold class_functions. rewrite K. eapply functions_in; eassumption.
  - destruct (IH _ _ L _ I) as (b & A & J). exists b. split; [|exact J]. eapply base_ancestor; [exact K| |exact A].
    intros U'. destruct A as (l & C & Jl). rewrite U' in C. inversion C; subst; [destruct Jl|contradiction].
Qed.
Lemma methods_end p n c fs : extends p pF -> resolve_method p n c = Done fs ->
  forall f, In f fs -> exists k, ancestor pF c k /\ In f (class_functions pF k).
Proof.
  intros X E. unfold resolve_method in E. apply obind_done in E as (gs & L & E).
  assert (gs = fs) as -> by (destruct gs; [apply obind_done in E as (? & _ & E); discriminate|congruence]).
  eapply method_end; eassumption.
Qed.
Lemma member_end p n e m : extends p pF -> resolve_enum_member p n e = Done m -> exists k, get_enum pF e = Done k /\ In m (en_members k).
Proof.
  intros X E. unfold resolve_enum_member in E. apply obind_done in E as (k & K & E). apply pc_done in K.
  apply obind_done in E as (r & F & E). destruct r as [i|]; [|apply obind_done in E as (? & _ & E); discriminate]. injection E as <-.
  exists k. split; [exact (extends_def_by _ _ _ _ _ X K)|eapply found_named, F].
Qed.

Lemma yields_fields sp : forall args fields, length fields = length args ->
  yields (check_fields rec sp args fields) (fun xs => Forall wt xs /\ exists ts,
    Forall2 (fun f t => exists fd, get_field pF f = Done fd /\ entry s0 pF (fi_type fd) t) fields ts /\ Forall2 (suits s0 pF) xs ts).
Proof.
  induction args as [|a args IH]; intros [|f fields] L; cbn [check_fields length] in *; try discriminate.
  - apply yields_ret. split; [auto|exists []; auto].
  - bindw (fun fd => get_field pF f = Done fd).
    { apply yields_read. intros s p fd Bf E. apply pe_done in E. exact (extends_def_by _ _ _ _ _ (proj2 Bf) E). }
    intros fd F. bindw (entry s0 pF (fi_type fd)).
    { apply yields_read. intros s p t Bf E. eapply pool_type_end; eassumption. }
    intros t T. eapply yields_bind; [mv|intros; mv|apply yields_convert|]. intros x [W Su].
    eapply yields_bind; [mv|intros; mv|apply IH; lia|]. intros xs [Ws (ts & F2 & S2)].
    apply yields_ret. split; [now constructor|]. exists (t :: ts). split; [constructor; [eauto|exact F2]|now constructor].
Qed.

(** * One level *)

Lemma all_in {P : texpr -> Prop} l x : Forall P l -> In x l -> P x.
Proof. rewrite Forall_forall. auto. Qed.
Ltac node := apply yields_ret; apply wt_node; [|intros ? ?;
  match goal with P : part _ _ |- _ => inversion P; subst; clear P end; try assumption; try (eapply all_in; eassumption); try contradiction].
Lemma lub_all s p sp : before s p -> forall es acc t, lub_fold s p sp acc es = Done t ->
  under pF acc t /\ Forall (fun x => exists a, has s0 pF x a /\ under pF a t) es.
Proof.
  intros Bf. induction es as [|e es IH]; intros acc t; cbn [lub_fold]; [intros [= <-]; split; constructor|].
  intros E. apply obind_done in E as (u & T & E). apply obind_done in E as (acc' & L & E). apply span_done in L.
  destruct (lub_end _ (proj2 Bf) _ _ _ L) as [L1 L2]. destruct (IH _ _ E) as [I1 I2].
  split; [eapply under_trans; eassumption|]. constructor; [|exact I2]. exists u. split; [eapply type_end; eassumption|eapply under_trans; eassumption].
Qed.

Lemma yields_block (o : option (list sexpr)) : yields (mopt (fun b => scoped (check_seq rec b)) o)
  (fun d => match d with Some l => Forall wt l | None => True end).
Proof.
  destruct o as [b|]; cbn [mopt]; [|apply yields_ret; exact I].
  eapply yields_bind; [mv|intros; mv|apply yields_scoped; [mv|apply yields_seq]|]. intros l W. apply yields_ret. exact W.
Qed.
Lemma yields_step pm e w : yields (check_step pm rec e w) wt.
Proof.
  destruct e; cbn [check_step].
  - (* EIdent *) intros st x st' E G Re. destruct (resolve_reference _ _) as [rr|cc].
    + injection E as <- <-. apply wt_node; [exact I|]. intros y P. inversion P.
    + destruct pm; [|discriminate]. revert E G Re. apply yields_bind with (Q1 := fun _ => False); [mv|intros; mv|apply yields_report|]. intros ? [].
  - (* EConstant *) destruct w; [known|]; node; exact I.
  - (* EArrayLit *) destruct es as [|e1 es].
    + destruct w as [[]|]; repeat known. node. exists t0. auto.
    + match goal with |- yields (mbind (mmap ?f ?l) _) _ => apply yields_bind with (Q1 := Forall wt) end; [mv|intros; mv| |].
      { apply yields_map; [intros; mv|]. intros x. destruct w as [[]|]; try apply Hr. eapply yields_weak; [apply yields_convert|intros ? [Wc _]; exact Wc]. }
      intros [|x xs] W; [apply yields_fail|]. bindw (has s0 pF x); [apply yields_type|]. intros t0 H0.
      bindw (fun t => Forall (fun x => exists a, has s0 pF x a /\ under pF a t) (x :: xs)).
      { apply yields_read. intros s p t' Bf E. destruct (lub_all _ _ _ Bf _ _ _ E) as [L1 L2]. constructor; [eauto|exact L2]. }
      intros t' F. node. exists t'. auto.
  - (* EInterpolated *)
    match goal with |- yields (mbind (mmap ?f ?l) _) _ => apply yields_bind with (Q1 := Forall (fun x : texpr * str => wt (fst x))) end; [mv|intros; mv| |].
    { apply yields_map; [intros; mv|]. intros x. bindw (well_typed s0 pF); [apply Hr|]. intros y W. apply yields_ret. exact W. }
    intros ps W. node; [exact I|]. match goal with I : In _ ps |- _ => rewrite Forall_forall in W; apply (W _ I) end.
  - (* EDeclare *)
    match goal with |- yields (mbind ?m _) _ => apply yields_bind with (Q1 := fun r : option texpr * typeid =>
      match fst r with Some x => wt x /\ suits s0 pF x (snd r) | None => True end) end; [mv|intros; mv| |].
    { destruct t as [tn|], init.
      - bindw (fun _ : typeid => True); [apply yields_any|]. intros t _. eapply yields_bind; [mv|intros; mv|apply yields_convert|].
        intros x W. apply yields_ret. exact W.
      - bindw (fun _ : typeid => True); [apply yields_any|]. intros t _. apply yields_ret. exact I.
      - bindw (well_typed s0 pF); [apply Hr|]. intros x W. bindw (has s0 pF x); [apply yields_type|]. intros t H. apply yields_ret.
        split; [exact W|]. exists t. split; [exact H|constructor].
      - apply yields_failc. }
    intros [init' ty] W. cbn [fst snd] in W. eapply yields_bind; [mv|intros; mv|apply yields_local|]. intros lo Lo. node.
    + exists ty. split; [reflexivity|]. split; [exact Lo|]. destruct init'; [apply W|exact I].
    + apply W.
  - (* ECast *)
    bindw (fun _ : typeid => True); [apply yields_any|]. intros ty _. bindw (well_typed s0 pF); [apply Hr|]. intros x W.
    bindw (has s0 pF x); [apply yields_type|]. intros u H. destruct (strengthened _ _ W H) as [W' (v & V1 & V2 & _)]. node. exists v. auto.
  - (* EAssign *)
    bindw (well_typed s0 pF); [apply Hr|]. intros x W. bindw (has s0 pF x); [apply yields_type|]. intros t H.
    eapply yields_bind; [mv|intros; mv|apply yields_convert|]. intros y [Wy Sy]. node. exists t. auto.
  - (* ECall *)
    match goal with |- yields (mbind ?m _) _ => apply yields_bind with (Q1 := fun _ : option typeid => True) end; [mv|intros; mv|apply yields_any|].
    intros w' _. destruct (intrinsic_of_name _); [apply yields_intrinsic|].
    bindw (fun _ : list pidx => True); [apply yields_any|]. intros cands _.
    eapply yields_bind; [mv|intros [? ?]; mv|apply yields_overload|]. intros [f ys] (_ & A & W). cbn [fst snd] in *. node. exact A.
  - (* EMethodCall *)
    bindw (well_typed s0 pF); [apply Hr|]. intros x W. bindw (has s0 pF x); [apply yields_type|]. intros t H.
    destruct (strengthened _ _ W H) as [W' Rc].
    match goal with |- yields (mbind ?m _) _ => apply yields_bind with (Q1 := fun c => receiver_class s0 pF (strengthen x t) c) end; [mv|intros; mv| |].
    { destruct (ti_unwrapped t) eqn:U; repeat known; apply yields_ret; [left|right]; exact Rc. }
    intros c Cl. bindw (fun cands => forall f, In f cands -> exists k, ancestor pF c k /\ In f (class_functions pF k)).
    { apply yields_read. intros s p fs Bf E. apply span_done in E. eapply methods_end; [apply Bf|exact E]. }
    intros cands Hc. eapply yields_bind; [mv|intros [? ?]; mv|apply yields_overload|]. intros [g ys] (Ic & A & Ws). cbn [fst snd] in *. node.
    split; [|exact A]. destruct (Hc _ Ic) as (k & K1 & K2). exists c, k. auto.
  - (* EMember *)
    bindw (well_typed s0 pF); [apply Hr|]. intros x W. bindw (has s0 pF x); [apply yields_type|]. intros t H.
    destruct (strengthened _ _ W H) as [W' Rc].
    match goal with |- yields (mbind ?m _) _ => apply yields_bind with (Q1 := fun mb => forall sp, obeys s0 pF (EMember (N := typed_ast) (strengthen x t) mb sp)) end; [mv|intros; mv| |].
    { destruct (ti_unwrapped t) eqn:U; repeat known.
      - bindw (fun f => exists k, ancestor pF i k /\ In f (class_fields pF k)).
        { apply yields_read. intros s p f Bf E. apply span_done in E. eapply field_end; [apply Bf|exact E]. }
        intros f (k & K1 & K2). apply yields_ret. intros sp'. exists i, k. auto.
      - bindw (fun f => exists k, ancestor pF i k /\ In f (class_fields pF k)).
        { apply yields_read. intros s p f Bf E. apply span_done in E. eapply field_end; [apply Bf|exact E]. }
        intros f (k & K1 & K2). apply yields_ret. intros sp'. exists i, k. auto.
      - bindw (fun f => exists k, get_enum pF i = Done k /\ In f (en_members k)).
        { apply yields_read. intros s p f Bf E. apply span_done in E. eapply member_end; [apply Bf|exact E]. }
        intros f K. apply yields_ret. intros sp'. split; [exact Rc|exact K]. }
    intros mb O. node. apply O.
  - (* EArrayElem *)
    known. bindw (well_typed s0 pF); [apply Hr|]. intros x W. eapply yields_bind; [mv|intros; mv|apply yields_convert|]. intros y [Wy Sy]. node.
    exists a. auto.
  - (* ENew *)
    bindw (fun _ : typeid => True); [apply yields_any|]. intros ty _. destruct ty as [|c|c| | | | | | | | |]; repeat known.
    + bindw (fun k => get_class pF c = Done k).
      { apply yields_read. intros s p k Bf E. apply pe_done in E. exact (class_end _ _ _ (proj2 Bf) E). }
      intros k K. destruct (get_flag _ _) eqn:F; [repeat known|]. destruct args; [|repeat known]. node. split; [reflexivity|eauto].
    + bindw (fun k => get_class pF c = Done k).
      { apply yields_read. intros s p k Bf E. apply pe_done in E. exact (class_end _ _ _ (proj2 Bf) E). }
      intros k K. destruct (Nat.eqb_spec (length (cl_fields k)) (length args)) as [L|L]; cbn [negb]; [|repeat known].
      eapply yields_bind; [mv|intros; mv|apply yields_fields; exact L|]. intros xs [W (ts & T1 & T2)]. node. exists k, ts. auto.
  - (* EReturn *)
    match goal with |- yields (mbind ?m _) _ => apply yields_bind with (Q1 := fun fn => exists f, sc_function s0 = Some f /\ get_function pF f = Done fn) end.
    { intros st res st'. destruct (sc_function _); [|discriminate]. apply moves_read. }
    { intros; mv. }
    { intros st fn st' E G Re. destruct (sc_function (ts_scope st)) as [f|] eqn:F; [|discriminate].
      apply reading_done in E as [E ->]. apply pe_done in E. exists f. split; [|exact (extends_def_by _ _ _ _ _ (proj1 Re) E)].
      destruct G as [_ (_ & _ & N)]. congruence. }
    intros fn (f & F1 & F2). destruct e as [e|], (fu_return_type fn) as [ri|] eqn:Rt; repeat known.
    + bindw (entry s0 pF ri); [apply yields_read; intros s p t Bf E; eapply pool_type_end; eassumption|]. intros t T.
      eapply yields_bind; [mv|intros; mv|apply yields_convert|]. intros y [Wy Sy]. node. exists f, fn. rewrite Rt. eauto 6.
    + bindw (fun _ : typeid => True); [apply yields_any|]. intros t _. repeat known.
    + node. exists f, fn. rewrite Rt. auto.
  - (* ESeq *) eapply yields_bind; [mv|intros; mv|apply yields_seq|]. intros xs W. node. exact I.
  - (* ESwitch *)
    assert (Mt : forall x : texpr, moves (fun t => match type_of x (ts_scope t) (ts_pool t) with
                       | Done a => Done (Some a, t)
                       | Fail (ErrUnwind u) => Fail (ErrUnwind u)
                       | Fail _ => Done (None, t)
                       end)).
    { intros x st res st'. destruct (type_of _ _ _) as [|e']; [intros [= _ <-]; apply progress_refl|].
      destruct e'; try discriminate; intros [= _ <-]; apply progress_refl. }
    apply yields_bind with (Q1 := wt); [mv|intros; mv; apply Mt|apply Hr|]. intros x W.
    apply yields_bind with (Q1 := fun _ => True); [apply Mt|intros; mv|apply yields_any|]. intros mt _.
    match goal with |- yields (mbind (mmap ?f ?l) _) _ =>
      apply yields_bind with (Q1 := Forall (fun c : texpr * list texpr => wt (fst c) /\ Forall wt (snd c))) end; [mv|intros; mv| |].
    { apply yields_map; [intros; mv|]. intros c. bindw (well_typed s0 pF); [apply Hr|]. intros y Wy.
      eapply yields_bind; [mv|intros; mv|apply yields_scoped; [mv|apply yields_seq]|]. intros b Wb. apply yields_ret. split; assumption. }
    intros cs Wc. rewrite Forall_forall in Wc.
    match goal with |- yields (mbind ?m _) _ => apply yields_bind with (Q1 := fun d => match d with Some l => Forall wt l | None => True end) end; [mv|intros; mv| |].
    { apply yields_block. }
    intros d Wd. node; [exact I| |].
    + match goal with I : In _ cs |- _ => apply (Wc _ I) end.
    + match goal with I : In _ cs |- _ => eapply all_in; [apply (Wc _ I)|assumption] end.
  - node. exact I.
  - (* EIf *)
    known. eapply yields_bind; [mv|intros; mv|apply yields_convert|]. intros x [W S].
    eapply yields_bind; [mv|intros; mv|apply yields_scoped; [mv|apply yields_seq]|]. intros l Wl.
    eapply yields_bind; [mv|intros; mv|apply yields_block|]. intros r Wr. node. exists a. auto.
  - (* EConditional *)
    known. eapply yields_bind; [mv|intros; mv|apply yields_convert|]. intros x [W S].
    bindw (well_typed s0 pF); [apply Hr|]. intros l Wl. bindw (fun _ : typeid => True); [apply yields_any|]. intros ty _.
    bindw (well_typed s0 pF); [apply Hr|]. intros r Wr. node. exists a. auto.
  - (* EWhile *)
    known. eapply yields_bind; [mv|intros; mv|apply yields_convert|]. intros x [W S].
    eapply yields_bind; [mv|intros; mv|apply yields_scoped; [mv|apply yields_seq]|]. intros l Wl. node. exists a. auto.
  - (* EForIn *)
    bindw (well_typed s0 pF); [apply Hr|]. intros x W. bindw (has s0 pF x); [apply yields_type|]. intros t H.
    destruct t as [| | | | | |t| | | | |]; repeat known.
    match goal with |- yields (mbind ?m _) _ => apply yields_bind with (Q1 := fun r : pidx * list texpr => local_of pF (fst r) t /\ Forall wt (snd r)) end;
      [mv|intros [? ?]; mv| |].
    { apply yields_scoped; [mv|]. eapply yields_bind; [mv|intros; mv|apply yields_local|]. intros lo Lo.
      eapply yields_bind; [mv|intros; mv|apply yields_seq|]. intros b Wb. apply yields_ret. auto. }
    intros [lo b] [Lo Wb]. cbn [fst snd] in *. node. exists t. auto.
  - (* EBinOp *)
    bindw (fun _ : list pidx => True); [apply yields_any|]. intros cands _.
    eapply yields_bind; [mv|intros [? ?]; mv|apply yields_overload|]. intros [f ys] (_ & A & W). cbn [fst snd] in *. node. exact A.
  - (* EUnOp *)
    bindw (fun _ : list pidx => True); [apply yields_any|]. intros cands _.
    eapply yields_bind; [mv|intros [? ?]; mv|apply yields_overload|]. intros [f ys] (_ & A & W). cbn [fst snd] in *. node. exact A.
  - node. exact I.
  - node. exact I.
  - node. exact I.
  - node. exact I.
Qed.
End Rec.

Lemma yields_check fuel pm : forall e w, yields (check fuel pm e w) wt.
Proof.
  induction fuel as [|n IH]; intros e w; cbn [check]; [apply yields_fail|]. apply yields_step; [apply moves_check|exact IH].
Qed.
End Sound.
