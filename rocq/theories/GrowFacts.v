(** What the assembler and the type checker look up does not change as the pool
    and the scope grow. *)
From Coq Require Import String.
From Coq Require Import ZArith List Bool Lia.
From Verif Require Import Bytes BytesFacts Bytecode Definitions Bundle BundleFacts Ast TypeNames Pool Scope TypeCheck PoolSpec PoolFacts
  TypeIndexSpec TypeIndexFacts SourceMap Assembler AssemblerFacts LabelFacts Semantics BodySpec.
Import ListNotations.
Open Scope Z_scope.

Definition grows (x y : scope * pool) : Prop :=
  extends (snd x) (snd y) /\ scope_grows (fst x) (fst y) /\ sc_this (fst y) = sc_this (fst x).
Lemma grows_refl x : grows x x.
Proof. split; [apply extends_refl|]. split; [apply scope_grows_refl|reflexivity]. Qed.
Lemma grows_trans x y z : grows x y -> grows y z -> grows x z.
Proof. intros (A1 & A2 & A3) (B1 & B2 & B3). split; [eapply extends_trans; eassumption|]. split; [eapply scope_grows_trans; eassumption|congruence]. Qed.
Lemma knows_grows s s' : scope_grows s s' -> knows_literals s -> knows_literals s'.
Proof. intros [_ H] K c. destruct (K c) as [i E]. exists i. apply H, E. Qed.

Section Stable.
Variables (s s' : scope) (p p' : pool).
Hypothesis G : grows (s, p) (s', p').
Let E : extends p p' := proj1 G.
Let SG : scope_grows s s' := proj1 (proj2 G).

Lemma pc_done {A} (m : outcome pool_error A) x : pc m = Done x -> m = Done x.
Proof. unfold pc, map_err. destruct m; [intros [= ->]; reflexivity|discriminate]. Qed.

Lemma collect_stable n : forall m c r, (n <= m)%nat -> collect_supertypes n p c = Done r -> collect_supertypes m p' c = Done r.
Proof.
  induction n as [|n IH]; intros m c r L; cbn [collect_supertypes].
  - destruct m; cbn [collect_supertypes]; destruct (c =? UNDEFINED); try discriminate; auto.
  - destruct m as [|m]; [lia|]. cbn [collect_supertypes]. destruct (c =? UNDEFINED); [auto|].
    destruct (get_class p c) as [k|] eqn:K; [|discriminate]. assert (K' : get_class p' c = Done k) by exact (extends_def_by _ _ _ _ _ E K). rewrite K'. cbn [pc map_err obind].
    destruct (collect_supertypes n p (cl_base k)) as [x|] eqn:X; [|discriminate]. rewrite (IH m _ _ ltac:(lia) X). exact (fun H => H).
Qed.
Lemma fuel_grows : (pool_fuel p <= pool_fuel p')%nat.
Proof. unfold pool_fuel. destruct E as (H & _). apply prefix_length in H. lia. Qed.
Lemma lub_class_stable a b r : lub_class p a b = Done r -> lub_class p' a b = Done r.
Proof.
  unfold lub_class. destruct (collect_supertypes _ p a) as [x|] eqn:X; [|discriminate].
  cbn [obind]. destruct (collect_supertypes _ p b) as [y|] eqn:Y; [|discriminate].
  rewrite (collect_stable _ _ _ _ fuel_grows X), (collect_stable _ _ _ _ fuel_grows Y). cbn [obind].
  destruct (last_common x y); [exact (fun H => H)|]. destruct (def_name p a), (def_name p b); discriminate.
Qed.
Lemma lub_stable a : forall b r, lub p a b = Done r -> lub p' a b = Done r.
Proof.
  induction a; intros b r; cbn [lub]; destruct (typeid_eqb _ b); try exact (fun H => H);
    destruct b; try exact (fun H => H);
    try (intros H; exfalso; revert H;
         repeat match goal with |- context [pc ?m] => destruct m; cbn [pc map_err obind] end; discriminate);
    try (destruct (lub_class p _ _) as [x|] eqn:X; [|discriminate]; rewrite (lub_class_stable _ _ _ X); exact (fun H => H)).
  1,2: match goal with |- context [lub p ?x ?y] => destruct (lub p x y) as [z|] eqn:X; [|discriminate]; rewrite (IHa _ _ X); exact (fun H => H) end.
Qed.

Lemma from_pool_stable n : forall m i t, (n <= m)%nat ->
  resolve_type_from_pool_loop n s p i = Done t -> resolve_type_from_pool_loop m s' p' i = Done t.
Proof.
  induction n as [|n IH]; intros m i t L; [discriminate|]. destruct m as [|m]; [lia|]. cbn [resolve_type_from_pool_loop].
  destruct (get_type p i) as [x|] eqn:X; [|discriminate]. assert (X' : get_type p' i = Done x) by exact (extends_def_by _ _ _ _ _ E X). rewrite X'. cbn [pc map_err obind].
  destruct x; cbn [omap obind];
    try (match goal with |- context [resolve_type_from_pool_loop n s p ?j] => destruct (resolve_type_from_pool_loop n s p j) as [y|] eqn:Y; [|discriminate] end;
         rewrite (IH m _ _ ltac:(lia) Y); exact (fun H => H));
    (destruct (def_name p i) as [nm|] eqn:N; [|discriminate]); rewrite (extends_def_name _ _ _ _ E N); cbn [pc map_err obind]; [exact (fun H => H)|].
  rewrite (symbol_type_grows _ _ SG). exact (fun H => H).
Qed.
Lemma pool_type_stable sp i t : pool_type s p sp i = Done t -> pool_type s' p' sp i = Done t.
Proof.
  unfold pool_type, resolve_type_from_pool. destruct (resolve_type_from_pool_loop _ s p i) as [x|] eqn:X; [|discriminate].
  rewrite (from_pool_stable _ _ _ _ fuel_grows X). exact (fun H => H).
Qed.
Lemma literal_type_stable c sp t : knows_literals s -> named_type s p sp (constant_type c) = Done t -> named_type s' p' sp (constant_type c) = Done t.
Proof.
  intros K. destruct (K c) as [i I]. pose proof (proj2 SG _ _ I) as I'.
  assert (B : exists n, constant_type c = TypeName n None) by (destruct c as [[]| | | | | | |]; eexists; reflexivity).
  destruct B as [n B]. rewrite B in *. unfold named_type. cbn [resolve_type]. rewrite I, I'.
  unfold resolve_type_from_pool. destruct (resolve_type_from_pool_loop _ s p i) as [x|] eqn:X; [|discriminate].
  rewrite (from_pool_stable _ _ _ _ fuel_grows X). exact (fun H => H).
Qed.

Lemma def_stable {A} (f : any_def -> option A) i x : def_by f p i = Done x -> def_by f p' i = Done x.
Proof. apply extends_def_by, E. Qed.
Lemma pe_stable {A B} (f : any_def -> option A) i (k k' : A -> outcome error B) r :
  (forall x r, k x = Done r -> k' x = Done r) ->
  (let* x := pe (def_by f p i) in k x) = Done r -> (let* x := pe (def_by f p' i) in k' x) = Done r.
Proof.
  intros H. destruct (def_by f p i) as [x|] eqn:X; [|discriminate]. rewrite (def_stable _ _ _ X). cbn [pe map_err obind]. apply H.
Qed.
Lemma type_of_stable e : knows_literals s -> forall t, type_of e s p = Done t -> type_of e s' p' = Done t.
Proof.
  intros K. induction e using expr_ind'; intros ty; cbn [type_of];
    repeat match goal with |- context [match ?x with _ => _ end] => is_var x; destruct x end; try exact (fun H => H); try discriminate;
    try (apply literal_type_stable; exact K); try (apply (literal_type_stable (CString LString [])); exact K);
    try (apply pe_stable; intros x r; try apply pool_type_stable; try (destruct (fu_return_type x); [apply pool_type_stable|exact (fun H => H)]); fail).
  all: try (match goal with |- context [pe (ti_pretty p ?t)] => destruct (ti_pretty p t); discriminate end).
  - destruct (type_of e s p) as [x|] eqn:X; [|discriminate]. rewrite (IHe _ eq_refl). exact (fun H => H).
  - destruct (type_of e1 s p) as [x|] eqn:X; [|discriminate]. rewrite (IHe1 _ eq_refl). cbn [obind].
    destruct x; try exact (fun H => H); intros H; exfalso; revert H; destruct (ti_pretty p _); discriminate.
  - match goal with |- context [type_of ?a s p] => destruct (type_of a s p) as [x|] eqn:X; [|discriminate] end.
    cbn [obind]. match goal with |- context [type_of ?a s p] => destruct (type_of a s p) as [y|] eqn:Y; [|discriminate] end.
    cbn [obind]. intros H. destruct (lub p x y) as [z|] eqn:Z; [|discriminate].
    repeat match goal with IH : forall t, Done _ = Done t -> _ |- _ => rewrite (IH _ eq_refl); clear IH end.
    cbn [obind]. rewrite (lub_stable _ _ _ Z). exact H.
  - pose proof (proj2 (proj2 G)) as T. cbn [fst] in T. rewrite T. exact (fun H => H).
  - pose proof (proj2 (proj2 G)) as T. cbn [fst] in T. rewrite T. destruct (sc_this s); [|exact (fun H => H)]. apply pe_stable. auto.
Qed.
End Stable.

(** Each step of the assembler grows the state. *)
Definition state_of (t : astate) : scope * pool := (as_scope t, as_pool t).
(** What holds all along while a body is assembled, if the final pool is small. *)
Definition fine (t : astate) : Prop := pool_ok (as_pool t) /\ types_named (as_scope t) (as_pool t) /\ knows_literals (as_scope t).

Lemma gti_this t : forall s p i s' p', get_type_index t s p = Done (i, s', p') -> sc_this s' = sc_this s.
Proof.
  induction t; intros s p k s' p' H; apply gti_cases in H as (name & En & [(_ & -> & _)|(_ & p1 & ni & s1 & p2 & v & Ea & Ed & -> & C)]); try reflexivity;
    cbn [sc_add_type sc_this]; try contradiction; try (destruct C as (-> & _); reflexivity); destruct C as (j & C & _); exact (IHt _ _ _ _ _ C).
Qed.
Lemma gti_scope t : forall s p i s' p', get_type_index t s p = Done (i, s', p') -> scope_grows s s'.
Proof.
  induction t; intros s p k s' p' H; apply gti_cases in H as (name & En & [(_ & -> & _)|(N & p1 & ni & s1 & p2 & v & Ea & Ed & -> & C)]); try apply scope_grows_refl;
    try contradiction.
  all: assert (Gs : scope_grows s s1) by (first [destruct C as (-> & _); apply scope_grows_refl | destruct C as (j & C & _); exact (IHt _ _ _ _ _ C)]).
  all: destruct Gs as [G1 G2]; split; [exact G1|]; intros n z I; change (am_find (sc_types (sc_add_type s1 name k)) n) with (if str_eqb name n then Some k else am_find (sc_types s1) n);
       destruct (str_eqb_spec name n) as [<-|]; [congruence|apply G2, I].
Qed.

(** An action grows the state and keeps it fine, if the result is small. *)
Definition steady {X} (m : A X) : Prop := forall t x c t1, m t = Done (x, c, t1) ->
  grows (state_of t) (state_of t1) /\ (small (as_pool t1) -> fine t -> fine t1).
Lemma steady_same {X} (m : A X) : (forall t x c t1, m t = Done (x, c, t1) -> state_of t1 = state_of t) -> steady m.
Proof.
  intros H t x c t1 E. apply H in E. unfold state_of, fine in *. injection E as E1 E2. rewrite E1, E2. split; [apply grows_refl|auto].
Qed.
Lemma steady_emit i : steady (emit i).
Proof. apply steady_same. intros t x c t1 E. apply emit_done in E. destruct E as (_ & ->). reflexivity. Qed.
Lemma steady_read {X} (f : scope -> pool -> outcome error X) : steady (aread f).
Proof. apply steady_same. intros t x c t1 E. apply aread_done in E. destruct E as (_ & _ & ->). reflexivity. Qed.
Lemma steady_ret {X} (x : X) : steady (aret x).
Proof. apply steady_same. intros t y c t1 E. apply aret_done in E. destruct E as (_ & _ & ->). reflexivity. Qed.
Lemma steady_fail {X} e : steady (@afail X e). Proof. intros t x c t1 E. discriminate E. Qed.
Lemma steady_failc {X} sp e : steady (@afailc X sp e).
Proof. intros t x c t1 E. unfold afailc, failc, with_span, map_err in E. discriminate E. Qed.
Lemma steady_bind {X Y} (m : A X) (k : X -> A Y) : steady m -> (forall x, steady (k x)) -> steady (abind m k).
Proof.
  intros M K t y c t2 E. apply abind_done in E. destruct E as (x & c1 & t1 & c2 & E1 & E2 & ->).
  destruct (M _ _ _ _ E1) as [G1 F1]. destruct (K _ _ _ _ _ E2) as [G2 F2]. split; [eapply grows_trans; eassumption|].
  intros Sm F. apply F2; [exact Sm|]. apply F1; [|exact F]. eapply extends_small; [exact (proj1 G2)|exact Sm].
Qed.
Lemma type_index_grows sp ty t k c t1 : type_index sp ty t = Done (k, c, t1) ->
  grows (state_of t) (state_of t1) /\ (small (as_pool t1) -> fine t -> fine t1 /\
    exists n, ti_repr (as_pool t) ty = Done n /\ def_name (as_pool t1) k = Done n).
Proof.
  intros E. apply type_index_done in E. destruct E as (_ & _ & E). split.
  - split; [exact (inner_extends _ _ _ _ _ _ E)|]. split; [exact (gti_scope _ _ _ _ _ _ E)|exact (gti_this _ _ _ _ _ _ E)].
  - intros Sm (P & T & K). destruct (request_names _ _ _ _ _ _ E P Sm T) as (P' & T' & _ & n & R & N & _).
    split; [|exists n; auto]. split; [exact P'|split; [exact T'|]]. eapply knows_grows; [exact (gti_scope _ _ _ _ _ _ E)|exact K].
Qed.
Lemma steady_type sp ty : steady (type_index sp ty).
Proof. intros t x c t1 E. destruct (type_index_grows _ _ _ _ _ _ E) as [G F]. split; [exact G|]. intros Sm Fi. apply (F Sm Fi). Qed.
Lemma literal_grows k s t i c t1 : literal_index k s t = Done (i, c, t1) ->
  grows (state_of t) (state_of t1) /\ (small (as_pool t1) -> fine t -> fine t1 /\ text_at (as_pool t1) k i = Some s).
Proof.
  intros E. apply literal_done in E. destruct E as (_ & _ & Es & E).
  assert (X : extends (as_pool t) (as_pool t1) /\ (small (as_pool t1) -> pool_ok (as_pool t) -> pool_ok (as_pool t1) /\ text_at (as_pool t1) k i = Some s)).
  { destruct k; cbn [add_literal] in E.
    - destruct (st_add None (pl_strings (as_pool t)) s) as [n j] eqn:A. injection E as E <-. rewrite <- E.
      assert (Pr : prefix (st_list (pl_strings (as_pool t))) (st_list n)).
      { revert A. unfold st_add. destruct (sm_find _ _); intros [= <- _]; [apply prefix_refl|]. now exists [s]. }
      split; [unfold extends; cbn; auto using prefix_refl|]. intros Sm (P1 & P2 & P3 & P4).
      destruct (add_indexed None (pl_strings (as_pool t)) s P4) as (I1 & I2 & I3 & _); [rewrite A; apply Sm|]. rewrite A in *. cbn [fst snd] in *.
      split; [split; [exact P1|split; [exact P2|split; [exact P3|exact I1]]]|]. unfold text_at; cbn [pl_strings]. rewrite I3. reflexivity.
    - split; [exact (add_name_extends _ _ _ _ E)|]. intros Sm P. destruct (add_name_spec _ _ _ _ E P Sm) as (Q & _ & N & _).
      split; [exact Q|]. unfold text_at. rewrite N. reflexivity.
    - destruct (st_add None (pl_resources (as_pool t)) s) as [n j] eqn:A. injection E as E <-. rewrite <- E.
      assert (Pr : prefix (st_list (pl_resources (as_pool t))) (st_list n)).
      { revert A. unfold st_add. destruct (sm_find _ _); intros [= <- _]; [apply prefix_refl|]. now exists [s]. }
      split; [unfold extends; cbn; auto using prefix_refl|]. intros Sm (P1 & P2 & P3 & P4).
      destruct (add_indexed None (pl_resources (as_pool t)) s P3) as (I1 & I2 & I3 & _); [rewrite A; apply Sm|]. rewrite A in *. cbn [fst snd] in *.
      split; [split; [exact P1|split; [exact P2|split; [exact I1|exact P4]]]|]. unfold text_at; cbn [pl_resources]. rewrite I3. reflexivity.
    - destruct (st_add None (pl_tweakdb (as_pool t)) s) as [n j] eqn:A. injection E as E <-. rewrite <- E.
      assert (Pr : prefix (st_list (pl_tweakdb (as_pool t))) (st_list n)).
      { revert A. unfold st_add. destruct (sm_find _ _); intros [= <- _]; [apply prefix_refl|]. now exists [s]. }
      split; [unfold extends; cbn; auto using prefix_refl|]. intros Sm (P1 & P2 & P3 & P4).
      destruct (add_indexed None (pl_tweakdb (as_pool t)) s P2) as (I1 & I2 & I3 & _); [rewrite A; apply Sm|]. rewrite A in *. cbn [fst snd] in *.
      split; [split; [exact P1|split; [exact I1|split; [exact P3|exact P4]]]|]. unfold text_at; cbn [pl_tweakdb]. rewrite I3. reflexivity. }
  destruct X as [X1 X2]. split.
  - unfold state_of, grows. cbn [fst snd]. rewrite Es. split; [exact X1|]. split; [apply scope_grows_refl|reflexivity].
  - intros Sm (P & T & K). destruct (X2 Sm P) as [Q Te]. split; [|exact Te]. unfold fine. rewrite Es.
    split; [exact Q|]. split; [eapply types_named_extends; eassumption|exact K].
Qed.
Lemma steady_literal k s : steady (literal_index k s).
Proof. intros t x c t1 E. destruct (literal_grows _ _ _ _ _ _ E) as [G F]. split; [exact G|]. intros Sm Fi. apply (F Sm Fi). Qed.

Ltac steady := repeat match goal with
  | |- steady (abind _ _) => apply steady_bind; [|intros ?]
  | |- steady (emit _) => apply steady_emit
  | |- steady (aread _) => apply steady_read
  | |- steady (aret _) => apply steady_ret
  | |- steady (type_index _ _) => apply steady_type
  | |- steady (literal_index _ _) => apply steady_literal
  | |- steady (afail _) => apply steady_fail
  | |- steady (afailc _ _) => apply steady_failc
  | |- steady (if ?b then _ else _) => destruct b
  | |- steady (match ?b with _ => _ end) => destruct b
  end.
Lemma head_steady e h args : head_of e = Some (h, args) -> steady h.
Proof.
  intros H. destruct e; cbn [head_of] in H;
    repeat match type of H with match ?x with _ => _ end = _ => destruct x end; try discriminate H; injection H as <- <-.
  all: try (steady; fail).
  - unfold emit_constant. steady.
  - unfold emit_initializer. steady.
  - unfold emit_intrinsic, arg_type. steady.
Qed.

Definition keeps (t t1 : astate) : Prop := grows (state_of t) (state_of t1) /\ (small (as_pool t1) -> fine t -> fine t1).
Lemma keeps_refl t : keeps t t. Proof. split; [apply grows_refl|auto]. Qed.
Lemma keeps_trans a b c : keeps a b -> keeps b c -> keeps a c.
Proof.
  intros [G1 F1] [G2 F2]. split; [eapply grows_trans; eassumption|].
  intros Sm F. apply F2; [exact Sm|]. apply F1; [|exact F]. eapply extends_small; [exact (proj1 G2)|exact Sm].
Qed.
Lemma keeps_bump t t1 : keeps (bump t) t1 -> keeps t t1. Proof. exact (fun H => H). Qed.
Lemma keeps_case body b t t0 t1 : match body with Some l => b = l /\ t0 = t | None => b = as_labels t /\ t0 = bump t end -> keeps (bump t0) t1 -> keeps t t1.
Proof. destruct body; intros [_ ->]; exact (fun H => H). Qed.
Lemma gens_keeps :
  (forall e exit t c t1, gens e exit t c t1 -> keeps t t1) /\
  (forall exit d t c t1, gdefault exit d t c t1 -> keeps t t1) /\
  (forall es exit t c t1, gseq es exit t c t1 -> keeps t t1) /\
  (forall f args force t c t1, gcall f args force t c t1 -> keeps t t1) /\
  (forall args flags t c t1, gargs args flags t c t1 -> keeps t t1) /\
  (forall exit cases body next t c next' t1, gcases exit cases body next t c next' t1 -> keeps t t1).
Proof.
  apply gens_all; intros; repeat match goal with H : keeps (bump _) _ |- _ => apply keeps_bump in H end;
    try match goal with H : head_of _ = Some (?h, _), E : ?h _ = _ |- _ => pose proof (head_steady _ _ _ H _ _ _ _ E : keeps _ _) end;
    try match goal with E : type_index _ _ _ = _ |- _ => pose proof (steady_type _ _ _ _ _ _ E : keeps _ _) end;
    try match goal with H : match ?body with _ => _ end, K : keeps _ _ |- _ => apply (keeps_case _ _ _ _ _ H) in K end;
    repeat match goal with H : keeps (bump _) _ |- _ => apply keeps_bump in H end;
    repeat match goal with H : keeps ?t ?u |- keeps ?t _ => apply (keeps_trans _ _ _ H); clear H end; apply keeps_refl.
Qed.
