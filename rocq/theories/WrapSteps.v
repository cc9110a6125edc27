(** The relations of WrapSpec hold for what the compiler does between the steps that
    concern wrapped methods. *)
From Coq Require Import String.
From Coq Require Import ZArith List Bool Lia.
From Verif Require Import Bytes Bytecode Definitions Bundle Ast Pool Scope TypeCheck SourceMap Cursor Assembler AssemblerFacts
  PoolSpec PoolFacts TypeIndexSpec TypeIndexFacts LabelFacts Wrappers WrapSpec WrapFacts.
Import ListNotations.
Open Scope Z_scope.

Definition inert (d : definition) : Prop := forall k, df_value d <> DClass k.
Definition passive (d : definition) : Prop := match df_value d with DClass _ | DFunction _ => False | _ => True end.
Lemma passive_inert d : passive d -> inert d.
Proof. unfold passive. intros H k E. now rewrite E in H. Qed.
(** New names and new definitions that are neither classes nor functions. *)
Definition adds (p p' : pool) : Prop :=
  (exists m, pl_defs p' = pl_defs p ++ m /\ Forall passive m) /\ prefix (st_list (pl_names p)) (st_list (pl_names p')) /\
  (fits p' -> names_ok p -> names_ok p').
Lemma adds_refl p : adds p p.
Proof. split; [exists []; split; [now rewrite app_nil_r|constructor]|]. split; [apply prefix_refl|auto]. Qed.
Lemma adds_size p p' : adds p p' -> size p <= size p'.
Proof. intros ((m & E & _) & _). unfold size. rewrite E, app_length. lia. Qed.
Lemma adds_trans p q r : adds p q -> adds q r -> adds p r.
Proof.
  intros A B. pose proof (adds_size _ _ B) as S. destruct A as ((m & E & F) & P & O), B as ((m' & E' & F') & P' & O').
  split; [exists (m ++ m'); split; [now rewrite E', E, app_assoc|now apply Forall_app]|].
  split; [exact (prefix_trans _ _ _ P P')|]. intros X Y. apply (O' X). apply O; [|exact Y]. exact (fits_back _ _ S P' X).
Qed.
Lemma adds_name p n p' i : add_name p n = (p', i) -> adds p p'.
Proof.
  intros E. split; [exists []; split; [rewrite app_nil_r; exact (add_name_defs _ _ _ _ E)|constructor]|]. split; [exact (add_name_grows _ _ _ _ E)|].
  intros F O. exact (proj1 (add_text _ _ _ _ E O F)).
Qed.
Lemma adds_def p d p' i : add_definition p d = (p', i) -> passive d -> adds p p'.
Proof.
  intros E K. pose proof (proj2 (add_def_grows _ _ _ _ E)) as N. split.
  - exists [d]. split; [|now repeat constructor]. revert E. unfold add_definition. intros [= <- _]. reflexivity.
  - rewrite N. split; [apply prefix_refl|]. unfold names_ok. now rewrite N.
Qed.
Lemma adds_gti t : forall s p i s' p', get_type_index t s p = Done (i, s', p') -> adds p p'.
Proof.
  induction t; intros s p k s' p' H; apply gti_cases in H as (name & En & [(_ & _ & ->)|(_ & p1 & ni & s1 & p2 & v & Ea & Ed & -> & C)]); try apply adds_refl;
    try contradiction; apply adds_name in Ea.
  all: assert (X : adds p p2) by (first [destruct C as (_ & -> & _); exact Ea | destruct C as (j & C & _); exact (adds_trans _ _ _ Ea (IHt _ _ _ _ _ C))]).
  all: apply (adds_trans _ _ _ X); apply adds_def in Ed; [exact Ed|exact I].
Qed.

(** The code generator only adds. *)
Definition slow {X} (m : A X) : Prop := forall t x c t1, m t = Done (x, c, t1) -> adds (as_pool t) (as_pool t1).
Lemma slow_same {X} (m : A X) : (forall t x c t1, m t = Done (x, c, t1) -> as_pool t1 = as_pool t) -> slow m.
Proof. intros H t x c t1 E. rewrite (H _ _ _ _ E). apply adds_refl. Qed.
Lemma slow_emit i : slow (emit i).
Proof. apply slow_same. intros t x c t1 E. apply emit_done in E. destruct E as (_ & ->). reflexivity. Qed.
Lemma slow_read {X} (f : scope -> pool -> outcome error X) : slow (aread f).
Proof. apply slow_same. intros t x c t1 E. apply aread_done in E. destruct E as (_ & _ & ->). reflexivity. Qed.
Lemma slow_ret {X} (x : X) : slow (aret x).
Proof. apply slow_same. intros t y c t1 E. apply aret_done in E. destruct E as (_ & _ & ->). reflexivity. Qed.
Lemma slow_fail {X} e : slow (@afail X e). Proof. intros t x c t1 E. discriminate E. Qed.
Lemma slow_failc {X} sp e : slow (@afailc X sp e).
Proof. intros t x c t1 E. unfold afailc, failc, with_span, map_err in E. discriminate E. Qed.
Lemma slow_bind {X Y} (m : A X) (k : X -> A Y) : slow m -> (forall x, slow (k x)) -> slow (abind m k).
Proof.
  intros M K t y c t2 E. apply abind_done in E. destruct E as (x & c1 & t1 & c2 & E1 & E2 & ->). exact (adds_trans _ _ _ (M _ _ _ _ E1) (K _ _ _ _ _ E2)).
Qed.
Lemma slow_type sp ty : slow (type_index sp ty).
Proof. intros t k c t1 E. apply type_index_done in E. destruct E as (_ & _ & E). exact (adds_gti _ _ _ _ _ _ E). Qed.
Lemma slow_literal k s : slow (literal_index k s).
Proof.
  intros t i c t1 E. apply literal_done in E. destruct E as (_ & _ & _ & E). destruct k; cbn [add_literal] in E.
  2: exact (adds_name _ _ _ _ E).
  all: destruct (st_add None _ s) as [n j]; injection E as E _; rewrite <- E;
    (split; [exists []; split; [now rewrite app_nil_r|constructor]|split; [apply prefix_refl|auto]]).
Qed.
Ltac slow := repeat match goal with
  | |- slow (abind _ _) => apply slow_bind; [|intros ?]
  | |- slow (emit _) => apply slow_emit
  | |- slow (aread _) => apply slow_read
  | |- slow (aret _) => apply slow_ret
  | |- slow (type_index _ _) => apply slow_type
  | |- slow (literal_index _ _) => apply slow_literal
  | |- slow (afail _) => apply slow_fail
  | |- slow (afailc _ _) => apply slow_failc
  | |- slow (if ?b then _ else _) => destruct b
  | |- slow (match ?b with _ => _ end) => destruct b
  end.
Lemma head_slow e h args : head_of e = Some (h, args) -> slow h.
Proof.
  intros H. destruct e; cbn [head_of] in H;
    repeat match type of H with match ?x with _ => _ end = _ => destruct x end; try discriminate H; injection H as <- <-.
  all: try (slow; fail).
  - unfold emit_constant. slow.
  - unfold emit_initializer. slow.
  - unfold emit_intrinsic, arg_type. slow.
Qed.
Definition more (t t1 : astate) : Prop := adds (as_pool t) (as_pool t1).
Lemma more_trans a b c : more a b -> more b c -> more a c. Proof. apply adds_trans. Qed.
Lemma more_bump t t1 : more (bump t) t1 -> more t t1. Proof. exact (fun H => H). Qed.
Lemma more_case body b t t0 t1 : match body with Some l => b = l /\ t0 = t | None => b = as_labels t /\ t0 = bump t end -> more (bump t0) t1 -> more t t1.
Proof. destruct body; intros [_ ->]; exact (fun H => H). Qed.
Lemma gens_adds :
  (forall e exit t c t1, gens e exit t c t1 -> more t t1) /\
  (forall exit d t c t1, gdefault exit d t c t1 -> more t t1) /\
  (forall es exit t c t1, gseq es exit t c t1 -> more t t1) /\
  (forall f args force t c t1, gcall f args force t c t1 -> more t t1) /\
  (forall args flags t c t1, gargs args flags t c t1 -> more t t1) /\
  (forall exit cases body next t c next' t1, gcases exit cases body next t c next' t1 -> more t t1).
Proof.
  apply gens_all; intros; repeat match goal with H : more (bump _) _ |- _ => apply more_bump in H end;
    try match goal with H : head_of _ = Some (?h, _), E : ?h _ = _ |- _ => pose proof (head_slow _ _ _ H _ _ _ _ E : more _ _) end;
    try match goal with E : type_index _ _ _ = _ |- _ => pose proof (slow_type _ _ _ _ _ _ E : more _ _) end;
    try match goal with H : match ?body with _ => _ end, K : more _ _ |- _ => apply (more_case _ _ _ _ _ H) in K end;
    repeat match goal with H : more (bump _) _ |- _ => apply more_bump in H end;
    repeat match goal with H : more ?t ?u |- more ?t _ => apply (more_trans _ _ _ H); clear H end; apply adds_refl.
Qed.
Lemma from_body_adds files body s p c s1 p1 : from_body files body s p = Done (c, s1, p1) -> adds p p1.
Proof.
  unfold from_body. destruct (asm_body files body _) as [[[u lc] t]|] eqn:EA; [|discriminate]. destruct u.
  destruct (into_code (as_labels t) lc) as [out|]; [|discriminate]. intros [= <- <- <-]. apply body_sound in EA as (lc' & GS & ->).
  destruct gens_adds as (_ & _ & G & _). exact (G _ _ _ _ _ GS).
Qed.

(** Adding. *)
Lemma adds_at p p' i d : adds p p' -> def_at p i = Some d -> def_at p' i = Some d.
Proof.
  intros ((m & E & _) & _) D. rewrite E. unfold nth_def in *. destruct (i <? 0); [discriminate|]. rewrite nth_error_app1; [exact D|]. apply nth_error_Some. congruence.
Qed.
Lemma adds_new p p' i d : adds p p' -> def_at p' i = Some d -> def_at p i = Some d \/ size p <= i /\ inert d.
Proof.
  intros ((m & E & F) & _) D. pose proof (at_bounds _ _ _ D) as B. rewrite E in D. unfold nth_def, size in *. destruct (i <? 0) eqn:N; [discriminate|].
  destruct (Nat.lt_ge_cases (Z.to_nat i) (length (pl_defs p))) as [L|L]; [left; now rewrite nth_error_app1 in D|].
  right. rewrite nth_error_app2 in D by exact L. split; [lia|]. rewrite Forall_forall in F. apply passive_inert, F. exact (nth_error_In _ _ D).
Qed.
Lemma adds_class p p' c k : adds p p' -> get_class p' c = Done k <-> get_class p c = Done k.
Proof.
  intros A. rewrite !class_at. split; intros (d & D & V); exists d; [|split; [exact (adds_at _ _ _ _ A D)|exact V]].
  apply (adds_new _ _ _ _ A) in D as [D|(_ & N)]; [now split|destruct (N k V)].
Qed.
Theorem keeps_adds own p p' : adds p p' -> fits p' -> Forall (fun i => i < size p) own -> keeps own p p' /\ bodies_only p p'.
Proof.
  intros A F O. split; [constructor|].
  - exact (proj2 (proj2 A) F).
  - exact (proj1 (proj2 A)).
  - intros i d D. exists d. split; [exact (adds_at _ _ _ _ A D)|reflexivity].
  - intros i I. rewrite Forall_forall in O. specialize (O i I). destruct (def_at p i) as [d|] eqn:D; [exact (adds_at _ _ _ _ A D)|].
    destruct (def_at p' i) as [d|] eqn:D'; [|reflexivity]. apply (adds_new _ _ _ _ A) in D' as [D'|(L & _)]; [congruence|lia].
  - intros i d x D _. exact (adds_at _ _ _ _ A D).
  - intros c k G. exists k. split; [now apply (adds_class _ _ _ _ A)|]. split; [reflexivity|apply incl_refl].
  - intros c i (k & G & H). left. exists k. split; [now apply (adds_class _ _ _ _ A)|exact H].
  - split; [|split; intros c k; apply (adds_class _ _ _ _ A)]. intros i d x D V. exists (fu_code x), (fu_locals x). rewrite (adds_at _ _ _ _ A D). destruct d; cbn in *. subst. now destruct x.
Qed.

(** Redefining a definition that is neither a class nor a parameter under its name. *)
Theorem keeps_put own p i d d' p' : put_def p i d' = Done p' -> def_at p i = Some d -> df_name d' = df_name d -> inert d -> inert d' ->
  (forall x, df_value d <> DParameter x) -> ~ In i own -> keeps own p p'.
Proof.
  intros E D N K K' NP NO. destruct (put_spec _ _ _ _ E) as (D' & O & NM & S).
  assert (CL : forall c k, get_class p' c = Done k <-> get_class p c = Done k).
  { intros c k. rewrite !class_at. destruct (Z.eq_dec c i) as [->|X]; [|rewrite (O c X); reflexivity].
    rewrite D, D'. split; intros (e & [= <-] & V); [destruct (K' k V)|destruct (K k V)]. }
  constructor.
  - unfold names_ok. now rewrite NM.
  - rewrite NM. apply prefix_refl.
  - intros j e De. destruct (Z.eq_dec j i) as [->|X]; [exists d'; split; [exact D'|congruence]|exists e; split; [now rewrite (O j X)|reflexivity]].
  - intros j I. apply O. intros ->. contradiction.
  - intros j e x De V. rewrite O; [exact De|]. intros ->. rewrite D in De. injection De as <-. destruct (NP x V).
  - intros c k G. exists k. split; [now apply CL|]. split; [reflexivity|apply incl_refl].
  - intros c j (k & G & H). left. exists k. split; [now apply CL|exact H].
Qed.
(** Adding a method to a class: @addMethod (unit.rs 751-783). *)
Theorem keeps_method own p n p1 ni p2 i c p3 : add_name p n = (p1, ni) -> add_definition p1 (stub ni) = (p2, i) -> push_member p2 c i = Done p3 ->
  names_ok p -> fits p3 -> plain n -> Forall (fun j => exists d, def_at p j = Some d /\ inert d) own -> keeps own p p3.
Proof.
  intros E1 E2 E3 OK F PL OW. destruct (push_spec _ _ _ _ E3) as (N3 & S3 & O3 & dc & k & Dc & Vc & Rc).
  assert (F2 : fits p2) by (revert F; apply fits_back; [lia|rewrite N3; apply prefix_refl]).
  destruct (add_def_spec _ _ _ _ E2 F2) as (I2 & D2 & O2 & N2 & S2). pose proof (add_name_defs _ _ _ _ E1) as D1. assert (S1 : size p1 = size p) by (unfold size; now rewrite D1).
  assert (A : adds p p2) by (apply (adds_trans _ p1); [exact (adds_name _ _ _ _ E1)|apply adds_def in E2; [exact E2|exact I]]).
  destruct (keeps_adds own _ _ A F2) as (K & _). { apply Forall_impl with (2 := OW). intros j (d & D & _). apply at_bounds in D. lia. }
  assert (F1 : fits p1) by (revert F2; apply fits_back; [lia|rewrite N2; apply prefix_refl]). destruct (add_text _ _ _ _ E1 OK F1) as (_ & T).
  assert (NI : i <> c) by (intros ->; rewrite D2 in Dc; injection Dc as <-; discriminate Vc).
  constructor.
  - intros O. unfold names_ok. rewrite N3. exact (keeps_ok _ _ _ K O).
  - rewrite N3. exact (keeps_names _ _ _ K).
  - intros j d D. apply (keeps_def _ _ _ K) in D as (d' & D' & N). destruct (push_at _ _ _ _ _ _ E3 D') as (d2 & D3 & NN). exists d2. split; [exact D3|congruence].
  - intros j H. rewrite O3; [exact (keeps_own _ _ _ K j H)|]. intros ->. rewrite Forall_forall in OW. destruct (OW c H) as (d & D & IN).
    rewrite (keeps_own _ _ _ K c H), D in Dc. injection Dc as <-. exact (IN k Vc).
  - intros j d x D V. rewrite O3; [exact (keeps_param _ _ _ K j d x D V)|]. intros ->. rewrite (keeps_param _ _ _ K c d x D V) in Dc. injection Dc as <-. congruence.
  - intros c' k' G. apply (keeps_class _ _ _ K) in G as (k2 & G & B & I). destruct (Z.eq_dec c' c) as [->|X].
    + apply class_at in G as (d & D & V). rewrite Dc in D. injection D as <-. rewrite Vc in V. injection V as <-.
      eexists. split; [apply class_at; eexists; split; [exact Rc|reflexivity]|]. cbn. split; [exact B|]. intros j H. apply in_or_app. left. now apply I.
    + exists k2. split; [rewrite (class_same p2); [exact G|now apply O3]|]. now split.
  - intros c' j M. apply (push_member_iff _ _ _ _ E3) in M as [M|(-> & ->)]; [|right].
    + apply (keeps_members _ _ _ K) in M as [M|(L & n' & N' & P')]; [now left|right]. split; [exact L|]. exists n'. split; [|exact P'].
      destruct (name_def _ _ _ N') as (d & D). destruct (push_at _ _ _ _ _ _ E3 D) as (d2 & D3 & NN). apply (name_same p2 p3 j d d2); [rewrite N3; apply prefix_refl|exact D|exact D3|exact NN|exact N'].
    + split; [change (size p <= i); lia|]. exists n. split; [|exact PL]. eapply name_at; [rewrite O3 by exact NI; exact D2|]. rewrite N3, N2. exact T.
Qed.

(** Sequences of steps. *)
Lemma keeps_self own p : keeps own p p.
Proof. constructor; auto; [apply prefix_refl|intros i d D; eauto|]. intros c k G. exists k. split; [exact G|]. split; [reflexivity|apply incl_refl]. Qed.
Theorem keeps_then own p q r : keeps own p q -> keeps own q r -> keeps own p r.
Proof.
  intros A B. constructor.
  - intros O. exact (keeps_ok _ _ _ B (keeps_ok _ _ _ A O)).
  - exact (prefix_trans _ _ _ (keeps_names _ _ _ A) (keeps_names _ _ _ B)).
  - intros i d D. destruct (keeps_def _ _ _ A i d D) as (d1 & D1 & N1). destruct (keeps_def _ _ _ B i d1 D1) as (d2 & D2 & N2). exists d2. split; [exact D2|congruence].
  - intros i I. rewrite (keeps_own _ _ _ B i I). exact (keeps_own _ _ _ A i I).
  - intros i d x D V. apply (keeps_param _ _ _ B i d x); [|exact V]. exact (keeps_param _ _ _ A i d x D V).
  - intros c k G. destruct (keeps_class _ _ _ A c k G) as (k1 & G1 & B1 & I1). destruct (keeps_class _ _ _ B c k1 G1) as (k2 & G2 & B2 & I2). exists k2. split; [exact G2|].
    split; [congruence|exact (incl_tran I1 I2)].
  - intros c i M. apply (keeps_members _ _ _ B) in M as [M|(L & n & N & P)].
    + apply (keeps_members _ _ _ A) in M as [M|(L & n & N & P)]; [now left|right]. split; [exact L|]. exists n. split; [exact (keeps_name _ _ _ _ _ B N)|exact P].
    + right. split; [|eauto]. pose proof (keeps_size _ _ _ A) as S. unfold size in S. lia.
Qed.
Lemma bodies_self p : bodies_only p p.
Proof. split; [|split; auto]. intros i d x D V. exists (fu_code x), (fu_locals x). rewrite D. destruct d; cbn in *. subst. now destruct x. Qed.
Theorem bodies_then p q r : bodies_only p q -> bodies_only q r -> bodies_only p r.
Proof.
  intros (A & A1 & A2) (B & B1 & B2). split; [|split; auto]. intros i d x D V. destruct (A i d x D V) as (c & ls & D1). destruct (B i _ _ D1 eq_refl) as (c2 & ls2 & D2). exists c2, ls2. exact D2.
Qed.
(** Installing a compiled body (unit.rs 299-304). *)
Theorem keeps_install files f body locals s p p' own : install files f body locals s p = Done p' -> fits p' -> ~ In f own ->
  Forall (fun i => i < size p) own -> keeps own p p' /\ bodies_only p p'.
Proof.
  unfold install. destruct (from_body files body s p) as [[[c s1] p1]|] eqn:E; [|discriminate]. cbn [obind]. intros U F NO OW. apply from_body_adds in E.
  destruct (update_spec _ _ _ _ U) as (d & x & D & V & D' & O & N & S). assert (F1 : fits p1) by (revert F; apply fits_back; [lia|rewrite N; apply prefix_refl]).
  destruct (keeps_adds own _ _ E F1 OW) as (K & B).
  assert (CL : forall c k, get_class p' c = Done k <-> get_class p1 c = Done k).
  { intros c' k. rewrite !class_at. destruct (Z.eq_dec c' f) as [->|X]; [|rewrite (O c' X); reflexivity]. rewrite D, D'. split; intros (e & [= <-] & W); [discriminate W|congruence]. }
  split; [apply (keeps_then _ _ p1 _ K)|apply (bodies_then _ p1 _ B)].
  - constructor.
    + unfold names_ok. now rewrite N.
    + rewrite N. apply prefix_refl.
    + intros j e De. destruct (Z.eq_dec j f) as [->|X]; [|exists e; split; [now rewrite (O j X)|reflexivity]]. rewrite D in De. injection De as <-. eexists. split; [exact D'|reflexivity].
    + intros j I. apply O. intros ->. contradiction.
    + intros j e y De W. rewrite O; [exact De|]. intros ->. rewrite D in De. injection De as <-. congruence.
    + intros c' k G. exists k. split; [now apply CL|]. split; [reflexivity|apply incl_refl].
    + intros c' j (k & G & H). left. exists k. split; [now apply CL|exact H].
  - split; [|split; intros c' k; apply CL]. intros j e y De W. destruct (Z.eq_dec j f) as [->|X].
    + rewrite D in De. injection De as <-. rewrite V in W. injection W as <-. exists c, locals. exact D'.
    + exists (fu_code y), (fu_locals y). rewrite (O j X), De. destruct e; cbn in *. subst. now destruct y.
Qed.
