(** Programs whose array literals come before everything with an effect do the same
    after desugaring: expressions. *)
From Coq Require Import String.
From Coq Require Import ZArith List Bool Lia.
From Verif Require Import Bytes BytesFacts Bytecode Definitions Bundle Ast TypeNames Pool Scope TypeCheck PartsSpec PoolSpec PoolFacts TypeIndexSpec TypeIndexFacts
  Semantics BodySpec GrowFacts Desugar SugarSpec DesugarFacts SugarFacts.
Import ListNotations.
Open Scope Z_scope.

Lemma then_assoc {A B C} (a : answer A) (k : A -> answer B) (h : B -> answer C) : then_ (then_ a k) h = then_ a (fun x => then_ (k x) h).
Proof. destruct a; reflexivity. Qed.

(** * Plain expressions *)

Lemma plain_part x e : plain e -> part x e -> plain x.
Proof. intros F P y W. apply F. econstructor; eassumption. Qed.
Lemma plain_parts l e : (forall x, In x l -> part x e) -> plain e -> Forall plain l.
Proof. intros P N. apply Forall_forall. intros x I. eapply plain_part; [exact N|apply P, I]. Qed.
Lemma dmap_same {A} (f : A -> D A) l d : Forall (fun x => forall d, f x d = Done (x, d)) l -> dmap f l d = Done (l, d).
Proof.
  induction 1 as [|x l H _ IH]; cbn [dmap]; [reflexivity|]. unfold dbind. rewrite H, IH. reflexivity.
Qed.
Lemma plain_same e : plain e -> forall d, on_expr e d = Done (e, d).
Proof.
  induction e using expr_ind'; intros Pl dd; try (destruct (Pl _ (wi_here _))); cbn [on_expr]; try reflexivity; unfold dbind.
  - rewrite IHe by (eapply plain_part; [exact Pl|constructor]). reflexivity.
  - rewrite IHe1 by (eapply plain_part; [exact Pl|constructor]). rewrite IHe2 by (eapply plain_part; [exact Pl|constructor]). reflexivity.
  - rewrite dmap_same; [reflexivity|]. apply (forall_mp _ _ _ H). eapply plain_parts; [|exact Pl]. intros; constructor; assumption.
  - rewrite IHe by (eapply plain_part; [exact Pl|constructor]). rewrite dmap_same; [reflexivity|]. apply (forall_mp _ _ _ H). eapply plain_parts; [|exact Pl]. intros; constructor; assumption.
  - rewrite IHe by (eapply plain_part; [exact Pl|constructor]). reflexivity.
  - rewrite IHe1 by (eapply plain_part; [exact Pl|constructor]). rewrite IHe2 by (eapply plain_part; [exact Pl|constructor]). reflexivity.
  - rewrite dmap_same; [reflexivity|]. apply (forall_mp _ _ _ H). eapply plain_parts; [|exact Pl]. intros; constructor; assumption.
  - rewrite IHe1 by (eapply plain_part; [exact Pl|apply pt_cond]). rewrite IHe2 by (eapply plain_part; [exact Pl|apply pt_cond_then]).
    rewrite IHe3 by (eapply plain_part; [exact Pl|apply pt_cond_else]). reflexivity.
  - rewrite IHe1 by (eapply plain_part; [exact Pl|constructor]). rewrite IHe2 by (eapply plain_part; [exact Pl|constructor]). reflexivity.
  - rewrite IHe by (eapply plain_part; [exact Pl|constructor]). reflexivity.
Qed.

Section Plain.
Variables (R : runtime) (Y : arrays R) (s : scope) (p : pool).
Notation evp := (eval R s p).
Notation sev := (seval R Y s p).
Lemma eval_all_ext (ev ev' : texpr -> state R -> answer (value R * state R)) l : Forall (fun e => forall w, ev e w = ev' e w) l ->
  forall w, eval_all R ev l w = eval_all R ev' l w.
Proof. induction 1 as [|e l H _ IH]; intros w; cbn [eval_all]; [reflexivity|]. rewrite H. destruct (ev' e w) as [[v u]|]; cbn [then_]; [|reflexivity]. rewrite IH. reflexivity. Qed.
Lemma strict_ext (ev ev' : texpr -> state R -> answer (value R * state R)) o l : Forall (fun e => forall w, ev e w = ev' e w) l ->
  forall w, strict R ev o l w = strict R ev' o l w.
Proof. intros H w. unfold strict. destruct o; cbn [need then_]; [|reflexivity]. rewrite (eval_all_ext _ _ _ H). reflexivity. Qed.
Lemma eval_args_ext (ev ev' : texpr -> state R -> answer (value R * state R)) o this l : Forall (fun e => forall w, ev e w = ev' e w) l ->
  forall params acc w, eval_args R ev o this l params acc w = eval_args R ev' o this l params acc w.
Proof.
  induction 1 as [|e l H _ IH]; intros params acc w; cbn [eval_args]; [reflexivity|]. destruct params; [reflexivity|]. rewrite IH.
  destruct (b && _); [reflexivity|]. rewrite H. destruct (ev' e w) as [[v u]|]; cbn [then_]; [|reflexivity]. apply IH.
Qed.
Lemma eval_call_ext (ev ev' : texpr -> state R -> answer (value R * state R)) f sup this l : Forall (fun e => forall w, ev e w = ev' e w) l ->
  forall w, eval_call R p ev f sup this l w = eval_call R p ev' f sup this l w.
Proof.
  intros H w. unfold eval_call. destruct (callee_of p f sup); cbn [need then_]; [|reflexivity]. destruct (short_params p f); cbn [need then_]; [|reflexivity].
  rewrite (eval_args_ext _ _ _ _ _ H). reflexivity.
Qed.
Lemma seval_plain e : plain e -> forall w, sev e w = evp e w.
Proof.
  induction e using expr_ind'; intros Pl w; try (destruct (Pl _ (wi_here _))); cbn [seval eval]; try reflexivity.
  - destruct t; try reflexivity. apply strict_ext. repeat constructor. apply IHe. eapply plain_part; [exact Pl|constructor].
  - apply strict_ext. repeat constructor; [apply IHe1|apply IHe2]; (eapply plain_part; [exact Pl|constructor]).
  - assert (F : Forall (fun e => forall w, sev e w = evp e w) args) by (apply (forall_mp _ _ _ H); eapply plain_parts; [|exact Pl]; intros; constructor; assumption).
    destruct c; [apply eval_call_ext, F|apply strict_ext, F].
  - assert (F : Forall (fun e => forall w, sev e w = evp e w) args) by (apply (forall_mp _ _ _ H); eapply plain_parts; [|exact Pl]; intros; constructor; assumption).
    assert (E : forall w, sev e w = evp e w) by (apply IHe; eapply plain_part; [exact Pl|constructor]).
    assert (G : forall sup, (ask (v, u) := sev e w in if is_null R v u then Ans (no_value R, u) else eval_call R p sev f sup (Some v) args u) =
      (ask (v, u) := evp e w in if is_null R v u then Ans (no_value R, u) else eval_call R p evp f sup (Some v) args u)).
    { intros sup. rewrite E. destruct (evp e w) as [[v u]|]; cbn [then_]; [|reflexivity]. destruct (is_null R v u); [reflexivity|]. apply eval_call_ext, F. }
    destruct e; try apply G. destruct r as [|[]]; try apply G; apply eval_call_ext, F.
  - assert (E : forall w, sev e w = evp e w) by (apply IHe; eapply plain_part; [exact Pl|constructor]). destruct m; try reflexivity.
    + rewrite E. reflexivity.
    + apply strict_ext. repeat constructor. exact E.
  - apply strict_ext. repeat constructor; [apply IHe1|apply IHe2]; (eapply plain_part; [exact Pl|constructor]).
  - destruct t; try reflexivity. apply strict_ext. apply (forall_mp _ _ _ H); eapply plain_parts; [|exact Pl]; intros; constructor; assumption.
  - rewrite IHe1 by (eapply plain_part; [exact Pl|apply pt_cond]). destruct (evp e1 w) as [[v u]|]; cbn [then_]; [|reflexivity].
    rewrite IHe2 by (eapply plain_part; [exact Pl|apply pt_cond_then]). rewrite IHe3 by (eapply plain_part; [exact Pl|apply pt_cond_else]). reflexivity.
Qed.
End Plain.

(** * Expressions *)

Section Sim.
Variables (R : runtime) (Y : arrays R) (takes : op -> nat -> Prop) (s0 : scope) (p0 : pool) (s : scope) (p : pool).
Notation temp := (fun i => size p0 <= i).
Variable T : temporaries R Y p temp takes.
Notation St := (state R).
Notation Val := (value R).
Notation ev := (eval R s p).
Notation sev := (seval R Y s p).

Hypothesis Small : small p.
Hypothesis Lits : knows_literals s0.
Definition base (d : dstate) : Prop := grows (s0, p0) (ds_scope d, ds_pool d) /\ sound d.
Definition final (d : dstate) : Prop := grows (ds_scope d, ds_pool d) (s, p).
Notation typed_ok := (typed_ok s0 p0 s p).
Lemma typed_part x e : typed_ok e -> part x e -> typed_ok x.
Proof. intros F P y W. apply F. econstructor; eassumption. Qed.
Lemma final_before d d' : dgrows d d' -> final d' -> final d.
Proof. intros G F. exact (grows_trans _ _ _ G F). Qed.
Lemma final_small d : final d -> small (ds_pool d).
Proof. intros (E & _). exact (extends_small _ _ E Small). Qed.
Lemma base_prefix l d : base d -> base (set_prefix l d).
Proof. intros [G [S1 S2]]. split; [exact G|split; assumption]. Qed.
Lemma base_low d : base d -> size p0 <= len d.
Proof. intros [(E & _) _]. exact (extends_size _ _ E). Qed.
Lemma base_known d t : base d -> known s0 p0 t -> known (ds_scope d) (ds_pool d) t.
Proof. intros [(E & G & _) _]. exact (known_grows _ _ _ _ _ E G). Qed.

(** What is put in front of a statement, and its effect. *)
Definition simple (e : texpr) : Prop := match e with ECall _ _ _ _ | EAssign _ _ _ => True | _ => False end.
Definition does : list texpr -> St -> answer St :=
  fix go l w := match l with [] => Ans w | e :: l' => ask (_, u) := ev e w in go l' u end.
Lemma does_app l m w : does (l ++ m) w = ask u := does l w in does m u.
Proof. revert w. induction l as [|e l IH]; intros w; [reflexivity|]. cbn [app does]. destruct (ev e w) as [[v u]|]; cbn [then_]; [apply IH|reflexivity]. Qed.
Lemma run_simple N l m w : Forall simple l -> run_all R (run R s p N) (l ++ m) w = ask u := does l w in run_all R (run R s p N) m u.
Proof.
  intros H. revert w. induction H as [|e l He _ IH]; intros w; [reflexivity|]. cbn [app run_all does].
  assert (E : run R s p N e w = ask (_, w1) := ev e w in Ans (Normal R w1)) by (destruct e; try contradiction; reflexivity). rewrite E.
  destruct (ev e w) as [[v u]|]; cbn [then_]; [apply IH|reflexivity].
Qed.

Definition outside (d d' : dstate) (i : pidx) : Prop := i < len d \/ len d' <= i.
Definition valrel (F : pidx -> Prop) (w2 : St) (x y : Val * St) : Prop := fst y = fst x /\ clean T (fst x) /\ alike T (snd x) (snd y) /\ kept T F w2 (snd y).
Definition simN (F : pidx -> Prop) (f : St -> answer (Val * St)) (f' : St -> answer (Val * St)) (new : list texpr) : Prop := forall w w2, alike T w w2 ->
  f w = Halt Malformed \/ ((forall u, does new w2 = Ans u -> kept T F w2 u) /\ arel (valrel F w2) (f w) (ask u := does new w2 in f' u)).
Definition litrel (F : pidx -> Prop) (i : pidx) (w2 : St) (x : Val * St) (u2 : St) : Prop :=
  load Y (place T i) u2 = fst x /\ settled Y (fst x) /\ clean T (fst x) /\ alike T (snd x) u2 /\ kept T F w2 u2.
Definition simL (F : pidx -> Prop) (i : pidx) (e : texpr) (new : list texpr) : Prop := forall w w2, alike T w w2 ->
  mrel (litrel F i w2) (sev e w) (does new w2).
Definition sim (d d' : dstate) (e e' : texpr) (new : list texpr) : Prop :=
  if literal_node e then exists i sp, e' = tident (RValue (VLocal i)) sp /\ len d <= i < len d' /\ simL (outside d d') i e new
  else simN (outside d d') (sev e) (ev e') new.
Definition good (e : texpr) : Prop := nb (size p0) e -> typed_ok e -> early s p takes e -> forall d e' d', on_expr e d = Done (e', d') -> base d -> final d' ->
  exists new, ds_prefix d' = ds_prefix d ++ new /\ Forall simple new /\ base d' /\ type_of e' s p = type_of e s p /\ sim d d' e e' new.

Lemma kept_less (F G : pidx -> Prop) w u : (forall i, temp i -> G i -> F i) -> kept T F w u -> kept T G w u.
Proof. intros H K i Ti Gi. apply K; auto. Qed.
Lemma outside_split d d1 d' i : len d <= len d1 -> len d1 <= len d' -> outside d d' i -> outside d d1 i /\ outside d1 d' i.
Proof. unfold outside. lia. Qed.

Lemma plain_good d e : nb (size p0) e -> plain e -> simN (outside d d) (sev e) (ev e) [].
Proof.
  intros N Pl w w2 A. right. split; [intros u [= <-]; apply kept_refl|]. cbn [does then_]. rewrite (seval_plain R Y s p e Pl).
  eapply arel_weaken; [|apply (eval_same T s e N w w2 A)]. intros x y (H1 & H2 & H3 & H4). split; [exact H1|]. split; [exact H2|]. split; [exact H3|]. apply kept_all, H4.
Qed.
Lemma plain_not_literal e : plain e -> literal_node e = false.
Proof. intros P. specialize (P _ (wi_here _)). destruct e; try reflexivity. contradiction. Qed.
Lemma good_plain e d e' d' : nb (size p0) e -> plain e -> on_expr e d = Done (e', d') -> base d ->
  exists new, ds_prefix d' = ds_prefix d ++ new /\ Forall simple new /\ base d' /\ type_of e' s p = type_of e s p /\ sim d d' e e' new.
Proof.
  intros N Pl E B. rewrite (plain_same e Pl) in E. injection E as <- <-. exists []. rewrite app_nil_r. split; [reflexivity|]. split; [constructor|]. split; [exact B|].
  split; [reflexivity|]. unfold sim. rewrite (plain_not_literal e Pl). apply plain_good; assumption.
Qed.

(** Arguments. *)
Definition argrel (o : option op) (n : nat) (F : pidx -> Prop) (w2 : St) (x y : list (option Val) * St) : Prop :=
  (length (fst x) = length (fst y))%nat /\
  (forall k, nth_error (fst x) k = nth_error (fst y) k \/
     (exists o', o = Some o' /\ takes o' (n + k)%nat) /\
     exists i, temp i /\ nth_error (fst y) k = Some (Some (place T i)) /\ nth_error (fst x) k = Some (Some (load Y (place T i) (snd y)))) /\
  Forall (opt_all (clean T)) (fst x) /\ alike T (snd x) (snd y) /\ kept T F w2 (snd y).
Definition argsim (o : option op) (n : nat) (F : pidx -> Prop) (args args' : list texpr) (new : list texpr) : Prop := forall w w2, alike T w w2 ->
  eval_all R sev args w = Halt Malformed \/
  ((forall u, does new w2 = Ans u -> kept T F w2 u) /\ arel (argrel o n F w2) (eval_all R sev args w) (ask u := does new w2 in eval_all R ev args' u)).

Lemma inert_value e : inert e = true -> nb (size p0) e -> plain e /\ exists v, clean T v /\ (forall w, sev e w = Ans (v, w)) /\ forall w, ev e w = Ans (v, w).
Proof.
  intros I N. assert (Pl : plain e).
  { intros x W. inversion W as [|? ? P W2]; subst; [destruct e; try discriminate; exact Logic.I|]. destruct e; try discriminate; inversion P. }
  split; [exact Pl|]. assert (S : forall w, sev e w = ev e w) by (intros w; apply seval_plain, Pl).
  assert (X : exists v, clean T v /\ forall w, ev e w = Ans (v, w)).
  { specialize (N _ (wi_here _)). destruct e; try discriminate; cbn [eval]; unfold perform.
    - destruct r as [[i|i]|]; [| |discriminate].
      + exists (place T i). split; [apply (t_clean_local _ _ _ _ _ T); exact N|]. intros w. rewrite (t_local _ _ _ _ _ T). reflexivity.
      + exists (param T i). split; [apply (t_clean_param _ _ _ _ _ T)|]. intros w. rewrite (t_param _ _ _ _ _ T). reflexivity.
    - eexists. split; [apply (t_clean_const _ _ _ _ _ T)|]. intros w. rewrite (t_const _ _ _ _ _ T). reflexivity.
    - eexists. split; [apply (t_clean_self _ _ _ _ _ T)|]. intros w. rewrite (t_this _ _ _ _ _ T). reflexivity.
    - eexists. split; [apply (t_clean_self _ _ _ _ _ T)|]. intros w. rewrite (t_this _ _ _ _ _ T). reflexivity.
    - eexists. split; [apply (t_clean_const _ _ _ _ _ T)|]. intros w. rewrite (t_const _ _ _ _ _ T). reflexivity. }
  destruct X as (v & C & X). exists v. split; [exact C|]. split; [intros w; rewrite S; apply X|exact X].
Qed.

Lemma plain_args o n d l : Forall (nb (size p0)) l -> Forall plain l -> argsim o n (outside d d) l l [].
Proof.
  intros N Pl w w2 A. right. split; [intros u [= <-]; apply kept_refl|]. cbn [does then_].
  rewrite (eval_all_ext R sev ev) by (eapply Forall_impl; [|exact Pl]; intros e Pe w'; apply seval_plain, Pe).
  eapply arel_weaken; [|apply (eval_all_same T ev ev l); [|exact A]].
  - intros [vs u] [vs2 u2] (H1 & H2 & H3 & H4). cbn [fst snd] in *. subst vs2. split; [reflexivity|]. split; [left; reflexivity|]. split; [exact H2|].
    split; [exact H3|]. apply kept_all, H4.
  - eapply Forall_impl; [|exact N]. intros e Ne. exact (eval_same T s e Ne).
Qed.
Lemma args_sim o args : Forall good args -> forall n d args' d', early_args takes (early s p takes) o n args ->
  Forall (nb (size p0)) args -> Forall typed_ok args -> dmap on_expr args d = Done (args', d') -> base d -> final d' ->
  exists new, ds_prefix d' = ds_prefix d ++ new /\ Forall simple new /\ base d' /\ Forall2 (fun a' a => type_of a' s p = type_of a s p) args' args /\
    argsim o n (outside d d') args args' new.
Proof.
  induction 1 as [|a args Ga _ IH]; intros n d args' d' Ea N Ty E B Fi; cbn [dmap early_args] in *.
  { injection E as <- <-. exists []. rewrite app_nil_r. split; [reflexivity|]. split; [constructor|]. split; [exact B|]. split; [constructor|].
    apply plain_args; constructor. }
  apply Forall_cons_iff in N as [Na N]. apply Forall_cons_iff in Ty as [Ta Ty]. destruct Ea as (E1 & E2 & E3).
  unfold dbind in E. destruct (on_expr a d) as [[a' d1]|] eqn:Oa; [|discriminate]. destruct (dmap on_expr args d1) as [[rest d2]|] eqn:Or; [|discriminate].
  injection E as <- <-.
  assert (G2 : dgrows d1 d2) by (refine (steps_map _ _ _ _ _ _ Or); apply Forall_forall; intros; apply steps_expr).
  assert (G1 : dgrows d d1) by exact (steps_expr _ _ _ _ Oa).
  destruct (Ga Na Ta E1 d a' d1 Oa B (final_before _ _ G2 Fi)) as (new1 & P1 & S1 & B1 & T1 & X1).
  pose proof (dgrows_len _ _ G1) as L1. pose proof (dgrows_len _ _ G2) as L2.
  assert (K : forall w u u2, kept T (outside d d1) w u -> kept T (outside d1 d2) u u2 -> kept T (outside d d2) w u2).
  { intros w u u2 K1 K2. eapply kept_trans; [eapply kept_less; [|exact K1]|eapply kept_less; [|exact K2]]; intros i _ O; apply (outside_split d d1 d2 i L1 L2 O). }
  destruct (literal_node a) eqn:La; [|destruct (inert a) eqn:Ia]; cbn [orb] in E3.
  - destruct (IH (S n) d1 rest d2 E3 N Ty Or B1 Fi) as (new2 & P2 & S2 & B2 & T2 & X2). exists (new1 ++ new2).
    split; [rewrite P2, P1, app_assoc; reflexivity|]. split; [apply Forall_app; auto|]. split; [exact B2|]. split; [constructor; assumption|].
    unfold sim in X1. rewrite La in X1. destruct X1 as (i & sp & -> & Hi & X1). intros w w2 A. cbn [eval_all].
    assert (Ti : temp i) by (pose proof (base_low _ B); lia).
    destruct (X1 w w2 A) as [->|H]; [left; reflexivity|]. rewrite does_app.
    destruct (sev a w) as [[v u]|h], (does new1 w2) as [u1|h1]; cbn [arel] in H; try contradiction; cbn [then_]; [|right; split; [discriminate|exact H]].
    destruct H as (H1 & H2 & H3 & H4 & H5). cbn [fst snd] in *.
    destruct (X2 u u1 H4) as [->|[Q1 Q2]]; [left; reflexivity|]. right. split; [intros x Hx; eapply K; [exact H5|apply Q1, Hx]|].
    destruct (does new2 u1) as [u2|h2]; cbn [then_] in *.
    2: { destruct (eval_all R sev args u) as [[vs u3]|h3]; cbn [arel then_] in *; [contradiction|exact Q2]. }
    rewrite (eval_place T s). cbn [then_]. eapply arel_bind; [exact Q2|]. intros [vs u3] [vs2 u4] (R1 & R2 & R3 & R4 & R5). cbn [fst snd then_] in *.
    assert (Lv : load Y (place T i) u4 = v) by (rewrite (R5 i Ti ltac:(unfold outside; lia)); exact H1).
    split; [cbn [fst length]; lia|]. split; [|split; [|split; [exact R4|eapply K; eassumption]]].
    + intros [|k]; cbn [fst snd nth_error].
      * right. split; [rewrite Nat.add_0_r; apply E2; reflexivity|]. exists i. split; [exact Ti|]. rewrite Lv. auto.
      * destruct (R2 k) as [Q|Q]; [left; exact Q|]. right. rewrite Nat.add_succ_r. exact Q.
    + constructor; [exact H3|exact R3].
  - destruct (inert_value a Ia Na) as (Pl & v & Cv & V1 & V2). rewrite (plain_same a Pl) in Oa. injection Oa as <- <-.
    destruct (IH (S n) d rest d2 E3 N Ty Or B1 Fi) as (new2 & P2 & S2 & B2 & T2 & X2). exists new2.
    split; [exact P2|]. split; [exact S2|]. split; [exact B2|]. split; [constructor; assumption|].
    intros w w2 A. cbn [eval_all]. rewrite V1. cbn [then_]. destruct (X2 w w2 A) as [->|[Q1 Q2]]; [left; reflexivity|]. right. split; [exact Q1|].
    destruct (does new2 w2) as [u2|h2]; cbn [then_] in *.
    2: { destruct (eval_all R sev args w) as [[vs u3]|h3]; cbn [arel then_] in *; [contradiction|exact Q2]. }
    rewrite V2. cbn [then_]. eapply arel_bind; [exact Q2|]. intros [vs u3] [vs2 u4] (R1 & R2 & R3 & R4 & R5). cbn [fst snd then_] in *.
    split; [cbn [fst length]; lia|]. split; [|split; [constructor; [exact Cv|exact R3]|split; [exact R4|exact R5]]].
    intros [|k]; cbn [fst snd nth_error]; [left; reflexivity|]. destruct (R2 k) as [Q|Q]; [left; exact Q|]. right. rewrite Nat.add_succ_r. exact Q.
  - rewrite (dmap_same on_expr args d1) in Or by (eapply Forall_impl; [|exact E3]; exact plain_same). injection Or as <- <-. exists new1.
    split; [exact P1|]. split; [exact S1|]. split; [exact B1|]. split; [constructor; [exact T1|]; clear; induction args; constructor; auto|].
    unfold sim in X1. rewrite La in X1. intros w w2 A. cbn [eval_all]. destruct (X1 w w2 A) as [->|[Q1 Q2]]; [left; reflexivity|].
    pose proof (plain_args o (S n) d1 args N E3) as X2.
    assert (M : mrel (argrel o n (outside d d1) w2) (ask (v, w1) := sev a w in ask (vs, w2) := eval_all R sev args w1 in Ans (Some v :: vs, w2))
      (ask u := does new1 w2 in ask (v, w1) := ev a' u in ask (vs, w2) := eval_all R ev args w1 in Ans (Some v :: vs, w2))).
    2: { destruct M as [M|M]; [left; exact M|right; split; [exact Q1|exact M]]. }
    destruct (does new1 w2) as [u1|h1]; cbn [then_] in *; [|destruct (sev a w); cbn [arel then_] in *; [contradiction|right; exact Q2]].
    eapply mrel_bind; [right; exact Q2|]. intros [v u] [v2 u2] (V1 & V2 & V3 & V4). cbn [fst snd] in *. subst v2.
    destruct (X2 u u2 V3) as [->|[_ Q3]]; [left; reflexivity|]. right. cbn [does then_] in Q3. eapply arel_bind; [exact Q3|].
    intros [vs u3] [vs2 u4] (R1 & R2 & R3 & R4 & R5). cbn [fst snd] in *.
    split; [cbn [fst length]; lia|]. split; [|split; [constructor; [exact V2|exact R3]|split; [exact R4|]]].
    + intros [|k]; cbn [fst snd nth_error]; [left; reflexivity|]. destruct (R2 k) as [Q|Q]; [left; exact Q|]. right. rewrite Nat.add_succ_r. exact Q.
    + cbn [snd]. eapply K; [exact V4|exact R5].
Qed.

(** Operations on them. *)
Definition no_temp (o : op) : Prop := forall i, temp i -> o <> OpLocal i.
Lemma perform_sim o this tail F w2 x y : argrel (Some o) 0 F w2 x y -> no_temp o -> opt_all (clean T) this -> Forall (opt_all (clean T)) tail ->
  arel (valrel F w2) (perform R o this (fst x ++ tail) (snd x)) (perform R o this (fst y ++ tail) (snd y)).
Proof.
  intros (R1 & R2 & R3 & R4 & R5) No Ct Cl.
  assert (E : perform R o this (fst y ++ tail) (snd y) = perform R o this (fst x ++ tail) (snd y)).
  { unfold perform. rewrite (t_takes _ _ _ _ _ T o this (fst x ++ tail) (fst y ++ tail) (snd y)); [reflexivity|rewrite !app_length; lia|].
    intros k. destruct (Nat.lt_ge_cases k (length (fst x))) as [L|L].
    - rewrite !nth_error_app1 by lia. destruct (R2 k) as [Q|[(o' & [= <-] & Tk) Q]]; [left; exact Q|right; split; [exact Tk|exact Q]].
    - left. rewrite !nth_error_app2 by lia. rewrite R1. reflexivity. }
  rewrite E. eapply arel_weaken; [|apply (perform_same T o this (fst x ++ tail) (snd x) (snd y) No Ct); [apply Forall_app; auto|exact R4]].
  intros a b (H1 & H2 & H3 & H4). split; [exact H1|]. split; [exact H2|]. split; [exact H3|]. eapply kept_trans; [exact R5|]. apply kept_all, H4.
Qed.
Lemma strict_sim o F args args' new : argsim o 0 F args args' new -> (forall i, temp i -> o <> Some (OpLocal i)) ->
  simN F (strict R sev o args) (strict R ev o args') new.
Proof.
  intros X No w w2 A. unfold strict. destruct o as [o|]; cbn [need then_]; [|left; reflexivity].
  destruct (X w w2 A) as [->|[Q1 Q2]]; [left; reflexivity|]. right. split; [exact Q1|].
  destruct (does new w2) as [u|h]; cbn [then_] in *; [|destruct (eval_all R sev args w); cbn [arel then_] in *; [contradiction|exact Q2]].
  eapply arel_bind; [exact Q2|]. intros [vs u1] [vs2 u2] Q. pose proof (perform_sim o None [] F w2 _ _ Q) as P. cbn [fst snd] in P. rewrite !app_nil_r in P.
  apply P; [intros i Ti ->; exact (No i Ti eq_refl)|exact I|constructor].
Qed.
Lemma args_full (e : texpr -> St -> answer (Val * St)) o this args : forall params acc w, Forall (eq false) params -> (length args <= length params)%nat ->
  eval_args R e o this args params acc w = ask (vs, u) := eval_all R e args w in Ans (acc ++ vs ++ repeat None (length params - length args), u).
Proof.
  induction args as [|a args IH]; intros params acc w Fp L; cbn [eval_args eval_all then_].
  - cbn [length app]. rewrite Nat.sub_0_r. reflexivity.
  - destruct params as [|b params]; [cbn in L; lia|]. apply Forall_cons_iff in Fp as [<- Fp]. cbn [andb]. destruct (e a w) as [[v u]|]; cbn [then_]; [|reflexivity].
    rewrite IH by (try assumption; cbn in L; lia). destruct (eval_all R e args u) as [[vs u1]|]; cbn [then_]; [|reflexivity]. cbn [length Nat.sub]. rewrite <- app_assoc. reflexivity.
Qed.
Lemma clean_none k : Forall (opt_all (clean T)) (repeat None k).
Proof. induction k; constructor; [exact I|assumption]. Qed.
Lemma call_sim f super o this F args args' new : full_call p f super (length args) o -> length args' = length args -> argsim (Some o) 0 F args args' new -> opt_all (clean T) this ->
  simN F (eval_call R p sev f super this args) (eval_call R p ev f super this args') new.
Proof.
  intros (c & -> & Ec & Ep) L X Ct w w2 A. unfold eval_call. rewrite Ec. cbn [need then_]. destruct (short_params p f) as [params|]; cbn [need then_]; [|left; reflexivity].
  destruct (Ep params eq_refl) as [Fp Lp]. destruct (X w w2 A) as [H|[Q1 Q2]].
  - left. rewrite args_full by assumption. rewrite H. reflexivity.
  - right. split; [exact Q1|]. rewrite args_full by assumption. destruct (does new w2) as [u|h]; cbn [then_] in *; [|destruct (eval_all R sev args w); cbn [arel then_] in *; [contradiction|exact Q2]].
    rewrite args_full by (try assumption; lia). rewrite L.
    destruct (eval_all R sev args w) as [[vs u1]|h1], (eval_all R ev args' u) as [[vs2 u2]|h2]; cbn [arel then_] in *; try contradiction; [|exact Q2].
    cbn [app]. apply (perform_sim (OpCall c) this _ F w2 (vs, u1) (vs2, u2) Q2); [intros i _; discriminate|exact Ct|apply clean_none].
Qed.

(** Array literals. *)
Section Literal.
Variables (i : pidx) (sp : span).
Notation Loc := (RValue (VLocal i)).
Hypothesis Ti : temp i.
Hypothesis Type_ : exists t n, static_type s p (tident Loc sp) = Some (TIArray t) /\ static_name s p (tident Loc sp) = Some n.
Definition element_of (k : Z) (e : texpr) : texpr := EAssign (N := typed_ast) (EArrayElem (tident Loc sp) (EConstant (CU64 k) sp) sp) e sp.
Lemma element_assign k l e u : load Y (place T i) u = array Y l -> Forall (settled Y) l -> (k < length l)%nat ->
  ev (element_of (Z.of_nat k) e) u = ask (v, u1) := ev e u in perform R OpAssign None [Some (cell T i k); Some v] u1.
Proof.
  intros L S Hk. unfold element_of. cbn [eval]. unfold strict at 1. cbn [need then_ eval_all eval].
  destruct Type_ as (t & n & E1 & E2). rewrite E1, E2. cbn [bind_opt]. unfold strict. cbn [need then_ eval_all]. rewrite (eval_place T s). cbn [then_].
  rewrite (eval_con T s). cbn [then_ const_of]. unfold perform at 1.
  rewrite (t_element _ _ _ _ _ T i l k n (con T (KUint 64 (Z.of_nat k))) u Ti S L Hk (or_intror (t_load_con _ _ _ _ _ T _ _))). cbn [then_].
  destruct (ev e u) as [[v u1]|]; reflexivity.
Qed.
Lemma update_at {A} (pre : list A) y post x : firstn (length pre) (pre ++ y :: post) ++ x :: skipn (S (length pre)) (pre ++ y :: post) = (pre ++ [x]) ++ post.
Proof.
  rewrite firstn_app, firstn_all, Nat.sub_diag. cbn [firstn]. rewrite app_nil_r, skipn_app.
  rewrite skipn_all2 by lia. replace (S (length pre) - length pre)%nat with 1%nat by lia. cbn [skipn app]. rewrite <- app_assoc. reflexivity.
Qed.
Definition fine (v : Val) : Prop := settled Y v /\ clean T v.
Lemma fine_settled l : Forall fine l -> Forall (settled Y) l.
Proof. apply Forall_impl. intros v H. apply H. Qed.
Definition elrel (d d' : dstate) (w2 : St) (pre : list Val) (x : list Val * St) (u2 : St) : Prop :=
  load Y (place T i) u2 = array Y (pre ++ fst x) /\ Forall fine (fst x) /\ alike T (snd x) u2 /\ kept T (fun j => j <> i /\ outside d d' j) w2 u2.
Lemma elements_sim es : Forall good es -> every (early s p takes) es -> Forall (nb (size p0)) es -> Forall typed_ok es ->
  forall k d d', array_elements on_expr Loc sp (Z.of_nat k) es d = Done (tt, d') -> base d -> final d' -> i < len d ->
  exists new, ds_prefix d' = ds_prefix d ++ new /\ Forall simple new /\ base d' /\
    forall w w2 pre post, alike T w w2 -> load Y (place T i) w2 = array Y (pre ++ post) -> Forall fine (pre ++ post) -> length pre = k -> length post = length es ->
    mrel (elrel d d' w2 pre) (load_all R Y sev es w) (does new w2).
Proof.
  induction 1 as [|e es Ge Hes IH]; intros Ea N Ty k d d' E B Fi Li; cbn [array_elements every] in *.
  { injection E as <-. exists []. rewrite app_nil_r. split; [reflexivity|]. split; [constructor|]. split; [exact B|].
    intros w w2 pre post A L Fp _ Lp. right. cbn [load_all does]. destruct post; [|discriminate]. split; [exact L|]. split; [constructor|]. split; [exact A|apply kept_refl]. }
  apply Forall_cons_iff in N as [Ne N]. apply Forall_cons_iff in Ty as [Te Ty]. destruct Ea as (E1 & E3).
  unfold dbind in E. destruct (on_expr e d) as [[e' d1]|] eqn:Oe; [|discriminate]. cbn [add_prefix] in E.
  set (d1' := set_prefix (ds_prefix d1 ++ [element_of (Z.of_nat k) e']) d1) in *.
  assert (E' : array_elements on_expr Loc sp (Z.of_nat (S k)) es d1' = Done (tt, d')) by (rewrite Nat2Z.inj_succ; exact E). clear E.
  assert (G2 : dgrows d1' d') by (refine (steps_elements _ _ _ _ _ _ _ _ _ E'); apply Forall_forall; intros; apply steps_expr).
  assert (G1 : dgrows d d1) by exact (steps_expr _ _ _ _ Oe).
  destruct (Ge Ne Te E1 d e' d1 Oe B (final_before _ _ G2 Fi)) as (new1 & P1 & S1 & B1 & T1 & X1).
  assert (B1' : base d1') by apply base_prefix, B1.
  pose proof (dgrows_len _ _ G1) as L1. pose proof (dgrows_len _ _ G2) as L2. change (len d1') with (len d1) in L2.
  destruct (IH E3 N Ty (S k) d1' d' E' B1' Fi ltac:(change (len d1') with (len d1); lia)) as (new2 & P2 & S2 & B2 & X2).
  exists (new1 ++ element_of (Z.of_nat k) e' :: new2).
  split; [rewrite P2; unfold d1'; cbn [set_prefix ds_prefix]; rewrite P1, <- !app_assoc; reflexivity|].
  split; [apply Forall_app; split; [exact S1|]; constructor; [exact I|exact S2]|]. split; [exact B2|].
  intros w w2 pre post A L Fp Lk Lp. subst k. destruct post as [|y post]; [discriminate|].
  assert (Hk : (length pre < length (pre ++ y :: post))%nat) by (rewrite app_length; cbn [length]; lia).
  rewrite does_app. cbn [load_all does].
  assert (Next : forall v u u2, alike T u u2 -> load Y (place T i) u2 = array Y (pre ++ y :: post) -> kept T (fun j => j <> i /\ outside d d1 j) w2 u2 -> fine v -> forall x, load Y x u2 = v ->
    mrel (elrel d d' w2 pre) (ask (vs, w3) := load_all R Y sev es u in Ans (v :: vs, w3)) (ask (_, u3) := perform R OpAssign None [Some (cell T i (length pre)); Some x] u2 in does new2 u3)).
  { intros v u u2 Au Lu Ku Fv x Lx. unfold perform.
    destruct (t_assign_cell _ _ _ _ _ T i (length pre) (pre ++ y :: post) x u2 Ti (fine_settled _ Fp) Lu Hk) as [z ->]. cbn [then_].
    rewrite update_at, Lx.
    assert (Fp' : Forall fine ((pre ++ [v]) ++ post)).
    { apply Forall_app in Fp as [F1 F2]. apply Forall_cons_iff in F2 as [_ F2]. repeat (apply Forall_app; split); auto. }
    assert (Au' : alike T u (store T i (array Y ((pre ++ [v]) ++ post)) u2)) by (apply (t_alike_store _ _ _ _ _ T); assumption).
    assert (Lu' : load Y (place T i) (store T i (array Y ((pre ++ [v]) ++ post)) u2) = array Y ((pre ++ [v]) ++ post)).
    { apply (t_load_store _ _ _ _ _ T); [exact Ti|]. apply (t_load_array _ _ _ _ _ T), fine_settled, Fp'. }
    pose proof (X2 u _ (pre ++ [v]) post Au' Lu' Fp' ltac:(rewrite app_length; cbn; lia) ltac:(cbn in Lp; lia)) as H.
    match goal with |- mrel _ _ ?y => assert (Ey : y = ask z := y in Ans z) by (destruct y; reflexivity); rewrite Ey end.
    eapply mrel_bind; [exact H|]. intros [vs u3] u4 (Q1 & Q2 & Q3 & Q4). right. cbn [arel fst snd] in *. split; [cbn [fst]; rewrite Q1, <- app_assoc; reflexivity|].
    split; [constructor; assumption|]. split; [exact Q3|].
    eapply kept_trans; [|eapply kept_trans; [apply kept_store; [exact Ti|intros [Q _]; auto]|]].
    - eapply kept_less; [|exact Ku]. intros j _ [Hj Oj]. split; [exact Hj|]. revert Oj. unfold outside. change (len d1') with (len d1). lia.
    - eapply kept_less; [|exact Q4]. intros j _ [Hj Oj]. split; [exact Hj|]. revert Oj. unfold outside. change (len d1') with (len d1). lia. }
  assert (Oi : outside d d1 i) by (left; exact Li).
  unfold sim in X1. destruct (literal_node e).
  - destruct X1 as (j & sp' & -> & Hj & X1). destruct (X1 w w2 A) as [->|H]; [left; reflexivity|].
    destruct (sev e w) as [[v u]|h], (does new1 w2) as [u1|h1]; cbn [arel] in H; try contradiction; cbn [then_]; [|right; exact H].
    destruct H as (H1 & H2 & H3 & H4 & H5). cbn [fst snd] in *. rewrite (H2 u).
    assert (Lu : load Y (place T i) u1 = array Y (pre ++ y :: post)) by (rewrite (H5 i Ti Oi); exact L).
    rewrite (element_assign _ _ _ _ Lu (fine_settled _ Fp) Hk), (eval_place T s). cbn [then_].
    apply Next; [exact H4|exact Lu| |split; assumption|exact H1]. eapply kept_less; [|exact H5]. intros q _ [_ Oq]. exact Oq.
  - destruct (X1 w w2 A) as [->|[Q1 Q2]]; [left; reflexivity|].
    destruct (does new1 w2) as [u1|h1]; cbn [then_] in *.
    2: { destruct (sev e w); cbn [arel then_] in *; [contradiction|right; exact Q2]. }
    assert (Lu1 : load Y (place T i) u1 = array Y (pre ++ y :: post)) by (rewrite (Q1 _ eq_refl i Ti Oi); exact L).
    rewrite (element_assign _ _ _ _ Lu1 (fine_settled _ Fp) Hk). rewrite then_assoc.
    eapply mrel_bind; [right; exact Q2|]. intros [v u] [v2 u2] (V1 & V2 & V3 & V4). cbn [fst snd] in *. subst v2. cbn beta iota.
    apply Next; [exact V3|rewrite (V4 i Ti Oi); exact L| | |symmetry; apply (t_alike_load _ _ _ _ _ T); assumption].
    + eapply kept_less; [|exact V4]. intros q _ [_ Oq]. exact Oq.
    + split; [apply (t_load_load _ _ _ _ _ T)|apply (t_clean_load _ _ _ _ _ T), V2].
Qed.
End Literal.

Lemma known_element d t i ti sp : get_local (ds_pool d) i = Done {| lo_type := ti; lo_flags := 0 |} -> resolve_type_from_pool (ds_scope d) (ds_pool d) ti = Done (TIArray t) ->
  known (ds_scope d) (ds_pool d) (TIArray t) -> final d ->
  type_of (tident (RValue (VLocal i)) sp) s p = Done (TIArray t) /\
  exists t n, static_type s p (tident (RValue (VLocal i)) sp) = Some (TIArray t) /\ static_name s p (tident (RValue (VLocal i)) sp) = Some n.
Proof.
  intros Gl Rt Kn Fi. pose proof (fresh_type sp i ti _ d s p Gl Rt Fi) as Tl. split; [exact Tl|]. destruct (known_name _ _ _ Kn) as [n En].
  exists t, n. unfold static_name, static_type. rewrite Tl. split; [reflexivity|]. cbn [bind_opt]. unfold name_of in *.
  destruct (ti_repr (ds_pool d) _) as [m|] eqn:Er; [|discriminate]. erewrite extends_repr; [exact En| |exact Er]. exact (proj1 Fi).
Qed.
Lemma good_literal es t sp : Forall good es -> good (EArrayLit es t sp).
Proof.
  intros Ge N Ty Ea d e' d' E B Fi. destruct Ea as [Pl|Ea]; [destruct (Pl _ (wi_here _))|]. cbn [early] in Ea.
  cbn [on_expr] in E. unfold on_array_lit in E. destruct t as [t|]; [|discriminate E].
  pose proof (Ty _ (wi_here _)) as Kt. cbn [typed_node] in Kt.
  unfold dbind in E. destruct (fresh_local (TIArray t) sp d) as [[r d1]|] eqn:Ef; [|discriminate]. cbn [add_prefix] in E.
  match type of E with match array_elements _ _ _ _ _ ?x with _ => _ end = _ => set (d1' := x) in * end.
  destruct (array_elements on_expr r sp 0 es d1') as [[[] d2]|] eqn:Ee; [|discriminate]. injection E as <- <-.
  assert (G1 : dgrows d d1) by exact (steps_local _ _ _ _ _ Ef).
  assert (G2 : dgrows d1' d2) by (refine (steps_elements _ _ _ _ _ _ _ _ _ Ee); apply Forall_forall; intros; apply steps_expr).
  assert (Fi1 : final d1) by exact (final_before _ _ G2 Fi).
  destruct (fresh_spec _ _ _ _ _ Ef (final_small _ Fi1)) as (i & ti & -> & A1 & A2 & A3 & A4 & A5).
  destruct (A5 (proj2 B) (base_known d (TIArray t) B Kt)) as [So Rt].
  assert (B1 : base d1) by (split; [exact (grows_trans _ _ _ (proj1 B) G1)|exact So]).
  assert (Ti : temp i) by (pose proof (base_low _ B); lia).
  destruct (known_element d1 t i ti sp A4 Rt (base_known d1 (TIArray t) B1 Kt) Fi1) as [Tl Tn].
  pose proof (dgrows_len _ _ G2) as L2. change (len d1') with (len d1) in L2.
  destruct (elements_sim i sp Ti Tn es Ge Ea) with (k := O) (d := d1') (d' := d2) as (new & P & Sm & B2 & X).
  { apply Forall_forall. intros x Ix. eapply nb_part; [exact N|constructor; exact Ix]. }
  { apply Forall_forall. intros x Ix. eapply typed_part; [exact Ty|constructor; exact Ix]. }
  { exact Ee. } { apply base_prefix, B1. } { exact Fi. } { change (len d1') with (len d1). lia. }
  eexists. split; [rewrite P; unfold d1'; cbn [set_prefix ds_prefix]; rewrite A3, <- app_assoc; reflexivity|].
  split; [constructor; [exact I|exact Sm]|]. split; [exact B2|]. split; [exact Tl|].
  unfold sim. cbn [literal_node]. exists i, sp. split; [reflexivity|]. split; [lia|].
  intros w w2 A. cbn [seval does app]. destruct Tn as (t' & n & _ & Tn).
  match goal with |- context [ev ?c w2] => assert (Er : exists (x : Val) (l : list Val), length l = length es /\ Forall fine l /\ ev c w2 = Ans (x, store T i (array Y l) w2)) end.
  { destruct (t_resize _ _ _ _ _ T i n (length es) w2 Ti) as (x & l & Ll & Fl & Er). exists x, l. split; [exact Ll|]. split; [exact Fl|].
    cbn [eval]. unfold strict, intrinsic_op. cbn [length arg_count Nat.eqb negb]. rewrite Tn. cbn [bind_opt need then_ eval_all]. rewrite (eval_place T s). cbn [then_].
    rewrite (eval_con T s). cbn [then_ const_of]. unfold perform. rewrite Er. reflexivity. }
  destruct Er as (x & l & Ll & Fl & ->). cbn [then_].
  assert (A' : alike T w (store T i (array Y l) w2)) by (apply (t_alike_store _ _ _ _ _ T); assumption).
  assert (L' : load Y (place T i) (store T i (array Y l) w2) = array Y ([] ++ l)).
  { apply (t_load_store _ _ _ _ _ T); [exact Ti|]. apply (t_load_array _ _ _ _ _ T), fine_settled, Fl. }
  pose proof (X w _ [] l A' L' Fl eq_refl Ll) as H.
  match goal with |- mrel _ _ ?y => assert (Ey : y = ask z := y in Ans z) by (destruct y; reflexivity); rewrite Ey end.
  eapply mrel_bind; [exact H|]. intros [vs u] u2 (Q1 & Q2 & Q3 & Q4). cbn [fst snd app] in *. right. split; [exact Q1|]. cbn [fst snd].
  split; [apply (t_load_array _ _ _ _ _ T), fine_settled, Q2|]. split; [apply (t_clean_array _ _ _ _ _ T); [apply fine_settled, Q2|eapply Forall_impl; [|exact Q2]; intros v Hv; apply Hv]|].
  split; [exact Q3|]. eapply kept_trans; [apply kept_store; [exact Ti|unfold outside; lia]|]. eapply kept_less; [|exact Q4].
  intros j _ Oj. revert Oj. unfold outside. change (len d1') with (len d1). lia.
Qed.

(** The remaining expressions. *)
Lemma both_length {A B} (P : A -> B -> Prop) l m : Forall2 P l m -> length l = length m.
Proof. induction 1; cbn [length]; congruence. Qed.
Lemma dmap_two (a b : texpr) d a' d1 b' d2 : on_expr a d = Done (a', d1) -> on_expr b d1 = Done (b', d2) -> dmap on_expr [a; b] d = Done ([a'; b'], d2).
Proof. intros H1 H2. cbn [dmap]. unfold dbind. rewrite H1, H2. reflexivity. Qed.
Lemma dmap_one (a : texpr) d a' d1 : on_expr a d = Done (a', d1) -> dmap on_expr [a] d = Done ([a'], d1).
Proof. intros H1. cbn [dmap]. unfold dbind. rewrite H1. reflexivity. Qed.
Lemma parts_below l e : nb (size p0) e -> (forall x, In x l -> part x e) -> Forall (nb (size p0)) l.
Proof. intros N P. apply Forall_forall. intros x Ix. eapply nb_part; [exact N|apply P, Ix]. Qed.
Lemma parts_typed l e : typed_ok e -> (forall x, In x l -> part x e) -> Forall typed_ok l.
Proof. intros N P. apply Forall_forall. intros x Ix. eapply typed_part; [exact N|apply P, Ix]. Qed.
Lemma types_same (args args' : list texpr) : Forall2 (fun a' a => type_of a' s p = type_of a s p) args' args -> forall i t, intrinsic_op s p i t args' = intrinsic_op s p i t args.
Proof.
  intros H i t. unfold intrinsic_op. pose proof (both_length _ _ _ H) as L. rewrite L. destruct (negb _); [reflexivity|].
  inversion H as [|a' a l' l Ha _]; subst; [reflexivity|].
  assert (S1 : static_type s p a' = static_type s p a) by (unfold static_type; rewrite Ha; reflexivity).
  assert (S2 : static_name s p a' = static_name s p a) by (unfold static_name; rewrite S1; reflexivity).
  destruct i; rewrite ?S1, ?S2; reflexivity.
Qed.
Definition receiver (e : texpr) : bool * bool :=
  match e with EIdent (RSymbol (SClass _ _)) _ | EIdent (RSymbol (SStruct _ _)) _ => (true, true) | ESuper _ => (false, true) | _ => (false, false) end.
Lemma eval_method x f args sp w : ev (EMethodCall x f args sp) w =
  if fst (receiver x) then eval_call R p ev f true None args w
  else ask (v, w1) := ev x w in if is_null R v w1 then Ans (no_value R, w1) else eval_call R p ev f (snd (receiver x)) (Some v) args w1.
Proof. destruct x; try reflexivity. destruct r as [[]|[]]; reflexivity. Qed.
Lemma seval_method x f args sp w : sev (EMethodCall x f args sp) w =
  if fst (receiver x) then eval_call R p sev f true None args w
  else ask (v, w1) := sev x w in if is_null R v w1 then Ans (no_value R, w1) else eval_call R p sev f (snd (receiver x)) (Some v) args w1.
Proof. destruct x; try reflexivity. destruct r as [[]|[]]; reflexivity. Qed.
Lemma receiver_same x d x' d' : on_expr x d = Done (x', d') -> early s p takes x -> literal_node x = false -> receiver x' = receiver x.
Proof.
  intros E Ea L. destruct x; cbn [on_expr] in E; unfold dbind, dret in E;
    try (destruct Ea as [Pl|[]]; destruct (Pl _ (wi_here _)));
    repeat match type of E with match ?y with _ => _ end = _ => destruct y as [[? ?]|]; [|discriminate E] end;
    try discriminate; try (injection E as <- <-; reflexivity).
Qed.
(** An operation after another. *)
Lemma step_sim F f f' new (k k' : Val -> St -> answer (Val * St)) : simN F f f' new ->
  (forall v u u2, clean T v -> alike T u u2 -> mrel (same_val T u2) (k v u) (k' v u2)) ->
  simN F (fun w => ask (v, u) := f w in k v u) (fun w => ask (v, u) := f' w in k' v u) new.
Proof.
  intros X K w w2 A. destruct (X w w2 A) as [->|[Q1 Q2]]; [left; reflexivity|].
  assert (M : mrel (valrel F w2) (ask (v, u) := f w in k v u) (ask u := does new w2 in ask (v, u0) := f' u in k' v u0)).
  2: { destruct M as [M|M]; [left; exact M|right; split; [exact Q1|exact M]]. }
  rewrite <- then_assoc. eapply mrel_bind; [right; exact Q2|]. intros [v u] [v2 u2] (V1 & V2 & V3 & V4). cbn [fst snd] in *. subst v2.
  eapply mrel_weaken; [|apply K; assumption]. intros x y (H1 & H2 & H3 & H4). split; [exact H1|]. split; [exact H2|]. split; [exact H3|].
  eapply kept_trans; [exact V4|apply kept_all, H4].
Qed.
Lemma simN_ext F f f1 g g1 new : (forall w, f w = f1 w) -> (forall w, g w = g1 w) -> simN F f1 g1 new -> simN F f g new.
Proof.
  intros H1 H2 X w w2 A. rewrite H1. destruct (X w w2 A) as [E|[Q1 Q2]]; [left; exact E|right]. split; [exact Q1|].
  destruct (does new w2); cbn [then_] in *; rewrite ?H2; exact Q2.
Qed.
Lemma plain_call f super v args u u2 : Forall (nb (size p0)) args -> Forall plain args -> clean T v -> alike T u u2 ->
  arel (same_val T u2) (eval_call R p sev f super (Some v) args u) (eval_call R p ev f super (Some v) args u2).
Proof.
  intros N Pl C A. rewrite (eval_call_ext R p sev ev) by (eapply Forall_impl; [|exact Pl]; intros e Pe w; apply seval_plain, Pe).
  apply (eval_call_same T ev ev); [|exact C|exact A]. eapply Forall_impl; [|exact N]. intros e Ne. exact (eval_same T s e Ne).
Qed.
Lemma good_all e : good e.
Proof.
  induction e using expr_ind'; intros N Ty Ea dd e' dd' E B Fi; (destruct Ea as [Pl|Ea]; [eapply good_plain; eassumption|]); try contradiction Ea; cbn [early] in Ea.
  - (* literals *) refine (good_literal es t sp _ N Ty _ dd e' dd' E B Fi); [exact H|right; exact Ea].
  - (* casts *) destruct t; try contradiction Ea. cbn [on_expr] in E. unfold dbind, dret in E. destruct (on_expr e dd) as [[x' d1]|] eqn:Ex; [|discriminate]. injection E as <- <-.
    destruct (args_sim _ [e] ltac:(repeat constructor; assumption) 0 dd [x'] d1 Ea) as (new & P1 & P2 & P3 & P4 & P5);
      [eapply parts_below; [exact N|intros x [<-|[]]; constructor]|eapply parts_typed; [exact Ty|intros x [<-|[]]; constructor]|apply dmap_one, Ex|exact B|exact Fi|].
    exists new. split; [exact P1|]. split; [exact P2|]. split; [exact P3|].
    split; [inversion P4; subst; cbn [type_of]; match goal with H : type_of x' s p = _ |- _ => rewrite H end; reflexivity|].
    unfold sim. cbn [literal_node]. apply (strict_sim _ _ _ _ _ P5). discriminate.
  - (* assignments *) cbn [on_expr] in E. unfold dbind, dret in E. destruct (on_expr e1 dd) as [[x' d1]|] eqn:Ex; [|discriminate]. destruct (on_expr e2 d1) as [[y' d2]|] eqn:Ey; [|discriminate]. injection E as <- <-.
    destruct (args_sim _ [e1; e2] ltac:(repeat constructor; assumption) 0 dd [x'; y'] d2 Ea) as (new & P1 & P2 & P3 & P4 & P5);
      [eapply parts_below; [exact N|intros x [<-|[<-|[]]]; constructor]|eapply parts_typed; [exact Ty|intros x [<-|[<-|[]]]; constructor]|eapply dmap_two; eassumption|exact B|exact Fi|].
    exists new. split; [exact P1|]. split; [exact P2|]. split; [exact P3|]. split; [reflexivity|].
    unfold sim. cbn [literal_node]. apply (strict_sim _ _ _ _ _ P5). discriminate.
  - (* calls *) cbn [on_expr] in E. unfold dbind, dret in E. destruct (dmap on_expr args dd) as [[args' d1]|] eqn:Ex; [|discriminate]. injection E as <- <-.
    assert (X : forall o, early_args takes (early s p takes) o 0 args -> exists new, ds_prefix d1 = ds_prefix dd ++ new /\ Forall simple new /\ base d1 /\
      Forall2 (fun a' a => type_of a' s p = type_of a s p) args' args /\ argsim o 0 (outside dd d1) args args' new).
    { intros o Eo. apply (args_sim o args H 0 dd args' d1 Eo); [eapply parts_below; [exact N|intros; constructor; assumption]|eapply parts_typed; [exact Ty|intros; constructor; assumption]|exact Ex|exact B|exact Fi]. }
    destruct c as [f|i t].
    + destruct Ea as (o & Fc & Eo). destruct (X _ Eo) as (new & P1 & P2 & P3 & P4 & P5). exists new. split; [exact P1|]. split; [exact P2|]. split; [exact P3|]. split; [reflexivity|].
      unfold sim. cbn [literal_node]. apply (call_sim f false o None _ args args' new Fc (both_length _ _ _ P4) P5 I).
    + destruct (X _ Ea) as (new & P1 & P2 & P3 & P4 & P5). exists new. split; [exact P1|]. split; [exact P2|]. split; [exact P3|]. split; [reflexivity|].
      unfold sim. cbn [literal_node]. eapply simN_ext; [reflexivity|intros w; cbn [eval]; rewrite (types_same _ _ P4); reflexivity|].
      apply (strict_sim _ _ _ _ _ P5). intros j _ Q. exact (intrinsic_not_local s _ _ _ _ Q).
  - (* method calls *) cbn [on_expr] in E. unfold dbind, dret in E. destruct (on_expr e dd) as [[x' d1]|] eqn:Ex; [|discriminate].
    destruct (dmap on_expr args d1) as [[args' d2]|] eqn:Ey; [|discriminate]. injection E as <- <-.
    assert (Na : Forall (nb (size p0)) args) by (eapply parts_below; [exact N|intros; constructor; assumption]).
    assert (Ta : Forall typed_ok args) by (eapply parts_typed; [exact Ty|intros; constructor; assumption]).
    assert (X : x' = e -> d1 = dd -> forall o, early_args takes (early s p takes) o 0 args -> exists new, ds_prefix d2 = ds_prefix dd ++ new /\ Forall simple new /\ base d2 /\
      Forall2 (fun a' a => type_of a' s p = type_of a s p) args' args /\ argsim o 0 (outside dd d2) args args' new).
    { intros -> -> o Eo. apply (args_sim o args H 0 dd args' d2 Eo); assumption. }
    assert (Cl : forall super this o, opt_all (clean T) this -> full_call p f super (length args) o -> forall new, length args' = length args -> argsim (Some o) 0 (outside dd d2) args args' new ->
      simN (outside dd d2) (eval_call R p sev f super this args) (eval_call R p ev f super this args') new).
    { intros super this o Ct Fc new L P5. apply (call_sim f super o this _ args args' new Fc L P5 Ct). }
    assert (Self : forall w, ev (EThis (N := typed_ast) sp) w = Ans (self T, w)) by (intros w; cbn [eval]; unfold perform; rewrite (t_this _ _ _ _ _ T); reflexivity).
    assert (Q : early s p takes e /\ literal_node e = false /\ Forall plain args -> exists new, ds_prefix d2 = ds_prefix dd ++ new /\ Forall simple new /\ base d2 /\
      type_of (EMethodCall x' f args' sp) s p = type_of (EMethodCall e f args sp) s p /\ sim dd d2 (EMethodCall e f args sp) (EMethodCall x' f args' sp) new).
    { intros (Ee & Le & Pa). rewrite (dmap_same on_expr args d1) in Ey by (eapply Forall_impl; [|exact Pa]; exact plain_same). injection Ey as <- <-.
      destruct (IHe ltac:(eapply nb_part; [exact N|constructor]) ltac:(eapply typed_part; [exact Ty|constructor]) Ee dd x' d1 Ex B Fi) as (new & P1 & P2 & P3 & P4 & P5).
      exists new. split; [exact P1|]. split; [exact P2|]. split; [exact P3|]. split; [reflexivity|]. unfold sim in *. cbn [literal_node]. rewrite Le in P5.
      pose proof (receiver_same e dd x' d1 Ex Ee Le) as Rs.
      destruct (fst (receiver e)) eqn:Re.
      + intros w w2 A. rewrite seval_method, Re. assert (Pe : x' = e /\ d1 = dd). { destruct e; try discriminate Re. cbn [on_expr] in Ex. injection Ex as <- <-. auto. }
        destruct Pe as [-> ->]. assert (new = []) as -> by (destruct new; [reflexivity|]; apply (f_equal (@length _)) in P1; rewrite app_length in P1; cbn in P1; lia).
        right. split; [intros u [= <-]; apply kept_refl|]. cbn [does then_]. rewrite eval_method, Re.
        rewrite (eval_call_ext R p sev ev) by (eapply Forall_impl; [|exact Pa]; intros q Pq w'; apply seval_plain, Pq).
        eapply arel_weaken; [|apply (eval_call_same T ev ev f true None args); [|exact I|exact A]].
        * intros x y (H1 & H2 & H3 & H4). split; [exact H1|]. split; [exact H2|]. split; [exact H3|apply kept_all, H4].
        * eapply Forall_impl; [|exact Na]. intros q Nq. exact (eval_same T s q Nq).
      + eapply simN_ext; [intros w; rewrite seval_method, Re; reflexivity|intros w; rewrite eval_method, Rs, Re; reflexivity|].
        apply (step_sim _ _ _ _ (fun v u => if is_null R v u then Ans (no_value R, u) else eval_call R p sev f (snd (receiver e)) (Some v) args u)
          (fun v u => if is_null R v u then Ans (no_value R, u) else eval_call R p ev f (snd (receiver e)) (Some v) args u) P5).
        intros v u u2 Cv Au. right. rewrite <- (t_alike_null _ _ _ _ _ T v u u2 Cv Au). destruct (is_null R v u).
        * split; [reflexivity|]. split; [apply (t_clean_none _ _ _ _ _ T)|]. split; [exact Au|apply kept_refl].
        * apply plain_call; assumption. }
    assert (Direct : forall super o, x' = e -> d1 = dd -> (fst (receiver e) = true /\ super = true \/ (fst (receiver e) = false /\ super = snd (receiver e) /\ forall w, ev e w = Ans (self T, w) /\ sev e w = Ans (self T, w))) ->
      full_call p f super (length args) o -> early_args takes (early s p takes) (Some o) 0 args ->
      exists new, ds_prefix d2 = ds_prefix dd ++ new /\ Forall simple new /\ base d2 /\
      type_of (EMethodCall x' f args' sp) s p = type_of (EMethodCall e f args sp) s p /\ sim dd d2 (EMethodCall e f args sp) (EMethodCall x' f args' sp) new).
    { intros super o -> -> Hr Fc Eo. destruct (X eq_refl eq_refl _ Eo) as (new & P1 & P2 & P3 & P4 & P5). exists new. split; [exact P1|]. split; [exact P2|]. split; [exact P3|]. split; [reflexivity|].
      unfold sim. cbn [literal_node]. destruct Hr as [[Hr ->]|(Hr & -> & Hs)].
      - eapply simN_ext; [intros w; rewrite seval_method, Hr; reflexivity|intros w; rewrite eval_method, Hr; reflexivity|].
        apply (Cl true None o I Fc new (both_length _ _ _ P4) P5).
      - eapply simN_ext; [intros w; rewrite seval_method, Hr, (proj2 (Hs w)); cbn [then_]; rewrite (t_not_null _ _ _ _ _ T); reflexivity|
                          intros w; rewrite eval_method, Hr, (proj1 (Hs w)); cbn [then_]; rewrite (t_not_null _ _ _ _ _ T); reflexivity|].
        apply (Cl _ (Some (self T)) o (t_clean_self _ _ _ _ _ T) Fc new (both_length _ _ _ P4) P5). }
    assert (So : forall q w, sev (EThis (N := typed_ast) q) w = Ans (self T, w)) by (intros q w; cbn [seval]; unfold perform; rewrite (t_this _ _ _ _ _ T); reflexivity).
    destruct e; try (apply Q; exact Ea).
    + destruct r as [[]|[]]; try (apply Q; exact Ea); destruct Ea as (o & Fc & Eo); cbn [on_expr] in Ex; injection Ex as <- <-;
        apply (Direct true o eq_refl eq_refl (or_introl (conj eq_refl eq_refl)) Fc Eo).
    + destruct Ea as (o & Fc & Eo). cbn [on_expr] in Ex. injection Ex as <- <-. apply (Direct false o eq_refl eq_refl); [right|exact Fc|exact Eo].
      split; [reflexivity|]. split; [reflexivity|]. intros w. split; [exact (Self w)|exact (So sp w)].
    + destruct Ea as (o & Fc & Eo). cbn [on_expr] in Ex. injection Ex as <- <-. apply (Direct true o eq_refl eq_refl); [right|exact Fc|exact Eo].
      split; [reflexivity|]. split; [reflexivity|]. intros w. split; [exact (Self w)|exact (So sp w)].
  - (* members *) cbn [on_expr] in E. unfold dbind, dret in E. destruct (on_expr e dd) as [[x' d1]|] eqn:Ex; [|discriminate]. injection E as <- <-.
    destruct m as [f|f|]; try contradiction Ea.
    + destruct Ea as [Ee Le]. destruct (IHe ltac:(eapply nb_part; [exact N|constructor]) ltac:(eapply typed_part; [exact Ty|constructor]) Ee dd x' d1 Ex B Fi) as (new & P1 & P2 & P3 & P4 & P5).
      exists new. split; [exact P1|]. split; [exact P2|]. split; [exact P3|]. split; [reflexivity|]. unfold sim in *. cbn [literal_node]. rewrite Le in P5.
      apply (step_sim _ _ _ _ (fun v u => if is_null R v u then Ans (no_value R, u) else perform R (OpField f) (Some v) [] u)
        (fun v u => if is_null R v u then Ans (no_value R, u) else perform R (OpField f) (Some v) [] u) P5).
      intros v u u2 Cv Au. right. rewrite <- (t_alike_null _ _ _ _ _ T v u u2 Cv Au). destruct (is_null R v u).
      * split; [reflexivity|]. split; [apply (t_clean_none _ _ _ _ _ T)|]. split; [exact Au|apply kept_refl].
      * apply perform_same; [discriminate|exact Cv|constructor|exact Au].
    + destruct (args_sim _ [e] ltac:(repeat constructor; assumption) 0 dd [x'] d1 Ea) as (new & P1 & P2 & P3 & P4 & P5);
        [eapply parts_below; [exact N|intros x [<-|[]]; constructor]|eapply parts_typed; [exact Ty|intros x [<-|[]]; constructor]|apply dmap_one, Ex|exact B|exact Fi|].
      exists new. split; [exact P1|]. split; [exact P2|]. split; [exact P3|]. split; [reflexivity|].
      unfold sim. cbn [literal_node]. apply (strict_sim _ _ _ _ _ P5). discriminate.
  - (* elements *) cbn [on_expr] in E. unfold dbind, dret in E. destruct (on_expr e1 dd) as [[x' d1]|] eqn:Ex; [|discriminate]. destruct (on_expr e2 d1) as [[y' d2]|] eqn:Ey; [|discriminate]. injection E as <- <-.
    destruct (args_sim _ [e1; e2] ltac:(repeat constructor; assumption) 0 dd [x'; y'] d2 Ea) as (new & P1 & P2 & P3 & P4 & P5);
      [eapply parts_below; [exact N|intros x [<-|[<-|[]]]; constructor]|eapply parts_typed; [exact Ty|intros x [<-|[<-|[]]]; constructor]|eapply dmap_two; eassumption|exact B|exact Fi|].
    assert (Tx : type_of x' s p = type_of e1 s p) by (inversion P4; assumption).
    exists new. split; [exact P1|]. split; [exact P2|]. split; [exact P3|]. split; [cbn [type_of]; rewrite Tx; reflexivity|].
    unfold sim. cbn [literal_node]. eapply simN_ext; [reflexivity|intros w; cbn [eval]; unfold static_name, static_type; rewrite Tx; reflexivity|].
    apply (strict_sim _ _ _ _ _ P5). intros j _. apply static_elem_not_local.
  - (* constructors *) destruct t; try contradiction Ea. cbn [on_expr] in E. unfold dbind, dret in E. destruct (dmap on_expr args dd) as [[args' d1]|] eqn:Ex; [|discriminate]. injection E as <- <-.
    destruct (args_sim _ args H 0 dd args' d1 Ea) as (new & P1 & P2 & P3 & P4 & P5);
      [eapply parts_below; [exact N|intros; constructor; assumption]|eapply parts_typed; [exact Ty|intros; constructor; assumption]|exact Ex|exact B|exact Fi|].
    exists new. split; [exact P1|]. split; [exact P2|]. split; [exact P3|]. split; [reflexivity|].
    unfold sim. cbn [literal_node]. apply (strict_sim _ _ _ _ _ P5). discriminate.
  - (* conditionals *) destruct Ea as (Ec & Lc & Pt & Pf). cbn [on_expr] in E. unfold dbind, dret in E. destruct (on_expr e1 dd) as [[x' d1]|] eqn:Ex; [|discriminate].
    rewrite (plain_same _ Pt), (plain_same _ Pf) in E. injection E as <- <-.
    destruct (IHe1 ltac:(eapply nb_part; [exact N|apply pt_cond]) ltac:(eapply typed_part; [exact Ty|apply pt_cond]) Ec dd x' d1 Ex B Fi) as (new & P1 & P2 & P3 & P4 & P5).
    exists new. split; [exact P1|]. split; [exact P2|]. split; [exact P3|]. split; [reflexivity|]. unfold sim in *. cbn [literal_node]. rewrite Lc in P5.
    apply (step_sim _ _ _ _ (fun v u => if truth R v u then sev e2 u else sev e3 u) (fun v u => if truth R v u then ev e2 u else ev e3 u) P5).
    intros v u u2 Cv Au. right. rewrite <- (t_alike_truth _ _ _ _ _ T v u u2 Cv Au), (seval_plain R Y s p e2 Pt), (seval_plain R Y s p e3 Pf).
    destruct (truth R v u); apply (eval_same T s); try exact Au; (eapply nb_part; [exact N|]); [apply pt_cond_then|apply pt_cond_else].
Qed.
End Sim.
