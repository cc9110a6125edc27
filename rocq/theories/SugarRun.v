(** The same for statements. *)
From Coq Require Import String.
From Coq Require Import ZArith List Bool Lia.
From Verif Require Import Bytes BytesFacts Bytecode Definitions Bundle Ast TypeNames Pool Scope TypeCheck PartsSpec PoolSpec PoolFacts TypeIndexSpec TypeIndexFacts
  Semantics BodySpec GrowFacts Desugar SugarSpec DesugarFacts SugarFacts SugarSim.
Import ListNotations.
Open Scope Z_scope.

Section Statements.
Variables (R : runtime) (Y : arrays R) (takes : op -> nat -> Prop) (s0 : scope) (p0 : pool) (s : scope) (p : pool).
Notation temp := (fun i => size p0 <= i).
Variable T : temporaries R Y p temp takes.
Notation St := (state R).
Notation Val := (value R).
Notation ev := (eval R s p).
Notation sev := (seval R Y s p).
Hypothesis Small : small p.
Hypothesis Lits : knows_literals s0.
Hypothesis Int : knows_int s0 p0.
Variable N : nat.
Notation rn := (run R s p N).
Notation srn := (srun R Y s p N).
Notation base := (base s0 p0).
Notation final := (final s p).
Notation typed_ok := (typed_ok s0 p0 s p).
Notation does := (does R s p).

(** Values that read the same. *)
Definition valsim (F : pidx -> Prop) (w2 : St) (x y : Val * St) : Prop :=
  alike T (snd x) (snd y) /\ kept T F w2 (snd y) /\ load Y (fst y) (snd y) = load Y (fst x) (snd x) /\ clean T (load Y (fst x) (snd x)) /\
  (fst y = fst x /\ clean T (fst x) \/ exists i, temp i /\ fst y = place T i /\ fst x = load Y (place T i) (snd y)).
Lemma early_value e d e' d' : nb (size p0) e -> typed_ok e -> early s p takes e -> on_expr e d = Done (e', d') -> base d -> final d' ->
  exists new, ds_prefix d' = ds_prefix d ++ new /\ Forall simple new /\ base d' /\ type_of e' s p = type_of e s p /\
    (literal_node e = false -> simN R Y takes p0 s p T (outside d d') (sev e) (ev e') new) /\
    forall w w2, alike T w w2 -> mrel (valsim (outside d d') w2) (sev e w) (ask u := does new w2 in ev e' u).
Proof.
  intros Ne Ty Ea E B Fi. destruct (good_all R Y takes s0 p0 s p T Small e Ne Ty Ea d e' d' E B Fi) as (new & P1 & P2 & P3 & P4 & X).
  exists new. split; [exact P1|]. split; [exact P2|]. split; [exact P3|]. split; [exact P4|]. unfold sim in X. destruct (literal_node e).
  - split; [discriminate|]. destruct X as (i & sp & -> & Hi & X). intros w w2 A. destruct (X w w2 A) as [->|H]; [left; reflexivity|]. right.
    destruct (sev e w) as [[v u]|h], (does new w2) as [u2|h2]; cbn [arel] in H; try contradiction; cbn [then_ arel]; [|exact H].
    rewrite (eval_place T s). destruct H as (H1 & H2 & H3 & H4 & H5). cbn [fst snd] in *. split; [exact H4|]. split; [exact H5|]. cbn [fst snd].
    rewrite (H2 u). split; [exact H1|]. split; [exact H3|]. right. exists i. split; [pose proof (base_low _ _ _ B); lia|]. auto.
  - split; [intros _; exact X|]. intros w w2 A. destruct (X w w2 A) as [->|[_ H]]; [left; reflexivity|]. right. eapply arel_weaken; [|exact H].
    intros [v u] [v2 u2] (H1 & H2 & H3 & H4). cbn [fst snd] in *. subst v2. split; [exact H3|]. split; [exact H4|]. cbn [fst snd].
    split; [symmetry; apply (t_alike_load _ _ _ _ _ T); assumption|]. split; [apply (t_clean_load _ _ _ _ _ T), H2|]. left. auto.
Qed.

Lemma outside_inner d d1 d1' d' i : len d <= len d1 -> len d1' <= len d' -> outside d d' i -> outside d1 d1' i.
Proof. unfold outside. lia. Qed.
Definition seqsim (d d' : dstate) (es es' : list texpr) : Prop :=
  forallb is_empty es' = forallb is_empty es /\
  forall w w2, alike T w w2 -> mrel (end_rel T (outside d d') w2) (run_all R srn es w) (run_all R rn es' w2).
Lemma seqsim_wider d d1 d1' d' es es' : dgrows d d1 -> dgrows d1' d' -> seqsim d1 d1' es es' -> seqsim d d' es es'.
Proof.
  intros G1 G2 [E X]. split; [exact E|]. intros w w2 A. eapply mrel_weaken; [|apply X, A]. intros x y. apply end_rel_less. intros i _.
  apply outside_inner; apply dgrows_len; assumption.
Qed.
Definition goodS (e : texpr) : Prop := nb (size p0) e -> typed_ok e -> tame s p takes e -> forall d e' d', on_expr e d = Done (e', d') -> ds_prefix d = [] -> base d -> final d' ->
  base d' /\ forallb is_empty (ds_prefix d' ++ [e']) = is_empty e /\
  forall w w2, alike T w w2 -> mrel (end_rel T (outside d d') w2) (srn e w) (run_all R rn (ds_prefix d' ++ [e']) w2).
Lemma seq_good es : Forall goodS es -> Forall (nb (size p0)) es -> Forall typed_ok es -> every (tame s p takes) es ->
  forall d es' d', on_seq es d = Done (es', d') -> ds_prefix d = [] -> base d -> final d' -> ds_prefix d' = [] /\ base d' /\ seqsim d d' es es'.
Proof.
  induction 1 as [|e es Ge _ IH]; intros Ne Ty Ea d es' d' E Pd B Fi; unfold on_seq in *; cbn [on_seq_with every] in *.
  { injection E as <- <-. split; [exact Pd|]. split; [exact B|]. split; [reflexivity|]. intros w w2 A. right. split; [exact A|apply kept_refl]. }
  apply Forall_cons_iff in Ne as [Na Ne]. apply Forall_cons_iff in Ty as [Ta Ty]. destruct Ea as [E1 E2].
  unfold dbind in E. destruct (on_expr e d) as [[e' d1]|] eqn:Oe; [|discriminate]. set (d1' := set_prefix [] d1) in *.
  destruct (on_seq_with on_expr es d1') as [[rest d2]|] eqn:Or; [|discriminate]. injection E as <- <-.
  assert (G1 : dgrows d d1) by exact (steps_expr _ _ _ _ Oe).
  assert (G2 : dgrows d1' d2) by exact (steps_on_seq es _ _ _ Or).
  destruct (Ge Na Ta E1 d e' d1 Oe Pd B (final_before _ _ _ _ G2 Fi)) as (B1 & Em & X1).
  destruct (IH Ne Ty E2 d1' rest d2 Or eq_refl (base_prefix _ _ _ _ B1) Fi) as (P2 & B2 & Em2 & X2).
  pose proof (dgrows_len _ _ G1) as L1. pose proof (dgrows_len _ _ G2) as L2. change (len d1') with (len d1) in L2.
  split; [exact P2|]. split; [exact B2|]. rewrite (app_assoc _ [e'] rest : _ ++ e' :: rest = (_ ++ [e']) ++ rest). split.
  { rewrite forallb_app, Em, Em2. reflexivity. }
  intros w w2 A. rewrite run_all_app. cbn [run_all]. eapply mrel_bind; [apply X1, A|].
  intros r r2 Hr. destruct r as [u|u|v u], r2 as [u2|u2|v2 u2]; cbn [end_rel] in Hr; try contradiction; try (right; exact Hr).
  - destruct Hr as [Au Ku]. eapply mrel_weaken; [|apply X2, Au]. intros x y H. eapply end_rel_step; [eapply kept_less; [|exact Ku]|eapply end_rel_less; [|exact H]];
      intros i _; unfold outside; change (len d1') with (len d1); lia.
  - destruct Hr as [Au Ku]. right. split; [exact Au|]. eapply kept_less; [|exact Ku]. intros i _; unfold outside; lia.
Qed.

(** Expressions as statements. *)
Definition expression (e : texpr) : Prop :=
  is_empty e = false /\ forall w, rn e w = (ask (_, w1) := ev e w in Ans (Normal R w1)) /\ srn e w = (ask (_, w1) := sev e w in Ans (Normal R w1)).
Lemma value_expression e : (value_node e \/ literal_node e = true) -> expression e.
Proof. intros H. destruct e; try (destruct H as [H|H]; [destruct H|discriminate H]); split; try reflexivity; intros w; split; reflexivity. Qed.
Lemma early_node e : early s p takes e -> value_node e \/ literal_node e = true.
Proof. destruct e; (intros [H|H]; [left; exact (H _ (wi_here _))|first [contradiction H|right; reflexivity|left; exact I]]). Qed.
Lemma early_expression e d e' d' : early s p takes e -> on_expr e d = Done (e', d') -> expression e /\ expression e'.
Proof.
  intros Ea E. pose proof (early_node e Ea) as Hn. split; [apply value_expression, Hn|]. apply value_expression. left.
  destruct e; try (destruct Hn as [Hn|Hn]; [destruct Hn|discriminate Hn]); cbn [on_expr] in E; unfold on_array_lit, dbind, dret in E;
    try (destruct (Hn : False));
    repeat match type of E with match ?y with _ => _ end _ = _ => destruct y as [?|] | match ?y with _ => _ end = _ => first [destruct y as [[? ?]|]; [|discriminate E] | destruct y] end;
    try discriminate E; injection E as <- <-; exact I.
Qed.
Lemma simple_not_empty l e : Forall simple l -> is_empty e = false -> forallb is_empty (l ++ [e]) = false.
Proof. intros H E. rewrite forallb_app. cbn [forallb]. rewrite E, andb_false_r. reflexivity. Qed.
Lemma statement_good e : early s p takes e -> goodS e.
Proof.
  intros Ea Ne Ty _ d e' d' E Pd B Fi. destruct (early_value e d e' d' Ne Ty Ea E B Fi) as (new & P1 & P2 & P3 & _ & _ & X).
  destruct (early_expression e d e' d' Ea E) as [[X1 X2] [X3 X4]]. rewrite Pd in P1. cbn [app] in P1. rewrite P1.
  split; [exact P3|]. split; [rewrite X1; apply simple_not_empty; assumption|]. intros w w2 A. rewrite (run_simple R s p N new [e'] w2 P2).
  rewrite (proj2 (X2 w)).
  assert (Q : (ask u := does new w2 in run_all R rn [e'] u) = ask (v, u1) := (ask u := does new w2 in ev e' u) in Ans (Normal R u1)).
  { rewrite then_assoc. destruct (does new w2) as [u|]; cbn [then_]; [|reflexivity]. cbn [run_all]. rewrite (proj1 (X4 u)). destruct (ev e' u) as [[]|]; reflexivity. }
  rewrite Q. eapply mrel_bind; [apply X, A|]. intros [v u] [v2 u2] (H1 & H2 & _). right. split; assumption.
Qed.
Lemma assign_sim F l w2 x y : ~ temp l -> valsim F w2 x y ->
  arel (valrel R Y takes p0 p T F w2) (perform R OpAssign None [Some (place T l); Some (fst x)] (snd x)) (perform R OpAssign None [Some (place T l); Some (fst y)] (snd y)).
Proof.
  intros Hl (H1 & H2 & H3 & H4 & H5).
  apply (perform_sim R Y takes p0 p T OpAssign None [] F w2 ([Some (place T l); Some (fst x)], snd x) ([Some (place T l); Some (fst y)], snd y)); [|discriminate|exact I|constructor].
  split; [reflexivity|]. cbn [fst snd]. split; [|split; [|split; assumption]].
  - intros [|[|k]]; cbn [nth_error]; [left; reflexivity| |left; reflexivity]. destruct H5 as [[-> _]|(i & Ti & Ey & Ex)]; [left; reflexivity|]. right.
    split; [exists OpAssign; split; [reflexivity|apply (t_takes_assign _ _ _ _ _ T)]|]. exists i. split; [exact Ti|]. rewrite Ey, Ex. auto.
  - constructor; [apply (t_clean_local _ _ _ _ _ T), Hl|]. constructor; [|constructor]. destruct H5 as [[_ C]|(i & Ti & Ey & Ex)]; [exact C|].
    cbn [opt_all]. rewrite Ex, Ey in *. rewrite (t_load_load _ _ _ _ _ T) in H4. exact H4.
Qed.
(** Loops, switches. *)
Lemma loop_msim F c c' b b' : (forall w w2, alike T w w2 -> mrel (same_val T w2) (c w) (c' w2)) ->
  (forall w w2, alike T w w2 -> mrel (end_rel T F w2) (b w) (b' w2)) ->
  forall fuel w w2, alike T w w2 -> mrel (end_rel T F w2) (loop R fuel c b w) (loop R fuel c' b' w2).
Proof.
  intros Hc Hb. induction fuel as [|fuel IH]; intros w w2 A; cbn [loop]; [right; reflexivity|].
  eapply mrel_bind; [apply Hc, A|]. intros [v u] [v2 u2] (V1 & V2 & V3 & V4). cbn [fst snd] in *. subst v2.
  rewrite <- (t_alike_truth _ _ _ _ _ T v u u2 V2 V3). destruct (truth R v u); [|right; split; [exact V3|apply kept_all, V4]].
  eapply mrel_bind; [apply Hb, V3|]. intros r r2 Hr. destruct r, r2; cbn [end_rel] in Hr; try contradiction; destruct Hr as [Au Ku].
  - eapply mrel_weaken; [|apply IH, Au]. intros x y. apply end_rel_step. eapply kept_trans; [apply kept_all, V4|exact Ku].
  - right. split; [exact Au|]. eapply kept_trans; [apply kept_all, V4|exact Ku].
  - right. split; assumption.
Qed.
Definition casesim (d d' : dstate) (c c' : texpr * list texpr) : Prop := fst c' = fst c /\ seqsim d d' (snd c) (snd c').
Lemma select_plain t v cases cases' w w2 d d' : Forall2 (casesim d d') cases cases' -> Forall (fun c => plain (fst c) /\ nb (size p0) (fst c)) cases -> clean T v -> alike T w w2 ->
  arel (same_number T w2) (select R sev t v cases w) (select R ev t v cases' w2).
Proof.
  intros H Pl C A.
  assert (E : select R ev t v cases' w2 = select R ev t v cases w2).
  { clear A Pl. revert w2. induction H as [|[m b] [m' b'] l l' [Em _] _ IH]; intros w2; [reflexivity|]. cbn [fst] in Em. subst m'. cbn [select].
    destruct (ev m w2) as [[x u]|]; cbn [then_]; [|reflexivity]. rewrite IH. reflexivity. }
  rewrite E. apply select_same; [|exact C|exact A]. eapply Forall_impl; [|exact Pl]. intros c [Pc Nc] u u2 Au. rewrite (seval_plain R Y s p _ Pc). exact (eval_same T s _ Nc u u2 Au).
Qed.
Lemma run_case_msim d d' df df' cases cases' : Forall2 (casesim d d') cases cases' -> (forall w w2, alike T w w2 -> mrel (end_rel T (outside d d') w2) (df w) (df' w2)) ->
  forall k w w2, alike T w w2 -> mrel (end_rel T (outside d d') w2) (run_case R (run_all R srn) df k cases w) (run_case R (run_all R rn) df' k cases' w2).
Proof.
  intros H Hd. induction H as [|[m b] [m' b'] l l' [Em [Es Xs]] Hl IH]; intros k w w2 A; cbn [run_case]; [apply Hd, A|]. cbn [fst snd] in *.
  destruct k as [|k]; [|apply IH, A]. rewrite Es. destruct (forallb is_empty b); [apply IH, A|].
  eapply mrel_bind; [apply Xs, A|]. intros r r2 Hr. destruct r, r2; cbn [end_rel] in Hr; try contradiction; try (right; exact Hr).
  destruct Hl; [|right; reflexivity]. destruct Hr as [Au Ku]. eapply mrel_weaken; [|apply Hd, Au]. intros x y. apply end_rel_step, Ku.
Qed.
Lemma cases_good cases : Forall (fun c => Forall goodS (snd c)) cases -> Forall (fun c => nb (size p0) (fst c) /\ Forall (nb (size p0)) (snd c) /\ Forall typed_ok (snd c)) cases ->
  every_case (tame s p takes) cases -> forall d cases' d', on_cases on_expr on_seq cases d = Done (cases', d') -> ds_prefix d = [] -> base d -> final d' ->
  ds_prefix d' = [] /\ base d' /\ Forall2 (casesim d d') cases cases'.
Proof.
  induction 1 as [|[m b] cases Gb _ IH]; intros Ne Ea d cases' d' E Pd B Fi; cbn [on_cases every_case fst snd] in *.
  { injection E as <- <-. split; [exact Pd|]. split; [exact B|constructor]. }
  apply Forall_cons_iff in Ne as [(Nm & Nb & Tb) Ne]. destruct Ea as (Pm & Eb & Ec). cbn [fst snd] in *.
  unfold dbind in E. destruct (on_seq b d) as [[b' d1]|] eqn:Ob; [|discriminate]. rewrite (plain_same m Pm) in E.
  destruct (on_cases on_expr on_seq cases d1) as [[rest d2]|] eqn:Or; [|discriminate]. injection E as <- <-.
  assert (G1 : dgrows d d1) by exact (steps_on_seq _ _ _ _ Ob).
  assert (G2 : dgrows d1 d2) by (refine (steps_cases _ _ _ _ _ _ _ Or); apply Forall_forall; intros c _; split; [apply steps_expr|apply steps_on_seq]).
  destruct (seq_good b Gb Nb Tb Eb d b' d1 Ob Pd B (final_before _ _ _ _ G2 Fi)) as (P1 & B1 & X1).
  destruct (IH Ne Ec d1 rest d2 Or P1 B1 Fi) as (P2 & B2 & X2). split; [exact P2|]. split; [exact B2|]. constructor.
  - split; [reflexivity|]. eapply seqsim_wider; [apply dgrows_refl|exact G2|exact X1].
  - clear - X2 G1. induction X2 as [|c c' l l' [H1 H2] _ IH]; constructor; [|exact IH]. split; [exact H1|]. eapply seqsim_wider; [exact G1|apply dgrows_refl|exact H2].
Qed.

(** Blocks that may be left out. *)
Definition optsim (d d' : dstate) (o o' : option (list texpr)) : Prop := match o, o' with Some b, Some b' => seqsim d d' b b' | None, None => True | _, _ => False end.
Lemma opt_good o : opt_all (Forall goodS) o -> opt_all (Forall (nb (size p0))) o -> opt_all (Forall typed_ok) o -> opt_all (every (tame s p takes)) o ->
  forall d o' d', dopt on_seq o d = Done (o', d') -> ds_prefix d = [] -> base d -> final d' -> ds_prefix d' = [] /\ base d' /\ dgrows d d' /\ optsim d d' o o'.
Proof.
  intros Ge Ne Ty Ea d o' d' E Pd B Fi. destruct o as [b|]; cbn [opt_all dopt] in *.
  - unfold dbind in E. destruct (on_seq b d) as [[b' d1]|] eqn:Ob; [|discriminate]. injection E as <- <-. pose proof (steps_on_seq _ _ _ _ Ob) as G1.
    destruct (seq_good b Ge Ne Ty Ea d b' d1 Ob Pd B Fi) as (X1 & X2 & X3). auto.
  - injection E as <- <-. split; [exact Pd|]. split; [exact B|]. split; [apply dgrows_refl|exact I].
Qed.
Lemma opt_run d d' o o' : optsim d d' o o' -> forall w w2, alike T w w2 ->
  mrel (end_rel T (outside d d') w2) (match o with Some b => run_all R srn b w | None => Ans (Normal R w) end) (match o' with Some b => run_all R rn b w2 | None => Ans (Normal R w2) end).
Proof.
  intros H w w2 A. destruct o as [b|], o' as [b'|]; try contradiction H; [apply H, A|]. right. split; [exact A|apply kept_refl].
Qed.
Lemma optsim_wider d d1 d1' d' o o' : dgrows d d1 -> dgrows d1' d' -> optsim d1 d1' o o' -> optsim d d' o o'.
Proof. intros G1 G2. destruct o, o'; try exact (fun H => H). apply seqsim_wider; assumption. Qed.
Lemma list_parts (l : list texpr) e : (forall x, In x l -> part x e) -> nb (size p0) e -> typed_ok e -> Forall (nb (size p0)) l /\ Forall typed_ok l.
Proof. intros H Ne Ty. split; [eapply parts_below; eassumption|eapply parts_typed; eassumption]. Qed.

Lemma one_statement e w : run_all R rn [e] w = rn e w.
Proof. cbn [run_all]. destruct (rn e w) as [[]|]; reflexivity. Qed.
Lemma good_if c t f sp : Forall goodS t -> opt_all (Forall goodS) f -> goodS (EIf c t f sp).
Proof.
  intros Gt Gf Ne Ty (Ec & Lc & Et & Ef) d e' d' E Pd B Fi. cbn [on_expr] in E. fold on_seq in E. unfold dbind in E.
  destruct (on_seq t d) as [[t' d1]|] eqn:Ot; [|discriminate]. destruct (dopt on_seq f d1) as [[f' d2]|] eqn:Of; [|discriminate].
  destruct (on_expr c d2) as [[c' d3]|] eqn:Oc; [|discriminate]. injection E as <- <-.
  assert (G1 : dgrows d d1) by exact (steps_on_seq _ _ _ _ Ot).
  assert (G2 : dgrows d1 d2) by (refine (steps_opt _ _ _ _ _ _ Of); destruct f; [apply steps_on_seq|exact I]).
  assert (G3 : dgrows d2 d3) by exact (steps_expr _ _ _ _ Oc).
  pose proof (final_before _ _ _ _ G3 Fi) as F2. pose proof (final_before _ _ _ _ G2 F2) as F1.
  destruct (list_parts t _ (fun x I => pt_then x c t f sp I) Ne Ty) as [Nt Tt].
  destruct (seq_good t Gt Nt Tt Et d t' d1 Ot Pd B F1) as (P1 & B1 & X1).
  destruct (opt_good f Gf) with (d := d1) (o' := f') (d' := d2) as (P2 & B2 & _ & X2); try assumption.
  { destruct f as [f|]; [|exact I]. apply (list_parts f _ (fun x I => pt_else x c t f sp I) Ne Ty). }
  { destruct f as [f|]; [|exact I]. apply (list_parts f _ (fun x I => pt_else x c t f sp I) Ne Ty). }
  destruct (early_value c d2 c' d3 (nb_part _ _ _ Ne (pt_if _ _ _ _)) (typed_part _ _ _ _ _ _ Ty (pt_if _ _ _ _)) Ec Oc B2 Fi) as (new & P3 & Sn & B3 & _ & X3 & _).
  specialize (X3 Lc). rewrite P2 in P3. cbn [app] in P3. rewrite P3. split; [exact B3|]. split; [rewrite simple_not_empty by (exact Sn || reflexivity); reflexivity|].
  intros w w2 A. rewrite (run_simple R s p N new _ w2 Sn). cbn [srun].
  apply (seqsim_wider _ _ _ _ _ _ (dgrows_refl d) (dgrows_trans _ _ _ G2 G3)) in X1. apply (optsim_wider _ _ _ _ _ _ G1 G3) in X2.
  assert (Q : (ask u := does new w2 in run_all R rn [EIf (N := typed_ast) c' t' f' sp] u) = ask (v, u1) := (ask u := does new w2 in ev c' u) in
    if truth R v u1 then run_all R rn t' u1 else match f' with Some f => run_all R rn f u1 | None => Ans (Normal R u1) end).
  { rewrite then_assoc. destruct (does new w2) as [u|]; cbn [then_]; [|reflexivity]. apply one_statement. }
  rewrite Q. destruct (X3 w w2 A) as [->|[_ H]]; [left; reflexivity|]. eapply mrel_bind; [right; exact H|].
  intros [v u] [v2 u2] (V1 & V2 & V3 & V4). cbn [fst snd] in *. subst v2. rewrite <- (t_alike_truth _ _ _ _ _ T v u u2 V2 V3).
  eapply mrel_weaken; [intros x y; apply end_rel_step; eapply kept_less; [|exact V4]; intros i _; apply outside_inner; [apply (dgrows_len _ _ (dgrows_trans _ _ _ G1 G2))|lia]|].
  destruct (truth R v u); [apply X1, V3|]. exact (opt_run _ _ _ _ X2 u u2 V3).
Qed.
Lemma good_while c b sp : Forall goodS b -> goodS (EWhile c b sp).
Proof.
  intros Gb Ne Ty (Pc & Eb) d e' d' E Pd B Fi. cbn [on_expr] in E. fold on_seq in E. unfold dbind in E.
  destruct (on_seq b d) as [[b' d1]|] eqn:Ob; [|discriminate]. rewrite (plain_same c Pc) in E. injection E as <- <-.
  destruct (list_parts b _ (fun x I => pt_while_body x c b sp I) Ne Ty) as [Nb Tb].
  destruct (seq_good b Gb Nb Tb Eb d b' d1 Ob Pd B Fi) as (P1 & B1 & _ & X1). rewrite P1. split; [exact B1|]. split; [reflexivity|].
  intros w w2 A. cbn [app]. rewrite one_statement. cbn [run srun]. apply loop_msim; [|exact X1|exact A].
  intros u u2 Au. right. rewrite (seval_plain R Y s p c Pc). apply (eval_same T s c); [|exact Au]. eapply nb_part; [exact Ne|constructor].
Qed.
Lemma good_declare l t x sp : goodS (EDeclare l t x sp).
Proof.
  intros Ne Ty Ea d e' d' E Pd B Fi. destruct x as [x|]; cbn [on_expr dopt tame] in *.
  - unfold dbind in E. destruct (on_expr x d) as [[x' d1]|] eqn:Ox; [|discriminate]. injection E as <- <-.
    destruct (early_value x d x' d1 (nb_part _ _ _ Ne (pt_init _ _ _ _)) (typed_part _ _ _ _ _ _ Ty (pt_init _ _ _ _)) Ea Ox B Fi) as (new & P3 & Sn & B3 & _ & _ & X).
    rewrite Pd in P3. cbn [app] in P3. rewrite P3. split; [exact B3|]. split; [rewrite simple_not_empty by (exact Sn || reflexivity); reflexivity|].
    intros w w2 A. rewrite (run_simple R s p N new _ w2 Sn). cbn [srun].
    assert (Q : (ask u := does new w2 in run_all R rn [EDeclare (N := typed_ast) l t (Some x') sp] u) = ask (v, u1) := (ask u := does new w2 in ev x' u) in
      ask (_, u3) := perform R OpAssign None [Some (place T l); Some v] u1 in Ans (Normal R u3)).
    { rewrite then_assoc. destruct (does new w2) as [u|]; cbn [then_]; [|reflexivity]. rewrite one_statement. destruct t; cbn [run]; unfold perform at 1; rewrite (t_local _ _ _ _ _ T); reflexivity. }
    rewrite Q. assert (Q0 : (ask (v, u1) := perform R (OpLocal l) None [] w in ask (y, u2) := sev x u1 in ask (_, u3) := perform R OpAssign None [Some v; Some y] u2 in Ans (Normal R u3)) =
      ask (y, u2) := sev x w in ask (_, u3) := perform R OpAssign None [Some (place T l); Some y] u2 in Ans (Normal R u3))
      by (unfold perform at 1; rewrite (t_local _ _ _ _ _ T); reflexivity). rewrite Q0. eapply mrel_bind; [apply X, A|]. intros [v u] [v2 u2] V.
    pose proof (assign_sim (outside d d1) l w2 (v, u) (v2, u2) (Ne _ (wi_here _)) V) as H. cbn [fst snd] in H.
    eapply mrel_bind; [right; exact H|]. intros [y z] [y2 z2] (_ & _ & H1 & H2). right. split; assumption.
  - injection E as <- <-. rewrite Pd. split; [exact B|]. split; [reflexivity|]. intros w w2 A. cbn [app]. rewrite one_statement. cbn [srun]. right.
    eapply arel_weaken; [|exact (run_same T s N _ Ne w w2 A)]. intros y z. apply end_rel_less. intros i _ _. exact I.
Qed.
Lemma good_return x sp : goodS (EReturn x sp).
Proof.
  intros Ne Ty Ea d e' d' E Pd B Fi. destruct x as [x|]; cbn [on_expr dopt tame] in *.
  - unfold dbind in E. destruct (on_expr x d) as [[x' d1]|] eqn:Ox; [|discriminate]. injection E as <- <-.
    destruct (early_value x d x' d1 (nb_part _ _ _ Ne (pt_return _ _)) (typed_part _ _ _ _ _ _ Ty (pt_return _ _)) Ea Ox B Fi) as (new & P3 & Sn & B3 & _ & _ & X).
    rewrite Pd in P3. cbn [app] in P3. rewrite P3. split; [exact B3|]. split; [rewrite simple_not_empty by (exact Sn || reflexivity); reflexivity|].
    intros w w2 A. rewrite (run_simple R s p N new _ w2 Sn). cbn [srun].
    assert (Q : (ask u := does new w2 in run_all R rn [EReturn (N := typed_ast) (Some x') sp] u) = ask (v, u1) := (ask u := does new w2 in ev x' u) in Ans (Returned R (Some v) u1)).
    { rewrite then_assoc. destruct (does new w2) as [u|]; cbn [then_]; [|reflexivity]. rewrite one_statement. reflexivity. }
    rewrite Q. eapply mrel_bind; [apply X, A|]. intros [v u] [v2 u2] (V1 & _ & V3 & _). right. split; [exact V1|]. symmetry. exact V3.
  - injection E as <- <-. rewrite Pd. split; [exact B|]. split; [reflexivity|]. intros w w2 A. right. split; [exact A|exact I].
Qed.
Lemma good_seq es : Forall goodS es -> goodS (ESeq es).
Proof.
  intros Ge Ne Ty Ea d e' d' E Pd B Fi. cbn [on_expr] in E. fold on_seq in E. unfold dbind in E. destruct (on_seq es d) as [[es' d1]|] eqn:Oe; [|discriminate]. injection E as <- <-.
  destruct (list_parts es _ (fun x I => pt_seq x es I) Ne Ty) as [Nb Tb].
  destruct (seq_good es Ge Nb Tb Ea d es' d1 Oe Pd B Fi) as (P1 & B1 & Em & X1). rewrite P1. split; [exact B1|]. split; [cbn [app forallb is_empty]; rewrite andb_true_r; exact Em|].
  intros w w2 A. cbn [app]. rewrite one_statement. exact (X1 w w2 A).
Qed.
Lemma good_switch x cases df sp : Forall (fun c => Forall goodS (snd c)) cases -> opt_all (Forall goodS) df -> goodS (ESwitch x cases df sp).
Proof.
  intros Gc Gf Ne Ty (Ex & Lx & Et & Ef) d e' d' E Pd B Fi. cbn [on_expr] in E. fold on_seq in E. unfold dbind in E.
  destruct (on_cases on_expr on_seq cases d) as [[cs' d1]|] eqn:Ot; [|discriminate]. destruct (dopt on_seq df d1) as [[df' d2]|] eqn:Of; [|discriminate].
  destruct (on_expr x d2) as [[x' d3]|] eqn:Oc; [|discriminate]. injection E as <- <-.
  assert (G1 : dgrows d d1) by (refine (steps_cases _ _ _ _ _ _ _ Ot); apply Forall_forall; intros c _; split; [apply steps_expr|apply steps_on_seq]).
  assert (G2 : dgrows d1 d2) by (refine (steps_opt _ _ _ _ _ _ Of); destruct df; [apply steps_on_seq|exact I]).
  assert (G3 : dgrows d2 d3) by exact (steps_expr _ _ _ _ Oc).
  pose proof (final_before _ _ _ _ G3 Fi) as F2. pose proof (final_before _ _ _ _ G2 F2) as F1.
  assert (Nc : Forall (fun c => nb (size p0) (fst c) /\ Forall (nb (size p0)) (snd c) /\ Forall typed_ok (snd c)) cases).
  { apply Forall_forall. intros [m b] Ic. cbn [fst snd]. split; [eapply nb_part; [exact Ne|eapply pt_matcher; exact Ic]|].
    apply (list_parts b _ (fun y I => pt_case_body y x m b cases df sp Ic I) Ne Ty). }
  destruct (cases_good cases Gc Nc Et d cs' d1 Ot Pd B F1) as (P1 & B1 & X1).
  destruct (opt_good df Gf) with (d := d1) (o' := df') (d' := d2) as (P2 & B2 & _ & X2); try assumption.
  { destruct df as [f|]; [|exact I]. apply (list_parts f _ (fun y I => pt_default y x cases f sp I) Ne Ty). }
  { destruct df as [f|]; [|exact I]. apply (list_parts f _ (fun y I => pt_default y x cases f sp I) Ne Ty). }
  destruct (early_value x d2 x' d3 (nb_part _ _ _ Ne (pt_matched _ _ _ _)) (typed_part _ _ _ _ _ _ Ty (pt_matched _ _ _ _)) Ex Oc B2 Fi) as (new & P3 & Sn & B3 & Tx & X3 & _).
  specialize (X3 Lx). rewrite P2 in P3. cbn [app] in P3. rewrite P3. split; [exact B3|]. split; [rewrite simple_not_empty by (exact Sn || reflexivity); reflexivity|].
  intros w w2 A. rewrite (run_simple R s p N new _ w2 Sn). cbn [srun].
  assert (X1' : Forall2 (casesim d d3) cases cs').
  { clear - X1 G2 G3. induction X1 as [|c c' l l' [H1 H2] _ IH]; constructor; [|exact IH]. split; [exact H1|]. eapply seqsim_wider; [apply dgrows_refl|exact (dgrows_trans _ _ _ G2 G3)|exact H2]. }
  apply (optsim_wider _ _ _ _ _ _ G1 G3) in X2.
  assert (Sx : static_name s p x' = static_name s p x) by (unfold static_name, static_type; rewrite Tx; reflexivity).
  destruct (static_name s p x) as [t|] eqn:Et'; cbn [need then_]; [|left; reflexivity].
  assert (Q : (ask u := does new w2 in run_all R rn [ESwitch (N := typed_ast) x' cs' df' sp] u) = ask (v, u1) := (ask u := does new w2 in ev x' u) in
    ask (k, u2) := select R ev t v cs' u1 in
    ask r := run_case R (run_all R rn) (match df' with Some d => run_all R rn d | None => fun w => Ans (Normal R w) end) k cs' u2 in Ans (leave_switch R r)).
  { rewrite then_assoc. destruct (does new w2) as [u|]; cbn [then_]; [|reflexivity]. rewrite one_statement. cbn [run]. rewrite Sx. reflexivity. }
  rewrite Q. destruct (X3 w w2 A) as [->|[_ H]]; [left; reflexivity|]. eapply mrel_bind; [right; exact H|].
  intros [v u] [v2 u2] (V1 & V2 & V3 & V4). cbn [fst snd] in *. subst v2.
  eapply mrel_weaken; [intros y z; apply end_rel_step; eapply kept_less; [|exact V4]; intros i _; apply outside_inner; [apply (dgrows_len _ _ (dgrows_trans _ _ _ G1 G2))|lia]|].
  eapply mrel_bind.
  { right. eapply select_plain; [exact X1'| |exact V2|exact V3]. clear - Nc Et. induction Nc as [|[m b] l H _ IH]; constructor; [split; [apply Et|apply H]|]. apply IH, Et. }
  intros [k z] [k2 z2] (K1 & K2 & K3). cbn [fst snd] in *. subst k2.
  eapply mrel_bind; [apply (run_case_msim d d3); [exact X1'| |exact K2]|].
  { intros y y2 Ay. pose proof (opt_run _ _ _ _ X2 y y2 Ay) as H'. destruct df, df'; exact H'. }
  intros r r2 Hr. right. cbn [arel]. destruct r, r2; cbn [end_rel leave_switch] in *; try contradiction; try exact Hr; destruct Hr as [Ar Kr]; (split; [exact Ar|]);
    (eapply kept_trans; [apply kept_all, K3|exact Kr]).
Qed.
Lemma good_for l a b sp : Forall goodS b -> goodS (EForIn l a b sp).
Proof.
  intros Gb Ne Ty (Ea & Eb) d e' d' E Pd B Fi. pose proof (steps_expr _ _ _ _ E) as G.
  destruct (for_in_cases _ _ _ _ _ _ _ E) as (b' & d1 & a' & d2 & t & ra & d3 & int & rc & d4 & less & add & C1 & C2 & C3 & C4 & C5 & C6 & C7 & C8 & C9 & C10 & C11 & ->).
  assert (G1 : dgrows d d1) by exact (steps_on_seq _ _ _ _ C1). assert (G2 : dgrows d1 d2) by exact (steps_expr _ _ _ _ C2).
  assert (G3 : dgrows d2 d3) by exact (steps_local _ _ _ _ _ C4). assert (G4 : dgrows d3 d4) by exact (steps_local _ _ _ _ _ C6).
  assert (F4 : final d4) by (unfold SugarSim.final in *; rewrite C9, C10 in Fi; exact Fi).
  pose proof (final_before _ _ _ _ G4 F4) as F3. pose proof (final_before _ _ _ _ G3 F3) as F2. pose proof (final_before _ _ _ _ G2 F2) as F1.
  destruct (list_parts b _ (fun x I => pt_for_body x l a b sp I) Ne Ty) as [Nb Tb].
  destruct (seq_good b Gb Nb Tb Eb d b' d1 C1 Pd B F1) as (P1 & B1 & _ & X1).
  destruct (early_value a d1 a' d2 (nb_part _ _ _ Ne (pt_for _ _ _ _)) (typed_part _ _ _ _ _ _ Ty (pt_for _ _ _ _)) Ea C2 B1 F2) as (new & P2 & Sn & B2 & Ta & _ & X2).
  assert (Ta' : type_of a' s p = Done t).
  { apply (type_of_stable _ _ _ _ F2 a'); [|exact C3]. eapply knows_grows; [|exact Lits]. exact (proj1 (proj2 (proj1 B2))). }
  assert (Kt : known s0 p0 t). { apply (Ty _ (wi_here _)). rewrite <- Ta. exact Ta'. }
  destruct (fresh_spec _ _ _ _ _ C4 (final_small s p Small _ F3)) as (arr & ti & -> & A1 & A2 & A3 & A4 & A5).
  destruct (A5 (proj2 B2) (base_known _ _ _ _ B2 Kt)) as [So3 Rt].
  assert (B3 : base d3) by (split; [exact (grows_trans _ _ _ (proj1 B2) G3)|exact So3]).
  assert (Ki : known (ds_scope d3) (ds_pool d3) int).
  { destruct Int as (ti0 & K0 & I0). apply base_known with (s0 := s0) (p0 := p0); [exact B3|]. pose proof (literal_type_stable _ _ _ _ (proj1 B3) (CI32 0) sp ti0 Lits (I0 sp)) as Q.
    change (constant_type (CI32 0)) with tn_INT32 in Q. rewrite C5 in Q. injection Q as ->. exact K0. }
  destruct (fresh_spec _ _ _ _ _ C6 (final_small s p Small _ F4)) as (counter & ti' & -> & D1 & D2 & D3 & D4 & D5).
  destruct (D5 (proj2 B3) Ki) as [So4 _].
  assert (B' : base d'). { split; [rewrite C9, C10; exact (grows_trans _ _ _ (proj1 B3) G4)|]. destruct So4 as [O1 O2]. split; rewrite ?C9, ?C10; assumption. }
  split; [exact B'|]. assert (Pr : ds_prefix d' = new ++ setup (RValue (VLocal arr)) (RValue (VLocal counter)) a' sp) by (rewrite C11, D3, A3, P2, P1; reflexivity).
  rewrite Pr. split; [rewrite forallb_app; cbn [forallb]; rewrite andb_false_r; reflexivity|].
  intros w w2 A. rewrite <- app_assoc, (run_simple R s p N new _ w2 Sn). cbn [srun].
  assert (Ld : len d' = len d4) by (unfold len; rewrite C10; reflexivity).
  pose proof (dgrows_len _ _ G1) as L1. pose proof (dgrows_len _ _ G2) as L2. pose proof (base_low _ _ _ B) as L0.
  unfold run_for at 1, static_type. rewrite <- Ta, Ta'. destruct (match t with TIArray _ => true | _ => false end) eqn:Ia; [|left; destruct t; try discriminate Ia; reflexivity].
  destruct t as [| | | | | |t| | | | |]; try discriminate Ia. clear Ia.
  assert (Rf : run_for R Y s p N sev l a (run_all R srn b) w = match TIArray t with TIArray _ =>
    ask (v, w1) := sev a w in
    match elements Y (load Y v w1) with
    | Some xs => if Z.of_nat (length xs) <? 2 ^ 31 then for_each R N l (run_all R srn b) xs w1 else Halt Malformed
    | None => Halt Malformed
    end | _ => Halt Malformed end) by (unfold run_for, static_type; rewrite <- Ta, Ta'; reflexivity). rewrite <- Rf.
  apply (for_sim T s arr counter l less add int sp N b' (run_all R srn b) (outside d d')); try lia.
  all: try (unfold outside; lia).
  - exact (Ne _ (wi_here _)).
  - exact (extends_def_name _ _ _ _ (proj1 Fi) C7).
  - exact (extends_def_name _ _ _ _ (proj1 Fi) C8).
  - apply (known_element s p d3 t arr ti sp A4 Rt); [|exact F3]. exact (base_known _ _ _ _ B3 Kt).
  - intros u u2 Au. eapply mrel_weaken; [|exact (X1 u u2 Au)]. intros y z. apply end_rel_less. intros i Ti H. unfold outside in *. lia.
  - eapply mrel_weaken; [|exact (X2 w w2 A)]. intros y z (H1 & H2 & H3 & H4 & _). split; [exact H1|]. split; [|split; assumption].
    eapply kept_less; [|exact H2]. intros i Ti H. unfold outside in *. lia.
Qed.

(** Every statement. *)
Theorem every_good e : goodS e.
Proof.
  induction e using expr_ind'; try (intros Ne Ty Ea; refine (statement_good _ Ea Ne Ty Ea); fail).
  - apply good_declare.
  - apply good_return.
  - apply good_seq. assumption.
  - apply good_switch; [|assumption]. eapply Forall_impl; [|eassumption]. intros c Hc. apply Hc.
  - apply good_if; assumption.
  - apply good_while. assumption.
  - apply good_for. assumption.
  - intros Ne Ty Ea d e' d' E Pd B Fi. injection E as <- <-. rewrite Pd. split; [exact B|]. split; [reflexivity|]. intros w w2 A. right. split; [exact A|apply kept_refl].
Qed.
End Statements.
