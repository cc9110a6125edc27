(** Facts behind C28 and C29. *)
From Coq Require Import String.
From Coq Require Import ZArith List Bool Lia.
From Verif Require Import Bytes Bytecode Definitions Bundle Ast TypeNames Pool Scope TypeCheck PartsSpec Semantics TypeIndexSpec Desugar SugarSpec DesugarFacts.
Import ListNotations.
Open Scope Z_scope.

(** * Running the same code with different temporaries *)

Definition arel {A B} (P : A -> B -> Prop) (a : answer A) (b : answer B) : Prop :=
  match a, b with Ans x, Ans y => P x y | Halt h, Halt h' => h = h' | _, _ => False end.
Lemma arel_bind {A B A' B'} (P : A -> B -> Prop) (Q : A' -> B' -> Prop) a b k k' :
  arel P a b -> (forall x y, P x y -> arel Q (k x) (k' y)) -> arel Q (then_ a k) (then_ b k').
Proof. destruct a, b; cbn [arel then_]; intros H K; try contradiction; auto. Qed.
Lemma arel_weaken {A B} (P Q : A -> B -> Prop) a b : (forall x y, P x y -> Q x y) -> arel P a b -> arel Q a b.
Proof. destruct a, b; cbn [arel]; auto. Qed.

Section Same.
Context {R : runtime} {Y : arrays R} {p : pool} {temp : pidx -> Prop} {takes : op -> nat -> Prop}.
Variables (T : temporaries R Y p temp takes) (s : scope).
Notation St := (state R).
Notation Val := (value R).

(** The temporaries [F] hold in [w1] what they hold in [w]. *)
Definition kept (F : pidx -> Prop) (w w1 : St) : Prop := forall i, temp i -> F i -> load Y (place T i) w1 = load Y (place T i) w.
Definition all_kept := kept (fun _ => True).
Lemma kept_refl F w : kept F w w. Proof. intros i _ _. reflexivity. Qed.
Lemma kept_trans F a b c : kept F a b -> kept F b c -> kept F a c.
Proof. intros H K i I J. rewrite (K i I J). apply H; assumption. Qed.
Lemma kept_all F a b : all_kept a b -> kept F a b. Proof. intros H i I _. apply H; [exact I|exact Logic.I]. Qed.
Lemma kept_store F i v w : temp i -> ~ F i -> kept F w (store T i v w).
Proof. intros Ti N j Tj Fj. destruct (Z.eq_dec i j) as [<-|D]; [contradiction|]. apply (t_load_other _ _ _ _ _ T); assumption. Qed.

Definition same_val (w : St) (x y : Val * St) : Prop := fst y = fst x /\ clean T (fst x) /\ alike T (snd x) (snd y) /\ all_kept w (snd y).
Definition same_vals (w : St) (x y : list (option Val) * St) : Prop :=
  fst y = fst x /\ Forall (opt_all (clean T)) (fst x) /\ alike T (snd x) (snd y) /\ all_kept w (snd y).
Definition same_end (F : pidx -> Prop) (w : St) (x y : end_ R) : Prop :=
  match x, y with
  | Normal _ u, Normal _ u1 | Broke _ u, Broke _ u1 => alike T u u1 /\ kept F w u1
  | Returned _ v u, Returned _ v1 u1 => v1 = v /\ opt_all (clean T) v /\ alike T u u1 /\ kept F w u1
  | _, _ => False
  end.
Lemma perform_same o this args w w1 : (forall i, temp i -> o <> OpLocal i) -> opt_all (clean T) this -> Forall (opt_all (clean T)) args ->
  alike T w w1 -> arel (same_val w1) (perform R o this args w) (perform R o this args w1).
Proof.
  intros N Ct Ca A. pose proof (t_alike_apply _ _ _ _ _ T o this args w w1 N Ct Ca A) as H. unfold perform.
  destruct (apply R o this args w) as [[v u]|], (apply R o this args w1) as [[v1 u1]|]; try contradiction; cbn [arel]; [|reflexivity].
  destruct H as (E & C & Al & K). split; [exact E|]. split; [exact C|]. split; [exact Al|]. intros i I _. apply K, I.
Qed.
Definition evals_same (ev ev' : texpr -> St -> answer (Val * St)) (e : texpr) : Prop :=
  forall w w1, alike T w w1 -> arel (same_val w1) (ev e w) (ev' e w1).
Lemma eval_all_same ev ev' l : Forall (evals_same ev ev') l -> forall w w1, alike T w w1 -> arel (same_vals w1) (eval_all R ev l w) (eval_all R ev' l w1).
Proof.
  induction 1 as [|e l He _ IH]; intros w w1 A; cbn [eval_all].
  - split; [reflexivity|]. split; [constructor|]. split; [exact A|]. apply kept_refl.
  - eapply arel_bind; [apply He, A|]. intros [v u] [v1 u1] (E & C & A1 & K). cbn [fst snd] in *. subst v1.
    eapply arel_bind; [apply IH, A1|]. intros [vs x] [vs1 x1] (E' & C' & A2 & K'). cbn [fst snd] in *. subst vs1.
    split; [reflexivity|]. split; [constructor; assumption|]. split; [exact A2|]. eapply kept_trans; eassumption.
Qed.
Lemma strict_same ev ev' o l : Forall (evals_same ev ev') l -> (forall i, temp i -> o <> Some (OpLocal i)) ->
  forall w w1, alike T w w1 -> arel (same_val w1) (strict R ev o l w) (strict R ev' o l w1).
Proof.
  intros H N w w1 A. unfold strict. destruct o as [o|]; cbn [need then_]; [|reflexivity].
  eapply arel_bind; [apply eval_all_same; eassumption|]. intros [vs u] [vs1 u1] (E & C & A1 & K). cbn [fst snd] in *. subst vs1.
  eapply arel_weaken; [|apply perform_same; [|exact I|exact C|exact A1]].
  - intros x y (X1 & X2 & X3 & X4). repeat (split; [assumption|]). eapply kept_trans; eassumption.
  - intros i I ->. apply (N i I). reflexivity.
Qed.
Lemma eval_args_same ev ev' o this l : Forall (evals_same ev ev') l -> opt_all (clean T) this ->
  forall params acc w w1, Forall (opt_all (clean T)) acc -> alike T w w1 ->
  arel (same_vals w1) (eval_args R ev o this l params acc w) (eval_args R ev' o this l params acc w1).
Proof.
  intros H Ct. induction H as [|e l He _ IH]; intros params acc w w1 Ca A; cbn [eval_args].
  - split; [reflexivity|]. split; [|split; [exact A|apply kept_refl]]. apply Forall_app. split; [exact Ca|]. apply Forall_forall. intros x I.
    apply repeat_spec in I. subst. exact Logic.I.
  - destruct params as [|b params]; [reflexivity|]. rewrite (t_alike_skips _ _ _ _ _ T o this acc w w1 Ct Ca A).
    destruct (b && _).
    + apply IH; [|exact A]. apply Forall_app. split; [exact Ca|]. repeat constructor.
    + eapply arel_bind; [apply He, A|]. intros [v u] [v1 u1] (E & C & A1 & K). cbn [fst snd] in *. subst v1.
      eapply arel_weaken; [|apply IH; [|exact A1]].
      * intros x y (X1 & X2 & X3 & X4). repeat (split; [assumption|]). eapply kept_trans; eassumption.
      * apply Forall_app. split; [exact Ca|]. constructor; [exact C|constructor].
Qed.
Lemma eval_call_same ev ev' f super this l : Forall (evals_same ev ev') l -> opt_all (clean T) this ->
  forall w w1, alike T w w1 -> arel (same_val w1) (eval_call R p ev f super this l w) (eval_call R p ev' f super this l w1).
Proof.
  intros H Ct w w1 A. unfold eval_call. destruct (callee_of p f super) as [c|]; cbn [need then_]; [|reflexivity].
  destruct (short_params p f) as [ps|]; cbn [need then_]; [|reflexivity].
  eapply arel_bind; [apply eval_args_same; [exact H|exact Ct|constructor|exact A]|].
  intros [vs u] [vs1 u1] (E & C & A1 & K). cbn [fst snd] in *. subst vs1.
  eapply arel_weaken; [|apply perform_same; [discriminate|exact Ct|exact C|exact A1]].
  intros x y (X1 & X2 & X3 & X4). repeat (split; [assumption|]). eapply kept_trans; eassumption.
Qed.

Lemma names_part x e : names_no temp e -> part x e -> names_no temp x.
Proof. intros N P y W. apply N. econstructor; eassumption. Qed.
Lemma names_parts l e : (forall x, In x l -> part x e) -> names_no temp e -> Forall (names_no temp) l.
Proof. intros P N. apply Forall_forall. intros x I. eapply names_part; [exact N|apply P, I]. Qed.
Lemma forall_mp {A} (P Q : A -> Prop) l : Forall (fun x => P x -> Q x) l -> Forall P l -> Forall Q l.
Proof. induction 1; intros F; inversion F; subst; constructor; auto. Qed.
Ltac parts l := apply (forall_mp _ _ _ ltac:(eassumption)); eapply (names_parts l); [|eassumption]; intros; constructor; assumption.
Lemma static_elem_not_local (o : option typeid) (n : option str) i :
  (match o with
   | Some (TIArray _) => bind_opt n (fun n => Some (OpElement false n))
   | Some (TIStaticArray _ _) => bind_opt n (fun n => Some (OpElement true n))
   | _ => None
   end) <> Some (OpLocal i).
Proof. destruct o as [[]|]; try discriminate; destruct n; discriminate. Qed.
Lemma intrinsic_not_local i t args j : intrinsic_op s p i t args <> Some (OpLocal j).
Proof.
  unfold intrinsic_op. destruct (negb _); [discriminate|]. destruct i, args; try discriminate; cbn [bind_opt];
    unfold bind_opt; repeat match goal with |- match ?x with _ => _ end <> _ => destruct x end; try discriminate;
    repeat match goal with |- match ?x with _ => _ end <> _ => destruct x end; discriminate.
Qed.
Lemma conditional_same ev ev' c t f : evals_same ev ev' c -> evals_same ev ev' t -> evals_same ev ev' f -> forall w w1, alike T w w1 ->
  arel (same_val w1) (ask (v, u) := ev c w in if truth R v u then ev t u else ev f u) (ask (v, u) := ev' c w1 in if truth R v u then ev' t u else ev' f u).
Proof.
  intros Hc Ht Hf w w1 A. eapply arel_bind; [apply Hc, A|]. intros [v u] [v1 u1] (E & C & A1 & K). cbn [fst snd] in *. subst v1.
  rewrite (t_alike_truth _ _ _ _ _ T v u u1 C A1).
  eapply arel_weaken; [|destruct (truth R v u1); [apply Ht, A1|apply Hf, A1]].
  intros x y (X1 & X2 & X3 & X4). repeat (split; [assumption|]). eapply kept_trans; eassumption.
Qed.
(** Evaluating and running code that does not name temporaries. *)
Lemma eval_same e : names_no temp e -> evals_same (eval R s p) (eval R s p) e.
Proof.
  induction e using expr_ind'; intros Nm w w1 A; cbn [eval]; try reflexivity.
  - pose proof (Nm _ (wi_here _)) as N. cbn in N. destruct r as [[i|i]|]; [| |reflexivity]; apply perform_same; try constructor; try exact A; [|discriminate].
    intros j Tj [= ->]. contradiction.
  - apply perform_same; try constructor; [discriminate|exact A].
  - destruct t; try reflexivity. apply strict_same; [|discriminate|exact A]. repeat constructor. apply IHe. eapply names_part; [exact Nm|constructor].
  - apply strict_same; [|discriminate|exact A]. repeat constructor; [apply IHe1|apply IHe2]; (eapply names_part; [exact Nm|constructor]).
  - destruct c as [f|i t].
    + apply eval_call_same; [|exact I|exact A]. parts args.
    + apply strict_same; [parts args| |exact A]. intros j _. apply intrinsic_not_local.
  - assert (F : Forall (evals_same (eval R s p) (eval R s p)) args) by parts args.
    assert (M : arel (same_val w1)
      (ask (v, u) := eval R s p e w in if is_null R v u then Ans (no_value R, u) else eval_call R p (eval R s p) f (match e with ESuper _ => true | _ => false end) (Some v) args u)
      (ask (v, u) := eval R s p e w1 in if is_null R v u then Ans (no_value R, u) else eval_call R p (eval R s p) f (match e with ESuper _ => true | _ => false end) (Some v) args u)).
    { eapply arel_bind; [apply IHe; [eapply names_part; [exact Nm|constructor]|exact A]|]. intros [v u] [v1 u1] (E & C & A1 & K). cbn [fst snd] in *. subst v1.
      rewrite (t_alike_null _ _ _ _ _ T v u u1 C A1). destruct (is_null R v u1).
      - split; [reflexivity|]. split; [apply (t_clean_none _ _ _ _ _ T)|]. split; assumption.
      - eapply arel_weaken; [|apply eval_call_same; [exact F|exact C|exact A1]].
        intros x y (X1 & X2 & X3 & X4). repeat (split; [assumption|]). eapply kept_trans; eassumption. }
    destruct e; try exact M. destruct r as [|[]]; try exact M; (apply eval_call_same; [exact F|exact I|exact A]).
  - assert (Ne : names_no temp e) by (eapply names_part; [exact Nm|constructor]). destruct m as [f|f|en m].
    + eapply arel_bind; [apply IHe; [exact Ne|exact A]|]. intros [v u] [v1 u1] (E & C & A1 & K). cbn [fst snd] in *. subst v1.
      rewrite (t_alike_null _ _ _ _ _ T v u u1 C A1). destruct (is_null R v u1).
      * split; [reflexivity|]. split; [apply (t_clean_none _ _ _ _ _ T)|]. split; assumption.
      * eapply arel_weaken; [|apply perform_same; [discriminate|exact C|constructor|exact A1]].
        intros x y (X1 & X2 & X3 & X4). repeat (split; [assumption|]). eapply kept_trans; eassumption.
    + apply strict_same; [|discriminate|exact A]. repeat constructor. apply IHe, Ne.
    + apply perform_same; try constructor; [discriminate|exact A].
  - apply strict_same; [|intros i _; apply static_elem_not_local|exact A]. repeat constructor; [apply IHe1|apply IHe2]; (eapply names_part; [exact Nm|constructor]).
  - destruct t; try reflexivity.
    + destruct args; [|reflexivity]. apply perform_same; try constructor; [discriminate|exact A].
    + apply strict_same; [parts args|discriminate|exact A].
  - apply conditional_same; [apply IHe1|apply IHe2|apply IHe3|exact A]; (eapply names_part; [exact Nm|]); [apply pt_cond|apply pt_cond_then|apply pt_cond_else].
  - apply perform_same; try constructor; [discriminate|exact A].
  - apply perform_same; try constructor; [discriminate|exact A].
  - apply perform_same; try constructor; [discriminate|exact A].
Qed.
(** * The loop made for a for-in loop *)

Definition mrel {A B} (P : A -> B -> Prop) (a : answer A) (b : answer B) : Prop := a = Halt Malformed \/ arel P a b.
Lemma mrel_bind {A B A' B'} (P : A -> B -> Prop) (Q : A' -> B' -> Prop) a b k k' :
  mrel P a b -> (forall x y, P x y -> mrel Q (k x) (k' y)) -> mrel Q (then_ a k) (then_ b k').
Proof. intros [->|H] K; [left; reflexivity|]. destruct a, b; cbn [arel then_] in *; try contradiction; [auto|right; exact H]. Qed.
Lemma mrel_weaken {A B} (P Q : A -> B -> Prop) a b : (forall x y, P x y -> Q x y) -> mrel P a b -> mrel Q a b.
Proof. intros I [->|H]; [left; reflexivity|right; eapply arel_weaken; eassumption]. Qed.

(** Two runs end in the same way, in states that differ in temporaries only; the
    temporaries [F] keep what they had. *)
Definition end_rel (F : pidx -> Prop) (w2 : St) (x y : end_ R) : Prop :=
  match x, y with
  | Normal _ u, Normal _ u2 | Broke _ u, Broke _ u2 => alike T u u2 /\ kept F w2 u2
  | Returned _ v u, Returned _ v2 u2 => alike T u u2 /\ read_alike Y v v2 u u2
  | _, _ => False
  end.
Lemma end_rel_step F w2 u2 x y : kept F w2 u2 -> end_rel F u2 x y -> end_rel F w2 x y.
Proof.
  intros K. destruct x, y; cbn [end_rel]; try tauto; intros [A H]; (split; [exact A|]); eapply kept_trans; eassumption.
Qed.
Lemma end_rel_less (F G : pidx -> Prop) w2 x y : (forall i, temp i -> G i -> F i) -> end_rel F w2 x y -> end_rel G w2 x y.
Proof.
  intros I. destruct x, y; cbn [end_rel]; try tauto; intros [A H]; (split; [exact A|]); intros i Ti Gi; apply H; auto.
Qed.

Lemma run_all_app fuel l m w : run_all R (run R s p fuel) (l ++ m) w =
  ask r := run_all R (run R s p fuel) l w in match r with Normal _ w1 => run_all R (run R s p fuel) m w1 | _ => Ans r end.
Proof.
  revert w. induction l as [|e l IH]; intros w; [reflexivity|]. cbn [app run_all]. destruct (run R s p fuel e w) as [[w1|w1|v w1]|]; cbn [then_]; auto.
Qed.

(** Running the same statements. *)
Definition everywhere (_ : pidx) : Prop := True.
Definition runs_same (f f' : St -> answer (end_ R)) : Prop := forall w w2, alike T w w2 -> arel (end_rel everywhere w2) (f w) (f' w2).
Lemma run_all_same (f f' : texpr -> St -> answer (end_ R)) l : Forall (fun e => runs_same (f e) (f' e)) l -> runs_same (run_all R f l) (run_all R f' l).
Proof.
  induction 1 as [|e l He _ IH]; intros w w2 A; cbn [run_all]; [split; [exact A|apply kept_refl]|].
  eapply arel_bind; [apply He, A|]. intros r r2 Hr. destruct r, r2; cbn [end_rel] in Hr; try contradiction; try exact Hr.
  destruct Hr as [A1 K1]. eapply arel_weaken; [|apply IH, A1]. intros x y. apply end_rel_step, K1.
Qed.
Lemma loop_same c c' b b' : (forall w w2, alike T w w2 -> arel (same_val w2) (c w) (c' w2)) -> runs_same b b' ->
  forall fuel, runs_same (loop R fuel c b) (loop R fuel c' b').
Proof.
  intros Hc Hb. induction fuel as [|fuel IH]; intros w w2 A; cbn [loop]; [reflexivity|].
  eapply arel_bind; [apply Hc, A|]. intros [v u] [v2 u2] (E & C & A1 & K1). cbn [fst snd] in *. subst v2.
  rewrite (t_alike_truth _ _ _ _ _ T v u u2 C A1). destruct (truth R v u2); [|split; assumption].
  eapply arel_bind; [apply Hb, A1|]. intros r r2 Hr. destruct r, r2; cbn [end_rel] in Hr; try contradiction; destruct Hr as [A2 K2].
  - eapply arel_weaken; [|apply IH, A2]. intros x y. apply end_rel_step. eapply kept_trans; eassumption.
  - split; [exact A2|]. eapply kept_trans; eassumption.
  - split; assumption.
Qed.
Definition same_number (w2 : St) (x y : nat * St) : Prop := fst y = fst x /\ alike T (snd x) (snd y) /\ all_kept w2 (snd y).
Lemma select_same ev ev' t v cases : Forall (fun c => evals_same ev ev' (fst c)) cases -> clean T v ->
  forall w w2, alike T w w2 -> arel (same_number w2) (select R ev t v cases w) (select R ev' t v cases w2).
Proof.
  intros H Cv. induction H as [|[m b] cases Hm _ IH]; intros w w2 A; cbn [select].
  - split; [reflexivity|]. split; [exact A|apply kept_refl].
  - eapply arel_bind; [apply Hm, A|]. intros [x u] [x2 u2] (E & C & A1 & K1). cbn [fst snd] in *. subst x2.
    rewrite (t_alike_same _ _ _ _ _ T t v x u u2 Cv C A1). destruct (same R t v x u2); [split; [reflexivity|split; assumption]|].
    eapply arel_bind; [apply IH, A1|]. intros [k z] [k2 z2] (E2 & A2 & K2). cbn [fst snd] in *. subst k2.
    split; [reflexivity|]. split; [exact A2|]. eapply kept_trans; eassumption.
Qed.
Lemma run_case_same (f f' : list texpr -> St -> answer (end_ R)) df df' cases : Forall (fun c => runs_same (f (snd c)) (f' (snd c))) cases -> runs_same df df' ->
  forall k, runs_same (run_case R f df k cases) (run_case R f' df' k cases).
Proof.
  intros H Hd. induction H as [|[m b] cases Hb Hcs IH]; intros k w w2 A; cbn [run_case]; [apply Hd, A|].
  destruct k as [|k]; [|apply IH, A]. destruct (forallb is_empty b); [apply IH, A|].
  eapply arel_bind; [apply Hb, A|]. intros r r2 Hr. destruct r, r2; cbn [end_rel] in Hr; try contradiction; try exact Hr.
  destruct cases; [|reflexivity]. destruct Hr as [A1 K1]. eapply arel_weaken; [|apply Hd, A1]. intros x y. apply end_rel_step, K1.
Qed.
Lemma same_val_end w2 f f' : arel (same_val w2) f f' ->
  arel (end_rel everywhere w2) (ask (_, w1) := f in Ans (Normal R w1)) (ask (_, w1) := f' in Ans (Normal R w1)).
Proof. intros H. eapply arel_bind; [exact H|]. intros [v u] [v2 u2] (_ & _ & A & K). split; assumption. Qed.
Lemma assign_same l (x x' : St -> answer (Val * St)) : ~ temp l -> (forall w w2, alike T w w2 -> arel (same_val w2) (x w) (x' w2)) ->
  runs_same (fun w => ask (v, w1) := perform R (OpLocal l) None [] w in ask (y, w2) := x w1 in ask (_, w3) := perform R OpAssign None [Some v; Some y] w2 in Ans (Normal R w3))
            (fun w => ask (v, w1) := perform R (OpLocal l) None [] w in ask (y, w2) := x' w1 in ask (_, w3) := perform R OpAssign None [Some v; Some y] w2 in Ans (Normal R w3)).
Proof.
  intros Nl Hx w w2 A. unfold perform at 1 3. rewrite !(t_local _ _ _ _ _ T). cbn [then_].
  eapply arel_bind; [apply Hx, A|]. intros [v u] [v2 u2] (E & C & A1 & K1). cbn [fst snd] in *. subst v2.
  eapply arel_weaken; [|apply same_val_end, perform_same; [discriminate|exact I| |exact A1]].
  - intros y y2. apply end_rel_step, K1.
  - repeat constructor; [|exact C]. apply (t_clean_local _ _ _ _ _ T), Nl.
Qed.
Lemma initial_not_local t o i : initial_value p t = Some (InitTo o) -> o <> OpLocal i.
Proof.
  intros H ->. revert H. destruct t; cbn [initial_value]; unfold bind_opt; try discriminate.
  - destruct (name_of p _); [|discriminate].
    repeat match goal with |- (if ?x then _ else _) = _ -> _ => destruct x; [try discriminate; destruct (text_at p _ 0); discriminate|] end. discriminate.
  - destruct (get_enum p _) as [e|]; [|discriminate]. destruct (en_members e); discriminate.
  - destruct (name_of p _); discriminate.
Qed.
Lemma run_same fuel e : names_no temp e -> runs_same (run R s p fuel e) (run R s p fuel e).
Proof.
  assert (Q : forall l, Forall (fun e => names_no temp e -> runs_same (run R s p fuel e) (run R s p fuel e)) l -> Forall (names_no temp) l ->
    runs_same (run_all R (run R s p fuel) l) (run_all R (run R s p fuel) l)).
  { intros l H F. apply run_all_same. exact (forall_mp _ _ _ H F). }
  induction e using expr_ind'; intros Nm; cbn [run];
    try (intros w w2 A; apply same_val_end, eval_same; [exact Nm|exact A]).
  - pose proof (Nm _ (wi_here _)) as Nl. cbn in Nl. destruct i as [x|].
    + assert (Nx : names_no temp x) by (eapply names_part; [exact Nm|constructor]). destruct t; apply assign_same; try exact Nl; intros w w2 A; apply eval_same; assumption.
    + destruct t as [t|]; [|intros w w2 A; reflexivity]. destruct (initial_value p t) as [[o|n|]|] eqn:E; cbn [need then_]; intros w w2 A; try reflexivity.
      * apply assign_same; [exact Nl| |exact A]. intros u u2 Au. apply perform_same; try constructor; [|exact Au]. intros i _. eapply initial_not_local, E.
      * unfold perform at 1 3. rewrite !(t_local _ _ _ _ _ T). cbn [then_]. apply same_val_end, perform_same; [discriminate|exact I| |exact A].
        repeat constructor. apply (t_clean_local _ _ _ _ _ T), Nl.
      * split; [exact A|apply kept_refl].
  - destruct e as [x|]; intros w w2 A.
    + eapply arel_bind; [apply eval_same; [eapply names_part; [exact Nm|constructor]|exact A]|]. intros [v u] [v2 u2] (E & C & A1 & K1). cbn [fst snd] in *. subst v2.
      split; [exact A1|]. cbn [read_alike]. apply (t_alike_load _ _ _ _ _ T); assumption.
    + split; [exact A|exact I].
  - apply Q; [assumption|]. eapply names_parts; [|exact Nm]. intros; constructor; assumption.
  - intros w w2 A. destruct (static_name s p e) as [t|]; cbn [need then_]; [|reflexivity].
    eapply arel_bind; [apply eval_same; [eapply names_part; [exact Nm|constructor]|exact A]|]. intros [v u] [v2 u2] (E & C & A1 & K1). cbn [fst snd] in *. subst v2.
    eapply arel_bind; [apply select_same; [|exact C|exact A1]|].
    { apply Forall_forall. intros [m b] I. apply eval_same. eapply names_part; [exact Nm|]. econstructor. exact I. }
    intros [k x] [k2 x2] (E2 & A2 & K2). cbn [fst snd] in *. subst k2.
    eapply arel_bind; [apply run_case_same; [| |exact A2]|].
    + rewrite Forall_forall in H. apply Forall_forall. intros [m b] I. destruct (H _ I) as [_ Hb]. cbn [snd] in *. apply Q; [exact Hb|].
      eapply names_parts; [|exact Nm]. intros y Iy. econstructor; eassumption.
    + destruct d as [d|]; [|intros z z2 Az; split; [exact Az|apply kept_refl]]. apply Q; [assumption|]. eapply names_parts; [|exact Nm]. intros y Iy. apply pt_default. exact Iy.
    + intros r r2 Hr. cbn [arel]. apply (end_rel_step _ w2 x2); [eapply kept_trans; eassumption|]. destruct r, r2; cbn [end_rel leave_switch] in *; try contradiction; exact Hr.
  - intros w w2 A. eapply arel_bind; [apply eval_same; [eapply names_part; [exact Nm|constructor]|exact A]|]. intros [v u] [v2 u2] (E & C & A1 & K1). cbn [fst snd] in *. subst v2.
    rewrite (t_alike_truth _ _ _ _ _ T v u u2 C A1).
    assert (X : arel (end_rel everywhere u2) (if truth R v u2 then run_all R (run R s p fuel) t u else match f with Some f => run_all R (run R s p fuel) f u | None => Ans (Normal R u) end)
       (if truth R v u2 then run_all R (run R s p fuel) t u2 else match f with Some f => run_all R (run R s p fuel) f u2 | None => Ans (Normal R u2) end)).
    { destruct (truth R v u2); [apply Q; [assumption| |exact A1]; eapply names_parts; [|exact Nm]; intros; apply pt_then; assumption|].
      destruct f as [f|]; [|split; [exact A1|apply kept_refl]]. apply Q; [assumption| |exact A1]. eapply names_parts; [|exact Nm]. intros; apply pt_else; assumption. }
    eapply arel_weaken; [|exact X]. intros y y2. apply end_rel_step, K1.
  - apply loop_same; [intros w w2; apply eval_same; eapply names_part; [exact Nm|constructor]|]. apply Q; [assumption|]. eapply names_parts; [|exact Nm]. intros; constructor; assumption.
  - intros w w2 A. split; [exact A|apply kept_refl].
Qed.

Section Loop.
Variables (arr counter var : pidx) (less add : pidx) (int : typeid) (sp : span) (N : nat) (body : list texpr) (B : St -> answer (end_ R)) (F : pidx -> Prop).
Notation Arr := (RValue (VLocal arr)).
Notation Cnt := (RValue (VLocal counter)).
Hypothesis (Ta : temp arr) (Tc : temp counter) (D : arr <> counter) (Tv : ~ temp var) (Fa : ~ F arr) (Fc : ~ F counter).
Hypothesis Less : def_name p less = Done (lit "OperatorLess;Int32Int32;Bool").
Hypothesis Add : def_name p add = Done (lit "OperatorAssignAdd;OutInt32Int32;Int32").
Hypothesis Type_ : exists t n, static_type s p (tident Arr sp) = Some (TIArray t) /\ static_name s p (tident Arr sp) = Some n.
Hypothesis Body : forall w w2, alike T w w2 -> mrel (end_rel (fun i => F i \/ i = arr \/ i = counter) w2) (B w) (run_all R (run R s p N) body w2).

Lemma eval_place i sp' w : eval R s p (tident (RValue (VLocal i)) sp') w = Ans (place T i, w).
Proof. cbn [tident eval]. unfold perform. rewrite (t_local _ _ _ _ _ T). reflexivity. Qed.
Lemma eval_con c sp' w : eval R s p (EConstant c sp') w = Ans (con T (const_of c), w).
Proof. cbn [eval]. unfold perform. rewrite (t_const _ _ _ _ _ T). reflexivity. Qed.
Lemma condition_value k l w : Forall (settled Y) l -> Z.of_nat (length l) < 2 ^ 31 -> Z.of_nat k <= Z.of_nat (length l) ->
  load Y (place T arr) w = array Y l -> load Y (place T counter) w = con T (KInt 32 (Z.of_nat k)) ->
  exists v, eval R s p (loop_condition (CFunction less) int Arr Cnt sp) w = Ans (v, w) /\ truth R v w = (Z.of_nat k <? Z.of_nat (length l)).
Proof.
  intros Se Hl Hk La Lc. destruct (t_less _ _ _ _ _ T less Less) as (c & E1 & E2 & E3).
  destruct (E3 counter (Z.of_nat k) (Z.of_nat (length l)) w Tc ltac:(lia) ltac:(lia) Lc) as (v & V & Tr). exists v. split; [|exact Tr].
  unfold loop_condition. cbn [eval]. unfold eval_call. rewrite E1, E2. cbn [need then_ eval_args andb app].
  rewrite eval_place. cbn [then_ eval]. unfold strict, intrinsic_op. cbn [length arg_count Nat.eqb negb].
  destruct Type_ as (t & n & _ & ->). cbn [bind_opt need then_ eval_all]. rewrite eval_place. cbn [then_]. unfold perform.
  rewrite (t_size _ _ _ _ _ T arr n l w Ta Se La Hl). cbn [then_ length repeat app]. unfold perform. rewrite V. reflexivity.
Qed.
Lemma element_run k l x fuel w : Forall (settled Y) l -> nth_error l k = Some x -> load Y (place T arr) w = array Y l -> load Y (place T counter) w = con T (KInt 32 (Z.of_nat k)) ->
  run R s p fuel (loop_element var Arr Cnt sp) w = ask (_, w1) := perform R OpAssign None [Some (place T var); Some x] w in Ans (Normal R w1).
Proof.
  intros Se Hx La Lc. unfold loop_element. cbn [run eval]. unfold strict at 1. cbn [need then_ eval_all]. rewrite eval_place. cbn [then_].
  cbn [eval]. destruct Type_ as (t & n & E1 & E2). rewrite E1. cbn [bind_opt]. rewrite E2. cbn [bind_opt].
  unfold strict. cbn [need then_ eval_all]. rewrite eval_place. cbn [then_]. rewrite eval_place. cbn [then_].
  assert (Hk : (k < length l)%nat) by (apply nth_error_Some; congruence). unfold perform.
  rewrite (t_element _ _ _ _ _ T arr l k n (place T counter) w Ta Se La Hk (or_introl Lc)). cbn [then_]. 
  rewrite (t_from_cell _ _ _ _ _ T arr k (place T var) w Ta (t_clean_local _ _ _ _ _ T var Tv)), (t_load_cell _ _ _ _ _ T arr k l x w Ta Se La Hx). reflexivity.
Qed.
Lemma step_run k fuel w : Z.of_nat k < 2 ^ 31 - 1 -> load Y (place T counter) w = con T (KInt 32 (Z.of_nat k)) ->
  run R s p fuel (loop_step (CFunction add) Cnt sp) w = Ans (Normal R (store T counter (con T (KInt 32 (Z.of_nat (S k)))) w)).
Proof.
  intros Hk Lc. destruct (t_add _ _ _ _ _ T add Add) as (c & E1 & E2 & E3).
  destruct (E3 counter (Z.of_nat k) w Tc ltac:(lia) Lc) as (v & V). unfold loop_step. cbn [run eval]. unfold eval_call. rewrite E1, E2. cbn [need then_ eval_args andb app].
  rewrite eval_place. cbn [then_]. rewrite eval_con. cbn [then_ length repeat app const_of]. unfold perform. rewrite V. cbn [then_].
  rewrite Nat2Z.inj_succ. unfold Z.succ. reflexivity.
Qed.
Lemma loop_sim l : Forall (settled Y) l -> Forall (clean T) l -> Z.of_nat (length l) < 2 ^ 31 -> forall fuel k w w2, (k <= length l)%nat -> alike T w w2 ->
  load Y (place T arr) w2 = array Y l -> load Y (place T counter) w2 = con T (KInt 32 (Z.of_nat k)) ->
  mrel (end_rel F w2) (for_each R fuel var B (skipn k l) w)
    (loop R fuel (eval R s p (loop_condition (CFunction less) int Arr Cnt sp))
       (run_all R (run R s p N) (loop_element var Arr Cnt sp :: body ++ [loop_step (CFunction add) Cnt sp])) w2).
Proof.
  intros Se Cl Hl. induction fuel as [|fuel IH]; intros k w w2 Hk A La Lc; [right; reflexivity|].
  cbn [for_each loop]. destruct (condition_value k l w2 Se Hl ltac:(lia) La Lc) as (v & -> & Tr). cbn [then_]. rewrite Tr.
  destruct (Z.ltb_spec (Z.of_nat k) (Z.of_nat (length l))) as [L|L].
  2: { assert (k = length l) by lia. subst k. rewrite skipn_all. right. cbn [arel end_rel]. split; [exact A|]. apply kept_refl. }
  destruct (nth_error l k) as [x|] eqn:Hx; [|apply nth_error_None in Hx; lia].
  assert (Sk : skipn k l = x :: skipn (S k) l).
  { clear - Hx. revert l Hx. induction k; intros [|y l] Hx; try discriminate; [injection Hx as ->; reflexivity|]. cbn [nth_error] in Hx. exact (IHk l Hx). }
  rewrite Sk. unfold perform at 1. rewrite (t_local _ _ _ _ _ T). cbn [then_].
  cbn [run_all]. rewrite (element_run k l x N w2 Se Hx La Lc).
  assert (Cx : clean T x) by (rewrite Forall_forall in Cl; apply Cl; eapply nth_error_In; exact Hx).
  assert (P : arel (same_val w2) (perform R OpAssign None [Some (place T var); Some x] w) (perform R OpAssign None [Some (place T var); Some x] w2)).
  { apply perform_same; [discriminate|exact I| |exact A]. repeat constructor; [|exact Cx]. apply (t_clean_local _ _ _ _ _ T), Tv. }
  destruct (perform R OpAssign None _ w) as [[a u]|h], (perform R OpAssign None _ w2) as [[a2 u2]|h2]; cbn [arel] in P; try contradiction; cbn [then_]; [|right; exact P].
  destruct P as (_ & _ & A1 & K1). cbn [fst snd] in A1, K1. rewrite run_all_app.
  destruct (Body u u2 A1) as [->|H]; [left; reflexivity|].
  destruct (B u) as [r|h], (run_all R (run R s p N) body u2) as [r2|h2]; cbn [arel] in H; try contradiction; cbn [then_]; [|right; exact H].
  destruct r as [x1|x1|v1 x1], r2 as [x2|x2|v2 x2]; cbn [end_rel] in H; try contradiction; destruct H as [A2 K2].
  - assert (La2 : load Y (place T arr) x2 = array Y l) by (rewrite (K2 arr Ta ltac:(cbn beta; auto)), (K1 arr Ta I); exact La).
    assert (Lc2 : load Y (place T counter) x2 = con T (KInt 32 (Z.of_nat k))) by (rewrite (K2 counter Tc ltac:(cbn beta; auto)), (K1 counter Tc I); exact Lc).
    cbn [run_all]. rewrite (step_run k N x2 ltac:(lia) Lc2). cbn [then_].
    eapply mrel_weaken; [|apply IH; [lia|apply (t_alike_store _ _ _ _ _ T); [exact Tc|exact A2]| |apply (t_load_store _ _ _ _ _ T); [exact Tc|apply (t_load_con _ _ _ _ _ T)]]].
    + intros y y2. apply end_rel_step. eapply kept_trans; [apply kept_all, K1|]. eapply kept_trans; [|apply kept_store; [exact Tc|exact Fc]].
      intros i Ti Fi. apply K2; auto.
    + rewrite (t_load_other _ _ _ _ _ T) by auto. exact La2.
  - right. split; [exact A2|]. eapply kept_trans; [apply kept_all, K1|]. intros i Ti Fi. apply K2; auto.
  - right. split; assumption.
Qed.
(** The loop with what is put in front of it. *)
Lemma for_sim a a' (ev : texpr -> St -> answer (Val * St)) w w2 (pre : answer St) :
  mrel (fun x y => alike T (snd x) (snd y) /\ kept F w2 (snd y) /\ load Y (fst y) (snd y) = load Y (fst x) (snd x) /\ clean T (load Y (fst x) (snd x)))
    (ev a w) (ask u := pre in eval R s p a' u) ->
  mrel (end_rel F w2) (run_for R Y s p N ev var a B w) (ask u := pre in run_all R (run R s p N) (setup Arr Cnt a' sp ++ [the_loop var Arr Cnt less add int body sp]) u).
Proof.
  intros H. unfold run_for. destruct (static_type s p a) as [[]|]; try (left; reflexivity).
  destruct H as [->|H]; [left; reflexivity|].
  assert (X : forall u, run_all R (run R s p N) (setup Arr Cnt a' sp ++ [the_loop var Arr Cnt less add int body sp]) u =
    ask (v, u1) := eval R s p a' u in
    loop R N (eval R s p (loop_condition (CFunction less) int Arr Cnt sp)) (run_all R (run R s p N) (loop_element var Arr Cnt sp :: body ++ [loop_step (CFunction add) Cnt sp]))
      (store T counter (con T (KInt 32 0)) (store T arr (load Y v u1) u1))).
  { intros u. unfold setup. cbn [app run_all run eval]. unfold strict at 1. cbn [need then_ eval_all]. rewrite eval_place. cbn [then_].
    destruct (eval R s p a' u) as [[v u1]|]; cbn [then_]; [|reflexivity]. unfold perform at 1. destruct (t_assign _ _ _ _ _ T arr v u1 Ta) as [x ->]. cbn [then_].
    unfold strict at 1. cbn [need then_ eval_all]. rewrite eval_place. cbn [then_]. rewrite eval_con. cbn [then_ const_of]. unfold perform at 1.
    destruct (t_assign _ _ _ _ _ T counter (con T (KInt 32 0)) (store T arr (load Y v u1) u1) Tc) as [y ->]. cbn [then_].
    rewrite (t_load_con _ _ _ _ _ T). unfold the_loop. cbn [run].
    match goal with |- then_ ?m _ = ?r => change r with m; destruct m as [[]|]; reflexivity end. }
  destruct (ev a w) as [[v u]|h], pre as [u0|h0]; cbn [arel then_] in *; try contradiction; [|rewrite X|right; exact H].
  2: { destruct (eval R s p a' u0) as [[v2 u2]|]; cbn [then_] in *; [contradiction|]. right. exact H. }
  rewrite X. destruct (eval R s p a' u0) as [[v2 u2]|]; cbn [arel then_ fst snd] in *; [|contradiction].
  destruct H as (A & K & L & C). destruct (elements Y (load Y v u)) as [xs|] eqn:E; [|left; reflexivity].
  apply (t_array _ _ _ _ _ T) in E. destruct E as [E Se]. rewrite E in C, L. destruct (Z.ltb_spec (Z.of_nat (length xs)) (2 ^ 31)) as [Hl|]; [|left; reflexivity].
  apply (t_clean_array _ _ _ _ _ T _ Se) in C. rewrite L.
  eapply mrel_weaken; [|apply (loop_sim xs Se C Hl N O); [lia| | |apply (t_load_store _ _ _ _ _ T); [exact Tc|apply (t_load_con _ _ _ _ _ T)]]].
  - intros x y. apply end_rel_step. eapply kept_trans; [exact K|]. eapply kept_trans; apply kept_store; assumption.
  - apply (t_alike_store _ _ _ _ _ T); [exact Tc|]. apply (t_alike_store _ _ _ _ _ T); [exact Ta|exact A].
  - rewrite (t_load_other _ _ _ _ _ T) by auto. apply (t_load_store _ _ _ _ _ T); [exact Ta|apply (t_load_array _ _ _ _ _ T), Se].
Qed.
End Loop.
End Same.
