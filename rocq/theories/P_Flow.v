(** C31, C32: what the control flow diagnostics promise about executions. *)
From Coq Require Import String.
From Coq Require Import ZArith List Bool Lia.
From Verif Require Import Bytes Bytecode Definitions Bundle Ast Pool Scope TypeCheck Diagnostics PartsSpec P_Checks LabelSpec Semantics TypeIndexSpec P_TypeIndex P_Assembler.
Import ListNotations.
Open Scope Z_scope.

Section Flow.
Variables (R : runtime) (s : scope) (p : pool).

(** Values never fall through. *)
Definition lands {X} (a : answer X) : Prop := a <> Halt FellThrough.
Lemma lands_bind {X Y} (a : answer X) (k : X -> answer Y) : lands a -> (forall x, a = Ans x -> lands (k x)) -> lands (then_ a k).
Proof. destruct a as [x|h]; cbn [then_]; intros S K; [apply K; reflexivity|]. intros [= ->]. apply S. reflexivity. Qed.
Lemma lands_ans {X} (x : X) : lands (Ans x). Proof. discriminate. Qed.
Lemma lands_perform o this args w : lands (perform R o this args w).
Proof. unfold perform. destruct (apply _ _ _ _ _); discriminate. Qed.
Lemma lands_need {X} (o : option X) : lands (need o). Proof. destruct o; discriminate. Qed.
Lemma eval_lands e : forall w, lands (eval R s p e w).
Proof.
  assert (A : forall es, Forall (fun e => forall w, lands (eval R s p e w)) es -> forall w, lands (eval_all R (eval R s p) es w)).
  { induction 1 as [|x es Hx _ IH]; intros w; [discriminate|]. cbn [eval_all]. apply lands_bind; [apply Hx|]. intros [v w1] _.
    apply lands_bind; [apply IH|]. intros [vs w2] _. discriminate. }
  assert (S : forall o es, Forall (fun e => forall w, lands (eval R s p e w)) es -> forall w, lands (strict R (eval R s p) o es w)).
  { intros o es H w. unfold strict. apply lands_bind; [apply lands_need|]. intros o' _. apply lands_bind; [apply A, H|]. intros [vs w1] _. apply lands_perform. }
  assert (K : forall f super this es, Forall (fun e => forall w, lands (eval R s p e w)) es -> forall w, lands (eval_call R p (eval R s p) f super this es w)).
  { intros f super this es H w. unfold eval_call. apply lands_bind; [apply lands_need|]. intros k _. apply lands_bind; [apply lands_need|]. intros flags _.
    apply lands_bind; [|intros [vs w1] _; apply lands_perform]. generalize (@nil (option (value R))). revert flags w.
    induction H as [|x es Hx _ IH]; intros flags w acc; cbn [eval_args]; [discriminate|]. destruct flags as [|b flags]; [discriminate|].
    destruct (b && _); [apply IH|]. apply lands_bind; [apply Hx|]. intros [v w1] _. apply IH. }
  induction e using expr_ind'; intros w; cbn [eval]; try discriminate; try apply lands_perform; try (apply S; repeat constructor; assumption).
  - destruct r as [[]|]; try discriminate; apply lands_perform.
  - destruct t; try discriminate. apply S. repeat constructor. assumption.
  - destruct c; [apply K|apply S]; assumption.
  - assert (M : lands (ask (v, w1) := eval R s p e w in
      if is_null R v w1 then Ans (no_value R, w1)
      else eval_call R p (eval R s p) f (match e with ESuper _ => true | _ => false end) (Some v) args w1)).
    { apply lands_bind; [apply IHe|]. intros [v w1] _. destruct (is_null R v w1); [discriminate|apply K; assumption]. }
    destruct e; try exact M. destruct r as [|[]]; try exact M; apply K; assumption.
  - destruct m; try (apply S; repeat constructor; assumption); try apply lands_perform.
    apply lands_bind; [apply IHe|]. intros [v w1] _. destruct (is_null R v w1); [discriminate|apply lands_perform].
  - destruct t; try discriminate; [destruct args; [apply lands_perform|discriminate]|]. apply S. assumption.
  - apply lands_bind; [apply IHe1|]. intros [v w1] _. destruct (truth R v w1); auto.
Qed.

Definition silent (e : texpr) : Prop := forall x, within x e -> fallthrough_here x = [].
Lemma silent_part x e : part x e -> silent e -> silent x.
Proof. intros P S y W. apply S. econstructor; eassumption. Qed.
Lemma silent_parts l e : (forall x, In x l -> part x e) -> silent e -> Forall silent l.
Proof. intros P S. apply Forall_forall. intros x I. eapply silent_part; [apply P, I|exact S]. Qed.
(** A case that ends with a break or return does not end normally. *)
Lemma ends_not_normal N body : ends_case body = true -> body <> [] -> forall w w1, run_all R (run R s p N) body w <> Ans (Normal R w1).
Proof.
  intros E Ne. destruct (exists_last Ne) as (l & x & ->). unfold ends_case in E. rewrite rev_app_distr in E. cbn [rev app] in E.
  assert (X : forall w w1, run R s p N x w <> Ans (Normal R w1)).
  { intros w w1. destruct x; try discriminate E; cbn [run]; [|discriminate]. destruct e as [e|]; [|discriminate].
    destruct (eval R s p e w) as [[v w2]|]; discriminate. }
  clear E Ne. induction l as [|e l IH]; intros w w1; cbn [app run_all].
  - destruct (run R s p N x w) as [[w2|w2|v w2]|h] eqn:Q; cbn [then_]; try discriminate. destruct (X _ _ Q).
  - destruct (run R s p N e w) as [[w2|w2|v w2]|h]; cbn [then_]; try discriminate. apply IH.
Qed.
Lemma run_lands N e : silent e -> forall w, lands (run R s p N e w).
Proof.
  assert (Q : forall es, Forall (fun e => silent e -> forall w, lands (run R s p N e w)) es -> Forall silent es -> forall w, lands (run_all R (run R s p N) es w)).
  { induction 1 as [|x es Hx _ IH]; intros F w; [discriminate|]. inversion F; subst. cbn [run_all]. apply lands_bind; [apply Hx; assumption|].
    intros [w1|w1|v w1] _; try discriminate. apply IH. assumption. }
  assert (V : forall e w, lands (ask (_, w1) := eval R s p e w in Ans (Normal R w1))).
  { intros x w. apply lands_bind; [apply eval_lands|]. intros [v w1] _. discriminate. }
  induction e using expr_ind'; intros Si w; cbn [run]; try apply V.
  - assert (I1 : forall x, lands (ask (v, w1) := perform R (OpLocal l) None [] w in ask (x, w2) := eval R s p x w1 in
      ask (_, w3) := perform R OpAssign None [Some v; Some x] w2 in Ans (Normal R w3))).
    { intros x. apply lands_bind; [apply lands_perform|]. intros [v w1] _. apply lands_bind; [apply eval_lands|]. intros [v2 w2] _.
      apply lands_bind; [apply lands_perform|]. intros [v3 w3] _. discriminate. }
    destruct t as [t|]; (destruct i as [i|]; [apply I1|]); try apply V.
    apply lands_bind; [apply lands_need|]. intros [o|n|] _; [| |discriminate].
    + apply lands_bind; [apply lands_perform|]. intros [v w1] _. apply lands_bind; [apply lands_perform|]. intros [v2 w2] _.
      apply lands_bind; [apply lands_perform|]. intros [v3 w3] _. discriminate.
    + apply lands_bind; [apply lands_perform|]. intros [v w1] _. apply lands_bind; [apply lands_perform|]. intros [v2 w2] _. discriminate.
  - destruct e; [|discriminate]. apply lands_bind; [apply eval_lands|]. intros [v w1] _. discriminate.
  - apply Q; [assumption|]. eapply silent_parts; [|exact Si]. intros x I. constructor. exact I.
  - apply lands_bind; [apply lands_need|]. intros t _. apply lands_bind; [apply eval_lands|]. intros [v w1] _.
    assert (B : Forall (fun c => forall w, lands (run_all R (run R s p N) (snd c) w)) cases).
    { apply Forall_forall. intros [m b] I. rewrite Forall_forall in H. apply Q; [apply (H _ I)|].
      eapply silent_parts; [|exact Si]. intros x J. eapply pt_case_body; eassumption. }
    assert (D : forall w, lands ((match d with Some d => run_all R (run R s p N) d | None => fun w => Ans (Normal R w) end) w)).
    { destruct d as [d|]; [|discriminate]. apply Q; [assumption|]. eapply silent_parts; [|exact Si]. intros x J. apply pt_default. exact J. }
    assert (E : Forall (fun c => ends_case (snd c) = true) (removelast cases)).
    { specialize (Si _ (wi_here _)). cbn [fallthrough_here] in Si. apply map_eq_nil in Si. apply Forall_forall. intros c I.
      destruct (ends_case (snd c)) eqn:X; [reflexivity|]. exfalso. assert (J : In c []); [|exact J]. rewrite <- Si. apply filter_In. rewrite X. auto. }
    clear - B D E. apply lands_bind.
    { clear - w1. revert w1. induction cases as [|[m b] cases IH]; intros w1; cbn [select]; [discriminate|]. apply lands_bind; [apply eval_lands|].
      intros [x w2] _. destruct (same _ _ _ _ _); [discriminate|]. apply lands_bind; [apply IH|intros [k w3] _; discriminate]. }
    intros [k w2] _. apply lands_bind; [|discriminate].
    revert k w2. induction B as [|[m b] cases Hb _ IH]; intros k w2; cbn [run_case]; [apply D|]. cbn [snd] in Hb.
    assert (E' : Forall (fun c => ends_case (snd c) = true) (removelast cases)) by (destruct cases; [constructor|inversion E; assumption]).
    destruct k as [|k]; [|apply IH, E']. destruct (forallb is_empty b) eqn:Em; [apply IH, E'|].
    apply lands_bind; [apply Hb|]. intros [w3|w3|r w3] O; try discriminate. destruct cases as [|c cases]; [apply D|].
    inversion E; subst. exfalso. eapply (ends_not_normal N b); [assumption|intros ->; discriminate Em|exact O].
  - apply lands_bind; [apply eval_lands|]. intros [v w1] _. destruct (truth R v w1).
    + apply Q; [assumption|]. eapply silent_parts; [|exact Si]. intros x I. apply pt_then. exact I.
    + destruct f as [f|]; [|discriminate]. apply Q; [assumption|]. eapply silent_parts; [|exact Si]. intros x I. apply pt_else. exact I.
  - assert (B : forall w, lands (run_all R (run R s p N) b w)).
    { apply Q; [assumption|]. eapply silent_parts; [|exact Si]. intros x I. constructor. exact I. }
    clear - B. set (k := N) at 1. clearbody k. revert w. induction k as [|k IH]; intros w; cbn [loop]; [discriminate|].
    apply lands_bind; [apply eval_lands|]. intros [v w1] _. destruct (truth R v w1); [|discriminate].
    apply lands_bind; [apply B|]. intros [w2|w2|r w2] _; try discriminate. apply IH.
  - discriminate.
Qed.
End Flow.

(** ** C32 *)
(** If the fallthrough check reports nothing, a case with statements that is not the
    last one never ends normally: it breaks, returns or does not terminate. *)
Theorem C32_case_leaves : forall body, stmt_fallthrough body = [] ->
  forall x cases d sp before m b next after, occurs (ESwitch x cases d sp) body ->
    cases = before ++ (m, b) :: next :: after -> (exists e, In e b /\ is_empty e = false) ->
  forall R s p N w w1, run_all R (run R s p N) b w <> Ans (Normal R w1).
Proof.
  intros body F x cases d sp before m b next after O -> (e & I & Em) R s p N w w1.
  apply occurs_visited in O. unfold stmt_fallthrough in F.
  assert (S : fallthrough_here (ESwitch x (before ++ (m, b) :: next :: after) d sp) = []).
  { destruct (fallthrough_here _) as [|y l] eqn:Q; [reflexivity|]. exfalso. assert (J : In y []); [|exact J]. rewrite <- F. apply in_flat_map.
    eexists. split; [exact O|]. rewrite Q. left. reflexivity. }
  cbn [fallthrough_here] in S. apply map_eq_nil in S. rewrite removelast_app in S by discriminate. rewrite filter_app in S.
  apply app_eq_nil in S. destruct S as [_ S]. change (removelast ((m, b) :: next :: after)) with ((m, b) :: removelast (next :: after)) in S.
  cbn [filter snd] in S. destruct (ends_case b) eqn:E; [|discriminate S].
  apply ends_not_normal; [exact E|]. intros ->. destruct I.
Qed.
Print Assumptions C32_case_leaves.
(** So no execution of the body continues from one case into another. *)
Theorem C32_no_fallthrough : forall body, stmt_fallthrough body = [] ->
  forall R s p N w, run_body R s p N body w <> Halt FellThrough.
Proof.
  intros body F R s p N w. unfold run_body. assert (S : Forall silent body).
  { apply Forall_forall. intros e I x W. destruct (fallthrough_here x) as [|y l] eqn:Q; [reflexivity|]. exfalso.
    assert (J : In y []); [|exact J]. rewrite <- F. apply in_flat_map. exists x. split; [apply occurs_visited; exists e; auto|].
    rewrite Q. left. reflexivity. }
  apply lands_bind; [|intros [w1|w1|v w1] _; discriminate]. clear F. revert w.
  induction S as [|e es He _ IH]; intros w; cbn [run_all]; [discriminate|]. apply lands_bind; [apply run_lands, He|].
  intros [w1|w1|v w1] _; try discriminate. apply IH.
Qed.
Print Assumptions C32_no_fallthrough.

(** ** C31 *)
(** A switch that covers every value and is not left by a break. *)
Definition covers (e : texpr) : Prop :=
  match e with
  | ESwitch _ cases (Some d) _ =>
    (forall m b x, In (m, b) cases -> In x b -> ~ free_break x) /\ (forall x, In x d -> ~ free_break x)
  | ESwitch _ _ None _ => False
  | _ => True
  end.
Section Return.
Variables (R : runtime) (s : scope) (p : pool).
Definition leaves (r : answer (end_ R)) (b : Prop) : Prop :=
  match r with Ans (Normal _ _) => False | Ans (Broke _ _) => b | _ => True end.
Lemma leaves_bind {X} (a : answer X) k b : (forall x, leaves (k x) b) -> leaves (then_ a k) b.
Proof. intros H. destruct a as [x|h]; [apply H|exact I]. Qed.
Definition breaking (r : answer (end_ R)) (b : Prop) : Prop := match r with Ans (Broke _ _) => b | _ => True end.
Lemma breaking_bind {X} (a : answer X) k b : (forall x, breaking (k x) b) -> breaking (then_ a k) b.
Proof. intros H. destruct a as [x|h]; [apply H|exact I]. Qed.
Lemma run_breaks N e : forall w, breaking (run R s p N e w) (free_break e).
Proof.
  assert (V : forall (e : texpr) w b, breaking (ask (_, w1) := eval R s p e w in Ans (Normal R w1)) b).
  { intros x w b. apply breaking_bind. intros [v w1]. exact I. }
  assert (Q : forall es, Forall (fun e => forall w, breaking (run R s p N e w) (free_break e)) es ->
    forall w, breaking (run_all R (run R s p N) es w) (exists x, In x es /\ free_break x)).
  { induction 1 as [|x es Hx _ IH]; intros w; cbn [run_all]; [exact I|]. specialize (Hx w).
    destruct (run R s p N x w) as [[w1|w1|v w1]|h]; cbn [then_ breaking] in *; try exact I.
    - specialize (IH w1). destruct (run_all R (run R s p N) es w1) as [[]|]; cbn [breaking] in *; try exact I.
      destruct IH as (y & J & Y). exists y. split; [right; exact J|exact Y].
    - exists x. split; [left; reflexivity|exact Hx]. }
  induction e using expr_ind'; intros w; cbn [run]; try apply V.
  - assert (I1 : forall x b, breaking (ask (v, w1) := perform R (OpLocal l) None [] w in ask (x, w2) := eval R s p x w1 in
      ask (_, w3) := perform R OpAssign None [Some v; Some x] w2 in Ans (Normal R w3)) b).
    { intros x b. apply breaking_bind. intros [v w1]. apply breaking_bind. intros [v2 w2]. apply breaking_bind. intros [v3 w3]. exact I. }
    destruct t as [t|]; (destruct i as [i|]; [apply I1|]); try apply V.
    apply breaking_bind. intros [o|n|]; [| |exact I]; apply breaking_bind; intros [v w1]; apply breaking_bind; intros [v2 w2]; [|exact I].
    apply breaking_bind. intros [v3 w3]. exact I.
  - destruct e; [|exact I]. apply breaking_bind. intros [v w1]. exact I.
  - specialize (Q _ H w). destruct (run_all _ _ _ _) as [[]|]; cbn [breaking] in *; try exact I.
    destruct Q as (x & J & Y). econstructor; eassumption.
  - apply breaking_bind. intros t. apply breaking_bind. intros [v w1]. apply breaking_bind. intros [k w2].
    apply breaking_bind. intros []; exact I.
  - apply breaking_bind. intros [v w1]. destruct (truth R v w1).
    + specialize (Q _ H w1). destruct (run_all _ _ _ _) as [[]|]; cbn [breaking] in *; try exact I.
      destruct Q as (x & J & Y). eapply fb_then; eassumption.
    + destruct f as [f|]; [|exact I]. cbn [opt_all] in H0. specialize (Q _ H0 w1). destruct (run_all _ _ _ _) as [[]|]; cbn [breaking] in *; try exact I.
      destruct Q as (x & J & Y). eapply fb_else; eassumption.
  - set (k := N) at 1. clearbody k. revert w. induction k as [|k IH]; intros w; cbn [loop]; [exact I|].
    apply breaking_bind. intros [v w1]. destruct (truth R v w1); [|exact I]. apply breaking_bind. intros [w2|w2|r w2]; [apply IH|exact I|exact I].
  - constructor.
Qed.
Definition settled (e : texpr) : Prop := forall x, within x e -> does_always_return x = true -> covers x.
Lemma settled_parts l e : (forall x, In x l -> part x e) -> settled e -> Forall settled l.
Proof. intros P S. apply Forall_forall. intros x I y W. apply S. econstructor; [apply P, I|exact W]. Qed.
Lemma returns_seq N es : Forall (fun e => settled e -> does_always_return e = true -> forall w, leaves (run R s p N e w) (free_break e)) es ->
  Forall settled es -> existsb does_always_return es = true ->
  forall w, leaves (run_all R (run R s p N) es w) (exists x, In x es /\ free_break x).
Proof.
  induction 1 as [|x es Hx _ IH]; intros F E w; [discriminate E|]. inversion F; subst. cbn [run_all existsb] in *.
  pose proof (run_breaks N x w) as Br. apply orb_prop in E. destruct E as [E|E].
  - specialize (Hx H1 E w). destruct (run R s p N x w) as [[w1|w1|v w1]|h]; cbn [then_ leaves] in *; try exact I; [destruct Hx|].
    exists x. split; [left; reflexivity|exact Hx].
  - destruct (run R s p N x w) as [[w1|w1|v w1]|h]; cbn [then_ leaves breaking] in *; try exact I.
    + specialize (IH H2 E w1). destruct (run_all R (run R s p N) es w1) as [[]|]; cbn [leaves] in *; try exact I; [exact IH|].
      destruct IH as (y & J & Y). exists y. split; [right; exact J|exact Y].
    + exists x. split; [left; reflexivity|exact Br].
Qed.
Lemma returns N e : settled e -> does_always_return e = true -> forall w, leaves (run R s p N e w) (free_break e).
Proof.
  induction e using expr_ind'; intros Se A w; cbn [does_always_return] in A; try discriminate A; cbn [run].
  - destruct e; [|exact I]. apply leaves_bind. intros [v w1]. exact I.
  - assert (L := returns_seq N es H (settled_parts _ _ (fun x I => pt_seq x es I) Se) A w).
    destruct (run_all _ _ _ _) as [[]|]; cbn [leaves] in *; try exact L; try exact I. destruct L as (x & J & Y). econstructor; eassumption.
  - assert (Co := Se _ (wi_here _) A). apply andb_prop in A. destruct A as [A1 A2]. destruct d as [d|]; [|destruct Co]. cbn [covers opt_all] in *.
    destruct Co as [Co1 Co2].
    assert (D : forall w, leaves (run_all R (run R s p N) d w) False).
    { intros w1. assert (L := returns_seq N d H0 (settled_parts _ _ (fun x I => pt_default x e cases d sp I) Se) A2 w1).
      destruct (run_all _ _ _ _) as [[]|]; cbn [leaves] in *; try exact L. destruct L as (x & J & Y). exact (Co2 _ J Y). }
    assert (B : Forall (fun c => forall w, leaves (run_all R (run R s p N) (snd c) w) False) cases).
    { apply Forall_forall. intros [m b] J w1. rewrite Forall_forall in H. rewrite forallb_forall in A1.
      assert (L := returns_seq N b (proj2 (H _ J)) (settled_parts _ _ (fun x K => pt_case_body x e m b cases (Some d) sp J K) Se) (A1 _ J) w1).
      cbn [snd]. destruct (run_all _ _ _ _) as [[]|]; cbn [leaves] in *; try exact L. destruct L as (x & K & Y). exact (Co1 _ _ _ J K Y). }
    clear - B D. apply leaves_bind. intros t. apply leaves_bind. intros [v w1]. apply leaves_bind. intros [k w2].
    assert (L : leaves (run_case R (run_all R (run R s p N)) (run_all R (run R s p N) d) k cases w2) False).
    { revert k w2. induction B as [|[m b] cases Hb _ IH]; intros k w2; cbn [run_case]; [apply D|]. destruct k as [|k]; [|apply IH].
      destruct (forallb is_empty b); [apply IH|]. specialize (Hb w2). cbn [snd] in Hb.
      destruct (run_all R (run R s p N) b w2) as [[]|]; cbn [then_ leaves] in *; try exact I; destruct Hb. }
    destruct (run_case _ _ _ _ _ _) as [[]|]; cbn [then_ leave_switch leaves] in *; try exact I; destruct L.
  - destruct f as [f|]; [|discriminate A]. apply andb_prop in A. destruct A as [A1 A2]. cbn [opt_all] in H0.
    apply leaves_bind. intros [v w1]. destruct (truth R v w1).
    + assert (L := returns_seq N t H (settled_parts _ _ (fun x I => pt_then x e t (Some f) sp I) Se) A1 w1).
      destruct (run_all _ _ _ _) as [[]|]; cbn [leaves] in *; try exact L; try exact I. destruct L as (x & J & Y). eapply fb_then; eassumption.
    + assert (L := returns_seq N f H0 (settled_parts _ _ (fun x I => pt_else x e t f sp I) Se) A2 w1).
      destruct (run_all _ _ _ _) as [[]|]; cbn [leaves] in *; try exact L; try exact I. destruct L as (x & J & Y). eapply fb_else; eassumption.
Qed.
End Return.

(** If the check reports nothing for a function that must return a value, and the
    switches it relies on have a default and no break, every execution that ends,
    ends in a return.  Missing from the full statement: those switches (see the
    refutations below). *)
Theorem C31_always_returns_partial : forall body m, missing_return body m = [] ->
  get_flag fn_has_return_value (fm_flags m) = true -> fm_was_callback m = false ->
  (forall x, occurs x body -> does_always_return x = true -> covers x) ->
  forall R s p N w r, run_body R s p N body w = Ans r -> exists v w1, r = Return_ R v w1.
Proof.
  intros body m M F C Co R s p N w r E. unfold missing_return in M. rewrite F, C in M. cbn [andb negb] in M.
  destruct (does_seq_return body) eqn:A; [|discriminate M]. clear M.
  assert (L := returns_seq R s p N body).
  assert (L' : leaves R (run_all R (run R s p N) body w) (exists x, In x body /\ free_break x)).
  { apply L; [apply Forall_forall; intros x _; apply returns| |exact A].
    apply Forall_forall. intros x I y W. apply Co. exists x. auto. }
  unfold run_body in E. destruct (run_all R (run R s p N) body w) as [[w1|w1|v w1]|h]; cbn [then_ leaves] in *; try discriminate E; [destruct L'|].
  injection E as <-. eauto.
Qed.
Print Assumptions C31_always_returns_partial.

(** A runtime with numbers; the state is what was assigned so far. *)
Definition toy : runtime :=
  {| state := list Z; value := Z;
     apply := fun o _ args w =>
       match o, args with
       | OpConst (KInt _ n), _ => Some (n, w)
       | OpAssign, [_; Some v] => Some (v, v :: w)
       | OpLocal i, _ => Some (i, w)
       | OpParam _, _ => Some (match w with v :: _ => v | [] => 0 end, w)
       | _, _ => Some (0, w)
       end;
     skips := fun _ _ _ _ => false; truth := fun v _ => negb (v =? 0); is_null := fun v _ => v =? 0;
     same := fun _ v x _ => v =? x; no_value := 0 |}.
Definition must_return : fun_metadata := {| fm_flags := 256; fm_was_callback := false; fm_span := sp0 |}.

(** switch 7 { case 1: return 1; } without a default. *)
Definition no_default : list texpr := [ESwitch (num 7) [(num 1, [EReturn (Some (num 1)) sp0])] None sp0].
Theorem C31_switch_without_default_refuted : exists body m R s p N w w1, missing_return body m = [] /\
  get_flag fn_has_return_value (fm_flags m) = true /\ fm_was_callback m = false /\ run_body R s p N body w = Ans (End_ R w1).
Proof. exists no_default, must_return, toy, ti_scope, ti_pool, O, [], []. repeat split; vm_compute; reflexivity. Qed.
Print Assumptions C31_switch_without_default_refuted.
(** switch 1 { case 1: if 1 { break; } return 1; default: return 2; } *)
Definition with_break : list texpr :=
  [ESwitch (num 1) [(num 1, [EIf (num 1) [EBreak sp0] None sp0; EReturn (Some (num 1)) sp0])] (Some [EReturn (Some (num 2)) sp0]) sp0].
Theorem C31_break_refuted : exists body m R s p N w w1, missing_return body m = [] /\
  (forall x cases d sp, occurs (ESwitch x cases d sp) body -> d <> None) /\
  get_flag fn_has_return_value (fm_flags m) = true /\ fm_was_callback m = false /\ run_body R s p N body w = Ans (End_ R w1).
Proof.
  exists with_break, must_return, toy, ti_scope, ti_pool, O, [], []. split; [vm_compute; reflexivity|]. split.
  - intros x cases d sp O. apply occurs_visited in O. cbn in O. repeat (destruct O as [O|O]; [try discriminate O; injection O as _ _ <- _; discriminate|]); destruct O.
  - repeat split; vm_compute; reflexivity.
Qed.
Print Assumptions C31_break_refuted.
(** if 1 { switch 7 { case 1: return 1; default: return 2; } } else { while 3 { break; } return 3; } *)
Definition all_return : list texpr :=
  [EIf (num 1) [ESwitch (num 7) [(num 1, [EReturn (Some (num 1)) sp0])] (Some [EReturn (Some (num 2)) sp0]) sp0]
     (Some [EWhile (num 3) [EBreak sp0] sp0; EReturn (Some (num 3)) sp0]) sp0].
Example C31_always_returns_nonvacuous : missing_return all_return must_return = [] /\
  get_flag fn_has_return_value (fm_flags must_return) = true /\ fm_was_callback must_return = false /\
  (forall x, occurs x all_return -> does_always_return x = true -> covers x) /\
  run_body toy ti_scope ti_pool O all_return [] = Ans (Return_ toy (Some 2) []).
Proof.
  split; [vm_compute; reflexivity|]. split; [reflexivity|]. split; [reflexivity|]. split; [|vm_compute; reflexivity].
  intros x O _. apply occurs_visited in O. cbn in O.
  repeat match type of O with _ \/ _ => destruct O as [<-|O]; [try exact I|] end; [|destruct O].
  split.
  - intros m b x [[= <- <-]|[]] [<-|[]] F. inversion F.
  - intros x [<-|[]] F. inversion F.
Qed.
(** The check does report a switch whose case continues into the next. *)
Example C32_nonvacuous :
  stmt_fallthrough all_return = [] /\ stmt_fallthrough as_body = [] /\
  (let body := [ESwitch (num 1) [(num 1, [num 4]); (num 2, [EBreak sp0])] None sp0] in
   stmt_fallthrough body <> [] /\ run_body toy ti_scope ti_pool O body [] = Halt FellThrough).
Proof. vm_compute. repeat split. discriminate. Qed.
