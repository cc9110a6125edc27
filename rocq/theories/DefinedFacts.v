(** Bodies that assemble have a meaning (proof device). *)
From Coq Require Import String.
From Coq Require Import ZArith List Bool Lia.
From Verif Require Import Bytes BytesFacts Bytecode BytecodeFacts Definitions Bundle Ast Pool Scope TypeCheck
  Cursor CursorSpec CursorFacts AssemblerFacts PartsSpec LabelSpec Semantics BodySpec Machine ShapeFacts MachineFacts.
Import ListNotations.
Open Scope Z_scope.

Section Defined.
Variables (R : runtime) (s : scope) (p : pool).
Hypothesis Co : complete p.

Definition sane {X} (a : answer X) : Prop := a <> Halt Malformed.
Lemma sane_bind {X Y} (a : answer X) (k : X -> answer Y) : sane a -> (forall x, a = Ans x -> sane (k x)) -> sane (then_ a k).
Proof. destruct a as [x|h]; cbn [then_]; intros S K; [apply K; reflexivity|]. intros [= ->]. apply S. reflexivity. Qed.
Lemma sane_ans {X} (x : X) : sane (Ans x). Proof. discriminate. Qed.
Lemma sane_perform o this args w : sane (perform R o this args w).
Proof. unfold perform. destruct (apply _ _ _ _ _); discriminate. Qed.

Definition tidies (es : list texpr) : Prop := Forall tidy es /\ Forall (fun e => is_statement e = false) es.
Lemma tidy_part x e : part x e -> tidy e -> tidy x.
Proof. intros P T y W. apply T. econstructor; eassumption. Qed.
Lemma tidy_operand x e : operand x e -> part x e -> tidy e -> tidy x /\ is_statement x = false.
Proof. intros O P T. split; [eapply tidy_part; eassumption|apply (proj1 (T e (wi_here _))), O]. Qed.
Lemma tidy_operands es e : (forall x, In x es -> operand x e /\ part x e) -> tidy e -> tidies es.
Proof. intros H T. split; apply Forall_forall; intros x I; destruct (H x I) as [O P]; apply (tidy_operand x e O P T). Qed.

Lemma sane_args o this es : Forall (fun e => forall w, sane (eval R s p e w)) es -> forall flags, (length es <= length flags)%nat ->
  forall acc w, sane (eval_args R (eval R s p) o this es flags acc w).
Proof.
  induction 1 as [|e es He _ IH]; intros flags L acc w; [apply sane_ans|]. destruct flags as [|b flags]; [cbn in L; lia|].
  cbn [eval_args]. destruct (b && _); [apply IH; cbn in L; lia|]. apply sane_bind; [apply He|]. intros [v w1] _. apply IH. cbn in L; lia.
Qed.
Lemma op_operands e o args : source_op s p e = Some (o, args) -> forall x, In x args -> operand x e /\ part x e.
Proof.
  intros H x I. destruct e; cbn [source_op] in H; unfold bind_opt in H;
    repeat match type of H with match ?x with _ => _ end = _ => destruct x end; try discriminate H;
    injection H as <- <-; cbn [In] in I;
    repeat match goal with J : _ \/ _ |- _ => destruct J as [<-|J] end; try contradiction I;
    (split; [first [apply on_cast|apply on_left|apply on_right|apply on_call; assumption|apply on_member|apply on_array|apply on_index|apply on_new; assumption
                   |apply on_new; cbn [In]; auto]
            |first [apply pt_cast|apply pt_assign_left|apply pt_assign_right|apply pt_call; assumption|apply pt_member|apply pt_array|apply pt_index
                   |apply pt_new; assumption|apply pt_new; cbn [In]; auto]]).
Qed.
Lemma values_sane :
  (forall e c, vshape s p e c -> tidy e -> is_statement e = false -> forall w, sane (eval R s p e w)) /\
  (forall es c, vshapes s p es c -> tidies es -> Forall (fun e => forall w, sane (eval R s p e w)) es) /\
  (forall f args super c, kshape s p f args super c -> tidies args -> forall this w, sane (eval_call R p (eval R s p) f super this args w)) /\
  (forall args flags c, ashape s p args flags c -> tidies args -> Forall (fun e => forall w, sane (eval R s p e w)) args).
Proof.
  apply vshape_all.
  - intros e i o args c So _ _ IH T _ w. rewrite (eval_strict _ _ _ _ _ _ So). unfold strict. cbn [need then_].
    apply sane_bind; [|intros [vs w1] _; apply sane_perform].
    specialize (IH (tidy_operands _ _ (op_operands _ _ _ So) T)). clear - IH. revert w.
    induction IH as [|e es He _ IH]; intros w; [apply sane_ans|]. cbn [eval_all]. apply sane_bind; [apply He|]. intros [v w1] _.
    apply sane_bind; [apply IH|]. intros [vs w2] _. apply sane_ans.
  - intros e c [U|U] _ T St w; [congruence|]. destruct (proj2 (T e (wi_here _)) U).
  - intros c x y sp f l cc ca cb _ IHc _ IHa _ IHb T _ w. cbn [eval].
    destruct (tidy_operand c _ (on_cond _ _ _ _) (pt_cond _ _ _ _) T). destruct (tidy_operand x _ (on_cond_then _ _ _ _) (pt_cond_then _ _ _ _) T).
    destruct (tidy_operand y _ (on_cond_else _ _ _ _) (pt_cond_else _ _ _ _) T).
    apply sane_bind; [apply IHc; assumption|]. intros [v w1] _. destruct (truth R v w1); [apply IHa|apply IHb]; assumption.
  - intros e f sp l ce _ IH T _ w. cbn [eval]. destruct (tidy_operand e _ (on_member _ _ _) (pt_member _ _ _) T).
    apply sane_bind; [apply IH; assumption|]. intros [v w1] _. destruct (is_null R v w1); [apply sane_ans|apply sane_perform].
  - intros f ts args sp c _ IH T _ w. cbn [eval]. apply IH. eapply tidy_operands; [|exact T]. intros x I. split; constructor; exact I.
  - intros e f args sp c Ts _ IH T _ w.
    assert (Ta : tidies args) by (eapply tidy_operands; [|exact T]; intros x I; split; constructor; exact I).
    destruct e; try discriminate Ts. destruct r as [|[]]; try discriminate Ts; cbn [eval]; apply IH, Ta.
  - intros e f args sp l ce ca Ts _ IHe _ IHk T _ w. rewrite eval_method by exact Ts.
    assert (Ta : tidies args) by (eapply tidy_operands; [|exact T]; intros x I; split; constructor; exact I).
    destruct (tidy_operand e _ (on_receiver _ _ _ _) (pt_receiver _ _ _ _) T).
    apply sane_bind; [apply IHe; assumption|]. intros [v w1] _. destruct (is_null R v w1); [apply sane_ans|apply IHk, Ta].
  - constructor.
  - intros e es c cs _ IHe _ IHs [T1 T2]. inversion T1; inversion T2; subst. constructor; [apply IHe; assumption|apply IHs; split; assumption].
  - intros f args super i k flags ca l Ck _ _ _ Sp L _ IH T this w. unfold eval_call. rewrite Ck, Sp. cbn [need then_].
    apply sane_bind; [apply sane_args; [apply IH, T|exact L]|]. intros [vs w1] _. apply sane_perform.
  - intros f args super flags c N Sp T this w. exfalso. unfold short_params, callee_of in *.
    destruct (get_function p f) as [fn|] eqn:Gf; [|discriminate Sp]. destruct (proj1 Co _ _ Gf) as [n E]. rewrite E in N. discriminate N.
  - constructor.
  - intros e es flags c cs _ IHe _ IHs [T1 T2]. inversion T1; inversion T2; subst. constructor; [apply IHe; assumption|apply IHs; split; assumption].
  - intros e es flags l c cs _ IHe _ IHs [T1 T2]. inversion T1; inversion T2; subst. constructor; [apply IHe; assumption|apply IHs; split; assumption].
Qed.

Lemma text_init t n : initial_value p t = None -> name_of p t = Some n -> is_prim t = true -> False.
Proof.
  intros I N P. destruct t; try discriminate P. unfold initial_value in I. rewrite N in I. cbn [bind_opt] in I.
  repeat match type of I with (if ?b then _ else _) = None => destruct b; [try discriminate I|] end; try discriminate I.
  all: match type of I with bind_opt (text_at p ?k 0) _ = None => destruct (proj2 Co k) as [x E]; [discriminate|]; rewrite E in I; discriminate I end.
Qed.

Definition good (exit : option nat) (r : answer (end_ R)) : Prop := sane r /\ (exit = None -> forall w, r <> Ans (Broke R w)).
Lemma good_value {X} exit (a : answer X) (k : X -> answer (end_ R)) : sane a -> (forall x, good exit (k x)) -> good exit (then_ a k).
Proof.
  intros S K. split; [apply sane_bind; [exact S|intros x _; apply K]|]. intros E w. destruct a as [x|h]; cbn [then_]; [apply (proj2 (K x) E)|discriminate].
Qed.
Lemma good_normal exit w : good exit (Ans (Normal R w)). Proof. split; [discriminate|intros _ w'; discriminate]. Qed.
Lemma good_loop N cond body x : (forall w, sane (cond w)) -> (forall w, sane (body w)) -> forall w, good x (loop R N cond body w).
Proof.
  intros C B. induction N as [|N IH]; intros w; cbn [loop]; [split; [discriminate|intros _ w'; discriminate]|].
  apply good_value; [apply C|]. intros [v w1]. destruct (truth R v w1); [|apply good_normal].
  apply good_value; [apply B|]. intros [w2|w2|r w2]; [apply IH|apply good_normal|]. split; [discriminate|intros _ w'; discriminate].
Qed.
Lemma statements_sane N :
  (forall e exit c, sshape s p e exit c -> tidy e -> forall w, good exit (run R s p N e w)) /\
  (forall es exit c, qshape s p es exit c -> Forall tidy es -> forall w, good exit (run_all R (run R s p N) es w)) /\
  (forall out d c, dshape s p out d c -> (forall l, d = Some l -> Forall tidy l) ->
    forall w, sane ((match d with Some d => run_all R (run R s p N) d | None => fun w => Ans (Normal R w) end) w)) /\
  (forall out cases body next c next', cshape s p out cases body next c next' ->
    Forall (fun x => tidy (fst x) /\ is_statement (fst x) = false /\ Forall tidy (snd x)) cases ->
    Forall (fun x => (forall w, sane (eval R s p (fst x) w)) /\ (forallb is_empty (snd x) = false -> forall w, sane (run_all R (run R s p N) (snd x) w))) cases).
Proof.
  destruct values_sane as (V & _).
  apply sshape_all.
  - intros e exit c St Vs T w.
    assert (E : run R s p N e w = then_ (eval R s p e w) (fun x => let '(_, w1) := x in Ans (Normal R w1))) by (destruct e; try discriminate St; reflexivity).
    rewrite E. apply good_value; [eapply V; eassumption|]. intros [v w1]. apply good_normal.
  - intros l t x sp exit c i1 i2 _ _ Vs T w. destruct (tidy_operand x _ (on_init _ _ _ _) (pt_init _ _ _ _) T).
    assert (E : run R s p N (EDeclare (N := typed_ast) l t (Some x) sp) w =
      ask (v, w1) := perform R (OpLocal l) None [] w in ask (x, w2) := eval R s p x w1 in
      ask (_, w3) := perform R OpAssign None [Some v; Some x] w2 in Ans (Normal R w3)) by (destruct t; reflexivity).
    rewrite E. apply good_value; [apply sane_perform|]. intros [v w1]. apply good_value; [eapply V; eassumption|]. intros [v2 w2].
    apply good_value; [apply sane_perform|]. intros [v3 w3]. apply good_normal.
  - intros l t sp exit I T w. cbn [run]. rewrite I. cbn [need then_]. apply good_normal.
  - intros l t sp exit o i I _ T w. cbn [run]. rewrite I. cbn [need then_]. apply good_value; [apply sane_perform|]. intros [v w1].
    apply good_value; [apply sane_perform|]. intros [v2 w2]. apply good_value; [apply sane_perform|]. intros [v3 w3]. apply good_normal.
  - intros l t sp exit n i I _ T w. cbn [run]. rewrite I. cbn [need then_]. apply good_value; [apply sane_perform|]. intros [v w1].
    apply good_value; [apply sane_perform|]. intros [v2 w2]. apply good_normal.
  - intros l t sp exit n c I Nn P T w. destruct (text_init _ _ I Nn P).
  - intros x sp exit c Vs T w. destruct (tidy_operand x _ (on_return _ _) (pt_return _ _) T). cbn [run].
    apply good_value; [eapply V; eassumption|]. intros [v w1]. split; [discriminate|intros _ w'; discriminate].
  - intros sp exit T w. split; [discriminate|intros _ w'; discriminate].
  - intros sp l T w. split; [discriminate|intros [=]].
  - intros es exit c _ IH T w. cbn [run]. apply IH. apply Forall_forall. intros x I. eapply tidy_part; [constructor; exact I|exact T].
  - intros c th sp exit l cc ct Vc _ IH T w. destruct (tidy_operand c _ (on_if _ _ _ _) (pt_if _ _ _ _) T). cbn [run].
    apply good_value; [eapply V; eassumption|]. intros [v w1]. destruct (truth R v w1); [|apply good_normal].
    apply IH. apply Forall_forall. intros x I. eapply tidy_part; [constructor; exact I|exact T].
  - intros c th el sp exit l k cc ct cf Vc _ IH1 _ IH2 T w. destruct (tidy_operand c _ (on_if _ _ _ _) (pt_if _ _ _ _) T). cbn [run].
    apply good_value; [eapply V; eassumption|]. intros [v w1]. destruct (truth R v w1); [apply IH1|apply IH2];
      apply Forall_forall; intros x I; (eapply tidy_part; [|exact T]); [apply pt_then|apply pt_else]; exact I.
  - intros c b sp exit l k cc cb Vc _ IH T w. destruct (tidy_operand c _ (on_while _ _ _) (pt_while _ _ _) T). cbn [run].
    apply good_loop; [intros w1; eapply V; eassumption|]. intros w1. apply IH.
    apply Forall_forall. intros x I. eapply tidy_part; [constructor; exact I|exact T].
  - intros e cases default sp exit out first next next' t n ce cc cd Sn _ Vc _ IHc _ IHd T w.
    destruct (tidy_operand e _ (on_matched _ _ _ _) (pt_matched _ _ _ _) T). cbn [run]. rewrite Sn. cbn [need then_].
    apply good_value; [eapply V; eassumption|]. intros [v w1].
    assert (D : forall w, sane ((match default with Some d => run_all R (run R s p N) d | None => fun w => Ans (Normal R w) end) w)).
    { apply IHd. intros l ->. apply Forall_forall. intros x I. eapply tidy_part; [apply pt_default; exact I|exact T]. }
    assert (F : Forall (fun x => (forall w, sane (eval R s p (fst x) w)) /\ (forallb is_empty (snd x) = false -> forall w, sane (run_all R (run R s p N) (snd x) w))) cases).
    { apply IHc. apply Forall_forall. intros [m b] I. cbn [fst snd].
      destruct (tidy_operand m _ (on_matcher _ _ b _ _ _ I) (pt_matcher _ _ b _ _ _ I) T). split; [assumption|]. split; [assumption|].
      apply Forall_forall. intros x J. eapply tidy_part; [eapply pt_case_body; eassumption|exact T]. }
    clear - D F. apply good_value.
    + revert w1. induction F as [|[m b] cases [Fm Fb] _ IH]; intros w1; cbn [select]; [apply sane_ans|].
      apply sane_bind; [apply Fm|]. intros [x w2] _. destruct (same _ _ _ _ _); [apply sane_ans|]. apply sane_bind; [apply IH|]. intros [k w3] _. apply sane_ans.
    + intros [k w2]. apply good_value; [|intros [w3|w3|r w3]; split; try discriminate; intros _ w4; discriminate].
      revert k w2. induction F as [|[m b] cases [Fm Fb] _ IH]; intros k w2; cbn [run_case]; [apply D|]. cbn [snd] in Fb.
      destruct k as [|k]; [|apply IH]. destruct (forallb is_empty b); [apply IH|].
      apply sane_bind; [apply Fb; reflexivity|]. intros [w3|w3|r w3] _; try apply sane_ans. destruct cases; [apply D|discriminate].
  - intros exit _ w. apply good_normal.
  - intros e es exit c cs _ IHe _ _ IHs T w. inversion T; subst. cbn [run_all].
    destruct (IHe H1 w) as [S1 B1]. destruct (run R s p N e w) as [[w1|w1|r w1]|h]; cbn [then_].
    + apply IHs. assumption.
    + split; [discriminate|exact B1].
    + split; [discriminate|intros _ w'; discriminate].
    + split; [exact S1 || (intros [= ->]; apply S1; reflexivity)|intros _ w'; discriminate].
  - intros out _ w. apply sane_ans.
  - intros out d c _ IH T w. apply IH, T. reflexivity.
  - constructor.
  - intros out m stmts cases body b next next1 next' cm cs _ Vm Em _ IH T. inversion T as [|? ? (T1 & T2 & T3) T4]; subst.
    constructor; [|apply IH, T4]. cbn [fst snd] in *. split; [intros w; eapply V; eassumption|]. congruence.
  - intros out m stmts cases body b next next1 next' cm cb cs _ Vm Em _ IHb _ IH T. inversion T as [|? ? (T1 & T2 & T3) T4]; subst.
    constructor; [|apply IH, T4]. cbn [fst snd] in *. split; [intros w; eapply V; eassumption|]. intros _ w. apply IHb, T3.
Qed.
End Defined.
