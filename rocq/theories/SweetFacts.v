(** Facts behind C30. *)
From Coq Require Import String.
From Coq Require Import ZArith List Bool Lia.
From Verif Require Import Bytes Bytecode Definitions Bundle Ast TypeNames Cursor Pool Scope TypeCheck SourceMap PartsSpec Assembler Desugar SweetSpec.
Import ListNotations.
Open Scope Z_scope.

Lemma free_intro e : ~ sugar e -> (forall x, part x e -> sugar_free x) -> sugar_free e.
Proof. intros N P x W. inversion W; subst; [exact N|]. eapply P; eassumption. Qed.
Lemma free_part e x : sugar_free e -> part x e -> sugar_free x.
Proof. intros F P y W. apply F. econstructor; eassumption. Qed.
Ltac free := apply free_intro; [exact (fun x => x)|]; intros ? P; inversion P; subst; clear P;
  repeat match goal with H : In _ (_ :: _) |- _ => cbn [In] in H | H : _ \/ _ |- _ => destruct H as [H|H] | H : False |- _ => destruct H
         | H : In ?x ?l, F : Forall _ ?l |- _ => exact (proj1 (Forall_forall _ _) F x H) end; subst; try assumption.

(** [gives Q m]: if nothing waiting in front contains sugar, the result satisfies
    [Q] and still nothing waiting does. *)
Definition gives {A} (Q : A -> Prop) (m : D A) : Prop := forall d a d', m d = Done (a, d') ->
  Forall sugar_free (ds_prefix d) -> Q a /\ Forall sugar_free (ds_prefix d').
Lemma gives_ret {A} (Q : A -> Prop) a : Q a -> gives Q (dret a).
Proof. intros H d b d' [= <- <-] F. auto. Qed.
Lemma gives_bind {A B} (P : A -> Prop) (Q : B -> Prop) (m : D A) (k : A -> D B) :
  gives P m -> (forall a, P a -> gives Q (k a)) -> gives Q (dbind m k).
Proof.
  intros M K d b d' E F. unfold dbind in E. destruct (m d) as [[a d1]|] eqn:Em; [|discriminate].
  destruct (M _ _ _ Em F) as [Pa F1]. exact (K a Pa _ _ _ E F1).
Qed.
Definition any {A} (a : A) : Prop := True.
Lemma gives_read {A} (f : scope -> pool -> outcome error A) : gives any (dread f).
Proof. intros d a d' E F. unfold dread in E. destruct (f _ _); [|discriminate]. injection E as <- <-. split; [exact I|exact F]. Qed.
Lemma gives_fail {A} (Q : A -> Prop) e : gives Q (dfail e).
Proof. intros d a d' E. discriminate E. Qed.
Lemma gives_prefix e : sugar_free e -> gives any (add_prefix e).
Proof. intros H d a d' [= <- <-] F. split; [exact I|]. cbn [set_prefix ds_prefix]. apply Forall_app. auto. Qed.
Lemma gives_local t sp : gives any (fresh_local t sp).
Proof.
  intros d a d' E F. unfold fresh_local in E. destruct (sc_function _); [|discriminate]. destruct (add_name _ _) as [p1 i].
  destruct (with_span _ _) as [[[ti s'] p2]|]; [|discriminate]. cbn [obind] in E. destruct (add_definition _ _) as [p3 li].
  injection E as <- <-. split; [exact I|exact F].
Qed.
Lemma gives_map {A B} (Q : B -> Prop) (f : A -> D B) l : Forall (fun x => gives Q (f x)) l -> gives (Forall Q) (dmap f l).
Proof.
  induction 1 as [|x l Hx _ IH]; cbn [dmap]; [apply gives_ret; constructor|].
  eapply gives_bind; [exact Hx|]. intros y Qy. eapply gives_bind; [exact IH|]. intros ys Qs. apply gives_ret. constructor; assumption.
Qed.
Lemma gives_opt {A B} (Q : B -> Prop) (f : A -> D B) o : opt_all (fun x => gives Q (f x)) o -> gives (opt_all Q) (dopt f o).
Proof.
  destruct o as [x|]; cbn [dopt opt_all]; intros H; [|apply gives_ret; exact I].
  eapply gives_bind; [exact H|]. intros y Qy. apply gives_ret. exact Qy.
Qed.
Lemma gives_seq rec l : Forall (fun e => gives sugar_free (rec e)) l -> gives (Forall sugar_free) (on_seq_with rec l).
Proof.
  induction 1 as [|e l He _ IH]; cbn [on_seq_with]; [apply gives_ret; constructor|].
  eapply gives_bind; [exact He|]. intros done Qd. eapply gives_bind with (P := Forall sugar_free).
  - intros d a d' [= <- <-] F. split; [exact F|constructor].
  - intros pre Qp. eapply gives_bind; [exact IH|]. intros rest Qr. apply gives_ret. apply Forall_app. split; [exact Qp|]. constructor; assumption.
Qed.
Lemma gives_cases rec rec_seq cases :
  Forall (fun c => gives sugar_free (rec (fst c)) /\ gives (Forall sugar_free) (rec_seq (snd c))) cases ->
  gives (Forall (fun c => sugar_free (fst c) /\ Forall sugar_free (snd c))) (on_cases rec rec_seq cases).
Proof.
  induction 1 as [|[m b] l [Hm Hb] _ IH]; cbn [on_cases fst snd] in *; [apply gives_ret; constructor|].
  eapply gives_bind; [exact Hb|]. intros b' Qb. eapply gives_bind; [exact Hm|]. intros m' Qm. eapply gives_bind; [exact IH|].
  intros rest Qr. apply gives_ret. constructor; [split; assumption|exact Qr].
Qed.
Lemma free_ident r sp : sugar_free (tident r sp). Proof. unfold tident. free. Qed.
Lemma free_constant c sp : sugar_free (EConstant c sp). Proof. free. Qed.
#[local] Hint Resolve free_ident free_constant : core.
Lemma free_call c ts args sp : Forall sugar_free args -> sugar_free (ECall c ts args sp).
Proof. intros F. free. Qed.
Lemma free_assign l r sp : sugar_free l -> sugar_free r -> sugar_free (EAssign l r sp).
Proof. intros. free. Qed.
Lemma free_elem l r sp : sugar_free l -> sugar_free r -> sugar_free (EArrayElem l r sp).
Proof. intros. free. Qed.
Lemma free_as_ref t sp e : sugar_free e -> sugar_free (as_ref t sp e).
Proof. intros. apply free_call. auto. Qed.
Lemma free_while c b sp : sugar_free c -> Forall sugar_free b -> sugar_free (EWhile c b sp).
Proof. intros. free. Qed.
Lemma gives_elements rec local sp es : Forall (fun e => gives sugar_free (rec e)) es ->
  forall i, gives any (array_elements rec local sp i es).
Proof.
  induction 1 as [|e l He _ IH]; intros i; cbn [array_elements]; [apply gives_ret; exact I|].
  eapply gives_bind; [exact He|]. intros e' Qe. eapply gives_bind; [apply gives_prefix|].
  - apply free_assign; [apply free_elem; auto|exact Qe].
  - intros _ _. apply IH.
Qed.
Lemma free_as_text st sp part t p e : sugar_free part -> as_text st sp part t p = Done e -> sugar_free e.
Proof.
  intros F. unfold as_text.
  assert (O : (let* n := pe (ti_pretty p t) in Done (if str_eqb n (lit "String") then as_ref st sp part
    else as_ref st sp (ECall (N := typed_ast) (CIntrinsic IToString st) [] [part] sp))) = Done e -> sugar_free e).
  { destruct (pe _) as [n|]; [|discriminate]. cbn [obind]. intros [= <-].
    destruct (str_eqb _ _); apply free_as_ref; [exact F|]. apply free_call. auto. }
  destruct t; try exact O; try discriminate. destruct (pe (ti_pretty p t)) as [n|]; [|discriminate]. cbn [obind].
  destruct (str_eqb n _); [|exact O]. intros [= <-]. exact F.
Qed.
Lemma gives_parts rec add st sp parts : Forall (fun x => gives sugar_free (rec (fst x))) parts ->
  forall acc, sugar_free acc -> gives sugar_free (text_parts rec add st sp acc parts).
Proof.
  induction 1 as [|[e s] l He _ IH]; intros acc Fa; cbn [text_parts fst] in *; [apply gives_ret, Fa|].
  eapply gives_bind; [exact He|]. intros e1 F1. eapply gives_bind; [apply gives_read|]. intros t _.
  eapply gives_bind with (P := sugar_free).
  - intros d a d' E F. unfold dread in E. destruct (as_text _ _ _ _ _) as [x|] eqn:X; [|discriminate]. injection E as <- <-.
    split; [eapply free_as_text; eassumption|exact F].
  - intros e2 F2. apply IH. apply free_call. constructor; [apply free_as_ref, Fa|]. constructor; [|constructor].
    destruct s; [exact F2|]. apply free_as_ref, free_call. constructor; [exact F2|]. constructor; [apply free_as_ref, free_constant|constructor].
Qed.
Lemma all_map {A} (P Q : A -> Prop) l : (forall x, P x -> Q x) -> Forall P l -> Forall Q l.
Proof. intros H. apply Forall_impl. exact H. Qed.

Lemma gives_expr e : gives sugar_free (on_expr e).
Proof.
  induction e using expr_ind'; cbn [on_expr].
  - apply gives_ret. apply free_ident.
  - apply gives_ret. auto.
  - unfold on_array_lit. destruct t as [t|]; [|apply gives_fail]. eapply gives_bind; [apply gives_local|]. intros local _.
    eapply gives_bind; [apply gives_prefix, free_call; repeat constructor; auto|]. intros _ _.
    eapply gives_bind; [apply gives_elements; exact H|]. intros _ _. apply gives_ret. auto.
  - unfold on_interpolated. eapply gives_bind; [apply gives_read|]. intros st _. eapply gives_bind; [apply gives_read|]. intros add _.
    apply gives_parts; [exact H|]. apply free_constant.
  - eapply gives_bind; [apply gives_opt; exact H|]. intros i' Qi. apply gives_ret. destruct i'; free.
  - eapply gives_bind; [exact IHe|]. intros e' Qe. apply gives_ret. free.
  - eapply gives_bind; [exact IHe1|]. intros l' Ql. eapply gives_bind; [exact IHe2|]. intros r' Qr. apply gives_ret. free.
  - eapply gives_bind; [apply gives_map; exact H|]. intros l' Ql. apply gives_ret. free.
  - eapply gives_bind; [exact IHe|]. intros e' Qe. eapply gives_bind; [apply gives_map; exact H|]. intros l' Ql. apply gives_ret. free.
  - eapply gives_bind; [exact IHe|]. intros e' Qe. apply gives_ret. free.
  - eapply gives_bind; [exact IHe1|]. intros l' Ql. eapply gives_bind; [exact IHe2|]. intros r' Qr. apply gives_ret. free.
  - eapply gives_bind; [apply gives_map; exact H|]. intros l' Ql. apply gives_ret. free.
  - eapply gives_bind; [apply gives_opt; exact H|]. intros i' Qi. apply gives_ret. destruct i'; free.
  - eapply gives_bind; [apply gives_seq; exact H|]. intros l' Ql. apply gives_ret. free.
  - eapply gives_bind; [apply gives_cases|].
    { eapply all_map; [|exact H]. intros c [Hm Hb]. split; [exact Hm|]. apply gives_seq, Hb. }
    intros cs Qc. eapply gives_bind; [apply gives_opt|].
    { destruct d; [|exact I]. apply gives_seq, H0. }
    intros d' Qd. eapply gives_bind; [exact IHe|]. intros x' Qx. apply gives_ret.
    rewrite Forall_forall in Qc. free; try match goal with K : In _ cs |- _ => destruct (Qc _ K) as [Q1 Q2]; cbn [fst snd] in Q1, Q2 end.
    + exact Q1.
    + rewrite Forall_forall in Q2. auto.
    + cbn [opt_all] in Qd. rewrite Forall_forall in Qd. auto.
  - apply gives_ret. free.
  - eapply gives_bind; [apply gives_seq; exact H|]. intros t' Qt. eapply gives_bind; [apply gives_opt|].
    { destruct f; [|exact I]. apply gives_seq, H0. }
    intros f' Qf. eapply gives_bind; [exact IHe|]. intros x' Qx. apply gives_ret. free.
    cbn [opt_all] in Qf. rewrite Forall_forall in Qf. auto.
  - eapply gives_bind; [exact IHe1|]. intros c' Qc. eapply gives_bind; [exact IHe2|]. intros t' Qt.
    eapply gives_bind; [exact IHe3|]. intros f' Qf. apply gives_ret. free.
  - eapply gives_bind; [apply gives_seq; exact H|]. intros b' Qb. eapply gives_bind; [exact IHe|]. intros c' Qc. apply gives_ret. free.
  - unfold on_for_in. eapply gives_bind; [apply gives_seq; exact H|]. intros b' Qb. eapply gives_bind; [exact IHe|]. intros a' Qa.
    eapply gives_bind; [apply gives_read|]. intros at_ _. eapply gives_bind; [apply gives_local|]. intros arr _.
    eapply gives_bind; [apply gives_read|]. intros int _. eapply gives_bind; [apply gives_local|]. intros counter _.
    eapply gives_bind; [apply gives_prefix, free_assign; auto|]. intros _ _.
    eapply gives_bind; [apply gives_prefix, free_assign; auto|]. intros _ _.
    eapply gives_bind; [apply gives_read|]. intros add _. eapply gives_bind; [apply gives_read|]. intros less _.
    apply gives_ret. apply free_while.
    + apply free_call. constructor; [auto|]. constructor; [|constructor]. apply free_call. auto.
    + constructor; [apply free_assign; [auto|apply free_elem; auto]|]. apply Forall_app. split; [exact Qb|].
      constructor; [|constructor]. apply free_call. auto.
  - eapply gives_bind; [exact IHe1|]. intros l' Ql. eapply gives_bind; [exact IHe2|]. intros r' Qr. apply gives_ret. free.
  - eapply gives_bind; [exact IHe|]. intros e' Qe. apply gives_ret. free.
  - apply gives_ret. free.
  - apply gives_ret. free.
  - apply gives_ret. free.
  - apply gives_ret. free.
Qed.

(** * What the assembler rejects *)

Definition fair_cause (c : cause) : Prop := match c with UnsupportedFeature n => ~ In n [lit "ArrayLit"; lit "InterpolatedString"; lit "For-in"] | _ => True end.
Definition fairc {A} (m : outcome cause A) : Prop := forall c, m = Fail c -> fair_cause c.
Definition fair {A} (m : outcome error A) : Prop := forall e, m = Fail e -> ~ about_sugar e.
Lemma fairc_done {A} (a : A) : fairc (Done a). Proof. discriminate. Qed.
Lemma fairc_fail {A} c : fair_cause c -> fairc (@Fail _ A c). Proof. intros H c' [= <-]. exact H. Qed.
Lemma fairc_bind {A B} (m : outcome cause A) (k : A -> outcome cause B) : fairc m -> (forall a, fairc (k a)) -> fairc (obind m k).
Proof. intros M K. destruct m as [a|c]; cbn [obind]; [apply K|]. intros c' [= <-]. exact (M _ eq_refl). Qed.
Lemma fairc_pc {A} (m : outcome pool_error A) : fairc (pc m).
Proof. destruct m; [apply fairc_done|]. apply fairc_fail. exact I. Qed.
Lemma fairc_omap {A B} (f : A -> B) (m : outcome cause A) : fairc m -> fairc (omap f m).
Proof. intros M. destruct m; [apply fairc_done|]. intros c [= <-]. exact (M _ eq_refl). Qed.
Lemma fair_done {A} (a : A) : fair (Done a). Proof. discriminate. Qed.
Lemma fair_bind {A B} (m : outcome error A) (k : A -> outcome error B) : fair m -> (forall a, fair (k a)) -> fair (obind m k).
Proof. intros M K. destruct m as [a|c]; cbn [obind]; [apply K|]. intros c' [= <-]. exact (M _ eq_refl). Qed.
Lemma fair_pe {A} (m : outcome pool_error A) : fair (pe m).
Proof. destruct m; [apply fair_done|]. intros e' [= <-]. exact (fun x => x). Qed.
Lemma fair_span {A} sp (m : outcome cause A) : fairc m -> fair (with_span sp m).
Proof. intros M. destruct m as [a|c]; [apply fair_done|]. intros e [= <-]. pose proof (M _ eq_refl) as F. destruct c; cbn; try exact (fun x => x). exact F. Qed.
Lemma fair_failc {A} sp c : fair_cause c -> fair (@failc A sp c).
Proof. intros F. apply fair_span, fairc_fail, F. Qed.
Lemma fairc_from_pool s p n : forall i, fairc (resolve_type_from_pool_loop n s p i).
Proof.
  induction n as [|n IH]; intros i; cbn [resolve_type_from_pool_loop]; [apply fairc_fail; exact I|].
  repeat first [apply fairc_done | apply fairc_pc | apply fairc_omap | apply IH | apply fairc_fail; exact I |
    apply fairc_bind; [|intros ?] | match goal with |- fairc (match ?x with _ => _ end) => destruct x end | match goal with |- fairc (if ?x then _ else _) => destruct x end].
Qed.
Lemma fairc_resolve s p n : fairc (resolve_type s p n).
Proof.
  revert n. fix IH 1. intros [n args]. cbn [resolve_type]. destruct (am_find _ _); [apply fairc_from_pool|].
  assert (O : fairc (match symbol_type s (repr (TypeName n args)) with Some t => Done t | None => Fail (UnresolvedType (pretty (TypeName n args))) end)).
  { destruct (symbol_type _ _); [apply fairc_done|apply fairc_fail; exact I]. }
  destruct args as [[|nested [|]]|]; try exact O. destruct (tn_kind _); try (apply fairc_omap, IH). exact O.
Qed.
Lemma fairc_index t : forall s p, fairc (get_type_index t s p).
Proof.
  induction t; intros s p; cbn [get_type_index]; 
  repeat first [apply fairc_done | apply fairc_pc | apply fairc_omap | apply IHt | apply fairc_fail; exact I |
    apply fairc_bind; [|intros ?] | match goal with |- fairc (match ?x with _ => _ end) => destruct x end | match goal with |- fairc (if ?x then _ else _) => destruct x end].
Qed.
Lemma fairc_collect n p : forall c, fairc (collect_supertypes n p c).
Proof.
  induction n as [|n IH]; intros c; cbn [collect_supertypes];
  repeat first [apply fairc_done | apply fairc_pc | apply fairc_omap | apply IH | apply fairc_fail; exact I |
    apply fairc_bind; [|intros ?] | match goal with |- fairc (match ?x with _ => _ end) => destruct x end | match goal with |- fairc (if ?x then _ else _) => destruct x end].
Qed.
Lemma fairc_lub p a : forall b, fairc (lub p a b).
Proof.
  induction a; intros b; cbn [lub]; unfold lub_class;
  repeat first [apply fairc_done | apply fairc_pc | apply fairc_omap | apply IHa | apply fairc_collect | apply fairc_fail; exact I |
    apply fairc_bind; [|intros ?] | match goal with |- fairc (match ?x with _ => _ end) => destruct x end | match goal with |- fairc (if ?x then _ else _) => destruct x end].
Qed.
Ltac fair := repeat first
  [ apply fair_done | apply fair_pe | apply fair_failc; cbn; intuition discriminate | apply fair_failc; exact I | apply fair_span, fairc_lub | apply fair_span, fairc_from_pool | apply fair_span, fairc_resolve
  | intros ? [= <-]; exact (fun x => x)
  | match goal with |- forall _, fair _ => intros ? end | apply fair_bind; [|intros ?] | match goal with |- fair (match ?x with _ => _ end) => destruct x end | match goal with |- fair (if ?x then _ else _) => destruct x end ].
Lemma fair_type_of e s p : fair (type_of e s p).
Proof.
  induction e using expr_ind'; cbn [type_of]; unfold pool_type, named_type; try (fair; fail).
  - apply fair_bind; [exact IHe|]. fair.
  - apply fair_bind; [exact IHe1|]. fair.
  - apply fair_bind; [exact IHe2|intros ?]. apply fair_bind; [exact IHe3|intros ?]. fair.
Qed.
Definition polite {X} (m : A X) : Prop := forall t, fair (m t).
Lemma polite_bind {X Y} (m : A X) (k : X -> A Y) : polite m -> (forall x, polite (k x)) -> polite (abind m k).
Proof.
  intros M K t e. unfold abind. destruct (m t) as [[[x c] t1]|f] eqn:Em; [|intros [= <-]; exact (M t _ Em)].
  destruct (k x t1) as [[[y c2] t2]|f] eqn:Ek; [discriminate|]. intros [= <-]. exact (K x t1 _ Ek).
Qed.
Lemma polite_ret {X} (x : X) : polite (aret x). Proof. intros t. apply fair_done. Qed.
Lemma polite_emit i : polite (emit i). Proof. intros t. apply fair_done. Qed.
Lemma polite_label : polite new_label. Proof. intros t. apply fair_done. Qed.
Lemma polite_literal k s : polite (literal_index k s). Proof. intros t. unfold literal_index. destruct (add_literal _ _ _). apply fair_done. Qed.
Lemma polite_read {X} (f : scope -> pool -> outcome error X) : (forall s p, fair (f s p)) -> polite (aread f).
Proof. intros F t e. unfold aread. destruct (f _ _) eqn:E; [discriminate|]. intros [= <-]. exact (F _ _ _ E). Qed.
Lemma polite_failc {X} sp c : fair_cause c -> polite (@afailc X sp c).
Proof. intros F t. apply fair_failc, F. Qed.
Lemma polite_fail {X} e : ~ about_sugar e -> polite (@afail X e).
Proof. intros F t e' [= <-]. exact F. Qed.
Lemma polite_index sp ty : polite (type_index sp ty).
Proof.
  intros t e. unfold type_index. destruct (with_span _ _) as [[[]]|f] eqn:E; [discriminate|]. intros [= <-].
  exact (fair_span sp _ (fairc_index _ _ _) _ E).
Qed.
Lemma polite_each {X} (f : X -> A unit) l : Forall (fun x => polite (f x)) l -> polite (each f l).
Proof. induction 1; cbn [each]; [apply polite_ret|]. apply polite_bind; [assumption|intros _; assumption]. Qed.
Lemma polite_nops n : polite (each (fun _ => emit Nop) (repeat tt n)).
Proof. apply polite_each. apply Forall_forall. intros x _. apply polite_emit. Qed.
Ltac polite := repeat first
  [ apply polite_ret | apply polite_emit | apply polite_label | apply polite_literal | apply polite_index | assumption
  | apply polite_failc; cbn; intuition discriminate | apply polite_failc; exact I | apply polite_fail; cbn; intuition discriminate | apply polite_fail; exact (fun x => x)
  | apply polite_read; intros ? ?; first [apply fair_type_of | apply fair_pe | apply fair_done | apply fair_span, fairc_pc]
  | match goal with |- forall _, polite _ => intros ? end | apply polite_bind; [|intros ?] | match goal with |- polite (match ?x with _ => _ end) => destruct x end | match goal with |- polite (if ?x then _ else _) => destruct x end ].
Lemma polite_constant c : polite (emit_constant c).
Proof. unfold emit_constant. polite. Qed.
Lemma polite_initializer sp l ty : polite (emit_initializer sp l ty).
Proof. unfold emit_initializer. destruct ty; polite. Qed.
Lemma polite_arg_type args : polite (arg_type args).
Proof. unfold arg_type. polite. Qed.
Lemma polite_intrinsic op args ret sp : polite (emit_intrinsic op args ret sp).
Proof.
  assert (O : forall k, polite (gen t <- arg_type args; gen i <- type_index sp t; emit (k i))).
  { intros k. apply polite_bind; [apply polite_arg_type|]. polite. }
  unfold emit_intrinsic. destruct op; try apply O; try (polite; fail); (apply polite_bind; [apply polite_arg_type|]; polite).
Qed.
Lemma polite_args asm0 args : Forall (fun e => polite (asm0 e)) args -> forall flags, polite (emit_args asm0 args flags).
Proof.
  induction 1 as [|a l Ha _ IH]; intros [|fl flags]; cbn [emit_args]; try apply polite_ret.
  apply polite_bind; [|intros _; apply IH]. destruct (get_flag _ _); [|exact Ha]. polite.
Qed.
Lemma fair_line files sp : fair (call_line files sp).
Proof. unfold call_line. fair. Qed.
Lemma fair_flags p l : fair (mapM (fun i => omap pa_flags (pe (get_parameter p i))) l).
Proof.
  induction l as [|i l IH]; cbn [mapM]; [apply fair_done|]. apply fair_bind; [|intros x; apply fair_bind; [exact IH|intros; apply fair_done]].
  destruct (get_parameter p i); [apply fair_done|]. intros ? [= <-]. exact (fun x => x).
Qed.
Lemma polite_call files asm0 f args force sp : Forall (fun e => polite (asm0 e)) args -> polite (emit_call files asm0 f args force sp).
Proof.
  intros H. unfold emit_call. apply polite_bind; [polite|intros fn]. apply polite_bind; [apply polite_read; intros; apply fair_flags|intros flags].
  apply polite_bind; [polite|intros exit]. apply polite_bind; [polite|intros inv]. apply polite_bind; [apply polite_read; intros; apply fair_line|intros line].
  apply polite_bind; [polite|intros _]. apply polite_bind; [apply polite_args, H|intros _]. destruct (_ <? _)%nat; [polite|].
  apply polite_bind; [apply polite_nops|intros _]. polite.
Qed.
Lemma polite_cases asm0 exit cases : Forall (fun c => (forall x, polite (asm0 (fst c) x)) /\ Forall (fun e => forall x, polite (asm0 e x)) (snd c)) cases ->
  forall body next, polite (emit_cases asm0 exit cases body next).
Proof.
  induction 1 as [|[m b] l [Hm Hb] _ IH]; intros body next; cbn [emit_cases fst snd] in *; [apply polite_ret|].
  apply polite_bind; [polite|intros body']. apply polite_bind; [polite|intros _]. apply polite_bind; [polite|intros next'].
  apply polite_bind; [polite|intros _]. apply polite_bind; [apply Hm|intros _]. destruct (forallb is_empty b); [apply IH|].
  apply polite_bind; [polite|intros _]. apply polite_bind; [|intros _; apply IH]. apply polite_each.
  eapply all_map; [|exact Hb]. intros e He. apply He.
Qed.
Lemma free_parts l e : (forall x, In x l -> part x e) -> sugar_free e -> Forall sugar_free l.
Proof. intros P F. apply Forall_forall. intros x I. eapply free_part; [exact F|apply P, I]. Qed.
Lemma polite_asm files e : sugar_free e -> forall exit, polite (asm files e exit).
Proof.
  assert (Q : forall exit l, Forall (fun e => sugar_free e -> forall exit, polite (asm files e exit)) l -> Forall sugar_free l -> polite (each (fun e => asm files e exit) l)).
  { intros exit l H F. apply polite_each. apply Forall_forall. intros x I. rewrite Forall_forall in H, F. apply H; [exact I|]. apply F, I. }
  assert (K : forall f args force sp, Forall (fun e => sugar_free e -> forall exit, polite (asm files e exit)) args -> Forall sugar_free args ->
    polite (emit_call files (fun e => asm files e None) f args force sp)).
  { intros f args force sp H F. apply polite_call. apply Forall_forall. intros x I. rewrite Forall_forall in H, F. apply H; [exact I|]. apply F, I. }
  induction e using expr_ind'; intros F exit; cbn [asm].
  all: try (exfalso; exact (F _ (wi_here _) I)).
  all: try (polite; fail).
  - apply polite_constant.
  - destruct i as [i|]; [|destruct t; [apply polite_initializer|polite]]. destruct t; polite; apply H; apply (free_part _ _ F); constructor.
  - pose proof (free_part _ _ F (pt_cast e t sp)). destruct t; polite. apply IHe; assumption.
  - polite; [apply IHe1|apply IHe2]; apply (free_part _ _ F); constructor.
  - assert (FA : Forall sugar_free args) by (apply (free_parts args _) in F; [exact F|intros; constructor; assumption]).
    destruct c; [apply K; assumption|]. apply polite_bind; [apply polite_intrinsic|intros _]. apply Q; assumption.
  - assert (FA : Forall sugar_free args) by (apply (free_parts args _) in F; [exact F|intros; constructor; assumption]).
    assert (FE : sugar_free e) by (apply (free_part _ _ F); constructor).
    apply polite_bind; [polite|intros fn].
    assert (OI : polite (if get_flag fn_is_static (fu_flags fn) then
        gen n <- aread (fun _ p => pe (def_name p f)); afailc sp (InvalidStaticMethodCall n)
      else gen out <- new_label; gen _ <- emit (Context out); gen _ <- asm files e None;
        gen _ <- emit_call files (fun e0 => asm files e0 None) f args (match e with ESuper _ => true | _ => false end) sp; emit (Target out))).
    { destruct (get_flag _ _); [polite|]. apply polite_bind; [polite|intros out]. apply polite_bind; [polite|intros _].
      apply polite_bind; [apply IHe, FE|intros _]. apply polite_bind; [apply K; assumption|intros _]. polite. }
    assert (OS : forall isp, polite (if get_flag fn_is_static (fu_flags fn) then emit_call files (fun e0 => asm files e0 None) f args true isp
      else gen n <- aread (fun _ p => pe (def_name p f)); afailc isp (InvalidNonStaticMethodCall n))).
    { intros isp. destruct (get_flag _ _); [apply K; assumption|polite]. }
    destruct e; try exact OI. destruct r as [|[]]; try exact OI; apply OS.
  - pose proof (free_part _ _ F (pt_member e m sp)). destruct m; polite; apply IHe; assumption.
  - polite; try (apply IHe1; apply (free_part _ _ F); constructor); apply IHe2; apply (free_part _ _ F); constructor.
  - assert (FA : Forall sugar_free args) by (apply (free_parts args _) in F; [exact F|intros; constructor; assumption]).
    destruct t; polite. apply Q; assumption.
  - destruct e as [e|]; polite. apply H, (free_part _ _ F). constructor.
  - apply Q; [assumption|]. apply (free_parts es _) in F; [exact F|intros; constructor; assumption].
  - apply polite_bind; [polite|intros ty]. do 3 (apply polite_bind; [polite|intros ?]). apply polite_bind; [polite|intros k].
    apply polite_bind; [polite|intros _]. apply polite_bind; [apply IHe, (free_part _ _ F); constructor|intros _].
    apply polite_bind; [polite|intros _]. apply polite_bind; [apply polite_cases|intros nx].
    { apply Forall_forall. intros [m b] I. rewrite Forall_forall in H. destruct (H _ I) as [Hm Hb]. cbn [fst snd] in *. split.
      - apply Hm, (free_part _ _ F). econstructor. exact I.
      - apply Forall_forall. intros y Iy ex. rewrite Forall_forall in Hb. apply Hb; [exact Iy|]. apply (free_part _ _ F). eapply pt_case_body; eassumption. }
    apply polite_bind; [polite|intros _]. apply polite_bind; [|intros _; polite]. destruct d as [d|]; [|polite].
    apply polite_bind; [polite|intros _]. apply Q; [exact H0|]. apply (free_parts d _) in F; [exact F|]. intros. apply pt_default. assumption.
  - apply polite_bind; [polite|intros el]. apply polite_bind; [polite|intros _]. apply polite_bind; [apply IHe, (free_part _ _ F); constructor|intros _].
    apply polite_bind; [apply Q; [assumption|]; apply (free_parts t _) in F; [exact F|intros; apply pt_then; assumption]|intros _].
    destruct f as [f|]; [|polite]. apply polite_bind; [polite|intros out]. do 2 (apply polite_bind; [polite|intros _]).
    apply polite_bind; [|intros _; polite]. apply Q; [exact H0|]. apply (free_parts f _) in F; [exact F|intros; apply pt_else; assumption].
  - polite; first [apply IHe1; apply (free_part _ _ F); apply pt_cond | apply IHe2; apply (free_part _ _ F); apply pt_cond_then | apply IHe3; apply (free_part _ _ F); apply pt_cond_else].
  - apply polite_bind; [polite|intros out]. apply polite_bind; [polite|intros lp]. do 2 (apply polite_bind; [polite|intros _]).
    apply polite_bind; [apply IHe, (free_part _ _ F); constructor|intros _]. apply polite_bind; [|intros _; polite].
    apply Q; [assumption|]. apply (free_parts b _) in F; [exact F|intros; apply pt_while_body; assumption].
Qed.
