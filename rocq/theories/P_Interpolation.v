(** C64: what interpolated strings do. *)
From Coq Require Import String.
From Coq Require Import ZArith List Bool Lia.
From Verif Require Import Bytes BytesFacts Bytecode Definitions Bundle BundleFacts Ast TypeNames Pool Scope TypeCheck PartsSpec PoolSpec PoolFacts TypeIndexFacts
  Semantics BodySpec GrowFacts Desugar P_Assembler P_Machine P_Sweet DesugarFacts InterpolationSpec.
Import ListNotations.
Open Scope Z_scope.

Lemma name_stable p p' t n : extends p p' -> name_of p t = Some n -> name_of p' t = Some n.
Proof. intros E. unfold name_of. destruct (ti_repr p t) eqn:H; [|discriminate]. rewrite (extends_repr _ _ _ _ E H). exact (fun x => x). Qed.
Lemma pretty_has_name p0 p t : forall m n, extends p0 p -> ti_pretty p0 t = Done m -> name_of p t = Some n -> name_of p0 t = Some n.
Proof.
  unfold name_of. induction t; intros m n E P H; cbn [ti_pretty ti_repr] in *; try exact H;
    try (rewrite P; rewrite (extends_def_name _ _ _ _ E P) in H; exact H);
    (destruct (ti_pretty p0 t) eqn:Q; [|discriminate]); (destruct (ti_repr p t) eqn:S; [|discriminate]); cbn [obind] in *;
    pose proof (IHt _ _ E eq_refl eq_refl) as K; (destruct (ti_repr p0 t); [|discriminate]); injection K as ->; exact H.
Qed.
(** Only String is printed as String. *)
Lemma pretty_string p t n m : ti_pretty p t = Done n -> name_of p t = Some m -> str_eqb n (lit "String") = string_type p t.
Proof.
  intros P N. unfold string_type. rewrite N. unfold name_of in N. destruct (ti_repr p t) as [m'|] eqn:E; [|discriminate]. injection N as ->.
  destruct t; cbn [ti_pretty ti_repr] in P, E; try congruence;
    repeat match type of P with context [ti_pretty p ?u] => destruct (ti_pretty p u); [|discriminate P] end;
    repeat match type of E with context [ti_repr p ?u] => destruct (ti_repr p u) as [q|]; [|discriminate E] end;
    cbn [obind] in P, E; injection P as <-; try injection E as <-; try reflexivity; try discriminate.
  symmetry. match goal with |- str_eqb ?x ?y = _ => destruct (str_eqb_spec x y) as [H|] end; [exfalso|reflexivity].
  apply (f_equal (@rev _)) in H. repeat rewrite rev_app_distr in H; cbn in H; repeat rewrite rev_app_distr in H; cbn in H. rewrite <- !app_assoc in H. discriminate H.
Qed.
(** The conversion that is chosen. *)
Lemma as_text_cases st sp e t p out m : as_text st sp e t p = Done out -> name_of p t = Some m ->
  out = match t with
        | TIScriptRef u => if string_type p u then e else as_ref st sp (ECall (N := typed_ast) (CIntrinsic IToString st) [] [e] sp)
        | _ => if string_type p t then as_ref st sp e else as_ref st sp (ECall (N := typed_ast) (CIntrinsic IToString st) [] [e] sp)
        end.
Proof.
  intros H N. unfold as_text in H. destruct (ti_pretty p t) as [n|] eqn:P.
  - pose proof (pretty_string _ _ _ _ P N) as S. cbn [pe map_err obind] in H.
    destruct t; try discriminate H; try (rewrite <- S; injection H as <-; destruct (str_eqb _ _); reflexivity).
    assert (exists k, name_of p t = Some k) as [k K].
    { unfold name_of in *. cbn [ti_repr] in N. destruct (ti_repr p t) as [k|]; [|discriminate]. exists k. reflexivity. }
    cbn [ti_pretty] in P. destruct (ti_pretty p t) as [n'|] eqn:P'; [|discriminate]. rewrite <- (pretty_string _ _ _ _ P' K). cbn [pe map_err obind] in H.
    destruct (str_eqb n' _); [injection H as <-; reflexivity|]. cbn [obind] in P. injection P as <-. injection H as <-. reflexivity.
  - cbn [pe map_err obind] in H. destruct t; try discriminate H. cbn [ti_pretty] in P. destruct (ti_pretty p t) as [n'|] eqn:P'; [discriminate P|]. discriminate H.
Qed.

Lemma parts_static s p f st sp parts : (forall args sp', static_name s p (ECall (N := typed_ast) (CFunction f) [] args sp') = Some (lit "String")) ->
  forall acc d out d', text_parts on_expr (CFunction f) st sp acc parts d = Done (out, d') ->
  knows_literals (ds_scope d) -> grows (ds_scope d', ds_pool d') (s, p) -> static_name s p acc = Some (lit "String") ->
  exists es, dmap on_expr (map fst parts) d = Done (es, d') /\ static_name s p out = Some (lit "String") /\
    Forall (fun e => exists t, type_of e s p = Done t /\ t <> TIVoid) es.
Proof.
  intros Tf. induction parts as [|[e after] parts IH]; intros acc d out d' H K G Ta.
  - injection H as <- <-. exists []. repeat split; [exact Ta|constructor].
  - cbn [text_parts] in H. unfold dbind in H at 1. destruct (on_expr e d) as [[e1 d1]|] eqn:E1; [|discriminate].
    unfold dbind, dread in H. destruct (type_of e1 (ds_scope d1) (ds_pool d1)) as [t|] eqn:Te; [|discriminate].
    destruct (as_text st sp e1 t (ds_pool d1)) as [e2|] eqn:A; [|discriminate].
    assert (K1 : knows_literals (ds_scope d1)) by (eapply knows_grows; [apply (steps_expr _ _ _ _ E1)|exact K]).
    assert (G1 : grows (ds_scope d1, ds_pool d1) (ds_scope d', ds_pool d')).
    { eapply (steps_parts on_expr); [|exact H]. apply Forall_forall. intros x _. apply steps_expr. }
    destruct (IH _ _ _ _ H K1 G (Tf _ _)) as (es & Em & To & Fa).
    exists (e1 :: es). split; [|split; [exact To|]].
    { cbn [map dmap fst]. unfold dbind. rewrite E1, Em. reflexivity. }
    constructor; [|exact Fa]. exists t. split; [exact (type_of_stable _ _ _ _ (grows_trans _ _ _ G1 G) e1 K1 _ Te)|]. intros ->. discriminate A.
Qed.

Section Parts.
Variables (R : runtime) (s : scope) (p : pool) (X : texts R p) (f : pidx) (st : typeid) (sp : span).
Hypothesis N : def_name p f = Done (lit "OperatorAdd;Script_RefStringScript_RefString;String").
Hypothesis Tf : forall args sp', static_name s p (ECall (N := typed_ast) (CFunction f) [] args sp') = Some (lit "String").
Hypothesis Tc : forall x sp', static_name s p (text_constant x sp') = Some (lit "String").
Notation ev := (eval R s p).
Notation Yields := (yields R p X).

Lemma eval_constant x w : Yields (ev (text_constant x sp) w) (Ans (x, w)).
Proof. cbn. unfold perform. destruct (x_const _ _ X x w) as (v & -> & T). cbn. auto. Qed.
(** A reference reads the same as what it refers to. *)
Definition reads (e : texpr) (f : state R -> answer ((state R -> str) * state R)) : Prop := forall w,
  match ev e w, f w with
  | Ans (v, w1), Ans (t, w2) => w1 = w2 /\ forall u, text X v u = t u
  | Halt h, Halt h2 => h = h2
  | _, _ => False
  end.
Lemma reads_ref e k : static_name s p e = Some (lit "String") -> reads e k -> reads (as_ref st sp e) k.
Proof.
  intros T H w. specialize (H w). cbn [eval as_ref]. unfold strict, intrinsic_op. cbn [length arg_count Nat.eqb negb]. rewrite T. cbn [bind_opt need then_ eval_all].
  destruct (eval R s p e w) as [[v w1]|h]; cbn [then_]; [|exact H]. unfold perform. destruct (x_ref _ _ X v w1) as (x & -> & E).
  destruct (k w) as [[t w2]|]; [|contradiction]. destruct H as [-> H]. split; [reflexivity|]. intros u. rewrite E. apply H.
Qed.
Lemma reads_show e n : static_name s p e = Some n ->
  reads (ECall (N := typed_ast) (CIntrinsic IToString st) [] [e] sp) (fun w => ask (v, w1) := ev e w in Ans (fun _ => shown X n v w1, w1)).
Proof.
  intros T w. cbn [eval]. unfold strict, intrinsic_op. cbn [length arg_count Nat.eqb negb]. rewrite T. cbn [bind_opt need then_ eval_all].
  destruct (eval R s p e w) as [[v w1]|h]; cbn [then_]; [|reflexivity]. unfold perform. destruct (x_show _ _ X n v w1) as (x & -> & E). auto.
Qed.
Lemma reads_add a b ka kb : reads a ka -> reads b kb ->
  reads (ECall (N := typed_ast) (CFunction f) [] [a; b] sp)
    (fun w => ask (x, w1) := ka w in ask (y, w2) := kb w1 in Ans (fun _ => x w2 ++ y w2, w2)).
Proof.
  intros A B w. specialize (A w). cbn [eval]. unfold eval_call. destruct (x_add _ _ X f N) as (c & -> & -> & C). cbn [need then_ eval_args andb].
  destruct (eval R s p a w) as [[va w1]|h], (ka w) as [[ta w1']|h']; cbn [then_]; try contradiction; [|exact A]. destruct A as [<- A].
  specialize (B w1). destruct (eval R s p b w1) as [[vb w2]|h], (kb w1) as [[tb w2']|h']; cbn [then_]; try contradiction; [|exact B]. destruct B as [<- B].
  cbn [app length repeat]. unfold perform. destruct (C va vb w2) as (x & -> & E). split; [reflexivity|]. intros u. rewrite E, A, B. reflexivity.
Qed.
Lemma reads_self e : reads e (fun w => ask (v, w1) := ev e w in Ans (text X v, w1)).
Proof. intros w. destruct (eval R s p e w) as [[v w1]|h]; cbn [then_]; auto. Qed.
Lemma reads_constant x : reads (text_constant x sp) (fun w => Ans (fun _ => x, w)).
Proof. intros w. generalize (eval_constant x w). unfold yields. destruct (eval R s p _ w) as [[v w1]|h]; auto. Qed.
Lemma reads_ext e k k' : reads e k -> (forall w, match k w, k' w with
    | Ans (t, w1), Ans (t', w2) => w1 = w2 /\ forall u, t u = t' u | Halt h, Halt h' => h = h' | _, _ => False end) -> reads e k'.
Proof.
  intros H E w. specialize (H w). specialize (E w). destruct (eval R s p e w) as [[v w1]|h], (k w) as [[t w2]|h1]; try contradiction;
    destruct (k' w) as [[t' w3]|h2]; try contradiction; [|congruence]. destruct H as [-> H], E as [-> E]. split; [reflexivity|]. intros u. rewrite H. apply E.
Qed.

(** A part in the form in which it is added. *)
Hypothesis Ts : name_of p st = Some (lit "String").
Lemma part_reads e t n p0 e2 : static_type s p e = Some t -> name_of p t = Some n -> extends p0 p -> as_text st sp e t p0 = Done e2 ->
  reads e2 (fun w => ask (v, w1) := ev e w in Ans ((fun u => if direct p t then text X v u else shown X n v w1), w1)).
Proof.
  intros T Nm Ex A.
  assert (N0 : name_of p0 t = Some n).
  { assert (exists m, ti_pretty p0 t = Done m) as [m P].
    { unfold as_text in A. destruct (ti_pretty p0 t) eqn:P; [eexists; reflexivity|]. exfalso.
      destruct t; try discriminate A; cbn [pe map_err obind] in A; try discriminate A.
      cbn [ti_pretty] in P. destruct (ti_pretty p0 t); discriminate. }
    apply (pretty_has_name p0 p t m n Ex P Nm). }
  pose proof (as_text_cases _ _ _ _ _ _ _ A N0) as ->. clear A.
  assert (Tn : static_name s p e = Some n) by (unfold static_name; rewrite T; exact Nm).
  assert (Sh : forall k, reads (ECall (N := typed_ast) (CIntrinsic IToString st) [] [e] sp) k -> reads (as_ref st sp (ECall (N := typed_ast) (CIntrinsic IToString st) [] [e] sp)) k).
  { intros k. apply reads_ref. exact Ts. }
  assert (Same : forall u m, name_of p0 u = Some m -> string_type p0 u = string_type p u).
  { intros u m H. unfold string_type. rewrite H, (name_stable _ _ _ _ Ex H). reflexivity. }
  assert (Other : reads (as_ref st sp (ECall (N := typed_ast) (CIntrinsic IToString st) [] [e] sp)) (fun w => ask (v, w1) := ev e w in Ans (fun _ => shown X n v w1, w1))).
  { apply Sh, reads_show, Tn. }
  assert (Main : string_type p0 t = string_type p t) by (eapply Same; exact N0).
  assert (Plain : string_type p t = true -> reads (as_ref st sp e) (fun w => ask (v, w1) := ev e w in Ans (text X v, w1))).
  { intros H. apply reads_ref; [|apply reads_self]. unfold string_type in H. rewrite Nm in H. destruct (str_eqb_spec n (lit "String")); [congruence|discriminate]. }
  destruct t; cbn [direct]; try (rewrite Main; destruct (string_type p _); [apply Plain; reflexivity|exact Other]).
  assert (exists k, name_of p0 t = Some k) as [k K].
  { unfold name_of in *. cbn [ti_repr] in N0. destruct (ti_repr p0 t) as [k|]; [|discriminate]. exists k. reflexivity. }
  rewrite (Same _ _ K). destruct (string_type p t); [apply reads_self|exact Other].
Qed.

(** All parts. *)
Lemma parts_yield parts : forall acc d out d', text_parts on_expr (CFunction f) st sp acc parts d = Done (out, d') ->
  knows_literals (ds_scope d) -> grows (ds_scope d', ds_pool d') (s, p) -> static_name s p acc = Some (lit "String") ->
  exists es, dmap on_expr (map fst parts) d = Done (es, d') /\
    (Forall (fun e => static_name s p e <> None) es ->
     forall w y, Yields (ev acc w) y -> Yields (ev out w) (ask (t, w1) := y in interpolate R s p X t (combine es (map snd parts)) w1)).
Proof.
  induction parts as [|[e after] parts IH]; intros acc d out d' H K G Ta.
  - injection H as <- <-. exists []. split; [reflexivity|]. intros _ w y Y. cbn [map combine]. unfold interpolate. cbn [spelt then_].
    destruct y as [[t w1]|h]; cbn [then_]; [rewrite app_nil_r|]; exact Y.
  - cbn [text_parts] in H. unfold dbind in H at 1. destruct (on_expr e d) as [[e1 d1]|] eqn:E1; [|discriminate].
    unfold dbind, dread in H. destruct (type_of e1 (ds_scope d1) (ds_pool d1)) as [t|] eqn:Te; [|discriminate].
    destruct (as_text st sp e1 t (ds_pool d1)) as [e2|] eqn:A; [|discriminate].
    set (combined := match after with [] => e2 | _ => _ end) in H.
    assert (K1 : knows_literals (ds_scope d1)) by (eapply knows_grows; [apply (steps_expr _ _ _ _ E1)|exact K]).
    assert (G1 : grows (ds_scope d1, ds_pool d1) (ds_scope d', ds_pool d')).
    { eapply (steps_parts on_expr); [|exact H]. apply Forall_forall. intros x _. apply steps_expr. }
    destruct (IH _ _ _ _ H K1 G (Tf _ _)) as (es & Em & Ys).
    pose proof (grows_trans _ _ _ G1 G) as G2. pose proof (type_of_stable _ _ _ _ G2 e1 K1 _ Te) as Te'.
    exists (e1 :: es). split.
    { cbn [map dmap fst]. unfold dbind. rewrite E1, Em. reflexivity. }
    intros Fn w y Y. inversion Fn as [|? ? F1 F2]; subst. specialize (Ys F2 w).
    assert (exists n, name_of p t = Some n) as [n Nm].
    { unfold static_name, static_type in F1. rewrite Te' in F1. cbn [bind_opt] in F1. destruct (name_of p t) as [n|]; [exists n; reflexivity|contradiction]. }
    assert (T : static_type s p e1 = Some t) by (unfold static_type; rewrite Te'; reflexivity).
    pose proof (part_reads _ _ _ _ _ T Nm (proj1 G2) A) as Pr.
    assert (Rc : reads combined (fun w => ask (v, w1) := ev e1 w in Ans ((fun u => (if direct p t then text X v (match after with [] => u | _ => w1 end) else shown X n v w1) ++ after), w1))).
    { subst combined. destruct after as [|b after].
      - eapply reads_ext; [exact Pr|]. intros w0. cbn beta. destruct (eval R s p e1 w0) as [[v w1]|h]; cbn [then_]; [|reflexivity]. split; [reflexivity|]. intros u. now rewrite app_nil_r.
      - eapply reads_ext; [apply reads_ref; [apply Tf|]; apply reads_add; [exact Pr|]; apply reads_ref; [apply Tc|]; apply reads_constant|].
        intros w0. cbn beta. destruct (eval R s p e1 w0) as [[v w1]|h]; cbn [then_]; [|reflexivity]. split; [reflexivity|]. intros u. reflexivity. }
    clearbody combined. 
    specialize (Ys (ask (t0, w1) := y in ask (v, w2) := ev e1 w1 in ask x := written R s p X e1 v w2 in Ans (t0 ++ x ++ after, w2))).
    assert (Y1 : Yields (ev (ECall (N := typed_ast) (CFunction f) [] [as_ref st sp acc; combined] sp) w)
        (ask (t0, w1) := y in ask (v, w2) := ev e1 w1 in ask x := written R s p X e1 v w2 in Ans (t0 ++ x ++ after, w2))).
    { assert (Ra : reads acc (fun w => ask (v, w1) := ev acc w in Ans (text X v, w1))) by apply reads_self.
      pose proof (reads_add _ _ _ _ (reads_ref _ _ Ta Ra) Rc w) as Z. cbn beta in Z.
      unfold written. rewrite T. cbn [need then_]. rewrite Nm. cbn [need then_].
      destruct (eval R s p acc w) as [[va wa]|h], y as [[t0 w1]|h']; cbn [then_ yields] in *; try contradiction.
      - destruct Y as [-> Y]. destruct (eval R s p e1 w1) as [[v w2]|h]; cbn [then_] in *.
        + destruct (eval R s p _ w) as [[z wz]|]; [|contradiction]. destruct Z as [-> Z]. split; [reflexivity|]. intros u. rewrite Z, Y. destruct after; reflexivity.
        + destruct (eval R s p _ w) as [[z wz]|]; [contradiction|]. exact Z.
      - subst h'. destruct (eval R s p _ w) as [[z wz]|]; [contradiction|]. exact Z. }
    specialize (Ys Y1). clear Y1. replace (ask (t0, w1) := y in interpolate R s p X t0 (combine (e1 :: es) (map snd ((e, after) :: parts))) w1) with
      (ask (t0, w1) := (ask (t0, w1) := y in ask (v, w2) := ev e1 w1 in ask x := written R s p X e1 v w2 in Ans (t0 ++ x ++ after, w2)) in
         interpolate R s p X t0 (combine es (map snd parts)) w1); [exact Ys|].
    destruct y as [[t0 w1]|h]; [|reflexivity]. cbn [then_ map snd combine]. unfold interpolate. cbn [spelt].
    destruct (eval R s p e1 w1) as [[v w2]|h]; [|reflexivity]. cbn [then_]. destruct (written _ _ _ _ _ _ _) as [x|h]; [|reflexivity]. cbn [then_].
    destruct (spelt _ _ _ _ _ _) as [[z w3]|h]; [|reflexivity]. cbn [then_]. now rewrite <- !app_assoc.
Qed.
End Parts.

(** The state of the desugaring before and after is [d] and [d']. *)
Lemma interpolated_cases prefix parts sp d out d' : on_expr (EInterpolated prefix parts sp) d = Done (out, d') -> exists st f,
  named_type (ds_scope d) (ds_pool d) sp tn_STRING = Done st /\ def_name (ds_pool d) f = Done add_str_sig /\
  text_parts on_expr (CFunction f) st sp (text_constant prefix sp) parts d = Done (out, d').
Proof.
  cbn [on_expr]. unfold on_interpolated, dbind, dread. destruct (named_type _ _ _ _) as [st|] eqn:E; [|discriminate].
  destruct (find_function _ _ d) as [[c d1]|] eqn:F; [|discriminate]. destruct (find_cases _ _ _ _ _ F) as [-> (f & -> & Nf)].
  intros H. exists st, f. auto.
Qed.
Section Speaks.
Variables (d d' : dstate) (sp0 : span) (st : typeid) (f : pidx).
Hypothesis Sp : speaks (ds_scope d) (ds_pool d).
Hypothesis G : grows (ds_scope d, ds_pool d) (ds_scope d', ds_pool d').
Hypothesis E : named_type (ds_scope d) (ds_pool d) sp0 tn_STRING = Done st.
Hypothesis F : def_name (ds_pool d) f = Done add_str_sig.
Lemma late_name : name_of (ds_pool d') st = Some (lit "String").
Proof. eapply name_stable; [exact (proj1 G)|]. eapply (proj1 (proj2 Sp)), E. Qed.
Lemma late_add args sp : static_name (ds_scope d') (ds_pool d') (ECall (N := typed_ast) (CFunction f) [] args sp) = Some (lit "String").
Proof.
  destruct (proj2 (proj2 Sp) f F) as (fn & r & t & Ef & Er & Et & En).
  unfold static_name, static_type. cbn [type_of]. pose proof (def_stable _ _ _ _ G _ _ _ Ef) as Ef'. change (def_by as_function (ds_pool d') f) with (get_function (ds_pool d') f) in Ef'. rewrite Ef'. cbn [pe map_err obind]. rewrite Er.
  rewrite (pool_type_stable _ _ _ _ G _ _ _ (Et sp)). cbn [bind_opt]. eapply name_stable; [exact (proj1 G)|exact En].
Qed.
Lemma late_constant x sp : static_name (ds_scope d') (ds_pool d') (text_constant x sp) = Some (lit "String").
Proof.
  unfold static_name, static_type, text_constant. cbn [type_of].
  assert (E' : named_type (ds_scope d) (ds_pool d) sp (constant_type (CString LString x)) = Done st).
  { unfold named_type in *. destruct (resolve_type _ _ _) eqn:Q in E; [|discriminate]. cbn [constant_type]. rewrite Q. injection E as ->. reflexivity. }
  pose proof (literal_type_stable _ _ _ _ G _ _ _ (proj1 Sp) E') as L. cbn [constant_type] in *. rewrite L. exact late_name.
Qed.
End Speaks.

(** C64.  Let [es] be what the parts become.  Where an interpolated string is
    evaluated, the parts are evaluated once each from left to right, and the result
    is the prefix followed by what each part is written as and the text after it.
    It is a String.  That the types of the parts have names is all that is asked of
    the program. *)
Theorem C64_interpolation prefix parts sp d out d' :
  on_expr (EInterpolated prefix parts sp) d = Done (out, d') -> speaks (ds_scope d) (ds_pool d) ->
  exists es, dmap on_expr (map fst parts) d = Done (es, d') /\ static_name (ds_scope d') (ds_pool d') out = Some (lit "String") /\
    (Forall (fun e => static_name (ds_scope d') (ds_pool d') e <> None) es -> forall R (X : texts R (ds_pool d')) w,
     yields R (ds_pool d') X (eval R (ds_scope d') (ds_pool d') out w)
       (interpolate R (ds_scope d') (ds_pool d') X prefix (combine es (map snd parts)) w)).
Proof.
  intros H Sp. destruct (interpolated_cases _ _ _ _ _ _ H) as (st & f & E & F & T).
  assert (G : grows (ds_scope d, ds_pool d) (ds_scope d', ds_pool d')) by (eapply steps_expr; exact H).
  pose proof (late_name d d' sp st Sp G E) as Ln. pose proof (late_add d d' f Sp G F) as La.
  pose proof (late_constant d d' sp st Sp G E) as Lc.
  destruct (parts_static _ _ _ _ _ _ La _ _ _ _ T (proj1 Sp) (grows_refl _) (Lc _ _)) as (es & Em & To & _).
  exists es. split; [exact Em|]. split; [exact To|]. intros Fn R X w.
  pose proof (extends_def_name _ _ _ _ (proj1 G) F) as F'.
  destruct (parts_yield R _ _ X f st sp F' La Lc Ln parts _ _ _ _ T (proj1 Sp) (grows_refl _) (Lc _ _)) as (es' & Em' & Y).
  rewrite Em in Em'. injection Em' as <-. exact (Y Fn w (Ans (prefix, w)) (eval_constant R _ _ X sp prefix w)).
Qed.
Print Assumptions C64_interpolation.

(** A part without a value is rejected. *)
Theorem C64_no_void prefix parts sp d out d' es d1 e :
  on_expr (EInterpolated prefix parts sp) d = Done (out, d') -> speaks (ds_scope d) (ds_pool d) ->
  dmap on_expr (map fst parts) d = Done (es, d1) -> In e es -> type_of e (ds_scope d1) (ds_pool d1) <> Done TIVoid.
Proof.
  intros H Sp Em I. destruct (interpolated_cases _ _ _ _ _ _ H) as (st & f & E & F & T).
  assert (G : grows (ds_scope d, ds_pool d) (ds_scope d', ds_pool d')) by (eapply steps_expr; exact H).
  pose proof (late_add d d' f Sp G F) as La. pose proof (late_constant d d' sp st Sp G E) as Lc.
  destruct (parts_static _ _ _ _ _ _ La _ _ _ _ T (proj1 Sp) (grows_refl _) (Lc _ _)) as (es' & Em' & _ & Fa).
  rewrite Em in Em'. injection Em' as <- <-. rewrite Forall_forall in Fa. destruct (Fa e I) as (t & Et & Nv). congruence.
Qed.
Print Assumptions C64_no_void.

(** * A string, and a runtime to evaluate it *)

(** There is one variable, which holds a text.  Main sets it to z. *)
Inductive dtext := Text (s : str) | Variable_ | Number (z : Z).
Definition dread_text (v : dtext) (w : str) : str := match v with Text s => s | Variable_ => w | Number _ => [] end.
Definition dshow (v : dtext) (w : str) : str := match v with Number z => dec z | v => dread_text v w end.
Definition dcall (args : list (option dtext)) (w : str) : option (dtext * str) :=
  match args with
  | [Some a; Some b] => Some (Text (dread_text a w ++ dread_text b w), w)
  | _ => Some (Text (lit "5"), lit "z")
  end.
Definition dtexts : runtime :=
  {| state := str; value := dtext;
     apply := fun o _ args w =>
       match o, args with
       | OpConst (KText _ s), _ => Some (Text s, w)
       | OpConst (KInt _ z), _ => Some (Number z, w)
       | OpLocal _, _ => Some (Variable_, w)
       | OpIntrinsic IAsRef _, [Some v] => Some (v, w)
       | OpIntrinsic IToString _, [Some v] => Some (Text (dshow v w), w)
       | OpCall _, _ => dcall args w
       | _, _ => None
       end;
     skips := fun _ _ _ _ => false; truth := fun _ _ => false; is_null := fun _ _ => false;
     same := fun _ _ _ _ => false; no_value := Text [] |}.
Definition concatenates (P : pool) (k : nat) : bool :=
  match def_name P (Z.of_nat k) with
  | Done n => negb (str_eqb n add_str_sig) ||
      match callee_of P (Z.of_nat k) false, short_params P (Z.of_nat k) with Some _, Some [false; false] => true | _, _ => false end
  | Fail _ => true
  end.
Lemma in_pool P f n : def_name P f = Done n -> 0 <= f < Z.of_nat (length (pl_defs P)).
Proof.
  intros E. unfold def_name, get_def, nth_def in E. destruct (Z.ltb_spec f 0); [discriminate E|]. destruct (nth_error (pl_defs P) (Z.to_nat f)) eqn:N; [|discriminate E].
  assert (Z.to_nat f < length (pl_defs P))%nat by (apply nth_error_Some; congruence). lia.
Qed.
Definition dtexts_texts P (H : forallb (concatenates P) (seq 0 (length (pl_defs P))) = true) : texts dtexts P.
Proof.
  refine {| text := dread_text : value dtexts -> state dtexts -> str; shown := fun _ v w => dshow v w |}.
  - intros s w. exists (Text s). auto.
  - intros v w. exists v. auto.
  - intros n v w. exists (Text (dshow v w)). auto.
  - intros f E. pose proof (in_pool _ _ _ E) as R. rewrite forallb_forall in H. specialize (H (Z.to_nat f) ltac:(apply in_seq; lia)).
    unfold concatenates in H. rewrite Z2Nat.id in H by lia. rewrite E in H.
    change (str_eqb _ add_str_sig) with true in H. cbn [negb orb] in H.
    destruct (callee_of P f false) as [c|]; [|discriminate H]. destruct (short_params P f) as [[|[] [|[] []]]|]; try discriminate H.
    exists c. split; [reflexivity|]. split; [reflexivity|]. intros a b w. exists (Text (dread_text a w ++ dread_text b w)). auto.
Defined.
(** s"n=\(1), \(x)\(Main())\(AsRef(x))!" *)
Definition it_local : texpr := EIdent (N := typed_ast) (RValue (VLocal 12)) sp0.
Definition it_parts : list (texpr * str) :=
  [(num 1, lit ", "); (it_local, []); (ECall (N := typed_ast) (CFunction 17) [] [] sp0, []); (as_ref (TIPrim 1) sp0 it_local, lit "!")].
Definition it_string : texpr := EInterpolated (N := typed_ast) (lit "n=") it_parts sp0.
Example C64_nonvacuous :
  let d := desugar_new sweet_scope sweet_pool in
  exists out d', on_expr it_string d = Done (out, d') /\ speaks (ds_scope d) (ds_pool d) /\
    dmap on_expr (map fst it_parts) d = Done (map fst it_parts, d') /\
    Forall (fun e => static_name (ds_scope d') (ds_pool d') e <> None) (map fst it_parts) /\
    exists X : texts dtexts (ds_pool d'),
      interpolate dtexts (ds_scope d') (ds_pool d') X (lit "n=") it_parts (lit "a") = Ans (lit "n=1, a5z!", lit "z") /\
      exists v, eval dtexts (ds_scope d') (ds_pool d') out (lit "a") = Ans (v, lit "z") /\ forall w, text X v w = lit "n=1, a5z!".
Proof.
  intros d. destruct (on_expr it_string d) as [[out d']|] eqn:E; [|exfalso; vm_compute in E; discriminate E]. exists out, d'. split; [reflexivity|].
  vm_compute in E. injection E as <- <-. split; [|split; [vm_compute; reflexivity|split]].
  - split; [|split].
    + intros c. destruct c as [[]|v|v|v|v|v|v|[]]; eexists; vm_compute; reflexivity.
    + intros sp t E. vm_compute in E. injection E as <-. vm_compute. reflexivity.
    + intros f E. pose proof (in_pool _ _ _ E) as R. change (length (pl_defs (ds_pool d))) with 18%nat in R.
      assert (f = 16).
      { assert (H : forall k, In k (seq 0 18) -> k <> 16%nat -> def_name (ds_pool d) (Z.of_nat k) <> Done (lit "OperatorAdd;Script_RefStringScript_RefString;String")).
        { intros k I N. cbn in I. repeat destruct I as [<-|I]; try contradiction; vm_compute; congruence. }
        destruct (Nat.eq_dec (Z.to_nat f) 16) as [H1|H1]; [lia|]. exfalso. apply (H (Z.to_nat f)); [apply in_seq; lia|exact H1|]. rewrite Z2Nat.id by lia. exact E. }
      subst f. do 3 eexists. split; [vm_compute; reflexivity|]. split; [reflexivity|]. split; [intros sp; vm_compute; reflexivity|]. vm_compute. reflexivity.
  - repeat constructor; vm_compute; discriminate.
  - unshelve eexists; [apply dtexts_texts; vm_compute; reflexivity|]. split; [vm_compute; reflexivity|]. eexists. split; [vm_compute; reflexivity|]. intros w. vm_compute. reflexivity.
Qed.
