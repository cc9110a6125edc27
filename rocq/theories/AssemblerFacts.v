(** What the assembler emits, construct by construct (proof device). *)
From Coq Require Import String.
From Coq Require Import ZArith List Bool Lia.
From Verif Require Import Bytes Bytecode Definitions Bundle Ast Pool Scope TypeCheck Cursor SourceMap Assembler.
Import ListNotations.
Open Scope Z_scope.

Definition bump (t : astate) : astate := {| as_labels := S (as_labels t); as_scope := as_scope t; as_pool := as_pool t |}.

(** Constructs emitting some instructions and then the code of some expressions. *)
Definition head_of (e : texpr) : option (A unit * list texpr) :=
  match e with
  | EIdent (RValue (VLocal i)) _ => Some (emit (Local i), [])
  | EIdent (RValue (VParam i)) _ => Some (emit (Param i), [])
  | EConstant c _ => Some (emit_constant c, [])
  | ECast (TIClass c) e _ => Some (emit (DynamicCast c 0), [e])
  | EDeclare l _ (Some i) _ => Some ((gen _ <- emit Assign; emit (Local l)), [i])
  | EDeclare l (Some t) None sp => Some (emit_initializer sp l t, [])
  | EAssign l r _ => Some (emit Assign, [l; r])
  | EArrayElem e i sp =>
    Some ((gen t <- aread (fun s p => type_of e s p);
           match t with
           | TIArray _ => gen k <- type_index sp t; emit (ArrayElement k)
           | TIStaticArray _ _ => gen k <- type_index sp t; emit (StaticArrayElement k)
           | _ => gen n <- aread (fun _ p => pe (ti_pretty p t)); afailc sp (UnsupportedOperation (lit "indexing") n)
           end), [e; i])
  | ENew (TIClass c) _ _ => Some (emit (New c), [])
  | ENew (TIStruct c) args _ => Some (emit (Construct (wrap_u 8 (Z.of_nat (length args))) c), args)
  | EReturn (Some e) _ => Some (emit Return, [e])
  | EReturn None _ => Some ((gen _ <- emit Return; emit Nop), [])
  | EMember e (StructField f) _ => Some (emit (Bytecode.StructField f), [e])
  | EMember _ (EnumMember en m) _ => Some (emit (EnumConst en m), [])
  | ECall (CIntrinsic op t) _ args sp => Some (emit_intrinsic op args t sp, args)
  | ENull _ => Some (emit Null, [])
  | EThis _ | ESuper _ => Some (emit This, [])
  | _ => None
  end.

(** The call instruction. *)
Inductive call_head (p : pool) (f : pidx) (fn : function) (force : bool) (exit : nat) : instr label -> Prop :=
| ch_virtual d line inv : force = false -> get_flag fn_is_final (fu_flags fn) = false ->
    get_flag fn_is_static (fu_flags fn) = false -> get_flag fn_is_native (fu_flags fn) = false ->
    get_def p f = Done d -> call_head p f fn force exit (InvokeVirtual exit line (df_name d) inv)
| ch_static line inv : force || get_flag fn_is_final (fu_flags fn) || get_flag fn_is_static (fu_flags fn) ||
      get_flag fn_is_native (fu_flags fn) = true -> call_head p f fn force exit (InvokeStatic exit line f inv).

Definition type_symbol (e : texpr) : bool :=
  match e with EIdent (RSymbol (SClass _ _)) _ | EIdent (RSymbol (SStruct _ _)) _ => true | _ => false end.
Definition is_super (e : texpr) : bool := match e with ESuper _ => true | _ => false end.

Section Gens.
Variable files : list file.
Inductive gens : texpr -> option nat -> astate -> code label -> astate -> Prop :=
| g_strict e exit h args t c1 t1 c2 t2 : head_of e = Some (h, args) -> h t = Done (tt, c1, t1) ->
    gseq args None t1 c2 t2 -> gens e exit t (c1 ++ c2) t2
| g_seq es exit t c t1 : gseq es exit t c t1 -> gens (ESeq es) exit t c t1
| g_break sp l t : gens (EBreak sp) (Some l) t [Jump l] t
| g_if c th sp exit t cc t1 ct t2 :
    gens c None (bump t) cc t1 -> gseq th exit t1 ct t2 ->
    gens (EIf c th None sp) exit t (JumpIfFalse (as_labels t) :: cc ++ ct ++ [Target (as_labels t)]) t2
| g_ifelse c th el sp exit t cc t1 ct t2 cf t3 :
    gens c None (bump t) cc t1 -> gseq th exit t1 ct t2 -> gseq el exit (bump t2) cf t3 ->
    gens (EIf c th (Some el) sp) exit t
      (JumpIfFalse (as_labels t) :: cc ++ ct ++ Jump (as_labels t2) :: Target (as_labels t) :: cf ++ [Target (as_labels t2)]) t3
| g_cond c a b sp exit t cc t1 ca t2 cb t3 :
    gens c None (bump (bump t)) cc t1 -> gens a None t1 ca t2 -> gens b None t2 cb t3 ->
    gens (EConditional c a b sp) exit t
      (Conditional (as_labels t) (S (as_labels t)) :: cc ++ ca ++ Target (as_labels t) :: cb ++ [Target (S (as_labels t))]) t3
| g_while c b sp exit t cc t1 cb t2 :
    gens c None (bump (bump t)) cc t1 -> gseq b (Some (as_labels t)) t1 cb t2 ->
    gens (EWhile c b sp) exit t
      (Target (S (as_labels t)) :: JumpIfFalse (as_labels t) :: cc ++ cb ++ [Jump (S (as_labels t)); Target (as_labels t)]) t2
| g_field e f sp exit t ce t1 :
    gens e None (bump t) ce t1 ->
    gens (EMember (N := typed_ast) e (ClassField f) sp) exit t (Context (as_labels t) :: ce ++ [ObjectField f; Target (as_labels t)]) t1
| g_call f ts args sp exit t c t1 : gcall f args false t c t1 -> gens (ECall (N := typed_ast) (CFunction f) ts args sp) exit t c t1
| g_static e f args sp exit t c t1 fn :
    type_symbol e = true -> get_function (as_pool t) f = Done fn -> get_flag fn_is_static (fu_flags fn) = true ->
    gcall f args true t c t1 -> gens (EMethodCall e f args sp) exit t c t1
| g_method e f args sp exit t fn ce t1 ca t2 :
    type_symbol e = false -> get_function (as_pool t) f = Done fn -> get_flag fn_is_static (fu_flags fn) = false ->
    gens e None (bump t) ce t1 -> gcall f args (is_super e) t1 ca t2 ->
    gens (EMethodCall e f args sp) exit t (Context (as_labels t) :: ce ++ ca ++ [Target (as_labels t)]) t2
| g_switch e cases default sp exit t ty k t1 ce t2 cc next t3 cd t4 :
    type_of e (as_scope t) (as_pool t) = Done ty ->
    type_index sp ty (bump (bump (bump t))) = Done (k, [], t1) ->
    gens e None t1 ce t2 ->
    gcases (S (S (as_labels t))) cases None (S (as_labels t)) t2 cc next t3 ->
    gdefault (S (S (as_labels t))) default t3 cd t4 ->
    gens (ESwitch e cases default sp) exit t
      (Switch k (as_labels t) :: ce ++ Target (as_labels t) :: cc ++ Target next :: cd ++ [Target (S (S (as_labels t)))]) t4
with gdefault : nat -> option (list texpr) -> astate -> code label -> astate -> Prop :=
| gd_none exit t : gdefault exit None t [] t
| gd_some exit d t c t1 : gseq d (Some exit) t c t1 -> gdefault exit (Some d) t (SwitchDefault :: c) t1
with gseq : list texpr -> option nat -> astate -> code label -> astate -> Prop :=
| gs_nil exit t : gseq [] exit t [] t
| gs_cons e es exit t c t1 cs t2 : gens e exit t c t1 -> gseq es exit t1 cs t2 -> gseq (e :: es) exit t (c ++ cs) t2
with gcall : pidx -> list texpr -> bool -> astate -> code label -> astate -> Prop :=
| gc_call f args force t fn flags i ca t1 : get_function (as_pool t) f = Done fn ->
    mapM (fun i => omap pa_flags (pe (get_parameter (as_pool t) i))) (fu_parameters fn) = Done flags ->
    call_head (as_pool t) f fn force (as_labels t) i ->
    gargs args flags (bump t) ca t1 -> (length args <= length flags)%nat ->
    gcall f args force t
      (i :: ca ++ repeat Nop (length flags - length args) ++ [ParamEnd; Target (as_labels t)]) t1
with gargs : list texpr -> list Z -> astate -> code label -> astate -> Prop :=
| ga_nil flags t : gargs [] flags t [] t
| ga_rest e args t : gargs (e :: args) [] t [] t
| ga_plain e args fl flags t c t1 cs t2 : get_flag pf_is_short_circuit fl = false ->
    gens e None t c t1 -> gargs args flags t1 cs t2 -> gargs (e :: args) (fl :: flags) t (c ++ cs) t2
| ga_skip e args fl flags t c t1 cs t2 : get_flag pf_is_short_circuit fl = true ->
    gens e None (bump t) c t1 -> gargs args flags t1 cs t2 ->
    gargs (e :: args) (fl :: flags) t (Skip (as_labels t) :: c ++ Target (as_labels t) :: cs) t2
with gcases : nat -> list (texpr * list texpr) -> option nat -> nat -> astate -> code label -> nat -> astate -> Prop :=
| gk_nil exit body next t : gcases exit [] body next t [] next t
| gk_empty exit m stmts cases body next t b t0 cm t1 cs next' t2 :
    match body with Some l => b = l /\ t0 = t | None => b = as_labels t /\ t0 = bump t end ->
    gens m None (bump t0) cm t1 -> forallb is_empty stmts = true ->
    gcases exit cases (Some b) (as_labels t0) t1 cs next' t2 ->
    gcases exit ((m, stmts) :: cases) body next t (Target next :: SwitchLabel (as_labels t0) b :: cm ++ cs) next' t2
| gk_body exit m stmts cases body next t b t0 cm t1 cb t2 cs next' t3 :
    match body with Some l => b = l /\ t0 = t | None => b = as_labels t /\ t0 = bump t end ->
    gens m None (bump t0) cm t1 -> forallb is_empty stmts = false ->
    gseq stmts (Some exit) t1 cb t2 ->
    gcases exit cases None (as_labels t0) t2 cs next' t3 ->
    gcases exit ((m, stmts) :: cases) body next t
      (Target next :: SwitchLabel (as_labels t0) b :: cm ++ Target b :: cb ++ cs) next' t3.

Lemma abind_done {X Y} (m : A X) (k : X -> A Y) t y c t2 : abind m k t = Done (y, c, t2) ->
  exists x c1 t1 c2, m t = Done (x, c1, t1) /\ k x t1 = Done (y, c2, t2) /\ c = c1 ++ c2.
Proof.
  unfold abind. destruct (m t) as [[[x c1] t1]|]; [|discriminate].
  destruct (k x t1) as [[[y' c2] t2']|] eqn:E; [|discriminate]. injection 1 as <- <- <-. eauto 8.
Qed.
Lemma emit_done i t x c t1 : emit i t = Done (x, c, t1) -> c = [i] /\ t1 = t.
Proof. unfold emit. injection 1 as _ <- <-. split; reflexivity. Qed.
Lemma new_label_done t l c t1 : new_label t = Done (l, c, t1) -> l = as_labels t /\ c = [] /\ t1 = bump t.
Proof. unfold new_label. injection 1 as <- <- <-. repeat split. Qed.
Lemma aread_done {X} (f : scope -> pool -> outcome error X) t x c t1 : aread f t = Done (x, c, t1) ->
  f (as_scope t) (as_pool t) = Done x /\ c = [] /\ t1 = t.
Proof. unfold aread. destruct (f _ _); [|discriminate]. injection 1 as <- <- <-. repeat split. Qed.
Lemma aret_done {X} (a : X) t x c t1 : aret a t = Done (x, c, t1) -> x = a /\ c = [] /\ t1 = t.
Proof. unfold aret. injection 1 as <- <- <-. repeat split. Qed.
Lemma type_index_done sp ty t k c t1 : type_index sp ty t = Done (k, c, t1) ->
  c = [] /\ as_labels t1 = as_labels t /\ get_type_index ty (as_scope t) (as_pool t) = Done (k, as_scope t1, as_pool t1).
Proof.
  unfold type_index, with_span, map_err. destruct (get_type_index _ _ _) as [[[i s] p]|]; [|discriminate].
  injection 1 as <- <- <-. repeat split.
Qed.

Ltac inv_gen :=
  repeat match goal with
  | H : abind _ _ _ = Done (?y, ?c, ?t) |- _ =>
    let x := fresh "x" in let c1 := fresh "c" in let t1 := fresh "t" in let c2 := fresh "c" in
    let A := fresh "A" in let B := fresh "B" in
    apply abind_done in H; destruct H as (x & c1 & t1 & c2 & A & B & ->)
  | H : emit _ _ = Done (_, _, _) |- _ => apply emit_done in H; destruct H as (-> & ->)
  | H : new_label _ = Done (_, _, _) |- _ => apply new_label_done in H; destruct H as (-> & -> & ->)
  | H : aret _ _ = Done (_, _, _) |- _ => apply aret_done in H; destruct H as (? & -> & ->)
  | H : aread _ _ = Done (_, _, _) |- _ => apply aread_done in H; destruct H as (? & -> & ->)
  | H : afailc _ _ _ = Done _ |- _ => discriminate H
  | H : afail _ _ = Done _ |- _ => discriminate H
  | x : unit |- _ => destruct x
  end.

Definition sound (e : texpr) : Prop := forall exit t c t1, asm files e exit t = Done (tt, c, t1) -> gens e exit t c t1.

Lemma each_sound es : Forall sound es -> forall exit t c t1,
  each (fun e => asm files e exit) es t = Done (tt, c, t1) -> gseq es exit t c t1.
Proof.
  induction 1; intros exit t c t1 E; cbn [each] in E; inv_gen; [constructor|].
  econstructor; [apply H; eassumption|apply IHForall; assumption].
Qed.
Lemma args_sound es : Forall sound es -> forall flags t c t1,
  emit_args (fun e => asm files e None) es flags t = Done (tt, c, t1) -> gargs es flags t c t1.
Proof.
  induction 1 as [|e es He Hes IH]; intros flags t c t1 E; [destruct flags; cbn [emit_args] in E; inv_gen; constructor|].
  destruct flags as [|fl flags]; cbn [emit_args] in E; inv_gen; [constructor|].
  destruct (get_flag pf_is_short_circuit fl) eqn:F; inv_gen.
  - cbn [app]. rewrite <- app_assoc. cbn [app]. eapply ga_skip; [exact F|apply He; eassumption|apply IH; eassumption].
  - eapply ga_plain; [exact F|apply He; eassumption|apply IH; eassumption].
Qed.
Lemma nops_done n : forall t c t1, each (fun _ : unit => emit Nop) (repeat tt n) t = Done (tt, c, t1) -> c = repeat Nop n /\ t1 = t.
Proof.
  induction n; intros t c t1 E; cbn [each repeat] in E; inv_gen; [split; reflexivity|].
  destruct (IHn _ _ _ B) as (-> & ->). split; reflexivity.
Qed.
Lemma pe_done {X} (m : outcome pool_error X) x : pe m = Done x -> m = Done x.
Proof. unfold pe, map_err. destruct m; [|discriminate]. injection 1 as ->. reflexivity. Qed.
Lemma call_sound args : Forall sound args -> forall f force sp t c t1,
  emit_call files (fun e => asm files e None) f args force sp t = Done (tt, c, t1) -> gcall f args force t c t1.
Proof.
  intros Hs f force sp t c t1 E. unfold emit_call in E. inv_gen.
  destruct (length x0 <? length args)%nat eqn:L; [inv_gen|]. apply Nat.ltb_ge in L. inv_gen.
  match goal with X : each _ _ _ = _ |- _ => apply nops_done in X; destruct X as (-> & ->) end.
  match goal with X : emit_args _ _ _ _ = _ |- _ => apply (args_sound _ Hs) in X; rename X into G end.
  repeat match goal with X : pe _ = Done _ |- _ => apply pe_done in X end.
  cbn [as_pool bump] in *.
  destruct (negb force && _ && _ && _) eqn:V; inv_gen; cbn [app as_labels bump] in *.
  - repeat match goal with X : pe _ = Done _ |- _ => apply pe_done in X end.
    repeat (apply andb_prop in V; let V' := fresh "V" in destruct V as [V V']).
    rewrite negb_true_iff in *. eapply gc_call; [eassumption|eassumption|constructor; assumption|eassumption|exact L].
  - eapply gc_call; [eassumption|eassumption|apply ch_static|eassumption|exact L].
    destruct force, (get_flag fn_is_final _), (get_flag fn_is_static _), (get_flag fn_is_native _); cbn in V |- *; congruence.
Qed.
Lemma cases_sound cases : Forall (fun c => sound (fst c) /\ Forall sound (snd c)) cases -> forall exit body next t c next' t1,
  emit_cases (asm files) exit cases body next t = Done (next', c, t1) -> gcases exit cases body next t c next' t1.
Proof.
  induction 1 as [|[m stmts] cases [Hm Hs] Hc IH]; intros exit body next t c next' t1 E; cbn [emit_cases] in E; inv_gen.
  - subst. constructor.
  - cbn [fst snd] in *.
    assert (B0 : match body with Some l => x = l /\ t0 = t | None => x = as_labels t /\ t0 = bump t end /\ c0 = []).
    { destruct body; inv_gen; subst; repeat split. }
    destruct B0 as [B0 ->]. cbn [app].
    destruct (forallb is_empty stmts) eqn:F; inv_gen.
    + eapply gk_empty; eauto.
    + cbn [app]. eapply gk_body; [exact B0|apply Hm; eassumption|exact F|eapply each_sound; eassumption|eapply IH; eassumption].
Qed.

Lemma single (e : texpr) exit t c t1 : gens e exit t c t1 -> gseq [e] exit t c t1.
Proof. intros G. rewrite <- (app_nil_r c). econstructor; [exact G|constructor]. Qed.
Lemma pair (e e' : texpr) exit t c t1 c' t2 : gens e exit t c t1 -> gens e' exit t1 c' t2 -> gseq [e; e'] exit t (c ++ c') t2.
Proof. intros G G'. econstructor; [exact G|apply single, G']. Qed.

Lemma leaf (e : texpr) exit h t c t1 : head_of e = Some (h, []) -> h t = Done (tt, c, t1) -> gens e exit t c t1.
Proof. intros G G'. rewrite <- (app_nil_r c). eapply g_strict; [exact G|exact G'|constructor]. Qed.
Lemma abind_app {X Y} (m : A X) (k : X -> A Y) t x c1 t1 y c2 t2 : m t = Done (x, c1, t1) -> k x t1 = Done (y, c2, t2) ->
  abind m k t = Done (y, c1 ++ c2, t2).
Proof. unfold abind. intros -> ->. reflexivity. Qed.
Theorem asm_sound e : sound e.
Proof.
  induction e using expr_ind'; intros exit t0 k t1 E; cbn [asm] in E.
  all: try (inv_gen; fail).
  - destruct r as [[i|i]|y]; inv_gen.
    1,2: eapply leaf; reflexivity.
  - eapply leaf; [reflexivity|exact E].
  - destruct i as [i|].
    + cbn [opt_all] in H.
      assert (E' : (gen _ <- emit Assign; gen _ <- emit (Local l); asm files i None) t0 = Done (tt, k, t1)) by (destruct t; exact E).
      clear E. inv_gen. eapply (g_strict _ _ _ _ _ [Assign; Local l]); [destruct t; reflexivity|reflexivity|apply single, H; eassumption].
    + destruct t; [|discriminate E]. eapply leaf; [reflexivity|exact E].
  - destruct t; inv_gen. eapply g_strict; [reflexivity|reflexivity|apply single, IHe; eassumption].
  - inv_gen. eapply g_strict; [reflexivity|reflexivity|eapply pair; [apply IHe1|apply IHe2]; eassumption].
  - destruct c as [f|op ty].
    + apply g_call. eapply call_sound; eassumption.
    + inv_gen. eapply g_strict; [reflexivity|eassumption|eapply each_sound; eassumption].
  - inv_gen. apply pe_done in H0.
    assert (Y : forall isp : span, (if get_flag fn_is_static (fu_flags x) then emit_call files (fun e => asm files e None) f args true isp
      else gen n <- aread (fun _ p => pe (def_name p f)); afailc isp (InvalidNonStaticMethodCall n)) t0 = Done (tt, c0, t1) ->
      type_symbol e = true -> gens (EMethodCall e f args sp) exit t0 c0 t1).
    { intros isp Q T. destruct (get_flag fn_is_static (fu_flags x)) eqn:F; inv_gen.
      eapply g_static; [exact T|exact H0|exact F|eapply call_sound; eassumption]. }
    assert (N : (if get_flag fn_is_static (fu_flags x) then
        gen n <- aread (fun _ p => pe (def_name p f)); afailc sp (InvalidStaticMethodCall n)
      else
        gen out <- new_label;
        gen _ <- emit (Context out);
        gen _ <- asm files e None;
        gen _ <- emit_call files (fun e => asm files e None) f args (match e with ESuper _ => true | _ => false end) sp;
        emit (Target out)) t0 = Done (tt, c0, t1) -> type_symbol e = false -> gens (EMethodCall e f args sp) exit t0 c0 t1).
    { intros Q T. destruct (get_flag fn_is_static (fu_flags x)) eqn:F; inv_gen.
      eapply g_method; [exact T|exact H0|exact F|apply IHe; eassumption|eapply call_sound; eassumption]. }
    cbn [app]. destruct e; try (apply N; [exact B|reflexivity]).
    destruct r as [|[]]; try (apply N; [exact B|reflexivity]); eapply Y; try exact B; reflexivity.
  - destruct m as [f|f|en m]; inv_gen.
    + eapply g_field. apply IHe; eassumption.
    + eapply g_strict; [reflexivity|reflexivity|apply single, IHe; eassumption].
    + eapply leaf; reflexivity.
  - apply abind_done in E. destruct E as (x & c1 & t2 & c2 & A1 & B & ->).
    apply abind_done in B. destruct B as (u & c3 & t3 & c4 & A2 & B & ->). destruct u.
    pose proof (proj1 (proj2 (aread_done _ _ _ _ _ A1))) as ->.
    apply abind_done in B. destruct B as (u & c5 & t4 & c6 & A3 & B & ->). destruct u. cbn [app].
    eapply g_strict; [reflexivity|eapply (abind_app _ _ _ _ []); [exact A1|exact A2]|eapply pair; [apply IHe1|apply IHe2]; eassumption].
  - destruct t; inv_gen.
    + eapply leaf; reflexivity.
    + eapply g_strict; [reflexivity|reflexivity|eapply each_sound; eassumption].
  - destruct e; inv_gen.
    + eapply g_strict; [reflexivity|reflexivity|apply single, H; eassumption].
    + eapply leaf; reflexivity.
  - apply g_seq. eapply each_sound; eassumption.
  - assert (HD : forall x s c u, match d with
      | Some body => gen _ <- emit SwitchDefault; each (fun e => asm files e (Some x)) body
      | None => aret tt end s = Done (tt, c, u) -> gdefault x d s c u).
    { intros x s c u Q. destruct d; inv_gen; constructor. eapply each_sound; eassumption. }
    inv_gen.
    match goal with X : type_index _ _ _ = Done (_, ?c, _) |- _ => pose proof (proj1 (type_index_done _ _ _ _ _ _ X)); subst c; rename X into TI end.
    match goal with X : emit_cases _ _ _ _ _ _ = _ |- _ => apply (cases_sound _ H) in X; rename X into GC end.
    match goal with X : _ = Done _ |- _ => apply HD in X; rename X into D end.
    cbn [app]. eapply g_switch; [eassumption|exact TI|apply IHe; eassumption|exact GC|exact D].
  - inv_gen. destruct f; inv_gen.
    + eapply g_ifelse; [apply IHe|eapply each_sound|eapply each_sound]; eassumption.
    + eapply g_if; [apply IHe|eapply each_sound]; eassumption.
  - inv_gen. eapply g_cond; [apply IHe1|apply IHe2|apply IHe3]; eassumption.
  - inv_gen. cbn [app]. eapply g_while; [apply IHe|eapply each_sound]; eassumption.
  - eapply leaf; [reflexivity|exact E].
  - eapply leaf; [reflexivity|exact E].
  - destruct exit; inv_gen. constructor.
  - eapply leaf; [reflexivity|exact E].
Qed.

Theorem body_sound body t c t1 : asm_body files body t = Done (tt, c, t1) ->
  exists c', gseq body None t c' t1 /\ c = c' ++ [Nop].
Proof.
  intros E. unfold asm_body in E. inv_gen. eexists; split; [|reflexivity].
  eapply each_sound; [|eassumption]. apply Forall_forall. intros; apply asm_sound.
Qed.
End Gens.

Scheme gens_ind2 := Minimality for gens Sort Prop
  with gdefault_ind2 := Minimality for gdefault Sort Prop
  with gseq_ind2 := Minimality for gseq Sort Prop
  with gcall_ind2 := Minimality for gcall Sort Prop
  with gargs_ind2 := Minimality for gargs Sort Prop
  with gcases_ind2 := Minimality for gcases Sort Prop.
Combined Scheme gens_all from gens_ind2, gdefault_ind2, gseq_ind2, gcall_ind2, gargs_ind2, gcases_ind2.
