(** The code of a body in terms of the operations it stands for (proof device):
    what remains of the assembler when the states it went through are forgotten. *)
From Coq Require Import String.
From Coq Require Import ZArith List Bool Lia.
From Verif Require Import Bytes BytesFacts Bytecode Definitions Bundle BundleFacts Ast TypeNames Pool Scope TypeCheck PoolSpec PoolFacts
  TypeIndexSpec TypeIndexFacts PartsSpec Cursor SourceMap Assembler AssemblerFacts LabelSpec LabelFacts Semantics BodySpec Machine GrowFacts.
Import ListNotations.
Open Scope Z_scope.

(** The first instruction that is not a marker. *)
Fixpoint lead (c : code label) : option (instr label) :=
  match c with [] => None | i :: c' => if is_target i then lead c' else Some i end.
Definition is_switch_label {L} (i : instr L) : bool := match i with SwitchLabel _ _ => true | _ => false end.
Definition starts (c : code label) : Prop := forall i, lead c = Some i -> is_switch_label i = false.
Lemma lead_app a b : lead (a ++ b) = match lead a with Some i => Some i | None => lead b end.
Proof. induction a as [|i a IH]; [reflexivity|]. cbn. destruct (is_target i); [exact IH|reflexivity]. Qed.
Lemma starts_app a b : starts a -> starts b -> starts (a ++ b).
Proof. intros H K i. rewrite lead_app. destruct (lead a) eqn:L; [intros [= ->]; apply H, L|apply K]. Qed.
Lemma starts_one i c : is_target i = false -> is_switch_label i = false -> starts (i :: c).
Proof. intros T S j. cbn. rewrite T. intros [= <-]. exact S. Qed.
Lemma starts_target l c : starts c -> starts (Target l :: c). Proof. exact (fun H => H). Qed.
Lemma starts_nil : starts []. Proof. intros i. discriminate. Qed.

(** The operation of a construct that evaluates its parts and then does
    something. *)
Definition source_op (s : scope) (p : pool) (e : texpr) : option (op * list texpr) :=
  match e with
  | EIdent (RValue (VLocal i)) _ => Some (OpLocal i, [])
  | EIdent (RValue (VParam i)) _ => Some (OpParam i, [])
  | EConstant c _ => Some (OpConst (const_of c), [])
  | ECast (TIClass c) e _ => Some (OpCast c, [e])
  | EAssign l r _ => Some (OpAssign, [l; r])
  | EArrayElem a i _ =>
    match static_type s p a with
    | Some (TIArray _) => bind_opt (static_name s p a) (fun n => Some (OpElement false n, [a; i]))
    | Some (TIStaticArray _ _) => bind_opt (static_name s p a) (fun n => Some (OpElement true n, [a; i]))
    | _ => None
    end
  | ENew (TIClass c) [] _ => Some (OpNew c, [])
  | ENew (TIStruct c) args _ => Some (OpConstruct c, args)
  | EMember e (StructField f) _ => Some (OpStructField f, [e])
  | EMember _ (EnumMember en m) _ => Some (OpConst (KEnum en m), [])
  | ECall (CIntrinsic i t) _ args _ => bind_opt (intrinsic_op s p i t args) (fun o => Some (o, args))
  | ENull _ => Some (OpConst KNull, [])
  | EThis _ | ESuper _ => Some (OpThis, [])
  | _ => None
  end.
Lemma eval_strict R s p e o args : source_op s p e = Some (o, args) ->
  forall w, eval R s p e w = strict R (eval R s p) (Some o) args w.
Proof.
  intros H w. destruct e; cbn [source_op] in H;
    repeat match type of H with match ?x with _ => _ end = _ => is_var x; destruct x end; try discriminate H;
    try (injection H as <- <-; reflexivity).
  - cbn [eval]. destruct (intrinsic_op _ _ _ _ _); [|discriminate H]. injection H as <- <-. reflexivity.
  - cbn [eval]. match type of H with context [static_type s p ?a] => destruct (static_type s p a) as [[]|]; try discriminate H;
      (destruct (static_name s p a); [|discriminate H]) end; injection H as <- <-; reflexivity.
Qed.

(** [one p i o n]: the instruction [i] does [o] on [n] operands. *)
Definition at_zero (i : instr label) : instr Z := map_loc (fun _ => 0) i.
Definition one (p : pool) (i : instr label) (o : op) (n : nat) : Prop :=
  locs i = [] /\ is_target i = false /\ operation p (at_zero i) = Some (o, n).

Lemma text_stable p p' k i x : extends p p' -> text_at p k i = Some x -> text_at p' k i = Some x.
Proof.
  intros (_ & E1 & E2 & E3 & E4). unfold text_at. destruct k.
  - destruct (st_get None (pl_strings p) i) eqn:G; [|discriminate]. rewrite (prefix_get _ _ _ _ _ E4 G). auto.
  - destruct (st_get (Some none_str) (pl_names p) i) eqn:G; [|discriminate]. rewrite (prefix_get _ _ _ _ _ E1 G). auto.
  - destruct (st_get None (pl_resources p) i) eqn:G; [|discriminate]. rewrite (prefix_get _ _ _ _ _ E3 G). auto.
  - destruct (st_get None (pl_tweakdb p) i) eqn:G; [|discriminate]. rewrite (prefix_get _ _ _ _ _ E2 G). auto.
Qed.
Lemma static_type_stable s s' p p' e t : grows (s, p) (s', p') -> knows_literals s -> type_of e s p = Done t -> static_type s' p' e = Some t.
Proof. intros G K E. unfold static_type. rewrite (type_of_stable _ _ _ _ G e K _ E). reflexivity. Qed.
Lemma name_stable p p' t n : extends p p' -> ti_repr p t = Done n -> name_of p' t = Some n.
Proof. intros E R. unfold name_of. rewrite (extends_repr _ _ _ _ E R). reflexivity. Qed.

(** The index of a type in the code names the static type in the end. *)
Lemma typed_index sp e t ty k c t1 s p : fine t -> small p -> grows (state_of t1) (s, p) ->
  type_of e (as_scope t) (as_pool t) = Done ty -> type_index sp ty t = Done (k, c, t1) ->
  c = [] /\ exists n, static_type s p e = Some ty /\ static_name s p e = Some n /\ name_of p ty = Some n /\ def_name p k = Done n.
Proof.
  intros F Sm G E I. destruct (type_index_grows _ _ _ _ _ _ I) as [G1 H].
  destruct (H (extends_small _ _ (proj1 G) Sm) F) as (_ & n & R & N).
  split; [apply type_index_done in I; apply I|]. exists n.
  pose proof (grows_trans _ _ _ G1 G) as G2.
  assert (S : static_type s p e = Some ty) by (eapply static_type_stable; [exact G2|apply F|exact E]).
  assert (M : name_of p ty = Some n) by (eapply name_stable; [exact (proj1 G2)|exact R]).
  split; [exact S|]. split; [unfold static_name; rewrite S; exact M|]. split; [exact M|].
  eapply extends_def_name; [exact (proj1 G)|exact N].
Qed.
Lemma typed_index_of sp t ty k c t1 s p : fine t -> small p -> grows (state_of t1) (s, p) ->
  type_index sp ty t = Done (k, c, t1) -> c = [] /\ exists n, name_of p ty = Some n /\ def_name p k = Done n.
Proof.
  intros F Sm G I. destruct (type_index_grows _ _ _ _ _ _ I) as [G1 H].
  destruct (H (extends_small _ _ (proj1 G) Sm) F) as (_ & n & R & N).
  split; [apply type_index_done in I; apply I|]. exists n. split.
  - eapply name_stable; [|exact R]. eapply extends_trans; [exact (proj1 G1)|exact (proj1 G)].
  - eapply extends_def_name; [exact (proj1 G)|exact N].
Qed.

(** Head instructions. *)
(** A statement where a value is expected, or the wrong number of arguments. *)
Definition untidy (e : texpr) : Prop := is_statement e = true \/ wrong_arity e.
Lemma head_op e h args t c t1 s p : is_statement e = false -> head_of e = Some (h, args) -> h t = Done (tt, c, t1) ->
  fine t -> small p -> grows (state_of t1) (s, p) -> few_fields e ->
  exists i, c = [i] /\ is_switch_label i = false /\ is_target i = false /\
    match source_op s p e with
    | Some (o, args') => args' = args /\ one p i o (length args)
    | None => wrong_arity e /\ forall R w, eval R s p e w = Halt Malformed
    end.
Proof.
  intros St Hh E F Sm G Few. destruct e; cbn [is_statement head_of] in *; try discriminate St;
    repeat match type of Hh with match ?x with _ => _ end = _ => is_var x; destruct x end; try discriminate Hh;
    injection Hh as <- <-;
    try (apply emit_done in E; destruct E as (-> & _); eexists; split; [reflexivity|];
         split; [reflexivity|]; split; [reflexivity|]; first [split; [reflexivity|repeat split; reflexivity]|reflexivity]).
  - destruct c0 as [[]|v|v|v|v|v|v|[]]; cbn [emit_constant] in E; inv_gen;
      try (eexists; split; [reflexivity|]; split; [reflexivity|]; split; [reflexivity|]; split; [reflexivity|repeat split; reflexivity]);
      match goal with L : literal_index _ _ _ = Done _ |- _ =>
        pose proof (literal_grows _ _ _ _ _ _ L) as X; pose proof (proj1 (literal_done _ _ _ _ _ _ L)) as -> end;
      destruct X as [G1 X]; destruct (X (extends_small _ _ (proj1 G) Sm) F) as [_ T]; apply (text_stable _ _ _ _ _ (proj1 G)) in T; cbn [snd] in T;
      (eexists; split; [reflexivity|]; split; [reflexivity|]; split; [reflexivity|]; split; [reflexivity|]);
      (split; [reflexivity|]; split; [reflexivity|]); unfold operation, at_zero, map_loc; rewrite T; reflexivity.
  - destruct (Nat.eqb_spec (length args0) (arg_count i)) as [A|A].
    2: { assert (B : exists i0, c = [i0] /\ is_switch_label i0 = false /\ is_target i0 = false).
         { unfold emit_intrinsic, arg_type in E. destruct i; try (destruct args0 as [|a0 rest]); inv_gen;
             try match goal with X : context [match ?y with _ => _ end] |- _ => destruct y; inv_gen end;
             try match goal with X : type_index _ _ _ = Done _ |- _ => apply type_index_done in X; destruct X as (-> & _) end;
             eexists; split; try reflexivity; split; reflexivity. }
         destruct B as (i0 & -> & B1 & B2). exists i0. split; [reflexivity|]. split; [exact B1|]. split; [exact B2|].
         assert (N : intrinsic_op s p i t0 args0 = None) by (unfold intrinsic_op; apply Nat.eqb_neq in A; rewrite A; reflexivity).
         cbn [source_op]. rewrite N. cbn [bind_opt]. split; [exact A|]. intros R w. cbn [eval]. rewrite N. reflexivity. }
    assert (Y : forall o i0, c = [i0] -> is_switch_label i0 = false -> intrinsic_op s p i t0 args0 = Some o -> one p i0 o (arg_count i) ->
      exists i0, c = [i0] /\ is_switch_label i0 = false /\ is_target i0 = false /\
        match source_op s p (ECall (N := typed_ast) (CIntrinsic i t0) targs args0 sp) with
        | Some (o, args') => args' = args0 /\ one p i0 o (length args0)
        | None => wrong_arity (ECall (N := typed_ast) (CIntrinsic i t0) targs args0 sp) /\ forall R w, eval R s p (ECall (N := typed_ast) (CIntrinsic i t0) targs args0 sp) w = Halt Malformed
        end).
    { intros o i0 C B O N. exists i0. split; [exact C|]. split; [exact B|]. split; [apply N|]. cbn [source_op]. rewrite O. cbn [bind_opt].
      split; [reflexivity|]. rewrite A. exact N. }
    unfold intrinsic_op in Y. rewrite A, Nat.eqb_refl in Y. cbn [negb] in Y.
    destruct i; cbn [arg_count] in *;
    repeat (destruct args0 as [|? args0]; try discriminate A); clear A;
    unfold emit_intrinsic, arg_type in E; inv_gen.
    all: try (match goal with T : type_of _ _ _ = Done _, X : type_index _ _ _ = Done _ |- _ =>
           destruct (typed_index _ _ _ _ _ _ _ _ _ F Sm G T X) as (-> & n & N1 & N2 & N3 & N4) end;
         rewrite N2 in Y; eapply Y; [reflexivity|reflexivity|reflexivity|];
         split; [reflexivity|]; split; [reflexivity|]; unfold operation, at_zero, map_loc; rewrite N4; reflexivity).
    all: try (eapply Y; [reflexivity|reflexivity|reflexivity|]; split; [reflexivity|]; split; reflexivity).
    + match goal with T : type_of _ _ _ = Done ?x |- _ => rename T into Ty; rename x into ty end.
      assert (V : ty = TIVariant \/ (gen i <- type_index sp ty; emit (ToString i)) t = Done (tt, c1, t1)) by (destruct ty; auto).
      destruct V as [->|V]; inv_gen.
      * pose proof (static_type_stable _ _ _ _ _ _ G (proj2 (proj2 F)) Ty) as N1. unfold static_name in Y. rewrite N1 in Y.
        eapply Y; [reflexivity|reflexivity|reflexivity|]. split; [reflexivity|]. split; reflexivity.
      * match goal with X : type_index _ _ _ = Done _ |- _ =>
          destruct (typed_index _ _ _ _ _ _ _ _ _ F Sm G Ty X) as (-> & n & N1 & N2 & N3 & N4) end.
        rewrite N2 in Y. eapply Y; [reflexivity|reflexivity|reflexivity|].
        split; [reflexivity|]. split; [reflexivity|]. unfold operation, at_zero, map_loc. rewrite N4. reflexivity.
    + match goal with X : type_index _ _ _ = Done _ |- _ => destruct (typed_index_of _ _ _ _ _ _ _ _ F Sm G X) as (-> & n & N3 & N4) end.
      rewrite N3 in Y. eapply Y; [reflexivity|reflexivity|reflexivity|].
      split; [reflexivity|]. split; [reflexivity|]. unfold operation, at_zero, map_loc. rewrite N4. reflexivity.
    + match goal with X : type_index _ _ _ = Done _ |- _ => destruct (typed_index_of _ _ _ _ _ _ _ _ F Sm G X) as (-> & n & N3 & N4) end.
      rewrite N3 in Y. eapply Y; [reflexivity|reflexivity|reflexivity|].
      split; [reflexivity|]. split; [reflexivity|]. unfold operation, at_zero, map_loc. rewrite N4. reflexivity.
    + match goal with T : type_of _ _ _ = Done ?x |- _ => rename T into Ty; rename x into ty end.
      assert (N1 : static_type s p e = Some ty).
      { eapply static_type_stable; [|apply F|exact Ty]. destruct ty; inv_gen; exact G. }
      rewrite N1 in Y. cbn [bind_opt] in Y.
      destruct ty; inv_gen; eapply Y; try reflexivity; repeat split; reflexivity.
  - inv_gen. match goal with T : type_of _ _ _ = Done ?x |- _ => rename T into Ty; rename x into ty end.
    destruct ty; inv_gen;
    match goal with X : type_index _ _ _ = Done _ |- _ =>
      destruct (typed_index _ _ _ _ _ _ _ _ _ F Sm G Ty X) as (-> & n & N1 & N2 & N3 & N4) end;
    (eexists; split; [reflexivity|]; split; [reflexivity|]; split; [reflexivity|]);
    cbn [source_op]; rewrite N1, N2; (split; [reflexivity|]; split; [reflexivity|]; split; [reflexivity|]);
    unfold operation, at_zero, map_loc; rewrite N4; reflexivity.
  - inv_gen. eexists; split; [reflexivity|]; split; [reflexivity|]; split; [reflexivity|].
    destruct args0; [split; [reflexivity|repeat split; reflexivity]|cbn [source_op]; split; [exact I|intros; reflexivity]].
  - inv_gen. eexists; split; [reflexivity|]; split; [reflexivity|]; split; [reflexivity|].
    split; [reflexivity|]. split; [reflexivity|]. split; [reflexivity|]. unfold operation, at_zero, map_loc.
    cbn [few_fields] in Few. unfold wrap_u. rewrite Z.mod_small by lia. rewrite Nat2Z.id. reflexivity.
Qed.

Section Shape.
Variables (s : scope) (p : pool).

Definition is_call (i : instr label) : bool := match i with InvokeStatic _ _ _ _ | InvokeVirtual _ _ _ _ => true | _ => false end.

(** The code of a value.  Of a construct that is no value it is only known that it
    does not start like a case. *)
Definition is_prim (t : typeid) : bool := match t with TIPrim _ => true | _ => false end.
Inductive vshape : texpr -> code label -> Prop :=
| v_op e i o args c : source_op s p e = Some (o, args) -> one p i o (length args) -> vshapes args c -> vshape e (i :: c)
| v_bad e c : untidy e -> (forall R w, eval R s p e w = Halt Malformed) -> vshape e c
| v_cond c a b sp f l cc ca cb : vshape c cc -> vshape a ca -> vshape b cb ->
    vshape (EConditional c a b sp) (Conditional f l :: cc ++ ca ++ Target f :: cb ++ [Target l])
| v_field e f sp l ce : vshape e ce ->
    vshape (EMember (N := typed_ast) e (ClassField f) sp) (Context l :: ce ++ [ObjectField f; Target l])
| v_call f ts args sp c : kshape f args false c -> vshape (ECall (N := typed_ast) (CFunction f) ts args sp) c
| v_static e f args sp c : type_symbol e = true -> kshape f args true c -> vshape (EMethodCall (N := typed_ast) e f args sp) c
| v_method e f args sp l ce ca : type_symbol e = false -> vshape e ce -> kshape f args (is_super e) ca ->
    vshape (EMethodCall (N := typed_ast) e f args sp) (Context l :: ce ++ ca ++ [Target l])
with vshapes : list texpr -> code label -> Prop :=
| vs_nil : vshapes [] []
| vs_cons e es c cs : vshape e c -> vshapes es cs -> vshapes (e :: es) (c ++ cs)
with kshape : pidx -> list texpr -> bool -> code label -> Prop :=
| k_call f args super i k flags ca l : callee_of p f super = Some k -> called p (at_zero i) = Some k -> is_call i = true -> is_target i = false ->
    short_params p f = Some flags -> (length args <= length flags)%nat -> ashape args flags ca ->
    kshape f args super (i :: ca ++ repeat Nop (length flags - length args) ++ [ParamEnd; Target l])
| k_bad f args super flags c : callee_of p f super = None -> short_params p f = Some flags -> kshape f args super c
with ashape : list texpr -> list bool -> code label -> Prop :=
| a_nil flags : ashape [] flags []
| a_plain e args flags c cs : vshape e c -> ashape args flags cs -> ashape (e :: args) (false :: flags) (c ++ cs)
| a_skip e args flags l c cs : vshape e c -> ashape args flags cs -> ashape (e :: args) (true :: flags) (Skip l :: c ++ Target l :: cs).

(** The code of a statement. *)
Inductive sshape : texpr -> option nat -> code label -> Prop :=
| s_value e exit c : is_statement e = false -> vshape e c -> sshape e exit c
| s_init l t x sp exit c i1 i2 : i1 = Assign -> i2 = Local l -> vshape x c ->
    sshape (EDeclare (N := typed_ast) l t (Some x) sp) exit (i1 :: i2 :: c)
| s_none l t sp exit : initial_value p t = Some InitNothing -> sshape (EDeclare (N := typed_ast) l (Some t) None sp) exit []
| s_to l t sp exit o i : initial_value p t = Some (InitTo o) -> one p i o 0 ->
    sshape (EDeclare (N := typed_ast) l (Some t) None sp) exit [Assign; Local l; i]
| s_empty l t sp exit n i : initial_value p t = Some (InitEmptyArray n) -> one p i (OpIntrinsic IArrayClear (Some n)) 1 ->
    sshape (EDeclare (N := typed_ast) l (Some t) None sp) exit [i; Local l]
| s_noinit l t sp exit n c : initial_value p t = None -> name_of p t = Some n -> is_prim t = true -> sshape (EDeclare (N := typed_ast) l (Some t) None sp) exit c
| s_return x sp exit c : vshape x c -> sshape (EReturn (Some x) sp) exit (Return :: c)
| s_return0 sp exit : sshape (EReturn None sp) exit [Return; Nop]
| s_break sp l : sshape (EBreak sp) (Some l) [Jump l]
| s_seq es exit c : qshape es exit c -> sshape (ESeq es) exit c
| s_if c th sp exit l cc ct : vshape c cc -> qshape th exit ct ->
    sshape (EIf c th None sp) exit (JumpIfFalse l :: cc ++ ct ++ [Target l])
| s_ifelse c th el sp exit l k cc ct cf : vshape c cc -> qshape th exit ct -> qshape el exit cf ->
    sshape (EIf c th (Some el) sp) exit (JumpIfFalse l :: cc ++ ct ++ Jump k :: Target l :: cf ++ [Target k])
| s_while c b sp exit l k cc cb : vshape c cc -> qshape b (Some k) cb ->
    sshape (EWhile c b sp) exit (Target l :: JumpIfFalse k :: cc ++ cb ++ [Jump l; Target k])
| s_switch e cases default sp exit out first next next' t n ce cc cd : static_name s p e = Some n -> def_name p t = Done n ->
    vshape e ce -> cshape out cases None next cc next' -> dshape out default cd ->
    sshape (ESwitch e cases default sp) exit
      (Switch t first :: ce ++ Target first :: cc ++ Target next' :: cd ++ [Target out])
with qshape : list texpr -> option nat -> code label -> Prop :=
| q_nil exit : qshape [] exit []
| q_cons e es exit c cs : sshape e exit c -> starts c -> qshape es exit cs -> qshape (e :: es) exit (c ++ cs)
with dshape : nat -> option (list texpr) -> code label -> Prop :=
| d_none out : dshape out None []
| d_some out d c : qshape d (Some out) c -> dshape out (Some d) (SwitchDefault :: c)
with cshape : nat -> list (texpr * list texpr) -> option nat -> nat -> code label -> nat -> Prop :=
| c_nil out body next : cshape out [] body next [] next
| c_empty out m stmts cases body b next next1 next' cm cs : match body with Some l => b = l | None => True end ->
    vshape m cm -> forallb is_empty stmts = true -> cshape out cases (Some b) next1 cs next' ->
    cshape out ((m, stmts) :: cases) body next (Target next :: SwitchLabel next1 b :: cm ++ cs) next'
| c_body out m stmts cases body b next next1 next' cm cb cs : match body with Some l => b = l | None => True end ->
    vshape m cm -> forallb is_empty stmts = false -> qshape stmts (Some out) cb -> cshape out cases None next1 cs next' ->
    cshape out ((m, stmts) :: cases) body next (Target next :: SwitchLabel next1 b :: cm ++ Target b :: cb ++ cs) next'.

Scheme vshape_i := Minimality for vshape Sort Prop with vshapes_i := Minimality for vshapes Sort Prop
  with kshape_i := Minimality for kshape Sort Prop with ashape_i := Minimality for ashape Sort Prop.
Combined Scheme vshape_all from vshape_i, vshapes_i, kshape_i, ashape_i.
Scheme sshape_i := Minimality for sshape Sort Prop with qshape_i := Minimality for qshape Sort Prop
  with dshape_i := Minimality for dshape Sort Prop with cshape_i := Minimality for cshape Sort Prop.
Combined Scheme sshape_all from sshape_i, qshape_i, dshape_i, cshape_i.

Hypothesis Sm : small p.
Definition ready (t t1 : astate) : Prop := fine t /\ grows (state_of t1) (s, p).
Lemma ready_small t t1 : ready t t1 -> small (as_pool t1).
Proof. intros [_ G]. exact (extends_small _ _ (proj1 G) Sm). Qed.
Lemma ready_split t t1 t2 : keeps t t1 -> keeps t1 t2 -> ready t t2 -> ready t t1 /\ ready t1 t2.
Proof.
  intros [K1 F1] [K2 F2] [F G]. assert (G1 : grows (state_of t1) (s, p)) by (eapply grows_trans; eassumption).
  split; [split; assumption|]. split; [apply F1; [exact (extends_small _ _ (proj1 G1) Sm)|exact F]|exact G].
Qed.

Lemma few_part x e : part x e -> few e -> few x.
Proof. intros P C y W. apply C. econstructor; [exact P|exact W]. Qed.
Lemma few_parts l e : (forall x, In x l -> part x e) -> few e -> Forall few l.
Proof. intros H C. apply Forall_forall. intros x I. eapply few_part; [apply H, I|exact C]. Qed.

Lemma statement_no_value e : is_statement e = true -> forall R w, eval R s p e w = Halt Malformed.
Proof. destruct e; intros H; try discriminate H; reflexivity. Qed.

Lemma call_parts f super t fn flags i : get_function (as_pool t) f = Done fn ->
  mapM (fun i => omap pa_flags (pe (get_parameter (as_pool t) i))) (fu_parameters fn) = Done flags ->
  call_head (as_pool t) f fn super (as_labels t) i -> extends (as_pool t) p ->
  is_call i = true /\ is_target i = false /\ short_params p f = Some (map (get_flag pf_is_short_circuit) flags) /\
  (callee_of p f super = None \/ exists k, callee_of p f super = Some k /\ called p (at_zero i) = Some k).
Proof.
  intros F M H E. assert (F' : get_function p f = Done fn) by exact (extends_def_by _ _ _ _ _ E F).
  split; [destruct H; reflexivity|]. split; [destruct H; reflexivity|]. split.
  - unfold short_params. rewrite F'. clear - M E.
    assert (Q : forall l r, mapM (fun i => omap pa_flags (pe (get_parameter (as_pool t) i))) l = Done r ->
      mapM (fun i => omap (fun x => get_flag pf_is_short_circuit (pa_flags x)) (get_parameter p i)) l = Done (map (get_flag pf_is_short_circuit) r)).
    { induction l as [|x l IH]; intros r; cbn [mapM]; [intros [= <-]; reflexivity|].
      destruct (get_parameter (as_pool t) x) as [a|] eqn:P; [|discriminate].
      assert (P' : get_parameter p x = Done a) by exact (extends_def_by _ _ _ _ _ E P). rewrite P'. cbn [pe map_err omap obind].
      destruct (mapM _ l) as [y|] eqn:Y; [|discriminate]. rewrite (IH _ eq_refl). intros [= <-]. reflexivity. }
    rewrite (Q _ _ M). reflexivity.
  - unfold callee_of. rewrite F'. destruct H as [d line inv -> N1 N2 N3 D|line inv O].
    + rewrite N1, N2, N3. cbn [orb]. assert (D' : get_def p f = Done d) by exact (extends_get_def _ _ _ _ E D).
      destruct (def_name p f) as [n|] eqn:N; [|left; reflexivity]. right. exists (Virtual n). split; [reflexivity|].
      unfold called, at_zero, map_loc, text_at. unfold def_name in N. rewrite D' in N. cbn [obind] in N.
      destruct (st_get _ _ _); [|discriminate N]. injection N as ->. reflexivity.
    + rewrite O. right. exists (Direct f). destruct (def_name p f); split; reflexivity.
Qed.

Lemma declared l t sp exit st c st1 : emit_initializer sp l t st = Done (tt, c, st1) -> ready st st1 ->
  sshape (EDeclare (N := typed_ast) l (Some t) None sp) exit c /\ starts c.
Proof.
  intros E [F G].
  pose proof (head_steady (EDeclare (N := typed_ast) l (Some t) None sp) _ _ eq_refl _ _ _ _ E) as [K _].
  assert (X : extends (as_pool st) p) by (eapply extends_trans; [exact (proj1 K)|exact (proj1 G)]).
  assert (C1 : forall o i, initial_value p t = Some (InitTo o) -> c = [Assign; Local l; i] -> one p i o 0 ->
    sshape (EDeclare (N := typed_ast) l (Some t) None sp) exit c /\ starts c).
  { intros o i I -> O. split; [eapply s_to; eassumption|apply starts_one; reflexivity]. }
  assert (C2 : initial_value p t = Some InitNothing -> c = [] -> sshape (EDeclare (N := typed_ast) l (Some t) None sp) exit c /\ starts c).
  { intros I ->. split; [apply s_none, I|apply starts_nil]. }
  assert (C3 : initial_value p t = None -> forall n, name_of p t = Some n -> is_prim t = true -> (exists i, c = [Assign; Local l; i]) -> sshape (EDeclare (N := typed_ast) l (Some t) None sp) exit c /\ starts c).
  { intros I n Nn P [i ->]. split; [eapply s_noinit; eassumption|apply starts_one; reflexivity]. }
  destruct t; cbn [emit_initializer] in E; inv_gen; try (apply C2; reflexivity);
    try (eapply C1; [reflexivity|reflexivity|split; [reflexivity|split; reflexivity]]).
  - match goal with N : with_span _ (pc (def_name _ _)) = Done ?x |- _ =>
      assert (N' : name_of p (TIPrim i) = Some x) by
        (unfold with_span, map_err in N; destruct (pc (def_name (as_pool st) i)) as [y|] eqn:P; [|discriminate N];
         injection N as ->; apply pc_done in P; unfold name_of; cbn [ti_repr];
         rewrite (extends_def_name (as_pool st) p i x); [reflexivity|exact X|exact P]); clear N end.
    assert (C3' := fun I => C3 I _ N' eq_refl). clear C3. rename C3' into C3.
    unfold initial_value in C1, C2, C3. rewrite N' in C1, C2, C3. cbn [bind_opt] in C1, C2, C3. clear N'.
    do 11 (destruct (str_eqb x _); [inv_gen; eapply C1; [reflexivity|reflexivity|split; [reflexivity|split; reflexivity]]|]).
    destruct (str_eqb x _).
    { inv_gen. match goal with L : literal_index _ _ _ = Done _ |- _ =>
        pose proof (literal_grows _ _ _ _ _ _ L) as Y; pose proof (proj1 (literal_done _ _ _ _ _ _ L)) as -> end.
      destruct Y as [G1 Y]. destruct (Y (extends_small _ _ (proj1 G) Sm) F) as [_ T]. apply (text_stable _ _ _ _ _ (proj1 G)) in T. cbn [snd] in T.
      eapply C1; [reflexivity|reflexivity|]. split; [reflexivity|]. split; [reflexivity|]. unfold operation, at_zero, map_loc. rewrite T. reflexivity. }
    do 3 (destruct (str_eqb x _);
    [inv_gen;
      match goal with C : bind_opt ?y _ = None -> _ |- _ => destruct y eqn:T; cbn [bind_opt] in C1, C3 end;
       [eapply C1; [reflexivity|reflexivity|]; split; [reflexivity|]; split; [reflexivity|]; unfold operation, at_zero, map_loc, UNDEFINED; rewrite T; reflexivity
       |apply C3; [reflexivity|eexists; reflexivity]]|]).
    inv_gen. apply C2; reflexivity.
  - match goal with N : with_span _ (pc (get_enum _ ?e)) = Done ?x |- _ =>
      assert (N' : get_enum p e = Done x) by
        (unfold with_span, map_err in N; destruct (pc (get_enum (as_pool st) e)) as [y|] eqn:P; [|discriminate N];
         injection N as ->; apply pc_done in P; exact (extends_def_by _ _ _ _ _ X P)); clear N end.
    unfold initial_value in C1, C2. rewrite N' in C1, C2. destruct (en_members _) as [|m ms]; inv_gen.
    + apply C2; reflexivity.
    + eapply C1; [reflexivity|reflexivity|split; [reflexivity|split; reflexivity]].
  - match goal with T : type_index _ _ _ = Done _ |- _ => destruct (typed_index_of _ _ _ _ _ _ _ _ F Sm G T) as (-> & n & N3 & N4) end.
    split; [|apply starts_one; reflexivity]. eapply s_empty; [cbn [initial_value]; rewrite N3; reflexivity|].
    split; [reflexivity|]. split; [reflexivity|]. unfold operation, at_zero, map_loc. rewrite N4. reflexivity.
Qed.

Lemma head_parts e h args x : head_of e = Some (h, args) -> In x args -> part x e.
Proof.
  intros H I. destruct e; cbn [head_of] in H;
    repeat match type of H with match ?x with _ => _ end = _ => is_var x; destruct x end; try discriminate H;
    injection H as <- <-; cbn [In] in I; repeat (destruct I as [I|I]; [subst|]); try contradiction;
    try constructor; assumption.
Qed.
Lemma head_plain e h args t c1 t1 c2 : is_statement e = false -> head_of e = Some (h, args) -> h t = Done (tt, c1, t1) ->
  ready t t1 -> few e -> vshapes args c2 -> vshape e (c1 ++ c2) /\ starts (c1 ++ c2).
Proof.
  intros St H E [F G] Fw V. destruct (head_op _ _ _ _ _ _ _ _ St H E F Sm G (Fw e (wi_here _))) as (i & -> & B1 & B2 & O).
  split; [|apply starts_one; assumption]. destruct (source_op s p e) as [[o args']|] eqn:Q.
  - destruct O as [-> O]. eapply v_op; eassumption.
  - apply v_bad; [right; apply O|apply O].
Qed.

Lemma ready_bump t t1 : ready t t1 -> ready (bump t) t1. Proof. exact (fun H => H). Qed.
Lemma ready_after t t1 t2 : keeps t t1 -> keeps t1 t2 -> ready t t2 -> ready t1 t2.
Proof. intros A B C. apply (ready_split _ _ _ A B C). Qed.
Lemma ready_before t t1 t2 : keeps t t1 -> keeps t1 t2 -> ready t t2 -> ready t t1.
Proof. intros A B C. apply (ready_split _ _ _ A B C). Qed.
Lemma ready_bump_after t t1 : ready (bump t) t1 -> ready t t1. Proof. exact (fun H => H). Qed.

Let K1 := proj1 gens_keeps.
Let K2 := proj1 (proj2 gens_keeps).
Let K3 := proj1 (proj2 (proj2 gens_keeps)).
Let K4 := proj1 (proj2 (proj2 (proj2 gens_keeps))).
Let K5 := proj1 (proj2 (proj2 (proj2 (proj2 gens_keeps)))).
Let K6 := proj2 (proj2 (proj2 (proj2 (proj2 gens_keeps)))).

Lemma gens_shape :
  (forall e exit t c t1, gens e exit t c t1 -> ready t t1 -> few e -> vshape e c /\ sshape e exit c /\ starts c) /\
  (forall out d t c t1, gdefault out d t c t1 -> ready t t1 -> (forall l, d = Some l -> Forall few l) -> dshape out d c /\ starts c) /\
  (forall es exit t c t1, gseq es exit t c t1 -> ready t t1 -> Forall few es -> vshapes es c /\ qshape es exit c /\ starts c) /\
  (forall f args super t c t1, gcall f args super t c t1 -> ready t t1 -> Forall few args -> kshape f args super c /\ starts c) /\
  (forall args flags t c t1, gargs args flags t c t1 -> ready t t1 -> Forall few args ->
     (length args <= length flags)%nat -> ashape args (map (get_flag pf_is_short_circuit) flags) c) /\
  (forall out cases body next t c next' t1, gcases out cases body next t c next' t1 -> ready t t1 ->
     Forall (fun x => few (fst x) /\ Forall few (snd x)) cases -> cshape out cases body next c next').
Proof.
  apply gens_all.
  - intros e exit h args t c1 t1 c2 t2 Hh E Gs IH Rd Fw.
    pose proof (head_steady _ _ _ Hh _ _ _ _ E : keeps t t1) as KE. pose proof (K3 _ _ _ _ _ Gs) as KG.
    destruct (IH (ready_after _ _ _ KE KG Rd)) as (V & _ & _).
    { apply (few_parts _ e); [intros x I; eapply head_parts; eassumption|exact Fw]. }
    pose proof (ready_before _ _ _ KE KG Rd) as R1.
    destruct (is_statement e) eqn:St.
    + assert (B : vshape e (c1 ++ c2)) by (apply v_bad; [left; exact St|intros; apply statement_no_value, St]).
      split; [exact B|]. destruct e; try discriminate St; cbn [head_of] in Hh; try discriminate Hh.
      * destruct init as [x|].
        { assert (Hi : Some ((gen _ <- emit Assign; emit (Local l)), [x]) = Some (h, args)) by (destruct t0; exact Hh). injection Hi as <- <-. clear Hh. inv_gen. split; [|apply starts_one; reflexivity].
          inversion V as [|? ? cx cy V1 V2]; subst. inversion V2; subst. rewrite app_nil_r. apply s_init; [reflexivity|reflexivity|exact V1]. }
        { destruct t0 as [t0|]; [|discriminate Hh]. injection Hh as <- <-. inversion V; subst. rewrite app_nil_r. eapply declared; eassumption. }
      * destruct e as [x|]; injection Hh as <- <-; inv_gen; (split; [|apply starts_one; reflexivity]).
        { inversion V as [|? ? cx cy V1 V2]; subst. inversion V2; subst. rewrite app_nil_r. apply s_return, V1. }
        { inversion V; subst. apply s_return0. }
    + destruct (head_plain _ _ _ _ _ _ _ St Hh E R1 Fw V) as [V1 S1]. split; [exact V1|]. split; [apply s_value; assumption|exact S1].
  - intros es exit t c t1 Gs IH Rd Fw. destruct (IH Rd) as (_ & Q & S1); [eapply few_parts; [|exact Fw]; constructor; assumption|].
    split; [apply v_bad; [left; reflexivity|reflexivity]|]. split; [apply s_seq, Q|exact S1].
  - intros sp l t Rd Fw. split; [apply v_bad; [left; reflexivity|reflexivity]|]. split; [apply s_break|apply starts_one; reflexivity].
  - intros c th sp exit t cc t1 ct t2 G1 IH1 G2 IH2 Rd Fw. pose proof (K1 _ _ _ _ _ G1) as KA. pose proof (K3 _ _ _ _ _ G2) as KB.
    destruct (IH1 (ready_before (bump t) _ _ KA KB Rd)) as (V & _ & _); [eapply few_part; [|exact Fw]; constructor|].
    destruct (IH2 (ready_after (bump t) _ _ KA KB Rd)) as (_ & Q & _); [eapply few_parts; [|exact Fw]; constructor; assumption|].
    split; [apply v_bad; [left; reflexivity|reflexivity]|]. split; [apply s_if; assumption|apply starts_one; reflexivity].
  - intros c th el sp exit t cc t1 ct t2 cf t3 G1 IH1 G2 IH2 G3 IH3 Rd Fw.
    pose proof (K1 _ _ _ _ _ G1) as KA. pose proof (K3 _ _ _ _ _ G2) as KB. pose proof (K3 _ _ _ _ _ G3) as KC.
    pose proof (ready_before (bump t) _ _ KA (keeps_trans _ _ _ KB KC) Rd) as RA.
    pose proof (ready_after (bump t) _ _ KA (keeps_trans _ _ _ KB KC) Rd) as RBC.
    destruct (IH1 RA) as (V & _ & _); [eapply few_part; [|exact Fw]; constructor|].
    destruct (IH2 (ready_before _ _ _ KB KC RBC)) as (_ & Q & _); [eapply few_parts; [|exact Fw]; constructor; assumption|].
    destruct (IH3 (ready_after _ _ _ KB KC RBC)) as (_ & Q' & _); [eapply few_parts; [|exact Fw]; constructor; assumption|].
    split; [apply v_bad; [left; reflexivity|reflexivity]|]. split; [apply s_ifelse; assumption|apply starts_one; reflexivity].
  - intros c a b sp exit t cc t1 ca t2 cb t3 G1 IH1 G2 IH2 G3 IH3 Rd Fw.
    pose proof (K1 _ _ _ _ _ G1) as KA. pose proof (K1 _ _ _ _ _ G2) as KB. pose proof (K1 _ _ _ _ _ G3) as KC.
    pose proof (ready_before (bump t) _ _ KA (keeps_trans _ _ _ KB KC) Rd) as RA.
    pose proof (ready_after (bump t) _ _ KA (keeps_trans _ _ _ KB KC) Rd) as RBC.
    destruct (IH1 RA) as (V1 & _ & _); [eapply few_part; [|exact Fw]; constructor|].
    destruct (IH2 (ready_before _ _ _ KB KC RBC)) as (V2 & _ & _); [eapply few_part; [|exact Fw]; constructor|].
    destruct (IH3 (ready_after _ _ _ KB KC RBC)) as (V3 & _ & _); [eapply few_part; [|exact Fw]; constructor|].
    pose proof (v_cond c a b sp (as_labels t) (S (as_labels t)) cc ca cb V1 V2 V3) as V.
    split; [exact V|]. split; [apply s_value; [reflexivity|exact V]|apply starts_one; reflexivity].
  - intros c b sp exit t cc t1 cb t2 G1 IH1 G2 IH2 Rd Fw. pose proof (K1 _ _ _ _ _ G1) as KA. pose proof (K3 _ _ _ _ _ G2) as KB.
    destruct (IH1 (ready_before (bump t) _ _ KA KB Rd)) as (V & _ & _); [eapply few_part; [|exact Fw]; constructor|].
    destruct (IH2 (ready_after (bump t) _ _ KA KB Rd)) as (_ & Q & _); [eapply few_parts; [|exact Fw]; constructor; assumption|].
    split; [apply v_bad; [left; reflexivity|reflexivity]|]. split; [apply s_while; assumption|apply starts_target, starts_one; reflexivity].
  - intros e f sp exit t ce t1 G1 IH1 Rd Fw.
    destruct (IH1 Rd) as (V1 & _ & _); [eapply few_part; [|exact Fw]; constructor|].
    pose proof (v_field e f sp (as_labels t) ce V1) as V.
    split; [exact V|]. split; [apply s_value; [reflexivity|exact V]|apply starts_one; reflexivity].
  - intros f ts args sp exit t c t1 G1 IH1 Rd Fw.
    destruct (IH1 Rd) as (V1 & S1); [eapply few_parts; [|exact Fw]; constructor; assumption|].
    pose proof (v_call f ts args sp c V1) as V. split; [exact V|]. split; [apply s_value; [reflexivity|exact V]|exact S1].
  - intros e f args sp exit t c t1 fn Ts Gf Fs G1 IH1 Rd Fw.
    destruct (IH1 Rd) as (V1 & S1); [eapply few_parts; [|exact Fw]; constructor; assumption|].
    pose proof (v_static e f args sp c Ts V1) as V. split; [exact V|]. split; [apply s_value; [reflexivity|exact V]|exact S1].
  - intros e f args sp exit t fn ce t1 ca t2 Ts Gf Fs G1 IH1 G2 IH2 Rd Fw. pose proof (K1 _ _ _ _ _ G1) as KA. pose proof (K4 _ _ _ _ _ _ G2) as KB.
    destruct (IH1 (ready_before (bump t) _ _ KA KB Rd)) as (V1 & _ & _); [eapply few_part; [|exact Fw]; constructor|].
    destruct (IH2 (ready_after (bump t) _ _ KA KB Rd)) as (V2 & _); [eapply few_parts; [|exact Fw]; constructor; assumption|].
    pose proof (v_method e f args sp (as_labels t) ce ca Ts V1 V2) as V.
    split; [exact V|]. split; [apply s_value; [reflexivity|exact V]|apply starts_one; reflexivity].
  - intros e cases default sp exit t ty k t1 ce t2 cc next t3 cd t4 Ty Ti G1 IH1 G2 IH2 G3 IH3 Rd Fw.
    pose proof (steady_type _ _ _ _ _ _ Ti : keeps _ _) as KT.
    pose proof (K1 _ _ _ _ _ G1) as KA. pose proof (K6 _ _ _ _ _ _ _ _ G2) as KB. pose proof (K2 _ _ _ _ _ G3) as KC.
    pose proof (keeps_trans _ _ _ KB KC) as KBC. pose proof (keeps_trans _ _ _ KA KBC) as KABC.
    pose proof (ready_before (bump (bump (bump t))) _ _ KT KABC Rd) as RT.
    pose proof (ready_after (bump (bump (bump t))) _ _ KT KABC Rd) as RABC.
    pose proof (ready_before _ _ _ KA KBC RABC) as RA. pose proof (ready_after _ _ _ KA KBC RABC) as RBC.
    destruct (IH1 RA) as (V & _ & _); [eapply few_part; [|exact Fw]; constructor|].
    pose proof (IH2 (ready_before _ _ _ KB KC RBC)) as Q.
    destruct (IH3 (ready_after _ _ _ KB KC RBC)) as (Q' & _).
    { intros l ->. eapply few_parts; [|exact Fw]. intros x I. constructor. exact I. }
    split; [apply v_bad; [left; reflexivity|reflexivity]|]. split; [|apply starts_one; reflexivity].
    destruct (typed_index sp e (bump (bump (bump t))) _ _ _ _ _ _ (proj1 RT) Sm (proj2 RT) Ty Ti) as (_ & n & N1 & N2 & N3 & N4).
    eapply s_switch; [exact N2|exact N4|exact V| |exact Q']. apply Q. apply Forall_forall. intros [m b] I. cbn [fst snd]. split.
    + eapply few_part; [|exact Fw]. econstructor. exact I.
    + eapply few_parts; [|exact Fw]. intros x J. eapply pt_case_body; eassumption.
  - intros out t Rd Fw. split; [constructor|apply starts_nil].
  - intros out d t c t1 G1 IH1 Rd Fw. destruct (IH1 Rd (Fw _ eq_refl)) as (_ & Q & S1). split; [constructor; exact Q|].
    apply starts_one; reflexivity.
  - intros exit t Rd Fw. split; [constructor|]. split; [constructor|apply starts_nil].
  - intros e es exit t c t1 cs t2 G1 IH1 G2 IH2 Rd Fw. pose proof (K1 _ _ _ _ _ G1) as KA. pose proof (K3 _ _ _ _ _ G2) as KB.
    inversion Fw; subst. destruct (IH1 (ready_before _ _ _ KA KB Rd)) as (V1 & W1 & X1); [assumption|].
    destruct (IH2 (ready_after _ _ _ KA KB Rd)) as (V2 & W2 & X2); [assumption|].
    split; [constructor; assumption|]. split; [constructor; assumption|apply starts_app; assumption].
  - intros f args super t fn flags i ca t1 Gf M H G1 IH1 L Rd Fw. pose proof (K5 _ _ _ _ _ G1) as KA.
    pose proof (extends_trans _ _ _ (proj1 (proj1 KA)) (proj1 (proj2 Rd))) as X.
    destruct (call_parts _ _ _ _ _ _ Gf M H X) as (C1 & C2 & C3 & C4).
    pose proof (IH1 Rd Fw L) as A1. split; [|apply starts_one; [exact C2|destruct H; reflexivity]].
    destruct C4 as [C4|(k & C4 & C5)]; [eapply k_bad; [exact C4|exact C3]|].
    rewrite <- (map_length (get_flag pf_is_short_circuit) flags). eapply k_call; try eassumption. rewrite map_length. exact L.
  - intros flags t Rd Fw L. constructor.
  - intros e args t Rd Fw L. cbn in L. lia.
  - intros e args fl flags t c t1 cs t2 Fl G1 IH1 G2 IH2 Rd Fw L. pose proof (K1 _ _ _ _ _ G1) as KA. pose proof (K5 _ _ _ _ _ G2) as KB.
    inversion Fw; subst. cbn [map]. rewrite Fl. constructor.
    + apply (IH1 (ready_before _ _ _ KA KB Rd)). assumption.
    + apply (IH2 (ready_after _ _ _ KA KB Rd)); [assumption|cbn in L; lia].
  - intros e args fl flags t c t1 cs t2 Fl G1 IH1 G2 IH2 Rd Fw L. pose proof (K1 _ _ _ _ _ G1) as KA. pose proof (K5 _ _ _ _ _ G2) as KB.
    inversion Fw; subst. cbn [map]. rewrite Fl. constructor.
    + apply (IH1 (ready_before (bump t) _ _ KA KB Rd)). assumption.
    + apply (IH2 (ready_after (bump t) _ _ KA KB Rd)); [assumption|cbn in L; lia].
  - intros. constructor.
  - intros out m stmts cases body next t b t0 cm t1 cs next' t2 B G1 IH1 Em G2 IH2 Rd Fw.
    pose proof (keeps_case _ _ _ _ _ B (K1 _ _ _ _ _ G1)) as KA. pose proof (K6 _ _ _ _ _ _ _ _ G2) as KB.
    inversion Fw as [|? ? [F1 F2] F3]; subst. pose proof (ready_before _ _ _ KA KB Rd) as R1.
    assert (R0 : ready (bump t0) t1) by (destruct body; destruct B as [_ ->]; exact R1).
    eapply c_empty; [destruct body; [apply B|exact I]|apply (IH1 R0 F1)|exact Em|].
    apply (IH2 (ready_after _ _ _ KA KB Rd) F3).
  - intros out m stmts cases body next t b t0 cm t1 cb t2 cs next' t3 B G1 IH1 Em G2 IH2 G3 IH3 Rd Fw.
    pose proof (keeps_case _ _ _ _ _ B (K1 _ _ _ _ _ G1)) as KA. pose proof (K3 _ _ _ _ _ G2) as KB. pose proof (K6 _ _ _ _ _ _ _ _ G3) as KC.
    inversion Fw as [|? ? [F1 F2] F3]; subst. pose proof (ready_before _ _ _ KA (keeps_trans _ _ _ KB KC) Rd) as R1.
    pose proof (ready_after _ _ _ KA (keeps_trans _ _ _ KB KC) Rd) as R23.
    assert (R0 : ready (bump t0) t1) by (destruct body; destruct B as [_ ->]; exact R1).
    eapply c_body; [destruct body; [apply B|exact I]|apply (IH1 R0 F1)|exact Em| |].
    + apply (IH2 (ready_before _ _ _ KB KC R23) F2).
    + apply (IH3 (ready_after _ _ _ KB KC R23) F3).
Qed.
End Shape.
