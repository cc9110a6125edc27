(** Decompiling what was assembled: expressions (proofs). *)
From Coq Require Import String.
From Coq Require Import ZArith List Bool Lia.
From Verif Require Import Bytes BytesFacts Bytecode BytecodeFacts Definitions Bundle BundleFacts Ast TypeNames Pool Scope TypeCheck PartsSpec Cursor CursorSpec CursorFacts
  Decompiler Assembler AssemblerFacts LabelFacts Semantics BodySpec Machine ShapeFacts MachineFacts RecoverSpec ReadFacts.
Import ListNotations.
Open Scope Z_scope.

(** * Resolved code *)
Section Resolved.
Variable place : nat -> Z.
(** [q] is the labelled code [c] at position [a] with the labels in place. *)
Inductive res : code label -> Z -> code Z -> Prop :=
| r_nil a : res [] a []
| r_target l c a q : place l = a -> res c a q -> res (Target l :: c) a q
| r_instr i j c a q : is_target i = false -> map_loc (fun _ => tt) j = map_loc (fun _ => tt) i ->
    Forall2 (fun l o => in_s 16 o /\ absolute o a = place l) (locs i) (locs j) ->
    res c (a + instr_size i) q -> res (i :: c) a (j :: q).
Lemma res_total c a q : res c a q -> total q = total c.
Proof.
  induction 1 as [|l c a q E H IH|i j c a q T M F H IH]; [reflexivity|exact IH|].
  cbn [total]. rewrite IH, (resolved_size _ _ M). reflexivity.
Qed.
Lemma res_app c1 c2 : forall a q, res (c1 ++ c2) a q -> exists q1 q2, q = q1 ++ q2 /\ res c1 a q1 /\ res c2 (a + total c1) q2.
Proof.
  induction c1 as [|i c1 IH]; intros a q H.
  - exists [], q. split; [reflexivity|]. split; [constructor|]. cbn [total]. rewrite Z.add_0_r. exact H.
  - cbn [app] in H. inversion H as [|l c a' q' E H'|i' j c a' q' T M F H']; subst.
    + destruct (IH _ _ H') as (q1 & q2 & -> & H1 & H2). exists q1, q2. split; [reflexivity|]. split; [constructor; auto|exact H2].
    + destruct (IH _ _ H') as (q1 & q2 & -> & H1 & H2). exists (j :: q1), q2. split; [reflexivity|]. split; [constructor; auto|].
      cbn [total]. replace (a + (instr_size i + total c1)) with (a + instr_size i + total c1) by lia. exact H2.
Qed.
Lemma res_plain i c a q : res (i :: c) a q -> locs i = [] -> is_target i = false -> exists q', q = at_zero i :: q' /\ res c (a + instr_size i) q'.
Proof.
  intros H L T. inversion H as [|l c' a' q' E H'|i' j c' a' q' T' M F H']; subst; [discriminate T|].
  exists q'. split; [|exact H']. f_equal. exact (resolved_plain _ _ L M).
Qed.
Lemma res_end l a q : res [Target l] a q -> place l = a /\ q = [].
Proof. intros H. inversion H as [|l' c' a' q' E H'|]; subst; [|discriminate]. inversion H'; subst. auto. Qed.
End Resolved.

Section Decomp.
Variables (s : scope) (p : pool) (this : definition) (place : nat -> Z).
Notation rec n := (consume_with p this n).
Notation res := (res place).

(** * Reading an expression *)
Definition reads (ctx : option sexpr) (q : code Z) (e : sexpr) : Prop :=
  exists N, forall n, (N <= n)%nat -> forall b pre post, total (pre ++ q ++ post) < 65536 ->
    rec n ctx b (cur pre (q ++ post)) = Done (e, cur (pre ++ q) post).
Definition nreads (q : code Z) (es : list sexpr) : Prop :=
  exists N, forall n, (N <= n)%nat -> forall pre post, total (pre ++ q ++ post) < 65536 ->
    consume_n (rec n) (length es) (cur pre (q ++ post)) = Done (es, cur (pre ++ q) post).
Lemma nreads_nil : nreads [] [].
Proof. exists O. intros n _ pre post _. cbn. rewrite app_nil_r. reflexivity. Qed.
Lemma nreads_cons q e qs es : reads None q e -> nreads qs es -> nreads (q ++ qs) (e :: es).
Proof.
  intros [N H] [M K]. exists (N + M)%nat. intros n L pre post T. cbn [length consume_n]. unfold consume.
  rewrite <- app_assoc in *. rewrite (xbind_done _ _ _ _ _ (H n ltac:(lia) None pre (qs ++ post) T)).
  rewrite (xbind_done _ _ _ _ _ (K n ltac:(lia) (pre ++ q) post ltac:(rewrite <- app_assoc; exact T))).
  rewrite <- app_assoc. reflexivity.
Qed.

(** What an operation looks like. *)
Definition show_op (o : op) (es : list sexpr) : sexpr :=
  match o, es with
  | OpConst k, _ => show_const p k
  | OpLocal i, _ | OpParam i, _ => shown p i
  | OpThis, _ => s_this
  | OpAssign, [l; r] => EAssign (N := source_ast) l r span0
  | OpCast c, [x] => ECast (N := source_ast) (from_repr (name p c)) x span0
  | OpElement _ _, [a; i] => EArrayElem (N := source_ast) a i span0
  | OpNew c, _ | OpConstruct c, _ => ENew (N := source_ast) (tn_basic (name p c)) es span0
  | OpStructField f, [x] => EMember (N := source_ast) x (name p f) span0
  | OpIntrinsic i t, _ =>
    ECall (N := source_ast) (intrinsic_name i) (match i, t with (IIntEnum | IFromVariant), Some n => [from_repr n] | _, _ => [] end) es span0
  | OpIsDefined _, _ => ECall (N := source_ast) (intrinsic_name IIsDefined) [] es span0
  | _, _ => Decompiler.s_empty
  end.
Definition op_named (o : op) : Prop :=
  match o with
  | OpConst (KEnum e m) => named p e /\ named p m
  | OpLocal i | OpParam i | OpCast i | OpNew i | OpConstruct i | OpStructField i => named p i
  | OpField _ | OpCall _ => False
  | _ => True
  end.
Lemma ident_named i c : named p i -> ident_of p i c = Done (name p i, c).
Proof. intros [n H]. unfold ident_of, name, xlift, of_pool. rewrite H. reflexivity. Qed.
Lemma consume_1 n c a c' : consume_n (rec n) 1 c = Done ([a], c') -> rec n None None c = Done (a, c').
Proof.
  cbn [consume_n]. unfold consume, xbind, xret. destruct (rec n None None c) as [[x c1]|]; [|discriminate]. intros [= -> ->]. reflexivity.
Qed.
Lemma consume_2 n c a b c' : consume_n (rec n) 2 c = Done ([a; b], c') ->
  exists c1, rec n None None c = Done (a, c1) /\ rec n None None c1 = Done (b, c').
Proof.
  cbn [consume_n]. unfold consume, xbind, xret. destruct (rec n None None c) as [[x c1]|]; [|discriminate].
  destruct (rec n None None c1) as [[y c2]|] eqn:E; [|discriminate]. intros [= -> -> ->]. eauto.
Qed.
Lemma op_reads j o k q es : operation p j = Some (o, k) -> op_named o -> length es = k -> nreads q es -> reads None (j :: q) (show_op o es).
Proof.
  intros O Nm L [N H]. exists (S N). intros [|n] Ln b pre post T; [lia|].
  assert (C : forall c, c = cur (pre ++ [j]) (q ++ post) -> consume_n (rec n) k c = Done (es, cur (pre ++ j :: q) post)).
  { intros c ->. rewrite <- L, (H n ltac:(lia)) by (rewrite <- app_assoc; exact T). rewrite <- app_assoc. reflexivity. }
  specialize (C _ eq_refl). clear H. popped T. revert O Nm L C. generalize (cur (pre ++ [j]) (q ++ post)) (cur (pre ++ j :: q) post). clear T. intros c c' O Nm L C.
  destruct j; cbn [operation] in O; try discriminate O.
  all: repeat match type of O with match ?x with _ => _ end = _ => destruct x eqn:?; try discriminate O end.
  all: try (destruct (text_at _ _ _) eqn:Tx; [|discriminate O]; cbn [bind_opt] in O).
  all: injection O as <- <-; cbn [op_named] in Nm; cbn [show_op].
  all: match goal with
       | L : length ?l = 0%nat |- _ => destruct l; [|discriminate L]; cbn [consume_n] in C; injection C as <-
       | L : length ?l = 1%nat |- _ => destruct l as [|x [|]]; [discriminate L| |discriminate L]
       | L : length ?l = 2%nat |- _ => destruct l as [|x [|y [|]]]; [discriminate L|discriminate L| |discriminate L]
       | _ => idtac end.
  all: try reflexivity.
  all: try (unfold consume_intrinsic, consume_intrinsic_typed, type_named, ident_of, xlift, of_pool, xbind, xret; cbn [arg_count];
      repeat match goal with D : def_name p _ = Done _ |- _ => rewrite D end; cbn [map_err]; rewrite C; reflexivity).
  all: try (apply consume_2 in C; destruct C as (c1 & C1 & C2); unfold consume, xbind; rewrite C1, C2; reflexivity).
  all: try (apply consume_1 in C; unfold consume, type_named, xbind; rewrite ?(ident_named _ _ Nm), C; reflexivity).
  all: try (rewrite (xbind_done _ _ _ _ _ (ident_named _ _ Nm)); reflexivity).
  all: try (rewrite (xbind_done _ _ _ _ _ (ident_named _ _ (proj1 Nm))), (xbind_done _ _ _ _ _ (ident_named _ _ (proj2 Nm))); reflexivity).
  all: try contradiction.
  1-4: cbn [text_at] in Tx; unfold s_text, of_string, s_const, xlift, xbind, xret; unfold text_at in Tx.
  1: destruct (st_get (Some none_str) (pl_names p) a); [|discriminate Tx].
  2: destruct (st_get None (pl_strings p) a); [|discriminate Tx].
  3: destruct (st_get None (pl_tweakdb p) a); [|discriminate Tx].
  4: destruct (st_get None (pl_resources p) a); [|discriminate Tx].
  1-4: injection Tx as ->; reflexivity.
  - rewrite (xbind_done _ _ _ _ _ C). cbv beta. rewrite (xbind_done _ _ _ _ _ (ident_named _ _ Nm)). reflexivity.
  - apply consume_1 in C. unfold consume. rewrite (xbind_done _ _ _ _ _ C). cbv beta. rewrite (xbind_done _ _ _ _ _ (ident_named _ _ Nm)). reflexivity.
  - apply consume_1 in C. unfold consume.
    assert (Ty : type_named p a c = Done (from_repr (name p a), c)) by (unfold type_named; rewrite (xbind_done _ _ _ _ _ (ident_named _ _ Nm)); reflexivity).
    rewrite (xbind_done _ _ _ _ _ Ty). cbv beta. rewrite (xbind_done _ _ _ _ _ C). reflexivity.
Qed.

(** * Arguments *)
Definition padding (i : instr Z) : bool := match i with Skip _ | Nop | ParamEnd => true | _ => false end.
Definition headed (q : code Z) : Prop := exists j q', q = j :: q' /\ padding j = false.
Lemma headed_app q r : headed q -> headed (q ++ r).
Proof. intros (j & q' & -> & H). exists j, (q' ++ r). auto. Qed.
Definition preads (q : code Z) (es : list sexpr) : Prop :=
  exists N, forall n m f, (N <= n)%nat -> (N <= f)%nat -> forall pre post, total (pre ++ q ++ post) < 65536 ->
    consume_params_loop (rec n) f (length es + m) (cur pre (q ++ post)) =
    match consume_params_loop (rec n) f m (cur (pre ++ q) post) with Done (l, c) => Done (es ++ l, c) | Fail e => Fail e end.
Lemma preads_nil : preads [] [].
Proof.
  exists O. intros n m f _ _ pre post _. cbn [length Nat.add app]. rewrite app_nil_r. destruct (consume_params_loop _ _ _ _) as [[]|]; reflexivity.
Qed.
Lemma skip_none f pre q : headed q -> skip_padding (S f) (cur pre q) = Done (tt, cur pre q).
Proof.
  intros (j & q' & -> & H). cbn [skip_padding]. rewrite (xbind_done _ _ _ _ _ (xpeek_cur _ _)). cbn [hd_error].
  destruct j; try discriminate H; reflexivity.
Qed.
Lemma skip_one f pre i q : i = Nop \/ (exists o, i = Skip o) -> skip_padding (S f) (cur pre (i :: q)) = skip_padding f (cur (pre ++ [i]) q).
Proof.
  intros H. cbn [skip_padding]. rewrite (xbind_done _ _ _ _ _ (xpeek_cur _ _)). cbn [hd_error].
  destruct H as [->|[o ->]]; rewrite (xbind_done _ _ _ _ _ (xpop_cur _ _ _)); reflexivity.
Qed.
Lemma params_value n f m pre q : headed q -> consume_params_loop (rec n) (S f) (S m) (cur pre q) =
  xbind (consume (rec n)) (fun e => xbind (consume_params_loop (rec n) (S f) m) (fun l => xret (e :: l))) (cur pre q).
Proof.
  intros H. cbn [consume_params_loop]. rewrite (xbind_done _ _ _ _ _ (skip_none _ _ _ H)). cbv beta.
  rewrite (xbind_done _ _ _ _ _ (xpeek_cur _ _)). cbv beta. destruct H as (j & q' & -> & H). cbn [hd_error].
  destruct j; try discriminate H; reflexivity.
Qed.
Lemma params_skip n f m pre o q : headed q -> consume_params_loop (rec n) (S (S f)) (S m) (cur pre (Skip o :: q)) =
  xbind (consume (rec n)) (fun e => xbind (consume_params_loop (rec n) (S (S f)) m) (fun l => xret (e :: l))) (cur (pre ++ [Skip o]) q).
Proof.
  intros H. cbn [consume_params_loop]. assert (S1 : skip_padding (S (S f)) (cur pre (Skip o :: q)) = Done (tt, cur (pre ++ [Skip o]) q)).
  { rewrite skip_one by eauto. apply skip_none, H. }
  rewrite (xbind_done _ _ _ _ _ S1). cbv beta.
  rewrite (xbind_done _ _ _ _ _ (xpeek_cur _ _)). cbv beta. destruct H as (j & q' & -> & H). cbn [hd_error].
  destruct j; try discriminate H; reflexivity.
Qed.
Lemma preads_cons pad q e qs es : (pad = [] \/ exists o, pad = [Skip o]) -> headed q -> reads None q e -> preads qs es -> preads (pad ++ q ++ qs) (e :: es).
Proof.
  intros P Hd [N H] [M K]. exists (S (S (N + M)))%nat. intros n m f Ln Lf pre post T.
  destruct f as [|[|f]]; [lia|lia|].
  assert (G : consume_params_loop (rec n) (S (S f)) (S (length es + m)) (cur pre ((pad ++ q ++ qs) ++ post)) =
    xbind (consume (rec n)) (fun e => xbind (consume_params_loop (rec n) (S (S f)) (length es + m)) (fun l => xret (e :: l))) (cur (pre ++ pad) (q ++ qs ++ post))).
  { destruct P as [->|[o ->]]; cbn [app]; rewrite <- !app_assoc.
    - rewrite app_nil_r. apply params_value, headed_app, Hd.
    - apply params_skip, headed_app, Hd. }
  cbn [length Nat.add]. rewrite G. unfold consume.
  rewrite <- !app_assoc in T.
  rewrite (xbind_done _ _ _ _ _ (H n ltac:(lia) None (pre ++ pad) (qs ++ post) ltac:(rewrite <- app_assoc; exact T))). cbv beta. unfold xbind at 1.
  rewrite (K n m (S (S f)) ltac:(lia) ltac:(lia) ((pre ++ pad) ++ q) post ltac:(rewrite <- !app_assoc; exact T)).
  rewrite <- !app_assoc. clear G. destruct (consume_params_loop (rec n) (S (S f)) m (cur (pre ++ pad ++ q ++ qs) post)) as [[]|]; reflexivity.
Qed.
Lemma params_end k : forall n m f pre post, (k < f)%nat ->
  consume_params_loop (rec n) f (S m) (cur pre (repeat Nop k ++ ParamEnd :: post)) = Done ([], cur (pre ++ repeat Nop k ++ [ParamEnd]) post).
Proof.
  intros n m f pre post L. cbn [consume_params_loop].
  assert (S1 : forall k f pre, (k < f)%nat -> skip_padding f (cur pre (repeat Nop k ++ ParamEnd :: post)) = Done (tt, cur (pre ++ repeat Nop k) (ParamEnd :: post))).
  { clear. induction k as [|k IH]; intros [|f] pre L; try lia; cbn [repeat app].
    - rewrite app_nil_r. cbn [skip_padding]. rewrite (xbind_done _ _ _ _ _ (xpeek_cur _ _)). reflexivity.
    - rewrite skip_one by auto. rewrite IH by lia. rewrite <- app_assoc. reflexivity. }
  rewrite (xbind_done _ _ _ _ _ (S1 _ _ _ L)). cbv beta. rewrite (xbind_done _ _ _ _ _ (xpeek_cur _ _)). cbn [hd_error].
  rewrite (xbind_done _ _ _ _ _ (xpop_cur _ _ _)). rewrite <- app_assoc. reflexivity.
Qed.
(** All arguments of a call. *)
Definition creads (q : code Z) (es : list sexpr) : Prop :=
  exists N, forall n, (N <= n)%nat -> forall pre post, total (pre ++ q ++ post) < 65536 ->
    consume_params (rec n) n (cur pre (q ++ post)) = Done (es, cur (pre ++ q) post).
Lemma creads_of q es k : preads q es -> creads (q ++ repeat Nop k ++ [ParamEnd]) es.
Proof.
  intros [N H]. exists (S (N + length es + k))%nat. intros n L pre post T. unfold consume_params.
  rewrite <- !app_assoc in *. cbn [app] in *.
  replace (consume_params_loop (rec n) n n) with (consume_params_loop (rec n) n (length es + S (n - S (length es)))) by (f_equal; lia).
  rewrite H by (try exact T; lia). rewrite params_end by lia. rewrite app_nil_r, <- !app_assoc. reflexivity.
Qed.

(** * Calls *)
Lemma def_named f : named p f -> exists d, get_def p f = Done d /\ st_get (Some none_str) (pl_names p) (df_name d) = inl (name p f).
Proof.
  intros [n H]. unfold name. rewrite H. unfold def_name in H. destruct (get_def p f) as [d|]; [|discriminate H]. cbn [obind] in H.
  exists d. split; [reflexivity|]. destruct (st_get _ _ _); [|discriminate H]. injection H as ->. reflexivity.
Qed.
Definition direct (f : pidx) (d : definition) (fn : function) (ctx : option sexpr) (es : list sexpr) (e : sexpr) : Prop :=
  match ctx with
  | Some o => e = s_method o (name p f) es
  | None => get_flag fn_is_static (fu_flags fn) = true /\
    ((df_parent d = UNDEFINED /\ e = ECall (N := source_ast) (name p f) (call_types p f) es span0 /\
      (cast_name (name p f) = true -> exists t, fu_return_type fn = Some t /\ named p t)) \/
     (df_parent d <> UNDEFINED /\ named p (df_parent d) /\ e = s_method (shown p (df_parent d)) (name p f) es))
  end.
Lemma reads_direct a x f y ctx q es d fn e : named p f -> get_def p f = Done d -> get_function p f = Done fn -> creads q es ->
  direct f d fn ctx es e -> reads ctx (InvokeStatic a x f y :: q) e.
Proof.
  intros Nm D F [N H] X. exists (S N). intros [|n] Ln b pre post T; [lia|].
  assert (E := fun c => H n ltac:(lia) (pre ++ [InvokeStatic a x f y]) post c). rewrite <- app_assoc in E. specialize (E T). rewrite <- app_assoc in E. cbn [app] in E.
  popped T. clear H T. destruct (def_named _ Nm) as (d' & D' & G). rewrite D in D'. injection D' as <-.
  match goal with |- _ ?c = _ => set (c0 := c) in * end.
  assert (D1 : xlift (of_pool (get_def p f)) c0 = Done (d, c0)) by (rewrite D; reflexivity).
  assert (F1 : xlift (of_pool (get_function p f)) c0 = Done (fn, c0)) by (rewrite F; reflexivity).
  assert (G1 : xlift (of_string (st_get (Some none_str) (pl_names p) (df_name d))) c0 = Done (name p f, c0)) by (rewrite G; reflexivity).
  rewrite (xbind_done _ _ _ _ _ D1); cbv beta. rewrite (xbind_done _ _ _ _ _ F1); cbv beta. rewrite (xbind_done _ _ _ _ _ G1); cbv beta.
  rewrite (xbind_done _ _ _ _ _ E). cbv beta. cbn [app].
  destruct ctx as [o|]; cbn [direct] in X; [subst e; reflexivity|]. destruct X as [St [(P & -> & C)|(P & Q & ->)]]; rewrite St.
  - rewrite P, Z.eqb_refl. unfold call_types. rewrite F. change starts_cast with cast_name. destruct (cast_name (name p f)) eqn:Cn; [|reflexivity].
    destruct (C eq_refl) as (t & Rt & Nt). rewrite Rt.
    assert (Ty : forall c, type_named p t c = Done (from_repr (name p t), c)) by (intros c; unfold type_named; rewrite (xbind_done _ _ _ _ _ (ident_named _ _ Nt)); reflexivity).
    rewrite (xbind_done _ _ _ _ _ (Ty _)). reflexivity.
  - destruct (Z.eqb_spec (df_parent d) UNDEFINED); [contradiction|]. rewrite (xbind_done _ _ _ _ _ (ident_named _ _ Q)). reflexivity.
Qed.
Lemma reads_virtual a x n y o q es nm : text_at p LName n = Some nm -> creads q es ->
  reads (Some o) (InvokeVirtual a x n y :: q) (s_method o nm es).
Proof.
  intros G [N H]. exists (S N). intros [|k] Ln b pre post T; [lia|].
  assert (E := fun c => H k ltac:(lia) (pre ++ [InvokeVirtual a x n y]) post c). rewrite <- app_assoc in E. specialize (E T). rewrite <- app_assoc in E. cbn [app] in E.
  popped T. unfold text_at in G. destruct (st_get _ _ _); [|discriminate G]. injection G as ->. cbn [of_string].
  unfold xlift. unfold xbind at 1. rewrite (xbind_done _ _ _ _ _ E). reflexivity.
Qed.
Lemma reads_call j f super k ctx q es e d fn : called p j = Some k -> callee_of p f super = Some k -> named p f ->
  get_def p f = Done d -> get_function p f = Done fn -> creads q es -> direct f d fn ctx es e -> reads ctx (j :: q) e.
Proof.
  intros C K Nm D F H X. unfold callee_of in K. rewrite F in K. pose proof Nm as [nm Nm']. rewrite Nm' in K.
  destruct j; try discriminate C; cbn [called] in C.
  - injection C as <-. destruct (_ || _ || _ || _) in K; [injection K as <-|discriminate K]. eapply reads_direct; eassumption.
  - match type of C with context [text_at p LName ?m] => destruct (text_at p LName m) as [x|] eqn:G; [|discriminate C] end. injection C as <-.
    destruct (super || _ || _ || _) eqn:Fl in K; [discriminate K|]. injection K as <-.
    destruct ctx as [o|]; cbn [direct] in X.
    + unfold name in X. rewrite Nm' in X. subst e. apply reads_virtual; assumption.
    + destruct X as [St _]. rewrite St in Fl. rewrite !orb_true_r in Fl. destruct super; discriminate Fl.
Qed.

(** * Values *)
Lemma source_shown e o args : source_op s p e = Some (o, args) -> recoverable_here p e -> op_named o /\ show p e = show_op o (map (show p) args).
Proof.
  intros H Rc. destruct e; cbn [source_op] in H;
    repeat match type of H with match ?x with _ => _ end = _ => is_var x; destruct x end; try discriminate H;
    try (injection H as <- <-; cbn [recoverable_here] in Rc; split; [try exact Rc; try exact I; try (destruct c; exact I)|]; try reflexivity; try (destruct c; reflexivity)).
  - destruct (intrinsic_op _ _ _ _ _) as [o'|] eqn:O; [|discriminate H]. injection H as <- <-. unfold intrinsic_op in O.
    destruct (negb _); [discriminate O|].
    destruct i; cbn [show]; unfold type_text;
      try (injection O as <-; split; [exact I|reflexivity]);
      try (destruct (name_of p t); [|discriminate O]; injection O as <-; split; [exact I|reflexivity]);
      destruct args0 as [|x args0]; try discriminate O;
      try (destruct (static_name s p x); [|discriminate O]; injection O as <-; split; [exact I|reflexivity]).
    destruct (static_type s p x) as [[]|]; try discriminate O; injection O as <-; split; try exact I; reflexivity.
  - match type of H with context [static_type s p ?a] => destruct (static_type s p a) as [[]|]; try discriminate H;
      (destruct (static_name s p a); [|discriminate H]) end; injection H as <- <-; split; try exact I; reflexivity.
  - contradiction.
Qed.
Definition fine_value (e : texpr) : Prop := is_statement e = false /\ tidy e /\ recoverable p e.
Lemma fine_part x e : operand x e -> part x e -> fine_value e -> fine_value x.
Proof.
  intros O P (_ & T & Rc). split; [apply (T e (wi_here _)), O|]. split.
  - intros y W. apply T. econstructor; eassumption.
  - intros y W. apply Rc. econstructor; eassumption.
Qed.
Lemma source_operand e o args x : source_op s p e = Some (o, args) -> In x args -> operand x e /\ part x e.
Proof.
  intros H I. destruct e; cbn [source_op] in H;
    repeat match type of H with match ?x with _ => _ end = _ => is_var x; destruct x end; try discriminate H;
    try (injection H as <- <-; cbn [In] in I; repeat (destruct I as [I|I]; [subst|]); try contradiction; split; constructor; assumption).
  - destruct (intrinsic_op _ _ _ _ _) as [o'|] eqn:O; [|discriminate H]. injection H as <- <-. split; constructor; assumption.
  - match type of H with context [static_type s p ?a] => destruct (static_type s p a) as [[]|]; try discriminate H;
      (destruct (static_name s p a); [|discriminate H]) end; injection H as <- <-;
      cbn [In] in I; repeat (destruct I as [I|I]; [subst|]); try contradiction; split; constructor.
Qed.
Lemma operation_head j x : operation p j = Some x -> padding j = false.
Proof. destruct j; try reflexivity; discriminate. Qed.
Lemma values_read :
  (forall e c, vshape s p e c -> fine_value e -> forall a q, res c a q -> reads None q (show p e) /\ headed q) /\
  (forall es c, vshapes s p es c -> Forall fine_value es -> forall a q, res c a q -> nreads q (map (show p) es)) /\
  (forall f args super c, kshape s p f args super c -> Forall fine_value args -> named p f -> forall a q, res c a q ->
     forall d fn ctx e, get_def p f = Done d -> get_function p f = Done fn -> direct f d fn ctx (map (show p) args) e -> reads ctx q e /\ headed q) /\
  (forall args flags c, ashape s p args flags c -> Forall fine_value args -> forall a q, res c a q -> preads q (map (show p) args)).
Proof.
  apply vshape_all.
  - intros e i o args c So On Vs IH Fe a q Rq.
    destruct On as (O1 & O2 & O3). destruct (res_plain _ _ _ _ _ Rq O1 O2) as (q' & -> & Rq').
    destruct (source_shown _ _ _ So (proj2 (proj2 Fe) e (wi_here _))) as [Nm ->].
    split.
    + eapply op_reads; [exact O3|exact Nm|apply map_length|]. eapply IH; [|exact Rq'].
      apply Forall_forall. intros x Ix. destruct (source_operand _ _ _ _ So Ix). eapply fine_part; eassumption.
    + eexists _, _. split; [reflexivity|]. eapply operation_head, O3.
  - intros e c [St|Wa] _ (F1 & F2 & _); [congruence|]. destruct (proj2 (F2 e (wi_here _)) Wa).
  - intros c a b sp f l cc ca cb V1 IH1 V2 IH2 V3 IH3 Fe at_ q Rq.
    inversion Rq as [| |i j c' a' q' T M F Rq']; subst. destruct j; try discriminate M. clear Rq.
    apply res_app in Rq'. destruct Rq' as (q1 & q2 & -> & R1 & Rq). apply res_app in Rq. destruct Rq as (q3 & q4 & -> & R3 & Rq).
    inversion Rq as [|lx cx ax qx Pl Rq'|]; subst; [|discriminate]. clear Rq. apply res_app in Rq'. destruct Rq' as (q5 & q6 & -> & R5 & Rq').
    apply res_end in Rq'. destruct Rq' as [_ ->]. rewrite app_nil_r.
    destruct (IH1 ltac:(eapply fine_part; [| |exact Fe]; constructor) _ _ R1) as [[N1 H1] _].
    destruct (IH2 ltac:(eapply fine_part; [| |exact Fe]; constructor) _ _ R3) as [[N2 H2] _].
    destruct (IH3 ltac:(eapply fine_part; [| |exact Fe]; constructor) _ _ R5) as [[N3 H3] _].
    split; [|eexists _, _; split; reflexivity].
    exists (S (N1 + N2 + N3)). intros [|n] Ln bl pre post Tt; [lia|]. cbn [show].
    popped Tt. rewrite <- !app_assoc. unfold consume.
    cbn [app] in Tt. rewrite <- !app_assoc in Tt.
    readp H1 n Tt.
    readp H2 n Tt.
    readp H3 n Tt.
    rewrite <- !app_assoc. reflexivity.
  - intros e f sp l ce V1 IH1 Fe at_ q Rq.
    inversion Rq as [| |i j c' a' q' T M F Rq']; subst. destruct j; try discriminate M. clear Rq.
    apply res_app in Rq'. destruct Rq' as (q1 & q2 & -> & R1 & Rq). apply res_plain in Rq; [|reflexivity|reflexivity].
    destruct Rq as (q3 & -> & Rq). apply res_end in Rq. destruct Rq as [_ ->].
    destruct (IH1 ltac:(eapply fine_part; [| |exact Fe]; constructor) _ _ R1) as [[N1 H1] _].
    pose proof (proj2 (proj2 Fe) _ (wi_here _)) as Nm. cbn [recoverable_here] in Nm.
    split; [|eexists _, _; split; reflexivity].
    exists (S (S N1)). intros [|m] Ln bl pre post Tt; [lia|]. cbn [show].
    popped Tt. rewrite <- !app_assoc. cbn [app] in Tt. rewrite <- !app_assoc in Tt. unfold consume.
    readp H1 m Tt. cbn [app]. destruct m as [|n]; [lia|].
    change (at_zero (ObjectField f)) with (ObjectField (Loc := Z) f) in *.
    match goal with |- consume_with _ _ _ _ _ (cur ?P _) = _ => assert (T2 : total (P ++ ObjectField f :: post) < 65536) by (rewrite <- !app_assoc; exact Tt) end.
    popped T2. rewrite (xbind_done _ _ _ _ _ (ident_named _ _ Nm)). cbv beta. rewrite <- !app_assoc. reflexivity.
  - intros f ts args sp c K IH Fe at_ q Rq. pose proof (proj2 (proj2 Fe) _ (wi_here _)) as Gl. cbn [recoverable_here] in Gl.
    destruct Gl as (d & fn & n & D & Fn & Nm & St & Pa & Ca).
    eapply IH; [|exists n; exact Nm|exact Rq|exact D|exact Fn|].
    + apply Forall_forall. intros x Ix. eapply fine_part; [| |exact Fe]; constructor; exact Ix.
    + split; [exact St|]. left. split; [exact Pa|]. split; [reflexivity|]. unfold name. rewrite Nm. exact Ca.
  - intros e f args sp c Ts K IH Fe at_ q Rq. pose proof (proj2 (proj2 Fe) _ (wi_here _)) as Gl. cbn [recoverable_here] in Gl.
    change (by_class e) with (type_symbol e) in Gl. rewrite Ts in Gl. destruct Gl as (d & fn & D & Fn & Nm & St & Pa & Np).
    eapply IH; [|exact Nm|exact Rq|exact D|exact Fn|].
    + apply Forall_forall. intros x Ix. eapply fine_part; [| |exact Fe]; constructor; exact Ix.
    + split; [exact St|]. right. split; [exact Pa|]. split; [exact Np|]. cbn [show]. change (by_class e) with (type_symbol e). rewrite Ts.
      unfold parent_of. rewrite D. reflexivity.
  - intros e f args sp l ce ca Ts V1 IH1 K IH2 Fe at_ q Rq. pose proof (proj2 (proj2 Fe) _ (wi_here _)) as Nm. cbn [recoverable_here] in Nm.
    change (by_class e) with (type_symbol e) in Nm. rewrite Ts in Nm.
    inversion Rq as [| |i j c' a' q' T M F Rq']; subst. destruct j; try discriminate M. clear Rq.
    apply res_app in Rq'. destruct Rq' as (q1 & q2 & -> & R1 & Rq). apply res_app in Rq. destruct Rq as (q3 & q4 & -> & R3 & Rq).
    apply res_end in Rq. destruct Rq as [_ ->]. rewrite app_nil_r.
    destruct (IH1 ltac:(eapply fine_part; [| |exact Fe]; constructor) _ _ R1) as [[N1 H1] _].
    destruct (def_named _ Nm) as (d & D & _).
    assert (Fn : exists fn, get_function p f = Done fn).
    { inversion K; subst; match goal with H : short_params p f = Some _ |- _ => unfold short_params in H; destruct (get_function p f); [eauto|discriminate H] end. }
    destruct Fn as [fn Fn].
    destruct (IH2 ltac:(apply Forall_forall; intros x Ix; eapply fine_part; [| |exact Fe]; constructor; exact Ix) Nm _ _ R3 d fn (Some (show p e)) _ D Fn eq_refl) as [[N2 H2] _].
    split; [|eexists _, _; split; reflexivity].
    exists (S (N1 + N2)). intros [|n] Ln bl pre post Tt; [lia|]. cbn [show]. change (by_class e) with (type_symbol e). rewrite Ts.
    popped Tt. rewrite <- !app_assoc. cbn [app] in Tt. rewrite <- !app_assoc in Tt. unfold consume.
    readp H1 n Tt.
    rewrite (H2 n ltac:(lia)) by (rewrite <- !app_assoc; exact Tt). rewrite <- !app_assoc. reflexivity.
  - intros _ a q Rq. inversion Rq; subst. apply nreads_nil.
  - intros e es c cs V IH Vs IHs Fe a q Rq. inversion Fe; subst. apply res_app in Rq. destruct Rq as (q1 & q2 & -> & R1 & R2).
    cbn [map]. apply nreads_cons; [eapply IH; eassumption|eapply IHs; eassumption].
  - intros f args super i k flags ca l Ce Cd Ic It Sp Le Sh IH Fe Nm a q Rq d fn ctx e D Fn X.
    inversion Rq as [| |i' j c' a' q' T M F Rq']; subst; [discriminate It|]. clear Rq.
    destruct (resolved_call p _ _ M Ic) as [Cj Cj']. rewrite Cd in Cj'.
    apply res_app in Rq'. destruct Rq' as (q1 & q2 & -> & R1 & Rq).
    assert (Nops : forall k a q c, res (repeat Nop k ++ c) a q -> exists a' q', q = repeat Nop k ++ q' /\ res c a' q').
    { clear. induction k as [|k IH]; intros a q c H; cbn [repeat app] in *; [eauto|]. apply res_plain in H; [|reflexivity|reflexivity].
      destruct H as (q' & -> & H). destruct (IH _ _ _ H) as (a' & q'' & -> & H'). exists a', q''. split; [reflexivity|exact H']. }
    destruct (Nops _ _ _ _ Rq) as (a2 & q3 & -> & R3). apply res_plain in R3; [|reflexivity|reflexivity]. destruct R3 as (q4 & -> & R4).
    apply res_end in R4. destruct R4 as [_ ->].
    split; [|exists j; eexists; split; [reflexivity|destruct j; try discriminate Cj; reflexivity]].
    eapply reads_call; [exact Cj'|exact Ce|exact Nm|exact D|exact Fn| |exact X].
    apply creads_of. eapply IH; eassumption.
  - intros f args super flags c Ce Sp Fe [nm Nm]. exfalso. unfold short_params in Sp. unfold callee_of in Ce. rewrite Nm in Ce.
    destruct (get_function p f); [discriminate Ce|discriminate Sp].
  - intros flags _ a q Rq. inversion Rq; subst. apply preads_nil.
  - intros e args flags c cs V IH Sh IHs Fe a q Rq. inversion Fe; subst. apply res_app in Rq. destruct Rq as (q1 & q2 & -> & R1 & R2).
    destruct (IH ltac:(assumption) _ _ R1) as [Re Hd]. cbn [map]. apply (preads_cons []); [left; reflexivity|exact Hd|exact Re|eapply IHs; eassumption].
  - intros e args flags l c cs V IH Sh IHs Fe a q Rq. inversion Fe; subst.
    inversion Rq as [| |i' j c' a' q' T M F Rq']; subst. destruct j; try discriminate M. clear Rq.
    apply res_app in Rq'. destruct Rq' as (q1 & q2 & -> & R1 & R2). inversion R2 as [|lx cx ax qx Pl R2'|]; subst; [|discriminate].
    destruct (IH ltac:(assumption) _ _ R1) as [Re Hd]. cbn [map]. match goal with |- preads (Skip ?o :: _) _ => apply (preads_cons [Skip o]) end; [right; eexists; reflexivity|exact Hd|exact Re|eapply IHs; eassumption].
Qed.
End Decomp.
