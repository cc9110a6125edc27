(** C19: what is printed is read back. *)
From Coq Require Import String.
From Coq Require Import ZArith List Bool Lia.
From Verif Require Import Bytes BytesFacts Definitions DefinitionsFacts Bundle BundleFacts Ast TypeNames Pool Scope TypeCheck Printer Parser PrintSpec ParserFacts TextFacts PrintSteps PrintFacts.
Import ListNotations.
Open Scope nat_scope.

Section Print.
Variables (fl : float_text) (v : bool).
Notation ok := (levels_ok v false).
Notation SL := (shown_level v).

Lemma cat_all l : Forall (fun x => x <> None) l -> exists t, cat l = Some t.
Proof. induction 1 as [|[s|] l H _ [t IH]]; [now exists []| |congruence]. exists (s ++ t). cbn [cat]. now rewrite IH. Qed.
Lemma commas_all l : Forall (fun x => x <> None) l -> exists t, commas l = Some t.
Proof.
  induction l as [|x l IH]; intros H; [now exists []|]. inversion_clear H as [|? ? Hx Hl]. destruct (IH Hl) as [t Et]. destruct l as [|y l].
  - destruct x as [s|]; [now exists s|congruence].
  - apply (cat_all [x; Some (lit ", "); commas (y :: l)]). rewrite Et. repeat apply Forall_cons; [assumption|discriminate|discriminate|constructor].
Qed.
Lemma shown e : ok e = true -> forall parent d, show fl v e parent d <> None.
Proof.
  induction e as [n sp|c sp|es t sp IH|p parts sp IH|l t i sp IH|t x sp IH|l r sp IH1 IH2|c ts args sp IH|o f args sp IH1 IH2|x m sp IH|a i sp IH1 IH2|t args sp IH|x sp IH|es IH|x cases d sp IH1 IH2 IH3|t sp|c t f sp IH1 IH2 IH3|c a b sp IH1 IH2 IH3|c b sp IH1 IH2|l x b sp IH1 IH2|l r o sp IH1 IH2|x o sp IH|sp|sp|sp|sp] using expr_ind';
    cbn [levels_ok]; try discriminate; intros O parent dep; cbn [show]; try discriminate.
  Local Ltac all_some := match goal with |- cat ?l <> None => let E := fresh in destruct (cat_all l) as [? E]; [repeat apply Forall_cons; try apply Forall_nil; try discriminate | rewrite E; discriminate] end.
  - unand. destruct parent; all_some; auto.
  - unand. all_some; auto.
  - destruct (binop_of_name (short_name c)) as [o|] eqn:Eo.
    + destruct args as [|l [|r [|]]]; try discriminate. unand. inversion_clear IH as [|? ? Hl Hr]. inversion_clear Hr as [|? ? Hr' _]. destruct (needs_parens o parent); repeat all_some; auto.
    + destruct (unop_of_name (short_name c)) as [o|] eqn:Eu.
      * destruct args as [|a [|]]; try discriminate. unand. inversion_clear IH as [|? ? Ha ?]. all_some; auto.
      * destruct (hidden v (short_name c)).
        -- destruct args as [|a [|]]; try discriminate. inversion_clear IH as [|? ? Ha ?]. auto.
        -- unand. all_some; [destruct ts; discriminate|]. destruct (commas_all (map (fun x => show fl v x None 0) args)) as [t Et]; [|now rewrite Et].
           apply Forall_map. rewrite Forall_forall in *. intros a Ha. apply IH; [assumption|]. rewrite forallb_forall in *. auto.
  - unand. destruct (binop_of_name (short_name f)); [discriminate|]. destruct (unop_of_name (short_name f)); [discriminate|]. destruct (hidden v (short_name f)); [discriminate|].
    all_some; [auto|]. all_some. destruct (commas_all (map (fun x => show fl v x None 0) args)) as [t Et]; [|now rewrite Et].
    apply Forall_map. rewrite Forall_forall in *. intros a Ha. apply IH2; [assumption|]. rewrite forallb_forall in *. auto.
  - unand. all_some; auto.
  - unand. all_some; auto.
  - destruct t as [n [|]]; [discriminate|]. unand. all_some. destruct (commas_all (map (fun x => show fl v x None dep) args)) as [t Et]; [|now rewrite Et].
    apply Forall_map. rewrite Forall_forall in *. intros a Ha. apply IH; [assumption|]. rewrite forallb_forall in *. auto.
  - unand. all_some; auto.
Qed.
(** The text of an expression and how it is read. *)
Lemma text_read e : ok e = true -> exists t, show fl v e None 0 = Some t /\ parse_expr fl t = Some (denoted v None None e).
Proof.
  intros O. destruct (show fl v e None 0) as [t|] eqn:E; [|now destruct (shown e O None 0)]. exists t. split; [reflexivity|].
  destruct (shown_reads fl v e) as [R _]. unfold parse_expr.
  assert (P : Parses fl 0 (t ++ []) (PMatch (denoted v None None e) [])).
  { eapply reads_alone; try eassumption; try discriminate; [apply quiet_nil|intros k; apply stops_end|now split]. }
  rewrite app_nil_r in P. now rewrite P by lia.
Qed.
Lemma strict_weak e : levels_ok v true e = true -> ok e = true.
Proof.
  induction e as [n sp|c sp|es t sp IH|p parts sp IH|l t i sp IH|t x sp IH|l r sp IH1 IH2|c ts args sp IH|o f args sp IH1 IH2|x m sp IH|a i sp IH1 IH2|t args sp IH|x sp IH|es IH|x cases d sp IH1 IH2 IH3|t sp|c t f sp IH1 IH2 IH3|c a b sp IH1 IH2 IH3|c b sp IH1 IH2|l x b sp IH1 IH2|l r o sp IH1 IH2|x o sp IH|sp|sp|sp|sp] using expr_ind';
    cbn [levels_ok]; try discriminate; intros O; try assumption.
  Local Ltac again := unand; repeat (apply andb_true_intro; split); first [assumption | now apply Nat.leb_le | now apply negb_true_iff | auto | idtac].
  - again.
  - again.
  - destruct (binop_of_name (short_name c)) as [o|] eqn:Eo.
    + destruct args as [|l [|r [|]]]; try discriminate. inversion_clear IH as [|? ? Hl Hr]. inversion_clear Hr as [|? ? Hr' _]. again.
      apply Nat.leb_le. unfold right_least in *. destruct o; cbn [right_min level precedence Nat.sub] in *; lia.
    + destruct (unop_of_name (short_name c)) as [o|] eqn:Eu.
      * destruct args as [|a [|]]; try discriminate. inversion_clear IH as [|? ? Ha ?]. again.
      * destruct (hidden v (short_name c)).
        -- destruct args as [|a [|]]; try discriminate. inversion_clear IH as [|? ? Ha ?]. again.
        -- again. rewrite forallb_forall in *. rewrite Forall_forall in IH. auto.
  - again. rewrite forallb_forall in *. rewrite Forall_forall in IH2. auto.
  - again.
  - again.
  - destruct t as [n [|]]; [discriminate|]. again. rewrite forallb_forall in *. rewrite Forall_forall in IH. auto.
  - again.
Qed.
Lemma all_same args : (forall a, In a args -> same v a (denoted v None None a)) -> Forall2 (same v) args (map (denoted v None None) args).
Proof. induction args as [|a args IH]; intros H; [constructor|]. cbn [map]. constructor; [apply H; now left|]. apply IH. intros x Hx. apply H. now right. Qed.
Lemma strict_same e : levels_ok v true e = true -> forall parent, same v e (denoted v None parent e).
Proof.
  induction e as [n sp|c sp|es t sp IH|p parts sp IH|l t i sp IH|t x sp IH|l r sp IH1 IH2|c ts args sp IH|o f args sp IH1 IH2|x m sp IH|a i sp IH1 IH2|t args sp IH|x sp IH|es IH|x cases d sp IH1 IH2 IH3|t sp|c t f sp IH1 IH2 IH3|c a b sp IH1 IH2 IH3|c b sp IH1 IH2|l x b sp IH1 IH2|l r o sp IH1 IH2|x o sp IH|sp|sp|sp|sp] using expr_ind';
    cbn [levels_ok denoted finish]; try discriminate; intros O parent; unand; try (constructor; auto; fail).
  - destruct (binop_of_name (short_name c)) as [o|] eqn:Eo.
    + destruct args as [|l [|r [|]]]; try discriminate. inversion_clear IH as [|? ? Hl Hr]. inversion_clear Hr as [|? ? Hr' _]. unand. cbn [groups].
      rewrite pending_alone; [|unfold right_least in *; destruct (level o); [now left|right; lia]|now apply strict_weak].
      cbn [finish]. apply same_binary; auto.
    + destruct (unop_of_name (short_name c)) as [o|] eqn:Eu.
      * destruct args as [|a [|]]; try discriminate. inversion_clear IH as [|? ? Ha ?]. unand. apply same_unary; auto.
      * destruct (hidden v (short_name c)) eqn:Eh.
        -- destruct args as [|a [|]]; try discriminate. inversion_clear IH as [|? ? Ha ?]. apply same_hidden; auto.
        -- unand. apply same_call; [now repeat split|]. apply all_same. intros a Ha. rewrite forallb_forall in *. rewrite Forall_forall in IH. auto.
  - constructor; [auto|]. apply all_same. intros a Ha. rewrite forallb_forall in *. rewrite Forall_forall in IH2. auto.
  - destruct t as [n [|]]; [discriminate|]. unand. constructor. apply all_same. intros a Ha. rewrite forallb_forall in *. rewrite Forall_forall in IH. auto.
Qed.

(** Every expression whose operands are kept apart is read back. *)
Theorem printed_expression_reads_back_partial e : levels_ok v true e = true -> reads_back fl v e.
Proof.
  intros O. destruct (text_read e (strict_weak e O)) as (t & E1 & E2). exists t, (denoted v None None e). repeat split; try assumption. now apply strict_same.
Qed.

(** Operator trees. *)
Lemma tree_levels p o : needs_parens p (Some (PBinOp o)) = false -> left_min o <= level p /\ right_min o <= level p.
Proof. destruct o, p; vm_compute; intros H; try discriminate H; lia. Qed.
Lemma tree_shown e o : operator_tree e = true -> left_min o <= SL (Some (PBinOp o)) e /\ right_min o <= SL (Some (PBinOp o)) e.
Proof.
  assert (L : left_min o <= 10 /\ right_min o <= 10) by (destruct o; cbn; lia).
  destruct e; cbn [operator_tree shown_level]; try discriminate; intros H; try lia.
  destruct (binop_of_name (short_name c)) as [p|].
  - destruct (needs_parens p (Some (PBinOp o))) eqn:N; [lia|]. now apply tree_levels.
  - destruct (unop_of_name (short_name c)); [lia|discriminate].
Qed.
Lemma tree_ok e : operator_tree e = true -> ok e = true.
Proof.
  induction e as [n sp|c sp|es t sp IH|p parts sp IH|l t i sp IH|t x sp IH|l r sp IH1 IH2|c ts args sp IH|o f args sp IH1 IH2|x m sp IH|a i sp IH1 IH2|t args sp IH|x sp IH|es IH|x cases d sp IH1 IH2 IH3|t sp|c t f sp IH1 IH2 IH3|c a b sp IH1 IH2 IH3|c b sp IH1 IH2|l x b sp IH1 IH2|l r o sp IH1 IH2|x o sp IH|sp|sp|sp|sp] using expr_ind';
    cbn [operator_tree levels_ok]; try discriminate; intros O; try assumption.
  destruct (binop_of_name (short_name c)) as [o|] eqn:Eo.
  - destruct args as [|l [|r [|]]]; try discriminate. inversion_clear IH as [|? ? Hl Hr]. inversion_clear Hr as [|? ? Hr' _]. unand. unfold right_least.
    destruct (tree_shown l o) as [L1 _]; [assumption|]. destruct (tree_shown r o) as [_ L2]; [assumption|]. again.
  - destruct (unop_of_name (short_name c)) as [o|] eqn:Eu; [|discriminate]. destruct args as [|a [|]]; try discriminate. inversion_clear IH as [|? ? Ha ?]. again.
    apply Nat.leb_le. destruct a; cbn [operator_tree shown_level] in *; try discriminate; try lia. destruct (binop_of_name (short_name c0)); [cbn; lia|]. destruct (unop_of_name (short_name c0)); [lia|discriminate].
Qed.
(** The operands and operators of the text stay in their order. *)
Lemma tree_tokens e : operator_tree e = true -> forall pending parent,
  tokens (denoted v pending parent e) = match pending with Some (o, x) => tokens x ++ [TBinary o] | None => [] end ++ tokens e.
Proof.
  induction e as [n sp|c sp|es t sp IH|p parts sp IH|l t i sp IH|t x sp IH|l r sp IH1 IH2|c ts args sp IH|o f args sp IH1 IH2|x m sp IH|a i sp IH1 IH2|t args sp IH|x sp IH|es IH|x cases d sp IH1 IH2 IH3|t sp|c t f sp IH1 IH2 IH3|c a b sp IH1 IH2 IH3|c b sp IH1 IH2|l x b sp IH1 IH2|l r o sp IH1 IH2|x o sp IH|sp|sp|sp|sp] using expr_ind';
    cbn [operator_tree]; try discriminate; intros O pending parent.
  - destruct pending as [[q y]|]; cbn [denoted finish tokens]; [now rewrite <- app_assoc|reflexivity].
  - destruct pending as [[q y]|]; cbn [denoted finish tokens]; [now rewrite <- app_assoc|reflexivity].
  - cbn [denoted]. destruct (binop_of_name (short_name c)) as [o|] eqn:Eo.
    + destruct args as [|l [|r [|]]]; try discriminate. inversion_clear IH as [|? ? Hl Hr]. inversion_clear Hr as [|? ? Hr' _]. unand. cbn [tokens]. rewrite Eo.
      destruct (groups pending o parent).
      * rewrite Hr', Hl by assumption. now rewrite <- !app_assoc.
      * destruct pending as [[q y]|]; cbn [finish tokens]; rewrite Hr', Hl by assumption; now rewrite <- !app_assoc.
    + destruct (unop_of_name (short_name c)) as [o|] eqn:Eu; [|discriminate]. destruct args as [|a [|]]; try discriminate. inversion_clear IH as [|? ? Ha ?]. cbn [tokens]. rewrite Eu.
      destruct pending as [[q y]|]; cbn [finish tokens]; rewrite Ha by assumption; [now rewrite <- app_assoc|reflexivity].
Qed.
Theorem operator_tree_text_keeps_order e : operator_tree e = true ->
  exists t e', show fl v e None 0 = Some t /\ parse_expr fl t = Some e' /\ tokens e' = tokens e.
Proof.
  intros H. destruct (text_read e (tree_ok e H)) as (t & E1 & E2). exists t, (denoted v None None e). repeat split; try assumption. now rewrite tree_tokens.
Qed.

(** Number of operators. *)
Fixpoint size (e : sexpr) : nat :=
  match e with
  | ECall _ _ [l; r] _ => S (size l + size r)
  | ECall _ _ [a] _ => S (size a)
  | EBinOp l r _ _ => S (size l + size r)
  | EUnOp a _ _ => S (size a)
  | _ => 0
  end.
Lemma same_size e : operator_tree e = true -> forall e', same v e e' -> size e' = size e.
Proof.
  induction e as [n sp|c sp|es t sp IH|p parts sp IH|l t i sp IH|t x sp IH|l r sp IH1 IH2|c ts args sp IH|o f args sp IH1 IH2|x m sp IH|a i sp IH1 IH2|t args sp IH|x sp IH|es IH|x cases d sp IH1 IH2 IH3|t sp|c t f sp IH1 IH2 IH3|c a b sp IH1 IH2 IH3|c b sp IH1 IH2|l x b sp IH1 IH2|l r o sp IH1 IH2|x o sp IH|sp|sp|sp|sp] using expr_ind';
    cbn [operator_tree]; try discriminate; intros O e' S.
  - now inversion S.
  - now inversion S.
  - destruct (binop_of_name (short_name c)) as [o|] eqn:Eo.
    + destruct args as [|l [|r [|]]]; try discriminate. inversion_clear IH as [|? ? Hl Hr]. inversion_clear Hr as [|? ? Hr' _]. unand.
      inversion S as [| | | | |c' ts' l' r' s' o' l2 r2 s2 E S1 S2| | |c' ts' args' s' args2 s2 [P _] F| | | | | | |]; subst; [|congruence]. cbn [size]. now rewrite (Hl H l2 S1), (Hr' H0 r2 S2).
    + destruct (unop_of_name (short_name c)) as [o|] eqn:Eu; [|discriminate]. destruct args as [|a [|]]; try discriminate. inversion_clear IH as [|? ? Ha ?].
      inversion S as [| | | | | |c' ts' a' s' o' a2 s2 E1 E2 S1|c' ts' a' s' a2 E1 E2 E3 S1|c' ts' args' s' args2 s2 [P [P2 _]] F| | | | | | |]; subst; try congruence. cbn [size]. now rewrite (Ha O a2 S1).
Qed.
(** What stands to the right of an operator is at most what follows in the text. *)
Lemma right_size e : operator_tree e = true -> forall o x parent,
  exists l r p, denoted v (Some (o, x)) parent e = mk_bin p l r /\ size r <= size e /\
    (forall q, operation e = Some q -> groups (Some (o, x)) q parent = true -> size r < size e).
Proof.
  assert (D : forall e, operator_tree e = true -> forall pending parent, size (denoted v pending parent e) = match pending with Some (_, x) => S (size x) | None => 0 end + size e).
  { clear. induction e as [n sp|c sp|es t sp IH|p parts sp IH|l t i sp IH|t x sp IH|l r sp IH1 IH2|c ts args sp IH|o f args sp IH1 IH2|x m sp IH|a i sp IH1 IH2|t args sp IH|x sp IH|es IH|x cases d sp IH1 IH2 IH3|t sp|c t f sp IH1 IH2 IH3|c a b sp IH1 IH2 IH3|c b sp IH1 IH2|l x b sp IH1 IH2|l r o sp IH1 IH2|x o sp IH|sp|sp|sp|sp] using expr_ind';
    cbn [operator_tree]; try discriminate; intros O pending parent.
    - destruct pending as [[q y]|]; cbn [denoted finish size]; lia.
    - destruct pending as [[q y]|]; cbn [denoted finish size]; lia.
    - cbn [denoted]. destruct (binop_of_name (short_name c)) as [o|] eqn:Eo.
      + destruct args as [|l [|r [|]]]; try discriminate. inversion_clear IH as [|? ? Hl Hr]. inversion_clear Hr as [|? ? Hr' _]. unand. cbn [size].
        destruct (groups pending o parent).
        * rewrite Hr', Hl by assumption. lia.
        * destruct pending as [[q y]|]; cbn [finish size]; rewrite Hr', Hl by assumption; lia.
      + destruct (unop_of_name (short_name c)) as [o|] eqn:Eu; [|discriminate]. destruct args as [|a [|]]; try discriminate. inversion_clear IH as [|? ? Ha ?]. cbn [size].
        destruct pending as [[q y]|]; cbn [finish size]; rewrite Ha by assumption; lia. }
  induction e as [n sp|c sp|es t sp IH|p parts sp IH|l t i sp IH|t x sp IH|l r sp IH1 IH2|c ts args sp IH|o f args sp IH1 IH2|x m sp IH|a i sp IH1 IH2|t args sp IH|x sp IH|es IH|x cases d sp IH1 IH2 IH3|t sp|c t f sp IH1 IH2 IH3|c a b sp IH1 IH2 IH3|c b sp IH1 IH2|l x b sp IH1 IH2|l r o sp IH1 IH2|x o sp IH|sp|sp|sp|sp] using expr_ind';
    intros O p0 y parent; pose proof O as O'; cbn [operator_tree] in O; try discriminate O.
  - exists y, (EIdent (N := source_ast) n span0), p0. split; [reflexivity|]. split; [cbn; lia|]. intros q Hq. discriminate Hq.
  - exists y, (EConstant (N := source_ast) c span0), p0. split; [reflexivity|]. split; [cbn; lia|]. intros q Hq. discriminate Hq.
  - cbn [operation denoted]. destruct (binop_of_name (short_name c)) as [o|] eqn:Eo.
    + destruct args as [|l [|r [|]]]; try discriminate. inversion_clear IH as [|? ? Hl Hr]. inversion_clear Hr as [|? ? Hr' _]. unand.
      destruct (groups (Some (p0, y)) o parent) eqn:G.
      * destruct (Hr' H0 o (denoted v (Some (p0, y)) (Some (PBinOp o)) l) (Some (PBinOp o))) as (l2 & r2 & q & E & L & _). exists l2, r2, q. split; [exact E|]. cbn [size]. split; [lia|]. intros; lia.
      * exists y, (denoted v (Some (o, denoted v None (Some (PBinOp o)) l)) (Some (PBinOp o)) r), p0. split; [reflexivity|].
        rewrite !D by assumption. cbn [size]. split; [lia|]. intros q [= <-]. congruence.
    + destruct (unop_of_name (short_name c)) as [o|] eqn:Eu; [|discriminate]. destruct args as [|a [|]]; try discriminate.
      eexists y, _, p0. split; [reflexivity|]. cbn [size]. rewrite D by assumption. split; [lia|]. discriminate.
Qed.
Lemma level_below o : (level o < 10)%nat.
Proof. unfold level. destruct o; cbn; lia. Qed.
Lemma grouped_operand o r x : operator_tree r = true ->
  match operation r with Some p => (precedence p =? precedence o) && associative o | None => false end =
  match operation r with Some p => groups (Some (o, x)) p (Some (PBinOp o)) | None => false end.
Proof.
  intros _. destruct (operation r) as [p|]; [|reflexivity]. cbn [groups needs_parens]. destruct o, p; reflexivity.
Qed.
Lemma same_regroups e : operator_tree e = true -> forall parent, same v e (denoted v None parent e) <-> regroups e = false.
Proof.
  induction e as [n sp|c sp|es t sp IH|p parts sp IH|l t i sp IH|t x sp IH|l r sp IH1 IH2|c ts args sp IH|o f args sp IH1 IH2|x m sp IH|a i sp IH1 IH2|t args sp IH|x sp IH|es IH|x cases d sp IH1 IH2 IH3|t sp|c t f sp IH1 IH2 IH3|c a b sp IH1 IH2 IH3|c b sp IH1 IH2|l x b sp IH1 IH2|l r o sp IH1 IH2|x o sp IH|sp|sp|sp|sp] using expr_ind';
    cbn [operator_tree]; try discriminate; intros O parent.
  - split; [reflexivity|]. intros _. constructor.
  - split; [reflexivity|]. intros _. constructor.
  - cbn [denoted regroups]. destruct (binop_of_name (short_name c)) as [o|] eqn:Eo.
    + destruct args as [|l [|r [|]]]; try discriminate. inversion_clear IH as [|? ? Hl Hr]. inversion_clear Hr as [|? ? Hr' _]. unand. cbn [groups finish].
      set (x := denoted v None (Some (PBinOp o)) l). rewrite (grouped_operand o r x) by assumption.
      specialize (Hl H (Some (PBinOp o))). specialize (Hr' H0 (Some (PBinOp o))).
      destruct (match operation r with Some p => groups (Some (o, x)) p (Some (PBinOp o)) | None => false end) eqn:G.
      * split; [|discriminate]. intros S. exfalso. destruct (operation r) as [p|] eqn:Ep; [|discriminate].
        destruct (right_size r H0 o x (Some (PBinOp o))) as (l2 & r2 & q & E & _ & L). specialize (L p Ep G). rewrite E in S.
        inversion S as [| | | | |c' ts' l' r' s' o' l3 r3 s2 E' S1 S2| | | | | | | | | |]; subst. apply same_size in S2; [|assumption]. lia.
      * rewrite pending_alone.
        -- fold x in Hl. cbn [orb]. rewrite orb_false_iff, <- Hl, <- Hr'. split.
           ++ intros S. inversion S; subst. now split.
           ++ intros [S1 S2]. now apply same_binary.
        -- destruct (Nat.eq_dec (SL (Some (PBinOp o)) r) (level o)) as [E|]; [|now right]. left. clear - G E H0. destruct r; cbn [operator_tree shown_level operation] in *; try discriminate H0; try (pose proof (level_below o); lia).
           destruct (binop_of_name (short_name c)) as [p|]; [|destruct (unop_of_name (short_name c)); [pose proof (level_below o); lia|discriminate]].
           unfold groups in G. destruct (needs_parens p (Some (PBinOp o))); [pose proof (level_below o); lia|]. rewrite <- E, Nat.eqb_refl in G. rewrite <- E. destruct (level p); [reflexivity|discriminate].
        -- now apply tree_ok.
    + destruct (unop_of_name (short_name c)) as [o|] eqn:Eu; [|discriminate]. destruct args as [|a [|]]; try discriminate. inversion_clear IH as [|? ? Ha ?]. cbn [finish].
      rewrite <- (Ha O (Some PUnOp)). split.
      * intros S. inversion S; subst; [assumption|congruence].
      * intros S. now apply same_unary.
Qed.
(** An operator tree is read back exactly if no right operand has the precedence of
    an operator above it that the printer takes for associative. *)
Theorem operator_tree_reads_back_iff e : operator_tree e = true -> (reads_back fl v e <-> regroups e = false).
Proof.
  intros H. destruct (text_read e (tree_ok e H)) as (t & E1 & E2). rewrite <- (same_regroups e H None). split.
  - intros (t' & e' & F1 & F2 & S). congruence.
  - intros S. exists t, (denoted v None None e). now repeat split.
Qed.
End Print.
Print Assumptions printed_expression_reads_back_partial.
Print Assumptions operator_tree_text_keeps_order.
Print Assumptions operator_tree_reads_back_iff.

(** Building blocks for the cases below. *)
Definition name (s : string) : sexpr := EIdent (N := source_ast) (lit s) span0.
Definition calls (f : str) (args : list sexpr) : sexpr := ECall (N := source_ast) f [] args span0.
Definition op2 (o : binop) (x y : sexpr) : sexpr := calls (binop_name o ++ lit ";Int32Int32;Int32") [x; y].
Definition op1 (o : unop) (x : sexpr) : sexpr := calls (unop_name o ++ lit ";Int32;Int32") [x].
Definition text_of (e : sexpr) : option str := show (FloatText (fun _ => []) (fun _ => []) (fun _ => None) (fun _ => None)) false e None 0.

(** The hypotheses are met: operators of many levels, calls, methods, casts and a
    conditional in one expression. *)
Definition busy : sexpr :=
  EConditional (N := source_ast)
    (op2 LogicAnd (op2 Less (op2 BSubtract (op2 BAdd (name "a") (name "b")) (op2 Multiply (op1 Neg (name "c")) (EConstant (N := source_ast) (CI32 7) span0)))
                            (EMethodCall (N := source_ast) (name "obj") (lit "Size;Int32") [name "a"; op2 BOr (name "x") (name "y")] span0))
                  (op1 LogicNot (op2 LogicOr (name "p") (op2 Equal (name "q") (ENull (N := source_ast) span0)))))
    (ECast (N := source_ast) (TypeName (lit "Bag") None) (EMember (N := source_ast) (EThis (N := source_ast) span0) (lit "bag") span0) span0)
    (ENew (N := source_ast) (TypeName (lit "Bag") None) [EConstant (N := source_ast) (CString LString (lit "it's ""here""")) span0; EArrayElem (N := source_ast) (name "xs") (op2 BSubtract (name "n") (EConstant (N := source_ast) (CI32 1) span0)) span0] span0)
    span0.
Example busy_text : text_of busy = Some (lit "a + b - -c * 7 < obj.Size(a, x | y) && !(p || q == null) ? this.bag as Bag : new Bag(""it\'s \""here\"""", xs[n - 1])").
Proof. vm_compute. reflexivity. Qed.
Example busy_ok : levels_ok false true busy = true.
Proof. vm_compute. reflexivity. Qed.
Example busy_read_back fl : reads_back fl false busy.
Proof. apply printed_expression_reads_back_partial. exact busy_ok. Qed.
(** The parentheses that are needed are printed: (a - b) * c and a - (b * c). *)
Example parens_text :
  text_of (op2 Multiply (op2 BSubtract (name "a") (name "b")) (name "c")) = Some (lit "(a - b) * c") /\
  text_of (op2 BSubtract (name "a") (op2 Multiply (name "b") (name "c"))) = Some (lit "a - b * c").
Proof. vm_compute. split; reflexivity. Qed.
Example tree_both :
  operator_tree (op2 BSubtract (op2 BSubtract (name "a") (name "b")) (name "c")) = true /\
  regroups (op2 BSubtract (op2 BSubtract (name "a") (name "b")) (name "c")) = false /\
  operator_tree (op2 BSubtract (name "a") (op2 BSubtract (name "b") (name "c"))) = true /\
  regroups (op2 BSubtract (name "a") (op2 BSubtract (name "b") (name "c"))) = true.
Proof. vm_compute. repeat split. Qed.

(** The full statement does not hold: a - (b - c) is printed as a - b - c, and has
    another value then. *)
Definition minus_minus : sexpr := op2 BSubtract (name "a") (op2 BSubtract (name "b") (name "c")).
Theorem printed_expression_reads_back_refuted fl v :
  exists e, operator_tree e = true /\ ~ reads_back fl v e /\
    exists t e' env, show fl v e None 0 = Some t /\ parse_expr fl t = Some e' /\ int_value env e <> int_value env e' /\
      int_value env e <> None /\ int_value env e' <> None.
Proof.
  exists minus_minus. split; [reflexivity|]. split.
  - rewrite operator_tree_reads_back_iff by reflexivity. discriminate.
  - eexists _, _, (fun _ => 1%Z). split; [vm_compute; reflexivity|]. split; [vm_compute; reflexivity|]. vm_compute. repeat split; discriminate.
Qed.
Print Assumptions printed_expression_reads_back_refuted.

Lemma not_back fl v e t e' : show fl v e None 0 = Some t -> parse_expr fl t = Some e' -> ~ same v e e' -> ~ reads_back fl v e.
Proof. intros E1 E2 N (t2 & e2 & F1 & F2 & S). congruence. Qed.
Lemma not_parsed fl v e t : show fl v e None 0 = Some t -> parse_expr fl t = None -> ~ reads_back fl v e.
Proof. intros E1 E2 (t2 & e2 & F1 & F2 & S). congruence. Qed.
(** Other expressions that are not read back, each for a reason of its own. *)
Theorem printed_constants_refuted fl v :
  (* -5 is read as the negation of 5 *)
  ~ reads_back fl v (EConstant (N := source_ast) (CI32 (-5)) span0) /\
  (* a Uint64 is printed with the suffix of a Uint32 *)
  ~ reads_back fl v (EConstant (N := source_ast) (CU64 5) span0) /\
  (* and is then no longer accepted if it is too large for one *)
  ~ reads_back fl v (EConstant (N := source_ast) (CU64 4294967296) span0).
Proof.
  repeat split.
  - eapply not_back; [vm_compute; reflexivity|vm_compute; reflexivity|]. intros S. inversion S.
  - eapply not_back; [vm_compute; reflexivity|vm_compute; reflexivity|]. intros S. inversion S.
  - eapply not_parsed; [vm_compute; reflexivity|vm_compute; reflexivity].
Qed.
Theorem printed_receivers_refuted fl v :
  (* (-a).F() is printed as -a.F() *)
  ~ reads_back fl v (EMethodCall (N := source_ast) (op1 Neg (name "a")) (lit "F") [] span0) /\
  (* (a + b).m is printed as a + b.m *)
  ~ reads_back fl v (EMember (N := source_ast) (op2 BAdd (name "a") (name "b")) (lit "m") span0) /\
  (* (a + b)[i] is printed as a + b[i] *)
  ~ reads_back fl v (EArrayElem (N := source_ast) (op2 BAdd (name "a") (name "b")) (name "i") span0) /\
  (* (a + b) as T is printed as a + b as T *)
  ~ reads_back fl v (ECast (N := source_ast) (TypeName (lit "T") None) (op2 BAdd (name "a") (name "b")) span0) /\
  (* (c ? x : y) + z is printed as c ? x : y + z *)
  ~ reads_back fl v (op2 BAdd (EConditional (N := source_ast) (name "c") (name "x") (name "y") span0) (name "z")).
Proof.
  repeat split; (eapply not_back; [vm_compute; reflexivity|vm_compute; reflexivity|]; intros S; inversion S; subst;
    repeat match goal with H : same _ _ _ |- _ => solve [inversion H; subst; try discriminate; repeat match goal with H : same _ _ _ |- _ => inversion H; clear H; subst; try discriminate end] end).
Qed.
(** Leaving out a conversion loses parentheses: WeakRefToRef(a - b) * c. *)
Theorem printed_conversion_refuted fl :
  ~ reads_back fl false (op2 Multiply (calls (lit "WeakRefToRef") [op2 BSubtract (name "a") (name "b")]) (name "c")).
Proof.
  eapply not_back; [vm_compute; reflexivity|vm_compute; reflexivity|]. intros S. inversion S; subst. match goal with H : same _ (name "c") _ |- _ => inversion H end.
Qed.
(** Two comparisons as arguments are read as one generic call: f(a < b, c > (d || e)). *)
Theorem printed_comparisons_refuted fl v :
  ~ reads_back fl v (calls (lit "f") [op2 Less (name "a") (name "b"); op2 Greater (name "c") (op2 LogicOr (name "d") (name "e"))]).
Proof.
  eapply not_back; [vm_compute; reflexivity|vm_compute; reflexivity|]. intros S. inversion S; subst. match goal with H : Forall2 _ _ _ |- _ => inversion H; subst end.
  match goal with H : Forall2 _ [_] [] |- _ => inversion H end.
Qed.
Print Assumptions printed_constants_refuted.
Print Assumptions printed_receivers_refuted.
Print Assumptions printed_conversion_refuted.
Print Assumptions printed_comparisons_refuted.
