(** Decompiling what was assembled: statements (proofs). *)
From Coq Require Import String.
From Coq Require Import ZArith List Bool Lia.
From Verif Require Import Bytes BytesFacts Bytecode BytecodeFacts Definitions Bundle BundleFacts Ast TypeNames Pool Scope TypeCheck PartsSpec Cursor CursorSpec CursorFacts
  Decompiler Assembler AssemblerFacts LabelFacts Semantics BodySpec Machine ShapeFacts MachineFacts DefinedFacts RecoverSpec NormalFacts ReadFacts RecoverFacts.
Import ListNotations.
Open Scope Z_scope.

(** * Gotos in statements *)
Lemma last_map_none f l : Forall (fun s => f s = None) l -> last_map f l = None.
Proof. induction 1 as [|x l H _ IH]; [reflexivity|]. cbn [last_map]. fold (last_map f). rewrite IH, H. reflexivity. Qed.
Lemma last_map_end f l x t y : Forall (fun s => f s = None) l -> f x = Some (t, y) -> last_map f (l ++ [x]) = Some (t, l ++ [y]).
Proof. intros F E. induction F as [|z l H _ IH]; cbn [app last_map]; fold (last_map f); [rewrite E; reflexivity|rewrite IH; reflexivity]. Qed.

Lemma clean_app l m : clean (l ++ m) = clean l ++ clean m.
Proof. induction l as [|x l IH]; [reflexivity|]. cbn [app clean]. destruct (blank x); [exact IH|]. rewrite IH. reflexivity. Qed.
Lemma clean_if c t f sp : clean1 (EIf c t f sp) = EIf (N := source_ast) c (clean t) (match f with Some f => Some (clean f) | None => None end) sp.
Proof. destruct f; reflexivity. Qed.
Lemma clean_while c b sp : clean1 (EWhile c b sp) = EWhile (N := source_ast) c (clean b) sp.
Proof. reflexivity. Qed.
Lemma last_ends_app l x : last_ends (l ++ [x]) = ends_path x.
Proof. unfold last_ends. rewrite rev_app_distr. reflexivity. Qed.
Lemma stops_app l m : m <> [] -> stops (l ++ m) = stops m.
Proof. intros H. unfold stops. rewrite rev_app_distr. destruct (rev m) eqn:E; [|reflexivity]. destruct H. rewrite <- (rev_involutive m), E. reflexivity. Qed.
Lemma last_ends_app_list l m : m <> [] -> last_ends (l ++ m) = last_ends m.
Proof. intros H. unfold last_ends. rewrite rev_app_distr. destruct (rev m) eqn:E; [|reflexivity]. destruct H. rewrite <- (rev_involutive m), E. reflexivity. Qed.

(** * Jumps *)
Lemma total_pos {L} (q : code L) : sized q -> q <> [] -> 0 < total q.
Proof. intros S H. destruct q as [|i q]; [congruence|]. inversion S; subst. cbn [total]. pose proof (total_nonneg q). lia. Qed.
Lemma sized_parts {L} (a b : code L) : sized (a ++ b) -> sized a /\ sized b.
Proof. apply Forall_app. Qed.
Lemma offset_of o a d : in_s 16 o -> 0 <= a -> 0 <= d < 32768 -> a < 32768 -> absolute o a = d -> o = d - a.
Proof.
  unfold in_s, absolute, wrap_u. change (2 ^ 16) with 65536. change (2 ^ (16 - 1)) with 32768. intros H A D L E.
  Z.div_mod_to_equations. lia.
Qed.
Section Jumps.
Variable place : nat -> Z.
Lemma target_place c : forall a q l, res place c a q -> In (Target l) c -> a <= place l <= a + total c.
Proof.
  induction c as [|i c IH]; intros a q l R I; [contradiction|]. pose proof (total_nonneg c). pose proof (instr_size_range i).
  inversion R as [|l0 c0 a0 q0 E R'|i0 j c0 a0 q0 T M F R']; subst; cbn [total].
  - rewrite target_size. destruct I as [[= ->]|I]; [lia|]. specialize (IH _ _ _ R' I). lia.
  - destruct I as [->|I]; [discriminate T|]. specialize (IH _ _ _ R' I). lia.
Qed.
Lemma no_jump_to x c : forall a q, res place c a q -> 0 <= a -> a + total c < 65536 -> (forall l, In (Jump l) c -> place l <> x) ->
  existsb (jumps_to x) (code_iter a q) = false.
Proof.
  induction c as [|i c IH]; intros a q R A L H; [inversion R; reflexivity|].
  pose proof (total_nonneg c). pose proof (instr_size_range i). cbn [total] in L.
  inversion R as [|l0 c0 a0 q0 E R'|i0 j c0 a0 q0 T M F R']; subst.
  - rewrite target_size in L. apply (IH _ _ R'); [lia|lia|]. intros l I. apply H. right. exact I.
  - cbn [code_iter existsb]. apply orb_false_iff. rewrite (resolved_size _ _ M), wrap_u_id by (unfold in_u; change (2 ^ 16) with 65536; lia). split.
    + unfold jumps_to. cbn [fst snd]. destruct j; try reflexivity. destruct i; try discriminate M. cbn [locs] in F.
      inversion F as [|? ? ? ? [F1 F2] _]; subst. apply Z.eqb_neq. rewrite F2. apply H. left. reflexivity.
    + apply (IH _ _ R'); [lia|lia|]. intros l I. apply H. right. exact I.
Qed.
Lemma jump_to x c1 c2 l q a : res place (c1 ++ Jump l :: c2) a q -> 0 <= a -> a + total (c1 ++ Jump l :: c2) < 65536 -> place l = x ->
  existsb (jumps_to x) (code_iter a q) = true.
Proof.
  revert a q. induction c1 as [|i c1 IH]; intros a q R A L H; cbn [app total] in *.
  - inversion R as [|l0 c0 a0 q0 E R'|i0 j c0 a0 q0 T M F R']; subst. destruct j; try discriminate M.
    inversion F as [|? ? ? ? [F1 F2] _]; subst. cbn [code_iter existsb]. unfold jumps_to at 1. cbn [fst snd]. rewrite F2, Z.eqb_refl. reflexivity.
  - pose proof (total_nonneg (c1 ++ Jump l :: c2)). pose proof (instr_size_range i).
    inversion R as [|l0 c0 a0 q0 E R'|i0 j c0 a0 q0 T M F R']; subst.
    + rewrite target_size in L. apply (IH _ _ R'); [lia|lia|reflexivity].
    + cbn [code_iter existsb]. rewrite (resolved_size _ _ M), wrap_u_id by (unfold in_u; change (2 ^ 16) with 65536; lia).
      rewrite (IH _ _ R') by (try lia; reflexivity). apply orb_true_r.
Qed.
End Jumps.

Section Flow.
Variables (s : scope) (p : pool) (this : definition) (place : nat -> Z).
Notation rec n := (consume_with p this n).
Notation res := (res place).
Notation reads := (reads p this).

(** * Reading statements *)
Definition room (c : code Z) : Prop := sized c /\ total c < 32768.
Lemma room_fits c : room c -> fits c. Proof. intros [A B]. split; [exact A|lia]. Qed.
Definition stmt (b : option block) (a : Z) (q : code Z) (e : sexpr) : Prop :=
  exists N, forall n, (N <= n)%nat -> forall pre post, total pre = a -> room (pre ++ q ++ post) ->
    rec n None b (cur pre (q ++ post)) = Done (e, cur (pre ++ q) post).
Inductive path (b : option block) : Z -> code Z -> list sexpr -> Prop :=
| p_nil a : path b a [] []
| p_last a q e : q <> [] -> stmt b a q e -> path b a q [e]
| p_cons a q e q' l : q <> [] -> stmt b a q e -> ends_path e = false -> path b (a + total q) q' l -> path b a (q ++ q') (e :: l).
Lemma path_app b a q l : path b a q l -> last_ends l = false -> forall q' l', path b (a + total q) q' l' -> path b a (q ++ q') (l ++ l').
Proof.
  induction 1 as [a|a q e Q S|a q e q1 l Q S E P IH]; intros H q' l' P'.
  - cbn [total] in P'. rewrite Z.add_0_r in P'. exact P'.
  - cbn [app]. apply p_cons; assumption.
  - rewrite <- app_assoc. cbn [app]. apply p_cons; [assumption|assumption|assumption|]. apply IH.
    + destruct l as [|x l]; [reflexivity|]. change (e :: x :: l) with ([e] ++ x :: l) in H. rewrite last_ends_app_list in H by discriminate. exact H.
    + rewrite total_app, Z.add_assoc in P'. exact P'.
Qed.
Lemma stmt_of_reads b a q e : reads None q e -> stmt b a q e.
Proof. intros [N H]. exists N. intros n L pre post _ [_ T]. apply H; [exact L|lia]. Qed.
Definition head_ends (acc : list sexpr) : bool := match acc with e :: _ => ends_path e | [] => false end.
Lemma path_loop b a q l : path b a q l -> exists N, forall n m, (N <= n)%nat -> forall pre post acc target, total pre = a -> room (pre ++ q ++ post) ->
  a + total q <= target -> head_ends acc = false ->
  consume_path_loop (rec n) (length l + m) target b acc (cur pre (q ++ post)) =
  consume_path_loop (rec n) m target b (rev l ++ acc) (cur (pre ++ q) post).
Proof.
  induction 1 as [a|a q e Q [N S]|a q e q1 l Q [N S] E P IH].
  - exists O. intros n m _ pre post acc target _ _ _ _. cbn. rewrite app_nil_r. reflexivity.
  - exists N. intros n m L pre post acc target A R T Ac. cbn [length Nat.add consume_path_loop rev app].
    destruct R as [R1 R2]. assert (0 < total q) by (apply total_pos; [|exact Q]; apply sized_parts in R1; destruct R1 as [_ R1]; apply sized_parts in R1; apply R1).
    assert (R3 : total (pre ++ q ++ post) < 65536) by lia. rewrite (xbind_done _ _ _ _ _ (xpos_cur _ _ R3)). cbv beta. fold (head_ends acc). rewrite Ac.
    destruct (Z.leb_spec target (total pre)); [lia|]. cbn [orb]. rewrite (S n L _ _ A (conj R1 R2)). reflexivity.
  - destruct IH as [M IH]. exists (N + M)%nat. intros n m L pre post acc target A R T Ac. cbn [length Nat.add consume_path_loop rev app].
    rewrite total_app in T. rewrite <- !app_assoc in *.
    pose proof R as [R1 R2]. assert (0 < total q) by (apply total_pos; [|exact Q]; apply sized_parts in R1; destruct R1 as [_ R1]; apply sized_parts in R1; apply R1).
    assert (R3 : total (pre ++ q ++ q1 ++ post) < 65536) by lia. rewrite (xbind_done _ _ _ _ _ (xpos_cur _ _ R3)). cbv beta. fold (head_ends acc). rewrite Ac. pose proof (total_nonneg q1).
    destruct (Z.leb_spec target (total pre)); [lia|]. cbn [orb]. rewrite (S n ltac:(lia) _ _ A R).
    rewrite IH; [|lia|rewrite total_app; lia|rewrite <- app_assoc; exact R|lia|exact E]. rewrite <- !app_assoc. reflexivity.
Qed.
Lemma path_done b a q l : path b a q l -> exists N, forall n f, (N <= n)%nat -> (N <= f)%nat -> forall target pre post, total pre = a -> room (pre ++ q ++ post) ->
  a + total q <= target -> last_ends l = true \/ a + total q = target ->
  consume_path (rec n) f target b (cur pre (q ++ post)) = Done (l, cur (pre ++ q) post).
Proof.
  intros P. destruct (path_loop _ _ _ _ P) as [N H]. exists (S (N + length l)). intros n f Ln Lf target pre post A R T E. unfold consume_path.
  replace f with (length l + S (f - S (length l)))%nat by lia.
  rewrite H by (try assumption; try reflexivity; lia). cbn [consume_path_loop]. destruct R as [R1 R2].
  assert (R3 : total ((pre ++ q) ++ post) < 65536) by (rewrite <- app_assoc; lia). rewrite (xbind_done _ _ _ _ _ (xpos_cur _ _ R3)). cbv beta. rewrite app_nil_r.
  assert (X : (target <=? total (pre ++ q)) || (match rev l with [] => false | e :: _ => ends_path e end) = true).
  { apply orb_true_iff. destruct E as [E|E]; [right; exact E|left; apply Z.leb_le; rewrite total_app; lia]. }
  rewrite X, rev_involutive. reflexivity.
Qed.

(** * Conditionals and loops *)
Lemma jif_step n b pre o rest : total (pre ++ JumpIfFalse o :: rest) < 65536 -> 0 <= o ->
  rec (S n) None b (cur pre (JumpIfFalse o :: rest)) = consume_conditional_jump (rec n) n (total pre) o b (cur (pre ++ [JumpIfFalse o]) rest).
Proof. intros T O. popped T. destruct (Z.ltb_spec o 0); [lia|]. reflexivity. Qed.
Lemma abs_at o a : 0 <= a + o < 65536 -> absolute o a = a + o.
Proof. intros H. unfold absolute. apply wrap_u_id. unfold in_u. change (2 ^ 16) with 65536. lia. Qed.

(** The parts of a conditional: condition, then-part, code that is not read. *)
Lemma if_step b a o qc c qt lt qd k : reads None qc c -> path b (a + instr_size (JumpIfFalse o) + total qc) qt lt ->
  o = instr_size (JumpIfFalse o) + total qc + total qt + total qd ->
  last_ends lt = true \/ qd = [] ->
  existsb (jumps_to a) (code_iter a (JumpIfFalse o :: qc ++ qt ++ qd)) = false ->
  match resolve_jump lt with
  | None => forall x, k x = xret (EIf (N := source_ast) c lt None span0)
  | Some (j, lt') => forall x, k x = (fun cu => xbind (consume_path (rec x) x j b) (fun el => xret (EIf (N := source_ast) c lt' (Some el) span0)) cu)
  end ->
  exists N, forall n, (N <= n)%nat -> forall pre post, total pre = a -> room (pre ++ (JumpIfFalse o :: qc ++ qt ++ qd) ++ post) ->
    rec (S n) None b (cur pre ((JumpIfFalse o :: qc ++ qt ++ qd) ++ post)) = k n (cur (pre ++ JumpIfFalse o :: qc ++ qt ++ qd) post).
Proof.
  intros [N1 H1] P O D Ej K. destruct (path_done _ _ _ _ P) as [N2 H2]. exists (N1 + N2)%nat. intros n L pre post A R.
  pose proof (instr_size_range (JumpIfFalse o)). pose proof (total_nonneg qc). pose proof (total_nonneg qt). pose proof (total_nonneg qd).
  pose proof R as [R1 R2]. cbn [app] in R1, R2. rewrite total_app in R2. cbn [total] in R2. rewrite !total_app in R2. pose proof (total_nonneg post). pose proof (total_nonneg pre).
  assert (Ab : absolute o a = total (pre ++ JumpIfFalse o :: qc ++ qt ++ qd)) by (rewrite abs_at, total_app; cbn [total]; rewrite ?total_app; lia).
  cbn [app]. rewrite jif_step; [|rewrite total_app; cbn [total]; rewrite !total_app; lia|lia]. unfold consume_conditional_jump, consume.
  assert (E1 : rec n None None (cur (pre ++ [JumpIfFalse o]) ((qc ++ qt ++ qd) ++ post)) = Done (c, cur (pre ++ JumpIfFalse o :: qc) ((qt ++ qd) ++ post))).
  { rewrite <- !app_assoc. rewrite H1 by (try lia; rewrite !total_app; cbn [total]; lia). rewrite <- app_assoc. reflexivity. }
  rewrite (xbind_done _ _ _ _ _ E1). cbv beta.
  assert (Rr : xrange (total pre) (absolute o (total pre)) (cur (pre ++ JumpIfFalse o :: qc) ((qt ++ qd) ++ post)) =
     Done (code_iter (total pre) (JumpIfFalse o :: qc ++ qt ++ qd), cur (pre ++ JumpIfFalse o :: qc) ((qt ++ qd) ++ post))).
  { rewrite A, Ab. rewrite <- A. apply (xrange_cur _ _ _ _ post).
    - apply room_fits. rewrite <- !app_assoc in *. cbn [app] in *. rewrite <- !app_assoc in *. exact R.
    - rewrite <- !app_assoc. cbn [app]. rewrite <- !app_assoc. reflexivity. }
  rewrite (xbind_done _ _ _ _ _ Rr). cbv beta. rewrite A, Ej, Ab.
  assert (E2 : consume_path (rec n) n (total (pre ++ JumpIfFalse o :: qc ++ qt ++ qd)) b (cur (pre ++ JumpIfFalse o :: qc) ((qt ++ qd) ++ post)) =
     Done (lt, cur (pre ++ JumpIfFalse o :: qc ++ qt) (qd ++ post))).
  { rewrite <- app_assoc.
    pose proof (H2 n n ltac:(lia) ltac:(lia) (total (pre ++ JumpIfFalse o :: qc ++ qt ++ qd)) (pre ++ JumpIfFalse o :: qc) (qd ++ post)) as E2.
    rewrite <- app_assoc in E2. cbn [app] in E2. rewrite <- !app_assoc in E2. apply E2.
    - rewrite total_app. cbn [total]. lia.
    - cbn [app] in R. rewrite <- !app_assoc in R. exact R.
    - rewrite total_app. cbn [total]. rewrite !total_app. lia.
    - destruct D as [D| ->]; [left; exact D|right]. rewrite !total_app; cbn [total]; rewrite !total_app. cbn [total]. lia. }
  rewrite (xbind_done _ _ _ _ _ E2). cbv beta.
  assert (E3 : xseek (total (pre ++ JumpIfFalse o :: qc ++ qt ++ qd)) (cur (pre ++ JumpIfFalse o :: qc ++ qt) (qd ++ post)) = Done (tt, cur (pre ++ JumpIfFalse o :: qc ++ qt ++ qd) post)).
  { apply xseek_cur.
    - apply room_fits. rewrite <- !app_assoc in *. cbn [app] in *. rewrite <- !app_assoc in *. exact R.
    - rewrite <- !app_assoc. cbn [app]. rewrite <- !app_assoc. reflexivity. }
  rewrite (xbind_done _ _ _ _ _ E3). cbv beta.
  destruct (resolve_jump lt) as [[j lt']|]; rewrite K; reflexivity.
Qed.

Lemma while_step b a o qc c qb lb : reads None qc c -> path (Some (BLoop a (a + o))) (a + instr_size (JumpIfFalse o) + total qc) qb lb ->
  o = instr_size (JumpIfFalse o) + total qc + total qb ->
  existsb (jumps_to a) (code_iter a (JumpIfFalse o :: qc ++ qb)) = true ->
  stmt b a (JumpIfFalse o :: qc ++ qb) (EWhile (N := source_ast) c lb span0).
Proof.
  intros [N1 H1] P O Ej. destruct (path_done _ _ _ _ P) as [N2 H2]. exists (S (N1 + N2)). intros [|n] L pre post A R; [lia|].
  pose proof (instr_size_range (JumpIfFalse o)). pose proof (total_nonneg qc). pose proof (total_nonneg qb).
  pose proof R as [R1 R2]. cbn [app] in R1, R2. rewrite total_app in R2. cbn [total] in R2. rewrite !total_app in R2. pose proof (total_nonneg post). pose proof (total_nonneg pre).
  assert (Ab : absolute o a = a + o) by (apply abs_at; lia).
  assert (Ac : total (pre ++ JumpIfFalse o :: qc ++ qb) = a + o) by (rewrite total_app; cbn [total]; rewrite ?total_app; lia).
  cbn [app]. rewrite jif_step; [|rewrite total_app; cbn [total]; rewrite !total_app; lia|lia]. unfold consume_conditional_jump, consume.
  assert (E1 : rec n None None (cur (pre ++ [JumpIfFalse o]) ((qc ++ qb) ++ post)) = Done (c, cur (pre ++ JumpIfFalse o :: qc) (qb ++ post))).
  { rewrite <- !app_assoc. rewrite H1 by (try lia; rewrite !total_app; cbn [total]; lia). rewrite <- app_assoc. reflexivity. }
  rewrite (xbind_done _ _ _ _ _ E1). cbv beta.
  assert (Rr : xrange (total pre) (absolute o (total pre)) (cur (pre ++ JumpIfFalse o :: qc) (qb ++ post)) =
     Done (code_iter (total pre) (JumpIfFalse o :: qc ++ qb), cur (pre ++ JumpIfFalse o :: qc) (qb ++ post))).
  { rewrite A, Ab, <- Ac. rewrite <- A. apply (xrange_cur _ _ _ _ post).
    - apply room_fits. rewrite <- !app_assoc in *. cbn [app] in *. rewrite <- !app_assoc in *. exact R.
    - rewrite <- !app_assoc. cbn [app]. rewrite <- !app_assoc. reflexivity. }
  rewrite (xbind_done _ _ _ _ _ Rr). cbv beta. rewrite A, Ej, Ab.
  assert (E2 : consume_path (rec n) n (a + o) (Some (BLoop a (a + o))) (cur (pre ++ JumpIfFalse o :: qc) (qb ++ post)) =
     Done (lb, cur (pre ++ JumpIfFalse o :: qc ++ qb) post)).
  { pose proof (H2 n n ltac:(lia) ltac:(lia) (a + o) (pre ++ JumpIfFalse o :: qc) post) as E2.
    rewrite <- app_assoc in E2. cbn [app] in E2. rewrite <- !app_assoc in E2. cbn [app] in E2. apply E2.
    - rewrite total_app. cbn [total]. lia.
    - cbn [app] in R. rewrite <- !app_assoc in R. exact R.
    - lia.
    - right. lia. }
  rewrite (xbind_done _ _ _ _ _ E2). reflexivity.
Qed.

(** * Jumps *)
Lemma jump_step n b pre o rest : total (pre ++ Jump o :: rest) < 65536 ->
  rec (S n) None b (cur pre (Jump o :: rest)) =
  (if o =? 3 then xret Decompiler.s_empty else
   let loc := absolute o (total pre) in
   let goto := xret (EGoto (N := source_ast) loc span0) in
   match b with
   | Some (BLoop prologue epilogue) =>
     if loc =? epilogue then xret (EBreak (N := source_ast) span0)
     else get here <- xpos; if (loc =? prologue) && (here =? epilogue) then xret Decompiler.s_empty else goto
   | Some (BSwitch epilogue) => if loc =? epilogue then xret (EBreak (N := source_ast) span0) else goto
   | None => goto
   end) (cur (pre ++ [Jump o]) rest).
Proof. intros T. popped T. reflexivity. Qed.
Definition clear_of (k : Z) (b : option block) : Prop :=
  match b with Some (BLoop pro epi) => k <> pro /\ k <> epi | Some (BSwitch epi) => k <> epi | None => True end.
Lemma jump_goto b a o : o <> 3 -> clear_of (absolute o a) b -> stmt b a [Jump o] (EGoto (N := source_ast) (absolute o a) span0).
Proof.
  intros O C. exists 1%nat. intros [|n] L pre post A [_ R]; [lia|]. cbn [app] in *. rewrite jump_step by lia.
  destruct (Z.eqb_spec o 3); [contradiction|]. cbv zeta. rewrite A. destruct b as [[pro epi|epi]|]; cbn [clear_of] in C.
  - destruct (Z.eqb_spec (absolute o a) epi); [tauto|]. assert (T : total ((pre ++ [Jump o]) ++ post) < 65536) by (rewrite <- app_assoc; cbn [app]; lia).
    rewrite (xbind_done _ _ _ _ _ (xpos_cur _ _ T)). destruct (Z.eqb_spec (absolute o a) pro); [tauto|]. reflexivity.
  - destruct (Z.eqb_spec (absolute o a) epi); [tauto|]. reflexivity.
  - reflexivity.
Qed.
Lemma jump_next b a : stmt b a [Jump 3] Decompiler.s_empty.
Proof. exists 1%nat. intros [|n] L pre post A [_ R]; [lia|]. cbn [app] in *. rewrite jump_step by lia. reflexivity. Qed.
Lemma jump_break pro epi a o : o <> 3 -> absolute o a = epi -> stmt (Some (BLoop pro epi)) a [Jump o] (EBreak (N := source_ast) span0).
Proof.
  intros O C. exists 1%nat. intros [|n] L pre post A [_ R]; [lia|]. cbn [app] in *. rewrite jump_step by lia.
  destruct (Z.eqb_spec o 3); [contradiction|]. cbv zeta. rewrite A, C, Z.eqb_refl. reflexivity.
Qed.
Lemma jump_back pro epi a o : o <> 3 -> absolute o a = pro -> pro <> epi -> a + 3 = epi -> stmt (Some (BLoop pro epi)) a [Jump o] Decompiler.s_empty.
Proof.
  intros O C D E. exists 1%nat. intros [|n] L pre post A [_ R]; [lia|]. cbn [app] in *. rewrite jump_step by lia.
  destruct (Z.eqb_spec o 3); [contradiction|]. cbv zeta. rewrite A, C. destruct (Z.eqb_spec pro epi); [contradiction|].
  assert (T : total ((pre ++ [Jump o]) ++ post) < 65536) by (rewrite <- app_assoc; cbn [app]; lia).
  rewrite (xbind_done _ _ _ _ _ (xpos_cur _ _ T)). rewrite Z.eqb_refl. rewrite total_app.
  change (total [Jump o]) with 3. rewrite A, E, Z.eqb_refl. reflexivity.
Qed.

(** * Where jumps go *)
Notation fine_value := (fine_value p).
Definition fine_stmt (e : texpr) : Prop := tidy e /\ recoverable p e.
Lemma stmt_part x e : part x e -> fine_stmt e -> fine_stmt x.
Proof. intros P [T Rc]. split; intros y W; [apply T|apply Rc]; econstructor; eassumption. Qed.
Lemma stmt_operand x e : operand x e -> part x e -> fine_stmt e -> fine_value x.
Proof. intros O P F. split; [apply (proj1 F e (wi_here _)), O|]. exact (stmt_part _ _ P F). Qed.
Lemma value_fine e : is_statement e = false -> fine_stmt e -> fine_value e. Proof. intros H F. split; [exact H|exact F]. Qed.
Lemma values_no_jump :
  (forall e c, vshape s p e c -> fine_value e -> forall l, ~ In (Jump l) c) /\
  (forall es c, vshapes s p es c -> Forall fine_value es -> forall l, ~ In (Jump l) c) /\
  (forall f args super c, kshape s p f args super c -> Forall fine_value args -> named p f -> forall l, ~ In (Jump l) c) /\
  (forall args flags c, ashape s p args flags c -> Forall fine_value args -> forall l, ~ In (Jump l) c).
Proof.
  apply vshape_all.
  - intros e i o args c So On Vs IH Fe l [->|I]; [destruct On as (_ & _ & On); discriminate On|]. apply (IH ltac:(
      apply Forall_forall; intros x Ix; destruct (source_operand _ _ _ _ _ _ So Ix); eapply fine_part; eassumption) l I).
  - intros e c [St|Wa] _ (F1 & F2 & _); [congruence|]. destruct (proj2 (F2 e (wi_here _)) Wa).
  - intros c a b sp f l cc ca cb V1 IH1 V2 IH2 V3 IH3 Fe l0 I. destruct I as [I|I]; [discriminate I|].
    apply in_app_or in I. destruct I as [I|I]; [eapply IH1; [|exact I]; eapply fine_part; [| |exact Fe]; constructor|].
    apply in_app_or in I. destruct I as [I|I]; [eapply IH2; [|exact I]; eapply fine_part; [| |exact Fe]; constructor|].
    destruct I as [I|I]; [discriminate I|]. apply in_app_or in I. destruct I as [I|[I|[]]]; [|discriminate I].
    eapply IH3; [|exact I]; eapply fine_part; [| |exact Fe]; constructor.
  - intros e f sp l ce V1 IH1 Fe l0 I. destruct I as [I|I]; [discriminate I|]. apply in_app_or in I.
    destruct I as [I|[I|[I|[]]]]; try discriminate I. eapply IH1; [|exact I]; eapply fine_part; [| |exact Fe]; constructor.
  - intros f ts args sp c K IH Fe l0 I. pose proof (proj2 (proj2 Fe) _ (wi_here _)) as (d & fn & n & _ & _ & Nm & _).
    eapply IH; [|exists n; exact Nm|exact I]. apply Forall_forall. intros x Ix. eapply fine_part; [| |exact Fe]; constructor; exact Ix.
  - intros e f args sp c Ts K IH Fe l0 I. pose proof (proj2 (proj2 Fe) _ (wi_here _)) as Gl. cbn [recoverable_here] in Gl.
    change (by_class e) with (type_symbol e) in Gl. rewrite Ts in Gl. destruct Gl as (d & fn & _ & _ & Nm & _).
    eapply IH; [|exact Nm|exact I]. apply Forall_forall. intros x Ix. eapply fine_part; [| |exact Fe]; constructor; exact Ix.
  - intros e f args sp l ce ca Ts V1 IH1 K IH2 Fe l0 I. pose proof (proj2 (proj2 Fe) _ (wi_here _)) as Nm. cbn [recoverable_here] in Nm.
    change (by_class e) with (type_symbol e) in Nm. rewrite Ts in Nm. destruct I as [I|I]; [discriminate I|].
    apply in_app_or in I. destruct I as [I|I]; [eapply IH1; [|exact I]; eapply fine_part; [| |exact Fe]; constructor|].
    apply in_app_or in I. destruct I as [I|[I|[]]]; [|discriminate I].
    eapply IH2; [|exact Nm|exact I]. apply Forall_forall. intros x Ix. eapply fine_part; [| |exact Fe]; constructor; exact Ix.
  - intros _ l [].
  - intros e es c cs V IH Vs IHs Fe l I. inversion Fe; subst. apply in_app_or in I. destruct I as [I|I]; [eapply IH|eapply IHs]; eassumption.
  - intros f args super i k flags ca l Ce Cd Ic It Sp Le Sh IH Fe Nm l0 I. destruct I as [->|I]; [discriminate Ic|].
    apply in_app_or in I. destruct I as [I|I]; [eapply IH; eassumption|]. apply in_app_or in I.
    destruct I as [I|[I|[I|[]]]]; try discriminate I. apply repeat_spec in I. discriminate I.
  - intros f args super flags c Ce Sp Fe [nm Nm]. exfalso. unfold short_params in Sp. unfold callee_of in Ce. rewrite Nm in Ce.
    destruct (get_function p f); [discriminate Ce|discriminate Sp].
  - intros flags _ l [].
  - intros e args flags c cs V IH Sh IHs Fe l I. inversion Fe; subst. apply in_app_or in I. destruct I as [I|I]; [eapply IH|eapply IHs]; eassumption.
  - intros e args flags l c cs V IH Sh IHs Fe l0 I. inversion Fe; subst. destruct I as [I|I]; [discriminate I|].
    apply in_app_or in I. destruct I as [I|[I|I]]; [eapply IH; eassumption|discriminate I|eapply IHs; eassumption].
Qed.
Definition jumps_in (exit : option nat) (c : code label) : Prop := forall l, In (Jump l) c -> In (Target l) c \/ exit = Some l.
Lemma jumps_value exit e c : vshape s p e c -> fine_value e -> jumps_in exit c.
Proof. intros V F l I. destruct (proj1 values_no_jump _ _ V F l I). Qed.
Lemma jumps_app exit c1 c2 : jumps_in exit c1 -> jumps_in exit c2 -> jumps_in exit (c1 ++ c2).
Proof.
  intros H K l I. apply in_app_or in I. destruct I as [I|I]; [destruct (H l I)|destruct (K l I)]; auto; left; apply in_or_app; auto.
Qed.
Lemma jumps_plain exit i c : (forall l, i <> Jump l) -> jumps_in exit c -> jumps_in exit (i :: c).
Proof. intros N H l [I|I]; [destruct (N l I)|]. destruct (H l I); [left; right; assumption|auto]. Qed.
Lemma jumps_nil exit : jumps_in exit []. Proof. intros l []. Qed.
Hypothesis Co : complete p.
Lemma statements_jump :
  (forall e exit c, sshape s p e exit c -> fine_stmt e -> jumps_in exit c) /\
  (forall es exit c, qshape s p es exit c -> Forall fine_stmt es -> jumps_in exit c) /\
  (forall out d c, dshape s p out d c -> True) /\
  (forall out cases body next c next', cshape s p out cases body next c next' -> True).
Proof.
  apply sshape_all; try (intros; exact I).
  - intros e exit c St V Fe. eapply jumps_value; [exact V|]. apply value_fine; assumption.
  - intros l t x sp exit c i1 i2 -> -> V Fe. do 2 (apply jumps_plain; [discriminate|]). eapply jumps_value; [exact V|]. eapply stmt_operand; [| |exact Fe]; constructor.
  - intros. apply jumps_nil.
  - intros l t sp exit o i Iv On Fe. do 2 (apply jumps_plain; [discriminate|]). apply jumps_plain; [|apply jumps_nil]. intros l0 ->. destruct On as (_ & _ & On). discriminate On.
  - intros l t sp exit n i Iv On Fe. apply jumps_plain; [intros l0 ->; destruct On as (_ & _ & On); discriminate On|]. apply jumps_plain; [discriminate|apply jumps_nil].
  - intros l t sp exit n c Iv Nm Pr Fe. destruct (text_init p Co t n Iv Nm Pr).
  - intros x sp exit c V Fe. apply jumps_plain; [discriminate|]. eapply jumps_value; [exact V|]. eapply stmt_operand; [| |exact Fe]; constructor.
  - intros sp exit Fe. do 2 (apply jumps_plain; [discriminate|]). apply jumps_nil.
  - intros sp l Fe l0 [I|[]]. injection I as ->. right. reflexivity.
  - intros es exit c Q IH Fe. apply IH. apply Forall_forall. intros x Ix. eapply stmt_part; [|exact Fe]. constructor. exact Ix.
  - intros c th sp exit l cc ct V Q IH Fe. apply jumps_plain; [discriminate|]. apply jumps_app; [eapply jumps_value; [exact V|]; eapply stmt_operand; [| |exact Fe]; constructor|].
    apply jumps_app; [apply IH; apply Forall_forall; intros x Ix; eapply stmt_part; [|exact Fe]; constructor; exact Ix|]. apply jumps_plain; [discriminate|apply jumps_nil].
  - intros c th el sp exit l k cc ct cf V Q1 IH1 Q2 IH2 Fe. apply jumps_plain; [discriminate|]. apply jumps_app; [eapply jumps_value; [exact V|]; eapply stmt_operand; [| |exact Fe]; constructor|].
    apply jumps_app; [apply IH1; apply Forall_forall; intros x Ix; eapply stmt_part; [|exact Fe]; constructor; exact Ix|].
    assert (J : jumps_in exit (Target l :: cf ++ [Target k])).
    { apply jumps_plain; [discriminate|]. apply jumps_app; [apply IH2; apply Forall_forall; intros x Ix; eapply stmt_part; [|exact Fe]; constructor; exact Ix|].
      apply jumps_plain; [discriminate|apply jumps_nil]. }
    intros l0 [I|I]; [injection I as ->; left; right; right; apply in_or_app; right; left; reflexivity|].
    destruct (J l0 I); [left; right; assumption|auto].
  - intros c b sp exit l k cc cb V Q IH Fe.
    assert (J : jumps_in (Some k) cb) by (apply IH; apply Forall_forall; intros x Ix; eapply stmt_part; [|exact Fe]; constructor; exact Ix).
    assert (J0 : jumps_in exit cc) by (eapply jumps_value; [exact V|]; eapply stmt_operand; [| |exact Fe]; constructor).
    intros l0 [I|[I|I]]; try discriminate I. apply in_app_or in I. destruct I as [I|I].
    { destruct (J0 l0 I); auto. left. right. right. apply in_or_app. auto. }
    apply in_app_or in I. destruct I as [I|[I|[I|[]]]]; [|injection I as ->; left; left; reflexivity|discriminate I].
    left. right. right. apply in_or_app. right. apply in_or_app.
    destruct (J l0 I) as [H|[= ->]]; [left; assumption|right; right; left; reflexivity].
  - intros e cases default sp exit out first next next' t n ce cc cd _ _ _ _ _ _ _ Fe. destruct (proj2 Fe _ (wi_here _)).
  - intros. apply jumps_nil.
  - intros e es exit c cs Sh IH St Q IHs Fe. inversion Fe; subst. apply jumps_app; auto.
Qed.

(** * Statements *)
Lemma res_join c1 c2 a q1 q2 : res c1 a q1 -> res c2 (a + total c1) q2 -> res (c1 ++ c2) a (q1 ++ q2).
Proof.
  induction 1 as [a|l c a q E H IH|i j c a q T M F H IH]; cbn [app total]; intros R.
  - rewrite Z.add_0_r in R. exact R.
  - constructor; [exact E|]. apply IH. rewrite target_size in R. exact R.
  - constructor; [assumption|assumption|assumption|]. apply IH. rewrite <- Z.add_assoc. exact R.
Qed.
Lemma res_jif l c a q : res (JumpIfFalse l :: c) a q -> exists o q', q = JumpIfFalse o :: q' /\ in_s 16 o /\ absolute o a = place l /\ res c (a + 3) q'.
Proof.
  intros H. inversion H as [| |i j c0 a0 q0 T M F R]; subst. destruct j; try discriminate M. cbn [locs] in F.
  inversion F as [|? ? ? ? [F1 F2] _]; subst. eexists _, _. split; [reflexivity|]. split; [exact F1|]. split; [exact F2|exact R].
Qed.
Lemma res_jump l c a q : res (Jump l :: c) a q -> exists o q', q = Jump o :: q' /\ in_s 16 o /\ absolute o a = place l /\ res c (a + 3) q'.
Proof.
  intros H. inversion H as [| |i j c0 a0 q0 T M F R]; subst. destruct j; try discriminate M. cbn [locs] in F.
  inversion F as [|? ? ? ? [F1 F2] _]; subst. eexists _, _. split; [reflexivity|]. split; [exact F1|]. split; [exact F2|exact R].
Qed.
Lemma res_target l c a q : res (Target l :: c) a q -> place l = a /\ res c a q.
Proof. intros H. inversion H; subst; [auto|discriminate]. Qed.
Lemma res_nil a q : res [] a q -> q = []. Proof. intros H. inversion H. reflexivity. Qed.
Lemma path_empty b a l : path b a [] l -> l = [].
Proof.
  remember [] as q eqn:E. intros H. destruct H as [|? ? ? Q|? q e q' l' Q]; [reflexivity|congruence|]. apply app_eq_nil in E. destruct E. congruence.
Qed.
Lemma path_full b a q l : path b a q l -> l = [] -> q = [].
Proof. intros H ->. inversion H. reflexivity. Qed.

(** An expression as a statement. *)
Definition plain (e : sexpr) : Prop := resolve_jump_in e = None /\ blank e = false /\ ends_path e = false /\ clean1 e = e.
Lemma plain_value e c : vshape s p e c -> fine_value e -> plain (show p e).
Proof.
  intros V Fe. inversion V as [e' i o args c' So On Vs|e' c' U H|c0 x y sp f l cc ca cb|x f sp l ce|f ts args sp c' K|x f args sp c' Ts K|x f args sp l ce ca Ts V1 K]; subst;
    try (repeat split; reflexivity).
  - destruct e; cbn [source_op] in So; try discriminate So; unfold bind_opt in So;
    repeat match type of So with match ?x with _ => _ end = _ => destruct x end; try discriminate So; try (repeat split; reflexivity).
  - destruct Fe as (F1 & F2 & _). destruct U as [St|Wa]; [congruence|]. destruct (proj2 (F2 e (wi_here _)) Wa).
Qed.

Definition okay (e : sexpr) : Prop := resolve_jump_in e = None /\ blank e = false.
(** [r] is read as [l], [d] is not read. *)
Definition recovers (b : option block) (a : Z) (q : code Z) (es : list texpr) (dd : bool) : Prop :=
  exists r d l, q = r ++ d /\ path b a r l /\ clean l = map (show p) es /\ last_ends l = stops es /\
    (stops es = false \/ dd = false -> d = []) /\ Forall okay l.
Lemma recovers_one b a q e x : q <> [] -> stmt b a q x -> clean1 x = show p e -> okay x -> ends_path x = stop e -> recovers b a q [e] false.
Proof.
  intros Q S C O E. exists q, [], [x]. rewrite app_nil_r. split; [reflexivity|]. split; [apply p_last; assumption|].
  split; [cbn [clean]; rewrite (proj2 O), C; reflexivity|]. split; [exact E|]. split; [reflexivity|]. constructor; [exact O|constructor].
Qed.
Lemma clean_none l : Forall okay l -> clean l = [] -> l = [].
Proof. intros F C. destruct F as [|x l [_ O] _]; [reflexivity|]. cbn [clean] in C. rewrite O in C. discriminate C. Qed.
Lemma okay_jumps l : Forall okay l -> Forall (fun x => resolve_jump_in x = None) l.
Proof. apply Forall_impl. intros x [H _]. exact H. Qed.
Lemma okay_empty l : Forall okay l -> Forall (fun x => resolve_jump_in x = None) (l ++ [Decompiler.s_empty]).
Proof. intros F. apply Forall_app. split; [exact (okay_jumps _ F)|]. constructor; [reflexivity|constructor]. Qed.
Lemma okay_if c l f : Forall (fun x => resolve_jump_in x = None) l -> match f with Some f => Forall (fun x => resolve_jump_in x = None) f | None => True end ->
  okay (EIf (N := source_ast) c l f span0).
Proof.
  intros H K. split; [|reflexivity]. destruct f as [f|]; cbn [resolve_jump_in]; rewrite (last_map_none _ _ H); [|reflexivity].
  rewrite (last_map_none _ _ K). reflexivity.
Qed.
Lemma stops_join l m : stops l = false -> stops (l ++ m) = stops m.
Proof. intros H. destruct m; [rewrite app_nil_r; exact H|]. apply stops_app. discriminate. Qed.
Lemma last_ends_join l m : last_ends l = false -> last_ends (l ++ m) = last_ends m.
Proof. intros H. destruct m; [rewrite app_nil_r; exact H|]. apply last_ends_app_list. discriminate. Qed.
Lemma clean_empty l : clean (l ++ [Decompiler.s_empty]) = clean l.
Proof. rewrite clean_app. apply app_nil_r. Qed.

Definition inside (b : option block) (exit : option nat) (a e : Z) : Prop :=
  (b = None /\ exit = None) \/
  exists pro epi l, b = Some (BLoop pro epi) /\ exit = Some l /\ place l = epi /\ pro < a /\ e < epi.
Lemma inside_sub b exit a e a' e' : inside b exit a e -> a <= a' -> e' <= e -> inside b exit a' e'.
Proof.
  intros [H|(pro & epi & l & -> & -> & H1 & H2 & H3)] A E; [left; exact H|right]. exists pro, epi, l. repeat split; auto; lia.
Qed.
Lemma inside_clear b exit a e k : inside b exit a e -> a <= k <= e -> clear_of k b.
Proof. intros [[-> ->]|(pro & epi & l & -> & -> & H1 & H2 & H3)] A; [exact I|]. cbn [clear_of]. lia. Qed.

Lemma fine_list es e : (forall x, In x es -> part x e) -> fine_stmt e -> Forall fine_stmt es.
Proof. intros H F. apply Forall_forall. intros x I. eapply stmt_part; [apply H, I|exact F]. Qed.
(** No jump of a statement goes to before it. *)
Lemma no_back es exit c b a q : qshape s p es exit c -> Forall fine_stmt es -> res c a q -> inside b exit a (a + total c) ->
  forall l, In (Jump l) c -> a <= place l.
Proof.
  intros Q F R Ins l I. destruct (proj1 (proj2 statements_jump) _ _ _ Q F l I) as [T| ->].
  - apply (target_place _ _ _ _ _ R T).
  - destruct Ins as [[_ H]|(pro & epi & l0 & _ & [= <-] & <- & H1 & H2)]; [discriminate H|]. pose proof (total_nonneg c). lia.
Qed.
Lemma cond_no_back c cc ct a qc qt tail x : vshape s p c cc -> fine_value c -> res cc (a + 3) qc -> res ct (a + 3 + total cc) qt -> 
  (forall l, In (Jump l) ct -> a < place l) -> forall l o, absolute o a = place l -> in_s 16 o -> 
  (tail = [] /\ x = [] \/ exists k oj, tail = [Jump k] /\ x = [Jump oj] /\ a < place k /\ in_s 16 oj /\ absolute oj (a + 3 + total cc + total ct) = place k) ->
  0 <= a -> a + 3 + total cc + total ct + 3 < 65536 ->
  existsb (jumps_to a) (code_iter a (JumpIfFalse o :: qc ++ qt ++ x)) = false.
Proof.
  intros V F R1 R2 J l o Eo Io Tl A L.
  assert (Rx : res (JumpIfFalse l :: cc ++ ct ++ tail) a (JumpIfFalse o :: qc ++ qt ++ x)).
  { apply r_instr; [reflexivity|reflexivity|constructor; [auto|constructor]|]. change (instr_size (JumpIfFalse l)) with 3.
    apply res_join; [exact R1|]. apply res_join; [exact R2|].
    destruct Tl as [[-> ->]|(k & oj & -> & -> & K & Ij & Ej)]; [constructor|]. apply r_instr; [reflexivity|reflexivity|constructor; [auto|constructor]|constructor]. }
  apply (no_jump_to place a _ _ _ Rx); [exact A| |].
  - cbn [total]. change (instr_size (JumpIfFalse l)) with 3. rewrite !total_app. destruct Tl as [[-> ->]|(k & oj & -> & -> & _)]; cbn [total]; [lia|].
    change (instr_size (Jump k)) with 3. lia.
  - intros l0 [I|I]; [discriminate I|]. apply in_app_or in I. destruct I as [I|I]; [destruct (proj1 values_no_jump _ _ V F l0 I)|].
    apply in_app_or in I. destruct I as [I|I]; [specialize (J l0 I); lia|].
    destruct Tl as [[-> ->]|(k & oj & -> & -> & K & _)]; [destruct I|]. destruct I as [[= ->]|[]]. lia.
Qed.

Lemma value_stmt e c : vshape s p e c -> fine_value e -> forall b a q, res c a q -> recovers b a q [e] false.
Proof.
  intros V F b a q R. destruct (proj1 (values_read s p this place) _ _ V F a q R) as [Re (j & q' & -> & _)].
  destruct (plain_value _ _ V F) as (P1 & P2 & P3 & P4).
  apply (recovers_one _ _ _ _ (show p e)); [discriminate|apply stmt_of_reads; exact Re|exact P4|split; assumption|].
  rewrite P3. destruct F as [F _]. destruct e; try reflexivity; discriminate F.
Qed.
Lemma assign_stmt l x q1 b a : named p l -> nreads p this q1 [x] -> stmt b a (Assign :: Local l :: q1) (EAssign (N := source_ast) (shown p l) x span0).
Proof.
  intros N R. apply stmt_of_reads. apply (op_reads p this place Assign OpAssign 2 (Local l :: q1) [shown p l; x]); [reflexivity|exact I|reflexivity|].
  change (Local l :: q1) with ([Local (Loc := Z) l] ++ q1). apply nreads_cons; [exact place| |exact R].
  apply (op_reads p this place (Local l) (OpLocal l) 0 [] []); [reflexivity|exact N|reflexivity|apply nreads_nil].
Qed.
Lemma return_stmt q x b a : reads None q x -> headed q -> stmt b a (Return :: q) (EReturn (N := source_ast) (Some x) span0).
Proof.
  intros [N H] (j & q' & -> & Hj). apply stmt_of_reads. exists (S N). intros [|n] L b0 pre post T; [lia|]. popped T.
  rewrite (xbind_done _ _ _ _ _ (xpeek_cur _ _)). cbv beta. cbn [hd_error]. cbn [app] in T.
  assert (E : rec n None None (cur (pre ++ [Return]) (j :: q' ++ post)) = Done (x, cur (pre ++ Return :: j :: q') post)).
  { change (j :: q' ++ post) with ((j :: q') ++ post). rewrite H by (try lia; rewrite <- app_assoc; cbn [app]; lia). rewrite <- app_assoc. reflexivity. }
  unfold consume. destruct j; try discriminate Hj; rewrite (xbind_done _ _ _ _ _ E); reflexivity.
Qed.
Lemma return_none b a : stmt b a [Return; Nop] (EReturn (N := source_ast) None span0).
Proof.
  apply stmt_of_reads. exists 1%nat. intros [|n] L b0 pre post T; [lia|]. popped T.
  rewrite (xbind_done _ _ _ _ _ (xpeek_cur _ _)). cbv beta. cbn [hd_error]. rewrite (xbind_done _ _ _ _ _ (xpop_cur _ _ _)). cbv beta.
  rewrite <- app_assoc. reflexivity.
Qed.
Lemma initial_op t o : initial_value p t = Some (InitTo o) -> initial_named p t ->
  op_named p o /\ match o with OpConst _ | OpConstruct _ => True | _ => False end.
Proof.
  intros I N. destruct t; cbn [initial_value] in I; try discriminate I; unfold bind_opt in I;
    try (injection I as <-; split; [first [exact N|exact Logic.I]|exact Logic.I]).
  - destruct (name_of p (TIPrim i)); [|discriminate I].
    repeat match type of I with (if ?b then _ else _) = _ => destruct b; [try (injection I as <-; split; exact Logic.I)|] end; try discriminate I;
    match type of I with match ?x with _ => _ end = _ => destruct x; [|discriminate I] end; injection I as <-; split; exact Logic.I.
  - cbn [initial_named] in N. destruct (get_enum p i) as [en|]; [|discriminate I]. destruct (en_members en) as [|m ms]; [discriminate I|].
    injection I as <-. destruct N as [N1 N2]. inversion N2; subst. split; [split; assumption|exact Logic.I].
  - destruct (name_of p _); discriminate I.
Qed.

Lemma if_case c th sp exit l cc ct b a q : vshape s p c cc -> qshape s p th exit ct -> fine_stmt (EIf c th None sp) ->
  (forall a q, res ct a q -> sized q -> 0 <= a -> a + total ct < 32768 -> inside b exit a (a + total ct) -> recovers b a q (normal p th) (dead p th)) ->
  res (JumpIfFalse l :: cc ++ ct ++ [Target l]) a q -> sized q -> 0 <= a -> a + total (JumpIfFalse l :: cc ++ ct ++ [Target l]) < 32768 ->
  inside b exit a (a + total (JumpIfFalse l :: cc ++ ct ++ [Target l])) -> recovers b a q [EIf c (normal p th) None sp] false.
Proof.
  intros V Q Fe IH R Sz A L Ins. cbn [total] in *. rewrite !total_app in *. cbn [total] in *. rewrite target_size in *.
  change (instr_size (JumpIfFalse l)) with 3 in *. pose proof (total_nonneg cc). pose proof (total_nonneg ct).
  apply res_jif in R. destruct R as (o & q' & -> & Io & Eo & R). apply res_app in R. destruct R as (qc & q1 & -> & Rc & R).
  apply res_app in R. destruct R as (qt & q2 & -> & Rt & R). apply res_end in R. destruct R as [Pl ->]. rewrite app_nil_r in *.
  inversion Sz as [|? ? _ Sz']; subst. apply sized_parts in Sz'. destruct Sz' as [_ Sz'].
  assert (Fc : fine_value c) by (eapply stmt_operand; [| |exact Fe]; constructor).
  assert (Ft : Forall fine_stmt th) by (eapply fine_list; [|exact Fe]; intros x Ix; constructor; exact Ix).
  destruct (proj1 (values_read s p this place) _ _ V Fc _ _ Rc) as [Re _].
  pose proof (res_total _ _ _ _ Rc) as Tc. pose proof (res_total _ _ _ _ Rt) as Tt.
  destruct (IH _ _ Rt Sz' ltac:(lia) ltac:(lia) ltac:(eapply inside_sub; [exact Ins|lia|lia])) as (r & d & lt & -> & P & C & E & D & F).
  rewrite total_app in Tt.
  assert (O : o = 3 + total qc + total r + total d) by (apply offset_of in Eo; [lia|exact Io|lia|lia|lia]).
  assert (Jb : forall l0, In (Jump l0) ct -> a < place l0).
  { intros l0 I. pose proof (no_back _ _ _ b _ _ Q Ft Rt ltac:(eapply inside_sub; [exact Ins|lia|lia]) l0 I). lia. }
  pose proof (cond_no_back _ _ _ _ _ _ _ _ V Fc Rc Rt Jb l o Eo Io (or_introl (conj eq_refl eq_refl)) A ltac:(lia)) as Ej. rewrite app_nil_r in Ej.
  assert (Rj : resolve_jump lt = None) by (apply last_map_none, okay_jumps, F).
  rewrite <- Tc in P.
  assert (Sd : last_ends lt = true \/ d = []).
  { rewrite E. destruct (stops (normal p th)) eqn:St; [left; reflexivity|right; apply D; left; reflexivity]. }
  destruct (if_step b a o qc (show p c) r lt d (fun _ => xret (EIf (N := source_ast) (show p c) lt None span0)) Re P O Sd Ej
    ltac:(rewrite Rj; reflexivity)) as [N H1].
  apply (recovers_one _ _ _ _ (EIf (N := source_ast) (show p c) lt None span0)).
  - discriminate.
  - exists (S N). intros [|n] Ln pre post Ap Rp; [lia|]. apply H1; [lia|exact Ap|exact Rp].
  - rewrite clean_if, C. reflexivity.
  - apply okay_if; [apply okay_jumps, F|exact I].
  - reflexivity.
Qed.
Lemma while_case c bd sp l k cc cb b a q : vshape s p c cc -> qshape s p bd (Some k) cb -> fine_stmt (EWhile c bd sp) ->
  (forall b a q, res cb a q -> sized q -> 0 <= a -> a + total cb < 32768 -> inside b (Some k) a (a + total cb) -> recovers b a q (normal p bd) (dead p bd)) ->
  res (Target l :: JumpIfFalse k :: cc ++ cb ++ [Jump l; Target k]) a q -> sized q -> 0 <= a ->
  a + total (Target l :: JumpIfFalse k :: cc ++ cb ++ [Jump l; Target k]) < 32768 ->
  recovers b a q [EWhile c (normal p bd) sp] false.
Proof.
  intros V Q Fe IH R Sz A L. cbn [total] in *. rewrite !total_app in *. cbn [total] in *. rewrite !target_size in *.
  change (instr_size (JumpIfFalse k)) with 3 in *. change (instr_size (Jump l)) with 3 in *. pose proof (total_nonneg cc). pose proof (total_nonneg cb).
  apply res_target in R. destruct R as [Pl R].
  pose proof R as R0. apply res_jif in R. destruct R as (o & q' & -> & Io & Eo & R). apply res_app in R. destruct R as (qc & q1 & -> & Rc & R).
  apply res_app in R. destruct R as (qb & q2 & -> & Rb & R). apply res_jump in R. destruct R as (oj & q3 & -> & Ij & Ejj & R).
  apply res_end in R. destruct R as [Pk ->].
  inversion Sz as [|? ? _ Sz']; subst. apply sized_parts in Sz'. destruct Sz' as [_ Sz']. apply sized_parts in Sz'. destruct Sz' as [Sz' _].
  assert (Fc : fine_value c) by (eapply stmt_operand; [| |exact Fe]; constructor).
  assert (Fb : Forall fine_stmt bd) by (eapply fine_list; [|exact Fe]; intros x Ix; constructor; exact Ix).
  pose proof (proj2 Fe _ (wi_here _)) as Ns. cbn [recoverable_here] in Ns.
  destruct (proj1 (values_read s p this place) _ _ V Fc _ _ Rc) as [Re _].
  pose proof (res_total _ _ _ _ Rc) as Tc. pose proof (res_total _ _ _ _ Rb) as Tb.
  assert (O : o = 3 + total qc + (total qb + 3)) by (apply offset_of in Eo; [lia|exact Io|lia|lia|lia]).
  assert (Oj : oj = - (3 + total qc + total qb)) by (apply offset_of in Ejj; [lia|exact Ij|lia|lia|lia]).
  assert (Ek : place l + o = place k) by lia.
  destruct (IH (Some (BLoop (place l) (place l + o))) _ _ Rb Sz' ltac:(lia) ltac:(lia)
    ltac:(right; exists (place l), (place l + o), k; repeat split; lia)) as (r & d & lb & -> & P & C & E & D & F).
  assert (d = []) as -> by (apply D; left; exact Ns). rewrite app_nil_r in *. rewrite Ns in E.
  assert (P2 : path (Some (BLoop (place l) (place l + o))) (place l + instr_size (JumpIfFalse o) + total qc) (r ++ [Jump oj]) (lb ++ [Decompiler.s_empty])).
  { change (instr_size (JumpIfFalse o)) with 3. rewrite Tc. apply path_app; [exact P|exact E|]. apply p_last; [discriminate|]. apply jump_back; [lia| |lia|lia].
    rewrite Tb. exact Ejj. }
  assert (Ex : existsb (jumps_to (place l)) (code_iter (place l) (JumpIfFalse o :: qc ++ r ++ [Jump oj])) = true).
  { apply (jump_to place (place l) (JumpIfFalse k :: cc ++ cb) [] l).
    - cbn [app]. rewrite <- app_assoc. apply r_instr; [reflexivity|reflexivity|constructor; [auto|constructor]|].
      apply res_join; [exact Rc|]. apply res_join; [exact Rb|]. apply r_instr; [reflexivity|reflexivity|constructor; [auto|constructor]|constructor].
    - exact A.
    - cbn [app total]. rewrite !total_app. cbn [total]. change (instr_size (JumpIfFalse k)) with 3. change (instr_size (Jump l)) with 3. lia.
    - reflexivity. }
  pose proof (while_step b (place l) o qc (show p c) (r ++ [Jump oj]) _ Re P2
    ltac:(change (instr_size (JumpIfFalse o)) with 3; rewrite total_app; cbn [total]; change (instr_size (Jump oj)) with 3; lia) Ex) as St.
  apply (recovers_one _ _ _ _ (EWhile (N := source_ast) (show p c) (lb ++ [Decompiler.s_empty]) span0)).
  - discriminate.
  - exact St.
  - rewrite clean_while, clean_empty, C. reflexivity.
  - split; reflexivity.
  - reflexivity.
Qed.

Lemma ifelse_case c th el sp exit l k cc ct cf b a q : vshape s p c cc -> qshape s p th exit ct -> qshape s p el exit cf -> fine_stmt (EIf c th (Some el) sp) ->
  (forall a q, res ct a q -> sized q -> 0 <= a -> a + total ct < 32768 -> inside b exit a (a + total ct) -> recovers b a q (normal p th) (dead p th)) ->
  (forall a q, res cf a q -> sized q -> 0 <= a -> a + total cf < 32768 -> inside b exit a (a + total cf) -> recovers b a q (normal p el) (dead p el)) ->
  res (JumpIfFalse l :: cc ++ ct ++ Jump k :: Target l :: cf ++ [Target k]) a q -> sized q -> 0 <= a ->
  a + total (JumpIfFalse l :: cc ++ ct ++ Jump k :: Target l :: cf ++ [Target k]) < 32768 ->
  inside b exit a (a + total (JumpIfFalse l :: cc ++ ct ++ Jump k :: Target l :: cf ++ [Target k])) ->
  recovers b a q (if stops (normal p th) then EIf c (normal p th) None sp :: normal p el
    else [EIf c (normal p th) (match normal p el with [] => None | f' => Some f' end) sp]) (dead p el).
Proof.
  intros V Q1 Q2 Fe IH1 IH2 R Sz A L Ins. cbn [total] in *. rewrite !total_app in *. cbn [total] in *. rewrite !total_app in *. cbn [total] in *. rewrite !target_size in *.
  change (instr_size (JumpIfFalse l)) with 3 in *. change (instr_size (Jump k)) with 3 in *.
  pose proof (total_nonneg cc). pose proof (total_nonneg ct). pose proof (total_nonneg cf).
  apply res_jif in R. destruct R as (o & q' & -> & Io & Eo & R). apply res_app in R. destruct R as (qc & q1 & -> & Rc & R).
  apply res_app in R. destruct R as (qt & q2 & -> & Rt & R). apply res_jump in R. destruct R as (oj & q3 & -> & Ij & Ejj & R).
  apply res_target in R. destruct R as [Pl R]. apply res_app in R. destruct R as (qf & q4 & -> & Rf & R).
  apply res_end in R. destruct R as [Pk ->]. rewrite app_nil_r in *.
  inversion Sz as [|? ? _ Sz']; subst. apply sized_parts in Sz'. destruct Sz' as [_ Sz']. apply sized_parts in Sz'. destruct Sz' as [Szt Sz'].
  inversion Sz' as [|? ? _ Szf]; subst. clear Sz'.
  assert (Fc : fine_value c) by (eapply stmt_operand; [| |exact Fe]; constructor).
  assert (Ft : Forall fine_stmt th) by (eapply fine_list; [|exact Fe]; intros x Ix; constructor; exact Ix).
  pose proof (proj2 Fe _ (wi_here _)) as Ns. cbn [recoverable_here] in Ns.
  destruct (proj1 (values_read s p this place) _ _ V Fc _ _ Rc) as [Re _].
  pose proof (res_total _ _ _ _ Rc) as Tc. pose proof (res_total _ _ _ _ Rt) as Tt. pose proof (res_total _ _ _ _ Rf) as Tf.
  destruct (IH1 _ _ Rt Szt ltac:(lia) ltac:(lia) ltac:(eapply inside_sub; [exact Ins|lia|lia])) as (r & d & lt & -> & P & C & E & D & F).
  destruct (IH2 _ _ Rf Szf ltac:(lia) ltac:(lia) ltac:(eapply inside_sub; [exact Ins|lia|lia])) as (r2 & d2 & lf & -> & P2 & C2 & E2 & D2 & F2).
  clear IH1 IH2. rewrite !total_app in *.
  assert (O : o = 3 + total qc + total r + (total d + 3)) by (apply offset_of in Eo; [lia|exact Io|lia|lia|lia]).
  assert (Oj : oj = 3 + (total r2 + total d2)) by (apply offset_of in Ejj; [lia|exact Ij|lia|lia|lia]).
  assert (Jb : forall l0, In (Jump l0) ct -> a < place l0).
  { intros l0 I. pose proof (no_back _ _ _ b _ _ Q1 Ft Rt ltac:(eapply inside_sub; [exact Ins|lia|lia]) l0 I). lia. }
  assert (Ej : existsb (jumps_to a) (code_iter a (JumpIfFalse o :: qc ++ (r ++ d) ++ [Jump oj])) = false).
  { apply (cond_no_back c cc ct _ _ _ [Jump k] _ V Fc Rc Rt Jb l o Eo Io); [|exact A|lia]. right. exists k, oj. repeat split; auto; lia. }
  rewrite <- Tc in P. change 3 with (instr_size (JumpIfFalse o)) in P at 1.
  destruct (stops (normal p th)) eqn:St.
  - (* the then-part does not end normally *)
    assert (Rj : resolve_jump lt = None) by (apply last_map_none, okay_jumps, F).
    rewrite <- app_assoc in Ej.
    destruct (if_step b a o qc (show p c) r lt (d ++ [Jump oj]) (fun _ => xret (EIf (N := source_ast) (show p c) lt None span0)) Re P
      ltac:(change (instr_size (JumpIfFalse o)) with 3; rewrite total_app; cbn [total]; change (instr_size (Jump oj)) with 3; lia)
      (or_introl E) Ej ltac:(rewrite Rj; reflexivity)) as [N H2].
    exists ((JumpIfFalse o :: qc ++ r ++ d ++ [Jump oj]) ++ r2), d2, (EIf (N := source_ast) (show p c) lt None span0 :: lf).
    split; [cbn [app]; rewrite <- !app_assoc; cbn [app]; rewrite <- ?app_assoc; reflexivity|]. split.
    { apply p_cons; [discriminate| |reflexivity|].
      - exists (S N). intros [|n] Ln pre post Ap Rp; [lia|]. apply H2; [lia|exact Ap|exact Rp].
      - replace (a + total (JumpIfFalse o :: qc ++ r ++ d ++ [Jump oj])) with (a + 3 + total cc + total ct + 3); [exact P2|].
        cbn [total]. rewrite !total_app. cbn [total]. change (instr_size (JumpIfFalse o)) with 3. change (instr_size (Jump oj)) with 3. lia. }
    split; [cbn [clean blank map show]; rewrite clean_if, C, C2; reflexivity|].
    change (EIf (N := source_ast) (show p c) lt None span0 :: lf) with ([EIf (N := source_ast) (show p c) lt None span0] ++ lf).
    change (EIf c (normal p th) None sp :: normal p el) with ([EIf c (normal p th) None sp] ++ normal p el).
    rewrite last_ends_join, stops_join by reflexivity. split; [exact E2|]. split; [exact D2|].
    apply Forall_app. split; [|exact F2]. constructor; [|constructor]. apply okay_if; [apply okay_jumps, F|exact I].
  - assert (d = []) as -> by (apply D; left; reflexivity). rewrite app_nil_r in *. cbn [total] in *.
    assert (d2 = []) as -> by (apply D2; right; destruct Ns; [congruence|assumption]). rewrite app_nil_r in *. cbn [total] in *.
    destruct r2 as [|i r2].
    + (* an empty else *)
      apply path_empty in P2. subst lf. cbn [clean] in C2. symmetry in C2. apply map_eq_nil in C2. rewrite C2.
      cbn [total] in *. assert (oj = 3) as -> by lia.
      assert (P3 : path b (a + instr_size (JumpIfFalse o) + total qc) (r ++ [Jump 3]) (lt ++ [Decompiler.s_empty])).
      { apply path_app; [exact P|exact E|]. apply p_last; [discriminate|]. apply jump_next. }
      assert (Rj : resolve_jump (lt ++ [Decompiler.s_empty]) = None) by (apply last_map_none, okay_empty, F).
      destruct (if_step b a o qc (show p c) (r ++ [Jump 3]) _ [] (fun _ => xret (EIf (N := source_ast) (show p c) (lt ++ [Decompiler.s_empty]) None span0)) Re P3
        ltac:(change (instr_size (JumpIfFalse o)) with 3; rewrite total_app; cbn [total]; change (instr_size (Jump 3)) with 3; lia)
        (or_intror eq_refl) ltac:(rewrite app_nil_r; exact Ej) ltac:(rewrite Rj; reflexivity)) as [N H2].
      assert (Rv : recovers b a (JumpIfFalse o :: qc ++ r ++ [Jump 3]) [EIf c (normal p th) None sp] false).
      { apply (recovers_one _ _ _ _ (EIf (N := source_ast) (show p c) (lt ++ [Decompiler.s_empty]) None span0)).
        - discriminate.
        - exists (S N). intros [|n] Ln pre post Ap Rp; [lia|]. rewrite app_nil_r in H2. apply H2; [lia|exact Ap|exact Rp].
        - rewrite clean_if, clean_empty, C. reflexivity.
        - apply okay_if; [apply okay_empty, F|exact I].
        - reflexivity. }
      destruct Rv as (x & y & z & X1 & X2 & X3 & X4 & X5 & X6). exists x, y, z. repeat (split; [assumption|]). split; [|assumption]. intros _. apply X5. right. reflexivity.
    + (* both parts *)
      pose proof (total_pos _ Szf ltac:(discriminate)) as Pos.
      assert (Ne : exists m ms, normal p el = m :: ms).
      { destruct (normal p el) as [|m ms]; [|eauto]. apply clean_none in C2; [|exact F2]. apply (path_full _ _ _ _ P2) in C2. discriminate C2. }
      destruct Ne as (m & ms & Em). rewrite Em in *. remember (i :: r2) as qf eqn:Eqf. clear i r2 Eqf.
      assert (P3 : path b (a + instr_size (JumpIfFalse o) + total qc) (r ++ [Jump oj]) (lt ++ [EGoto (N := source_ast) (place k) span0])).
      { apply path_app; [exact P|exact E|]. apply p_last; [discriminate|].
        replace (place k) with (absolute oj (a + instr_size (JumpIfFalse o) + total qc + total r)).
        - apply jump_goto; [lia|]. change (instr_size (JumpIfFalse o)) with 3.
          replace (a + 3 + total qc + total r) with (a + 3 + total cc + total ct) by lia. rewrite Ejj. eapply inside_clear; [exact Ins|lia].
        - change (instr_size (JumpIfFalse o)) with 3. replace (a + 3 + total qc + total r) with (a + 3 + total cc + total ct) by lia. exact Ejj. }
      assert (Rj : resolve_jump (lt ++ [EGoto (N := source_ast) (place k) span0]) = Some (place k, lt ++ [Decompiler.s_empty])).
      { apply last_map_end; [apply okay_jumps, F|reflexivity]. }
      destruct (if_step b a o qc (show p c) (r ++ [Jump oj]) _ []
        (fun x cu => xbind (consume_path (rec x) x (place k) b) (fun el => xret (EIf (N := source_ast) (show p c) (lt ++ [Decompiler.s_empty]) (Some el) span0)) cu) Re P3
        ltac:(change (instr_size (JumpIfFalse o)) with 3; rewrite total_app; cbn [total]; change (instr_size (Jump oj)) with 3; lia)
        (or_intror eq_refl) ltac:(rewrite app_nil_r; exact Ej) ltac:(rewrite Rj; reflexivity)) as [N H2].
      rewrite app_nil_r in H2.
      destruct (path_done _ _ _ _ P2) as [N2 H3].
      exists (JumpIfFalse o :: qc ++ (r ++ [Jump oj]) ++ qf), [], [EIf (N := source_ast) (show p c) (lt ++ [Decompiler.s_empty]) (Some lf) span0].
      split; [rewrite app_nil_r, <- !app_assoc; reflexivity|]. split.
      { apply p_last; [discriminate|]. exists (S (N + N2)). intros [|n] Ln pre post Ap Rp; [lia|].
        replace ((JumpIfFalse o :: qc ++ (r ++ [Jump oj]) ++ qf) ++ post) with ((JumpIfFalse o :: qc ++ r ++ [Jump oj]) ++ qf ++ post)
          in * by (cbn [app]; rewrite <- !app_assoc; cbn [app]; rewrite <- ?app_assoc; reflexivity).
        rewrite (H2 n ltac:(lia) pre (qf ++ post) Ap Rp).
        assert (Tp : total (pre ++ JumpIfFalse o :: qc ++ r ++ [Jump oj]) = a + 3 + total cc + total ct + 3).
        { rewrite total_app. cbn [total]. rewrite !total_app. cbn [total]. change (instr_size (JumpIfFalse o)) with 3. change (instr_size (Jump oj)) with 3. lia. }
        assert (E3 : consume_path (rec n) n (place k) b (cur (pre ++ JumpIfFalse o :: qc ++ r ++ [Jump oj]) (qf ++ post)) =
          Done (lf, cur (pre ++ JumpIfFalse o :: qc ++ (r ++ [Jump oj]) ++ qf) post)).
        { pose proof (H3 n n ltac:(lia) ltac:(lia) (place k) (pre ++ JumpIfFalse o :: qc ++ r ++ [Jump oj]) post) as E3.
          rewrite E3; [f_equal; f_equal; f_equal; rewrite <- ?app_assoc; cbn [app]; rewrite <- ?app_assoc; reflexivity|exact Tp| |lia|right; lia].
          rewrite <- app_assoc. exact Rp. }
        rewrite (xbind_done _ _ _ _ _ E3). reflexivity. }
      split; [cbn [clean blank map show]; rewrite clean_if, clean_empty, C, C2; reflexivity|]. split; [reflexivity|]. split; [reflexivity|].
      constructor; [|constructor]. apply okay_if; [apply okay_empty, F|apply okay_jumps, F2].
Qed.

Lemma statements_read :
  (forall e exit c, sshape s p e exit c -> fine_stmt e -> forall b a q, res c a q -> sized q -> 0 <= a -> a + total c < 32768 ->
     inside b exit a (a + total c) -> recovers b a q (normal1 p e) (dead1 p e)) /\
  (forall es exit c, qshape s p es exit c -> Forall fine_stmt es -> forall b a q, res c a q -> sized q -> 0 <= a -> a + total c < 32768 ->
     inside b exit a (a + total c) -> recovers b a q (normal p es) (dead p es)) /\
  (forall out d c, dshape s p out d c -> True) /\
  (forall out cases body next c next', cshape s p out cases body next c next' -> True).
Proof.
  apply sshape_all; try (intros; exact I).
  - intros e exit c St V Fe b a q R _ _ _ _. pose proof (value_stmt _ _ V (value_fine _ St Fe) b a q R) as H.
    destruct e; try exact H; discriminate St.
  - intros l t x sp exit c i1 i2 -> -> V Fe b a q R _ _ _ _. 
    assert (Fx : fine_value x) by (eapply stmt_operand; [| |exact Fe]; constructor).
    pose proof (proj2 Fe _ (wi_here _)) as [Nl _].
    apply res_plain in R; [|reflexivity|reflexivity]. destruct R as (q1 & -> & R). apply res_plain in R; [|reflexivity|reflexivity]. destruct R as (q2 & -> & R).
    destruct (proj1 (values_read s p this place) _ _ V Fx _ _ R) as [Re _].
    assert (Hr : recovers b a (Assign :: Local l :: q2) [EDeclare (N := typed_ast) l t (Some x) sp] false).
    { apply (recovers_one _ _ _ _ (EAssign (N := source_ast) (shown p l) (show p x) span0)); [discriminate| |destruct t; reflexivity|split; reflexivity|reflexivity].
      apply assign_stmt; [exact Nl|]. rewrite <- (app_nil_r q2). apply nreads_cons; [exact place|exact Re|apply nreads_nil]. }
    destruct t; exact Hr.
  - intros l t sp exit Iv Fe b a q R _ _ _ _. apply res_nil in R. subst q. cbn [normal1 dead1]. rewrite Iv.
    exists [], [], []. repeat split; constructor.
  - intros l t sp exit o i Iv On Fe b a q R _ _ _ _. pose proof (proj2 Fe _ (wi_here _)) as [Nl Ni].
    destruct (initial_op _ _ Iv Ni) as [No Ko]. destruct On as (O1 & O2 & O3).
    apply res_plain in R; [|reflexivity|reflexivity]. destruct R as (q1 & -> & R). apply res_plain in R; [|reflexivity|reflexivity]. destruct R as (q2 & -> & R).
    apply res_plain in R; [|exact O1|exact O2]. destruct R as (q3 & -> & R). apply res_nil in R. subst q3.
    cbn [normal1 dead1]. rewrite Iv.
    apply (recovers_one _ _ _ _ (EAssign (N := source_ast) (shown p l) (show_op p o []) span0)); [discriminate| | |split; reflexivity|reflexivity].
    + apply assign_stmt; [exact Nl|]. change [at_zero i] with ([at_zero i] ++ []). apply nreads_cons; [exact place| |apply nreads_nil].
      apply (op_reads p this place _ _ 0%nat); [exact O3|exact No|reflexivity|apply nreads_nil].
    + cbn [clean1 show]. rewrite Iv. destruct o; try contradiction Ko; reflexivity.
  - intros l t sp exit n i Iv On Fe b a q R _ _ _ _. pose proof (proj2 Fe _ (wi_here _)) as [Nl Ni]. destruct On as (O1 & O2 & O3).
    apply res_plain in R; [|exact O1|exact O2]. destruct R as (q1 & -> & R). apply res_plain in R; [|reflexivity|reflexivity]. destruct R as (q2 & -> & R).
    apply res_nil in R. subst q2. cbn [normal1 dead1]. rewrite Iv.
    apply (recovers_one _ _ _ _ (show_op p (OpIntrinsic IArrayClear (Some n)) [shown p l])); [discriminate| | |split; reflexivity|reflexivity].
    + apply stmt_of_reads. apply (op_reads p this place _ _ 1%nat); [exact O3|exact I|reflexivity|].
      change [at_zero (Local l)] with ([Local (Loc := Z) l] ++ []). apply nreads_cons; [exact place| |apply nreads_nil].
      apply (op_reads p this place (Local l) (OpLocal l) 0 [] []); [reflexivity|exact Nl|reflexivity|apply nreads_nil].
    + cbn [clean1 show show_op]. rewrite Iv. reflexivity.
  - intros l t sp exit n c Iv Nm Pr Fe. destruct (text_init p Co t n Iv Nm Pr).
  - intros x sp exit c V Fe b a q R _ _ _ _. assert (Fx : fine_value x) by (eapply stmt_operand; [| |exact Fe]; constructor).
    apply res_plain in R; [|reflexivity|reflexivity]. destruct R as (q1 & -> & R).
    destruct (proj1 (values_read s p this place) _ _ V Fx _ _ R) as [Re Hd].
    apply (recovers_one _ _ _ _ (EReturn (N := source_ast) (Some (show p x)) span0)); [discriminate| |reflexivity|split; reflexivity|reflexivity].
    apply return_stmt; assumption.
  - intros sp exit Fe b a q R _ _ _ _. apply res_plain in R; [|reflexivity|reflexivity]. destruct R as (q1 & -> & R).
    apply res_plain in R; [|reflexivity|reflexivity]. destruct R as (q2 & -> & R). apply res_nil in R. subst q2.
    apply (recovers_one _ _ _ _ (EReturn (N := source_ast) None span0)); [discriminate| |reflexivity|split; reflexivity|reflexivity]. apply return_none.
  - intros sp l Fe b a q R _ A L Ins. apply res_jump in R. destruct R as (o & q1 & -> & Io & Eo & R). apply res_nil in R. subst q1.
    destruct Ins as [[_ X]|(pro & epi & l0 & -> & [= <-] & Pl & H1 & H2)]; [discriminate X|].
    cbn [total] in *. change (instr_size (Jump l)) with 3 in *.
    apply (recovers_one _ _ _ _ (EBreak (N := source_ast) span0)); [discriminate| |reflexivity|split; reflexivity|reflexivity].
    apply jump_break; [|congruence]. intros ->. unfold absolute, wrap_u in Eo. change (2 ^ 16) with 65536 in Eo. rewrite Z.mod_small in Eo by lia. lia.
  - intros es exit c Q IH Fe. apply IH. eapply fine_list; [|exact Fe]. intros x Ix. constructor. exact Ix.
  - intros c th sp exit l cc ct V Q IH Fe b a q R Sz A L Ins. eapply if_case; try eassumption. apply IH.
    eapply fine_list; [|exact Fe]. intros x Ix. constructor. exact Ix.
  - intros c th el sp exit l k cc ct cf V Q1 IH1 Q2 IH2 Fe b a q R Sz A L Ins. eapply ifelse_case; try eassumption; [apply IH1|apply IH2];
      (eapply fine_list; [|exact Fe]); intros x Ix; constructor; exact Ix.
  - intros c bd sp exit l k cc cb V Q IH Fe b a q R Sz A L _. eapply while_case; try eassumption. intros b'. apply IH.
    eapply fine_list; [|exact Fe]. intros x Ix. constructor. exact Ix.
  - intros e cases default sp exit out first next next' t n ce cc cd _ _ _ _ _ _ _ Fe. destruct (proj2 Fe _ (wi_here _)).
  - intros exit _ b a q R _ _ _ _. apply res_nil in R. subst q. exists [], [], []. repeat split; constructor.
  - intros e es exit c cs Sh IH St Q IHs Fe b a q R Sz A L Ins. inversion Fe as [|? ? Fe1 Fe2]; subst. apply res_app in R. destruct R as (q1 & q2 & -> & R1 & R2).
    apply sized_parts in Sz. destruct Sz as [Sz1 Sz2]. rewrite total_app in L, Ins. pose proof (total_nonneg c). pose proof (total_nonneg cs).
    pose proof (res_total _ _ _ _ R1) as T1.
    destruct (IH Fe1 b _ _ R1 Sz1 A ltac:(lia) ltac:(eapply inside_sub; [exact Ins|lia|lia])) as (r1 & d1 & l1 & -> & P1 & C1 & E1 & D1 & F1).
    destruct (IHs Fe2 b _ _ R2 Sz2 ltac:(lia) ltac:(lia) ltac:(eapply inside_sub; [exact Ins|lia|lia])) as (r2 & d2 & l2 & -> & P2 & C2 & E2 & D2 & F2).
    cbn [normal dead]. destruct (stops (normal1 p e)) eqn:Sp.
    + exists r1, (d1 ++ r2 ++ d2), l1. split; [rewrite <- !app_assoc; reflexivity|]. split; [exact P1|]. split; [exact C1|]. split; [congruence|]. split; [|exact F1].
      intros [X|X]; [congruence|]. apply orb_false_iff in X. destruct X as [X Y]. rewrite (D1 (or_intror X)).
      destruct es as [|e2 es]; [|discriminate Y]. inversion Q; subst. apply res_nil in R2. rewrite R2. reflexivity.
    + assert (d1 = []) as -> by (apply D1; left; reflexivity). rewrite app_nil_r in *.
      exists (r1 ++ r2), d2, (l1 ++ l2). split; [rewrite <- !app_assoc; reflexivity|]. split; [apply path_app; [exact P1|exact E1|]; rewrite T1; exact P2|].
      split; [rewrite clean_app, map_app, C1, C2; reflexivity|]. rewrite last_ends_join, stops_join by assumption. split; [exact E2|]. split; [exact D2|].
      apply Forall_app. split; assumption.
Qed.
End Flow.
