(** The machine on assembled code (proof device). *)
From Coq Require Import String.
From Coq Require Import ZArith List Bool Lia.
From Verif Require Import Bytes BytesFacts Bytecode BytecodeFacts Definitions Bundle Ast Pool Scope TypeCheck
  Cursor CursorSpec CursorFacts AssemblerFacts PartsSpec LabelSpec Semantics BodySpec Machine ShapeFacts.
Import ListNotations.
Open Scope Z_scope.

(** * More fuel gives the same answer *)
Section Mono.
Variables (R : runtime) (p : pool) (out : code Z).
Notation St := (state R).
Notation Val := (value R).
Definition below {A} (x y : answer A) : Prop := x = Halt OutOfFuel \/ y = x.
Lemma below_refl {A} (x : answer A) : below x x. Proof. right. reflexivity. Qed.
Lemma below_oof {A} (y : answer A) : below (Halt OutOfFuel) y. Proof. left. reflexivity. Qed.
Lemma below_then {A B} (x y : answer A) (f g : A -> answer B) : below x y -> (forall a, below (f a) (g a)) -> below (then_ x f) (then_ y g).
Proof. intros [->| ->] H; [left; reflexivity|]. destruct x; [apply H|apply below_refl]. Qed.
Definition ev_below (e e' : Z -> option Val -> St -> answer (Val * Z * St)) : Prop := forall a t w, below (e a t w) (e' a t w).
Lemma operands_mono e e' : ev_below e e' -> forall k a w, below (operands R e k a w) (operands R e' k a w).
Proof.
  intros H. induction k as [|k IH]; intros a w; cbn [operands]; [apply below_refl|].
  apply below_then; [apply H|]. intros [[v a1] w1]. apply below_then; [apply IH|]. intros [[vs a2] w2]. apply below_refl.
Qed.
Lemma arguments_mono e e' o this : ev_below e e' -> forall f f' a acc w, (f <= f')%nat ->
  below (arguments R out e o this f a acc w) (arguments R out e' o this f' a acc w).
Proof.
  intros H. induction f as [|f IH]; intros f' a acc w L; [left; reflexivity|]. destruct f' as [|f']; [lia|].
  assert (L' : (f <= f')%nat) by lia. cbn [arguments]. destruct (fetch out a) as [i|]; [|apply below_refl].
  destruct i; try (apply below_then; [apply H|]; intros [[v a1] w1]; apply IH; exact L'); try (apply IH; exact L'); try apply below_refl.
  destruct (skips R o this acc w); [apply IH; exact L'|]. apply below_then; [apply H|]. intros [[v a1] w1]. apply IH. exact L'.
Qed.
Lemma value_mono n : forall m, (n <= m)%nat -> ev_below (value_at R p out n) (value_at R p out m).
Proof.
  induction n as [|n IH]; intros m L a this w; [left; reflexivity|]. destruct m as [|m]; [lia|].
  assert (L' : (n <= m)%nat) by lia. specialize (IH m L'). cbn [value_at]. destruct (fetch out a) as [i|]; [|apply below_refl].
  destruct i; try (apply below_then; [apply below_refl|]; intros [o k]; apply below_then; [apply operands_mono, IH|];
    intros [[vs a1] w1]; apply below_refl).
  - apply below_then; [apply IH|]. intros [[v a1] w1]. destruct (truth R v w1); [|apply IH].
    apply below_then; [apply IH|]. intros [[r a2] w2]. apply below_refl.
  - apply below_then; [apply below_refl|]. intros k. apply below_then; [apply arguments_mono; [exact IH|exact L']|]. intros [[vs a1] w1]. apply below_refl.
  - apply below_then; [apply below_refl|]. intros k. apply below_then; [apply arguments_mono; [exact IH|exact L']|]. intros [[vs a1] w1]. apply below_refl.
  - apply below_then; [apply IH|]. intros [[v a1] w1]. destruct (is_null R v w1); [apply below_refl|apply IH].
Qed.
Lemma go_mono n : forall m md a w, (n <= m)%nat -> below (go R p out n md a w) (go R p out m md a w).
Proof.
  induction n as [|n IH]; intros m md a w L; [left; reflexivity|]. destruct m as [|m]; [lia|].
  assert (L' : (n <= m)%nat) by lia. pose proof (value_mono _ _ L') as V. cbn [go]. destruct md as [|t v].
  - destruct (fetch out a) as [i|]; [|apply below_refl].
    destruct i; try (apply below_then; [apply V|]; intros [[v a1] w1]; apply IH; exact L'); try (apply IH; exact L'); try apply below_refl.
    + apply below_then; [apply V|]. intros [[v a1] w1]. destruct (def_name p _); [apply IH; exact L'|apply below_refl].
    + destruct (fetch out _) as [j|]; [destruct j|]; try apply below_refl; (apply below_then; [apply V|]; intros [[v a1] w1]; apply below_refl).
  - destruct (fetch out a) as [i|]; [|apply IH; exact L']. destruct i; try (apply IH; exact L').
    apply below_then; [apply V|]. intros [[x a1] w1]. destruct (same R t v x w1); apply IH; exact L'.
Qed.
End Mono.

(** * Instructions in place *)
Lemma map_loc_none {L M} (f : M -> L) (g : L -> M) i : locs i = [] -> map_loc f (map_loc g i) = i.
Proof. destruct i; intros H; try discriminate H; reflexivity. Qed.
Lemma size_map_loc {L M} (f : L -> M) i : instr_size (map_loc f i) = instr_size i.
Proof. destruct i; reflexivity. Qed.
Lemma resolved_plain (i : instr label) (j : instr Z) : locs i = [] -> map_loc (fun _ => tt) j = map_loc (fun _ => tt) i -> j = at_zero i.
Proof.
  intros N E. assert (Nj : locs j = []).
  { pose proof (locs_map_loc (fun _ => tt) j) as A. rewrite E, locs_map_loc, N in A. cbn in A. symmetry in A. apply map_eq_nil in A. exact A. }
  rewrite <- (map_loc_none (fun _ : unit => 0) (fun _ => tt) j Nj), E, map_loc_map. reflexivity.
Qed.
Lemma resolved_size (i : instr label) (j : instr Z) : map_loc (fun _ => tt) j = map_loc (fun _ => tt) i -> instr_size j = instr_size i.
Proof. intros E. rewrite <- (size_map_loc (fun _ => tt) j), E. apply size_map_loc. Qed.

Section Placed.
Variables (R : runtime) (s : scope) (p : pool) (U : code label) (out : code Z) (place : nat -> Z).
Notation St := (state R).
Notation Val := (value R).
Notation fetch := (fetch out).
Notation value_at := (value_at R p out).
Notation arguments := (arguments R out).
Notation go := (go R p out).
Hypothesis Resolved : forall pre i post, U = pre ++ i :: post -> is_target i = false ->
  exists j, fetch (total pre) = Some j /\ map_loc (fun _ => tt) j = map_loc (fun _ => tt) i /\
            Forall2 (fun l o => absolute o (total pre) = place l) (locs i) (locs j).
Hypothesis Marked : forall pre l post, U = pre ++ Target l :: post -> place l = total pre.

(** [c] is the code at position [a]. *)
Definition seg (c : code label) (a : Z) : Prop := exists pre post, U = pre ++ c ++ post /\ total pre = a.
Lemma seg_left c d a : seg (c ++ d) a -> seg c a.
Proof. intros (pre & post & E & T). exists pre, (d ++ post). rewrite E, <- app_assoc. auto. Qed.
Lemma seg_right c d a : seg (c ++ d) a -> seg d (a + total c).
Proof. intros (pre & post & E & T). exists (pre ++ c), post. rewrite E, total_app, T. rewrite <- !app_assoc. auto. Qed.
Lemma seg_head i c a : seg (i :: c) a -> is_target i = false ->
  exists j, fetch a = Some j /\ map_loc (fun _ => tt) j = map_loc (fun _ => tt) i /\ Forall2 (fun l o => absolute o a = place l) (locs i) (locs j).
Proof. intros (pre & post & E & T) N. cbn [app] in E. destruct (Resolved _ _ _ E N) as (j & J). rewrite T in J. exists j. exact J. Qed.
Lemma seg_tail i c a : seg (i :: c) a -> seg c (a + instr_size i).
Proof. intros H. apply (seg_right [i] c) in H. cbn [total] in H. rewrite Z.add_0_r in H. exact H. Qed.
Lemma seg_target l c a : seg (Target l :: c) a -> place l = a.
Proof. intros (pre & post & E & T). rewrite <- T. exact (Marked _ _ _ E). Qed.
Lemma seg_target_tail l c a : seg (Target l :: c) a -> seg c a.
Proof. intros H. apply seg_tail in H. rewrite target_size, Z.add_0_r in H. exact H. Qed.
Lemma seg_plain i c a : seg (i :: c) a -> locs i = [] -> is_target i = false -> fetch a = Some (at_zero i).
Proof. intros H L N. destruct (seg_head _ _ _ H N) as (j & F & E & _). rewrite F. f_equal. exact (resolved_plain _ _ L E). Qed.

(** Instructions in Running mode that are run for their value. *)
Definition vlike (j : instr Z) : bool :=
  match j with
  | Conditional _ _ | Context _ | InvokeStatic _ _ _ _ | InvokeVirtual _ _ _ _ => true
  | _ => match operation p j with Some _ => true | None => false end
  end.
Definition value_here (a : Z) : Prop := exists j, fetch a = Some j /\ vlike j = true.
Lemma operation_vlike j x : operation p j = Some x -> vlike j = true.
Proof. intros H. unfold vlike. destruct j; try reflexivity; rewrite H; reflexivity. Qed.

Lemma one_here i o n c a : one p i o n -> seg (i :: c) a -> value_here a.
Proof.
  intros (L & T & O) G. exists (at_zero i). split; [apply (seg_plain _ _ _ G L T)|]. exact (operation_vlike _ _ O).
Qed.
Lemma call_here i c a : is_call i = true -> seg (i :: c) a -> value_here a.
Proof.
  intros C G. destruct (seg_head _ _ _ G) as (j & F & E & _); [destruct i; try discriminate C; reflexivity|].
  exists j. split; [exact F|]. destruct i; try discriminate C; destruct j; try discriminate E; reflexivity.
Qed.

(** * Values *)
Definition lift (e : Z) (r : answer (Val * St)) : answer (Val * Z * St) := ask (v, w) := r in Ans (v, e, w).
Definition lifts (e : Z) (r : answer (list (option Val) * St)) : answer (list (option Val) * Z * St) := ask (v, w) := r in Ans (v, e, w).
Definition vfinal (a : Z) (this : option Val) (w : St) (r : answer (Val * Z * St)) : Prop :=
  exists k, forall n, (k <= n)%nat -> value_at n a this w = r.
Definition vsim (c : code label) (a : Z) (this : option Val) (f : St -> answer (Val * St)) : Prop :=
  forall w, f w <> Halt Malformed -> vfinal a this w (lift (a + total c) (f w)).

Lemma vfinal_any a this w r : vfinal a this w r -> forall n, value_at n a this w = Halt OutOfFuel \/ value_at n a this w = r.
Proof.
  intros [k K] n. destruct (value_mono R p out n (Nat.max n k) ltac:(lia) a this w) as [H|H]; [left; exact H|].
  right. rewrite <- H. apply K. lia.
Qed.

(** An instruction with operands. *)
Definition osim (c : code label) (a : Z) (k : nat) (g : St -> answer (list (option Val) * St)) : Prop :=
  forall w, g w <> Halt Malformed -> exists m, forall n, (m <= n)%nat -> operands R (value_at n) k a w = lifts (a + total c) (g w).
Lemma osim_nil a : osim [] a 0 (fun w => Ans ([], w)).
Proof. intros w _. exists O. intros n _. cbn [operands lifts then_ total]. rewrite Z.add_0_r. reflexivity. Qed.
Lemma osim_cons c cs a k f g : vsim c a None f -> osim cs (a + total c) k g ->
  osim (c ++ cs) a (S k) (fun w => ask (v, w1) := f w in ask (vs, w2) := g w1 in Ans (Some v :: vs, w2)).
Proof.
  intros V O w N. rewrite total_app, Z.add_assoc. destruct (f w) as [[v w1]|h] eqn:E; cbn [then_] in N.
  - destruct (V w) as [k1 K1]; [rewrite E; discriminate|]. destruct (O w1) as [k2 K2]; [intros X; apply N; rewrite X; reflexivity|].
    exists (Nat.max k1 k2). intros n L. cbn [operands]. rewrite K1 by lia. rewrite E. unfold lift. cbn [then_].
    rewrite K2 by lia. destruct (g w1) as [[vs w2]|h]; reflexivity.
  - destruct (V w) as [k1 K1]; [rewrite E; intros [= ->]; apply N; reflexivity|]. exists k1. intros n L. cbn [operands]. rewrite K1 by lia. rewrite E. reflexivity.
Qed.
Lemma value_op n a this w j o k : fetch a = Some j -> operation p j = Some (o, k) ->
  value_at (S n) a this w =
  (ask (vs, at1, w1) := operands R (value_at n) k (a + instr_size j) w in ask (v, w2) := perform R o this vs w1 in Ans (v, at1, w2)).
Proof. intros F O. cbn [Machine.value_at]. rewrite F. destruct j; try discriminate O; cbn [need]; rewrite O; reflexivity. Qed.
Lemma op_sim i o k c a this g : one p i o k -> seg (i :: c) a -> osim c (a + instr_size i) k g ->
  vsim (i :: c) a this (fun w => ask (vs, w1) := g w in perform R o this vs w1).
Proof.
  intros (L & T & O) G S w N. pose proof (seg_plain _ _ _ G L T) as F.
  assert (Z : instr_size (at_zero i) = instr_size i) by apply size_map_loc.
  destruct (S w) as [m M]; [intros X; apply N; rewrite X; reflexivity|].
  exists (Datatypes.S m). intros n Ln. destruct n as [|n]; [lia|]. rewrite (value_op _ _ _ _ _ _ _ F O), Z, M by lia.
  cbn [total]. rewrite Z.add_assoc. destruct (g w) as [[vs w1]|h]; [|reflexivity]. cbn [lifts then_].
  destruct (perform R o this vs w1) as [[v w2]|h]; reflexivity.
Qed.

Lemma kshape_here f args super c a : kshape s p f args super c -> seg c a -> callee_of p f super = None \/ value_here a.
Proof. intros K G. destruct K; [right; eapply call_here; eassumption|left; assumption]. Qed.
Lemma vshape_here e c a : vshape s p e c -> seg c a -> (forall w, eval R s p e w = Halt Malformed) \/ value_here a.
Proof.
  intros V G. destruct V.
  - right. eapply one_here; eassumption.
  - left. auto.
  - right. destruct (seg_head _ _ _ G eq_refl) as (j & F & E & _). exists j. split; [exact F|]. destruct j; try discriminate E; reflexivity.
  - right. destruct (seg_head _ _ _ G eq_refl) as (j & F & E & _). exists j. split; [exact F|]. destruct j; try discriminate E; reflexivity.
  - destruct (kshape_here _ _ _ _ _ H G) as [N|H']; [left|right; exact H']. intros w. cbn [eval]. unfold eval_call. rewrite N. reflexivity.
  - destruct (kshape_here _ _ _ _ _ H0 G) as [N|H']; [left|right; exact H']. intros w.
    destruct e; try discriminate H. destruct r as [|[]]; try discriminate H; cbn [eval]; unfold eval_call; rewrite N; reflexivity.
  - right. destruct (seg_head _ _ _ G eq_refl) as (j & F & E & _). exists j. split; [exact F|]. destruct j; try discriminate E; reflexivity.
Qed.
Lemma eval_method e f args sp w : type_symbol e = false -> eval R s p (EMethodCall (N := typed_ast) e f args sp) w =
  (ask (v, w1) := eval R s p e w in if is_null R v w1 then Ans (no_value R, w1) else eval_call R p (eval R s p) f (is_super e) (Some v) args w1).
Proof.
  intros T. destruct e; try reflexivity. destruct r as [|[]]; try discriminate T; reflexivity.
Qed.
Lemma eval_static e f args sp w : type_symbol e = true -> eval R s p (EMethodCall (N := typed_ast) e f args sp) w =
  eval_call R p (eval R s p) f true None args w.
Proof. intros T. destruct e; try discriminate T. destruct r as [|[]]; try discriminate T; reflexivity. Qed.

Notation ev_args := (eval_args R (eval R s p)).
Definition asim (args : list texpr) (flags : list bool) (c : code label) : Prop :=
  forall a acc w o this, (length args <= length flags)%nat ->
    let d := c ++ repeat Nop (length flags - length args) ++ [ParamEnd] in
    seg d a -> ev_args o this args flags acc w <> Halt Malformed ->
    exists m, forall n f, (m <= n)%nat -> (m <= f)%nat ->
      arguments (value_at n) o this f a acc w = lifts (a + total d) (ev_args o this args flags acc w).

Lemma nops_sim flags : asim [] flags [].
Proof.
  intros a acc w o this _. cbn [length app]. rewrite Nat.sub_0_r. cbn [eval_args]. revert a acc.
  induction flags as [|x flags IH]; intros a acc G N; cbn [length repeat app] in *.
  - exists 1%nat. intros n f _ Lf. destruct f as [|f]; [lia|]. cbn [Machine.arguments]. rewrite (seg_plain _ _ _ G eq_refl eq_refl).
    cbn [at_zero map_loc lifts then_ total]. rewrite app_nil_r. rewrite Z.add_0_r. reflexivity.
  - destruct (IH (a + instr_size (L := nat) Nop) (acc ++ [None])) as [m M]; [apply (seg_tail _ _ _ G)|discriminate|].
    exists (S m). intros n f Ln Lf. destruct f as [|f]; [lia|]. cbn [Machine.arguments].
    rewrite (seg_plain _ _ _ G eq_refl eq_refl). cbn [at_zero map_loc].
    change (instr_size (L := Z) Nop) with (instr_size (L := nat) Nop). rewrite M by lia.
    cbn [lifts then_ total]. rewrite <- app_assoc, Z.add_assoc. reflexivity.
Qed.
Lemma arguments_value n f a acc w o this : value_here a ->
  arguments (value_at n) o this (S f) a acc w =
  (ask (v, at1, w1) := value_at n a None w in arguments (value_at n) o this f at1 (acc ++ [Some v]) w1).
Proof. intros (j & F & V). cbn [Machine.arguments]. rewrite F. destruct j; try reflexivity; discriminate V. Qed.

Lemma value_cond n a this w f e : fetch a = Some (Conditional f e) -> value_at (S n) a this w =
  (ask (v, at1, w1) := value_at n (a + instr_size (L := nat) (Conditional O O)) None w in
   if truth R v w1 then ask (r, _, w2) := value_at n at1 None w1 in Ans (r, absolute e a, w2) else value_at n (absolute f a) None w1).
Proof. intros F. cbn [Machine.value_at]. rewrite F. reflexivity. Qed.
Lemma value_context n a this w e : fetch a = Some (Context e) -> value_at (S n) a this w =
  (ask (v, at1, w1) := value_at n (a + instr_size (L := nat) (Context O)) None w in
   if is_null R v w1 then Ans (no_value R, absolute e a, w1) else value_at n at1 (Some v) w1).
Proof. intros F. cbn [Machine.value_at]. rewrite F. reflexivity. Qed.
Definition calls (j : instr Z) : bool := match j with InvokeStatic _ _ _ _ | InvokeVirtual _ _ _ _ => true | _ => false end.
Lemma value_call n a this w j k : fetch a = Some j -> calls j = true -> called p j = Some k -> value_at (S n) a this w =
  (ask (vs, at1, w1) := arguments (value_at n) (OpCall k) this n (a + instr_size j) [] w in
   ask (v, w2) := perform R (OpCall k) this vs w1 in Ans (v, at1, w2)).
Proof. intros F C K. cbn [Machine.value_at]. rewrite F. destruct j; try discriminate C; rewrite K; reflexivity. Qed.
Lemma resolved_call i (j : instr Z) : map_loc (fun _ => tt) j = map_loc (fun _ => tt) i -> is_call i = true ->
  calls j = true /\ called p j = called p (at_zero i).
Proof.
  intros E C. destruct i; try discriminate C; destruct j; try discriminate E; cbn [map_loc] in E; injection E as E1 E2 E3; subst; split; reflexivity.
Qed.
Lemma arguments_skip n f a acc w o this l : fetch a = Some (Skip l) -> arguments (value_at n) o this (S f) a acc w =
  (if skips R o this acc w then arguments (value_at n) o this f (absolute l a) (acc ++ [None]) w
   else ask (v, at1, w1) := value_at n (a + instr_size (L := nat) (Skip O)) None w in
        arguments (value_at n) o this f at1 (acc ++ [Some v]) w1).
Proof. intros F. cbn [Machine.arguments]. rewrite F. reflexivity. Qed.

Lemma values_sim :
  (forall e c, vshape s p e c -> forall a, seg c a -> vsim c a None (eval R s p e)) /\
  (forall es c, vshapes s p es c -> forall a, seg c a -> osim c a (length es) (eval_all R (eval R s p) es)) /\
  (forall f args super c, kshape s p f args super c -> forall a this, seg c a ->
     vsim c a this (eval_call R p (eval R s p) f super this args)) /\
  (forall args flags c, ashape s p args flags c -> asim args flags c).
Proof.
  apply vshape_all.
  - intros e i o args c So On Vs IH a G w. rewrite (eval_strict _ _ _ _ _ _ So). unfold strict. cbn [need then_].
    apply (op_sim _ _ _ _ _ _ _ On G (IH _ (seg_tail _ _ _ G))).
  - intros e c _ B a G w N. destruct (N (B _ _)).
  - intros c x y sp f l cc ca cb _ IHc _ IHa _ IHb a G w N. cbn [eval] in N |- *.
    destruct (seg_head _ _ _ G eq_refl) as (j & F & E & J). destruct j; try discriminate E. cbn [locs] in J.
    inversion J as [|? ? ? ? J1 J']; subst. inversion J' as [|? ? ? ? J2 _]; subst. clear J J' E.
    pose proof (seg_tail _ _ _ G) as G1. pose proof (seg_left _ _ _ G1) as Gc. pose proof (seg_right _ _ _ G1) as G2.
    pose proof (seg_left _ _ _ G2) as Ga. pose proof (seg_right _ _ _ G2) as G3. pose proof (seg_target _ _ _ G3) as Pf.
    pose proof (seg_target_tail _ _ _ G3) as G4. pose proof (seg_left _ _ _ G4) as Gb. pose proof (seg_target _ _ _ (seg_right _ _ _ G4)) as Pl.
    assert (T : a + total (Conditional f l :: cc ++ ca ++ Target f :: cb ++ [Target l]) = place l).
    { rewrite Pl. cbn [total]. rewrite !total_app. cbn [total]. rewrite total_app. cbn [total]. rewrite !target_size. lia. }
    rewrite T. destruct (eval R s p c w) as [[v w1]|h] eqn:Ec; cbn [then_] in N |- *.
    + destruct (IHc _ Gc w) as [k1 K1]; [rewrite Ec; discriminate|]. rewrite Ec in K1. cbn [lift then_] in K1.
      destruct (truth R v w1) eqn:Tr.
      * destruct (IHa _ Ga w1 N) as [k2 K2]. exists (S (Nat.max k1 k2)). intros n L. destruct n as [|n]; [lia|].
        rewrite (value_cond _ _ _ _ _ _ F). change (instr_size (L := nat) (Conditional O O)) with (instr_size (Conditional f l)).
        rewrite K1 by lia. cbn [then_]. rewrite Tr, K2 by lia. rewrite J2. destruct (eval R s p x w1) as [[r w2]|h]; reflexivity.
      * destruct (IHb _ Gb w1 N) as [k2 K2]. exists (S (Nat.max k1 k2)). intros n L. destruct n as [|n]; [lia|].
        rewrite (value_cond _ _ _ _ _ _ F). change (instr_size (L := nat) (Conditional O O)) with (instr_size (Conditional f l)).
        rewrite K1 by lia. cbn [then_]. rewrite Tr, J1, Pf, K2 by lia. rewrite Pl. reflexivity.
    + destruct (IHc _ Gc w) as [k1 K1]; [rewrite Ec; exact N|]. rewrite Ec in K1. exists (S k1). intros n L. destruct n as [|n]; [lia|].
      rewrite (value_cond _ _ _ _ _ _ F). change (instr_size (L := nat) (Conditional O O)) with (instr_size (Conditional f l)).
      rewrite K1 by lia. reflexivity.
  - intros x f sp l ce _ IH a G w N. cbn [eval] in N |- *.
    destruct (seg_head _ _ _ G eq_refl) as (j & F & E & J). destruct j; try discriminate E. cbn [locs] in J.
    inversion J as [|? ? ? ? J1 _]; subst. clear J E.
    pose proof (seg_tail _ _ _ G) as G1. pose proof (seg_left _ _ _ G1) as Ge. pose proof (seg_right _ _ _ G1) as G2.
    pose proof (seg_target _ _ _ (seg_tail _ _ _ G2)) as Pl. pose proof (seg_plain _ _ _ G2 eq_refl eq_refl) as F2.
    assert (T : a + total (Context l :: ce ++ [ObjectField f; Target l]) = place l).
    { rewrite Pl. cbn [total]. rewrite !total_app. cbn [total]. rewrite !target_size. lia. }
    rewrite T. destruct (eval R s p x w) as [[v w1]|h] eqn:Ec; cbn [then_] in N |- *.
    + destruct (IH _ Ge w) as [k1 K1]; [rewrite Ec; discriminate|]. rewrite Ec in K1. cbn [lift then_] in K1.
      exists (S (S k1)). intros n L. destruct n as [|[|n]]; [lia|lia|]. remember (S n) as n'. rewrite (value_context _ _ _ _ _ F). change (instr_size (L := nat) (Context O)) with (instr_size (Context l)). rewrite K1 by lia. cbn [then_].
      destruct (is_null R v w1); [rewrite J1; reflexivity|]. subst n'. rewrite (value_op _ _ _ _ _ (OpField f) O F2 eq_refl).
      cbn [operands then_]. rewrite Pl. destruct (perform R (OpField f) (Some v) [] w1) as [[r w2]|h]; reflexivity.
    + destruct (IH _ Ge w) as [k1 K1]; [rewrite Ec; exact N|]. rewrite Ec in K1. exists (S k1). intros n L. destruct n as [|n]; [lia|].
      rewrite (value_context _ _ _ _ _ F). change (instr_size (L := nat) (Context O)) with (instr_size (Context l)). rewrite K1 by lia. reflexivity.
  - intros f ts args sp c _ IH a G. apply (IH a None G).
  - intros x f args sp c T _ IH a G w. rewrite (eval_static _ _ _ _ _ T). apply (IH a None G).
  - intros x f args sp l ce ca Ts _ IH _ IHk a G w. rewrite (eval_method _ _ _ _ _ Ts). intros N.
    destruct (seg_head _ _ _ G eq_refl) as (j & F & E & J). destruct j; try discriminate E. cbn [locs] in J.
    inversion J as [|? ? ? ? J1 _]; subst. clear J E.
    pose proof (seg_tail _ _ _ G) as G1. pose proof (seg_left _ _ _ G1) as Ge. pose proof (seg_right _ _ _ G1) as G2.
    pose proof (seg_left _ _ _ G2) as Gk. pose proof (seg_target _ _ _ (seg_right _ _ _ G2)) as Pl.
    assert (T : a + total (Context l :: ce ++ ca ++ [Target l]) = place l).
    { rewrite Pl. cbn [total]. rewrite !total_app. cbn [total]. rewrite !target_size. lia. }
    rewrite T. destruct (eval R s p x w) as [[v w1]|h] eqn:Ec; cbn [then_] in N |- *.
    + destruct (IH _ Ge w) as [k1 K1]; [rewrite Ec; discriminate|]. rewrite Ec in K1. cbn [lift then_] in K1.
      destruct (is_null R v w1) eqn:Nu.
      * exists (S k1). intros n L. destruct n as [|n]; [lia|]. rewrite (value_context _ _ _ _ _ F). change (instr_size (L := nat) (Context O)) with (instr_size (Context l)). rewrite K1 by lia. cbn [then_]. rewrite Nu, J1. reflexivity.
      * destruct (IHk _ (Some v) Gk w1 N) as [k2 K2]. exists (S (Nat.max k1 k2)). intros n L. destruct n as [|n]; [lia|].
        rewrite (value_context _ _ _ _ _ F). change (instr_size (L := nat) (Context O)) with (instr_size (Context l)). rewrite K1 by lia. cbn [then_].
        rewrite Nu, K2 by lia. rewrite Pl. reflexivity.
    + destruct (IH _ Ge w) as [k1 K1]; [rewrite Ec; exact N|]. rewrite Ec in K1. exists (S k1). intros n L. destruct n as [|n]; [lia|].
      rewrite (value_context _ _ _ _ _ F). change (instr_size (L := nat) (Context O)) with (instr_size (Context l)). rewrite K1 by lia. reflexivity.
  - intros a _. apply osim_nil.
  - intros e es c cs _ IH _ IHs a G. cbn [length eval_all].
    exact (osim_cons _ _ _ _ _ _ (IH _ (seg_left _ _ _ G)) (IHs _ (seg_right _ _ _ G))).
  - intros f args super i k flags ca l Ce Ca Ic It Sp Le _ IH a this G w N.
    unfold eval_call in N |- *. rewrite Ce, Sp in N |- *. cbn [need then_] in N |- *.
    destruct (seg_head _ _ _ G It) as (j & F & E & _).
    assert (G1 : seg (ca ++ repeat Nop (length flags - length args) ++ [ParamEnd]) (a + instr_size i)).
    { apply (seg_left _ [Target l]). rewrite <- !app_assoc. exact (seg_tail _ _ _ G). }
    destruct (resolved_call _ _ E Ic) as [Cc Cj]. rewrite Ca in Cj.
    destruct (IH (a + instr_size i) [] w (OpCall k) this Le G1) as [m M]; [intros X; apply N; rewrite X; reflexivity|].
    exists (S m). intros n L. destruct n as [|n]; [lia|].
    rewrite (value_call _ _ _ _ _ _ F Cc Cj), (resolved_size _ _ E), M by lia.
    assert (T : a + instr_size i + total (ca ++ repeat Nop (length flags - length args) ++ [ParamEnd]) =
      a + total (i :: ca ++ repeat Nop (length flags - length args) ++ [ParamEnd; Target l])).
    { cbn [total]. rewrite !total_app. cbn [total]. rewrite target_size. lia. }
    rewrite T. destruct (ev_args (OpCall k) this args flags [] w) as [[vs w1]|h]; [|reflexivity]. cbn [lifts then_].
    destruct (perform R (OpCall k) this vs w1) as [[v w2]|h]; reflexivity.
  - intros f args super flags c Ce _ a this G w N. unfold eval_call in N. rewrite Ce in N. destruct (N eq_refl).
  - intros flags. apply nops_sim.
  - intros e args flags c cs V IH _ IHs a acc w o this Le d G N. subst d. rewrite <- app_assoc in *. cbn [length] in *.
    cbn [eval_args andb] in N |- *. replace (S (length flags) - S (length args))%nat with (length flags - length args)%nat in * by lia.
    pose proof (seg_left _ _ _ G) as Ge. pose proof (seg_right _ _ _ G) as G2.
    destruct (vshape_here _ _ _ V Ge) as [B|H]; [rewrite B in N; destruct (N eq_refl)|].
    rewrite total_app, Z.add_assoc. destruct (eval R s p e w) as [[v w1]|h] eqn:Ec; cbn [then_] in N |- *.
    + destruct (IH _ Ge w) as [k1 K1]; [rewrite Ec; discriminate|]. rewrite Ec in K1. cbn [lift then_] in K1.
      destruct (IHs _ (acc ++ [Some v]) w1 o this ltac:(lia) G2 N) as [m M].
      exists (S (Nat.max k1 m)). intros n f Ln Lf. destruct f as [|f]; [lia|]. rewrite (arguments_value _ _ _ _ _ _ _ H), K1 by lia.
      cbn [then_]. rewrite M by lia. reflexivity.
    + destruct (IH _ Ge w) as [k1 K1]; [rewrite Ec; intros [= ->]; apply N; reflexivity|]. rewrite Ec in K1.
      exists (S k1). intros n f Ln Lf. destruct f as [|f]; [lia|]. rewrite (arguments_value _ _ _ _ _ _ _ H), K1 by lia. reflexivity.
  - intros e args flags l c cs V IH _ IHs a acc w o this Le d G N. subst d. cbn [length] in *.
    cbn [app] in *. rewrite <- app_assoc in *. cbn [app] in *.
    cbn [eval_args andb] in N |- *. replace (S (length flags) - S (length args))%nat with (length flags - length args)%nat in * by lia.
    destruct (seg_head _ _ _ G eq_refl) as (j & F & E & J). destruct j; try discriminate E. cbn [locs] in J.
    inversion J as [|? ? ? ? J1 _]; subst. clear J E.
    pose proof (seg_tail _ _ _ G) as G1. pose proof (seg_left _ _ _ G1) as Ge. pose proof (seg_right _ _ _ G1) as G2.
    pose proof (seg_target _ _ _ G2) as Pl. pose proof (seg_target_tail _ _ _ G2) as G3.
    assert (T : a + total (Skip l :: c ++ Target l :: cs ++ repeat Nop (length flags - length args) ++ [ParamEnd]) =
      a + instr_size (Skip l) + total c + total (cs ++ repeat Nop (length flags - length args) ++ [ParamEnd])).
    { cbn [total]. rewrite total_app. cbn [total]. rewrite target_size. lia. }
    rewrite T. destruct (skips R o this acc w) eqn:Sk.
    + destruct (IHs _ (acc ++ [None]) w o this ltac:(lia) G3 N) as [m M].
      exists (S m). intros n f Ln Lf. destruct f as [|f]; [lia|]. rewrite (arguments_skip _ _ _ _ _ _ _ _ F), Sk, J1, Pl, M by lia. reflexivity.
    + destruct (eval R s p e w) as [[v w1]|h] eqn:Ec; cbn [then_] in N |- *.
      * destruct (IH _ Ge w) as [k1 K1]; [rewrite Ec; discriminate|]. rewrite Ec in K1. cbn [lift then_] in K1.
        destruct (IHs _ (acc ++ [Some v]) w1 o this ltac:(lia) G3 N) as [m M].
        exists (S (Nat.max k1 m)). intros n f Ln Lf. destruct f as [|f]; [lia|]. rewrite (arguments_skip _ _ _ _ _ _ _ _ F), Sk. change (instr_size (L := nat) (Skip O)) with (instr_size (Skip l)). rewrite K1 by lia. cbn [then_]. rewrite M by lia. reflexivity.
      * destruct (IH _ Ge w) as [k1 K1]; [rewrite Ec; intros [= ->]; apply N; reflexivity|]. rewrite Ec in K1.
        exists (S k1). intros n f Ln Lf. destruct f as [|f]; [lia|]. rewrite (arguments_skip _ _ _ _ _ _ _ _ F), Sk. change (instr_size (L := nat) (Skip O)) with (instr_size (Skip l)). rewrite K1 by lia. reflexivity.
Qed.

Lemma eval_halts e : forall w h, eval R s p e w = Halt h -> h = Aborted \/ h = Malformed.
Proof.
  assert (P : forall o this args w h, perform R o this args w = Halt h -> h = Aborted \/ h = Malformed).
  { intros o this args w h. unfold perform. destruct (apply R o this args w); [discriminate|]. intros [= <-]. left. reflexivity. }
  assert (A : forall es, Forall (fun e => forall w h, eval R s p e w = Halt h -> h = Aborted \/ h = Malformed) es ->
    forall w h, eval_all R (eval R s p) es w = Halt h -> h = Aborted \/ h = Malformed).
  { induction 1 as [|x es H _ IH]; intros w h; cbn [eval_all]; [discriminate|]. destruct (eval R s p x w) as [[v w1]|h1] eqn:E; cbn [then_].
    - destruct (eval_all R (eval R s p) es w1) as [[vs w2]|h2] eqn:E2; cbn [then_]; [discriminate|]. intros [= <-]. eapply IH, E2.
    - intros [= <-]. eapply H, E. }
  assert (S : forall o es, Forall (fun e => forall w h, eval R s p e w = Halt h -> h = Aborted \/ h = Malformed) es ->
    forall w h, strict R (eval R s p) o es w = Halt h -> h = Aborted \/ h = Malformed).
  { intros o es F w h. unfold strict. destruct o; cbn [need then_]; [|intros [= <-]; right; reflexivity].
    destruct (eval_all R (eval R s p) es w) as [[vs w1]|h1] eqn:E; cbn [then_]; [apply P|]. intros [= <-]. eapply A; eassumption. }
  assert (K : forall f super this es, Forall (fun e => forall w h, eval R s p e w = Halt h -> h = Aborted \/ h = Malformed) es ->
    forall w h, eval_call R p (eval R s p) f super this es w = Halt h -> h = Aborted \/ h = Malformed).
  { intros f super this es F w h. unfold eval_call. destruct (callee_of p f super) as [k|]; cbn [need then_]; [|intros [= <-]; right; reflexivity].
    destruct (short_params p f) as [flags|]; cbn [need then_]; [|intros [= <-]; right; reflexivity].
    assert (B : forall flags acc w h, eval_args R (eval R s p) (OpCall k) this es flags acc w = Halt h -> h = Aborted \/ h = Malformed).
    { clear - F. induction F as [|x es H _ IH]; intros flags acc w h; cbn [eval_args]; [discriminate|].
      destruct flags as [|b flags]; [intros [= <-]; right; reflexivity|]. destruct (b && skips R (OpCall k) this acc w); [apply IH|].
      destruct (eval R s p x w) as [[v w1]|h1] eqn:E; cbn [then_]; [apply IH|]. intros [= <-]. eapply H, E. }
    destruct (eval_args R (eval R s p) (OpCall k) this es flags [] w) as [[vs w1]|h1] eqn:E; cbn [then_]; [apply P|]. intros [= <-]. eapply B, E. }
  induction e using expr_ind'; intros w h; try (intros [= <-]; right; reflexivity).
  all: try solve [cbn [eval]; repeat match goal with |- context [match ?x with _ => _ end] => is_var x; destruct x end;
    try (intros [= <-]; right; reflexivity); first [apply P|eapply S; repeat constructor; assumption|eapply K; assumption]].
  - cbn [eval]. destruct t; try (intros [= <-]; right; reflexivity). apply S. apply Forall_cons; [exact IHe|apply Forall_nil].
  - cbn [eval]. apply S. apply Forall_cons; [exact IHe1|]. apply Forall_cons; [exact IHe2|apply Forall_nil].
  - destruct (type_symbol e) eqn:T; [rewrite (eval_static _ _ _ _ _ T); apply K; assumption|].
    rewrite (eval_method _ _ _ _ _ T). destruct (eval R s p e w) as [[v w1]|h1] eqn:E; cbn [then_].
    + destruct (is_null R v w1); [discriminate|apply K; assumption].
    + intros [= <-]. eapply IHe, E.
  - cbn [eval]. destruct m.
    + destruct (eval R s p e w) as [[v w1]|h1] eqn:E; cbn [then_]; [|intros [= <-]; eapply IHe, E].
      destruct (is_null R v w1); [discriminate|apply P].
    + apply S. apply Forall_cons; [exact IHe|apply Forall_nil].
    + apply P.
  - cbn [eval]. apply S. apply Forall_cons; [exact IHe1|]. apply Forall_cons; [exact IHe2|apply Forall_nil].
  - cbn [eval]. destruct (eval R s p e1 w) as [[v w1]|h1] eqn:E; cbn [then_]; [|intros [= <-]; eapply IHe1, E].
    destruct (truth R v w1); [apply IHe2|apply IHe3].
Qed.

(** * Statements *)
Definition cfg := nat -> answer (finish R).
Definition cf (m : mode R) (a : Z) (w : St) : cfg := fun n => go n m a w.
(** [X] arrives at [Y] after at least [s] steps. *)
Definition reaches (d : nat) (X Y : cfg) : Prop :=
  (exists c k, forall n, (k <= n)%nat -> X (c + n)%nat = Y n) /\
  (forall n, X n = Halt OutOfFuel \/ exists n', (n' + d <= n)%nat /\ X n = Y n').
Definition final (X : cfg) (r : answer (finish R)) : Prop := exists k, forall n, (k <= n)%nat -> X n = r.
Definition starved (N : nat) (X : cfg) : Prop := forall n, (n <= N)%nat -> X n = Halt OutOfFuel.

Lemma reaches_refl X : reaches 0 X X.
Proof. split; [exists O, O; reflexivity|]. intros n. right. exists n. split; [lia|reflexivity]. Qed.
Lemma reaches_trans d d' X Y Z : reaches d X Y -> reaches d' Y Z -> reaches (d + d') X Z.
Proof.
  intros [(c1 & k1 & A1) B1] [(c2 & k2 & A2) B2]. split.
  - exists (c1 + c2)%nat, (Nat.max k1 k2). intros n L. rewrite <- Nat.add_assoc, A1 by lia. apply A2. lia.
  - intros n. destruct (B1 n) as [H|(n1 & L1 & H1)]; [left; exact H|]. destruct (B2 n1) as [H|(n2 & L2 & H2)].
    + left. congruence.
    + right. exists n2. split; [lia|congruence].
Qed.
Lemma reaches_weaken d d' X Y : (d' <= d)%nat -> reaches d X Y -> reaches d' X Y.
Proof. intros L [A B]. split; [exact A|]. intros n. destruct (B n) as [H|(n' & L' & H)]; [left; exact H|right]. exists n'. split; [lia|exact H]. Qed.
Lemma reaches_final d X Y r : reaches d X Y -> final Y r -> final X r.
Proof.
  intros [(c & k & A) _] [m M]. exists (c + Nat.max k m)%nat. intros n L.
  replace n with (c + (n - c))%nat by lia. rewrite A by lia. apply M. lia.
Qed.
Lemma reaches_starved d X Y N : reaches d X Y -> starved N Y -> starved (d + N) X.
Proof.
  intros [_ B] H n L. destruct (B n) as [E|(n' & L' & E)]; [exact E|]. rewrite E. apply H. lia.
Qed.
(** A step that evaluates something first. *)
Lemma step_reaches (X Y : cfg) : X O = Halt OutOfFuel -> (forall n, X (S n) = Y n) -> reaches 1 X Y.
Proof.
  intros X0 H. split; [exists 1%nat, O; intros n _; apply H|]. intros [|n]; [left; exact X0|right]. exists n. split; [lia|apply H].
Qed.
Lemma eval_reaches (X : cfg) a this w (r : Val * Z * St) (Y : cfg) K : X O = Halt OutOfFuel ->
  (forall n, X (S n) = then_ (value_at n a this w) (K n)) -> vfinal a this w (Ans r) -> (forall n, K n r = Y n) -> reaches 1 X Y.
Proof.
  intros X0 H V E. split.
  - destruct V as [k V]. exists 1%nat, k. intros n L. change (1 + n)%nat with (S n). rewrite H, V by lia. apply E.
  - intros [|n]; [left; exact X0|]. rewrite H. destruct (vfinal_any _ _ _ _ V n) as [->| ->]; [left; reflexivity|right].
    exists n. split; [lia|apply E].
Qed.
Lemma eval_final (X : cfg) a this w h (K : nat -> Val * Z * St -> answer (finish R)) :
  (forall n, X (S n) = then_ (value_at n a this w) (K n)) -> vfinal a this w (Halt h) -> final X (Halt h).
Proof. intros H [k V]. exists (S k). intros [|n] L; [lia|]. rewrite H, V by lia. reflexivity. Qed.

Definition nolabel (a : Z) : Prop := forall j, fetch a = Some j -> is_switch_label j = false.
Definition sim (N : nat) (X : cfg) (r : answer (end_ R)) (e : Z) (exit : option nat) : Prop :=
  match r with
  | Ans (Normal _ w) => nolabel e -> reaches 0 X (cf (Running R) e w)
  | Ans (Broke _ w) => match exit with Some l => reaches 0 X (cf (Running R) (place l) w) | None => True end
  | Ans (Returned _ v w) => final X (Ans (Return_ R v w))
  | Halt Aborted => final X (Halt Aborted)
  | Halt OutOfFuel => starved N X
  | Halt FellThrough | Halt Malformed => True
  end.
Lemma sim_step d N X Y r e exit : reaches d X Y -> sim N Y r e exit -> sim (d + N) X r e exit.
Proof.
  intros H. destruct r as [[w|w|v w]|[]]; cbn [sim]; try exact (fun x => x).
  - intros S L. eapply reaches_weaken; [|eapply reaches_trans; [exact H|exact (S L)]]. lia.
  - destruct exit; [|exact (fun x => x)]. intros S. eapply reaches_weaken; [|eapply reaches_trans; [exact H|exact S]]. lia.
  - apply reaches_final with (1 := H).
  - apply reaches_final with (1 := H).
  - apply reaches_starved with (1 := H).
Qed.
Lemma sim_less N N' X r e exit : (N' <= N)%nat -> sim N X r e exit -> sim N' X r e exit.
Proof. intros L. destruct r as [[w|w|v w]|[]]; cbn [sim]; try exact (fun x => x). intros S n M. apply S. lia. Qed.
Lemma sim_step0 d N X Y r e exit : reaches d X Y -> sim N Y r e exit -> sim N X r e exit.
Proof. intros H S. apply (sim_less (d + N)); [lia|]. eapply sim_step; eassumption. Qed.
(** A value first, then the rest. *)
Lemma sim_value N X a this w c ev K rest e exit : X O = Halt OutOfFuel ->
  (forall n, X (S n) = then_ (value_at n a this w) (K n)) ->
  vsim c a this ev -> (forall h, ev w = Halt h -> h = Aborted \/ h = Malformed) ->
  (forall v w1, ev w = Ans (v, w1) -> exists Y, (forall n, K n (v, a + total c, w1) = Y n) /\ sim N Y (rest (v, w1)) e exit) ->
  sim N X (then_ (ev w) rest) e exit.
Proof.
  intros X0 H V Hh C. specialize (V w). destruct (ev w) as [[v w1]|h] eqn:E; cbn [then_].
  - destruct (C _ _ eq_refl) as (Y & Ky & Sy). eapply sim_step0; [|exact Sy].
    eapply eval_reaches; [exact X0|exact H|apply V; discriminate|]. exact Ky.
  - destruct (Hh _ eq_refl) as [->| ->]; [|exact I]. cbn [sim]. eapply eval_final; [exact H|apply V; discriminate].
Qed.

(** Single steps. *)
Lemma go_value n a w : value_here a ->
  go (S n) (Running R) a w = then_ (value_at n a None w) (fun x => let '(_, at1, w1) := x in go n (Running R) at1 w1).
Proof. intros (j & F & V). cbn [Machine.go]. rewrite F. destruct j; try discriminate V; reflexivity. Qed.
Lemma go_jump n a w l : fetch a = Some (Jump l) -> go (S n) (Running R) a w = go n (Running R) (absolute l a) w.
Proof. intros F. cbn [Machine.go]. rewrite F. reflexivity. Qed.
Lemma go_default n a w : fetch a = Some SwitchDefault ->
  go (S n) (Running R) a w = go n (Running R) (a + instr_size (L := nat) SwitchDefault) w.
Proof. intros F. cbn [Machine.go]. rewrite F. reflexivity. Qed.
Lemma go_if n a w l : fetch a = Some (JumpIfFalse l) ->
  go (S n) (Running R) a w = then_ (value_at n (a + instr_size (L := nat) (JumpIfFalse O)) None w)
    (fun x => let '(v, at1, w1) := x in go n (Running R) (if truth R v w1 then at1 else absolute l a) w1).
Proof. intros F. cbn [Machine.go]. rewrite F. reflexivity. Qed.
Lemma go_return n a w : fetch a = Some Return -> value_here (a + instr_size (L := nat) Return) ->
  go (S n) (Running R) a w = then_ (value_at n (a + instr_size (L := nat) Return) None w) (fun x => let '(v, _, w1) := x in Ans (Return_ R (Some v) w1)).
Proof.
  intros F (j & Fj & V). cbn [Machine.go]. rewrite F. change (instr_size (L := nat) Return) with (instr_size (L := Z) Return) in *. rewrite Fj.
  destruct j; try discriminate V; reflexivity.
Qed.
Lemma go_return0 n a w : fetch a = Some Return -> fetch (a + instr_size (L := nat) Return) = Some Nop ->
  go (S n) (Running R) a w = Ans (Return_ R None w).
Proof.
  intros F Fj. cbn [Machine.go]. rewrite F. change (instr_size (L := nat) Return) with (instr_size (L := Z) Return) in *. rewrite Fj. reflexivity.
Qed.
Lemma go_switch n a w t l m : fetch a = Some (Switch t l) -> def_name p t = Done m ->
  go (S n) (Running R) a w = then_ (value_at n (a + instr_size (L := nat) (Switch t O)) None w)
    (fun x => let '(v, _, w1) := x in go n (Matching R m v) (absolute l a) w1).
Proof. intros F D. cbn [Machine.go]. rewrite F, D. reflexivity. Qed.
Lemma go_label n a w t v l b : fetch a = Some (SwitchLabel l b) ->
  go (S n) (Matching R t v) a w = then_ (value_at n (a + instr_size (L := nat) (SwitchLabel O O)) None w)
    (fun x => let '(y, _, w1) := x in if same R t v y w1 then go n (Running R) (absolute b a) w1 else go n (Matching R t v) (absolute l a) w1).
Proof. intros F. cbn [Machine.go]. rewrite F. reflexivity. Qed.
Lemma go_matched n a w t v : nolabel a -> go (S n) (Matching R t v) a w = go n (Running R) a w.
Proof.
  intros H. cbn [Machine.go]. destruct (fetch a) as [j|] eqn:F; [|reflexivity]. specialize (H _ F). destruct j; try reflexivity. discriminate H.
Qed.

Lemma nolabel_seg i c a : seg (i :: c) a -> is_target i = false -> is_switch_label i = false -> nolabel a.
Proof.
  intros G T L j F. destruct (seg_head _ _ _ G T) as (j' & F' & E & _). rewrite F in F'. injection F' as <-.
  assert (X : forall (A B : Type) (f : A -> B) (k : instr A), is_switch_label (map_loc f k) = is_switch_label k) by (intros A B f k; destruct k; reflexivity).
  rewrite <- (X _ _ (fun _ => tt) j), E, X. exact L.
Qed.
Lemma nolabel_start c a : seg c a -> starts c -> lead c <> None \/ nolabel (a + total c) -> nolabel a.
Proof.
  revert a. induction c as [|i c IH]; intros a G S H.
  - destruct H as [H|H]; [destruct (H eq_refl)|]. cbn [total] in H. rewrite Z.add_0_r in H. exact H.
  - destruct (is_target i) eqn:T.
    + destruct i; try discriminate T. apply IH; [exact (seg_target_tail _ _ _ G)|exact S|]. exact H.
    + apply (nolabel_seg _ _ _ G T). apply S. cbn [lead]. rewrite T. reflexivity.
Qed.

(** Code without instructions does nothing. *)
Definition quiet (r : answer (end_ R)) : Prop := r = Halt Malformed \/ exists w, r = Ans (Normal R w).
Lemma vshape_lead e c : vshape s p e c -> lead c <> None \/ forall w, eval R s p e w = Halt Malformed.
Proof.
  intros V. assert (K : forall f args super d, kshape s p f args super d -> lead d <> None \/ callee_of p f super = None).
  { intros f args super d Hk. destruct Hk as [f args super i k flags ca l _ _ _ T|]; [left; cbn [lead]; rewrite T; discriminate|right; assumption]. }
  destruct V.
  - left. destruct H0 as (_ & T & _). cbn [lead]. rewrite T. discriminate.
  - right. auto.
  - left. discriminate.
  - left. discriminate.
  - destruct (K _ _ _ _ H) as [L|N]; [left; exact L|right]. intros w. cbn [eval]. unfold eval_call. rewrite N. reflexivity.
  - destruct (K _ _ _ _ H0) as [L|N]; [left; exact L|right]. intros w. rewrite (eval_static _ _ _ _ _ H). unfold eval_call. rewrite N. reflexivity.
  - left. discriminate.
Qed.
Lemma statement_lead :
  (forall e exit c, sshape s p e exit c -> lead c <> None \/ forall N w, quiet (run R s p N e w)) /\
  (forall es exit c, qshape s p es exit c -> starts c /\ (lead c <> None \/ forall N w, quiet (run_all R (run R s p N) es w))) /\
  (forall o d c, dshape s p o d c -> True) /\ (forall o cases body next c next', cshape s p o cases body next c next' -> True).
Proof.
  apply sshape_all; try (intros; exact I); try (intros; left; cbn [lead]; discriminate).
  - intros e exit c St V. destruct (vshape_lead _ _ V) as [L|N]; [left; exact L|right]. intros n w.
    destruct e; try discriminate St; cbn [run]; rewrite N; left; reflexivity.
  - intros l t x sp exit c i1 i2 -> -> V. left. discriminate.
  - intros l t sp exit H. right. intros N w. cbn [run]. rewrite H. right. exists w. reflexivity.
  - intros l t sp exit n i H (_ & T & _). left. cbn [lead]. rewrite T. discriminate.
  - intros l t sp exit n c H. right. intros N w. cbn [run]. rewrite H. left. reflexivity.
  - intros es exit c _ [_ IH]. exact IH.
  - intros exit. split; [apply starts_nil|]. right. intros N w. right. exists w. reflexivity.
  - intros e es exit c cs _ IH S _ [S' IHs]. split; [apply starts_app; assumption|]. rewrite lead_app.
    destruct IH as [L|Q]; [left; destruct (lead c); [discriminate|destruct (L eq_refl)]|].
    destruct IHs as [L|Q']; [left; destruct (lead c); [discriminate|exact L]|]. right. intros N w. cbn [run_all].
    destruct (Q N w) as [->|[w1 ->]]; [left; reflexivity|]. apply Q'.
Qed.

Lemma sim_then N X mid e exit cs w1 r : seg cs mid -> e = mid + total cs -> starts cs -> lead cs <> None \/ quiet r ->
  (nolabel mid -> reaches 0 X (cf (Running R) mid w1)) -> sim N (cf (Running R) mid w1) r e exit -> sim N X r e exit.
Proof.
  intros G E S L H K. destruct L as [L|[->|[w' ->]]]; [|exact I|].
  - eapply sim_step0; [|exact K]. apply H. apply (nolabel_start _ _ G S). left. exact L.
  - cbn [sim] in *. intros Ne. eapply (reaches_trans 0 0); [|exact (K Ne)]. apply H. apply (nolabel_start _ _ G S). right. subst e. exact Ne.
Qed.
Lemma sim_end N X r e e' exit d : sim N X r e exit -> nolabel e -> (forall w, reaches d (cf (Running R) e w) (cf (Running R) e' w)) -> sim N X r e' exit.
Proof.
  intros S L H. destruct r as [[w|w|v w]|[]]; try exact S. cbn [sim] in *. intros _.
  eapply (reaches_weaken (0 + d)); [lia|]. eapply reaches_trans; [exact (S L)|apply H].
Qed.
Lemma sim_done N e exit w : sim N (cf (Running R) e w) (Ans (Normal R w)) e exit.
Proof. intros _. apply reaches_refl. Qed.

Lemma cshape_first o cases body next c next' rest a : cshape s p o cases body next c next' -> seg (c ++ Target next' :: rest) a -> place next = a.
Proof. intros C G. destruct C; cbn [app] in G; exact (seg_target _ _ _ G). Qed.

Definition ok_cases (cases : list (texpr * list texpr)) : Prop :=
  forall before m body, cases = before ++ [(m, body)] -> exists x, In x body /\ is_empty x = false.
Lemma ok_tail x cases : ok_cases (x :: cases) -> ok_cases cases.
Proof. intros H before m body E. apply (H (x :: before) m body). rewrite E. reflexivity. Qed.
Lemma ok_last m body : ok_cases [(m, body)] -> forallb is_empty body = false.
Proof.
  intros H. destruct (H [] m body eq_refl) as (x & I & E). destruct (forallb is_empty body) eqn:F; [|reflexivity].
  rewrite forallb_forall in F. rewrite (F _ I) in E. discriminate E.
Qed.
Lemma closed_part x e : part x e -> closed e -> closed x.
Proof. intros P C y W. apply C. econstructor; [exact P|exact W]. Qed.
Lemma closed_parts l e : (forall x, In x l -> part x e) -> closed e -> Forall closed l.
Proof. intros H C. apply Forall_forall. intros x I. eapply closed_part; [apply H, I|exact C]. Qed.

Definition default_run (N : nat) (d : option (list texpr)) : St -> answer (end_ R) :=
  match d with Some d => run_all R (run R s p N) d | None => fun w => Ans (Normal R w) end.

Ltac tot := cbn [total app]; rewrite ?total_app; cbn [total app]; rewrite ?total_app; cbn [total app]; rewrite ?total_app; cbn [total app];
  rewrite ?target_size; lia.
Let V := proj1 values_sim.
Lemma perform_halts o this args w h : perform R o this args w = Halt h -> h = Aborted \/ h = Malformed.
Proof. unfold perform. destruct (apply R o this args w); [discriminate|]. intros [= <-]. left. reflexivity. Qed.
Lemma effect_sim N a w c ev exit : value_here a -> vsim c a None ev -> (forall h, ev w = Halt h -> h = Aborted \/ h = Malformed) ->
  sim N (cf (Running R) a w) (then_ (ev w) (fun x => Ans (Normal R (snd x)))) (a + total c) exit.
Proof.
  intros H Sv Hh. eapply (sim_value N _ a None w c ev); [reflexivity|intros n; apply (go_value _ _ _ H)|exact Sv|exact Hh|].
  intros v w1 _. exists (cf (Running R) (a + total c) w1). split; [reflexivity|apply sim_done].
Qed.
(** local = value, where the value has its own code. *)
Lemma assign_sim N a w l c ev exit : seg (Assign :: Local l :: c) a -> vsim c (a + instr_size (L := nat) Assign + instr_size (L := nat) (Local l)) None ev ->
  (forall w h, ev w = Halt h -> h = Aborted \/ h = Malformed) ->
  sim N (cf (Running R) a w)
    (ask (v, w1) := perform R (OpLocal l) None [] w in ask (x, w2) := ev w1 in
     ask (_, w3) := perform R OpAssign None [Some v; Some x] w2 in Ans (Normal R w3)) (a + total (Assign :: Local l :: c)) exit.
Proof.
  intros G Se He.
  assert (A : one p Assign OpAssign 2) by (split; [reflexivity|split; reflexivity]).
  assert (B : one p (Local l) (OpLocal l) 0) by (split; [reflexivity|split; reflexivity]).
  pose (ev' := fun w => ask (vs, w1) := (ask (v, w1) := (ask (vs, w1) := Ans ([], w) in perform R (OpLocal l) None vs w1) in
                          ask (vs, w2) := (ask (v, w1) := ev w1 in ask (vs, w2) := Ans ([], w1) in Ans (Some v :: vs, w2)) in
                          Ans (Some v :: vs, w2)) in perform R OpAssign None vs w1).
  assert (Sv : vsim (Assign :: [Local l] ++ c ++ []) a None ev').
  { apply (op_sim _ _ _ _ _ _ _ A); [rewrite app_nil_r; exact G|]. apply osim_cons.
    - apply (op_sim _ _ _ _ _ _ _ B); [exact (seg_left [Local l] _ _ (seg_tail _ _ _ G))|apply osim_nil].
    - apply osim_cons; [|apply osim_nil]. cbn [total]. rewrite Z.add_0_r. exact Se. }
  assert (Rn : (ask (v, w1) := perform R (OpLocal l) None [] w in ask (x, w2) := ev w1 in
     ask (_, w3) := perform R OpAssign None [Some v; Some x] w2 in Ans (Normal R w3)) = then_ (ev' w) (fun x => Ans (Normal R (snd x)))).
  { unfold ev'. cbn [then_]. destruct (perform R (OpLocal l) None [] w) as [[v w1]|h]; cbn [then_]; [|reflexivity].
    destruct (ev w1) as [[y w2]|h]; cbn [then_]; [|reflexivity].
    destruct (perform R OpAssign None [Some v; Some y] w2) as [[z w3]|h]; reflexivity. }
  rewrite Rn. rewrite app_nil_r in Sv. apply effect_sim; [eapply one_here; [exact A|exact G]|exact Sv|].
  intros h. unfold ev'. cbn [then_]. destruct (perform R (OpLocal l) None [] w) as [[v w1]|h1] eqn:E1; cbn [then_]; [|intros [= <-]; eapply perform_halts, E1].
  destruct (ev w1) as [[y w2]|h2] eqn:E2; cbn [then_]; [|intros [= <-]; eapply He, E2]. apply perform_halts.
Qed.

Lemma statements_sim :
  (forall e exit c, sshape s p e exit c -> closed e -> forall a N w, seg c a ->
     sim N (cf (Running R) a w) (run R s p N e w) (a + total c) exit) /\
  (forall es exit c, qshape s p es exit c -> Forall closed es -> forall a N w, seg c a ->
     sim N (cf (Running R) a w) (run_all R (run R s p N) es w) (a + total c) exit) /\
  (forall o d c, dshape s p o d c -> (forall l, d = Some l -> Forall closed l) -> forall a N w, seg c a ->
     sim N (cf (Running R) a w) (default_run N d w) (a + total c) (Some o)) /\
  (forall o cases body next c next', cshape s p o cases body next c next' -> Forall (fun x => Forall closed (snd x)) cases -> ok_cases cases ->
     forall rest a N D E, seg (c ++ Target next' :: rest) a ->
     (forall w, sim N (cf (Running R) (place next') w) (D w) E (Some o)) ->
     (forall w t v, sim N (cf (Matching R t v) (place next') w) (D w) E (Some o)) ->
     (nolabel (place next') \/ (E = place next' /\ forall w, D w = Ans (Normal R w))) ->
     (forall w t v, sim N (cf (Matching R t v) a w)
        (ask (k, w2) := select R (eval R s p) t v cases w in run_case R (run_all R (run R s p N)) D k cases w2) E (Some o)) /\
     (forall bl w, body = Some bl -> cases <> [] -> sim N (cf (Running R) (place bl) w)
        (run_case R (run_all R (run R s p N)) D O cases w) E (Some o))).
Proof.
  apply sshape_all.
  - intros e exit c St Sh C a N w G.
    assert (Rn : run R s p N e w = (ask (_, w1) := eval R s p e w in Ans (Normal R w1))) by (destruct e; try discriminate St; reflexivity).
    rewrite Rn. destruct (vshape_here _ _ _ Sh G) as [B|H]; [rewrite B; exact I|].
    eapply (sim_value N _ a None w c (eval R s p e)); [reflexivity|intros n; apply (go_value _ _ _ H)|apply (V _ _ Sh _ G)|apply eval_halts|].
    intros v w1 _. exists (cf (Running R) (a + total c) w1). split; [reflexivity|apply sim_done].
  - intros l t x sp exit c i1 i2 -> -> Sh C a N w G.
    pose proof (seg_tail _ _ _ (seg_tail _ _ _ G)) as Gx.
    assert (Rn : run R s p N (EDeclare (N := typed_ast) l t (Some x) sp) w =
      (ask (v, w1) := perform R (OpLocal l) None [] w in ask (x, w2) := eval R s p x w1 in
       ask (_, w3) := perform R OpAssign None [Some v; Some x] w2 in Ans (Normal R w3))) by (destruct t; reflexivity).
    rewrite Rn. apply assign_sim; [exact G|apply (V _ _ Sh _ Gx)|apply eval_halts].
  - intros l t sp exit H C a N w G. cbn [run]. rewrite H. cbn [need then_ total]. rewrite Z.add_0_r. apply sim_done.
  - intros l t sp exit o i H On C a N w G. cbn [run]. rewrite H. cbn [need then_].
    apply (assign_sim N a w l [i] (fun w => perform R o None [] w)); [exact G| |intros; eapply perform_halts; eassumption].
    apply (op_sim _ _ _ _ _ None (fun w => Ans ([], w)) On); [exact (seg_tail _ _ _ (seg_tail _ _ _ G))|apply osim_nil].
  - intros l t sp exit n i H On C a N w G. cbn [run]. rewrite H. cbn [need then_].
    assert (B : one p (Local l) (OpLocal l) 0) by (split; [reflexivity|split; reflexivity]).
    pose (ev := fun w => ask (vs, w1) := (ask (v, w1) := (ask (vs, w1) := Ans ([], w) in perform R (OpLocal l) None vs w1) in
                          ask (vs, w2) := Ans ([], w1) in Ans (Some v :: vs, w2)) in perform R (OpIntrinsic IArrayClear (Some n)) None vs w1).
    assert (Sv : vsim (i :: [Local l] ++ []) a None ev).
    { apply (op_sim _ _ _ _ _ _ _ On); [exact G|]. apply osim_cons; [|apply osim_nil].
      apply (op_sim _ _ _ _ _ _ _ B); [exact (seg_tail _ _ _ G)|apply osim_nil]. }
    assert (Rn : (ask (v, w1) := perform R (OpLocal l) None [] w in ask (_, w2) := perform R (OpIntrinsic IArrayClear (Some n)) None [Some v] w1 in
       Ans (Normal R w2)) = then_ (ev w) (fun x => Ans (Normal R (snd x)))).
    { unfold ev. cbn [then_]. destruct (perform R (OpLocal l) None [] w) as [[v w1]|h]; cbn [then_]; [|reflexivity].
      destruct (perform R _ None [Some v] w1) as [[z w3]|h]; reflexivity. }
    rewrite Rn. apply effect_sim; [eapply one_here; [exact On|exact G]|exact Sv|].
    intros h. unfold ev. cbn [then_]. destruct (perform R (OpLocal l) None [] w) as [[v w1]|h1] eqn:E1; cbn [then_];
      [apply perform_halts|intros [= <-]; eapply perform_halts, E1].
  - intros l t sp exit n c H _ _ C a N w G. cbn [run]. rewrite H. exact I.
  - intros x sp exit c Sh C a N w G. cbn [run]. pose proof (seg_tail _ _ _ G) as G1.
    destruct (vshape_here _ _ _ Sh G1) as [B|H]; [rewrite B; exact I|].
    pose proof (seg_plain _ _ _ G eq_refl eq_refl) as F.
    destruct (eval R s p x w) as [[v w1]|h] eqn:E; cbn [then_ sim].
    + destruct (V _ _ Sh _ G1 w) as [k K]; [rewrite E; discriminate|]. rewrite E in K.
      exists (S k). intros n L. destruct n as [|n]; [lia|]. unfold cf. rewrite (go_return _ _ _ F H), K by lia. reflexivity.
    + destruct (eval_halts _ _ _ E) as [->| ->]; [|exact I]. cbn [sim].
      destruct (V _ _ Sh _ G1 w) as [k K]; [rewrite E; discriminate|]. rewrite E in K.
      exists (S k). intros n L. destruct n as [|n]; [lia|]. unfold cf. rewrite (go_return _ _ _ F H), K by lia. reflexivity.
  - intros sp exit C a N w G. cbn [run sim]. exists 1%nat. intros n L. destruct n as [|n]; [lia|].
    apply go_return0; [exact (seg_plain _ _ _ G eq_refl eq_refl)|exact (seg_plain _ _ _ (seg_tail _ _ _ G) eq_refl eq_refl)].
  - intros sp l C a N w G. cbn [run sim]. destruct (seg_head _ _ _ G eq_refl) as (j & F & E & J). destruct j; try discriminate E. cbn [locs] in J.
    inversion J as [|? ? ? ? J1 _]; subst. apply (reaches_weaken 1); [lia|]. apply step_reaches; [reflexivity|].
    intros n. unfold cf. rewrite (go_jump _ _ _ _ F), J1. reflexivity.
  - intros es exit c _ IH C a N w G. cbn [run]. apply IH; [|exact G]. eapply closed_parts; [|exact C]. constructor. assumption.
  - intros c th sp exit l cc ct Sh Q IH C a N w G. cbn [run].
    destruct (seg_head _ _ _ G eq_refl) as (j & F & E & J). destruct j; try discriminate E. cbn [locs] in J.
    inversion J as [|? ? ? ? J1 _]; subst. clear J E.
    pose proof (seg_tail _ _ _ G) as G1. pose proof (seg_left _ _ _ G1) as Gc. pose proof (seg_right _ _ _ G1) as G2.
    pose proof (seg_left _ _ _ G2) as Gt. pose proof (seg_target _ _ _ (seg_right _ _ _ G2)) as Pl.
    replace (a + total (JumpIfFalse l :: cc ++ ct ++ [Target l])) with (a + instr_size (JumpIfFalse l) + total cc + total ct) by tot.
    eapply (sim_value N _ (a + instr_size (JumpIfFalse l)) None w cc (eval R s p c));
      [reflexivity|intros n; apply (go_if _ _ _ _ F)|apply (V _ _ Sh _ Gc)|apply eval_halts|].
    intros v w1 _. cbn beta iota. destruct (truth R v w1).
    + exists (cf (Running R) (a + instr_size (JumpIfFalse l) + total cc) w1). split; [reflexivity|].
      apply IH; [|exact Gt]. eapply closed_parts; [|exact C]. constructor. assumption.
    + exists (cf (Running R) (place l) w1). split; [intros n; rewrite J1; reflexivity|]. rewrite Pl. apply sim_done.
  - intros c th el sp exit l k cc ct ce Sh Q IH Q' IH' C a N w G. cbn [run].
    destruct (seg_head _ _ _ G eq_refl) as (j & F & E & J). destruct j; try discriminate E. cbn [locs] in J.
    inversion J as [|? ? ? ? J1 _]; subst. clear J E.
    pose proof (seg_tail _ _ _ G) as G1. pose proof (seg_left _ _ _ G1) as Gc. pose proof (seg_right _ _ _ G1) as G2.
    pose proof (seg_left _ _ _ G2) as Gt. pose proof (seg_right _ _ _ G2) as G3. pose proof (seg_tail _ _ _ G3) as G4.
    pose proof (seg_target _ _ _ G4) as Pl. pose proof (seg_target_tail _ _ _ G4) as G5. pose proof (seg_left _ _ _ G5) as Ge.
    pose proof (seg_target _ _ _ (seg_right _ _ _ G5)) as Pk.
    replace (a + total (JumpIfFalse l :: cc ++ ct ++ Jump k :: Target l :: ce ++ [Target k])) with (place k) by (rewrite Pk; tot).
    eapply (sim_value N _ (a + instr_size (JumpIfFalse l)) None w cc (eval R s p c));
      [reflexivity|intros n; apply (go_if _ _ _ _ F)|apply (V _ _ Sh _ Gc)|apply eval_halts|].
    intros v w1 _. cbn beta iota. destruct (truth R v w1).
    + exists (cf (Running R) (a + instr_size (JumpIfFalse l) + total cc) w1). split; [reflexivity|].
      destruct (seg_head _ _ _ G3 eq_refl) as (j & Fj & E & J). destruct j; try discriminate E. cbn [locs] in J.
      inversion J as [|? ? ? ? J2 _]; subst. clear J E.
      eapply (sim_end _ _ _ _ _ _ 1); [apply IH; [|exact Gt]| |].
      * eapply closed_parts; [|exact C]. constructor. assumption.
      * eapply nolabel_seg; [exact G3|reflexivity|reflexivity].
      * intros w2. apply step_reaches; [reflexivity|]. intros n. unfold cf. rewrite (go_jump _ _ _ _ Fj), J2. reflexivity.
    + exists (cf (Running R) (place l) w1). split; [intros n; rewrite J1; reflexivity|].
      rewrite Pl, Pk. apply IH'; [|exact Ge]. eapply closed_parts; [|exact C]. intros y Iy. apply pt_else. exact Iy.
  - intros c b sp exit l k cc cb Sh Q IH C a N w G. cbn [run].
    pose proof (seg_target _ _ _ G) as Pl. pose proof (seg_target_tail _ _ _ G) as G0.
    destruct (seg_head _ _ _ G0 eq_refl) as (j & F & E & J). destruct j; try discriminate E. cbn [locs] in J.
    inversion J as [|? ? ? ? J1 _]; subst. clear J E.
    pose proof (seg_tail _ _ _ G0) as G1. pose proof (seg_left _ _ _ G1) as Gc. pose proof (seg_right _ _ _ G1) as G2.
    pose proof (seg_left _ _ _ G2) as Gb. pose proof (seg_right _ _ _ G2) as G3.
    pose proof (seg_target _ _ _ (seg_tail _ _ _ G3)) as Pk.
    destruct (seg_head _ _ _ G3 eq_refl) as (j & Fj & E & J). destruct j; try discriminate E. cbn [locs] in J.
    inversion J as [|? ? ? ? J2 _]; subst. clear J E.
    replace (place l + total (Target l :: JumpIfFalse k :: cc ++ cb ++ [Jump l; Target k])) with (place k) by (rewrite Pk; tot).
    assert (Lp : forall f w, (f <= N)%nat -> sim f (cf (Running R) (place l) w) (loop R f (eval R s p c) (run_all R (run R s p N) b) w) (place k) exit).
    { clear w. induction f as [|f IHf]; intros w L; [intros n Ln; destruct n as [|n]; [reflexivity|lia]|]. cbn [loop].
      pose proof (V _ _ Sh _ Gc w) as Vc. destruct (eval R s p c w) as [[v w1]|h] eqn:E; cbn [then_].
      - specialize (Vc ltac:(discriminate)). cbn [lift then_] in Vc.
        assert (St1 : reaches 1 (cf (Running R) (place l) w)
          (cf (Running R) (if truth R v w1 then place l + instr_size (JumpIfFalse k) + total cc else place k) w1)).
        { eapply eval_reaches; [reflexivity|intros n; apply (go_if _ _ _ _ F)|exact Vc|]. intros n. cbn beta iota. rewrite J1. reflexivity. }
        destruct (truth R v w1).
        + assert (Bs : sim N (cf (Running R) (place l + instr_size (JumpIfFalse k) + total cc) w1) (run_all R (run R s p N) b w1)
            (place l + instr_size (JumpIfFalse k) + total cc + total cb) (Some k)).
          { apply IH; [|exact Gb]. eapply closed_parts; [|exact C]. constructor. assumption. }
          destruct (run_all R (run R s p N) b w1) as [[w2|w2|y w2]|[]]; cbn [then_].
          * change (S f) with (1 + f)%nat. eapply sim_step; [|apply (IHf w2); lia].
            eapply (reaches_weaken (1 + (0 + 1))); [lia|]. eapply reaches_trans; [exact St1|]. eapply reaches_trans.
            { apply Bs. eapply nolabel_seg; [exact G3|reflexivity|reflexivity]. }
            apply step_reaches; [reflexivity|]. intros n. unfold cf. rewrite (go_jump _ _ _ _ Fj), J2. reflexivity.
          * cbn [sim] in Bs |- *. intros _. apply (reaches_weaken 1); [lia|]. eapply (reaches_trans 1 0); [exact St1|exact Bs].
          * cbn [sim] in Bs |- *. eapply reaches_final; [exact St1|exact Bs].
          * cbn [sim] in Bs |- *. eapply reaches_final; [exact St1|exact Bs].
          * exact I.
          * exact I.
          * cbn [sim] in Bs |- *. apply (sim_less (1 + N) (S f) _ (Halt OutOfFuel) (place k) exit); [lia|]. cbn [sim]. eapply reaches_starved; [exact St1|exact Bs].
        + cbn [sim]. intros _. apply (reaches_weaken 1); [lia|exact St1].
      - destruct (eval_halts _ _ _ E) as [->| ->]; [|exact I]. cbn [sim].
        eapply eval_final; [intros n; apply (go_if _ _ _ _ F)|apply Vc; discriminate]. }
    apply Lp. lia.
  - intros e cases default sp exit o first next next' t n ce cc cd Sn Dn Sh Cs IHc Ds IHd C a N w G. cbn [run]. rewrite Sn. cbn [need then_].
    destruct (seg_head _ _ _ G eq_refl) as (j & F & E & J). destruct j; try discriminate E. cbn [locs] in J.
    cbn [map_loc] in E. injection E as ->. inversion J as [|? ? ? ? J1 _]; subst. clear J.
    pose proof (seg_tail _ _ _ G) as G1. pose proof (seg_left _ _ _ G1) as Ge. pose proof (seg_right _ _ _ G1) as G2.
    pose proof (seg_target _ _ _ G2) as Pf. pose proof (seg_target_tail _ _ _ G2) as G3. pose proof (seg_right _ _ _ G3) as G4.
    pose proof (seg_target _ _ _ G4) as Pn. pose proof (seg_target_tail _ _ _ G4) as G5. pose proof (seg_left _ _ _ G5) as Gd.
    pose proof (seg_target _ _ _ (seg_right _ _ _ G5)) as Po. pose (E := place o).
    replace (a + total (Switch t first :: ce ++ Target first :: cc ++ Target next' :: cd ++ [Target o])) with E by (unfold E; rewrite Po; tot).
    assert (Hd : forall w, sim N (cf (Running R) (place next') w) (default_run N default w) E (Some o)).
    { intros w0. rewrite Pn. unfold E. rewrite Po. apply IHd; [|exact Gd]. intros d ->. eapply closed_parts; [|exact C]. intros y Iy. apply pt_default. exact Iy. }
    assert (Hn : nolabel (place next') \/ (E = place next' /\ forall w, default_run N default w = Ans (Normal R w))).
    { inversion Ds; subst; cbn [app] in *.
      - right. split; [|reflexivity]. unfold E. rewrite Po, Pn. tot.
      - left. rewrite Pn. eapply nolabel_seg; [exact Gd|reflexivity|reflexivity]. }
    assert (Hm : forall w t v, sim N (cf (Matching R t v) (place next') w) (default_run N default w) E (Some o)).
    { intros w0 t0 v0. destruct Hn as [L|[Ee Q]].
      - eapply sim_step0; [|apply Hd]. apply step_reaches; [reflexivity|]. intros m. apply go_matched, L.
      - rewrite Q. cbn [sim]. intros L. rewrite Ee in *. apply (reaches_weaken 1); [lia|]. apply step_reaches; [reflexivity|].
        intros m. apply go_matched, L. }
    destruct (IHc ltac:(apply Forall_forall; intros [mm bb] Ib; eapply closed_parts; [|exact C]; intros x J; eapply pt_case_body; eassumption)
      (C _ (wi_here _)) _ _ N _ E G3 Hd Hm Hn) as [S1 _].
    assert (Sw : sim N (cf (Running R) a w) (ask (v, w1) := eval R s p e w in
       ask (k, w2) := select R (eval R s p) n v cases w1 in run_case R (run_all R (run R s p N)) (default_run N default) k cases w2) E (Some o)).
    { eapply (sim_value N _ (a + instr_size (Switch t first)) None w ce (eval R s p e) _
        (fun x => let (v, w1) := x in ask (k, w2) := select R (eval R s p) n v cases w1 in run_case R (run_all R (run R s p N)) (default_run N default) k cases w2));
        [reflexivity|intros m; apply (go_switch _ _ _ _ _ _ F Dn)|apply (V _ _ Sh _ Ge)|apply eval_halts|].
      intros v w1 _. exists (cf (Matching R n v) (place first) w1). split; [intros m; rewrite J1; reflexivity|]. rewrite Pf. apply S1. }
    clear - Sw Po. fold (default_run N default).
    destruct (eval R s p e w) as [[v w1]|h]; [|exact Sw]. cbn [then_] in Sw |- *.
    destruct (select R (eval R s p) n v cases w1) as [[k w2]|h]; [|exact Sw]. cbn [then_] in Sw |- *.
    destruct (run_case R (run_all R (run R s p N)) (default_run N default) k cases w2) as [[w3|w3|y w3]|h]; [exact Sw| |exact Sw|exact Sw].
    cbn [then_ leave_switch sim] in *. intros _. exact Sw.
  - intros exit C a N w G. cbn [total]. rewrite Z.add_0_r. apply sim_done.
  - intros e es exit c cs Ss IH St Qs IHs C a N w G. inversion C; subst.
    pose proof (seg_left _ _ _ G) as Ge. pose proof (seg_right _ _ _ G) as Gs. cbn [run_all].
    specialize (IH H1 a N w Ge). destruct (run R s p N e w) as [[w1|w1|y w1]|h]; cbn [then_]; [|exact IH|exact IH|exact IH].
    destruct (proj1 (proj2 statement_lead) _ _ _ Qs) as [S0 L0].
    eapply (sim_then N _ (a + total c) _ _ cs w1); [exact Gs|tot|exact S0| |exact IH|].
    + destruct L0 as [L0|Q0]; [left; exact L0|right; apply Q0].
    + replace (a + total (c ++ cs)) with (a + total c + total cs) by tot. apply IHs; assumption.
  - intros o C a N w G. cbn [total default_run]. rewrite Z.add_0_r. apply sim_done.
  - intros o d c Q IH C a N w G. cbn [default_run].
    eapply (sim_step0 1); [|replace (a + total (SwitchDefault :: c)) with (a + instr_size (L := nat) SwitchDefault + total c) by tot; apply IH].
    + apply step_reaches; [reflexivity|]. intros n. apply go_default. exact (seg_plain _ _ _ G eq_refl eq_refl).
    + apply C. reflexivity.
    + exact (seg_tail _ _ _ G).
  - intros o body next _ _ rest a N D E G Hr Hm Hn. cbn [app] in G. pose proof (seg_target _ _ _ G) as Pn. split.
    + intros w t v. cbn [select then_ run_case]. rewrite <- Pn. apply Hm.
    + intros bl w _ X. destruct (X eq_refl).
  - intros o m stmts cases body b next next1 next' cm cs Hb Sh Em Cs IH C Ok rest a N D E G Hr Hm Hn.
    inversion C; subst. cbn [app] in G. rewrite <- app_assoc in G.
    pose proof (seg_target_tail _ _ _ G) as G0. pose proof (seg_tail _ _ _ G0) as G1. pose proof (seg_left _ _ _ G1) as Gm.
    pose proof (seg_right _ _ _ G1) as G2. pose proof (cshape_first _ _ _ _ _ _ _ _ Cs G2) as P1.
    destruct (IH H2 (ok_tail _ _ Ok) _ _ _ _ _ G2 Hr Hm Hn) as [S1 S2].
    assert (Ne : cases <> []) by (intros ->; rewrite (ok_last _ _ Ok) in Em; discriminate Em).
    destruct (seg_head _ _ _ G0 eq_refl) as (j & F & E' & J). destruct j; try discriminate E'. cbn [locs] in J. clear E'.
    inversion J as [|? ? ? ? J1 J']; subst. inversion J' as [|? ? ? ? J2 _]; subst. clear J J'.
    split.
    + intros w t v. cbn [select].
      assert (Sv : sim N (cf (Matching R t v) a w) (ask (x, w1) := eval R s p m w in
          if same R t v x w1 then run_case R (run_all R (run R s p N)) D O cases w1
          else ask (k, w2) := select R (eval R s p) t v cases w1 in run_case R (run_all R (run R s p N)) D k cases w2) E (Some o)).
      { eapply (sim_value N _ _ None w cm (eval R s p m) _
          (fun y => let (x, w1) := y in if same R t v x w1 then run_case R (run_all R (run R s p N)) D O cases w1
             else ask (k, w2) := select R (eval R s p) t v cases w1 in run_case R (run_all R (run R s p N)) D k cases w2));
          [reflexivity|intros n; apply (go_label _ _ _ _ _ _ _ F)|apply (V _ _ Sh _ Gm)|apply eval_halts|].
        intros x w1 _. cbn beta iota. destruct (same R t v x w1).
        - exists (cf (Running R) (place b) w1). split; [intros n; rewrite J2; reflexivity|]. apply S2; [reflexivity|exact Ne].
        - exists (cf (Matching R t v) (place next1) w1). split; [intros n; rewrite J1; reflexivity|]. rewrite P1. apply S1. }
      clear - Sv Em. destruct (eval R s p m w) as [[x w1]|h]; [|exact Sv]. cbn [then_] in Sv |- *. destruct (same R t v x w1); cbn [then_ run_case].
      * rewrite Em. exact Sv.
      * destruct (select R (eval R s p) t v cases w1) as [[k w2]|h]; exact Sv.
    + intros bl w -> _. cbn [run_case]. rewrite Em. subst b. apply S2; [reflexivity|exact Ne].
  - intros o m stmts cases body b next next1 next' cm cb cs Hb Sh Em Qs IHq Cs IH C Ok rest a N D E G Hr Hm Hn.
    inversion C; subst. cbn [app] in G. rewrite <- app_assoc in G. cbn [app] in G. rewrite <- app_assoc in G.
    pose proof (seg_target_tail _ _ _ G) as G0. pose proof (seg_tail _ _ _ G0) as G1. pose proof (seg_left _ _ _ G1) as Gm.
    pose proof (seg_right _ _ _ G1) as G2. pose proof (seg_target _ _ _ G2) as Pb. pose proof (seg_target_tail _ _ _ G2) as G3.
    pose proof (seg_left _ _ _ G3) as Gb. pose proof (seg_right _ _ _ G3) as G4.
    pose proof (cshape_first _ _ _ _ _ _ _ _ Cs G4) as P1.
    destruct (IH H2 (ok_tail _ _ Ok) _ _ _ _ _ G4 Hr Hm Hn) as [S1 _].
    destruct (seg_head _ _ _ G0 eq_refl) as (j & F & E' & J). destruct j; try discriminate E'. cbn [locs] in J. clear E'.
    inversion J as [|? ? ? ? J1 J']; subst. inversion J' as [|? ? ? ? J2 _]; subst. clear J J'.
    assert (S2 : forall w, sim N (cf (Running R) (place b) w) (run_case R (run_all R (run R s p N)) D O ((m, stmts) :: cases) w) E (Some o)).
    { intros w. cbn [run_case]. rewrite Em. pose proof (IHq H1 _ N w Gb) as Sq. rewrite <- Pb in Sq.
      destruct (run_all R (run R s p N) stmts w) as [[w1|w1|y w1]|h]; cbn [then_]; [|exact Sq|exact Sq|exact Sq].
      destruct cases as [|x cases]; [|exact I].
      inversion Cs; subst. cbn [app] in G4. pose proof (seg_target _ _ _ G4) as Pn. rewrite <- Pb in Pn. cbn [sim] in Sq. rewrite <- Pn in Sq.
      destruct Hn as [L|[Ee Q]].
      - eapply sim_step0; [exact (Sq L)|apply Hr].
      - rewrite Q. cbn [sim]. rewrite Ee. exact Sq. }
    split.
    + intros w t v. cbn [select].
      assert (Sv : sim N (cf (Matching R t v) a w) (ask (x, w1) := eval R s p m w in
          if same R t v x w1 then run_case R (run_all R (run R s p N)) D O ((m, stmts) :: cases) w1
          else ask (k, w2) := select R (eval R s p) t v cases w1 in run_case R (run_all R (run R s p N)) D k cases w2) E (Some o)).
      { eapply (sim_value N _ _ None w cm (eval R s p m) _
          (fun y => let (x, w1) := y in if same R t v x w1 then run_case R (run_all R (run R s p N)) D O ((m, stmts) :: cases) w1
             else ask (k, w2) := select R (eval R s p) t v cases w1 in run_case R (run_all R (run R s p N)) D k cases w2));
          [reflexivity|intros n; apply (go_label _ _ _ _ _ _ _ F)|apply (V _ _ Sh _ Gm)|apply eval_halts|].
        intros x w1 _. cbn beta iota. destruct (same R t v x w1).
        - exists (cf (Running R) (place b) w1). split; [intros n; rewrite J2; reflexivity|]. apply S2.
        - exists (cf (Matching R t v) (place next1) w1). split; [intros n; rewrite J1; reflexivity|]. rewrite P1. apply S1. }
      clear - Sv. destruct (eval R s p m w) as [[x w1]|h]; [|exact Sv]. cbn [then_] in Sv |- *. destruct (same R t v x w1); cbn [then_].
      * exact Sv.
      * destruct (select R (eval R s p) t v cases w1) as [[k w2]|h]; exact Sv.
    + intros bl w -> _. subst b. apply S2.
Qed.
End Placed.
