(** Labels and breaks in assembled code: C15 and C16. *)
From Coq Require Import String.
From Coq Require Import ZArith List Bool Lia.
From Verif Require Import Bytes BytesFacts Bytecode BytecodeFacts Bundle Definitions Ast Pool Scope TypeCheck SourceMap Cursor CursorSpec P_Cursor
  PartsSpec Assembler AssemblerFacts LabelSpec LabelFacts P_TypeIndex.
Import ListNotations.
Open Scope Z_scope.

(** * C15 *)

Lemma count_none l c : count l c = 0%nat -> ~ In (Target l) c.
Proof.
  intros C I. apply in_split in I. destruct I as (a & b & ->). rewrite count_app, count_target in C. unfold is in C. rewrite Nat.eqb_refl in C. lia.
Qed.
Lemma count_once l c : count l c = 1%nat -> placed_once l c.
Proof.
  intros C. assert (I : In (Target l) c).
  { destruct (in_dec Nat.eq_dec l (markers c)) as [I|N].
    - apply in_flat_map in I. destruct I as (i & I & J). destruct i; try contradiction. destruct J as [<-|[]]. exact I.
    - apply (count_occ_not_In Nat.eq_dec) in N. unfold count in C. lia. }
  apply in_split in I. destruct I as (a & b & ->). exists a, b. split; [reflexivity|].
  rewrite count_app, count_target in C. unfold is in C. rewrite Nat.eqb_refl in C. split; apply count_none; lia.
Qed.

(** The label stream of a body in which the last case of every switch has a
    statement ([closed]; false otherwise, C15_empty_last_case_refuted): every label that was allocated is placed exactly
    once, and only allocated labels are referred to or placed. *)
Theorem C15_labels_placed_once_partial : forall files body s p c t,
  asm_body files body {| as_labels := 0; as_scope := s; as_pool := p |} = Done (tt, c, t) -> Forall closed body ->
  (forall l, (l < as_labels t)%nat -> placed_once l c) /\
  (forall l, used l c -> (l < as_labels t)%nat) /\ (forall l, In (Target l) c -> (l < as_labels t)%nat).
Proof.
  intros files body s p c t E C. destruct (body_sound _ _ _ _ _ E) as (c' & G & ->).
  destruct gens_good as (_ & _ & Q & _). destruct (Q _ _ _ _ _ G C) as (_ & N & U). clear Q. cbn [as_labels] in *.
  assert (R : forall i l, In i (c' ++ [Nop]) -> In l (locs i) -> (l < as_labels t)%nat).
  { intros i l I J. apply in_app_or in I. destruct I as [I|[<-|[]]]; [|destruct J].
    unfold labels_in in U. rewrite Forall_forall in U. specialize (U _ I). rewrite Forall_forall in U. destruct (U _ J) as [[_ H]|H]; [exact H|discriminate H]. }
  split; [|split].
  - intros l B. apply count_once. rewrite count_app, N. unfold ind. apply Nat.ltb_lt in B. rewrite B. reflexivity.
  - intros l (i & I & _ & J). eapply R; eassumption.
  - intros l I. eapply R; [exact I|left; reflexivity].
Qed.
Print Assumptions C15_labels_placed_once_partial.

(** Hence compiling a body of less than 64 KiB gives code in which each label
    operand leads to the one place in the code that its label marks. *)
Theorem C15_no_jump_to_start_partial : forall files body s p c t,
  asm_body files body {| as_labels := 0; as_scope := s; as_pool := p |} = Done (tt, c, t) -> Forall closed body -> total c < 65536 ->
  exists out, from_body files body s p = Done (out, as_scope t, as_pool t) /\
    forall pre i post, c = pre ++ i :: post -> is_target i = false ->
      exists q j r, out = q ++ j :: r /\ total q = total pre /\ map_loc (fun _ => tt) j = map_loc (fun _ => tt) i /\
        Forall2 (fun l o => exists p1 p2, c = p1 ++ Target l :: p2 /\ ~ In (Target l) p1 /\ ~ In (Target l) p2 /\
                            absolute o (total q) = total p1) (locs i) (locs j).
Proof.
  intros files body s p c t E C B. destruct (C15_labels_placed_once_partial _ _ _ _ _ _ E C) as (P & U & T).
  assert (LB : labels_below (as_labels t) c).
  { apply Forall_forall. intros i I. apply Forall_forall. intros l J. destruct (is_target i) eqn:Ti.
    - destruct i; try discriminate Ti. destruct J as [<-|[]]. apply T, I.
    - apply U. exists i. auto. }
  destruct (C14_jumps_land_on_labels _ _ LB B) as (out & Eo & _ & _ & _ & J). exists out. split.
  - unfold from_body. rewrite E, Eo. reflexivity.
  - intros pre i post Ec Ti. destruct (J _ _ _ Ec Ti) as (q & j & r & H1 & H2 & _ & H3 & H4). exists q, j, r. repeat split; try assumption.
    assert (Ls : Forall (fun l => (l < as_labels t)%nat) (locs i)).
    { unfold labels_below in LB. rewrite Forall_forall in LB. apply LB. rewrite Ec. apply in_elt. }
    clear - H4 Ls P. induction H4 as [|l o ls os [_ H] _ IH]; [constructor|]. inversion Ls; subst. constructor; [|apply IH; assumption].
    destruct (P l) as (p1 & p2 & E & N1 & N2); [assumption|]. exists p1, p2. rewrite (H _ _ E N2). auto.
Qed.
Print Assumptions C15_no_jump_to_start_partial.

Definition sp0 : span := {| sp_low := 0; sp_high := 0 |}.
Definition num (n : Z) : texpr := EConstant (CI32 n) sp0.

(** switch 7 { case 1: while 5 { break; } break; case 2: case 3: return; default: return; } *)
Definition as_body : list texpr :=
  [ESwitch (num 7) [(num 1, [EWhile (num 5) [EBreak sp0] sp0; EBreak sp0]); (num 2, []); (num 3, [EReturn None sp0])]
     (Some [EReturn None sp0]) sp0].
Definition as_code : code label * astate := Eval vm_compute in
  match asm_body [] as_body {| as_labels := 0; as_scope := ti_scope; as_pool := ti_pool |} with
  | Done (_, c, t) => (c, t) | Fail _ => ([], {| as_labels := 0; as_scope := ti_scope; as_pool := ti_pool |}) end.

Lemma closed_intro e : ends_with_statements e -> (forall x, part x e -> closed x) -> closed e.
Proof. intros H P x W. inversion W; subst; [exact H|]. eapply P; eassumption. Qed.
Lemma simple_closed e : (forall x, ~ part x e) -> ends_with_statements e -> closed e.
Proof. intros P H. apply closed_intro; [exact H|]. intros x Q. destruct (P _ Q). Qed.
Ltac simple := apply simple_closed; [intros ? H; solve [inversion H]|exact I].
Lemma as_body_closed : Forall closed as_body.
Proof.
  constructor; [|constructor]. apply closed_intro.
  - intros before m body E. exists (EReturn None sp0). split; [|reflexivity].
    do 2 (destruct before as [|? before]; [discriminate E|]; injection E as _ E). destruct before as [|? before]; [|destruct before; discriminate E].
    injection E as <- <-. left; reflexivity.
  - intros x P. inversion P; subst; clear P; try simple.
    + match goal with I : In _ _ |- _ => repeat (destruct I as [[= <- <-]|I]); [..|destruct I] end; simple.
    + match goal with I : In _ _ |- _ => repeat (destruct I as [[= <- <-]|I]); [..|destruct I] end;
        match goal with I : In _ _ |- _ => repeat (destruct I as [<-|I]); [..|destruct I] end; try simple.
      apply closed_intro; [exact I|]. intros y Q. inversion Q; subst; clear Q; [simple|].
      match goal with I : In _ _ |- _ => destruct I as [<-|[]] end. simple.
    + match goal with I : In _ _ |- _ => destruct I as [<-|[]] end. simple.
Qed.

Example C15_example :
  asm_body [] as_body {| as_labels := 0; as_scope := ti_scope; as_pool := ti_pool |} = Done (tt, fst as_code, snd as_code) /\
  total (fst as_code) < 65536 /\ as_labels (snd as_code) = 10%nat /\
  fst as_code = [Switch 1 0%nat; I32Const 7; Target 0%nat; Target 1%nat;
   SwitchLabel 4%nat 3%nat; I32Const 1; Target 3%nat;
   Target 6%nat; JumpIfFalse 5%nat; I32Const 5; Jump 5%nat;
   Jump 6%nat; Target 5%nat; Jump 2%nat; Target 4%nat;
   SwitchLabel 8%nat 7%nat; I32Const 2; Target 8%nat;
   SwitchLabel 9%nat 7%nat; I32Const 3; Target 7%nat; Return; Nop;
   Target 9%nat; SwitchDefault; Return; Nop; Target 2%nat; Nop].
Proof. repeat split; vm_compute; reflexivity. Qed.

(** Without statements in the last case (case 2: default: return), the label of
    the body of that case is referred to but placed nowhere. *)
Definition open_body : list texpr :=
  [ESwitch (num 7) [(num 1, [EBreak sp0]); (num 2, [])] (Some [EReturn None sp0]) sp0].
Definition open_code : code label * astate := Eval vm_compute in
  match asm_body [] open_body {| as_labels := 0; as_scope := ti_scope; as_pool := ti_pool |} with
  | Done (_, c, t) => (c, t) | Fail _ => ([], {| as_labels := 0; as_scope := ti_scope; as_pool := ti_pool |}) end.
Theorem C15_empty_last_case_refuted : exists files body s p c t l,
  asm_body files body {| as_labels := 0; as_scope := s; as_pool := p |} = Done (tt, c, t) /\
  used l c /\ ~ In (Target l) c /\
  exists out pre i post, from_body files body s p = Done (out, as_scope t, as_pool t) /\
    out = pre ++ SwitchLabel i (- total pre) :: post /\ 0 < total pre.
Proof.
  exists [], open_body, ti_scope, ti_pool, (fst open_code), (snd open_code), 5%nat.
  split; [vm_compute; reflexivity|]. split; [|split].
  - exists (SwitchLabel 6%nat 5%nat). split; [cbn; tauto|]. split; [reflexivity|right; left; reflexivity].
  - cbn. intros H. repeat (destruct H as [H|H]; [discriminate H|]). exact H.
  - eexists _, [Switch 1 16; I32Const 7; SwitchLabel 13 10; I32Const 1; Jump 16], _, _.
    split; [vm_compute; reflexivity|]. split; [reflexivity|]. reflexivity.
Qed.
Print Assumptions C15_empty_last_case_refuted.

(** * C16 *)

Definition jump_to (l : nat) (i : instr label) : bool := match i with Jump k => (k =? l)%nat | _ => false end.

(** A break outside of any loop or switch makes assembling fail. *)
Theorem C16_break_outside_is_error : forall files body s p x, In x body -> free_break x ->
  forall r, from_body files body s p <> Done r.
Proof.
  assert (B : forall x, free_break x -> (0 < breaks x)%nat).
  { assert (S : forall (x : texpr) l, In x l -> (breaks x <= list_sum (map breaks l))%nat).
    { induction l as [|y l IH]; [intros []|]. intros I. cbn [map]. change (breaks x <= breaks y + list_sum (map breaks l))%nat.
      destruct I as [->|I]; [lia|]. specialize (IH I). lia. }
    induction 1; cbn [breaks]; try lia; pose proof (S _ _ H); lia. }
  assert (G : (forall e exit t c t1, gens e exit t c t1 -> exit = None -> breaks e = 0%nat) /\
              (forall exit d t c t1, gdefault exit d t c t1 -> True) /\
              (forall es exit t c t1, gseq es exit t c t1 -> exit = None -> list_sum (map breaks es) = 0%nat) /\
              (forall f args force t c t1, gcall f args force t c t1 -> True) /\
              (forall args flags t c t1, gargs args flags t c t1 -> True) /\
              (forall exit cases body next t c next' t1, gcases exit cases body next t c next' t1 -> True)).
  { apply gens_all; intros; auto; try discriminate; try (eapply head_breaks; eassumption); cbn [breaks];
       subst; repeat match goal with X : None = None -> _ |- _ => specialize (X eq_refl) end; try lia; auto.
    cbn [map]. change (breaks e + list_sum (map breaks es) = 0)%nat. lia. }
  intros files body s p x I F [[out s'] p'] E. unfold from_body in E.
  destruct (asm_body _ _ _) as [[[[] c] t]|] eqn:E1; [|discriminate E]. destruct (body_sound _ _ _ _ _ E1) as (c' & Gs & _).
  destruct G as (_ & _ & G & _). specialize (G _ _ _ _ _ Gs eq_refl). specialize (B _ F).
  clear - B G I. induction body as [|y body IH]; [destruct I|]. cbn [map] in G. change (breaks y + list_sum (map breaks body) = 0)%nat in G.
  destruct I as [->|I]; [lia|]. apply IH; [lia|exact I].
Qed.
Print Assumptions C16_break_outside_is_error.

(** In the code of any statement or expression assembled with the break target
    [exit], the instructions mentioning [exit] are exactly the jumps of its own
    breaks; it mentions no other label that existed before. *)
Theorem C16_breaks_jump_to_target : forall files e exit t c t1, asm files e exit t = Done (tt, c, t1) ->
  forall l, (l < as_labels t)%nat ->
    filter (fun i => existsb (Nat.eqb l) (locs i)) c =
    match exit with
    | Some x => if (x =? l)%nat then repeat (Jump l) (breaks e) else []
    | None => []
    end.
Proof. intros files e exit t c t1 E l B. apply asm_sound in E. exact (proj2 (proj1 gens_jumps _ _ _ _ _ E) l B). Qed.
Print Assumptions C16_breaks_jump_to_target.

Lemma filter_jumps l c : filter (jump_to l) c = filter (jump_to l) (filter (mentions l) c).
Proof.
  induction c as [|i c IH]; [reflexivity|]. cbn [filter]. destruct (mentions l i) eqn:M; cbn [filter]; rewrite IH; [reflexivity|].
  destruct (jump_to l i) eqn:J; [|reflexivity]. destruct i; try discriminate J. cbn in J. unfold mentions in M. cbn in M. rewrite Nat.eqb_sym, J in M. discriminate M.
Qed.
Lemma filter_repeat l n : filter (jump_to l) (repeat (Jump l) n) = repeat (Jump l) n.
Proof. induction n; [reflexivity|]. cbn [repeat filter jump_to]. rewrite Nat.eqb_refl, IHn. reflexivity. Qed.
Lemma jumps_own l n : filter (jump_to l) (jumps l (Some l) n) = repeat (Jump l) n.
Proof. cbn. rewrite Nat.eqb_refl. apply filter_repeat. Qed.

(** A while loop is accepted under any break target and leaves that target alone
    (C16_breaks_jump_to_target with [breaks] zero); its code ends with the marker
    of a new label, placed there only, and the jumps to it are exactly the breaks
    of the body. *)
Theorem C16_while_is_the_break_target : forall files cond body sp exit t c t1,
  asm files (EWhile cond body sp) exit t = Done (tt, c, t1) ->
  exists out before, (as_labels t <= out < as_labels t1)%nat /\ c = before ++ [Target out] /\
    filter (jump_to out) c = repeat (Jump out) (list_sum (map breaks body)) /\
    (Forall closed (cond :: body) -> ~ In (Target out) before).
Proof.
  intros files cond body sp exit t c t1 E. apply asm_sound in E. pose proof E as G. inversion E; subst; clear E; [discriminate|].
  match goal with X : gens cond _ _ _ _ |- _ => rename X into Gc end. match goal with X : gseq _ _ _ _ _ |- _ => rename X into Gb end.
  destruct gens_jumps as (J1 & _ & J2 & _). destruct (J1 _ _ _ _ _ Gc) as [L1 F1]. destruct (J2 _ _ _ _ _ Gb) as [L2 F2].
  cbn [bump as_labels] in *.
  exists (as_labels t), (Target (S (as_labels t)) :: JumpIfFalse (as_labels t) :: cc ++ cb ++ [Jump (S (as_labels t))]).
  split; [lia|]. split; [cbn [app]; rewrite <- !app_assoc; reflexivity|]. split.
  - rewrite filter_jumps. cbn [filter mentions existsb locs app]. rewrite !filter_app, F1, F2 by lia.
    unfold mentions. cbn [filter existsb locs app orb]. rewrite Nat.eqb_refl. cbn [filter jump_to].
    destruct (as_labels t =? S (as_labels t))%nat eqn:X; [apply Nat.eqb_eq in X; lia|].
    cbn [orb filter jump_to app]. change (jumps (as_labels t) None (breaks cond)) with (@nil (instr nat)). cbn [app].
    rewrite filter_app, jumps_own. apply app_nil_r.
  - intros C. pose proof (Forall_inv C) as C1. pose proof (Forall_inv_tail C) as C2. destruct gens_good as (Q1 & _ & Q2 & _).
    destruct (Q1 _ _ _ _ _ Gc C1) as (_ & N1 & _). destruct (Q2 _ _ _ _ _ Gb C2) as (_ & N2 & _). apply count_none.
    rewrite count_target, count_other, !count_app, N1, N2, count_other, count_nil by reflexivity.
    unfold is, ind. cbn [bump as_labels].
    destruct (Nat.eqb_spec (S (as_labels t)) (as_labels t)); [lia|].
    destruct (Nat.leb_spec (S (S (as_labels t))) (as_labels t)); [lia|]. destruct (Nat.leb_spec (as_labels t2) (as_labels t)); [lia|]. reflexivity.
Qed.
Print Assumptions C16_while_is_the_break_target.

(** A switch likewise: the jumps to the label at its end are exactly the breaks of
    its case bodies and of its default. *)
Theorem C16_switch_is_the_break_target : forall files e cases default sp exit t c t1,
  asm files (ESwitch e cases default sp) exit t = Done (tt, c, t1) ->
  exists out before, (as_labels t <= out < as_labels t1)%nat /\ c = before ++ [Target out] /\
    filter (jump_to out) c =
      repeat (Jump out) (list_sum (map (fun x => list_sum (map breaks (snd x))) cases) +
                         match default with Some d => list_sum (map breaks d) | None => 0 end) /\
    (closed (ESwitch e cases default sp) -> ~ In (Target out) before).
Proof.
  intros files e cases default sp exit t c t1 E. apply asm_sound in E. pose proof E as G. inversion E; subst; clear E; [discriminate|].
  destruct gens_jumps as (J1 & J2 & _ & _ & _ & J3).
  match goal with X : type_index _ _ _ = _ |- _ => apply type_index_done in X; destruct X as (_ & L0 & _) end.
  match goal with X : gens e _ _ _ _ |- _ => destruct (J1 _ _ _ _ _ X) as [L1 F1]; rename X into Ge end.
  match goal with X : gcases _ _ _ _ _ _ _ _ |- _ => destruct (J3 _ _ _ _ _ _ _ _ X) as (L2 & X2 & F2); rename X into Gc end.
  match goal with X : gdefault _ _ _ _ _ |- _ => destruct (J2 _ _ _ _ _ X) as [L3 F3]; rename X into Gd end.
  cbn [bump as_labels] in *. set (out := S (S (as_labels t))) in *. unfold own in X2.
  exists out, (Switch k (as_labels t) :: ce ++ Target (as_labels t) :: cc ++ Target next :: cd).
  split; [lia|]. split; [cbn [app]; rewrite <- !app_assoc; cbn [app]; rewrite <- !app_assoc; reflexivity|]. split.
  - rewrite filter_jumps. repeat first [rewrite filter_app | rewrite mention_one by ment].
    rewrite F1, F2, F3 by (lia || discriminate). replace (filter (mentions out) [Target out]) with [Target out] by (unfold mentions; cbn; rewrite Nat.eqb_refl; reflexivity).
    change (jumps out None (breaks e)) with (@nil (instr nat)). cbn [app].
    rewrite !jumps_own. cbn [filter app jump_to]. rewrite app_nil_r, <- repeat_app. reflexivity.
  - intros C. destruct (proj1 gens_good _ _ _ _ _ G C) as (_ & N & _). specialize (N out). apply count_none.
    change (Switch k (as_labels t) :: ce ++ Target (as_labels t) :: cc ++ Target next :: cd ++ [Target out])
      with ((Switch k (as_labels t) :: ce) ++ (Target (as_labels t) :: cc) ++ (Target next :: cd) ++ [Target out]) in N.
    change (Switch k (as_labels t) :: ce ++ Target (as_labels t) :: cc ++ Target next :: cd)
      with ((Switch k (as_labels t) :: ce) ++ (Target (as_labels t) :: cc) ++ (Target next :: cd)).
    rewrite !count_app in *. 
    assert (T : count out [Target out] = 1%nat) by (rewrite count_target, count_nil; unfold is; rewrite Nat.eqb_refl; reflexivity).
    rewrite T in N. unfold ind in N.
    destruct ((as_labels t <=? out) && (out <? as_labels t1))%nat; lia.
Qed.
Print Assumptions C16_switch_is_the_break_target.

(** The body of C15_example: two breaks, one leaving the loop (label 5, at its
    end), one leaving the switch (label 2, at its end). *)
Example C16_example :
  filter (jump_to 5) (fst as_code) = [Jump 5%nat] /\ filter (jump_to 2) (fst as_code) = [Jump 2%nat] /\
  breaks (hd (EBreak sp0) as_body) = 0%nat /\ free_break (EIf (num 1) [EBreak sp0] None sp0) /\
  from_body [] [EIf (num 1) [EBreak sp0] None sp0] ti_scope ti_pool = Fail (CompileError (UnsupportedFeature (lit "Break")) sp0).
Proof. repeat split; try (vm_compute; reflexivity). eapply fb_then; [left; reflexivity|constructor]. Qed.
