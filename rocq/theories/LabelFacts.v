(** Lemmas about the labels of assembled code. *)
From Coq Require Import String.
From Coq Require Import ZArith List Bool Lia Permutation.
From Verif Require Import Bytes Bytecode Definitions Bundle Ast Pool Scope TypeCheck Cursor SourceMap Assembler
  AssemblerFacts PartsSpec LabelSpec.
Import ListNotations.
Open Scope Z_scope.

Definition label_free (i : instr label) : Prop := locs i = [] /\ is_target i = false.

Ltac inv_gen :=
  repeat match goal with
  | H : abind _ _ _ = Done (?y, ?c, ?t) |- _ =>
    let x := fresh "x" in let c1 := fresh "c" in let t1 := fresh "t" in let c2 := fresh "c" in
    let A := fresh "A" in let B := fresh "B" in
    apply abind_done in H; destruct H as (x & c1 & t1 & c2 & A & B & ->)
  | H : emit _ _ = Done (_, _, _) |- _ => apply emit_done in H; destruct H as (-> & ->)
  | H : new_label _ = Done (_, _, _) |- _ => apply new_label_done in H; destruct H as (-> & -> & ->)
  | H : aret _ _ = Done (_, _, _) |- _ => apply aret_done in H; destruct H as (? & -> & ->)
  | H : aread _ _ = Done (_, _, _) |- _ => apply aread_done in H; destruct H as (? & -> & ->)
  | H : afailc _ _ _ = Done _ |- _ => discriminate H
  | H : afail _ _ = Done _ |- _ => discriminate H
  | x : unit |- _ => destruct x
  end.

Lemma literal_done k s t i c t1 : literal_index k s t = Done (i, c, t1) ->
  c = [] /\ as_labels t1 = as_labels t /\ as_scope t1 = as_scope t /\ add_literal k s (as_pool t) = (as_pool t1, i).
Proof. unfold literal_index. destruct (add_literal k s (as_pool t)). injection 1 as <- <- <-. repeat split. Qed.

(** Emitting without labels. *)
Definition quiet {X} (m : A X) : Prop := forall t x c t1, m t = Done (x, c, t1) -> as_labels t1 = as_labels t /\ Forall label_free c.
Lemma quiet_emit i : label_free i -> quiet (emit i).
Proof. intros L t x c t1 E. apply emit_done in E. destruct E as (-> & ->). split; [reflexivity|]. constructor; [exact L|constructor]. Qed.
Lemma quiet_bind {X Y} (m : A X) (k : X -> A Y) : quiet m -> (forall x, quiet (k x)) -> quiet (abind m k).
Proof.
  intros M K t y c t2 E. apply abind_done in E. destruct E as (x & c1 & t1 & c2 & E1 & E2 & ->).
  destruct (M _ _ _ _ E1) as [L1 F1]. destruct (K _ _ _ _ _ E2) as [L2 F2]. split; [congruence|apply Forall_app; split; assumption].
Qed.
Lemma quiet_read {X} (f : scope -> pool -> outcome error X) : quiet (aread f).
Proof. intros t x c t1 E. apply aread_done in E. destruct E as (_ & -> & ->). split; [reflexivity|constructor]. Qed.
Lemma quiet_ret {X} (x : X) : quiet (aret x).
Proof. intros t y c t1 E. apply aret_done in E. destruct E as (_ & -> & ->). split; [reflexivity|constructor]. Qed.
Lemma quiet_type sp ty : quiet (type_index sp ty).
Proof. intros t x c t1 E. apply type_index_done in E. destruct E as (-> & -> & _). split; [reflexivity|constructor]. Qed.
Lemma quiet_literal k s : quiet (literal_index k s).
Proof. intros t x c t1 E. apply literal_done in E. destruct E as (-> & -> & _). split; [reflexivity|constructor]. Qed.
Lemma quiet_fail {X} e : quiet (@afail X e). Proof. intros t x c t1 E. discriminate E. Qed.
Lemma quiet_failc {X} sp e : quiet (@afailc X sp e).
Proof. intros t x c t1 E. unfold afailc, failc, with_span, map_err in E. discriminate E. Qed.

Ltac quiet := repeat first
  [ apply quiet_bind; [|intros ?] | apply quiet_emit; split; reflexivity | apply quiet_read | apply quiet_ret
  | apply quiet_type | apply quiet_literal | apply quiet_fail | apply quiet_failc
  | match goal with |- quiet (if ?b then _ else _) => destruct b end
  | match goal with |- quiet (match ?b with _ => _ end) => destruct b end ].

Lemma head_quiet e h args : head_of e = Some (h, args) -> quiet h.
Proof.
  intros H. destruct e; cbn [head_of] in H;
    repeat match type of H with match ?x with _ => _ end = _ => destruct x end; try discriminate H; injection H as <- <-.
  all: try (quiet; fail).
  - unfold emit_constant. quiet.
  - unfold emit_initializer. quiet.
  - unfold emit_intrinsic, arg_type. quiet.
Qed.
Lemma head_parts e h args : head_of e = Some (h, args) -> forall a, In a args -> part a e.
Proof.
  intros H. destruct e; cbn [head_of] in H;
    repeat match type of H with match ?x with _ => _ end = _ => destruct x end; try discriminate H; injection H as <- <-;
    intros a I; repeat (destruct I as [<-|I]); try (destruct I; fail); try (constructor; assumption); constructor.
Qed.

Definition markers (c : code label) : list nat := flat_map (fun i => match i with Target l => [l] | _ => [] end) c.
Lemma markers_app a b : markers (a ++ b) = markers a ++ markers b.
Proof. apply flat_map_app. Qed.
Lemma label_free_markers c : Forall label_free c -> markers c = [].
Proof. induction 1 as [|i c [_ T] _ IH]; [reflexivity|]. cbn. destruct i; try discriminate T; exact IH. Qed.

Definition count (l : nat) (c : code label) : nat := count_occ Nat.eq_dec (markers c) l.
Definition ind (a b l : nat) : nat := if ((a <=? l) && (l <? b))%nat then 1 else 0.
Definition is (a l : nat) : nat := if (a =? l)%nat then 1 else 0.
Definition is_opt (a : option nat) (l : nat) : nat := match a with Some a => is a l | None => 0 end.
Lemma count_app l a b : count l (a ++ b) = (count l a + count l b)%nat.
Proof. unfold count. rewrite markers_app. apply count_occ_app. Qed.
Lemma count_target l a c : count l (Target a :: c) = (is a l + count l c)%nat.
Proof. unfold count, is. cbn. destruct (Nat.eq_dec a l) as [->|N]; [rewrite Nat.eqb_refl; reflexivity|]. apply Nat.eqb_neq in N. rewrite N. reflexivity. Qed.
Lemma count_other l i c : is_target i = false -> count l (i :: c) = count l c.
Proof. unfold count. cbn. destruct i; intros T; try discriminate T; reflexivity. Qed.
Lemma count_nil l : count l [] = 0%nat. Proof. reflexivity. Qed.
Lemma count_free l c : Forall label_free c -> count l c = 0%nat.
Proof. intros F. unfold count. rewrite (label_free_markers _ F). reflexivity. Qed.
Lemma count_nops l n : count l (repeat Nop n) = 0%nat.
Proof. induction n; [reflexivity|]. cbn [repeat]. rewrite count_other by reflexivity. exact IHn. Qed.

(** All label operands and markers satisfy [P]. *)
Definition labels_in (P : nat -> Prop) (c : code label) : Prop := Forall (fun i => Forall P (locs i)) c.
Lemma labels_weaken (P Q : nat -> Prop) c : (forall l, P l -> Q l) -> labels_in P c -> labels_in Q c.
Proof. intros H. apply Forall_impl. intros i. apply Forall_impl. exact H. Qed.
Lemma labels_app P a b : labels_in P (a ++ b) <-> labels_in P a /\ labels_in P b.
Proof. apply Forall_app. Qed.
Lemma labels_cons P i c : labels_in P (i :: c) <-> Forall P (locs i) /\ labels_in P c.
Proof. split; [intros H; inversion H; auto|intros [? ?]; constructor; assumption]. Qed.
Lemma labels_free P c : Forall label_free c -> labels_in P c.
Proof. apply Forall_impl. intros i [-> _]. constructor. Qed.
Lemma labels_nops P n : labels_in P (repeat Nop n).
Proof. apply labels_free. apply Forall_forall. intros i I. apply repeat_spec in I. subst. split; reflexivity. Qed.

Definition own (t t1 : astate) (l : nat) : Prop := (as_labels t <= l < as_labels t1)%nat.
Definition good (exit : option nat) (t : astate) (c : code label) (t1 : astate) : Prop :=
  (as_labels t <= as_labels t1)%nat /\ (forall l, count l c = ind (as_labels t) (as_labels t1) l) /\
  labels_in (fun l => own t t1 l \/ exit = Some l) c.

Lemma closed_part x e : part x e -> closed e -> closed x.
Proof. intros P C y W. apply C. econstructor; [exact P|exact W]. Qed.
Lemma closed_parts l e : (forall x, In x l -> part x e) -> closed e -> Forall closed l.
Proof. intros H C. apply Forall_forall. intros x I. eapply closed_part; [apply H, I|exact C]. Qed.

(** The last of the cases has a statement. *)
Definition cases_end (cases : list (texpr * list texpr)) : Prop :=
  forall before m body, cases = before ++ [(m, body)] -> forallb is_empty body = false.
Lemma closed_cases e cases d sp : closed (ESwitch e cases d sp) -> cases_end cases.
Proof.
  intros C before m body ->. destruct (C _ (wi_here _) before m body eq_refl) as (x & I & E).
  destruct (forallb is_empty body) eqn:F; [|reflexivity]. rewrite forallb_forall in F. rewrite (F _ I) in E. discriminate E.
Qed.
Lemma cases_end_tail c cs : cases_end (c :: cs) -> cases_end cs.
Proof. intros C b m body ->. apply (C (c :: b) m body). reflexivity. Qed.

Ltac inds :=
  unfold ind, is, is_opt, own in *; cbn [as_labels bump] in *;
  repeat match goal with
  | |- context [(?a <=? ?b)%nat] => destruct (Nat.leb_spec a b)
  | |- context [(?a <? ?b)%nat] => destruct (Nat.ltb_spec a b)
  | |- context [(?a =? ?b)%nat] => destruct (Nat.eqb_spec a b)
  end; cbn; try lia.
Ltac counts := let k := fresh "k" in intros k;
  repeat first [rewrite count_app | rewrite count_target | rewrite count_nil | rewrite count_nops
               | rewrite count_other by reflexivity];
  repeat match goal with X : forall l, count l _ = _ |- _ => rewrite (X k); clear X end; inds.
Ltac labs := repeat first [rewrite labels_app | rewrite labels_cons]; cbn [locs];
  repeat match goal with |- _ /\ _ => split | |- Forall _ (_ :: _) => apply Forall_cons | |- Forall _ [] => apply Forall_nil
    | |- labels_in _ [] => apply Forall_nil end; try apply labels_nops;
  try match goal with X : labels_in _ ?c |- labels_in _ ?c =>
    eapply labels_weaken; [|exact X]; cbn beta; let k := fresh "k" in intros k [Q|Q]; unfold own in *; cbn [as_labels bump] in *;
    try (injection Q as <-); try discriminate Q; auto end; unfold own; cbn [as_labels bump]; try (left; lia).

Lemma ind_split a b c l : (a <= b)%nat -> (b <= c)%nat -> ind a c l = (ind a b l + ind b c l)%nat.
Proof. intros. inds. Qed.
Lemma ind_S a b l : (a < b)%nat -> ind a b l = (is a l + ind (S a) b l)%nat.
Proof. intros. inds. Qed.
Lemma good_free exit t c t1 : as_labels t1 = as_labels t -> Forall label_free c -> good exit t c t1.
Proof.
  intros L F. split; [lia|split; [|apply labels_free, F]]. intros l. rewrite count_free by exact F. inds.
Qed.
Lemma good_app exit t c t1 c' t2 : good exit t c t1 -> good exit t1 c' t2 -> good exit t (c ++ c') t2.
Proof.
  intros (L1 & N1 & U1) (L2 & N2 & U2). split; [lia|split; [counts|]]. labs; left; lia.
Qed.
Lemma good_none exit t c t1 : good None t c t1 -> good exit t c t1.
Proof. intros (L & N & U). split; [exact L|split; [exact N|]]. eapply labels_weaken; [|exact U]. intros l [?|?]; [auto|discriminate]. Qed.

Lemma gens_good :
  (forall e exit t c t1, gens e exit t c t1 -> closed e -> good exit t c t1) /\
  (forall exit d t c t1, gdefault exit d t c t1 -> opt_all (Forall closed) d -> good (Some exit) t c t1) /\
  (forall es exit t c t1, gseq es exit t c t1 -> Forall closed es -> good exit t c t1) /\
  (forall f args force t c t1, gcall f args force t c t1 -> Forall closed args -> good None t c t1) /\
  (forall args flags t c t1, gargs args flags t c t1 -> Forall closed args -> good None t c t1) /\
  (forall exit cases body next t c next' t1, gcases exit cases body next t c next' t1 ->
     Forall (fun x => closed (fst x) /\ Forall closed (snd x)) cases -> cases_end cases -> (cases = [] -> body = None) ->
     (as_labels t <= as_labels t1)%nat /\
     (forall l, (count l c + is next' l = is_opt body l + is next l + ind (as_labels t) (as_labels t1) l)%nat) /\
     (next' = next \/ own t t1 next') /\
     labels_in (fun l => own t t1 l \/ l = exit \/ l = next \/ body = Some l) c).
Proof.
  apply gens_all.
  - intros e exit h args t c1 t1 c2 t2 Hh Eh G IH C.
    destruct (head_quiet _ _ _ Hh _ _ _ _ Eh) as [L F].
    eapply good_app; [apply good_free; eassumption|]. apply good_none, IH. eapply closed_parts; [exact (head_parts _ _ _ Hh)|exact C].
  - intros es exit t c t1 G IH C. apply IH. eapply closed_parts; [|exact C]. intros; constructor; assumption.
  - intros sp l t C. split; [lia|split; [counts|]]. labs. right; reflexivity.
  - intros c th sp exit t cc t1 ct t2 Gc IHc Gt IHt C.
    destruct IHc as (L1 & N1 & U1); [eapply closed_part; [constructor|exact C]|].
    destruct IHt as (L2 & N2 & U2); [eapply closed_parts; [|exact C]; intros; apply pt_then; assumption|].
    cbn [bump as_labels] in *. split; [lia|split; [counts|]]. labs; left; lia.
  - intros c th el sp exit t cc t1 ct t2 cf t3 Gc IHc Gt IHt Gf IHf C.
    destruct IHc as (L1 & N1 & U1); [eapply closed_part; [constructor|exact C]|].
    destruct IHt as (L2 & N2 & U2); [eapply closed_parts; [|exact C]; intros; apply pt_then; assumption|].
    destruct IHf as (L3 & N3 & U3); [eapply closed_parts; [|exact C]; intros; apply pt_else; assumption|].
    cbn [bump as_labels] in *. split; [lia|split; [counts|]]. labs; left; lia.
  - intros c a b sp exit t cc t1 ca t2 cb t3 Gc IHc Ga IHa Gb IHb C.
    destruct IHc as (L1 & N1 & U1); [eapply closed_part; [constructor|exact C]|].
    destruct IHa as (L2 & N2 & U2); [eapply closed_part; [apply pt_cond_then|exact C]|].
    destruct IHb as (L3 & N3 & U3); [eapply closed_part; [apply pt_cond_else|exact C]|].
    cbn [bump as_labels] in *. split; [lia|split; [counts|]]. labs; left; lia.
  - intros c b sp exit t cc t1 cb t2 Gc IHc Gb IHb C.
    destruct IHc as (L1 & N1 & U1); [eapply closed_part; [constructor|exact C]|].
    destruct IHb as (L2 & N2 & U2); [eapply closed_parts; [|exact C]; intros; apply pt_while_body; assumption|].
    cbn [bump as_labels] in *. split; [lia|split; [counts|]]. labs; left; lia.
  - intros e f sp exit t ce t1 Ge IHe C.
    destruct IHe as (L1 & N1 & U1); [eapply closed_part; [constructor|exact C]|].
    cbn [bump as_labels] in *. split; [lia|split; [counts|]]. labs; left; lia.
  - intros f ts args sp exit t c t1 G IH C. apply good_none, IH. eapply closed_parts; [|exact C]; intros; apply pt_call; assumption.
  - intros e f args sp exit t c t1 fn T F S G IH C. apply good_none, IH.
    eapply closed_parts; [|exact C]; intros; apply pt_method_arg; assumption.
  - intros e f args sp exit t fn ce t1 ca t2 T F S Ge IHe Ga IHa C.
    destruct IHe as (L1 & N1 & U1); [eapply closed_part; [constructor|exact C]|].
    destruct IHa as (L2 & N2 & U2); [eapply closed_parts; [|exact C]; intros; apply pt_method_arg; assumption|].
    cbn [bump as_labels] in *. split; [lia|split; [counts|]]. labs; left; lia.
  - intros e cases default sp exit t ty k t1 ce t2 cc next t3 cd t4 Ty Ti Ge IHe Gc IHc Gd IHd C.
    apply type_index_done in Ti. destruct Ti as (_ & L0 & _).
    destruct IHe as (L1 & N1 & U1); [eapply closed_part; [constructor|exact C]|].
    destruct IHc as (L2 & N2 & X2 & U2); [|eapply closed_cases; exact C|intros; reflexivity|].
    { apply Forall_forall. intros [m b] I. split; [eapply closed_part; [eapply pt_matcher; exact I|exact C]|].
      eapply closed_parts; [|exact C]. intros x Ix. eapply pt_case_body; eassumption. }
    destruct IHd as (L3 & N3 & U3).
    { destruct default; [|exact I]. eapply closed_parts; [|exact C]. intros; apply pt_default; assumption. }
    cbn [bump as_labels] in *. split; [lia|split].
    + intros l. specialize (N2 l).
      repeat first [rewrite count_app | rewrite count_target | rewrite count_nil | rewrite count_other by reflexivity].
      rewrite (N1 l), (N3 l). cbn [is_opt] in N2.
      assert (Z : (ind (as_labels t) (as_labels t4) l = is (as_labels t) l + is (S (as_labels t)) l + is (S (S (as_labels t))) l +
        ind (as_labels t1) (as_labels t2) l + ind (as_labels t2) (as_labels t3) l + ind (as_labels t3) (as_labels t4) l)%nat).
      { rewrite (ind_S (as_labels t)), (ind_S (S (as_labels t))), (ind_S (S (S (as_labels t)))) by lia. rewrite <- L0.
        rewrite (ind_split (as_labels t1) (as_labels t2)), (ind_split (as_labels t2) (as_labels t3)) by lia. lia. }
      lia.
    + labs; try (left; lia).
      destruct Q as [->|[->|Q]]; [left; lia|left; lia|discriminate Q].
      unfold own in X2. left. destruct X2 as [->|X2]; lia.
  - intros exit t _. apply good_free; [reflexivity|constructor].
  - intros exit d t c t1 G IH C. destruct (IH C) as (L1 & N1 & U1). split; [lia|split; [counts|]]. labs.
  - intros exit t _. apply good_free; [reflexivity|constructor].
  - intros e es exit t c t1 cs t2 G IH Gs IHs C. inversion C; subst. eapply good_app; [apply IH|apply IHs]; assumption.
  - intros f args force t fn flags i ca t1 F M H G IH L C. destruct (IH C) as (L1 & N1 & U1). cbn [bump as_labels] in *.
    assert (T : is_target i = false /\ locs i = [as_labels t]) by (destruct H; split; reflexivity). destruct T as [T Ti].
    split; [lia|split].
    + intros l. rewrite count_other by exact T. revert l. counts.
    + rewrite labels_cons, Ti. labs; left; lia.
  - intros flags t _. apply good_free; [reflexivity|constructor].
  - intros e args t _. apply good_free; [reflexivity|constructor].
  - intros e args fl flags t c t1 cs t2 _ G IH Gs IHs C. inversion C; subst. eapply good_app; [apply IH|apply IHs]; assumption.
  - intros e args fl flags t c t1 cs t2 _ G IH Gs IHs C. inversion C; subst.
    destruct IH as (L1 & N1 & U1); [assumption|]. destruct IHs as (L2 & N2 & U2); [assumption|].
    cbn [bump as_labels] in *. split; [lia|split; [counts|]]. labs; left; lia.
  - intros exit body next t _ _ B. split; [lia|]. split; [|split; [left; reflexivity|constructor]].
    intros l. rewrite (B eq_refl). cbn [is_opt]. rewrite count_nil. inds.
  - intros exit m stmts cases body next t b t0 cm t1 cs next' t2 B Gm IHm E Gc IHc C CE _.
    inversion C as [|? ? [Cm _] Cc]; subst. cbn [fst] in Cm.
    destruct (IHm Cm) as (L1 & N1 & U1).
    assert (NE : cases <> []). { intros ->. specialize (CE [] m stmts eq_refl). congruence. }
    destruct IHc as (L2 & N2 & X2 & U2); [exact Cc|eapply cases_end_tail; exact CE|intros; contradiction|].
    assert (BL : (as_labels t <= as_labels t0)%nat /\ forall l, (is b l = is_opt body l + ind (as_labels t) (as_labels t0) l)%nat).
    { destruct body; destruct B as [-> ->]; cbn [is_opt bump as_labels]; (split; [lia|intros l; inds]). }
    destruct BL as [BL1 BL2]. cbn [bump as_labels is_opt] in *.
    split; [lia|]. split; [|split].
    + intros l. rewrite count_target, count_other, count_app, (N1 l) by reflexivity. specialize (N2 l). specialize (BL2 l).
      rewrite BL2 in N2. assert (Z : (ind (as_labels t) (as_labels t2) l = ind (as_labels t) (as_labels t0) l + is (as_labels t0) l + ind (S (as_labels t0)) (as_labels t1) l + ind (as_labels t1) (as_labels t2) l)%nat).
      { rewrite (ind_split (as_labels t) (as_labels t0)), (ind_S (as_labels t0)), (ind_split (S (as_labels t0)) (as_labels t1)) by lia. lia. }
      lia.
    + unfold own in *. right. destruct X2; lia.
    + assert (BO : own t t2 b \/ body = Some b).
      { unfold own. destruct body; destruct B as [-> ->]; [auto|left; cbn [bump as_labels] in *; lia]. }
      unfold own in BO. labs; try (left; lia); try tauto.
      destruct Q as [->|[->|Q]]; [tauto|left; lia|injection Q as <-; tauto].
  - intros exit m stmts cases body next t b t0 cm t1 cb t2 cs next' t3 B Gm IHm E Gb IHb Gc IHc C CE _.
    inversion C as [|? ? [Cm Cb] Cc]; subst. cbn [fst snd] in *.
    destruct (IHm Cm) as (L1 & N1 & U1). destruct (IHb Cb) as (L3 & N3 & U3).
    destruct IHc as (L2 & N2 & X2 & U2); [exact Cc|eapply cases_end_tail; exact CE|reflexivity|].
    assert (BL : (as_labels t <= as_labels t0)%nat /\ forall l, (is b l = is_opt body l + ind (as_labels t) (as_labels t0) l)%nat).
    { destruct body; destruct B as [-> ->]; cbn [is_opt bump as_labels]; (split; [lia|intros l; inds]). }
    destruct BL as [BL1 BL2]. cbn [bump as_labels is_opt] in *.
    split; [lia|]. split; [|split].
    + intros l. rewrite count_target, count_other, count_app, count_target, count_app, (N1 l), (N3 l) by reflexivity. specialize (N2 l). specialize (BL2 l).
      rewrite BL2. assert (Z : (ind (as_labels t) (as_labels t3) l = ind (as_labels t) (as_labels t0) l + is (as_labels t0) l + ind (S (as_labels t0)) (as_labels t1) l + ind (as_labels t1) (as_labels t2) l + ind (as_labels t2) (as_labels t3) l)%nat).
      { rewrite (ind_split (as_labels t) (as_labels t0)), (ind_S (as_labels t0)), (ind_split (S (as_labels t0)) (as_labels t1)), (ind_split (as_labels t1) (as_labels t2)) by lia. lia. }
      lia.
    + unfold own in *. right. destruct X2; lia.
    + assert (BO : own t t3 b \/ body = Some b).
      { unfold own. destruct body; destruct B as [-> ->]; [auto|left; cbn [bump as_labels] in *; lia]. }
      unfold own in BO. labs; try (left; lia); try tauto.
      destruct Q as [->|[->|Q]]; [tauto|left; lia|discriminate Q].
Qed.

(** The instructions that mention a label. *)
Definition mentions (l : nat) (i : instr label) : bool := existsb (Nat.eqb l) (locs i).
Definition jumps (l : nat) (exit : option nat) (n : nat) : list (instr label) :=
  match exit with Some x => if (x =? l)%nat then repeat (Jump l) n else [] | None => [] end.
Lemma jumps_app l exit n m : jumps l exit n ++ jumps l exit m = jumps l exit (n + m).
Proof. destruct exit; [|reflexivity]. cbn. destruct (n0 =? l)%nat; [|reflexivity]. symmetry; apply repeat_app. Qed.
Lemma jumps_0 l exit : jumps l exit 0 = [].
Proof. destruct exit; [|reflexivity]. cbn. destruct (n =? l)%nat; reflexivity. Qed.
Lemma mentions_free l c : Forall label_free c -> filter (mentions l) c = [].
Proof. induction 1 as [|i c [L _] _ IH]; [reflexivity|]. cbn. unfold mentions. rewrite L. exact IH. Qed.
Lemma mentions_nops l n : filter (mentions l) (repeat Nop n) = [].
Proof. induction n; [reflexivity|exact IHn]. Qed.
Lemma mention_one l i c : mentions l i = false -> filter (mentions l) (i :: c) = filter (mentions l) c.
Proof. intros M. cbn. rewrite M. reflexivity. Qed.
Lemma head_breaks e h args : head_of e = Some (h, args) -> breaks e = 0%nat.
Proof. destruct e; intros H; try discriminate H; reflexivity. Qed.

Definition case_breaks (cases : list (texpr * list texpr)) : nat := list_sum (map (fun c => list_sum (map breaks (snd c))) cases).
Definition default_breaks (d : option (list texpr)) : nat := match d with Some d => list_sum (map breaks d) | None => 0%nat end.

Ltac ment := unfold mentions; cbn [locs existsb]; repeat match goal with |- context [(?a =? ?b)%nat] => destruct (Nat.eqb_spec a b); [exfalso; cbn [bump as_labels] in *; lia|] end; reflexivity.
Ltac filt := repeat first [rewrite filter_app | rewrite mentions_nops | rewrite mention_one by ment]; cbn [filter app].

Lemma gens_jumps :
  (forall e exit t c t1, gens e exit t c t1 -> (as_labels t <= as_labels t1)%nat /\
     forall l, (l < as_labels t)%nat -> filter (mentions l) c = jumps l exit (breaks e)) /\
  (forall exit d t c t1, gdefault exit d t c t1 -> (as_labels t <= as_labels t1)%nat /\
     forall l, (l < as_labels t)%nat -> filter (mentions l) c = jumps l (Some exit) (default_breaks d)) /\
  (forall es exit t c t1, gseq es exit t c t1 -> (as_labels t <= as_labels t1)%nat /\
     forall l, (l < as_labels t)%nat -> filter (mentions l) c = jumps l exit (list_sum (map breaks es))) /\
  (forall f args force t c t1, gcall f args force t c t1 -> (as_labels t <= as_labels t1)%nat /\
     forall l, (l < as_labels t)%nat -> filter (mentions l) c = []) /\
  (forall args flags t c t1, gargs args flags t c t1 -> (as_labels t <= as_labels t1)%nat /\
     forall l, (l < as_labels t)%nat -> filter (mentions l) c = []) /\
  (forall exit cases body next t c next' t1, gcases exit cases body next t c next' t1 -> (as_labels t <= as_labels t1)%nat /\
     (next' = next \/ own t t1 next') /\
     forall l, (l < as_labels t)%nat -> next <> l -> body <> Some l ->
       filter (mentions l) c = jumps l (Some exit) (case_breaks cases)).
Proof.
  apply gens_all.
  - intros e exit h args t c1 t1 c2 t2 Hh Eh G [L IH].
    destruct (head_quiet _ _ _ Hh _ _ _ _ Eh) as [L1 F]. split; [lia|]. intros l B.
    rewrite filter_app, (mentions_free _ _ F), (head_breaks _ _ _ Hh), jumps_0. apply (IH l). lia.
  - intros es exit t c t1 G IH. exact IH.
  - intros sp l t. split; [lia|]. intros k B. cbn. unfold mentions. cbn. rewrite (Nat.eqb_sym l k). destruct (Nat.eqb_spec k l); subst; reflexivity.
  - intros c th sp exit t cc t1 ct t2 Gc [Lc IHc] Gt [Lt IHt]. cbn [bump as_labels] in *. split; [lia|]. intros l B.
    filt. rewrite IHc, IHt by lia. cbn [jumps app breaks]. rewrite app_nil_r, Nat.add_0_r. reflexivity.
  - intros c th el sp exit t cc t1 ct t2 cf t3 Gc [Lc IHc] Gt [Lt IHt] Gf [Lf IHf]. cbn [bump as_labels] in *. split; [lia|]. intros l B.
    filt. rewrite IHc, IHt, IHf by lia. cbn [jumps app breaks]. rewrite app_nil_r. apply jumps_app.
  - intros c a b sp exit t cc t1 ca t2 cb t3 Gc [Lc IHc] Ga [La IHa] Gb [Lb IHb]. cbn [bump as_labels] in *. split; [lia|]. intros l B.
    filt. rewrite IHc, IHa, IHb by lia. cbn [jumps app breaks]. rewrite jumps_0. reflexivity.
  - intros c b sp exit t cc t1 cb t2 Gc [Lc IHc] Gb [Lb IHb]. cbn [bump as_labels] in *. split; [lia|]. intros l B.
    filt. rewrite IHc, IHb by lia. cbn [jumps app breaks]. rewrite jumps_0.
    destruct (Nat.eqb_spec (as_labels t) l); [lia|reflexivity].
  - intros e f sp exit t ce t1 Ge [Le IHe]. cbn [bump as_labels] in *. split; [lia|]. intros l B.
    filt. rewrite IHe by lia. cbn [jumps app breaks]. rewrite jumps_0. reflexivity.
  - intros f ts args sp exit t c t1 G [L IH]. split; [exact L|]. intros l B. cbn [breaks]. rewrite jumps_0. apply IH, B.
  - intros e f args sp exit t c t1 fn T F S G [L IH]. split; [exact L|]. intros l B. cbn [breaks]. rewrite jumps_0. apply IH, B.
  - intros e f args sp exit t fn ce t1 ca t2 T F S Ge [Le IHe] Ga [La IHa]. cbn [bump as_labels] in *. split; [lia|]. intros l B.
    filt. rewrite IHe, IHa by lia. cbn [jumps app breaks]. rewrite jumps_0. reflexivity.
  - intros e cases default sp exit t ty k t1 ce t2 cc next t3 cd t4 Ty Ti Ge [Le IHe] Gc (Lc & Xc & IHc) Gd [Ld IHd].
    apply type_index_done in Ti. destruct Ti as (_ & L0 & _). cbn [bump as_labels] in *. split; [lia|]. intros l B.
    unfold own in Xc. filt. rewrite IHe, IHc, IHd by (lia || discriminate). cbn [jumps app breaks].
    rewrite jumps_0. destruct (Nat.eqb_spec (S (S (as_labels t))) l); [lia|reflexivity].
  - intros exit t. split; [lia|]. intros l B. cbn [default_breaks]. rewrite jumps_0. reflexivity.
  - intros exit d t c t1 G [L IH]. split; [lia|]. intros l B. filt. apply IH, B.
  - intros exit t. split; [lia|]. intros l B. cbn. rewrite jumps_0. reflexivity.
  - intros e es exit t c t1 cs t2 G [L IH] Gs [Ls IHs]. split; [lia|]. intros l B. filt. rewrite IH, IHs by lia.
    rewrite jumps_app. reflexivity.
  - intros f args force t fn flags i ca t1 F M H G [L1 IH] L. cbn [bump as_labels] in *. split; [lia|]. intros l B.
    assert (T : mentions l i = false) by (destruct H; ment). rewrite mention_one by exact T. filt. rewrite IH by lia. reflexivity.
  - intros flags t. split; [lia|]. reflexivity.
  - intros e args t. split; [lia|]. reflexivity.
  - intros e args fl flags t c t1 cs t2 _ G [L IH] Gs [Ls IHs]. split; [lia|]. intros l B. filt. rewrite IH, IHs by lia. reflexivity.
  - intros e args fl flags t c t1 cs t2 _ G [L IH] Gs [Ls IHs]. cbn [bump as_labels] in *. split; [lia|]. intros l B. filt. rewrite IH, IHs by lia. reflexivity.
  - intros exit body next t. split; [lia|]. split; [auto|]. intros l B _ _. cbn [case_breaks map list_sum]. rewrite jumps_0. reflexivity.
  - intros exit m stmts cases body next t b t0 cm t1 cs next' t2 B Gm [Lm IHm] E Gc (Lc & Xc & IHc).
    assert (BL : (as_labels t <= as_labels t0)%nat) by (destruct body; destruct B as [-> ->]; cbn [bump as_labels]; lia).
    cbn [bump as_labels] in *. unfold own in *. split; [lia|]. split; [right; lia|]. intros l Bl N1 N2.
    assert (NB : b <> l) by (destruct body; destruct B as [-> ->]; [congruence|lia]).
    filt. rewrite IHm by lia. rewrite IHc; [|lia|lia|congruence]. cbn [jumps app].
    replace (case_breaks ((m, stmts) :: cases)) with (case_breaks cases); [reflexivity|].
    unfold case_breaks. cbn [map snd list_sum]. symmetry.
    assert (Z : list_sum (map breaks stmts) = 0%nat).
    { clear - E. induction stmts as [|x stmts IH]; [reflexivity|]. cbn [forallb] in E. apply andb_prop in E. destruct E as [E1 E2].
      cbn [map list_sum]. change (breaks x + list_sum (map breaks stmts) = 0)%nat. rewrite IH by exact E2. rewrite Nat.add_0_r.
      clear - E1. induction x using expr_ind'; try discriminate E1. cbn [is_empty breaks] in *.
      induction H; [reflexivity|]. cbn [forallb] in E1. apply andb_prop in E1. destruct E1 as [E1 E2]. cbn [map].
      change (breaks x + list_sum (map breaks l) = 0)%nat. rewrite H, IHForall; auto. }
    change (list_sum (map breaks stmts) + list_sum (map (fun c => list_sum (map breaks (snd c))) cases) = list_sum (map (fun c => list_sum (map breaks (snd c))) cases))%nat.
    rewrite Z. reflexivity.
  - intros exit m stmts cases body next t b t0 cm t1 cb t2 cs next' t3 B Gm [Lm IHm] E Gb [Lb IHb] Gc (Lc & Xc & IHc).
    assert (BL : (as_labels t <= as_labels t0)%nat) by (destruct body; destruct B as [-> ->]; cbn [bump as_labels]; lia).
    cbn [bump as_labels] in *. unfold own in *. split; [lia|]. split; [right; lia|]. intros l Bl N1 N2.
    assert (NB : b <> l) by (destruct body; destruct B as [-> ->]; [congruence|lia]).
    filt. rewrite IHm, IHb by lia. rewrite IHc; [|lia|lia|discriminate]. change (jumps l None (breaks m)) with (@nil (instr nat)). cbn [app].
    rewrite jumps_app. reflexivity.
Qed.
