(** From the code of a body to the bytes the machine runs (proof device). *)
From Coq Require Import String.
From Coq Require Import ZArith List Bool Lia.
From Verif Require Import Bytes BytesFacts Bytecode BytecodeFacts Definitions Bundle BundleFacts Ast TypeNames Pool Scope TypeCheck PoolSpec PoolFacts
  TypeIndexSpec TypeIndexFacts PartsSpec Cursor CursorSpec CursorFacts P_Cursor SourceMap Assembler AssemblerFacts LabelSpec LabelFacts P_Assembler
  Semantics BodySpec Machine GrowFacts ShapeFacts MachineFacts.
Import ListNotations.
Open Scope Z_scope.

(** * Only markers have no size *)
Definition solid (i : instr label) : Prop := is_target i = true \/ 0 < instr_size i.
Definition solids {X} (m : A X) : Prop := forall t x c t1, m t = Done (x, c, t1) -> Forall solid c.
Lemma solids_emit i : 0 < instr_size i -> solids (emit i).
Proof. intros L t x c t1 E. apply emit_done in E. destruct E as (-> & ->). apply Forall_cons; [right; exact L|constructor]. Qed.
Lemma solids_bind {X Y} (m : A X) (k : X -> A Y) : solids m -> (forall x, solids (k x)) -> solids (abind m k).
Proof.
  intros M K t y c t2 E. apply abind_done in E. destruct E as (x & c1 & t1 & c2 & E1 & E2 & ->).
  apply Forall_app. split; [eapply M, E1|eapply K, E2].
Qed.
Lemma solids_read {X} (f : scope -> pool -> outcome error X) : solids (aread f).
Proof. intros t x c t1 E. apply aread_done in E. destruct E as (_ & -> & ->). constructor. Qed.
Lemma solids_ret {X} (x : X) : solids (aret x).
Proof. intros t y c t1 E. apply aret_done in E. destruct E as (_ & -> & ->). constructor. Qed.
Lemma solids_type sp ty : solids (type_index sp ty).
Proof. intros t x c t1 E. apply type_index_done in E. destruct E as (-> & _). constructor. Qed.
Lemma solids_literal k s : solids (literal_index k s).
Proof. intros t x c t1 E. apply literal_done in E. destruct E as (-> & _). constructor. Qed.
Lemma solids_fail {X} e : solids (@afail X e). Proof. intros t x c t1 E. discriminate E. Qed.
Lemma solids_failc {X} sp e : solids (@afailc X sp e).
Proof. intros t x c t1 E. unfold afailc, failc, with_span, map_err in E. discriminate E. Qed.
Ltac solids := repeat first
  [ apply solids_bind; [|intros ?] | apply solids_emit; reflexivity | apply solids_read | apply solids_ret
  | apply solids_type | apply solids_literal | apply solids_fail | apply solids_failc
  | match goal with |- solids (if ?b then _ else _) => destruct b end
  | match goal with |- solids (match ?b with _ => _ end) => destruct b end ].
Lemma head_solid e h args : head_of e = Some (h, args) -> solids h.
Proof.
  intros H. destruct e; cbn [head_of] in H;
    repeat match type of H with match ?x with _ => _ end = _ => destruct x end; try discriminate H; injection H as <- <-.
  all: try (solids; fail).
  - unfold emit_constant. solids.
  - unfold emit_initializer. solids.
  - unfold emit_intrinsic, arg_type. solids.
Qed.
Ltac sol := repeat match goal with
  | |- Forall solid (_ ++ _) => apply Forall_app; split
  | |- Forall solid (_ :: _) => apply Forall_cons; [first [left; reflexivity|right; reflexivity]|]
  | |- Forall solid [] => apply Forall_nil
  | |- Forall solid _ => assumption
  end.
Lemma gens_solid :
  (forall e exit t c t1, gens e exit t c t1 -> Forall solid c) /\
  (forall exit d t c t1, gdefault exit d t c t1 -> Forall solid c) /\
  (forall es exit t c t1, gseq es exit t c t1 -> Forall solid c) /\
  (forall f args force t c t1, gcall f args force t c t1 -> Forall solid c) /\
  (forall args flags t c t1, gargs args flags t c t1 -> Forall solid c) /\
  (forall exit cases body next t c next' t1, gcases exit cases body next t c next' t1 -> Forall solid c).
Proof.
  apply gens_all; intros; sol.
  - eapply head_solid; eassumption.
  - apply Forall_cons; [destruct H1; right; reflexivity|]. apply Forall_app; split; [assumption|]. apply Forall_app; split; [|sol].
    apply Forall_forall. intros x I. apply repeat_spec in I. subst x. right. reflexivity.
Qed.
Lemma resolve_sized targets cs : forall out, resolve_all targets cs = Some out -> Forall (fun x => solid (snd x)) cs -> sized out.
Proof.
  induction cs as [|[loc i] cs IH]; intros out; cbn [resolve_all]; [intros [= <-] _; constructor|]. intros E F. inversion F; subst.
  destruct (is_target i) eqn:T; [apply IH; assumption|]. unfold resolve_labels in E. destruct (forallb _ _); [|discriminate E].
  destruct (resolve_all targets cs) as [r|]; [|discriminate E]. injection E as <-. constructor; [|apply IH; auto].
  rewrite size_map_loc. cbn [snd] in H1. destruct H1 as [H1|H1]; [congruence|exact H1].
Qed.
Lemma iter_solid c : forall n, Forall solid c -> Forall (fun x => solid (snd x)) (code_iter n c).
Proof. induction c as [|i c IH]; intros n F; cbn [code_iter]; [constructor|]. inversion F; subst. constructor; [assumption|apply IH; assumption]. Qed.

(** * Positions *)
Lemma fetch_at q : forall j r, sized q -> Machine.fetch (q ++ j :: r) (total q) = Some j.
Proof.
  induction q as [|i q IH]; intros j r S; [reflexivity|]. inversion S; subst. cbn [app Machine.fetch total].
  pose proof (total_nonneg q). destruct (Z.eqb_spec (instr_size i + total q) 0); [lia|].
  replace (instr_size i + total q - instr_size i) with (total q) by lia. apply IH. assumption.
Qed.
Lemma fetch_end q : sized q -> Machine.fetch q (total q) = None.
Proof.
  induction q as [|i q IH]; intros S; [reflexivity|]. inversion S; subst. cbn [Machine.fetch total].
  pose proof (total_nonneg q). destruct (Z.eqb_spec (instr_size i + total q) 0); [lia|].
  replace (instr_size i + total q - instr_size i) with (total q) by lia. apply IH. assumption.
Qed.
Lemma code_size_is c : Machine.code_size c = total c. Proof. induction c as [|i c IH]; cbn; [reflexivity|rewrite IH; reflexivity]. Qed.
Fixpoint mark (c : code label) (l : nat) : Z :=
  match c with
  | [] => 0
  | i :: c' => match i with Target l' => if (l' =? l)%nat then 0 else mark c' l | _ => instr_size i + mark c' l end
  end.
Lemma mark_at pre : forall l post, ~ In (Target l) pre -> mark (pre ++ Target l :: post) l = total pre.
Proof.
  induction pre as [|i pre IH]; intros l post N; cbn [app mark total]; [rewrite Nat.eqb_refl; reflexivity|].
  assert (N' : ~ In (Target l) pre) by (intros H; apply N; right; exact H).
  destruct i; rewrite IH by exact N'; try reflexivity.
  match goal with |- context [(?x =? l)%nat] => destruct (Nat.eqb_spec x l) as [->|]; [destruct N; left; reflexivity|] end. cbn [instr_size]. lia.
Qed.
Lemma split_unique {X} (x : X) a : forall b c d, a ++ x :: b = c ++ x :: d -> ~ In x c -> ~ In x d -> a = c.
Proof.
  induction a as [|y a IH]; intros b c d E Nc Nd.
  - destruct c as [|z c]; [reflexivity|]. injection E as -> _. destruct Nc. left. reflexivity.
  - destruct c as [|z c].
    + injection E as -> E. destruct Nd. rewrite <- E. apply in_elt.
    + injection E as -> E. f_equal. apply (IH _ _ _ E); [intros H; apply Nc; right; exact H|exact Nd].
Qed.

Lemma go_nop R p out n a w : Machine.fetch out a = Some Nop -> go R p out (S n) (Running R) a w = go R p out n (Running R) (a + 1) w.
Proof. intros F. cbn [Machine.go]. rewrite F. reflexivity. Qed.
Lemma go_end R p out n a w : Machine.fetch out a = None -> a = Machine.code_size out -> go R p out (S n) (Running R) a w = Ans (End_ R w).
Proof. intros F E. cbn [Machine.go]. rewrite F. subst a. rewrite Z.eqb_refl. reflexivity. Qed.

Section Body.
Variables (files : list file) (body : list texpr) (s : scope) (p : pool) (c : code label) (t : astate) (out : code Z).
Hypothesis Asm : asm_body files body {| as_labels := 0; as_scope := s; as_pool := p |} = Done (tt, c, t).
Hypothesis Cl : Forall closed body.
Hypothesis Len : total c < 65536.
Hypothesis Out : into_code (as_labels t) c = Some out.

Lemma out_sized : sized out.
Proof.
  destruct (body_sound _ _ _ _ _ Asm) as (c' & G & E). assert (F : Forall solid c).
  { rewrite E. apply Forall_app. split; [eapply (proj1 (proj2 (proj2 gens_solid))), G|]. apply Forall_cons; [right; reflexivity|constructor]. }
  unfold into_code in Out. destruct (place_labels _ _); [|discriminate Out]. eapply resolve_sized; [exact Out|]. apply iter_solid, F.
Qed.
Lemma body_facts :
  total out = total c /\
  (forall pre i post, c = pre ++ i :: post -> is_target i = false ->
    exists j, Machine.fetch out (total pre) = Some j /\ map_loc (fun _ => tt) j = map_loc (fun _ => tt) i /\
      Forall2 (fun l o => absolute o (total pre) = mark c l) (locs i) (locs j)) /\
  (forall pre l post, c = pre ++ Target l :: post -> mark c l = total pre).
Proof.
  destruct (C15_labels_placed_once_partial _ _ _ _ _ _ Asm Cl) as (P & U & T).
  assert (M : forall pre l post, c = pre ++ Target l :: post -> mark c l = total pre).
  { intros pre l post E. destruct (P l) as (c1 & c2 & E' & N1 & N2); [apply T; rewrite E; apply in_elt|].
    assert (X : pre = c1) by (apply (split_unique (Target l) _ post _ c2); [congruence|exact N1|exact N2]). subst pre.
    rewrite E. apply mark_at, N1. }
  assert (LB : labels_below (as_labels t) c).
  { apply Forall_forall. intros i I. apply Forall_forall. intros l J. destruct (is_target i) eqn:Ti.
    - destruct i; try discriminate Ti. destruct J as [<-|[]]. apply T, I.
    - apply U. exists i. auto. }
  destruct (C14_jumps_land_on_labels _ _ LB Len) as (out' & Eo & To & _). rewrite Out in Eo. injection Eo as <-.
  split; [exact To|]. split; [|exact M]. intros pre i post E Ti.
  destruct (C15_no_jump_to_start_partial _ _ _ _ _ _ Asm Cl Len) as (out' & Eo & J).
  assert (X : out' = out) by (unfold from_body in Eo; rewrite Asm, Out in Eo; congruence). subst out'.
  destruct (J _ _ _ E Ti) as (q & j & r & E1 & E2 & E3 & E4). exists j. split; [|split; [exact E3|]].
  - rewrite E1, <- E2. apply fetch_at. pose proof out_sized as S. rewrite E1 in S. apply Forall_app in S. apply S.
  - rewrite E2 in E4. clear - E4 M; induction E4 as [|l o ls os H4 _ IH4]; constructor; [|exact IH4]; revert H4; revert l o. intros l o (p1 & p2 & F1 & _ & _ & F2). rewrite F2. symmetry. eapply M, F1.
Qed.

Hypothesis Ok : pool_ok p /\ types_named s p /\ knows_literals s.
Hypothesis Sm : small (as_pool t).
Hypothesis Few : Forall few body.

Lemma body_sim R N w : exists c', c = c' ++ [Nop] /\
  sim R (as_pool t) out (mark c) N (cf R (as_pool t) out (Running R) 0 w)
    (run_all R (run R (as_scope t) (as_pool t) N) body w) (total c') None.
Proof.
  destruct (body_sound _ _ _ _ _ Asm) as (c' & G & E). exists c'. split; [exact E|].
  destruct body_facts as (_ & R1 & R2).
  destruct (proj1 (proj2 (proj2 (gens_shape (as_scope t) (as_pool t) Sm))) _ _ _ _ _ G) as (_ & Q & _); [split; [exact Ok|apply grows_refl]|exact Few|].
  destruct (statements_sim R (as_scope t) (as_pool t) c out (mark c) R1 R2) as (_ & H & _).
  specialize (H _ _ _ Q Cl 0 N w). cbn [Z.add] in H. apply H. exists [], [Nop]. rewrite E. split; reflexivity.
Qed.

(** What the machine does follows from what the source does. *)
Lemma machine_follows R N w :
  match run_body R (as_scope t) (as_pool t) N body w with
  | Ans r => exists k, forall n, (k <= n)%nat -> run_code R (as_pool t) out n w = Ans r
  | Halt Aborted => exists k, forall n, (k <= n)%nat -> run_code R (as_pool t) out n w = Halt Aborted
  | Halt OutOfFuel => forall n, (n <= N)%nat -> run_code R (as_pool t) out n w = Halt OutOfFuel
  | Halt FellThrough | Halt Malformed => True
  end.
Proof.
  destruct (body_sim R N w) as (c' & E & S). destruct body_facts as (To & R1 & R2). unfold run_body.
  destruct (run_all R (run R (as_scope t) (as_pool t) N) body w) as [[w1|w1|v w1]|[]]; cbn [then_ sim] in *; try exact S; try exact I.
  assert (F : Machine.fetch out (total c') = Some Nop).
  { destruct (R1 c' Nop [] E eq_refl) as (j & F & X & _). rewrite F. destruct j; try discriminate X. reflexivity. }
  assert (L : nolabel out (total c')) by (intros j Fj; rewrite F in Fj; injection Fj as <-; reflexivity).
  eapply (reaches_final R c out (mark c) R1 R2); [exact (S L)|]. exists 2%nat. intros n Ln. destruct n as [|[|n]]; [lia|lia|]. unfold cf.
  assert (Tc : total c = total c' + 1) by (rewrite E, total_app; reflexivity).
  rewrite (go_nop R _ _ _ _ _ F), <- Tc, <- To. apply go_end; [apply fetch_end, out_sized|symmetry; apply code_size_is].
Qed.
End Body.
