(** The decompiler comes to an end on code that leads ahead (proofs). *)
From Coq Require Import String.
From Coq Require Import ZArith List Bool Lia.
From Verif Require Import Bytes BytesFacts Bytecode BytecodeFacts Definitions Bundle Ast TypeNames Pool Scope TypeCheck Cursor CursorSpec CursorFacts Decompiler TermSpec.
Import ListNotations.
Open Scope Z_scope.

Section Term.
Variables (p : pool) (this_def : definition) (code : code Z).
Hypothesis F : forward code.
Notation at_ k := (total (firstn k code)).
Let Sz : sized code := proj1 F.
Let Tt : total code < 65536 := proj1 (proj2 F).

(** A step started at index [i] does not run out of fuel, and what it returns and
    the index it ends at satisfy [Q]. *)
Definition Runs {A} (i : nat) (m : X A) (Q : A -> nat -> Prop) : Prop :=
  forall c, cursor_on code c -> cu_index c = i ->
  match m c with Done (a, c') => cursor_on code c' /\ Q a (cu_index c') | Fail e => e <> DFuel end.
Lemma runs_bind {A B} i (m : X A) (k : A -> X B) Q R :
  Runs i m Q -> (forall a j, Q a j -> Runs j (k a) R) -> Runs i (xbind m k) R.
Proof.
  intros H K c C I. specialize (H c C I). unfold xbind. destruct (m c) as [[a c']|e]; [|exact H].
  destruct H as [C' H]. exact (K _ _ H _ C' eq_refl).
Qed.
Lemma runs_ret {A} i (a : A) (Q : A -> nat -> Prop) : Q a i -> Runs i (xret a) Q.
Proof. intros H c C I. cbn. subst i. split; assumption. Qed.
Lemma runs_fail {A} i e (Q : A -> nat -> Prop) : e <> DFuel -> Runs i (xfail e) Q.
Proof. intros H c C I. exact H. Qed.
Lemma runs_weak {A} i (m : X A) (Q R : A -> nat -> Prop) : Runs i m Q -> (forall a j, Q a j -> R a j) -> Runs i m R.
Proof. intros H K c C I. specialize (H c C I). destruct (m c) as [[a c']|e]; [|exact H]. destruct H. split; auto. Qed.
Lemma runs_lift {A} i (r : outcome derror A) : (r <> Fail DFuel) -> Runs i (xlift r) (fun _ j => j = i).
Proof. intros H c C I. unfold xlift. destruct r; [split; [exact C|exact I]|congruence]. Qed.
Lemma pool_fuelless {A} (r : outcome pool_error A) : of_pool r <> Fail DFuel.
Proof. destruct r; cbn; congruence. Qed.
Lemma string_fuelless r : of_string r <> Fail DFuel.
Proof. destruct r; cbn; congruence. Qed.
Lemma cursor_fuelless {A} (r : A + cursor_error) e : of_cursor r = Fail e -> e <> DFuel.
Proof. destruct r as [|[]]; cbn; congruence. Qed.
Lemma runs_ident i x : Runs i (ident_of p x) (fun _ j => j = i).
Proof. apply runs_lift, pool_fuelless. Qed.
Lemma runs_type i x : Runs i (type_named p x) (fun _ j => j = i).
Proof. eapply runs_bind; [apply runs_ident|]. intros a j ->. now apply runs_ret. Qed.

Lemma runs_pos i : Runs i xpos (fun l j => j = i /\ l = at_ i).
Proof. intros c C I. unfold xpos. rewrite (pos_on code c Tt C). cbn [of_cursor]. subst i. auto. Qed.
Lemma runs_pop i : Runs i xpop (fun x j => j = S i /\ nth_error code i = Some x).
Proof.
  intros c C I. unfold xpop. destruct (pop c) as [[x c']|e] eqn:P; cbn [of_cursor].
  - split; [exact (on_pop _ _ _ _ C P)|]. unfold pop in P. destruct C as (C1 & _ & _). rewrite C1, I in P.
    destruct (nth_error code i) as [y|]; [|discriminate]. injection P as <- <-. auto.
  - destruct e; discriminate.
Qed.
Lemma runs_peek i : Runs i xpeek (fun x j => j = i /\ nth_error code i = x).
Proof. intros c C I. unfold xpeek. split; [exact C|]. split; [exact I|]. unfold peek. destruct C as (-> & _ & _). now subst i. Qed.
Lemma runs_seek i l : Runs i (xseek l) (fun _ j => at_ j = l /\ (j <= length code)%nat).
Proof.
  intros c C I. unfold xseek. destruct (seek_abs c l) as [c'|e] eqn:E; cbn [of_cursor].
  - pose proof (on_seek code c l c' Sz Tt C E) as C'. split; [exact C'|]. unfold seek_abs in E.
    destruct (get_index c l) as [k|] eqn:G; [|discriminate]. injection E as <-. cbn [cu_index].
    destruct C as (_ & C2 & _). destruct (get_index_spec code c l Sz Tt C2) as (G1 & _). destruct (G1 _ G). auto.
  - destruct e; discriminate.
Qed.
Lemma runs_seek_rel i o : Runs i (xseek_rel o) (fun _ j => at_ j = absolute o (at_ i) /\ (j <= length code)%nat).
Proof.
  intros c C I. unfold xseek_rel, seek_rel. rewrite (pos_on code c Tt C), I.
  exact (runs_seek i (absolute o (at_ i)) c C I).
Qed.
Lemma runs_range i a b : Runs i (xrange a b) (fun _ j => j = i /\ a <= b).
Proof.
  intros c C I. unfold xrange. destruct (range c a b) as [l|e] eqn:R; cbn [of_cursor]; [|destruct e; discriminate].
  split; [exact C|]. split; [exact I|]. unfold range in R. destruct C as (_ & C2 & _).
  destruct (get_index c a) as [s|] eqn:G1; [|discriminate]. destruct (get_index c b) as [e|] eqn:G2; [|discriminate].
  destruct (Nat.leb_spec s e); [|discriminate].
  apply (proj1 (get_index_spec code c a Sz Tt C2)) in G1. apply (proj1 (get_index_spec code c b Sz Tt C2)) in G2.
  destruct G1 as [_ <-], G2 as [G2 <-]. destruct (Nat.eq_dec s e) as [->|]; [lia|].
  pose proof (total_firstn_lt code s e Sz ltac:(lia) G2). lia.
Qed.
(** Positions are ordered like indices. *)
Lemma at_lt i j : (i <= length code)%nat -> at_ i < at_ j -> (i < j)%nat.
Proof.
  intros I H. destruct (Nat.lt_ge_cases i j) as [|G]; [assumption|]. exfalso. destruct (Nat.eq_dec i j) as [->|]; [lia|].
  pose proof (total_firstn_lt code j i Sz ltac:(lia) I). lia.
Qed.
Lemma at_le i j : (j <= length code)%nat -> at_ i <= at_ j -> (i <= length code)%nat -> (i <= j)%nat.
Proof.
  intros J H I. destruct (Nat.le_gt_cases i j) as [|G]; [assumption|]. exfalso.
  pose proof (total_firstn_lt code j i Sz ltac:(lia) I). lia.
Qed.
Lemma ahead i x : nth_error code i = Some x -> leads_ahead (at_ i, x).
Proof.
  intros N. pose proof (proj2 (proj2 F)) as A. rewrite Forall_forall in A. apply A.
  destruct (nth_error_split _ _ N) as (l1 & l2 & E & L). rewrite E.
  rewrite (code_iter_app l1 (x :: l2)) by (rewrite <- ?E; lia). apply in_or_app. right. cbn [code_iter].
  left. f_equal. rewrite <- L, firstn_app, firstn_all, Nat.sub_diag, firstn_O, app_nil_r. lia.
Qed.
Lemma nth_bound i (x : instr Z) : nth_error code i = Some x -> (i < length code)%nat.
Proof. intros H. apply nth_error_Some. congruence. Qed.

Section With.
Variables (rec : option sexpr -> option block -> X sexpr) (fuel : nat) (lo : nat).
Hypothesis REC : forall ctx b i, (lo <= i)%nat -> Runs i (rec ctx b) (fun _ j => (i < j)%nat).
Hypothesis FU : (length code < fuel + lo)%nat.

Lemma consume_runs i : (lo <= i)%nat -> Runs i (consume rec) (fun _ j => (i < j)%nat).
Proof. intros L. exact (REC _ _ _ L). Qed.
Lemma consume_n_runs n : forall i, (lo <= i)%nat -> Runs i (consume_n rec n) (fun _ j => (i <= j)%nat).
Proof.
  induction n as [|n IH]; intros i L; [now apply runs_ret|]. cbn [consume_n].
  eapply runs_bind; [apply consume_runs; exact L|]. intros e j J. cbn beta in J.
  eapply runs_bind; [apply IH; lia|]. intros l k K. cbn beta in K. apply runs_ret. lia.
Qed.
Lemma consume_path_runs n target b : forall i body, (lo <= i)%nat -> (length code < n + i)%nat ->
  Runs i (consume_path_loop rec n target b body) (fun _ j => (i <= j)%nat).
Proof.
  induction n as [|n IH]; intros i body L N; [intros c (_ & _ & C) I; lia|]. cbn [consume_path_loop].
  eapply runs_bind; [apply runs_pos|]. intros here j [-> ->]. destruct (_ || _); [apply runs_ret; lia|].
  intros c C I. pose proof (REC None b i L c C I) as R. destruct (rec None b c) as [[e c']|e].
  - destruct R as [C' R]. specialize (IH (cu_index c') (e :: body) ltac:(lia) ltac:(lia) c' C' eq_refl).
    destruct (consume_path_loop _ _ _ _ _ _) as [[a c2]|]; [|exact IH]. destruct IH. split; [assumption|]. lia.
  - destruct e; try discriminate; try congruence. destruct C as (C1 & C2 & C3). split; [|cbn [cu_index]; rewrite C1; lia].
    repeat split; cbn [cu_code cu_offsets cu_index]; rewrite ?C1; auto.
Qed.
Lemma path_runs target b i : (lo <= i)%nat -> Runs i (consume_path rec fuel target b) (fun _ j => (i <= j)%nat).
Proof. intros L. apply consume_path_runs; lia. Qed.
Lemma intrinsic_runs k ts i : (lo <= i)%nat -> Runs i (consume_intrinsic_typed rec k ts) (fun _ j => (i <= j)%nat).
Proof. intros L. eapply runs_bind; [apply consume_n_runs; exact L|]. intros l j J. now apply runs_ret. Qed.
Lemma skip_runs n : forall i, (length code < n + i)%nat -> Runs i (skip_padding n) (fun _ j => (i <= j)%nat).
Proof.
  induction n as [|n IH]; intros i N; [intros c (_ & _ & C) I; lia|]. cbn [skip_padding].
  eapply runs_bind; [apply runs_peek|]. intros x j [-> X].
  assert (G : Runs i (get _ <- xpop; skip_padding n) (fun _ j => (i <= j)%nat)).
  { eapply runs_bind; [apply runs_pop|]. intros y j [-> Y]. eapply runs_weak; [apply IH; lia|]. cbn beta. intros. lia. }
  destruct x as [x|]; [|apply runs_ret; lia]. destruct x; try (apply runs_ret; lia); exact G.
Qed.
Lemma params_runs n : forall i, (lo <= i)%nat -> (length code < n + i)%nat ->
  Runs i (consume_params_loop rec fuel n) (fun _ j => (i < j)%nat).
Proof.
  induction n as [|n IH]; intros i L N; [intros c (_ & _ & C) I; lia|]. cbn [consume_params_loop].
  eapply runs_bind; [apply skip_runs; lia|]. intros u j J. cbn beta in J.
  eapply runs_bind; [apply runs_peek|]. intros x k [-> X].
  assert (G : Runs j (get e <- consume rec; get l <- consume_params_loop rec fuel n; xret (e :: l)) (fun _ j => (i < j)%nat)).
  { eapply runs_bind; [apply consume_runs; lia|]. intros y k K. cbn beta in K.
    eapply runs_bind; [apply IH; lia|]. intros l m M. cbn beta in M. apply runs_ret. lia. }
  destruct x as [x|]; [|exact G]. destruct x; try exact G.
  eapply runs_bind; [apply runs_pop|]. intros y k [-> Y]. apply runs_ret. lia.
Qed.

(** [i] is the index of the instruction that was popped. *)
Lemma conditional_runs i o b : nth_error code i = Some (JumpIfFalse o) -> lo = S i -> 0 <= o ->
  Runs (S i) (consume_conditional_jump rec fuel (at_ i) o b) (fun _ j => (i < j)%nat).
Proof.
  intros N LO P. pose proof (ahead _ _ N) as A. cbn in A. unfold consume_conditional_jump.
  eapply runs_bind; [apply consume_runs; lia|]. intros c j J. cbn beta in J.
  eapply runs_bind; [apply runs_range|]. intros r k [-> R].
  destruct (existsb _ r).
  - eapply runs_bind; [apply path_runs; lia|]. intros body k K. cbn beta in K. apply runs_ret. lia.
  - eapply runs_bind; [apply path_runs; lia|]. intros body k K. cbn beta in K.
    eapply runs_bind; [apply runs_seek|]. intros u m [M1 M2].
    assert (i < m)%nat.
    { apply at_lt; [apply Nat.lt_le_incl, (nth_bound _ _ N)|]. rewrite M1.
      lia. }
    destruct (resolve_jump body) as [[jump body']|]; [|apply runs_ret; lia].
    eapply runs_bind; [apply path_runs; lia|]. intros e n0 N0. cbn beta in N0. apply runs_ret. lia.
Qed.

Definition labels_after (i : nat) (l : list (Z * Z)) : Prop := Forall (fun x => at_ i < fst x /\ at_ i < snd x) l.
Lemma labels_runs i n : forall j, (i < j)%nat -> (length code < n + j)%nat ->
  Runs j (switch_labels n) (fun l k => (j <= k)%nat /\ labels_after i l).
Proof.
  induction n as [|n IH]; intros j J N; [intros c (_ & _ & C) I; lia|]. cbn [switch_labels].
  eapply runs_bind; [apply runs_peek|]. intros x k [-> X].
  assert (E : Runs j (xret []) (fun l k => (j <= k)%nat /\ labels_after i l)) by (apply runs_ret; split; [lia|constructor]).
  assert (P : forall y, nth_error code j = Some y -> at_ i < at_ j).
  { intros y Y. apply total_firstn_lt; [exact Sz|exact J|apply Nat.lt_le_incl, (nth_bound _ _ Y)]. }
  destruct x as [x|]; [|exact E]. destruct x; try exact E.
  - pose proof (ahead _ _ X) as A. cbn in A. specialize (P _ X).
    eapply runs_bind; [apply runs_pos|]. intros l k [-> ->].
    eapply runs_bind; [apply runs_seek_rel|]. intros u k [K1 K2].
    assert (j < k)%nat. { apply at_lt; [apply Nat.lt_le_incl, (nth_bound _ _ X)|]. rewrite K1. apply A. }
    eapply runs_bind; [apply IH; lia|]. intros ls m [M1 M2]. apply runs_ret. split; [lia|].
    constructor; [|exact M2]. cbn [fst snd]. lia.
  - specialize (P _ X). eapply runs_bind; [apply runs_pos|]. intros l k [-> ->]. apply runs_ret. split; [lia|].
    constructor; [|constructor]. cbn [fst snd]. lia.
Qed.
Lemma insert_after i x l : at_ i < fst x /\ at_ i < snd x -> labels_after i l -> labels_after i (insert_label x l).
Proof.
  intros X. induction 1 as [|y l Y L IH]; cbn [insert_label]; [constructor; [exact X|constructor]|].
  destruct (_ <? _); constructor; try assumption. constructor; assumption.
Qed.
Lemma sort_after i l : labels_after i l -> labels_after i (sort_labels l).
Proof.
  unfold sort_labels. assert (G : forall l acc, labels_after i l -> labels_after i acc -> labels_after i (fold_left (fun acc x => insert_label x acc) l acc)).
  { induction l0 as [|x l0 IH]; intros acc L A; [exact A|]. inversion L; subst. cbn [fold_left]. apply IH; [assumption|]. now apply insert_after. }
  intros L. apply G; [exact L|constructor].
Qed.
Lemma cases_runs i labels : lo = S i -> (i <= length code)%nat -> labels_after i labels -> forall b j, (i < j)%nat ->
  Runs j (switch_cases rec fuel labels b) (fun _ k => (i < k)%nat).
Proof.
  intros LO IL. induction 1 as [|[label start] labels [L1 L2] _ IH]; intros b j J; [now apply runs_ret|]. cbn [switch_cases fst snd] in *.
  eapply runs_bind; [apply runs_seek|]. intros u k [K1 K2].
  assert (IK : (i < k)%nat) by (apply at_lt; [exact IL|lia]).
  eapply runs_bind; [apply runs_pop|]. intros x m [-> M].
  assert (B : forall e, DBad e <> DFuel) by discriminate.
  destruct x; try (apply runs_fail; apply B).
  - eapply runs_bind; [apply consume_runs; lia|]. intros e m Mm. cbn beta in Mm.
    eapply runs_bind with (Q := fun _ k' => k' = m).
    { destruct b; [now apply runs_ret|]. destruct (_ <? _); [|now apply runs_ret].
      eapply runs_bind; [apply runs_range|]. intros r q [-> _]. now apply runs_ret. }
    intros b' q ->. eapply runs_bind; [apply runs_seek|]. intros u' q [Q1 Q2].
    assert (i < q)%nat by (apply at_lt; [exact IL|lia]).
    eapply runs_bind; [apply path_runs; lia|]. intros body r R. cbn beta in R.
    eapply runs_bind; [apply IH; lia|]. intros rest t T. apply runs_ret. exact T.
  - eapply runs_bind with (Q := fun _ k' => (i < k')%nat).
    { assert (E : Runs (S k) (get e <- rec None b; xret [e]) (fun _ k' => (i < k')%nat)).
      { eapply runs_bind; [apply REC; lia|]. intros e q Q. cbn beta in Q. apply runs_ret. lia. }
      destruct b as [[|e]|]; try exact E. eapply runs_weak; [apply path_runs; lia|]. cbn beta. intros; lia. }
    intros d q Q. eapply runs_bind; [apply IH; exact Q|]. intros rest t T. apply runs_ret. exact T.
Qed.
Lemma switch_runs i t o : nth_error code i = Some (Switch t o) -> lo = S i ->
  Runs (S i) (consume_switch rec fuel (absolute o (at_ i))) (fun _ j => (i < j)%nat).
Proof.
  intros N LO. pose proof (ahead _ _ N) as A. cbn in A. pose proof (nth_bound _ _ N) as B. unfold consume_switch.
  eapply runs_bind; [apply consume_runs; lia|]. intros e j J. cbn beta in J.
  eapply runs_bind; [apply runs_seek|]. intros u k [K1 K2].
  assert (i < k)%nat by (apply at_lt; lia).
  eapply runs_bind; [apply (labels_runs i); lia|]. intros ls m [M1 M2].
  eapply runs_bind; [apply (cases_runs i); [exact LO|lia|apply sort_after; exact M2|lia]|]. intros cd q Q. apply runs_ret. exact Q.
Qed.
End With.

Lemma consume_with_runs fuel : forall ctx b i, (length code < fuel + i)%nat -> Runs i (consume_with p this_def fuel ctx b) (fun _ j => (i < j)%nat).
Proof.
  induction fuel as [|fuel IH]; intros ctx b i L; [intros c (_ & _ & C) I; lia|].
  cbn [consume_with]. eapply runs_bind; [apply runs_pos|]. intros position j [-> ->].
  eapply runs_bind; [apply runs_pop|]. intros x j [-> X].
  assert (REC : forall ctx b k, (S i <= k)%nat -> Runs k (consume_with p this_def fuel ctx b) (fun _ j => (k < j)%nat)).
  { intros ctx' b' k K. apply IH. lia. }
  assert (FU : (length code < fuel + S i)%nat) by lia.
  pose proof (consume_runs (consume_with p this_def fuel) (S i) REC) as CO.
  assert (CN : forall n k, (S i <= k)%nat -> Runs k (consume_n (consume_with p this_def fuel) n) (fun _ j => (k <= j)%nat)).
  { intros n k K. eapply consume_n_runs; eauto. }
  assert (IN : forall o ts k, (S i <= k)%nat -> Runs k (consume_intrinsic_typed (consume_with p this_def fuel) o ts) (fun _ j => (k <= j)%nat)).
  { intros o ts k K. eapply intrinsic_runs; eauto. }
  assert (PA : forall k, (S i <= k)%nat -> Runs k (consume_params (consume_with p this_def fuel) fuel) (fun _ j => (k < j)%nat)).
  { intros k K. eapply params_runs; [exact REC|exact FU|exact K|lia]. }
  assert (B : forall e, DBad e <> DFuel) by discriminate.
  assert (D : forall (e : sexpr), Runs (S i) (xret e) (fun _ j => (i < j)%nat)) by (intros e; apply runs_ret; lia).
  assert (RI : forall k, Runs (S i) (consume_intrinsic (consume_with p this_def fuel) k) (fun _ j => (i < j)%nat)).
  { intros k. eapply runs_weak; [apply IN; lia|]. cbn beta. intros; lia. }
  assert (TX : forall l r, Runs (S i) (s_text l r) (fun _ j => (i < j)%nat)).
  { intros l r. eapply runs_bind; [apply runs_lift, string_fuelless|]. intros s j ->. apply runs_ret. lia. }
  unfold s_const.
  destruct x; try apply D; try apply RI; try (apply runs_fail; apply B); try apply TX.
  all: try solve [
    repeat lazymatch goal with
    | |- Runs _ (xret _) _ => apply runs_ret; lia
    | |- Runs _ (xfail _) _ => apply runs_fail; discriminate
    | |- Runs ?j (xbind ?m ?k) _ =>
      eapply runs_bind with (Q := fun _ m' => (j <= m')%nat);
      [eapply runs_weak;
       [first [apply runs_ident | apply runs_type | apply runs_lift, pool_fuelless | apply runs_lift, string_fuelless
              | apply CO; lia | apply CN; lia | apply PA; lia | apply runs_pos | apply runs_peek | apply runs_pop]
       |cbn beta; intros; repeat match goal with H : _ /\ _ |- _ => destruct H end; lia]
      |let J := fresh "J" in intros ? ? J; cbn beta in J]
    | |- Runs _ (match ?y with _ => _ end) _ => destruct y
    end].
  - (* Switch *) eapply switch_runs; eauto.
  - (* JumpIfFalse *) destruct (Z.ltb_spec a 0); [apply runs_fail; discriminate|]. eapply conditional_runs; eauto.
  - (* Context *) eapply runs_bind; [apply CO; lia|]. intros e j J. cbn beta in J.
    eapply runs_weak; [apply REC; lia|]. cbn beta. intros; lia.
  - (* I32ToEnum *) eapply runs_bind; [apply runs_type|]. intros t j ->. eapply runs_weak; [apply IN; lia|]. cbn beta. intros; lia.
  - (* FromVariant *) eapply runs_bind; [apply runs_type|]. intros t j ->. eapply runs_weak; [apply IN; lia|]. cbn beta. intros; lia.
Qed.

Lemma decompile_ends fuel : (length code < fuel)%nat -> decompile p this_def fuel code <> Fail DFuel.
Proof.
  intros L. unfold decompile.
  pose proof (path_runs (consume_with p this_def fuel) fuel 0) as R.
  specialize (R (fun ctx b i H => consume_with_runs fuel ctx b i ltac:(lia)) ltac:(lia) location_max None 0%nat ltac:(lia) _ (on_new code) eq_refl).
  destruct (consume_path _ _ _ _ _) as [[body c]|e]; [discriminate|]. intros E. injection E as ->. now apply R.
Qed.
End Term.

(** More fuel changes nothing, once there was enough. *)
Section More.
Variables (p : pool) (this_def : definition).
Definition Same {A} (m m' : X A) : Prop := forall c, m c <> Fail DFuel -> m' c = m c.
Lemma same_refl {A} (m : X A) : Same m m. Proof. intros c _. reflexivity. Qed.
Lemma same_bind {A B} (m m' : X A) (k k' : A -> X B) : Same m m' -> (forall a, Same (k a) (k' a)) -> Same (xbind m k) (xbind m' k').
Proof.
  intros H K c N. unfold xbind in *. rewrite (H c) by (destruct (m c); congruence). destruct (m c) as [[a c']|e]; [|reflexivity].
  apply K. exact N.
Qed.
Section With.
Variables (rec rec' : option sexpr -> option block -> X sexpr) (fuel fuel' : nat).
Hypothesis REC : forall ctx b, Same (rec ctx b) (rec' ctx b).
Hypothesis FU : (fuel <= fuel')%nat.
Lemma consume_same : Same (consume rec) (consume rec'). Proof. apply REC. Qed.
Lemma consume_n_same n : Same (consume_n rec n) (consume_n rec' n).
Proof.
  induction n as [|n IH]; [apply same_refl|]. cbn [consume_n]. apply same_bind; [apply consume_same|]. intros e.
  apply same_bind; [exact IH|]. intros l. apply same_refl.
Qed.
Lemma path_loop_same target b : forall n n' body, (n <= n')%nat ->
  Same (consume_path_loop rec n target b body) (consume_path_loop rec' n' target b body).
Proof.
  induction n as [|n IH]; intros n' body L; [intros c N; now contradiction N|]. destruct n' as [|n']; [lia|]. cbn [consume_path_loop].
  apply same_bind; [apply same_refl|]. intros here. destruct (_ || _); [apply same_refl|].
  intros c N. rewrite (REC None b c) by (intros E; rewrite E in N; congruence).
  destruct (rec None b c) as [[e c']|e]; [|reflexivity]. apply IH; [lia|exact N].
Qed.
Lemma path_same target b : Same (consume_path rec fuel target b) (consume_path rec' fuel' target b).
Proof. now apply path_loop_same. Qed.
Lemma intrinsic_same i ts : Same (consume_intrinsic_typed rec i ts) (consume_intrinsic_typed rec' i ts).
Proof. apply same_bind; [apply consume_n_same|]. intros l. apply same_refl. Qed.
Lemma skip_same : forall n n', (n <= n')%nat -> Same (skip_padding n) (skip_padding n').
Proof.
  induction n as [|n IH]; intros n' L; [intros c N; now contradiction N|]. destruct n' as [|n']; [lia|]. cbn [skip_padding].
  apply same_bind; [apply same_refl|]. intros i.
  assert (G : Same (get _ <- xpop; skip_padding n) (get _ <- xpop; skip_padding n')).
  { apply same_bind; [apply same_refl|]. intros _. apply IH. lia. }
  destruct i as [i|]; [|apply same_refl]. destruct i; try apply same_refl; exact G.
Qed.
Lemma params_loop_same : forall n n', (n <= n')%nat -> Same (consume_params_loop rec fuel n) (consume_params_loop rec' fuel' n').
Proof.
  induction n as [|n IH]; intros n' L; [intros c N; now contradiction N|]. destruct n' as [|n']; [lia|]. cbn [consume_params_loop].
  apply same_bind; [now apply skip_same|]. intros _. apply same_bind; [apply same_refl|]. intros i.
  assert (G : Same (get e <- consume rec; get l <- consume_params_loop rec fuel n; xret (e :: l))
                   (get e <- consume rec'; get l <- consume_params_loop rec' fuel' n'; xret (e :: l))).
  { apply same_bind; [apply consume_same|]. intros e. apply same_bind; [apply IH; lia|]. intros l. apply same_refl. }
  destruct i as [i|]; [|exact G]. destruct i; try exact G. apply same_refl.
Qed.
Lemma conditional_same position o b : Same (consume_conditional_jump rec fuel position o b) (consume_conditional_jump rec' fuel' position o b).
Proof.
  unfold consume_conditional_jump. apply same_bind; [apply consume_same|]. intros c. apply same_bind; [apply same_refl|]. intros r.
  destruct (existsb _ r); (apply same_bind; [apply path_same|]); intros body; [apply same_refl|].
  apply same_bind; [apply same_refl|]. intros _. destruct (resolve_jump body) as [[j body']|]; [|apply same_refl].
  apply same_bind; [apply path_same|]. intros e. apply same_refl.
Qed.
Lemma labels_same : forall n n', (n <= n')%nat -> Same (switch_labels n) (switch_labels n').
Proof.
  induction n as [|n IH]; intros n' L; [intros c N; now contradiction N|]. destruct n' as [|n']; [lia|]. cbn [switch_labels].
  apply same_bind; [apply same_refl|]. intros i. destruct i as [i|]; [|apply same_refl]. destruct i; try apply same_refl.
  apply same_bind; [apply same_refl|]. intros l. apply same_bind; [apply same_refl|]. intros _. apply same_bind; [apply IH; lia|]. intros ls. apply same_refl.
Qed.
Lemma cases_same labels : forall b, Same (switch_cases rec fuel labels b) (switch_cases rec' fuel' labels b).
Proof.
  induction labels as [|[l s] labels IH]; intros b; [apply same_refl|]. cbn [switch_cases].
  apply same_bind; [apply same_refl|]. intros _. apply same_bind; [apply same_refl|]. intros i. destruct i; try apply same_refl.
  - apply same_bind; [apply consume_same|]. intros m. apply same_bind; [apply same_refl|]. intros b'. apply same_bind; [apply same_refl|]. intros _.
    apply same_bind; [apply path_same|]. intros body. apply same_bind; [apply IH|]. intros r. apply same_refl.
  - apply same_bind.
    + assert (E : Same (get e <- rec None b; xret [e]) (get e <- rec' None b; xret [e])) by (apply same_bind; [apply REC|intros e; apply same_refl]).
      destruct b as [[|e]|]; try exact E. apply path_same.
    + intros d. apply same_bind; [apply IH|]. intros r. apply same_refl.
Qed.
Lemma switch_same start : Same (consume_switch rec fuel start) (consume_switch rec' fuel' start).
Proof.
  unfold consume_switch. apply same_bind; [apply consume_same|]. intros e. apply same_bind; [apply same_refl|]. intros _.
  apply same_bind; [now apply labels_same|]. intros ls. apply same_bind; [apply cases_same|]. intros cd. apply same_refl.
Qed.
End With.
Lemma consume_with_same : forall fuel fuel' ctx b, (fuel <= fuel')%nat -> Same (consume_with p this_def fuel ctx b) (consume_with p this_def fuel' ctx b).
Proof.
  induction fuel as [|fuel IH]; intros fuel' ctx b L; [intros c N; now contradiction N|]. destruct fuel' as [|fuel']; [lia|].
  cbn [consume_with]. apply same_bind; [apply same_refl|]. intros position. apply same_bind; [apply same_refl|]. intros x.
  assert (REC : forall ctx b, Same (consume_with p this_def fuel ctx b) (consume_with p this_def fuel' ctx b)) by (intros; apply IH; lia).
  assert (FU : (fuel <= fuel')%nat) by lia.
  destruct x; try apply same_refl; try (apply intrinsic_same; exact REC);
    try solve [repeat first [apply same_refl | apply same_bind; [first [apply same_refl | apply (consume_same _ _ REC) | apply (consume_n_same _ _ REC) | apply (params_loop_same _ _ _ _ REC FU); exact FU]|intros ?]]].
  - now apply switch_same.
  - destruct (_ <? _); [apply same_refl|]. now apply conditional_same.
  - apply same_bind; [apply same_refl|]. intros i. destruct i as [i|].
    + destruct i; try apply same_refl; (apply same_bind; [apply (consume_same _ _ REC)|intros e; apply same_refl]).
    + apply same_bind; [apply (consume_same _ _ REC)|intros e; apply same_refl].
  - apply same_bind; [apply (consume_same _ _ REC)|]. intros e. apply REC.
Qed.
Lemma decompile_same fuel fuel' code : (fuel <= fuel')%nat -> decompile p this_def fuel code <> Fail DFuel ->
  decompile p this_def fuel' code = decompile p this_def fuel code.
Proof.
  intros L N. unfold decompile in *.
  rewrite (path_same (consume_with p this_def fuel) (consume_with p this_def fuel') fuel fuel' (fun ctx b => consume_with_same fuel fuel' ctx b L) L location_max None).
  - reflexivity.
  - intros E. rewrite E in N. congruence.
Qed.
End More.
