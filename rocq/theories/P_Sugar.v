(** C28, C29: what desugared for-in loops and array literals do. *)
From Coq Require Import String.
From Coq Require Import ZArith List Bool Lia.
From Verif Require Import Bytes BytesFacts Bytecode Definitions Bundle BundleFacts Ast TypeNames Pool Scope TypeCheck PartsSpec PoolSpec PoolFacts TypeIndexSpec TypeIndexFacts
  Semantics BodySpec GrowFacts Desugar P_Assembler P_Machine P_Sweet SugarSpec DesugarFacts SugarFacts SugarSim SugarRun SugarDemo.
Import ListNotations.
Open Scope Z_scope.

(** C28, for every loop, array and body: a for-in loop becomes [ds_prefix d' ++ [out]],
    where [d] is the state of the desugaring before and [d'] after.  With [body'] and
    [a'] what its body and array become (and [ds_prefix d2] what is to be done before
    [a'] is evaluated), running this is the same as [run_for] with [a'] and [body']:
    evaluating [a'] once and running [body'] once for each element, in order.  It
    needs two new variables; that the type of [a'] is an array type is all that is
    asked of the program. *)
Theorem C28_for_in_visits_each l a body sp d out d' body' d1 a' d2 t :
  on_expr (EForIn l a body sp) d = Done (out, d') -> small (ds_pool d') ->
  on_seq body d = Done (body', d1) -> on_expr a d1 = Done (a', d2) ->
  ds_prefix d = [] -> l < size (ds_pool d) ->
  Forall (names_no (fun i => size (ds_pool d) <= i)) body -> names_no (fun i => size (ds_pool d) <= i) a ->
  pool_ok (ds_pool d2) -> types_shaped (ds_scope d2) (ds_pool d2) -> known (ds_scope d2) (ds_pool d2) t ->
  type_of a' (ds_scope d2) (ds_pool d2) = Done (TIArray t) ->
  exists arr counter rest, size (ds_pool d2) <= arr /\ size (ds_pool d2) <= counter /\ ds_prefix d' = ds_prefix d2 ++ rest /\
    forall R Y takes (T : temporaries R Y (ds_pool d') (fun i => i = arr \/ i = counter) takes) fuel w w2, alike T w w2 ->
    run_for R Y (ds_scope d') (ds_pool d') fuel (eval R (ds_scope d') (ds_pool d')) l a' (run_all R (run R (ds_scope d') (ds_pool d') fuel) body') w <> Halt Malformed ->
    same_ending T
      (run_for R Y (ds_scope d') (ds_pool d') fuel (eval R (ds_scope d') (ds_pool d')) l a' (run_all R (run R (ds_scope d') (ds_pool d') fuel) body') w)
      (run_all R (run R (ds_scope d') (ds_pool d') fuel) (rest ++ [out]) w2).
Proof.
  intros E Hs Eb Ea Hp Hl Nb Na Ok Sh Kn Ty. pose proof (for_in_cases _ _ _ _ _ _ _ E) as C.
  destruct C as (b2 & e1 & a2 & e2 & t2 & ra & d3 & int & rc & d4 & less & add & C1 & C2 & C3 & C4 & C5 & C6 & C7 & C8 & C9 & C10 & C11 & ->).
  rewrite Eb in C1. injection C1 as <- <-. rewrite Ea in C2. injection C2 as <- <-. rewrite Ty in C3. injection C3 as <-.
  assert (S3 : small (ds_pool d3)). { eapply extends_small; [apply (steps_local _ _ _ _ _ C6)|]. cbn [snd]. rewrite <- C10. exact Hs. }
  destruct (fresh_spec _ _ _ _ _ C4 S3) as (arr & ti & -> & A1 & A2 & A3 & A4 & A5).
  assert (S4 : small (ds_pool d4)) by (rewrite <- C10; exact Hs).
  destruct (fresh_spec _ _ _ _ _ C6 S4) as (counter & ti' & -> & B1 & B2 & B3 & B4 & B5).
  destruct (A5 {| so_ok := Ok; so_shaped := Sh |} Kn) as [_ Rt].
  exists arr, counter, (setup (RValue (VLocal arr)) (RValue (VLocal counter)) a' sp). fold (len d2).
  assert (G3 : grows (ds_scope d3, ds_pool d3) (ds_scope d', ds_pool d')).
  { rewrite C9, C10. exact (steps_local _ _ _ _ _ C6). }
  split; [exact A1|]. split; [lia|]. split; [rewrite C11, B3, A3; reflexivity|].
  intros R Y takes T fuel w w2 A Nm.
  pose proof (fun sp => fresh_type sp arr ti _ d3 _ _ A4 Rt G3) as Tarr.
  pose proof (dgrows_len _ _ (steps_on_seq _ _ _ _ Eb)) as L1. pose proof (dgrows_len _ _ (steps_expr _ _ _ _ Ea)) as L2.
  assert (Nb' : Forall (nb (len d2)) body').
  { assert (G : gb (len d2) (Forall (nb (len d2))) (on_seq body)).
    { apply gb_seq. apply Forall_forall. intros x Ix. rewrite Forall_forall in Nb. apply gb_expr. eapply nb_less; [|apply Nb, Ix]. fold (len d). lia. }
    apply (proj2 G _ _ _ Eb L2). rewrite Hp. constructor. }
  assert (Np1 : Forall (nb (len d2)) (ds_prefix d1)).
  { assert (G : gb (len d2) (Forall (nb (len d2))) (on_seq body)).
    { apply gb_seq. apply Forall_forall. intros x Ix. rewrite Forall_forall in Nb. apply gb_expr. eapply nb_less; [|apply Nb, Ix]. fold (len d). lia. }
    apply (proj2 G _ _ _ Eb L2). rewrite Hp. constructor. }
  assert (Na' : nb (len d2) a').
  { assert (G : gb (len d2) (nb (len d2)) (on_expr a)) by (apply gb_expr; eapply nb_less; [|exact Na]; fold (len d); lia).
    apply (proj2 G _ _ _ Ea ltac:(lia)). exact Np1. }
  assert (No : forall e, nb (len d2) e -> names_no (fun i => i = arr \/ i = counter) e).
  { intros e N x W. specialize (N x W). destruct x; try exact I; [destruct r as [[]|]; try exact I| |]; intros [->| ->]; apply N; lia. }
  pose proof (No _ Na') as Na2. assert (Nb2 : Forall (names_no (fun i => i = arr \/ i = counter)) body') by (eapply Forall_impl; [exact No|exact Nb']).
  assert (X : mrel (end_rel T (fun _ => False) w2)
    (run_for R Y (ds_scope d') (ds_pool d') fuel (eval R (ds_scope d') (ds_pool d')) l a' (run_all R (run R (ds_scope d') (ds_pool d') fuel) body') w)
    (ask u := Ans w2 in run_all R (run R (ds_scope d') (ds_pool d') fuel) (setup (RValue (VLocal arr)) (RValue (VLocal counter)) a' sp ++ [the_loop l (RValue (VLocal arr)) (RValue (VLocal counter)) less add int body' sp]) u)).
  { apply for_sim; try exact (fun x => x); auto; try lia.
    - fold (len d) in Hl. intros [->| ->]; lia.
    - exists t. destruct (known_name (ds_scope d2) (ds_pool d2) (TIArray t) Kn) as [n En]. exists n. unfold static_name, static_type. rewrite Tarr.
      split; [reflexivity|]. cbn [bind_opt]. unfold name_of in *. destruct (ti_repr (ds_pool d2) _) as [m|] eqn:Er; [|discriminate].
      erewrite extends_repr; [exact En| |exact Er]. eapply extends_trans; [exact (proj1 (steps_local _ _ _ _ _ C4))|exact (proj1 G3)].
    - intros u u2 Au. right. eapply arel_weaken; [|apply (run_all_same T); [|exact Au]].
      + intros x y. apply end_rel_less. intros i _ _. exact I.
      + eapply Forall_impl; [|exact Nb2]. intros e Ne. apply (run_same T), Ne.
    - right. eapply arel_weaken; [|apply (eval_same T); [exact Na2|exact A]]. intros [v u] [v2 u2] (Ev & Cv & Au & _). cbn [fst snd] in *. subst v2.
      split; [exact Au|]. split; [intros i _ []|]. split; [symmetry; apply (t_alike_load _ _ _ _ _ T); assumption|]. apply (t_clean_load _ _ _ _ _ T), Cv. }
  cbn [then_] in X. destruct X as [X|X]; [contradiction|].
  destruct (run_for _ _ _ _ _ _ _ _ _ _) as [r|h], (run_all R _ _ w2) as [r2|h2]; cbn [arel] in X; try contradiction; [|exact X].
  destruct r, r2; cbn [end_rel same_ending] in *; try contradiction; try apply X; exact X.
Qed.
Print Assumptions C28_for_in_visits_each.

(** * A program, and a runtime to run it *)
Definition sg_function : function :=
  {| fu_visibility := Public; fu_flags := 0; fu_source := None; fu_return_type := Some 1; fu_unk1 := false; fu_base_method := None;
     fu_parameters := [13; 13]; fu_locals := []; fu_operator := None; fu_cast := 0; fu_code := []; fu_unk2 := [] |}.
(** A local x of type String (12), the two functions to count (14, 15), a function
    Main (16), and a local xs of type array<String> (18). *)
Definition sg_pool : pool := Eval vm_compute in
  named (named (fold_left (fun p n => named p n (DFunction sg_function)) [assign_add_sig; less_sig; lit "Main;"]
    (named (named lit_pool (lit "x") (DLocal {| lo_type := 1; lo_flags := 0 |})) (lit "n") (DParameter {| pa_type := 7; pa_flags := 0 |})))
    (lit "array:String") (DType (TArray 1))) (lit "xs") (DLocal {| lo_type := 17; lo_flags := 0 |}).
Definition sg_scope : scope := Eval vm_compute in
  {| sc_symbols := [(lit "OperatorAssignAdd", SFunctions [(14, Public)]); (lit "OperatorLess", SFunctions [(15, Public)])];
     sc_references := []; sc_types := (lit "array:String", 17) :: sc_types lit_scope; sc_this := None; sc_function := Some 16 |}.
Lemma sg_sound : pool_ok sg_pool /\ types_shaped sg_scope sg_pool /\ knows_literals sg_scope.
Proof.
  assert (E : indexed None empty_strings) by (split; [discriminate|split; [intros s []|exact I]]).
  assert (E1 : indexed None one_entry).
  { split; [|split; [|exact I]].
    - intros s i H. cbn [one_entry st_map sm_find] in H. by_name. split; [cbn; lia|reflexivity].
    - intros s [<-|[]]. eexists. reflexivity. }
  assert (Pr : forall i n, get_type sg_pool i = Done TPrim -> def_name sg_pool i = Done n -> existsb (fun b => Byte.eqb x3a b || Byte.eqb x5b b) n = false ->
    symbol_type sg_scope (last_part n) = None -> am_find (sc_types sg_scope) n = Some i -> shaped sg_scope sg_pool i n).
  { intros i n G D C S A. apply sh_prim; try assumption. assert (X : forall b, In b n -> (Byte.eqb x3a b || Byte.eqb x5b b) = false).
    { intros b H. destruct (Byte.eqb x3a b || Byte.eqb x5b b) eqn:B; [|reflexivity]. rewrite <- C. symmetry. apply existsb_exists. eauto. }
    split; intros H; specialize (X _ H); discriminate X. }
  split; [|split].
  - split; [|auto]. split; [|split; [|reflexivity]].
    + intros s i H. cbn [sg_pool pl_names st_map sm_find] in H. by_name; (split; [cbn; lia|reflexivity]).
    + intros s H. cbn [sg_pool pl_names st_list In] in H. repeat match type of H with _ \/ _ => destruct H as [<-|H]; [eexists; reflexivity|] end; contradiction H.
  - intros n i H. cbn [sg_scope sc_types am_find] in H. by_name.
    1: { apply (sh_array sg_scope sg_pool 17 1 (lit "String")); [reflexivity|reflexivity|]. apply Pr; reflexivity. }
    all: apply Pr; reflexivity.
  - intros c. destruct c as [[]|v|v|v|v|v|v|[]]; eexists; reflexivity.
Qed.
Lemma counting_by P : forallb (fun k => match def_name P (Z.of_nat k) with
    | Done n => negb (str_eqb n less_name || str_eqb n add_name_) ||
        (match callee_of P (Z.of_nat k) false, short_params P (Z.of_nat k) with Some _, Some [false; false] => true | _, _ => false end)
    | Fail _ => true end) (seq 0 (length (pl_defs P))) = true ->
  forall f n, def_name P f = Done n -> n = less_name \/ n = add_name_ -> exists c, callee_of P f false = Some c /\ short_params P f = Some [false; false].
Proof.
  intros H f n E Hn. rewrite forallb_forall in H.
  assert (R : 0 <= f < Z.of_nat (length (pl_defs P))).
  { unfold def_name, get_def, nth_def in E. destruct (Z.ltb_spec f 0); [discriminate E|]. destruct (nth_error (pl_defs P) (Z.to_nat f)) eqn:N; [|discriminate E].
    assert (Z.to_nat f < length (pl_defs P))%nat by (apply nth_error_Some; congruence). lia. }
  specialize (H (Z.to_nat f) ltac:(apply in_seq; lia)). rewrite Z2Nat.id in H by lia. rewrite E in H.
  assert (B : (str_eqb n less_name || str_eqb n add_name_) = true) by (destruct Hn as [->| ->]; rewrite str_eqb_same, ?orb_true_r; reflexivity).
  rewrite B in H. cbn [negb orb] in H. destruct (callee_of P f false) as [c|]; [|discriminate H]. destruct (short_params P f) as [[|[] [|[] []]]|]; try discriminate H.
  exists c. split; reflexivity.
Qed.
(** for x in xs { Main(x); } *)
Definition sg_local (i : pidx) : texpr := EIdent (N := typed_ast) (RValue (VLocal i)) sp0.
Definition sg_main (args : list texpr) : texpr := ECall (N := typed_ast) (CFunction 16) [] args sp0.
Definition sg_text (s : string) : texpr := EConstant (N := typed_ast) (CString LString (lit s)) sp0.
Definition sg_start : dworld := {| locals := fun i => if i =? 18 then DArr [DCon (KText LString (lit "a")); DCon (KText LString (lit "b"))] else DNone; calls := [] |}.
Definition logged {P} (a : answer (end_ (demo P))) : list (list (option dat)) :=
  match a with Ans (Normal _ w) => map snd (calls w) | _ => [] end.
Definition sg_loop : texpr := EForIn (N := typed_ast) 12 (sg_local 18) [sg_main [sg_local 12]] sp0.
Example C28_nonvacuous :
  let d := desugar_new sg_scope sg_pool in
  let both := [[Some (DCon (KText LString (lit "a"))); None]; [Some (DCon (KText LString (lit "b"))); None]] in
  exists out d', on_expr sg_loop d = Done (out, d') /\ small (ds_pool d') /\
    on_seq [sg_main [sg_local 12]] d = Done ([sg_main [sg_local 12]], d) /\ on_expr (sg_local 18) d = Done (sg_local 18, d) /\
    ds_prefix d = [] /\ 12 < size (ds_pool d) /\
    Forall (names_no (fun i => size (ds_pool d) <= i)) [sg_main [sg_local 12]] /\ names_no (fun i => size (ds_pool d) <= i) (sg_local 18) /\
    pool_ok (ds_pool d) /\ types_shaped (ds_scope d) (ds_pool d) /\ known (ds_scope d) (ds_pool d) (TIPrim 1) /\
    type_of (sg_local 18) (ds_scope d) (ds_pool d) = Done (TIArray (TIPrim 1)) /\
    (forall temp, exists T : temporaries (demo (ds_pool d')) (demo_arrays (ds_pool d')) (ds_pool d') temp (demo_takes (ds_pool d')), alike T sg_start sg_start) /\
    logged (run_for (demo (ds_pool d')) (demo_arrays (ds_pool d')) (ds_scope d') (ds_pool d') 5 (eval (demo (ds_pool d')) (ds_scope d') (ds_pool d')) 12 (sg_local 18)
      (run_all (demo (ds_pool d')) (run (demo (ds_pool d')) (ds_scope d') (ds_pool d') 5) [sg_main [sg_local 12]]) sg_start) = both /\
    logged (run_all (demo (ds_pool d')) (run (demo (ds_pool d')) (ds_scope d') (ds_pool d') 5) (ds_prefix d' ++ [out]) sg_start) = both.
Proof.
  intros d both. destruct (on_expr sg_loop d) as [[out d']|] eqn:E; [|exfalso; vm_compute in E; discriminate E]. exists out, d'. split; [reflexivity|].
  vm_compute in E. injection E as <- <-. cbn [ds_pool ds_scope ds_prefix].
  split; [repeat split|]. split; [reflexivity|]. split; [reflexivity|]. split; [reflexivity|]. split; [reflexivity|].
  split; [|split].
  - assert (L : names_no (fun i => size (ds_pool d) <= i) (sg_local 12)) by (apply nb_intro; [cbn; lia|intros ? P; inversion P]).
    constructor; [|constructor]. named.
  - apply nb_intro; [cbn; lia|intros ? P; inversion P].
  - destruct sg_sound as (S1 & S2 & _). split; [exact S1|]. split; [exact S2|]. split; [|split; [reflexivity|split]].
    + exists (lit "String"). split; [reflexivity|]. split; [|split; [discriminate|split; reflexivity]]. split; intros H; cbn in H; repeat destruct H as [H|H]; try discriminate; contradiction.
    + intros temp. unshelve eexists; [apply demo_temporaries; apply counting_by; vm_compute; reflexivity|]. split; reflexivity.
    + split; vm_compute; reflexivity.
Qed.

(** * C29: array literals *)

(** What is claimed of a body: desugared, it does what it says, in the same order.
    The state at the start may differ in the added variables. *)
Definition evaluates_in_place (s : scope) (p : pool) (body : list texpr) : Prop :=
  forall body' ls s' p', desugar body s p = Done (body', ls, s', p') -> small p' ->
  forall R Y takes (T : temporaries R Y p' (fun i => size p <= i) takes) fuel w w2, alike T w w2 ->
  run_all R (srun R Y s' p' fuel) body w <> Halt Malformed ->
  same_ending T (run_all R (srun R Y s' p' fuel) body w) (run_all R (run R s' p' fuel) body' w2).

(** Bodies in which every literal comes before all that has an effect in its
    statement ([tame]) do. *)
Theorem C29_literals_evaluate_in_place_partial s p body body' ls s' p' :
  desugar body s p = Done (body', ls, s', p') -> small p' ->
  pool_ok p -> types_shaped s p -> knows_literals s -> knows_int s p ->
  Forall (names_no (fun i => size p <= i)) body -> Forall (typed_ok s p s' p') body ->
  forall R Y takes (T : temporaries R Y p' (fun i => size p <= i) takes) fuel w w2, every (tame s' p' takes) body -> alike T w w2 ->
  run_all R (srun R Y s' p' fuel) body w <> Halt Malformed ->
  same_ending T (run_all R (srun R Y s' p' fuel) body w) (run_all R (run R s' p' fuel) body' w2).
Proof.
  unfold desugar. intros E Hs Ok Sh Kl Ki Nb Ty R Y takes T fuel w w2 Ta A Nm. destruct (on_seq body (desugar_new s p)) as [[b d]|] eqn:Eb; [|discriminate]. injection E as <- <- <- <-.
  destruct (seq_good R Y takes s p (ds_scope d) (ds_pool d) T fuel body) with (d := desugar_new s p) (es' := b) (d' := d) as (_ & _ & _ & X); try assumption; try reflexivity.
  - apply Forall_forall. intros e _. apply every_good; assumption.
  - split; [apply grows_refl|]. split; assumption.
  - apply grows_refl.
  - destruct (X w w2 A) as [H|H]; [contradiction|].
    destruct (run_all R (srun R Y _ _ fuel) body w) as [r|h], (run_all R _ b w2) as [r2|h2]; cbn [arel] in H; try contradiction; [|exact H].
    destruct r, r2; cbn [end_rel same_ending] in *; try contradiction; try apply H; exact H.
Qed.
Print Assumptions C29_literals_evaluate_in_place_partial.

(** Not all bodies do. *)
Definition sg_lit (es : list texpr) : texpr := EArrayLit (N := typed_ast) es (Some (TIPrim 1)) sp0.
Definition sg_size (x : texpr) : texpr := ECall (N := typed_ast) (CIntrinsic IArraySize (TIPrim 7)) [] [x] sp0.
Definition sg_count (n : Z) : texpr := EConstant (N := typed_ast) (CI32 n) sp0.
Definition sg_call (f : pidx) (args : list texpr) : texpr := ECall (N := typed_ast) (CFunction f) [] args sp0.
Definition sg_zero : dworld := {| locals := fun i => if i =? 12 then DCon (KInt 32 0) else if i =? 18 then DArr [] else DNone; calls := [] |}.
Definition both_logs (body : list texpr) : list (list (option dat)) * list (list (option dat)) :=
  match desugar body sg_scope sg_pool with
  | Done (body', _, s', p') =>
    (logged (run_all (demo p') (srun (demo p') (demo_arrays p') s' p' 9) body sg_zero), logged (run_all (demo p') (run (demo p') s' p' 9) body' sg_zero))
  | Fail _ => ([], [])
  end.
Lemma same_logged P temp c x y : same_ending (demo_temporaries P temp c) x y -> logged x = logged y.
Proof.
  destruct x as [[]|], y as [[]|]; try contradiction; try reflexivity. intros [H _]. cbn [logged]. f_equal. exact H.
Qed.
Lemma by_logs body : (forall body' ls s' p', desugar body sg_scope sg_pool = Done (body', ls, s', p') -> small p' /\
    run_all (demo p') (srun (demo p') (demo_arrays p') s' p' 9) body sg_zero <> Halt Malformed /\
    (forall f n, def_name p' f = Done n -> n = less_name \/ n = add_name_ -> exists c, callee_of p' f false = Some c /\ short_params p' f = Some [false; false])) ->
  fst (both_logs body) <> snd (both_logs body) -> ~ evaluates_in_place sg_scope sg_pool body.
Proof.
  unfold both_logs. intros H D X. destruct (desugar body sg_scope sg_pool) as [[[[body' ls] s'] p']|] eqn:E; [|apply D; reflexivity].
  destruct (H _ _ _ _ eq_refl) as (H1 & H2 & H3). apply D. cbn [fst snd]. eapply same_logged.
  refine (X _ _ _ _ E H1 _ _ _ (demo_temporaries p' (fun i => size sg_pool <= i) H3) 9%nat sg_zero sg_zero _ H2). split; reflexivity.
Qed.
(** while x < ArraySize([Main("a")]) { x += 1; }: the literal is evaluated once.
    xs = true ? xs : [Main("a")]: it is evaluated although the branch is not taken.
    Main(Main("a"), [Main("b")]): it is evaluated before the first argument.
    switch 1 { case ArraySize(["a"]): …; case 2: … }: it is evaluated in the body of
    the next case, and not before the comparison. *)
Definition in_condition : list texpr :=
  [EWhile (N := typed_ast) (sg_call 15 [sg_local 12; sg_size (sg_lit [sg_main [sg_text "a"]])]) [sg_call 14 [sg_local 12; sg_count 1]] sp0].
Definition in_branch : list texpr :=
  [EAssign (N := typed_ast) (sg_local 18) (EConditional (N := typed_ast) (EConstant (N := typed_ast) (CBool true) sp0) (sg_local 18) (sg_lit [sg_main [sg_text "a"]]) sp0) sp0].
Definition in_argument : list texpr := [sg_main [sg_main [sg_text "a"]; sg_lit [sg_main [sg_text "b"]]]].
Definition in_matcher : list texpr :=
  [ESwitch (N := typed_ast) (sg_count 1)
     [(sg_size (sg_lit [sg_text "a"]), [sg_main [sg_text "one"]; EBreak (N := typed_ast) sp0]); (sg_count 2, [sg_main [sg_text "two"]])] None sp0].
Theorem C29_literals_evaluate_in_place_refuted : exists s p, pool_ok p /\ types_shaped s p /\ knows_literals s /\
  Forall (fun body => ~ evaluates_in_place s p body) [in_condition; in_branch; in_argument; in_matcher].
Proof.
  exists sg_scope, sg_pool. destruct sg_sound as (S1 & S2 & S3). split; [exact S1|]. split; [exact S2|]. split; [exact S3|].
  repeat constructor; (apply by_logs; [|vm_compute; discriminate]); intros body' ls s' p' E; vm_compute in E; injection E as <- <- <- <-;
    (split; [repeat split|]); (split; [vm_compute; discriminate|]); apply counting_by; vm_compute; reflexivity.
Qed.
Print Assumptions C29_literals_evaluate_in_place_refuted.

(** Main([Main("a"), "b"]); for x in ["c", "d"] { Main(x); } *)
Definition sg_tame : list texpr :=
  [sg_main [sg_lit [sg_main [sg_text "a"]; sg_text "b"]]; EForIn (N := typed_ast) 12 (sg_lit [sg_text "c"; sg_text "d"]) [sg_main [sg_local 12]] sp0].
Lemma sg_known : known sg_scope sg_pool (TIPrim 1).
Proof.
  exists (lit "String"). split; [reflexivity|]. split; [|split; [discriminate|split; reflexivity]]. split; intros H; cbn in H; repeat destruct H as [H|H]; try discriminate; contradiction.
Qed.
Example C29_nonvacuous : exists body' ls s' p', desugar sg_tame sg_scope sg_pool = Done (body', ls, s', p') /\ small p' /\
  knows_int sg_scope sg_pool /\ Forall (names_no (fun i => size sg_pool <= i)) sg_tame /\ Forall (typed_ok sg_scope sg_pool s' p') sg_tame /\
  every (tame s' p' (demo_takes p')) sg_tame /\
  (exists T : temporaries (demo p') (demo_arrays p') p' (fun i => size sg_pool <= i) (demo_takes p'), alike T sg_zero sg_zero) /\
  both_logs sg_tame =
    (let calls := [[Some (DCon (KText LString (lit "a"))); None]; [Some (DArr [DParam 0; DCon (KText LString (lit "b"))]); None];
                   [Some (DCon (KText LString (lit "c"))); None]; [Some (DCon (KText LString (lit "d"))); None]] in (calls, calls)).
Proof.
  destruct (desugar sg_tame sg_scope sg_pool) as [[[[body' ls] s'] p']|] eqn:E; [|exfalso; vm_compute in E; discriminate E].
  exists body', ls, s', p'. split; [reflexivity|]. vm_compute in E. injection E as <- <- <- <-.
  assert (Pl : forall c, plain (EConstant (N := typed_ast) c sp0)) by (intros c x W; inversion W as [|? ? P]; subst; [exact I|inversion P]).
  assert (Pi : plain (sg_local 12)) by (intros x W; inversion W as [|? ? P]; subst; [exact I|inversion P]).
  assert (Nc : forall c, names_no (fun i => size sg_pool <= i) (EConstant (N := typed_ast) c sp0)) by (intros c; apply nb_intro; [exact I|intros ? P; inversion P]).
  assert (Nl : names_no (fun i => size sg_pool <= i) (sg_local 12)) by (apply nb_intro; [cbn; lia|intros ? P; inversion P]).
  assert (Pm : forall x, plain x -> plain (sg_main [x])).
  { intros x Px y W. inversion W as [|? ? P]; subst; [exact I|]. inversion P; subst. repeat match goal with H : In _ [_] |- _ => destruct H as [<-|[]] end. apply Px. assumption. }
  split; [repeat split|]. split; [|split; [|split; [|split; [|split]]]].
  - exists (TIPrim 7). split; [|reflexivity]. exists (lit "Int32"). split; [reflexivity|]. split; [|split; [discriminate|split; reflexivity]]. split; intros H; cbn in H; repeat destruct H as [H|H]; try discriminate; contradiction.
  - constructor; [|constructor; [|constructor]]; repeat (apply nb_intro; [first [exact I|cbn; lia]|]; intros ? P; inversion P; subst; clear P;
      repeat match goal with H : In _ _ |- _ => cbn [In] in H | H : _ \/ _ |- _ => destruct H as [H|H] | H : False |- _ => destruct H end; subst).
  - constructor; [|constructor; [|constructor]]; intros x W; repeat (inversion W as [|? ? P W2]; subst; clear W; [first [exact I|exact sg_known|intros t H; vm_compute in H; injection H as <-; exact sg_known]|]; inversion P; subst; clear P;
      repeat match goal with H : In _ _ |- _ => cbn [In] in H | H : _ \/ _ |- _ => destruct H as [H|H] | H : False |- _ => destruct H end; subst; rename W2 into W).
  - split; [|split; [|exact I]].
    + right. cbn [sg_main]. eexists. split.
      * eexists. split; [reflexivity|]. split; [vm_compute; reflexivity|]. intros l H. vm_compute in H. injection H as <-. split; [repeat constructor|cbn; lia].
      * split; [|split; [|exact I]].
        -- right. split; [left; apply Pm, Pl|]. split; [left; apply Pl|exact I].
        -- intros _. eexists. split; [reflexivity|]. split; vm_compute; reflexivity.
    + split; [|split; [left; apply Pm, Pi|exact I]]. right. split; [left; apply Pl|]. split; [left; apply Pl|exact I].
  - unshelve eexists; [apply demo_temporaries; apply counting_by; vm_compute; reflexivity|]. split; reflexivity.
  - vm_compute. reflexivity.
Qed.
