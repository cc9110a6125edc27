(** Accepted code is well typed: C47. *)
From Coq Require Import String.
From Coq Require Import ZArith List Bool Lia.
From Verif Require Import Bytes BytesFacts Bytecode Definitions Bundle BundleFacts Ast TypeNames Pool Scope TypeCheck PoolSpec PoolFacts
  TypeIndexSpec TypeIndexFacts TypingSpec TypingFacts PartsSpec BodySpec P_Assembler P_Machine WellTypedSpec WellTypedFacts WellTypedSound.
Import ListNotations.
Open Scope Z_scope.

Lemma rooted_progress st st' : progress st st' -> rooted (ts_pool st) -> rooted (ts_pool st').
Proof.
  intros P H c k E. destruct (H c k (pr_classes _ _ P _ _ E)) as (N & l & C). split; [exact N|]. exists l.
  eapply chain_end; [apply P|exact C].
Qed.

(** If the checker gives an expression back and no failure has been reported, each
    operation in the result is applied to operands of the types it is declared
    for.  Types are those of the scope the checker started with and of the pool in
    the end.  This holds in both modes, for any expected type and any nesting. *)
Theorem C47_accepted_is_well_typed fuel permissive e wanted st x st' :
  check fuel permissive e wanted st = Done (x, st') -> no_failures (ts_diags st') ->
  basics (ts_scope st) -> rooted (ts_pool st) -> pool_ok (ts_pool st) -> types_named (ts_scope st) (ts_pool st) -> small (ts_pool st') ->
  well_typed (ts_scope st) (ts_pool st') x.
Proof.
  intros E F B R P T Sm. pose proof (moves_check _ _ _ _ _ _ _ E) as Pr.
  eapply yields_check; [exact B|eapply rooted_progress; eassumption|exact Sm|exact E| |split; [apply extends_refl|exact F]].
  split; [split; assumption|apply near_refl].
Qed.
Print Assumptions C47_accepted_is_well_typed.
(** The same for the statements of a body. *)
Theorem C47_accepted_body_is_well_typed fuel permissive es st xs st' :
  check_seq (check fuel permissive) es st = Done (xs, st') -> no_failures (ts_diags st') ->
  basics (ts_scope st) -> rooted (ts_pool st) -> pool_ok (ts_pool st) -> types_named (ts_scope st) (ts_pool st) -> small (ts_pool st') ->
  Forall (well_typed (ts_scope st) (ts_pool st')) xs.
Proof.
  intros E F B R P T Sm. pose proof (moves_seq _ (moves_check fuel permissive) _ _ _ _ E) as Pr.
  eapply (yields_seq (ts_scope st) (ts_pool st')); [exact Sm|apply moves_check| |exact E| |split; [apply extends_refl|exact F]].
  - intros y w. apply yields_check; [exact B|eapply rooted_progress; eassumption|exact Sm].
  - split; [split; assumption|apply near_refl].
Qed.
Print Assumptions C47_accepted_body_is_well_typed.

(** Class Animal with a field `age: Int32` and a method `speak(opt n: Int32)`,
    class Cat extends Animal, and the function

    func F(c: wref<Cat>) -> wref<Animal> {
      let x: Int32 = c.age;
      let r: ref<Animal> = c;
      if true { r.speak(x); }
      return c;
    } *)
Definition wt_names : list str := lit_names ++
  [lit "Variant"; lit "Animal"; lit "Cat"; lit "age"; lit "speak;Int32"; lit "n"; lit "F;wref:Cat"; lit "c"; lit "wref:Cat"; lit "wref:Animal"].
Definition wt_def (n : Z) (v : any_def) : definition :=
  {| df_name := n; df_parent := 0; df_unk1 := 0; df_unk2 := 0; df_unk3 := 0; df_value := v |}.
Definition wt_class (base : pidx) (fields functions : list pidx) : any_def :=
  DClass {| cl_visibility := Public; cl_flags := 0; cl_base := base; cl_functions := functions;
            cl_fields := fields; cl_overrides := [] |}.
Definition wt_fun (ps : list pidx) (r : option pidx) : any_def :=
  DFunction {| fu_visibility := Public; fu_flags := 0; fu_source := None; fu_return_type := r; fu_unk1 := false;
               fu_base_method := None; fu_parameters := ps; fu_locals := []; fu_operator := None; fu_cast := 0;
               fu_code := []; fu_unk2 := [] |}.
Definition wt_int : pidx := match am_find (sc_types lit_scope) (lit "Int32") with Some i => i | None => 0 end.
Definition wt_pool : pool := Eval vm_compute in
  {| pl_names := {| st_list := wt_names; st_map := numbered wt_names |};
     pl_tweakdb := one_entry; pl_resources := one_entry; pl_strings := empty_strings;
     pl_defs := pl_defs lit_pool ++
       [wt_def 12 (DType TPrim); wt_def 13 (wt_class 0 [15] [16]); wt_def 14 (wt_class 13 [] []);
        wt_def 15 (DField {| fi_visibility := Public; fi_type := wt_int; fi_flags := 0; fi_hint := None; fi_attributes := []; fi_defaults := [] |});
        wt_def 16 (wt_fun [17] None); wt_def 17 (DParameter {| pa_type := wt_int; pa_flags := 1 |});
        wt_def 18 (wt_fun [19] (Some 23)); wt_def 19 (DParameter {| pa_type := 22; pa_flags := 0 |});
        wt_def 13 (DType TClass); wt_def 14 (DType TClass); wt_def 20 (DType (TWeakRef 21)); wt_def 21 (DType (TWeakRef 20))] |}.
Definition wt_scope : scope := Eval vm_compute in
  {| sc_symbols := [(lit "Animal", SClass 13 Public); (lit "Cat", SClass 14 Public)]; sc_references := [(lit "c", VParam 19)];
     sc_types := sc_types lit_scope ++ [(lit "Variant", 12); (lit "Animal", 20); (lit "Cat", 21); (lit "wref:Cat", 22); (lit "wref:Animal", 23)];
     sc_this := None; sc_function := Some 18 |}.
Definition wt_state : tstate := {| ts_pool := wt_pool; ts_locals := []; ts_diags := []; ts_scope := wt_scope |}.
Definition var (n : string) : sexpr := EIdent (N := source_ast) (lit n) sp0.
Definition wt_body : sexpr := ESeq
  [EDeclare (N := source_ast) (lit "x") (Some tn_INT32) (Some (EMember (N := source_ast) (var "c") (lit "age") sp0)) sp0;
   EDeclare (N := source_ast) (lit "r") (Some (TypeName (lit "ref") (Some [tn_basic (lit "Animal")]))) (Some (var "c")) sp0;
   EIf (EConstant (CBool true) sp0) [EMethodCall (N := source_ast) (var "r") (lit "speak") [var "x"] sp0] None sp0;
   EReturn (Some (var "c")) sp0].
Definition wt_done : texpr * tstate := match check 9 false wt_body None wt_state with Done r => r | Fail _ => (ENull (N := typed_ast) sp0, wt_state) end.
Lemma wt_ok : pool_ok wt_pool /\ types_named wt_scope wt_pool /\ basics wt_scope /\ rooted wt_pool.
Proof.
  assert (E : indexed None empty_strings) by (split; [discriminate|split; [intros s []|exact I]]).
  assert (E1 : indexed None one_entry).
  { split; [|split; [|exact I]].
    - intros s i H. cbn [one_entry st_map sm_find] in H. by_name. split; [cbn; lia|reflexivity].
    - intros s [<-|[]]. eexists. reflexivity. }
  split; [|split; [|split]].
  - split; [|auto]. split; [|split; [|reflexivity]].
    + intros s i H. cbn [wt_pool pl_names st_map sm_find] in H. by_name; (split; [cbn; lia|reflexivity]).
    + intros s H. cbn [wt_pool pl_names st_list In] in H. repeat match type of H with _ \/ _ => destruct H as [<-|H]; [eexists; reflexivity|] end; contradiction H.
  - intros n i H. cbn [wt_scope sc_types am_find] in H. by_name; reflexivity.
  - split; [intros c; destruct c as [[]|v|v|v|v|v|v|[]]; eexists; reflexivity|eexists; reflexivity].
  - assert (C13 : chain wt_pool 13 [13]) by (econstructor; [discriminate|reflexivity|constructor]).
    assert (C14 : chain wt_pool 14 [14; 13]) by (econstructor; [discriminate|reflexivity|exact C13]).
    intros c k H. pose proof (get_class_bound _ _ _ H) as [L1 L2]. change (length (pl_defs wt_pool)) with 24%nat in L2.
    assert (X : c = 13 \/ c = 14).
    { assert (Y : exists n, c = Z.of_nat n /\ (n < 24)%nat) by (exists (Z.to_nat c); lia). destruct Y as (n & -> & Ln).
      do 24 (destruct n as [|n]; [try discriminate H; cbn; auto|]). lia. }
    destruct X as [-> | ->]; (split; [discriminate|eauto]).
Qed.
Example C47_nonvacuous :
  check 9 false wt_body None wt_state = Done wt_done /\ no_failures (ts_diags (snd wt_done)) /\ small (ts_pool (snd wt_done)) /\
  length (pl_defs (ts_pool (snd wt_done))) = 27%nat /\
  basics wt_scope /\ rooted wt_pool /\ pool_ok wt_pool /\ types_named wt_scope wt_pool /\
  fst wt_done = ESeq
    [EDeclare (N := typed_ast) 24 (Some (TIPrim wt_int))
       (Some (EMember (N := typed_ast) (ECall (N := typed_ast) (CIntrinsic IWeakRefToRef (TIRef (TIClass 14))) [] [EIdent (N := typed_ast) (RValue (VParam 19)) sp0] sp0) (ClassField 15) sp0)) sp0;
     EDeclare (N := typed_ast) 26 (Some (TIRef (TIClass 13)))
       (Some (ECall (N := typed_ast) (CIntrinsic IWeakRefToRef (TIRef (TIClass 13))) [] [EIdent (N := typed_ast) (RValue (VParam 19)) sp0] sp0)) sp0;
     EIf (EConstant (CBool true) sp0)
       [EMethodCall (N := typed_ast) (EIdent (N := typed_ast) (RValue (VLocal 26)) sp0) 16 [EIdent (N := typed_ast) (RValue (VLocal 24)) sp0] sp0] None sp0;
     EReturn (Some (EIdent (N := typed_ast) (RValue (VParam 19)) sp0)) sp0].
Proof.
  destruct wt_ok as (H1 & H2 & H3 & H4).
  split; [vm_compute; reflexivity|]. split; [intros d I; vm_compute in I; destruct I|].
  split; [repeat split; vm_compute; reflexivity|]. split; [vm_compute; reflexivity|]. repeat (split; [assumption|]). vm_compute. reflexivity.
Qed.

(** * What is not checked *)

(** The value of a case may have a type that has nothing to do with that of the
    value it is compared with. *)
Theorem C47_case_type_refuted : exists e st m x b sp st' t u,
  check 9 false e None st = Done (ESwitch m [(x, b)] None sp, st') /\ ts_diags st' = [] /\
  has (ts_scope st) (ts_pool st') m t /\ has (ts_scope st) (ts_pool st') x u /\ ~ under (ts_pool st') u t /\ ~ under (ts_pool st') t u.
Proof.
  exists (ESwitch (EConstant (CI32 1) sp0) [(EConstant (CString LString (lit "one")) sp0, [])] None sp0), wt_state.
  do 7 eexists. split; [vm_compute; reflexivity|]. split; [reflexivity|].
  split; [unfold has; vm_compute; reflexivity|]. split; [unfold has; vm_compute; reflexivity|].
  split; intros H; inversion H.
Qed.
Print Assumptions C47_case_type_refuted.
(** Assigning to a constant is accepted. *)
Theorem C47_assigned_place_refuted : exists e st c r sp st',
  check 9 false e None st = Done (EAssign (EConstant c sp) r sp, st') /\ ts_diags st' = [].
Proof.
  exists (EAssign (EConstant (CI32 1) sp0) (EConstant (CI32 2) sp0) sp0), wt_state.
  do 4 eexists. split; [vm_compute; reflexivity|reflexivity].
Qed.
Print Assumptions C47_assigned_place_refuted.
(** Only the number of parameters that are not optional is compared with the
    number of arguments: given func G(opt a: Int32, b: Int32), the call G(1) is
    accepted and gives [b] no value. *)
Definition opt_state : tstate :=
  {| ts_pool := {| pl_names := pl_names wt_pool; pl_tweakdb := one_entry; pl_resources := one_entry; pl_strings := empty_strings;
                   pl_defs := pl_defs wt_pool ++ [wt_def 18 (wt_fun [17; 25] None); wt_def 19 (DParameter {| pa_type := wt_int; pa_flags := 0 |})] |};
     ts_locals := []; ts_diags := []; ts_scope := set_symbols wt_scope [(lit "G", SFunctions [(24, Public)])] |}.
Theorem C47_required_argument_refuted : exists e st g args sp st' fn i q,
  check 9 false e None st = Done (ECall (N := typed_ast) (CFunction g) [] args sp, st') /\ ts_diags st' = [] /\
  get_function (ts_pool st') g = Done fn /\ nth_error (fu_parameters fn) (length args) = Some i /\
  get_parameter (ts_pool st') i = Done q /\ needed q = true.
Proof.
  exists (ECall (N := source_ast) (lit "G") [] [EConstant (CI32 1) sp0] sp0), opt_state.
  do 7 eexists. split; [vm_compute; reflexivity|]. split; [reflexivity|]. split; [vm_compute; reflexivity|].
  split; [reflexivity|]. split; [vm_compute; reflexivity|reflexivity].
Qed.
Print Assumptions C47_required_argument_refuted.
