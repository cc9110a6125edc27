(** C24: the order of classes in the output. *)
From Coq Require Import String.
From Coq Require Import ZArith List Bool Lia.
From Verif Require Import Bytes Definitions Bundle Pool Bytecode Scope TypeCheck TypingSpec TypingFacts Mapper Cleanup CleanupSpec CleanupFacts CleanupSort.
Import ListNotations.
Open Scope Z_scope.

(** For every pool with an acyclic hierarchy the reordering ends without a panic,
    moves classes and nothing else, takes all references (and the indices of the
    source references) along, and puts every class after its base.  A pool that
    is in order already is left as it is. *)
Theorem C24_classes_after_bases p refs fuel : acyclic p -> (length (pl_defs p) < fuel)%nat ->
  exists p' move, cleanup_pool fuel p refs = Done (p', map move refs) /\ moved_by move p p' /\ bases_first p' /\
    (bases_first p -> p' = p /\ forall i, move i = i).
Proof. intros AC F. exact (cleanup_pool_ok p AC fuel refs F). Qed.
Print Assumptions C24_classes_after_bases.

(** Five classes: 1 extends 4, 2 extends 1, 4 extends 5, 6 extends 2; then a field of 1, a
    method of 2 that creates objects of 1, and a class in order. *)
Definition cl (base : pidx) : class :=
  {| cl_visibility := Public; cl_flags := 0; cl_base := base; cl_functions := []; cl_fields := []; cl_overrides := [] |}.
Definition cd (n parent : pidx) (v : any_def) : definition := {| df_name := n; df_parent := parent; df_unk1 := 0; df_unk2 := 0; df_unk3 := 0; df_value := v |}.
Definition cl_method : function :=
  {| fu_visibility := Public; fu_flags := 0; fu_source := None; fu_return_type := None; fu_unk1 := false; fu_base_method := None;
     fu_parameters := []; fu_locals := []; fu_operator := None; fu_cast := 0; fu_code := [New 1; DynamicCast 5 0; Nop]; fu_unk2 := [] |}.
Definition cl_field : field :=
  {| fi_visibility := Public; fi_type := 0; fi_flags := 0; fi_hint := None; fi_attributes := []; fi_defaults := [] |}.
Definition cl_pool : pool :=
  {| pl_names := empty_strings; pl_tweakdb := empty_strings; pl_resources := empty_strings; pl_strings := empty_strings;
     pl_defs := [default_definition; cd 1 0 (DClass (cl 4)); cd 2 0 (DClass (cl 1)); cd 3 0 (DType TPrim); cd 4 0 (DClass (cl 5));
                 cd 5 0 (DClass (cl 0)); cd 6 0 (DClass (cl 2)); cd 7 1 (DField cl_field); cd 8 2 (DFunction cl_method); cd 9 0 (DClass (cl 6))] |}.
Lemma cl_acyclic : acyclic cl_pool.
Proof.
  split; [intros k H; discriminate|]. intros c k G.
  assert (N : chain cl_pool 0 []) by constructor.
  assert (H5 : chain cl_pool 5 [5]) by (econstructor; [discriminate|reflexivity|exact N]).
  assert (H4 : chain cl_pool 4 [4; 5]) by (econstructor; [discriminate|reflexivity|exact H5]).
  assert (H1 : chain cl_pool 1 [1; 4; 5]) by (econstructor; [discriminate|reflexivity|exact H4]).
  assert (H2 : chain cl_pool 2 [2; 1; 4; 5]) by (econstructor; [discriminate|reflexivity|exact H1]).
  assert (H6 : chain cl_pool 6 [6; 2; 1; 4; 5]) by (econstructor; [discriminate|reflexivity|exact H2]).
  assert (H9 : chain cl_pool 9 [9; 6; 2; 1; 4; 5]) by (econstructor; [discriminate|reflexivity|exact H6]).
  pose proof (get_class_bound _ _ _ G) as [L1 L2]. cbn [cl_pool pl_defs length] in L2.
  assert (c = 0 \/ c = 1 \/ c = 2 \/ c = 3 \/ c = 4 \/ c = 5 \/ c = 6 \/ c = 7 \/ c = 8 \/ c = 9) as C by lia.
  repeat destruct C as [->|C]; try discriminate G; try (eexists; eassumption). subst. eexists; eassumption.
Qed.
(** They come out in the order 5, 4, 1, 2, 6; the field is one of 4 now, the method
    one of 5 creating objects of 4. *)
Example C24_nonvacuous : acyclic cl_pool /\ ~ bases_first cl_pool /\
  exists p', cleanup_pool 11 cl_pool [1; 7; 5] = Done (p', [4; 7; 1]) /\
    map df_name (pl_defs p') = [0; 5; 4; 3; 1; 2; 6; 7; 8; 9] /\
    map class_refs (pl_defs p') = [[]; [0]; [1]; []; [2]; [4]; [5]; [4]; [5; 4; 1]; [6]].
Proof.
  split; [exact cl_acyclic|]. split.
  - intros H. specialize (H 1 (cl 4) eq_refl ltac:(discriminate)). cbn in H. lia.
  - eexists. split; [vm_compute; reflexivity|]. split; reflexivity.
Qed.

(** The hypothesis is needed: on two classes that extend each other the algorithm
    does not end, whatever the fuel. *)
Definition cyclic_pool : pool :=
  {| pl_names := empty_strings; pl_tweakdb := empty_strings; pl_resources := empty_strings; pl_strings := empty_strings;
     pl_defs := [default_definition; cd 1 0 (DClass (cl 2)); cd 2 0 (DClass (cl 1))] |}.
Theorem C24_cyclic_never_ends fuel refs : cleanup_pool fuel cyclic_pool refs = Fail CleanupFuel.
Proof.
  assert (C : forall fuel acc, collect_subtypes fuel cyclic_pool 1 acc = Fail CleanupFuel /\ collect_subtypes fuel cyclic_pool 2 acc = Fail CleanupFuel).
  { induction fuel0 as [|n IH]; intros acc; [split; reflexivity|]. cbn [collect_subtypes].
    change (children cyclic_pool 1) with [2]. change (children cyclic_pool 2) with [1]. cbn [each].
    rewrite (proj2 (IH _)), (proj1 (IH _)). split; reflexivity. }
  unfold cleanup_pool, find_unsorted. change (map fst (definitions cyclic_pool)) with [1; 2]. cbn [each].
  destruct fuel as [|[|n]]; [reflexivity|reflexivity|].
  assert (E : climb_above (S (S n)) cyclic_pool 1 1 = Done 2) by reflexivity. rewrite E. cbn [Z.eqb].
  change (2 =? 1) with false. cbv iota. rewrite (proj2 (C _ _)). reflexivity.
Qed.
Print Assumptions C24_cyclic_never_ends.
