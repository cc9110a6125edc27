(** C04 and C42: definitions and flag words survive saving and loading. *)
From Coq Require Import ZArith List Bool.
From Verif Require Import Bytes BytesFacts Bytecode BytecodeFacts Definitions FlagFacts DefinitionsSpec DefinitionsFacts.
Import ListNotations.
Open Scope Z_scope.

(** C04.  Every representable definition (of each of the nine kinds) is read
    back; [any_saved] (DefinitionsSpec.v) says what may differ: only the derived
    flag bits and data that the flags declare absent.  The only exclusion is a
    non-native function without a source reference. *)
Theorem C04_definition_roundtrip : forall d,
  any_ok d -> has_source d ->
  exists bs d', enc_any d = Ok bs /\ any_saved d d' /\
    forall rest, dec_any (def_tag d) (bs ++ rest) = Ok (d', rest).
Proof. exact definition_roundtrip_lemma. Qed.
Print Assumptions C04_definition_roundtrip.

(** The definitions that come back unchanged are exactly the canonical ones. *)
Theorem C04_definition_unchanged_iff : forall d,
  any_ok d ->
  exists bs, enc_any d = Ok bs /\
    ((forall rest, dec_any (def_tag d) (bs ++ rest) = Ok (d, rest)) <-> any_canonical d).
Proof. exact definition_unchanged_iff_lemma. Qed.
Print Assumptions C04_definition_unchanged_iff.

Definition sample_function : function :=
  {| fu_visibility := Protected; fu_flags := 1 + 2 ^ 8 + 2 ^ 10 + 2 ^ 12 + 2 ^ 17;
     fu_source := Some {| sr_file := 1; sr_line := 77 |}; fu_return_type := Some 5; fu_unk1 := true;
     fu_base_method := None; fu_parameters := [9; 10]; fu_locals := []; fu_operator := None;
     fu_cast := 0; fu_code := [Return; Param 9; Nop]; fu_unk2 := [] |}.

Example C04_example :
  any_ok (DFunction sample_function) /\ has_source (DFunction sample_function) /\
  any_canonical (DFunction sample_function).
Proof.
  split; [|split].
  - cbn [any_ok]. unfold function_ok, idxs_ok, code_ok, source_ref_ok, idx_ok, in_u. cbn.
    repeat match goal with |- _ /\ _ => split end; try discriminate; try reflexivity; trivial.
    all: try (repeat constructor; unfold in_u; cbn; discriminate || reflexivity || exact I).
    right. exists [Return; Param 9], Nop. split; reflexivity.
  - cbn. discriminate.
  - cbn. unfold function_canonical; cbn.
    repeat match goal with |- _ /\ _ => split end; split || idtac; try congruence; intros; try tauto; try discriminate.
    left; discriminate.
Qed.

(** The excluded case really is not read back: loading such a function yields
    another definition or fails. *)
Theorem C04_missing_source_refuted : exists f bs,
  any_ok (DFunction f) /\ enc_any (DFunction f) = Ok bs /\
  forall rest, dec_any (def_tag (DFunction f)) (bs ++ rest) <> Ok (DFunction f, rest).
Proof.
  exists {| fu_visibility := Public; fu_flags := 0; fu_source := None; fu_return_type := None;
            fu_unk1 := false; fu_base_method := None; fu_parameters := []; fu_locals := [];
            fu_operator := None; fu_cast := 0; fu_code := []; fu_unk2 := [] |}.
  eexists. split; [|split; [reflexivity|]].
  - cbn. unfold function_ok, idxs_ok, code_ok, in_u. cbn.
    repeat match goal with |- _ /\ _ => split end; trivial; try discriminate; try reflexivity; try constructor.
    reflexivity.
  - intros rest H. cbn [def_tag dec_any] in H.
    apply pbind_inv in H. destruct H as (f' & i' & Hf & Hp). unfold pret in Hp.
    assert (E : f' = {| fu_visibility := Public; fu_flags := 0; fu_source := None; fu_return_type := None;
            fu_unk1 := false; fu_base_method := None; fu_parameters := []; fu_locals := [];
            fu_operator := None; fu_cast := 0; fu_code := []; fu_unk2 := [] |}) by congruence.
    apply (dec_function_source _ _ _ Hf); rewrite E; reflexivity.
Qed.
Print Assumptions C04_missing_source_refuted.

(** C42.  Flag words: [get_flag]/[with_flag] are the generated accessors. *)
Theorem C42_flag_set_get : forall k b w, 0 <= k -> get_flag k (with_flag k b w) = b.
Proof. intros k b w H. unfold get_flag. rewrite with_flag_spec by assumption. now rewrite Z.eqb_refl. Qed.
Print Assumptions C42_flag_set_get.

Theorem C42_flag_set_other : forall k j b w, 0 <= k -> 0 <= j -> j <> k ->
  get_flag j (with_flag k b w) = get_flag j w.
Proof.
  intros k j b w Hk Hj N. unfold get_flag. rewrite with_flag_spec by assumption.
  destruct (Z.eqb_spec j k); [contradiction|reflexivity].
Qed.
Print Assumptions C42_flag_set_other.

(** Setting flags stays within the word, and two flag words with the same bits
    are the same. *)
Theorem C42_flag_word_width : forall n k b w, 0 <= k < n -> in_u n w -> in_u n (with_flag k b w).
Proof. exact with_flag_range. Qed.
Print Assumptions C42_flag_word_width.

(** Every bit of a flag word, named or not, survives a save/load cycle (words of
    1, 2 and 4 bytes are used for locals and parameters, classes and fields,
    functions). *)
Theorem C42_flag_bits_survive : forall n w, in_u (8 * Z.of_nat n) w ->
  exists bs, enc_flags n w = Ok bs /\ length bs = n /\
    forall rest, exists w', dec_flags n (bs ++ rest) = Ok (w', rest) /\
      forall i, 0 <= i -> Z.testbit w' i = Z.testbit w i.
Proof.
  intros n w H. destruct (rt_u n w H) as (bs & Hb & Hr). exists bs. split; [exact Hb|]. split.
  - unfold enc_i in Hb. assert (E : bs = le_enc n w) by congruence. rewrite E. apply le_enc_length.
  - intros rest. exists w. split; [apply Hr|reflexivity].
Qed.
Print Assumptions C42_flag_bits_survive.

(** The flags of a class occupy distinct bits, likewise for fields, functions,
    parameters. *)
Theorem C42_named_flags_distinct :
  NoDup [cf_is_native; cf_is_abstract; cf_is_final; cf_is_struct; cf_has_functions; cf_has_fields;
         cf_is_import_only; cf_is_test_only; cf_has_overrides] /\
  NoDup [ff_is_native; ff_is_editable; ff_is_inline; ff_is_const; ff_is_replicated; ff_has_hint;
         ff_is_instance_editable; ff_has_default; ff_is_persistent; ff_is_test_only; ff_is_browsable] /\
  NoDup [fn_is_static; fn_is_exec; fn_is_timer; fn_is_final; fn_is_native; fn_unk1; fn_is_callback;
         fn_is_operator; fn_has_return_value; fn_has_base_method; fn_has_parameters; fn_has_locals;
         fn_has_body; fn_is_cast; fn_is_implicit_cast; fn_is_thread_safe; fn_is_const; fn_unk2;
         fn_unk3; fn_is_quest; fn_unk4; fn_unk5; fn_unk6] /\
  NoDup [pf_is_optional; pf_is_out; pf_is_short_circuit; pf_is_const].
Proof.
  repeat split; repeat constructor; cbn; intuition discriminate.
Qed.
Print Assumptions C42_named_flags_distinct.

Example C42_example :
  get_flag fn_is_final (with_flag fn_has_body true 131081) = true /\
  get_flag fn_has_body (with_flag fn_has_body true 131081) = true /\
  get_flag 17 (with_flag fn_has_body true 131081) = true.
Proof. repeat split. Qed.
