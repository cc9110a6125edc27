(** C01, C02, C03: the instruction and function body file format. *)
From Coq Require Import ZArith List.
From Verif Require Import Bytes BytesFacts Bytecode BytecodeFacts.
Import ListNotations.
Open Scope Z_scope.

(** C01.  [instr_typed] says that each operand lies in the range of its Rust
    type; [no_target] excludes only jump-target markers with a non-zero operand,
    which are not part of the file format (bytecode.rs 222-223). *)
Theorem C01_instr_roundtrip : forall i,
  instr_typed i -> no_target i ->
  exists bs, enc_instr i = Ok bs /\ forall rest, dec_instr (bs ++ rest) = Ok (i, rest).
Proof. exact reads_instr. Qed.
Print Assumptions C01_instr_roundtrip.

Example C01_example :
  let i := InvokeStatic (-32768) 65535 4294967295 3 in
  instr_typed i /\ no_target i /\
  exists bs, enc_instr i = Ok bs /\ length bs = 11%nat.
Proof.
  cbv zeta. split; [|split; [exact I|]].
  - cbn. unfold in_s, in_u. cbn. repeat split; discriminate || reflexivity.
  - eexists. split; reflexivity.
Qed.

(** Opcodes that are not assigned are rejected. *)
Theorem C01_unassigned_opcode_rejected : forall b rest,
  104 <= Z_of_byte b -> dec_instr (b :: rest) = Err InvalidData.
Proof. exact dec_instr_bad_opcode. Qed.
Print Assumptions C01_unassigned_opcode_rejected.

Example C01_unassigned_example : 104 <= Z_of_byte xff /\ dec_instr [xff] = Err InvalidData.
Proof. split; [discriminate|reflexivity]. Qed.

(** C02.  Exact condition for a function body to be read back. *)
Theorem C02_code_roundtrip_iff : forall c : code Z,
  Forall (fun i => instr_typed i /\ no_target i) c ->
  fold_right Z.add 0 (map instr_size c) < 2 ^ 32 ->
  exists bs, enc_code c = Ok bs /\
    ((forall rest, dec_code (bs ++ rest) = Ok (c, rest)) <->
     (c = [] \/ exists front last, c = front ++ [last] /\ 0 < instr_size last)).
Proof. exact code_roundtrip_iff_lemma. Qed.
Print Assumptions C02_code_roundtrip_iff.

Example C02_example :
  let c := [JumpIfFalse 20; Param 7; I32Const (-1); Jump (-15); Return; Nop] in
  Forall (fun i => instr_typed i /\ no_target i) c /\
  fold_right Z.add 0 (map instr_size c) < 2 ^ 32 /\
  (exists front last, c = front ++ [last] /\ 0 < instr_size last).
Proof.
  cbv zeta. split; [|split; [reflexivity|]].
  - repeat constructor; cbn; unfold in_s, in_u; cbn; repeat split; discriminate.
  - exists [JumpIfFalse 20; Param 7; I32Const (-1); Jump (-15); Return], Nop.
    split; reflexivity.
Qed.

(** A body that ends in a marker of size 0 is not read back. *)
Theorem C02_trailing_marker_refuted :
  exists (c : code Z) bs, Forall (fun i => instr_typed i /\ no_target i) c /\
    enc_code c = Ok bs /\ dec_code bs <> Ok (c, []).
Proof.
  exists [Nop; Target 0]. eexists. split; [|split; [reflexivity|]].
  - repeat constructor; cbn; unfold in_s; cbn; try discriminate; trivial.
  - vm_compute. discriminate.
Qed.
Print Assumptions C02_trailing_marker_refuted.

(** The fuel of the model's read loop is never exhausted. *)
Theorem C02_reader_terminates : forall bytes, dec_code bytes <> Err OutOfFuel.
Proof. exact dec_code_fuel. Qed.
Print Assumptions C02_reader_terminates.

(** C03.  Whatever bytes an instruction was read from, writing it again
    reproduces the bytes consumed, except that the boolean of a Breakpoint (byte
    11) is normalised. *)
Theorem C03_decode_encode_stable : forall bytes i rest,
  dec_instr bytes = Ok (i, rest) ->
  instr_typed i /\
  exists used rewritten,
    bytes = used ++ rest /\ enc_instr i = Ok rewritten /\
    (forall rest', dec_instr (rewritten ++ rest') = Ok (i, rest')) /\
    (used = rewritten \/
     exists bp pre b post, i = Breakpoint bp /\ length pre = 11%nat /\
       used = pre ++ b :: post /\ b <> x00 /\ rewritten = pre ++ x01 :: post).
Proof. exact decode_encode_stable_lemma. Qed.
Print Assumptions C03_decode_encode_stable.

Example C03_example : exists i rest,
  dec_instr [x1f; xff; xff; x07] = Ok (i, rest) /\ i = Jump 2 /\ rest = [x07].
Proof. do 2 eexists. split; [vm_compute; reflexivity|]. split; reflexivity. Qed.

(** The same for whole bodies read from any file below 450 MB. *)
Theorem C03_code_decode_encode_stable : forall bytes c rest,
  9 * Z.of_nat (length bytes) < 2 ^ 32 ->
  dec_code bytes = Ok (c, rest) ->
  exists rewritten, enc_code c = Ok rewritten /\
    forall rest', dec_code (rewritten ++ rest') = Ok (c, rest').
Proof. exact dec_code_inv. Qed.
Print Assumptions C03_code_decode_encode_stable.

Example C03_code_example : exists c rest,
  dec_code [x02; x00; x00; x00; x27; x00; x09] = Ok (c, rest) /\ c = [Return; Nop] /\ rest = [x09].
Proof. do 2 eexists. split; [vm_compute; reflexivity|]. split; reflexivity. Qed.
