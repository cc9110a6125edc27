(** Loading any bytes as a script bundle: C69. *)
From Coq Require Import ZArith NArith List Bool Lia.
From Verif Require Import Bytes Definitions Bundle LoadSpec LoadFacts P_Bundle.
Import ListNotations.
Open Scope Z_scope.

(** Loading any bytes ends. *)
Theorem C69_load_ends : forall file, load file <> Err OutOfFuel.
Proof. exact load_ends. Qed.
Print Assumptions C69_load_ends.

(** The only bytes that can make loading abort are those that name the kind of a
    definition, the kind of a type, or the visibility of a class, function or
    field.  Everything else (sizes, offsets, indices, texts, flags, instructions)
    may have any value: the answer is a bundle or an error. *)
Theorem C69_abort_has_a_cause_partial : forall file, load file = Err Panic -> odd_kind file.
Proof. exact load_panics. Qed.
Print Assumptions C69_abort_has_a_cause_partial.

(** In other words: a file without such a byte is loaded or refused with an error. *)
Theorem C69_answer_without_cause_partial : forall file, ~ odd_kind file ->
  (exists b, load file = Ok b) \/ load file = Err Eof \/ load file = Err InvalidData.
Proof.
  intros file N. destruct (load file) as [b|e] eqn:L; [eauto|]. destruct e; auto.
  - destruct (N (load_panics _ L)).
  - destruct (load_ends _ L).
Qed.
Print Assumptions C69_answer_without_cause_partial.

(** A file with such a byte is never loaded. *)
Theorem C69_cause_is_never_loaded : forall file b, load file = Ok b -> ~ odd_kind file.
Proof. exact load_reads. Qed.
Print Assumptions C69_cause_is_never_loaded.

(** A saved bundle with one byte replaced. *)
Definition with_byte (file : list byte) (p : nat) (b : byte) : list byte := firstn p file ++ b :: skipn (S p) file.
Definition file0 : list byte := match save bundle0 [] with Ok f => f | Err _ => [] end.

(** * Refuted: loading never aborts *)

(** One changed byte of a file that loads makes loading abort, whichever of the
    four bytes it is: the kind of an entry (unknown, or the unused kind 4), the
    kind of a type, the visibility of a class. *)
Theorem C69_never_aborts_refuted : exists file b, load file = Ok b /\
  load (with_byte file (entry file 1 + 16) x0a) = Err Panic /\
  load (with_byte file (entry file 1 + 16) x04) = Err Panic /\
  load (with_byte file (entry_body file 1) x07) = Err Panic /\
  load (with_byte file (entry_body file 3) x03) = Err Panic.
Proof.
  exists file0. eexists. split; [vm_compute; reflexivity|]. repeat split; vm_compute; reflexivity.
Qed.
Print Assumptions C69_never_aborts_refuted.

(** The hypotheses are met: a file with four definitions has no such byte, and
    an altered file has one; with other bytes altered (a size in the file header,
    an index, the offset of a definition) loading does not abort. *)
Example C69_nonvacuous : length file0 = 249%nat /\ entry_count file0 = 4%nat /\
  map (entry_kind file0) [0; 1; 2; 3]%nat = [0; 0; 2; 1] /\
  ~ odd_kind file0 /\ odd_kind (with_byte file0 (entry file0 1 + 16) x0a) /\
  load (with_byte file0 37 xff) = Err Eof /\
  (exists b, load (with_byte file0 (entry file0 1) xff) = Ok b) /\
  load (with_byte file0 (entry file0 1 + 9) xff) = Err Eof.
Proof.
  split; [vm_compute; reflexivity|]. split; [vm_compute; reflexivity|]. split; [vm_compute; reflexivity|].
  split; [|split; [|split; [|split]]].
  - assert (L : exists b, load file0 = Ok b) by (eexists; vm_compute; reflexivity). destruct L as (b & L).
    exact (C69_cause_is_never_loaded _ _ L).
  - apply C69_abort_has_a_cause_partial. vm_compute. reflexivity.
  - vm_compute. reflexivity.
  - eexists. vm_compute. reflexivity.
  - vm_compute. reflexivity.
Qed.
