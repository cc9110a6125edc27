(** What saving and loading a definition is supposed to do, stated without
    reference to the codec functions. *)
From Coq Require Import ZArith List Bool.
From Verif Require Import Bytes BytesFacts Bytecode BytecodeFacts Definitions.
Import ListNotations.
Open Scope Z_scope.

(** Values representable in the Rust types.  Vectors whose length does not fit
    the length prefix cannot be written (the encoder panics). *)
Definition idx_ok (i : pidx) : Prop := in_u 32 i.
Definition idxs_ok (l : list pidx) : Prop := Forall idx_ok l /\ Z.of_nat (length l) < 2 ^ 32.
Definition opt_ok {A} (P : A -> Prop) (o : option A) : Prop := match o with Some a => P a | None => True end.
Definition str_ok (s : list byte) : Prop := utf8_valid s = true /\ Z.of_nat (length s) < 2 ^ 16.

Definition class_ok (c : class) : Prop :=
  in_u 16 (cl_flags c) /\ idx_ok (cl_base c) /\ idxs_ok (cl_functions c) /\
  idxs_ok (cl_fields c) /\ idxs_ok (cl_overrides c).
Definition enum_ok (e : enum) : Prop :=
  in_u 8 (en_flags e) /\ in_u 8 (en_size e) /\ idxs_ok (en_members e).
Definition source_ref_ok (s : source_ref) : Prop := idx_ok (sr_file s) /\ in_u 32 (sr_line s).
(** A body that can be written and read (property C02): empty, or its last
    instruction has a non-zero size. *)
Definition code_ok (c : code Z) : Prop :=
  Forall (fun i => instr_typed i /\ no_target i) c /\
  fold_right Z.add 0 (map instr_size c) < 2 ^ 32 /\
  (c = [] \/ exists front last, c = front ++ [last] /\ 0 < instr_size last).
Definition function_ok (f : function) : Prop :=
  in_u 32 (fu_flags f) /\ opt_ok source_ref_ok (fu_source f) /\ opt_ok idx_ok (fu_return_type f) /\
  opt_ok idx_ok (fu_base_method f) /\ idxs_ok (fu_parameters f) /\ idxs_ok (fu_locals f) /\
  opt_ok (in_u 32) (fu_operator f) /\ in_u 8 (fu_cast f) /\ code_ok (fu_code f) /\
  idxs_ok (fu_unk2 f).
Definition property_ok (p : property) : Prop := str_ok (pp_name p) /\ str_ok (pp_value p).
Definition properties_ok (l : list property) : Prop :=
  Forall property_ok l /\ Z.of_nat (length l) < 2 ^ 32.
Definition field_ok (f : field) : Prop :=
  idx_ok (fi_type f) /\ in_u 16 (fi_flags f) /\ opt_ok str_ok (fi_hint f) /\
  properties_ok (fi_attributes f) /\ properties_ok (fi_defaults f).
Definition ty_ok (t : ty) : Prop :=
  match t with
  | TPrim | TClass => True
  | TRef i | TWeakRef i | TArray i | TScriptRef i => idx_ok i
  | TStaticArray i n => idx_ok i /\ in_u 32 n
  end.
Definition local_ok (l : local) : Prop := idx_ok (lo_type l) /\ in_u 8 (lo_flags l).
Definition parameter_ok (p : parameter) : Prop := idx_ok (pa_type p) /\ in_u 8 (pa_flags p).
Definition source_file_ok (s : source_file) : Prop :=
  in_u 32 (sf_id s) /\ in_u 64 (sf_path_hash s) /\ str_ok (sf_path s).

Definition any_ok (d : any_def) : Prop :=
  match d with
  | DType t => ty_ok t | DClass c => class_ok c | DEnumValue v => in_s 64 v | DEnum e => enum_ok e
  | DFunction f => function_ok f | DParameter p => parameter_ok p | DLocal l => local_ok l
  | DField f => field_ok f | DSourceFile s => source_file_ok s
  end.

(** Definitions that are saved and loaded without any change. *)
Definition class_canonical (c : class) : Prop :=
  (Z.testbit (cl_flags c) 4 = true <-> cl_functions c <> []) /\
  (Z.testbit (cl_flags c) 5 = true <-> cl_fields c <> []) /\
  (Z.testbit (cl_flags c) 8 = true <-> cl_overrides c <> []).
Definition function_canonical (f : function) : Prop :=
  (Z.testbit (fu_flags f) 4 = false <-> fu_source f <> None) /\
  (Z.testbit (fu_flags f) 8 = true <-> fu_return_type f <> None) /\
  (fu_return_type f = None -> fu_unk1 f = false) /\
  (Z.testbit (fu_flags f) 9 = true <-> fu_base_method f <> None) /\
  (Z.testbit (fu_flags f) 10 = true <-> fu_parameters f <> [] \/ fu_unk2 f <> []) /\
  (Z.testbit (fu_flags f) 11 = true <-> fu_locals f <> []) /\
  (Z.testbit (fu_flags f) 7 = true <-> fu_operator f <> None) /\
  (Z.testbit (fu_flags f) 13 = false -> fu_cast f = 0) /\
  (Z.testbit (fu_flags f) 12 = true <-> fu_code f <> []) /\
  (Z.testbit (fu_flags f) 23 = false -> fu_unk2 f = []).
Definition field_canonical (f : field) : Prop :=
  Z.testbit (fi_flags f) 5 = true <-> fi_hint f <> None.
(** Paths are kept with forward slashes in memory. *)
Definition source_file_canonical (s : source_file) : Prop := ~ In b_backslash (sf_path s).

Definition any_canonical (d : any_def) : Prop :=
  match d with
  | DClass c => class_canonical c
  | DFunction f => function_canonical f
  | DField f => field_canonical f
  | DSourceFile s => source_file_canonical s
  | DType _ | DEnumValue _ | DEnum _ | DParameter _ | DLocal _ => True
  end.

(** [agree_except ks w w']: the flag words agree on every bit not in [ks]. *)
Definition agree_except (ks : list Z) (w w' : Z) : Prop :=
  forall i, 0 <= i -> ~ In i ks -> Z.testbit w' i = Z.testbit w i.

(** What a non-canonical definition turns into when it is saved and loaded. *)
Definition class_saved (c c' : class) : Prop :=
  cl_visibility c' = cl_visibility c /\ cl_base c' = cl_base c /\
  cl_functions c' = cl_functions c /\ cl_fields c' = cl_fields c /\
  cl_overrides c' = cl_overrides c /\
  agree_except [4; 5; 8] (cl_flags c) (cl_flags c') /\ class_canonical c'.
Definition function_saved (f f' : function) : Prop :=
  fu_visibility f' = fu_visibility f /\
  fu_source f' = (if Z.testbit (fu_flags f) 4 then None else fu_source f) /\
  fu_return_type f' = fu_return_type f /\
  fu_unk1 f' = (match fu_return_type f with Some _ => fu_unk1 f | None => false end) /\
  fu_base_method f' = fu_base_method f /\ fu_parameters f' = fu_parameters f /\
  fu_locals f' = fu_locals f /\ fu_operator f' = fu_operator f /\
  fu_cast f' = (if Z.testbit (fu_flags f) 13 then fu_cast f else 0) /\
  fu_code f' = fu_code f /\
  fu_unk2 f' = (if Z.testbit (fu_flags f) 23 then fu_unk2 f else []) /\
  agree_except [7; 8; 9; 10; 11; 12] (fu_flags f) (fu_flags f') /\
  (Z.testbit (fu_flags f') 8 = true <-> fu_return_type f <> None) /\
  (Z.testbit (fu_flags f') 9 = true <-> fu_base_method f <> None) /\
  (Z.testbit (fu_flags f') 10 = true <-> fu_parameters f <> [] \/ fu_unk2 f <> []) /\
  (Z.testbit (fu_flags f') 11 = true <-> fu_locals f <> []) /\
  (Z.testbit (fu_flags f') 7 = true <-> fu_operator f <> None) /\
  (Z.testbit (fu_flags f') 12 = true <-> fu_code f <> []).
Definition field_saved (f f' : field) : Prop :=
  fi_visibility f' = fi_visibility f /\ fi_type f' = fi_type f /\ fi_hint f' = fi_hint f /\
  fi_attributes f' = fi_attributes f /\ fi_defaults f' = fi_defaults f /\
  agree_except [5] (fi_flags f) (fi_flags f') /\ field_canonical f'.
Definition source_file_saved (s s' : source_file) : Prop :=
  sf_id s' = sf_id s /\ sf_path_hash s' = sf_path_hash s /\
  length (sf_path s') = length (sf_path s) /\
  forall i b, nth_error (sf_path s) i = Some b ->
    nth_error (sf_path s') i = Some (if Byte.eqb b b_backslash then b_slash else b).

Definition any_saved (d d' : any_def) : Prop :=
  match d, d' with
  | DClass c, DClass c' => class_saved c c'
  | DFunction f, DFunction f' => function_saved f f'
  | DField f, DField f' => field_saved f f'
  | DSourceFile s, DSourceFile s' => source_file_saved s s'
  | DType _, _ | DEnumValue _, _ | DEnum _, _ | DParameter _, _ | DLocal _, _ => d' = d
  | _, _ => False
  end.

(** The one kind of definition whose encoding cannot be read back at all: a
    function that is not native but has no source reference. *)
Definition has_source (d : any_def) : Prop :=
  match d with
  | DFunction f => Z.testbit (fu_flags f) 4 = false -> fu_source f <> None
  | _ => True
  end.
