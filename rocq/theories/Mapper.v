(** Renumbering references in a pool.  Models core/src/mapper.rs. *)
From Coq Require Import ZArith List Bool.
From Verif Require Import Bytes Definitions Bundle Pool Bytecode.
Import ListNotations.
Open Scope Z_scope.

(** MultiMapper::apply (mapper.rs 13-32), the map as a list of pairs. *)
Fixpoint multi_mapper (m : list (pidx * pidx)) (i : pidx) : pidx :=
  match m with [] => i | (k, v) :: m' => if k =? i then v else multi_mapper m' i end.

(** PoolMapper::map_instr (mapper.rs 78-86). *)
Definition map_instr {L} (mc mf : pidx -> pidx) (i : instr L) : instr L :=
  match i with
  | Construct n c => Construct n (mc c)
  | New c => New (mc c)
  | DynamicCast c f => DynamicCast (mc c) f
  | InvokeStatic e l f n => InvokeStatic e l (mf f) n
  | i => i
  end.
Definition with_value (d : definition) (parent : pidx) (v : any_def) : definition :=
  {| df_name := df_name d; df_parent := parent; df_unk1 := df_unk1 d; df_unk2 := df_unk2 d; df_unk3 := df_unk3 d; df_value := v |}.
(** Field updates of Class and Function. *)
Definition with_base (k : class) (b : pidx) : class :=
  {| cl_visibility := cl_visibility k; cl_flags := cl_flags k; cl_base := b; cl_functions := cl_functions k; cl_fields := cl_fields k;
     cl_overrides := cl_overrides k |}.
Definition with_code (f : function) (c : code Z) : function :=
  {| fu_visibility := fu_visibility f; fu_flags := fu_flags f; fu_source := fu_source f; fu_return_type := fu_return_type f;
     fu_unk1 := fu_unk1 f; fu_base_method := fu_base_method f; fu_parameters := fu_parameters f; fu_locals := fu_locals f;
     fu_operator := fu_operator f; fu_cast := fu_cast f; fu_code := c; fu_unk2 := fu_unk2 f |}.
(** The body of the loop of PoolMapper::map (mapper.rs 53-75). *)
Definition map_definition (mc mf : pidx -> pidx) (d : definition) : definition :=
  match df_value d with
  | DClass k => with_value d (df_parent d) (DClass (with_base k (mc (cl_base k))))
  | DFunction f => with_value d (mc (df_parent d)) (DFunction (with_code f (map (map_instr mc mf) (fu_code f))))
  | DParameter _ | DLocal _ => with_value d (mf (df_parent d)) (df_value d)
  | DField _ => with_value d (mc (df_parent d)) (df_value d)
  | _ => d
  end.
(** PoolMapper::map (mapper.rs 52-76). *)
Definition map_pool (mc mf : pidx -> pidx) (p : pool) : pool := set_defs p (map (map_definition mc mf) (pl_defs p)).
