(** Specification vocabulary for growing pools. *)
From Coq Require Import ZArith List Bool.
From Verif Require Import Bytes Bytecode Definitions Bundle Ast Pool.
Import ListNotations.
Open Scope Z_scope.

(** The index of a string pool is exact: it finds every string of the pool, and at
    the right place.  A pool kind with a default string has it at index 0. *)
Definition indexed (default : option str) (p : strings) : Prop :=
  (forall s i, sm_find (st_map p) s = Some i -> 0 <= i /\ nth_error (st_list p) (Z.to_nat i) = Some s) /\
  (forall s, In s (st_list p) -> exists i, sm_find (st_map p) s = Some i) /\
  match default with Some d => nth_error (st_list p) 0 = Some d | None => True end.
Definition pool_ok (p : pool) : Prop :=
  indexed (Some none_str) (pl_names p) /\ indexed None (pl_tweakdb p) /\
  indexed None (pl_resources p) /\ indexed None (pl_strings p).

(** All indices fit the 32 bits they are stored in. *)
Definition small (p : pool) : Prop :=
  Z.of_nat (length (pl_defs p)) < 2 ^ 32 /\ Z.of_nat (length (st_list (pl_names p))) < 2 ^ 32 /\
  Z.of_nat (length (st_list (pl_tweakdb p))) < 2 ^ 32 /\ Z.of_nat (length (st_list (pl_resources p))) < 2 ^ 32 /\
  Z.of_nat (length (st_list (pl_strings p))) < 2 ^ 32.

(** [p'] has everything [p] has, under the same indices. *)
Definition prefix {A} (l l' : list A) : Prop := exists m, l' = l ++ m.
Definition extends (p p' : pool) : Prop :=
  prefix (pl_defs p) (pl_defs p') /\ prefix (st_list (pl_names p)) (st_list (pl_names p')) /\
  prefix (st_list (pl_tweakdb p)) (st_list (pl_tweakdb p')) /\
  prefix (st_list (pl_resources p)) (st_list (pl_resources p')) /\
  prefix (st_list (pl_strings p)) (st_list (pl_strings p')).
