(** Ordering the classes of a pool.  Models CompilationUnit::cleanup_pool
    (compiler/src/unit.rs 1132-1210). *)
From Coq Require Import ZArith List Bool.
From Verif Require Import Bytes Definitions Bundle Pool Scope TypeCheck Bytecode Mapper.
Import ListNotations.
Open Scope Z_scope.

(** An unwrap that fails or an index out of bounds; a loop that has not ended. *)
Inductive cleanup_error := CleanupPanic | CleanupFuel.

(** BTreeSet::insert: a set is the list of its elements in order. *)
Fixpoint set_insert (x : Z) (s : list Z) : list Z :=
  match s with
  | [] => [x]
  | y :: s' => if x =? y then s else if x <? y then x :: s else y :: set_insert x s'
  end.
Definition set_mem (x : Z) (s : list Z) : bool := existsb (Z.eqb x) s.

(** What the hierarchy built by unit.rs 1147-1154 has for a class. *)
Definition children (p : pool) (c : pidx) : list pidx :=
  map fst (filter (fun x => match as_class (df_value (snd x)) with
                            | Some k => negb (cl_base k =? UNDEFINED) && (cl_base k =? c)
                            | None => false
                            end) (definitions p)).
(** A loop that may fail. *)
Definition each {A S E} (f : A -> S -> outcome E S) : list A -> S -> outcome E S :=
  fix go l s := match l with [] => Done s | x :: l' => match f x s with Done s' => go l' s' | Fail e => Fail e end end.
(** collect_subtypes (unit.rs 1135-1144). *)
Fixpoint collect_subtypes (fuel : nat) (p : pool) (c : pidx) (acc : list pidx) : outcome cleanup_error (list pidx) :=
  match fuel with
  | O => Fail CleanupFuel
  | S fuel' => each (collect_subtypes fuel' p) (children p c) (set_insert c acc)
  end.

(** The loop of unit.rs 1160-1166. *)
Fixpoint climb_above (fuel : nat) (p : pool) (def cur : pidx) : outcome cleanup_error pidx :=
  match fuel with
  | O => Fail CleanupFuel
  | S fuel' =>
    match get_class p cur with
    | Done k => if def <? cl_base k then climb_above fuel' p def (cl_base k) else Done cur
    | Fail _ => Done cur
    end
  end.
(** The loop of unit.rs 1159-1170. *)
Definition find_unsorted (fuel : nat) (p : pool) : outcome cleanup_error (list pidx) :=
  each (fun def acc =>
    match climb_above fuel p def def with
    | Done cur => if cur =? def then Done acc else collect_subtypes fuel p cur acc
    | Fail e => Fail e
    end) (map fst (definitions p)) [].

(** The loop of unit.rs 1177-1184. *)
Fixpoint climb_outside (fuel : nat) (p : pool) (least : pidx) (unsorted : list pidx) (cur : pidx) : outcome cleanup_error pidx :=
  match fuel with
  | O => Fail CleanupFuel
  | S fuel' =>
    match get_class p cur with
    | Done k => if (least <? cl_base k) && negb (set_mem (cl_base k) unsorted) then climb_outside fuel' p least unsorted (cl_base k) else Done cur
    | Fail _ => Done cur
    end
  end.
(** unit.rs 1172-1188. *)
Definition add_superclasses (fuel : nat) (p : pool) (unsorted : list pidx) : outcome cleanup_error (list pidx) :=
  match unsorted with
  | [] => Done []
  | least :: _ =>
    each (fun cls acc =>
      match climb_outside fuel p least acc cls with
      | Done cur => if cur =? cls then Done acc else collect_subtypes fuel p cur acc
      | Fail e => Fail e
      end) unsorted unsorted
  end.

(** slice::sort_by_key (unit.rs 1192), stable; the key is computed first. *)
Fixpoint insert_by_key (x : nat * pidx) (l : list (nat * pidx)) : list (nat * pidx) :=
  match l with
  | [] => [x]
  | y :: l' => if (fst x <? fst y)%nat then x :: l else y :: insert_by_key x l'
  end.
Definition sort_by_key (l : list (nat * pidx)) : list (nat * pidx) := fold_left (fun acc x => insert_by_key x acc) l [].
(** The keys: collect_supertypes(idx).unwrap().len(). *)
Fixpoint with_depth (p : pool) (l : list pidx) : outcome cleanup_error (list (nat * pidx)) :=
  match l with
  | [] => Done []
  | c :: l' =>
    match collect_supertypes (pool_fuel p) p c, with_depth p l' with
    | Done s, Done r => Done ((length s, c) :: r)
    | Fail (CauseUnwind NoFuel), _ => Fail CleanupFuel
    | Fail _, _ => Fail CleanupPanic
    | _, Fail e => Fail e
    end
  end.
(** ConstantPool::put_definition (bundle.rs 330-332). *)
Definition put_def (ds : list definition) (i : pidx) (d : definition) : outcome cleanup_error (list definition) :=
  if (0 <=? i) && (i <? Z.of_nat (length ds))
  then Done (firstn (Z.to_nat i) ds ++ d :: skipn (S (Z.to_nat i)) ds)
  else Fail CleanupPanic.
(** pool.definition(k).unwrap() for all classes (unit.rs 1195). *)
Fixpoint definitions_of (p : pool) (l : list pidx) : outcome cleanup_error (list definition) :=
  match l with
  | [] => Done []
  | c :: l' => match get_def p c, definitions_of p l' with Done d, Done r => Done (d :: r) | _, _ => Fail CleanupPanic end
  end.
(** cleanup_pool (unit.rs 1134-1210); [refs] are the indices of the source references. *)
Definition cleanup_pool (fuel : nat) (p : pool) (refs : list pidx) : outcome cleanup_error (pool * list pidx) :=
  match find_unsorted fuel p with
  | Fail e => Fail e
  | Done unsorted =>
  match add_superclasses fuel p unsorted with
  | Fail e => Fail e
  | Done unsorted =>
  match with_depth p unsorted with
  | Fail e => Fail e
  | Done keyed =>
    let sorted := map snd (sort_by_key keyed) in
    match definitions_of p sorted with
    | Fail e => Fail e
    | Done ds =>
    match each (fun x l => put_def l (snd x) (fst x)) (combine ds unsorted) (pl_defs p) with
    | Fail e => Fail e
    | Done defs =>
      let p' := set_defs p defs in
      match unsorted with
      | [] => Done (p', refs)
      | _ => let m := multi_mapper (combine sorted unsorted) in Done (map_pool m (fun i => i) p', map m refs)
      end
    end end end end end.
