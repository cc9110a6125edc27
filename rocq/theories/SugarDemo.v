(** A runtime with temporaries: that the assumptions of [temporaries] can be met.
    Variables hold data, calls are logged with what their arguments read. *)
From Coq Require Import String.
From Coq Require Import ZArith List Bool Lia.
From Verif Require Import Bytes BytesFacts Bytecode Definitions Bundle BundleFacts Ast TypeNames Pool Scope TypeCheck PartsSpec Semantics SugarSpec.
Import ListNotations.
Open Scope Z_scope.

Inductive dat := DNone | DSelf | DParam (i : pidx) | DCon (k : const) | DArr (l : list dat).
Inductive dval := VPlace (i : pidx) | VCell (i : pidx) (k : nat) | VDat (d : dat).
Record dworld := { locals : pidx -> dat; calls : list (callee * option dat * list (option dat)) }.

Definition dload (v : dval) (w : dworld) : dat :=
  match v with
  | VDat d => d
  | VPlace i => locals w i
  | VCell i k => match locals w i with DArr l => nth k l DNone | _ => DNone end
  end.
Fixpoint all_dat (l : list dval) : option (list dat) :=
  match l with [] => Some [] | VDat d :: l' => match all_dat l' with Some ds => Some (d :: ds) | None => None end | _ => None end.
Definition dstore (i : pidx) (d : dat) (w : dworld) : dworld :=
  {| locals := fun j => if i =? j then d else locals w j; calls := calls w |}.
Definition index_of (d : dat) : option nat :=
  match d with
  | DCon (KInt 32 k) | DCon (KUint 64 k) => if 0 <=? k then Some (Z.to_nat k) else None
  | _ => None
  end.
Definition int_of (d : dat) : option Z := match d with DCon (KInt 32 k) => Some k | _ => None end.
Definition update (k : nat) (d : dat) (l : list dat) : list dat := firstn k l ++ d :: skipn (S k) l.
Definition resized (k : nat) (l : list dat) : list dat := firstn k l ++ repeat DNone (k - length l).

Section Demo.
Variable p : pool.
Definition callee_name (c : callee) : option str :=
  match c with Virtual n => Some n | Direct f => match def_name p f with Done n => Some n | Fail _ => None end end.
Definition calls_it (c : callee) (n : str) : bool := match callee_name c with Some m => str_eqb m n | None => false end.
Definition less_name := lit "OperatorLess;Int32Int32;Bool".
Definition add_name_ := lit "OperatorAssignAdd;OutInt32Int32;Int32".

Definition assign (x : dval) (d : dat) (w : dworld) : option (dval * dworld) :=
  match x with
  | VPlace i => Some (VDat DNone, dstore i d w)
  | VCell i k =>
    match locals w i with DArr l => if (k <? length l)%nat then Some (VDat DNone, dstore i (DArr (update k d l)) w) else None | _ => None end
  | VDat _ => None
  end.
Definition dapply (o : op) (this : option dval) (args : list (option dval)) (w : dworld) : option (dval * dworld) :=
  match o with
  | OpLocal i => match args with [] => Some (VPlace i, w) | _ => None end
  | OpParam i => Some (VDat (DParam i), w)
  | OpConst k => Some (VDat (DCon k), w)
  | OpThis => Some (VDat DSelf, w)
  | OpAssign => match args with [Some x; Some v] => assign x (dload v w) w | _ => None end
  | OpElement _ _ =>
    match args with
    | [Some (VPlace i); Some v] =>
      match locals w i, index_of (dload v w) with DArr l, Some k => if (k <? length l)%nat then Some (VCell i k, w) else None | _, _ => None end
    | _ => None
    end
  | OpIntrinsic IArrayResize _ =>
    match args with
    | [Some (VPlace i); Some v] =>
      match index_of (dload v w) with
      | Some k => Some (VDat DNone, dstore i (DArr (resized k (match locals w i with DArr l => l | _ => [] end))) w)
      | None => None
      end
    | _ => None
    end
  | OpIntrinsic IArraySize _ =>
    match args with
    | [Some x] => match dload x w with DArr l => Some (VDat (DCon (KInt 32 (Z.of_nat (length l)))), w) | _ => None end
    | _ => None
    end
  | OpCall c =>
    if calls_it c less_name then
      match args with
      | [Some a; Some b] => match int_of (dload a w), int_of (dload b w) with Some a, Some b => Some (VDat (DCon (KBool (a <? b))), w) | _, _ => None end
      | _ => None
      end
    else if calls_it c add_name_ then
      match args with
      | [Some x; Some b] => match int_of (dload x w), int_of (dload b w) with Some a, Some b => assign x (DCon (KInt 32 (a + b))) w | _, _ => None end
      | _ => None
      end
    else Some (VDat (DParam 0), {| locals := locals w; calls := calls w ++ [(c, option_map (fun v => dload v w) this, map (option_map (fun v => dload v w)) args)] |})
  | _ => Some (VDat DNone, w)
  end.
Definition demo : runtime :=
  {| state := dworld; value := dval; apply := dapply;
     skips := fun _ _ _ _ => false;
     truth := fun v w => match dload v w with DCon (KBool b) => b | _ => false end;
     is_null := fun v w => match dload v w with DCon KNull => true | _ => false end;
     same := fun _ v x w => match dload v w, dload x w with DCon (KInt _ a), DCon (KInt _ b) => a =? b | _, _ => false end;
     no_value := VDat DNone |}.
Definition demo_arrays : arrays demo :=
  Build_arrays demo (fun v w => VDat (dload v w)) (fun l => match all_dat l with Some ds => VDat (DArr ds) | None => VDat DNone end)
    (fun v => match v with VDat (DArr ds) => Some (map VDat ds) | _ => None end).

Definition demo_takes (o : op) (n : nat) : Prop :=
  match o with
  | OpAssign => n = 1%nat
  | OpCall c => calls_it c less_name = false /\ calls_it c add_name_ = false
  | OpIntrinsic IArraySize _ => True
  | _ => False
  end.

Lemma all_dat_map ds : all_dat (map VDat ds) = Some ds.
Proof. induction ds as [|d ds IH]; cbn [map all_dat]; [reflexivity|]. rewrite IH. reflexivity. Qed.
Lemma settled_dat (v : value demo) : settled demo_arrays v -> exists d, v = VDat d.
Proof. intros H. specialize (H {| locals := fun _ => DNone; calls := [] |}). cbn in H. eauto. Qed.
Lemma settled_all (l : list (value demo)) : Forall (settled demo_arrays) l -> exists ds, l = map VDat ds.
Proof.
  induction 1 as [|v l H _ [ds ->]]; [exists []; reflexivity|]. destruct (settled_dat _ H) as [d ->]. exists (d :: ds). reflexivity.
Qed.
Lemma map_settled ds : Forall (settled demo_arrays) (map VDat ds).
Proof. induction ds; constructor; [intros w; reflexivity|assumption]. Qed.

Variable temp : pidx -> Prop.
Definition dclean (v : dval) : Prop := match v with VPlace i | VCell i _ => ~ temp i | VDat _ => True end.
Definition dalike (w w1 : dworld) : Prop := calls w = calls w1 /\ forall i, ~ temp i -> locals w i = locals w1 i.
Lemma load_alike v w w1 : dclean v -> dalike w w1 -> dload v w = dload v w1.
Proof. intros C [_ A]. destruct v; cbn in *; [apply A, C|rewrite (A _ C); reflexivity|reflexivity]. Qed.
Lemma store_alike i d w w1 : dalike w w1 -> dalike (dstore i d w) (dstore i d w1).
Proof. intros [A B]. split; [exact A|]. intros j H. cbn. destruct (i =? j); auto. Qed.
Lemma store_kept i d w j : ~ temp i -> temp j -> locals (dstore i d w) j = locals w j.
Proof. intros H J. cbn. destruct (Z.eqb_spec i j); [subst; contradiction|reflexivity]. Qed.

Definition alike_result (w1 : dworld) (x y : option (dval * dworld)) : Prop :=
  match x, y with
  | Some (v, u), Some (v1, u1) => v1 = v /\ dclean v /\ dalike u u1 /\ forall i, temp i -> locals u1 i = locals w1 i
  | None, None => True
  | _, _ => False
  end.
Lemma assign_alike x d w w1 : dclean x -> dalike w w1 -> alike_result w1 (assign x d w) (assign x d w1).
Proof.
  intros C A. destruct x as [i|i k|]; cbn [assign]; [| |exact I].
  - split; [reflexivity|]. split; [exact I|]. split; [apply store_alike, A|]. intros j J. apply store_kept; assumption.
  - rewrite (proj2 A i C). destruct (locals w1 i); try exact I. destruct (k <? length l)%nat; [|exact I].
    split; [reflexivity|]. split; [exact I|]. split; [apply store_alike, A|]. intros j J. apply store_kept; assumption.
Qed.
Lemma alike_done w w1 v : dclean v -> dalike w w1 -> alike_result w1 (Some (v, w)) (Some (v, w1)).
Proof. intros C A. split; [reflexivity|]. split; [exact C|]. split; [exact A|reflexivity]. Qed.
Lemma dapply_alike o this args w w1 : (forall i, temp i -> o <> OpLocal i) -> opt_all dclean this -> Forall (opt_all dclean) args -> dalike w w1 ->
  alike_result w1 (dapply o this args w) (dapply o this args w1).
Proof.
  intros L Ct Ca A. destruct o; cbn [dapply]; try (apply alike_done; [exact I|exact A]).
  - destruct args; [|exact I]. apply alike_done; [|exact A]. intros T. exact (L i T eq_refl).
  - destruct args as [|[x|] [|[v|] []]]; try exact I. inversion Ca as [|? ? Cx Ca']; subst. inversion Ca' as [|? ? Cv _]; subst. cbn in Cx, Cv.
    rewrite (load_alike v w w1 Cv A). apply assign_alike; assumption.
  - destruct args as [|[x|] [|[v|] []]]; try exact I; destruct x as [i| |]; try exact I. inversion Ca as [|? ? Cx Ca']; subst. inversion Ca' as [|? ? Cv _]; subst. cbn in Cx, Cv.
    rewrite (load_alike v w w1 Cv A), (proj2 A i Cx). destruct (locals w1 i); try exact I. destruct (index_of _) as [k|]; [|exact I]. destruct (k <? length l)%nat; [|exact I].
    apply alike_done; [exact Cx|exact A].
  - destruct i; try (apply alike_done; [exact I|exact A]).
    + destruct args as [|[x|] []]; try exact I. inversion Ca as [|? ? Cx _]; subst. cbn in Cx. rewrite (load_alike x w w1 Cx A).
      destruct (dload x w1); try exact I. apply alike_done; [exact I|exact A].
    + destruct args as [|[x|] [|[v|] []]]; try exact I; destruct x as [i| |]; try exact I. inversion Ca as [|? ? Cx Ca']; subst. inversion Ca' as [|? ? Cv _]; subst. cbn in Cx, Cv.
      rewrite (load_alike v w w1 Cv A), (proj2 A i Cx). destruct (index_of _) as [k|]; [|exact I]. split; [reflexivity|]. split; [exact I|].
      split; [apply store_alike, A|]. intros j J. apply store_kept; assumption.
  - destruct (calls_it c less_name).
    { destruct args as [|[x|] [|[v|] []]]; try exact I. inversion Ca as [|? ? Cx Ca']; subst. inversion Ca' as [|? ? Cv _]; subst. cbn in Cx, Cv.
      rewrite (load_alike v w w1 Cv A), (load_alike x w w1 Cx A).
      destruct (int_of (dload x w1)), (int_of (dload v w1)); try exact I. apply alike_done; [exact I|exact A]. }
    destruct (calls_it c add_name_).
    { destruct args as [|[x|] [|[v|] []]]; try exact I. inversion Ca as [|? ? Cx Ca']; subst. inversion Ca' as [|? ? Cv _]; subst. cbn in Cx, Cv.
      rewrite (load_alike v w w1 Cv A), (load_alike x w w1 Cx A).
      destruct (int_of (dload x w1)), (int_of (dload v w1)); try exact I. apply assign_alike; assumption. }
    assert (Em : map (option_map (fun v => dload v w)) args = map (option_map (fun v => dload v w1)) args).
    { clear - Ca A. induction Ca as [|[x|] l Cx _ IH]; cbn [map option_map]; [reflexivity| |]; rewrite IH; [rewrite (load_alike x w w1 Cx A)|]; reflexivity. }
    assert (Et : option_map (fun v => dload v w) this = option_map (fun v => dload v w1) this) by (destruct this as [x|]; [cbn in Ct |- *; rewrite (load_alike x w w1 Ct A)|]; reflexivity).
    rewrite Em, Et. split; [reflexivity|]. split; [exact I|]. split; [|reflexivity]. destruct A as [A1 A2]. split; [cbn; rewrite A1; reflexivity|exact A2].
Qed.
(** Arguments that are only read may be read before. *)
Lemma reads_alike args1 args2 w :
  (length args1 = length args2)%nat ->
  (forall n, nth_error args1 n = nth_error args2 n \/
     exists i, nth_error args2 n = Some (Some (VPlace i)) /\ nth_error args1 n = Some (Some (VDat (locals w i)))) ->
  map (option_map (fun v => dload v w)) args2 = map (option_map (fun v => dload v w)) args1.
Proof.
  revert args2. induction args1 as [|a args1 IH]; intros [|b args2] L H; try discriminate; [reflexivity|]. cbn [map]. f_equal.
  - destruct (H O) as [E|(i & E1 & E2)]; cbn [nth_error] in *; [injection E as ->; reflexivity|]. injection E1 as ->. injection E2 as ->. reflexivity.
  - apply IH; [cbn in L; lia|]. intros n. exact (H (S n)).
Qed.
Lemma dapply_takes o this args1 args2 w :
  (length args1 = length args2)%nat ->
  (forall n, nth_error args1 n = nth_error args2 n \/
     demo_takes o n /\ exists i, temp i /\ nth_error args2 n = Some (Some (VPlace i)) /\ nth_error args1 n = Some (Some (VDat (locals w i)))) ->
  dapply o this args2 w = dapply o this args1 w.
Proof.
  intros L H.
  assert (M : map (option_map (fun v => dload v w)) args2 = map (option_map (fun v => dload v w)) args1).
  { apply reads_alike; [exact L|]. intros n. destruct (H n) as [E|(_ & i & _ & E1 & E2)]; [left; exact E|]. right. exists i. split; assumption. }
  assert (Same : (forall n, ~ demo_takes o n) -> args1 = args2).
  { intros No. clear M. revert args2 L H. assert (G : forall (l1 l2 : list (option dval)), (length l1 = length l2)%nat -> (forall n, nth_error l1 n = nth_error l2 n) -> l1 = l2).
    { induction l1 as [|x l1 IH]; intros [|y l2] L H; try discriminate; [reflexivity|]. specialize (H O) as H0. cbn in H0. injection H0 as ->. f_equal.
      apply IH; [cbn in L; lia|]. intros n. exact (H (S n)). }
    intros args2 L H. apply G; [exact L|]. intros n. destruct (H n) as [E|[T _]]; [exact E|]. destruct (No n T). }
  destruct o; try solve [rewrite Same; [reflexivity|intros n []]].
  - cbn [dapply]. destruct args1 as [|[a|] [|[b|] []]], args2 as [|[a2|] [|[b2|] []]]; try discriminate L; try discriminate M; try reflexivity.
    destruct (H O) as [E|[T _]]; [|discriminate T]. cbn [nth_error] in E. injection E as ->. cbn [map option_map] in M. injection M as ->. reflexivity.
  - destruct i; try solve [rewrite Same; [reflexivity|intros n []]]. cbn [dapply].
    destruct args1 as [|[a|] []], args2 as [|[a2|] []]; try discriminate L; try discriminate M; try reflexivity.
    cbn [map option_map] in M. injection M as ->. reflexivity.
  - destruct (calls_it c less_name) eqn:E1; [rewrite Same; [reflexivity|intros n [D _]; congruence]|].
    destruct (calls_it c add_name_) eqn:E2; [rewrite Same; [reflexivity|intros n [_ D]; congruence]|]. cbn [dapply]. rewrite E1, E2, M. reflexivity.
Qed.

Lemma callee_named f c n : callee_of p f false = Some c -> def_name p f = Done n -> callee_name c = Some n.
Proof.
  unfold callee_of. intros H E. rewrite E in H. destruct (get_function p f); [|discriminate]. injection H as <-.
  destruct (_ || _); cbn [callee_name]; [rewrite E|]; reflexivity.
Qed.
Lemma str_eqb_same n : str_eqb n n = true.
Proof. destruct (str_eqb_spec n n); [reflexivity|contradiction]. Qed.
Lemma nth_map_dat ds k : nth_error (map VDat ds) k = option_map VDat (nth_error ds k).
Proof. apply nth_error_map. Qed.
Lemma update_map ds k d : firstn k (map VDat ds) ++ VDat d :: skipn (S k) (map VDat ds) = map VDat (update k d ds).
Proof. unfold update. rewrite map_app, firstn_map, skipn_map. reflexivity. Qed.

(** Functions of the two names that count take two arguments, none of which is
    short-circuiting. *)
Hypothesis counting : forall f n, def_name p f = Done n -> n = less_name \/ n = add_name_ ->
  exists c, callee_of p f false = Some c /\ short_params p f = Some [false; false].

Definition demo_temporaries : temporaries demo demo_arrays p temp demo_takes.
Proof.
  unshelve refine (Build_temporaries demo demo_arrays p temp demo_takes VPlace VCell (fun i => VDat (DParam i)) (VDat DSelf) (fun k => VDat (DCon k))
    (fun i v w => dstore i (dload v w) w) dclean dalike _ _ _ _ _ _ _ _ _ _ _ _ _ _ _ _ _ _ _ _ _ _ _ _ _ _ _ _ _ _ _ _ _ _ _ _ _ _).
  - reflexivity.
  - reflexivity.
  - reflexivity.
  - reflexivity.
  - reflexivity.
  - intros i v w Ti S. destruct (settled_dat _ S) as [d ->]. cbn. rewrite Z.eqb_refl. reflexivity.
  - intros i j v w Ti Tj N. cbn. destruct (Z.eqb_spec i j); [contradiction|reflexivity].
  - intros i v x w Ti C. cbn in *. destruct x as [j|j k|]; cbn in *; [| |reflexivity]; destruct (Z.eqb_spec i j); try reflexivity; subst; contradiction.
  - intros v w u. reflexivity.
  - intros k w. reflexivity.
  - intros l S w. destruct (settled_all _ S) as [ds ->]. cbn. rewrite all_dat_map. reflexivity.
  - intros l S. destruct (settled_all _ S) as [ds ->]. cbn. rewrite all_dat_map. reflexivity.
  - intros v l E. cbn in E. destruct v as [| |[]]; try discriminate. injection E as <-. cbn. rewrite all_dat_map. split; [reflexivity|apply map_settled].
  - intros i N. exact N.
  - intros. exact I.
  - intros. exact I.
  - exact I.
  - exact I.
  - intros. exact I.
  - intros l S. destruct (settled_all _ S) as [ds ->]. cbn. rewrite all_dat_map. split; [|exact (fun _ => I)]. intros _. clear. induction ds; constructor; [exact I|assumption].
  - intros i v w w1 Ti [A B]. split; [exact A|]. intros j N. cbn. destruct (Z.eqb_spec i j); [subst; contradiction|]. apply B, N.
  - intros v w w1 C A. cbn. rewrite (load_alike v w w1 C A). reflexivity.
  - intros v w w1 C A. cbn. rewrite (load_alike v w w1 C A). reflexivity.
  - intros v w w1 C A. cbn. rewrite (load_alike v w w1 C A). reflexivity.
  - intros t v x w w1 C D A. cbn. rewrite (load_alike v w w1 C A), (load_alike x w w1 D A). reflexivity.
  - reflexivity.
  - intros o this args w w1 L Ct Ca A. pose proof (dapply_alike o this args w w1 L Ct Ca A) as H. unfold alike_result in H. cbn [apply demo].
    destruct (dapply o this args w) as [[v u]|], (dapply o this args w1) as [[v1 u1]|]; try exact H. destruct H as (H1 & H2 & H3 & H4).
    split; [exact H1|]. split; [exact H2|]. split; [exact H3|]. intros i Ti. cbn. rewrite (H4 i Ti). reflexivity.
  - reflexivity.
  - intros o this args1 args2 w L H. apply dapply_takes; assumption.
  - intros i v w Ti. eexists. cbn. reflexivity.
  - intros i l k n v w Ti S L Hk Hv. destruct (settled_all _ S) as [ds ->]. cbn [load array demo_arrays dload apply demo dapply] in L, Hv |- *. rewrite all_dat_map in L. injection L as ->.
    rewrite map_length in Hk. assert (E : index_of (dload v w) = Some k).
    { destruct Hv as [E|E]; injection E as ->; cbn [index_of]; destruct (Z.leb_spec 0 (Z.of_nat k)); try lia; rewrite Nat2Z.id; reflexivity. }
    rewrite E. destruct (Nat.ltb_spec k (length ds)); [reflexivity|lia].
  - intros i k l x w Ti S L H. destruct (settled_all _ S) as [ds ->]. cbn [load array demo_arrays dload apply demo dapply assign] in L |- *. rewrite all_dat_map in L. injection L as ->.
    rewrite nth_map_dat in H. destruct (nth_error ds k) as [d|] eqn:E; [|discriminate]. injection H as <-. rewrite (nth_error_nth _ _ _ E). reflexivity.
  - intros i k l v w Ti S L Hk. destruct (settled_all _ S) as [ds ->]. cbn [load array demo_arrays dload apply demo dapply assign] in L |- *. rewrite all_dat_map in L. injection L as ->.
    rewrite map_length in Hk. destruct (Nat.ltb_spec k (length ds)); [|lia]. eexists. 
    rewrite update_map, all_dat_map. reflexivity.
  - intros i k x w Ti C. reflexivity.
  - intros i n k w Ti. exists (VDat DNone), (map VDat (resized k (match locals w i with DArr l => l | _ => [] end))). split; [|split].
    + rewrite map_length. unfold resized. rewrite app_length, firstn_length, repeat_length. lia.
    + generalize (resized k (match locals w i with DArr l => l | _ => [] end)). intros l. induction l; constructor; [split; [intros u; reflexivity|exact I]|assumption].
    + cbn [apply demo dapply dload index_of]. destruct (Z.leb_spec 0 (Z.of_nat k)); [|lia]. rewrite Nat2Z.id. cbn [array demo_arrays]. rewrite all_dat_map. reflexivity.
  - intros i n l w Ti S L Hl. destruct (settled_all _ S) as [ds ->]. cbn [load array demo_arrays dload apply demo dapply assign] in L |- *. rewrite all_dat_map in L. injection L as ->. rewrite map_length. reflexivity.
  - intros f E. destruct (counting f _ E (or_introl eq_refl)) as (c & Ec & Es). exists c. split; [exact Ec|]. split; [exact Es|].
    intros i a b w Ti Ha Hb L. exists (VDat (DCon (KBool (a <? b)))). cbn [apply demo dapply]. unfold calls_it. rewrite (callee_named _ _ _ Ec E), str_eqb_same.
    cbn in L |- *. injection L as ->. split; reflexivity.
  - intros f E. destruct (counting f _ E (or_intror eq_refl)) as (c & Ec & Es). exists c. split; [exact Ec|]. split; [exact Es|].
    intros i a w Ti Ha L. exists (VDat DNone). cbn [apply demo dapply]. unfold calls_it. rewrite (callee_named _ _ _ Ec E), str_eqb_same.
    change (str_eqb (lit "OperatorAssignAdd;OutInt32Int32;Int32") less_name) with false. cbn in L |- *. injection L as ->. reflexivity.
Defined.
End Demo.
