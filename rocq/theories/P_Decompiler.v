(** C41: adding declarations to decompiled code. *)
From Coq Require Import String.
From Coq Require Import ZArith List Bool Lia Permutation.
From Verif Require Import Bytes Definitions Bundle BundleFacts Ast TypeNames Pool Scope TypeCheck PartsSpec P_Machine P_Sweet Cursor Bytecode Decompiler MergeSpec MergeFacts DecompilerFacts.
Import ListNotations.
Open Scope Z_scope.

(** ** The map of locals. *)
Lemma lm_place_perm n t m : Permutation (lm_place n t m) ((n, t) :: m).
Proof.
  induction m as [|[k u] m IH]; [reflexivity|]. cbn [lm_place]. destruct (str_leb n k); [reflexivity|].
  rewrite IH. apply perm_swap.
Qed.
Lemma lm_insert_keys n t m : NoDup (map fst m) ->
  NoDup (map fst (lm_insert n t m)) /\
  (forall k u, In (k, u) (lm_insert n t m) <-> (k = n /\ u = t) \/ (k <> n /\ In (k, u) m)).
Proof.
  intros ND. unfold lm_insert. destruct (existsb _ m) eqn:E.
  - split.
    + assert (M : map fst (map (fun x : str * typename => if str_eqb n (fst x) then (n, t) else x) m) = map fst m).
      { rewrite map_map. apply map_ext. intros [k u]. cbn [fst]. destruct (str_eqb_spec n k) as [<-|]; reflexivity. }
      rewrite M. exact ND.
    + intros k u. rewrite in_map_iff. split.
      * intros ([k' u'] & H & I). cbn [fst] in H. destruct (str_eqb_spec n k') as [<-|NE].
        -- injection H as <- <-. left. split; reflexivity.
        -- injection H as <- <-. right. split; [congruence|exact I].
      * intros [[-> ->]|[NE I]].
        -- apply existsb_exists in E. destruct E as ([k' u'] & I & E). exists (k', u'). split; [|exact I]. rewrite E. reflexivity.
        -- exists (k, u). split; [|exact I]. cbn [fst]. destruct (str_eqb_spec n k) as [->|]; [contradiction|reflexivity].
  - assert (NI : ~ In n (map fst m)).
    { intros I. apply in_map_iff in I. destruct I as ([k u] & <- & I).
      assert (F : existsb (fun x => str_eqb (fst (k, u)) (fst x)) m = true).
      { apply existsb_exists. exists (k, u). split; [exact I|]. cbn [fst]. destruct (str_eqb_spec k k); [reflexivity|contradiction]. }
      rewrite F in E. discriminate. }
    split.
    + eapply Permutation_NoDup; [symmetry; apply Permutation_map, lm_place_perm|]. constructor; [exact NI|exact ND].
    + intros k u. split.
      * intros I. eapply Permutation_in in I; [|apply lm_place_perm]. destruct I as [I|I].
        -- injection I as <- <-. left; split; reflexivity.
        -- right. split; [|exact I]. intros ->. apply NI. apply in_map_iff. exists (n, u). split; [reflexivity|exact I].
      * intros [[-> ->]|[_ I]]; (eapply Permutation_in; [symmetry; apply lm_place_perm|]); [left; reflexivity|right; exact I].
Qed.
Lemma named_locals_spec p l : forall m m', NoDup (map fst m) -> named_locals p l m = Done m' ->
  NoDup (map fst m') /\
  (forall n t, In (n, t) m' -> In (n, t) m \/
    exists i lo tn, In i l /\ get_local p i = Done lo /\ def_name p i = Done n /\ def_name p (lo_type lo) = Done tn /\ t = from_repr tn) /\
  (forall n, In n (map fst m) -> In n (map fst m')) /\
  (forall i n, In i l -> def_name p i = Done n -> In n (map fst m')).
Proof.
  induction l as [|i l IH]; intros m m' ND H.
  - injection H as <-. split; [exact ND|]. split; [left; assumption|]. split; [auto|]. intros i n [].
  - cbn [named_locals] in H. unfold of_pool in H.
    destruct (get_local p i) as [lo|] eqn:GL; [|discriminate]. cbn [map_err obind] in H.
    destruct (def_name p i) as [n0|] eqn:DN0; [|discriminate]. cbn [map_err obind] in H.
    destruct (def_name p (lo_type lo)) as [tn|] eqn:DT; [|discriminate]. cbn [map_err obind] in H.
    destruct (lm_insert_keys n0 (from_repr tn) m ND) as [ND' K].
    destruct (IH _ _ ND' H) as (A & B & C & D).
    assert (KK : forall n, n = n0 \/ In n (map fst m) -> In n (map fst m')).
    { intros n Hn. apply C. apply in_map_iff. destruct (list_eq_dec Byte.byte_eq_dec n n0) as [->|NE].
      - exists (n0, from_repr tn). split; [reflexivity|]. apply K. left; split; reflexivity.
      - destruct Hn as [?|I]; [contradiction|]. apply in_map_iff in I. destruct I as ([k u] & <- & I).
        exists (k, u). split; [reflexivity|]. apply K. right. split; assumption. }
    split; [exact A|]. split; [|split].
    + intros n t I. destruct (B _ _ I) as [I'|(j & lo' & tn' & J & R)].
      * apply K in I'. destruct I' as [[-> ->]|[_ I']]; [|left; exact I'].
        right. exists i, lo, tn. split; [left; reflexivity|]. auto.
      * right. exists j, lo', tn'. split; [right; exact J|exact R].
    + intros n I. apply KK. right; exact I.
    + intros j n [<-|J] Hn; [|exact (D j n J Hn)]. apply KK. left. congruence.
Qed.

Lemma nodup_typed m : map fst (map typed_local m) = map fst m.
Proof. rewrite map_map. reflexivity. Qed.
Lemma dn_declared l : Forall declares_nothing l -> declared l = [].
Proof.
  induction 1 as [|e l H _ IH]; [reflexivity|]. destruct e; cbn [declared]; try exact IH.
  exfalso. exact (H _ _ _ _ (wi_here _)).
Qed.

(** ** Statements are kept in order, every local is declared exactly once and with
    its type, and nothing else is. *)
Theorem C41_locals_declared_once fuel f def p out : decompiled fuel f def p = Done out ->
  exists body, decompile p def fuel (fu_code f) = Done body /\
  (exists decls kept, out = decls ++ kept /\ Forall only_declares decls /\ Forall2 keeps body kept) /\
  NoDup (map fst (declared out)) /\
  (forall n t, In (n, t) (declared out) -> exists t', t = Some t' /\ has_local p f n t') /\
  (forall n t, has_local p f n t -> In n (map fst (declared out))) /\
  (forall e x, In e out -> part x e -> declares_nothing x).
Proof.
  unfold decompiled. intros H.
  destruct (named_locals p (fu_locals f) []) as [m|] eqn:NL; [|discriminate]. cbn [obind] in H.
  destruct (decompile p def fuel (fu_code f)) as [body|] eqn:DC; [|discriminate]. cbn [obind] in H. injection H as <-.
  exists body. split; [reflexivity|]. split; [apply merge_keeps|].
  pose proof (decompile_dn _ _ _ _ _ DC) as DNB.
  pose proof (merge_declares m body) as P. rewrite (dn_declared _ DNB), app_nil_r in P.
  destruct (named_locals_spec p (fu_locals f) [] m (NoDup_nil _) NL) as (ND & IN & _ & ALL).
  pose proof (Permutation_map fst P) as PF. rewrite nodup_typed in PF.
  split; [eapply Permutation_NoDup; [symmetry; exact PF|exact ND]|]. split; [|split].
  - intros n t I. eapply Permutation_in in I; [|exact P]. apply in_map_iff in I. destruct I as ([k u] & E & I).
    injection E as <- <-. exists u. split; [reflexivity|]. destruct (IN _ _ I) as [[]|(i & lo & tn & R)]. exists i, lo, tn. exact R.
  - intros n t (i & lo & tn & I & _ & N & _). eapply Permutation_in; [symmetry; exact PF|]. exact (ALL i n I N).
  - intros e x I Q. destruct (merge_keeps m body) as (decls & kept & E & OD & K). rewrite E in I. apply in_app_or in I.
    destruct I as [I|I].
    + rewrite Forall_forall in OD. destruct (OD _ I) as (n & t & s & ->). inversion Q.
    + destruct (Forall2_in_r _ _ _ _ K I) as (e0 & I0 & KE). rewrite Forall_forall in DNB. specialize (DNB _ I0).
      destruct KE.
      * eapply dn_part; [exact DNB|exact Q].
      * eapply dn_part; [exact DNB|]. inversion Q; subst; constructor.
      * eapply dn_part; [exact DNB|]. inversion Q; subst; constructor.
Qed.
Print Assumptions C41_locals_declared_once.

(** ** Locals are declared before they are used exactly if, among the assignments
    the body starts with, the first assignment to each local comes before everything
    else that mentions it.  In general this is not so, see below. *)
Theorem C41_declared_before_use_partial fuel f def p out body : decompiled fuel f def p = Done out ->
  decompile p def fuel (fu_code f) = Done body ->
  (declared_before_use out <-> forall names, (forall n, In n names <-> exists t, has_local p f n t) -> assigned_before_use names body).
Proof.
  unfold decompiled. intros H DC.
  destruct (named_locals p (fu_locals f) []) as [m|] eqn:NL; [|discriminate]. cbn [obind] in H.
  rewrite DC in H. cbn [obind] in H. injection H as <-.
  destruct (named_locals_spec p (fu_locals f) [] m (NoDup_nil _) NL) as (ND & IN & _ & ALL).
  pose proof (decompile_dn _ _ _ _ _ DC) as DNB.
  assert (NM : forall n, In n (map fst m) <-> exists t, has_local p f n t).
  { intros n. split.
    - intros I. apply in_map_iff in I. destruct I as ([k u] & <- & I). exists u.
      destruct (IN _ _ I) as [[]|(i & lo & tn & R)]. exists i, lo, tn. exact R.
    - intros (t & i & lo & tn & I & _ & N & _). exact (ALL i n I N). }
  rewrite (merge_before_use m body ND DNB). split.
  - intros A names EQ before n s v s' after E F I NO. apply (A before n s v s' after E F); [|exact NO]. apply NM, EQ. exact I.
  - intros A. exact (A _ NM).
Qed.
Print Assumptions C41_declared_before_use_partial.

(** ** A pool with the locals x, y and z. *)
Definition dl_pool : pool := Eval vm_compute in
  fold_left (fun p n => named p n (DLocal {| lo_type := 7; lo_flags := 0 |})) [lit "x"; lit "y"; lit "z"] lit_pool.
Definition dl_function (c : code Z) : function :=
  {| fu_visibility := Public; fu_flags := 0; fu_source := None; fu_return_type := None; fu_unk1 := false; fu_base_method := None;
     fu_parameters := []; fu_locals := [12; 13; 14]; fu_operator := None; fu_cast := 0; fu_code := c; fu_unk2 := [] |}.
Definition dl_run (c : code Z) : outcome derror (list sexpr) := decompiled 100 (dl_function c) default_definition dl_pool.

(** y = x; x = 1; *)
Definition late_code : code Z := [Assign; Local 13; Local 12; Assign; Local 12; I32One].
(** let z: Int32; let y: Int32 = x; let x: Int32 = 1; *)
Theorem C41_declared_before_use_refuted : exists fuel f def p out,
  decompiled fuel f def p = Done out /\ ~ declared_before_use out.
Proof.
  destruct (dl_run late_code) as [out|] eqn:E; [|exfalso; vm_compute in E; discriminate].
  exists 100%nat, (dl_function late_code), default_definition, dl_pool, out. split; [exact E|].
  vm_compute in E. injection E as <-. intros D.
  set (i32 := TypeName (lit "Int32") None) in D.
  specialize (D [EDeclare (N := source_ast) (lit "z") (Some i32) None span0;
                 EDeclare (N := source_ast) (lit "y") (Some i32) (Some (s_ident (lit "x"))) span0]
               (lit "x") (Some i32) (Some (EConstant (N := source_ast) (CI32 1) span0)) span0 [] eq_refl).
  destruct D as [D _]. apply (D _ (or_intror (or_introl eq_refl))).
  exists span0. eapply wi_part; [apply pt_init|apply wi_here].
Qed.
Print Assumptions C41_declared_before_use_refuted.

(** x = 1; y = x; if z == x { z = y; } gives
    let z: Int32; let x: Int32 = 1; let y: Int32 = x; if z == x { z = y; } *)
Definition early_code : code Z :=
  [Assign; Local 12; I32One; Assign; Local 13; Local 12; JumpIfFalse 49; Equals 7; Local 14; Local 12; Assign; Local 14; Local 13].
Example C41_nonvacuous : exists out, dl_run early_code = Done out /\ length out = 4%nat /\
  map fst (declared out) = [lit "z"; lit "x"; lit "y"] /\ declared_before_use out.
Proof.
  destruct (dl_run early_code) as [out|] eqn:E; [|exfalso; vm_compute in E; discriminate].
  exists out. split; [reflexivity|].
  destruct (C41_locals_declared_once _ _ _ _ _ E) as (body & DC & _).
  split; [vm_compute in E; injection E as <-; reflexivity|].
  split; [vm_compute in E; injection E as <-; reflexivity|].
  apply (C41_declared_before_use_partial _ _ _ _ _ _ E DC). intros names _ before n s v s' after EQ A _ NO.
  vm_compute in DC. injection DC as <-.
  assert (M : forall n k, mentions n (s_ident k) <-> n = k) by (intros; apply mentions_ident).
  destruct before as [|e1 before]; cbn [app] in EQ.
  - injection EQ as <- <- <- <- _. split; [intros ? []|]. intros [s0 W]. inversion W as [|? ? Q]. inversion Q.
  - injection EQ as <- EQ. destruct before as [|e2 before]; cbn [app] in EQ.
    + injection EQ as <- <- <- <- _. split.
      * intros e [<-|[]] X. apply mentions_assign in X. destruct X as [X|X].
        -- apply M in X. discriminate X.
        -- destruct X as [s0 W]. inversion W as [|? ? Q]. inversion Q.
      * intros X. apply M in X. discriminate X.
    + injection EQ as <- EQ. inversion A as [|? ? _ A1]; subst. inversion A1 as [|? ? _ A2]; subst.
      destruct before as [|e3 before]; cbn [app] in EQ; [discriminate EQ|]. injection EQ as <- EQ.
      inversion A2 as [|? ? (l & r & q & AA) _]. discriminate AA.
Qed.
