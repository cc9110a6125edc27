(** Overload resolution: C22. *)
From Coq Require Import String.
From Coq Require Import ZArith List Bool Lia.
From Verif Require Import Bytes Bytecode Definitions Bundle Ast TypeNames Pool Scope TypeCheck TypingSpec TypingFacts
  OverloadSpec OverloadFacts.
Import ListNotations.
Open Scope Z_scope.

(** Case analysis of a resolution, for any procedure [rec] that checks arguments. *)
Lemma pick_cases rec name args wanted sp st el errs cands r st' :
  elig (ts_scope st) (ts_pool st) (length args) cands el ->
  pick_overload rec name args wanted sp el errs st = Done (r, st') ->
  exists ws checked, wanted_types st cands (length args) ws /\ checks rec args ws st checked st' /\
    (grounded_types (ts_scope st') (ts_pool st') checked -> grounded_returns (ts_scope st') (ts_pool st') cands ->
     match r with
     | inl (f, ys) => exists a b, cands = a ++ f :: b /\ fits (length args) st st' checked wanted f ys /\
                        forall g zs, In g a -> ~ fits (length args) st st' checked wanted g zs
     | inr e => (exists es, e = no_matching name es sp) /\ (forall g zs, In g cands -> ~ fits (length args) st st' checked wanted g zs)
                \/ ~ known_after st st' cands checked wanted
     end).
Proof.
  intros He.
  assert (Hnone : (~ exists x, el = [x]) ->
    pick_overload rec name args wanted sp el errs =
    (do checked <- mmap (fun e => rec e None) args;
     do (ms, errs') <- reading (fun s p => matches_loop s p checked wanted sp el);
     match ms with
     | [] => mret (inr (no_matching name (errs ++ errs') sp))
     | (f, cs) :: _ => mret (inl (function_match f checked cs))
     end)).
  { intros H. unfold pick_overload. destruct el as [|[f types] [|]]; try reflexivity. exfalso. eauto. }
  destruct el as [|[f types] [|y el]].
  - clear Hnone. cbn [pick_overload]. unfold mbind, reading, mret.
    destruct (mmap _ args st) as [[checked st1]|] eqn:Em; [|discriminate]. cbn. intros [= <- <-].
    apply mmap_checks in Em. exists (repeat None (length args)), checked. split; [|split; [assumption|]].
    + right. split; [|reflexivity]. intros H. apply (elig_only _ _ _ _ _ He) in H as (x & H). discriminate.
    + intros _ _. left. split; [eauto|]. intros g zs Hi (Ha & _). now apply (elig_nil_inv _ _ _ _ He g).
  - clear Hnone. cbn [pick_overload]. unfold mbind.
    destruct (elig_split _ _ _ _ _ He f types [] [] eq_refl) as (a & b & -> & Ea & Eb & Ha & Ht).
    pose proof (params_length _ _ _ _ _ Ht Ha) as Hl.
    destruct (check_zip rec args types st) as [[checked st1]|] eqn:Ez; [|discriminate].
    apply check_zip_checks in Ez; [|assumption].
    intros H. assert (st1 = st').
    { destruct (validate_args _ _ _ _ _ _ _) as [|[|]]; inversion H; reflexivity. }
    subst st1. exists (map Some (firstn (length args) types)), checked. split; [|split; [assumption|]].
    + left. exists a, f, b, types. split; [reflexivity|]. split; [assumption|]. split; [|auto].
      intros g Hg. apply in_app_iff in Hg as [Hg|Hg]; [now apply (elig_nil_inv _ _ _ _ Ea)|now apply (elig_nil_inv _ _ _ _ Eb)].
    + intros Hg Hgr. apply checks_length in Ez as [Ez _].
      pose proof (validate_args_spec (ts_scope st') (ts_pool st') f checked types wanted sp ltac:(lia) Hg) as V.
      assert (Hin0 : In f (a ++ f :: b)) by (apply in_app_iff; right; now left).
      specialize (V (fun fn r t => Hgr f fn r t Hin0)).
      assert (Hothers : forall g zs, In g (a ++ b) -> ~ fits (length args) st st' checked wanted g zs).
      { intros g zs Hi (Hacc & _). apply in_app_iff in Hi as [Hi|Hi];
          [now apply (elig_nil_inv _ _ _ _ Ea g)|now apply (elig_nil_inv _ _ _ _ Eb g)]. }
      destruct (validate_args _ _ f checked types wanted sp) as [cs|[e|e]]; inversion H; subst r; clear H.
      * cbn [function_match]. exists a, b. split; [reflexivity|]. split.
        -- split; [assumption|]. exists types. split; [assumption|]. exact V.
        -- intros g zs Hi. apply Hothers, in_app_iff. now left.
      * left. split; [eauto|]. intros g zs Hi. apply in_app_iff in Hi as [Hi|[<-|Hi]].
        -- apply Hothers, in_app_iff. now left.
        -- intros (_ & ts & Hts & Hc). assert (ts = types) by (eapply params_det; eauto). subst ts. exact (V zs Hc).
        -- apply Hothers, in_app_iff. now right.
      * right. intros (K1 & K2 & K3 & K4).
        assert (In f (a ++ f :: b)) as Hin by (apply in_app_iff; right; now left).
        destruct (K2 f Hin) as (fn & Ef & Hc).
        destruct V as [V|[(x & t & Hx & Hti & V)|(fn' & w & Ef' & -> & Hcast & V)]].
        -- now apply (V fn).
        -- apply V. split; [|now apply (K3 f types t)]. destruct (K1 x Hx) as (ty & m & H1 & H2). eauto.
        -- assert (fn' = fn) by congruence. subst fn'. apply V. split; [|exact K4].
           destruct (Hc Hcast) as (r & t & m & Hr). eauto.
  - rewrite Hnone by (intros (x & H); discriminate). clear Hnone.
    set (el0 := (f, types) :: y :: el) in *. unfold mbind, reading, mret.
    destruct (mmap _ args st) as [[checked st1]|] eqn:Em; [|discriminate].
    apply mmap_checks in Em.
    destruct (matches_loop (ts_scope st1) (ts_pool st1) checked wanted sp el0) as [[ms errs']|] eqn:El; [|discriminate].
    intros H. assert (st1 = st') by (destruct ms as [|[]]; inversion H; reflexivity). subst st1.
    exists (repeat None (length args)), checked. split; [|split; [assumption|]].
    + right. split; [|reflexivity]. intros H'. apply (elig_only _ _ _ _ _ He) in H' as (x & H'). discriminate.
    + intros Hg Hgr. apply checks_length in Em as [Em _].
      assert (Hsub : forall g ts, In (g, ts) el0 -> In g cands /\ accepts (ts_pool st) g (length args) /\ param_types (ts_scope st) (ts_pool st) g ts).
      { intros g ts Hi. apply in_split in Hi as (e1 & e2 & E).
        destruct (elig_split _ _ _ _ _ He g ts e1 e2 E) as (a & b & -> & _ & _ & H1 & H2).
        split; [apply in_app_iff; right; now left|auto]. }
      apply matches_loop_spec in El; [|assumption| |].
      * destruct ms as [|[g cs] ms]; inversion H; subst r; clear H.
        -- left. split; [eauto|]. intros h zs Hi (Hacc & ts & Hts & Hc).
           destruct (elig_in_or _ _ _ _ _ h He Hi) as [Hn|(ts' & Hin & _ & Hts')]; [contradiction|].
           assert (ts = ts') by (eapply params_det; eauto). subst ts'. exact (El h ts zs Hin Hc).
        -- destruct El as (a & ts & b & E & H1 & H2 & H3).
           destruct (elig_split _ _ _ _ _ He g ts a b E) as (ca & cb & -> & Ea & Eb & Ha & Ht).
           cbn [function_match]. exists ca, cb. split; [reflexivity|]. split.
           ++ split; [assumption|]. exists ts. auto.
           ++ intros h zs Hi (Hacc & ts' & Hts & Hc).
              destruct (elig_in_or _ _ _ _ _ h Ea Hi) as [Hn|(ts'' & Hin & _ & Hts')]; [contradiction|].
              assert (ts' = ts'') by (eapply params_det; eauto). subst ts''. exact (H3 h ts' zs Hin Hc).
      * intros g ts Hi. destruct (Hsub g ts Hi) as (_ & H1 & H2). rewrite Em. eapply params_length; eauto.
      * intros g fn r' t Hi. apply in_map_iff in Hi as ((g' & ts) & <- & Hi). destruct (Hsub _ _ Hi) as (Hin & _).
        now apply (Hgr g' fn r' t).
Qed.

(** When a call resolves: the arguments were checked in order, the chosen
    candidate takes that many arguments, all of them convert to its parameter
    types (and the conversions are inserted), and no candidate before it in the
    list would do. *)
Theorem C22_selected_first_applicable : forall rec name cands args wanted sp st f ys st',
  resolve_overload false rec name cands args wanted sp st = Done ((f, ys), st') ->
  exists ws checked, wanted_types st cands (length args) ws /\ checks rec args ws st checked st' /\
    (grounded_types (ts_scope st') (ts_pool st') checked -> grounded_returns (ts_scope st') (ts_pool st') cands ->
     exists before after, cands = before ++ f :: after /\
       fits (length args) st st' checked wanted f ys /\
       forall g zs, In g before -> ~ fits (length args) st st' checked wanted g zs).
Proof.
  intros rec name cands args wanted sp st f ys st'. unfold resolve_overload, mbind. unfold reading at 1.
  destruct (eligible_loop _ _ _ _ cands) as [[el errs]|] eqn:Ee; [|discriminate].
  apply eligible_loop_spec in Ee.
  destruct (pick_overload rec name args wanted sp el errs st) as [[r st1]|] eqn:Ep; [|discriminate].
  intros H. destruct r as [m|e]; [|discriminate]. cbn in H. injection H as -> <-.
  destruct (pick_cases _ _ _ _ _ _ _ _ _ _ _ Ee Ep) as (ws & checked & H1 & H2 & H3).
  exists ws, checked. auto.
Qed.
Print Assumptions C22_selected_first_applicable.

(** When the arguments check and the types involved are known: the call resolves
    exactly if some candidate is applicable, and the error reported otherwise is
    the missing overload. *)
Theorem C22_resolves_iff_applicable : forall rec name cands args wanted sp st ws checked st',
  wanted_types st cands (length args) ws -> checks rec args ws st checked st' ->
  known_before st cands -> known_after st st' cands checked wanted ->
  grounded_types (ts_scope st') (ts_pool st') checked -> grounded_returns (ts_scope st') (ts_pool st') cands ->
  (exists f ys, resolve_overload false rec name cands args wanted sp st = Done ((f, ys), st') /\
                In f cands /\ fits (length args) st st' checked wanted f ys) \/
  ((forall f ys, In f cands -> ~ fits (length args) st st' checked wanted f ys) /\
   exists es, resolve_overload false rec name cands args wanted sp st = Fail (CompileError (NoMatchingOverload name es) sp)).
Proof.
  intros rec name cands args wanted sp st ws checked st' Hw Hc Kb Ka Hg Hgr.
  destruct (eligible_loop_total st (length args) sp cands Kb) as (el & errs & Ee).
  pose proof (eligible_loop_spec _ _ _ _ _ _ _ Ee) as He.
  unfold resolve_overload, mbind. unfold reading at 1 2. rewrite Ee. cbn [fst snd].
  assert (exists r, pick_overload rec name args wanted sp el errs st = Done (r, st')) as (r & Ep).
  { destruct Hw as [(a & f & b & types & -> & Hacc & Hoth & Ht & ->)|(Hno & ->)].
    - destruct (elig_only _ _ _ _ _ He) as ((g & ts) & ->); [eauto 6|].
      destruct (elig_split _ _ _ _ _ He g ts [] [] eq_refl) as (a' & b' & E & _ & _ & Hacc' & Ht').
      assert (g = f) as ->.
      { assert (In g (a ++ f :: b)) as Hi by (rewrite E; apply in_app_iff; right; now left).
        apply in_app_iff in Hi as [Hi|[Hi|Hi]]; [|congruence|];
          exfalso; apply (Hoth g); [apply in_app_iff; auto|assumption|apply in_app_iff; auto|assumption]. }
      assert (ts = types) by (eapply params_det; eauto). subst ts.
      cbn [pick_overload]. unfold mbind.
      apply check_zip_checks in Hc; [|eapply params_length; eauto]. rewrite Hc.
      destruct (validate_args _ _ _ _ _ _ _) as [|[|]]; eauto.
    - pose proof (checks_length _ _ _ _ _ _ Hc) as [Hlen _].
      apply mmap_checks in Hc.
      destruct (matches_loop_total st st' (length args) checked wanted sp cands el Hg Hgr Ka He Hlen) as (ms & errs' & Em).
      assert (~ exists x, el = [x]) as Hns.
      { intros ((g & ts) & ->). apply Hno.
        destruct (elig_split _ _ _ _ _ He g ts [] [] eq_refl) as (a' & b' & E & Ea & Eb & Hacc' & Ht').
        exists a', g, b'. split; [assumption|]. split; [assumption|]. intros h Hi.
        apply in_app_iff in Hi as [Hi|Hi]; [now apply (elig_nil_inv _ _ _ _ Ea)|now apply (elig_nil_inv _ _ _ _ Eb)]. }
      destruct el as [|[f types] [|y el]]; [| |].
      + cbn [pick_overload]. unfold mbind, reading, mret. rewrite Hc, Em.
        destruct ms as [|[]]; eauto.
      + exfalso. apply Hns. eauto.
      + cbn [pick_overload]. unfold mbind, reading, mret. rewrite Hc, Em.
        destruct ms as [|[]]; eauto. }
  rewrite Ep.
  destruct (pick_cases _ _ _ _ _ _ _ _ _ _ _ He Ep) as (ws' & checked' & Hw' & Hc' & H).
  assert (ws' = ws).
  { destruct Hw as [(a & f & b & types & Ec & Hacc & Hoth & Ht & ->)|(Hno & ->)];
    destruct Hw' as [(a' & f' & b' & types' & Ec' & Hacc' & Hoth' & Ht' & ->)|(Hno' & ->)].
    - assert (f' = f) as ->.
      { assert (In f' (a ++ f :: b)) as Hi by (rewrite <- Ec, Ec'; apply in_app_iff; right; now left).
        apply in_app_iff in Hi as [Hi|[Hi|Hi]]; [|congruence|];
          exfalso; apply (Hoth f'); [apply in_app_iff; auto|assumption|apply in_app_iff; auto|assumption]. }
      do 2 f_equal. eapply params_det; eauto.
    - exfalso. apply Hno'. eauto 6.
    - exfalso. apply Hno. eauto 6.
    - reflexivity. }
  subst ws'. destruct (checks_det _ _ _ _ _ _ Hc' _ _ Hc) as [-> _].
  specialize (H Hg Hgr). destruct r as [(f, ys)|e].
  - left. destruct H as (a & b & -> & Hf & _). exists f, ys. split; [reflexivity|]. split; [apply in_app_iff; right; now left|assumption].
  - right. destruct H as [((es & ->) & H)|H]; [|contradiction]. split; [assumption|]. exists es. reflexivity.
Qed.
Print Assumptions C22_resolves_iff_applicable.

(** The permissive mode of the linter picks the same overload; if there is none
    it reports the error and goes on. *)
Theorem C22_permissive : forall rec name cands args wanted sp st,
  (forall r, resolve_overload false rec name cands args wanted sp st = Done r ->
             resolve_overload true rec name cands args wanted sp st = Done r) /\
  (forall r st2 e, resolve_overload true rec name cands args wanted sp st = Done (r, st2) ->
             resolve_overload false rec name cands args wanted sp st = Fail e ->
             exists st1 d xs, diag_from_error e = Done d /\
               checks rec args (repeat None (length args))
                 {| ts_pool := ts_pool st1; ts_locals := ts_locals st1; ts_diags := ts_diags st1 ++ [d];
                    ts_scope := ts_scope st1 |} xs st2).
Proof.
  intros rec name cands args wanted sp st. unfold resolve_overload, mbind. unfold reading at 1 2 3 4.
  destruct (eligible_loop _ _ _ _ cands) as [[el errs]|]; [|split; discriminate].
  destruct (pick_overload rec name args wanted sp el errs st) as [[[m|e] st1]|]; [| |split; discriminate].
  - split; [auto|discriminate].
  - split; [discriminate|]. intros r st2 e' H [= <-]. unfold report in H.
    destruct (diag_from_error e) as [d|] eqn:Ed; [|discriminate]. unfold push_diag in H. cbn in H.
    destruct (mmap _ args _) as [[xs st3]|] eqn:Em; [|discriminate].
    destruct cands as [|g cands]; [discriminate|]. cbn in H. injection H as <- <-.
    apply mmap_checks in Em. exists st1, d, xs. auto.
Qed.
Print Assumptions C22_permissive.

(** Two overloads F(Int32) and F(String, opt Int32). *)
Definition ov_def (name : Z) (v : any_def) : definition :=
  {| df_name := name; df_parent := 0; df_unk1 := 0; df_unk2 := 0; df_unk3 := 0; df_value := v |}.
Definition ov_fun (ps : list pidx) : any_def :=
  DFunction {| fu_visibility := Public; fu_flags := 0; fu_source := None; fu_return_type := None; fu_unk1 := false;
               fu_base_method := None; fu_parameters := ps; fu_locals := []; fu_operator := None; fu_cast := 0;
               fu_code := []; fu_unk2 := [] |}.
Definition ov_pool : pool :=
  {| pl_names := {| st_list := [lit ""; lit "Int32"; lit "String"; lit "F;Int32"; lit "F;StringInt32"; lit "a"]; st_map := [] |};
     pl_tweakdb := empty_strings; pl_resources := empty_strings; pl_strings := empty_strings;
     pl_defs := [default_definition; ov_def 1 (DType TPrim); ov_def 2 (DType TPrim); ov_def 3 (ov_fun [5]);
                 ov_def 4 (ov_fun [6; 7]); ov_def 5 (DParameter {| pa_type := 1; pa_flags := 0 |});
                 ov_def 5 (DParameter {| pa_type := 2; pa_flags := 0 |});
                 ov_def 5 (DParameter {| pa_type := 1; pa_flags := 1 |})] |}.
Definition ov_state : tstate :=
  {| ts_pool := ov_pool; ts_locals := []; ts_diags := [];
     ts_scope := {| sc_symbols := []; sc_references := []; sc_types := [(lit "Int32", 1); (lit "String", 2)];
                    sc_this := None; sc_function := None |} |}.
Definition ov_str : sexpr := EConstant (CString LString (lit "hi")) span0.
Definition ov_call (args : list sexpr) := resolve_overload false (check 5 false) (lit "F") [3; 4] args None span0 ov_state.

Example C22_example :
  ov_call [ov_str] = Done ((4, [EConstant (CString LString (lit "hi")) span0]), ov_state) /\
  ov_call [] = Fail (CompileError (NoMatchingOverload (lit "F")
                      [ArgumentCountMismatch 0 1 1; ArgumentCountMismatch 0 1 2]) span0) /\
  (exists e, ov_call [ov_str; ov_str] = Fail (CompileError (NoMatchingOverload (lit "F") e) span0)) /\
  checks (check 5 false) [ov_str] [None] ov_state [EConstant (CString LString (lit "hi")) span0] ov_state /\
  known_before ov_state [3; 4] /\
  known_after ov_state ov_state [3; 4] [EConstant (CString LString (lit "hi")) span0] None /\
  grounded_types (ts_scope ov_state) ov_pool [EConstant (CString LString (lit "hi")) span0] /\
  grounded_returns (ts_scope ov_state) ov_pool [3; 4] /\
  ~ (exists ys, fits 1 ov_state ov_state [EConstant (CString LString (lit "hi")) span0] None 3 ys).
Proof.
  assert (P3 : param_types (ts_scope ov_state) ov_pool 3 [TIPrim 1]).
  { eexists. split; [reflexivity|]. constructor; [|constructor]. eexists. split; reflexivity. }
  assert (P4 : param_types (ts_scope ov_state) ov_pool 4 [TIPrim 2; TIPrim 1]).
  { eexists. split; [reflexivity|]. constructor; [|constructor; [|constructor]]; eexists; split; reflexivity. }
  split; [reflexivity|]. split; [reflexivity|]. split; [eexists; reflexivity|].
  split; [econstructor; [reflexivity|constructor]|].
  split; [intros f [<-|[<-|[]]]; eauto|].
  split.
  { split; [|split; [|split]].
    - intros x [<-|[]]. exists (TIPrim 2), (lit "String"). split; reflexivity.
    - intros f [<-|[<-|[]]]; eexists; (split; [reflexivity|]); discriminate.
    - intros f types t [<-|[<-|[]]] H Ht.
      + rewrite (params_det _ _ _ _ _ H P3) in Ht. destruct Ht as [<-|[]]. exists (lit "Int32"). reflexivity.
      + rewrite (params_det _ _ _ _ _ H P4) in Ht. destruct Ht as [<-|[<-|[]]]; eexists; reflexivity.
    - exact I. }
  split; [intros x t [<-|[]] [= <-]; exact I|].
  split; [intros f fn r t [<-|[<-|[]]] [= <-]; discriminate|].
  intros (ys & _ & types & Ht & Hc & _). rewrite (params_det _ _ _ _ _ Ht P3) in Hc.
  inversion Hc as [|? ? ? ? a c ? Ha Hcv]; subst. assert (a = TIPrim 2) as -> by (cbv in Ha; congruence).
  inversion Hcv as [? ? Hs|  | | | |]; subst. inversion Hs.
Qed.
