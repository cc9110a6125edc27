(** C48: compiling modules leaves everything of the bundle as it was that the
    modules do not name. *)
From Coq Require Import String.
From Coq Require Import ZArith List Bool Lia Permutation.
From Verif Require Import Bytes Bytecode Definitions Bundle Ast TypeNames Pool Scope TypeCheck Symbols SourceMap Cursor Assembler
  Desugar Diagnostics Report Printer PoolSpec PoolFacts Wrappers WrapSpec WrapFacts Mapper CleanupSpec TypingSpec Unit UnitSpec UnitSteps UnitFacts P_Assembler P_Machine.
From Verif Require Cleanup P_Cleanup.
Import ListNotations.
Open Scope Z_scope.

(** Putting the classes in order keeps sizes. *)
Lemma each_length xs : forall ds r, Cleanup.each (fun x l => Cleanup.put_def l (snd x) (fst x)) xs ds = Done r -> length r = length ds.
Proof.
  induction xs as [|[d i] xs IH]; intros ds r; cbn [Cleanup.each snd fst]; [now intros [= <-]|].
  destruct (Cleanup.put_def ds i d) as [ds1|] eqn:E; [|discriminate]. intros H. rewrite (IH _ _ H). revert E. unfold Cleanup.put_def.
  destruct ((0 <=? i) && (i <? Z.of_nat (length ds))) eqn:B; [|discriminate]. apply andb_prop in B as (B1 & B2). apply Z.leb_le in B1. apply Z.ltb_lt in B2. intros [= <-].
  apply (length_replace_at ds (Z.to_nat i) d). lia.
Qed.
Lemma cleanup_fits fuel p refs p' refs' : Cleanup.cleanup_pool fuel p refs = Done (p', refs') -> fits p' -> fits p.
Proof.
  unfold Cleanup.cleanup_pool. destruct (Cleanup.find_unsorted fuel p) as [u|]; [|discriminate]. destruct (Cleanup.add_superclasses fuel p u) as [v|]; [|discriminate].
  destruct (Cleanup.with_depth p v) as [keyed|]; [|discriminate]. destruct (Cleanup.definitions_of p _) as [ds|]; [|discriminate].
  destruct (Cleanup.each _ _ (pl_defs p)) as [defs|] eqn:E; [|discriminate]. apply each_length in E. unfold fits.
  destruct v; intros [= <- <-]; cbn [set_defs map_pool pl_defs pl_names]; [now rewrite E|]. now rewrite map_length, E.
Qed.

(** The bundle before its classes are put in order (unit.rs 298-318). *)
Definition assembled (ev : env) (l : list source_module) (p : pool) : outcome error pool :=
  let* st := unit_new ev p in
  match compile_modules ev true false l st with
  | (Done fs, st') => assemble_all ev fs st'
  | (Fail e, _) => Fail e
  end.

(** C48.  When modules [l] are compiled into the bundle [p], the result is a bundle
    [q] with its classes put in order (C24), and [q] has all strings and all
    definitions of [p] in their places, where a definition that [l] does not name
    is the same. *)
Theorem C48_only_named_changes ev l p out : proper p -> fair ev -> compile ev l p = Done out -> fits (out_pool out) ->
  exists q refs, assembled ev l p = Done q /\ frame l p q /\ Cleanup.cleanup_pool (ev_fuel ev) q refs = Done (out_pool out, map fst (out_refs out)).
Proof.
  intros PR FV E F. unfold compile in E. unfold assembled. destruct (unit_new ev p) as [st0|] eqn:E0; [|discriminate]. cbn [obind] in E. cbn [obind].
  destruct (compile_modules ev true false l st0) as [[fs|] st] eqn:E1; [|discriminate]. unfold finish in E.
  destruct (assemble_all ev fs st) as [q|] eqn:E2; [|discriminate]. cbn [obind] in E.
  destruct (Cleanup.cleanup_pool (ev_fuel ev) q (map fst (us_refs st))) as [[p' refs]|] eqn:E3; [|discriminate]. cbn [of_cleanup map_err obind] in E. injection E as <-. cbn [obind].
  cbn [out_pool out_refs] in *. exists q, (map fst (us_refs st)).
  pose proof (cleanup_fits _ _ _ _ _ E3 F) as Fq. split; [reflexivity|]. split.
  - apply (assemble_frame l p PR ev FV _ _ _ _ _ _ E0 E1 E2). exact (grown_fits _ _ (assemble_grows ev _ _ _ E2) Fq).
  - assert (L : length refs = length (us_refs st)).
    { revert E3. unfold Cleanup.cleanup_pool. destruct (Cleanup.find_unsorted _ q) as [u|]; [|discriminate]. destruct (Cleanup.add_superclasses _ q u) as [v|]; [|discriminate].
      destruct (Cleanup.with_depth q v) as [keyed|]; [|discriminate]. destruct (Cleanup.definitions_of q _) as [ds|]; [|discriminate].
      destruct (Cleanup.each _ _ (pl_defs q)) as [defs|]; [|discriminate]. destruct v; intros [= _ <-]; now rewrite !map_length. }
    assert (C : forall (a : list pidx) (b : list Z), length a = length b -> map fst (combine a b) = a).
    { induction a as [|x a IH]; intros [|y b]; cbn; intros X; try discriminate; [reflexivity|]. now rewrite IH by lia. }
    rewrite C by (rewrite map_length; exact L). exact E3.
Qed.
Print Assumptions C48_only_named_changes.

(** What that means for a definition the modules do not name: in the result it is
    where it was, unless it is a class that moved, and all it says is what it said,
    with the classes it mentions renamed as they moved. *)
Definition untouched (l : list source_module) (p : pool) (i : pidx) : Prop :=
  ~ replaces l p i /\ ~ wraps l p i /\ ~ gains_functions l p i /\ ~ gains_fields l p i.
Theorem C48_unnamed_is_unchanged ev l p out : proper p -> fair ev -> compile ev l p = Done out -> fits (out_pool out) ->
  exists q, assembled ev l p = Done q /\ (acyclic q -> (length (pl_defs q) < ev_fuel ev)%nat ->
    exists move, (forall i, move i <> i -> exists k, get_class q i = Done k) /\ (bases_first q -> forall i, move i = i) /\
      forall i d, def_at p i = Some d -> untouched l p i ->
        exists d', def_at (out_pool out) (move i) = Some d' /\ class_refs d' = map move (class_refs d) /\ forget_refs d' = forget_refs d).
Proof.
  intros PR FV E F. destruct (C48_only_named_changes _ _ _ _ PR FV E F) as (q & refs & AS & FR & C). exists q. split; [exact AS|]. intros AC FU.
  destruct (P_Cleanup.C24_classes_after_bases q refs _ AC FU) as (p' & move & C' & MB & _ & BF). rewrite C in C'. injection C' as <- _.
  exists move. split; [intros i N; exact (proj1 (mb_classes _ _ _ MB i N))|]. split; [intros B; exact (proj2 (BF B))|].
  intros i d D (U1 & U2 & U3 & U4). destruct FR as (_ & _ & _ & _ & FR). destruct (FR _ _ D) as (d' & D' & K).
  assert (X : d' = d).
  { destruct K as [->|k fs gs V -> G1 G2 _|x x' R _ _ _ _|W _]; [reflexivity| |contradiction|contradiction].
    destruct fs as [|f fs]; [|destruct (U3 (G1 ltac:(discriminate)))]. destruct gs as [|g gs]; [|destruct (U4 (G2 ltac:(discriminate)))].
    rewrite !app_nil_r. destruct d as [a b c1 c2 c3 v]. cbn in *. subst v. destruct k. reflexivity. }
  subst d'. assert (GD : get_def q i = Done d) by (unfold get_def; now rewrite D').
  destruct (mb_content _ _ _ MB _ _ GD) as (e & GE & R1 & R2). exists e. split; [|auto]. apply def_done. now rewrite GE.
Qed.
Print Assumptions C48_unnamed_is_unchanged.

Definition un_names : list str := lit_names ++ [lit "Variant"; lit "Animal"; lit "Cat"; lit "age"; lit "speak;Int32"; lit "n"; lit "G;Int32"; lit "IScriptable"; lit "Silly.Deep"].
Definition un_def (n parent : Z) (v : any_def) : definition := plain_definition n parent v.
Definition un_class (base : pidx) (fields functions : list pidx) : any_def :=
  DClass {| cl_visibility := Public; cl_flags := 0; cl_base := base; cl_functions := functions; cl_fields := fields; cl_overrides := [] |}.
Definition un_fun (flags : Z) (ps : list pidx) (r : option pidx) (c : code Z) : any_def :=
  DFunction {| fu_visibility := Public; fu_flags := flags; fu_source := None; fu_return_type := r; fu_unk1 := false;
               fu_base_method := None; fu_parameters := ps; fu_locals := []; fu_operator := None; fu_cast := 0;
               fu_code := c; fu_unk2 := [] |}.
Definition un_int : pidx := match am_find (sc_types lit_scope) (lit "Int32") with Some i => i | None => 0 end.
Definition un_param : any_def := DParameter {| pa_type := un_int; pa_flags := 0 |}.
Definition un_pool : pool := Eval vm_compute in
  {| pl_names := {| st_list := un_names; st_map := numbered un_names |};
     pl_tweakdb := one_entry; pl_resources := one_entry; pl_strings := empty_strings;
     pl_defs := pl_defs lit_pool ++
       [un_def 12 0 (DType TPrim); un_def 13 0 (un_class 21 [15] [16]); un_def 14 0 (un_class 13 [] []);
        un_def 15 13 (DField {| fi_visibility := Public; fi_type := un_int; fi_flags := 0; fi_hint := None; fi_attributes := []; fi_defaults := [] |});
        un_def 16 13 (un_fun 0 [17] (Some un_int) [Return; Param 17; Nop]); un_def 17 16 un_param;
        un_def 18 0 (un_fun 1 [19] (Some un_int) [Return; Param 19; Nop]); un_def 17 18 un_param; un_def 13 0 (DType TClass);
        un_def 19 0 (un_class 0 [] []); un_def 20 0 (un_class 21 [] [])] |}.
Definition un_sp : span := Span 0 0.
Definition ann (k : annotation_kind) (c : string) : annotation := {| an_kind := k; an_args := [EIdent (N := source_ast) (lit c) un_sp]; an_span := un_sp |}.
Definition int_fun (anns : list annotation) (qs : list qualifier) (name : string) (body : sexpr) : function_source :=
  FunctionSource (Decl anns qs (lit name) un_sp) (Some (tn_basic (lit "Int32"))) [ParamSource [] (lit "n") (tn_basic (lit "Int32"))]
    (Some [EReturn (Some body) un_sp]) un_sp.
Definition evar (n : string) : sexpr := EIdent (N := source_ast) (lit n) un_sp.
Definition ecall (n : string) (l : list sexpr) : sexpr := ECall (N := source_ast) (lit n) [] l un_sp.
Definition un_module : source_module := SourceModule None []
  [EntryFunction (int_fun [ann AWrapMethod "Animal"] [] "speak" (ecall "wrappedMethod" [evar "n"]));
   EntryFunction (int_fun [ann AAddMethod "Cat"] [] "purr" (EMethodCall (N := source_ast) (EThis un_sp) (lit "speak") [evar "n"] un_sp));
   EntryFunction (int_fun [ann AReplaceGlobal "Cat"] [] "G" (ecall "H" [evar "n"]));
   EntryFunction (int_fun [] [] "H" (evar "n"));
   EntryLet (FieldSource (Decl [ann AAddField "Cat"] [] (lit "lives") un_sp) (tn_basic (lit "Int32")) (Some (EConstant (CI32 9) un_sp)));
   EntryClass false (ClassSource (Decl [] [] (lit "Dog") un_sp) (Some (lit "Animal")) [MemberFunction (int_fun [] [] "bark" (evar "n"))] un_sp);
   EntryEnum (EnumSource (Decl [] [] (lit "Mood") un_sp) [(lit "Good", 0)] un_sp)].
Definition un_env : env := Env [] 60 (fun l => l) (fun l => l) (fun l => l) (fun l => l) (fun _ => []) (fun _ => []).

Lemma un_proper : proper un_pool.
Proof.
  assert (A : forall i d, def_at un_pool i = Some d -> exists n, def_name un_pool i = Done n).
  { intros i d D. pose proof (at_bounds _ _ _ D) as B. change (size un_pool) with 23 in B.
    assert (X : forallb (fun i => match def_name un_pool (Z.of_nat i) with Done _ => true | _ => false end) (seq 0 23) = true) by (vm_compute; reflexivity).
    rewrite forallb_forall in X. specialize (X (Z.to_nat i)). rewrite Z2Nat.id in X by lia. specialize (X ltac:(apply in_seq; lia)).
    destruct (def_name un_pool i); [eauto|discriminate]. }
  split; [exact A|]. intros c f (k & K & M). apply class_at in K as (d & D & V). pose proof (at_bounds _ _ _ D) as B. change (size un_pool) with 23 in B.
  assert (X : forallb (fun i => match def_at un_pool (Z.of_nat i) with
    | Some d => match df_value d with DClass k => forallb (fun f => match def_at un_pool f with
        | Some e => match df_value e with DFunction _ => df_parent e =? Z.of_nat i | _ => false end | None => false end) (cl_functions k) | _ => true end
    | None => true end) (seq 0 23) = true) by (vm_compute; reflexivity).
  rewrite forallb_forall in X. specialize (X (Z.to_nat c)). rewrite Z2Nat.id in X by lia. specialize (X ltac:(apply in_seq; lia)).
  rewrite D, V in X. rewrite forallb_forall in X. specialize (X _ M). destruct (def_at un_pool f) as [e|]; [|discriminate].
  destruct (df_value e) eqn:W; try discriminate. apply Z.eqb_eq in X. eauto 6.
Qed.
Lemma un_fair : fair un_env.
Proof. repeat split; intros; apply Permutation_refl. Qed.
Definition un_result : output := Eval vm_compute in match compile un_env [un_module] un_pool with Done o => o | Fail _ => Output un_pool [] [] end.
Definition un_assembled : pool := Eval vm_compute in match assembled un_env [un_module] un_pool with Done q => q | Fail _ => un_pool end.
Lemma un_acyclic : acyclic un_assembled.
Proof.
  split; [intros k H; discriminate H|]. intros c k G.
  assert (N : chain un_assembled 0 []) by constructor.
  assert (H1 : chain un_assembled 21 [21]) by (econstructor; [discriminate|vm_compute; reflexivity|exact N]).
  assert (H2 : chain un_assembled 13 [13; 21]) by (econstructor; [discriminate|vm_compute; reflexivity|exact H1]).
  assert (H3 : chain un_assembled 14 [14; 13; 21]) by (econstructor; [discriminate|vm_compute; reflexivity|exact H2]).
  assert (H4 : chain un_assembled 22 [22; 21]) by (econstructor; [discriminate|vm_compute; reflexivity|exact H1]).
  assert (H5 : chain un_assembled 28 [28; 13; 21]) by (econstructor; [discriminate|vm_compute; reflexivity|exact H2]).
  apply class_at in G as (d & D & V). pose proof (at_bounds _ _ _ D) as B.
  assert (X : forallb (fun i => match def_at un_assembled (Z.of_nat i) with
    | Some d => match df_value d with DClass _ => existsb (Nat.eqb i) [21; 13; 14; 22; 28]%nat | _ => true end
    | None => true end) (seq 0 (length (pl_defs un_assembled))) = true) by (vm_compute; reflexivity).
  rewrite forallb_forall in X. specialize (X (Z.to_nat c)). rewrite Z2Nat.id in X by lia. specialize (X ltac:(apply in_seq; unfold size in B; lia)).
  rewrite D, V in X. apply existsb_exists in X as (n & In & En). apply Nat.eqb_eq in En. assert (c = Z.of_nat n) as -> by lia.
  repeat destruct In as [<-|In]; try (eexists; eassumption). destruct In.
Qed.
Definition code_at (p : pool) (i : pidx) : list (instr Z) := match get_function p i with Done f => fu_code f | Fail _ => [] end.
(** A module that wraps, adds and replaces functions, adds a field and declares a
    function, a class and an enum: the code of the wrapped and the replaced function
    is new and two classes have new members.  The two classes and IScriptable are
    moved; the rest is as it was. *)
Example C48_nonvacuous : proper un_pool /\ fair un_env /\ compile un_env [un_module] un_pool = Done un_result /\ fits (out_pool un_result) /\
  out_diags un_result = [] /\ assembled un_env [un_module] un_pool = Done un_assembled /\ acyclic un_assembled /\
  (length (pl_defs un_assembled) < ev_fuel un_env)%nat /\
  code_at un_pool 18 = [Return; Param 19; Nop] /\ code_at (out_pool un_result) 18 = [Return; InvokeStatic (Loc := Z) 25 0 26 0; Param 32; ParamEnd; Nop] /\
  code_at un_pool 16 = [Return; Param 17; Nop] /\ code_at (out_pool un_result) 16 = [Return; InvokeVirtual (Loc := Z) 25 0 21 0; Param 37; ParamEnd; Nop] /\
  Forall (fun i => def_at (out_pool un_result) i = def_at un_pool i) [0; 1; 2; 3; 4; 5; 6; 7; 8; 9; 10; 11; 12; 17; 19; 20].
Proof.
  split; [exact un_proper|]. split; [exact un_fair|]. split; [vm_compute; reflexivity|]. split; [vm_compute; split; reflexivity|]. split; [reflexivity|].
  split; [vm_compute; reflexivity|]. split; [exact un_acyclic|]. split; [apply Nat.ltb_lt; vm_compute; reflexivity|].
  split; [vm_compute; reflexivity|]. split; [vm_compute; reflexivity|]. split; [vm_compute; reflexivity|]. split; [vm_compute; reflexivity|].
  repeat (constructor; [vm_compute; reflexivity|]). constructor.
Qed.
