(** Typing properties: C20, C21, C23. *)
From Coq Require Import String.
From Coq Require Import ZArith List Bool Lia.
From Verif Require Import Bytes Bytecode Definitions Bundle BundleFacts Ast TypeNames Pool Scope TypeCheck TypingSpec
  TypingFacts MemberFacts.
Import ListNotations.
Open Scope Z_scope.

(** A pool with Animal (1, field name 4, method 6 speak), Cat (2) and Dog (3)
    extending it (Dog redeclares the field, 5, and the method, 7), and the
    unrelated Rock (8). *)
Definition ex_class (base : pidx) (fields functions : list pidx) : any_def :=
  DClass {| cl_visibility := Public; cl_flags := 0; cl_base := base; cl_functions := functions;
            cl_fields := fields; cl_overrides := [] |}.
Definition ex_field : any_def :=
  DField {| fi_visibility := Public; fi_type := 9; fi_flags := 0; fi_hint := None; fi_attributes := []; fi_defaults := [] |}.
Definition ex_fun : any_def :=
  DFunction {| fu_visibility := Public; fu_flags := 0; fu_source := None; fu_return_type := None; fu_unk1 := false;
               fu_base_method := None; fu_parameters := []; fu_locals := []; fu_operator := None; fu_cast := 0;
               fu_code := []; fu_unk2 := [] |}.
Definition ex_def (name parent : Z) (v : any_def) : definition :=
  {| df_name := name; df_parent := parent; df_unk1 := 0; df_unk2 := 0; df_unk3 := 0; df_value := v |}.
Definition ex_pool : pool :=
  {| pl_names := {| st_list := [lit ""; lit "Animal"; lit "Cat"; lit "Dog"; lit "name"; lit "Rock"; lit "speak;"; lit "Int32"]; st_map := [] |};
     pl_tweakdb := empty_strings; pl_resources := empty_strings; pl_strings := empty_strings;
     pl_defs := [default_definition; ex_def 1 0 (ex_class 0 [4] [6]); ex_def 2 0 (ex_class 1 [] []);
                 ex_def 3 0 (ex_class 1 [5] [7]); ex_def 4 1 ex_field; ex_def 4 3 ex_field;
                 ex_def 6 1 ex_fun; ex_def 6 3 ex_fun; ex_def 5 0 (ex_class 0 [] []); ex_def 7 0 (DType TPrim)] |}.
Lemma ex_chain_animal : chain ex_pool 1 [1].
Proof. econstructor; [discriminate|reflexivity|constructor]. Qed.
Lemma ex_chain_cat : chain ex_pool 2 [2; 1].
Proof. econstructor; [discriminate|reflexivity|exact ex_chain_animal]. Qed.
Lemma ex_chain_dog : chain ex_pool 3 [3; 1].
Proof. econstructor; [discriminate|reflexivity|exact ex_chain_animal]. Qed.

(** * C20 *)

(** The conversion found is exactly the one the language rules allow. *)
Theorem C20_conversion_exact : forall p from to, grounded p from ->
  exists r, find_conversion p from to = Done r /\ forall c, r = Some c <-> converts p from to c.
Proof. intros p from to. apply find_conversion_ok. Qed.
Print Assumptions C20_conversion_exact.

Theorem C20_conversion_unique : forall p a b c1 c2, grounded p a ->
  converts p a b c1 -> converts p a b c2 -> c1 = c2.
Proof. exact converts_det. Qed.
Print Assumptions C20_conversion_unique.

(** The converted expression has a type usable as the target type. *)
Theorem C20_converted_type : forall p s e from to c, type_of e s p = Done from -> converts p from to c ->
  exists t, type_of (insert_conversion e to c) s p = Done t /\ subsumes p t to /\
            (c <> Identity -> t = to) /\ (c = Identity -> insert_conversion e to c = e).
Proof.
  intros p s e from to c He H.
  destruct c; cbn [insert_conversion type_of].
  - exists from. split; [exact He|]. inversion H; subst. split; [assumption|]. split; [congruence|reflexivity].
  - exists to. split; [reflexivity|]. split; [constructor|]. split; [reflexivity|discriminate].
  - exists to. split; [reflexivity|]. split; [constructor|]. split; [reflexivity|discriminate].
  - exists to. split; [reflexivity|]. split; [constructor|]. split; [reflexivity|discriminate].
  - exists to. split; [reflexivity|]. split; [constructor|]. split; [reflexivity|discriminate].
Qed.
Print Assumptions C20_converted_type.

(** Wherever an expression is checked against a type: the conversion is inserted
    if one is allowed; otherwise a type error at that expression is reported, and
    nothing else happens. *)
Theorem C20_conversion_inserted : forall rec e to st x st',
  check_and_convert rec e to st = Done (x, st') ->
  exists checked st1 from, rec e (Some to) st = Done (checked, st1) /\
    type_of checked (ts_scope st1) (ts_pool st1) = Done from /\
    (grounded (ts_pool st1) from ->
      (exists c, converts (ts_pool st1) from to c /\ x = insert_conversion checked to c /\ st' = st1) \/
      ((forall c, ~ converts (ts_pool st1) from to c) /\ x = checked /\
       exists fn tn, ti_pretty (ts_pool st1) from = Done fn /\ ti_pretty (ts_pool st1) to = Done tn /\
         ts_diags st' = ts_diags st1 ++ [DCompileError (TypeError fn tn) (expr_span e)] /\
         ts_pool st' = ts_pool st1 /\ ts_scope st' = ts_scope st1 /\ ts_locals st' = ts_locals st1)).
Proof.
  intros rec e to st x st'. unfold check_and_convert, mbind, reading.
  destruct (rec e (Some to) st) as [[checked st1]|]; [|discriminate].
  destruct (type_of checked (ts_scope st1) (ts_pool st1)) as [from|] eqn:Et; [|discriminate].
  destruct (find_conversion (ts_pool st1) from to) as [r|] eqn:Ef; [|discriminate].
  intros H. exists checked, st1, from. split; [reflexivity|]. split; [exact Et|]. intros Hg.
  destruct (find_conversion_ok (ts_pool st1) to from Hg) as (r' & Er & Hr). rewrite Ef in Er. injection Er as <-.
  destruct r as [c|].
  - left. exists c. injection H as <- <-. split; [now apply Hr|auto].
  - right. split; [intros c Hc; apply Hr in Hc; discriminate|].
    destruct (ti_pretty (ts_pool st1) from) as [fn|]; [|discriminate]. cbn in H.
    destruct (ti_pretty (ts_pool st1) to) as [tn|]; [|discriminate].
    cbn in H. injection H as <- <-. split; [reflexivity|]. exists fn, tn. cbn. auto 8.
Qed.
Print Assumptions C20_conversion_inserted.

Example C20_example :
  grounded ex_pool (TIRef (TIClass 2)) /\
  find_conversion ex_pool (TIRef (TIClass 2)) (TIWeakRef (TIClass 1)) = Done (Some RefToWeakRef) /\
  find_conversion ex_pool (TIRef (TIClass 2)) (TIRef (TIClass 3)) = Done None /\
  find_conversion ex_pool (TIRef (TIClass 2)) (TIScriptRef (TIRef (TIClass 1))) = Done (Some ToScriptRef) /\
  find_conversion ex_pool TINull (TIWeakRef (TIClass 8)) = Done (Some RefToWeakRef).
Proof. split; [cbn; split; [discriminate|eexists; apply ex_chain_cat]|]. repeat split; reflexivity. Qed.

(** * C21 *)

(** Unification gives a common supertype below every other common supertype, and
    fails only if there is none. *)
Theorem C21_least_common_type : forall p a b, grounded p a -> grounded p b -> proper a -> proper b ->
  match lub p a b with
  | Done r => below p a r /\ below p b r /\ forall t, below p a t -> below p b t -> below p r t
  | Fail _ => forall t, ~ (below p a t /\ below p b t)
  end.
Proof.
  intros p a b Ha Hb Pa Pb. pose proof (lub_lemma p a b Ha Hb Pa Pb) as H.
  destruct (lub p a b); [exact H|]. intros t [H1 H2]. exact (H t H1 H2).
Qed.
Print Assumptions C21_least_common_type.

(** The order of the branches does not matter. *)
Theorem C21_commutative : forall p a b r, lub p a b = Done r <-> lub p b a = Done r.
Proof. intros p a b r. split; apply lub_comm. Qed.
Print Assumptions C21_commutative.

(** [below] is what conversion accepts without a change of representation, and
    null used as a weak reference. *)
Theorem C21_below_converts : forall p a b, below p a b -> converts p a b Identity \/ (a = TINull /\ converts p a b RefToWeakRef).
Proof. intros p a b [H|(-> & t & ->)]; [left; now constructor|right; split; [reflexivity|constructor]]. Qed.
Print Assumptions C21_below_converts.

(** Without the restriction on null the claim fails: the result of unifying
    references to null and to a weak reference is not a supertype of the first. *)
Theorem C21_nested_null_refuted : exists p a b r, grounded p a /\ grounded p b /\ lub p a b = Done r /\ ~ below p a r.
Proof.
  exists ex_pool, (TIRef TINull), (TIRef (TIWeakRef (TIClass 1))), (TIRef (TIWeakRef (TIClass 1))).
  split; [exact I|]. split; [cbn; split; [discriminate|eexists; apply ex_chain_animal]|]. split; [reflexivity|].
  intros [H|(H & _)]; [|discriminate]. inversion H; subst. inversion H2.
Qed.
Print Assumptions C21_nested_null_refuted.

Example C21_example :
  grounded ex_pool (TIRef (TIClass 2)) /\ grounded ex_pool (TIRef (TIClass 3)) /\ proper (TIRef (TIClass 2)) /\
  lub ex_pool (TIRef (TIClass 2)) (TIRef (TIClass 3)) = Done (TIRef (TIClass 1)) /\
  lub ex_pool (TIClass 2) (TIClass 8) = Fail (UnificationFailed (lit "Cat") (lit "Rock")) /\
  lub ex_pool TINull (TIWeakRef (TIClass 2)) = Done (TIWeakRef (TIClass 2)).
Proof.
  split; [cbn; split; [discriminate|eexists; apply ex_chain_cat]|].
  split; [cbn; split; [discriminate|eexists; apply ex_chain_dog]|].
  split; [right; exact I|]. repeat split; reflexivity.
Qed.

(** * C23 *)

(** Field lookup returns the first field with that name of the nearest class
    that has one, and fails exactly if no class on the chain has one. *)
Theorem C23_nearest_field : forall p n c l, chain p c l -> c <> UNDEFINED -> named_members p l ->
  match resolve_field p n c with
  | Done f => exists pre d post, l = pre ++ d :: post /\ first_named p n (class_fields p d) f /\
                (forall x, In x pre -> ~ has_field p n x)
  | Fail e => (forall x, In x l -> ~ has_field p n x) /\ exists cn, def_name p c = Done cn /\ e = MemberNotFound n cn
  end.
Proof.
  intros p n c l H Hc Hm. apply resolve_field_lemma; try assumption.
  pose proof (chain_length _ _ _ H). unfold pool_fuel. lia.
Qed.
Print Assumptions C23_nearest_field.

(** Method lookup returns all methods with that name, class by class from the
    receiver's class upwards, and fails exactly if there is none. *)
Theorem C23_methods : forall p n c l, chain p c l -> c <> UNDEFINED -> named_members p l ->
  match resolve_method p n c with
  | Done fs => fs = flat_map (methods_named p n) l /\ fs <> []
  | Fail e => (forall x, In x l -> methods_named p n x = []) /\ exists cn, def_name p c = Done cn /\ e = MethodNotFound n cn
  end.
Proof.
  intros p n c l H Hc Hm. unfold resolve_method.
  rewrite (resolve_method_loop_spec p n l) by (try assumption; pose proof (chain_length _ _ _ H); unfold pool_fuel; lia).
  cbn [obind]. destruct (flat_map _ l) eqn:E.
  - inversion H as [|? k l' _ _ _]; subst; [congruence|].
    destruct (Hm c (or_introl eq_refl)) as ((cn & Ecn) & _). rewrite Ecn. cbn. split; [|eauto].
    intros x Hx. destruct (methods_named p n x) as [|f fs] eqn:Ef; [reflexivity|].
    assert (In f (flat_map (methods_named p n) (c :: l'))) as Hin.
    { apply in_flat_map. exists x. split; [exact Hx|]. rewrite Ef. now left. }
    rewrite E in Hin. destruct Hin.
  - split; [reflexivity|discriminate].
Qed.
Print Assumptions C23_methods.

Lemma ex_named_members : named_members ex_pool [3; 1].
Proof.
  intros c [<-|[<-|[]]]; (split; [eexists; reflexivity|]); split; intros f Hf; cbn in Hf;
    repeat destruct Hf as [<-|Hf]; try contradiction; eexists; reflexivity.
Qed.
Example C23_example :
  chain ex_pool 3 [3; 1] /\ named_members ex_pool [3; 1] /\
  resolve_field ex_pool (lit "name") 3 = Done 5 /\
  resolve_method ex_pool (lit "speak") 3 = Done [7; 6] /\
  resolve_field ex_pool (lit "age") 3 = Fail (MemberNotFound (lit "age") (lit "Dog")).
Proof. split; [apply ex_chain_dog|]. split; [apply ex_named_members|]. repeat split; reflexivity. Qed.
