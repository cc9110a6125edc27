(** Type indices: C40. *)
From Coq Require Import String.
From Coq Require Import ZArith List Bool Lia.
From Verif Require Import Bytes Bytecode Definitions Bundle BundleFacts Ast TypeNames Pool Scope PoolSpec PoolFacts TypeIndexSpec TypeIndexFacts.
Import ListNotations.
Open Scope Z_scope.

(** A scope starts out knowing the types of the pool by their names. *)
Theorem C40_initial_scope p s : scope_new p = Done s -> types_named s p.
Proof. apply scope_new_named. Qed.
Print Assumptions C40_initial_scope.

(** C40, first part, for every type: the index is that of a definition with the
    type's name; everything else in the pool and the scope is unchanged; asking
    again, now or after any further requests and additions, gives the same index
    and changes nothing. *)
Theorem C40_same_index_again t s p i s' p' :
  get_type_index t s p = Done (i, s', p') -> pool_ok p -> types_named s p -> small p' ->
  extends p p' /\ pool_ok p' /\ types_named s' p' /\
  s' = set_types s (sc_types s') /\
  (forall n j, am_find (sc_types s) n = Some j -> am_find (sc_types s') n = Some j) /\
  (exists n, ti_repr p t = Done n /\ def_name p' i = Done n) /\
  forall s2 p2, later (s', p') (s2, p2) -> small p2 ->
    def_name p2 i = def_name p' i /\ get_type_index t s2 p2 = Done (i, s2, p2).
Proof.
  intros H Hok Ht Hs. pose proof (inner_extends _ _ _ _ _ _ H) as He.
  destruct (request_names _ _ _ _ _ _ H Hok Hs Ht) as (R1 & R2 & R3 & n & R4 & R5 & R6).
  split; [exact He|]. split; [exact R1|]. split; [exact R2|]. split; [eapply request_scope; exact H|].
  split; [exact (proj2 R3)|]. split; [eauto|].
  intros s2 p2 L Hs2. destruct (later_grows _ _ L) as (L1 & L2). cbn [fst snd] in *.
  destruct (L2 R1 Hs2 R2) as (_ & _ & _ & L3).
  split; [rewrite R5; eapply extends_def_name; eauto|].
  rewrite gti_eq. rewrite (extends_repr p p2 t n (extends_trans _ _ _ He L1) R4). cbn [pc map_err obind].
  now rewrite (L3 _ _ R6).
Qed.
Print Assumptions C40_same_index_again.

(** C40, second part: the index denotes the type, now and after any further
    requests and additions. *)
Theorem C40_index_denotes_type t s p i s' p' :
  get_type_index t s p = Done (i, s', p') -> pool_ok p -> types_shaped s p -> known s p t -> small p' ->
  types_shaped s' p' /\
  forall s2 p2, later (s', p') (s2, p2) -> small p2 -> resolve_type_from_pool s2 p2 i = Done t.
Proof.
  intros H Hok Ht Hk Hs. pose proof (inner_extends _ _ _ _ _ _ H) as He.
  destruct (request_names _ _ _ _ _ _ H Hok Hs (types_shaped_named _ _ Ht)) as (R1 & R2 & R3 & _).
  destruct (request_shapes _ _ _ _ _ _ H Hok Hs Hk Ht) as (W1 & n & W2 & W3).
  split; [exact W1|]. intros s2 p2 L Hs2. destruct (later_grows _ _ L) as (L1 & L2). cbn [fst snd] in *.
  destruct (L2 R1 Hs2 R2) as (_ & _ & L3).
  eapply shaped_resolve.
  - eapply known_grows; [exact L1|exact L3|]. eapply known_grows; [exact He|exact R3|exact Hk].
  - eapply extends_repr; [|exact W2]. eauto using extends_trans.
  - eapply shaped_grows; eauto.
Qed.
Print Assumptions C40_index_denotes_type.

(** A request fails only for null, void and types whose names are not in the pool. *)
Theorem C40_total s p t : known s p t -> exists i s' p', get_type_index t s p = Done (i, s', p').
Proof.
  revert s p. induction t; intros s p Hk; rewrite gti_eq; try contradiction;
    destruct (known_repr s p p _ (extends_refl p) Hk) as (n & -> & _); cbn [pc map_err obind];
    (destruct (am_find (sc_types s) n); [eauto|]); destruct (add_name p n) as [p1 ni] eqn:Ea; try (do 3 eexists; reflexivity).
  all: pose proof (add_name_extends _ _ _ _ Ea) as He;
       destruct (IHt s p1) as (j & s2 & p2 & E); [eapply known_grows; [exact He|apply scope_grows_refl|]; cbn [known] in Hk; tauto|];
       rewrite E; cbn [obind]; do 3 eexists; reflexivity.
Qed.
Print Assumptions C40_total.

(** C40, third part: a type name resolves to the type it stands for, whether the scope
    has met it before or not. *)
Lemma no_dot n : ~ In x2e n -> last_part n = n.
Proof.
  intros H. unfold last_part. replace (split x2e n) with [n]; [reflexivity|]. symmetry.
  induction n as [|b n IH]; [reflexivity|]. cbn [split]. destruct (Byte.eqb b x2e) eqn:E.
  - apply Byte.byte_dec_bl in E. subst. contradiction H. left. reflexivity.
  - rewrite IH; [reflexivity|]. intros I. apply H. right. exact I.
Qed.
Lemma named_reads s p n t : types_shaped s p -> denotes s p n t -> forall i, shaped s p i (repr n) -> exists l, reads s p i l t.
Proof.
  intros W. induction 1 as [n k F G Pl NV|k F G|n t S Pl ND|n t D IH|n t D IH|n t D IH|n t D IH]; intros i Hs; cbn [repr map join] in Hs.
  - destruct (shaped_plain _ _ _ _ Hs Pl) as (E & [(G' & _ & F')|(G' & N)]).
    + rewrite F in F'. injection F' as <-. eexists. eapply rd_prim; eauto.
    + specialize (W _ _ F). destruct (shaped_plain _ _ _ _ W Pl) as (_ & [(_ & S & _)|(G2 & _)]); [contradiction|congruence].
  - destruct (shaped_plain _ _ _ _ Hs variant_plain) as (E & [(G' & _ & F')|(G' & N)]).
    + rewrite F in F'. injection F' as <-. eexists. eapply rd_variant; eauto.
    + specialize (W _ _ F). destruct (shaped_plain _ _ _ _ W variant_plain) as (_ & [(_ & S & _)|(G2 & _)]); [contradiction|congruence].
  - destruct (shaped_plain _ _ _ _ Hs Pl) as (E & [(G' & N & F')|(G' & N)]); rewrite (no_dot n ND) in N; [congruence|].
    eexists. eapply rd_class; eauto. rewrite (no_dot n ND). exact S.
  - remember (lit "ref" ++ lit ":" ++ repr n) as x eqn:E.
    destruct Hs as [? q ? ? Hp|? q ? ? Hp|? j' m' Hg Hd Hi|? j' m' Hg Hd Hi|? j' m' Hg Hd Hi|? j' m' Hg Hd Hi|? j' m' k Hg Hd Hi Hc ?]; subst;
    try (exfalso; destruct Hp as [Hp _]; apply Hp; cbn; tauto);
    try (exfalso; apply (static_no_colon m' k Hc); rewrite E; cbn; tauto); try discriminate E; injection E as ->.
    destruct (IH _ Hi) as (l & R). eexists. econstructor; eassumption.
  - remember (lit "wref" ++ lit ":" ++ repr n) as x eqn:E.
    destruct Hs as [? q ? ? Hp|? q ? ? Hp|? j' m' Hg Hd Hi|? j' m' Hg Hd Hi|? j' m' Hg Hd Hi|? j' m' Hg Hd Hi|? j' m' k Hg Hd Hi Hc ?]; subst;
    try (exfalso; destruct Hp as [Hp _]; apply Hp; cbn; tauto);
    try (exfalso; apply (static_no_colon m' k Hc); rewrite E; cbn; tauto); try discriminate E; injection E as ->.
    destruct (IH _ Hi) as (l & R). eexists. econstructor; eassumption.
  - remember (lit "array" ++ lit ":" ++ repr n) as x eqn:E.
    destruct Hs as [? q ? ? Hp|? q ? ? Hp|? j' m' Hg Hd Hi|? j' m' Hg Hd Hi|? j' m' Hg Hd Hi|? j' m' Hg Hd Hi|? j' m' k Hg Hd Hi Hc ?]; subst;
    try (exfalso; destruct Hp as [Hp _]; apply Hp; cbn; tauto);
    try (exfalso; apply (static_no_colon m' k Hc); rewrite E; cbn; tauto); try discriminate E; injection E as ->.
    destruct (IH _ Hi) as (l & R). eexists. econstructor; eassumption.
  - remember (lit "script_ref" ++ lit ":" ++ repr n) as x eqn:E.
    destruct Hs as [? q ? ? Hp|? q ? ? Hp|? j' m' Hg Hd Hi|? j' m' Hg Hd Hi|? j' m' Hg Hd Hi|? j' m' Hg Hd Hi|? j' m' k Hg Hd Hi Hc ?]; subst;
    try (exfalso; destruct Hp as [Hp _]; apply Hp; cbn; tauto);
    try (exfalso; apply (static_no_colon m' k Hc); rewrite E; cbn; tauto); try discriminate E; injection E as ->.
    destruct (IH _ Hi) as (l & R). eexists. econstructor; eassumption.
Qed.
Theorem C40_name_denotes_type s p n t : types_shaped s p -> denotes s p n t -> resolve_type s p n = Done t.
Proof.
  intros W D.
  assert (K : forall i n t, denotes s p n t -> am_find (sc_types s) (repr n) = Some i -> resolve_type_from_pool s p i = Done t).
  { intros i n0 t0 D0 F. destruct (named_reads _ _ _ _ W D0 _ (W _ _ F)) as (l & R).
    eapply reads_resolve; [exact R|]. pose proof (reads_length _ _ _ _ _ R). unfold pool_fuel. lia. }
  induction D as [n k F G Pl NV|k F G|n t S Pl ND|n t D IH|n t D IH|n t D IH|n t D IH].
  1-2: cbn [resolve_type]; cbn [repr]; rewrite F; match type of F with am_find _ ?n = _ => apply (K _ (TypeName n None) _) with (2 := F) end; econstructor; eassumption.
  all: match goal with |- resolve_type ?u ?v ?m = Done ?r =>
         assert (D' : denotes u v m r) by (econstructor; eassumption); destruct (am_find (sc_types u) (repr m)) as [i|] eqn:F end;
    [cbn [resolve_type]; rewrite F; exact (K _ _ _ D' F)|].
  - cbn [resolve_type]. rewrite F. cbn [repr]. now rewrite S.
  - cbn [resolve_type]. rewrite F. cbn. now rewrite IH.
  - cbn [resolve_type]. rewrite F. cbn. now rewrite IH.
  - cbn [resolve_type]. rewrite F. cbn. now rewrite IH.
  - cbn [resolve_type]. rewrite F. cbn. now rewrite IH.
Qed.
Print Assumptions C40_name_denotes_type.

(** A pool with the primitive type Int32 and the class Foo; the composed types are
    not in it yet. *)
Definition ti_pool : pool :=
  {| pl_names := {| st_list := [none_str; lit "Int32"; lit "Foo"]; st_map := [(none_str, 0); (lit "Int32", 1); (lit "Foo", 2)] |};
     pl_tweakdb := empty_strings; pl_resources := empty_strings; pl_strings := empty_strings;
     pl_defs := [default_definition; type_definition 1 TPrim;
                 {| df_name := 2; df_parent := 0; df_unk1 := 0; df_unk2 := 0; df_unk3 := 0;
                    df_value := DClass {| cl_visibility := Public; cl_flags := 0; cl_base := 0; cl_functions := [];
                                          cl_fields := []; cl_overrides := [] |} |}] |}.
Definition ti_scope : scope :=
  {| sc_symbols := [(lit "Foo", SClass 2 Public)]; sc_references := []; sc_types := [(lit "Int32", 1)];
     sc_this := None; sc_function := None |}.
Definition ti_type : typeid := TIArray (TIRef (TIClass 2)).

Lemma ti_pool_ok : pool_ok ti_pool.
Proof.
  assert (E : indexed None empty_strings) by (split; [discriminate|split; [intros s []|exact I]]).
  split; [|auto]. split; [|split; [intros s [<-|[<-|[<-|[]]]]; eexists; reflexivity|reflexivity]].
  intros s i. cbn [ti_pool pl_names st_map st_list sm_find].
  destruct (str_eqb_spec none_str s) as [<-|]; [intros [= <-]; split; [lia|reflexivity]|].
  destruct (str_eqb_spec (lit "Int32") s) as [<-|]; [intros [= <-]; split; [lia|reflexivity]|].
  destruct (str_eqb_spec (lit "Foo") s) as [<-|]; [intros [= <-]; split; [lia|reflexivity]|]. discriminate.
Qed.

(** The states after asking for [ti_type] and then for an array of four numbers. *)
Definition after (t : typeid) (x : scope * pool) : scope * pool :=
  match get_type_index t (fst x) (snd x) with Done (_, s, p) => (s, p) | Fail _ => x end.
Definition ti_state1 : scope * pool := Eval vm_compute in after ti_type (ti_scope, ti_pool).
Definition ti_state2 : scope * pool := Eval vm_compute in after (TIStaticArray (TIPrim 1) 4) ti_state1.

Example C40_example :
  get_type_index ti_type ti_scope ti_pool = Done (5, fst ti_state1, snd ti_state1) /\
  length (pl_defs (snd ti_state1)) = 6%nat /\
  get_type_index ti_type (fst ti_state1) (snd ti_state1) = Done (5, fst ti_state1, snd ti_state1) /\
  pool_ok ti_pool /\ types_named ti_scope ti_pool /\ types_shaped ti_scope ti_pool /\ known ti_scope ti_pool ti_type /\
  small (snd ti_state1) /\
  get_type_index (TIStaticArray (TIPrim 1) 4) (fst ti_state1) (snd ti_state1) = Done (6, fst ti_state2, snd ti_state2) /\
  later (fst ti_state1, snd ti_state1) (fst ti_state2, snd ti_state2) /\ small (snd ti_state2) /\
  resolve_type_from_pool (fst ti_state2) (snd ti_state2) 5 = Done ti_type.
Proof.
  assert (Pl : plain_type_name (lit "Int32") /\ plain_type_name (lit "Foo")).
  { split; split; cbn; intros H; repeat destruct H as [H|H]; try discriminate; contradiction. }
  assert (Hsh : types_shaped ti_scope ti_pool).
  { intros n i. cbn [ti_scope sc_types am_find]. destruct (str_eqb_spec (lit "Int32") n) as [<-|]; [|discriminate].
    intros [= <-]. apply sh_prim; try reflexivity. apply Pl. }
  assert (G : get_type_index (TIStaticArray (TIPrim 1) 4) (fst ti_state1) (snd ti_state1) = Done (6, fst ti_state2, snd ti_state2))
    by (vm_compute; reflexivity).
  split; [vm_compute; reflexivity|]. split; [reflexivity|]. split; [vm_compute; reflexivity|]. split; [apply ti_pool_ok|].
  split; [now apply types_shaped_named|]. split; [exact Hsh|].
  split; [exists (lit "Foo"); split; [reflexivity|]; split; [apply Pl|reflexivity]|].
  split; [repeat split|]. split; [exact G|]. split; [eapply later_request; [exact G|apply later_now]|]. split; [repeat split|].
  vm_compute. reflexivity.
Qed.

(** array<wref<Foo>> is new to both scopes, array<ref<Foo>> is known to the second. *)
Example C40_names_example : let array_of n := TypeName (lit "array") (Some [TypeName n (Some [TypeName (lit "Foo") None])]) in
  denotes ti_scope ti_pool (array_of (lit "wref")) (TIArray (TIWeakRef (TIClass 2))) /\
  denotes (fst ti_state1) (snd ti_state1) (array_of (lit "ref")) ti_type /\
  am_find (sc_types ti_scope) (repr (array_of (lit "wref"))) = None /\ am_find (sc_types (fst ti_state1)) (repr (array_of (lit "ref"))) = Some 5 /\
  types_shaped ti_scope ti_pool /\ types_shaped (fst ti_state1) (snd ti_state1).
Proof.
  assert (Pl : plain_type_name (lit "Foo") /\ ~ In x2e (lit "Foo")).
  { split; [split|]; cbn; intros H; repeat destruct H as [H|H]; try discriminate; contradiction. }
  destruct C40_example as (E & _ & _ & H1 & _ & H3 & H4 & H5 & _). cbv zeta.
  split; [apply dn_array, dn_wref, dn_symbol; [reflexivity|apply Pl|apply Pl]|]. split; [apply dn_array, dn_ref, dn_symbol; [reflexivity|apply Pl|apply Pl]|].
  split; [reflexivity|]. split; [reflexivity|]. split; [exact H3|]. apply (C40_index_denotes_type _ _ _ _ _ _ E H1 H3 H4 H5).
Qed.

(** The type names alone do not distinguish an array of three references from a
    reference to an array of three: the second request gets the first one's
    index, which denotes the wrong type.  This is why [known] asks for static
    arrays of types written without a prefix. *)
Definition ti_state3 : scope * pool := Eval vm_compute in after (TIRef (TIStaticArray (TIPrim 1) 3)) (ti_scope, ti_pool).
Theorem C40_static_array_of_references_refuted :
  exists t s p i s' p', types_shaped s p /\ pool_ok p /\ small p' /\
    get_type_index t s p = Done (i, s', p') /\ exists t', resolve_type_from_pool s' p' i = Done t' /\ t' <> t.
Proof.
  exists (TIStaticArray (TIRef (TIPrim 1)) 3), (fst ti_state3), (snd ti_state3), 4, (fst ti_state3), (snd ti_state3).
  destruct C40_example as (_ & _ & _ & H1 & H2 & H3 & _).
  assert (Hk : known ti_scope ti_pool (TIRef (TIStaticArray (TIPrim 1) 3))).
  { cbn [known elementary]. split; [|split; [exact I|lia]]. exists (lit "Int32"). split; [reflexivity|].
    split; [split; cbn; intros H; repeat destruct H as [H|H]; try discriminate; contradiction|].
    split; [discriminate|split; reflexivity]. }
  assert (E : get_type_index (TIRef (TIStaticArray (TIPrim 1) 3)) ti_scope ti_pool = Done (4, fst ti_state3, snd ti_state3))
    by (vm_compute; reflexivity).
  assert (Hs : small (snd ti_state3)) by repeat split.
  split; [apply (request_shapes _ _ _ _ _ _ E H1 Hs Hk H3)|].
  split; [apply (request_names _ _ _ _ _ _ E H1 Hs H2)|]. split; [exact Hs|].
  split; [vm_compute; reflexivity|]. exists (TIRef (TIStaticArray (TIPrim 1) 3)). split; [vm_compute; reflexivity|discriminate].
Qed.
Print Assumptions C40_static_array_of_references_refuted.

(** Two classes whose full names end in the same component: with the second one
    imported as [Foo], the type of the first one reads back as the second. This
    is why [known] asks that the last component of the name refers to the class. *)
Definition ti_scope' : scope :=
  {| sc_symbols := [(lit "Foo", SClass 7 Public)]; sc_references := []; sc_types := [(lit "Int32", 1)];
     sc_this := None; sc_function := None |}.
Definition ti_state4 : scope * pool := Eval vm_compute in after (TIClass 2) (ti_scope', ti_pool).
Theorem C40_shadowed_class_refuted :
  exists c k s p i s' p', types_shaped s p /\ pool_ok p /\ small p' /\ get_class p c = Done k /\
    get_type_index (TIClass c) s p = Done (i, s', p') /\ exists t', resolve_type_from_pool s' p' i = Done t' /\ t' <> TIClass c.
Proof.
  exists 2. eexists. exists ti_scope', ti_pool, 3, (fst ti_state4), (snd ti_state4).
  split; [|split; [apply ti_pool_ok|]].
  - intros n i. cbn [sc_types am_find ti_scope']. destruct (str_eqb_spec (lit "Int32") n) as [<-|]; [|discriminate].
    intros [= <-]. apply sh_prim; try reflexivity.
    split; cbn; intros H; repeat destruct H as [H|H]; try discriminate; contradiction.
  - split; [repeat split|]. split; [reflexivity|]. split; [vm_compute; reflexivity|].
    exists (TIClass 7). split; [vm_compute; reflexivity|discriminate].
Qed.
Print Assumptions C40_shadowed_class_refuted.

(** Scopes of sibling functions are clones, and do not see each other's requests:
    the same type asked for from two clones gets two definitions. *)
Definition ti_state5 : scope * pool := Eval vm_compute in after ti_type (ti_scope, snd ti_state1).
Theorem C40_sibling_scopes_refuted :
  exists t s p i s1 p1 j s2 p2, types_shaped s p /\ pool_ok p /\ known s p t /\ small p2 /\
    get_type_index t s p = Done (i, s1, p1) /\ get_type_index t s p1 = Done (j, s2, p2) /\ i <> j.
Proof.
  exists ti_type, ti_scope, ti_pool, 5, (fst ti_state1), (snd ti_state1), 8, (fst ti_state5), (snd ti_state5).
  destruct C40_example as (E & _ & _ & H1 & _ & H3 & H4 & _).
  split; [exact H3|]. split; [exact H1|]. split; [exact H4|]. split; [repeat split|]. split; [exact E|].
  split; [vm_compute; reflexivity|discriminate].
Qed.
Print Assumptions C40_sibling_scopes_refuted.
