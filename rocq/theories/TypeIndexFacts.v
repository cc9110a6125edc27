(** Facts about type indices. *)
From Coq Require Import String DecimalString DecimalN DecimalFacts.
From Coq Require Import ZArith NArith List Bool Lia.
From Verif Require Import Bytes BytesFacts Bytecode Definitions Bundle BundleFacts Ast TypeNames Pool Scope PoolSpec PoolFacts
  TypingFacts MemberFacts TypeIndexSpec.
Import ListNotations.
Open Scope Z_scope.

(** * Decimal numbers *)

Lemma list_byte_inj a : forall b, list_byte_of_string a = list_byte_of_string b -> a = b.
Proof.
  intros b H. rewrite <- (string_of_list_byte_of_string a), <- (string_of_list_byte_of_string b). now rewrite H.
Qed.
Lemma dec_inj n m : 0 <= n -> 0 <= m -> dec n = dec m -> n = m.
Proof.
  intros Hn Hm H. unfold dec, lit in H. apply list_byte_inj in H.
  apply (f_equal NilEmpty.uint_of_string) in H. rewrite !NilEmpty.usu in H. injection H as H.
  apply Unsigned.to_uint_inj in H. lia.
Qed.
Lemma uint_chars u : forall b, In b (lit (NilEmpty.string_of_uint u)) -> In b (lit "0123456789").
Proof.
  induction u; cbn [NilEmpty.string_of_uint]; intros b; [intros []|..];
    (intros [<-|H]; [cbn; tauto|exact (IHu b H)]).
Qed.
Lemma dec_chars n b : In b (dec n) -> In b (lit "0123456789").
Proof. apply uint_chars. Qed.
Lemma dec_no_colon n : ~ In x3a (dec n).
Proof. intros H. apply dec_chars in H. cbn in H. repeat destruct H as [H|H]; try discriminate; contradiction. Qed.
Lemma dec_no_bracket n : ~ In x5b (dec n).
Proof. intros H. apply dec_chars in H. cbn in H. repeat destruct H as [H|H]; try discriminate; contradiction. Qed.

Lemma split_last {A} (c : A) : forall a1 a2 b1 b2, ~ In c b1 -> ~ In c b2 -> a1 ++ c :: b1 = a2 ++ c :: b2 -> a1 = a2 /\ b1 = b2.
Proof.
  induction a1 as [|x a1 IH]; intros [|y a2] b1 b2 H1 H2 E; cbn in E.
  - injection E as ->. auto.
  - injection E as -> ->. exfalso. apply H1, in_app_iff. right. now left.
  - injection E as -> <-. exfalso. apply H2, in_app_iff. right. now left.
  - injection E as -> E. destruct (IH _ _ _ H1 H2 E) as [-> ->]. auto.
Qed.

(** * Stability *)

Lemma types_named_extends s p p' : extends p p' -> types_named s p -> types_named s p'.
Proof. intros H G n i E. eapply extends_def_name; eauto. Qed.

(** * One request *)

Lemma gti_eq t s p : get_type_index t s p =
  (let* name := pc (ti_repr p t) in
  match am_find (sc_types s) name with
  | Some i => Done (i, s, p)
  | None =>
    let '(p1, name_idx) := add_name p name in
    let add (value : ty) (s : scope) (p : pool) :=
      let '(p', i) := add_definition p (type_definition name_idx value) in
      Done (i, sc_add_type s name i, p') in
    let nested (inner : typeid) (mk : pidx -> ty) :=
      let* (i, s', p') := get_type_index inner s p1 in add (mk i) s' p' in
    match t with
    | TIPrim _ | TIVariant => add TPrim s p1
    | TIClass _ | TIStruct _ | TIEnum _ => add TClass s p1
    | TIRef inner => nested inner TRef
    | TIWeakRef inner => nested inner TWeakRef
    | TIArray inner => nested inner TArray
    | TIStaticArray inner size => nested inner (fun i => TStaticArray i size)
    | TIScriptRef inner => nested inner TScriptRef
    | TINull | TIVoid => Fail (CauseUnwind Panicked)
    end
  end).
Proof. destruct t; reflexivity. Qed.

(** What inserting the definition does, given the state before it. *)
Lemma am_find_insert {A} (m : amap A) k v n : am_find (am_insert k v m) n = if str_eqb k n then Some v else am_find m n.
Proof. reflexivity. Qed.

Definition scope_grows (s s' : scope) : Prop :=
  sc_symbols s' = sc_symbols s /\ forall n i, am_find (sc_types s) n = Some i -> am_find (sc_types s') n = Some i.

(** The general step: [inner] is the request for the component type, if any. *)
Lemma gti_cases t s p i s' p' : get_type_index t s p = Done (i, s', p') ->
  exists name, ti_repr p t = Done name /\
  (am_find (sc_types s) name = Some i /\ s' = s /\ p' = p \/
   am_find (sc_types s) name = None /\
   exists p1 name_idx s1 p2 value, add_name p name = (p1, name_idx) /\
     add_definition p2 (type_definition name_idx value) = (p', i) /\ s' = sc_add_type s1 name i /\
     match t with
     | TIPrim _ | TIVariant => s1 = s /\ p2 = p1 /\ value = TPrim
     | TIClass _ | TIStruct _ | TIEnum _ => s1 = s /\ p2 = p1 /\ value = TClass
     | TIRef t' => exists j, get_type_index t' s p1 = Done (j, s1, p2) /\ value = TRef j
     | TIWeakRef t' => exists j, get_type_index t' s p1 = Done (j, s1, p2) /\ value = TWeakRef j
     | TIArray t' => exists j, get_type_index t' s p1 = Done (j, s1, p2) /\ value = TArray j
     | TIStaticArray t' n => exists j, get_type_index t' s p1 = Done (j, s1, p2) /\ value = TStaticArray j n
     | TIScriptRef t' => exists j, get_type_index t' s p1 = Done (j, s1, p2) /\ value = TScriptRef j
     | TINull | TIVoid => False
     end).
Proof.
  rewrite gti_eq. destruct (ti_repr p t) as [name|] eqn:En; cbn [pc map_err obind]; [|discriminate].
  destruct (am_find (sc_types s) name) as [k|] eqn:Ef.
  - intros [= <- <- <-]. exists name. auto.
  - destruct (add_name p name) as [p1 name_idx] eqn:Ea. intros H. exists name. split; [reflexivity|].
    right. split; [assumption|]. exists p1, name_idx.
    destruct t; try discriminate.
    1-4,10: injection H as <- <- <-; exists s, p1; eexists; split; [exact Ea|]; split; [reflexivity|]; split; [reflexivity|]; repeat split; reflexivity.
    all: match type of H with context [get_type_index ?x ?y ?z] =>
           destruct (get_type_index x y z) as [[[j s1] p2]|] eqn:Ei; cbn [obind] in H; [|discriminate] end;
         injection H as <- <- <-; exists s1, p2; eexists; split; [exact Ea|]; split; [reflexivity|]; split; [reflexivity|];
         exists j; split; [first [exact Ei|reflexivity]|reflexivity].
Qed.

Lemma add_name_extends p s p1 i : add_name p s = (p1, i) -> extends p p1.
Proof.
  unfold add_name. destruct (st_add _ _ _) as [m j] eqn:E. intros [= <- <-].
  apply extends_set_names. revert E. unfold st_add. destruct (str_eqb none_str s); [intros [= <- _]; apply prefix_refl|].
  destruct (sm_find _ _); intros [= <- _]; [apply prefix_refl|]. now exists [s].
Qed.
Lemma inner_extends t s p : forall i s' p', get_type_index t s p = Done (i, s', p') -> extends p p'.
Proof.
  pose proof add_name_extends as Hn.
  revert s p. induction t; intros s p k s' p' H; apply gti_cases in H as (name & En & [(_ & _ & ->)|(_ & p1 & ni & s1 & p2 & v & Ea & Ed & _ & C)]);
    try apply extends_refl; apply Hn in Ea; apply extends_add_definition in Ed;
    try contradiction;
    try (destruct C as (_ & -> & _); eauto using extends_trans);
    destruct C as (j & C & _); apply IHt in C; eauto using extends_trans.
Qed.

Lemma scope_grows_refl s : scope_grows s s.
Proof. repeat split; auto. Qed.

Lemma add_type_step s s1 p p1 p2 p' name ni v k :
  add_name p name = (p1, ni) -> add_definition p2 (type_definition ni v) = (p', k) -> am_find (sc_types s) name = None ->
  pool_ok p -> small p' -> types_named s p -> extends p1 p2 ->
  (pool_ok p1 -> types_named s p1 -> pool_ok p2 /\ types_named s1 p2 /\ scope_grows s s1) ->
  pool_ok p' /\ types_named (sc_add_type s1 name k) p' /\ scope_grows s (sc_add_type s1 name k) /\
  def_name p' k = Done name /\ get_type p' k = Done v /\ am_find (sc_types (sc_add_type s1 name k)) name = Some k.
Proof.
  intros Ea Ed Ef Hok Hs Ht Hext Hin.
  destruct (add_definition_spec _ _ _ _ Ed Hs) as (X1 & X2 & X3 & X4 & X5 & X6).
  pose proof (extends_small _ _ X1 Hs) as Hs2. pose proof (extends_small _ _ Hext Hs2) as Hs1.
  destruct (add_name_spec _ _ _ _ Ea Hok Hs1) as (Y1 & Y2 & Y3 & Y4).
  destruct (Hin Y1 (types_named_extends _ _ _ Y2 Ht)) as (Z1 & Z2 & Z3 & Z7).
  assert (Nk : def_name p' k = Done name).
  { eapply add_definition_name; [exact Ed|exact Hs|]. cbn [df_name type_definition].
    destruct Hext as (_ & Hext & _). eapply prefix_get; [exact Hext|exact Y3]. }
  split; [auto|]. split.
  { intros n j. cbn [sc_types sc_add_type set_types]. rewrite am_find_insert. destruct (str_eqb_spec name n) as [<-|].
    - intros [= <-]. assumption.
    - intros E. eapply extends_def_name; [exact X1|now apply Z2]. }
  split.
  { split; [exact Z3|].
    intros n j E. cbn [sc_types sc_add_type set_types]. rewrite am_find_insert.
    destruct (str_eqb_spec name n) as [<-|]; [congruence|auto]. }
  split; [exact Nk|]. split.
  - unfold get_type, def_by. rewrite X3. reflexivity.
  - cbn [sc_types sc_add_type set_types]. rewrite am_find_insert. destruct (str_eqb_spec name name); congruence.
Qed.

Lemma request_names t : forall s p i s' p', get_type_index t s p = Done (i, s', p') -> pool_ok p -> small p' -> types_named s p ->
  pool_ok p' /\ types_named s' p' /\ scope_grows s s' /\
  exists n, ti_repr p t = Done n /\ def_name p' i = Done n /\ am_find (sc_types s') n = Some i.
Proof.
  induction t; intros s p k s' p' H Hok Hs Ht;
    apply gti_cases in H as (name & En & [(Ef & -> & ->)|(Ef & p1 & ni & s1 & p2 & v & Ea & Ed & -> & C)]);
    try (split; [assumption|]; split; [assumption|]; split; [apply scope_grows_refl|]; exists name; split; [assumption|]; split; [now apply Ht|assumption]);
    try contradiction.
  all: assert (G : extends p1 p2 /\ (pool_ok p1 -> types_named s p1 -> pool_ok p2 /\ types_named s1 p2 /\ scope_grows s s1));
    [|destruct G as (G1 & G2); destruct (add_type_step _ _ _ _ _ _ _ _ _ _ Ea Ed Ef Hok Hs Ht G1 G2) as (R1 & R2 & R3 & R4 & R5 & R6);
      split; [exact R1|]; split; [exact R2|]; split; [exact R3|]; exists name; auto].
  1-4,10: destruct C as (-> & -> & ->); split; [apply extends_refl|]; auto using scope_grows_refl.
  all: destruct C as (j & C & ->); pose proof (inner_extends _ _ _ _ _ _ C) as Hin;
       split; [exact Hin|]; intros O1 O2;
       destruct (IHt _ _ _ _ _ C O1 (extends_small _ _ (extends_add_definition _ _ _ _ Ed) Hs) O2) as (W1 & W2 & W3 & _); auto.
Qed.

(** * The structure *)

Lemma symbol_type_grows s s' : scope_grows s s' -> symbol_type s' = symbol_type s.
Proof. intros (H & _). unfold symbol_type. now rewrite H. Qed.
Lemma scope_grows_trans a b c : scope_grows a b -> scope_grows b c -> scope_grows a c.
Proof. intros (A1 & A2) (B1 & B2). split; [congruence|auto]. Qed.

Lemma shaped_grows s s' p p' i n : extends p p' -> scope_grows s s' -> shaped s p i n -> shaped s' p' i n.
Proof.
  intros H Hs. pose proof (symbol_type_grows _ _ Hs) as Hy. destruct Hs as (_ & Hs).
  induction 1;
    [apply sh_prim|apply sh_class|eapply sh_ref|eapply sh_wref|eapply sh_array|eapply sh_sref|eapply sh_static];
    eauto using extends_def_name; rewrite ?Hy; auto; (eapply extends_def_by; [eassumption|eassumption]).
Qed.
Lemma known_grows s s' p p' t : extends p p' -> scope_grows s s' -> known s p t -> known s' p' t.
Proof.
  intros H Hs. pose proof (symbol_type_grows _ _ Hs) as Hy. destruct Hs as (_ & Hs).
  induction t; cbn [known]; rewrite ?Hy; auto.
  1: intros (n & A & B & C & D & E); exists n; eauto 10 using extends_def_name.
  1-3: intros (n & A & B & C); exists n; eauto 10 using extends_def_name.
  intuition.
Qed.
Lemma known_repr s p p' t : extends p p' -> known s p t -> exists n, ti_repr p t = Done n /\ ti_repr p' t = Done n.
Proof.
  intros H. induction t; cbn [known ti_repr]; try contradiction.
  1: intros (n & A & _); exists n; eauto using extends_def_name.
  1-3: intros (n & A & _); exists n; eauto using extends_def_name.
  1-3,5: intros K; destruct (IHt K) as (n & -> & ->); cbn [obind]; eexists; split; reflexivity.
  - intros (K & _); destruct (IHt K) as (n & -> & ->); cbn [obind]; eexists; split; reflexivity.
  - eauto.
Qed.

Lemma static_no_colon n k : ~ In x3a n -> ~ In x3a (n ++ lit "[" ++ dec k ++ lit "]").
Proof.
  intros H. rewrite !in_app_iff. intros [G|[G|[G|G]]]; [auto|..].
  - cbn in G. destruct G as [G|[]]. discriminate.
  - now apply dec_no_colon in G.
  - cbn in G. destruct G as [G|[]]. discriminate.
Qed.
Lemma elementary_no_colon s p t : known s p t -> elementary t -> forall n, ti_repr p t = Done n -> ~ In x3a n.
Proof.
  induction t; cbn [known elementary ti_repr]; try contradiction.
  1: intros (n & E & (H & _) & _) _ m E'; congruence.
  1-3: intros (n & E & (H & _) & _) _ m E'; congruence.
  - intros (Hk & He & _) _ n. destruct (ti_repr p t) as [m|]; [|discriminate]. intros [= <-].
    apply static_no_colon. auto.
  - intros _ _ n [= <-]. cbn. intros H. repeat destruct H as [H|H]; try discriminate; contradiction.
Qed.

Lemma static_suffix n k m l : n ++ lit "[" ++ dec k ++ lit "]" = m ++ lit "[" ++ dec l ++ lit "]" -> 0 <= k -> 0 <= l -> n = m /\ k = l.
Proof.
  intros H Hk Hl. change (lit "[") with [x5b] in H. cbn [app] in H.
  apply split_last in H as [H1 H2].
  - apply app_inv_tail in H2. apply dec_inj in H2; auto.
  - rewrite in_app_iff. intros [G|G]; [now apply dec_no_bracket in G|]. cbn in G. destruct G as [G|[]]. discriminate.
  - rewrite in_app_iff. intros [G|G]; [now apply dec_no_bracket in G|]. cbn in G. destruct G as [G|[]]. discriminate.
Qed.
Lemma variant_plain : plain_type_name (lit "Variant").
Proof. split; cbn; intros H; repeat destruct H as [H|H]; try discriminate; contradiction. Qed.

Ltac in_lit := apply in_app_iff; left; cbn; tauto.
Lemma shaped_plain s p i n : shaped s p i n -> plain_type_name n ->
  def_name p i = Done n /\ (get_type p i = Done TPrim /\ symbol_type s (last_part n) = None /\ am_find (sc_types s) n = Some i \/
                            get_type p i = Done TClass /\ symbol_type s (last_part n) <> None).
Proof.
  intros H (H1 & H2). inversion H; subst; auto; exfalso; try (apply H1; in_lit).
  apply H2. apply in_app_iff. right. left. reflexivity.
Qed.

(** Reading the type back from its entry, step by step. *)
Inductive reads (s : scope) (p : pool) : pidx -> list pidx -> typeid -> Prop :=
| rd_prim i n : get_type p i = Done TPrim -> def_name p i = Done n -> n <> lit "Variant" -> reads s p i [i] (TIPrim i)
| rd_variant i : get_type p i = Done TPrim -> def_name p i = Done (lit "Variant") -> reads s p i [i] TIVariant
| rd_class i n t : get_type p i = Done TClass -> def_name p i = Done n -> symbol_type s (last_part n) = Some t -> reads s p i [i] t
| rd_ref i j l t : get_type p i = Done (TRef j) -> reads s p j l t -> reads s p i (i :: l) (TIRef t)
| rd_wref i j l t : get_type p i = Done (TWeakRef j) -> reads s p j l t -> reads s p i (i :: l) (TIWeakRef t)
| rd_array i j l t : get_type p i = Done (TArray j) -> reads s p j l t -> reads s p i (i :: l) (TIArray t)
| rd_sref i j l t : get_type p i = Done (TScriptRef j) -> reads s p j l t -> reads s p i (i :: l) (TIScriptRef t)
| rd_static i j l t k : get_type p i = Done (TStaticArray j k) -> reads s p j l t -> reads s p i (i :: l) (TIStaticArray t k).

Lemma reads_resolve s p i l t : reads s p i l t -> forall fuel, (length l <= fuel)%nat -> resolve_type_from_pool_loop fuel s p i = Done t.
Proof.
  induction 1; (intros [|fuel] Hf; [cbn in Hf; lia|]); cbn [length] in Hf; cbn [resolve_type_from_pool_loop];
    rewrite H; cbn [pc map_err obind omap]; rewrite ?H0; cbn [pc map_err obind omap]; rewrite ?IHreads by lia; cbn [pc map_err obind omap]; try reflexivity.
  - destruct (str_eqb_spec n (lit "Variant")); congruence.
  - now rewrite H1.
Qed.
Lemma reads_bound s p i l t x : reads s p i l t -> In x l -> 0 <= x < Z.of_nat (length (pl_defs p)).
Proof.
  assert (G : forall j v, get_type p j = Done v -> 0 <= j < Z.of_nat (length (pl_defs p))).
  { intros j v. unfold get_type, def_by, nth_def. destruct (Z.ltb_spec j 0); [discriminate|].
    destruct (nth_error _ _) eqn:E; [|discriminate]. intros _. assert (nth_error (pl_defs p) (Z.to_nat j) <> None) as F by congruence.
    apply nth_error_Some in F. lia. }
  induction 1; cbn [In]; intros [<-|Hx]; try contradiction; eauto.
Qed.
Lemma reads_suffix s p i l t : reads s p i l t -> forall x, In x l -> exists l' t', reads s p x l' t' /\ (length l' <= length l)%nat.
Proof.
  induction 1; cbn [In length]; intros x [<-|Hx]; try contradiction;
    try (do 2 eexists; split; [econstructor; eassumption|cbn; lia]);
    destruct (IHreads x Hx) as (l' & t' & R & L); exists l', t'; (split; [exact R|lia]).
Qed.
Lemma reads_det s p i l t : reads s p i l t -> forall l' t', reads s p i l' t' -> l' = l.
Proof.
  induction 1; intros l' t' R; inversion R; subst; try congruence;
  f_equal; match goal with H : get_type _ _ = Done (_ ?a), G : get_type _ _ = Done (_ ?b) |- _ => rewrite G in H; injection H as -> | H : get_type _ _ = Done (_ ?a _), G : get_type _ _ = Done (_ ?b _) |- _ => rewrite G in H; injection H as -> -> end; eauto.
Qed.
Lemma reads_nodup s p i l t : reads s p i l t -> NoDup l.
Proof.
  assert (G : forall i l t, reads s p i l t -> forall j l' t', reads s p j l' t' -> (length l' < length l)%nat -> ~ In i l').
  { intros a m u R b m' u' R' Hl Hi. destruct (reads_suffix _ _ _ _ _ R' _ Hi) as (m2 & u2 & R2 & L2).
    rewrite (reads_det _ _ _ _ _ R _ _ R2) in L2. lia. }
  induction 1; constructor; try (constructor; fail); try (intros []; fail); try assumption.
  all: eapply G; [|eassumption|]; [econstructor; eassumption|cbn; lia].
Qed.
Lemma reads_length s p i l t : reads s p i l t -> (length l <= length (pl_defs p))%nat.
Proof.
  intros H. pose proof (reads_nodup _ _ _ _ _ H) as Hd.
  assert (NoDup (map Z.to_nat l)) as Hd'.
  { assert (forall l', incl l' l -> NoDup l' -> NoDup (map Z.to_nat l')) as G.
    { induction l' as [|x l' IH]; cbn; intros Hi Hx; constructor.
      - inversion Hx; subst. intros Hy. apply in_map_iff in Hy. destruct Hy as (y & E & Hy).
        assert (x = y); [|now subst].
        pose proof (reads_bound _ _ _ _ _ _ H (Hi x (or_introl eq_refl))). pose proof (reads_bound _ _ _ _ _ _ H (Hi y (or_intror Hy))). lia.
      - inversion Hx; subst. apply IH; [|assumption]. intros y Hy. apply Hi. now right. }
    apply G; [apply incl_refl|exact Hd]. }
  assert (incl (map Z.to_nat l) (seq 0 (length (pl_defs p)))) as Hi.
  { intros n Hin. apply in_map_iff in Hin. destruct Hin as (x & <- & Hx).
    pose proof (reads_bound _ _ _ _ _ _ H Hx). apply in_seq. lia. }
  pose proof (NoDup_incl_length Hd' Hi) as Hl. now rewrite map_length, seq_length in Hl.
Qed.

Lemma shaped_reads s p t : known s p t -> forall i n, ti_repr p t = Done n -> shaped s p i n -> exists l, reads s p i l t.
Proof.
  induction t; cbn [known ti_repr]; try contradiction.
  5-7,9: intros Hk j n; destruct (ti_repr p t) as [m|]; [|discriminate]; cbn [obind]; intros [= E] Hs;
    destruct Hs as [? q ? ? Hp|? q ? ? Hp|? j' m' Hg Hd Hi|? j' m' Hg Hd Hi|? j' m' Hg Hd Hi|? j' m' Hg Hd Hi|? j' m' k Hg Hd Hi Hc ?]; subst;
    try (exfalso; destruct Hp as [Hp _]; apply Hp; cbn; tauto);
    try (exfalso; apply (static_no_colon m' k Hc); rewrite <- E; cbn; tauto);
    try discriminate E; injection E as <-;
    edestruct IHt as (l & R); [exact Hk|reflexivity|exact Hi|];
    eexists; econstructor; eassumption.
  - intros (n & E & Hp & Hv & Hn & Hk) j m Em Hs. assert (m = n) as -> by congruence.
    destruct (shaped_plain _ _ _ _ Hs Hp) as (Ej & [(G & _ & Gj)|(G & G')]); [|contradiction].
    assert (j = i) as -> by congruence. eexists. eapply rd_prim; eauto.
  - intros (n & E & Hp & Hy) j m Em Hs. assert (m = n) as -> by congruence.
    destruct (shaped_plain _ _ _ _ Hs Hp) as (Ej & [(G & G' & _)|(G & _)]); [congruence|]. eexists. eapply rd_class; eauto.
  - intros (n & E & Hp & Hy) j m Em Hs. assert (m = n) as -> by congruence.
    destruct (shaped_plain _ _ _ _ Hs Hp) as (Ej & [(G & G' & _)|(G & _)]); [congruence|]. eexists. eapply rd_class; eauto.
  - intros (n & E & Hp & Hy) j m Em Hs. assert (m = n) as -> by congruence.
    destruct (shaped_plain _ _ _ _ Hs Hp) as (Ej & [(G & G' & _)|(G & _)]); [congruence|]. eexists. eapply rd_class; eauto.
  - intros (Hk & He & Hz) j n. destruct (ti_repr p t) as [m|] eqn:Em; [|discriminate]. cbn [obind]. intros [= E] Hs. symmetry in E.
    pose proof (static_no_colon _ size (elementary_no_colon _ _ _ Hk He _ Em)) as Hc.
    change (n = m ++ lit "[" ++ dec size ++ lit "]") in E. rewrite <- E in Hc.
    revert Hc E; destruct Hs as [? q0 ? ? Hp|? q0 ? ? Hp|? j' m' Hg Hd Hi|? j' m' Hg Hd Hi|? j' m' Hg Hd Hi|? j' m' Hg Hd Hi|? j' m' k Hg Hd Hi Hc' ?]; intros Hc E.
    1-2: destruct Hp as [_ Hp]; exfalso; apply Hp; rewrite E; apply in_app_iff; right; left; reflexivity.
    1-4: exfalso; apply Hc; in_lit.
    apply static_suffix in E as [-> ->]; auto. edestruct IHt as (l & R); [exact Hk|reflexivity|exact Hi|]. eexists. econstructor; eassumption.
  - intros Hn j n [= <-] Hs. destruct (shaped_plain _ _ _ _ Hs variant_plain) as (Ej & [(G & _ & Gj)|(G & G')]); [|contradiction].
    eexists. eapply rd_variant; eauto.
Qed.

Lemma shaped_resolve s p t i n : known s p t -> ti_repr p t = Done n -> shaped s p i n -> resolve_type_from_pool s p i = Done t.
Proof.
  intros H E Hs. destruct (shaped_reads _ _ _ H _ _ E Hs) as (l & R).
  eapply reads_resolve; [exact R|]. pose proof (reads_length _ _ _ _ _ R). unfold pool_fuel. lia.
Qed.

(** * Requests keep the structure *)

Lemma types_shaped_named s p : types_shaped s p -> types_named s p.
Proof. intros H n i E. specialize (H n i E). now inversion H. Qed.

Lemma add_shaped s1 p2 p' name k : extends p2 p' -> types_shaped s1 p2 -> am_find (sc_types s1) name = None ->
  shaped (sc_add_type s1 name k) p' k name -> types_shaped (sc_add_type s1 name k) p'.
Proof.
  intros He H Hn Hk n i. cbn [sc_types sc_add_type set_types]. rewrite am_find_insert. destruct (str_eqb_spec name n) as [<-|].
  - intros [= <-]. assumption.
  - intros E. eapply shaped_grows; [exact He| |now apply H]. repeat split.
    intros n' i' E'. cbn [sc_types sc_add_type set_types]. rewrite am_find_insert. destruct (str_eqb_spec name n') as [<-|]; [congruence|auto].
Qed.

(** A request does not name types longer than the one asked for. *)
Lemma request_keeps t : forall s p i s' p', get_type_index t s p = Done (i, s', p') -> forall n, ti_repr p t = Done n ->
  known s p t -> forall m, (length n < length m)%nat -> am_find (sc_types s') m = am_find (sc_types s) m.
Proof.
  induction t; intros s p k s' p' H n En Hk m Hm;
    apply gti_cases in H as (name & En' & [(_ & -> & _)|(Ef & p1 & ni & s1 & p2 & v & Ea & Ed & -> & C)]); try reflexivity;
    try contradiction;
    assert (name = n) as -> by congruence; cbn [sc_types sc_add_type set_types]; rewrite am_find_insert;
    (destruct (str_eqb_spec n m) as [<-|_]; [lia|]).
  1-4,10: now destruct C as (-> & _).
  all: destruct C as (j & C & _); cbn [ti_repr] in En; pose proof (add_name_extends _ _ _ _ Ea) as He1.
  all: assert (Hk' : known s p t) by (cbn [known] in Hk; tauto);
       destruct (known_repr _ _ _ _ He1 Hk') as (r & E1 & E2); rewrite E1 in En; cbn [obind] in En; injection En as <-;
       eapply IHt; [exact C|exact E2|eapply known_grows; [exact He1|apply scope_grows_refl|exact Hk']|].
  all: rewrite ?app_length in Hm; cbn [length] in Hm; lia.
Qed.

Lemma step_shaped s s1 p p1 p2 p' name ni v k :
  add_name p name = (p1, ni) -> add_definition p2 (type_definition ni v) = (p', k) -> am_find (sc_types s) name = None ->
  pool_ok p -> small p' -> types_shaped s p -> extends p1 p2 ->
  (pool_ok p1 -> types_named s p1 -> pool_ok p2 /\ types_named s1 p2 /\ scope_grows s s1) ->
  types_shaped s1 p2 -> am_find (sc_types s1) name = None ->
  (get_type p' k = Done v -> def_name p' k = Done name -> am_find (sc_types (sc_add_type s1 name k)) name = Some k ->
   extends p2 p' -> scope_grows s1 (sc_add_type s1 name k) -> shaped (sc_add_type s1 name k) p' k name) ->
  types_shaped (sc_add_type s1 name k) p' /\ shaped (sc_add_type s1 name k) p' k name.
Proof.
  intros Ea Ed Ef Hok Hs Ht G1 G2 H1 H2 H.
  destruct (add_type_step _ _ _ _ _ _ _ _ _ _ Ea Ed Ef Hok Hs (types_shaped_named _ _ Ht) G1 G2) as (R1 & R2 & R3 & R4 & R5 & R6).
  pose proof (extends_add_definition _ _ _ _ Ed) as He.
  assert (Hg : scope_grows s1 (sc_add_type s1 name k)).
  { repeat split. intros n i E. cbn [sc_types sc_add_type set_types]. rewrite am_find_insert.
    destruct (str_eqb_spec name n) as [<-|]; [congruence|auto]. }
  specialize (H R5 R4 R6 He Hg). split; [|exact H]. eapply add_shaped; eauto.
Qed.

Lemma request_shapes t : forall s p i s' p', get_type_index t s p = Done (i, s', p') -> pool_ok p -> small p' ->
  known s p t -> types_shaped s p ->
  types_shaped s' p' /\ exists n, ti_repr p t = Done n /\ shaped s' p' i n.
Proof.
  induction t; intros s p k s' p' H Hok Hs Hk Ht; pose proof H as Hreq;
    apply gti_cases in H as (name & En & [(Ef & -> & ->)|(Ef & p1 & ni & s1 & p2 & v & Ea & Ed & -> & C)]);
    try (split; [assumption|]; exists name; split; [assumption|now apply Ht]); try contradiction;
    (enough (types_shaped (sc_add_type s1 name k) p' /\ shaped (sc_add_type s1 name k) p' k name) as (W1 & W2);
      [split; [exact W1|]; exists name; auto|]).
  all: pose proof (add_name_extends _ _ _ _ Ea) as He1;
    assert (Ht1 : types_shaped s p1) by (intros a b E; eapply shaped_grows; [exact He1|apply scope_grows_refl|now apply Ht]).
  1-4,10: destruct C as (-> & -> & ->);
    eapply step_shaped; try eassumption; [apply extends_refl|auto using scope_grows_refl|]; intros R5 R4 R6 He Hg;
    pose proof (symbol_type_grows _ _ Hg) as Hy.
  1: destruct Hk as (n & E1 & E2 & E3 & E4 & E5); cbn [ti_repr] in En; assert (name = n) as -> by congruence; congruence.
  1-3: destruct Hk as (n & E1 & E2 & E3); cbn [ti_repr] in En; assert (name = n) as -> by congruence; apply sh_class; auto; rewrite Hy, E3; discriminate.
  1: cbn [ti_repr] in En; injection En as <-; apply sh_prim; auto using variant_plain; now rewrite Hy.
  all: destruct C as (j & C & ->); pose proof (inner_extends _ _ _ _ _ _ C) as Hin;
    assert (Hk' : known s p t) by (cbn [known] in Hk; tauto);
    pose proof (known_grows _ _ _ _ _ He1 (scope_grows_refl s) Hk') as Hk1;
    pose proof (extends_small _ _ (extends_add_definition _ _ _ _ Ed) Hs) as Hs2;
    destruct (add_name_spec _ _ _ _ Ea Hok (extends_small _ _ Hin Hs2)) as (Y1 & _);
    destruct (IHt _ _ _ _ _ C Y1 Hs2 Hk1 Ht1) as (W1 & r & W2 & W3);
    destruct (known_repr _ _ _ _ He1 Hk') as (r' & F1 & F2); assert (r' = r) as -> by congruence;
    cbn [ti_repr] in En; rewrite F1 in En; cbn [obind] in En; injection En as <-;
    (eapply step_shaped; try eassumption;
     [intros O1 O2; destruct (request_names _ _ _ _ _ _ C O1 Hs2 O2) as (V1 & V2 & V3 & _); auto
     |erewrite request_keeps; [exact Ef|exact C|exact W2|exact Hk1|rewrite ?app_length; cbn [length]; lia]
     |intros R5 R4 R6 He Hg; pose proof (shaped_grows _ _ _ _ _ _ He Hg W3);
      first [now refine (sh_ref _ _ _ j r R5 R4 _)|now refine (sh_wref _ _ _ j r R5 R4 _)|now refine (sh_array _ _ _ j r R5 R4 _)
            |now refine (sh_sref _ _ _ j r R5 R4 _)|refine (sh_static _ _ _ j r size R5 R4 _ _ _); [assumption|..]]]).
  - destruct Hk as (_ & He2 & _). eapply elementary_no_colon; [exact Hk'|exact He2|exact F1].
  - destruct Hk as (_ & _ & Hz). exact Hz.
Qed.

(** * Histories *)

Lemma later_grows x y : later x y -> extends (snd x) (snd y) /\
  (pool_ok (snd x) -> small (snd y) -> types_named (fst x) (snd x) ->
   pool_ok (snd y) /\ types_named (fst y) (snd y) /\ scope_grows (fst x) (fst y)).
Proof.
  induction 1 as [x|t s p i s1 p1 y H L IH|s p n p1 i y H L IH|s p d p1 i y H L IH|s p m y L IH]; cbn [fst snd] in *.
  - split; [apply extends_refl|auto using scope_grows_refl].
  - destruct IH as (I1 & I2). pose proof (inner_extends _ _ _ _ _ _ H) as He. split; [eauto using extends_trans|].
    intros Hok Hs Ht. destruct (request_names _ _ _ _ _ _ H Hok (extends_small _ _ I1 Hs) Ht) as (R1 & R2 & R3 & _).
    destruct (I2 R1 Hs R2) as (S1 & S2 & S3). eauto using scope_grows_trans.
  - destruct IH as (I1 & I2). pose proof (add_name_extends _ _ _ _ H) as He. split; [eauto using extends_trans|].
    intros Hok Hs Ht. destruct (add_name_spec _ _ _ _ H Hok (extends_small _ _ I1 Hs)) as (Y1 & _).
    apply I2; auto. eapply types_named_extends; eauto.
  - destruct IH as (I1 & I2). pose proof (extends_add_definition _ _ _ _ H) as He. split; [eauto using extends_trans|].
    intros Hok Hs Ht. destruct (add_definition_spec _ _ _ _ H (extends_small _ _ I1 Hs)) as (_ & _ & _ & _ & _ & X6).
    apply I2; auto. eapply types_named_extends; eauto.
  - destruct IH as (I1 & I2). split; [exact I1|]. intros Hok Hs Ht. exact (I2 Hok Hs Ht).
Qed.

Lemma request_scope t : forall s p i s' p', get_type_index t s p = Done (i, s', p') -> s' = set_types s (sc_types s').
Proof.
  induction t; intros s p k s' p' H;
    apply gti_cases in H as (name & En & [(Ef & -> & ->)|(Ef & p1 & ni & s1 & p2 & v & Ea & Ed & -> & C)]);
    try (now destruct s); try contradiction; try (now destruct C as (-> & _)).
  all: destruct C as (j & C & _); apply IHt in C; unfold sc_add_type; rewrite C; reflexivity.
Qed.

(** * The initial scope *)

Lemma root_types p l : forall m m', fold_left (root_types_step p) l (Done m) = Done m' ->
  (forall n i, am_find m n = Some i -> def_name p i = Done n) -> forall n i, am_find m' n = Some i -> def_name p i = Done n.
Proof.
  induction l as [|[i d] l IH]; intros m m'; cbn [fold_left].
  - intros [= <-]. auto.
  - unfold root_types_step at 2. cbn [obind fst snd]. destruct (df_value d); try (apply IH).
    destruct (def_name p i) as [n|] eqn:E; cbn [pe map_err obind].
    + intros H G. eapply IH; [exact H|]. intros n' j. rewrite am_find_insert. destruct (str_eqb_spec n n') as [<-|]; [intros [= <-]; auto|auto].
    + assert (F : forall e, fold_left (root_types_step p) l (Fail e) = Fail e) by (clear; induction l as [|x l IH]; intros e; cbn; [reflexivity|apply IH]).
      rewrite F. discriminate.
Qed.
Lemma scope_new_named p s : scope_new p = Done s -> types_named s p.
Proof.
  unfold scope_new. destruct (fold_left _ _ _) as [m|] eqn:E; cbn [obind]; [|discriminate]. intros [= <-] n i. cbn [sc_types].
  apply (root_types _ _ _ _ E). discriminate.
Qed.
