(** Facts about class chains, conversions and least common types. *)
From Coq Require Import ZArith List Bool Lia.
From Verif Require Import Bytes Bytecode Definitions Bundle Ast TypeNames Pool Scope TypeCheck TypingSpec.
Import ListNotations.
Open Scope Z_scope.

Lemma typeid_eqb_spec a b : typeid_eqb a b = true <-> a = b.
Proof.
  revert b. induction a; destruct b; cbn; try (split; congruence);
    try (rewrite Z.eqb_eq; split; congruence);
    try (rewrite IHa; split; congruence).
  rewrite andb_true_iff, IHa, Z.eqb_eq. split; [intros []; congruence|intros [=]; auto].
Qed.
Lemma typeid_eqb_false a b : typeid_eqb a b = false <-> a <> b.
Proof. rewrite <- typeid_eqb_spec. destruct (typeid_eqb a b); split; congruence. Qed.
Lemma typeid_eqb_refl a : typeid_eqb a a = true.
Proof. now apply typeid_eqb_spec. Qed.
Lemma typeid_dec (a b : typeid) : {a = b} + {a <> b}.
Proof. destruct (typeid_eqb a b) eqn:E; [left; now apply typeid_eqb_spec|right; now apply typeid_eqb_false]. Qed.

Lemma nth_def_bound l i d : nth_def l i = Some d -> 0 <= i /\ (Z.to_nat i < length l)%nat.
Proof.
  unfold nth_def. destruct (Z.ltb_spec i 0); [discriminate|]. intros E. split; [lia|].
  apply nth_error_Some. congruence.
Qed.
Lemma get_class_bound p c k : get_class p c = Done k -> 0 <= c /\ (Z.to_nat c < length (pl_defs p))%nat.
Proof.
  unfold get_class, def_by. destruct (nth_def _ _) eqn:E; [|discriminate].
  intros _. eapply nth_def_bound; eauto.
Qed.

Lemma chain_det p c l1 : chain p c l1 -> forall l2, chain p c l2 -> l1 = l2.
Proof.
  induction 1 as [|c k l Hc Hk Hl IH]; intros l2 H2.
  - inversion H2; subst; congruence.
  - inversion H2; subst; [congruence|]. rewrite Hk in H0. injection H0 as <-.
    f_equal. now apply IH.
Qed.

(** A class of a chain has the rest of the list as its own chain. *)
Lemma chain_suffix p c l : chain p c l -> forall a b x, l = a ++ x :: b -> chain p x (x :: b).
Proof.
  induction 1 as [|c k l Hc Hk Hl IH]; intros a b x E.
  - destruct a; discriminate.
  - destruct a as [|y a]; cbn in E; injection E as -> ->.
    + econstructor; eauto.
    + now apply (IH a b x).
Qed.
Lemma chain_in p c l x : chain p c l -> In x l -> exists b, chain p x (x :: b) /\ (length b < length l)%nat.
Proof.
  intros H Hi. apply in_split in Hi. destruct Hi as (a & b & ->). exists b. split.
  - eapply chain_suffix; eauto.
  - rewrite app_length. cbn. lia.
Qed.
Lemma chain_nodup p c l : chain p c l -> NoDup l.
Proof.
  induction 1 as [|c k l Hc Hk Hl IH]; constructor; [|exact IH].
  intros Hi. destruct (chain_in _ _ _ _ Hl Hi) as (b & Hb & Hlt).
  assert (chain p c (c :: l)) as H by (econstructor; eauto).
  pose proof (chain_det _ _ _ H _ Hb) as E. injection E as E. rewrite E in Hlt. lia.
Qed.
Lemma chain_class p c l x : chain p c l -> In x l -> exists k, get_class p x = Done k /\ x <> UNDEFINED.
Proof.
  induction 1 as [|c k l Hc Hk Hl IH]; intros [].
  - subst. eauto.
  - auto.
Qed.
Lemma chain_length p c l : chain p c l -> (length l <= length (pl_defs p))%nat.
Proof.
  intros H.
  assert (forall x, In x l -> 0 <= x) as Hn.
  { intros x Hx. destruct (chain_class _ _ _ _ H Hx) as (k & Hk & _). now apply get_class_bound in Hk. }
  assert (NoDup (map Z.to_nat l)) as Hd.
  { pose proof (chain_nodup _ _ _ H) as Hd.
    assert (forall l', incl l' l -> NoDup l' -> NoDup (map Z.to_nat l')) as G.
    { induction l' as [|x l' IH]; cbn; intros Hi Hd'; constructor.
      - inversion Hd'; subst. intros Hx. apply in_map_iff in Hx. destruct Hx as (y & E & Hy).
        assert (x = y); [|now subst].
        pose proof (Hn x (Hi x (or_introl eq_refl))). pose proof (Hn y (Hi y (or_intror Hy))). lia.
      - inversion Hd'; subst. apply IH; [|assumption]. intros y Hy. apply Hi. now right. }
    apply G; [apply incl_refl|exact Hd]. }
  assert (incl (map Z.to_nat l) (seq 0 (length (pl_defs p)))) as Hi.
  { intros n Hin. apply in_map_iff in Hin. destruct Hin as (x & <- & Hx).
    destruct (chain_class _ _ _ _ H Hx) as (k & Hk & _). apply get_class_bound in Hk.
    apply in_seq. lia. }
  pose proof (NoDup_incl_length Hd Hi) as Hl. now rewrite map_length, seq_length in Hl.
Qed.

(** * Conversions *)

Lemma upcast_spec p b : forall l a fuel, chain p a l -> a <> UNDEFINED -> (length l <= fuel)%nat ->
  upcast fuel p a b = Done (if in_dec Z.eq_dec b l then Some Identity else None).
Proof.
  induction l as [|x l IH]; intros a fuel H Ha Hf.
  - inversion H; congruence.
  - inversion H as [|? k ? _ Hk Hl]; subst. destruct fuel as [|fuel]; [cbn in Hf; lia|]. cbn [upcast].
    destruct (Z.eqb_spec x b) as [->|Hne].
    + destruct (in_dec Z.eq_dec b (b :: l)) as [_|n]; [reflexivity|]. destruct n; now left.
    + rewrite Hk. cbn [pe map_err obind]. destruct (Z.eqb_spec (cl_base k) UNDEFINED) as [E|E]; cbn [negb].
      * rewrite E in Hl. inversion Hl; subst; [|congruence].
        destruct (in_dec Z.eq_dec b [x]) as [[|[]]|]; congruence.
      * cbn in Hf. rewrite (IH _ _ Hl E) by lia.
        destruct (in_dec Z.eq_dec b l), (in_dec Z.eq_dec b (x :: l)) as [[|]|]; try congruence; cbn in *; tauto.
Qed.

Lemma upcast_ancestor p a b : (exists l, chain p a l) -> a <> UNDEFINED ->
  exists r, upcast (pool_fuel p) p a b = Done r /\ (r = Some Identity \/ r = None) /\
            (r = Some Identity <-> ancestor p a b).
Proof.
  intros (l & H) Ha. pose proof (chain_length _ _ _ H).
  rewrite (upcast_spec p b l) by (unfold pool_fuel; assumption || lia).
  eexists; split; [reflexivity|]. destruct in_dec as [i|n].
  - split; [auto|]. split; [|reflexivity]. intros _. now exists l.
  - split; [auto|]. split; [discriminate|]. intros (l' & H' & Hi).
    rewrite (chain_det _ _ _ H _ H') in n. contradiction.
Qed.

Lemma ancestor_refl p a : a <> UNDEFINED -> (exists l, chain p a l) -> ancestor p a a.
Proof. intros Ha (l & H). exists l. split; [exact H|]. inversion H; subst; [congruence|now left]. Qed.
Lemma ancestor_trans p a b c : ancestor p a b -> ancestor p b c -> ancestor p a c.
Proof.
  intros (l & Hl & Hb) (m & Hm & Hc). exists l. split; [exact Hl|].
  apply in_split in Hb. destruct Hb as (x & y & ->).
  pose proof (chain_suffix _ _ _ Hl _ _ _ eq_refl) as Hs. rewrite (chain_det _ _ _ Hm _ Hs) in Hc.
  apply in_or_app. now right.
Qed.
Lemma ancestor_antisym p a b : ancestor p a b -> ancestor p b a -> a = b.
Proof.
  intros (l & Hl & Hb) (m & Hm & Ha).
  destruct (Z.eq_dec a b) as [|Hne]; [assumption|exfalso].
  assert (forall l m, chain p a l -> In b l -> chain p b m -> (length m <= length l)%nat /\ (a <> b -> length m < length l)%nat) as G.
  { clear. intros l m Hl Hb Hm. apply in_split in Hb. destruct Hb as (x & y & ->).
    pose proof (chain_suffix _ _ _ Hl _ _ _ eq_refl) as Hs. rewrite (chain_det _ _ _ Hm _ Hs).
    rewrite app_length. split; [cbn; lia|]. intros Hne. destruct x; cbn; [|lia]. inversion Hl; congruence. }
  destruct (G _ _ Hl Hb Hm) as (_ & G1). specialize (G1 Hne).
  apply in_split in Ha. destruct Ha as (x & y & ->).
  pose proof (chain_suffix _ _ _ Hm _ _ _ eq_refl) as Hs. rewrite (chain_det _ _ _ Hl _ Hs) in G1.
  rewrite app_length in G1. cbn in G1. lia.
Qed.

Fixpoint tsize (t : typeid) : nat :=
  match t with
  | TIRef t | TIWeakRef t | TIArray t | TIStaticArray t _ | TIScriptRef t => S (tsize t)
  | _ => 0
  end.
Lemma subsumes_size p a b : subsumes p a b -> (tsize a <= tsize b)%nat.
Proof. induction 1; cbn; lia. Qed.

Definition fc_ok p from to (r : option conversion) : Prop := forall c, r = Some c <-> converts p from to c.
Lemma is_identity_subsumes p from to r : fc_ok p from to r -> is_identity r = true <-> subsumes p from to.
Proof.
  intros H. specialize (H Identity). split.
  - destruct r as [[]|]; cbn; try discriminate. intros _. assert (converts p from to Identity) by tauto.
    now inversion H0.
  - intros Hs. destruct H as [_ ->]; [reflexivity|]. now constructor.
Qed.

Ltac conv_inv :=
  repeat match goal with
  | H : converts _ _ _ _ |- _ => inversion H; clear H; subst
  | H : subsumes _ _ _ |- _ => inversion H; clear H; subst
  end.


Ltac fc_solve HI :=
  eexists; split; [reflexivity|]; intros c; split;
  [first [discriminate
         |intros [= <-]; first [constructor; first [constructor; fail|constructor; tauto|constructor]|constructor; tauto|constructor]]
  |intros H; inversion H as [? ? Hs| | | | |]; subst; try reflexivity; try (inversion Hs; subst; try reflexivity; try congruence);
   try (exfalso; discriminate (proj2 HI ltac:(assumption)))].

Lemma find_conversion_ok p to : forall from, grounded p from ->
  exists r, find_conversion p from to = Done r /\ fc_ok p from to r.
Proof.
  induction to; intros from Hg.
  all: match goal with |- context [find_conversion _ ?f ?t] =>
         destruct (typeid_dec f t) as [E|E] end.
  all: try (exists (Some Identity); split; [cbn [find_conversion]; subst; now rewrite typeid_eqb_refl|];
         intros c; split; [intros [= <-]; subst; constructor; constructor|];
         intros H; inversion H; subst; clear H; try reflexivity; exfalso;
         match goal with
         | H : subsumes _ (TIScriptRef ?t) ?t |- _ => apply subsumes_size in H; cbn in H; lia
         | _ => discriminate || contradiction
         end).
  all: cbn [find_conversion]; rewrite (proj2 (typeid_eqb_false _ _) E).
  all: assert (True /\ True) as HT by auto.
  - fc_solve HT.
  - destruct from; try (fc_solve HT). cbn in Hg.
    destruct (upcast_ancestor p i0 i) as (r & Er & Hr & Ha); [tauto..|]. rewrite Er. eexists; split; [reflexivity|].
    intros c. split.
    + intros ->. destruct Hr as [[= ->]|]; [|discriminate]. constructor. constructor. now apply Ha.
    + intros H. conv_inv; [congruence|]. now apply Ha.
  - destruct from; try (fc_solve HT). cbn in Hg.
    destruct (upcast_ancestor p i0 i) as (r & Er & Hr & Ha); [tauto..|]. rewrite Er. eexists; split; [reflexivity|].
    intros c. split.
    + intros ->. destruct Hr as [[= ->]|]; [|discriminate]. constructor. constructor. now apply Ha.
    + intros H. conv_inv; [congruence|]. now apply Ha.
  - fc_solve HT.
  - destruct from; try (fc_solve HT); cbn in Hg;
    (destruct (IHto from) as (r & Er & Hr); [assumption|]); rewrite Er; cbn [obind];
    pose proof (is_identity_subsumes _ _ _ _ Hr) as HI;
    (destruct (is_identity r); fc_solve HI).
  - destruct from; try (fc_solve HT); cbn in Hg;
    (destruct (IHto from) as (r & Er & Hr); [assumption|]); rewrite Er; cbn [obind];
    pose proof (is_identity_subsumes _ _ _ _ Hr) as HI;
    (destruct (is_identity r); fc_solve HI).
  - fc_solve HT.
  - fc_solve HT.
  - destruct (IHto from) as (r & Er & Hr); [assumption|]; rewrite Er; cbn [obind];
    pose proof (is_identity_subsumes _ _ _ _ Hr) as HI.
    destruct (is_identity r); fc_solve HI.
  - fc_solve HT.
  - fc_solve HT.
  - fc_solve HT.
Qed.

Lemma converts_det p a b c1 c2 : grounded p a -> converts p a b c1 -> converts p a b c2 -> c1 = c2.
Proof.
  intros Hg H1 H2. destruct (find_conversion_ok p b a Hg) as (r & _ & H).
  apply H in H1, H2. congruence.
Qed.

(** * Least common types *)

Lemma collect_supertypes_chain p : forall l c fuel, chain p c l -> (length l <= fuel)%nat ->
  collect_supertypes fuel p c = Done (rev l).
Proof.
  induction l as [|x l IH]; intros c fuel H Hf.
  - inversion H; subst. destruct fuel; reflexivity.
  - inversion H as [|? k ? Hx Hk Hl]; subst. destruct fuel as [|fuel]; [cbn in Hf; lia|].
    cbn [collect_supertypes]. destruct (Z.eqb_spec x UNDEFINED); [contradiction|].
    rewrite Hk. cbn [pc map_err obind]. rewrite (IH _ _ Hl) by (cbn in Hf; lia). reflexivity.
Qed.

Lemma last_common_spec x : forall y,
  match last_common x y with
  | None => x = [] \/ y = [] \/ hd_error x <> hd_error y
  | Some i => exists q t t', x = q ++ i :: t /\ y = q ++ i :: t' /\ (t = [] \/ t' = [] \/ hd_error t <> hd_error t')
  end.
Proof.
  induction x as [|a x IH]; intros y; cbn; [auto|].
  destruct y as [|b y]; [auto|]. destruct (Z.eqb_spec a b) as [<-|Hne].
  - specialize (IH y). destruct (last_common x y).
    + destruct IH as (q & t & t' & -> & -> & H). now exists (a :: q), t, t'.
    + now exists [], x, y.
  - right. right. cbn. congruence.
Qed.

Lemma lub_class_lemma p a b la lb : chain p a la -> chain p b lb ->
  match last_common (rev la) (rev lb) with
  | Some i => ancestor p a i /\ ancestor p b i /\ forall c, ancestor p a c -> ancestor p b c -> ancestor p i c
  | None => forall c, ancestor p a c -> ancestor p b c -> False
  end.
Proof.
  intros Ha Hb. pose proof (last_common_spec (rev la) (rev lb)) as H.
  assert (forall c, ancestor p a c -> ancestor p b c ->
    exists w s s', rev la = w ++ c :: s /\ rev lb = w ++ c :: s') as G.
  { intros c (l1 & H1 & I1) (l2 & H2 & I2).
    rewrite <- (chain_det _ _ _ Ha _ H1) in I1. rewrite <- (chain_det _ _ _ Hb _ H2) in I2.
    apply in_split in I1, I2. destruct I1 as (u & v & ->), I2 as (u' & v' & ->).
    pose proof (chain_suffix _ _ _ Ha _ _ _ eq_refl) as S1. pose proof (chain_suffix _ _ _ Hb _ _ _ eq_refl) as S2.
    pose proof (chain_det _ _ _ S1 _ S2) as E. injection E as <-.
    exists (rev v), (rev u), (rev u'). rewrite !rev_app_distr. cbn. rewrite <- !app_assoc. auto. }
  destruct (last_common _ _) as [i|].
  - destruct H as (q & t & t' & E1 & E2 & Ht).
    assert (forall l, rev l = q ++ i :: t -> l = rev t ++ i :: rev q) as R1.
    { intros l E. rewrite <- (rev_involutive l), E, rev_app_distr. cbn. now rewrite <- app_assoc. }
    assert (forall l, rev l = q ++ i :: t' -> l = rev t' ++ i :: rev q) as R2.
    { intros l E. rewrite <- (rev_involutive l), E, rev_app_distr. cbn. now rewrite <- app_assoc. }
    pose proof (R1 _ E1) as L1. pose proof (R2 _ E2) as L2.
    split; [|split].
    + exists la. split; [exact Ha|]. rewrite L1. apply in_or_app. cbn. auto.
    + exists lb. split; [exact Hb|]. rewrite L2. apply in_or_app. cbn. auto.
    + intros c Hca Hcb. destruct (G c Hca Hcb) as (w & s & s' & W1 & W2).
      exists (i :: rev q). rewrite L1 in Ha. split; [eapply chain_suffix; eauto|].
      assert (In c (q ++ [i])) as Hin.
      { rewrite E1 in W1. rewrite E2 in W2.
        destruct (le_lt_dec (length w) (length q)) as [Hle|Hlt].
        - assert (nth_error (q ++ i :: t) (length w) = Some c) as N.
          { rewrite W1, nth_error_app2, Nat.sub_diag by lia. reflexivity. }
          change (i :: t) with ([i] ++ t) in N. rewrite app_assoc in N.
          rewrite nth_error_app1 in N by (rewrite app_length; cbn; lia). eapply nth_error_In; eauto.
        - exfalso. assert (exists z, hd_error t = Some z /\ hd_error t' = Some z) as (z & Z1 & Z2).
          { assert (forall tt ss, q ++ i :: tt = w ++ c :: ss -> hd_error tt = nth_error (w ++ [c]) (S (length q))) as F.
            { intros tt ss E.
              assert (nth_error (q ++ i :: tt) (S (length q)) = hd_error tt) as N.
              { rewrite nth_error_app2 by lia. replace (S (length q) - length q)%nat with 1%nat by lia.
                destruct tt; reflexivity. }
              rewrite <- N, E. change (c :: ss) with ([c] ++ ss). rewrite app_assoc.
              rewrite nth_error_app1; [reflexivity|]. rewrite app_length. cbn. lia. }
            destruct (nth_error (w ++ [c]) (S (length q))) as [z|] eqn:En.
            - exists z. split; eapply F; eauto.
            - apply nth_error_None in En. rewrite app_length in En. cbn in En. lia. }
          destruct Ht as [->|[->|Ht]]; [discriminate..|]. congruence. }
      apply in_app_or in Hin. destruct Hin as [Hin|[->|[]]]; [right; now apply -> in_rev|now left].
  - intros c Hca Hcb. destruct (G c Hca Hcb) as (w & s & s' & W1 & W2). rewrite W1, W2 in H.
    destruct H as [H|[H|H]]; [destruct w; discriminate..|]. apply H. destruct w; reflexivity.
Qed.

Lemma subsumes_refl_class p c : grounded p (TIClass c) -> ancestor p c c.
Proof. intros [H1 H2]. now apply ancestor_refl. Qed.

Lemma subsumes_trans p a b c : grounded p a -> subsumes p a b -> subsumes p b c -> subsumes p a c.
Proof.
  intros Hg H. revert c Hg. induction H; intros c Hg H2.
  - exact H2.
  - inversion H2; subst; constructor.
  - inversion H2; subst; constructor; [exact H|eapply ancestor_trans; eauto].
  - inversion H2; subst; constructor; [exact H|eapply ancestor_trans; eauto].
  - inversion H2; subst; constructor; [assumption|]. apply IHsubsumes; auto.
  - inversion H2; subst; constructor; [assumption|]. apply IHsubsumes; auto.
Qed.

Lemma lub_class_ok p a b : (exists l, chain p a l) -> (exists l, chain p b l) ->
  match lub_class p a b with
  | Done i => ancestor p a i /\ ancestor p b i /\ forall c, ancestor p a c -> ancestor p b c -> ancestor p i c
  | Fail e => (forall c, ancestor p a c -> ancestor p b c -> False) /\
              (e = CauseUnwind Panicked \/ exists na nb, def_name p a = Done na /\ def_name p b = Done nb /\ e = UnificationFailed na nb)
  end.
Proof.
  intros (la & Ha) (lb & Hb). unfold lub_class.
  pose proof (chain_length _ _ _ Ha). pose proof (chain_length _ _ _ Hb).
  rewrite (collect_supertypes_chain p la), (collect_supertypes_chain p lb) by (assumption || (unfold pool_fuel; lia)).
  cbn [obind]. pose proof (lub_class_lemma _ _ _ _ _ Ha Hb) as H1.
  destruct (last_common _ _); [assumption|]. destruct (def_name p a), (def_name p b); split; eauto 6.
Qed.

Lemma last_common_comm x : forall y, last_common x y = last_common y x.
Proof.
  induction x as [|a x IH]; destruct y as [|b y]; cbn; try reflexivity.
  rewrite Z.eqb_sym. destruct (Z.eqb_spec b a); [|reflexivity]. subst. now rewrite IH.
Qed.
Lemma lub_class_comm p a b i : lub_class p a b = Done i -> lub_class p b a = Done i.
Proof.
  unfold lub_class. destruct (collect_supertypes _ _ a), (collect_supertypes _ _ b); cbn; try discriminate.
  rewrite last_common_comm. destruct (last_common _ _); [auto|]. destruct (def_name p a), (def_name p b); discriminate.
Qed.
Lemma typeid_eqb_sym a b : typeid_eqb a b = typeid_eqb b a.
Proof.
  destruct (typeid_eqb a b) eqn:E; symmetry.
  - apply typeid_eqb_spec in E. subst. apply typeid_eqb_refl.
  - apply typeid_eqb_false. apply typeid_eqb_false in E. congruence.
Qed.
Lemma lub_comm p a : forall b r, lub p a b = Done r -> lub p b a = Done r.
Proof.
  induction a; intros b r; cbn [lub].
  all: match goal with |- context [typeid_eqb ?a ?b] => destruct (typeid_eqb a b) eqn:E end.
  all: try (intros [= <-]; apply typeid_eqb_spec in E; subst; cbn [lub]; now rewrite typeid_eqb_refl).
  all: rewrite typeid_eqb_sym in E; destruct b; cbn [lub]; rewrite E; cbn [obind pc map_err ti_pretty]; try discriminate; try tauto.
  all: repeat match goal with |- context [obind ?m _] => destruct m; cbn [obind map_err pc]; try discriminate end.
  - destruct (lub_class p i i0) eqn:El; cbn; [|discriminate]. now rewrite (lub_class_comm _ _ _ _ El).
  - destruct (lub_class p i i0) eqn:El; cbn; [|discriminate]. now rewrite (lub_class_comm _ _ _ _ El).
  - destruct (lub p a b) eqn:El; cbn; [|discriminate]. now rewrite (IHa _ _ El).
  - destruct (lub p a b) eqn:El; cbn; [|discriminate]. now rewrite (IHa _ _ El).
Qed.

Definition lub_result (R : typeid -> typeid -> Prop) (a b : typeid) (r : outcome cause typeid) : Prop :=
  match r with
  | Done r => R a r /\ R b r /\ forall t, R a t -> R b t -> R r t
  | Fail _ => forall t, R a t -> R b t -> False
  end.

Lemma lub_null_free p a : forall b, grounded p a -> grounded p b -> null_free a -> null_free b ->
  lub_result (subsumes p) a b (lub p a b).
Proof.
  induction a; intros b Hga Hgb Hna Hnb; cbn [lub].
  all: match goal with |- context [typeid_eqb ?a ?b] => destruct (typeid_eqb a b) eqn:E end.
  all: try (apply typeid_eqb_spec in E; subst b; cbn; split; [constructor|split; [constructor|auto]]).
  all: apply typeid_eqb_false in E; cbn in Hna; try contradiction.
  all: destruct b; cbn in Hnb; try contradiction;
    try (cbn [pc map_err obind ti_pretty];
         repeat match goal with |- context [obind ?m _] => destruct m; cbn [obind map_err pc] end;
         intros t Ht1 Ht2; inversion Ht1; subst; inversion Ht2; subst; congruence).
  - cbn in Hga, Hgb. pose proof (lub_class_ok p i i0 (proj2 Hga) (proj2 Hgb)) as H.
    destruct (lub_class p i i0); cbn.
    + destruct H as (H1 & H2 & H3). split; [now constructor|]. split; [now constructor|].
      intros t T1 T2. inversion T1; subst; inversion T2; subst; constructor;
        (apply H3; first [assumption|apply ancestor_refl; tauto]).
    + destruct H as (H & _). intros t T1 T2. inversion T1; subst; inversion T2; subst; try congruence;
        (eapply H; first [eassumption|apply ancestor_refl; tauto]).
  - cbn in Hga, Hgb. pose proof (lub_class_ok p i i0 (proj2 Hga) (proj2 Hgb)) as H.
    destruct (lub_class p i i0); cbn.
    + destruct H as (H1 & H2 & H3). split; [now constructor|]. split; [now constructor|].
      intros t T1 T2. inversion T1; subst; inversion T2; subst; constructor;
        (apply H3; first [assumption|apply ancestor_refl; tauto]).
    + destruct H as (H & _). intros t T1 T2. inversion T1; subst; inversion T2; subst; try congruence;
        (eapply H; first [eassumption|apply ancestor_refl; tauto]).
  - cbn in Hga, Hgb. specialize (IHa b Hga Hgb Hna Hnb). destruct (lub p a b) as [r|]; cbn in *.
    + destruct IHa as (H1 & H2 & H3). split; [now constructor|]. split; [now constructor|].
      intros t T1 T2. inversion T1; subst; inversion T2; subst; constructor; apply H3; try assumption; constructor.
    + intros t T1 T2. inversion T1; subst; inversion T2; subst; [congruence| | |];
        (eapply IHa; [|eassumption]; assumption || constructor) || (eapply IHa; [eassumption|constructor]).
  - cbn in Hga, Hgb. specialize (IHa b Hga Hgb Hna Hnb). destruct (lub p a b) as [r|]; cbn in *.
    + destruct IHa as (H1 & H2 & H3). split; [now constructor|]. split; [now constructor|].
      intros t T1 T2. inversion T1; subst; inversion T2; subst; constructor; apply H3; try assumption; constructor.
    + intros t T1 T2. inversion T1; subst; inversion T2; subst; [congruence| | |];
        (eapply IHa; [|eassumption]; assumption || constructor) || (eapply IHa; [eassumption|constructor]).
Qed.

Lemma lub_lemma p a b : grounded p a -> grounded p b -> proper a -> proper b ->
  lub_result (below p) a b (lub p a b).
Proof.
  intros Hga Hgb Ha Hb.
  assert (forall t, below p t t) as Hrefl by (left; constructor).
  assert (forall x r, below p r x -> below p r x) as _ by auto.
  destruct Ha as [->|Ha], Hb as [->|Hb].
  - cbn. split; [apply Hrefl|split; [apply Hrefl|auto]].
  - destruct b; cbn [lub typeid_eqb]; cbn in Hb; try contradiction;
      try (cbn [pc map_err obind ti_pretty];
         repeat match goal with |- context [obind ?m _] => destruct m; cbn [obind map_err pc] end;
         intros t [T1|(T1 & t1 & ->)] [T2|(T2 & t2 & T3)]; try discriminate;
         inversion T2; subst; try discriminate; inversion T1; subst; congruence).
    + split; [left; constructor|split; [apply Hrefl|auto]].
    + split; [right; eauto|split; [apply Hrefl|auto]].
  - destruct a; cbn [lub typeid_eqb]; cbn in Ha; try contradiction;
      try (cbn [pc map_err obind ti_pretty];
         repeat match goal with |- context [obind ?m _] => destruct m; cbn [obind map_err pc] end;
         intros t [T2|(T2 & t2 & T3)] [T1|(T1 & t1 & ->)]; try discriminate;
         inversion T2; subst; try discriminate; inversion T1; subst; congruence).
    + split; [apply Hrefl|split; [left; constructor|auto]].
    + split; [apply Hrefl|split; [right; eauto|auto]].
  - pose proof (lub_null_free p a b Hga Hgb Ha Hb) as H.
    assert (forall x t, null_free x -> below p x t -> subsumes p x t) as Hs.
    { intros x t Hx [|(-> & _)]; [assumption|]. now cbn in Hx. }
    destruct (lub p a b); cbn in *.
    + destruct H as (H1 & H2 & H3). split; [now left|]. split; [now left|]. intros t T1 T2. left. apply H3; auto.
    + intros t T1 T2. eapply H; eauto.
Qed.
