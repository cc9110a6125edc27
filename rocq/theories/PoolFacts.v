(** Facts about growing pools. *)
From Coq Require Import ZArith List Bool Lia.
From Verif Require Import Bytes BytesFacts Bytecode Definitions Bundle BundleFacts BundleThms Ast TypeNames Pool Scope PoolSpec.
Import ListNotations.
Open Scope Z_scope.

Lemma prefix_refl {A} (l : list A) : prefix l l.
Proof. exists []. now rewrite app_nil_r. Qed.
Lemma prefix_trans {A} (a b c : list A) : prefix a b -> prefix b c -> prefix a c.
Proof. intros (x & ->) (y & ->). exists (x ++ y). now rewrite app_assoc. Qed.
Lemma prefix_length {A} (a b : list A) : prefix a b -> (length a <= length b)%nat.
Proof. intros (x & ->). rewrite app_length. lia. Qed.
Lemma prefix_nth {A} (a b : list A) i x : prefix a b -> nth_error a i = Some x -> nth_error b i = Some x.
Proof. intros (y & ->) H. now apply nth_error_keep. Qed.

Lemma extends_refl p : extends p p.
Proof. unfold extends. auto using prefix_refl. Qed.
Lemma extends_trans a b c : extends a b -> extends b c -> extends a c.
Proof. unfold extends. intuition eauto using prefix_trans. Qed.
Lemma extends_small a b : extends a b -> small b -> small a.
Proof.
  intros (H1 & H2 & H3 & H4 & H5) (K1 & K2 & K3 & K4 & K5).
  apply prefix_length in H1, H2, H3, H4, H5. unfold small. lia.
Qed.

Lemma extends_nth p p' i d : extends p p' -> nth_def (pl_defs p) i = Some d -> nth_def (pl_defs p') i = Some d.
Proof.
  intros (H & _). unfold nth_def. destruct (i <? 0); [discriminate|]. now apply prefix_nth.
Qed.
Lemma extends_get_def p p' i d : extends p p' -> get_def p i = Done d -> get_def p' i = Done d.
Proof.
  intros H. unfold get_def. destruct (nth_def (pl_defs p) i) eqn:E; [|discriminate].
  now rewrite (extends_nth _ _ _ _ H E).
Qed.
Lemma extends_def_by {A} (g : any_def -> option A) p p' i a : extends p p' ->
  def_by g p i = Done a -> def_by g p' i = Done a.
Proof.
  intros H. unfold def_by. destruct (nth_def (pl_defs p) i) eqn:E; [|discriminate].
  now rewrite (extends_nth _ _ _ _ H E).
Qed.
Lemma prefix_get default a b i s : prefix (st_list a) (st_list b) -> st_get default a i = inl s -> st_get default b i = inl s.
Proof. intros (m & E) H. destruct b as [l map]. cbn in E. subst l. now apply get_keep. Qed.
Lemma extends_def_name p p' i n : extends p p' -> def_name p i = Done n -> def_name p' i = Done n.
Proof.
  intros H. unfold def_name. destruct (get_def p i) as [d|] eqn:E; [|discriminate]. cbn [obind].
  rewrite (extends_get_def _ _ _ _ H E). cbn [obind].
  destruct (st_get (Some none_str) (pl_names p) (df_name d)) as [s|] eqn:Es; [|discriminate].
  destruct H as (_ & H & _). now rewrite (prefix_get _ _ _ _ _ H Es).
Qed.
Lemma extends_repr p p' t : forall n, extends p p' -> ti_repr p t = Done n -> ti_repr p' t = Done n.
Proof.
  intros n H. revert n. induction t; intros n; cbn [ti_repr]; try (now apply extends_def_name); try (intros E; exact E);
    (destruct (ti_repr p t) as [x|] eqn:Ex; [|discriminate]; cbn [obind]; rewrite (IHt _ eq_refl); cbn [obind]; exact (fun E => E)).
Qed.

(** * Strings *)

Lemma add_indexed default p s : indexed default p -> Z.of_nat (length (st_list (fst (st_add default p s)))) < 2 ^ 32 ->
  let r := st_add default p s in
  indexed default (fst r) /\ prefix (st_list p) (st_list (fst r)) /\ st_get default (fst r) (snd r) = inl s /\
  st_add default (fst r) s = r.
Proof.
  intros Hi Hl. change (indexed default p) with (pinv default p) in Hi.
  assert (Hlen : Z.of_nat (length (st_list p)) < 2 ^ 32).
  { revert Hl. unfold st_add. destruct (match default with Some d => _ | None => _ end); cbn [fst]; [auto|].
    destruct (sm_find _ _); cbn [fst st_list]; [auto|]. rewrite app_length. cbn. lia. }
  destruct (add_spec default p s Hi Hlen) as (A1 & A2 & (m & A3) & A4 & A5). cbv zeta in *.
  split; [exact A1|]. split; [exists m; exact A3|].
  destruct (match default with Some d => str_eqb d s | None => false end) eqn:Ed.
  - destruct default as [d|]; [|discriminate]. destruct (str_eqb_spec d s) as [->|]; [|discriminate].
    unfold st_add in *. destruct (str_eqb_spec s s); [|congruence]. cbn [fst snd] in *. split; reflexivity.
  - destruct A1 as (B1 & B2 & B3). destruct (B1 s _ A5) as (C1 & C2). split.
    + unfold st_get. destruct default as [d|]; [|now rewrite C2].
      destruct (Z.eqb_spec (snd (st_add (Some d) p s)) 0) as [E0|_]; [|now rewrite C2].
      exfalso. rewrite E0 in C2. change (Z.to_nat 0) with 0%nat in C2. rewrite B3 in C2. injection C2 as ->.
      destruct (str_eqb_spec s s); congruence.
    + unfold st_add at 1. rewrite Ed, A5. now destruct (st_add default p s).
Qed.

Lemma extends_set_names p n : prefix (st_list (pl_names p)) (st_list n) -> extends p (set_names p n).
Proof. intros H. unfold extends. cbn. auto using prefix_refl. Qed.

Lemma add_name_spec p s p' i : add_name p s = (p', i) -> pool_ok p -> small p' ->
  pool_ok p' /\ extends p p' /\ st_get (Some none_str) (pl_names p') i = inl s /\ pl_defs p' = pl_defs p.
Proof.
  unfold add_name. destruct (st_add (Some none_str) (pl_names p) s) as [n j] eqn:E. intros [= <- <-] (H1 & H2 & H3 & H4) Hs.
  pose proof (add_indexed (Some none_str) (pl_names p) s H1) as A. rewrite E in A. cbv zeta in A. cbn [fst snd] in A.
  destruct A as (A1 & A2 & A3 & _); [apply Hs|].
  split; [exact (conj A1 (conj H2 (conj H3 H4)))|].
  split; [now apply extends_set_names|]. auto.
Qed.

Lemma extends_add_definition p d p' i : add_definition p d = (p', i) -> extends p p'.
Proof. intros [= <- <-]. unfold extends. cbn. split; [now exists [d]|]. auto using prefix_refl. Qed.
Lemma add_definition_spec p d p' i : add_definition p d = (p', i) -> small p' ->
  extends p p' /\ pl_names p' = pl_names p /\ nth_def (pl_defs p') i = Some d /\ 0 <= i /\ Z.to_nat i = length (pl_defs p) /\ (pool_ok p -> pool_ok p').
Proof.
  intros E. pose proof (extends_add_definition _ _ _ _ E) as He. injection E as <- <-. intros (Hs & _).
  cbn [set_defs pl_defs] in *. rewrite app_length in Hs. cbn [length] in Hs.
  rewrite wrap_u_id by (unfold in_u; lia).
  split; [exact He|]. split; [reflexivity|]. split; [|split; [lia|split; [apply Nat2Z.id|auto]]].
  unfold nth_def. cbn [set_defs pl_defs]. destruct (Z.ltb_spec (Z.of_nat (length (pl_defs p))) 0); [lia|].
  rewrite Nat2Z.id. apply nth_error_snoc.
Qed.
Lemma add_definition_name p d p' i n : add_definition p d = (p', i) -> small p' ->
  st_get (Some none_str) (pl_names p) (df_name d) = inl n -> def_name p' i = Done n.
Proof.
  intros E Hs Hn. destruct (add_definition_spec _ _ _ _ E Hs) as (_ & En & Ed & _).
  unfold def_name, get_def. rewrite Ed. cbn [obind]. now rewrite En, Hn.
Qed.
