(** Bit-level facts about flag words. *)
From Coq Require Import ZArith Bool Lia.
From Verif Require Import Bytes Definitions.
Open Scope Z_scope.

Lemma with_flag_spec k b w i : 0 <= k -> 0 <= i ->
  Z.testbit (with_flag k b w) i = if i =? k then b else Z.testbit w i.
Proof.
  intros Hk Hi. unfold with_flag. destruct b.
  - rewrite Z.setbit_eqb by assumption. rewrite (Z.eqb_sym k i). destruct (i =? k); reflexivity.
  - rewrite Z.clearbit_eqb by assumption. rewrite (Z.eqb_sym k i). destruct (i =? k); cbn.
    + apply andb_false_r.
    + apply andb_true_r.
Qed.

Lemma with_flag_same k w : 0 <= k -> with_flag k (get_flag k w) w = w.
Proof.
  intros Hk. apply Z.bits_inj'. intros i Hi. rewrite with_flag_spec by assumption.
  destruct (Z.eqb_spec i k); [subst; reflexivity|reflexivity].
Qed.

Lemma in_u_bits n w : 0 <= n -> in_u n w <-> Z.land w (Z.ones n) = w.
Proof.
  intros Hn. rewrite Z.land_ones by assumption. unfold in_u.
  assert (0 < 2 ^ n) by (apply Z.pow_pos_nonneg; lia). split; intros H'.
  - apply Z.mod_small; lia.
  - rewrite <- H'. apply Z.mod_pos_bound. lia.
Qed.

Lemma in_u_high n w : 0 <= n -> in_u n w <-> (forall i, n <= i -> Z.testbit w i = false).
Proof.
  intros Hn. rewrite in_u_bits by assumption. split; intros H.
  - intros i Hi. rewrite <- H, Z.land_spec, Z.ones_spec_high by lia. apply andb_false_r.
  - apply Z.bits_inj'. intros i Hi. rewrite Z.land_spec.
    destruct (Z.lt_ge_cases i n).
    + rewrite Z.ones_spec_low by lia. apply andb_true_r.
    + rewrite H by lia. reflexivity.
Qed.

Lemma with_flag_range n k b w : 0 <= k < n -> in_u n w -> in_u n (with_flag k b w).
Proof.
  intros Hk. rewrite !in_u_high by lia. intros H i Hi. rewrite with_flag_spec by lia.
  destruct (Z.eqb_spec i k); [lia|]. now apply H.
Qed.
