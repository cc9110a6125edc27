(** The conversions of number literals, compared with Flocq's floating-point numbers. *)
From Coq Require Import String.
From Coq Require Import ZArith List Bool Reals Lia Lra.
From Flocq Require Import Core IEEE754.Binary IEEE754.Bits.
From Verif Require Import Bytes Bytecode Definitions Bundle Ast TypeNames Pool Scope TypeCheck LiteralSpec.
Import ListNotations.
Open Scope Z_scope.

(** * Numbers of bits *)
Definition of_ff (x : full_float) : number :=
  match x with
  | F754_zero true => NegativeZero
  | F754_infinity s => Infinite s
  | F754_nan _ _ => NotANumber
  | _ => Real (FF2R radix2 x)
  end.
Lemma of_float_ff prec emax x H : of_float (FF2B prec emax x H) = of_ff x.
Proof. destruct x as [[|]|?|? ?|? ? ?]; reflexivity. Qed.
Lemma number32 b : of_float (b32_of_bits b) = of_ff (binary_float_of_bits_aux 23 8 b).
Proof. apply of_float_ff. Qed.
Lemma number64 b : of_float (b64_of_bits b) = of_ff (binary_float_of_bits_aux 52 11 b).
Proof. apply of_float_ff. Qed.

(** What bits mean. *)
Lemma split_parts mw ew (s : bool) m e : 0 < mw -> 0 < ew -> 0 <= m < 2 ^ mw -> 0 <= e < 2 ^ ew ->
  split_bits mw ew ((if s then 2 ^ (mw + ew) else 0) + e * 2 ^ mw + m) = (s, m, e).
Proof.
  intros Hm He M E. rewrite <- (split_join_bits mw ew s m e) by assumption. f_equal. unfold join_bits. rewrite Z.shiftl_mul_pow2 by lia.
  destruct s; rewrite ?Z.pow_add_r by lia; ring.
Qed.
Lemma normal_bits mw ew (s : bool) m e : 0 < mw -> 0 < ew -> 0 <= m < 2 ^ mw -> 0 < e < 2 ^ ew - 1 ->
  of_ff (binary_float_of_bits_aux mw ew ((if s then 2 ^ (mw + ew) else 0) + e * 2 ^ mw + m)) =
    Real (IZR (if s then - (m + 2 ^ mw) else m + 2 ^ mw) * bpow radix2 (e + (3 - 2 ^ (ew - 1) - (mw + 1)) - 1)).
Proof.
  intros Hm He M E. unfold binary_float_of_bits_aux. rewrite split_parts by lia.
  rewrite Zeq_bool_false by lia. rewrite Zeq_bool_false by lia. assert (0 < 2 ^ mw) by (apply Z.pow_pos_nonneg; lia).
  destruct (m + 2 ^ mw) as [|px|px] eqn:Q; try lia. reflexivity.
Qed.
Lemma subnormal_bits mw ew (s : bool) m : 0 < mw -> 0 < ew -> 0 < m < 2 ^ mw ->
  of_ff (binary_float_of_bits_aux mw ew ((if s then 2 ^ (mw + ew) else 0) + 0 * 2 ^ mw + m)) =
    Real (IZR (if s then - m else m) * bpow radix2 (3 - 2 ^ (ew - 1) - (mw + 1))).
Proof.
  intros Hm He M. assert (0 < 2 ^ ew) by (apply Z.pow_pos_nonneg; lia). unfold binary_float_of_bits_aux. rewrite split_parts by lia. rewrite Zeq_bool_true by reflexivity.
  destruct m as [|px|px] eqn:Q; try lia. reflexivity.
Qed.
Lemma zero_bits mw ew (s : bool) : 0 < mw -> 0 < ew ->
  of_ff (binary_float_of_bits_aux mw ew ((if s then 2 ^ (mw + ew) else 0) + 0 * 2 ^ mw + 0)) = if s then NegativeZero else Real 0.
Proof.
  intros Hm He. assert (0 < 2 ^ ew) by (apply Z.pow_pos_nonneg; lia). assert (0 < 2 ^ mw) by (apply Z.pow_pos_nonneg; lia). unfold binary_float_of_bits_aux. rewrite split_parts by lia.
  rewrite Zeq_bool_true by reflexivity. destruct s; reflexivity.
Qed.
Lemma special_bits mw ew (s : bool) m : 0 < mw -> 0 < ew -> 0 <= m < 2 ^ mw ->
  of_ff (binary_float_of_bits_aux mw ew ((if s then 2 ^ (mw + ew) else 0) + (2 ^ ew - 1) * 2 ^ mw + m)) = if m =? 0 then Infinite s else NotANumber.
Proof.
  intros Hm He M. assert (2 ^ 1 <= 2 ^ ew) by (apply Z.pow_le_mono_r; lia). unfold binary_float_of_bits_aux. rewrite split_parts by lia.
  rewrite Zeq_bool_false by lia. rewrite Zeq_bool_true by reflexivity. destruct m; reflexivity.
Qed.

(** * Integers *)
Section FromInt.
Variables (prec bias ew emin : Z).
Hypothesis Hprec : 1 < prec. Hypothesis Hew : 0 < ew. Hypothesis Hbias : bias = 2 ^ (ew - 1) - 1. Hypothesis Hemin : emin <= 1 - prec.
Let fexp := FLT_exp emin prec.
Definition quot_of (m : Z) : Z :=
  let e := Z.log2 m in
  if e <? prec then Z.shiftl m (prec - 1 - e)
  else let sh := e - (prec - 1) in
       let q := Z.shiftr m sh in
       let r := m - Z.shiftl q sh in
       let half := Z.shiftl 1 (sh - 1) in
       if (half <? r) || ((r =? half) && Z.odd q) then q + 1 else q.
Lemma nearest_quot m : 0 < m -> Z.log2 m >= prec ->
  let sh := Z.log2 m - (prec - 1) in
  ZnearestE (IZR m * bpow radix2 (- sh)) = quot_of m.
Proof.
  intros P L sh. assert (S : 0 < sh) by (unfold sh; lia). unfold quot_of. rewrite (proj2 (Z.ltb_ge _ _)) by lia. fold sh.
  rewrite Z.shiftr_div_pow2, !Z.shiftl_mul_pow2 by lia. set (q := m / 2 ^ sh). rewrite Z.mul_1_l.
  assert (D : m = q * 2 ^ sh + (m mod 2 ^ sh)) by (unfold q; rewrite Z.mul_comm; apply Z.div_mod; apply Z.pow_nonzero; lia).
  pose proof (Z.mod_pos_bound m (2 ^ sh) ltac:(apply Z.pow_pos_nonneg; lia)) as B. set (r := m mod 2 ^ sh) in *.
  replace (m - q * 2 ^ sh) with r by lia.
  assert (H2 : 2 ^ sh = 2 * 2 ^ (sh - 1)) by (rewrite <- Z.pow_succ_r by lia; f_equal; lia).
  assert (Hp : 0 < 2 ^ (sh - 1)) by (apply Z.pow_pos_nonneg; lia).
  assert (X : (IZR m * bpow radix2 (- sh) = IZR q + IZR r / IZR (2 ^ sh))%R).
  { rewrite bpow_opp. rewrite <- (IZR_Zpower radix2) by lia. change (Zpower radix2 sh) with (2 ^ sh). rewrite D at 1. rewrite plus_IZR, mult_IZR. field.
    apply IZR_neq. apply Z.pow_nonzero; lia. }
  rewrite X. assert (Pr : (0 < IZR (2 ^ sh))%R) by (apply IZR_lt; lia). assert (F : (0 <= IZR r / IZR (2 ^ sh) < 1)%R).
  { split; [apply Rmult_le_pos; [apply IZR_le; lia|left; apply Rinv_0_lt_compat, Pr]|]. apply Rmult_lt_reg_r with (IZR (2 ^ sh)); [exact Pr|]. unfold Rdiv. rewrite Rmult_assoc, Rinv_l by lra. rewrite Rmult_1_r, Rmult_1_l. apply IZR_lt. lia. }
  assert (Fl : Zfloor (IZR q + IZR r / IZR (2 ^ sh)) = q) by (apply Zfloor_imp; rewrite plus_IZR; lra).
  assert (Half : (IZR r / IZR (2 ^ sh) - / 2 = (IZR r - IZR (2 ^ (sh - 1))) / IZR (2 ^ sh))%R).
  { rewrite H2. rewrite mult_IZR. field. apply IZR_neq. lia. }
  assert (Cl : 0 < r -> Zceil (IZR q + IZR r / IZR (2 ^ sh)) = q + 1).
  { intros Z0. apply Zceil_imp. rewrite plus_IZR. replace (q + 1 - 1) with q by lia.
    assert (0 < IZR r / IZR (2 ^ sh))%R by (apply Rmult_lt_0_compat; [apply IZR_lt, Z0|apply Rinv_0_lt_compat, Pr]). split; lra. }
  unfold Znearest. rewrite Fl. replace (IZR q + IZR r / IZR (2 ^ sh) - IZR q)%R with (IZR r / IZR (2 ^ sh))%R by ring.
  destruct (Z.lt_trichotomy r (2 ^ (sh - 1))) as [T|[T|T]].
  - rewrite Rcompare_Lt. 2: { apply Rminus_lt. rewrite Half. apply Rmult_lt_reg_r with (IZR (2 ^ sh)); [exact Pr|]. unfold Rdiv. rewrite Rmult_assoc, Rinv_l by lra. apply IZR_lt in T. lra. }
    rewrite (proj2 (Z.ltb_ge _ _)) by lia. rewrite (proj2 (Z.eqb_neq _ _)) by lia. reflexivity.
  - rewrite Rcompare_Eq. 2: { apply Rminus_diag_uniq. rewrite Half, T. unfold Rdiv. ring. }
    rewrite (proj2 (Z.ltb_ge _ _)) by lia. rewrite (proj2 (Z.eqb_eq _ _)) by lia. cbn [orb andb]. rewrite <- Z.negb_even. destruct (Z.even q); cbn [negb]; [reflexivity|].
    apply Cl; lia.
  - rewrite Rcompare_Gt. 2: { apply Rgt_minus in Pr. apply Rlt_gt, Rminus_gt. rewrite Half. apply Rlt_gt. apply Rmult_lt_0_compat; [apply IZR_lt in T; lra|apply Rinv_0_lt_compat; lra]. }
    rewrite (proj2 (Z.ltb_lt _ _)) by lia. cbn [orb]. apply Cl; lia.
Qed.

Lemma log_bounds m : 0 < m -> (bpow radix2 (Z.log2 m) <= IZR m < bpow radix2 (Z.log2 m + 1))%R.
Proof.
  intros P. pose proof (Z.log2_spec m P) as [A B]. pose proof (Z.log2_nonneg m). rewrite <- !(IZR_Zpower radix2) by lia. split; [apply IZR_le|apply IZR_lt]; exact A || exact B.
Qed.
Lemma quot_bounds m : 0 < m -> 2 ^ (prec - 1) <= quot_of m <= 2 ^ prec.
Proof.
  intros P. pose proof (Z.log2_spec m P) as [A B]. pose proof (Z.log2_nonneg m) as N. unfold quot_of. destruct (Z.ltb_spec (Z.log2 m) prec).
  - rewrite Z.shiftl_mul_pow2 by lia. replace (2 ^ (prec - 1)) with (2 ^ Z.log2 m * 2 ^ (prec - 1 - Z.log2 m)) by (rewrite <- Z.pow_add_r by lia; f_equal; lia).
    replace (2 ^ prec) with (2 ^ (Z.log2 m + 1) * 2 ^ (prec - 1 - Z.log2 m)) by (rewrite <- Z.pow_add_r by lia; f_equal; lia).
    assert (0 < 2 ^ (prec - 1 - Z.log2 m)) by (apply Z.pow_pos_nonneg; lia). unfold Z.succ in B. nia.
  - set (sh := Z.log2 m - (prec - 1)). rewrite Z.shiftr_div_pow2 by lia. assert (0 < 2 ^ sh) by (apply Z.pow_pos_nonneg; lia).
    assert (2 ^ (prec - 1) <= m / 2 ^ sh) by (apply Z.div_le_lower_bound; [lia|]; rewrite <- Z.pow_add_r by lia; replace (sh + (prec - 1)) with (Z.log2 m) by lia; exact A).
    assert (m / 2 ^ sh < 2 ^ prec) by (apply Z.div_lt_upper_bound; [lia|]; rewrite <- Z.pow_add_r by lia; replace (sh + prec) with (Z.succ (Z.log2 m)) by lia; exact B).
    destruct (_ || _); lia.
Qed.
Lemma round_pos m : 0 < m -> round radix2 fexp ZnearestE (IZR m) = (IZR (quot_of m) * bpow radix2 (Z.log2 m - (prec - 1)))%R.
Proof.
  intros P. pose proof (log_bounds m P) as B. pose proof (Z.log2_nonneg m) as N.
  assert (Mg : (mag radix2 (IZR m) : Z) = Z.log2 m + 1) by (apply mag_unique_pos; replace (Z.log2 m + 1 - 1) with (Z.log2 m) by lia; exact B).
  unfold round, F2R, scaled_mantissa, cexp. cbn [Fnum Fexp]. rewrite Mg. unfold fexp, FLT_exp. rewrite Z.max_l by lia. replace (Z.log2 m + 1 - prec) with (Z.log2 m - (prec - 1)) by lia.
  f_equal. f_equal. destruct (Z.ltb_spec (Z.log2 m) prec) as [H|H].
  - unfold quot_of. rewrite (proj2 (Z.ltb_lt _ _)) by exact H. rewrite Z.shiftl_mul_pow2 by lia. replace (- (Z.log2 m - (prec - 1))) with (prec - 1 - Z.log2 m) by lia.
    rewrite <- (IZR_Zpower radix2) by lia. rewrite <- mult_IZR. apply Zrnd_IZR. typeclasses eauto.
  - apply nearest_quot; lia.
Qed.
Lemma nearest_even_opp x : ZnearestE (- x) = - ZnearestE x.
Proof.
  rewrite Znearest_opp. f_equal. unfold Znearest. destruct (Rcompare _ _); try reflexivity. rewrite Z.even_opp, Z.even_add. destruct (Z.even (Zfloor x)); reflexivity.
Qed.
Lemma round_opp_even x : round radix2 fexp ZnearestE (- x) = (- round radix2 fexp ZnearestE x)%R.
Proof. unfold round, F2R, scaled_mantissa. cbn [Fnum Fexp]. rewrite cexp_opp, Ropp_mult_distr_l_reverse, nearest_even_opp, opp_IZR. ring. Qed.
(** The bits have the rounded value. *)
Hypothesis Hemin' : emin = 3 - 2 ^ (ew - 1) - prec.
Lemma from_int i : Z.log2 (Z.abs i) + 1 < 2 ^ (ew - 1) - 1 ->
  of_ff (binary_float_of_bits_aux (prec - 1) ew (float_of_int prec bias (prec + ew) i)) = Real (round radix2 fexp ZnearestE (IZR i)).
Proof.
  intros L. unfold float_of_int. destruct (Z.eqb_spec i 0) as [->|N0].
  - rewrite round_0 by typeclasses eauto.
    pose proof (zero_bits (prec - 1) ew false) as S0. cbn iota in S0. replace (0 + 0 * 2 ^ (prec - 1) + 0) with 0 in S0 by ring. apply S0; lia.
  - fold (quot_of (Z.abs i)). set (m := Z.abs i) in *. assert (P : 0 < m) by (unfold m; lia). pose proof (quot_bounds m P) as Q. pose proof (Z.log2_nonneg m) as LN.
    set (q := quot_of m) in *. set (e := Z.log2 m) in *. rewrite !Z.shiftl_mul_pow2, !Z.mul_1_l by lia.
    assert (Hw : 2 ^ ew = 2 * 2 ^ (ew - 1)) by (rewrite <- Z.pow_succ_r by lia; f_equal; lia).
    assert (R : round radix2 fexp ZnearestE (IZR i) = (IZR (if i <? 0 then - q else q) * bpow radix2 (e - (prec - 1)))%R).
    { destruct (Z.ltb_spec i 0).
      - replace i with (- m) by (unfold m; lia). rewrite opp_IZR, round_opp_even, round_pos by exact P. fold q e. rewrite opp_IZR. ring.
      - replace i with m by (unfold m; lia). rewrite round_pos by exact P. reflexivity. }
    rewrite R. replace (if i <? 0 then 2 ^ (prec + ew - 1) else 0) with (if i <? 0 then 2 ^ (prec - 1 + ew) else 0) by (destruct (i <? 0); [f_equal; lia|reflexivity]).
    assert (Hp : 2 ^ prec = 2 * 2 ^ (prec - 1)) by (rewrite <- Z.pow_succ_r by lia; f_equal; lia). assert (0 < 2 ^ (prec - 1)) by (apply Z.pow_pos_nonneg; lia).
    destruct (Z.eq_dec q (2 ^ prec)) as [Qe|Qe].
    + rewrite Qe. replace ((if i <? 0 then 2 ^ (prec - 1 + ew) else 0) + (e + bias) * 2 ^ (prec - 1) + (2 ^ prec - 2 ^ (prec - 1)))
        with ((if i <? 0 then 2 ^ (prec - 1 + ew) else 0) + (e + bias + 1) * 2 ^ (prec - 1) + 0) by lia.
      rewrite (normal_bits (prec - 1) ew (i <? 0) 0 (e + bias + 1)) by lia. f_equal.
      replace (e + bias + 1 + (3 - 2 ^ (ew - 1) - (prec - 1 + 1)) - 1) with (e - (prec - 1) + 1) by lia. rewrite bpow_plus. rewrite Hp.
      change (bpow radix2 1) with 2%R. destruct (i <? 0); rewrite ?opp_IZR, ?plus_IZR, ?mult_IZR; ring.
    + replace ((if i <? 0 then 2 ^ (prec - 1 + ew) else 0) + (e + bias) * 2 ^ (prec - 1) + (q - 2 ^ (prec - 1)))
        with ((if i <? 0 then 2 ^ (prec - 1 + ew) else 0) + (e + bias) * 2 ^ (prec - 1) + (q - 2 ^ (prec - 1))) by lia.
      rewrite (normal_bits (prec - 1) ew (i <? 0) (q - 2 ^ (prec - 1)) (e + bias)) by lia. f_equal.
      replace (e + bias + (3 - 2 ^ (ew - 1) - (prec - 1 + 1)) - 1) with (e - (prec - 1)) by lia. replace (q - 2 ^ (prec - 1) + 2 ^ (prec - 1)) with q by lia. reflexivity.
Qed.
End FromInt.


(** * Floats *)
Lemma widen_float b : in_u 32 b -> of_float (b64_of_bits (f64_of_f32 b)) = of_float (b32_of_bits b).
Proof.
  unfold in_u. intros B. rewrite number32, number64. unfold f64_of_f32. rewrite !Z.shiftr_div_pow2, !Z.shiftl_mul_pow2 by lia.
  change 255 with (Z.ones 8). change (2 ^ 23 - 1) with (Z.ones 23). rewrite !Z.land_ones by lia. change (Z.ones 8) with 255.
  set (m := b mod 2 ^ 23). set (e := (b / 2 ^ 23) mod 2 ^ 8). set (s := 2 ^ 31 <=? b).
  assert (M : 0 <= m < 2 ^ 23) by (apply Z.mod_pos_bound; lia). assert (E : 0 <= e < 2 ^ 8) by (apply Z.mod_pos_bound; lia).
  assert (S : b / 2 ^ 31 * 2 ^ 63 = if s then 2 ^ (52 + 11) else 0).
  { unfold s. destruct (Z.leb_spec (2 ^ 31) b).
    - replace (b / 2 ^ 31) with 1; [reflexivity|]. apply Z.div_unique with (b - 2 ^ 31); lia.
    - rewrite Z.div_small by lia. reflexivity. }
  assert (D : b = (if s then 2 ^ (23 + 8) else 0) + e * 2 ^ 23 + m).
  { pose proof (Z.div_mod b (2 ^ 23) ltac:(lia)) as D1. pose proof (Z.div_mod (b / 2 ^ 23) (2 ^ 8) ltac:(lia)) as D2. rewrite Z.div_div in D2 by lia. change (2 ^ 23 * 2 ^ 8) with (2 ^ 31) in D2.
    fold m in D1. fold e in D2. assert (b / 2 ^ 31 * 2 ^ 31 = if s then 2 ^ (23 + 8) else 0) by (destruct s; lia). lia. }
  rewrite S. replace (binary_float_of_bits_aux 23 8 b) with (binary_float_of_bits_aux 23 8 ((if s then 2 ^ (23 + 8) else 0) + e * 2 ^ 23 + m)) by (rewrite <- D; reflexivity).
  clearbody m e s. clear D S B. destruct (Z.eqb_spec e 255) as [->|E1].
  - change 255 with (2 ^ 8 - 1). change 2047 with (2 ^ 11 - 1). rewrite !special_bits by lia. destruct (Z.eqb_spec m 0) as [->|N]; [reflexivity|].
    destruct (Z.eqb_spec (m * 2 ^ 29) 0); [lia|reflexivity].
  - destruct (Z.eqb_spec e 0) as [->|E0].
    + destruct (Z.eqb_spec m 0) as [->|N].
      * rewrite zero_bits by lia. pose proof (zero_bits 52 11 s ltac:(lia) ltac:(lia)) as Q. rewrite Z.mul_0_l, !Z.add_0_r in Q. exact Q.
      * assert (P : 0 < m) by lia. pose proof (Z.log2_spec m P) as [L1 L2]. pose proof (Z.log2_nonneg m). assert (Z.log2 m < 23) by (apply Z.log2_lt_pow2; lia).
        set (k := Z.log2 m) in *. assert (Q : 2 ^ 52 = 2 ^ k * 2 ^ (52 - k)) by (rewrite <- Z.pow_add_r by lia; f_equal; lia). assert (0 < 2 ^ (52 - k)) by (apply Z.pow_pos_nonneg; lia).
        assert (Q' : 2 ^ Z.succ k = 2 * 2 ^ k) by (apply Z.pow_succ_r; lia).
        assert (W : 0 <= m * 2 ^ (52 - k) - 2 ^ 52 < 2 ^ 52) by (rewrite Q; clear - L1 L2 Q' H1; nia).
        rewrite subnormal_bits by lia. rewrite Z.shiftl_mul_pow2 by lia. rewrite normal_bits by (exact W || lia). f_equal. replace (m * 2 ^ (52 - k) - 2 ^ 52 + 2 ^ 52) with (m * 2 ^ (52 - k)) by ring.
        replace (k - 149 + 1023 + (3 - 2 ^ (11 - 1) - (52 + 1)) - 1) with (- (52 - k) + (3 - 2 ^ (8 - 1) - (23 + 1))) by lia. rewrite bpow_plus, bpow_opp.
        rewrite <- (IZR_Zpower radix2 (52 - k)) by lia. change (Zpower radix2 (52 - k)) with (2 ^ (52 - k)).
        destruct s; rewrite ?opp_IZR, ?mult_IZR; field; apply IZR_neq; lia.
    + rewrite Z.shiftl_mul_pow2 by lia. rewrite !normal_bits by lia. f_equal. replace (m * 2 ^ 29 + 2 ^ 52) with ((m + 2 ^ 23) * 2 ^ 29) by lia.
      replace (e - 127 + 1023 + (3 - 2 ^ (11 - 1) - (52 + 1)) - 1) with (- 29 + (e + (3 - 2 ^ (8 - 1) - (23 + 1)) - 1)) by lia. rewrite bpow_plus. change (-29) with (Z.opp 29). rewrite bpow_opp.
      rewrite <- (IZR_Zpower radix2 29) by lia. change (Zpower radix2 29) with (2 ^ 29).
      destruct s; rewrite ?opp_IZR, ?mult_IZR; field; apply IZR_neq; lia.
Qed.
Lemma float_of_i32 i : in_s 32 i -> of_float (b32_of_bits (f32_of_i32 i)) = Real (nearest_float (IZR i)).
Proof.
  unfold in_s. intros B. rewrite number32. unfold f32_of_i32. apply (from_int 24 127 8 (-149)); try lia. 
  destruct (Z.eq_dec i 0) as [->|N]; [cbn; lia|]. assert (Z.log2 (Z.abs i) < 32) by (apply Z.log2_lt_pow2; lia). lia.
Qed.
Lemma double_of_i32 i : in_s 32 i -> of_float (b64_of_bits (f64_of_i32 i)) = Real (IZR i).
Proof.
  unfold in_s. intros B. rewrite number64. unfold f64_of_i32. etransitivity; [apply (from_int 53 1023 11 (-1074)); try lia|].
  - destruct (Z.eq_dec i 0) as [->|N]; [cbn; lia|]. assert (Z.log2 (Z.abs i) < 32) by (apply Z.log2_lt_pow2; lia). lia.
  - f_equal. apply round_generic; [typeclasses eauto|]. apply generic_format_FLT. exists (Float radix2 i 0); cbn [Fnum Fexp]; [unfold F2R; cbn; ring| |lia].
    change (Z.abs i < 2 ^ 53). lia.
Qed.
Lemma small_float i : Z.abs i <= 2 ^ 24 -> nearest_float (IZR i) = IZR i.
Proof.
  intros B. apply round_generic; [typeclasses eauto|]. destruct (Z.eq_dec (Z.abs i) (2 ^ 24)) as [E|N].
  - apply generic_format_FLT. exists (Float radix2 (Z.sgn i) 24); cbn [Fnum Fexp]; [|destruct i; cbn; lia|lia]. unfold F2R. cbn [Fnum Fexp]. change (bpow radix2 24) with (IZR (2 ^ 24)). rewrite <- mult_IZR, <- E. f_equal. lia.
  - apply generic_format_FLT. exists (Float radix2 i 0); cbn [Fnum Fexp]; [unfold F2R; cbn; ring| |lia]. change (Z.abs i < 2 ^ 24). lia.
Qed.
