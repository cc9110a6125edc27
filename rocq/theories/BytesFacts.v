(** Facts about the byte-level codecs of [Bytes.v]. *)
From Coq Require Import ZArith NArith List Bool Lia ZifyBool ZifyNat ZifyN.
From Verif Require Import Bytes.
Import ListNotations.
Open Scope Z_scope.
Ltac Zify.zify_post_hook ::= Z.div_mod_to_equations.

(** [dec] reads back what [enc] wrote, leaving the rest of the stream alone. *)
Definition rt {A} (enc : A -> writer) (dec : parser A) (a : A) : Prop :=
  exists bs, enc a = Ok bs /\ forall rest, dec (bs ++ rest) = Ok (a, rest).

Lemma Z_of_byte_range b : 0 <= Z_of_byte b < 256.
Proof.
  unfold Z_of_byte. pose proof (Byte.to_N_bounded b). lia.
Qed.

Lemma Z_of_byte_of_Z z : Z_of_byte (byte_of_Z z) = z mod 256.
Proof.
  unfold byte_of_Z, Z_of_byte.
  destruct (Byte.of_N (Z.to_N (z mod 256))) as [b|] eqn:E.
  - apply Byte.to_of_N in E. rewrite E. rewrite Z2N.id; [reflexivity|].
    apply Z.mod_pos_bound; lia.
  - apply Byte.of_N_None_iff in E. pose proof (Z.mod_pos_bound z 256). lia.
Qed.

Lemma byte_of_Z_of_byte b : byte_of_Z (Z_of_byte b) = b.
Proof.
  unfold byte_of_Z, Z_of_byte.
  pose proof (Byte.to_N_bounded b).
  rewrite Z.mod_small by lia. rewrite N2Z.id, Byte.of_to_N. reflexivity.
Qed.

Lemma Z_of_byte_inj a b : Z_of_byte a = Z_of_byte b -> a = b.
Proof. intros H. rewrite <- (byte_of_Z_of_byte a), H. apply byte_of_Z_of_byte. Qed.

Lemma le_enc_length n z : length (le_enc n z) = n.
Proof. revert z; induction n as [|n IH]; intros z; cbn; [reflexivity|]. now rewrite IH. Qed.

Lemma pow256_S n : 256 ^ Z.of_nat (S n) = 256 * 256 ^ Z.of_nat n.
Proof. rewrite Nat2Z.inj_succ, Z.pow_succ_r by lia. reflexivity. Qed.

Lemma le_val_enc n z : le_val (le_enc n z) = z mod 256 ^ Z.of_nat n.
Proof.
  revert z; induction n as [|n IH]; intros z; cbn [le_enc le_val].
  - cbn. symmetry. apply Z.mod_1_r.
  - rewrite Z_of_byte_of_Z, IH, pow256_S.
    assert (0 < 256 ^ Z.of_nat n) by (apply Z.pow_pos_nonneg; lia).
    rewrite Z.rem_mul_r by lia. lia.
Qed.

Lemma le_val_bound bs : 0 <= le_val bs < 256 ^ Z.of_nat (length bs).
Proof.
  induction bs as [|b bs IH]; cbn [le_val length].
  - cbn. lia.
  - rewrite pow256_S. pose proof (Z_of_byte_range b). lia.
Qed.

Lemma byte_of_Z_mod z : byte_of_Z (z mod 256) = byte_of_Z z.
Proof. apply Z_of_byte_inj. rewrite !Z_of_byte_of_Z. apply Z.mod_mod; lia. Qed.

Lemma le_enc_val bs : le_enc (length bs) (le_val bs) = bs.
Proof.
  induction bs as [|b bs IH]; cbn [length le_enc le_val]; [reflexivity|].
  pose proof (Z_of_byte_range b).
  f_equal.
  - apply Z_of_byte_inj. rewrite Z_of_byte_of_Z, Z.mul_comm, Z_mod_plus_full.
    now apply Z.mod_small.
  - rewrite Z.mul_comm, Z.div_add, Z.div_small, Z.add_0_l by lia. exact IH.
Qed.

(** The value written only matters modulo the width. *)
Lemma le_enc_mod n z k : k = 256 ^ Z.of_nat n -> le_enc n (z mod k) = le_enc n z.
Proof.
  intros ->. revert z; induction n as [|n IH]; intros z; [reflexivity|].
  cbn [le_enc]. rewrite pow256_S.
  assert (0 < 256 ^ Z.of_nat n) by (apply Z.pow_pos_nonneg; lia).
  f_equal.
  - apply Z_of_byte_inj. rewrite !Z_of_byte_of_Z.
    rewrite Z.rem_mul_r by lia.
    rewrite Z.mul_comm, Z_mod_plus_full. apply Z.mod_mod; lia.
  - rewrite <- (IH (z / 256)). f_equal.
    rewrite Z.rem_mul_r by lia.
    rewrite Z.mul_comm, Z.div_add by lia.
    rewrite (Z.div_small (z mod 256)) by (apply Z.mod_pos_bound; lia). lia.
Qed.

Lemma take_bytes_app n bs rest :
  length bs = n -> take_bytes (Z.of_nat n) (bs ++ rest) = Ok (bs, rest).
Proof.
  intros <-. unfold take_bytes. rewrite app_length.
  replace (Z.of_nat (length bs) <=? Z.of_nat (length bs + length rest)) with true by lia.
  rewrite Nat2Z.id, firstn_app, skipn_app, Nat.sub_diag, firstn_all, skipn_all.
  cbn. now rewrite app_nil_r.
Qed.

Lemma take_bytes_inv n i bs rest :
  0 <= n -> take_bytes n i = Ok (bs, rest) -> i = bs ++ rest /\ Z.of_nat (length bs) = n.
Proof.
  unfold take_bytes. intros Hn. destruct (n <=? Z.of_nat (length i)) eqn:E; [|discriminate].
  intros [= <- <-]. split.
  - symmetry. apply firstn_skipn.
  - rewrite firstn_length. lia.
Qed.

Lemma dec_u_enc n z rest : dec_u n (le_enc n z ++ rest) = Ok (z mod 256 ^ Z.of_nat n, rest).
Proof.
  unfold dec_u, pbind. rewrite take_bytes_app by apply le_enc_length.
  cbn. unfold pret. now rewrite le_val_enc.
Qed.

Lemma pow256 n : 256 ^ Z.of_nat n = 2 ^ (8 * Z.of_nat n).
Proof. replace 256 with (2 ^ 8) by reflexivity. rewrite <- Z.pow_mul_r by lia. reflexivity. Qed.

Lemma rt_u n z : in_u (8 * Z.of_nat n) z -> rt (enc_i n) (dec_u n) z.
Proof.
  intros [H1 H2]. exists (le_enc n z). split; [reflexivity|]. intros rest.
  rewrite dec_u_enc, pow256, Z.mod_small by lia. reflexivity.
Qed.

Lemma pow2_half b : 0 < b -> 2 ^ b = 2 * 2 ^ (b - 1).
Proof.
  intros H. replace b with (Z.succ (b - 1)) at 1 by lia. rewrite Z.pow_succ_r by lia. reflexivity.
Qed.

Lemma wrap_s_mod b z : 0 < b -> wrap_s b (z mod 2 ^ b) = wrap_s b z.
Proof.
  intros H. unfold wrap_s. rewrite Z.add_mod_idemp_l; [reflexivity|].
  apply Z.pow_nonzero; lia.
Qed.

Lemma wrap_s_id b z : 0 < b -> in_s b z -> wrap_s b z = z.
Proof.
  intros H [H1 H2]. unfold wrap_s. rewrite Z.mod_small; [lia|].
  rewrite (pow2_half b H). lia.
Qed.

Lemma wrap_s_range b z : 0 < b -> in_s b (wrap_s b z).
Proof.
  intros H. unfold in_s, wrap_s.
  assert (Hp : 0 < 2 ^ b) by (apply Z.pow_pos_nonneg; lia).
  pose proof (Z.mod_pos_bound (z + 2 ^ (b - 1)) (2 ^ b) Hp).
  rewrite (pow2_half b H) in *. lia.
Qed.

Lemma wrap_s_cong b z : 0 < b -> exists k, wrap_s b z = z + k * 2 ^ b.
Proof.
  intros H. unfold wrap_s.
  exists (- ((z + 2 ^ (b - 1)) / 2 ^ b)).
  rewrite Z.mod_eq by (apply Z.pow_nonzero; lia). lia.
Qed.

Lemma wrap_s_add b x k : 0 < b -> wrap_s b (x + k * 2 ^ b) = wrap_s b x.
Proof.
  intros H. unfold wrap_s.
  replace (x + k * 2 ^ b + 2 ^ (b - 1)) with (x + 2 ^ (b - 1) + k * 2 ^ b) by lia.
  rewrite Z_mod_plus_full. reflexivity.
Qed.

Lemma wrap_s_add_l b x y : 0 < b -> wrap_s b (wrap_s b x + y) = wrap_s b (x + y).
Proof.
  intros H. destruct (wrap_s_cong b x H) as [k ->].
  replace (x + k * 2 ^ b + y) with (x + y + k * 2 ^ b) by lia. now apply wrap_s_add.
Qed.

Lemma wrap_s_sub_l b x y : 0 < b -> wrap_s b (wrap_s b x - y) = wrap_s b (x - y).
Proof. intros H. rewrite <- !Z.add_opp_r. now apply wrap_s_add_l. Qed.

Lemma wrap_u_range b z : 0 <= b -> in_u b (wrap_u b z).
Proof. intros H. unfold in_u, wrap_u. apply Z.mod_pos_bound. apply Z.pow_pos_nonneg; lia. Qed.

Lemma wrap_u_id b z : in_u b z -> wrap_u b z = z.
Proof. intros H. unfold wrap_u. now apply Z.mod_small. Qed.

Lemma dec_s_enc n z rest :
  (0 < n)%nat -> dec_s n (le_enc n z ++ rest) = Ok (wrap_s (8 * Z.of_nat n) z, rest).
Proof.
  intros Hn. unfold dec_s, pbind. rewrite take_bytes_app by apply le_enc_length.
  cbv beta iota. unfold pret. rewrite le_val_enc, pow256, wrap_s_mod by lia. reflexivity.
Qed.

Lemma rt_s n z : (0 < n)%nat -> in_s (8 * Z.of_nat n) z -> rt (enc_i n) (dec_s n) z.
Proof.
  intros Hn H. exists (le_enc n z). split; [reflexivity|]. intros rest.
  rewrite dec_s_enc, wrap_s_id by (trivial; lia). reflexivity.
Qed.

Lemma rt_bool b : rt enc_bool dec_bool b.
Proof.
  exists (le_enc 1 (if b then 1 else 0)). split; [destruct b; reflexivity|].
  intros rest. unfold dec_bool, pbind, dec_u8. rewrite dec_u_enc. destruct b; reflexivity.
Qed.

(** Composition *)
Lemma wapp_ok a b bs : a +++ b = Ok bs <-> exists x y, a = Ok x /\ b = Ok y /\ bs = x ++ y.
Proof.
  unfold wapp. destruct a as [x|e]; [destruct b as [y|e]|]; split;
    try discriminate; try (intros (x' & y' & H1 & H2 & H3); congruence).
  intros [= <-]. exists x, y. auto.
Qed.

(** A write [w] is read back by [p] as [a]. *)
Definition reads {A} (w : writer) (p : parser A) (a : A) : Prop :=
  exists bs, w = Ok bs /\ forall rest, p (bs ++ rest) = Ok (a, rest).

Lemma rt_reads {A} (e : A -> writer) d a : rt e d a <-> reads (e a) d a.
Proof. reflexivity. Qed.

Lemma reads_ret {A} (a : A) : reads (Ok []) (pret a) a.
Proof. exists []. split; reflexivity. Qed.

Lemma reads_bind {A B} w1 w2 (p : parser A) (k : A -> parser B) a b :
  reads w1 p a -> reads w2 (k a) b -> reads (w1 +++ w2) (pbind p k) b.
Proof.
  intros (x & -> & Hx) (y & -> & Hy). exists (x ++ y). split; [reflexivity|].
  intros rest. unfold pbind. rewrite <- app_assoc, Hx. apply Hy.
Qed.

Lemma reads_bind_pure {A B} w (p : parser A) (a : A) (b : B) (k : A -> parser B) :
  k a = pret b -> reads w p a -> reads w (pbind p k) b.
Proof.
  intros Hk (x & -> & Hx). exists x. split; [reflexivity|].
  intros rest. unfold pbind. rewrite Hx, Hk. reflexivity.
Qed.

(** Last element of a chain: the continuation only returns. *)
Lemma reads_bind_ret {A B} w (p : parser A) (f : A -> B) a :
  reads w p a -> reads w (x <- p ;; pret (f x)) (f a).
Proof. intros H. now apply (reads_bind_pure w p a). Qed.

Lemma reads_eq {A} w (p : parser A) a a' : a = a' -> reads w p a -> reads w p a'.
Proof. now intros ->. Qed.

Lemma wapp_nil_r w : w +++ Ok [] = w.
Proof. unfold wapp. destruct w; [now rewrite app_nil_r|reflexivity]. Qed.

Lemma wapp_assoc a b c : (a +++ b) +++ c = a +++ (b +++ c).
Proof.
  unfold wapp. destruct a as [x|]; [|reflexivity].
  destruct b as [y|]; [|reflexivity]. destruct c as [z|]; [|reflexivity].
  now rewrite app_assoc.
Qed.

Lemma reads_len w n : Z.of_nat n < 2 ^ (8 * Z.of_nat w) ->
  reads (enc_len w n) (dec_u w) (Z.of_nat n).
Proof.
  intros H. unfold enc_len. replace (Z.of_nat n <? 2 ^ (8 * Z.of_nat w)) with true by lia.
  apply rt_u. split; lia.
Qed.

Lemma reads_slice {A} (e : A -> writer) (d : parser A) l :
  Forall (rt e d) l -> reads (enc_slice e l) (dec_vec_n d (length l)) l.
Proof.
  induction 1 as [|a l Ha Hl IH]; cbn [enc_slice dec_vec_n length].
  - apply reads_ret.
  - eapply reads_bind; [exact Ha|]. cbv beta.
    eapply reads_bind_pure; [|exact IH]. reflexivity.
Qed.

Lemma reads_slice_prefixed {A} w (e : A -> writer) (d : parser A) l :
  Z.of_nat (length l) < 2 ^ (8 * Z.of_nat w) ->
  Forall (rt e d) l -> reads (enc_slice_prefixed w e l) (dec_vec_prefixed w d) l.
Proof.
  intros Hn Hl. unfold enc_slice_prefixed, dec_vec_prefixed.
  eapply reads_bind; [now apply reads_len|]. unfold dec_vec. rewrite Nat2Z.id.
  now apply reads_slice.
Qed.

Lemma reads_check s : utf8_valid s = true -> check_utf8 s = pret s.
Proof. unfold check_utf8. now intros ->. Qed.

Lemma reads_str_prefixed w s :
  Z.of_nat (length s) < 2 ^ (8 * Z.of_nat w) -> utf8_valid s = true ->
  reads (enc_str_prefixed w s) (dec_str_prefixed w) s.
Proof.
  intros Hn Hs. unfold enc_str_prefixed, dec_str_prefixed.
  eapply reads_bind; [now apply reads_len|].
  exists s. split; [reflexivity|]. intros rest. unfold dec_str, pbind.
  rewrite take_bytes_app by reflexivity. now rewrite reads_check.
Qed.

(** No NUL byte inside. *)
Definition nul_free (s : list byte) : Prop := Forall (fun b => Z_of_byte b <> 0) s.

Lemma read_cstr_app s rest : nul_free s -> read_cstr (s ++ x00 :: rest) = Ok (s, rest).
Proof.
  induction 1 as [|b s Hb Hs IH]; cbn [app read_cstr]; [reflexivity|].
  replace (Z_of_byte b =? 0) with false by lia. now rewrite IH.
Qed.

Lemma reads_cstr s : nul_free s -> utf8_valid s = true -> reads (enc_cstr s) dec_cstr s.
Proof.
  intros Hn Hu. exists (s ++ [x00]). split; [reflexivity|]. intros rest.
  unfold dec_cstr, pbind. rewrite <- app_assoc. cbn [app].
  rewrite read_cstr_app by assumption. now rewrite reads_check.
Qed.

(** Inversions: what a successful read consumed. *)
Lemma pbind_inv {A B} (p : parser A) (k : A -> parser B) i b r :
  (x <- p ;; k x) i = Ok (b, r) -> exists a i', p i = Ok (a, i') /\ k a i' = Ok (b, r).
Proof.
  unfold pbind. destruct (p i) as [[a i']|e]; [|discriminate]. intros H. eauto.
Qed.

Lemma dec_u_inv n i v r :
  dec_u n i = Ok (v, r) -> i = le_enc n v ++ r /\ in_u (8 * Z.of_nat n) v.
Proof.
  intros H. apply pbind_inv in H. destruct H as (bs & i' & H1 & [= <- <-]).
  apply take_bytes_inv in H1; [|lia]. destruct H1 as [-> Hl].
  apply Nat2Z.inj in Hl. subst n. split.
  - now rewrite le_enc_val.
  - unfold in_u. rewrite <- pow256. apply le_val_bound.
Qed.

Lemma dec_s_inv n i v r : (0 < n)%nat ->
  dec_s n i = Ok (v, r) -> i = le_enc n v ++ r /\ in_s (8 * Z.of_nat n) v.
Proof.
  intros Hn H. apply pbind_inv in H. destruct H as (bs & i' & H1 & H2).
  assert (Hv : v = wrap_s (8 * Z.of_nat n) (le_val bs)) by (unfold pret in H2; congruence).
  assert (i' = r) by (unfold pret in H2; congruence). subst i'. clear H2.
  apply take_bytes_inv in H1; [|lia]. destruct H1 as [-> Hl].
  apply Nat2Z.inj in Hl. subst n. rewrite Hv. split.
  - f_equal. destruct (wrap_s_cong (8 * Z.of_nat (length bs)) (le_val bs)) as [k Hk]; [lia|].
    rewrite Hk. rewrite <- (le_enc_mod _ _ _ eq_refl), <- pow256, Z_mod_plus_full.
    rewrite le_enc_mod by reflexivity. now rewrite le_enc_val.
  - apply wrap_s_range. lia.
Qed.
