(** What the grammar's rules for words, numbers, texts and types read from what the
    printer writes for them. *)
From Coq Require Import String.
From Coq Require Import ZArith List Bool Lia.
From Coq Require Decimal DecimalN DecimalPos.
From Verif Require Import Bytes BytesFacts Definitions DefinitionsFacts Bundle BundleFacts Ast TypeNames Pool Scope TypeCheck Printer Parser PrintSpec ParserFacts.
Import ListNotations.
Open Scope Z_scope.

(** The text ends here for a word. *)
Definition edge (rest : list byte) : Prop := match rest with b :: _ => is_word_char b = false | [] => True end.

Lemma span_of_all f w rest : forallb f w = true -> match rest with b :: _ => f b = false | [] => True end ->
  span_of f (w ++ rest) = (w, rest).
Proof.
  intros H E. induction w as [|b w IH]; cbn [app span_of].
  - destruct rest as [|b rest]; [reflexivity|]. cbn [span_of]. now rewrite E.
  - cbn [forallb] in H. apply andb_prop in H as [H1 H2]. now rewrite H1, IH.
Qed.
Lemma name_read n rest : is_name n = true -> edge rest -> rident (n ++ rest) = PMatch n rest.
Proof.
  destruct n as [|b n]; [discriminate|]. cbn [is_name]. intros H E. apply andb_prop in H as [H1 H2].
  cbn [app rident]. rewrite H1, span_of_all; [reflexivity|assumption..].
Qed.
Lemma strip_app s rest : strip s (s ++ rest) = Some rest.
Proof. induction s as [|b s IH]; [reflexivity|]. cbn [app strip]. destruct (byte_eqb_spec b b); [exact IH|congruence]. Qed.
Lemma lit_read s rest : rlit s (s ++ rest) = PMatch tt rest.
Proof. unfold rlit. now rewrite strip_app. Qed.
Lemma keyword_read s rest : edge rest -> rkeyword s (s ++ rest) = PMatch tt rest.
Proof. unfold rkeyword. rewrite strip_app. destruct rest as [|b rest]; [reflexivity|]. cbn [edge]. now intros ->. Qed.
Lemma strip_word s n rest i : forallb is_word_char s = true -> is_name n = true -> edge rest ->
  strip s (n ++ rest) = Some i -> exists w, n = s ++ w /\ i = w ++ rest.
Proof.
  intros Hs Hn Er. assert (W : forallb is_word_char n = true).
  { destruct n as [|b n]; [discriminate|]. cbn [is_name forallb] in *. apply andb_prop in Hn as [H1 ->]. unfold is_word_char. now rewrite H1, orb_true_r. }
  clear Hn. revert n W. induction s as [|a s IH]; intros n W; cbn [strip].
  - intros [= <-]. now exists n.
  - cbn [forallb] in Hs. apply andb_prop in Hs as [Ha Hs]. destruct n as [|b n]; cbn [app].
    + destruct rest as [|b rest]; [discriminate|]. destruct (byte_eqb_spec a b) as [->|]; [|discriminate]. cbn [edge] in Er. congruence.
    + destruct (byte_eqb_spec a b) as [->|]; [|discriminate]. cbn [forallb] in W. apply andb_prop in W as [_ W].
      intros E. destruct (IH Hs n W E) as (w & -> & ->). now exists w.
Qed.
(** A name other than the keyword is not taken for it. *)
Lemma keyword_other s n rest : forallb is_word_char s = true -> is_name n = true -> edge rest -> n <> s ->
  rkeyword s (n ++ rest) = PFail.
Proof.
  intros Hs Hn Er D. unfold rkeyword. destruct (strip s (n ++ rest)) as [i|] eqn:E; [|reflexivity].
  destruct (strip_word s n rest i Hs Hn Er E) as (w & -> & ->). destruct w as [|b w]; [now rewrite app_nil_r in D|].
  cbn [app]. assert (B : is_word_char b = true); [|now rewrite B].
  destruct s as [|a s]; cbn [app is_name] in Hn; apply andb_prop in Hn as [H1 H2].
  - unfold is_word_char. now rewrite H1, orb_true_r.
  - rewrite forallb_app in H2. apply andb_prop in H2 as [_ H2]. cbn [forallb] in H2. now apply andb_prop in H2 as [-> _].
Qed.

(** Numbers. *)
Lemma digit_byte d : 0 <= d < 10 -> Z_of_byte (digit d) = 48 + d.
Proof. intros H. unfold digit. rewrite Z_of_byte_of_Z. apply Z.mod_small. lia. Qed.
Lemma show_uint_read u : read_uint (show_uint u) = Some u.
Proof. induction u as [|u IH|u IH|u IH|u IH|u IH|u IH|u IH|u IH|u IH|u IH]; cbn [show_uint read_uint]; [reflexivity|rewrite IH; reflexivity..]. Qed.
Lemma show_uint_digits u : forallb is_digit (show_uint u) = true.
Proof. induction u; cbn [show_uint forallb]; [reflexivity|rewrite IHu; reflexivity..]. Qed.
Lemma to_uint_some n : N.to_uint n <> Decimal.Nil.
Proof. destruct n; [discriminate|]. cbn. apply DecimalPos.Unsigned.to_uint_nonnil. Qed.
Lemma show_nat_some z : show_nat z <> [].
Proof. unfold show_nat. pose proof (to_uint_some (Z.to_N z)) as H. now destruct (N.to_uint (Z.to_N z)). Qed.
Lemma show_nat_read z : 0 <= z -> read_nat (show_nat z) = Some z.
Proof.
  intros H. unfold read_nat. pose proof (show_nat_some z) as S. destruct (show_nat z) eqn:E; [congruence|]. rewrite <- E.
  unfold show_nat. rewrite show_uint_read, DecimalN.Unsigned.of_to. now rewrite Z2N.id.
Qed.
Lemma show_nat_digits z : forallb is_digit (show_nat z) = true.
Proof. apply show_uint_digits. Qed.
Lemma digit_not_minus b : is_digit b = true -> Byte.eqb b x2d = false.
Proof. intros H. destruct (byte_eqb_spec b x2d) as [->|]; [discriminate H|reflexivity]. Qed.
Lemma show_nat_int signed lo hi z : 0 <= z -> lo <= z < hi -> read_int signed lo hi (show_nat z) = Some z.
Proof.
  intros H R. unfold read_int. pose proof (show_nat_some z) as S. pose proof (show_nat_digits z) as D. pose proof (show_nat_read z H) as N.
  destruct (show_nat z) as [|b s] eqn:E; [congruence|]. cbn [forallb] in D. apply andb_prop in D as [D _].
  rewrite (digit_not_minus b D), N. now replace ((lo <=? z) && (z <? hi)) with true by lia.
Qed.
(** The text that follows a number. *)
Definition number_edge (rest : list byte) : Prop :=
  match rest with b :: _ => is_word_char b = false /\ b <> x2e | [] => True end.
Lemma digit_word b : is_digit b = true -> is_word_char b = true.
Proof. unfold is_word_char. now intros ->. Qed.
Lemma show_nat_span z rest : match rest with b :: _ => is_digit b = false /\ b <> x2e | [] => True end ->
  span_of (fun b => is_digit b || in_range 46 46 b) (show_nat z ++ rest) = (show_nat z, rest).
Proof.
  intros H. apply span_of_all.
  - pose proof (show_nat_digits z) as D. induction (show_nat z) as [|b s IH]; [reflexivity|]. cbn [forallb] in *. apply andb_prop in D as [-> D].
    now apply IH.
  - destruct rest as [|b rest]; [trivial|]. destruct H as [-> H]. cbn [orb]. unfold in_range. destruct (Z.eq_dec (Z_of_byte b) 46) as [E|E].
    + now destruct (H (Z_of_byte_inj b x2e E)).
    + lia.
Qed.
Lemma show_nat_no_dot z : existsb (in_range 46 46) (show_nat z) = false.
Proof.
  pose proof (show_nat_digits z) as D. induction (show_nat z) as [|b s IH]; [reflexivity|]. cbn [forallb existsb] in *. apply andb_prop in D as [D D'].
  rewrite (IH D'), orb_false_r. unfold is_digit, in_range in *. lia.
Qed.
Lemma lit_edge c rest : is_word_char c = true -> edge rest -> rlit [c] rest = PFail.
Proof.
  intros H E. unfold rlit. destruct rest as [|b rest]; [reflexivity|]. cbn [strip]. destruct (byte_eqb_spec c b) as [->|]; [|reflexivity].
  cbn [edge] in E. congruence.
Qed.

Section Number.
Variable fl : float_text.
Lemma number_read (c : constant) rest : constant_ok c = true ->
  match c with CI32 _ | CI64 _ | CU32 _ => True | _ => False end ->
  number_edge rest -> rnumber fl (show_constant fl c ++ rest) = PMatch c rest.
Proof.
  intros O K R.
  assert (E : edge rest) by (destruct rest; [exact I|exact (proj1 R)]).
  assert (Main : forall z suffix, 0 <= z -> match suffix ++ rest with b :: _ => is_digit b = false /\ b <> x2e | [] => True end ->
    rnumber fl (show_nat z ++ suffix ++ rest) =
    (the unsigned <- ropt (rlit (lit "u"));
     the postfix <- ropt (ralt (the _ <- rlit (lit "l"); rret true) (the _ <- rlit (lit "d"); rret false));
     match postfix with
     | Some false => of_option CF64 (read_f64 fl (show_nat z))
     | _ => match postfix, unsigned with
            | Some true, Some _ => of_option CU64 (read_u64 (show_nat z))
            | _, Some _ => of_option CU32 (read_u32 (show_nat z))
            | Some true, None => of_option CI64 (read_i64 (show_nat z))
            | _, None => of_option CI32 (read_i32 (show_nat z))
            end
     end) (suffix ++ rest)).
  { intros z suffix Hz Hs. unfold rnumber.
    assert (S : match show_nat z ++ suffix ++ rest with b :: i' => if Byte.eqb b x2d then ([b], i') else ([], show_nat z ++ suffix ++ rest) | [] => ([], show_nat z ++ suffix ++ rest) end = ([], show_nat z ++ suffix ++ rest)).
    { pose proof (show_nat_some z) as S. pose proof (show_nat_digits z) as D. destruct (show_nat z) as [|b s]; [congruence|]. cbn [app]. cbn [forallb] in D.
      apply andb_prop in D as [D _]. now rewrite (digit_not_minus b D). }
    rewrite S. rewrite show_nat_span by assumption. pose proof (show_nat_no_dot z) as N. destruct (show_nat z) as [|b s] eqn:Es; [now destruct (show_nat_some z)|].
    cbn [app]. rewrite N. reflexivity. }
  assert (U : ropt (rlit (lit "u")) rest = PMatch None rest) by (unfold ropt; change (lit "u") with [x75]; now rewrite lit_edge).
  assert (P : ropt (ralt (the _ <- rlit (lit "l"); rret true) (the _ <- rlit (lit "d"); rret false)) rest = PMatch None rest).
  { unfold ropt, ralt, rseq. change (lit "l") with [x6c]. change (lit "d") with [x64].
    rewrite !lit_edge by (reflexivity || assumption). reflexivity. }
  destruct c as [l s|z|z|z|z|z|z|b]; try contradiction; cbn [constant_ok show_constant] in *; apply andb_prop in O as [O1 O2];
    unfold show_int; replace (z <? 0) with false by lia.
  - change (show_nat z ++ rest) with (show_nat z ++ [] ++ rest). rewrite Main.
    + unfold rseq at 1. cbn [app]. rewrite U. unfold rseq at 1. rewrite P. unfold of_option, read_i32. rewrite show_nat_int; [reflexivity|lia..].
    + lia.
    + destruct rest as [|b rest]; [exact I|]. cbn [app number_edge] in *. unfold is_word_char in R. destruct R as [R1 R2]. apply orb_false_elim in R1 as [R1 _]. now split.
  - rewrite <- app_assoc, Main.
    + unfold rseq at 1. change (ropt (rlit (lit "u")) (lit "l" ++ rest)) with (PMatch (@None unit) (lit "l" ++ rest)).
      unfold rseq at 1. change (ropt (ralt (the _ <- rlit (lit "l"); rret true) (the _ <- rlit (lit "d"); rret false)) (lit "l" ++ rest)) with (PMatch (Some true) rest).
      unfold of_option, read_i64. rewrite show_nat_int; [reflexivity|lia..].
    + lia.
    + now split.
  - rewrite <- app_assoc, Main.
    + unfold rseq at 1. change (ropt (rlit (lit "u")) (lit "u" ++ rest)) with (PMatch (Some tt) rest).
      unfold rseq at 1. rewrite P. unfold of_option, read_u32. rewrite show_nat_int; [reflexivity|lia..].
    + lia.
    + now split.
Qed.
End Number.

(** Texts. *)
Lemma hex_digit_value d : 0 <= d < 16 -> is_hex (hex_digit d) = true /\ hex_value (hex_digit d) = d.
Proof.
  intros H. unfold hex_digit. destruct (d <? 10) eqn:E.
  - unfold is_hex, hex_value, is_digit, in_range. rewrite !Z_of_byte_of_Z, !Z.mod_small by lia.
    replace ((48 <=? 48 + d) && (48 + d <=? 57)) with true by lia. split; [reflexivity|lia].
  - unfold is_hex, hex_value, is_digit, in_range. rewrite !Z_of_byte_of_Z, !Z.mod_small by lia.
    replace ((48 <=? 87 + d) && (87 + d <=? 57)) with false by lia. replace ((97 <=? 87 + d) && (87 + d <=? 102)) with true by lia.
    split; [reflexivity|lia].
Qed.
Lemma show_hex_facts n : forall z, 0 <= z < 16 ^ Z.of_nat n ->
  forallb is_hex (show_hex n z) = true /\ (length (show_hex n z) <= n)%nat /\ read_hex (show_hex n z) = z /\ ((0 < n)%nat -> show_hex n z <> []).
Proof.
  induction n as [|n IH]; intros z H.
  - cbn in *. repeat split; [lia..|]. intros C; lia.
  - cbn [show_hex]. destruct (hex_digit_value (z mod 16)) as [D1 D2]; [apply Z.mod_pos_bound; lia|].
    rewrite Nat2Z.inj_succ, Z.pow_succ_r in H by lia. destruct (z <? 16) eqn:E.
    + cbn [app forallb length]. rewrite D1. repeat split; [lia| |discriminate]. unfold read_hex. cbn [fold_left]. rewrite D2, Z.mod_small; lia.
    + destruct (IH (z / 16)) as (I1 & I2 & I3 & _).
      { split; [apply Z.div_pos; lia|]. apply Z.div_lt_upper_bound; lia. }
      rewrite forallb_app, I1, app_length. cbn [forallb length]. rewrite D1. repeat split; [lia| |].
      * unfold read_hex in *. rewrite fold_left_app, I3. cbn [fold_left]. rewrite D2. pose proof (Z.div_mod z 16). lia.
      * intros _ C. now apply app_eq_nil in C as [_ C].
Qed.
Lemma span_upto_all n f w rest : forallb f w = true -> (length w <= n)%nat ->
  match rest with b :: _ => f b = false | [] => True end -> span_upto n f (w ++ rest) = (w, rest).
Proof.
  revert w. induction n as [|n IH]; intros w H L E.
  - destruct w; [reflexivity|cbn in L; lia].
  - destruct w as [|b w]; cbn [app span_upto].
    + destruct rest as [|b rest]; [reflexivity|]. now rewrite E.
    + cbn [forallb length] in *. apply andb_prop in H as [-> H]. rewrite IH; [reflexivity|assumption|lia|assumption].
Qed.
Lemma escaped_unicode c rest : is_char c = true -> rescaped_char (lit "\u{" ++ show_hex 6 c ++ lit "}" ++ rest) = PMatch (utf8 c) rest.
Proof.
  intros C. assert (R : 0 <= c < 16 ^ Z.of_nat 6) by (unfold is_char in C; change (16 ^ Z.of_nat 6) with 16777216; lia).
  destruct (show_hex_facts 6 c R) as (H1 & H2 & H3 & H4).
  assert (T : runicode (lit "\u{" ++ show_hex 6 c ++ lit "}" ++ rest) = PMatch (utf8 c) rest).
  { unfold runicode, rseq at 1. rewrite lit_read. rewrite (span_upto_all 6 is_hex (show_hex 6 c) (lit "}" ++ rest)) by (assumption || reflexivity).
    destruct (show_hex 6 c) as [|b w] eqn:E; [now destruct H4; [lia|]|]. unfold rseq. rewrite lit_read, H3, C. reflexivity. }
  set (t := show_hex 6 c ++ lit "}" ++ rest) in *.
  unfold rescaped_char, ralts, fold_right, ralt.
  change (rplain_char (lit "\u{" ++ t)) with (@PFail str). change (rescape "\n" 10 (lit "\u{" ++ t)) with (@PFail str).
  change (rescape "\r" 13 (lit "\u{" ++ t)) with (@PFail str). change (rescape "\t" 9 (lit "\u{" ++ t)) with (@PFail str).
  change (rescape "\'" 39 (lit "\u{" ++ t)) with (@PFail str). change (rescape "\\" 92 (lit "\u{" ++ t)) with (@PFail str).
  change ((the _ <- rlit [backslash; quote]; rret [quote]) (lit "\u{" ++ t)) with (@PFail str). cbv beta iota. rewrite T. reflexivity.
Qed.
Lemma escape_read c rest : is_char c = true -> rescaped_char (escape_char c ++ rest) = PMatch (utf8 c) rest.
Proof.
  intros C. unfold escape_char.
  destruct (Z.eqb_spec c 9) as [->|N1]; [reflexivity|]. destruct (Z.eqb_spec c 13) as [->|N2]; [reflexivity|].
  destruct (Z.eqb_spec c 10) as [->|N3]; [reflexivity|]. destruct (Z.eqb_spec c 39) as [->|N4]; [reflexivity|].
  destruct (Z.eqb_spec c 34) as [->|N5]; [reflexivity|]. destruct (Z.eqb_spec c 92) as [->|N6]; [reflexivity|].
  destruct ((32 <=? c) && (c <=? 126)) eqn:R.
  - assert (U : utf8 c = [byte_of_Z c]) by (unfold utf8; now replace (c <? 128) with true by lia).
    rewrite U. cbn [app]. unfold rescaped_char, ralts, fold_right, ralt. unfold rplain_char.
    destruct (byte_eqb_spec (byte_of_Z c) backslash) as [E|_].
    { apply (f_equal Z_of_byte) in E. rewrite Z_of_byte_of_Z, Z.mod_small in E by lia. change (Z_of_byte backslash) with 92 in E. lia. }
    destruct (byte_eqb_spec (byte_of_Z c) quote) as [E|_].
    { apply (f_equal Z_of_byte) in E. rewrite Z_of_byte_of_Z, Z.mod_small in E by lia. change (Z_of_byte quote) with 34 in E. lia. }
    reflexivity.
  - rewrite <- !app_assoc. now apply escaped_unicode.
Qed.
(** The first character of a well-formed text. *)
Lemma utf8_first a s : utf8_valid (a :: s) = true ->
  exists c s', chars (a :: s) = c :: chars s' /\ a :: s = utf8 c ++ s' /\ utf8_valid s' = true /\ is_char c = true /\ (length s' <= length s)%nat.
Proof.
  cbn [utf8_valid chars]. pose proof (Z_of_byte_range a) as Ra. unfold brange at 1. destruct ((0 <=? Z_of_byte a) && (Z_of_byte a <=? 127)) eqn:A.
  - intros V. exists (Z_of_byte a), s. replace (Z_of_byte a <? 128) with true by lia. split; [reflexivity|]. unfold utf8. replace (Z_of_byte a <? 128) with true by lia.
    rewrite byte_of_Z_of_byte. split; [reflexivity|]. split; [assumption|]. split; [unfold is_char; lia|lia].
  - replace (Z_of_byte a <? 128) with false by lia. destruct s as [|b s2]; [discriminate|]. pose proof (Z_of_byte_range b) as Rb.
    unfold brange at 1. destruct ((194 <=? Z_of_byte a) && (Z_of_byte a <=? 223)) eqn:A2.
    + intros V. apply andb_prop in V as [Vb V]. unfold brange in Vb. replace (Z_of_byte a <? 224) with true by lia.
      exists ((Z_of_byte a - 192) * 64 + (Z_of_byte b - 128)), s2. split; [reflexivity|].
      set (c := (Z_of_byte a - 192) * 64 + (Z_of_byte b - 128)).
      assert (Q : c / 64 = Z_of_byte a - 192 /\ c mod 64 = Z_of_byte b - 128) by (split; [symmetry; apply Z.div_unique with (Z_of_byte b - 128)|symmetry; apply Z.mod_unique with (Z_of_byte a - 192)]; lia).
      destruct Q as [Q1 Q2]. unfold utf8. replace (c <? 128) with false by lia. replace (c <? 2048) with true by lia. rewrite Q1, Q2.
      replace (192 + (Z_of_byte a - 192)) with (Z_of_byte a) by lia. replace (128 + (Z_of_byte b - 128)) with (Z_of_byte b) by lia. rewrite !byte_of_Z_of_byte.
      split; [reflexivity|]. split; [assumption|]. split; [unfold is_char; lia|cbn; lia].
    + destruct s2 as [|d s3]; [discriminate|]. pose proof (Z_of_byte_range d) as Rd. unfold brange at 1. destruct ((224 <=? Z_of_byte a) && (Z_of_byte a <=? 239)) eqn:A3.
      * intros V. apply andb_prop in V as [V V3]. apply andb_prop in V as [Vb Vd]. unfold brange in Vb, Vd.
        replace (Z_of_byte a <? 224) with false by lia. replace (Z_of_byte a <? 240) with true by lia.
        exists (((Z_of_byte a - 224) * 64 + (Z_of_byte b - 128)) * 64 + (Z_of_byte d - 128)), s3. split; [reflexivity|].
        set (c := ((Z_of_byte a - 224) * 64 + (Z_of_byte b - 128)) * 64 + (Z_of_byte d - 128)).
        assert (Hb : 128 <= Z_of_byte b <= 191) by (destruct (Z_of_byte a =? 224); [lia|]; destruct (Z_of_byte a =? 237); lia).
        assert (Q0 : c mod 64 = Z_of_byte d - 128) by (symmetry; apply Z.mod_unique with ((Z_of_byte a - 224) * 64 + (Z_of_byte b - 128)); lia).
        assert (Q1 : c / 64 = (Z_of_byte a - 224) * 64 + (Z_of_byte b - 128)) by (symmetry; apply Z.div_unique with (Z_of_byte d - 128); lia).
        assert (Q2 : c / 64 mod 64 = Z_of_byte b - 128) by (rewrite Q1; symmetry; apply Z.mod_unique with (Z_of_byte a - 224); lia).
        assert (Q3 : c / 4096 = Z_of_byte a - 224) by (symmetry; apply Z.div_unique with ((Z_of_byte b - 128) * 64 + (Z_of_byte d - 128)); lia).
        assert (Hc : 2048 <= c < 65536 /\ ~ (55296 <= c < 57344)).
        { destruct (Z.eqb_spec (Z_of_byte a) 224); [lia|]. destruct (Z.eqb_spec (Z_of_byte a) 237); lia. }
        unfold utf8. replace (c <? 128) with false by lia. replace (c <? 2048) with false by lia. replace (c <? 65536) with true by lia. rewrite Q0, Q2, Q3.
        replace (224 + (Z_of_byte a - 224)) with (Z_of_byte a) by lia. replace (128 + (Z_of_byte b - 128)) with (Z_of_byte b) by lia.
        replace (128 + (Z_of_byte d - 128)) with (Z_of_byte d) by lia. rewrite !byte_of_Z_of_byte.
        split; [reflexivity|]. split; [assumption|]. split; [unfold is_char; lia|cbn; lia].
      * destruct s3 as [|e s4]; [discriminate|]. pose proof (Z_of_byte_range e) as Re. intros V. apply andb_prop in V as [V V4]. apply andb_prop in V as [V Ve].
        apply andb_prop in V as [V Vd]. apply andb_prop in V as [Va Vb]. unfold brange in Va, Vb, Vd, Ve.
        replace (Z_of_byte a <? 224) with false by lia. replace (Z_of_byte a <? 240) with false by lia.
        exists ((((Z_of_byte a - 240) * 64 + (Z_of_byte b - 128)) * 64 + (Z_of_byte d - 128)) * 64 + (Z_of_byte e - 128)), s4. split; [reflexivity|].
        set (c := (((Z_of_byte a - 240) * 64 + (Z_of_byte b - 128)) * 64 + (Z_of_byte d - 128)) * 64 + (Z_of_byte e - 128)).
        assert (Hb : 128 <= Z_of_byte b <= 191) by (destruct (Z_of_byte a =? 240); [lia|]; destruct (Z_of_byte a =? 244); lia).
        assert (Q0 : c mod 64 = Z_of_byte e - 128) by (symmetry; apply Z.mod_unique with (((Z_of_byte a - 240) * 64 + (Z_of_byte b - 128)) * 64 + (Z_of_byte d - 128)); lia).
        assert (Q1 : c / 64 = ((Z_of_byte a - 240) * 64 + (Z_of_byte b - 128)) * 64 + (Z_of_byte d - 128)) by (symmetry; apply Z.div_unique with (Z_of_byte e - 128); lia).
        assert (Q2 : c / 64 mod 64 = Z_of_byte d - 128) by (rewrite Q1; symmetry; apply Z.mod_unique with ((Z_of_byte a - 240) * 64 + (Z_of_byte b - 128)); lia).
        assert (Q3 : c / 4096 = (Z_of_byte a - 240) * 64 + (Z_of_byte b - 128)) by (symmetry; apply Z.div_unique with ((Z_of_byte d - 128) * 64 + (Z_of_byte e - 128)); lia).
        assert (Q4 : c / 4096 mod 64 = Z_of_byte b - 128) by (rewrite Q3; symmetry; apply Z.mod_unique with (Z_of_byte a - 240); lia).
        assert (Q5 : c / 262144 = Z_of_byte a - 240) by (symmetry; apply Z.div_unique with (((Z_of_byte b - 128) * 64 + (Z_of_byte d - 128)) * 64 + (Z_of_byte e - 128)); lia).
        assert (Hc : 65536 <= c < 1114112).
        { destruct (Z.eqb_spec (Z_of_byte a) 240); [lia|]. destruct (Z.eqb_spec (Z_of_byte a) 244); lia. }
        unfold utf8. replace (c <? 128) with false by lia. replace (c <? 2048) with false by lia. replace (c <? 65536) with false by lia. rewrite Q0, Q2, Q4, Q5.
        replace (240 + (Z_of_byte a - 240)) with (Z_of_byte a) by lia. replace (128 + (Z_of_byte b - 128)) with (Z_of_byte b) by lia.
        replace (128 + (Z_of_byte d - 128)) with (Z_of_byte d) by lia. replace (128 + (Z_of_byte e - 128)) with (Z_of_byte e) by lia. rewrite !byte_of_Z_of_byte.
        split; [reflexivity|]. split; [assumption|]. split; [unfold is_char; lia|cbn; lia].
Qed.
Lemma escape_some c : escape_char c <> [].
Proof. unfold escape_char. repeat match goal with |- context [if ?x then _ else _] => destruct x end; discriminate. Qed.
Lemma escaped_stop rest : rescaped_char (quote :: rest) = PFail.
Proof. reflexivity. Qed.
Lemma contents_read s rest : utf8_valid s = true -> rcontents (escape s ++ quote :: rest) = PMatch s (quote :: rest).
Proof.
  intros V. unfold rcontents, rseq.
  assert (M : forall m s n, (length s <= m)%nat -> utf8_valid s = true -> (length (escape s ++ quote :: rest) < n)%nat ->
    exists l, rmany n rescaped_char (escape s ++ quote :: rest) = PMatch l (quote :: rest) /\ concat l = s).
  { clear. induction m as [|m IH]; intros s n Hm V Hn.
    - destruct s; [|cbn in Hm; lia]. destruct n as [|n]; [cbn in Hn; lia|]. exists []. split; reflexivity.
    - destruct n as [|n]; [lia|]. destruct s as [|a s]; [exists []; split; reflexivity|].
      destruct (utf8_first a s V) as (c & s' & H1 & H2 & H3 & H4 & H5). unfold escape in *. rewrite H1 in Hn |- *. cbn [map concat] in Hn |- *. rewrite <- app_assoc in Hn |- *.
      rewrite app_length in Hn. pose proof (escape_some c). assert (1 <= length (escape_char c))%nat by (destruct (escape_char c); [congruence|cbn; lia]).
      destruct (IH s' n) as (l & L1 & L2); [cbn in Hm; lia|assumption|lia|].
      cbn [rmany]. rewrite (escape_read c _ H4), L1. exists (utf8 c :: l). split; [reflexivity|]. cbn [concat]. now rewrite L2, H2. }
  destruct (M (length s) s (S (length (escape s ++ quote :: rest)))) as (l & L1 & L2); [lia|assumption|lia|]. rewrite L1. unfold rret. now rewrite L2.
Qed.
Lemma string_read s rest : utf8_valid s = true -> rstring (quoted s ++ rest) = PMatch s rest.
Proof.
  intros V. unfold quoted, rstring. cbn [app]. rewrite <- app_assoc. cbn [app].
  unfold rseq at 1. change (rlit [quote] (quote :: escape s ++ quote :: rest)) with (PMatch tt (escape s ++ quote :: rest)).
  unfold rseq at 1. rewrite contents_read by assumption. reflexivity.
Qed.

(** Types. *)
Fixpoint typename_rect' (P : typename -> Prop) (h0 : forall n, P (TypeName n None)) (h1 : forall n l, Forall P l -> P (TypeName n (Some l))) (t : typename) : P t :=
  match t with
  | TypeName n None => h0 n
  | TypeName n (Some l) =>
    h1 n l ((fix all l : Forall P l := match l with [] => Forall_nil _ | x :: l' => Forall_cons _ (typename_rect' P h0 h1 x) (all l') end) l)
  end.
Lemma blank_other b rest : is_blank b = false -> b <> x2f -> blanks (b :: rest) = b :: rest.
Proof.
  intros H N. unfold blanks. cbn [length blanks_n]. unfold blank_step. rewrite H. change (lit "/*") with [x2f; x2a]. change (lit "//") with [x2f; x2f].
  cbn [strip]. destruct (byte_eqb_spec x2f b) as [<-|]; [congruence|]. reflexivity.
Qed.
Lemma blanks_space rest : blanks (x20 :: rest) = blanks rest.
Proof. reflexivity. Qed.
Lemma alpha_plain b : is_alpha b = true -> is_blank b = false /\ b <> x2f.
Proof. intros H. split; [|intros ->; discriminate H]. unfold is_alpha, is_blank, in_range in *. lia. Qed.
Lemma pretty_head t : type_ok t = true -> exists b w, pretty t = b :: w /\ is_alpha b = true.
Proof.
  destruct t as [n [[|x l]|]]; cbn [type_ok pretty]; try discriminate; intros H.
  - apply andb_prop in H as [H _]. destruct n as [|b n]; [discriminate|]. cbn [is_name] in H. apply andb_prop in H as [H _]. now exists b; eexists.
  - destruct n as [|b n]; [discriminate|]. cbn [is_name] in H. apply andb_prop in H as [H _]. now exists b, n.
Qed.
(** What follows a type. *)
Definition type_edge (rest : list byte) : Prop := match rest with b :: _ => is_word_char b = false /\ b <> x3c | [] => True end.
Lemma type_edge_edge rest : type_edge rest -> edge rest.
Proof. destruct rest; [trivial|]. now intros []. Qed.
Definition reads_type (t : typename) : Prop :=
  forall n rest, (length (pretty t ++ rest) < n)%nat -> type_edge rest -> rtype n (pretty t ++ rest) = PMatch t rest.
Lemma types_read l : l <> [] -> forallb type_ok l = true -> Forall reads_type l -> forall n m rest, (length (join (lit ", ") (map pretty l) ++ lit ">" ++ rest) < n)%nat ->
  (length (join (lit ", ") (map pretty l) ++ lit ">" ++ rest) < m)%nat ->
  rsep m (rtype n) rcomma (join (lit ", ") (map pretty l) ++ lit ">" ++ rest) = PMatch l (lit ">" ++ rest).
Proof.
  intros N0 OK F n m rest Hn Hm.
  assert (Main : forall l, forallb type_ok l = true -> Forall reads_type l -> forall m, 
    (length (concat (map (fun t => lit ", " ++ pretty t) l) ++ lit ">" ++ rest) < n)%nat ->
    (length (concat (map (fun t => lit ", " ++ pretty t) l) ++ lit ">" ++ rest) < m)%nat ->
    rmany m (the _ <- rcomma; rtype n) (concat (map (fun t => lit ", " ++ pretty t) l) ++ lit ">" ++ rest) = PMatch l (lit ">" ++ rest)).
  { clear - n. induction l as [|t l IH]; intros OK F m Hn Hm.
    - destruct m; [lia|]. reflexivity.
    - inversion_clear F as [|? ? F1 F2]. cbn [forallb] in OK. apply andb_prop in OK as [O1 O2]. cbn [map concat] in Hn, Hm |- *. rewrite <- !app_assoc in Hn, Hm |- *.
      rewrite !app_length in Hn, Hm. change (length (lit ", ")) with 2%nat in Hn, Hm.
      destruct m as [|m]; [lia|]. cbn [rmany]. unfold rseq at 1. unfold rcomma, rseq at 1.
      change (rlit (lit ",") (lit ", " ++ pretty t ++ concat (map (fun t => lit ", " ++ pretty t) l) ++ lit ">" ++ rest)) with (PMatch tt (x20 :: pretty t ++ concat (map (fun t => lit ", " ++ pretty t) l) ++ lit ">" ++ rest)).
      unfold rblank. rewrite blanks_space. destruct (pretty_head t O1) as (b & w & E & A). rewrite E. cbn [app]. destruct (alpha_plain b A) as [A1 A2].
      rewrite blank_other by assumption. change (b :: w ++ concat (map (fun t => lit ", " ++ pretty t) l) ++ lit ">" ++ rest) with ((b :: w) ++ concat (map (fun t => lit ", " ++ pretty t) l) ++ lit ">" ++ rest).
      rewrite <- E. rewrite F1; [|rewrite !app_length; lia|destruct l as [|t' l']; [now split|now split]].
      rewrite IH; [reflexivity|assumption|assumption|rewrite !app_length; lia|rewrite !app_length; lia]. }
  destruct l as [|t l]; [congruence|]. inversion_clear F as [|? ? F1 F2]. cbn [forallb] in OK. apply andb_prop in OK as [O1 O2].
  assert (J : join (lit ", ") (map pretty (t :: l)) = pretty t ++ concat (map (fun t => lit ", " ++ pretty t) l)).
  { clear. cbn [map]. revert t. induction l as [|u l IH]; intros t; [cbn [map join concat]; now rewrite app_nil_r|].
    cbn [map concat]. change (join (lit ", ") (pretty t :: pretty u :: map pretty l)) with (pretty t ++ lit ", " ++ join (lit ", ") (pretty u :: map pretty l)).
    rewrite IH, <- app_assoc. reflexivity. }
  rewrite J, <- app_assoc in Hn, Hm |- *. unfold rsep. rewrite F1; [|assumption|destruct l; now split].
  rewrite app_length in Hn, Hm. rewrite Main; [reflexivity|assumption|assumption|lia|lia].
Qed.
Lemma type_args_read n l rest : l <> [] -> forallb type_ok l = true -> Forall reads_type l ->
  (length (lit "<" ++ join (lit ", ") (map pretty l) ++ lit ">" ++ rest) <= n)%nat ->
  forall k, (length (lit "<" ++ join (lit ", ") (map pretty l) ++ lit ">" ++ rest) <= k)%nat ->
  (the _ <- rlit (lit "<"); the _ <- rblank; the l <- rsep k (rtype n) rcomma; the _ <- rblank; the _ <- rlit (lit ">"); rret l)
    (lit "<" ++ join (lit ", ") (map pretty l) ++ lit ">" ++ rest) = PMatch l rest.
Proof.
  intros N0 OK F Hn k Hk. unfold rseq at 1. rewrite lit_read. unfold rseq at 1, rblank at 1.
  assert (B : blanks (join (lit ", ") (map pretty l) ++ lit ">" ++ rest) = join (lit ", ") (map pretty l) ++ lit ">" ++ rest).
  { destruct l as [|t l]; [congruence|]. cbn [forallb] in OK. apply andb_prop in OK as [O1 O2]. destruct (pretty_head t O1) as (b & w & E & A).
    destruct (alpha_plain b A) as [A1 A2]. cbn [map]. destruct l; cbn [map join]; rewrite E; cbn [app]; now apply blank_other. }
  rewrite B. rewrite app_length in Hn, Hk. change (length (lit "<")) with 1%nat in Hn, Hk. unfold rseq at 1. rewrite types_read; [|assumption..|lia|lia].
  unfold rseq at 1, rblank. change (blanks (lit ">" ++ rest)) with (lit ">" ++ rest). unfold rseq. rewrite lit_read. reflexivity.
Qed.
Lemma type_read t : type_ok t = true -> reads_type t.
Proof.
  induction t as [name|name l IH] using typename_rect'; intros OK n rest Hn E; (destruct n as [|n]; [lia|]).
  - cbn [type_ok pretty] in *. cbn [rtype]. unfold rseq at 1. rewrite name_read; [|assumption|now apply type_edge_edge].
    unfold rseq at 1. unfold ropt. unfold rseq at 1.
    assert (L : rlit (lit "<") rest = PFail).
    { unfold rlit. destruct rest as [|b rest]; [reflexivity|]. change (lit "<") with [x3c]. cbn [strip].
      destruct (byte_eqb_spec x3c b) as [<-|]; [now destruct E|reflexivity]. }
    rewrite L. reflexivity.
  - assert (OK' : is_name name = true /\ forallb type_ok l = true /\ l <> []).
    { destruct l; [discriminate|]. cbn [type_ok] in OK. apply andb_prop in OK as [O1 O2]. repeat split; [assumption|assumption|discriminate]. }
    destruct OK' as (O1 & O2 & O3). cbn [pretty] in Hn |- *. rewrite <- !app_assoc in Hn |- *. cbn [rtype]. unfold rseq at 1.
    rewrite name_read; [|assumption|reflexivity]. unfold rseq at 1. unfold ropt. rewrite app_length in Hn.
    assert (1 <= length name)%nat by (destruct name; [discriminate|cbn; lia]).
    rewrite type_args_read; [|assumption|assumption| |lia|lia].
    + unfold rret, tn_new. destruct l; [congruence|reflexivity].
    + clear - IH O2. induction IH as [|t l H _ IHl]; [constructor|]. cbn [forallb] in O2. apply andb_prop in O2 as [O1 O2]. constructor; [now apply H|now apply IHl].
Qed.
Lemma types_ok_read l : forallb type_ok l = true -> Forall reads_type l.
Proof. induction l as [|t l IH]; cbn [forallb]; [constructor|]. intros H. apply andb_prop in H as [H1 H2]. constructor; [now apply type_read|now apply IH]. Qed.
