(** Proofs about reading text literals (for P_TextLiteral.v). *)
From Coq Require Import String.
From Coq Require Import ZArith List Bool Lia.
From Verif Require Import Bytes BytesFacts Definitions DefinitionsFacts Bundle BundleFacts Ast TypeNames Pool Scope TypeCheck Printer Parser PrintSpec ParserFacts TextFacts TextLiteralSpec.
Import ListNotations.
Open Scope Z_scope.

(** * Hexadecimal numbers *)
Lemma hex_digit_read b d : hex_digit_is b d <-> is_hex b = true /\ hex_value b = d.
Proof.
  unfold hex_digit_is, is_hex, hex_value, is_digit, in_range. split.
  - intros [(R & E)|(R & [E|E])]; rewrite E.
    + split; [lia|]. replace ((48 <=? 48 + d) && (48 + d <=? 57)) with true by lia. lia.
    + split; [lia|]. replace ((48 <=? 55 + d) && (55 + d <=? 57)) with false by lia.
      replace ((97 <=? 55 + d) && (55 + d <=? 102)) with false by lia. lia.
    + split; [lia|]. replace ((48 <=? 87 + d) && (87 + d <=? 57)) with false by lia.
      replace ((97 <=? 87 + d) && (87 + d <=? 102)) with true by lia. lia.
  - intros (H & <-). destruct ((48 <=? Z_of_byte b) && (Z_of_byte b <=? 57)) eqn:D; [lia|].
    destruct ((97 <=? Z_of_byte b) && (Z_of_byte b <=? 102)) eqn:L; lia.
Qed.
Lemma hex_read w z : hex_is w z <-> w <> [] /\ forallb is_hex w = true /\ read_hex w = z.
Proof.
  unfold read_hex. split.
  - induction 1 as [b d D|w v b d _ (N & F & V) D].
    + apply hex_digit_read in D. destruct D as (D & <-). cbn [forallb fold_left]. rewrite D. split; [discriminate|]. split; [reflexivity|lia].
    + apply hex_digit_read in D. destruct D as (D & <-). split; [intros C; now apply app_eq_nil in C as [_ C]|].
      rewrite forallb_app, F, fold_left_app, V. cbn [forallb fold_left]. rewrite D. split; [reflexivity|lia].
  - revert z. induction w as [|b w IH] using rev_ind; intros z (N & F & V); [congruence|].
    rewrite forallb_app in F. apply andb_prop in F as [F D]. cbn [forallb] in D. rewrite andb_true_r in D.
    rewrite fold_left_app in V. cbn [fold_left] in V. destruct w as [|a w].
    + cbn in V. apply hex_one. apply hex_digit_read. split; [exact D|lia].
    + subst z. rewrite Z.mul_comm. apply hex_more; [|apply hex_digit_read; split; [exact D|reflexivity]].
      apply IH. repeat split; [discriminate|exact F].
Qed.

(** * UTF-8 *)
Lemma zb z : 0 <= z < 256 -> Z_of_byte (byte_of_Z z) = z.
Proof. intros H. rewrite Z_of_byte_of_Z. now apply Z.mod_small. Qed.
Ltac euclid := Z.to_euclidean_division_equations; lia.
Lemma utf8_encodes z : is_char z = true -> encodes (utf8 z) z.
Proof.
  unfold is_char. intros H. unfold utf8, encodes, six.
  destruct (z <? 128) eqn:A; [|destruct (z <? 2048) eqn:B; [|destruct (z <? 65536) eqn:C]].
  - left. cbn [map]. rewrite zb by lia. split; [reflexivity|lia].
  - right. left. exists (z / 64), (z mod 64). cbn [map]. rewrite !zb by euclid. split; [euclid|]. split; [reflexivity|]. euclid.
  - right. right. left. exists (z / 4096), (z / 64 mod 64), (z mod 64). cbn [map]. rewrite !zb by euclid.
    split; [euclid|]. split; [euclid|]. split; [reflexivity|]. euclid.
  - right. right. right. exists (z / 262144), (z / 4096 mod 64), (z / 64 mod 64), (z mod 64). cbn [map]. rewrite !zb by euclid.
    split; [euclid|]. split; [euclid|]. split; [euclid|]. split; [reflexivity|]. euclid.
Qed.
Lemma bytes_inj : forall bs zs, map Z_of_byte bs = zs -> bs = map byte_of_Z zs.
Proof. intros bs zs <-. rewrite map_map. induction bs as [|b bs IH]; [reflexivity|]. cbn [map]. now rewrite byte_of_Z_of_byte, <- IH. Qed.
Lemma encodes_char bs z : encodes bs z -> is_char z = true /\ bs = utf8 z.
Proof.
  unfold encodes, six, is_char, utf8.
  intros [(M & R)|[(a & b & Rb & M & E & R)|[(a & b & c & Rb & Rc & M & E & R & N)|(a & b & c & d & Rb & Rc & Rd & M & E & R)]]];
    apply bytes_inj in M; subst bs; (split; [lia|]); cbn [map].
  - replace (z <? 128) with true by lia. reflexivity.
  - replace (z <? 128) with false by lia. replace (z <? 2048) with true by lia.
    replace (z / 64) with a by euclid. replace (z mod 64) with b by euclid. reflexivity.
  - replace (z <? 128) with false by lia. replace (z <? 2048) with false by lia. replace (z <? 65536) with true by lia.
    replace (z / 4096) with a by euclid. replace (z / 64 mod 64) with b by euclid. replace (z mod 64) with c by euclid. reflexivity.
  - replace (z <? 128) with false by lia. replace (z <? 2048) with false by lia. replace (z <? 65536) with false by lia.
    replace (z / 262144) with a by euclid. replace (z / 4096 mod 64) with b by euclid. replace (z / 64 mod 64) with c by euclid.
    replace (z mod 64) with d by euclid. reflexivity.
Qed.

(** * One item *)
Lemma span_upto_inv n f : forall i w r, span_upto n f i = (w, r) -> i = w ++ r /\ forallb f w = true /\ (length w <= n)%nat.
Proof.
  induction n as [|n IH]; intros i w r H; cbn [span_upto] in H.
  - injection H as <- <-. repeat split. cbn. lia.
  - destruct i as [|b i]; [injection H as <- <-; repeat split; cbn; lia|]. destruct (f b) eqn:F.
    + destruct (span_upto n f i) as [w' r'] eqn:E. injection H as <- <-. destruct (IH _ _ _ E) as (-> & F' & L).
      cbn [List.app forallb length]. rewrite F, F'. repeat split. lia.
    + injection H as <- <-. repeat split. cbn. lia.
Qed.
Lemma strip_inv s : forall i j, strip s i = Some j -> i = s ++ j.
Proof.
  induction s as [|a s IH]; intros i j H; cbn [strip] in H; [now injection H as <-|].
  destruct i as [|b i]; [discriminate H|]. destruct (byte_eqb_spec a b) as [<-|]; [|discriminate H]. cbn [List.app]. f_equal. now apply IH.
Qed.
Lemma rlit_inv s i u j : rlit s i = PMatch u j -> i = s ++ j.
Proof. unfold rlit. destruct (strip s i) as [k|] eqn:E; [|discriminate]. intros [= _ <-]. now apply strip_inv. Qed.

Lemma unicode_reads w z bs rest : (length w <= 6)%nat -> hex_is w z -> encodes bs z ->
  rescaped_char (spelling (Numbered w) ++ rest) = PMatch bs rest.
Proof.
  intros L H E. apply encodes_char in E. destruct E as (C & ->). apply hex_read in H. destruct H as (N & F & V).
  cbn [spelling]. replace ((([x5c; x75; x7b] ++ w ++ [x7d]) ++ rest)) with (lit "\u{" ++ w ++ lit "}" ++ rest)
    by (change (lit "\u{") with [x5c; x75; x7b]; change (lit "}") with [x7d]; now rewrite !app_assoc).
  assert (T : runicode (lit "\u{" ++ w ++ lit "}" ++ rest) = PMatch (utf8 z) rest).
  { unfold runicode, rseq at 1. rewrite lit_read. rewrite (span_upto_all 6 is_hex w (lit "}" ++ rest)) by (assumption || reflexivity).
    destruct w as [|b w]; [congruence|]. unfold rseq. rewrite lit_read, V, C. reflexivity. }
  set (t := w ++ lit "}" ++ rest) in *.
  unfold rescaped_char, ralts, fold_right, ralt.
  change (rplain_char (lit "\u{" ++ t)) with (@PFail str). change (rescape "\n" 10 (lit "\u{" ++ t)) with (@PFail str).
  change (rescape "\r" 13 (lit "\u{" ++ t)) with (@PFail str). change (rescape "\t" 9 (lit "\u{" ++ t)) with (@PFail str).
  change (rescape "\'" 39 (lit "\u{" ++ t)) with (@PFail str). change (rescape "\\" 92 (lit "\u{" ++ t)) with (@PFail str).
  change ((the _ <- rlit [backslash; quote]; rret [quote]) (lit "\u{" ++ t)) with (@PFail str). cbv beta iota. rewrite T. reflexivity.
Qed.

Lemma item_reads x bs rest : means x bs -> rescaped_char (spelling x ++ rest) = PMatch bs rest.
Proof.
  destruct x as [b|c|w]; cbn [means].
  - intros (N1 & N2 & ->). cbn [spelling List.app]. unfold rescaped_char, ralts, fold_right, ralt, rplain_char.
    destruct (byte_eqb_spec b backslash) as [E|_]; [destruct (N1 E)|]. destruct (byte_eqb_spec b quote) as [E|_]; [destruct (N2 E)|]. reflexivity.
  - intros (b & I & ->). cbn [In short_escapes] in I.
    repeat (destruct I as [I|I]; [injection I as <- <-; reflexivity|]). destruct I.
  - intros (L & z & H & E). now apply unicode_reads with z.
Qed.

Lemma item_inv i bs rest : rescaped_char i = PMatch bs rest -> exists x, means x bs /\ i = spelling x ++ rest.
Proof.
  unfold rescaped_char, ralts, fold_right, ralt. intros H.
  destruct (rplain_char i) as [a r| | |] eqn:E; try discriminate H.
  { injection H as -> ->. unfold rplain_char in E. destruct i as [|b i]; [discriminate E|].
    destruct (byte_eqb_spec b backslash) as [|N1]; [discriminate E|]. destruct (byte_eqb_spec b quote) as [|N2]; [discriminate E|].
    injection E as <- <-. exists (Plain b). repeat split; assumption. }
  clear E.
  assert (S : forall t c b, strip t i = Some rest -> t = [x5c; c] -> In (c, b) short_escapes -> bs = [b] ->
    exists x, means x bs /\ i = spelling x ++ rest).
  { intros t c b St -> I ->. exists (Short c). split; [exists b; now split|]. cbn [spelling]. now apply strip_inv. }
  unfold rescape, rseq, rlit in H.
  destruct (strip (lit "\n") i) as [r|] eqn:E1; [injection H as <- ->; apply (S _ x6e x0a E1); [reflexivity|cbn; tauto|reflexivity]|].
  destruct (strip (lit "\r") i) as [r|] eqn:E2; [injection H as <- ->; apply (S _ x72 x0d E2); [reflexivity|cbn; tauto|reflexivity]|].
  destruct (strip (lit "\t") i) as [r|] eqn:E3; [injection H as <- ->; apply (S _ x74 x09 E3); [reflexivity|cbn; tauto|reflexivity]|].
  destruct (strip (lit "\'") i) as [r|] eqn:E4; [injection H as <- ->; apply (S _ x27 x27 E4); [reflexivity|cbn; tauto|reflexivity]|].
  destruct (strip [backslash; quote] i) as [r|] eqn:E5; [injection H as <- ->; apply (S _ x22 x22 E5); [reflexivity|cbn; tauto|reflexivity]|].
  destruct (strip (lit "\\") i) as [r|] eqn:E6; [injection H as <- ->; apply (S _ x5c x5c E6); [reflexivity|cbn; tauto|reflexivity]|].
  clear E1 E2 E3 E4 E5 E6 S. destruct (runicode i) as [a r| | |] eqn:E; try discriminate H. injection H as -> ->.
  unfold runicode, rseq at 1 in E. destruct (rlit (lit "\u{") i) as [u j| | |] eqn:L; try discriminate E. apply rlit_inv in L. subst i.
  destruct (span_upto 6 is_hex j) as [w r] eqn:P. apply span_upto_inv in P. destruct P as (-> & F & Len).
  destruct w as [|b w]; [discriminate E|]. unfold rseq in E.
  destruct (rlit (lit "}") r) as [u' j| | |] eqn:L; try discriminate E. apply rlit_inv in L. subst r.
  destruct (is_char (read_hex (b :: w))) eqn:C; [|discriminate E]. injection E as <- <-.
  exists (Numbered (b :: w)). split.
  - split; [exact Len|]. exists (read_hex (b :: w)). split; [apply hex_read; repeat split; [discriminate|exact F]|now apply utf8_encodes].
  - cbn [spelling]. change (lit "\u{") with [x5c; x75; x7b]. change (lit "}") with [x7d]. now rewrite !app_assoc.
Qed.

(** * The whole text *)
Lemma spelling_length x : (0 < length (spelling x))%nat.
Proof. destruct x; cbn; lia. Qed.
Lemma items_read n : forall items texts rest, Forall2 means items texts -> (length items < n)%nat ->
  rmany n rescaped_char (concat (map spelling items) ++ quote :: rest) = PMatch texts (quote :: rest).
Proof.
  induction n as [|n IH]; intros items texts rest F L; [lia|]. cbn [rmany]. destruct F as [|x bs items texts M F].
  - cbn [map concat List.app]. rewrite escaped_stop. reflexivity.
  - cbn [map concat]. rewrite <- app_assoc, (item_reads x bs _ M). cbn [length] in L. rewrite (IH items texts rest F) by lia. reflexivity.
Qed.
Lemma items_inv n : forall i texts rest, rmany n rescaped_char i = PMatch texts rest ->
  exists items, Forall2 means items texts /\ i = concat (map spelling items) ++ rest.
Proof.
  induction n as [|n IH]; intros i texts rest H; cbn [rmany] in H; [discriminate H|].
  destruct (rescaped_char i) as [bs j| | |] eqn:E; try discriminate H.
  - destruct (rmany n rescaped_char j) as [l k| | |] eqn:R; try discriminate H. injection H as <- ->.
    apply item_inv in E. destruct E as (x & M & ->). apply IH in R. destruct R as (items & F & ->).
    exists (x :: items). split; [now constructor|]. cbn [map concat]. now rewrite app_assoc.
  - injection H as <- ->. exists []. split; [constructor|reflexivity].
Qed.
Lemma items_length items : (length items <= length (concat (map spelling items)))%nat.
Proof. induction items as [|x items IH]; [cbn; lia|]. cbn [map concat length]. rewrite app_length. pose proof (spelling_length x). lia. Qed.

Lemma string_reads i s rest : rstring i = PMatch s rest <-> exists t, spells t s /\ i = x22 :: t ++ x22 :: rest.
Proof.
  unfold rstring, spells. split.
  - unfold rseq at 1. destruct (rlit [quote] i) as [u j| | |] eqn:L; try discriminate. apply rlit_inv in L. subst i.
    unfold rseq at 1. unfold rcontents, rseq at 1. destruct (rmany (S (length j)) rescaped_char j) as [l k| | |] eqn:R; try discriminate.
    unfold rret at 1. unfold rseq. destruct (rlit [quote] k) as [u' m| | |] eqn:L; try discriminate. apply rlit_inv in L. subst k.
    intros [= <- <-]. apply items_inv in R. destruct R as (items & F & ->). exists (concat (map spelling items)).
    split; [exists items, l; auto|reflexivity].
  - intros (t & (items & texts & F & -> & ->) & ->). change x22 with quote. change (quote :: concat (map spelling items) ++ quote :: rest) with ([quote] ++ concat (map spelling items) ++ quote :: rest). unfold rseq at 1. rewrite lit_read. unfold rseq at 1. unfold rcontents, rseq at 1.
    rewrite (items_read _ items texts rest F).
    + unfold rret at 1. unfold rseq. change (quote :: rest) with ([quote] ++ rest). rewrite lit_read. reflexivity.
    + rewrite app_length. pose proof (items_length items). lia.
Qed.
