(** C75: enums are read as they are written. *)
From Coq Require Import String.
From Coq Require Import ZArith List Bool Lia.
From Verif Require Import LiteralSpec P_Literal.
From Verif Require Import Bytes BytesFacts Bytecode Definitions DefinitionsFacts Bundle Ast TypeNames Pool Scope TypeCheck Symbols Printer Parser PrintSpec ParserFacts ParserSafe TextFacts
  TextLiteralSpec TextLiteralFacts GapSpec GapFacts P_Gap TypeTextSpec P_TypeText Unit Grammar ParamTextSpec P_ParamText ImportTextSpec P_ImportText EnumTextSpec.
Import ListNotations.

Lemma integer_start t z : integer_text t z -> exists b r, t = b :: r /\ is_blank b = false /\ b <> x2f.
Proof.
  intros [minus long w z' N D _ _]. destruct (first_char minus w (if long then lit "l" else []) N D) as (b & r & E & B). exists b, r. split; [exact E|].
  destruct B as [B| ->]; [|split; [reflexivity|discriminate]]. unfold LiteralSpec.digit in B. split; [|intros ->; cbn in B; lia].
  destruct b; try reflexivity; cbn in B; lia.
Qed.
Lemma gap_ends_number g x i : gap g [x] -> In x [x2c; x7d] -> ends_number (g ++ x :: i).
Proof.
  intros G I. destruct g as [|b g].
  - cbn [List.app ends_number]. destruct I as [<-|[<-|[]]]; (split; [unfold LiteralSpec.digit; cbn; lia|cbn; intros X; repeat destruct X as [X|X]; try discriminate X; exact X]).
  - destruct (gap_front _ _ b (g ++ [x]) G eq_refl) as [X|X]; [discriminate X|]. cbn [List.app ends_number].
    repeat (destruct X as [<-|X]; [split; [unfold LiteralSpec.digit; cbn; lia|cbn; intros Y; repeat destruct Y as [Y|Y]; try discriminate Y; exact Y]|]). destruct X.
Qed.
Lemma after_gap g x i : gap g [x] -> is_blank x = false -> x <> x2f -> blanks (g ++ x :: i) = x :: i.
Proof. intros G B S. rewrite (gap_skipped g (x :: i)) by (apply (gap_head _ _ _ G); reflexivity). now apply blank_other. Qed.

Section Reading.
Variable fl : float_text.
Lemma integer_reads t z rest : integer_text t z -> ends_number rest -> exists c, rnumber fl (t ++ rest) = PMatch c rest /\ (c = CI32 z \/ c = CI64 z).
Proof.
  intros [minus long w z' N D -> R] E. rewrite <- !app_assoc. set (k := if long then SuffixL else NoSuffix).
  pose proof (P_Literal.reads fl k minus w rest N D E) as A. cbv zeta in A.
  assert (B : allowed k minus (if minus then - decimal w else decimal w)%Z = true).
  { apply P_Literal.allowed_iff; [now apply decimal_nonneg|]. unfold k. destruct long; (split; [exact R|reflexivity]). }
  rewrite B in A. exists (with_suffix k (if minus then - decimal w else decimal w)%Z). unfold k in *. destruct minus, long; (split; [exact A|cbn; tauto]).
Qed.
Lemma member_reads t m rest : enum_member_text t m -> ends_number rest -> renum_member fl (t ++ rest) = PMatch m rest.
Proof.
  intros [w g g' v z N G G' T] E. rewrite <- !app_assoc. unfold renum_member, rseq.
  rewrite (ident_reads w (g ++ [x3d] ++ g' ++ v ++ rest) N (gap_ends g x3d (g' ++ v ++ rest) G eq_refl)). unfold rblank.
  rewrite (after_gap g x3d (g' ++ v ++ rest) G eq_refl ltac:(discriminate) : blanks (g ++ [x3d] ++ g' ++ v ++ rest) = _).
  change (lit "=") with [x3d]. rewrite mark_reads. destruct (integer_start _ _ T) as (b & r & Ev & B & S).
  rewrite (gap_skipped g' (v ++ rest)) by (apply (gap_head _ _ _ G'); now rewrite Ev).
  assert (X : blanks (v ++ rest) = v ++ rest) by (rewrite Ev; cbn [List.app]; now apply blank_other). rewrite X.
  destruct (integer_reads _ _ _ T E) as (c & -> & [-> | ->]); reflexivity.
Qed.
Lemma members_start t ms : enum_members_text t ms -> exists b r, t = b :: r /\ letter b.
Proof.
  intros [u m [w g g' v z N _ _ _]|u m h u' l [w g g' v z N _ _ _] _ _]; destruct (name_start _ N) as (b & w' & -> & L); cbn [List.app]; eauto.
Qed.
Definition next_member : rule (str * Z) := the _ <- rcomma; renum_member fl.
Lemma members_read t ms : enum_members_text t ms -> forall n rest, (length t < n)%nat -> ends_number rest -> next_member rest = PFail ->
  rsep n (renum_member fl) rcomma (t ++ rest) = PMatch ms rest.
Proof.
  induction 1 as [t m M|t m g u ms M G U IH]; intros n rest L E F; unfold rsep; fold next_member.
  - rewrite (member_reads _ _ _ M E). destruct n as [|n]; [lia|]. cbn [rmany]. now rewrite F.
  - rewrite !app_length in L. cbn [length] in L. rewrite <- !app_assoc.
    rewrite (member_reads t m ([x2c] ++ g ++ u ++ rest) M (gap_ends_number [] x2c _ (gap_none _) (or_introl eq_refl))).
    destruct n as [|n]; [lia|]. cbn [rmany]. destruct (members_start _ _ U) as (b & u' & Eu & Lb).
    assert (X : next_member ([x2c] ++ g ++ u ++ rest) = renum_member fl (u ++ rest)).
    { unfold next_member. change rcomma with (mark_then x2c). unfold mark_then, rseq. cbn [List.app]. rewrite mark_reads. unfold rblank.
      rewrite (gap_skipped g (u ++ rest)) by (apply (gap_head _ _ _ G); now rewrite Eu).
      assert (B : blanks (u ++ rest) = u ++ rest) by (rewrite Eu; cbn [List.app]; now apply start_blanks). now rewrite B. }
    rewrite X. specialize (IH n rest ltac:(lia) E F). unfold rsep in IH. fold next_member in IH.
    destruct (renum_member fl (u ++ rest)) as [w2 j| | |]; try discriminate IH; [|inversion U; subst; discriminate IH].
    destruct (rmany n next_member j) as [l k| | |]; try discriminate IH. injection IH as <- ->. reflexivity.
Qed.
Lemma no_member i : next_name x2c i = PFail -> next_member i = PFail.
Proof.
  unfold next_name, next_member, renum_member. change rcomma with (mark_then x2c). unfold rseq. destruct (mark_then x2c i) as [x j| | |]; try (intros X; discriminate X || reflexivity).
  destruct (rident j); intros X; discriminate X || reflexivity.
Qed.
Lemma end_reads e rest : enum_end e -> ends_number (e ++ rest) /\ next_member (e ++ rest) = PFail /\
  exists k, ropt (rlit (lit ",")) (blanks (e ++ rest)) = k /\ match k with PMatch _ j => rlit (lit "}") (blanks j) = PMatch tt rest | _ => False end.
Proof.
  intros [g G|g g' G G']; rewrite <- !app_assoc.
  - split; [apply (gap_ends_number g x7d rest G); cbn; tauto|]. split; [apply no_member, no_mark, (gap_no_mark x2c g x7d rest); [cbn; tauto|exact G|discriminate]|].
    eexists. split; [reflexivity|]. rewrite (after_gap g x7d rest G eq_refl ltac:(discriminate) : blanks (g ++ [x7d] ++ rest) = _).
    change (ropt (rlit (lit ",")) (x7d :: rest)) with (PMatch (@None Datatypes.unit) (x7d :: rest)). cbv iota. rewrite (blank_other x7d rest eq_refl ltac:(discriminate)).
    change (lit "}") with [x7d]. apply mark_reads.
  - split; [apply (gap_ends_number g x2c _ G); cbn; tauto|]. split.
    + apply no_member. destruct g as [|b g]; [now apply (mark_no_name x2c g' x7d rest)|]. apply no_mark. intros r X.
      destruct (gap_front _ _ b (g ++ [x2c]) G eq_refl) as [Y|Y]; [discriminate Y|]. injection X as -> _. repeat (destruct Y as [Y|Y]; [discriminate Y|]). destruct Y.
    + eexists. split; [reflexivity|]. rewrite (after_gap g x2c (g' ++ [x7d] ++ rest) G eq_refl ltac:(discriminate) : blanks (g ++ [x2c] ++ g' ++ [x7d] ++ rest) = _).
      change (lit ",") with [x2c]. unfold ropt. rewrite mark_reads. rewrite (after_gap g' x7d rest G' eq_refl ltac:(discriminate) : blanks (g' ++ [x7d] ++ rest) = _).
      change (lit "}") with [x7d]. apply mark_reads.
Qed.
Lemma no_annotations n b i : letter b -> rannotations fl n (b :: i) = PMatch [] (b :: i).
Proof.
  intros L. unfold rannotations, rsep, rannotation, rseq, rlit. change (strip (lit "@") (b :: i)) with (if Byte.eqb x40 b then strip [] i else None).
  destruct (byte_eqb_spec x40 b) as [<-|_]; [unfold letter in L; cbn in L; lia|reflexivity].
Qed.

(** An enum that is written is read with its qualifiers, its name and its members in
    their order; [n] bounds the length. *)
Theorem C75_enums_are_read_as_written n i e rest : enum_text i e -> (length i < n)%nat -> renum fl n (i ++ rest) = PMatch e rest.
Proof.
  intros [u qs g w g1 g2 t ms z U NG G N G1 G2 T Z] L. rewrite !app_length in L. rewrite <- !app_assoc.
  assert (NE : name (lit "enum")) by (apply name_by_reading; reflexivity).
  assert (DE : forall q, ~ In (lit "enum", q) qualifier_words) by (intros q X; repeat (destruct X as [X|X]; [discriminate X|]); destruct X).
  destruct (name_start _ N) as (bw & w' & Ew & Lw). set (r1 := g1 ++ [x7b] ++ g2 ++ t ++ z ++ rest).
  assert (Gw : gap g (w ++ r1)) by (apply (gap_head _ _ _ G); now rewrite Ew).
  assert (EK : ends_name (g ++ w ++ r1)) by now apply C71_gaps_end_names.
  assert (LQ : (length qs <= length u)%nat).
  { clear -U. induction U as [|k q g u qs I NG G U IH]; [cbn; lia|]. rewrite !app_length. cbn [length]. destruct g; [congruence|]. cbn [length]. lia. }
  destruct (qualifiers_read (lit "enum") (g ++ w ++ r1) u qs n NE EK DE U ltac:(lia)) as (g' & Q & Gq).
  destruct (words_start _ _ _ NE U) as (b & v & Eb & Lb).
  assert (Ei : u ++ lit "enum" ++ g ++ w ++ r1 = b :: v ++ g ++ w ++ r1) by (rewrite app_assoc, Eb; reflexivity).
  assert (D : rdecl fl n "enum" (u ++ lit "enum" ++ g ++ w ++ r1) = PMatch (Decl [] qs w span0) r1).
  { unfold rdecl. unfold rseq at 1. rewrite Ei, (no_annotations _ _ _ Lb). unfold rseq at 1, rblank at 1. rewrite (start_blanks _ _ Lb), <- Ei.
    unfold rseq at 1. rewrite Q. unfold rseq at 1, rblank at 1.
    rewrite (gap_skipped g' (lit "enum" ++ g ++ w ++ r1)) by (apply (gap_head _ _ _ Gq); reflexivity).
    replace (blanks (lit "enum" ++ g ++ w ++ r1)) with (lit "enum" ++ g ++ w ++ r1) by (symmetry; now apply (blank_other x65)).
    assert (K : rkeyword (lit "enum") (lit "enum" ++ g ++ w ++ r1) = PMatch tt (g ++ w ++ r1)) by (apply C71_keywords_are_whole_words; now split).
    unfold rseq at 1. rewrite K. unfold rseq, rblank. rewrite (gap_skipped _ _ Gw).
    assert (B : blanks (w ++ r1) = w ++ r1) by (rewrite Ew; cbn [List.app]; now apply start_blanks). rewrite B.
    now rewrite (ident_reads w r1 N (gap_ends g1 x7b (g2 ++ t ++ z ++ rest) G1 eq_refl)). }
  destruct (members_start _ _ T) as (bt & t' & Et & Lt). destruct (end_reads z rest Z) as (E1 & E2 & k & E3 & E4).
  unfold renum. unfold rseq at 1. fold r1. rewrite D. unfold rseq at 1, rblank at 1. unfold r1.
  rewrite (after_gap g1 x7b (g2 ++ t ++ z ++ rest) G1 eq_refl ltac:(discriminate) : blanks (g1 ++ [x7b] ++ g2 ++ t ++ z ++ rest) = _).
  unfold rseq at 1. change (lit "{") with [x7b]. rewrite mark_reads. unfold rseq at 1, rblank at 1.
  rewrite (gap_skipped g2 (t ++ z ++ rest)) by (apply (gap_head _ _ _ G2); now rewrite Et).
  assert (B : blanks (t ++ z ++ rest) = t ++ z ++ rest) by (rewrite Et; cbn [List.app]; now apply start_blanks). rewrite B.
  unfold rseq at 1. rewrite (members_read t ms T n (z ++ rest) ltac:(lia) E1 E2). unfold rseq, rblank. rewrite E3. destruct k as [o j| | |]; try contradiction E4. now rewrite E4.
Qed.
End Reading.
Print Assumptions C75_enums_are_read_as_written.

(** No text is the writing of two enums. *)
Theorem C75_one_meaning i e e' : enum_text i e -> enum_text i e' -> e = e'.
Proof.
  intros T T'. set (fl := FloatText (fun _ => []) (fun _ => []) (fun _ => None) (fun _ => None)).
  pose proof (C75_enums_are_read_as_written fl _ _ _ [] T (Nat.lt_succ_diag_r _)) as A.
  pose proof (C75_enums_are_read_as_written fl _ _ _ [] T' (Nat.lt_succ_diag_r _)) as B. rewrite A in B. now injection B.
Qed.
Print Assumptions C75_one_meaning.

(** Not vacuous: a qualifier, a negative value, a value of 64 bits and a last comma.
    A blank before a comma between members is not accepted. *)
Example C75_nonvacuous : enum_text (lit "public enum Level{Low = -1, High = 5000000000l,}")
  (EnumSource (Decl [] [QPublic] (lit "Level") (Span 0 0)) [(lit "Low", -1); (lit "High", 5000000000)]%Z (Span 0 0)).
Proof.
  assert (S : forall r, gap [x20] r) by (intros; apply gap_blank; [cbn; tauto|apply gap_none]).
  assert (I1 : integer_text (lit "-1") (-1)%Z).
  { refine (integer_of true false (lit "1") _ _ _ eq_refl _); [discriminate|repeat constructor; cbn; lia|cbn; unfold in_s; lia]. }
  assert (I2 : integer_text (lit "5000000000l") 5000000000%Z).
  { refine (integer_of false true (lit "5000000000") _ _ _ eq_refl _); [discriminate|repeat constructor; cbn; lia|cbn; unfold in_s; lia]. }
  refine (enum_of (lit "public ") _ [x20] (lit "Level") [] [] (lit "Low = -1, High = 5000000000l") _ (lit ",}") _ _ _ _ _ _ _ (end_comma [] [] _ _)); try apply gap_none; try apply S; try discriminate.
  - refine (words_more _ (lit "public") QPublic [x20] [] [] _ _ (S _) (words_none _)); [cbn; tauto|discriminate].
  - apply name_by_reading. reflexivity.
  - refine (enum_more (lit "Low = -1") _ [x20] (lit "High = 5000000000l") _ (enum_member_of (lit "Low") [x20] [x20] _ _ _ (S _) (S _) I1) (S _)
      (enum_one _ _ (enum_member_of (lit "High") [x20] [x20] _ _ _ (S _) (S _) I2))); apply name_by_reading; reflexivity.
Qed.
Example C75_blank_before_comma : forall fl, renum fl 60 (lit "enum E { A = 1 , B = 2 }") = PFail.
Proof. intros fl. vm_compute. reflexivity. Qed.
