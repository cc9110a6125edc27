(** C64, the reading of interpolated strings. *)
From Coq Require Import String.
From Coq Require Import ZArith List Bool Lia.
From Verif Require Import Bytes BytesFacts Definitions DefinitionsFacts Bundle Ast TypeNames Pool Scope TypeCheck Printer Parser PrintSpec ParserFacts ParserSafe TextFacts
  TextLiteralSpec TextLiteralFacts GapSpec GapFacts InterpolatedSpec.
Import ListNotations.

Definition stops (k : list byte) : Prop := exists k', k = x22 :: k' \/ k = x5c :: x28 :: k'.
Lemma stops_char k : stops k -> rescaped_char k = PFail.
Proof. intros (k' & [->| ->]); reflexivity. Qed.
Lemma items_stop n k : stops k -> forall items texts, Forall2 means items texts -> (length items < n)%nat ->
  rmany n rescaped_char (concat (map spelling items) ++ k) = PMatch texts k.
Proof.
  intros K. induction n as [|n IH]; intros items texts F L; [lia|]. cbn [rmany]. destruct F as [|x bs items texts M F].
  - cbn [map concat List.app]. now rewrite (stops_char _ K).
  - cbn [map concat]. rewrite <- app_assoc, (item_reads _ _ _ M). cbn [length] in L. rewrite (IH _ _ F) by lia. reflexivity.
Qed.
Lemma contents_read t s k : spells t s -> stops k -> rcontents (t ++ k) = PMatch s k.
Proof.
  intros (items & texts & F & -> & ->) K. unfold rcontents, rseq. rewrite (items_stop _ _ K _ _ F); [reflexivity|].
  rewrite app_length. pose proof (items_length items). lia.
Qed.
Lemma contents_inv i s k : rcontents i = PMatch s k -> exists t, spells t s /\ i = t ++ k.
Proof.
  unfold rcontents, rseq. destruct (rmany _ _ _) as [l j| | |] eqn:R; try discriminate. intros E. injection E as <- <-.
  apply items_inv in R. destruct R as (items & F & ->). exists (concat (map spelling items)). split; [|reflexivity]. now exists items, l.
Qed.
Lemma no_gap_blanks i : no_gap i -> blanks i = i.
Proof. intros N. destruct (blanks_gap (length i) i) as (t & E & G). fold (blanks i) in *. rewrite (N _ _ E G) in E. now symmetry. Qed.
Lemma blanks_no_gap i : no_gap (blanks i).
Proof.
  intros t' rest' E' G'. destruct (blanks_gap (length i) i) as (t & E & G). fold (blanks i) in *.
  pose proof (gap_skipped _ _ G) as S. rewrite <- E in S. pose proof (gap_skipped _ _ G') as S'. rewrite <- E', <- S in S'.
  pose proof (blanks_length (length rest') rest') as L. fold (blanks rest') in L. rewrite <- S', E', app_length in L.
  destruct t'; [reflexivity|cbn in L; lia].
Qed.

Section Reading.
Variable rec : nat -> rule sexpr.
Definition part : rule (sexpr * str) :=
  the _ <- rlit [backslash; x28]; the _ <- rblank; the e <- rec 0%nat; the _ <- rblank; the _ <- rlit (lit ")"); the s <- rcontents; rret (e, s).
Definition taken (i : list byte) (e : sexpr) (j : list byte) : Prop := rec 0%nat i = PMatch e j.
Lemma parts_stop k parts rest : parts_are sexpr taken k parts rest -> stops k.
Proof. intros [r|before i e after text s k' ps r _ _ _ _ _ _]; [exists r; now left|exists (before ++ i); now right]. Qed.
Lemma many_parts k parts rest : parts_are sexpr taken k parts rest -> forall n, (length parts < n)%nat ->
  rmany n part k = PMatch parts (x22 :: rest).
Proof.
  induction 1 as [rest|before i e after text s k parts rest G1 N R G2 S P IH]; intros n L; (destruct n as [|n]; [cbn in L; lia|]).
  - reflexivity.
  - cbn [length] in L. cbn [rmany].
    assert (E : part ([x5c; x28] ++ before ++ i) = PMatch (e, s) k).
    { unfold part, rseq at 1. change (rlit [backslash; x28] ([x5c; x28] ++ before ++ i)) with (PMatch tt (before ++ i)). cbv beta iota.
      unfold rseq at 1, rblank. rewrite (gap_skipped _ _ G1), (no_gap_blanks _ N). unfold rseq at 1. unfold taken in R. rewrite R.
      unfold rseq at 1. rewrite (gap_skipped _ _ G2). 
      replace (blanks ([x29] ++ text ++ k)) with ([x29] ++ text ++ k) by (cbn [List.app]; symmetry; now apply blank_other).
      unfold rseq at 1. change (rlit (lit ")") ([x29] ++ text ++ k)) with (PMatch tt (text ++ k)). cbv beta iota.
      unfold rseq. rewrite (contents_read _ _ _ S (parts_stop _ _ _ P)). reflexivity. }
    rewrite E. rewrite IH by lia. reflexivity.
Qed.
Lemma part_inv i e s k : part i = PMatch (e, s) k -> exists before j after text,
  i = [x5c; x28] ++ before ++ j /\ gap before j /\ no_gap j /\ taken j e (after ++ [x29] ++ text ++ k) /\ gap after ([x29] ++ text ++ k) /\ spells text s.
Proof.
  unfold part, rseq at 1. destruct (rlit [backslash; x28] i) as [u i1| | |] eqn:L; try discriminate. apply rlit_inv in L.
  unfold rseq at 1, rblank. unfold rseq at 1. destruct (rec 0%nat (blanks i1)) as [e' i2| | |] eqn:R; try discriminate.
  unfold rseq at 1. unfold rseq at 1. destruct (rlit (lit ")") (blanks i2)) as [u' i3| | |] eqn:C; try discriminate. apply rlit_inv in C.
  unfold rseq. destruct (rcontents i3) as [s' i4| | |] eqn:T; try discriminate. intros E. injection E as -> -> ->.
  apply contents_inv in T. destruct T as (text & S & ->).
  destruct (blanks_gap (length i1) i1) as (before & E1 & G1). fold (blanks i1) in *.
  destruct (blanks_gap (length i2) i2) as (after & E2 & G2). fold (blanks i2) in *. rewrite C in E2, G2.
  exists before, (blanks i1), after, text. split; [rewrite <- E1; exact L|]. split; [exact G1|]. split; [apply blanks_no_gap|].
  split; [unfold taken; rewrite R; now rewrite E2 at 1|]. split; [exact G2|exact S].
Qed.
Lemma many_parts_inv n : forall i parts rest, rmany n part i = PMatch parts (x22 :: rest) -> parts_are sexpr taken i parts rest.
Proof.
  induction n as [|n IH]; intros i parts rest H; cbn [rmany] in H; [discriminate H|].
  destruct (part i) as [[e s] k| | |] eqn:E; try discriminate H.
  - destruct (rmany n part k) as [l j| | |] eqn:R; try discriminate H. injection H as <- ->. apply IH in R.
    apply part_inv in E. destruct E as (before & j & after & text & -> & G1 & N & T & G2 & S). now apply parts_more with after text k.
  - injection H as <- ->. constructor.
Qed.

(** An interpolated string is read exactly if it is written as text and parts, with
    blanks and comments around the expressions, and is read as these texts and
    expressions in their order.  [n] bounds the number of parts. *)
Theorem C64_read_as_written n i prefix parts sp rest : (length parts < n)%nat ->
  rinterpolated n rec i = PMatch (EInterpolated (N := source_ast) prefix parts sp) rest <->
  sp = span0 /\ exists text k, i = [x73; x22] ++ text ++ k /\ spells text prefix /\
    parts_are sexpr (fun i e j => rec 0%nat i = PMatch e j) k parts rest.
Proof.
  intros L. unfold rinterpolated. fold part. split.
  - unfold rseq at 1. destruct (rlit [x73; quote] i) as [u i1| | |] eqn:A; try discriminate. apply rlit_inv in A. subst i.
    unfold rseq at 1. destruct (rcontents i1) as [s i2| | |] eqn:C; try discriminate. apply contents_inv in C. destruct C as (text & S & ->).
    unfold rseq at 1. destruct (rmany n part i2) as [l i3| | |] eqn:R; try discriminate.
    unfold rseq. destruct (rlit [quote] i3) as [u' i4| | |] eqn:Q; try discriminate. apply rlit_inv in Q. subst i3.
    intros E. injection E as -> -> <- ->. split; [reflexivity|]. exists text, i2. split; [reflexivity|]. split; [exact S|].
    exact (many_parts_inv _ _ _ _ R).
  - intros (-> & text & k & -> & S & P). unfold rseq at 1. change (rlit [x73; quote] ([x73; x22] ++ text ++ k)) with (PMatch tt (text ++ k)). cbv beta iota.
    unfold rseq at 1. rewrite (contents_read _ _ _ S (parts_stop _ _ _ P)). unfold rseq at 1. rewrite (many_parts _ _ _ P n L). reflexivity.
Qed.
End Reading.
Print Assumptions C64_read_as_written.

(** Not vacuous: two expressions with a comment, an escape and a nested string. *)
Definition two_parts : list byte := [x73; x22] ++ lit "a\n\( /* x */ b )c\(d + 1)" ++ [x22] ++ lit ";".
Example C64_reading_nonvacuous fl : exists parts text k,
  rinterpolated 5 (rexpr fl 30) two_parts = PMatch (EInterpolated (N := source_ast) [x61; x0a] parts span0) (lit ";") /\
  map snd parts = [lit "c"; []] /\ two_parts = [x73; x22] ++ text ++ k /\ spells text [x61; x0a] /\
  parts_are sexpr (fun i e j => rexpr fl 30 0 i = PMatch e j) k parts (lit ";").
Proof.
  assert (R : exists parts, rinterpolated 5 (rexpr fl 30) two_parts = PMatch (EInterpolated (N := source_ast) [x61; x0a] parts span0) (lit ";") /\
    map snd parts = [lit "c"; []] /\ (length parts < 5)%nat).
  { eexists. split; [vm_compute; reflexivity|]. split; [reflexivity|cbn; lia]. }
  destruct R as (parts & R & M & L). pose proof (proj1 (C64_read_as_written _ 5 _ _ _ _ _ L) R) as (_ & text & k & E & S & P).
  exists parts, text, k. auto.
Qed.
