(** Facts for C71. *)
From Coq Require Import String.
From Coq Require Import ZArith List Bool Lia.
From Verif Require Import Bytes BytesFacts Definitions DefinitionsFacts Bundle Ast TypeNames Printer Parser ParserFacts ParserSafe TextFacts TextLiteralFacts GapSpec.
Import ListNotations.

Scheme comment_ind2 := Induction for comment Sort Prop
with inside_ind2 := Induction for inside Sort Prop.

Definition after (d : nat) (r : list byte) : option (list byte) := match d with O => Some r | S d' => comment_rest d' r end.
Lemma rest_close d r : comment_rest d (x2a :: x2f :: r) = after d r. Proof. destruct d; reflexivity. Qed.
Lemma rest_open d r : comment_rest d (x2f :: x2a :: r) = comment_rest (S d) r. Proof. reflexivity. Qed.
Lemma rest_char d a b i : ~ begins opening (a :: b :: i) -> ~ begins closing (a :: b :: i) -> comment_rest d (a :: b :: i) = comment_rest d (b :: i).
Proof.
  intros O C. change (comment_rest d (a :: b :: i)) with
    (if Byte.eqb a x2a && Byte.eqb b x2f then after d i else if Byte.eqb a x2f && Byte.eqb b x2a then comment_rest (S d) i else comment_rest d (b :: i)).
  destruct (Byte.eqb a x2a && Byte.eqb b x2f) eqn:E1.
  { apply andb_true_iff in E1. destruct E1 as (A & B). destruct (byte_eqb_spec a x2a) as [->|]; [|discriminate A].
    destruct (byte_eqb_spec b x2f) as [->|]; [|discriminate B]. destruct C. now exists i. }
  destruct (Byte.eqb a x2f && Byte.eqb b x2a) eqn:E2; [|reflexivity].
  apply andb_true_iff in E2. destruct E2 as (A & B). destruct (byte_eqb_spec a x2f) as [->|]; [|discriminate A].
  destruct (byte_eqb_spec b x2a) as [->|]; [|discriminate B]. destruct O. now exists i.
Qed.
Lemma begins_app p i j : (length p <= length i)%nat -> begins p (i ++ j) -> begins p i.
Proof.
  intros L (r & E). exists (skipn (length p) i).
  assert (F : firstn (length p) (i ++ j) = p) by (rewrite E, firstn_app, firstn_all, Nat.sub_diag; cbn; now rewrite app_nil_r).
  rewrite firstn_app in F. replace (length p - length i)%nat with O in F by lia. cbn [firstn] in F. rewrite app_nil_r in F.
  rewrite <- F at 1. now rewrite firstn_skipn.
Qed.
Lemma inside_rest body : inside body -> forall d r, comment_rest d (body ++ closing ++ r) = after d r.
Proof.
  apply (inside_ind2 (fun c _ => forall d r, comment_rest d (c ++ r) = comment_rest d r)
                     (fun body _ => forall d r, comment_rest d (body ++ closing ++ r) = after d r)).
  - intros b I IH d r. unfold opening. rewrite <- !app_assoc. cbn [List.app]. rewrite rest_open. rewrite IH. reflexivity.
  - intros d r. apply rest_close.
  - intros b bd I IH O C d r. cbn [List.app].
    assert (E : exists h u, bd ++ closing ++ r = h :: u) by (destruct bd as [|h bd]; [now exists x2a, (x2f :: r)|now exists h, (bd ++ closing ++ r)]).
    destruct E as (h & u & E).
    rewrite E. rewrite rest_char.
    + rewrite <- E. apply IH.
    + rewrite <- E. intros X. apply O. apply (begins_app _ _ r); [cbn; rewrite app_length; cbn; lia|]. cbn [List.app]. now rewrite <- app_assoc.
    + rewrite <- E. intros X. apply C. apply (begins_app _ _ r); [cbn; rewrite app_length; cbn; lia|]. cbn [List.app]. now rewrite <- app_assoc.
  - intros c bd Cm IHc I IH d r. rewrite <- app_assoc. rewrite IHc. apply IH.
Qed.
(** Whatever the reader takes for the rest of a comment is one. *)
Lemma rest_inside n : forall i, (length i <= n)%nat -> forall d r, comment_rest d i = Some r ->
  exists body i', inside body /\ i = body ++ closing ++ i' /\ after d i' = Some r.
Proof.
  induction n as [|n IH]; intros i L d r H.
  { destruct i; [discriminate H|cbn in L; lia]. }
  destruct i as [|a [|b i]]; [discriminate H|discriminate H|]. cbn [length] in L.
  change (comment_rest d (a :: b :: i)) with
    (if Byte.eqb a x2a && Byte.eqb b x2f then after d i else if Byte.eqb a x2f && Byte.eqb b x2a then comment_rest (S d) i else comment_rest d (b :: i)) in H.
  destruct (Byte.eqb a x2a && Byte.eqb b x2f) eqn:E1.
  { apply andb_true_iff in E1. destruct E1 as (A & B). destruct (byte_eqb_spec a x2a) as [->|]; [|discriminate A].
    destruct (byte_eqb_spec b x2f) as [->|]; [|discriminate B]. exists [], i. split; [constructor|]. now split. }
  destruct (Byte.eqb a x2f && Byte.eqb b x2a) eqn:E2.
  { apply andb_true_iff in E2. destruct E2 as (A & B). destruct (byte_eqb_spec a x2f) as [->|]; [|discriminate A].
    destruct (byte_eqb_spec b x2a) as [->|]; [|discriminate B].
    destruct (IH i ltac:(lia) (S d) r H) as (b1 & i1 & I1 & -> & H1). cbn [after] in H1.
    destruct (IH i1 ltac:(rewrite !app_length in L; cbn in L; lia) d r H1) as (b2 & i2 & I2 & -> & H2).
    exists ((opening ++ b1 ++ closing) ++ b2), i2. split; [apply inside_comment; [now constructor|exact I2]|].
    split; [|exact H2]. unfold opening. now rewrite <- !app_assoc. }
  destruct (IH (b :: i) ltac:(cbn; lia) d r H) as (bd & i' & I & E & H').
  exists (a :: bd), i'. rewrite E in *. split; [|now split].
  assert (X : forall p, begins p (a :: bd ++ closing) -> begins p (a :: b :: i)).
  { intros p (q & Q). exists (q ++ i'). rewrite E. transitivity ((a :: bd ++ closing) ++ i'); [cbn [List.app]; now rewrite <- app_assoc|]. rewrite Q. now rewrite <- app_assoc. }
  constructor; [exact I| |]; intros B; apply X in B; destruct B as (q & Q); injection Q as -> -> _; [discriminate E2|discriminate E1].
Qed.

Lemma line_rest_in w : ~ In x0a w -> forall r, r = [] \/ begins [x0a] r -> line_rest (w ++ r) = r.
Proof.
  induction w as [|b w IH]; intros N r R; cbn [List.app line_rest].
  - destruct R as [->|(q & ->)]; reflexivity.
  - destruct (byte_eqb_spec b x0a) as [->|_]; [destruct N; now left|]. apply IH; [|exact R]. intros X. apply N. now right.
Qed.
Lemma line_rest_split i : exists w, i = w ++ line_rest i /\ ~ In x0a w /\ (line_rest i = [] \/ begins [x0a] (line_rest i)).
Proof.
  induction i as [|b i (w & E & N & R)]; [exists []; cbn; tauto|]. cbn [line_rest].
  destruct (byte_eqb_spec b x0a) as [->|D].
  - exists []. split; [reflexivity|]. split; [easy|]. right. now exists i.
  - exists (b :: w). split; [cbn [List.app]; now rewrite <- E|]. split; [|exact R]. intros [X|X]; [now apply D|now apply N].
Qed.
Lemma blank_chars b : is_blank b = true <-> In b [x20; x0a; x0d; x09].
Proof. split; [destruct b; vm_compute; try discriminate; tauto|]. intros H. repeat destruct H as [<-|H]; try reflexivity. destruct H. Qed.
Lemma step_shorter i j : blank_step i = Some j -> exists b t, i = (b :: t) ++ j /\ gap (b :: t) j.
Proof.
  unfold blank_step. destruct i as [|b i]; [discriminate|]. destruct (is_blank b) eqn:B.
  { intros E. injection E as ->. exists b, []. split; [reflexivity|]. constructor; [now apply blank_chars|constructor]. }
  destruct (strip (lit "/*") (b :: i)) as [i1|] eqn:S1.
  { apply strip_inv in S1. destruct (comment_rest 0 i1) as [i2|] eqn:C; [|discriminate]. intros E. injection E as ->.
    destruct (rest_inside _ i1 (le_n _) _ _ C) as (bd & i' & I & -> & A). cbn [after] in A. injection A as ->.
    exists x2f, (x2a :: bd ++ closing). split.
    - rewrite S1. change (lit "/*") with opening. unfold opening. cbn [List.app]. now rewrite <- app_assoc.
    - change (x2f :: x2a :: bd ++ closing) with (opening ++ bd ++ closing). rewrite <- (app_nil_r (opening ++ bd ++ closing)).
      apply gap_comment; [now constructor|constructor]. }
  destruct (strip (lit "//") (b :: i)) as [i1|] eqn:S2; [|discriminate]. intros E. injection E as <-.
  apply strip_inv in S2. destruct (line_rest_split i1) as (w & E & N & R).
  exists x2f, (x2f :: w). split.
  - rewrite S2. change (lit "//") with slashes. unfold slashes. cbn [List.app]. now rewrite E at 1.
  - replace (x2f :: x2f :: w) with (slashes ++ w ++ []) by (cbn [List.app slashes]; now rewrite app_nil_r). apply gap_line; [exact N|constructor|exact R].
Qed.
Lemma blanks_enough n : forall m i, (length i <= n)%nat -> (length i <= m)%nat -> blanks_n n i = blanks_n m i.
Proof.
  induction n as [|n IH]; intros m i L M.
  { destruct i; [|cbn in L; lia]. destruct m; reflexivity. }
  destruct m as [|m]; [destruct i; [reflexivity|cbn in M; lia]|]. cbn [blanks_n].
  destruct (blank_step i) as [j|] eqn:E; [|reflexivity]. apply step_shorter in E. destruct E as (b & t & -> & _).
  rewrite app_length in L, M. cbn [length] in L, M. apply IH; lia.
Qed.
Lemma blanks_step i j : blank_step i = Some j -> blanks i = blanks j.
Proof.
  intros E. unfold blanks. destruct (step_shorter _ _ E) as (b & t & I & _).
  destruct i as [|a i]; [discriminate I|]. cbn [length blanks_n]. rewrite E. apply blanks_enough; [|lia].
  apply (f_equal (@length _)) in I. rewrite app_length in I. cbn [length] in I. lia.
Qed.
Lemma gap_app t u rest : gap t (u ++ rest) -> gap u rest -> gap (t ++ u) rest.
Proof.
  intros G. remember (u ++ rest) as s eqn:E. induction G as [s|b t s B G IH|c t s C G IH|w t s N G IH R]; intros U; subst s.
  - exact U.
  - cbn [List.app]. apply gap_blank; auto.
  - rewrite <- app_assoc. apply gap_comment; auto.
  - rewrite <- !app_assoc. apply gap_line; auto. now rewrite <- app_assoc.
Qed.
Lemma gap_skipped t rest : gap t rest -> blanks (t ++ rest) = blanks rest.
Proof.
  induction 1 as [rest|b t rest B G IH|c t rest C G IH|w t rest N G IH R].
  - reflexivity.
  - rewrite <- IH. cbn [List.app]. apply blanks_step. cbn [blank_step]. apply blank_chars in B. now rewrite B.
  - rewrite <- IH, <- app_assoc. destruct C as [body I]. apply blanks_step. unfold opening. rewrite <- !app_assoc.
    change (blank_step ([x2f; x2a] ++ body ++ closing ++ t ++ rest)) with
      (match comment_rest 0 (body ++ closing ++ t ++ rest) with Some i2 => Some i2 | None => None end).
    now rewrite (inside_rest _ I).
  - rewrite <- IH, <- !app_assoc. apply blanks_step.
    change (blank_step (slashes ++ w ++ t ++ rest)) with (Some (line_rest (w ++ t ++ rest))). now rewrite (line_rest_in _ N _ R).
Qed.
Lemma blanks_gap n : forall i, exists t, i = t ++ blanks_n n i /\ gap t (blanks_n n i).
Proof.
  induction n as [|n IH]; intros i; cbn [blanks_n]; [exists []; split; [reflexivity|constructor]|].
  destruct (blank_step i) as [j|] eqn:E; [|exists []; split; [reflexivity|constructor]].
  destruct (step_shorter _ _ E) as (b & t & -> & G). destruct (IH j) as (u & J & U).
  exists ((b :: t) ++ u). split; [rewrite <- app_assoc; now rewrite <- J|]. apply gap_app; [now rewrite <- J|exact U].
Qed.
Lemma word_chars b : is_word_char b = true <-> name_character b.
Proof. unfold is_word_char, is_digit, is_alpha, in_range, name_character, letter. rewrite !orb_true_iff, !andb_true_iff, !Z.leb_le. lia. Qed.
Lemma letters b : is_alpha b = true <-> letter b.
Proof. unfold is_alpha, in_range, letter. rewrite !orb_true_iff, !andb_true_iff, !Z.leb_le. lia. Qed.
Lemma span_is i w r : span_of is_word_char i = (w, r) <-> i = w ++ r /\ Forall name_character w /\ ends_name r.
Proof.
  revert w r. induction i as [|b i IH]; intros w r; cbn [span_of].
  - split; [intros E; injection E as <- <-; repeat split; [constructor|easy]|]. intros (E & _). destruct w; [|discriminate E]. cbn in E. now subst.
  - destruct (is_word_char b) eqn:B.
    + destruct (span_of is_word_char i) as [w' r'] eqn:S. destruct (proj1 (IH w' r') eq_refl) as (E & F & N). split.
      * intros X. injection X as <- <-. split; [cbn; now rewrite <- E|]. split; [constructor; [now apply word_chars|exact F]|exact N].
      * intros (X & G & M). destruct w as [|c w].
        { cbn in X. subst r. destruct (M b i eq_refl). now apply word_chars. }
        injection X as -> X. inversion G; subst. assert (Q : (w', r') = (w, r)) by (apply IH; auto). injection Q as -> ->. reflexivity.
    + split.
      * intros X. injection X as <- <-. split; [reflexivity|]. split; [constructor|]. intros c j E. injection E as <- <-. rewrite <- word_chars. congruence.
      * intros (X & G & M). destruct w as [|c w]; [cbn in X; now subst|]. injection X as -> X. inversion G; subst.
        rewrite <- word_chars in H1. congruence.
Qed.
