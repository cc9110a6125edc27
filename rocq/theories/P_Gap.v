(** C71: blanks and comments separate the parts of a script, and stand for nothing. *)
From Coq Require Import String.
From Coq Require Import ZArith List Bool Lia.
From Verif Require Import Bytes BytesFacts Definitions DefinitionsFacts Bundle Ast TypeNames Printer Parser ParserFacts ParserSafe TextFacts TextLiteralFacts GapSpec GapFacts.
Import ListNotations.

(** Where the grammar allows blanks, any blanks and comments can be written, and
    whatever is read next is read the same. *)
Theorem C71_gaps_make_no_difference {A} (next : Datatypes.unit -> rule A) t t' rest : gap t rest -> gap t' rest ->
  rseq rblank next (t ++ rest) = rseq rblank next (t' ++ rest).
Proof. intros G G'. unfold rseq, rblank. now rewrite (gap_skipped _ _ G), (gap_skipped _ _ G'). Qed.
Print Assumptions C71_gaps_make_no_difference.

(** Blanks and comments are all that is skipped, and they are skipped to the end. *)
Theorem C71_only_gaps_are_skipped i : exists t rest, rblank i = PMatch tt rest /\ i = t ++ rest /\ gap t rest /\
  forall t' rest', rest = t' ++ rest' -> gap t' rest' -> t' = [].
Proof.
  destruct (blanks_gap (length i) i) as (t & E & G). fold (blanks i) in *. exists t, (blanks i).
  split; [reflexivity|]. split; [exact E|]. split; [exact G|]. intros t' rest' E' G'.
  pose proof (gap_skipped _ _ G) as S. rewrite <- E in S.
  pose proof (gap_skipped _ _ G') as S'. rewrite <- E', <- S in S'.
  pose proof (blanks_length (length rest') rest') as L. fold (blanks rest') in L. rewrite <- S', E', app_length in L.
  destruct t'; [reflexivity|cbn in L; lia].
Qed.
Print Assumptions C71_only_gaps_are_skipped.

(** A comment has one end, also if comments are inside it. *)
Theorem C71_comments_end_once c rest c' rest' : comment c -> comment c' -> c ++ rest = c' ++ rest' -> c = c' /\ rest = rest'.
Proof.
  intros [b I] [b' I'] E. unfold opening in E. rewrite <- !app_assoc in E. apply (f_equal (skipn 2)) in E. cbn [skipn List.app] in E.
    change (b ++ closing ++ rest = b' ++ closing ++ rest') in E.
  pose proof (inside_rest _ I 0 rest) as X. rewrite E, (inside_rest _ I' 0 rest') in X. cbn [after] in X. injection X as ->.
  rewrite !app_assoc in E. apply app_inv_tail, app_inv_tail in E. subst b'. now split.
Qed.
Print Assumptions C71_comments_end_once.

(** A name is read as far as it goes, and a keyword only where no name goes on. *)
Theorem C71_names_are_read_as_written i w rest : rident i = PMatch w rest <-> name w /\ i = w ++ rest /\ ends_name rest.
Proof.
  unfold rident, name. split.
  - destruct i as [|b i]; [discriminate|]. destruct (is_alpha b) eqn:B; [|discriminate].
    destruct (span_of is_word_char i) as [w' r] eqn:S. intros E. injection E as <- <-. apply span_is in S. destruct S as (-> & F & N).
    split; [exists b, w'; split; [reflexivity|split; [now apply letters|exact F]]|]. now split.
  - intros ((b & w' & -> & L & F) & -> & N). cbn [List.app]. apply letters in L. rewrite L.
    rewrite (proj2 (span_is (w' ++ rest) w' rest)); auto.
Qed.
Print Assumptions C71_names_are_read_as_written.

Lemma strip_app k : forall i, strip k (k ++ i) = Some i.
Proof. induction k as [|a k IH]; intros i; cbn [strip List.app]; [now destruct i|]. destruct (byte_eqb_spec a a) as [_|N]; [apply IH|now destruct N]. Qed.
Theorem C71_keywords_are_whole_words k i rest : rkeyword k i = PMatch tt rest <-> i = k ++ rest /\ ends_name rest.
Proof.
  unfold rkeyword, ends_name. split.
  - destruct (strip k i) as [j|] eqn:S; [|discriminate]. apply strip_inv in S. subst i. destruct j as [|b j].
    + intros E. injection E as <-. now split.
    + destruct (is_word_char b) eqn:B; [discriminate|]. intros E. injection E as <-. split; [reflexivity|].
      intros c r E. injection E as <- <-. rewrite <- word_chars. congruence.
  - intros (-> & N). rewrite strip_app. destruct rest as [|b rest]; [reflexivity|].
    destruct (is_word_char b) eqn:B; [|reflexivity]. destruct (N b rest eq_refl). now apply word_chars.
Qed.
Print Assumptions C71_keywords_are_whole_words.

(** Blanks and comments end a name, as they end a keyword. *)
Theorem C71_gaps_end_names t rest : t <> [] -> gap t rest -> ends_name (t ++ rest).
Proof.
  intros N G b r E. rewrite <- word_chars. destruct G as [rest|c t rest B G|c t rest C G|w t rest W G R].
  - now destruct N.
  - injection E as -> _. repeat destruct B as [<-|B]; try discriminate. destruct B.
  - destruct C as [body I]. injection E as <- _. discriminate.
  - injection E as <- _. discriminate.
Qed.
Print Assumptions C71_gaps_end_names.

(** Not vacuous: comments in comments, marks that share a character, a comment at
    the end of the file without a line feed; a comment without its end is none. *)
Example C71_nonvacuous :
  (exists t, gap t (lit "x") /\ t ++ lit "x" = lit " /* a /* b **/ / * */ // c" ++ [x0a; x09] ++ lit "/**/x") /\
  (exists t, gap t [] /\ t ++ [] = lit "// end") /\
  rblank (lit "/*/*/ */x") = PMatch tt (lit "/*/*/ */x") /\
  rblank (lit "/*/x*/y") = PMatch tt (lit "y") /\
  rident (lit "letter x") = PMatch (lit "letter") (lit " x") /\ rkeyword (lit "let") (lit "letter x") = PFail /\
  rkeyword (lit "let") (lit "let/**/x") = PMatch tt (lit "/**/x").
Proof.
  split; [|split].
  - set (i := lit " /* a /* b **/ / * */ // c" ++ [x0a; x09] ++ lit "/**/x").
    destruct (blanks_gap (length i) i) as (t & E & G). assert (B : blanks_n (length i) i = lit "x") by (vm_compute; reflexivity).
    rewrite B in *. exists t. now split.
  - exists (lit "// end"). split; [|reflexivity]. apply (gap_line (lit " end") [] []); [|constructor|now left].
    intros H. vm_compute in H. repeat destruct H as [H|H]; try discriminate H. destruct H.
  - repeat split; vm_compute; reflexivity.
Qed.
