(** C73: parameters are read as they are written. *)
From Coq Require Import String.
From Coq Require Import ZArith List Bool Lia.
From Verif Require Import Bytes BytesFacts Bytecode Definitions DefinitionsFacts Bundle Ast TypeNames Pool Scope TypeCheck Symbols Printer Parser PrintSpec ParserFacts ParserSafe TextFacts
  TextLiteralSpec TextLiteralFacts GapSpec GapFacts P_Gap TypeTextSpec P_TypeText Unit Grammar ParamTextSpec.
Import ListNotations.

Lemma word_reads k q rest : In (k, q) qualifier_words -> ends_name rest -> rqualifier (k ++ rest) = PMatch q rest.
Proof.
  intros I E. assert (K : rkeyword k (k ++ rest) = PMatch tt rest) by now apply C71_keywords_are_whole_words.
  unfold qualifier_words in I. unfold rqualifier, ralts, fold_right, ralt, rword, rseq.
  repeat (destruct I as [I|I]; [injection I as <- <-; rewrite K; reflexivity|]). destruct I.
Qed.
Lemma words_are_names k q : In (k, q) qualifier_words -> name k.
Proof.
  intros I. assert (R : rident (k ++ []) = PMatch k []).
  { unfold qualifier_words in I. repeat (destruct I as [I|I]; [injection I as <- <-; vm_compute; reflexivity|]). destruct I. }
  now apply C71_names_are_read_as_written in R.
Qed.
Lemma other_word k w rest : name k -> name w -> ends_name rest -> k <> w -> rkeyword k (w ++ rest) = PFail.
Proof.
  intros K N E D. destruct (rkeyword k (w ++ rest)) as [[] r| | |] eqn:R.
  - exfalso. apply C71_keywords_are_whole_words in R. destruct R as (R & E'). apply D.
    pose proof (ident_reads _ _ N E) as A. rewrite R, (ident_reads _ _ K E') in A. now injection A.
  - reflexivity.
  - unfold rkeyword in R. destruct (strip k (w ++ rest)) as [[|b i]|]; try discriminate R. destruct (is_word_char b); discriminate R.
  - unfold rkeyword in R. destruct (strip k (w ++ rest)) as [[|b i]|]; try discriminate R. destruct (is_word_char b); discriminate R.
Qed.
Lemma no_word w rest : name w -> ends_name rest -> (forall q, ~ In (w, q) qualifier_words) -> rqualifier (w ++ rest) = PFail.
Proof.
  intros N E D. assert (X : forall k q, In (k, q) qualifier_words -> rkeyword k (w ++ rest) = PFail).
  { intros k q I. apply other_word; auto; [exact (words_are_names _ _ I)|]. intros ->. exact (D q I). }
  unfold rqualifier, ralts, fold_right, ralt, rword, rseq.
  rewrite (X (lit "public") QPublic), (X (lit "protected") QProtected), (X (lit "private") QPrivate), (X (lit "abstract") QAbstract), (X (lit "static") QStatic),
    (X (lit "final") QFinal), (X (lit "const") QConst), (X (lit "native") QNative), (X (lit "exec") QExec), (X (lit "cb") QCallback), (X (lit "out") QOut),
    (X (lit "opt") QOptional), (X (lit "quest") QQuest), (X (lit "importonly") QImportOnly), (X (lit "persistent") QPersistent); [reflexivity|..]; cbn; tauto.
Qed.
Definition more_words : rule qualifier := the _ <- rblank; rqualifier.
Lemma name_start w : name w -> exists b w', w = b :: w' /\ letter b.
Proof. intros (b & w' & E & L & _). eauto. Qed.
Lemma words_start w u qs : name w -> words_text w u qs -> exists b i, u ++ w = b :: i /\ letter b.
Proof.
  intros N [|k q g v l I _ _ _]; [exact (name_start _ N)|]. destruct (name_start _ (words_are_names _ _ I)) as (b & k' & -> & L).
  exists b, (k' ++ (g ++ v) ++ w). cbn [List.app]. rewrite <- app_assoc. now split.
Qed.
(** After a qualifier and its gap the rest is read, and the gap before the name is
    given back. *)
Lemma words_read w rest : name w -> ends_name rest -> (forall q, ~ In (w, q) qualifier_words) ->
  forall u qs, words_text w u qs -> forall g n, g <> [] -> gap g (u ++ w) -> (length qs < n)%nat ->
  exists g', rmany n more_words (g ++ u ++ w ++ rest) = PMatch qs (g' ++ w ++ rest) /\ gap g' w.
Proof.
  intros N E D. induction 1 as [|k q g2 u qs I NG G2 W IH]; intros g n NE G L; (destruct n as [|n]; [lia|]); cbn [rmany].
  - exists g. cbn [List.app] in *. destruct (name_start _ N) as (b & w' & Ew & Lb).
    assert (F : more_words (g ++ w ++ rest) = PFail).
    { unfold more_words, rseq, rblank. rewrite (gap_skipped g (w ++ rest)) by (apply (gap_head _ _ _ G); symmetry; apply hd_app; rewrite Ew; discriminate).
      assert (B : blanks (w ++ rest) = w ++ rest) by (rewrite Ew; cbn [List.app]; now apply start_blanks). rewrite B. now apply no_word. }
    rewrite F. split; [reflexivity|exact G].
  - cbn [length] in L. destruct (name_start _ (words_are_names _ _ I)) as (b & k' & Ek & Lb). rewrite <- !app_assoc in *.
    assert (F : more_words (g ++ k ++ g2 ++ u ++ w ++ rest) = PMatch q (g2 ++ u ++ w ++ rest)).
    { unfold more_words, rseq, rblank. rewrite (gap_skipped g (k ++ g2 ++ u ++ w ++ rest)) by (apply (gap_head _ _ _ G); now rewrite Ek).
      assert (B : blanks (k ++ g2 ++ u ++ w ++ rest) = k ++ g2 ++ u ++ w ++ rest) by (rewrite Ek; cbn [List.app]; now apply start_blanks). rewrite B.
      apply word_reads; [exact I|]. apply C71_gaps_end_names; [exact NG|]. apply (gap_head _ _ _ G2).
      destruct (words_start _ _ _ N W) as (c & i & Ec & _). rewrite (app_assoc u w rest). symmetry. apply hd_app. rewrite Ec. discriminate. }
    rewrite F. destruct (IH g2 n NG G2 ltac:(lia)) as (g' & R & G'). exists g'. rewrite R. now split.
Qed.
Lemma qualifiers_read w rest u qs n : name w -> ends_name rest -> (forall q, ~ In (w, q) qualifier_words) -> words_text w u qs -> (length qs < n)%nat ->
  exists g', rqualifiers n (u ++ w ++ rest) = PMatch qs (g' ++ w ++ rest) /\ gap g' w.
Proof.
  intros N E D [|k q g v l I NG G W] L; unfold rqualifiers, rsep.
  - exists []. cbn [List.app]. rewrite (no_word _ _ N E D). split; [reflexivity|constructor].
  - cbn [length] in L. rewrite <- !app_assoc. assert (EN : ends_name (g ++ v ++ w ++ rest)).
    { apply C71_gaps_end_names; [exact NG|]. apply (gap_head _ _ _ G). destruct (words_start _ _ _ N W) as (c & i & Ec & _).
      rewrite (app_assoc v w rest). symmetry. apply hd_app. rewrite Ec. discriminate. }
    rewrite (word_reads _ _ _ I EN). fold more_words.
    destruct (words_read w rest N E D v l W g n NG G ltac:(lia)) as (g' & R & G'). exists g'. rewrite R. now split.
Qed.
Lemma words_length w u qs : words_text w u qs -> (length qs <= length u)%nat.
Proof. induction 1 as [|k q g u qs I NG G W IH]; [cbn; lia|]. rewrite !app_length. cbn [length]. destruct g; [now destruct NG|cbn; lia]. Qed.

(** A parameter that is written is read with its qualifiers in their order, its name
    and its type; [n] bounds the length. *)
Theorem C73_parameters_are_read_as_written n i p rest : param_text i p -> ends_type rest -> (length i < n)%nat ->
  rparam n (i ++ rest) = PMatch p rest.
Proof.
  intros [u qs w g1 g2 t ty W N D G1 G2 T] E L. rewrite !app_length in L. cbn [length] in L. rewrite <- !app_assoc.
  assert (EN : ends_name (g1 ++ [x3a] ++ g2 ++ t ++ rest)).
  { destruct g1 as [|b g1]; [intros c r X; injection X as <- _; rewrite <- word_chars; discriminate|].
    apply (C71_gaps_end_names (b :: g1)); [discriminate|]. apply (gap_head _ _ _ G1). reflexivity. }
  pose proof (words_length _ _ _ W) as LW.
  destruct (qualifiers_read w (g1 ++ [x3a] ++ g2 ++ t ++ rest) u qs n N EN D W ltac:(lia)) as (g' & R & G').
  destruct (name_start _ N) as (b & w' & Ew & Lb). destruct (type_start _ _ T) as (c & t' & Et & Lc).
  unfold rparam, rseq at 1. rewrite R. unfold rseq at 1, rblank.
  rewrite (gap_skipped g' (w ++ g1 ++ [x3a] ++ g2 ++ t ++ rest)) by (apply (gap_head _ _ _ G'); now rewrite Ew).
  assert (B1 : blanks (w ++ g1 ++ [x3a] ++ g2 ++ t ++ rest) = w ++ g1 ++ [x3a] ++ g2 ++ t ++ rest) by (rewrite Ew; cbn [List.app]; now apply start_blanks).
  rewrite B1. unfold rseq at 1. rewrite (ident_reads _ _ N EN). unfold rseq at 1.
  rewrite (gap_skipped g1 ([x3a] ++ g2 ++ t ++ rest)) by (apply (gap_head _ _ _ G1); reflexivity).
  change ([x3a] ++ g2 ++ t ++ rest) with (x3a :: g2 ++ t ++ rest). rewrite (blank_other x3a _ eq_refl ltac:(discriminate)).
  unfold rseq at 1, rlet_type. unfold rseq at 1. change (rlit (lit ":") (x3a :: g2 ++ t ++ rest)) with (PMatch tt (g2 ++ t ++ rest)). cbv beta iota.
  unfold rseq at 1, rblank. rewrite (gap_skipped g2 (t ++ rest)) by (apply (gap_head _ _ _ G2); now rewrite Et).
  assert (B2 : blanks (t ++ rest) = t ++ rest) by (rewrite Et; cbn [List.app]; now apply start_blanks). rewrite B2.
  rewrite (C72_types_are_read_as_written n t ty rest T E ltac:(lia)). reflexivity.
Qed.
Print Assumptions C73_parameters_are_read_as_written.

(** What is read as a parameter is written so; where parameters are read, blanks and
    comments have been skipped. *)
Lemma alts_written (ws : list (list byte * qualifier)) i q j :
  ralts (map (fun x => the _ <- rkeyword (fst x); rret (snd x)) ws) i = PMatch q j -> exists k, In (k, q) ws /\ i = k ++ j /\ ends_name j.
Proof.
  induction ws as [|[k q'] ws IH]; cbn [map]; intros H; [discriminate H|].
  unfold ralts, fold_right in H. fold (@fold_right (rule qualifier) (rule qualifier)) in H. unfold ralt at 1 in H. cbn [fst snd] in H.
  unfold rseq at 1 in H. destruct (rkeyword k i) as [[] r| | |] eqn:E; try discriminate H.
  - unfold rret in H. injection H as -> ->. apply C71_keywords_are_whole_words in E. exists k. split; [now left|exact E].
  - destruct (IH H) as (k' & I & E'). exists k'. split; [now right|exact E'].
Qed.
Lemma word_written i q j : rqualifier i = PMatch q j -> exists k, In (k, q) qualifier_words /\ i = k ++ j /\ ends_name j.
Proof. exact (alts_written qualifier_words i q j). Qed.
Lemma gap_needed g i w r : name w -> ends_name i -> i = g ++ w ++ r -> g <> [].
Proof. intros N E -> ->. destruct N as (b & w' & -> & L & _). exact (E b (w' ++ r) eq_refl (or_introl L)). Qed.
Lemma not_a_word w r : ends_name r -> rqualifier (w ++ r) = PFail -> forall q, ~ In (w, q) qualifier_words.
Proof. intros E F q I. rewrite (word_reads _ _ _ I E) in F. discriminate F. Qed.
Lemma words_written n : forall i qs j w r, rmany n more_words i = PMatch qs j -> ends_name i -> rident (blanks j) = PMatch w r ->
  exists g u, i = g ++ u ++ w ++ r /\ gap g (u ++ w) /\ g <> [] /\ words_text w u qs /\ forall q, ~ In (w, q) qualifier_words.
Proof.
  induction n as [|n IH]; intros i qs j w r H E R; cbn [rmany] in H; [discriminate H|].
  destruct (blanks_split i) as (g & Eg & G). destruct (more_words i) as [q i2| | |] eqn:M; try discriminate H; unfold more_words, rseq, rblank in M.
  - destruct (rmany n more_words i2) as [l k| | |] eqn:R2; try discriminate H. injection H as <- <-.
    apply word_written in M. destruct M as (k' & I & Ek & E2). destruct (IH _ _ _ _ _ R2 E2 R) as (g2 & u & -> & G2 & N2 & W & D).
    exists g, (k' ++ g2 ++ u). pose proof (words_are_names _ _ I) as Nk. split; [rewrite Eg at 1; rewrite Ek; now rewrite <- !app_assoc|]. split.
    + apply (gap_head _ _ _ G). rewrite Ek. destruct (name_start _ Nk) as (b & k2 & -> & _). reflexivity.
    + split; [apply (gap_needed g i k' (g2 ++ u ++ w ++ r) Nk E); now rewrite <- Ek|]. split; [now apply words_more|exact D].
  - injection H as <- <-. apply C71_names_are_read_as_written in R. destruct R as (N & Ew & Er). rewrite Ew in *.
    exists g, []. cbn [List.app]. split; [exact Eg|]. split; [apply (gap_head _ _ _ G); destruct (name_start _ N) as (b & k2 & -> & _); reflexivity|].
    split; [exact (gap_needed _ _ _ _ N E Eg)|]. split; [constructor|]. exact (not_a_word _ _ Er M).
Qed.
Theorem C73_nothing_else_is_a_parameter n i p rest : (forall g r, i = g ++ r -> gap g r -> g = []) -> rparam n i = PMatch p rest ->
  exists t, param_text t p /\ i = t ++ rest.
Proof.
  intros NG. unfold rparam, rseq at 1. destruct (rqualifiers n i) as [qs j| | |] eqn:Q; try discriminate. unfold rseq at 1, rblank. unfold rseq at 1.
  destruct (rident (blanks j)) as [w j1| | |] eqn:R; try discriminate. unfold rseq at 1. unfold rseq at 1, rlet_type. unfold rseq at 1.
  destruct (rlit (lit ":") (blanks j1)) as [x j2| | |] eqn:C; try discriminate. apply rlit_inv in C. unfold rseq at 1, rblank.
  destruct (rtype n (blanks j2)) as [ty j3| | |] eqn:T; try discriminate. intros H. injection H as <- <-.
  apply C72_nothing_else_is_a_type in T. destruct T as (t & T & Et).
  destruct (blanks_split j1) as (g1 & E1 & G1). destruct (blanks_split j2) as (g2 & E2 & G2). rewrite C in E1, G1. rewrite Et in E2, G2.
  change (lit ":") with [x3a] in *.
  assert (P : exists u, i = u ++ w ++ j1 /\ words_text w u qs /\ name w /\ forall q, ~ In (w, q) qualifier_words).
  { unfold rqualifiers, rsep in Q. destruct (rqualifier i) as [q k| | |] eqn:F; try discriminate Q.
    - fold more_words in Q. destruct (rmany n more_words k) as [l k2| | |] eqn:M; try discriminate Q. injection Q as <- <-.
      apply word_written in F. destruct F as (w1 & I & -> & E). destruct (words_written _ _ _ _ _ _ M E R) as (g & u & -> & G & NE & W & D).
      exists (w1 ++ g ++ u). split; [now rewrite <- !app_assoc|]. split; [now apply words_more|].
      split; [now apply C71_names_are_read_as_written in R|exact D].
    - injection Q as <- <-. apply C71_names_are_read_as_written in R. destruct R as (N & Ew & Er). destruct (blanks_split i) as (g & Eg & G). rewrite Ew in Eg, G.
      rewrite (NG _ _ Eg G) in Eg. exists []. cbn [List.app] in *. split; [exact Eg|]. split; [constructor|]. split; [exact N|].
      rewrite Eg in F. exact (not_a_word _ _ Er F). }
  destruct P as (u & -> & W & N & D).
  exists (u ++ w ++ g1 ++ [x3a] ++ g2 ++ t). split.
  - constructor; auto; [apply (gap_head _ _ _ G1); reflexivity|apply (gap_head _ _ _ G2)]. destruct (type_start _ _ T) as (b & t' & -> & _). reflexivity.
  - rewrite E1, E2. now rewrite <- !app_assoc.
Qed.
Print Assumptions C73_nothing_else_is_a_parameter.

(** A comment or blanks in front of a whole file make no difference. *)
Theorem C71_files_may_start_with_comments fl n g i : gap g i -> rmodule fl n (g ++ i) = rmodule fl n i.
Proof. intros G. unfold rmodule. exact (C71_gaps_make_no_difference _ g [] i G (gap_none i)). Qed.
Print Assumptions C71_files_may_start_with_comments.

(** Not vacuous: two qualifiers with a comment between them; a name that only starts
    like a qualifier; a word for a qualifier is no name. *)
Example C73_nonvacuous :
  param_text (lit "opt /* c */ out outer : array<Int32>") (ParamSource [QOptional; QOut] (lit "outer") (TypeName (lit "array") (Some [TypeName (lit "Int32") None]))) /\
  rparam 40 (lit "out: Int32)") = PFail.
Proof.
  assert (R : rparam 40 (lit "opt /* c */ out outer : array<Int32>") =
    PMatch (ParamSource [QOptional; QOut] (lit "outer") (TypeName (lit "array") (Some [TypeName (lit "Int32") None]))) []) by (vm_compute; reflexivity).
  apply C73_nothing_else_is_a_parameter in R.
  - destruct R as (t & T & E). rewrite app_nil_r in E. rewrite <- E in T. split; [exact T|vm_compute; reflexivity].
  - intros g r E G. destruct g as [|b g]; [reflexivity|]. injection E as <- E'. destruct (gap_front _ _ x6f (g ++ r) G eq_refl) as [X|X]; [exact X|].
    repeat destruct X as [X|X]; try discriminate X. destruct X.
Qed.
