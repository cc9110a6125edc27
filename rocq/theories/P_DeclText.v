(** C76: fields and functions without a body are read as they are written. *)
From Coq Require Import String.
From Coq Require Import ZArith List Bool Lia.
From Verif Require Import Bytes BytesFacts Bytecode Definitions DefinitionsFacts Bundle Ast TypeNames Pool Scope TypeCheck Symbols Printer Parser PrintSpec ParserFacts ParserSafe TextFacts
  TextLiteralSpec TextLiteralFacts GapSpec GapFacts P_Gap TypeTextSpec P_TypeText Unit Grammar ParamTextSpec P_ParamText ImportTextSpec P_ImportText EnumTextSpec P_EnumText DeclTextSpec.
Import ListNotations.

Lemma gap_ends_type g x i : gap g [x] -> is_word_char x = false -> x <> x3c -> ends_type (g ++ x :: i).
Proof.
  intros G W N. split; [now apply gap_ends|]. intros r E. destruct g as [|b g]; [now injection E|].
  destruct (gap_front _ _ b (g ++ [x]) G eq_refl) as [X|X]; [discriminate X|]. injection E as -> _. repeat (destruct X as [X|X]; [discriminate X|]). destruct X.
Qed.
Lemma param_start t p : param_text t p -> exists b r, t = b :: r /\ letter b.
Proof.
  intros [u qs w g1 g2 v ty W N _ _ _ _]. destruct (words_start _ _ _ N W) as (b & i & E & L). rewrite app_assoc, E. cbn [List.app]. eauto.
Qed.
Lemma params_start t ps : params_text t ps -> exists b r, t = b :: r /\ letter b.
Proof. intros [u p P|u p g v l P _ _]; destruct (param_start _ _ P) as (b & r & -> & L); cbn [List.app]; eauto. Qed.
Definition next_param (n : nat) : rule parameter_source := the _ <- rcomma; rparam n.
Lemma params_read k t ps : params_text t ps -> forall n rest, (length t < n)%nat -> (length t < k)%nat -> ends_type rest -> (forall r, rest <> x2c :: r) ->
  rsep n (rparam k) rcomma (t ++ rest) = PMatch ps rest.
Proof.
  induction 1 as [t p P|t p g u ps P G U IH]; intros n rest L LK E F; unfold rsep; fold (next_param k).
  - rewrite (C73_parameters_are_read_as_written k t p rest P E LK). destruct n as [|n]; [lia|]. cbn [rmany].
    assert (X : next_param k rest = PFail).
    { unfold next_param. change rcomma with (mark_then x2c). unfold mark_then, rseq, rlit. destruct rest as [|b r]; [reflexivity|]. cbn [strip].
      destruct (byte_eqb_spec x2c b) as [<-|_]; [now destruct (F r)|reflexivity]. }
    now rewrite X.
  - rewrite !app_length in L, LK. cbn [length] in L, LK. rewrite <- !app_assoc.
    rewrite (C73_parameters_are_read_as_written k t p ([x2c] ++ g ++ u ++ rest) P (gap_ends_type [] x2c _ (gap_none _) eq_refl ltac:(discriminate)) ltac:(lia)).
    destruct n as [|n]; [lia|]. cbn [rmany]. destruct (params_start _ _ U) as (b & u' & Eu & Lb).
    assert (X : next_param k ([x2c] ++ g ++ u ++ rest) = rparam k (u ++ rest)).
    { unfold next_param. change rcomma with (mark_then x2c). unfold mark_then, rseq. cbn [List.app]. rewrite mark_reads. unfold rblank.
      rewrite (gap_skipped g (u ++ rest)) by (apply (gap_head _ _ _ G); now rewrite Eu).
      assert (B : blanks (u ++ rest) = u ++ rest) by (rewrite Eu; cbn [List.app]; now apply start_blanks). now rewrite B. }
    rewrite X. specialize (IH n rest ltac:(lia) ltac:(lia) E F). unfold rsep in IH. fold (next_param k) in IH.
    destruct (rparam k (u ++ rest)) as [w2 j| | |]; try discriminate IH; [|inversion U; subst; discriminate IH].
    destruct (rmany n (next_param k) j) as [l m| | |]; try discriminate IH. injection IH as <- ->. reflexivity.
Qed.
Lemma parentheses_read n ps l rest : in_parentheses ps l -> (length ps < n)%nat ->
  exists k, rsep n (rparam n) rcomma (blanks (ps ++ [x29] ++ rest)) = PMatch l k /\ blanks k = x29 :: rest.
Proof.
  intros [g G|g t ps' g' G P G'] L.
  - exists (x29 :: rest). rewrite (after_gap g x29 rest G eq_refl ltac:(discriminate) : blanks (g ++ [x29] ++ rest) = _).
    split; [|now apply (blank_other x29)]. unfold rsep. assert (X : rparam n (x29 :: rest) = PFail) by reflexivity. now rewrite X.
  - rewrite !app_length in L. exists (g' ++ [x29] ++ rest). split; [|now apply (after_gap g' x29 rest G')]. rewrite <- !app_assoc. destruct (params_start _ _ P) as (b & t' & Et & Lb).
    rewrite (gap_skipped g (t ++ g' ++ [x29] ++ rest)) by (apply (gap_head _ _ _ G); now rewrite Et).
    assert (B : blanks (t ++ g' ++ [x29] ++ rest) = t ++ g' ++ [x29] ++ rest) by (rewrite Et; cbn [List.app]; now apply start_blanks).
    rewrite B. apply params_read; [exact P|lia|lia|now apply gap_ends_type|]. apply (gap_no_mark x2c g' x29 rest); [cbn; tauto|exact G'|discriminate].
Qed.

Section Reading.
Variable fl : float_text.
Lemma decl_reads n kind i d rest : name (lit kind) -> (forall q, ~ In (lit kind, q) qualifier_words) -> decl_text (lit kind) i d -> ends_name rest -> (length i < n)%nat ->
  rdecl fl n kind (i ++ rest) = PMatch d rest.
Proof.
  intros NE DE [u qs g w U NG G N] E L. rewrite !app_length in L. rewrite <- !app_assoc.
  destruct (name_start _ N) as (bw & w' & Ew & Lw). destruct (name_start _ NE) as (bk & k' & Ek & Lk).
  assert (Gw : gap g (w ++ rest)) by (apply (gap_head _ _ _ G); now rewrite Ew).
  assert (EK : ends_name (g ++ w ++ rest)) by now apply C71_gaps_end_names.
  pose proof (words_length _ _ _ U) as LQ.
  destruct (qualifiers_read (lit kind) (g ++ w ++ rest) u qs n NE EK DE U ltac:(lia)) as (g' & Q & Gq).
  destruct (words_start _ _ _ NE U) as (b & v & Eb & Lb).
  assert (Ei : u ++ lit kind ++ g ++ w ++ rest = b :: v ++ g ++ w ++ rest) by (rewrite app_assoc, Eb; reflexivity).
  unfold rdecl. unfold rseq at 1. rewrite Ei, (no_annotations _ _ _ _ Lb). unfold rseq at 1, rblank at 1. rewrite (start_blanks _ _ Lb), <- Ei.
  unfold rseq at 1. rewrite Q. unfold rseq at 1, rblank at 1.
  rewrite (gap_skipped g' (lit kind ++ g ++ w ++ rest)) by (apply (gap_head _ _ _ Gq); now rewrite Ek).
  assert (B0 : blanks (lit kind ++ g ++ w ++ rest) = lit kind ++ g ++ w ++ rest) by (rewrite Ek; cbn [List.app]; now apply start_blanks). rewrite B0.
  assert (K : rkeyword (lit kind) (lit kind ++ g ++ w ++ rest) = PMatch tt (g ++ w ++ rest)) by (apply C71_keywords_are_whole_words; now split).
  unfold rseq at 1. rewrite K. unfold rseq, rblank. rewrite (gap_skipped _ _ Gw).
  assert (B : blanks (w ++ rest) = w ++ rest) by (rewrite Ew; cbn [List.app]; now apply start_blanks). rewrite B.
  now rewrite (ident_reads w rest N E).
Qed.

(** A field that is written without a value is read with its qualifiers, name and
    type; [n] bounds the length. *)
Theorem C76_fields_are_read_as_written n i f rest : field_text i f -> (length i < n)%nat -> rfield fl n (i ++ rest) = PMatch f rest.
Proof.
  intros [j d g g1 t ty g2 D G G1 T G2] L. rewrite !app_length in L. rewrite <- !app_assoc.
  assert (N : name (lit "let")) by (apply name_by_reading; reflexivity).
  assert (DE : forall q, ~ In (lit "let", q) qualifier_words) by (intros q X; repeat (destruct X as [X|X]; [discriminate X|]); destruct X).
  destruct (type_start _ _ T) as (c & t' & Et & Lc). unfold rfield. unfold rseq at 1.
  rewrite (decl_reads n "let" j d (g ++ [x3a] ++ g1 ++ t ++ g2 ++ [x3b] ++ rest) N DE D (gap_ends g x3a (g1 ++ t ++ g2 ++ [x3b] ++ rest) G eq_refl) ltac:(lia)).
  unfold rseq at 1, rblank at 1.
  rewrite (after_gap g x3a (g1 ++ t ++ g2 ++ [x3b] ++ rest) G eq_refl ltac:(discriminate) : blanks (g ++ [x3a] ++ g1 ++ t ++ g2 ++ [x3b] ++ rest) = _).
  assert (RT : rlet_type n (x3a :: g1 ++ t ++ g2 ++ [x3b] ++ rest) = PMatch ty (g2 ++ [x3b] ++ rest)).
  { unfold rlet_type. change (lit ":") with [x3a]. unfold rseq. rewrite mark_reads. unfold rblank.
    rewrite (gap_skipped g1 (t ++ g2 ++ [x3b] ++ rest)) by (apply (gap_head _ _ _ G1); now rewrite Et).
    assert (B : blanks (t ++ g2 ++ [x3b] ++ rest) = t ++ g2 ++ [x3b] ++ rest) by (rewrite Et; cbn [List.app]; now apply start_blanks). rewrite B.
    apply C72_types_are_read_as_written; [exact T|now apply gap_ends_type|lia]. }
  unfold rseq at 1. rewrite RT. unfold rseq at 1, rblank at 1. rewrite (after_gap g2 x3b rest G2 eq_refl ltac:(discriminate) : blanks (g2 ++ [x3b] ++ rest) = _).
  unfold rseq at 1. replace (ropt (rinitializer fl n) (x3b :: rest)) with (PMatch (@None sexpr) (x3b :: rest)) by reflexivity.
  unfold rseq, rblank. rewrite (blank_other x3b rest eq_refl ltac:(discriminate)). change (lit ";") with [x3b]. now rewrite mark_reads.
Qed.

(** So is a function without a body, with its parameters in their order and the type
    it returns. *)
Theorem C76_signatures_are_read_as_written n i f rest : signature_text i f -> (length i < n)%nat -> rfunction fl n (i ++ rest) = PMatch f rest.
Proof.
  intros [j d g ps l g1 r ty g2 D G P G1 R G2] L. rewrite !app_length in L. cbn [length] in L. rewrite <- !app_assoc.
  assert (N : name (lit "func")) by (apply name_by_reading; reflexivity).
  assert (DE : forall q, ~ In (lit "func", q) qualifier_words) by (intros q X; repeat (destruct X as [X|X]; [discriminate X|]); destruct X).
  set (r1 := g1 ++ r ++ g2 ++ [x3b] ++ rest). unfold rfunction. unfold rseq at 1.
  rewrite (decl_reads n "func" j d (g ++ [x28] ++ ps ++ [x29] ++ r1) N DE D (gap_ends g x28 (ps ++ [x29] ++ r1) G eq_refl) ltac:(lia)).
  unfold rseq at 1, rblank at 1. rewrite (after_gap g x28 (ps ++ [x29] ++ r1) G eq_refl ltac:(discriminate) : blanks (g ++ [x28] ++ ps ++ [x29] ++ r1) = _).
  unfold rseq at 1. change (lit "(") with [x28]. rewrite mark_reads. unfold rseq at 1, rblank at 1.
  destruct (parentheses_read n ps l r1 P ltac:(lia)) as (k & K1 & K2). unfold rseq at 1. rewrite K1. unfold rseq at 1, rblank at 1. rewrite K2.
  unfold rseq at 1. change (lit ")") with [x29]. rewrite mark_reads. unfold rseq at 1, rblank at 1.
  assert (RT : exists k', ropt (rfunc_type n) (blanks r1) = PMatch ty k' /\ blanks k' = x3b :: rest).
  { unfold r1. destruct R as [|h t ty' H T].
    - change (blanks (g1 ++ [] ++ g2 ++ [x3b] ++ rest)) with (blanks (g1 ++ g2 ++ [x3b] ++ rest)). rewrite (gap_skipped g1 (g2 ++ [x3b] ++ rest)) by (apply (gap_head _ _ _ G1); now destruct g2).
      change ([x3b] ++ rest) with (x3b :: rest). rewrite (after_gap g2 x3b rest G2 eq_refl ltac:(discriminate)).
      exists (x3b :: rest). split; [reflexivity|]. now apply (blank_other x3b).
    - rewrite !app_length in L. exists (g2 ++ [x3b] ++ rest). split; [|now apply (after_gap g2 x3b rest G2)]. rewrite <- !app_assoc.
      rewrite (gap_skipped g1 (lit "->" ++ h ++ t ++ g2 ++ [x3b] ++ rest)) by (apply (gap_head _ _ _ G1); reflexivity).
      assert (B0 : blanks (lit "->" ++ h ++ t ++ g2 ++ [x3b] ++ rest) = lit "->" ++ h ++ t ++ g2 ++ [x3b] ++ rest) by now apply (blank_other x2d).
      rewrite B0. unfold ropt, rfunc_type, rseq.
      assert (A : rlit (lit "->") (lit "->" ++ h ++ t ++ g2 ++ [x3b] ++ rest) = PMatch tt (h ++ t ++ g2 ++ [x3b] ++ rest)) by reflexivity. rewrite A. unfold rblank.
      destruct (type_start _ _ T) as (c & t' & Et & Lc).
      rewrite (gap_skipped h (t ++ g2 ++ [x3b] ++ rest)) by (apply (gap_head _ _ _ H); now rewrite Et).
      assert (B : blanks (t ++ g2 ++ [x3b] ++ rest) = t ++ g2 ++ [x3b] ++ rest) by (rewrite Et; cbn [List.app]; now apply start_blanks). rewrite B.
      rewrite (C72_types_are_read_as_written n t ty' (g2 ++ [x3b] ++ rest) T); [reflexivity|now apply gap_ends_type|lia]. }
  destruct RT as (k' & R1 & R2). unfold rseq at 1. rewrite R1. unfold rseq at 1, rblank at 1. rewrite R2.
  unfold rseq at 1. replace (ropt (rfunction_body fl n) (x3b :: rest)) with (PMatch (@None (list sexpr)) (x3b :: rest)) by reflexivity.
  unfold rseq, rsemi, rseq, ropt. change (lit ";") with [x3b]. now rewrite mark_reads.
Qed.
End Reading.
Print Assumptions C76_fields_are_read_as_written.
Print Assumptions C76_signatures_are_read_as_written.

(** No text is the writing of two fields, or of two functions. *)
Theorem C76_one_meaning : (forall i f f', field_text i f -> field_text i f' -> f = f') /\ (forall i f f', signature_text i f -> signature_text i f' -> f = f').
Proof.
  set (fl := FloatText (fun _ => []) (fun _ => []) (fun _ => None) (fun _ => None)). split; intros i f f' T T'.
  - pose proof (C76_fields_are_read_as_written fl _ _ _ [] T (Nat.lt_succ_diag_r _)) as A.
    pose proof (C76_fields_are_read_as_written fl _ _ _ [] T' (Nat.lt_succ_diag_r _)) as B. rewrite A in B. now injection B.
  - pose proof (C76_signatures_are_read_as_written fl _ _ _ [] T (Nat.lt_succ_diag_r _)) as A.
    pose proof (C76_signatures_are_read_as_written fl _ _ _ [] T' (Nat.lt_succ_diag_r _)) as B. rewrite A in B. now injection B.
Qed.
Print Assumptions C76_one_meaning.

(** Not vacuous: a native function with two parameters, one with a qualifier, that
    returns a type with an argument; a private field. *)
Example C76_nonvacuous :
  signature_text (lit "native func Find(out a: Int32, b: Bool) -> array<Int32>;")
    (FunctionSource (Decl [] [QNative] (lit "Find") (Span 0 0)) (Some (TypeName (lit "array") (Some [TypeName (lit "Int32") None])))
       [ParamSource [QOut] (lit "a") (TypeName (lit "Int32") None); ParamSource [] (lit "b") (TypeName (lit "Bool") None)] None (Span 0 0)) /\
  field_text (lit "private let m_x: Bool;") (FieldSource (Decl [] [QPrivate] (lit "m_x") (Span 0 0)) (TypeName (lit "Bool") None) None).
Proof.
  assert (S : forall r, gap [x20] r) by (intros; apply gap_blank; [cbn; tauto|apply gap_none]).
  assert (Ty : forall t ty, rtype 40 t = PMatch ty [] -> type_text t ty).
  { intros t ty R. apply C72_nothing_else_is_a_type in R. destruct R as (u & U & E). rewrite app_nil_r in E. now subst u. }
  assert (TB : type_text (lit "Bool") (TypeName (lit "Bool") None)) by (apply Ty; reflexivity).
  assert (TI : type_text (lit "Int32") (TypeName (lit "Int32") None)) by (apply Ty; reflexivity).
  assert (TA : type_text (lit "array<Int32>") (TypeName (lit "array") (Some [TypeName (lit "Int32") None]))) by (apply Ty; reflexivity).
  assert (NQ : forall w, In w [lit "a"; lit "b"] -> forall q, ~ In (w, q) qualifier_words).
  { intros w [<-|[<-|[]]] q X; repeat (destruct X as [X|X]; [discriminate X|]); destruct X. }
  split.
  - refine (signature_of (lit "native func Find") _ [] (lit "out a: Int32, b: Bool") _ [x20] (lit "-> array<Int32>") _ [] _ (gap_none _) _ (S _) (some_result [x20] _ _ (S _) TA) (gap_none _)).
    + refine (decl_of _ (lit "native ") _ [x20] (lit "Find") (words_more _ (lit "native") QNative [x20] [] [] _ _ (S _) (words_none _)) _ (S _) _);
        [cbn; tauto|discriminate|discriminate|apply name_by_reading; reflexivity].
    + refine (some_params [] (lit "out a: Int32, b: Bool") _ [] (gap_none _) _ (gap_none _)).
      refine (params_more (lit "out a: Int32") _ [x20] (lit "b: Bool") _ _ (S _) (params_one _ _ _)).
      * refine (param_of (lit "out ") _ (lit "a") [] [x20] _ _ (words_more _ (lit "out") QOut [x20] [] [] _ _ (S _) (words_none _)) _ _ (gap_none _) (S _) TI);
          [cbn; tauto|discriminate|apply name_by_reading; reflexivity|apply NQ; cbn; tauto].
      * refine (param_of [] _ (lit "b") [] [x20] _ _ (words_none _) _ _ (gap_none _) (S _) TB); [apply name_by_reading; reflexivity|apply NQ; cbn; tauto].
  - refine (field_of (lit "private let m_x") _ [] [x20] (lit "Bool") _ [] _ (gap_none _) (S _) TB (gap_none _)).
    refine (decl_of _ (lit "private ") _ [x20] (lit "m_x") (words_more _ (lit "private") QPrivate [x20] [] [] _ _ (S _) (words_none _)) _ (S _) _);
      [cbn; tauto|discriminate|discriminate|apply name_by_reading; reflexivity].
Qed.
