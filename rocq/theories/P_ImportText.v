(** C74: imports are read as they are written. *)
From Coq Require Import String.
From Coq Require Import ZArith List Bool Lia.
From Verif Require Import Bytes BytesFacts Bytecode Definitions DefinitionsFacts Bundle Ast TypeNames Pool Scope TypeCheck Symbols Printer Parser PrintSpec ParserFacts ParserSafe TextFacts
  TextLiteralSpec TextLiteralFacts GapSpec GapFacts P_Gap TypeTextSpec P_TypeText Unit Grammar ParamTextSpec P_ParamText ImportTextSpec.
Import ListNotations.

Definition mark_then (c : byte) : rule Datatypes.unit := the _ <- rlit [c]; rblank.
Definition next_name (c : byte) : rule str := the _ <- mark_then c; rident.
Lemma names_start c u ws : names_text c u ws -> exists b u', u = b :: u' /\ letter b.
Proof. intros [w N|w g v l N _ _]; destruct (name_start _ N) as (b & w' & -> & L); cbn [List.app]; eauto. Qed.
Lemma mark_reads c i : rlit [c] (c :: i) = PMatch tt i.
Proof. unfold rlit. cbn [strip]. destruct (byte_eqb_spec c c) as [_|X]; [reflexivity|now destruct X]. Qed.
Lemma ends_mark c i : is_word_char c = false -> ends_name (c :: i).
Proof. intros W b r E. injection E as <- <-. rewrite <- word_chars. congruence. Qed.
Lemma names_read c u ws : is_word_char c = false -> names_text c u ws -> forall n rest, (length u < n)%nat -> ends_name rest -> next_name c rest = PFail ->
  rsep n rident (mark_then c) (u ++ rest) = PMatch ws rest.
Proof.
  intros C. induction 1 as [w N|w g u ws N G U IH]; intros n rest L E F.
  - unfold rsep. rewrite (ident_reads _ _ N E). fold (next_name c). destruct n as [|n]; [lia|]. cbn [rmany]. now rewrite F.
  - rewrite !app_length in L. cbn [length] in L. rewrite <- !app_assoc. unfold rsep. rewrite (ident_reads w ([c] ++ g ++ u ++ rest) N (ends_mark c _ C)). fold (next_name c).
    destruct n as [|n]; [lia|]. cbn [rmany]. destruct (names_start _ _ _ U) as (b & u' & Eu & Lb).
    assert (X : next_name c ([c] ++ g ++ u ++ rest) = rident (u ++ rest)).
    { unfold next_name, mark_then, rseq. cbn [List.app]. rewrite mark_reads. unfold rblank.
      rewrite (gap_skipped g (u ++ rest)) by (apply (gap_head _ _ _ G); now rewrite Eu).
      assert (B : blanks (u ++ rest) = u ++ rest) by (rewrite Eu; cbn [List.app]; now apply start_blanks). now rewrite B. }
    rewrite X. specialize (IH n rest ltac:(lia) E F). unfold rsep in IH. fold (next_name c) in IH.
    destruct (rident (u ++ rest)) as [w2 j| | |]; try discriminate IH; [|inversion U; subst; discriminate IH].
    destruct (rmany n (next_name c) j) as [l k| | |]; try discriminate IH. injection IH as <- ->. reflexivity.
Qed.
(** Where no name follows the mark, and where there is no mark. *)
Lemma no_mark c i : (forall r, i <> c :: r) -> next_name c i = PFail.
Proof.
  intros N. unfold next_name, mark_then, rseq, rlit. destruct i as [|b i]; [reflexivity|]. cbn [strip].
  destruct (byte_eqb_spec c b) as [<-|_]; [now destruct (N i)|reflexivity].
Qed.
Lemma gap_no_mark c g x i : In c [x2e; x2c] -> gap g [x] -> x <> c -> forall r, g ++ x :: i <> c :: r.
Proof.
  intros I G N r E. destruct g as [|b g]; [now injection E|]. destruct (gap_front _ _ b (g ++ [x]) G eq_refl) as [X|X]; [discriminate X|].
  injection E as -> _. destruct I as [<-|[<-|[]]]; repeat (destruct X as [X|X]; [discriminate X|]); destruct X.
Qed.
Lemma mark_no_name c g x i : gap g [x] -> is_alpha x = false -> is_blank x = false -> x <> x2f -> next_name c ([c] ++ g ++ x :: i) = PFail.
Proof.
  intros G A B S. unfold next_name, mark_then, rseq. cbn [List.app]. rewrite mark_reads. unfold rblank.
  rewrite (gap_skipped g (x :: i)) by (apply (gap_head _ _ _ G); reflexivity). rewrite (blank_other x i B S). unfold rident. now rewrite A.
Qed.
Lemma gap_ends g x i : gap g [x] -> is_word_char x = false -> ends_name (g ++ x :: i).
Proof.
  intros G W. destruct g as [|b g]; [now apply ends_mark|]. apply C71_gaps_end_names; [discriminate|]. apply (gap_head _ _ _ G). reflexivity.
Qed.

(** What is in braces is read, up to a gap before the closing brace. *)
Lemma braced_reads n body ws rest : braced_text body ws -> (length body < n)%nat ->
  exists k, rsep n rident rcomma (blanks (body ++ [x7d] ++ rest)) = PMatch ws k /\ blanks k = x7d :: rest.
Proof.
  assert (Z : forall g, gap g [x7d] -> blanks (g ++ [x7d] ++ rest) = x7d :: rest).
  { intros g G. rewrite (gap_skipped g ([x7d] ++ rest)) by (apply (gap_head _ _ _ G); reflexivity). now apply (blank_other x7d). }
  intros [g G|g names l g' G W G'] L.
  - exists (x7d :: rest). rewrite (Z g G). split; [reflexivity|]. now apply (blank_other x7d).
  - rewrite !app_length in L. exists (g' ++ [x7d] ++ rest). split; [|now apply Z]. rewrite <- !app_assoc. destruct (names_start _ _ _ W) as (b & n' & En & Lb).
    rewrite (gap_skipped g (names ++ g' ++ [x7d] ++ rest)) by (apply (gap_head _ _ _ G); now rewrite En).
    assert (B : blanks (names ++ g' ++ [x7d] ++ rest) = names ++ g' ++ [x7d] ++ rest) by (rewrite En; cbn [List.app]; now apply start_blanks).
    rewrite B. change rcomma with (mark_then x2c). apply names_read; [reflexivity|exact W|lia|now apply gap_ends|].
    apply no_mark. apply gap_no_mark; [cbn; tauto|exact G'|discriminate].
Qed.

Section Reading.
Variable fl : float_text.
Lemma head_reads n g path parts rest : g <> [] -> gap g path -> names_text x2e path parts -> (length path < n)%nat -> ends_name rest -> next_name x2e rest = PFail ->
  rimport_head fl n (lit "import" ++ g ++ path ++ rest) = PMatch ([], parts) rest.
Proof.
  intros NG G P L E F. unfold rimport_head, rseq at 1. destruct n as [|n]; [lia|].
  replace (rannotations fl (S n) (lit "import" ++ g ++ path ++ rest)) with (PMatch (@nil annotation) (lit "import" ++ g ++ path ++ rest)) by reflexivity.
  unfold rseq at 1, rblank. replace (blanks (lit "import" ++ g ++ path ++ rest)) with (lit "import" ++ g ++ path ++ rest) by (symmetry; now apply (blank_other x69)).
  destruct (names_start _ _ _ P) as (b & p' & Ep & Lb).
  assert (Gr : gap g (path ++ rest)) by (apply (gap_head _ _ _ G); now rewrite Ep).
  assert (K : rkeyword (lit "import") (lit "import" ++ g ++ path ++ rest) = PMatch tt (g ++ path ++ rest)).
  { apply C71_keywords_are_whole_words. split; [reflexivity|]. now apply C71_gaps_end_names. }
  unfold rseq at 1. rewrite K. unfold rseq at 1. rewrite (gap_skipped _ _ Gr).
  assert (B : blanks (path ++ rest) = path ++ rest) by (rewrite Ep; cbn [List.app]; now apply start_blanks). rewrite B.
  unfold rseq, rpath. change rdot with (mark_then x2e). now rewrite (names_read x2e path parts eq_refl P (S n) rest L E F).
Qed.

(** An import that is written is read as that import, without annotations; [n]
    bounds the length. *)
Theorem C74_imports_are_read_as_written n i imp rest : import_text i imp -> ends_import rest -> (length i < n)%nat ->
  rimport fl n (i ++ rest) = PMatch (imp, []) rest.
Proof.
  intros T (E & Dot) L. unfold rimport, ralts, fold_right.
  destruct T as [g path parts NG G P|g path parts g1 g2 NG G P G1 G2|g path parts g1 g2 body ws NG G P G1 G2 W];
    rewrite !app_length in L; cbn [length] in L; rewrite <- !app_assoc.
  - destruct (blanks_split rest) as (h & Eh & H). pose proof (Dot _ _ Eh H) as D1.
    assert (D0 : forall r, rest <> x2e :: r) by (intros r X; exact (Dot [] rest eq_refl (gap_none _) r X)).
    pose proof (head_reads n g path parts rest NG G P ltac:(lia) E (no_mark _ _ D0)) as R.
    assert (Z : rlit (lit ".") (blanks rest) = PFail).
    { unfold rlit. destruct (blanks rest) as [|b r]; [reflexivity|]. change (strip (lit ".") (b :: r)) with (if Byte.eqb x2e b then strip [] r else None).
      destruct (byte_eqb_spec x2e b) as [<-|_]; [now destruct (D1 r)|reflexivity]. }
    unfold ralt, rseq, rblank. rewrite R, Z. reflexivity.
  - assert (NF : next_name x2e (g1 ++ [x2e] ++ g2 ++ [x2a] ++ rest) = PFail).
    { destruct g1 as [|b g1]; [now apply (mark_no_name x2e g2 x2a rest)|]. apply no_mark. intros r X.
      destruct (gap_front _ _ b (g1 ++ [x2e]) G1 eq_refl) as [Y|Y]; [discriminate Y|]. injection X as -> _.
      repeat (destruct Y as [Y|Y]; [discriminate Y|]). destruct Y. }
    pose proof (head_reads n g path parts _ NG G P ltac:(lia) (gap_ends g1 x2e (g2 ++ [x2a] ++ rest) G1 eq_refl) NF) as R.
    change (x2e :: g2 ++ [x2a] ++ rest) with ([x2e] ++ g2 ++ [x2a] ++ rest) in R.
    unfold ralt, rseq, rblank. rewrite R. rewrite (gap_skipped g1 ([x2e] ++ g2 ++ [x2a] ++ rest)) by (apply (gap_head _ _ _ G1); reflexivity).
    cbn [List.app]. rewrite (blank_other x2e _ eq_refl ltac:(discriminate)). change (lit ".") with [x2e]. rewrite mark_reads.
    rewrite (gap_skipped g2 (x2a :: rest)) by (apply (gap_head _ _ _ G2); reflexivity). rewrite (blank_other x2a _ eq_refl ltac:(discriminate)).
    change (lit "*") with [x2a]. rewrite mark_reads. reflexivity.
  - assert (NF : next_name x2e (g1 ++ [x2e] ++ g2 ++ [x7b] ++ body ++ [x7d] ++ rest) = PFail).
    { destruct g1 as [|b g1]; [now apply (mark_no_name x2e g2 x7b (body ++ [x7d] ++ rest))|]. apply no_mark. intros r X.
      destruct (gap_front _ _ b (g1 ++ [x2e]) G1 eq_refl) as [Y|Y]; [discriminate Y|]. injection X as -> _.
      repeat (destruct Y as [Y|Y]; [discriminate Y|]). destruct Y. }
    pose proof (head_reads n g path parts _ NG G P ltac:(lia) (gap_ends g1 x2e (g2 ++ [x7b] ++ body ++ [x7d] ++ rest) G1 eq_refl) NF) as R.
    change (x2e :: g2 ++ [x7b] ++ body ++ [x7d] ++ rest) with ([x2e] ++ g2 ++ [x7b] ++ body ++ [x7d] ++ rest) in R.
    destruct (braced_reads n body ws rest W ltac:(lia)) as (k & NW & CL). unfold rseq, rblank in NW.
    unfold ralt, rseq, rblank. rewrite R. rewrite (gap_skipped g1 ([x2e] ++ g2 ++ [x7b] ++ body ++ [x7d] ++ rest)) by (apply (gap_head _ _ _ G1); reflexivity).
    change ([x2e] ++ g2 ++ [x7b] ++ body ++ [x7d] ++ rest) with (x2e :: g2 ++ x7b :: body ++ [x7d] ++ rest).
    rewrite (blank_other x2e _ eq_refl ltac:(discriminate)). change (lit ".") with [x2e]. rewrite mark_reads.
    rewrite (gap_skipped g2 (x7b :: body ++ [x7d] ++ rest)) by (apply (gap_head _ _ _ G2); reflexivity). rewrite (blank_other x7b _ eq_refl ltac:(discriminate)).
    change (rlit (lit "*") (x7b :: body ++ [x7d] ++ rest)) with (@PFail Datatypes.unit). cbv beta iota.
    change (lit "{") with [x7b]. rewrite mark_reads. rewrite NW, CL. change (lit "}") with [x7d]. rewrite mark_reads. reflexivity.
Qed.
End Reading.
Print Assumptions C74_imports_are_read_as_written.

(** So is the name of a module. *)
Theorem C74_module_names_are_read_as_written n g path parts rest : g <> [] -> gap g path -> names_text x2e path parts -> ends_import rest -> (length path < n)%nat ->
  rmodule_path n (lit "module" ++ g ++ path ++ rest) = PMatch parts rest.
Proof.
  intros NG G P (E & Dot) L. destruct (names_start _ _ _ P) as (b & p' & Ep & Lb).
  assert (Gr : gap g (path ++ rest)) by (apply (gap_head _ _ _ G); now rewrite Ep).
  assert (K : rkeyword (lit "module") (lit "module" ++ g ++ path ++ rest) = PMatch tt (g ++ path ++ rest)).
  { apply C71_keywords_are_whole_words. split; [reflexivity|]. now apply C71_gaps_end_names. }
  assert (B : blanks (path ++ rest) = path ++ rest) by (rewrite Ep; cbn [List.app]; now apply start_blanks).
  unfold rmodule_path, rseq at 1. rewrite K. unfold rseq, rblank. rewrite (gap_skipped _ _ Gr), B. unfold rpath. change rdot with (mark_then x2e).
  apply names_read; [reflexivity|exact P|exact L|exact E|]. apply no_mark. intros r X. exact (Dot [] rest eq_refl (gap_none _) r X).
Qed.
Print Assumptions C74_module_names_are_read_as_written.

(** No text is the writing of two imports. *)
Theorem C74_one_meaning i imp imp' : import_text i imp -> import_text i imp' -> imp = imp'.
Proof.
  intros T T'. assert (E : ends_import []).
  { split; [intros b r X; discriminate X|]. intros g r X _ r' ->. now destruct g. }
  pose proof (C74_imports_are_read_as_written (FloatText (fun _ => []) (fun _ => []) (fun _ => None) (fun _ => None)) _ _ _ _ T E (Nat.lt_succ_diag_r _)) as A.
  pose proof (C74_imports_are_read_as_written (FloatText (fun _ => []) (fun _ => []) (fun _ => None) (fun _ => None)) _ _ _ _ T' E (Nat.lt_succ_diag_r _)) as B. rewrite A in B. now injection B.
Qed.
Print Assumptions C74_one_meaning.

(** Not vacuous: names in braces after a path of two names, with a line feed in the
    braces. *)
Lemma name_by_reading w : rident w = PMatch w [] -> name w.
Proof. intros R. now apply C71_names_are_read_as_written in R. Qed.
Example C74_nonvacuous : import_text (lit "import Codeware.UI.{ inkText,
inkFlex}") (ISelected [lit "Codeware"; lit "UI"] [lit "inkText"; lit "inkFlex"] (Span 0 0)).
Proof.
  assert (S : forall b r, In b [x20; x0a; x0d; x09] -> gap [b] r) by (intros; apply gap_blank; [assumption|apply gap_none]).
  refine (import_selected [x20] (lit "Codeware.UI") _ [] [] ([x20] ++ (lit "inkText," ++ [x0a] ++ lit "inkFlex") ++ []) _ _ _ _ _ _ (braced_some _ _ _ _ _ _ _)); try apply gap_none; try discriminate.
  - apply S. cbn. tauto.
  - refine (names_more x2e (lit "Codeware") [] (lit "UI") _ _ (gap_none _) (names_one _ _ _)); apply name_by_reading; reflexivity.
  - apply S. cbn. tauto.
  - refine (names_more x2c (lit "inkText") [x0a] (lit "inkFlex") _ _ _ (names_one _ _ _)); [apply name_by_reading; reflexivity| |apply name_by_reading; reflexivity].
    apply S. cbn. tauto.
Qed.
