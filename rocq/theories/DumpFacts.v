(** Reading what is printed for definitions. *)
From Coq Require Import String.
From Coq Require Import ZArith List Bool Lia.
From Verif Require Import Bytes BytesFacts Bytecode Definitions DefinitionsFacts Bundle BundleFacts Ast TypeNames Pool Scope TypeCheck Symbols Printer Parser Decompiler Dump PrintSpec ParserFacts TextFacts PrintSteps PrintFacts P_Print Unit Grammar GrammarFacts StatementSpec StatementFacts P_Statement DumpSpec.
Import ListNotations.
Open Scope nat_scope.

(** ** Pieces in a row *)
Section Pieces.
Context {B : Type} (r : rule B) (m : nat).
Definition piece (t : str) (b : B) : Prop :=
  t <> [] /\ forall rest, length (t ++ rest) < m -> exists j, r (blanks (t ++ rest)) = PMatch b j /\ blanks j = blanks rest.
Lemma many_pieces ts bs : Forall2 piece ts bs -> forall tail i n, r (blanks tail) = PFail -> blanks i = blanks (concat ts ++ tail) ->
  length ts < n -> length (concat ts ++ tail) < m ->
  exists j, rmany n (the _ <- rblank; r) i = PMatch bs j /\ blanks j = blanks tail.
Proof.
  intros F. induction F as [|t b ts bs [_ H] F IH]; intros tail i n T Bi Hn Hm; (destruct n as [|n]; [cbn [length] in Hn; lia|]); cbn [rmany]; rewrite seq_blank, Bi.
  - cbn [concat app] in *. rewrite T. exists i. now split.
  - cbn [concat] in *. rewrite <- app_assoc in *. destruct (H (concat ts ++ tail) Hm) as (j & -> & Bj).
    destruct (IH tail j n T Bj) as (j' & -> & Bj'); [cbn [length] in Hn; lia|rewrite app_length in Hm; lia|]. now exists j'.
Qed.
Lemma pieces_count ts bs : Forall2 piece ts bs -> length ts <= length (concat ts).
Proof. intros F. induction F as [|t b ts bs [N _] F IH]; cbn [concat length]; [lia|]. rewrite app_length. destruct t; [congruence|]. cbn [length]. lia. Qed.
Lemma pieces_read ts bs tail n : Forall2 piece ts bs -> r (blanks tail) = PFail -> length (concat ts ++ tail) < m -> length (concat ts ++ tail) <= n ->
  exists j, rsep n r rblank (blanks (concat ts ++ tail)) = PMatch bs j /\ blanks j = blanks tail.
Proof.
  intros F T Hm Hn. pose proof (pieces_count ts bs F) as C. rewrite app_length in Hn.
  destruct (many_pieces ts bs F tail (concat ts ++ tail) (S n) T eq_refl ltac:(lia) Hm) as (j & Ej & Bj).
  apply sep_of_many in Ej as (j' & Ej & Bj'). exists j'. split; [exact Ej|congruence].
Qed.
End Pieces.

(** ** Qualifiers *)
Definition qualifier_text (q : qualifier) : str := lit (qualifier_word q) ++ lit " ".
Definition chosen (l : list (bool * qualifier)) : list qualifier := map snd (filter (fun x => fst x) l).
Lemma words_chosen l : words (map (fun x : bool * qualifier => (fst x, qualifier_word (snd x))) l) = concat (map qualifier_text (chosen l)).
Proof.
  unfold words, chosen. induction l as [|[b q] l IH]; [reflexivity|]. cbn [map concat filter fst snd]. rewrite IH. destruct b; reflexivity.
Qed.
Lemma chosen_exactly l : exactly (chosen l) l.
Proof.
  intros q. unfold contain, chosen. rewrite existsb_exists. split.
  - intros (q' & I & E). apply in_map_iff in I as ([b q''] & <- & I). apply filter_In in I as [I Eb]. cbn [fst snd] in *. subst b.
    replace q with q''; [exact I|]. destruct q, q''; cbn in E; congruence.
  - intros I. exists q. split; [|now destruct q]. apply in_map_iff. exists (true, q). split; [reflexivity|]. apply filter_In. now split.
Qed.
Lemma word_name q : is_name (lit (qualifier_word q)) = true. Proof. now destruct q. Qed.
Lemma word_read q rest : edge rest -> rqualifier (lit (qualifier_word q) ++ rest) = PMatch q rest.
Proof.
  intros E. unfold rqualifier, ralts, rword. cbn [fold_right].
  destruct q; cbn [qualifier_word]; unfold ralt;
    repeat (first [ erewrite seq_step; [|apply keyword_read; exact E]; reflexivity
                  | unfold rseq at 1; rewrite keyword_other; [|reflexivity|reflexivity|exact E|discriminate] ]).
Qed.
Lemma word_other w rest : is_name w = true -> is_qualifier_word w = false -> edge rest -> rqualifier (w ++ rest) = PFail.
Proof.
  intros N Q E. unfold is_qualifier_word in Q. unfold rqualifier, ralts, rword. cbn [fold_right]. unfold ralt.
  assert (D : forall q, In q all_qualifiers -> w <> lit (qualifier_word q)).
  { intros q I ->. assert (X : existsb (fun q0 => str_eqb (lit (qualifier_word q)) (lit (qualifier_word q0))) all_qualifiers = true) by (apply existsb_exists; exists q; split; [exact I|now destruct (str_eqb_spec (lit (qualifier_word q)) (lit (qualifier_word q)))]). congruence. }
  unfold all_qualifiers in D.
  repeat (unfold rseq at 1; rewrite keyword_other; [|reflexivity|exact N|exact E|]; [|match goal with |- w <> lit ?s => 
     first [apply (D QPublic); cbn; tauto|apply (D QProtected); cbn; tauto|apply (D QPrivate); cbn; tauto|apply (D QAbstract); cbn; tauto|apply (D QStatic); cbn; tauto|apply (D QFinal); cbn; tauto|apply (D QConst); cbn; tauto|apply (D QNative); cbn; tauto|apply (D QExec); cbn; tauto|apply (D QCallback); cbn; tauto|apply (D QOut); cbn; tauto|apply (D QOptional); cbn; tauto|apply (D QQuest); cbn; tauto|apply (D QImportOnly); cbn; tauto|apply (D QPersistent); cbn; tauto] end]).
  reflexivity.
Qed.
Lemma quals_pieces qs m : Forall2 (piece rqualifier m) (map qualifier_text qs) qs.
Proof.
  induction qs as [|q qs IH]; cbn [map]; constructor; [|exact IH]. split; [unfold qualifier_text; now destruct q|].
  intros rest _. unfold qualifier_text. rewrite <- app_assoc. rewrite front_blanks by (apply front_app, front_name, word_name).
  exists (lit " " ++ rest). split; [apply word_read; reflexivity|apply blanks_space].
Qed.
Lemma quals_read n qs w rest : is_name w = true -> is_qualifier_word w = false -> edge rest -> length (concat (map qualifier_text qs) ++ w ++ rest) <= n ->
  exists j, rqualifiers n (blanks (concat (map qualifier_text qs) ++ w ++ rest)) = PMatch qs j /\ blanks j = w ++ rest.
Proof.
  intros N Q E Hn. assert (Bw : blanks (w ++ rest) = w ++ rest) by (apply front_blanks, front_app, front_name, N).
  destruct (pieces_read rqualifier (S n) (map qualifier_text qs) qs (w ++ rest) n (quals_pieces qs _)) as (j & Ej & Bj); [rewrite Bw; now apply word_other|lia|exact Hn|].
  exists j. split; [exact Ej|congruence].
Qed.

(** ** Declarations *)
Section Read.
Variables (fl : float_text) (v : bool).
Lemma no_annotation n c u : c <> x40 -> rannotation fl n (c :: u) = PFail.
Proof. intros H. unfold rannotation. unfold rseq at 1. rewrite (lit_hd x40); [reflexivity|]. cbn [hd]. congruence. Qed.
Lemma no_annotations n w rest : is_name w = true -> rannotations fl n (w ++ rest) = PMatch [] (w ++ rest).
Proof.
  intros N. unfold rannotations, rsep. destruct w as [|c w]; [discriminate|]. cbn [app]. rewrite no_annotation; [reflexivity|].
  intros ->. discriminate N.
Qed.
Lemma args_annotation n name k args i rest : is_name name = true -> kind_of_name name = Some k ->
  rargs n (rexpr fl n) (lit "(" ++ i) = PMatch args rest ->
  rannotation fl n (lit "@" ++ name ++ lit "(" ++ i) = PMatch {| an_kind := k; an_args := args; an_span := span0 |} rest.
Proof.
  intros N K A. unfold rannotation. erewrite seq_step; [|apply (lit_read (lit "@"))]. erewrite seq_step; [|apply name_read; [exact N|reflexivity]].
  rewrite seq_blank. change (blanks (lit "(" ++ i)) with (lit "(" ++ i). unfold rargs in A.
  revert A. unfold rseq. destruct (rlit (lit "(") (lit "(" ++ i)) as [[] i1| | |]; try discriminate. unfold rblank.
  destruct (rsep n (rexpr fl n 0) rcomma (blanks i1)) as [l i2| | |]; try discriminate.
  destruct (rlit (lit ")") (blanks i2)) as [[] i3| | |]; try discriminate. unfold rret. intros [= <- <-]. now rewrite K.
Qed.
Lemma property_piece n depth q : plain_text (pp_name q) -> plain_text (pp_value q) ->
  piece (rannotation fl n) n (write_property "@runtimeProperty" [quote] [quote] depth q) (property_annotation q).
Proof.
  intros [U1 E1] [U2 E2]. split; [unfold write_property, spaces; destruct (repeat (byte_of_Z 32) (2 * depth)); discriminate|].
  intros rest L. unfold write_property in *. rewrite <- !app_assoc in *. unfold spaces. rewrite blanks_indent.
  exists (newline_ ++ rest). split; [|now apply blanks_skip].
  set (args := [EConstant (N := source_ast) (CString LString (pp_name q)) span0; EConstant (N := source_ast) (CString LString (pp_value q)) span0]).
  assert (S : commas (map (fun x => show fl v x None 0) args) = Some ([quote] ++ pp_name q ++ [quote] ++ lit ", " ++ [quote] ++ pp_value q ++ [quote])).
  { cbn [args map show show_constant commas cat]. unfold quoted. rewrite E1, E2, app_nil_r. cbn [app]. rewrite <- !app_assoc. reflexivity. }
  change (blanks (lit "@runtimeProperty" ++ lit "(" ++ [quote] ++ pp_name q ++ [quote] ++ lit ", " ++ [quote] ++ pp_value q ++ [quote] ++ lit ")" ++ newline_ ++ rest))
    with (lit "@" ++ lit "runtimeProperty" ++ lit "(" ++ [quote] ++ pp_name q ++ [quote] ++ lit ", " ++ [quote] ++ pp_value q ++ [quote] ++ lit ")" ++ newline_ ++ rest).
  apply args_annotation; [reflexivity|reflexivity|].
  replace (lit "(" ++ [quote] ++ pp_name q ++ [quote] ++ lit ", " ++ [quote] ++ pp_value q ++ [quote] ++ lit ")" ++ newline_ ++ rest)
    with (lit "(" ++ ([quote] ++ pp_name q ++ [quote] ++ lit ", " ++ [quote] ++ pp_value q ++ [quote]) ++ lit ")" ++ newline_ ++ rest) by now rewrite <- !app_assoc.
  assert (Ln : length (lit "(" ++ ([quote] ++ pp_name q ++ [quote] ++ lit ", " ++ [quote] ++ pp_value q ++ [quote]) ++ lit ")" ++ newline_ ++ rest) < n) by (rewrite !app_length in *; lia).
  rewrite (args_read fl v 0 args ([quote] ++ pp_name q ++ [quote] ++ lit ", " ++ [quote] ++ pp_value q ++ [quote]) (newline_ ++ rest)); try assumption; try reflexivity.
  - apply Forall_forall. intros x _. apply shown_reads.
  - cbn [args forallb levels_ok constant_ok]. now rewrite U1, U2.
Qed.
Lemma decl_read n anns qs kind name i j rest : rannotations fl n i = PMatch anns j ->
  is_name (lit kind) = true -> is_qualifier_word (lit kind) = false -> is_name name = true -> edge rest ->
  blanks j = blanks (concat (map qualifier_text qs) ++ lit kind ++ lit " " ++ name ++ rest) ->
  length (concat (map qualifier_text qs) ++ lit kind ++ lit " " ++ name ++ rest) <= n ->
  rdecl fl n kind i = PMatch (Decl anns qs name span0) rest /\
  forall other, forallb is_word_char (lit other) = true -> lit kind <> lit other -> rdecl fl n other i = PFail.
Proof.
  intros A K Q N E Bj L. destruct (quals_read n qs (lit kind) (lit " " ++ name ++ rest) K Q) as (j' & Ej & Bj'); [reflexivity|exact L|].
  split.
  - unfold rdecl. erewrite seq_step; [|exact A]. rewrite seq_blank, Bj. erewrite seq_step; [|exact Ej]. rewrite seq_blank, Bj'.
    erewrite seq_step; [|apply keyword_read; reflexivity]. rewrite seq_blank. change (lit " " ++ name ++ rest) with (x20 :: name ++ rest). rewrite blanks_space, front_blanks by now apply front_app, front_name.
    erewrite seq_step; [|now apply name_read]. reflexivity.
  - intros other O D. unfold rdecl. erewrite seq_step; [|exact A]. rewrite seq_blank, Bj. erewrite seq_step; [|exact Ej]. rewrite seq_blank, Bj'.
    unfold rseq at 1. rewrite keyword_other; try assumption; reflexivity.
Qed.
Lemma let_type_read n t rest : type_ok t = true -> type_edge rest -> length (pretty t ++ rest) < n -> rlet_type n (lit ": " ++ pretty t ++ rest) = PMatch t rest.
Proof.
  intros O E L. unfold rlet_type. change (lit ": " ++ pretty t ++ rest) with (lit ":" ++ x20 :: pretty t ++ rest). erewrite seq_step; [|apply lit_read]. rewrite seq_blank, blanks_space.
  destruct (pretty_head t O) as (b & w & P & Al). rewrite front_blanks; [now apply (type_read t O)|]. apply front_app. exists b, w. split; [exact P|]. unfold first_char. now rewrite Al.
Qed.

(** ** Parameters *)
Definition param_text (s : parameter_source) : str := concat (map qualifier_text (ps_qualifiers s)) ++ ps_name s ++ lit ": " ++ pretty (ps_type s).
Definition param_ok (s : parameter_source) : Prop := is_name (ps_name s) = true /\ is_qualifier_word (ps_name s) = false /\ type_ok (ps_type s) = true.
Lemma param_front s : param_ok s -> front (param_text s).
Proof.
  intros (N & _). unfold param_text. destruct (ps_qualifiers s) as [|q qs]; cbn [map concat app]; [apply front_app; now apply front_name|].
  apply front_app, front_app. unfold qualifier_text. apply front_app, front_name, word_name.
Qed.
Lemma param_read n s rest : param_ok s -> type_edge rest -> length (param_text s ++ rest) < n -> rparam n (param_text s ++ rest) = PMatch s rest.
Proof.
  intros P E L. pose proof (param_front s P) as F. destruct P as (N & Q & T). destruct s as [qs name t]. cbn [ps_name ps_type ps_qualifiers] in *.
  destruct (quals_read n qs name (lit ": " ++ pretty t ++ rest) N Q) as (j & Ej & Bj); [reflexivity| |].
  { unfold param_text in L. cbn [ps_name ps_type ps_qualifiers] in L. rewrite <- !app_assoc in L. lia. }
  unfold rparam. erewrite seq_step; [|].
  2:{ rewrite <- (front_blanks (param_text _ ++ rest)) by now apply front_app. unfold param_text at 1. cbn [ps_name ps_type ps_qualifiers]. rewrite <- !app_assoc. exact Ej. }
  rewrite seq_blank, Bj. erewrite seq_step; [|apply name_read; [exact N|reflexivity]]. rewrite seq_blank. change (blanks (lit ": " ++ pretty t ++ rest)) with (lit ": " ++ pretty t ++ rest).
  erewrite seq_step; [|apply let_type_read; try assumption]; [reflexivity|]. unfold param_text in L. cbn [ps_name ps_type ps_qualifiers] in L. rewrite !app_length in *. lia.
Qed.
Lemma params_many n ps rest : Forall param_ok ps -> forall k, length ps < k ->
  length (concat (map (fun s => lit ", " ++ param_text s) ps) ++ lit ")" ++ rest) < n ->
  rmany k (the _ <- rcomma; rparam n) (concat (map (fun s => lit ", " ++ param_text s) ps) ++ lit ")" ++ rest) = PMatch ps (lit ")" ++ rest).
Proof.
  intros F. induction F as [|s ps P F IH]; intros k K L; (destruct k as [|k]; [cbn [length] in K; lia|]); cbn [rmany map concat].
  - reflexivity.
  - cbn [map concat] in L. rewrite <- !app_assoc in *. unfold rseq at 1. unfold rcomma at 1. unfold rseq at 1. change (lit ", " ++ ?x) with (lit "," ++ x20 :: x). rewrite lit_read. unfold rblank at 1. rewrite blanks_space.
    rewrite front_blanks by (apply front_app; now apply param_front). rewrite param_read; [|exact P| |rewrite app_length in L; lia].
    + rewrite IH; [reflexivity|cbn [length] in K; lia|rewrite !app_length in *; lia].
    + destruct ps; split; try reflexivity; discriminate.
Qed.
Lemma join_cons (a : str) l : join (lit ", ") (a :: l) = a ++ concat (map (fun b => lit ", " ++ b) l).
Proof.
  revert a. induction l as [|b l IH]; intros a; [cbn; now rewrite app_nil_r|]. change (join (lit ", ") (a :: b :: l)) with (a ++ lit ", " ++ join (lit ", ") (b :: l)). rewrite IH. cbn [map concat]. now rewrite <- !app_assoc.
Qed.
Lemma params_read n ps rest : Forall param_ok ps -> length (join (lit ", ") (map param_text ps) ++ lit ")" ++ rest) < n ->
  blanks (join (lit ", ") (map param_text ps) ++ lit ")" ++ rest) = join (lit ", ") (map param_text ps) ++ lit ")" ++ rest /\
  rsep n (rparam n) rcomma (join (lit ", ") (map param_text ps) ++ lit ")" ++ rest) = PMatch ps (lit ")" ++ rest).
Proof.
  intros F L. destruct F as [|s ps P F].
  - split; [reflexivity|]. cbn [map join app]. unfold rsep. assert (X : rparam n (lit ")" ++ rest) = PFail); [|now rewrite X].
    unfold rparam, rqualifiers. unfold rseq at 1. unfold rsep. reflexivity.
  - cbn [map] in *. rewrite join_cons, map_map in *. rewrite <- app_assoc in *. split; [apply front_blanks, front_app; now apply param_front|].
    unfold rsep. rewrite param_read; [|exact P| |exact L].
    + rewrite params_many; [reflexivity|exact F| |rewrite app_length in L; lia].
      assert (C : length ps <= length (concat (map (fun s => lit ", " ++ param_text s) ps))).
      { clear. induction ps as [|s ps IH]; cbn [map concat length]; [lia|]. rewrite !app_length. change (length (lit ", ")) with 2. lia. }
      rewrite !app_length in L. lia.
    + destruct ps; split; try reflexivity; discriminate.
Qed.

(** ** Functions *)
Definition spaced (depth : nat) (t : str) : str := newline_ ++ spaces depth ++ t.
Lemma spaced_blanks depth t rest : front t -> blanks (spaced depth t ++ rest) = t ++ rest.
Proof.
  intros F. unfold spaced, newline_, spaces. rewrite <- !app_assoc. change ([byte_of_Z 10] ++ ?x) with (byte_of_Z 10 :: x). rewrite blanks_skip by reflexivity. rewrite blanks_indent. apply front_blanks. now apply front_app.
Qed.
Definition function_head (qs : list qualifier) (name : str) (ps : list parameter_source) (t : typename) : str :=
  concat (map qualifier_text qs) ++ lit "func" ++ lit " " ++ name ++ lit "(" ++ join (lit ", ") (map param_text ps) ++ lit ") -> " ++ pretty t.
(** The text [tb] after the return type stands for the body [b]. *)
Definition body_part (n : nat) (tb : str) (b : option (list sexpr)) : Prop :=
  match b with
  | None => tb = lit ";"
  | Some es => exists tb', tb = lit " " ++ lit "{" ++ tb' /\ forall rest, length (lit "{" ++ tb' ++ rest) < n -> rfunction_body fl n (lit "{" ++ tb' ++ rest) = PMatch es rest
  end.
Lemma quals_front qs w : is_name w = true -> front (concat (map qualifier_text qs) ++ w).
Proof. intros N. destruct qs as [|q qs]; cbn [map concat app]; [now apply front_name|]. apply front_app, front_app. unfold qualifier_text. apply front_app, front_name, word_name. Qed.
Lemma front_word c u : front (c :: u) -> c <> x40.
Proof. intros (b & w & E & F) ->. injection E as <- <-. discriminate F. Qed.
Lemma plain_annotations n i : front i -> rannotations fl n i = PMatch [] i.
Proof. intros F. destruct i as [|c u]; [destruct F as (? & ? & C & _); discriminate|]. unfold rannotations, rsep. rewrite no_annotation; [reflexivity|]. now apply front_word in F. Qed.
Lemma decl_plain n qs kind name rest : is_name (lit kind) = true -> is_qualifier_word (lit kind) = false -> is_name name = true -> edge rest ->
  length (concat (map qualifier_text qs) ++ lit kind ++ lit " " ++ name ++ rest) <= n ->
  rdecl fl n kind (concat (map qualifier_text qs) ++ lit kind ++ lit " " ++ name ++ rest) = PMatch (Decl [] qs name span0) rest /\
  forall other, forallb is_word_char (lit other) = true -> lit kind <> lit other -> rdecl fl n other (concat (map qualifier_text qs) ++ lit kind ++ lit " " ++ name ++ rest) = PFail.
Proof.
  intros K Q N E L. eapply decl_read; try eassumption; [|reflexivity]. apply plain_annotations. rewrite app_assoc. apply front_app. now apply quals_front.
Qed.
Lemma function_read n qs name ps t tb b rest : is_name name = true -> Forall param_ok ps -> type_ok t = true -> body_part n tb b ->
  length (function_head qs name ps t ++ tb ++ newline_ ++ rest) < n ->
  rfunction fl n (function_head qs name ps t ++ tb ++ newline_ ++ rest) = PMatch (FunctionSource (Decl [] qs name span0) (Some t) ps b span0) (newline_ ++ rest).
Proof.
  intros N P T Bp L. unfold function_head in *. rewrite <- !app_assoc in *. unfold rfunction.
  destruct (decl_plain n qs "func" name (lit "(" ++ join (lit ", ") (map param_text ps) ++ lit ") -> " ++ pretty t ++ tb ++ newline_ ++ rest)) as [D _]; try reflexivity; [exact N|lia|].
  erewrite seq_step; [|exact D]. clear D. rewrite seq_blank. change (blanks (lit "(" ++ ?x)) with (lit "(" ++ x). erewrite seq_step; [|apply lit_read]. rewrite seq_blank.
  change (lit ") -> " ++ ?x) with (lit ")" ++ x20 :: lit "->" ++ x20 :: x) in *.
  destruct (params_read n ps (x20 :: lit "->" ++ x20 :: pretty t ++ tb ++ newline_ ++ rest) P) as [Bps Rps]; [rewrite !app_length in *; cbn [length] in *; rewrite ?app_length in *; lia|].
  rewrite Bps. erewrite seq_step; [|exact Rps]. rewrite seq_blank. change (blanks (lit ")" ++ ?x)) with (lit ")" ++ x). erewrite seq_step; [|apply lit_read]. rewrite seq_blank, blanks_space.
  change (blanks (lit "->" ++ ?x)) with (lit "->" ++ x).
  assert (Et : type_edge (tb ++ newline_ ++ rest)). { destruct b as [es|]; [destruct Bp as (tb' & -> & _)|cbn [body_part] in Bp; subst tb]; split; try reflexivity; discriminate. }
  assert (Rt : ropt (rfunc_type n) (lit "->" ++ x20 :: pretty t ++ tb ++ newline_ ++ rest) = PMatch (Some t) (tb ++ newline_ ++ rest)).
  { unfold ropt, rfunc_type. erewrite seq_step; [|apply lit_read]. rewrite seq_blank, blanks_space. destruct (pretty_head t T) as (c & w & Pt & Al).
    rewrite front_blanks by (apply front_app; exists c, w; split; [exact Pt|unfold first_char; now rewrite Al]). rewrite (type_read t T); [reflexivity| |exact Et].
    rewrite !app_length in *. cbn [length] in L. rewrite !app_length in L. cbn [length] in L. rewrite !app_length in L. lia. }
  erewrite seq_step; [|exact Rt]. rewrite seq_blank. destruct b as [es|]; cbn [body_part] in Bp.
  - destruct Bp as (tb' & -> & Bp). rewrite <- !app_assoc. change (lit " " ++ ?x) with (x20 :: x). rewrite blanks_space. change (blanks (lit "{" ++ ?x)) with (lit "{" ++ x).
    assert (Rb : ropt (rfunction_body fl n) (lit "{" ++ tb' ++ newline_ ++ rest) = PMatch (Some es) (newline_ ++ rest)).
    { unfold ropt. rewrite Bp; [reflexivity|]. rewrite !app_length in *. cbn [length] in L. rewrite !app_length in L. cbn [length] in L. rewrite !app_length in L. change (length (lit " ")) with 1 in L. lia. }
    erewrite seq_step; [|exact Rb]. reflexivity.
  - subst tb. reflexivity.
Qed.

(** ** Fields *)
Definition field_text (depth : nat) (attrs : list property) (qs : list qualifier) (name : str) (t : typename) : str :=
  newline_ ++ concat (map (write_property "@runtimeProperty" [quote] [quote] depth) attrs) ++ spaces depth ++
  concat (map qualifier_text qs) ++ lit "let" ++ lit " " ++ name ++ lit ": " ++ pretty t ++ lit ";" ++ newline_.
Lemma field_decl n depth attrs qs name rest : Forall (fun q => plain_text (pp_name q) /\ plain_text (pp_value q)) attrs -> is_name name = true -> edge rest ->
  length (concat (map (write_property "@runtimeProperty" [quote] [quote] depth) attrs) ++ spaces depth ++ concat (map qualifier_text qs) ++ lit "let" ++ lit " " ++ name ++ rest) < n ->
  forall i, i = blanks (newline_ ++ concat (map (write_property "@runtimeProperty" [quote] [quote] depth) attrs) ++ spaces depth ++ concat (map qualifier_text qs) ++ lit "let" ++ lit " " ++ name ++ rest) ->
  rdecl fl n "let" i = PMatch (Decl (map property_annotation attrs) qs name span0) rest /\ rdecl fl n "func" i = PFail.
Proof.
  intros A N E L i ->. change (newline_ ++ ?x) with (byte_of_Z 10 :: x). rewrite blanks_skip by reflexivity.
  set (tail := spaces depth ++ concat (map qualifier_text qs) ++ lit "let" ++ lit " " ++ name ++ rest) in *.
  assert (Bt : blanks tail = concat (map qualifier_text qs) ++ lit "let" ++ lit " " ++ name ++ rest).
  { unfold tail, spaces. rewrite blanks_indent. apply front_blanks. rewrite app_assoc. apply front_app. now apply quals_front. }
  destruct (pieces_read (rannotation fl n) n (map (write_property "@runtimeProperty" [quote] [quote] depth) attrs) (map property_annotation attrs) tail n) as (j & Ej & Bj).
  - clear - A v. induction A as [|q attrs [H1 H2] A IH]; cbn [map]; [constructor|]. constructor; [now apply property_piece|exact IH].
  - rewrite Bt. assert (F : front (concat (map qualifier_text qs) ++ lit "let" ++ lit " " ++ name ++ rest)) by (rewrite app_assoc; apply front_app; now apply quals_front).
    destruct (concat (map qualifier_text qs) ++ lit "let" ++ lit " " ++ name ++ rest) as [|c u]; [destruct F as (? & ? & C & _); discriminate|]. apply no_annotation. now apply front_word in F.
  - exact L.
  - lia.
  - destruct (decl_read n (map property_annotation attrs) qs "let" name (blanks (concat (map (write_property "@runtimeProperty" [quote] [quote] depth) attrs) ++ tail)) j rest) as [D D'];
      try reflexivity; try assumption.
    + rewrite Bj, Bt. symmetry. apply front_blanks. rewrite app_assoc. apply front_app. now apply quals_front.
    + unfold tail in L. rewrite !app_length in *. lia.
    + split; [exact D|]. apply D'; [reflexivity|discriminate].
Qed.
Lemma field_piece n depth attrs qs name t : Forall (fun q => plain_text (pp_name q) /\ plain_text (pp_value q)) attrs -> is_name name = true -> type_ok t = true ->
  piece (rmember fl n) n (field_text depth attrs qs name t) (MemberField (FieldSource (Decl (map property_annotation attrs) qs name span0) t None)).
Proof.
  intros A N T. split; [discriminate|]. intros rest L. unfold field_text in *. rewrite <- !app_assoc in *.
  destruct (field_decl n depth attrs qs name (lit ": " ++ pretty t ++ lit ";" ++ newline_ ++ rest) A N) with (i := blanks (newline_ ++ concat (map (write_property "@runtimeProperty" [quote] [quote] depth) attrs) ++ spaces depth ++ concat (map qualifier_text qs) ++ lit "let" ++ lit " " ++ name ++ lit ": " ++ pretty t ++ lit ";" ++ newline_ ++ rest)) as [D D'].
  - reflexivity.
  - rewrite app_length in L. cbn [length newline_] in L. lia.
  - reflexivity.
  - exists (newline_ ++ rest). split; [|now apply blanks_skip]. unfold rmember, ralt. unfold rseq at 1, rfunction. unfold rseq at 1. rewrite D'.
    unfold rseq at 1, rfield. erewrite seq_step; [|exact D]. rewrite seq_blank. change (blanks (lit ": " ++ ?x)) with (lit ": " ++ x).
    erewrite seq_step; [|apply let_type_read; [exact T|split; [reflexivity|discriminate]|rewrite !app_length in *; lia]]. reflexivity.
Qed.
Lemma function_front qs name ps t : front (function_head qs name ps t).
Proof. unfold function_head. rewrite app_assoc. apply front_app. now apply quals_front. Qed.
Lemma function_piece {A} (r : rule A) k n depth qs name ps t tb b : is_name name = true -> Forall param_ok ps -> type_ok t = true -> body_part n tb b ->
  (forall i f j, rfunction fl n i = PMatch f j -> r i = PMatch (k f) j) ->
  piece r n (spaced depth (function_head qs name ps t ++ tb ++ newline_)) (k (FunctionSource (Decl [] qs name span0) (Some t) ps b span0)).
Proof.
  intros N P T Bp R. split; [discriminate|]. intros rest L.
  assert (F : front (function_head qs name ps t ++ tb ++ newline_)) by apply front_app, function_front.
  rewrite spaced_blanks by exact F. exists (newline_ ++ rest). split; [|now apply blanks_skip]. rewrite <- !app_assoc. apply R. apply function_read; try assumption.
  unfold spaced in L. rewrite <- !app_assoc in L. rewrite !app_length in *. lia.
Qed.

(** ** Classes *)
Lemma members_end n tail : rmember fl n (lit "}" ++ tail) = PFail.
Proof. unfold rmember, ralt, rfunction, rfield, rdecl. unfold rannotations, rsep at 1. unfold rseq at 1 2 3. reflexivity. Qed.
Lemma members_read n ts ms rest : Forall2 (piece (rmember fl n) n) ts ms -> length (lit "{" ++ newline_ ++ concat ts ++ lit "}" ++ rest) < n ->
  rmembers fl n (lit "{" ++ newline_ ++ concat ts ++ lit "}" ++ rest) = PMatch ms rest.
Proof.
  intros F L. unfold rmembers. erewrite seq_step; [|apply lit_read]. rewrite seq_blank. change (newline_ ++ ?x) with (byte_of_Z 10 :: x) in *. rewrite blanks_skip by reflexivity.
  rewrite app_length in L. cbn [length] in L.
  destruct (pieces_read (rmember fl n) n ts ms (lit "}" ++ rest) n F) as (j & Ej & Bj); [apply members_end|lia|lia|].
  erewrite seq_step; [|exact Ej]. rewrite seq_blank, Bj. change (blanks (lit "}" ++ rest)) with (lit "}" ++ rest). erewrite seq_step; [|apply lit_read]. reflexivity.
Qed.
Definition class_head (is_struct : bool) (qs : list qualifier) (name : str) (base : option str) : str :=
  concat (map qualifier_text qs) ++ lit (if is_struct then "struct" else "class") ++ lit " " ++ name ++ lit " " ++
  match base with Some b => lit "extends " ++ b ++ lit " " | None => [] end.
Definition class_text (is_struct : bool) (qs : list qualifier) (name : str) (base : option str) (ts : list str) : str :=
  spaced 0 (class_head is_struct qs name base ++ lit "{" ++ newline_ ++ concat ts ++ lit "}" ++ newline_).
Lemma class_piece n is_struct qs name base ts ms : is_name name = true -> match base with Some b => is_name b = true /\ is_struct = false | None => True end ->
  Forall2 (piece (rmember fl n) n) ts ms ->
  piece (rentry fl n) n (class_text is_struct qs name base ts) (EntryClass is_struct (ClassSource (Decl [] qs name span0) base ms span0)).
Proof.
  intros N Bs F. split; [discriminate|]. intros rest L. unfold class_text in *.
  assert (Fr : front (class_head is_struct qs name base)) by (unfold class_head; rewrite app_assoc; apply front_app, quals_front; now destruct is_struct).
  rewrite spaced_blanks by now apply front_app. exists (newline_ ++ rest). split; [|now apply blanks_skip].
  unfold spaced in L. rewrite <- !app_assoc in *.
  assert (Lc : length (class_head is_struct qs name base ++ lit "{" ++ newline_ ++ concat ts ++ lit "}" ++ newline_ ++ rest) < n) by (rewrite !app_length in *; lia). clear L.
  unfold class_head in *. rewrite <- !app_assoc in *.
  set (tail := lit "{" ++ newline_ ++ concat ts ++ lit "}" ++ newline_ ++ rest) in *.
  assert (Lt : length tail < n) by (rewrite !app_length in *; lia).
  assert (M : rmembers fl n tail = PMatch ms (newline_ ++ rest)) by (apply members_read; [exact F|exact Lt]).
  destruct (decl_plain n qs (if is_struct then "struct" else "class") name (lit " " ++ match base with Some b => lit "extends " ++ b ++ lit " " | None => [] end ++ tail)) as [D D'].
  - now destruct is_struct.
  - now destruct is_struct.
  - exact N.
  - reflexivity.
  - rewrite !app_length in *. lia.
  - destruct is_struct.
    + destruct base as [b|]; [destruct Bs; discriminate|]. unfold rentry, ralts. cbn [fold_right]. unfold ralt. unfold rseq at 1, rfunction. unfold rseq at 1. rewrite D' by (reflexivity || discriminate).
      unfold rseq at 1, rclass. unfold rseq at 1. rewrite D' by (reflexivity || discriminate). unfold rseq at 1, rstruct. erewrite seq_step; [|exact D]. rewrite seq_blank.
      change (blanks (lit " " ++ [] ++ tail)) with tail. erewrite seq_step; [|exact M]. reflexivity.
    + unfold rentry, ralts. cbn [fold_right]. unfold ralt. unfold rseq at 1, rfunction. unfold rseq at 1. rewrite D' by (reflexivity || discriminate).
      unfold rseq at 1, rclass. erewrite seq_step; [|exact D]. rewrite seq_blank. destruct base as [b|].
      * destruct Bs as [Nb _]. change (blanks (lit " " ++ (lit "extends " ++ b ++ lit " ") ++ tail)) with (blanks (lit "extends" ++ x20 :: (b ++ lit " ") ++ tail)).
        rewrite front_blanks by (apply front_app; now apply front_name). rewrite <- app_assoc.
        assert (X : ropt rextends (lit "extends" ++ x20 :: b ++ lit " " ++ tail) = PMatch (Some b) (lit " " ++ tail)).
        { unfold ropt, rextends. erewrite seq_step; [|now apply keyword_read]. rewrite seq_blank, blanks_space. rewrite front_blanks by (apply front_app; now apply front_name). now rewrite name_read. }
        erewrite seq_step; [|exact X]. rewrite seq_blank. change (blanks (lit " " ++ tail)) with tail. erewrite seq_step; [|exact M]. reflexivity.
      * change (blanks (lit " " ++ [] ++ tail)) with tail. assert (X : ropt rextends tail = PMatch None tail) by reflexivity.
        erewrite seq_step; [|exact X]. rewrite seq_blank. change (blanks tail) with tail. erewrite seq_step; [|exact M]. reflexivity.
Qed.

(** ** Enums *)
Lemma int_read z rest : (- 2 ^ 31 <= z < 2 ^ 31)%Z -> number_edge rest -> rnumber fl (show_int z ++ rest) = PMatch (CI32 z) rest.
Proof.
  intros R E. destruct (Z.ltb_spec z 0) as [Neg|Pos].
  - assert (Ed : edge rest) by (destruct rest; [exact I|exact (proj1 E)]).
    assert (Sz : show_int z = x2d :: show_nat (- z)) by (unfold show_int; now replace (z <? 0)%Z with true by lia). rewrite Sz. cbn [app]. unfold rnumber.
    change (Byte.eqb x2d x2d) with true. cbv iota. cbn beta iota. rewrite show_nat_span.
    2:{ destruct rest as [|b rest]; [exact I|]. destruct E as [E1 E2]. unfold is_word_char in E1. apply orb_false_elim in E1 as [E1 _]. now split. }
    pose proof (show_nat_some (- z)) as S. pose proof (show_nat_digits (- z)) as D. pose proof (show_nat_read (- z) ltac:(lia)) as N. pose proof (show_nat_no_dot (- z)) as Dot.
    destruct (show_nat (- z)) as [|b s]; [congruence|].
    assert (U : ropt (rlit (lit "u")) rest = PMatch None rest) by (unfold ropt; change (lit "u") with [x75]; now rewrite lit_edge).
    assert (P : ropt (ralt (the _ <- rlit (lit "l"); rret true) (the _ <- rlit (lit "d"); rret false)) rest = PMatch None rest).
    { unfold ropt, ralt, rseq. change (lit "l") with [x6c]. change (lit "d") with [x64]. rewrite !lit_edge by (reflexivity || assumption). reflexivity. }
    erewrite seq_step; [|exact U]. erewrite seq_step; [|exact P]. cbn [app existsb]. change (in_range 46 46 x2d) with false. cbn [orb existsb] in *. rewrite Dot.
    unfold of_option, read_i32, read_int. change (Byte.eqb x2d x2d) with true. cbv iota. rewrite N. cbn [option_map]. rewrite Z.opp_involutive.
    now replace ((- 2 ^ 31 <=? z) && (z <? 2 ^ 31))%Z with true by lia.
  - apply (number_read fl (CI32 z)); [cbn [constant_ok]; lia|exact I|exact E].
Qed.
Definition member_core (m : str * Z) : str := fst m ++ lit " = " ++ show_int (snd m).
Definition member_text (m : str * Z) : str := spaces 1 ++ member_core m ++ lit "," ++ newline_.
Definition member_ok (m : str * Z) : Prop := is_name (fst m) = true /\ (- 2 ^ 31 <= snd m < 2 ^ 31)%Z.
Lemma member_read m rest : member_ok m -> renum_member fl (member_core m ++ lit "," ++ rest) = PMatch m (lit "," ++ rest).
Proof.
  destruct m as [name z]. unfold member_core. cbn [fst snd]. intros [N Z]. cbn [fst snd] in *. rewrite <- !app_assoc. unfold renum_member.
  erewrite seq_step; [|apply name_read; [exact N|reflexivity]]. rewrite seq_blank. change (blanks (lit " = " ++ ?x)) with (lit "=" ++ x20 :: x). erewrite seq_step; [|apply lit_read]. rewrite seq_blank, blanks_space.
  assert (F : blanks (show_int z ++ lit "," ++ rest) = show_int z ++ lit "," ++ rest).
  { destruct (Z.ltb_spec z 0) as [Neg|Pos]; [|now apply front_blanks, front_int]. unfold show_int. replace (z <? 0)%Z with true by lia. reflexivity. }
  rewrite F. erewrite seq_step; [|apply int_read; [exact Z|split; [reflexivity|discriminate]]]. reflexivity.
Qed.
Lemma core_front m : member_ok m -> front (member_core m).
Proof. intros [N _]. unfold member_core. apply front_app. now apply front_name. Qed.
Lemma members_many ms rest : Forall member_ok ms -> forall k, length ms < k ->
  rmany k (the _ <- rcomma; renum_member fl) (lit "," ++ newline_ ++ concat (map member_text ms) ++ lit "}" ++ rest) = PMatch ms (lit "," ++ newline_ ++ lit "}" ++ rest).
Proof.
  intros F. induction F as [|m ms M F IH]; intros k K; (destruct k as [|k]; [cbn [length] in K; lia|]); cbn [rmany map concat].
  - reflexivity.
  - unfold rseq at 1. unfold rcomma at 1. unfold rseq at 1. rewrite lit_read. unfold rblank at 1. change (newline_ ++ ?x) with (byte_of_Z 10 :: x). rewrite blanks_skip by reflexivity.
    unfold member_text at 1. rewrite <- !app_assoc. unfold spaces. rewrite blanks_indent. rewrite front_blanks by (apply front_app; now apply core_front).
    rewrite member_read by exact M. rewrite (IH k) by (cbn [length] in K; lia). reflexivity.
Qed.
Definition enum_text (name : str) (ms : list (str * Z)) : str :=
  newline_ ++ (lit "enum " ++ name ++ lit " {" ++ newline_) ++ concat (map member_text ms) ++ lit "}" ++ newline_.
Lemma enum_piece n name ms : is_name name = true -> Forall member_ok ms ->
  piece (rentry fl n) n (enum_text name ms) (EntryEnum (EnumSource (Decl [] [] name span0) ms span0)).
Proof.
  intros N F. split; [discriminate|]. intros rest L. unfold enum_text in *. rewrite <- !app_assoc in *. change (newline_ ++ ?x) with (byte_of_Z 10 :: x) in *. rewrite blanks_skip by reflexivity.
  exists (byte_of_Z 10 :: rest). split; [|now apply blanks_skip].
  set (tail := lit "{" ++ byte_of_Z 10 :: concat (map member_text ms) ++ lit "}" ++ byte_of_Z 10 :: rest).
  destruct (decl_plain n [] "enum" name (lit " " ++ tail)) as [D D']; try reflexivity; [exact N| |].
  { change (length (lit "enum" ++ lit " " ++ name ++ lit " " ++ tail) <= n).
    change (S (length (lit "enum" ++ lit " " ++ name ++ lit " " ++ tail)) < n) in L. lia. }
  change (blanks (lit "enum " ++ ?x)) with (concat (map qualifier_text []) ++ lit "enum" ++ lit " " ++ x). change (lit " {" ++ ?x) with (lit " " ++ lit "{" ++ x). fold tail.
  unfold rentry, ralts. cbn [fold_right]. unfold ralt. unfold rseq at 1, rfunction. unfold rseq at 1. rewrite D' by (reflexivity || discriminate).
  unfold rseq at 1, rclass. unfold rseq at 1. rewrite D' by (reflexivity || discriminate). unfold rseq at 1, rstruct. unfold rseq at 1. rewrite D' by (reflexivity || discriminate).
  unfold rseq at 1, rfield. unfold rseq at 1. rewrite D' by (reflexivity || discriminate). unfold rseq at 1, renum. erewrite seq_step; [|exact D]. rewrite seq_blank.
  change (blanks (lit " " ++ tail)) with tail. unfold tail. erewrite seq_step; [|apply lit_read]. rewrite seq_blank, blanks_skip by reflexivity. destruct F as [|m ms M F]; [reflexivity|].
  assert (C : length ms < n).
  { assert (C : length ms <= length (concat (map member_text ms))). { clear. induction ms as [|x ms IH]; cbn [map concat length]; [lia|]. rewrite app_length. unfold member_text at 1. rewrite !app_length. change (length (lit ",")) with 1. lia. }
    cbn [map concat] in L. rewrite ?app_length in L. cbn [length] in L. rewrite ?app_length in L. cbn [length] in L. rewrite ?app_length in L. lia. }
  cbn [map concat]. unfold member_text at 1. rewrite <- !app_assoc. unfold spaces at 1. rewrite blanks_indent. rewrite front_blanks by (apply front_app; now apply core_front).
  assert (R : rsep n (renum_member fl) rcomma (member_core m ++ lit "," ++ newline_ ++ concat (map member_text ms) ++ lit "}" ++ byte_of_Z 10 :: rest) = PMatch (m :: ms) (lit "," ++ newline_ ++ lit "}" ++ byte_of_Z 10 :: rest)).
  { unfold rsep. rewrite member_read by exact M. now rewrite (members_many ms (byte_of_Z 10 :: rest) F n C). }
  erewrite seq_step; [|exact R]. reflexivity.
Qed.

(** ** Modules *)
Lemma entry_end n : rentry fl n [] = PFail.
Proof. reflexivity. Qed.
(** The text starts with a word of the kind. *)
Definition starts_with (P : str -> Prop) (t : str) : Prop := exists w, P w /\ is_name w = true /\ forall rest, exists u, blanks (t ++ rest) = w ++ u /\ edge u.
Lemma module_read ts es : (forall n, Forall2 (piece (rentry fl n) n) ts es) ->
  Forall (starts_with (fun w => w <> lit "module" /\ w <> lit "import")) ts ->
  parse_module fl (concat ts) = PMatch (SourceModule None [] es) [].
Proof.
  intros F W. unfold parse_module, rmodule. rewrite seq_blank. set (n := S (length (concat ts))).
  assert (Hd : ropt (rmodule_path n) (blanks (concat ts)) = PMatch None (blanks (concat ts)) /\ rsep n (rimport fl n) rblank (blanks (concat ts)) = PMatch [] (blanks (concat ts))).
  { destruct W as [|t ts' (w & [W1 W2] & N & Bt) W]; [split; reflexivity|]. cbn [concat]. destruct (Bt (concat ts')) as (u & -> & Eu).
    split.
    - unfold ropt, rmodule_path. unfold rseq at 1. rewrite keyword_other; try assumption; reflexivity.
    - unfold rsep. assert (X : rimport_head fl n (w ++ u) = PFail); [|unfold rimport, ralts; cbn [fold_right]; unfold ralt, rseq; now rewrite X].
      unfold rimport_head. erewrite seq_step; [|now apply no_annotations]. rewrite seq_blank. rewrite front_blanks by (apply front_app; now apply front_name). unfold rseq at 1. rewrite keyword_other; try assumption; reflexivity. }
  destruct Hd as [H1 H2]. erewrite seq_step; [|exact H1]. rewrite seq_blank, blanks_idem. erewrite seq_step; [|exact H2]. rewrite seq_blank, blanks_idem.
  destruct (pieces_read (rentry fl n) n ts es [] n (F n)) as (j & Ej & Bj); [reflexivity|rewrite app_nil_r; unfold n; lia..|]. rewrite app_nil_r in Ej.
  erewrite seq_step; [|exact Ej]. rewrite seq_blank, Bj. reflexivity.
Qed.
End Read.
