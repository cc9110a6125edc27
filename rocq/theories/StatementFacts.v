(** The text of a body is read as [said_all] says. *)
From Coq Require Import String.
From Coq Require Import ZArith List Bool Lia.
From Verif Require Import Bytes BytesFacts Definitions DefinitionsFacts Bundle BundleFacts Ast TypeNames Pool Scope TypeCheck Symbols Printer Parser PrintSpec ParserFacts TextFacts PrintSteps PrintFacts P_Print Unit Grammar GrammarFacts StatementSpec.
Import ListNotations.
Open Scope nat_scope.

Lemma edge_app u rest : edge u -> u <> [] -> edge (u ++ rest).
Proof. destruct u; [congruence|]. auto. Qed.
Lemma blanks_skip b i : is_blank b = true -> blanks (b :: i) = blanks i.
Proof. intros H. unfold blanks at 1. cbn [length blanks_n blank_step]. now rewrite H. Qed.
Lemma blanks_indent d i : blanks (repeat (byte_of_Z 32) d ++ i) = blanks i.
Proof. induction d as [|d IH]; [reflexivity|]. cbn [repeat app]. now rewrite blanks_skip. Qed.
Lemma blanks_newline i : blanks (x0a :: i) = blanks i. Proof. now apply blanks_skip. Qed.

Section Facts.
Variables (fl : float_text) (v : bool).
Notation ok := (levels_ok v false).
Notation den := (denoted v None None).
Notation text_head := (text_head v).

(** How texts start. *)
Definition begins (h : head) (t : str) : Prop :=
  match h with
  | HWord w => is_name w = true /\ exists u, t = w ++ u /\ forall rest, edge rest -> edge (u ++ rest)
  | HMark b => exists c u, t = c :: u /\ is_alpha c = false /\ (b = digit 0 /\ is_digit c = true \/ c = b)
  end.
Lemma begins_app h t u : begins h t -> edge u -> u <> [] -> begins h (t ++ u).
Proof.
  destruct h as [w|b]; cbn [begins].
  - intros (N & x & -> & E) U U'. split; [assumption|]. exists (x ++ u). split; [now rewrite app_assoc|]. intros rest R. rewrite <- app_assoc. apply E. now apply edge_app.
  - intros (c & x & -> & A & B) _ _. exists c, (x ++ u). now split.
Qed.
Lemma begins_word w : is_name w = true -> begins (HWord w) w.
Proof. intros H. split; [assumption|]. exists []. split; [now rewrite app_nil_r|auto]. Qed.
Lemma int_digit z : (0 <= z)%Z -> exists c u, show_int z = c :: u /\ is_digit c = true.
Proof.
  intros H. unfold show_int. replace (z <? 0)%Z with false by lia. pose proof (show_nat_some z) as S. pose proof (show_nat_digits z) as D.
  destruct (show_nat z) as [|b w]; [congruence|]. exists b, w. split; [reflexivity|]. cbn [forallb] in D. now apply andb_prop in D as [D _].
Qed.
Lemma digit_alpha c : is_digit c = true -> is_alpha c = false.
Proof. destruct c; try discriminate; reflexivity. Qed.
Lemma begins_constant c sp : constant_ok c = true -> begins (text_head None (EConstant (N := source_ast) c sp)) (show_constant fl c).
Proof.
  assert (Z : forall z s, (0 <= z)%Z -> begins (HMark (digit 0)) (show_int z ++ s)).
  { intros z s H. destruct (int_digit z H) as (c' & u & -> & D). exists c', (u ++ s). split; [reflexivity|]. split; [now apply digit_alpha|]. now left. }
  destruct c as [[]|z|z|z|z|z|z|[]]; cbn [constant_ok show_constant StatementSpec.text_head]; try discriminate; intros H.
  - eexists _, _. split; [reflexivity|]. split; [reflexivity|]. now right.
  - split; [reflexivity|]. eexists. split; [reflexivity|]. now intros.
  - split; [reflexivity|]. eexists. split; [reflexivity|]. now intros.
  - split; [reflexivity|]. eexists. split; [reflexivity|]. now intros.
  - rewrite <- (app_nil_r (show_int z)). apply Z. lia.
  - apply Z. lia.
  - apply Z. lia.
  - now apply begins_word.
  - now apply begins_word.
Qed.
Lemma begins_show e : ok e = true -> forall parent d t, show fl v e parent d = Some t -> begins (text_head parent e) t.
Proof.
  assert (Op : forall o (l r : str), edge (lit " " ++ format_binop o ++ lit " " ++ r) /\ lit " " ++ format_binop o ++ lit " " ++ r <> []) by (intros o l r; split; [reflexivity|discriminate]).
  induction e as [n sp|c sp|es t sp IH|p parts sp IH|l t i sp IH|t x sp IH|l r sp IH1 IH2|c ts args sp IH|o f args sp IH1 IH2|x m sp IH|a i sp IH1 IH2|t args sp IH|x sp IH|es IH|x cases d sp IH1 IH2 IH3|t sp|c t f sp IH1 IH2 IH3|c a b sp IH1 IH2 IH3|c b sp IH1 IH2|l x b sp IH1 IH2|l r o sp IH1 IH2|x o sp IH|sp|sp|sp|sp] using expr_ind';
    cbn [levels_ok]; try discriminate; intros O parent dep txt H; cbn [show] in H.
  - uncat. unand. now apply begins_word.
  - uncat. now apply (begins_constant c sp).
  - unand. cbn [StatementSpec.text_head]. destruct parent; uncat.
    + eexists _, _. split; [reflexivity|]. split; [reflexivity|]. now right.
    + apply begins_app; [eauto|reflexivity|discriminate].
  - unand. uncat. apply begins_app; [eauto|reflexivity|discriminate].
  - cbn [StatementSpec.text_head]. destruct (binop_of_name (short_name c)) as [o|] eqn:Eo.
    + destruct args as [|l [|r [|]]]; try discriminate. unand. inversion_clear IH as [|? ? Hl Hr]. destruct (needs_parens o parent); uncat.
      * eexists _, _. split; [reflexivity|]. split; [reflexivity|]. now right.
      * apply begins_app; [eauto|reflexivity|discriminate].
    + destruct (unop_of_name (short_name c)) as [o|] eqn:Eu.
      * destruct args as [|a [|]]; try discriminate. uncat. destruct o; (eexists _, _; split; [reflexivity|]; split; [reflexivity|]; now right).
      * destruct (hidden v (short_name c)).
        -- destruct args as [|a [|]]; try discriminate. inversion_clear IH as [|? ? Ha ?]. eauto.
        -- unand. uncat. destruct ts as [|t ts].
           ++ uncat. apply begins_app; [now apply begins_word|reflexivity|discriminate].
           ++ uncat. apply begins_app; [now apply begins_word|reflexivity|discriminate].
  - unand. uncat. apply begins_app; [eauto|reflexivity|discriminate].
  - unand. uncat. apply begins_app; [eauto|reflexivity|discriminate].
  - unand. uncat. apply begins_app; [eauto|reflexivity|discriminate].
  - uncat. apply (begins_app (HWord (lit "new")) (lit "new")); [now apply begins_word|reflexivity|discriminate].
  - unand. uncat. apply begins_app; [eauto|reflexivity|discriminate].
  - uncat. now apply begins_word.
  - uncat. now apply begins_word.
  - uncat. now apply begins_word.
Qed.
(** Words that the text does not start with. *)
Lemma begins_keyword h t k rest : begins h t -> edge rest -> forallb is_word_char k = true -> is_name k = true ->
  match h with HWord w => w <> k | HMark _ => True end -> rkeyword k (t ++ rest) = PFail.
Proof.
  intros B E W K N. destruct h as [w|b]; cbn [begins] in B.
  - destruct B as (Nw & u & -> & U). rewrite <- app_assoc. apply keyword_other; auto.
  - destruct B as (c & u & -> & A & _). destruct k as [|k0 k]; [discriminate|]. cbn [is_name] in K. apply andb_prop in K as [K _].
    unfold rkeyword. cbn [app strip]. destruct (byte_eqb_spec k0 c); [congruence|reflexivity].
Qed.

(** ** Steps *)
Lemma seq_step {A B} (r : rule A) (k : A -> rule B) i a j : r i = PMatch a j -> rseq r k i = k a j.
Proof. unfold rseq. now intros ->. Qed.
Lemma seq_blank {B} (k : Datatypes.unit -> rule B) i : rseq rblank k i = k tt (blanks i).
Proof. reflexivity. Qed.
Lemma blanks_shrink i : length (blanks i) <= length i.
Proof. destruct (takes_blank (S (length i)) i) as [_ T]; [lia|]. specialize (T tt (blanks i) eq_refl). lia. Qed.
Lemma blanks_mark b i : is_blank b = false -> b <> x2f -> blanks (b :: i) = b :: i.
Proof. apply blank_other. Qed.
Ltac mark := match goal with |- context [blanks (?s ++ ?i)] => change (blanks (s ++ i)) with (s ++ i) end.

(** From here the grammar's rule for statements yields ... *)
Definition Stmt (i : list byte) (res : pres sexpr) : Prop := forall n, length i < n -> rstmt fl n i = res.
Lemma statement_expression n stmt i : 0 < n -> Forall (fun k => rkeyword k i = PFail) statement_words ->
  statement fl n stmt i = (the e <- rexpr fl n 0; the _ <- rblank; the _ <- rlit (lit ";"); rret e) i.
Proof.
  intros Hn H. unfold statement_words in H. repeat match goal with H : Forall _ (_ :: _) |- _ => inversion_clear H end. destruct n as [|n]; [lia|].
  unfold statement. do 7 (rewrite alts_fail; [|first [unfold rwhile|unfold rfor|cbn [rif]|unfold rswitch|unfold rlet|idtac]; apply seq_fail; assumption]).
  unfold ralts. cbn [fold_right]. unfold ralt. match goal with |- match ?r with _ => _ end = _ => now destruct r end.
Qed.
Lemma parses_at min i res n : Parses fl min i res -> length i < n -> rexpr fl n min i = res.
Proof. intros P H. now apply P. Qed.
(** Nothing that starts a statement. *)
Lemma stmt_none b i : no_start b = true -> Stmt (b :: i) PFail.
Proof.
  intros H n Hn. destruct n as [|n]; [lia|]. cbn [rstmt]. rewrite statement_expression; [|lia|].
  - apply seq_fail. now apply parse_none.
  - unfold no_start in H. cbn [existsb] in H. repeat constructor;
    repeat (apply orb_true_iff in H as [H|H]; [apply byte_eq in H as ->; reflexivity | idtac]); discriminate H.
Qed.
Lemma stmt_close i : Stmt (lit "}" ++ i) PFail.
Proof. now apply stmt_none. Qed.
(** An expression that something else than a semicolon follows. *)
Lemma stmt_ident w rest b j : is_name w = true -> reserved w = false -> existsb (str_eqb w) statement_words = false ->
  quiet rest -> (forall k, stops fl k rest) -> hd rest <> Some x2e -> blanks rest = b :: j -> b <> x3b -> Stmt (w ++ rest) PFail.
Proof.
  intros N R W Q St D B Nb n Hn. destruct n as [|n]; [lia|]. cbn [rstmt].
  assert (E : edge rest) by (now destruct Q).
  rewrite statement_expression; [|lia|].
  - assert (P : Parses fl 0 (w ++ rest) (PMatch (EIdent (N := source_ast) w span0) rest)).
    { destruct (shown_reads fl v (EIdent (N := source_ast) w span0)) as [Rd _]. eapply (reads_alone fl v (EIdent (N := source_ast) w span0) 0 w rest); try eassumption; try reflexivity.
      - cbn [levels_ok]. now rewrite N, R.
      - discriminate. }
    erewrite seq_step; [|now apply P]. rewrite seq_blank, B. apply seq_fail. change (lit ";") with [x3b]. apply lit_first. congruence.
  - apply Forall_forall. intros k Hk. apply keyword_other; try assumption.
    + clear - Hk. cbn in Hk. repeat (destruct Hk as [<-|Hk]; [reflexivity|]). destruct Hk.
    + intros ->. assert (X : existsb (str_eqb k) statement_words = true); [|congruence]. apply existsb_exists. exists k. split; [assumption|]. now destruct (str_eqb_spec k k).
Qed.
Lemma stmt_default i : Stmt (lit "default:" ++ i) PFail.
Proof.
  change (lit "default:" ++ i) with (lit "default" ++ lit ":" ++ i). apply (stmt_ident _ _ x3a i); try reflexivity; try discriminate.
  - apply quiet_plain; try reflexivity; discriminate.
  - intros k. now apply stops_close.
Qed.

(** A word or a literal does not extend an expression. *)
Lemma stops_text h t rest k : begins h t -> edge rest ->
  match h with HWord w => w <> lit "as" | HMark b => b = digit 0 \/ b = quote end -> stops fl k (x20 :: t ++ rest).
Proof.
  intros B E H n m x Hn Hm.
  assert (F : exists c u, t = c :: u /\ (is_word_char c = true \/ c = quote)).
  { destruct h as [w|b]; cbn [begins] in B.
    - destruct B as (Nw & u & -> & _). destruct w as [|c w]; [discriminate|]. cbn [is_name] in Nw. apply andb_prop in Nw as [Nw _]. exists c, (w ++ u). split; [reflexivity|].
      left. unfold is_word_char. now rewrite Nw, orb_true_r.
    - destruct B as (c & u & -> & A & [[_ D]| ->]); exists c || exists b; exists u; (split; [reflexivity|]).
      + left. unfold is_word_char. now rewrite D.
      + destruct H as [->| ->]; [now left|now right]. }
  assert (K : rkeyword (lit "as") (t ++ rest) = PFail).
  { apply (begins_keyword h); try assumption; try reflexivity. destruct h; [assumption|exact I]. }
  destruct F as (c & u & -> & C). cbn [app] in *.
  assert (Bl : blanks (x20 :: c :: u ++ rest) = c :: u ++ rest).
  { rewrite blanks_space. apply blank_other; destruct C as [C| ->]; try reflexivity; try discriminate; destruct c; try discriminate C; try reflexivity; discriminate. }
  unfold extend. rewrite alts_none.
  assert (L : forall l s, is_word_char l = false -> l <> quote -> rlit (l :: s) (c :: u ++ rest) = PFail).
  { intros l s W Q. apply lit_first. destruct C; congruence. }
  repeat apply Forall_cons; try apply Forall_nil; apply level_fail; unfold binary; rewrite seq_blank, Bl; apply seq_fail; first [exact K|apply L; [reflexivity|discriminate]].
Qed.
Lemma begins_quiet h t rest : begins h t -> match h with HWord w => True | HMark b => b = digit 0 \/ b = quote end -> quiet (x20 :: t ++ rest).
Proof.
  intros B H. assert (F : exists c u, t = c :: u /\ is_blank c = false /\ c <> x2f /\ c <> x3c /\ c <> x28 /\ c <> x3b).
  { destruct h as [w|b]; cbn [begins] in B.
    - destruct B as (Nw & u & -> & _). destruct w as [|c w]; [discriminate|]. cbn [is_name] in Nw. apply andb_prop in Nw as [Nw _]. exists c, (w ++ u). split; [reflexivity|].
      destruct c; try discriminate Nw; repeat split; try reflexivity; discriminate.
    - destruct B as (c & u & -> & A & [[_ D]| ->]); exists c || exists b; exists u; (split; [reflexivity|]).
      + destruct c; try discriminate D; repeat split; try reflexivity; discriminate.
      + destruct H as [->| ->]; repeat split; try reflexivity; discriminate. }
  destruct F as (c & u & -> & C1 & C2 & C3 & C4 & _). apply quiet_plain; try reflexivity; try discriminate; rewrite blanks_space; cbn [app]; rewrite blank_other by assumption; cbn [hd]; congruence.
Qed.
Definition case_head (h : head) : bool :=
  match h with HWord w => negb (str_eqb w (lit "as")) | HMark b => negb (Byte.eqb b x28 || Byte.eqb b x2d || Byte.eqb b x21 || Byte.eqb b x7e) end.
Lemma head_marks e : ok e = true -> forall parent, match text_head parent e with HWord _ => True | HMark b => In b [digit 0; quote; x28; x2d; x21; x7e] end.
Proof.
  induction e as [n sp|c sp|es t sp IH|p parts sp IH|l t i sp IH|t x sp IH|l r sp IH1 IH2|c ts args sp IH|o f args sp IH1 IH2|x m sp IH|a i sp IH1 IH2|t args sp IH|x sp IH|es IH|x cases d sp IH1 IH2 IH3|t sp|c t f sp IH1 IH2 IH3|c a b sp IH1 IH2 IH3|c b sp IH1 IH2|l x b sp IH1 IH2|l r o sp IH1 IH2|x o sp IH|sp|sp|sp|sp] using expr_ind';
    cbn [levels_ok]; try discriminate; intros O parent; cbn [StatementSpec.text_head]; unand; try (apply IH; assumption); try (apply IH1; assumption); try exact I; try (cbn; tauto).
  - destruct c as [[]|z|z|z|z|z|z|[]]; cbn; tauto.
  - destruct parent; [cbn; tauto|]. now apply IH.
  - destruct (binop_of_name (short_name c)) as [o|] eqn:Eo.
    + destruct args as [|l [|r [|]]]; try discriminate. unand. inversion_clear IH as [|? ? Hl Hr]. destruct (needs_parens o parent); [cbn; tauto|now apply Hl].
    + destruct (unop_of_name (short_name c)) as [[]|] eqn:Eu; try (cbn; tauto). destruct (hidden v (short_name c)); [|exact I].
      destruct args as [|a [|]]; try discriminate. inversion_clear IH as [|? ? Ha ?]. now apply Ha.
Qed.
Lemma case_heads e : ok e = true -> case_head (text_head None e) = true ->
  match text_head None e with HWord w => w <> lit "as" | HMark b => b = digit 0 \/ b = quote end.
Proof.
  intros O C. pose proof (head_marks e O None) as M. destruct (text_head None e) as [w|b]; cbn [case_head] in C.
  - intros ->. discriminate C.
  - cbn [In] in M. destruct M as [<-|[<-|[<-|[<-|[<-|[<-|[]]]]]]]; try discriminate C; auto.
Qed.
Lemma stmt_case e d t rest : ok e = true -> case_head (text_head None e) = true -> show fl v e None d = Some t -> Stmt (lit "case " ++ t ++ lit ":" ++ rest) PFail.
Proof.
  intros O C E. pose proof (begins_show e O _ _ _ E) as B. pose proof (case_heads e O C) as H. pose proof (front_show fl v e O _ _ _ E) as F.
  change (lit "case " ++ t ++ lit ":" ++ rest) with (lit "case" ++ x20 :: t ++ lit ":" ++ rest).
  destruct F as (b & w & -> & Fb). assert (b <> x3b) by (intros ->; discriminate Fb). apply first_char_plain in Fb as (F1 & F2 & _).
  apply (stmt_ident _ _ b (w ++ lit ":" ++ rest)); try reflexivity; try discriminate; try assumption.
  - eapply begins_quiet; [exact B|]. destruct (text_head None e); [exact I|assumption].
  - intros k. eapply stops_text; [exact B|reflexivity|assumption].
  - rewrite blanks_space. now apply blank_other.
Qed.

(** ** Bodies *)
Definition reads_stmt (s : sexpr) : Prop := forall d t rest,
  show fl v s None d = Some t -> stmt_ok v false s = true -> Stmt (t ++ lit ";" ++ rest) (PMatch (said v s) rest).
Lemma front_stmt s d t : stmt_ok v false s = true -> show fl v s None d = Some t -> front t.
Proof.
  intros O E. destruct s; cbn [stmt_ok] in O; unand; try (eapply front_show; [|exact E]; assumption); cbn [show] in E; try discriminate; try (uncat; now eexists _, _).
  all: match goal with H : match ?o with Some _ => _ | None => _ end = Some _ |- _ => destruct o; uncat; now eexists _, _ end.
Qed.

Lemma sep_of_many {B} n (r : rule B) i l j : rmany (S n) (the _ <- rblank; r) i = PMatch l j ->
  exists j', rsep n r rblank (blanks i) = PMatch l j' /\ blanks j' = blanks j.
Proof.
  cbn [rmany]. rewrite seq_blank. unfold rsep. destruct (r (blanks i)) as [a i'| | |]; try discriminate.
  - destruct (rmany n (the _ <- rblank; r) i') as [l' i''| | |]; try discriminate. intros [= <- <-]. now exists i''.
  - intros [= <- <-]. exists (blanks i). split; [reflexivity|]. apply blanks_idem.
Qed.
Lemma many_body es : Forall reads_stmt es -> forall d t tail, body_ok v false es = true -> show_seq fl v es d = Some t -> Stmt (blanks tail) PFail ->
  forall i n m, blanks i = blanks (t ++ tail) -> length i < n -> length (t ++ tail) < m ->
  exists j, rmany n (the _ <- rblank; rstmt fl m) i = PMatch (said_all v es) j /\ blanks j = blanks tail.
Proof.
  unfold show_seq, body_ok, said_all. intros F. induction F as [|x es Hx F IH]; cbn [map forallb flat_map]; intros d t tail O E T i n m Bi Hn Hm.
  - uncat. destruct n as [|n]; [lia|]. cbn [rmany]. rewrite seq_blank, Bi. cbn [app]. rewrite T by (pose proof (blanks_shrink tail); cbn [app] in Hm; lia). now exists i.
  - apply andb_prop in O as [Ox O]. destruct (is_empty x) eqn:Ex; cbn [app].
    + uncat. cbn [app] in *. eapply IH; eassumption.
    + cbn [orb] in Ox. uncat. unfold indent, newline in *. uncat.
      rewrite blanks_indent in Bi. match goal with E : show fl v x None d = Some ?w |- _ => rename E into Ew; rename w into tx end.
      match goal with E : cat (map _ es) = Some ?w |- _ => rename E into Er; rename w into tr end.
      rewrite (front_blanks (tx ++ _)) in Bi by (apply front_app; now apply (front_stmt x d)).
      destruct n as [|n]; [lia|]. cbn [rmany]. rewrite seq_blank, Bi. rewrite !app_length in Hm.
      assert (St : rstmt fl m (tx ++ lit ";" ++ [byte_of_Z 10] ++ tr ++ tail) = PMatch (said v x) ([byte_of_Z 10] ++ tr ++ tail)).
      { apply Hx with (d := d); try assumption. rewrite !app_length. lia. }
      rewrite St.
      destruct (IH d tr tail O Er T ([byte_of_Z 10] ++ tr ++ tail) n m) as (j & Ej & Bj).
      * now apply blanks_skip.
      * pose proof (blanks_shrink i) as L. rewrite Bi, !app_length in L. rewrite !app_length. change (length (lit ";")) with 1 in L. lia.
      * rewrite app_length. lia.
      * rewrite Ej. now exists j.
Qed.
Lemma body_read es d t tail n m : Forall reads_stmt es -> body_ok v false es = true -> show_seq fl v es d = Some t -> Stmt (blanks tail) PFail ->
  length (t ++ tail) <= n -> length (t ++ tail) < m ->
  exists j, rstatements n (rstmt fl m) (blanks (t ++ tail)) = PMatch (said_all v es) j /\ blanks j = blanks tail.
Proof.
  intros F O E T Hn Hm. destruct (many_body es F d t tail O E T (t ++ tail) (S n) m eq_refl ltac:(lia) Hm) as (j & Ej & Bj).
  apply sep_of_many in Ej as (j' & Ej & Bj'). exists j'. split; [exact Ej|congruence].
Qed.
Lemma block_read es d d' t rest n m : Forall reads_stmt es -> body_ok v false es = true -> show_seq fl v es d = Some t ->
  length (t ++ repeat (byte_of_Z 32) (2 * d') ++ lit "}" ++ rest) < n -> length (t ++ repeat (byte_of_Z 32) (2 * d') ++ lit "}" ++ rest) < m ->
  rblock n (rstmt fl m) (lit "{" ++ [byte_of_Z 10] ++ t ++ repeat (byte_of_Z 32) (2 * d') ++ lit "}" ++ rest) = PMatch (said_all v es) rest.
Proof.
  intros F O E Hn Hm. unfold rblock. erewrite seq_step; [|apply lit_read]. rewrite seq_blank. cbn [app]. rewrite blanks_skip by reflexivity.
  destruct (body_read es d t (repeat (byte_of_Z 32) (2 * d') ++ lit "}" ++ rest) n m) as (j & Ej & Bj); try assumption; [rewrite blanks_indent; apply stmt_close|lia|].
  erewrite seq_step; [|exact Ej]. rewrite seq_blank, Bj, blanks_indent. erewrite seq_step; [|apply (lit_read (lit "}"))]. reflexivity.
Qed.

(** ** Expressions in statements *)
Definition ends (rest : list byte) : Prop :=
  quiet rest /\ (forall k, stops fl k rest) /\ hd rest <> Some x2e /\ hd rest <> Some x2c /\ hd (blanks rest) <> Some x3e.
Lemma ends_semi i : ends (lit ";" ++ i).
Proof. split; [now apply quiet_mark|]. split; [intros k; now apply stops_close|]. repeat split; discriminate. Qed.
Lemma ends_colon i : ends (lit ":" ++ i).
Proof. split; [apply quiet_plain; try reflexivity; discriminate|]. split; [intros k; now apply stops_close|]. repeat split; discriminate. Qed.
Lemma ends_brace i : ends (lit " {" ++ i).
Proof. split; [apply quiet_plain; try reflexivity; discriminate|]. split; [intros k; apply stops_brace|]. repeat split; discriminate. Qed.
Lemma expr_read e d t rest n : ok e = true -> show fl v e None d = Some t -> ends rest -> length (t ++ rest) < n -> rexpr fl n 0 (t ++ rest) = PMatch (den e) rest.
Proof.
  intros O E (Q & St & D & C & G) Hn. destruct (shown_reads fl v e) as [R _]. apply (reads_alone fl v e d t rest); auto.
Qed.
Lemma front_of e d t rest : ok e = true -> show fl v e None d = Some t -> blanks (t ++ rest) = t ++ rest.
Proof. intros O E. apply front_blanks. apply front_app. eapply front_show; eassumption. Qed.
Lemma head_words h t rest : begins h t -> edge rest -> match h with HWord w => negb (existsb (str_eqb w) statement_words) | HMark _ => true end = true ->
  Forall (fun k => rkeyword k (t ++ rest) = PFail) statement_words.
Proof.
  intros B E H. apply Forall_forall. intros k Hk. apply (begins_keyword h); try assumption.
  - cbn in Hk. repeat (destruct Hk as [<-|Hk]; [reflexivity|]). destruct Hk.
  - cbn in Hk. repeat (destruct Hk as [<-|Hk]; [reflexivity|]). destruct Hk.
  - destruct h as [w|b]; [|exact I]. intros ->. apply negb_true_iff in H. assert (X : existsb (str_eqb k) statement_words = true); [|congruence].
    apply existsb_exists. exists k. split; [assumption|]. now destruct (str_eqb_spec k k).
Qed.
Lemma read_expression e d t rest : ok e = true -> match text_head None e with HWord w => negb (existsb (str_eqb w) statement_words) | HMark _ => true end = true ->
  show fl v e None d = Some t -> Stmt (t ++ lit ";" ++ rest) (PMatch (den e) rest).
Proof.
  intros O H E n Hn. destruct n as [|n]; [lia|]. cbn [rstmt]. rewrite statement_expression; [|lia|].
  - erewrite seq_step; [|eapply expr_read; [exact O|exact E|apply ends_semi|exact Hn]]. rewrite seq_blank. mark. erewrite seq_step; [|apply lit_read]. reflexivity.
  - eapply head_words; [eapply begins_show; eassumption|reflexivity|assumption].
Qed.
Lemma read_break rest : Stmt (lit "break" ++ lit ";" ++ rest) (PMatch (EBreak (N := source_ast) span0) rest).
Proof. intros n Hn. destruct n as [|n]; [lia|]. reflexivity. Qed.
Lemma read_return rest : Stmt (lit "return" ++ lit ";" ++ rest) (PMatch (EReturn (N := source_ast) None span0) rest).
Proof.
  intros n Hn. destruct n as [|n]; [lia|]. cbn [rstmt]. unfold statement. do 4 (rewrite alts_fail; [|reflexivity]). apply alts_hit.
  erewrite seq_step; [|now apply keyword_read]. rewrite seq_blank. mark.
  erewrite seq_step; [|unfold ropt; change (lit ";" ++ rest) with (x3b :: rest); rewrite parse_none; [reflexivity|reflexivity|]].
  - reflexivity.
  - rewrite app_length in Hn. cbn in Hn. cbn [length]. lia.
Qed.
Lemma read_return_of e d t rest : ok e = true -> show fl v e None d = Some t ->
  Stmt (lit "return " ++ t ++ lit ";" ++ rest) (PMatch (EReturn (N := source_ast) (Some (den e)) span0) rest).
Proof.
  intros O E n Hn. destruct n as [|n]; [lia|]. cbn [rstmt]. unfold statement. do 4 (rewrite alts_fail; [|reflexivity]). apply alts_hit.
  change (lit "return " ++ ?x) with (lit "return" ++ lit " " ++ x). rewrite !app_length in Hn. change (length (lit "return ")) with 7 in Hn.
  erewrite seq_step; [|now apply keyword_read]. rewrite seq_blank. change (lit " " ++ ?x) with (x20 :: x). rewrite blanks_space. rewrite (front_of e d) by assumption.
  erewrite seq_step; [|unfold ropt; erewrite expr_read; [reflexivity|exact O|exact E|apply ends_semi|rewrite !app_length; lia]].
  rewrite seq_blank. mark. erewrite seq_step; [|apply lit_read]. reflexivity.
Qed.
Lemma read_let n0 (ty : option typename) (e : option sexpr) t1 t2 rest : is_name n0 = true -> match ty with Some ty => type_ok ty | None => true end = true ->
  match e with Some e => ok e | None => true end = true ->
  match ty with Some ty => cat [put ": "; Some (pretty ty)] | None => Some [] end = Some t1 ->
  match e with Some e => cat [put " = "; show fl v e None 0] | None => Some [] end = Some t2 ->
  Stmt (lit "let " ++ n0 ++ t1 ++ t2 ++ lit ";" ++ rest) (PMatch (EDeclare (N := source_ast) n0 ty (option_map den e) span0) rest).
Proof.
  intros N T O E1 E2 n Hn. destruct n as [|n]; [lia|]. cbn [rstmt]. unfold statement. do 6 (rewrite alts_fail; [|reflexivity]). apply alts_hit. unfold rlet.
  change (lit "let " ++ ?x) with (lit "let" ++ lit " " ++ x). rewrite !app_length in Hn. change (length (lit "let ")) with 4 in Hn.
  assert (Edge : edge (t2 ++ lit ";" ++ rest) /\ type_edge (t2 ++ lit ";" ++ rest)) by (destruct e; uncat; split; try reflexivity; split; try reflexivity; discriminate).
  assert (B2 : hd (t2 ++ lit ";" ++ rest) <> Some x3a /\ hd (blanks (t2 ++ lit ";" ++ rest)) <> Some x3a) by (destruct e; uncat; split; discriminate).
  destruct Edge as [Ed Ty]. destruct B2 as [C1 C2].
  erewrite seq_step; [|now apply keyword_read]. rewrite seq_blank. change (lit " " ++ ?x) with (x20 :: x). rewrite blanks_space.
  rewrite (front_blanks (n0 ++ _)) by (apply front_app; now apply front_name).
  erewrite seq_step; [|apply name_read; [assumption|destruct ty; uncat; [reflexivity|assumption]]]. rewrite seq_blank.
  assert (R1 : ropt (rlet_type (S n)) (blanks (t1 ++ t2 ++ lit ";" ++ rest)) = PMatch ty (if ty then t2 ++ lit ";" ++ rest else blanks (t2 ++ lit ";" ++ rest))).
  { destruct ty as [ty|]; uncat.
    - change (blanks (lit ": " ++ ?x)) with (lit ":" ++ lit " " ++ x). unfold ropt, rlet_type. erewrite seq_step; [|apply lit_read]. rewrite seq_blank.
      change (lit " " ++ ?x) with (x20 :: x). rewrite blanks_space. destruct (pretty_head ty T) as (b & w & Ew & A). rewrite Ew. cbn [app].
      apply alpha_plain in A as [A1 A2]. rewrite blank_other by assumption. change (b :: w ++ ?x) with ((b :: w) ++ x). rewrite <- Ew.
      rewrite (type_read ty T); [reflexivity| |assumption]. rewrite !app_length. change (length (lit ": ")) with 2 in Hn. rewrite app_length in Hn. lia.
    - cbn [app]. unfold ropt, rlet_type. rewrite seq_fail; [reflexivity|]. now apply lit_hd. }
  erewrite seq_step; [|exact R1]. rewrite seq_blank.
  replace (blanks (if ty then t2 ++ lit ";" ++ rest else blanks (t2 ++ lit ";" ++ rest))) with (blanks (t2 ++ lit ";" ++ rest)) by (destruct ty; [reflexivity|now rewrite blanks_idem]).
  destruct e as [e|]; uncat.
  - change (blanks (lit " = " ++ ?x)) with (lit "=" ++ lit " " ++ x). unfold rinitializer. unfold ropt at 1.
    erewrite seq_step; [|erewrite seq_step; [|apply lit_read]; rewrite seq_blank; change (lit " " ++ ?x) with (x20 :: x); rewrite blanks_space;
      erewrite (front_of e 0); [|exact O|eassumption]; erewrite expr_read; [reflexivity|exact O|eassumption|apply ends_semi|]].
    + rewrite seq_blank. mark. erewrite seq_step; [|apply lit_read]. reflexivity.
    + rewrite !app_length in Hn. rewrite !app_length. lia.
  - cbn [app]. mark. reflexivity.
Qed.
Lemma read_semi i : rsemi (lit ";" ++ i) = PMatch tt i.
Proof. reflexivity. Qed.
Notation spaces d := (repeat (byte_of_Z 32) (2 * d)).
Lemma read_while c b d d' t tb rest : ok c = true -> body_ok v false b = true -> Forall reads_stmt b -> show fl v c None 0 = Some t -> show_seq fl v b d = Some tb ->
  Stmt (lit "while " ++ t ++ lit " {" ++ [byte_of_Z 10] ++ tb ++ spaces d' ++ lit "}" ++ lit ";" ++ rest) (PMatch (EWhile (N := source_ast) (den c) (said_all v b) span0) rest).
Proof.
  intros O Ob F E Eb n Hn. destruct n as [|n]; [lia|]. cbn [rstmt]. unfold statement. apply alts_hit. unfold rwhile.
  change (lit "while " ++ ?x) with (lit "while" ++ lit " " ++ x). rewrite !app_length in Hn. change (length (lit "while ")) with 6 in Hn.
  erewrite seq_step; [|now apply keyword_read]. rewrite seq_blank. change (lit " " ++ ?x) with (x20 :: x). rewrite blanks_space. rewrite (front_of c 0) by assumption.
  erewrite seq_step; [|eapply expr_read; [exact O|exact E|apply ends_brace|rewrite !app_length; lia]]. rewrite seq_blank.
  change (blanks (lit " {" ++ ?x)) with (lit "{" ++ x). erewrite seq_step; [|eapply block_read; [exact F|exact Ob|exact Eb|rewrite !app_length; lia|rewrite !app_length; lia]].
  rewrite seq_blank. mark. erewrite seq_step; [|apply read_semi]. reflexivity.
Qed.
Lemma read_if c b f d d' t tb tf rest : ok c = true -> body_ok v false b = true -> Forall reads_stmt b ->
  match f with Some f => body_ok v false f = true /\ Forall reads_stmt f | None => True end -> show fl v c None 0 = Some t -> show_seq fl v b d = Some tb ->
  match f with Some b => cat [put " else {"; newline; show_seq fl v b d; indent d'; put "}"] | None => Some [] end = Some tf ->
  Stmt (lit "if " ++ t ++ lit " {" ++ [byte_of_Z 10] ++ tb ++ spaces d' ++ lit "}" ++ tf ++ lit ";" ++ rest)
    (PMatch (EIf (N := source_ast) (den c) (said_all v b) (option_map (said_all v) f) span0) rest).
Proof.
  intros O Ob F Of E Eb Ef n Hn. destruct n as [|n]; [lia|]. cbn [rstmt]. unfold statement. do 2 (rewrite alts_fail; [|reflexivity]). apply alts_hit. cbn [rif].
  change (lit "if " ++ ?x) with (lit "if" ++ lit " " ++ x). rewrite !app_length in Hn. change (length (lit "if ")) with 3 in Hn.
  erewrite seq_step; [|now apply keyword_read]. rewrite seq_blank. change (lit " " ++ ?x) with (x20 :: x). rewrite blanks_space. rewrite (front_of c 0) by assumption.
  erewrite seq_step; [|eapply expr_read; [exact O|exact E|apply ends_brace|rewrite !app_length; lia]]. rewrite seq_blank.
  change (blanks (lit " {" ++ ?x)) with (lit "{" ++ x). erewrite seq_step; [|eapply block_read; [exact F|exact Ob|exact Eb|rewrite !app_length; lia|rewrite !app_length; lia]].
  rewrite seq_blank. destruct f as [f|].
  - unfold indent, newline in Ef. uncat. destruct Of as [Of Ff]. change (blanks (lit " else {" ++ ?x)) with (lit "else" ++ lit " " ++ lit "{" ++ x).
    erewrite seq_step; [|unfold ropt, ralt; erewrite seq_step; [|now apply keyword_read]; rewrite seq_blank; change (blanks (lit " " ++ lit "{" ++ ?x)) with (lit "{" ++ x);
      erewrite block_read; [reflexivity|exact Ff|exact Of|eassumption| |]].
    + rewrite seq_blank. mark. erewrite seq_step; [|apply read_semi]. reflexivity.
    + rewrite !app_length in Hn. rewrite !app_length. lia.
    + rewrite !app_length in Hn. rewrite !app_length. lia.
  - uncat. cbn [app]. mark. erewrite seq_step; [|unfold ropt, ralt; rewrite !seq_fail by reflexivity; reflexivity].
    rewrite seq_blank. mark. erewrite seq_step; [|apply read_semi]. reflexivity.
Qed.

(** ** Switches *)
Definition case_text (d : nat) (c : sexpr * list sexpr) : option str :=
  cat [indent (d + 1); put "case "; show fl v (fst c) None 0; put ":"; newline; show_seq fl v (snd c) (d + 2)].
Definition case_ok (c : sexpr * list sexpr) : bool := ok (fst c) && case_head (text_head None (fst c)) && body_ok v false (snd c).
Definition said_case (c : sexpr * list sexpr) : sexpr * list sexpr := (den (fst c), said_all v (snd c)).
Lemma cases_fail cs d t tail : forallb case_ok cs = true -> cat (map (case_text d) cs) = Some t -> Stmt (blanks tail) PFail -> Stmt (blanks (t ++ tail)) PFail.
Proof.
  intros O E T. destruct cs as [|c cs]; cbn [map forallb] in *; [uncat; exact T|]. unfold case_text, case_ok, indent, newline in *. unand. uncat.
  rewrite blanks_indent. change (blanks (lit "case " ++ ?x)) with (lit "case " ++ x). eapply stmt_case; eassumption.
Qed.
Lemma statements_shrink n m i l j : rstatements n (rstmt fl m) i = PMatch l j -> length i < m -> length i < n -> length j <= length i.
Proof.
  intros E Hm Hn. destruct (takes_statements n m (rstmt fl m) (takes_stmt fl m) (S (length i)) ltac:(lia) ltac:(lia) i) as [_ T]; [lia|]. specialize (T _ _ E). lia.
Qed.
Lemma many_cases cs : Forall (fun c => Forall reads_stmt (snd c)) cs -> forall d t tail, forallb case_ok cs = true -> cat (map (case_text d) cs) = Some t ->
  Stmt (blanks tail) PFail -> rkeyword (lit "case") (blanks tail) = PFail ->
  forall i k n m, blanks i = blanks (t ++ tail) -> length i < k -> length (t ++ tail) < n -> length (t ++ tail) < m ->
  exists j, rmany k (the _ <- rblank; rcase fl n (rstmt fl m)) i = PMatch (map said_case cs) j /\ blanks j = blanks tail.
Proof.
  intros F. induction F as [|c cs Hc F IH]; cbn [map forallb]; intros d t tail O E T K i k n m Bi Hk Hn Hm.
  - uncat. destruct k as [|k]; [lia|]. cbn [rmany]. rewrite seq_blank, Bi. cbn [app]. unfold rcase. rewrite seq_fail by exact K. now exists i.
  - apply andb_prop in O as [Oc O]. unfold case_ok in Oc. unand. uncat. unfold case_text, indent, newline in *. uncat.
    match goal with E : show fl v (fst c) None 0 = Some ?w |- _ => rename E into Ew; rename w into tc end.
    match goal with E : show_seq fl v (snd c) _ = Some ?w |- _ => rename E into Eb; rename w into tb end.
    match goal with E : cat (map _ cs) = Some ?w |- _ => rename E into Er; rename w into tr end.
    rewrite blanks_indent in Bi. change (blanks (lit "case " ++ ?x)) with (lit "case" ++ lit " " ++ x) in Bi.
    destruct k as [|k]; [lia|]. cbn [rmany]. rewrite seq_blank, Bi. rewrite !app_length in Hn, Hm. change (length (lit "case ")) with 5 in *. unfold rcase at 1.
    erewrite seq_step; [|now apply keyword_read]. rewrite seq_blank. change (blanks (lit " " ++ ?x)) with (blanks x). rewrite (front_of (fst c) 0) by assumption.
    erewrite seq_step; [|eapply expr_read; [eassumption|exact Ew|apply ends_colon|rewrite !app_length; lia]]. rewrite seq_blank. change (blanks (lit ":" ++ ?x)) with (lit ":" ++ x).
    erewrite seq_step; [|apply lit_read]. rewrite seq_blank. cbn [app]. rewrite blanks_skip by reflexivity.
    destruct (body_read (snd c) (d + 2) tb (tr ++ tail) n m) as (j & Ej & Bj); try assumption; [eapply cases_fail; eassumption|rewrite !app_length; lia|rewrite !app_length; lia|].
    erewrite seq_step; [|exact Ej]. unfold rret.
    pose proof (blanks_shrink (tb ++ tr ++ tail)) as Lb. rewrite !app_length in Lb.
    apply statements_shrink in Ej; [|lia|lia].
    destruct (IH d tr tail O Er T K j k n m) as (j' & Ej' & Bj'); try assumption; try (rewrite app_length; lia).
    + pose proof (blanks_shrink i) as Li. rewrite Bi, !app_length in Li. change (length (lit "case")) with 4 in Li. lia.
    + rewrite Ej'. exists j'. now split.
Qed.
Lemma read_switch x cs b d t tcs tb rest : ok x = true -> forallb case_ok cs = true -> Forall (fun c => Forall reads_stmt (snd c)) cs ->
  match b with Some b => body_ok v false b = true /\ Forall reads_stmt b | None => True end ->
  show fl v x None 0 = Some t -> cat (map (case_text d) cs) = Some tcs ->
  match b with Some b => cat [indent (d + 1); put "default:"; newline; show_seq fl v b (d + 2)] | None => Some [] end = Some tb ->
  Stmt (lit "switch " ++ t ++ lit " {" ++ [byte_of_Z 10] ++ tcs ++ tb ++ spaces d ++ lit "}" ++ lit ";" ++ rest)
    (PMatch (ESwitch (N := source_ast) (den x) (map said_case cs) (option_map (said_all v) b) span0) rest).
Proof.
  intros O Oc F Fb E Ec Eb n Hn. destruct n as [|n]; [lia|]. cbn [rstmt]. unfold statement. do 3 (rewrite alts_fail; [|reflexivity]). apply alts_hit. unfold rswitch.
  change (lit "switch " ++ ?x) with (lit "switch" ++ lit " " ++ x). rewrite !app_length in Hn. change (length (lit "switch ")) with 7 in Hn.
  erewrite seq_step; [|now apply keyword_read]. rewrite seq_blank. change (blanks (lit " " ++ ?x)) with (blanks x). rewrite (front_of x 0) by assumption.
  erewrite seq_step; [|eapply expr_read; [exact O|exact E|apply ends_brace|rewrite !app_length; lia]]. rewrite seq_blank.
  change (blanks (lit " {" ++ ?x)) with (lit "{" ++ x). erewrite seq_step; [|apply lit_read]. rewrite seq_blank. change ([byte_of_Z 10] ++ ?x) with (byte_of_Z 10 :: x). rewrite blanks_skip by reflexivity.
  set (close := spaces d ++ lit "}" ++ lit ";" ++ rest) in *.
  assert (Lc : length close = length (spaces d) + (length (lit "}") + (length (lit ";") + length rest))) by (unfold close; now rewrite !app_length).
  assert (Bc : blanks close = lit "}" ++ lit ";" ++ rest) by (unfold close; now rewrite blanks_indent).
  assert (Bt : Stmt (blanks (tb ++ close)) PFail /\ rkeyword (lit "case") (blanks (tb ++ close)) = PFail).
  { destruct b as [b|]; [|injection Eb as <-; cbn [app]; rewrite Bc; split; [apply stmt_close|reflexivity]]. unfold indent, newline in Eb. uncat. rewrite blanks_indent.
    change (blanks (lit "default:" ++ ?x)) with (lit "default:" ++ x). split; [apply stmt_default|reflexivity]. }
  destruct (many_cases cs F d tcs (tb ++ close) Oc Ec (proj1 Bt) (proj2 Bt) (tcs ++ tb ++ close) (S (S n)) (S n) n eq_refl) as (j & Ej & Bj); [rewrite !app_length in *; lia..|].
  apply sep_of_many in Ej as (j' & Ej & Bj'). erewrite seq_step; [|exact Ej]. rewrite seq_blank, Bj', Bj.
  destruct b as [b|].
  - destruct Fb as [Ob Fb]. unfold indent, newline in Eb. uncat. rewrite blanks_indent. change (blanks (lit "default:" ++ ?x)) with (lit "default" ++ lit ":" ++ x). 
    match goal with E : show_seq fl v b _ = Some ?w |- _ => rename E into Eb; rename w into tb end.
    destruct (body_read b (d + 2) tb close (S n) n) as (jb & Ejb & Bjb); try assumption; try (rewrite Bc; apply stmt_close); try (rewrite !app_length in *; lia).
    erewrite seq_step; [|unfold ropt, rdefault; erewrite seq_step; [|now apply keyword_read]; rewrite seq_blank; change (blanks (lit ":" ++ ?x)) with (lit ":" ++ x);
      erewrite seq_step; [|apply lit_read]; rewrite seq_blank; change ([byte_of_Z 10] ++ ?x) with (byte_of_Z 10 :: x); rewrite blanks_skip by reflexivity; rewrite Ejb; reflexivity].
    rewrite seq_blank, Bjb, Bc. erewrite seq_step; [|apply lit_read]. rewrite seq_blank. mark. erewrite seq_step; [|apply read_semi]. reflexivity.
  - injection Eb as <-. cbn [app]. rewrite Bc. erewrite seq_step; [|unfold ropt, rdefault; rewrite seq_fail by reflexivity; reflexivity].
    rewrite seq_blank. mark. erewrite seq_step; [|apply lit_read]. rewrite seq_blank. mark. erewrite seq_step; [|apply read_semi]. reflexivity.
Qed.
(** ** All statements *)
Lemma statement_reads s : reads_stmt s.
Proof.
  induction s as [n sp|c sp|es t sp IH|p parts sp IH|l t i sp IH|t x sp IH|l r sp IH1 IH2|c ts args sp IH|o f args sp IH1 IH2|x m sp IH|a i sp IH1 IH2|t args sp IH|x sp IH|es IH|x cases d sp IH1 IH2 IH3|t sp|c t f sp IH1 IH2 IH3|c a b sp IH1 IH2 IH3|c b sp IH1 IH2|l x b sp IH1 IH2|l r o sp IH1 IH2|x o sp IH|sp|sp|sp|sp] using expr_ind';
    intros dep txt rest E O; pose proof O as O'; cbn [stmt_ok] in O; unand;
    try (match goal with H : levels_ok v false _ = true |- _ => discriminate H end);
    try (cbn [said]; eapply read_expression; eassumption); clear O'; cbn [show] in E; cbn [said].
  - uncat. apply read_let; assumption.
  - destruct x as [x|]; uncat; [eapply read_return_of; eassumption|apply read_return].
  - unfold indent, newline in E. uncat. apply read_switch; try assumption.
    + eapply Forall_impl; [|exact IH2]. now intros ? [].
    + destruct d as [d|]; [split; assumption|exact I].
  - unfold indent, newline in E. uncat. apply (read_if c t f (dep + 1) dep); try assumption. destruct f as [f|]; [split; assumption|exact I].
  - unfold indent, newline in E. uncat. eapply read_while; eassumption.
  - uncat. apply read_break.
Qed.
Lemma printed_body_reads es depth t rest n : body_ok v false es = true -> printed_body fl v es depth = Some t -> length (t ++ rest) < n ->
  rfunction_body fl n (t ++ rest) = PMatch (said_all v es) rest.
Proof.
  intros O E Hn. unfold printed_body, indent, newline in E. uncat. rewrite !app_length in Hn. unfold rfunction_body, ralt.
  erewrite block_read; [reflexivity| |exact O|eassumption| |]; [apply Forall_forall; intros; apply statement_reads|rewrite !app_length; change (length (lit "{")) with 1 in Hn; lia..].
Qed.
End Facts.
