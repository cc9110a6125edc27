(** C70: text literals stand for the text that they spell. *)
From Coq Require Import String.
From Coq Require Import ZArith List Bool Lia.
From Verif Require Import Bytes BytesFacts Bytecode Definitions DefinitionsFacts Bundle BundleFacts BundleSpec BundleThms Ast TypeNames Pool Scope TypeCheck Printer Parser
  PrintSpec ParserFacts TextFacts ParserSafe Cursor SourceMap Assembler TextLiteralSpec TextLiteralFacts.
Import ListNotations.
Open Scope Z_scope.

(** A text in quotes is read if and only if it spells a text, and is read as that
    text; [rest] is what follows the closing quote. *)
Theorem C70_texts_are_read_as_spelled i s rest :
  rstring i = PMatch s rest <-> exists t, spells t s /\ i = x22 :: t ++ x22 :: rest.
Proof. apply string_reads. Qed.
Print Assumptions C70_texts_are_read_as_spelled.

(** A text cannot be spelled in two meanings, and ends at one place only. *)
Theorem C70_one_meaning t1 s1 rest1 t2 s2 rest2 : spells t1 s1 -> spells t2 s2 ->
  x22 :: t1 ++ x22 :: rest1 = x22 :: t2 ++ x22 :: rest2 -> s1 = s2 /\ rest1 = rest2 /\ t1 = t2.
Proof.
  intros A B E.
  assert (R1 : rstring (x22 :: t1 ++ x22 :: rest1) = PMatch s1 rest1) by (apply string_reads; eauto).
  assert (R2 : rstring (x22 :: t1 ++ x22 :: rest1) = PMatch s2 rest2) by (rewrite E; apply string_reads; eauto).
  rewrite R1 in R2. injection R2 as -> ->. split; [reflexivity|]. split; [reflexivity|].
  injection E as E. now apply app_inv_tail in E.
Qed.
Print Assumptions C70_one_meaning.

(** Every text that is valid UTF-8 can be spelled. *)
Theorem C70_every_text_can_be_spelled s : utf8_valid s = true -> exists t, spells t s.
Proof.
  intros V. pose proof (string_read s [] V) as R. apply string_reads in R. destruct R as (t & S & _). eauto.
Qed.
Print Assumptions C70_every_text_can_be_spelled.

(** The letter in front of the quotes says what kind of constant it is. *)
Definition mark (k : literal) : list byte :=
  match k with LString => [] | LName => [x6e] | LResource => [x72] | LTweakDbId => [x74] end.
Lemma marked_number fl b j : b = x6e \/ b = x72 \/ b = x74 \/ b = x22 -> rnumber fl (b :: j) = PFail.
Proof. intros [-> | [-> | [-> | ->]]]; reflexivity. Qed.
Theorem C70_constants_are_read_as_spelled fl k t s rest : spells t s ->
  rconstant fl (mark k ++ x22 :: t ++ x22 :: rest) = PMatch (CString k s) rest.
Proof.
  intros S. assert (R : rstring (x22 :: t ++ x22 :: rest) = PMatch s rest) by (apply string_reads; eauto).
  set (j := t ++ x22 :: rest) in *.
  unfold rconstant, ralts, fold_right. unfold ralt.
  destruct k; cbn [mark List.app]; (rewrite marked_number by tauto);
    unfold rseq at 1 2;
    match goal with |- context [rkeyword (lit "true") ?x] => replace (rkeyword (lit "true") x) with (@PFail unit) by reflexivity end;
    match goal with |- context [rkeyword (lit "false") ?x] => replace (rkeyword (lit "false") x) with (@PFail unit) by reflexivity end;
    unfold rseq.
  - replace (ropt rliteral_type (x22 :: j)) with (PMatch (@None literal) (x22 :: j)) by reflexivity. rewrite R. reflexivity.
  - replace (ropt rliteral_type (x6e :: x22 :: j)) with (PMatch (Some LName) (x22 :: j)) by reflexivity. rewrite R. reflexivity.
  - replace (ropt rliteral_type (x72 :: x22 :: j)) with (PMatch (Some LResource) (x22 :: j)) by reflexivity. rewrite R. reflexivity.
  - replace (ropt rliteral_type (x74 :: x22 :: j)) with (PMatch (Some LTweakDbId) (x22 :: j)) by reflexivity. rewrite R. reflexivity.
Qed.
Print Assumptions C70_constants_are_read_as_spelled.

(** Nothing else is read as such a constant. *)
Theorem C70_nothing_else_is_a_text fl i k s rest : rconstant fl i = PMatch (CString k s) rest ->
  exists t, spells t s /\ i = mark k ++ x22 :: t ++ x22 :: rest.
Proof.
  intros H. unfold rconstant, ralts, fold_right in H. unfold ralt at 1 in H.
  destruct ((the _ <- rkeyword (lit "true"); rret (CBool true)) i) as [c r| | |] eqn:E; try discriminate H.
  { unfold rseq in E. destruct (rkeyword _ _); try discriminate E. injection E as <- _. discriminate H. }
  clear E. unfold ralt at 1 in H.
  destruct ((the _ <- rkeyword (lit "false"); rret (CBool false)) i) as [c r| | |] eqn:E; try discriminate H.
  { unfold rseq in E. destruct (rkeyword _ _); try discriminate E. injection E as <- _. discriminate H. }
  clear E. unfold ralt at 1 in H. destruct (rnumber fl i) as [c r| | |] eqn:E; try discriminate H.
  { injection H as -> ->. exfalso. unfold rnumber in E.
    destruct (match i with b :: i' => if Byte.eqb b x2d then ([b], i') else ([], i) | [] => ([], i) end) as [sign i1].
    destruct (Parser.span_of _ i1) as [w i2]. destruct w as [|b w]; [discriminate E|].
    unfold rseq in E. destruct (ropt (rlit (lit "u")) i2) as [u j| | |]; try discriminate E.
    destruct (ropt _ j) as [p j'| | |]; try discriminate E. unfold of_option in E.
    destruct p as [[|]|], u; repeat match goal with
      | H : context [if ?b then _ else _] |- _ => destruct b
      | H : context [match ?o with Some _ => _ | None => _ end] |- _ => destruct o
      end; discriminate E. }
  clear E. unfold ralt in H.
  destruct ((the t <- ropt rliteral_type; the s <- rstring; rret (CString (match t with Some t => t | None => LString end) s)) i) as [c r| | |] eqn:E; try discriminate H.
  injection H as -> ->. unfold rseq in E. unfold ropt in E. unfold rliteral_type, ralts, fold_right, ralt, rseq, rlit in E.
  assert (G : forall j k', (match rstring j with PMatch a i' => rret (CString k' a) i' | PFail => PFail | PPanic => PPanic | PFuel => PFuel end) = PMatch (CString k s) rest ->
    k' = k /\ exists t, spells t s /\ j = x22 :: t ++ x22 :: rest).
  { intros j k' J. destruct (rstring j) as [s' r'| | |] eqn:R; try discriminate J. injection J as -> -> ->. split; [reflexivity|]. now apply string_reads. }
  destruct (strip (lit "n") i) as [j|] eqn:S1; cbv beta iota in E.
  { unfold rret at 1 in E. apply G in E. destruct E as (<- & t & P & ->). exists t. split; [exact P|]. now apply strip_inv in S1. }
  destruct (strip (lit "r") i) as [j|] eqn:S2; cbv beta iota in E.
  { unfold rret at 1 in E. apply G in E. destruct E as (<- & t & P & ->). exists t. split; [exact P|]. now apply strip_inv in S2. }
  destruct (strip (lit "t") i) as [j|] eqn:S3; cbv beta iota in E.
  { unfold rret at 1 in E. apply G in E. destruct E as (<- & t & P & ->). exists t. split; [exact P|]. now apply strip_inv in S3. }
  apply G in E. destruct E as (<- & t & P & ->). exists t. split; [exact P|reflexivity].
Qed.
Print Assumptions C70_nothing_else_is_a_text.

(** * From the constant to the instruction *)

(** The table that a constant is kept in, its default text, and its instruction. *)
Definition table_of (k : literal) (p : pool) : strings :=
  match k with LString => pl_strings p | LName => pl_names p | LResource => pl_resources p | LTweakDbId => pl_tweakdb p end.
Definition default_of (k : literal) : option str := match k with LName => Some none_str | _ => None end.
Definition loads (k : literal) (i : pidx) : instr label :=
  match k with LString => StringConst i | LName => NameConst i | LResource => ResourceConst i | LTweakDbId => TweakDbIdConst i end.

(** The table is one that was loaded, with texts added to it. *)
Definition grown (default : option str) (p : strings) (room : nat) : Prop :=
  exists p0 l, pool_start default p0 /\ p = add_all default p0 l /\
    Z.of_nat (length (st_list p0) + length l + room) < 2 ^ 32.

(** A text constant is compiled to one instruction that loads the text from the
    table of its kind, also after any texts are added; the other tables and the
    definitions stay, and so do all texts of this table. *)
Theorem C70_compiled_as_written fuel permissive k s sp expected t e t1 files exit a u code a1 later :
  check fuel permissive (EConstant (CString k s) sp) expected t = Done (e, t1) ->
  asm files e exit a = Done (u, code, a1) ->
  grown (default_of k) (table_of k (as_pool a)) (S (length later)) ->
  t1 = t /\
  exists i, code = [loads k i] /\
    st_get (default_of k) (add_all (default_of k) (table_of k (as_pool a1)) later) i = inl s /\
    (forall j x, st_get (default_of k) (table_of k (as_pool a)) j = inl x ->
                 st_get (default_of k) (add_all (default_of k) (table_of k (as_pool a1)) later) j = inl x) /\
    (forall k', k' <> k -> table_of k' (as_pool a1) = table_of k' (as_pool a)) /\
    pl_defs (as_pool a1) = pl_defs (as_pool a).
Proof.
  intros C G (p0 & l & P & E & L).
  assert (t1 = t /\ e = EConstant (CString k s) sp) as (-> & ->).
  { destruct fuel as [|fuel]; [discriminate C|]. cbn [check check_step] in C. destruct expected as [ty|].
    - unfold mbind, reading in C. destruct (pe (ti_pretty (ts_pool t) ty)) as [n|]; [|discriminate C]. injection C as <- <-. now split.
    - injection C as <- <-. now split. }
  split; [reflexivity|].
  pose proof (strings_history_lemma (default_of k) p0 l s later P) as H. cbv zeta in H. rewrite <- E in H.
  rewrite app_length in H. cbn [length] in H. specialize (H ltac:(lia)).
  cbn [asm] in G.
  destruct k; cbn [emit_constant default_of table_of loads] in *; unfold abind, literal_index, add_literal, add_name, emit in G;
    match type of H with context [st_add ?d ?p s] => destruct (st_add d p s) as [n i] eqn:A end;
    cbv beta iota zeta in G; injection G as <- <- <-; exists i; cbn [as_pool pl_strings pl_names pl_resources pl_tweakdb pl_defs set_names];
    destruct H as (H1 & _ & H2 & _); (split; [reflexivity|]); (split; [exact H1|]); (split; [exact H2|]);
    (split; [intros k' N; destruct k'; try congruence; reflexivity|reflexivity]).
Qed.
Print Assumptions C70_compiled_as_written.

(** Not vacuous: a text with every kind of item (a plain letter, a character of
    two bytes, short escapes, numbers of all lengths of encodings with digits of
    both cases), and texts that are not read. *)
Definition sample : list byte := [x61; xc3; xa9] ++ lit "\n\'\\" ++ [x5c; x22] ++ lit "\u{41}\u{e9}\u{20AC}\u{1F600}".
Example C70_nonvacuous fl :
  rconstant fl (x6e :: x22 :: sample ++ x22 :: lit ";") =
    PMatch (CString LName [x61; xc3; xa9; x0a; x27; x5c; x22; x41; xc3; xa9; xe2; x82; xac; xf0; x9f; x98; x80]) (lit ";") /\
  (exists s, spells sample s) /\
  rstring (x22 :: lit "\q" ++ [x22]) = PFail /\ rstring (x22 :: lit "\u{1234567}" ++ [x22]) = PFail /\ rstring (x22 :: lit "abc") = PFail /\
  grown None empty_strings 1 /\ grown (Some none_str) {| st_list := [none_str]; st_map := [(none_str, 0)] |} 1.
Proof.
  assert (R : rconstant fl (x6e :: x22 :: sample ++ x22 :: lit ";") =
    PMatch (CString LName [x61; xc3; xa9; x0a; x27; x5c; x22; x41; xc3; xa9; xe2; x82; xac; xf0; x9f; x98; x80]) (lit ";")) by (vm_compute; reflexivity).
  split; [exact R|]. split.
  { apply C70_nothing_else_is_a_text in R. destruct R as (t & S & E). cbn [mark List.app] in E. apply (f_equal (skipn 2)) in E. cbn [skipn] in E.
    apply app_inv_tail in E. rewrite <- E in S. eauto. }
  split; [vm_compute; reflexivity|]. split; [vm_compute; reflexivity|]. split; [vm_compute; reflexivity|]. split.
  - exists empty_strings, []. split; [split; [now left|exact I]|]. split; [reflexivity|cbn; lia].
  - exists {| st_list := [none_str]; st_map := [(none_str, 0)] |}, []. split; [split; [|reflexivity]|split; [reflexivity|cbn; lia]].
    right. exists (none_str ++ [x00]), [0]. reflexivity.
Qed.
(** In every state such a constant passes the checks where no type is asked for,
    and is compiled; with an empty table it is the first text. *)
Example C70_compiled_nonvacuous t files exit a :
  (exists e, check 1 false (EConstant (CString LString (lit "a")) {| sp_low := 0; sp_high := 0 |}) None t = Done (e, t) /\
    exists code a1, asm files e exit a = Done (tt, code, a1)) /\
  (pl_strings (as_pool a) = empty_strings -> grown (default_of LString) (table_of LString (as_pool a)) 1).
Proof.
  split.
  - exists (EConstant (CString LString (lit "a")) {| sp_low := 0; sp_high := 0 |}). split; [reflexivity|].
    cbn [asm emit_constant]. unfold abind, literal_index, add_literal, emit.
    destruct (st_add None (pl_strings (as_pool a)) (lit "a")) as [n i]. do 2 eexists. reflexivity.
  - intros E. cbn [default_of table_of]. rewrite E. exists empty_strings, []. split; [split; [now left|exact I]|]. split; [reflexivity|cbn; lia].
Qed.
