(** Property C63. *)
From Coq Require Import String.
From Coq Require Import ZArith List Bool Lia Arith.
From Verif Require Import BundleFacts Bytes Bytecode Definitions Bundle Ast TypeNames Pool Scope TypeCheck Symbols Report Printer Parser PrintSpec Search SourceMap Scc Assembler Unit
  Grammar P_Grammar P_Report P_SourceMap Display PlaceSpec P_Unit P_Place Failure P_Failure Positions PositionSpec PositionErase PositionFacts.
Import ListNotations.
Open Scope Z_scope.

(** Sources are UTF-8 texts, all together smaller than the positions can count. *)
Definition readable (fs : list source) : Prop := fits fs /\ Forall (fun s => Forall alone (snd s)) fs.

(** The parser that gives places reads the same as the one of C52 and C53: a file is
    accepted, rejected or aborts alike, and gives the same module but for the places.
    In particular it always ends. *)
Theorem C63_reads_the_same fl f :
  parse_module fl (f_source f) =
  match parse_file fl f with PMatch m rest => PMatch (unplaced_module m) rest | PFail => PFail | PPanic => PPanic | PFuel => PFuel end.
Proof.
  unfold parse_module, parse_file. rewrite (sim_module fl (position (f_low f) (f_source f)) (S (length (f_source f))) (f_source f)).
  destruct (pmodule _ _ _ _) as [m [|b r]| | |]; reflexivity.
Qed.
Print Assumptions C63_reads_the_same.
Theorem C63_parser_ends fl f :
  match parse_file fl f with PMatch _ rest => rest = [] | PFail => True | PPanic => bad_escape (f_source f) | PFuel => False end.
Proof.
  pose proof (C53_module_parser_ends fl (f_source f)) as E. rewrite (C63_reads_the_same fl f) in E. now destruct (parse_file fl f).
Qed.
Print Assumptions C63_parser_ends.

(** Every part of a file that is read has the place of its text in that file. *)
Theorem C63_places_partial fl fs i path text f m rest : readable fs ->
  nth_error fs i = Some (path, text) -> nth_error (loaded fs) i = Some f -> parse_file fl f = PMatch m rest ->
  module_located text (base fs i) m.
Proof.
  intros ((C & F) & A) S L P. destruct (loaded_nth _ F) as (_ & G). rewrite (G _ _ S) in L. injection L as <-.
  destruct (loaded_span _ _ _ _ F S (G _ _ S)) as (L0 & L1 & L2).
  assert (HC : Forall P_SourceMap.is_char text) by (rewrite Forall_forall in C; exact (C _ (nth_error_In _ _ S))).
  assert (HA : Forall alone text) by (rewrite Forall_forall in A; exact (A _ (nth_error_In _ _ S))).
  unfold parse_file in P. cbn [new_file f_low f_source fst snd] in P. unfold text_of in P. cbn [snd] in P.
  set (at_ := position (base fs i) (concat text)) in P. set (n := Datatypes.S (length (concat text))) in P.
  assert (H_at : forall w j, concat text = w ++ j -> at_ j = base fs i + blen w).
  { intros w j E. unfold at_, position, pos_add, wrap_u. rewrite E, blen_app. replace (base fs i + (blen w + blen j - blen j)) with (base fs i + blen w) by lia.
    apply Z.mod_small. rewrite L1 in L2. unfold text_of in L2. cbn [snd] in L2. rewrite E, blen_app in L2.
    pose proof (blen_pos w). pose proof (blen_pos j). pose proof (base_nonneg fs i). lia. }
  pose proof (gives_module fl text (base fs i) at_ HC HA H_at n (concat text)) as W. unfold wp in W.
  destruct (pmodule fl at_ n (concat text)) as [m' [|b r]| | |]; try discriminate P. injection P as <- <-. apply W. exists [], text. now split.
Qed.
Print Assumptions C63_places_partial.

(** So the places of all parts of the modules that were read are places of the loaded
    files, which C59 and C62 ask for. *)
Section Placed.
Variables (chars : list str) (off : Z) (P : span -> Prop).
Hypothesis T : forall sp w, text_at chars off sp w -> P sp.
Lemma spelled_in sp s t : spelled chars off sp s t -> P sp.
Proof. intros (w & W & _). eauto. Qed.
Lemma all_placed o es : Forall (fun e => forall o, located chars off o e -> placed P e) es -> All (located chars off o) es -> All (placed P) es.
Proof. induction 1; [easy|]. intros (A & B). split; eauto. Qed.
Lemma located_placed e : forall o, located chars off o e -> placed P e.
Proof.
  induction e using expr_ind'; intros outer (I & S & C); cbn [spelling placed] in *; try contradiction; try (destruct S as [S|S]);
    repeat match goal with H : _ /\ _ |- _ => destruct H end;
    repeat match goal with |- _ /\ _ => split end; eauto using spelled_in, all_placed.
  - rename H into Hp. clear S. induction Hp as [|x l X _ IH]; [easy|]. destruct C as (C1 & C2). split; eauto.
  - destruct i; cbn in *; eauto.
  - destruct e; cbn in *; eauto.
  - destruct e; cbn in *; eauto.
  - rename H into Hp. clear S. induction Hp as [|x l (X & Y) _ IH]; [easy|]. destruct H2 as ((C1 & C2) & C3). split; [split|]; eauto using all_placed.
  - destruct d; cbn in *; eauto using all_placed.
  - destruct f; cbn in *; eauto using all_placed.
Qed.
Lemma All_impl {A} (R R' : A -> Prop) l : (forall a, R a -> R' a) -> All R l -> All R' l.
Proof. intros H. induction l; [easy|]. intros (X & Y). split; auto. Qed.
Lemma ann_in o a : ann_located chars off o a -> ann_placed P a.
Proof. intros (_ & S & A). split; [eapply spelled_in; eauto|]. eapply All_impl; [|exact A]. intros e. apply located_placed. Qed.
Lemma decl_in o d : decl_located chars off o d -> decl_placed P d.
Proof. intros (_ & S & _ & A). split; [eapply spelled_in; eauto|]. eapply All_impl; [|exact A]. intros e. apply ann_in. Qed.
Lemma fun_in o f : fun_located chars off o f -> fun_placed P f.
Proof.
  intros (_ & S & _ & D & B). split; [eapply spelled_in; eauto|]. split; [eapply decl_in; eauto|]. destruct (fs_body f); [|easy]. eapply All_impl; [|exact B]. intros e. apply located_placed.
Qed.
Lemma field_in o f : field_located chars off o f -> field_placed P f.
Proof. intros (D & B). split; [eapply decl_in; eauto|]. destruct (fd_default f); [|easy]. eapply located_placed; eauto. Qed.
Lemma module_in m : module_located chars off m -> module_placed P m.
Proof.
  intros (I & E). split.
  - eapply All_impl; [|exact I]. intros (i & anns) (_ & S & A). split; [|eapply All_impl; [|exact A]; intros e; apply ann_in].
    cbn [fst] in *. destruct i; eapply spelled_in; eauto.
  - eapply All_impl; [|exact E]. intros [b c|f|f|e] H; cbn in H |- *.
    + destruct H as (_ & S & _ & D & M). split; [eapply spelled_in; eauto|]. split; [eapply decl_in; eauto|]. eapply All_impl; [|exact M].
      intros [f|f] F; cbn in *; [eapply fun_in; eauto|eapply field_in; eauto].
    + eapply fun_in; eauto.
    + eapply field_in; eauto.
    + destruct H as (_ & S & _ & D). split; [eapply spelled_in; eauto|eapply decl_in; eauto].
Qed.
End Placed.
Lemma files_in fl fs : readable fs -> forall k ms, parse_files fl (skipn k (loaded fs)) = inl ms -> All (module_placed (in_source fs)) ms.
Proof.
  intros R k. remember (skipn k (loaded fs)) as l eqn:E. revert k E. induction l as [|f l IH]; intros k E ms; cbn [parse_files]; intros H; [now injection H as <-|].
  destruct (parse_file fl f) as [m r| | |] eqn:F; try discriminate. destruct (parse_files fl l) as [ms'|(j, x)] eqn:G; [|discriminate]. injection H as <-. split.
  - assert (N : nth_error (loaded fs) k = Some f).
    { rewrite <- (firstn_skipn k (loaded fs)), <- E. rewrite nth_error_app2; rewrite firstn_length; [|lia].
      assert (k < length (loaded fs))%nat by (apply not_ge; intros X; rewrite skipn_all2 in E by exact X; discriminate). rewrite Nat.min_l by lia. now rewrite Nat.sub_diag. }
    destruct (loaded_nth fs) as (L & _); [apply R|]. destruct (nth_error fs k) as [[path text]|] eqn:S.
    + eapply module_in; [|eapply C63_places_partial; eauto]. intros sp w (b & p & a & -> & _ & ->). now exists k, path, b, p, a.
    + exfalso. apply nth_error_None in S. assert (nth_error (loaded fs) k <> None) as X by congruence. apply nth_error_Some in X. lia.
  - apply (IH (Datatypes.S k)); [|reflexivity]. change (skipn (1 + k) (loaded fs)) with (skipn (1 + k) (loaded fs)).
    rewrite <- (firstn_skipn k (loaded fs)) at 1. rewrite <- E. clear - E. revert l E. generalize (loaded fs). induction k as [|k IH]; intros [|x xs] l E; try discriminate E.
    + cbn in *. now injection E as _ ->.
    + cbn [firstn app skipn plus] in *. now apply IH.
Qed.
Theorem C63_places_known fl fs ms : readable fs -> parse_files fl (loaded fs) = inl ms -> All (module_placed (in_source fs)) ms.
Proof. intros R H. exact (files_in fl fs R 0 ms H). Qed.
Print Assumptions C63_places_known.
(** Every file gives its module, in order; or the first that is not read stops it. *)
Theorem C63_every_file fl fs :
  match parse_files fl fs with
  | inl ms => Forall2 (fun f m => parse_file fl f = PMatch m []) fs ms
  | inr (k, x) => exists f, nth_error fs k = Some f /\ parse_file fl f = x /\ (x = PFail \/ (x = PPanic /\ bad_escape (f_source f))) /\
      Forall (fun f => exists m, parse_file fl f = PMatch m []) (firstn k fs)
  end.
Proof.
  induction fs as [|f fs IH]; cbn [parse_files]; [constructor|]. pose proof (C63_parser_ends fl f) as E. destruct (parse_file fl f) as [m r| | |] eqn:P.
  - subst r. destruct (parse_files fl fs) as [ms|(k, x)]; [now constructor|]. destruct IH as (g & N & X & F & A). exists g. repeat split; auto. cbn [firstn]. constructor; eauto.
  - exists f. cbn. repeat split; auto.
  - exists f. cbn. repeat split; auto.
  - contradiction.
Qed.
Print Assumptions C63_every_file.
(** From the files to the log: every diagnostic of a compilation is logged, and so is
    an error that stops it and has a place; and the message to the player blames the
    mods of the errors. *)
Theorem C63_files_reported fl fs ms ev p : readable fs -> fs <> [] -> parse_files fl (loaded fs) = inl ms ->
  match compile ev ms p with
  | Done out => forall ws es, splits (out_diags out) ws es ->
      fst (compile_and_report (displayable (loaded fs)) (Done (out_diags out))) = map LogWarn ws ++ map LogError es
  | Fail e =>
      fst (compile_and_report (displayable (loaded fs)) (Fail e)) =
      match e with
      | SyntaxError sp => [LogError (DSyntaxError sp)]
      | CteError m sp => [LogError (DCteError m sp)]
      | CompileError c sp => [LogError (DCompileError c sp)]
      | _ => [LogUnexpected e]
      end
  end.
Proof. intros R N H. apply C59_all_reported; [apply R|exact N|]. eapply C63_places_known; eauto. Qed.
Print Assumptions C63_files_reported.
Theorem C63_files_blamed fl fs ms po orders scripts hs ev p out ws es : readable fs -> fair orders -> parse_files fl (loaded fs) = inl ms ->
  compile ev ms p = Done out -> splits (out_diags out) ws es -> es <> [] ->
  exists mods shown_hints,
    failure_message po orders scripts (loaded fs) hs (snd (compile_and_report (displayable (loaded fs)) (Done (out_diags out)))) =
      Done (Some (message mods (map hi_message shown_hints))) /\
    tells po scripts fs hs (map (fun d => (diag_code d, diag_span d)) es) mods shown_hints.
Proof.
  intros R O H C S N. destruct (C62_errors_blamed po orders scripts fs hs ev ms p out ws es) as (_ & X); auto; [apply R|]. eapply C63_places_known; eauto.
Qed.
Print Assumptions C63_files_blamed.

(** ** A file with a name of two bytes in a comment, whose parts are where they are *)
Definition ps_line1 : str := lit "// nothing" ++ [xc3; xa9] ++ newline.
Definition ps_line2 : str := lit "func f(n: Int32) -> Int32 { let x: Int32 = n; return g(x); }".
Definition ps_text : list str := one_byte (lit "// nothing") ++ [[xc3; xa9]] ++ one_byte (newline ++ ps_line2).
Definition ps_files : list source := [(lit "a.reds", one_byte (lit "// nothing")); (lit "b.reds", ps_text)].
Lemma ps_readable : readable ps_files.
Proof.
  assert (C : forall s, forallb (fun b => negb (is_cont b)) s = true -> Forall P_SourceMap.is_char (one_byte s)).
  { intros s H. apply Forall_forall. intros c K. apply in_map_iff in K as (b & <- & K). rewrite forallb_forall in H. exists b, []. repeat split; auto. now apply negb_true_iff, H. }
  assert (A : forall s, Forall alone (one_byte s)).
  { intros s. apply Forall_forall. intros c K. apply in_map_iff in K as (b & <- & K). intros b' r E _. now injection E as _ <-. }
  split; [split; [|vm_compute; discriminate]|].
  - constructor; [apply C; reflexivity|]. constructor; [|constructor]. apply Forall_app. split; [apply C; reflexivity|]. apply Forall_app. split; [|apply C; reflexivity].
    constructor; [|constructor]. exists xc3, [xa9]. repeat split; [constructor; [reflexivity|constructor]|discriminate].
  - constructor; [apply A|]. constructor; [|constructor]. apply Forall_app. split; [apply A|]. apply Forall_app. split; [|apply A].
    constructor; [|constructor]. intros b r E H. injection E as <- <-. exfalso. vm_compute in H. discriminate.
Qed.
Definition ps_at (low len : Z) : span := let p := base ps_files 1 + blen ps_line1 + low in Span p (p + len).
Definition ps_module : source_module := SourceModule None []
  [EntryFunction (FunctionSource (Decl [] [] (lit "f") (ps_at 0 6)) (Some (tn_basic (lit "Int32"))) [ParamSource [] (lit "n") (tn_basic (lit "Int32"))]
     (Some [EDeclare (N := source_ast) (lit "x") (Some (tn_basic (lit "Int32"))) (Some (EIdent (N := source_ast) (lit "n") (ps_at 43 1))) (ps_at 28 17);
            EReturn (Some (ECall (N := source_ast) (lit "g") [] [EIdent (N := source_ast) (lit "x") (ps_at 55 1)] (ps_at 53 4))) (ps_at 46 12)])
     (ps_at 0 60))].
Example C63_nonvacuous fl : readable ps_files /\ parse_files fl (loaded ps_files) = inl [SourceModule None [] []; ps_module].
Proof. split; [apply ps_readable|]. vm_compute. reflexivity. Qed.

(** ** Operators *)
(** The place of an expression is not always that of all of its text: read on its own,
    the text at the place is not the expression.  A prefix operator is left out of the
    place, and so are the parentheses at its ends, even if this splits a pair. *)
Definition own_text (fl : float_text) (chars : list str) (off : Z) (e : sexpr) : Prop :=
  forall w, text_at chars off (expr_span e) w -> parse_expr fl w = Some (unplaced e).
Definition op_text : list str := one_byte (lit "func f(a: Int32, b: Int32) -> Int32 = (a) + -(b)").
Definition op_neg : sexpr := EUnOp (N := source_ast) (EIdent (N := source_ast) (lit "b") (Span 46 47)) Neg (Span 46 47).
Definition op_sum : sexpr := EBinOp (N := source_ast) (EIdent (N := source_ast) (lit "a") (Span 39 40)) op_neg BAdd (Span 39 47).
Theorem C63_operators_refuted : exists fs text f m body, fs = [(lit "a.reds", text)] /\ readable fs /\ loaded fs = [f] /\
  sm_entries m = [EntryFunction body] /\ fs_body body = Some [EReturn (N := source_ast) (Some op_sum) (Span 36 48)] /\
  forall fl, parse_file fl f = PMatch m [] /\ ~ own_text fl text 0 op_sum /\ ~ own_text fl text 0 op_neg.
Proof.
  eexists [(lit "a.reds", op_text)], op_text, _, _, _. split; [reflexivity|]. split.
  { split; [split; [|vm_compute; discriminate]|]; (constructor; [|constructor]); cbn [snd]; unfold op_text, one_byte.
    - apply Forall_forall. intros c K. apply in_map_iff in K as (b & <- & K). exists b, []. repeat split; auto.
      assert (X : forallb (fun b => negb (is_cont b)) (lit "func f(a: Int32, b: Int32) -> Int32 = (a) + -(b)") = true) by reflexivity. rewrite forallb_forall in X. now apply negb_true_iff, X.
    - apply Forall_forall. intros c K. apply in_map_iff in K as (b & <- & K). intros b' r E _. now injection E as _ <-. }
  split; [vm_compute; reflexivity|]. split; [|split]; [| |intros fl; split; [vm_compute; reflexivity|split]].
  - reflexivity.
  - reflexivity.
  - intros H. assert (X : text_at op_text 0 (expr_span op_sum) (lit "a) + -(b")).
    { exists (firstn 39 op_text), (firstn 8 (skipn 39 op_text)), (skipn 47 op_text). repeat split. }
    apply H in X. vm_compute in X. discriminate X.
  - intros H. assert (X : text_at op_text 0 (expr_span op_neg) (lit "b")).
    { exists (firstn 46 op_text), (firstn 1 (skipn 46 op_text)), (skipn 47 op_text). repeat split. }
    apply H in X. vm_compute in X. discriminate X.
Qed.
Print Assumptions C63_operators_refuted.
