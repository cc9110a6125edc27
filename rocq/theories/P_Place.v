(** Property C59. *)
From Coq Require Import String.
From Coq Require Import ZArith List Bool Lia Arith.
From Verif Require Import BundleFacts Bytes Bytecode Definitions Bundle Ast Pool Scope TypeCheck Symbols Report Search SourceMap Assembler Unit
  P_Report P_SourceMap Display PlaceSpec PlaceCheck PlaceBody PlaceFacts P_Unit.
Import ListNotations.
Open Scope Z_scope.

(** ** Specification *)

(** [sp] is the place of a part of a loaded file, from one character to another
    or to itself. *)
Definition in_source (fs : list source) (sp : span) : Prop :=
  exists i path before part after, nth_error fs i = Some (path, before ++ part ++ after) /\
    sp = Span (base fs i + blen (concat before)) (base fs i + blen (concat (before ++ part))).
(** The characters with the Unicode property White_Space (PropList.txt), in UTF-8. *)
Definition utf8 (n : Z) : str :=
  map byte_of_Z (if n <? 128 then [n] else if n <? 2048 then [192 + n / 64; 128 + n mod 64]
                 else [224 + n / 4096; 128 + n / 64 mod 64; 128 + n mod 64]).
Definition white (c : str) : Prop := exists n, c = utf8 n /\
  (9 <= n <= 13 \/ n = 32 \/ n = 133 \/ n = 160 \/ n = 5760 \/ 8192 <= n <= 8202 \/ n = 8232 \/ n = 8233 \/ n = 8239 \/ n = 8287 \/ n = 12288).
(** A line without the white space at its end, and with tabs as spaces. *)
Definition untab (c : str) : str := map (fun b => if Byte.eqb b x09 then x20 else b) c.
Inductive shown : list str -> list str -> Prop :=
| shown_line line spaces : (forall c, In c spaces -> white c) ->
    (line = [] \/ exists l c, line = l ++ [c] /\ ~ white c) ->
    shown (line ++ spaces) (map untab line).
(** The four lines of a report. *)
Definition report (code path : str) (line col : nat) (text : list str) (carets : nat) (message : str) : str :=
  code ++ lit "At " ++ path ++ lit ":" ++ dec (Z.of_nat line) ++ lit ":" ++ dec (Z.of_nat col) ++ lit ":" ++ newline ++
  concat text ++ newline ++
  repeat x20 (col - 1) ++ repeat x5e carets ++ newline ++
  message ++ newline.
(** The code that comes first. *)
Definition code_of (d : diagnostic) : str :=
  match d with DCompileError c _ => lit "[" ++ cause_code c ++ lit "] " | _ => [] end.

(** ** Trimming *)
Lemma starts_concat l : Forall is_char l -> starts_char (concat l) = true.
Proof.
  destruct 1 as [|c l (b & rest & -> & H & _) _]; [reflexivity|]. cbn. now rewrite H.
Qed.
Lemma split_cons c s : is_char c -> starts_char s = true -> split_chars (c ++ s) = c :: split_chars s.
Proof.
  intros (b & rest & -> & _ & H & _) S. cbn [app split_chars]. revert b.
  induction H as [|x r X R IH]; intros b; cbn [app].
  - now rewrite S.
  - cbn [starts_char]. rewrite X. cbn [negb split_chars]. now rewrite IH.
Qed.
Lemma split_concat l : Forall is_char l -> split_chars (concat l) = l.
Proof.
  induction 1 as [|c l C L IH]; [reflexivity|]. cbn [concat]. rewrite split_cons, IH; auto using starts_concat.
Qed.
Definition white_codes : list Z := map Z.of_nat (seq 9 5 ++ [32; 133; 160]%nat) ++ [5760] ++ map (fun i => 8192 + Z.of_nat i) (seq 0 11) ++ [8232; 8233; 8239; 8287; 12288].
Lemma white_table : white_space = map utf8 white_codes.
Proof. vm_compute. reflexivity. Qed.
Lemma white_spec c : is_white c = true <-> white c.
Proof.
  unfold is_white. rewrite existsb_exists. split.
  - intros (x & X & E). destruct (str_eqb_spec c x) as [<-|]; [|discriminate]. rewrite white_table in X. apply in_map_iff in X as (n & <- & N).
    exists n. split; [reflexivity|]. cbn in N. lia.
  - intros (n & -> & H). exists (utf8 n). split; [|now destruct (str_eqb_spec (utf8 n) (utf8 n))]. rewrite white_table. apply in_map.
    cbn. lia.
Qed.
Lemma drop_white_spec l : exists w, l = w ++ drop_white l /\ (forall c, In c w -> white c) /\
  (drop_white l = [] \/ exists c r, drop_white l = c :: r /\ ~ white c).
Proof.
  induction l as [|c l (w & E & W & H)]; [exists []; split; [reflexivity|split; [now intros ? []|now left]]|]. cbn [drop_white].
  destruct (is_white c) eqn:B.
  - exists (c :: w). cbn [app]. rewrite <- E. apply white_spec in B. split; [reflexivity|split; [|exact H]]. intros x [<-|X]; auto.
  - exists []. split; [reflexivity|split; [now intros ? []|]]. right. exists c, l. split; auto. intros X. apply white_spec in X. congruence.
Qed.
Lemma tabs_concat l : replace_tabs (concat l) = concat (map untab l).
Proof. unfold replace_tabs. now rewrite concat_map. Qed.
Lemma trimmed l : Forall is_char l -> exists l', shown l l' /\ replace_tabs (trim_end (concat l)) = concat l'.
Proof.
  intros H. unfold trim_end. rewrite split_concat by exact H. destruct (drop_white_spec (rev l)) as (w & E & W & L).
  exists (map untab (rev (drop_white (rev l)))). split; [|apply tabs_concat].
  rewrite <- (rev_involutive l) at 1. rewrite E at 1. rewrite rev_app_distr. constructor.
  - intros c C. apply W. now apply in_rev.
  - destruct L as [->|(c & r & -> & N)]; [now left|]. right. cbn [rev]. eauto.
Qed.

(** ** The lines of a span *)
Lemma newlines_app a b : newlines (a ++ b) = (newlines a + newlines b)%nat.
Proof. apply count_occ_app. Qed.
Lemma newlines_none a : ~ In newline a -> newlines a = 0%nat.
Proof. apply count_occ_not_In. Qed.
Lemma newlines_some a : In newline a -> (newlines a > 0)%nat.
Proof. apply count_occ_In. Qed.

Lemma displayed fs i path text b1 l1 r1 a1 b2 l2 r2 a2 message d : fits fs -> nth_error fs i = Some (path, text) ->
  on_line text b1 l1 r1 a1 -> on_line text b2 l2 r2 a2 ->
  diag_span d = Span (base fs i + blen (concat (b1 ++ l1))) (base fs i + blen (concat (b2 ++ l2))) ->
  (newlines b1 = newlines b2 -> length l1 <= length l2)%nat ->
  exists shown_text, shown (l1 ++ r1) shown_text /\
    display (loaded fs) message d = Done (report (code_of d) path (newlines b1 + 1) (length l1 + 1) shown_text
      (if Nat.eqb (newlines b1) (newlines b2) then Nat.max (length l2 - length l1) 1 else 3) (message d)).
Proof.
  intros F E H1 H2 S K.
  destruct (C34_lookup_span _ _ _ _ _ _ _ _ _ _ _ _ F E H1 H2) as (f & L & Pa & So).
  destruct (C34_lookup _ _ _ _ _ _ _ _ F E H1) as (f' & L' & Pa' & So' & FL & EL).
  assert (f' = f) as ->.
  { unfold files_lookup in L. cbn [sp_low sp_high] in L. rewrite L' in L. destruct (file_lookup f' _) as [[x|]|]; cbn [obind] in L; try discriminate.
    destruct (file_lookup f' (base fs i + blen (concat (b2 ++ l2)))) as [[y|]|]; cbn [obind] in L; try discriminate. now injection L. }
  assert (C : Forall is_char (l1 ++ r1)).
  { destruct F as [F _]. rewrite Forall_forall in F. specialize (F _ (nth_error_In _ _ E)). cbn [snd] in F. rewrite (ol_text _ _ _ _ _ H1) in F.
    apply Forall_app in F as [_ F]. rewrite app_assoc in F. now apply Forall_app in F. }
  destruct (trimmed _ C) as (t & T & R). exists t. split; [exact T|].
  unfold display. rewrite S, L. cbn [obind]. rewrite EL. cbn [obind]. rewrite R.
  unfold report, show_loc, code_of. rewrite Pa.
  replace (Z.of_nat (newlines b1 + 1)) with (Z.of_nat (newlines b1) + 1) by lia.
  replace (Z.of_nat (length l1 + 1)) with (Z.of_nat (length l1) + 1) by lia.
  replace (length l1 + 1 - 1)%nat with (length l1) by lia.
  destruct (Nat.eqb_spec (newlines b1) (newlines b2)) as [X|X].
  - destruct (Nat.ltb_spec (length l2) (length l1)) as [Y|Y]; [specialize (K X); lia|]. cbn [obind]. now rewrite <- !app_assoc.
  - cbn [obind]. now rewrite <- !app_assoc.
Qed.

(** ** Theorems *)

(** A diagnostic at a part of a line is shown with the path of its file, the number
    of its line and its column, both from one, the line itself, and as many carets
    below it as the part has characters, at least one, that stand below that part. *)
Theorem C59_shown_on_line fs i path text before left part rest after message d : fits fs -> nth_error fs i = Some (path, text) ->
  on_line text before left (part ++ rest) after -> ~ In newline part ->
  diag_span d = Span (base fs i + blen (concat (before ++ left))) (base fs i + blen (concat (before ++ left ++ part))) ->
  exists shown_text, shown (left ++ part ++ rest) shown_text /\
    display (loaded fs) message d =
      Done (report (code_of d) path (newlines before + 1) (length left + 1) shown_text (Nat.max (length part) 1) (message d)).
Proof.
  intros F E H N S.
  assert (H2 : on_line text before (left ++ part) rest after).
  { destruct H as [T B L R]. constructor.
    - rewrite T. now rewrite <- !app_assoc.
    - exact B.
    - intros X. apply in_app_iff in X. tauto.
    - destruct R as [[X Y]|(r & X & Y)].
      + left. split; [|exact Y]. intros Z. apply X. apply in_app_iff. now right.
      + right. destruct (exists_last (l := rest)) as (z & c & Z).
        { intros ->. rewrite app_nil_r in X. subst part. apply N. apply in_app_iff. right. now left. }
        subst rest. rewrite app_assoc in X. apply app_inj_tail in X as [X ->]. exists z. split; [reflexivity|].
        intros W. apply Y. rewrite <- X. apply in_app_iff. now right. }
  destruct (displayed fs i path text _ _ _ _ _ _ _ _ message d F E H H2) as (t & T & D).
  - exact S.
  - intros _. rewrite app_length. lia.
  - exists t. split; [exact T|]. rewrite D, Nat.eqb_refl. do 2 f_equal. rewrite app_length. lia.
Qed.
Print Assumptions C59_shown_on_line.

(** A diagnostic at a part that goes beyond a line is shown with the line where the
    part starts and three carets below its first characters. *)
Theorem C59_shown_over_lines fs i path text before left right after part rest message d : fits fs -> nth_error fs i = Some (path, text) ->
  on_line text before left right after -> right ++ after = part ++ rest -> In newline part ->
  diag_span d = Span (base fs i + blen (concat (before ++ left))) (base fs i + blen (concat (before ++ left ++ part))) ->
  exists shown_text, shown (left ++ right) shown_text /\
    display (loaded fs) message d = Done (report (code_of d) path (newlines before + 1) (length left + 1) shown_text 3 (message d)).
Proof.
  intros F E H P N S.
  destruct (on_line_exists (before ++ left ++ part) rest) as (b2 & l2 & r2 & a2 & H2 & X & Y).
  assert (T : text = (before ++ left ++ part) ++ rest).
  { rewrite (ol_text _ _ _ _ _ H), P. now rewrite <- !app_assoc. }
  rewrite <- T in H2. rewrite X in S.
  assert (K : (newlines before < newlines b2)%nat).
  { apply (f_equal newlines) in X. rewrite !newlines_app in X. rewrite (newlines_none left), (newlines_none l2) in X.
    - pose proof (newlines_some _ N). lia.
    - exact (ol_left _ _ _ _ _ H2).
    - exact (ol_left _ _ _ _ _ H). }
  destruct (displayed fs i path text _ _ _ _ _ _ _ _ message d F E H H2 S) as (t & A & D); [lia|].
  exists t. split; [exact A|]. rewrite D. destruct (Nat.eqb_spec (newlines before) (newlines b2)); [lia|reflexivity].
Qed.
Print Assumptions C59_shown_over_lines.

(** What stands above a caret is the character of the place that it marks, unless it
    is white space at the end of the line. *)
Theorem C59_above_the_carets left part rest shown_text k c : shown (left ++ part ++ rest) shown_text ->
  nth_error part k = Some c -> nth_error shown_text (length left + k) = Some (untab c) \/
    (nth_error shown_text (length left + k) = None /\ white c).
Proof.
  intros H K. assert (L : nth_error (left ++ part ++ rest) (length left + k) = Some c).
  { rewrite nth_error_app2 by lia. replace (length left + k - length left)%nat with k by lia.
    rewrite nth_error_app1; [exact K|]. apply nth_error_Some. congruence. }
  inversion H as [line white W N E]. subst shown_text. rewrite <- E in L.
  destruct (Nat.lt_ge_cases (length left + k) (length line)) as [X|X].
  - left. rewrite nth_error_app1 in L by exact X. now rewrite nth_error_map, L.
  - right. split; [apply nth_error_None; now rewrite map_length|]. rewrite nth_error_app2 in L by exact X. apply W. eapply nth_error_In. exact L.
Qed.
Print Assumptions C59_above_the_carets.

(** Every place of a part of a loaded file can be shown. *)
Theorem C59_never_lost fs message d : fits fs -> in_source fs (diag_span d) -> exists s, display (loaded fs) message d = Done s.
Proof.
  intros F (i & path & before & part & after & E & S).
  destruct (on_line_exists before (part ++ after)) as (b & l & r & a & H & X & Y). rewrite X in S.
  destruct (in_dec (list_eq_dec Byte.byte_eq_dec) newline part) as [N|N].
  - destruct (C59_shown_over_lines fs i path _ b l r a part after message d F E H) as (t & _ & D); auto.
    + rewrite S. now rewrite <- !app_assoc.
    + eauto.
  - assert (exists rest, r = part ++ rest) as (rest & ->).
    { clear - Y N H. apply ol_right in H. destruct H as [[R ->]|(z & -> & R)].
      - rewrite app_nil_r in Y. eauto.
      - rewrite <- app_assoc in Y. revert part Y N. induction z as [|c z IH]; intros [|p part] Y N; cbn [app] in *.
        + eexists. reflexivity.
        + cbn in Y. injection Y as -> _. destruct N. now left.
        + eexists. reflexivity.
        + cbn in Y. injection Y as -> Y. destruct (IH (fun X => R (or_intror X)) part Y (fun X => N (or_intror X))) as (q & ->). exists q. reflexivity. }
    destruct (C59_shown_on_line fs i path _ b l part rest a message d F E H N) as (t & _ & D); [rewrite S; now rewrite <- !app_assoc|eauto].
Qed.
Print Assumptions C59_never_lost.

(** The place of every diagnostic of a compilation is the place of a part of the
    compiled modules: whatever holds of all of these holds of it.  The place of an
    error that stops the compilation is one too, or the start of the first file, where
    the compiler puts calls that it made itself. *)
Theorem C59_place_of_a_part (P : span -> Prop) ev l p : All (module_placed P) l ->
  match compile ev l p with
  | Done out => forall d, In d (out_diags out) -> P (diag_span d)
  | Fail e => forall d, diag_from_error e = Done d -> P (diag_span d) \/ diag_span d = Span 0 0
  end.
Proof.
  intros H. pose proof (compile_placed P ev l p H) as K. destruct (compile ev l p) as [out|e]; cbn in K.
  - intros d D. exact (proj1 (All_in _ _) K d D).
  - intros d D. destruct e; try discriminate D; injection D as <-; exact K.
Qed.
Print Assumptions C59_place_of_a_part.

(** So compile_and_report gets through: every diagnostic of a compilation is logged,
    in the order of C26, and so is an error that stops it and has a place; it is never
    cut short because a place is unknown. *)
Lemma zero_in_source fs : fs <> [] -> in_source fs (Span 0 0).
Proof. destruct fs as [|[path text] fs]; [easy|]. intros _. exists 0%nat, path, [], [], text. split; reflexivity. Qed.
Lemma in_source_displayable fs sp : fits fs -> in_source fs sp -> displayable (loaded fs) sp = true.
Proof. intros F H. unfold displayable. destruct (C59_never_lost fs (fun _ => []) (DSyntaxError sp) F H) as (s & ->). reflexivity. Qed.
Theorem C59_all_reported fs ev l p : fits fs -> fs <> [] -> All (module_placed (in_source fs)) l ->
  match compile ev l p with
  | Done out => forall ws es, splits (out_diags out) ws es ->
      fst (compile_and_report (displayable (loaded fs)) (Done (out_diags out))) = map LogWarn ws ++ map LogError es
  | Fail e =>
      fst (compile_and_report (displayable (loaded fs)) (Fail e)) =
      match e with
      | SyntaxError sp => [LogError (DSyntaxError sp)]
      | CteError m sp => [LogError (DCteError m sp)]
      | CompileError c sp => [LogError (DCompileError c sp)]
      | _ => [LogUnexpected e]
      end
  end.
Proof.
  intros F N H. pose proof (C59_place_of_a_part (in_source fs) ev l p H) as K. destruct (compile ev l p) as [out|e].
  - intros ws es S. destruct (C26_report (displayable (loaded fs)) _ _ _ S) as (r & -> & _); [|reflexivity].
    intros d D. apply in_source_displayable; auto.
  - assert (Z : forall d, diag_from_error e = Done d -> displayable (loaded fs) (diag_span d) = true).
    { intros d D. apply in_source_displayable; [exact F|]. destruct (K d D) as [X|X]; [exact X|]. rewrite X. now apply zero_in_source. }
    destruct (C26_stopped (displayable (loaded fs)) e) as (evs & e' & -> & X).
    destruct e; cbn [fst]; try apply X; apply (Z _ eq_refl).
Qed.
Print Assumptions C59_all_reported.

(** Two files; the second has a variable that is not used in its second line and a
    name that nothing has in its fifth. *)
Definition one_byte (s : str) : list str := map (fun b => [b]) s.
Definition pl_texts : list str := [lit "func f(n: Int32) -> Int32 {"; x09 :: lit "let x: Int32 = n; "; x09 :: lit "return n;"; lit "}"; lit "func g(n: Int32) -> Int32 = missing"].
Definition pl_text : str := concat (map (fun l => l ++ newline) pl_texts).
Definition pl_files : list source := [(lit "a.reds", one_byte (lit "// nothing")); (lit "b.reds", one_byte pl_text)].
(** From column [c] of line [l] of the second file, both from zero, [n] bytes. *)
Definition pl_at (l c n : nat) : span :=
  let start := base pl_files 1 + blen (concat (map (fun l => l ++ newline) (firstn l pl_texts))) + Z.of_nat c in Span start (start + Z.of_nat n).
Definition pl_fun (name : string) (sp : span) (body : list sexpr) : source_entry :=
  EntryFunction (FunctionSource (Decl [] [] (lit name) sp) (Some (tn_basic (lit "Int32"))) [ParamSource [] (lit "n") (tn_basic (lit "Int32"))] (Some body) sp).
Definition pl_module : source_module := SourceModule None []
  [pl_fun "f" (pl_at 0 0 60) [EDeclare (N := source_ast) (lit "x") (Some (tn_basic (lit "Int32"))) (Some (EIdent (N := source_ast) (lit "n") (pl_at 1 16 1))) (pl_at 1 1 17);
     EReturn (Some (EIdent (N := source_ast) (lit "n") (pl_at 2 8 1))) (pl_at 2 1 9)];
   pl_fun "g" (pl_at 4 0 35) [EReturn (Some (EIdent (N := source_ast) (lit "missing") (pl_at 4 28 7))) (pl_at 4 28 7)]].
Lemma one_byte_concat s : concat (one_byte s) = s.
Proof. induction s as [|b s IH]; [reflexivity|]. change (b :: concat (one_byte s) = b :: s). now rewrite IH. Qed.
Lemma pl_in_source l c n : let sp := pl_at l c n in sp_high sp <= base pl_files 1 + blen pl_text -> in_source pl_files sp.
Proof.
  cbn zeta. unfold pl_at. cbn [sp_high]. set (k := length (concat (map (fun l => l ++ newline) (firstn l pl_texts)))). intros H.
  exists 1%nat, (lit "b.reds"), (one_byte (firstn (k + c) pl_text)), (one_byte (firstn n (skipn (k + c) pl_text))), (one_byte (skipn n (skipn (k + c) pl_text))).
  assert (L : (k + c + n <= length pl_text)%nat) by (unfold blen in H; fold k in H; lia).
  split.
  - unfold one_byte. rewrite <- !map_app. now rewrite !firstn_skipn.
  - rewrite concat_app, !one_byte_concat. unfold blen. rewrite app_length, !firstn_length, skipn_length. fold k. f_equal; lia.
Qed.
Definition pl_message (d : diagnostic) : str := lit "...".
Definition pl_result : output := Eval vm_compute in match compile un_env [pl_module] un_pool with Done o => o | Fail _ => Output un_pool [] [] end.
Example C59_nonvacuous : fits pl_files /\ All (module_placed (in_source pl_files)) [pl_module] /\
  compile un_env [pl_module] un_pool = Done pl_result /\
  map (display (loaded pl_files) pl_message) (out_diags pl_result) =
  [Done (concat (map (fun l => l ++ newline)
     [lit "At b.reds:2:2:"; lit " let x: Int32 = n;"; lit " ^^^^^^^^^^^^^^^^^"; lit "..."]));
   Done (concat (map (fun l => l ++ newline)
     [lit "[UNRESOLVED_REF] At b.reds:5:29:"; lit "func g(n: Int32) -> Int32 = missing"; lit "                            ^^^^^^^"; lit "..."]))].
Proof.
  split; [|split; [|split]].
  - split; [|vm_compute; discriminate]. constructor; [|constructor; [|constructor]]; cbn [snd]; apply Forall_forall; intros c C;
      apply in_map_iff in C as (b & <- & C); exists b, []; repeat split; auto;
      (assert (X : forallb (fun b => negb (is_cont b)) (lit "// nothing" ++ pl_text) = true) by (vm_compute; reflexivity));
      rewrite forallb_forall in X; apply negb_true_iff; apply X; apply in_app_iff; auto.
  - cbn. repeat split; apply pl_in_source; vm_compute; discriminate.
  - vm_compute. reflexivity.
  - vm_compute. reflexivity.
Qed.
