(** C68: the game's compiler and the command line tool build the same. *)
From Coq Require Import String.
From Coq Require Import ZArith List Bool Lia Permutation.
From Verif Require Import Bytes BytesFacts Bytecode Definitions Bundle BundleFacts BundleSpec BundleLoad BundleThms DefinitionsSpec P_Bundle Ast Pool Scope TypeCheck Diagnostics Report SourceMap Display Sources SourcesSpec Printer Parser Positions Wrappers Unit
  Cli P_Report P_SourceMap P_Place PlaceSpec P_Failure PositionSpec P_Positions P_Sources P_Unit FunctionFacts P_Cli SccCompile SccCompileSpec SccCompileFacts.
Import ListNotations.
Open Scope Z_scope.

(** The passes as an argument: with the default ones it is the compiler of the tool. *)
Lemma compile_default_passes ev l p : compile_with passes ev l p = compile ev l p.
Proof.
  unfold compile_with, compile. destruct (unit_new ev p) as [st|e]; cbn; [|reflexivity]. rewrite modules_split. reflexivity.
Qed.

(** C68.  For any scripts and any pool, the passes change nothing about the result: it is
    the same pool or the same failure. *)
Theorem C68_passes_change_nothing ev ms p : same_result (compile ev ms p) (compile_with no_passes ev ms p).
Proof. apply compile_alike. Qed.
Print Assumptions C68_passes_change_nothing.

(** What it means that the scripts compile for the game: as [compiles] for the tool, on a
    cache without the mark, and without the passes. *)
Record scc_compiles (fl : float_text) (ev : env) (cache : option (list byte)) (disk : filesystem) (src : list str) (b : bundle) (files : list file) (out : output) : Prop := {
  sm_cache : exists bytes, cache = Some bytes /\ load bytes = Ok b;
  sm_unmarked : st_get_index (pl_names (bn_pool b)) (lit "$REDSCRIPT_SIGNATURE") = None;
  sm_sources : from_dirs disk src KeepAll = Some files;
  sm_modules : exists ms, parse_files fl files = inl ms /\ compile_with no_passes (on_files ev files) ms (bn_pool b) = Done out;
  sm_warnings : forall d, In d (out_diags out) -> warning d }.

Lemma bare_compile ev ms p out : compile_with no_passes ev ms p = Done out ->
  exists out', compile ev ms p = Done out' /\ out_pool out' = out_pool out /\ out_refs out' = out_refs out /\ more_of_passes (out_diags out') (out_diags out).
Proof. intros H. pose proof (compile_alike ev ms p) as A. rewrite H in A. destruct (compile ev ms p) as [o|e]; [|contradiction]. exists o. now split. Qed.
Lemma more_incl l l' d : more_of_passes l l' -> In d l' -> In d l.
Proof. intros (x & P & _) I. apply (Permutation_in _ (Permutation_sym P)). apply in_or_app. now left. Qed.
Lemma more_cases l l' d : more_of_passes l l' -> In d l -> In d l' \/ of_a_pass d.
Proof. intros (x & P & F) I. apply (Permutation_in _ P), in_app_or in I as [I|I]; [now left|right]. rewrite Forall_forall in F. now apply F. Qed.
Lemma build_with_done fl ev stop p log out : build_with no_passes fl ev stop p = (log, Done out) ->
  exists ms, parse_files fl (ev_files ev) = inl ms /\ compile_with no_passes ev ms p = Done out /\ (forall d, In d (out_diags out) -> warning d) /\ log = map LogWarn (out_diags out).
Proof.
  unfold build_with. destruct (compile_files_with no_passes fl ev stop p) as [o|e] eqn:C.
  - destruct (compile_and_report _ _) as [l r] eqn:R. destruct r as [ds|]; [|discriminate]. intros H. injection H as <- <-. apply report_done in R as [W ->].
    unfold compile_files_with in C. destruct (parse_files fl (ev_files ev)) as [ms|[k x]]; [|destruct x; discriminate C]. exists ms. auto.
  - intros H. exfalso. destruct e; try discriminate H; destruct (compile_and_report _ _) as [l r]; destruct r; discriminate H.
Qed.

(** The mark: one more name, unless it is there, and one more definition, an empty enum. *)
Definition mark (i : pidx) : definition :=
  {| df_name := i; df_parent := 0; df_unk1 := 0; df_unk2 := 0; df_unk3 := 0; df_value := DEnum {| en_flags := 0; en_size := 0; en_members := []; en_unk1 := false |} |}.
Definition marked (p q : pool) : Prop := exists i,
  (st_list (pl_names q) = st_list (pl_names p) \/
   st_list (pl_names q) = st_list (pl_names p) ++ [lit "$REDSCRIPT_SIGNATURE"] /\ i = Z.of_nat (length (st_list (pl_names p))) mod 2 ^ 32) /\
  st_list (pl_tweakdb q) = st_list (pl_tweakdb p) /\ st_list (pl_resources q) = st_list (pl_resources p) /\ st_list (pl_strings q) = st_list (pl_strings p) /\
  pl_defs q = pl_defs p ++ [mark i].
Lemma sign_marked p : marked p (sign p).
Proof.
  unfold sign, add_name, st_add. change (str_eqb none_str signature) with false. cbv iota. destruct (sm_find _ _) as [i|]; cbn; eexists;
    (split; [first [now left|right; split; [reflexivity|]; unfold wrap_u; reflexivity]|]); do 3 (split; [reflexivity|]); reflexivity.
Qed.
Lemma sign_sourced p : all_good sourced p -> all_good sourced (sign p).
Proof. intros G. destruct (sign_marked p) as (i & _ & _ & _ & _ & E). unfold all_good in *. rewrite E. apply Forall_app. split; [exact G|]. repeat constructor. Qed.
Lemma marked_saved p : marked (saved_pool p) (saved_pool (sign p)).
Proof.
  destruct (sign_marked p) as (i & N & T & R & S & E). exists i. split; [exact N|]. do 3 (split; [assumption|]). cbn [saved_pool pl_defs]. rewrite E, map_app. reflexivity.
Qed.
Lemma bare_sourced bytes b ev ms out : load bytes = Ok b -> compile_with no_passes ev ms (bn_pool b) = Done out -> all_good sourced (out_pool out).
Proof. intros L C. apply bare_compile in C as (o & C & <- & _). exact (compile_sourced _ _ _ _ _ L C). Qed.

(** What the mark does to a pool: nothing else changes. *)
Theorem C68_only_the_mark_is_added p : marked p (sign p).
Proof. apply sign_marked. Qed.
Print Assumptions C68_only_the_mark_is_added.

(** If the game's compiler writes something then the scripts compile, and it is what was
    compiled with the mark. *)
Theorem C68_output_is_what_was_compiled fl ev stop cache disk src creatable bytes :
  let r := scc_command fl ev stop cache disk src creatable in
  run_output r = Written bytes ->
  run_status r = Success /\
  exists b files out, scc_compiles fl ev cache disk src b files out /\ run_log r = map LogWarn (out_diags out) /\
    (pool_fits (sign (out_pool out)) -> Z.of_nat (length bytes) < 2 ^ 32 ->
     exists b', load bytes = Ok b' /\ same_meta (bn_header b) (bn_header b') /\ pool_saved (sign (out_pool out)) (bn_pool b')).
Proof.
  cbv zeta. unfold scc_command. destruct (from_dirs disk src KeepAll) as [files|] eqn:F; [|discriminate]. destruct cache as [c|]; [|discriminate].
  destruct (load c) as [b|e] eqn:L; [|destruct e; discriminate]. destruct (is_signed (bn_pool b)) eqn:G; [discriminate|]. destruct (unit_new _ _) as [u|e]; [|destruct e; discriminate].
  destruct (build_with _ fl _ stop (bn_pool b)) as [log [out|e]] eqn:B; [|destruct e; discriminate]. destruct creatable; [|discriminate].
  destruct (save _ []) as [bs|e] eqn:S; [|destruct e; discriminate]. cbn [run_output run_status run_log]. intros H. injection H as ->. split; [reflexivity|].
  apply build_with_done in B as (ms & M & C & W & ->). rewrite on_files_files in M. exists b, files, out.
  split; [constructor; eauto; unfold is_signed in G; fold signature; now destruct (st_get_index _ _)|]. split; [reflexivity|].
  intros PO LT. apply fits_ok in PO; [|exact (sign_sourced _ (bare_sourced _ _ _ _ _ L C))].
  destruct (C05_bundle_roundtrip {| bn_header := bn_header b; bn_pool := sign (out_pool out) |} [] (load_meta _ _ L) PO) as (file & S' & K). rewrite S in S'. injection S' as <-.
  destruct (K LT) as (b' & L' & SM & PS & _). exists b'. auto.
Qed.
Print Assumptions C68_output_is_what_was_compiled.

(** If the scripts compile then the output is written. *)
Theorem C68_written_if_compiled fl ev stop cache disk src b files out : scc_compiles fl ev cache disk src b files out ->
  total files <= 2 ^ 32 -> pool_fits (sign (out_pool out)) ->
  exists bytes, scc_command fl ev stop cache disk src true = Run (map LogWarn (out_diags out)) Success (Written bytes).
Proof.
  intros [(c & -> & L) U F (ms & M & C) W] T PO. apply fits_ok in PO; [|exact (sign_sourced _ (bare_sourced _ _ _ _ _ L C))].
  destruct (bare_compile _ _ _ _ C) as (o & C' & _ & _ & MP). unfold scc_command. rewrite F, L. unfold is_signed. fold signature in U. rewrite U.
  destruct (compile_unit_new _ _ _ _ C') as (st & ->).
  unfold build_with, compile_files_with. rewrite on_files_files, M, C. destruct (from_dirs_readable _ _ _ _ F T) as (fs & -> & R).
  pose proof (C63_places_known _ _ _ R M) as A. pose proof (C59_place_of_a_part (in_source fs) (on_files ev (loaded fs)) ms (bn_pool b) A) as K. rewrite C' in K.
  destruct (all_warnings _ W) as (S & E & G). cbn [compile_and_report]. rewrite S, E. rewrite log_all_known.
  2:{ intros d I. apply in_source_displayable; [apply R|]. apply K. exact (more_incl _ _ _ MP I). }
  rewrite G. destruct (C05_bundle_roundtrip {| bn_header := bn_header b; bn_pool := sign (out_pool out) |} [] (load_meta _ _ L) PO) as (file & -> & _). eauto.
Qed.
Print Assumptions C68_written_if_compiled.

(** scc returns success exactly if it has written its output, unlike the tool
    ([C67_failure_is_visible_refuted]); otherwise the output stays as it was, unless
    something compiled does not fit the format. *)
Theorem C68_success_means_written fl ev stop cache disk src creatable : let r := scc_command fl ev stop cache disk src creatable in
  (run_status r = Success <-> exists bytes, run_output r = Written bytes) /\
  (creatable = false -> run_output r = Untouched) /\
  ((forall b files out, ~ scc_compiles fl ev cache disk src b files out) -> run_output r = Untouched) /\
  (run_output r = Spoiled -> exists b files out, scc_compiles fl ev cache disk src b files out /\ ~ pool_fits (sign (out_pool out))).
Proof.
  cbv zeta. unfold scc_command.
  assert (N : forall log st, st <> Success -> (run_status (Run log st Untouched) = Success <-> exists bytes, run_output (Run log st Untouched) = Written bytes) /\
    (creatable = false -> run_output (Run log st Untouched) = Untouched) /\ ((forall b files out, ~ scc_compiles fl ev cache disk src b files out) -> run_output (Run log st Untouched) = Untouched) /\
    (run_output (Run log st Untouched) = Spoiled -> exists b files out, scc_compiles fl ev cache disk src b files out /\ ~ pool_fits (sign (out_pool out)))).
  { intros log st S. cbn [run_status run_output]. repeat split; try discriminate; [intros X; contradiction|intros (x & X); discriminate X]. }
  destruct (from_dirs disk src KeepAll) as [files|] eqn:F; [|now apply N]. destruct cache as [c|]; [|now apply N].
  destruct (load c) as [b|e] eqn:L; [|destruct e; now apply N]. destruct (is_signed (bn_pool b)) eqn:G; [now apply N|]. destruct (unit_new _ _) as [u|e]; [|destruct e; now apply N].
  destruct (build_with _ fl _ stop (bn_pool b)) as [log [out|e]] eqn:B; [|destruct e; now apply N]. destruct creatable; [|now apply N].
  apply build_with_done in B as (ms & M & C & W & ->). rewrite on_files_files in M.
  assert (K : scc_compiles fl ev (Some c) disk src b files out) by (constructor; eauto; unfold is_signed in G; fold signature; now destruct (st_get_index _ _)).
  assert (P : forall e, save {| bn_header := bn_header b; bn_pool := sign (out_pool out) |} [] = Err e -> ~ pool_fits (sign (out_pool out))).
  { intros e S PO. apply fits_ok in PO; [|exact (sign_sourced _ (bare_sourced _ _ _ _ _ L C))].
    destruct (C05_bundle_roundtrip {| bn_header := bn_header b; bn_pool := sign (out_pool out) |} [] (load_meta _ _ L) PO) as (file & E & _). congruence. }
  destruct (save {| bn_header := bn_header b; bn_pool := sign (out_pool out) |} []) as [bs|e].
  - cbn [run_status run_output]. split; [split; [eauto|reflexivity]|]. split; [discriminate|]. split; [intros X; destruct (X _ _ _ K)|discriminate].
  - assert (Q : exists st, st <> Success /\ match e with Panic => Run (map LogWarn (out_diags out)) Abort Spoiled | _ => Run (map LogWarn (out_diags out)) Failure Spoiled end = Run (map LogWarn (out_diags out)) st Spoiled)
      by (destruct e; eexists; (split; [|reflexivity]); discriminate). destruct Q as (st & S & ->). cbn [run_status run_output].
    split; [split; [intros X; contradiction|intros (x & X); discriminate X]|]. split; [discriminate|]. split; [intros X; destruct (X _ _ _ K)|]. intros _. exists b, files, out. split; [exact K|exact (P _ eq_refl)].
Qed.
Print Assumptions C68_success_means_written.

(** What compiles for the tool compiles for the game, with the same result.  The other way
    around, only two complaints of the passes can be in the way. *)
Theorem C68_agree fl ev cache disk src b files :
  st_get_index (pl_names (bn_pool b)) (lit "$REDSCRIPT_SIGNATURE") = None ->
  (forall out, compiles fl ev cache disk src b files out -> exists out', scc_compiles fl ev cache disk src b files out' /\
     out_pool out' = out_pool out /\ out_refs out' = out_refs out /\ more_of_passes (out_diags out) (out_diags out')) /\
  (forall out', scc_compiles fl ev cache disk src b files out' ->
     (exists out, compiles fl ev cache disk src b files out /\ out_pool out = out_pool out' /\ out_refs out = out_refs out') \/
     exists ms out d, parse_files fl files = inl ms /\ compile (on_files ev files) ms (bn_pool b) = Done out /\ In d (out_diags out) /\ strict d).
Proof.
  intros U. split.
  - intros out [A F (ms & M & C) W]. pose proof (compile_alike (on_files ev files) ms (bn_pool b)) as K. rewrite C in K.
    destruct (compile_with no_passes _ ms _) as [o|e] eqn:C'; [|contradiction]. destruct K as (K1 & K2 & K3). exists o. split; [|auto].
    constructor; eauto. intros d I. apply W. exact (more_incl _ _ _ K3 I).
  - intros o [A _ F (ms & M & C) W]. destruct (bare_compile _ _ _ _ C) as (out & C' & E1 & E2 & MP). destruct (existsb is_fatal (out_diags out)) eqn:X.
    + right. apply existsb_exists in X as (d & I & X). exists ms, out, d. split; [exact M|]. split; [exact C'|]. split; [exact I|].
      destruct (more_cases _ _ _ MP I) as [J|J]; [apply W in J; apply fatal_spec in J; congruence|]. destruct d; try contradiction; try discriminate X; exact Logic.I.
    + left. exists out. split; [|auto]. constructor; eauto. intros d I. apply fatal_spec. destruct (is_fatal d) eqn:Y; [|reflexivity]. assert (existsb is_fatal (out_diags out) = true) by (apply existsb_exists; eauto). congruence.
Qed.
Print Assumptions C68_agree.

Lemma fits_unmarked p : pool_fits (sign p) -> pool_fits p.
Proof.
  intros (A & B & C & D & ds & E & F). destruct (sign_marked p) as (i & N & T & R & S & G). rewrite T in B. rewrite R in C. rewrite S in D.
  split; [destruct N as [N|(N & _)]; rewrite N in A; [exact A|now apply Forall_app in A as (A & _)]|]. do 3 (split; [assumption|]).
  rewrite G in E. destruct (pl_defs p) as [|d ds']; [discriminate E|]. cbn [app] in E. injection E as -> <-. exists ds'. split; [reflexivity|]. now apply Forall_app in F as (F & _).
Qed.
Lemma same_meta_trans h h1 h2 : same_meta h h1 -> same_meta h h2 -> same_meta h1 h2.
Proof. intros (A & B & C & D & E) (A' & B' & C' & D' & E'). unfold same_meta. repeat split; congruence. Qed.

(** Of the commands: what the tool compiles the game's compiler writes too; in the files
    the one has the definitions of the other and the mark.  It logs no more. *)
Theorem C68_game_builds_what_the_tool_builds fl ev stop cache disk src b files out :
  let tool := compile_command fl ev stop cache disk src true in
  let game := scc_command fl ev stop cache disk src true in
  compiles fl ev cache disk src b files out -> st_get_index (pl_names (bn_pool b)) (lit "$REDSCRIPT_SIGNATURE") = None ->
  total files <= 2 ^ 32 -> pool_fits (sign (out_pool out)) ->
  exists bytes bytes', run_output tool = Written bytes /\ run_output game = Written bytes' /\ run_status game = Success /\ incl (run_log game) (run_log tool) /\
    (Z.of_nat (length bytes) < 2 ^ 32 -> Z.of_nat (length bytes') < 2 ^ 32 ->
     exists b1 b2, load bytes = Ok b1 /\ load bytes' = Ok b2 /\ same_meta (bn_header b1) (bn_header b2) /\ marked (bn_pool b1) (bn_pool b2)).
Proof.
  cbv zeta. intros C U T PO. destruct (proj1 (C68_agree fl ev cache disk src b files U) _ C) as (o & C' & E & _ & MP). rewrite <- E in PO.
  destruct (C68_written_if_compiled fl ev stop _ _ _ _ _ _ C' T PO) as (bytes' & R'). rewrite E in PO. pose proof (fits_unmarked _ PO) as PU.
  destruct (C67_written_if_compiled fl ev stop _ _ _ _ _ _ C T PU) as (bytes & R). exists bytes, bytes'. rewrite R, R'. cbn [run_output run_status run_log].
  do 3 (split; [reflexivity|]). split; [intros x I; apply in_map_iff in I as (d & <- & I); apply in_map; exact (more_incl _ _ _ MP I)|]. intros L1 L2.
  destruct C as [(c & -> & L) F (ms & M & K) W]. destruct C' as [(c' & [= <-] & L') _ _ (ms' & M' & K') _].
  pose proof (compile_sourced _ _ _ _ _ L K) as G. apply fits_ok in PU; [|exact G]. apply fits_ok in PO; [|exact (sign_sourced _ G)].
  assert (S1 : save {| bn_header := bn_header b; bn_pool := out_pool out |} [] = Ok bytes).
  { revert R. unfold compile_command. destruct (prepare _ _ _ _) as [[b0 ev']|s] eqn:P; [|discriminate]. apply prepared in P as (c0 & fs & [= <-] & L0 & F0 & ->).
    rewrite L in L0. injection L0 as <-. rewrite F in F0. injection F0 as <-. destruct (build fl _ stop (bn_pool b)) as [log [o0|e]] eqn:B; [|destruct e; discriminate].
    apply build_done in B as (ms0 & M0 & K0 & _ & _). rewrite on_files_files, M in M0. injection M0 as <-. rewrite K in K0. injection K0 as <-.
    destruct (save _ []) as [bs|e]; [|destruct e; discriminate]. intros H. apply (f_equal run_output) in H. cbn [run_output] in H. now injection H as ->. }
  assert (S2 : save {| bn_header := bn_header b; bn_pool := sign (out_pool out) |} [] = Ok bytes').
  { revert R'. unfold scc_command. rewrite F, L. destruct (is_signed _); [discriminate|]. destruct (unit_new _ _) as [u|e]; [|destruct e; discriminate].
    destruct (build_with _ fl _ stop (bn_pool b)) as [log [o0|e]] eqn:B; [|destruct e; discriminate].
    apply build_with_done in B as (ms0 & M0 & K0 & _ & _). rewrite on_files_files, M' in M0. injection M0 as <-. rewrite K' in K0. injection K0 as <-. rewrite E.
    destruct (save {| bn_header := bn_header b; bn_pool := sign (out_pool out) |} []) as [bs|e]; [|destruct e; discriminate]. intros H. apply (f_equal run_output) in H. cbn [run_output] in H. now injection H as ->. }
  pose proof (load_meta _ _ L) as LM.
  destruct (C05_bundle_roundtrip {| bn_header := bn_header b; bn_pool := out_pool out |} [] LM PU) as (f1 & Q1 & K1). rewrite S1 in Q1. injection Q1 as <-. destruct (K1 L1) as (b1 & LL1 & SM1 & _).
  destruct (C05_bundle_roundtrip {| bn_header := bn_header b; bn_pool := sign (out_pool out) |} [] LM PO) as (f2 & Q2 & K2). rewrite S2 in Q2. injection Q2 as <-. destruct (K2 L2) as (b2 & LL2 & SM2 & _).
  exists b1, b2. split; [exact LL1|]. split; [exact LL2|]. split; [exact (same_meta_trans _ _ _ SM1 SM2)|].
  rewrite (load_saved_pool {| bn_header := bn_header b; bn_pool := out_pool out |} [] _ _ LM PU S1 L1 LL1), (load_saved_pool {| bn_header := bn_header b; bn_pool := sign (out_pool out) |} [] _ _ LM PO S2 L2 LL2). apply marked_saved.
Qed.
Print Assumptions C68_game_builds_what_the_tool_builds.

(** If only the game's compiler writes, then the tool complained of a case that falls
    through or of a temporary value. *)
Theorem C68_difference_is_reported fl ev stop cache disk src b files out :
  let tool := compile_command fl ev stop cache disk src true in
  scc_compiles fl ev cache disk src b files out -> total files <= 2 ^ 32 -> pool_fits (sign (out_pool out)) ->
  (exists bytes, run_output tool = Written bytes) \/ (run_output tool = Untouched /\ exists d, strict d /\ In (LogError d) (run_log tool)).
Proof.
  cbv zeta. intros C T PO. pose proof C as [(c & -> & L) U F (ms & M & K) W]. destruct (bare_compile _ _ _ _ K) as (o & K' & E & _ & _).
  destruct (proj2 (C68_agree fl ev (Some c) disk src b files U) _ C) as [(o' & C' & E' & _)|(ms' & o' & d & M' & K0 & I & S)].
  - left. rewrite <- E' in PO. destruct (C67_written_if_compiled fl ev stop _ _ _ _ _ _ C' T (fits_unmarked _ PO)) as (bytes & ->). now exists bytes.
  - right. rewrite M in M'. injection M' as <-. rewrite K' in K0. injection K0 as <-.
    assert (FD : is_fatal d = true) by (destruct d; try contradiction; reflexivity).
    assert (FA : existsb is_fatal (sort_diags (out_diags o)) = true) by (apply existsb_exists; exists d; split; [now apply sort_in|exact FD]).
    unfold compile_command, prepare. rewrite L, F. destruct (compile_unit_new _ _ _ _ K') as (st & ->).
    unfold build, compile_files. rewrite on_files_files, M, K'. destruct (from_dirs_readable _ _ _ _ F T) as (fs & -> & R).
    pose proof (C63_places_known _ _ _ R M) as A. pose proof (C59_place_of_a_part (in_source fs) (on_files ev (loaded fs)) ms (bn_pool b) A) as P. rewrite K' in P.
    cbn [compile_and_report]. rewrite FA. rewrite log_all_known.
    2:{ intros x J. apply in_source_displayable; [apply R|]. apply P. exact (proj1 (sort_in _ _) J). }
    cbn [run_output run_log]. split; [reflexivity|]. exists d. split; [exact S|]. apply in_map_iff. exists d. rewrite FD. split; [reflexivity|now apply sort_in].
Qed.
Print Assumptions C68_difference_is_reported.

Lemma decoded_found buf os : forall idx acc p, decode_from_loop buf os idx acc = Ok p -> (forall s, In s (st_list acc) -> sm_find (st_map acc) s <> None) ->
  forall s, In s (st_list p) -> sm_find (st_map p) s <> None.
Proof.
  induction os as [|o os IH]; cbn [decode_from_loop]; intros idx acc p H A; [now injection H as <-|]. destruct (dec_cstr _) as [[s r]|]; [|discriminate H].
  intros u. apply (IH _ _ _ H). cbn [st_list st_map]. intros t I. cbn [sm_insert sm_find]. destruct (str_eqb_spec s t) as [->|N]; [discriminate|]. apply in_app_or in I as [I|[I|[]]]; [now apply A|contradiction].
Qed.
Lemma load_found file b s : load file = Ok b -> In s (st_list (pl_names (bn_pool b))) -> exists i, st_get_index (pl_names (bn_pool b)) s = Some i.
Proof.
  unfold load. destruct (dec_header file) as [[h r]|]; [|discriminate]. destruct (dec_pool file h r) as [[p r']|] eqn:D; [|discriminate]. intros H. injection H as <-. cbn [bn_pool].
  intros I. assert (N : sm_find (st_map (pl_names p)) s <> None); [|unfold st_get_index; destruct (sm_find _ _); [eauto|contradiction]]. revert I.
  unfold dec_pool, pbind, plift, pret in D. destruct (take_bytes _ _) as [[buf r1]|]; [|discriminate D]. destruct (dec_vec dec_u32 _ r1) as [[os r2]|]; [|discriminate D].
  destruct (decode_from buf os) as [names|] eqn:X; [|discriminate D].
  repeat match type of D with match ?x with _ => _ end = _ => destruct x; try discriminate D end. injection D as <- _. cbn [pl_names].
  apply (decoded_found _ _ _ _ _ X). intros t [].
Qed.
(** A cache with the mark is refused, whatever the scripts are. *)
Theorem C68_marked_is_refused fl ev stop bytes b disk src creatable : load bytes = Ok b -> In (lit "$REDSCRIPT_SIGNATURE") (st_list (pl_names (bn_pool b))) ->
  scc_command fl ev stop (Some bytes) disk src creatable = Run [] Failure Untouched.
Proof.
  intros L I. destruct (load_found _ _ _ L I) as (i & E). unfold scc_command. destruct (from_dirs _ _ _); [|reflexivity]. rewrite L. unfold is_signed. fold signature in E. now rewrite E.
Qed.
Print Assumptions C68_marked_is_refused.
(** So is what the game's compiler wrote, if the name of the mark does not come from the
    scripts. *)
Theorem C68_output_is_refused fl ev stop cache disk src creatable bytes b files out :
  run_output (scc_command fl ev stop cache disk src creatable) = Written bytes -> scc_compiles fl ev cache disk src b files out ->
  pool_fits (sign (out_pool out)) -> Z.of_nat (length bytes) < 2 ^ 32 -> st_get_index (pl_names (out_pool out)) (lit "$REDSCRIPT_SIGNATURE") = None ->
  forall fl' ev' stop' disk' src' creatable', scc_command fl' ev' stop' (Some bytes) disk' src' creatable' = Run [] Failure Untouched.
Proof.
  intros H C PO LT N fl' ev' stop' disk' src' creatable'. pose proof (C68_output_is_what_was_compiled fl ev stop cache disk src creatable bytes H) as (_ & b0 & fs0 & o & C0 & _ & K).
  assert (E : o = out).
  { destruct C as [(c & -> & L) _ F (ms & M & X) _], C0 as [(c0 & [= <-] & L0) _ F0 (ms0 & M0 & X0) _]. rewrite L in L0. injection L0 as <-. rewrite F in F0. injection F0 as <-. rewrite M in M0. injection M0 as <-. congruence. }
  subst o. destruct (K PO LT) as (b' & L' & _ & (PN & _)). apply (C68_marked_is_refused _ _ _ _ b'); [exact L'|]. rewrite PN.
  unfold sign, add_name, st_add. change (str_eqb none_str signature) with false. cbv iota. unfold st_get_index in N. fold signature in N. rewrite N. cbn. apply in_or_app. right. now left.
Qed.
Print Assumptions C68_output_is_refused.

(** * Examples and what does not hold *)
Definition scc_run (text : string) : run := scc_command cl_fl un_env un_sp (Some cl_cache) (cl_disk text) [lit "s"] true.
Definition scc_output (text : string) : output :=
  match parse_files cl_fl (cl_files text) with
  | inl ms => match compile_with no_passes (on_files un_env (cl_files text)) ms (bn_pool cl_bundle) with Done o => o | Fail _ => Output un_pool [] [] end
  | inr _ => Output un_pool [] []
  end.
(** A switch with a case that goes on with the next one. *)
Definition fall_text : string := "func H(n: Int32) -> Int32 { switch n { case 1: n = 2; case 2: return 3; } return n; }".
Definition fall_bytes : list byte := Eval vm_compute in match run_output (scc_run fall_text) with Written b => b | _ => [] end.
Definition scc_good_out : output := Eval vm_compute in scc_output good_text.
Definition scc_good_bytes : list byte := Eval vm_compute in match run_output (scc_run good_text) with Written b => b | _ => [] end.
Definition signed_pool : pool := Eval vm_compute in sign (out_pool scc_good_out).
Lemma signed_pool_is : sign (out_pool scc_good_out) = signed_pool. Proof. vm_compute. reflexivity. Qed.
Lemma scc_compiled text out : scc_output text = out -> (forall d, In d (out_diags out) -> warning d) ->
  match parse_files cl_fl (cl_files text) with
  | inl ms => match compile_with no_passes (on_files un_env (cl_files text)) ms (bn_pool cl_bundle) with Done _ => true | Fail _ => false end | inr _ => false end = true ->
  match from_dirs (cl_disk text) [lit "s"] KeepAll with Some _ => true | None => false end = true ->
  scc_compiles cl_fl un_env (Some cl_cache) (cl_disk text) [lit "s"] cl_bundle (cl_files text) out.
Proof.
  intros O W M F. constructor; [exists cl_cache; split; [reflexivity|apply cl_loads]|vm_compute; reflexivity| | |exact W].
  - unfold cl_files. destruct (from_dirs _ _ _); [reflexivity|discriminate].
  - unfold scc_output in O. destruct (parse_files cl_fl (cl_files text)) as [ms|]; [|discriminate]. exists ms. split; [reflexivity|].
    destruct (compile_with no_passes _ ms _); [|discriminate]. now rewrite O.
Qed.
Lemma scc_good : scc_compiles cl_fl un_env (Some cl_cache) (cl_disk good_text) [lit "s"] cl_bundle (cl_files good_text) scc_good_out.
Proof. apply scc_compiled; [vm_compute; reflexivity|intros d []|vm_compute; reflexivity|vm_compute; reflexivity]. Qed.
Example C68_nonvacuous :
  scc_compiles cl_fl un_env (Some cl_cache) (cl_disk good_text) [lit "s"] cl_bundle (cl_files good_text) scc_good_out /\
  total (cl_files good_text) <= 2 ^ 32 /\ pool_fits (sign (out_pool scc_good_out)) /\
  run_output (scc_run good_text) = Written scc_good_bytes /\ Z.of_nat (length scc_good_bytes) < 2 ^ 32 /\
  st_get_index (pl_names (out_pool scc_good_out)) (lit "$REDSCRIPT_SIGNATURE") = None /\
  compiles cl_fl un_env (Some cl_cache) (cl_disk good_text) [lit "s"] cl_bundle (cl_files good_text) good_out /\
  (exists b', load scc_good_bytes = Ok b' /\ length (pl_defs (bn_pool b')) = 29%nat).
Proof.
  split; [exact scc_good|]. split; [vm_compute; discriminate|]. split; [rewrite signed_pool_is|].
  - assert (T : forall l, forallb (fun s => forallb (fun b => negb (Z_of_byte b =? 0)) s && utf8_valid s) l = true -> Forall text_ok l).
    { intros l H. apply Forall_forall. intros s Hs. rewrite forallb_forall in H. specialize (H s Hs). apply andb_prop in H as (H1 & H2). split; [|exact H2].
      apply Forall_forall. rewrite forallb_forall in H1. intros x Hin. specialize (H1 _ Hin). lia. }
    split; [apply T; vm_compute; reflexivity|]. split; [apply T; vm_compute; reflexivity|]. split; [apply T; vm_compute; reflexivity|]. split; [apply T; vm_compute; reflexivity|].
    eexists. split; [unfold signed_pool; cbn [pl_defs]; reflexivity|].
    repeat lazymatch goal with
      | |- _ \/ (exists f l, ?c = _ /\ _) => right; exists (removelast c), Nop; split; [reflexivity|vm_compute; reflexivity]
      | |- _ => constructor
      end; cbn; unfold idx_ok, in_u, in_s; try lia; try discriminate.
  - split; [vm_compute; reflexivity|]. split; [vm_compute; reflexivity|]. split; [vm_compute; reflexivity|]. split; [exact (proj1 C67_nonvacuous)|]. eexists. split; vm_compute; reflexivity.
Qed.

(** The game's compiler accepts scripts the tool does not: it runs no passes, although two
    of them find errors. *)
Theorem C68_same_scripts_refuted : exists fl ev stop cache disk src,
  (exists bytes, run_output (scc_command fl ev stop cache disk src true) = Written bytes) /\
  run_output (compile_command fl ev stop cache disk src true) = Untouched.
Proof.
  exists cl_fl, un_env, un_sp, (Some cl_cache), (cl_disk fall_text), [lit "s"]. split; [exists fall_bytes|]; vm_compute; reflexivity.
Qed.
Print Assumptions C68_same_scripts_refuted.
(** What the tool compiled has no mark, so scripts can be compiled on top of it, by the
    tool and by the game's compiler. *)
Definition tool_bytes : list byte := Eval vm_compute in match run_output (cl_run good_text) with Written b => b | _ => [] end.
Theorem C68_tool_output_is_refused_refuted : exists fl ev stop cache disk src bytes,
  run_output (compile_command fl ev stop cache disk src true) = Written bytes /\
  exists disk' bytes', run_output (scc_command fl ev stop (Some bytes) disk' src true) = Written bytes'.
Proof.
  exists cl_fl, un_env, un_sp, (Some cl_cache), (cl_disk good_text), [lit "s"], tool_bytes. split; [vm_compute; reflexivity|].
  exists (cl_disk "func K(n: Int32) -> Int32 { return n; }"). eexists. vm_compute. reflexivity.
Qed.
Print Assumptions C68_tool_output_is_refused_refuted.
