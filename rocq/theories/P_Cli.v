(** C67: the compile command writes what it compiled, and only that. *)
From Coq Require Import String.
From Coq Require Import ZArith List Bool Lia.
From Verif Require Import Bytes BytesFacts Bytecode Definitions Bundle BundleFacts BundleSpec BundleThms DefinitionsSpec P_Bundle Ast Pool Scope TypeCheck Report SourceMap Display Sources SourcesSpec Printer Parser Positions Unit
  Cli P_Report P_SourceMap P_Place PlaceSpec P_Failure PositionSpec P_Positions P_Sources P_Unit Wrappers FunctionFacts.
Import ListNotations.
Open Scope Z_scope.

(** * Loaded files are texts made of characters *)
Lemma cont_range b : brange 128 191 b = true -> is_cont b = true.
Proof. destruct b; vm_compute; congruence. Qed.
Lemma low_range b : brange 0 127 b = true -> is_cont b = false.
Proof. destruct b; vm_compute; congruence. Qed.
Lemma high_range b : brange 0 127 b = false -> (brange 194 223 b = true \/ brange 224 239 b = true \/ brange 240 244 b = true) -> is_cont b = false /\ ~ ascii b /\ b <> x0a.
Proof. unfold ascii. destruct b; vm_compute; intros H K; (split; [|split]); try congruence; try discriminate; destruct K as [K|[K|K]]; discriminate K. Qed.
Definition is_letter (c : str) : Prop := is_char c /\ alone c.
Lemma letter_one b : brange 0 127 b = true -> is_letter [b].
Proof.
  intros H. split; [|intros ? ? [= <- <-] _; reflexivity]. exists b, []. split; [reflexivity|]. split; [now apply low_range|]. split; [constructor|reflexivity].
Qed.
Lemma letter_more a r : brange 0 127 a = false -> (brange 194 223 a = true \/ brange 224 239 a = true \/ brange 240 244 a = true) ->
  Forall (fun x => is_cont x = true) r -> is_letter (a :: r).
Proof.
  intros H K F. destruct (high_range a H K) as (C & A & N). split; [|intros ? ? [= <- <-] X; contradiction].
  exists a, r. repeat split; auto. contradiction.
Qed.
Lemma letters n : forall s, (length s <= n)%nat -> utf8_valid s = true -> exists l, concat l = s /\ Forall is_letter l.
Proof.
  induction n as [|n IH]; intros s L V.
  - destruct s; [exists []; split; [reflexivity|constructor]|cbn in L; lia].
  - destruct s as [|a s1]; [exists []; split; [reflexivity|constructor]|]. cbn [utf8_valid] in V. cbn [length] in L.
    destruct (brange 0 127 a) eqn:A.
    { destruct (IH s1) as (l & <- & F); [lia|exact V|]. exists ([a] :: l). split; [reflexivity|]. constructor; [now apply letter_one|exact F]. }
    destruct s1 as [|b s2]; [discriminate V|]. cbn [length] in L. destruct (brange 194 223 a) eqn:A2.
    { apply andb_true_iff in V as [B V]. destruct (IH s2) as (l & <- & F); [lia|exact V|]. exists ([a; b] :: l). split; [reflexivity|].
      constructor; [|exact F]. apply letter_more; auto. constructor; [now apply cont_range|constructor]. }
    destruct s2 as [|c s3]; [discriminate V|]. cbn [length] in L.
    assert (R : forall x (y : byte), brange 128 191 y = true \/ (brange 160 191 y = true) \/ brange 128 159 y = true \/ brange 144 191 y = true \/ brange 128 143 y = true -> x = y -> is_cont y = true).
    { intros x y H _. apply cont_range. revert H. unfold brange. clear. lia. }
    destruct (brange 224 239 a) eqn:A3.
    { apply andb_true_iff in V as [V1 V]. apply andb_true_iff in V1 as [B C]. destruct (IH s3) as (l & <- & F); [lia|exact V|]. exists ([a; b; c] :: l). split; [reflexivity|].
      constructor; [|exact F]. apply letter_more; auto. constructor; [|constructor; [now apply cont_range|constructor]].
      apply (R b b); [|reflexivity]. destruct (Z_of_byte a =? 224); [auto|]. destruct (Z_of_byte a =? 237); auto. }
    destruct s3 as [|d s4]; [discriminate V|]. cbn [length] in L. apply andb_true_iff in V as [V1 V]. apply andb_true_iff in V1 as [V1 D]. apply andb_true_iff in V1 as [V1 C].
    apply andb_true_iff in V1 as [A4 B]. destruct (IH s4) as (l & <- & F); [lia|exact V|]. exists ([a; b; c; d] :: l). split; [reflexivity|].
    constructor; [|exact F]. apply letter_more; auto. constructor; [|constructor; [now apply cont_range|constructor; [now apply cont_range|constructor]]].
    apply (R b b); [|reflexivity]. destruct (Z_of_byte a =? 240); [auto|]. destruct (Z_of_byte a =? 244); auto.
Qed.

(** The bytes of all files, with one position after each. *)
Definition total (files : list file) : Z := fold_right Z.add 0 (map (fun f => Z.of_nat (length (f_source f)) + 1) files).
Lemma files_are_texts l : forall acc fs out, from_files acc l = Some out -> acc = loaded fs -> Forall (fun s => Forall is_letter (snd s)) fs ->
  exists fs', out = loaded fs' /\ Forall (fun s => Forall is_letter (snd s)) fs'.
Proof.
  induction l as [|[path n] l IH]; cbn [from_files]; intros acc fs out H E F.
  - injection H as <-. eauto.
  - destruct (read_to_string n) as [s|] eqn:R; [|discriminate]. assert (V : utf8_valid s = true).
    { unfold read_to_string in R. destruct n as [[c|]| |]; try discriminate. destruct (utf8_valid c) eqn:U; [|discriminate]. now injection R as <-. }
    destruct (letters _ s (le_n _) V) as (cs & C & FC). apply (IH (files_add acc path s) (fs ++ [(path, cs)]) out H).
    + unfold loaded. rewrite fold_left_app. cbn [fold_left fst]. unfold text_of. cbn [snd]. rewrite C. f_equal. exact E.
    + apply Forall_app. split; [exact F|]. constructor; [exact FC|constructor].
Qed.
Lemma loaded_sources fs : map f_source (loaded fs) = map text_of fs.
Proof.
  assert (G : forall acc, map f_source (fold_left (fun acc s => files_add acc (fst s) (text_of s)) fs acc) = map f_source acc ++ map text_of fs).
  { induction fs as [|s fs IH]; intros acc; cbn [fold_left map]; [now rewrite app_nil_r|]. rewrite IH. unfold files_add. rewrite map_app, <- app_assoc. reflexivity. }
  exact (G []).
Qed.
Lemma total_base fs : total (loaded fs) = base fs (length fs).
Proof.
  unfold total, base. rewrite firstn_all. replace (map (fun f => Z.of_nat (length (f_source f)) + 1) (loaded fs)) with (map (fun s => Z.of_nat (length s) + 1) (map f_source (loaded fs))) by apply map_map.
  rewrite loaded_sources, map_map. reflexivity.
Qed.
(** So what is proved of texts made of characters holds of all files that are loaded. *)
Lemma from_dirs_readable disk src f files : from_dirs disk src f = Some files -> total files <= 2 ^ 32 -> exists fs, files = loaded fs /\ readable fs.
Proof.
  intros H T. destruct (files_are_texts _ [] [] files H eq_refl (Forall_nil _)) as (fs & -> & F). exists fs. split; [reflexivity|].
  rewrite total_base in T. split; [split; [|exact T]|]; eapply Forall_impl; try exact F; intros s G; eapply Forall_impl; try exact G; intros c [? ?]; assumption.
Qed.

(** * Headers that were read fit *)
Lemma dec_u_range n i z r : dec_u n i = Ok (z, r) -> in_u (8 * Z.of_nat n) z.
Proof.
  unfold dec_u, pbind, take_bytes, pret. destruct (_ <=? _) eqn:L; [|discriminate]. intros H. injection H as <- _.
  assert (G : forall bs, in_u (8 * Z.of_nat (length bs)) (le_val bs)).
  { unfold in_u. induction bs as [|b bs IH]; cbn [le_val length]; [cbn; lia|]. pose proof (Z_of_byte_range b).
    replace (8 * Z.of_nat (S (length bs))) with (8 + 8 * Z.of_nat (length bs)) by lia. rewrite Z.pow_add_r by lia. change (2 ^ 8) with 256. lia. }
  specialize (G (firstn (Z.to_nat (Z.of_nat n)) i)). rewrite firstn_length in G. replace (Nat.min (Z.to_nat (Z.of_nat n)) (length i)) with n in G by lia. exact G.
Qed.
Lemma load_meta bytes b : load bytes = Ok b -> meta_ok (bn_header b).
Proof.
  unfold load. destruct (dec_header bytes) as [[h i]|e] eqn:H; [|discriminate]. destruct (dec_pool bytes h i) as [[p j]|e]; [|discriminate]. intros E. injection E as <-. cbn [bn_header].
  unfold dec_header, pbind in H. destruct (dec_u32 bytes) as [[m i0]|] eqn:E0; [|discriminate]. destruct (negb _); [discriminate|].
  destruct (dec_u32 i0) as [[v i1]|] eqn:E1; [|discriminate]. destruct (dec_u32 i1) as [[f i2]|] eqn:E2; [|discriminate].
  destruct (dec_u64 i2) as [[ts i3]|] eqn:E3; [|discriminate]. destruct (dec_u32 i3) as [[u3 i4]|] eqn:E4; [|discriminate].
  destruct (dec_u32 i4) as [[hh i5]|] eqn:E5; [|discriminate]. destruct (dec_u32 i5) as [[ch i6]|] eqn:E6; [|discriminate].
  apply dec_u_range in E1, E2, E3, E4, E6.
  repeat match type of H with context [dec_table ?i] => destruct (dec_table i) as [[? ?]|]; [|discriminate H] end.
  injection H as <- _. unfold meta_ok. cbn. repeat split; try apply E1; try apply E2; try apply E3; try apply E4; try apply E6.
Qed.

(** * Functions have sources *)
Definition sourced (f : function) : Prop := has_source (DFunction f).
Lemma dec_function_sourced i f r : dec_function i = Ok (f, r) -> sourced f.
Proof.
  unfold dec_function, pbind. destruct (dec_visibility i) as [[v i1]|]; [|discriminate]. destruct (dec_flags 4 i1) as [[fl i2]|]; [|discriminate].
  destruct (dec_opt (negb (get_flag fn_is_native fl)) dec_source_ref i2) as [[src i3]|] eqn:S; [|discriminate].
  assert (K : negb (get_flag fn_is_native fl) = true -> src <> None).
  { intros N. unfold dec_opt in S. rewrite N in S. unfold pbind in S. destruct (dec_source_ref i2) as [[x y]|]; [|discriminate]. injection S as <- _. discriminate. }
  intros H. repeat match type of H with match ?m with Err _ => _ | Ok _ => _ end = _ => destruct m as [[? ?]|]; [|discriminate H] end.
  injection H as <- _. intros N. apply K. cbn [fu_flags] in N. unfold get_flag. change fn_is_native with 4. now rewrite N.
Qed.
Lemma dec_definitions_sourced file hs : forall ds, dec_definitions file hs = Ok ds -> Forall (good sourced) ds.
Proof.
  induction hs as [|h hs IH]; intros ds; cbn [dec_definitions]; [intros [= <-]; constructor|]. destruct (dec_definition file h) as [d|] eqn:D; [|discriminate].
  destruct (dec_definitions file hs) as [l|]; [|discriminate]. intros [= <-]. constructor; [|now apply IH]. revert D. unfold dec_definition.
  destruct (dec_any _ _) as [[v r]|] eqn:A; [|discriminate]. intros [= <-]. unfold good. cbn [df_value]. destruct v as [?|?|?|?|f|?|?|?|?]; try exact I.
  revert A. unfold dec_any, pbind. repeat match goal with |- context [match ?t with Z0 => _ | Zpos _ => _ | Zneg _ => _ end] => destruct t end; try discriminate.
  all: repeat match goal with |- context [match ?t with xI _ => _ | xO _ => _ | xH => _ end] => destruct t end; try discriminate.
  all: intros H; match type of H with match ?m with Err _ => _ | Ok _ => _ end = _ => destruct m as [[? ?]|] eqn:F; [|discriminate H] end; try discriminate H. injection H as <- _. exact (dec_function_sourced _ _ _ F).
Qed.
Lemma load_sourced bytes b : load bytes = Ok b -> all_good sourced (bn_pool b).
Proof.
  unfold load. destruct (dec_header bytes) as [[h i]|e] eqn:H; [|discriminate]. destruct (dec_pool bytes h i) as [[p j]|e] eqn:P; [|discriminate]. intros E. injection E as <-. cbn [bn_pool].
  unfold dec_pool, pbind in P. repeat match type of P with match ?m with Err _ => _ | Ok _ => _ end = _ => destruct m as [[? ?]|] eqn:?E; [|discriminate P] end.
  injection P as <- _. constructor; [exact I|]. cbn [pl_defs].
  match goal with E : plift (dec_definitions _ _) _ = Ok _ |- _ => unfold plift in E; destruct (dec_definitions _ _) eqn:D; [|discriminate E]; injection E as <- _ end. exact (dec_definitions_sourced _ _ _ D).
Qed.
Lemma compile_sourced bytes b ev ms out : load bytes = Ok b -> compile ev ms (bn_pool b) = Done out -> all_good sourced (out_pool out).
Proof.
  intros L C. apply (compile_good sourced) with ev ms (bn_pool b); auto; [| |exact (load_sourced _ _ L)].
  - intros x X M. apply X. cbn [with_flags fu_flags] in M. unfold with_flag in M. now rewrite Z.clearbit_neq in M by discriminate.
  - intros. intros _. discriminate.
Qed.
(** Every function of the result that is not native names its source, which the format
    needs. *)
Theorem C67_functions_have_sources bytes b ev ms out i f : load bytes = Ok b -> compile ev ms (bn_pool b) = Done out ->
  get_function (out_pool out) i = Done f -> Z.testbit (fu_flags f) 4 = false -> exists s, fu_source f = Some s.
Proof.
  intros L C F N. pose proof (compile_sourced _ _ _ _ _ L C) as G.
  assert (X : sourced f) by (apply (function_good sourced (out_pool out) i); [exact G|now rewrite F]). specialize (X N). destruct (fu_source f) as [s|]; [eauto|contradiction].
Qed.
Print Assumptions C67_functions_have_sources.

(** What has to fit the format: strings are without the character 0, and indices, numbers,
    flags and the sizes of lists and code are in the ranges of their fields. *)
Definition definition_fits (d : definition) : Prop :=
  idx_ok (df_name d) /\ idx_ok (df_parent d) /\ in_u 8 (df_unk1 d) /\ in_u 8 (df_unk2 d) /\ in_u 8 (df_unk3 d) /\ any_ok (df_value d).
Definition pool_fits (p : pool) : Prop :=
  Forall text_ok (st_list (pl_names p)) /\ Forall text_ok (st_list (pl_tweakdb p)) /\
  Forall text_ok (st_list (pl_resources p)) /\ Forall text_ok (st_list (pl_strings p)) /\
  exists ds, pl_defs p = default_definition :: ds /\ Forall definition_fits ds.
Lemma fits_ok p : pool_fits p -> all_good sourced p -> BundleSpec.pool_ok p.
Proof.
  intros (A & B & C & D & ds & E & F) G. repeat (split; [assumption|]). exists ds. split; [exact E|]. unfold all_good in G. rewrite E in G. inversion G as [|? ? _ G']. subst.
  apply Forall_forall. intros d I0. rewrite Forall_forall in F, G'. destruct (F d I0) as (F1 & F2 & F3 & F4 & F5 & F6). repeat (split; [assumption|]). specialize (G' d I0). unfold good in G'.
  destruct (df_value d); try exact I. exact G'.
Qed.

(** * What it means that the scripts compile *)
Record compiles (fl : float_text) (ev : env) (cache : option (list byte)) (disk : filesystem) (src : list str) (b : bundle) (files : list file) (out : output) : Prop := {
  cm_cache : exists bytes, cache = Some bytes /\ load bytes = Ok b;
  cm_files : from_dirs disk src KeepAll = Some files;
  cm_modules : exists ms, parse_files fl files = inl ms /\ compile (on_files ev files) ms (bn_pool b) = Done out;
  cm_warnings : forall d, In d (out_diags out) -> warning d }.

Lemma log_all_done known l : forall evs, log_all known l = (evs, Done tt) -> evs = map (fun d => if is_fatal d then LogError d else LogWarn d) l.
Proof.
  induction l as [|d l IH]; cbn [log_all map]; intros evs H; [now injection H as <-|]. unfold log_diag in H. destruct (known _); [|discriminate H].
  destruct (log_all known l) as [e r]. injection H as <- ->. f_equal. now apply IH.
Qed.
Lemma all_warnings l : (forall d, In d l -> warning d) -> sort_diags l = l /\ existsb is_fatal l = false /\ map (fun d => if is_fatal d then LogError d else LogWarn d) l = map LogWarn l.
Proof.
  induction l as [|d l IH]; intros W; [auto|]. destruct IH as (S & E & M); [intros x I; apply W; now right|].
  assert (F : is_fatal d = false) by (apply fatal_spec, W; now left). cbn [sort_diags existsb map]. rewrite S, E, M, F. split; [|split]; [|reflexivity|reflexivity].
  destruct l; cbn [insert_diag]; [reflexivity|]. now rewrite F.
Qed.
Lemma sort_in d l : In d (sort_diags l) <-> In d l.
Proof.
  assert (G : forall x m, In d (insert_diag x m) <-> x = d \/ In d m).
  { induction m as [|y m IH]; cbn [insert_diag In]; [tauto|]. destruct (_ && _); cbn [In]; [rewrite IH|]; tauto. }
  induction l as [|x l IH]; [tauto|]. cbn [sort_diags In]. rewrite G, IH. tauto.
Qed.
Lemma report_done known l ds evs : compile_and_report known (Done l) = (evs, Done ds) -> (forall d, In d l -> warning d) /\ evs = map LogWarn l.
Proof.
  cbn [compile_and_report]. destruct (log_all known (sort_diags l)) as [e r] eqn:L. destruct r as [[]|]; [|discriminate]. destruct (existsb is_fatal (sort_diags l)) eqn:F; [discriminate|].
  intros H. injection H as <- _. assert (W : forall d, In d l -> warning d).
  { intros d I. apply fatal_spec. destruct (is_fatal d) eqn:X; [|reflexivity]. assert (existsb is_fatal (sort_diags l) = true); [|congruence]. apply existsb_exists. exists d. split; [now apply sort_in|exact X]. }
  split; [exact W|]. destruct (all_warnings l W) as (S & _ & M). rewrite S in L. apply log_all_done in L. congruence.
Qed.
Lemma build_done fl ev stop p log out : build fl ev stop p = (log, Done out) ->
  exists ms, parse_files fl (ev_files ev) = inl ms /\ compile ev ms p = Done out /\ (forall d, In d (out_diags out) -> warning d) /\ log = map LogWarn (out_diags out).
Proof.
  unfold build. destruct (compile_files fl ev stop p) as [o|e] eqn:C.
  - destruct (compile_and_report _ _) as [l r] eqn:R. destruct r as [ds|]; [|discriminate]. intros H. injection H as <- <-. apply report_done in R as [W ->].
    unfold compile_files in C. destruct (parse_files fl (ev_files ev)) as [ms|[k x]]; [|destruct x; discriminate C]. exists ms. auto.
  - intros H. exfalso. destruct e; try discriminate H; destruct (compile_and_report _ _) as [l r]; destruct r; discriminate H.
Qed.
Lemma prepared ev cache disk src b ev' : prepare ev cache disk src = inl (b, ev') ->
  exists bytes files, cache = Some bytes /\ load bytes = Ok b /\ from_dirs disk src KeepAll = Some files /\ ev' = on_files ev files.
Proof.
  unfold prepare. destruct cache as [bytes|]; [|discriminate]. destruct (load bytes) as [b0|e] eqn:L; [|destruct e; discriminate].
  destruct (from_dirs disk src KeepAll) as [files|] eqn:F; [|discriminate]. destruct (unit_new _ _) as [u|e]; [|destruct e; discriminate].
  intros H. injection H as <- <-. eauto 8.
Qed.
Lemma on_files_files ev fs : ev_files (on_files ev fs) = fs. Proof. reflexivity. Qed.

(** C67.  If something is written then it is what was compiled, all of it, and it can be
    loaded again. *)
Theorem C67_output_is_what_was_compiled fl ev stop cache disk src creatable bytes :
  let r := compile_command fl ev stop cache disk src creatable in
  run_output r = Written bytes ->
  run_status r = Success /\
  exists b files out, compiles fl ev cache disk src b files out /\ run_log r = map LogWarn (out_diags out) /\
    (pool_fits (out_pool out) -> Z.of_nat (length bytes) < 2 ^ 32 ->
     exists b', load bytes = Ok b' /\ same_meta (bn_header b) (bn_header b') /\ pool_saved (out_pool out) (bn_pool b') /\
       (Forall (fun d => any_canonical (df_value d)) (pl_defs (out_pool out)) -> pl_defs (bn_pool b') = pl_defs (out_pool out))).
Proof.
  cbv zeta. unfold compile_command. destruct (prepare ev cache disk src) as [[b ev']|s] eqn:P; [|discriminate]. apply prepared in P as (c & files & -> & L & F & ->).
  destruct (build fl _ stop (bn_pool b)) as [log [out|e]] eqn:B; [|destruct e; discriminate]. destruct creatable; [|discriminate].
  destruct (save _ []) as [bs|e] eqn:S; [|destruct e; discriminate]. cbn [run_output run_status run_log]. intros H. injection H as ->. split; [reflexivity|].
  apply build_done in B as (ms & M & C & W & ->). rewrite on_files_files in M. exists b, files, out.
  split; [constructor; eauto|]. split; [reflexivity|]. intros PO LT. apply fits_ok in PO; [|exact (compile_sourced _ _ _ _ _ L C)].
  destruct (C05_bundle_roundtrip {| bn_header := bn_header b; bn_pool := out_pool out |} [] (load_meta _ _ L) PO) as (file & S' & K). rewrite S in S'. injection S' as <-.
  destruct (K LT) as (b' & L' & SM & PS & D & _). exists b'. auto.
Qed.
Print Assumptions C67_output_is_what_was_compiled.
Lemma compile_unit_new ev ms p out : compile ev ms p = Done out -> exists st, unit_new ev p = Done st.
Proof. unfold compile. destruct (unit_new ev p) as [st|e]; [eauto|discriminate]. Qed.

(** If the scripts compile, without anything but warnings, then the output is written. *)
Theorem C67_written_if_compiled fl ev stop cache disk src b files out : compiles fl ev cache disk src b files out ->
  total files <= 2 ^ 32 -> pool_fits (out_pool out) ->
  exists bytes, compile_command fl ev stop cache disk src true = Run (map LogWarn (out_diags out)) Success (Written bytes).
Proof.
  intros [(c & -> & L) F (ms & M & C) W] T PO. apply fits_ok in PO; [|exact (compile_sourced _ _ _ _ _ L C)]. unfold compile_command, prepare. rewrite L, F. destruct (compile_unit_new _ _ _ _ C) as (st & ->).
  unfold build, compile_files. rewrite on_files_files, M, C. destruct (from_dirs_readable _ _ _ _ F T) as (fs & -> & R).
  pose proof (C63_places_known _ _ _ R M) as A. pose proof (C59_place_of_a_part (in_source fs) (on_files ev (loaded fs)) ms (bn_pool b) A) as K. rewrite C in K.
  destruct (all_warnings _ W) as (S & E & G). cbn [compile_and_report]. rewrite S, E. rewrite log_all_known.
  2:{ intros d I. apply in_source_displayable; [apply R|]. now apply K. }
  rewrite G. destruct (C05_bundle_roundtrip {| bn_header := bn_header b; bn_pool := out_pool out |} [] (load_meta _ _ L) PO) as (file & -> & _). eauto.
Qed.
Print Assumptions C67_written_if_compiled.
(** Otherwise the output stays as it is. *)
Theorem C67_untouched_otherwise fl ev stop cache disk src creatable : let r := compile_command fl ev stop cache disk src creatable in
  ((forall b files out, ~ compiles fl ev cache disk src b files out) -> run_output r = Untouched) /\
  (creatable = false -> run_output r = Untouched) /\
  (run_output r = Spoiled -> exists b files out, compiles fl ev cache disk src b files out /\ ~ pool_fits (out_pool out)).
Proof.
  cbv zeta. unfold compile_command. destruct (prepare ev cache disk src) as [[b ev']|s] eqn:P; [|repeat split; discriminate]. apply prepared in P as (c & files & -> & L & F & ->).
  destruct (build fl _ stop (bn_pool b)) as [log [out|e]] eqn:B; [|destruct e; repeat split; discriminate].
  apply build_done in B as (ms & M & C & W & ->). rewrite on_files_files in M.
  assert (K : compiles fl ev (Some c) disk src b files out) by (constructor; eauto).
  split; [intros N; destruct (N _ _ _ K)|]. split; [intros ->; reflexivity|]. destruct creatable; [|discriminate].
  intros S. exists b, files, out. split; [exact K|]. intros PO. apply fits_ok in PO; [|exact (compile_sourced _ _ _ _ _ L C)].
  destruct (C05_bundle_roundtrip {| bn_header := bn_header b; bn_pool := out_pool out |} [] (load_meta _ _ L) PO) as (file & E & _). rewrite E in S. discriminate S.
Qed.
Print Assumptions C67_untouched_otherwise.
(** lint logs the same and writes nothing. *)
Theorem C67_lint_logs_the_same fl ev stop cache disk src creatable :
  let l := lint_command fl ev stop (Some cache) disk src in
  run_output l = Untouched /\ run_log l = run_log (compile_command fl ev stop cache disk src creatable).
Proof.
  cbv zeta. unfold lint_command, compile_command. destruct (prepare ev cache disk src) as [[b ev']|s]; [|split; reflexivity].
  destruct (build fl ev' stop (bn_pool b)) as [log [out|e]]; [|destruct e; split; reflexivity]. split; [reflexivity|]. destruct creatable; [|reflexivity]. destruct (save _ _) as [?|e]; [|destruct e]; reflexivity.
Qed.
Print Assumptions C67_lint_logs_the_same.

(** * Examples and what does not hold *)
Definition with_source (d : definition) : definition :=
  match df_value d with
  | DFunction x => un_def (df_name d) (df_parent d) (DFunction
      {| fu_visibility := fu_visibility x; fu_flags := fu_flags x; fu_source := Some {| sr_file := 0; sr_line := 0 |}; fu_return_type := fu_return_type x;
         fu_unk1 := false; fu_base_method := None; fu_parameters := fu_parameters x; fu_locals := []; fu_operator := None; fu_cast := 0; fu_code := fu_code x; fu_unk2 := [] |})
  | _ => d
  end.
Definition cl_pool : pool := Eval vm_compute in set_defs un_pool (map with_source (pl_defs un_pool)).
Definition cl_cache : list byte := Eval vm_compute in match save {| bn_header := meta0; bn_pool := cl_pool |} [] with Ok f => f | Err _ => [] end.
Definition cl_bundle : bundle := Eval vm_compute in match load cl_cache with Ok b => b | Err _ => {| bn_header := meta0; bn_pool := cl_pool |} end.
Definition cl_disk (text : string) : filesystem :=
  fun p => if str_eqb p (lit "s") then Some (NDir [(lit "a.reds", NFile (Some (lit text))); (lit "notes.txt", NFile None)]) else None.
Definition cl_fl : float_text := FloatText (fun _ => []) (fun _ => []) (fun _ => None) (fun _ => None).
Definition cl_files (text : string) : list file := match from_dirs (cl_disk text) [lit "s"] KeepAll with Some fs => fs | None => [] end.
Definition cl_run (text : string) : run := compile_command cl_fl un_env un_sp (Some cl_cache) (cl_disk text) [lit "s"] true.
Definition cl_output (text : string) : output :=
  match parse_files cl_fl (cl_files text) with
  | inl ms => match compile (on_files un_env (cl_files text)) ms (bn_pool cl_bundle) with Done o => o | Fail _ => Output un_pool [] [] end
  | inr _ => Output un_pool [] []
  end.
(** Two methods, one of them added to a class of the cache. *)
Definition good_text : string := "@addMethod(Cat) public func purr(n: Int32) -> Int32 { return this.speak(n); } func H(n: Int32) -> Int32 { return n; }".
Definition good_out : output := Eval vm_compute in cl_output good_text.
Lemma cl_loads : load cl_cache = Ok cl_bundle. Proof. vm_compute. reflexivity. Qed.
Lemma cl_compiles text out : cl_output text = out -> (forall d, In d (out_diags out) -> warning d) ->
  match parse_files cl_fl (cl_files text) with
  | inl ms => match compile (on_files un_env (cl_files text)) ms (bn_pool cl_bundle) with Done _ => true | Fail _ => false end | inr _ => false end = true ->
  match from_dirs (cl_disk text) [lit "s"] KeepAll with Some _ => true | None => false end = true ->
  compiles cl_fl un_env (Some cl_cache) (cl_disk text) [lit "s"] cl_bundle (cl_files text) out.
Proof.
  intros O W M F. constructor; [exists cl_cache; split; [reflexivity|apply cl_loads]| | |exact W].
  - unfold cl_files. destruct (from_dirs _ _ _); [reflexivity|discriminate].
  - unfold cl_output in O. destruct (parse_files cl_fl (cl_files text)) as [ms|]; [|discriminate]. exists ms. split; [reflexivity|].
    destruct (compile _ ms _); [|discriminate]. now rewrite O.
Qed.
Example C67_nonvacuous :
  compiles cl_fl un_env (Some cl_cache) (cl_disk good_text) [lit "s"] cl_bundle (cl_files good_text) good_out /\
  total (cl_files good_text) <= 2 ^ 32 /\ pool_fits (out_pool good_out) /\
  (exists bytes, run_output (cl_run good_text) = Written bytes /\ Z.of_nat (length bytes) < 2 ^ 32 /\
     exists b', load bytes = Ok b' /\ In (lit "purr;Int32") (st_list (pl_names (bn_pool b'))) /\ length (pl_defs (bn_pool b')) = 28%nat).
Proof.
  split; [apply cl_compiles; [vm_compute; reflexivity|intros d []|vm_compute; reflexivity|vm_compute; reflexivity]|].
  split; [vm_compute; discriminate|]. split.
  - assert (T : forall l, forallb (fun s => forallb (fun b => negb (Z_of_byte b =? 0)) s && utf8_valid s) l = true -> Forall text_ok l).
    { intros l H. apply Forall_forall. intros s Hs. rewrite forallb_forall in H. specialize (H s Hs). apply andb_prop in H as (H1 & H2). split; [|exact H2].
      apply Forall_forall. rewrite forallb_forall in H1. intros x Hin. specialize (H1 _ Hin). lia. }
    split; [apply T; vm_compute; reflexivity|]. split; [apply T; vm_compute; reflexivity|]. split; [apply T; vm_compute; reflexivity|]. split; [apply T; vm_compute; reflexivity|].
    eexists. split; [unfold good_out; cbn [out_pool pl_defs]; reflexivity|].
    repeat lazymatch goal with
      | |- _ \/ (exists f l, ?c = _ /\ _) => right; exists (removelast c), Nop; split; [reflexivity|vm_compute; reflexivity]
      | |- _ => constructor
      end; cbn; unfold idx_ok, in_u, in_s; try lia; try discriminate.
  - eexists. split; [vm_compute; reflexivity|]. split; [vm_compute; reflexivity|]. eexists. split; [vm_compute; reflexivity|]. split; [vm_compute; tauto|reflexivity].
Qed.

(** A build that failed ends like one that succeeded. *)
Theorem C67_failure_is_visible_refuted : exists fl ev stop cache disk src,
  let r := compile_command fl ev stop cache disk src true in
  (exists d, In (LogError d) (run_log r)) /\ run_output r = Untouched /\ run_status r = Success.
Proof.
  exists cl_fl, un_env, un_sp, (Some cl_cache), (cl_disk "func H(n: Int32) -> Int32 { return m; }"), [lit "s"]. cbv zeta.
  split; [|split; vm_compute; reflexivity]. eexists. vm_compute. left. reflexivity.
Qed.
Print Assumptions C67_failure_is_visible_refuted.
(** lint without a cache accepts everything. *)
Theorem C67_lint_reports_refuted : exists fl ev stop cache disk src,
  (exists d, In (LogError d) (run_log (lint_command fl ev stop (Some (Some cache)) disk src))) /\
  lint_command fl ev stop None disk src = Run [] Success Untouched.
Proof.
  exists cl_fl, un_env, un_sp, cl_cache, (cl_disk "func H(n: Int32) -> Int32 { return m; }"), [lit "s"].
  split; [|reflexivity]. eexists. vm_compute. left. reflexivity.
Qed.
Print Assumptions C67_lint_reports_refuted.
(** Without the condition on the pool: a literal with the character 0 compiles, and is
    another literal in the cache that is written. *)
Definition nul_text : string := "func H() -> String { return ""a\u{0}b""; }".
Definition nul_out : output := Eval vm_compute in cl_output nul_text.
Theorem C67_strings_are_kept_refuted : exists fl ev stop cache disk src b files out bytes b',
  compiles fl ev cache disk src b files out /\ run_output (compile_command fl ev stop cache disk src true) = Written bytes /\ load bytes = Ok b' /\
  st_list (pl_strings (out_pool out)) = [[x61; x00; x62]] /\ st_list (pl_strings (bn_pool b')) = [[x61]].
Proof.
  exists cl_fl, un_env, un_sp, (Some cl_cache), (cl_disk nul_text), [lit "s"], cl_bundle, (cl_files nul_text), nul_out. eexists. eexists.
  split; [apply cl_compiles; [vm_compute; reflexivity|intros d []|vm_compute; reflexivity|vm_compute; reflexivity]|].
  split; [vm_compute; reflexivity|]. split; [vm_compute; reflexivity|]. split; reflexivity.
Qed.
Print Assumptions C67_strings_are_kept_refuted.
