(** Property C62. *)
From Coq Require Import String.
From Coq Require Import ZArith List Bool Lia Arith Permutation.
From Verif Require Import BundleFacts Bytes Bytecode Definitions Bundle Ast Pool Scope TypeCheck Symbols Report Search SourceMap Scc Assembler Unit
  P_Report P_SourceMap P_Scc Display PlaceSpec P_Unit P_Place Failure.
Import ListNotations.
Open Scope Z_scope.

(** ** Specification *)

(** [sp] is the place of [part] in the file [path]; it starts in the line [line],
    which includes the newline at its end. *)
Inductive place (fs : list source) (sp : span) (path part line : str) : Prop :=
| place_intro i text before left right after chars rest :
    nth_error fs i = Some (path, text) -> on_line text before left right after -> right ++ after = chars ++ rest ->
    sp = Span (base fs i + blen (concat (before ++ left))) (base fs i + blen (concat (before ++ left ++ chars))) ->
    part = concat chars -> line = concat (left ++ right) -> place fs sp path part line.

(** The path below the directory of the scripts, if it is there. *)
Definition below (po : path_ops) (scripts path : str) (rest : fpath) : Prop :=
  components po path = components po scripts ++ rest.
Definition relative (po : path_ops) (scripts path : str) (r : option fpath) : Prop :=
  match r with Some rest => below po scripts path rest | None => forall rest, ~ below po scripts path rest end.
(** The mod that a file belongs to: the entry of the directory of the scripts that
    it is or is in; for other files the name of the file. *)
Inductive mod_of (po : path_ops) (scripts path : str) : str -> Prop :=
| mod_inside m rest : below po scripts path (m :: rest) -> mod_of po scripts path m
| mod_outside n : (forall m rest, ~ below po scripts path (m :: rest)) -> file_name po path = Some n -> mod_of po scripts path n
| mod_nameless : (forall m rest, ~ below po scripts path (m :: rest)) -> file_name po path = None -> mod_of po scripts path path.
(** The mod at fault for an error at [sp]. *)
Definition at_fault (po : path_ops) (scripts : str) (fs : list source) (sp : span) (m : str) : Prop :=
  exists path part line, place fs sp path part line /\ mod_of po scripts path m.
(** The hint for an error: the first of those registered for its code that applies
    to its file, its text and its line. *)
Definition hint_for (po : path_ops) (scripts : str) (fs : list source) (hs : hints) (code : str) (sp : span) (h : hint) : Prop :=
  exists path part line r, place fs sp path part line /\ relative po scripts path r /\
    exists before after, registered hs code = before ++ h :: after /\ applies r part line h /\
      forall y, In y before -> ~ applies r part line y.

(** The message. *)
Definition bullet (s : str) : str := lit "- " ++ s ++ newline.
Definition message (mods steps : list str) : str :=
  lit "REDScript compilation has failed." ++ newline ++
  lit "This error has been caused by mods listed below:" ++ newline ++
  concat (map bullet mods) ++
  match steps with
  | [] => newline ++ lit "You should check if these mods are outdated and update them if possible. They may also be incompatible with the current version of the game, in which case you should remove them and try again." ++ newline
  | _ => lit "One or more of the errors found has a known solution. Here are the recommended steps:" ++ newline ++ concat (map bullet steps)
  end.
(** What the message for [errors] must say: every mod at fault once and no other;
    of the hints with one id the one that the first error has. *)
Record tells (po : path_ops) (scripts : str) (fs : list source) (hs : hints) (errors : list (str * span)) (mods : list str) (shown_hints : list hint) : Prop := {
  te_mods_once : NoDup mods;
  te_mods : forall m, In m mods <-> exists code sp, In (code, sp) errors /\ at_fault po scripts fs sp m;
  te_hints_once : NoDup (map hi_id shown_hints);
  te_hints : forall h, In h shown_hints <->
    exists before code sp after, errors = before ++ (code, sp) :: after /\ hint_for po scripts fs hs code sp h /\
      forall code' sp' h', In (code', sp') before -> hint_for po scripts fs hs code' sp' h' -> hi_id h' <> hi_id h }.
(** The orders of the hash tables: any, but nothing is lost. *)
Definition fair (orders : hash_orders) : Prop :=
  (forall l, Permutation (walk_mods orders l) l) /\ (forall l, Permutation (walk_hints orders l) l).

(** ** Places *)
Lemma place_exists fs sp : in_source fs sp -> exists path part line, place fs sp path part line.
Proof.
  intros (i & path & before & part & after & E & S).
  destruct (on_line_exists before (part ++ after)) as (b & l & r & a & H & X & Y).
  exists path, (concat part), (concat (l ++ r)). eapply place_intro with (1 := E) (2 := H); [symmetry; exact Y| |reflexivity|reflexivity].
  rewrite S, X. now rewrite <- !app_assoc.
Qed.
Lemma strip_spec b : forall p, match strip_prefix p b with Some rest => p = b ++ rest | None => forall rest, p <> b ++ rest end.
Proof.
  induction b as [|c b IH]; intros p; cbn [strip_prefix]; [reflexivity|].
  destruct p as [|d p]; [discriminate|]. destruct (str_eqb_spec d c) as [->|N].
  - specialize (IH p). destruct (strip_prefix p b) as [r|]; [exact (f_equal (cons c) IH)|]. intros rest E. injection E as E. exact (IH _ E).
  - intros rest E. injection E as E _. contradiction.
Qed.
Lemma strip_relative po scripts path : relative po scripts path (strip_prefix (components po path) (components po scripts)).
Proof. exact (strip_spec (components po scripts) (components po path)). Qed.
Lemma relative_unique po scripts path r r' : relative po scripts path r -> relative po scripts path r' -> r = r'.
Proof.
  unfold relative, below. destruct r as [r|], r' as [r'|]; auto.
  - intros A B. rewrite A in B. now apply app_inv_head in B as ->.
  - intros A B. now apply B in A.
  - intros A B. now apply A in B.
Qed.

Lemma place_one po scripts fs hs code sp path part line : fits fs -> place fs sp path part line ->
  report_one po scripts (loaded fs) hs code sp =
  Done (let r := strip_prefix (components po path) (components po scripts) in
        (match r with Some (c :: _) => c | _ => match file_name po path with Some n => n | None => path end end,
         get_by_error hs code r part line)).
Proof.
  intros F [i text before left right after chars rest E H P -> -> ->].
  destruct (on_line_exists (before ++ left ++ chars) rest) as (b2 & l2 & r2 & a2 & H2 & X & Y).
  assert (T : text = (before ++ left ++ chars) ++ rest).
  { rewrite (ol_text _ _ _ _ _ H), P. now rewrite <- !app_assoc. }
  rewrite <- T in H2.
  destruct (C34_lookup_span _ _ _ _ _ _ _ _ _ _ _ _ F E H H2) as (f & L & Pa & So).
  destruct (C34_lookup _ _ _ _ _ _ _ _ F E H) as (f' & L' & Pa' & So' & FL & EL).
  assert (f' = f) as ->.
  { unfold files_lookup in L. cbn [sp_low sp_high] in L. rewrite L' in L. destruct (file_lookup f' _) as [[x|]|]; cbn [obind] in L; try discriminate.
    destruct (file_lookup f' (base fs i + blen (concat (b2 ++ l2)))) as [[y|]|]; cbn [obind] in L; try discriminate. now injection L. }
  assert (Lo : f_low f = base fs i).
  { destruct F as [_ F]. pose proof (lookup_file_hit fs i (path, text) (base fs i + blen (concat (before ++ left))) F E) as K.
    rewrite L' in K. unfold text_of in K. cbn [snd fst] in K. rewrite (ol_text _ _ _ _ _ H) in K at 1.
    rewrite (app_assoc before), (concat_app (before ++ left)), blen_app in K.
    pose proof (blen_pos (concat (before ++ left))). pose proof (blen_pos (concat (right ++ after))).
    assert (Some f = Some (new_file (base fs i) path (concat text))) as K' by (apply K; lia). injection K' as ->. reflexivity. }
  unfold report_one. rewrite X, L. cbn [obind]. rewrite Pa.
  unfold source_slice. cbn [sp_low sp_high]. rewrite So, Lo.
  replace (base fs i + blen (concat (before ++ left)) - base fs i) with (blen (concat (before ++ left))) by lia.
  replace (base fs i + blen (concat (b2 ++ l2)) - base fs i) with (blen (concat ((before ++ left) ++ chars))) by (rewrite <- X, <- app_assoc; lia).
  assert (C : Forall is_char text).
  { destruct F as [F _]. rewrite Forall_forall in F. exact (F _ (nth_error_In _ _ E)). }
  assert (T' : text = (before ++ left) ++ chars ++ rest) by (rewrite T; now rewrite <- !app_assoc).
  rewrite T' in C |- *. apply Forall_app in C as [_ C]. apply Forall_app in C as [C1 C2].
  rewrite slice_chars by assumption. cbn [obind]. rewrite EL. cbn [obind]. reflexivity.
Qed.

Lemma one_fault po scripts fs hs code sp c o m : fits fs -> report_one po scripts (loaded fs) hs code sp = Done (c, o) -> in_source fs sp ->
  (at_fault po scripts fs sp m <-> m = c).
Proof.
  intros F R S.
  assert (K : forall path part line, place fs sp path part line -> (mod_of po scripts path m <-> m = c)).
  { intros path part line P. rewrite (place_one _ _ _ _ _ _ _ _ _ F P) in R. injection R as R _.
    pose proof (strip_relative po scripts path) as Q. destruct (strip_prefix _ _) as [[|x r]|]; cbn [relative] in Q.
    - assert (N : forall m rest, ~ below po scripts path (m :: rest)).
      { intros m' rest B. unfold below in *. rewrite Q in B. apply app_inv_head in B. discriminate. }
      split.
      + intros [m' rest B|n _ B|_ B]; [now apply N in B| |]; rewrite B in R; exact R.
      + intros ->. destruct (file_name po path) eqn:E; subst c; [now apply mod_outside|now apply mod_nameless].
    - subst x. split.
      + intros [m' rest B|n B _|B _]; [|now apply B in Q..]. unfold below in *. rewrite Q in B. apply app_inv_head in B. now injection B.
      + intros ->. eapply mod_inside. exact Q.
    - split.
      + intros [m' rest B|n _ B|_ B]; [now apply Q in B| |]; rewrite B in R; exact R.
      + intros ->. destruct (file_name po path) eqn:E; subst c; [now apply mod_outside|now apply mod_nameless]. }
  split.
  - intros (path & part & line & P & M). exact (proj1 (K _ _ _ P) M).
  - intros E. destruct (place_exists _ _ S) as (path & part & line & P). exists path, part, line. split; [exact P|]. now apply (K _ _ _ P).
Qed.
Lemma one_hint po scripts fs hs code sp c o h : fits fs -> report_one po scripts (loaded fs) hs code sp = Done (c, o) -> in_source fs sp ->
  (hint_for po scripts fs hs code sp h <-> o = Some h).
Proof.
  intros F R S.
  assert (K : forall path part line, place fs sp path part line -> o = get_by_error hs code (strip_prefix (components po path) (components po scripts)) part line).
  { intros path part line P. rewrite (place_one _ _ _ _ _ _ _ _ _ F P) in R. now injection R. }
  split.
  - intros (path & part & line & r & P & Q & X). rewrite (relative_unique _ _ _ _ _ Q (strip_relative po scripts path)) in X.
    rewrite (K _ _ _ P). now apply C43_first_match.
  - intros E. destruct (place_exists _ _ S) as (path & part & line & P). rewrite (K _ _ _ P) in E.
    exists path, part, line, (strip_prefix (components po path) (components po scripts)).
    split; [exact P|split; [apply strip_relative|]]. now apply C43_first_match.
Qed.

(** ** The loop *)
Lemma set_insert_in x l m : In m (set_insert x l) <-> m = x \/ In m l.
Proof.
  unfold set_insert. destruct (existsb (str_eqb x) l) eqn:E.
  - apply existsb_exists in E as (y & Y & E). destruct (str_eqb_spec x y); [subst|discriminate]. split; [now right|]. intros [->|]; auto.
  - rewrite in_app_iff. cbn. intuition.
Qed.
Lemma NoDup_snoc {A} (l : list A) x : NoDup l -> ~ In x l -> NoDup (l ++ [x]).
Proof.
  intros H N. apply (Permutation_NoDup (l := x :: l)); [apply Permutation_cons_append|now constructor].
Qed.
Lemma set_insert_once x l : NoDup l -> NoDup (set_insert x l).
Proof.
  intros H. unfold set_insert. destruct (existsb (str_eqb x) l) eqn:E; [exact H|]. apply NoDup_snoc; [exact H|].
  intros X. assert (existsb (str_eqb x) l = true); [|congruence]. apply existsb_exists. exists x. split; [exact X|]. now destruct (str_eqb_spec x x).
Qed.
Lemma hint_known h l : existsb (fun x => str_eqb (hi_id h) (hi_id x)) l = true <-> In (hi_id h) (map hi_id l).
Proof.
  rewrite existsb_exists, in_map_iff. split.
  - intros (x & X & E). destruct (str_eqb_spec (hi_id h) (hi_id x)); [|discriminate]. eauto.
  - intros (x & E & X). exists x. split; [exact X|]. rewrite E. now destruct (str_eqb_spec (hi_id h) (hi_id h)).
Qed.
Lemma hint_insert_in x l h : In h (hint_insert x l) <-> In h l \/ (h = x /\ ~ In (hi_id x) (map hi_id l)).
Proof.
  unfold hint_insert. pose proof (hint_known x l) as K. destruct (existsb _ l).
  - destruct K as [K _]. specialize (K eq_refl). intuition.
  - rewrite in_app_iff. cbn. assert (~ In (hi_id x) (map hi_id l)) by (intros X; apply K in X; discriminate). intuition.
Qed.
Lemma hint_insert_once x l : NoDup (map hi_id l) -> NoDup (map hi_id (hint_insert x l)).
Proof.
  intros H. unfold hint_insert. pose proof (hint_known x l) as K. destruct (existsb _ l); [exact H|]. rewrite map_app. apply NoDup_snoc; [exact H|].
  intros X. apply K in X. discriminate.
Qed.

Lemma tells_nil po scripts fs hs : tells po scripts fs hs [] [] [].
Proof.
  split; try constructor.
  - intros [].
  - intros (? & ? & [] & _).
  - intros [].
  - intros ([|? ?] & ? & ? & ? & ? & _); discriminate.
Qed.
Lemma tells_step po scripts fs hs errors mods matched code sp c o : fits fs -> in_source fs sp ->
  report_one po scripts (loaded fs) hs code sp = Done (c, o) ->
  tells po scripts fs hs errors mods matched ->
  (forall i, In i (map hi_id matched) <-> exists code sp h, In (code, sp) errors /\ hint_for po scripts fs hs code sp h /\ hi_id h = i) ->
  let matched' := match o with Some h => hint_insert h matched | None => matched end in
  tells po scripts fs hs (errors ++ [(code, sp)]) (set_insert c mods) matched' /\
  (forall i, In i (map hi_id matched') <->
    exists code' sp' h, In (code', sp') (errors ++ [(code, sp)]) /\ hint_for po scripts fs hs code' sp' h /\ hi_id h = i).
Proof.
  intros F S R [M1 M2 H1 H2] K matched'.
  pose proof (fun m => one_fault po scripts fs hs code sp c o m F R S) as OF.
  pose proof (fun h => one_hint po scripts fs hs code sp c o h F R S) as OH.
  assert (IN : forall h, In h matched' <-> In h matched \/ (o = Some h /\ ~ In (hi_id h) (map hi_id matched))).
  { intros h. subst matched'. destruct o as [x|]; [|intuition discriminate]. rewrite hint_insert_in. split.
    - intros [X|[-> X]]; auto.
    - intros [X|[[= ->] X]]; auto. }
  split; [split|].
  - now apply set_insert_once.
  - intros m. rewrite set_insert_in, M2. split.
    + intros [->|(code' & sp' & I & A)].
      * exists code, sp. split; [apply in_app_iff; right; now left|]. now apply OF.
      * exists code', sp'. split; [apply in_app_iff; now left|exact A].
    + intros (code' & sp' & I & A). apply in_app_iff in I as [I|[[= <- <-]|[]]]; [right; eauto|]. left. now apply OF.
  - subst matched'. destruct o; [now apply hint_insert_once|exact H1].
  - intros h. rewrite IN, H2. split.
    + intros [(before & code' & sp' & after & -> & X & N)|[-> N]].
      * exists before, code', sp', (after ++ [(code, sp)]). split; [now rewrite <- app_assoc|auto].
      * exists errors, code, sp, []. split; [reflexivity|split; [now apply OH|]]. intros code' sp' h' I X E. apply N. apply K. eauto 6.
    + intros (before & code' & sp' & after & E & X & N). destruct (exists_last (l := (code', sp') :: after)) as (z & y & Z); [discriminate|].
      rewrite Z, app_assoc in E. apply app_inj_tail in E as [E <-]. destruct z as [|z0 z].
      * injection Z as -> -> ->. rewrite app_nil_r in E. subst before. right. split; [now apply OH|].
        intros J. apply K in J as (code' & sp' & h' & I & X' & J). exact (N _ _ _ I X' J).
      * injection Z as <- ->. left. exists before, code', sp', z. split; [exact E|split; [exact X|exact N]].
  - intros i. rewrite in_map_iff. split.
    + intros (h & <- & X). apply IN in X as [X|[-> N]].
      * apply (in_map hi_id), K in X as (code' & sp' & h' & I & X & E). exists code', sp', h'. split; [apply in_app_iff; now left|auto].
      * exists code, sp, h. split; [apply in_app_iff; right; now left|]. split; [now apply OH|reflexivity].
    + intros (code' & sp' & h & I & X & <-).
      destruct (in_dec (list_eq_dec Byte.byte_eq_dec) (hi_id h) (map hi_id matched)) as [J|J].
      * apply in_map_iff in J as (x & E & J). exists x. split; [exact E|]. apply IN. now left.
      * apply in_app_iff in I as [I|[[= <- <-]|[]]]; [destruct J; apply K; eauto 6|]. exists h. split; [reflexivity|]. apply IN. right. split; [now apply OH|exact J].
Qed.

Lemma loop_tells po scripts fs hs : fits fs -> forall spans, (forall code sp, In (code, sp) spans -> in_source fs sp) ->
  forall errors mods matched, tells po scripts fs hs errors mods matched ->
  (forall i, In i (map hi_id matched) <-> exists code sp h, In (code, sp) errors /\ hint_for po scripts fs hs code sp h /\ hi_id h = i) ->
  exists mods' matched', report_loop po scripts (loaded fs) hs spans mods matched = Done (mods', matched') /\
    tells po scripts fs hs (errors ++ spans) mods' matched'.
Proof.
  intros F. induction spans as [|[code sp] spans IH]; intros S errors mods matched T K; cbn [report_loop].
  - exists mods, matched. rewrite app_nil_r. auto.
  - assert (S1 : in_source fs sp) by (eapply S; now left).
    destruct (place_exists _ _ S1) as (path & part & line & P).
    destruct (report_one po scripts (loaded fs) hs code sp) as [[c o]|e] eqn:R.
    2: { rewrite (place_one _ _ _ _ _ _ _ _ _ F P) in R. discriminate. }
    cbn [obind]. destruct (tells_step _ _ _ _ _ _ _ _ _ _ _ F S1 R T K) as [T' K'].
    destruct (IH (fun code' sp' I => S code' sp' (or_intror I)) _ _ _ T' K') as (mods' & matched' & E & T2).
    exists mods', matched'. split; [exact E|]. now rewrite <- app_assoc in T2.
Qed.

Lemma tells_permuted po scripts fs hs errors mods matched mods' matched' : Permutation mods' mods -> Permutation matched' matched ->
  tells po scripts fs hs errors mods matched -> tells po scripts fs hs errors mods' matched'.
Proof.
  intros P Q [A B C D]. split.
  - exact (Permutation_NoDup (Permutation_sym P) A).
  - intros m. rewrite <- B. split; apply Permutation_in; [exact P|now apply Permutation_sym].
  - exact (Permutation_NoDup (Permutation_sym (Permutation_map hi_id Q)) C).
  - intros h. rewrite <- D. split; apply Permutation_in; [exact Q|now apply Permutation_sym].
Qed.

(** ** Theorems *)

(** The message for any errors at places of loaded files: it never panics, names
    every mod at fault once and no other, and shows the hints of the errors, each
    id once; without hints it gives the general advice. *)
Theorem C62_message po orders scripts fs hs errors : fits fs -> fair orders -> errors <> [] ->
  (forall code sp, In (code, sp) errors -> in_source fs sp) ->
  exists mods shown_hints, report_text po orders scripts (loaded fs) hs errors = Done (message mods (map hi_message shown_hints)) /\
    mods <> [] /\ tells po scripts fs hs errors mods shown_hints.
Proof.
  intros F [O1 O2] N S.
  destruct (loop_tells po scripts fs hs F errors S [] [] []) as (mods & matched & E & T).
  - apply tells_nil.
  - intros i. split; [intros []|intros (? & ? & ? & [] & _)].
  - cbn [app] in T. exists (walk_mods orders mods), (walk_hints orders matched).
    assert (NM : mods <> []).
    { destruct errors as [|[code sp] errors]; [easy|]. assert (S1 : in_source fs sp) by (eapply S; now left).
      destruct (place_exists _ _ S1) as (path & part & line & P).
      pose proof (place_one po scripts fs hs code sp _ _ _ F P) as R.
      intros ->. destruct (te_mods _ _ _ _ _ _ _ T) with (m := fst (match report_one po scripts (loaded fs) hs code sp with Done x => x | Fail _ => ([], None) end)) as [_ X].
      apply X. exists code, sp. split; [now left|]. rewrite R. cbn zeta. eapply one_fault; eauto. }
    split; [|split].
    + unfold report_text. rewrite E. cbn [obind]. f_equal.
      assert (B : forall l : list str, concat (map (fun m => writeln (lit "- " ++ m)) l) = concat (map bullet l)).
      { reflexivity. }
      assert (B' : forall l : list hint, concat (map (fun h => writeln (lit "- " ++ hi_message h)) l) = concat (map bullet (map hi_message l))).
      { intros l. rewrite map_map. reflexivity. }
      rewrite B, B'. unfold message, writeln. destruct mods as [|m mods]; [easy|]. rewrite <- !app_assoc. do 4 f_equal.
      destruct matched as [|h matched].
      * pose proof (O2 []) as Z. apply Permutation_sym, Permutation_nil in Z. rewrite Z. reflexivity.
      * destruct (walk_hints orders (h :: matched)) as [|h' l'] eqn:W.
        { pose proof (O2 (h :: matched)) as Z. rewrite W in Z. apply Permutation_nil in Z. discriminate. }
        reflexivity.
    + intros Z. pose proof (O1 mods) as Y. rewrite Z in Y. apply Permutation_nil in Y. contradiction.
    + eapply tells_permuted; eauto.
Qed.
Print Assumptions C62_message.

(** Of a compilation that goes to its end: the errors are blamed, not the warnings,
    and there is no message if there are no errors. *)
Theorem C62_errors_blamed po orders scripts fs hs ev l p out ws es : fits fs -> fair orders ->
  All (module_placed (in_source fs)) l -> compile ev l p = Done out -> splits (out_diags out) ws es ->
  let result := snd (compile_and_report (displayable (loaded fs)) (Done (out_diags out))) in
  (es = [] -> failure_message po orders scripts (loaded fs) hs result = Done None) /\
  (es <> [] -> exists mods shown_hints,
     failure_message po orders scripts (loaded fs) hs result = Done (Some (message mods (map hi_message shown_hints))) /\
     tells po scripts fs hs (map (fun d => (diag_code d, diag_span d)) es) mods shown_hints).
Proof.
  intros F O H C S. pose proof (C59_place_of_a_part (in_source fs) ev l p H) as K. rewrite C in K.
  destruct (C26_report (displayable (loaded fs)) _ _ _ S) as (r & -> & R1 & R2).
  { intros d D. apply in_source_displayable; auto. }
  cbn [snd]. split; intros E.
  - now rewrite (R1 E).
  - rewrite (R2 E). cbn [failure_message report_spans].
    destruct (C62_message po orders scripts fs hs (map (fun d => (diag_code d, diag_span d)) es) F O) as (mods & sh & T & _ & T').
    + now destruct es.
    + intros code sp I. apply in_map_iff in I as (d & [= <- <-] & D). apply K.
      clear - S D. induction S as [|x l ws es W S IH|x l ws es W S IH]; [destruct D|right; auto|]. destruct D as [->|D]; [now left|right; auto].
    + exists mods, sh. rewrite T. split; [reflexivity|exact T'].
Qed.
Print Assumptions C62_errors_blamed.

(** Of an error with a place that stops it: the mod of the file is blamed; a file
    must be loaded. *)
Definition stopped_by (e : error) (d : diagnostic) : Prop :=
  match e with
  | SyntaxError sp => d = DSyntaxError sp
  | CteError m sp => d = DCteError m sp
  | CompileError c sp => d = DCompileError c sp
  | _ => False
  end.
Lemma stopped_message po orders scripts fs hs e d : fits fs -> fair orders -> stopped_by e d -> in_source fs (diag_span d) ->
  exists mods shown_hints,
    failure_message po orders scripts (loaded fs) hs (snd (compile_and_report (displayable (loaded fs)) (Fail e))) =
      Done (Some (message mods (map hi_message shown_hints))) /\
    tells po scripts fs hs [(diag_code d, diag_span d)] mods shown_hints.
Proof.
  intros F O D S. destruct (C62_message po orders scripts fs hs [(diag_code d, diag_span d)] F O) as (mods & sh & T & _ & T').
  - discriminate.
  - intros code sp [[= <- <-]|[]]. exact S.
  - exists mods, sh. split; [|exact T'].
    assert (G : snd (compile_and_report (displayable (loaded fs)) (Fail e)) = Fail (MultipleErrors [(diag_code d, diag_span d)])).
    { pose proof (in_source_displayable _ _ F S) as K. destruct e; cbn in D; try contradiction D; subst d;
        cbn [compile_and_report diag_from_error]; unfold log_diag; cbn [diag_span] in *; now rewrite K. }
    rewrite G. cbn [failure_message report_spans]. now rewrite T.
Qed.
Theorem C62_stop_blamed po orders scripts fs hs ev l p e d : fits fs -> fair orders -> fs <> [] ->
  All (module_placed (in_source fs)) l -> compile ev l p = Fail e -> stopped_by e d ->
  exists mods shown_hints,
    failure_message po orders scripts (loaded fs) hs (snd (compile_and_report (displayable (loaded fs)) (Fail e))) =
      Done (Some (message mods (map hi_message shown_hints))) /\
    tells po scripts fs hs [(diag_code d, diag_span d)] mods shown_hints.
Proof.
  intros F O N H C D. pose proof (C59_place_of_a_part (in_source fs) ev l p H) as K. rewrite C in K.
  apply stopped_message; auto.
  destruct (K d) as [X|X]; [|exact X|rewrite X; now apply zero_in_source].
  destruct e; cbn in D; try contradiction D; subst d; reflexivity.
Qed.
Print Assumptions C62_stop_blamed.

(** A file that does not parse, or whose conditional compilation fails: its mod is
    blamed, and only hints registered for the code OTHER are shown, whatever is
    registered for SYNTAX_ERR and CTE_ERR. *)
Theorem C62_unparsed_partial po orders scripts fs hs e sp : fits fs -> fair orders -> in_source fs sp ->
  e = SyntaxError sp \/ (exists m, e = CteError m sp) ->
  exists mods shown_hints,
    failure_message po orders scripts (loaded fs) hs (snd (compile_and_report (displayable (loaded fs)) (Fail e))) =
      Done (Some (message mods (map hi_message shown_hints))) /\
    tells po scripts fs hs [(lit "OTHER", sp)] mods shown_hints.
Proof.
  intros F O S [->|(m & ->)].
  - exact (stopped_message po orders scripts fs hs (SyntaxError sp) (DSyntaxError sp) F O eq_refl S).
  - exact (stopped_message po orders scripts fs hs (CteError m sp) (DCteError m sp) F O eq_refl S).
Qed.
Print Assumptions C62_unparsed_partial.

(** ** A case *)

(** Paths cut at slashes; the name of the file is the last component. *)
Fixpoint cut (acc s : str) : fpath :=
  match s with
  | [] => match acc with [] => [] | _ => [rev acc] end
  | b :: s' => if Byte.eqb b x2f then (match acc with [] => cut [] s' | _ => rev acc :: cut [] s' end) else cut (b :: acc) s'
  end.
Definition ex_paths : path_ops := {| components := cut []; file_name := fun p => match rev (cut [] p) with n :: _ => Some n | [] => None end |}.
Definition ex_orders : hash_orders := {| walk_mods := @rev str; walk_hints := fun l => l |}.
Definition ex_files : list source :=
  [(lit "game/r6/scripts/Alpha/a.reds", one_byte (lit "func a() = old()" ++ newline));
   (lit "game/r6/scripts/Beta/lib/b.reds", one_byte (lit "// fine" ++ newline));
   (lit "elsewhere/c.reds", one_byte (lit "func c() = gone()" ++ newline));
   (lit "game/r6/scripts/Alpha/d.reds", one_byte (lit "func d() = old()"))].
Definition ex_hints : hints :=
  [(lit "UNRESOLVED_FN", [{| hi_id := lit "1"; hi_message := lit "Only for Beta."; hi_file := Some [lit "Beta"; lit "b.reds"]; hi_span_starts_with := Some (lit "old"); hi_line_contains := None |};
                          {| hi_id := lit "2"; hi_message := lit "Update Alpha."; hi_file := None; hi_span_starts_with := Some (lit "old"); hi_line_contains := None |}]);
   (lit "SYNTAX_ERR", [{| hi_id := lit "3"; hi_message := lit "Check the braces."; hi_file := None; hi_span_starts_with := None; hi_line_contains := Some (lit "func") |}])].
Definition ex_errors : list (str * span) := [(lit "UNRESOLVED_FN", Span 11 16); (lit "UNRESOLVED_FN", Span 38 44); (lit "UNRESOLVED_FN", Span 57 60)].
Lemma one_byte_chars s : forallb (fun b => negb (is_cont b)) s = true -> Forall is_char (one_byte s).
Proof.
  intros H. apply Forall_forall. intros c C. apply in_map_iff in C as (b & <- & C). exists b, []. repeat split; auto.
  rewrite forallb_forall in H. apply negb_true_iff. auto.
Qed.
Lemma ex_fits : fits ex_files.
Proof. split; [|vm_compute; discriminate]. apply Forall_cons; [|apply Forall_cons; [|apply Forall_cons; [|apply Forall_cons; [|apply Forall_nil]]]]; cbn [snd]; apply one_byte_chars; vm_compute; reflexivity. Qed.
Lemma ex_fair : fair ex_orders.
Proof. split; intros l; [apply Permutation_sym, Permutation_rev|apply Permutation_refl]. Qed.
Lemma ex_in_source i path text k n : nth_error ex_files i = Some (path, one_byte text) -> (k + n <= length text)%nat ->
  in_source ex_files (Span (base ex_files i + Z.of_nat k) (base ex_files i + Z.of_nat (k + n))).
Proof.
  intros E L. exists i, path, (one_byte (firstn k text)), (one_byte (firstn n (skipn k text))), (one_byte (skipn n (skipn k text))). split.
  - rewrite E. unfold one_byte. rewrite <- !map_app. now rewrite !firstn_skipn.
  - rewrite concat_app, !one_byte_concat. unfold blen. rewrite app_length, !firstn_length, skipn_length. f_equal; lia.
Qed.
Example C62_nonvacuous : fits ex_files /\ fair ex_orders /\ (forall code sp, In (code, sp) ex_errors -> in_source ex_files sp) /\
  report_text ex_paths ex_orders (lit "game/r6/scripts") (loaded ex_files) ex_hints ex_errors =
  Done (message [lit "c.reds"; lit "Alpha"] [lit "Update Alpha."]).
Proof.
  split; [apply ex_fits|split; [apply ex_fair|split]].
  - intros code sp [[= <- <-]|[[= <- <-]|[[= <- <-]|[]]]].
    + apply (ex_in_source 0 (lit "game/r6/scripts/Alpha/a.reds") (lit "func a() = old()" ++ newline) 11 5); [reflexivity|cbn; lia].
    + apply (ex_in_source 2 (lit "elsewhere/c.reds") (lit "func c() = gone()" ++ newline) 11 6); [reflexivity|cbn; lia].
    + apply (ex_in_source 3 (lit "game/r6/scripts/Alpha/d.reds") (lit "func d() = old()") 11 3); [reflexivity|cbn; lia].
  - vm_compute. reflexivity.
Qed.

(** The hints for syntax errors are never shown: a hint is registered for
    SYNTAX_ERR, the code that the message gives to syntax errors, and applies to this
    one, yet the message has only the general advice. *)
Theorem C62_syntax_hints_refuted : exists po orders scripts fs hs sp h,
  fits fs /\ fair orders /\ in_source fs sp /\
  report_spans (SyntaxError sp) = Some [(lit "SYNTAX_ERR", sp)] /\ hint_for po scripts fs hs (lit "SYNTAX_ERR") sp h /\
  exists mods, failure_message po orders scripts (loaded fs) hs (snd (compile_and_report (displayable (loaded fs)) (Fail (SyntaxError sp)))) =
    Done (Some (message mods [])).
Proof.
  exists ex_paths, ex_orders, (lit "game/r6/scripts"), ex_files, ex_hints, (Span 5 6),
    {| hi_id := lit "3"; hi_message := lit "Check the braces."; hi_file := None; hi_span_starts_with := None; hi_line_contains := Some (lit "func") |}.
  assert (S : in_source ex_files (Span 5 6)).
  { apply (ex_in_source 0 (lit "game/r6/scripts/Alpha/a.reds") (lit "func a() = old()" ++ newline) 5 1); [reflexivity|cbn; lia]. }
  split; [apply ex_fits|split; [apply ex_fair|split; [exact S|split; [reflexivity|split]]]].
  - destruct (report_one ex_paths (lit "game/r6/scripts") (loaded ex_files) ex_hints (lit "SYNTAX_ERR") (Span 5 6)) as [[c o]|] eqn:R; [|vm_compute in R; discriminate].
    eapply one_hint; [apply ex_fits|exact R|exact S|]. vm_compute in R. now injection R.
  - exists [lit "Alpha"]. vm_compute. reflexivity.
Qed.
Print Assumptions C62_syntax_hints_refuted.
