(** C65: exactly the scripts are loaded. *)
From Coq Require Import String.
From Coq Require Import ZArith List Bool Lia.
From Verif Require Import Bytes BytesFacts Bytecode Definitions Bundle BundleFacts Ast TypeNames SourceMap Sources SourcesSpec.
Import ListNotations.
Open Scope Z_scope.

(** * Names *)

Lemma split_dot_spec s :
  match split_dot s with
  | Some (x, y) => s = x ++ x2e :: y /\ ~ In x2e y
  | None => ~ In x2e s
  end.
Proof.
  induction s as [|b s IH]; cbn [split_dot]; [exact (fun H => H)|].
  destruct (split_dot s) as [[x y]|]; [destruct IH as [-> N]; auto|].
  destruct (Byte.eqb b x2e) eqn:B.
  - apply Byte.byte_dec_bl in B. subst b. split; [reflexivity|exact IH].
  - intros [->|H]; [discriminate B|exact (IH H)].
Qed.
Lemma last_dot x y x' y' : x ++ x2e :: y = x' ++ x2e :: y' -> ~ In x2e y -> ~ In x2e y' -> x = x' /\ y = y'.
Proof.
  revert x'. induction x as [|b x IH]; intros [|b' x'] H N N'; cbn [app] in H; injection H; intros; subst.
  - auto.
  - exfalso. apply N. apply in_or_app. right. left. reflexivity.
  - exfalso. apply N'. apply in_or_app. right. left. reflexivity.
  - destruct (IH x'); try assumption. subst. auto.
Qed.
Lemma reds_no_dot : ~ In x2e (lit "reds").
Proof. cbn. intros H. repeat destruct H as [H|H]; try discriminate H; exact H. Qed.
Lemma stem_script name stem : script_name name stem -> stem_extension name = (stem, Some (lit "reds")).
Proof.
  intros [N ->]. unfold stem_extension. pose proof (split_dot_spec (stem ++ lit ".reds")) as S.
  destruct (str_eqb_spec (stem ++ lit ".reds") (lit "..")) as [H|_].
  { exfalso. apply (f_equal (@rev _)) in H. rewrite rev_app_distr in H. discriminate H. }
  destruct (split_dot _) as [[x y]|].
  - destruct S as [S M]. destruct (last_dot stem (lit "reds") x y S reds_no_dot M) as [<- <-]. destruct stem; [contradiction|reflexivity].
  - exfalso. apply S. apply in_or_app. right. left. reflexivity.
Qed.
Lemma script_stem name : snd (stem_extension name) = Some (lit "reds") -> script_name name (fst (stem_extension name)).
Proof.
  unfold stem_extension. destruct (str_eqb name (lit "..")); [discriminate|]. pose proof (split_dot_spec name) as S.
  destruct (split_dot name) as [[[|b x] y]|]; cbn [fst snd]; try discriminate. intros [= ->]. destruct S as [-> _]. split; [discriminate|reflexivity].
Qed.
(** Exactly what is wanted passes the filter. *)
Lemma applies f rel : filter_apply f rel = true <-> wanted f rel.
Proof.
  unfold filter_apply, wanted, extension, without_extension. rewrite <- (rev_involutive rel). rewrite rev_involutive.
  destruct (rev rel) as [|name dirs]; cbn [rev].
  { split; [discriminate|]. intros [(d & n & s & H & _) _]. destruct d; discriminate H. }
  assert (X : (match snd (stem_extension name) with Some e => str_eqb e (lit "reds") | None => false end) = true <->
    exists ds n stem, rev dirs ++ [name] = ds ++ [n] /\ script_name n stem).
  { split.
    - destruct (snd (stem_extension name)) as [e|] eqn:E; [|discriminate]. destruct (str_eqb_spec e (lit "reds")) as [->|]; [|discriminate].
      intros _. exists (rev dirs), name. eexists. split; [reflexivity|]. apply script_stem, E.
    - intros (ds & n & stem & H & S). apply app_inj_tail in H as [_ <-]. rewrite (stem_script _ _ S). reflexivity. }
  rewrite andb_true_iff, X. split; intros [A B]; (split; [exact A|]).
  - destruct f as [|names]; [exact (fun H => H)|]. cbn [excluded]. intros H. destruct A as (ds & n & stem & E & S). apply app_inj_tail in E as [_ <-].
    rewrite (stem_script _ _ S) in B. cbn [fst] in B. destruct (rev dirs) as [|d l] eqn:D; cbn [app] in B, H.
    + destruct (utf8_valid stem) eqn:U; [|discriminate]. destruct (H stem) as [I|I]; [exact S| |congruence].
      rewrite (proj2 (existsb_exists _ _)) in B; [discriminate|]. exists stem. split; [exact I|]. now destruct (str_eqb_spec stem stem).
    + destruct (utf8_valid d) eqn:U; [|discriminate].
      assert (M : mod_name (d :: l ++ [name]) d) by (destruct l; reflexivity). destruct (H d M) as [I|I]; [|congruence].
      rewrite (proj2 (existsb_exists _ _)) in B; [discriminate|]. exists d. split; [exact I|]. now destruct (str_eqb_spec d d).
  - destruct f as [|names]; [reflexivity|]. cbn [excluded] in B. destruct A as (ds & n & stem & E & S). apply app_inj_tail in E as [_ <-].
    rewrite (stem_script _ _ S). cbn [fst].
    assert (M : forall nm, mod_name (rev dirs ++ [name]) nm -> nm = match rev dirs with [] => stem | d :: _ => d end).
    { destruct (rev dirs) as [|d l]; cbn [app mod_name].
      - intros nm S'. pose proof (stem_script _ _ S) as E1. rewrite (stem_script _ _ S') in E1. congruence.
      - intros nm H. destruct (l ++ [name]) eqn:L; [destruct l; discriminate L|exact H]. }
    assert (G : forall top, (forall nm, mod_name (rev dirs ++ [name]) nm -> nm = top) -> (if utf8_valid top then negb (existsb (str_eqb top) names) else false) = true).
    { intros top T. destruct (utf8_valid top) eqn:U.
      - destruct (existsb (str_eqb top) names) eqn:Ex; [|reflexivity]. exfalso. apply B. intros nm Hn. rewrite (T nm Hn). left.
        apply existsb_exists in Ex as (y & I & Q). destruct (str_eqb_spec top y); [subst; exact I|discriminate].
      - exfalso. apply B. intros nm Hn. rewrite (T nm Hn). right. exact U. }
    destruct (rev dirs) as [|d l]; cbn [app] in *; apply G; exact M.
Qed.

(** * Walking *)

Section Nodes.
Variable P : node -> Prop.
Hypothesis hfile : forall c, P (NFile c).
Hypothesis hdir : forall l, Forall (fun x => P (snd x)) l -> P (NDir l).
Hypothesis hbroken : P NBroken.
Fixpoint node_ind' (n : node) : P n :=
  match n with
  | NFile c => hfile c
  | NDir l => hdir l ((fix go l : Forall (fun x => P (snd x)) l := match l with [] => Forall_nil _ | (k, m) :: l' => Forall_cons (k, m) (node_ind' m) (go l') end) l)
  | NBroken => hbroken
  end.
End Nodes.
Lemma walk_in n : forall path rel path' rel' m, In (path', rel', m) (walk path rel n) <->
  exists r, lies n r m /\ m <> NBroken /\ rel' = rel ++ r /\ path' = below path r.
Proof.
  induction n as [c|l IH|] using node_ind'; intros path rel path' rel' m; cbn [walk].
  - split.
    + intros [[= <- <- <-]|[]]. exists []. split; [constructor|]. split; [discriminate|]. rewrite app_nil_r. auto.
    + intros (r & H & _ & -> & ->). inversion H; subst. left. rewrite app_nil_r. reflexivity.
  - split.
    + intros [[= <- <- <-]|H].
      * exists []. split; [constructor|]. split; [discriminate|]. rewrite app_nil_r. auto.
      * apply in_flat_map in H as ([k x] & I & H). rewrite Forall_forall in IH. apply (IH _ I) in H as (r & L & N & -> & ->). cbn [fst snd] in *.
        exists (k :: r). split; [econstructor; eassumption|]. split; [exact N|]. rewrite <- app_assoc. auto.
    + intros (r & H & N & -> & ->). inversion H as [|? k x r' ? I L]; subst.
      * left. rewrite app_nil_r. reflexivity.
      * right. apply in_flat_map. exists (k, x). split; [exact I|]. rewrite Forall_forall in IH. apply (IH _ I). cbn [fst snd].
        exists r'. rewrite <- app_assoc. auto.
  - split; [intros []|]. intros (r & H & N & _). inversion H; subst. contradiction.
Qed.
Lemma filtered_in fs f arg path n : In (path, n) (filtered_files fs f arg) <-> offers fs f arg path n.
Proof.
  unfold filtered_files, offers. destruct (fs arg) as [[c|l|]|] eqn:E.
  - split.
    + intros [[= <- <-]|[]]. left. eauto.
    + intros [(c' & [= <-] & -> & ->)|(l & r & H & _)]; [left; reflexivity|discriminate H].
  - rewrite in_map_iff. split.
    + intros ([[p r] m] & [= <- <-] & H). apply filter_In in H as [H A]. cbn [fst snd] in *. apply walk_in in H as (r' & L & N & -> & ->).
      right. exists l, r'. apply applies in A. auto.
    + intros [(c & H & _)|(l' & r & [= <-] & L & N & W & ->)]; [discriminate H|]. exists (below arg r, r, n). split; [reflexivity|].
      apply filter_In. split; [apply walk_in; exists r; auto|apply applies, W].
  - cbn [walk List.filter map]. split; [intros []|]. intros [(c & H & _)|(l & r & H & _)]; discriminate H.
  - split; [intros []|]. intros [(c & H & _)|(l & r & H & _)]; discriminate H.
Qed.

(** * Reading *)

Lemma read_text n s : read_to_string n = Some s <-> is_text n s.
Proof.
  unfold read_to_string, is_text. destruct n as [[c|]|l|]; try (split; [discriminate|intros [[= ?] _]]; fail); try (split; [discriminate|intros [? _]; discriminate]).
  destruct (utf8_valid c) eqn:U; split; try discriminate; try (intros [= <-]; auto); intros [[= <-] ?]; congruence.
Qed.
Definition entry_of (f : file) : str * str := (f_path f, f_source f).
Lemma from_files_some l : forall files out, from_files files l = Some out ->
  exists texts, map entry_of out = map entry_of files ++ texts /\ Forall2 (fun x y => fst x = fst y /\ is_text (snd x) (snd y)) l texts.
Proof.
  induction l as [|[path n] l IH]; intros files out H; cbn [from_files] in H.
  - injection H as <-. exists []. rewrite app_nil_r. auto.
  - destruct (read_to_string n) as [s|] eqn:R; [|discriminate]. apply IH in H as (t & E & F). exists ((path, s) :: t). split.
    + rewrite E. unfold files_add. rewrite map_app. cbn [map]. rewrite <- app_assoc. reflexivity.
    + constructor; [|exact F]. split; [reflexivity|]. apply read_text, R.
Qed.
Lemma from_files_none l : forall files, from_files files l = None <-> exists path n, In (path, n) l /\ forall s, ~ is_text n s.
Proof.
  induction l as [|[path n] l IH]; intros files; cbn [from_files].
  - split; [discriminate|]. intros (p & n & [] & _).
  - destruct (read_to_string n) as [s|] eqn:R.
    + rewrite IH. split; intros (p & m & I & N); exists p, m.
      * split; [right; exact I|exact N].
      * destruct I as [[= <- <-]|I]; [|auto]. exfalso. apply (N s), read_text, R.
    + split; [|reflexivity]. intros _. exists path, n. split; [left; reflexivity|]. intros s T. apply read_text in T. congruence.
Qed.
Lemma paired {A B} (R : A -> B -> Prop) l l' : Forall2 R l l' -> (forall x, In x l -> exists y, In y l' /\ R x y) /\ (forall y, In y l' -> exists x, In x l /\ R x y).
Proof.
  induction 1 as [|x y l l' H F [I1 I2]]; [split; intros ? []|]. split.
  - intros a [<-|I]; [exists y; split; [left; reflexivity|exact H]|]. destruct (I1 a I) as (b & J & K). exists b. split; [right; exact J|exact K].
  - intros b [<-|I]; [exists x; split; [left; reflexivity|exact H]|]. destruct (I2 b I) as (a & J & K). exists a. split; [right; exact J|exact K].
Qed.

(** If loading succeeds, exactly the wanted files are loaded, each with its text. *)
Theorem C65_loads_exactly fs args f files : from_dirs fs args f = Some files -> forall path text,
  (exists x, In x files /\ f_path x = path /\ f_source x = text) <-> (exists arg n, In arg args /\ offers fs f arg path n /\ is_text n text).
Proof.
  unfold from_dirs. intros H path text. apply from_files_some in H as (t & E & F). cbn [map app] in E. destruct (paired _ _ _ F) as [P1 P2].
  split.
  - intros (x & I & <- & <-). assert (J : In (entry_of x) t) by (rewrite <- E; apply in_map, I). destruct (P2 _ J) as ([p n] & K & Q & T).
    cbn [fst snd entry_of] in Q, T. subst p. apply in_flat_map in K as (arg & Ia & K). exists arg, n. apply filtered_in in K. auto.
  - intros (arg & n & Ia & O & T). apply filtered_in in O. destruct (P1 (path, n)) as ([p s] & J & Q & T').
    { apply in_flat_map. eauto. }
    cbn [fst snd] in Q, T'. subst p. destruct T as [-> _], T' as [[= <-] _]. rewrite <- E in J. apply in_map_iff in J as (x & [= <- <-] & J). eauto.
Qed.
Print Assumptions C65_loads_exactly.

(** It fails exactly if something wanted is not readable text. *)
Theorem C65_fails_exactly fs args f : from_dirs fs args f = None <->
  exists arg path n, In arg args /\ offers fs f arg path n /\ forall text, ~ is_text n text.
Proof.
  unfold from_dirs. rewrite from_files_none. split.
  - intros (p & n & I & N). apply in_flat_map in I as (arg & Ia & I). apply filtered_in in I. exists arg, p, n. auto.
  - intros (arg & p & n & Ia & O & N). exists p, n. split; [|exact N]. apply in_flat_map. exists arg. split; [exact Ia|]. apply filtered_in, O.
Qed.
Print Assumptions C65_fails_exactly.

(** So if no directory is called like a script, it succeeds exactly if all scripts
    are readable text. *)
Theorem C65_succeeds_partial fs args f :
  (forall arg path n, In arg args -> offers fs f arg path n -> is_file n) ->
  ((exists files, from_dirs fs args f = Some files) <->
   (forall arg path n, In arg args -> offers fs f arg path n -> is_file n -> exists text, is_text n text)).
Proof.
  intros D. destruct (from_dirs fs args f) as [files|] eqn:E.
  - split; [|intros _; exists files; reflexivity]. intros _ arg path n Ia O _.
    unfold from_dirs in E. apply from_files_some in E as (t & _ & F). destruct (proj1 (paired _ _ _ F) (path, n)) as ([p s] & _ & _ & T).
    { apply in_flat_map. exists arg. split; [exact Ia|]. apply filtered_in, O. }
    exists s. exact T.
  - split; [intros [? [=]]|]. intros H. exfalso. apply C65_fails_exactly in E as (arg & p & n & Ia & O & N). destruct (H arg p n Ia O (D _ _ _ Ia O)) as [s T]. exact (N s T).
Qed.
Print Assumptions C65_succeeds_partial.

(** * Each once *)

Definition good_name (name : str) : Prop := name <> [] /\ ~ In x2f name.
Definition slashed (rel : list str) : str := flat_map (fun n => x2f :: n) rel.
Lemma child_proper path name : proper path -> child path name = path ++ x2f :: name.
Proof.
  intros (s & b & -> & N). unfold child. rewrite rev_app_distr. cbn [rev app]. destruct (Byte.eqb b x2f) eqn:B; [|reflexivity].
  apply Byte.byte_dec_bl in B. contradiction.
Qed.
Lemma below_proper rel : forall path, proper path -> Forall good_name rel -> below path rel = path ++ slashed rel.
Proof.
  induction rel as [|n rel IH]; intros path P F; cbn [below fold_left slashed flat_map]; [now rewrite app_nil_r|].
  inversion F as [|? ? [G1 G2] F']; subst. change (below (child path n) rel = path ++ (x2f :: n) ++ slashed rel). rewrite child_proper by exact P. rewrite IH.
  - rewrite <- app_assoc. reflexivity.
  - destruct (exists_last G1) as (s & b & ->). exists (path ++ x2f :: s), b. split; [rewrite <- app_assoc; reflexivity|]. intros ->. apply G2. apply in_or_app. right. left. reflexivity.
  - exact F'.
Qed.
Lemma first_slash (a a' b b' : str) : ~ In x2f a -> ~ In x2f a' -> (forall x y, b = x :: y -> x = x2f) -> (forall x y, b' = x :: y -> x = x2f) ->
  a ++ b = a' ++ b' -> a = a' /\ b = b'.
Proof.
  revert a'. induction a as [|c a IH]; intros [|c' a'] N N' B B' H; cbn [app] in H.
  - auto.
  - exfalso. apply N'. left. exact (B _ _ H).
  - exfalso. apply N. left. symmetry in H. exact (B' _ _ H).
  - injection H as -> H. destruct (IH a') as [-> ->]; try assumption; [intros I; apply N; right; exact I|intros I; apply N'; right; exact I|]. auto.
Qed.
Lemma slashed_head rel : forall x y, slashed rel = x :: y -> x = x2f.
Proof. destruct rel; cbn; intros x y H; [discriminate|]. injection H as <- _. reflexivity. Qed.
Lemma slashed_inj r : forall r', Forall good_name r -> Forall good_name r' -> slashed r = slashed r' -> r = r'.
Proof.
  induction r as [|n r IH]; intros [|n' r'] F F' H; try discriminate H; [reflexivity|].
  inversion F as [|? ? [_ G] F1]; inversion F' as [|? ? [_ G'] F1']; subst. cbn [slashed flat_map app] in H. injection H as H.
  destruct (first_slash n n' (slashed r) (slashed r') G G' (slashed_head r) (slashed_head r') H) as [<- E]. f_equal. apply IH; assumption.
Qed.
Lemma well_named_in l k m : well_named (NDir l) -> In (k, m) l -> well_named m.
Proof. intros W I rel entries L. apply (W (k :: rel)). econstructor; eassumption. Qed.
Lemma lies_good n r m : lies n r m -> well_named n -> Forall good_name r.
Proof.
  induction 1 as [n|l k m r x I L IH]; intros W; constructor.
  - apply (proj2 (W [] l (lies_here _))). apply in_map_iff. exists (k, m). auto.
  - apply IH. eapply well_named_in; eassumption.
Qed.
Lemma nodup_via {A B C} (f : A -> B) (g : A -> C) l : NoDup (map g l) -> (forall x y, In x l -> In y l -> f x = f y -> g x = g y) -> NoDup (map f l).
Proof.
  induction l as [|a l IH]; cbn [map]; intros N H; [constructor|]. inversion N as [|? ? Na N']; subst. constructor.
  - intros I. apply in_map_iff in I as (b & E & I). apply Na. apply in_map_iff. exists b. split; [|exact I]. apply H; [right; exact I|left; reflexivity|exact E].
  - apply IH; [exact N'|]. intros x y Ix Iy. apply H; right; assumption.
Qed.
Lemma nodup_app {A} (l l' : list A) : NoDup l -> NoDup l' -> (forall x, In x l -> In x l' -> False) -> NoDup (l ++ l').
Proof.
  induction l as [|a l IH]; cbn [app]; intros N N' D; [exact N'|]. inversion N; subst. constructor.
  - intros I. apply in_app_iff in I as [I|I]; [contradiction|]. apply (D a); [left; reflexivity|exact I].
  - apply IH; try assumption. intros x Ix. apply D. right. exact Ix.
Qed.
Lemma walk_rel n : forall path rel x, In x (walk path rel n) -> exists r, snd (fst x) = rel ++ r /\ lies n r (snd x).
Proof. intros path rel [[p r] m] I. apply walk_in in I as (r' & L & _ & -> & ->). exists r'. auto. Qed.
Lemma walk_nodup n : well_named n -> forall path rel, NoDup (map (fun x => snd (fst x)) (walk path rel n)).
Proof.
  induction n as [c|l IH|] using node_ind'; intros W path rel; cbn [walk map fst snd]; [constructor; [intros []|constructor]| |constructor].
  constructor.
  - intros H. apply in_map_iff in H as ([[p r] m] & E & H). cbn [fst snd] in E. subst r. apply in_flat_map in H as ([k x] & _ & H).
    apply walk_rel in H as (r & E & _). cbn [fst snd] in E. rewrite <- app_assoc in E. rewrite <- (app_nil_r rel) in E at 1. apply app_inv_head in E. discriminate E.
  - pose proof (proj1 (W [] l (lies_here _))) as N. assert (W' : forall k m, In (k, m) l -> well_named m) by (intros k m; apply well_named_in; exact W). clear W.
    induction l as [|[k m] l IHl]; cbn [flat_map map]; [constructor|]. rewrite map_app. inversion IH as [|? ? I1 I2]; inversion N as [|? ? N1 N2]; subst. apply nodup_app.
    + apply I1. apply (W' k). left. reflexivity.
    + apply IHl; try assumption. intros k' m' I. apply (W' k'). right. exact I.
    + intros r H H'. apply in_map_iff in H as (x & <- & H). apply in_map_iff in H' as (y & E & H'). apply in_flat_map in H' as ([k' m'] & I & H').
      apply walk_rel in H as (r1 & E1 & _). apply walk_rel in H' as (r2 & E2 & _). cbn [fst snd] in *. rewrite E1, E2 in E. rewrite <- !app_assoc in E. apply app_inv_head in E. injection E as E _.
      subst k'. apply N1. apply in_map_iff. exists (k, m'). auto.
Qed.
(** What an argument has files for is the argument itself or inside of it. *)
Lemma offers_inside fs f arg path n : proper arg -> (forall l, fs arg = Some (NDir l) -> well_named (NDir l)) -> offers fs f arg path n ->
  path = arg \/ exists s, path = arg ++ x2f :: s.
Proof.
  intros P W [(c & _ & -> & _)|(l & r & E & L & _ & [(ds & nm & st & Er & _) _] & ->)]; [left; reflexivity|right].
  rewrite (below_proper r arg P (lies_good _ _ _ L (W _ E))). destruct r as [|k r]; [destruct ds; discriminate Er|]. cbn [slashed flat_map app]. eexists. reflexivity.
Qed.
Lemma apart_paths a b s t : apart a b -> a ++ x2f :: s <> b ++ x2f :: t.
Proof.
  intros [N H]. revert b N H. induction a as [|c a IH]; intros [|d b] N H E.
  - contradiction.
  - cbn [app] in E. injection E as <- E. destruct (H b) as [_ H2]. apply H2. reflexivity.
  - cbn [app] in E. injection E as -> E. destruct (H a) as [H1 _]. apply H1. reflexivity.
  - cbn [app] in E. injection E as -> E. apply (IH b); [congruence| |exact E]. intros u. destruct (H u) as [H1 H2]. cbn [app] in H1, H2. split; congruence.
Qed.
Lemma filtered_nodup fs f arg : proper arg -> (forall l, fs arg = Some (NDir l) -> well_named (NDir l)) -> NoDup (map fst (filtered_files fs f arg)).
Proof.
  intros P W. unfold filtered_files. destruct (fs arg) as [[c|l|]|]; [cbn; constructor; [intros []|constructor]| |constructor|constructor].
  specialize (W l eq_refl). rewrite map_map. cbn [fst].
  assert (N : NoDup (map (fun x => snd (fst x)) (List.filter (fun x => filter_apply f (snd (fst x))) (walk arg [] (NDir l))))).
  { pose proof (walk_nodup _ W arg []) as N. revert N. generalize (walk arg [] (NDir l)). intros w. induction w as [|x w IHw]; cbn [map List.filter]; intros N; [constructor|].
    inversion N as [|? ? N1 N2]; subst. destruct (filter_apply f _); [|apply IHw, N2]. cbn [map]. constructor; [|apply IHw, N2].
    intros H. apply N1. apply in_map_iff in H as (y & E & H). apply filter_In in H as [H _]. apply in_map_iff. eauto. }
  eapply nodup_via; [exact N|]. intros [[p r] m] [[p' r'] m'] I I' E. cbn [fst snd] in *. apply filter_In in I as [I _]. apply filter_In in I' as [I' _].
  apply walk_in in I as (q & L & _ & Er & ->). apply walk_in in I' as (q' & L' & _ & Er' & ->). cbn [app] in Er, Er'. subst r r'.
  rewrite !below_proper in E by (try exact P; eapply lies_good; eassumption). apply app_inv_head in E. eapply slashed_inj; try exact E; eapply lies_good; eassumption.
Qed.
(** No file is loaded twice if none of the paths is inside of another. *)
Theorem C65_once_partial fs args f files : from_dirs fs args f = Some files ->
  Forall proper args -> ForallOrdPairs apart args -> (forall arg l, In arg args -> fs arg = Some (NDir l) -> well_named (NDir l)) ->
  NoDup (map f_path files).
Proof.
  intros H P A W. unfold from_dirs in H. apply from_files_some in H as (t & E & F). cbn [map app] in E.
  assert (Q : map f_path files = map fst (flat_map (filtered_files fs f) args)).
  { transitivity (map fst (map entry_of files)); [rewrite map_map; reflexivity|]. rewrite E. clear -F. induction F as [|x y l l' [H _] F IH]; [reflexivity|]. cbn [map]. congruence. }
  rewrite Q. clear -P A W. induction args as [|a args IH]; cbn [flat_map map]; [constructor|]. rewrite map_app.
  inversion P as [|? ? P1 P2]; inversion A as [|? ? A1 A2]; subst. apply nodup_app.
  - apply filtered_nodup; [exact P1|]. intros l. apply W. left. reflexivity.
  - apply IH; try assumption. intros arg l I. apply W. right. exact I.
  - intros p I I'. apply in_map_iff in I as ([p1 n] & <- & I). apply in_map_iff in I' as ([p2 m] & E & I'). cbn [fst] in *. subst p2.
    apply in_flat_map in I' as (b & Ib & I'). apply filtered_in in I. apply filtered_in in I'.
    assert (Ap : apart a b) by (rewrite Forall_forall in A1; apply A1, Ib). assert (Pb : proper b) by (rewrite Forall_forall in P2; apply P2, Ib).
    destruct (offers_inside fs f a p1 n P1 (fun l => W a l (or_introl eq_refl)) I) as [E|[s E]];
      destruct (offers_inside fs f b p1 m Pb (fun l => W b l (or_intror Ib)) I') as [E'|[s' E']]; rewrite E in E'.
    + exact (proj1 Ap E').
    + exact (proj1 (proj2 Ap s') E').
    + symmetry in E'. exact (proj2 (proj2 Ap s) E').
    + exact (apart_paths _ _ _ _ Ap E').
Qed.
Print Assumptions C65_once_partial.

(** The files of the paths come in the order of the paths. *)
Lemma from_files_app l : forall files l', from_files files (l ++ l') = match from_files files l with Some x => from_files x l' | None => None end.
Proof. induction l as [|[p n] l IH]; intros files l'; cbn [app from_files]; [reflexivity|]. destruct (read_to_string n); [apply IH|reflexivity]. Qed.
Theorem C65_in_order fs args1 args2 f files : from_dirs fs (args1 ++ args2) f = Some files ->
  exists files1 files2, from_dirs fs args1 f = Some files1 /\ from_dirs fs args2 f = Some files2 /\
    map entry_of files = map entry_of files1 ++ map entry_of files2 /\ exists rest, files = files1 ++ rest.
Proof.
  unfold from_dirs. rewrite flat_map_app, from_files_app. destruct (from_files [] (flat_map _ args1)) as [x|] eqn:E1; [|discriminate]. intros H.
  destruct (from_files_some _ _ _ H) as (t & E & F).
  assert (G : forall l a b, from_files a l = Some b -> forall a', exists b', from_files a' l = Some b' /\ exists r, b' = a' ++ r).
  { induction l as [|[p n] l IH]; cbn [from_files]; intros a b Hl a'.
    - exists a'. split; [reflexivity|]. exists []. now rewrite app_nil_r.
    - destruct (read_to_string n) as [s|]; [|discriminate]. destruct (IH _ _ Hl (files_add a' p s)) as (b' & -> & r & ->). eexists. split; [reflexivity|].
      unfold files_add. rewrite <- app_assoc. eexists. reflexivity. }
  destruct (G _ _ _ H []) as (y & E2 & _). exists x, y. split; [reflexivity|]. split; [exact E2|]. split.
  - rewrite E. f_equal. destruct (from_files_some _ _ _ E2) as (t' & E' & F'). cbn [map app] in E'. rewrite E'. clear -F F'.
    revert t' F'. induction F as [|a b l l' [H1 H2] F IH]; intros t' F'; inversion F' as [|? b' ? l'' [H1' H2'] F1]; subst; [reflexivity|].
    f_equal; [|apply IH, F1]. destruct b, b'. cbn [fst snd] in *. destruct H2 as [Q _], H2' as [Q' _]. congruence.
  - destruct (G _ _ _ H x) as (b' & E' & r & ->). exists r. congruence.
Qed.
Print Assumptions C65_in_order.

(** * Examples and what does not hold *)
Definition sf_tree : node :=
  NDir [(lit "readme.txt", NFile None);
        (lit "b.reds", NFile (Some (lit "func B() {}")));
        (lit "mod", NDir [(lit ".reds", NFile None); (lit "deep", NDir [(lit "a.b.reds", NFile (Some (lit "func A() {}")))]); (lit "gone.reds", NBroken)])].
Definition sf_fs : filesystem := fun p =>
  if str_eqb p (lit "r6/scripts") then Some sf_tree
  else if str_eqb p (lit "extra.txt") then Some (NFile (Some (lit "func C() {}")))
  else None.
Definition sf_args : list str := [lit "r6/scripts"; lit "extra.txt"; lit "missing"].
(** Two scripts are found, and a file that is named; the mod can be excluded. *)
Example C65_nonvacuous :
  (exists files, from_dirs sf_fs sf_args KeepAll = Some files /\
     map entry_of files = [(lit "r6/scripts/b.reds", lit "func B() {}"); (lit "r6/scripts/mod/deep/a.b.reds", lit "func A() {}"); (lit "extra.txt", lit "func C() {}")]) /\
  (exists files, from_dirs sf_fs sf_args (Exclude [lit "mod"]) = Some files /\ map f_path files = [lit "r6/scripts/b.reds"; lit "extra.txt"]) /\
  (exists files, from_dirs sf_fs sf_args (Exclude [lit "b"]) = Some files /\ map f_path files = [lit "r6/scripts/mod/deep/a.b.reds"; lit "extra.txt"]) /\
  Forall proper sf_args /\ ForallOrdPairs apart sf_args /\ (forall arg l, In arg sf_args -> sf_fs arg = Some (NDir l) -> well_named (NDir l)) /\
  (forall arg path n, In arg sf_args -> offers sf_fs KeepAll arg path n -> is_file n).
Proof.
  split; [eexists; split; vm_compute; reflexivity|]. split; [eexists; split; vm_compute; reflexivity|]. split; [eexists; split; vm_compute; reflexivity|].
  assert (W : well_named sf_tree).
  { intros rel entries L. unfold sf_tree in L.
    assert (G : forall l, (forallb (fun x => negb (existsb (Byte.eqb x2f) (fst x)) && negb (str_eqb (fst x) [])) l = true) -> NoDup (map fst l) ->
      NoDup (map (fst (B := node)) l) /\ forall name, In name (map fst l) -> name <> [] /\ ~ In x2f name).
    { intros l B N. split; [exact N|]. intros name I. apply in_map_iff in I as (x & <- & I). rewrite forallb_forall in B. specialize (B x I). apply andb_true_iff in B as [B1 B2]. split.
      - intros E. rewrite E in B2. discriminate B2.
      - intros J. apply negb_true_iff in B1. rewrite (proj2 (existsb_exists _ _)) in B1; [discriminate|]. exists x2f. split; [exact J|reflexivity]. }
    repeat (match goal with
            | H : lies (NDir _) _ _ |- _ => inversion H; subst; clear H
            | H : lies (NFile _) _ _ |- _ => inversion H; subst; clear H
            | H : lies NBroken _ _ |- _ => inversion H; subst; clear H
            | H : In _ (_ :: _) |- _ => destruct H as [H|H]; [injection H as <- <-|]
            | H : In _ [] |- _ => destruct H
            end).
    all: apply G; [vm_compute; reflexivity|]. all: cbn [map fst]; repeat constructor; cbn [In]; intros H; repeat destruct H as [H|H]; try discriminate H; try exact H. }
  split; [|split; [|split]].
  - repeat constructor; [exists (lit "r6/script"), x73|exists (lit "extra.tx"), x74|exists (lit "missin"), x67]; (split; [reflexivity|discriminate]).
  - repeat constructor; try (intros H; vm_compute in H; discriminate H); intros H; vm_compute in H;
      repeat (match goal with H : _ = ?s ++ _ |- _ => idtac | H : _ = _ |- _ => idtac end); discriminate H.
  - intros arg l [<-|[<-|[<-|[]]]] E; vm_compute in E; try discriminate E. injection E as <-. exact W.
  - intros arg path n Ia O. apply filtered_in in O. destruct Ia as [<-|[<-|[<-|[]]]]; vm_compute in O; repeat destruct O as [O|O]; try contradiction; injection O as <- <-; eexists; reflexivity.
Qed.

(** Without the first hypothesis of [C65_succeeds_partial]: a directory that is called
    like a script makes loading fail, although every script is readable text. *)
Definition sd_tree : node := NDir [(lit "old.reds", NDir [(lit "a.reds", NFile (Some (lit "func A() {}")))])].
Definition sd_fs : filesystem := fun p => if str_eqb p (lit "s") then Some sd_tree else None.
Theorem C65_directories_refuted : exists fs args,
  (forall arg path n, In arg args -> offers fs KeepAll arg path n -> is_file n -> exists text, is_text n text) /\
  (exists arg path n text, In arg args /\ offers fs KeepAll arg path n /\ is_text n text) /\
  from_dirs fs args KeepAll = None.
Proof.
  exists sd_fs, [lit "s"]. split; [|split; [|vm_compute; reflexivity]].
  - intros arg path n [<-|[]] O [c ->]. apply filtered_in in O. vm_compute in O. destruct O as [O|[O|[]]]; [discriminate O|]. injection O as _ <-. eexists. split; reflexivity.
  - exists (lit "s"), (lit "s/old.reds/a.reds"), (NFile (Some (lit "func A() {}"))), (lit "func A() {}"). split; [left; reflexivity|]. split; [|split; reflexivity].
    apply filtered_in. vm_compute. right. left. reflexivity.
Qed.
Print Assumptions C65_directories_refuted.

(** Without [apart] in [C65_once_partial]: a script of a directory inside of another
    is loaded twice if both are given. *)
Definition so_fs : filesystem := fun p =>
  let inner := NDir [(lit "a.reds", NFile (Some (lit "func A() {}")))] in
  if str_eqb p (lit "s") then Some (NDir [(lit "m", inner)]) else if str_eqb p (lit "s/m") then Some inner else None.
Theorem C65_overlapping_refuted : exists fs args files, NoDup args /\ Forall proper args /\
  from_dirs fs args KeepAll = Some files /\ ~ NoDup (map f_path files).
Proof.
  exists so_fs, [lit "s"; lit "s/m"]. eexists. split; [|split; [|split; [vm_compute; reflexivity|]]].
  - repeat constructor; cbn; intros H; repeat destruct H as [H|H]; try discriminate H; exact H.
  - repeat constructor; [exists [], x73|exists (lit "s/"), x6d]; (split; [reflexivity|discriminate]).
  - cbn [map f_path]. intros N. inversion N as [|? ? H _]. apply H. left. reflexivity.
Qed.
Print Assumptions C65_overlapping_refuted.
