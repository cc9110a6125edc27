(** The backup of the game's script cache: C35. *)
From Coq Require Import ZArith List Bool Lia.
From Verif Require Import Backup.
Import ListNotations.
Open Scope Z_scope.

(** * Specification *)

(** The timestamp the next run will find. *)
Definition saved (w : world) : option Z :=
  match w_ts w with
  | Some t => t
  | None => match w_legacy w with Some t => t | None => None end
  end.
(** A backup was made, but no run has finished saving since then. *)
Definition unfinished (w : world) : Prop := saved w = None /\ w_file w Backup <> None.

(** Histories: a fresh installation of some version of the game, or one where an
    older release of the compiler has run; then updates and runs in any order, with
    any outcome, interrupted at any point, with either output mode, except:
    - no update while a backup was made but no run has finished yet;
    - no interruption while the output is saved over the cache file. *)
Inductive history (keep : bool) : nat -> world -> Prop :=
| h_fresh v w f : w_file w Cache = Some f -> fl_content f = Pristine v -> fl_mtime f < w_clock w ->
    w_file w Backup = None -> w_ts w = None -> w_legacy w = None -> history keep v w
| h_legacy v w f b c : w_file w Cache = Some f -> fl_content f = Modded c -> fl_mtime f < w_clock w ->
    w_file w Backup = Some b -> fl_content b = Pristine v -> fl_mtime b < fl_mtime f ->
    w_ts w = None -> w_legacy w = Some (Some (fl_mtime f)) -> history keep v w
| h_update v w v' : history keep v w -> ~ unfinished w -> history keep v' (update v' w)
| h_run v w s scripts_ok ph w' : history keep v w -> se_custom s = false ->
    In (ph, w') (run_states keep s scripts_ok w) -> (ph = Saving -> se_separate s = true) ->
    history keep v w'.

Definition holds (w : world) (p : path) (c : content) : Prop := exists f, w_file w p = Some f /\ fl_content f = c.

(** * Proof *)

Definition inv (v : nat) (w : world) : Prop :=
  (forall t, saved w = Some t -> t < w_clock w) /\
  (forall f, w_file w Cache = Some f -> fl_mtime f < w_clock w) /\
  (forall f, w_file w Backup = Some f -> fl_mtime f < w_clock w) /\
  exists f, w_file w Cache = Some f /\
  ((fl_content f = Pristine v /\ saved w <> Some (fl_mtime f) /\
    (saved w = None -> forall b, w_file w Backup = Some b -> fl_content b = Pristine v \/ fl_content b = Part)) \/
   (saved w = Some (fl_mtime f) /\ exists b, w_file w Backup = Some b /\ fl_content b = Pristine v /\ fl_mtime b <> fl_mtime f)).

(** [triple m w P Q E]: running [m] from [w] goes through states with [P], and ends
    with a value with [Q] or early with [E]. *)
Definition triple {A} (m : R A) (w : world) (P : phase -> world -> Prop) (Q : A -> world -> Prop) (E : ending -> Prop) : Prop :=
  forall t w' r, m w = (t, w', r) ->
    (forall x, In x t -> P (fst x) (snd x)) /\ match r with inl a => Q a w' | inr e => E e end.

Lemma t_bind {A B} (m : R A) (k : A -> R B) w P Q E :
  triple m w P (fun a w' => triple (k a) w' P Q E) E -> triple (rbind m k) w P Q E.
Proof.
  intros H t w' r. unfold rbind. destruct (m w) as [[t1 w1] [a|e]] eqn:Em.
  - destruct (H _ _ _ Em) as [H1 H2]. destruct (k a w1) as [[t2 w2] r2] eqn:Ek. intros [= <- <- <-].
    destruct (H2 _ _ _ Ek) as [H3 H4]. split; [|assumption]. intros x Hx. apply in_app_iff in Hx as [Hx|Hx]; auto.
  - destruct (H _ _ _ Em) as [H1 H2]. intros [= <- <- <-]. auto.
Qed.
Lemma t_ret {A} (a : A) w P (Q : A -> world -> Prop) E : Q a w -> triple (rret a) w P Q E.
Proof. intros H t w' r [= <- <- <-]. split; [intros x []|assumption]. Qed.
Lemma t_stop {A} e w P (Q : A -> world -> Prop) (E : ending -> Prop) : E e -> triple (rstop e) w P Q E.
Proof. intros H t w' r [= <- <- <-]. split; [intros x []|assumption]. Qed.
Lemma t_get {A} (g : world -> A) w P (Q : A -> world -> Prop) E : Q (g w) w -> triple (get g) w P Q E.
Proof. intros H t w' r [= <- <- <-]. split; [intros x []|assumption]. Qed.
Lemma t_change ph g w (P : phase -> world -> Prop) (Q : unit -> world -> Prop) E :
  P ph (g w) -> Q tt (g w) -> triple (change ph g) w P Q E.
Proof. intros H H' t w' r [= <- <- <-]. split; [intros x [<-|[]]; assumption|assumption]. Qed.
Lemma t_mono {A} (m : R A) w P (Q Q' : A -> world -> Prop) E : triple m w P Q E -> (forall a w', Q a w' -> Q' a w') -> triple m w P Q' E.
Proof. intros H HQ t w' r Em. destruct (H _ _ _ Em) as [H1 H2]. split; [assumption|]. destruct r; auto. Qed.

Lemma same_inv v w w1 : w_file w1 = w_file w -> w_clock w1 = w_clock w -> saved w1 = saved w -> inv v w -> inv v w1.
Proof. unfold inv. intros -> -> ->. auto. Qed.

Definition good (s : settings) (v : nat) (ph : phase) (w : world) : Prop := (ph = Saving -> se_separate s = true) -> inv v w.
Definition early (scripts_ok : bool) (v : nat) (w0 : world) (e : ending) : Prop :=
  match e with Succeeded b => False | ScriptErrors b => b = Pristine v /\ scripts_ok = false | Stopped => unfinished w0 end.

Section Run.
  Context (keep : bool) (s : settings) (scripts_ok : bool) (v : nat) (w0 : world).

  Lemma prepare {A} (k : R A) Q : inv v w0 ->
    (forall w, inv v w -> w_file w = w_file w0 -> w_ts w = Some (saved w0) -> triple k w (good s v) Q (early scripts_ok v w0)) ->
    triple (migrate_ts ;; open_ts ;; k) w0 (good s v) Q (early scripts_ok v w0).
  Proof.
    intros H HK. unfold saved in HK. apply t_bind. unfold migrate_ts. apply t_bind, t_get.
    destruct (w_ts w0) as [t|] eqn:Et.
    - apply t_ret. apply t_bind. unfold open_ts. apply t_bind, t_get. rewrite Et in *. apply t_ret. auto.
    - destruct (w_legacy w0) as [t|] eqn:El.
      + set (w1 := {| w_file := w_file w0; w_ts := Some t; w_legacy := None; w_clock := w_clock w0 |}).
        assert (I : inv v w1) by (apply (same_inv v w0 w1 eq_refl eq_refl); [|exact H]; unfold saved; rewrite Et, El; reflexivity).
        apply t_change; [intros _; exact I|]. apply t_bind. unfold open_ts. apply t_bind, t_get. cbn [w_ts]. apply t_ret. auto.
      + apply t_ret. apply t_bind. unfold open_ts. apply t_bind, t_get. rewrite Et.
        assert (I : inv v (set_ts (Some None) w0)) by (apply (same_inv v w0 (set_ts (Some None) w0) eq_refl eq_refl); [|exact H]; unfold saved; rewrite Et, El; reflexivity).
        apply t_change; [intros _; exact I|]. auto.
  Qed.

  Lemma copy_backup w f : inv v w -> w_ts w <> None -> w_file w Cache = Some f -> fl_content f = Pristine v -> saved w <> Some (fl_mtime f) ->
    triple (copy_file keep Cache Backup) w (good s v) (fun _ w' => inv v w' /\ holds w' Backup (Pristine v) /\ w_ts w' = w_ts w /\ w_file w' Cache = Some f) (early scripts_ok v w0).
  Proof.
    intros (H1 & H2 & H3 & _) Ht Hf Hc Hn. unfold copy_file. apply t_bind, t_get. rewrite Hf.
    assert (G : forall b w1, w1 = tick (set_file Backup (Some b) w) \/ w1 = tick (tick (set_file Backup (Some b) (set_file Backup (Some {| fl_content := Part; fl_mtime := w_clock w |}) w))) ->
                   fl_content b = Pristine v \/ fl_content b = Part -> fl_mtime b < w_clock w1 -> inv v w1).
    { intros b w1 Hw Hb Hm.
      assert (w_file w1 Cache = Some f /\ w_file w1 Backup = Some b /\ saved w1 = saved w /\ w_clock w < w_clock w1) as (A1 & A2 & A3 & A4).
      { destruct Hw as [-> | ->]; cbn; (split; [exact Hf|split; [reflexivity|split; [reflexivity|lia]]]). }
      split; [intros t; rewrite A3; intros Et; specialize (H1 t Et); lia|].
      split; [rewrite A1; intros g [= <-]; specialize (H2 f Hf); lia|].
      split; [rewrite A2; intros g [= <-]; assumption|].
      exists f. split; [exact A1|]. left. rewrite A3, A2. split; [exact Hc|]. split; [exact Hn|]. intros _ b' [= <-]. assumption. }
    apply t_bind, t_change.
    - intros _. eapply G; [left; reflexivity|now right|cbn; lia].
    - destruct keep.
      + assert (I : inv v (tick (set_file Backup (Some f) (put Backup Part w)))).
        { eapply G; [right; reflexivity|now left|cbn; specialize (H2 f Hf); lia]. }
        apply t_change; [intros _; exact I|]. split; [exact I|]. split; [exists f; split; [reflexivity|assumption]|]. split; [reflexivity|exact Hf].
      + assert (I : inv v (put Backup (fl_content f) (put Backup Part w))).
        { unfold put at 1. eapply (G {| fl_content := fl_content f; fl_mtime := w_clock (put Backup Part w) |}); [right; reflexivity|left; exact Hc|cbn; lia]. }
        apply t_change; [intros _; exact I|]. split; [exact I|]. split; [eexists; split; [reflexivity|exact Hc]|]. split; [reflexivity|exact Hf].
  Qed.

  (** The input chosen is the game's own cache, or a part of it that cannot be
      loaded. *)
  Lemma choose w : inv v w -> w_file w = w_file w0 -> w_ts w = Some (saved w0) ->
    triple (choose_input keep s) w (good s v)
      (fun p w' => inv v w' /\ w_ts w' = w_ts w /\ p = (if se_separate s then Cache else Backup) /\
                   (holds w' p (Pristine v) \/ (holds w' p Part /\ unfinished w0))) (early scripts_ok v w0).
  Proof.
    intros I Hfile Hts. pose proof I as (H1 & H2 & H3 & f & Hf & HI).
    assert (Hsv : saved w = saved w0) by (unfold saved at 1; now rewrite Hts).
    unfold choose_input. apply t_bind, t_get. rewrite Hf. apply t_bind, t_get. rewrite Hts, <- Hsv. apply t_bind, t_get.
    unfold exists_file.
    destruct (se_separate s) eqn:Es.
    - destruct (w_file w Backup) as [b|] eqn:Eb.
      + destruct HI as [(Hc & Hn & _)|(Hs & b' & [= <-] & Hb & Hm)].
        * replace (match saved w with Some t => t =? fl_mtime f | None => false end) with false.
          2: { destruct (saved w) as [t|]; [|reflexivity]. destruct (Z.eqb_spec t (fl_mtime f)); congruence. }
          cbn [negb andb]. unfold remove_file.
          assert (I' : inv v (set_file Backup None w)).
          { split; [exact H1|]. split; [exact H2|]. split; [discriminate|]. exists f. split; [exact Hf|]. left.
            split; [exact Hc|]. split; [exact Hn|]. intros _ b' [=]. }
          apply t_bind, t_change; [intros _; exact I'|]. apply t_ret. split; [exact I'|]. split; [rewrite ?Hsv; first [exact Hts|reflexivity|(cbn; congruence)]|].
          split; [reflexivity|]. left. exists f. split; [exact Hf|exact Hc].
        * rewrite Hs, Z.eqb_refl. cbn [negb andb]. unfold rename_file.
          assert (I' : inv v (set_file Backup None (set_file Cache (w_file w Backup) w))).
          { rewrite Eb. split; [exact H1|]. split; [intros g [= <-]; exact (H3 b eq_refl)|]. split; [discriminate|].
            exists b. split; [reflexivity|]. left. split; [exact Hb|]. split; [cbn [saved]; change (saved w <> Some (fl_mtime b)); rewrite Hs; congruence|].
            intros _ b' [=]. }
          apply t_bind, t_change; [intros _; exact I'|]. apply t_ret. split; [exact I'|]. split; [rewrite ?Hsv; first [exact Hts|reflexivity|(cbn; congruence)]|].
          split; [reflexivity|]. left. exists b. split; [cbn; exact Eb|exact Hb].
      + destruct HI as [(Hc & Hn & _)|(_ & b & [=] & _)].
        rewrite andb_false_r. apply t_bind, t_ret, t_ret. split; [exact I|]. split; [rewrite ?Hsv; first [exact Hts|reflexivity|(cbn; congruence)]|]. split; [reflexivity|].
        left. exists f. auto.
    - destruct HI as [(Hc & Hn & Hu)|(Hs & b & Hb & Hp & Hm)].
      + assert (C : triple (copy_file keep Cache Backup;; rret Backup) w (good s v)
          (fun p w' => inv v w' /\ w_ts w' = Some (saved w) /\ p = Backup /\ (holds w' p (Pristine v) \/ (holds w' p Part /\ unfinished w0))) (early scripts_ok v w0)).
        { apply t_bind. eapply t_mono; [apply (copy_backup w f); auto; congruence|].
          intros [] w' (I' & Hh & Ht & _). apply t_ret. split; [exact I'|]. split; [congruence|]. auto. }
        destruct (saved w) as [t|] eqn:Et.
        * destruct (Z.eqb_spec t (fl_mtime f)); [congruence|]. cbn [negb]. exact C.
        * destruct (w_file w Backup) as [b|] eqn:Eb; [|exact C]. apply t_bind, t_ret, t_ret.
          split; [exact I|]. split; [rewrite ?Hsv; first [exact Hts|reflexivity|(cbn; congruence)]|]. split; [reflexivity|].
          destruct (Hu eq_refl b eq_refl) as [Hb|Hb]; [left|right]; [exists b; auto|].
          split; [exists b; auto|]. split; [congruence|]. rewrite <- Hfile. congruence.
      + rewrite Hs, Z.eqb_refl, Hb. cbn [negb]. apply t_bind, t_ret, t_ret.
        split; [exact I|]. split; [congruence|]. split; [reflexivity|]. left. exists b. auto.
  Qed.

  Lemma inv_output w c : inv v w -> inv v (put Output c w).
  Proof.
    intros (H1 & H2 & H3 & H4). unfold inv, put, tick, set_file, saved. cbn.
    split; [intros t Ht; specialize (H1 t Ht); lia|].
    split; [intros f Hf; specialize (H2 f Hf); lia|].
    split; [intros f Hf; specialize (H3 f Hf); lia|]. exact H4.
  Qed.

  Lemma compile_files_spec : inv v w0 ->
    triple (compile_files keep s scripts_ok) w0 (good s v) (fun base w => base = Pristine v /\ scripts_ok = true) (early scripts_ok v w0).
  Proof.
    intros I. unfold compile_files. apply prepare; [exact I|]. intros w1 I1 Hf1 Ht1.
    apply t_bind. eapply t_mono; [exact (choose w1 I1 Hf1 Ht1)|].
    intros p w (I' & Ht & Hp & Hh). apply t_bind, t_get.
    assert (Hc : exists f, w_file w p = Some f /\ (fl_content f = Pristine v \/ (fl_content f = Part /\ unfinished w0))).
    { destruct Hh as [(f & A & B)|((f & A & B) & C)]; exists f; auto. }
    destruct Hc as (f & Hf & Hc). rewrite Hf. unfold compile_against.
    destruct f as [c m]. cbn [fl_content] in Hc. destruct Hc as [->|[-> Hu]]; [|apply t_stop; exact Hu].
    cbn [has_signature]. destruct scripts_ok eqn:Eo; [|apply t_stop; cbn; auto].
    destruct I' as (H1 & H2 & H3 & f & HfC & HI). assert (I' : inv v w) by (split; [exact H1|]; split; [exact H2|]; split; [exact H3|]; eauto).
    unfold output_path. destruct (se_separate s) eqn:Es; subst p.
    - apply t_bind, t_change; [intros _; now apply inv_output|].
      apply t_bind, t_change; [intros _; now apply inv_output, inv_output|].
      apply t_bind, t_change; [|now apply t_ret]. intros _. cbn [w_file put tick set_file path_eqb fl_mtime].
      unfold inv, put, tick, set_file, saved, set_ts. cbn.
      split; [intros t [= <-]; lia|]. split; [intros g Hg; specialize (H2 g Hg); lia|]. split; [intros g Hg; specialize (H3 g Hg); lia|].
      exists {| fl_content := Pristine v; fl_mtime := m |}. split; [exact Hf|]. left. split; [reflexivity|].
      split; [|discriminate]. cbn. specialize (H2 _ Hf). cbn in H2. intros [= ?]. lia.
    - apply t_bind, t_change; [intros X; specialize (X eq_refl); congruence|].
      apply t_bind, t_change; [intros X; specialize (X eq_refl); congruence|].
      apply t_bind, t_change; [|now apply t_ret]. intros _. cbn [w_file put tick set_file path_eqb fl_mtime].
      unfold inv, put, tick, set_file, saved, set_ts. cbn. specialize (H3 _ Hf) as Hm. cbn in Hm.
      split; [intros t [= <-]; lia|]. split; [intros g [= <-]; cbn; lia|]. split; [intros g Hg; specialize (H3 g Hg); lia|].
      eexists. split; [reflexivity|]. right. split; [reflexivity|]. eexists. split; [exact Hf|]. split; [reflexivity|]. cbn. lia.
  Qed.
End Run.

Lemma compile_default keep s ok w f : se_custom s = false -> w_file w Cache = Some f -> compile keep s ok w = compile_files keep s ok w.
Proof.
  intros Hs Hf. unfold compile, default_backup, default_cache. rewrite Hs. unfold rbind at 1, get, exists_file. rewrite Hf.
  unfold rbind at 1, rret. unfold rbind at 1 2. rewrite andb_negb_r.
  unfold rbind at 1. destruct (compile_files keep s ok w) as [[? ?] ?]. reflexivity.
Qed.
Lemma run_spec keep s ok v w : se_custom s = false -> inv v w ->
  (forall ph w', In (ph, w') (run_states keep s ok w) -> (ph = Saving -> se_separate s = true) -> inv v w') /\
  match snd (run_end keep s ok w) with
  | Succeeded b => b = Pristine v /\ ok = true
  | ScriptErrors b => b = Pristine v /\ ok = false
  | Stopped => unfinished w
  end.
Proof.
  intros Hs I. pose proof (compile_files_spec keep s ok v w I) as T. unfold run_states, run_end.
  pose proof I as (_ & _ & _ & f & Hf & _). rewrite (compile_default keep s ok w f Hs Hf).
  destruct (compile_files keep s ok w) as [[t w'] r] eqn:E. destruct (T _ _ _ E) as [T1 T2]. split.
  - intros ph w1 [[= <- <-]|H] Hp; [exact I|]. exact (T1 _ H Hp).
  - destruct r as [b|[b|b|]]; cbn [snd]; auto. contradiction.
Qed.

Lemma history_inv keep v w : history keep v w -> inv v w.
Proof.
  induction 1 as [v w f Hf Hc Hm Hb Ht Hl|v w f b c Hf Hc Hm Hb Hbc Hbm Ht Hl|v w v' H IH Hu|v w s ok ph w' H IH Hs Hi Hp].
  - split; [unfold saved; rewrite Ht, Hl; discriminate|]. split; [intros g; rewrite Hf; intros [= <-]; exact Hm|].
    split; [rewrite Hb; discriminate|]. exists f. split; [exact Hf|]. left. split; [exact Hc|].
    unfold saved. rewrite Ht, Hl, Hb. split; discriminate.
  - split; [unfold saved; rewrite Ht, Hl; intros t [= <-]; exact Hm|]. split; [intros g; rewrite Hf; intros [= <-]; exact Hm|].
    split; [rewrite Hb; intros g [= <-]; lia|]. exists f. split; [exact Hf|]. right. split; [unfold saved; now rewrite Ht, Hl|].
    exists b. split; [exact Hb|]. split; [exact Hbc|lia].
  - destruct IH as (H1 & H2 & H3 & f & Hf & HI). unfold inv, update, put, tick, set_file, saved. cbn.
    split; [intros t Et; specialize (H1 t Et); lia|]. split; [intros g [= <-]; cbn; lia|].
    split; [intros g Hg; specialize (H3 g Hg); lia|]. eexists. split; [reflexivity|]. left. cbn. split; [reflexivity|].
    split; [intros Et; specialize (H1 _ Et); lia|]. intros En b Hb. exfalso. apply Hu. split; [exact En|congruence].
  - apply (run_spec keep s ok v w Hs IH) in Hi; auto.
Qed.

(** * C35 *)

(** In every history, the game's own cache of the current version is available,
    and scripts are only ever compiled against it; a run stops without compiling
    only while no run has finished since the first backup was made. *)
Theorem C35_backup_preserved_partial keep v w : history keep v w ->
  (holds w Cache (Pristine v) \/ holds w Backup (Pristine v)) /\
  forall s scripts_ok, se_custom s = false ->
    match snd (run_end keep s scripts_ok w) with
    | Succeeded base => base = Pristine v /\ scripts_ok = true
    | ScriptErrors base => base = Pristine v /\ scripts_ok = false
    | Stopped => unfinished w
    end.
Proof.
  intros H. apply history_inv in H as I. split.
  - destruct I as (_ & _ & _ & f & Hf & [(Hc & _)|(_ & b & Hb & Hc & _)]); [left; exists f|right; exists b]; auto.
  - intros s ok Hs. exact (proj2 (run_spec keep s ok v w Hs I)).
Qed.
Print Assumptions C35_backup_preserved_partial.

(** Ends early only by stopping. *)
Definition only_stops {A} (m : R A) : Prop := forall w, match snd (m w) with inl _ | inr Stopped => True | _ => False end.
Lemma only_stops_bind {A B} (m : R A) (k : A -> R B) : only_stops m -> (forall a, only_stops (k a)) -> only_stops (rbind m k).
Proof.
  intros M K w. unfold rbind. specialize (M w). destruct (m w) as [[t w1] [a|e]]; [|exact M]. specialize (K a w1). now destruct (k a w1) as [[t' w2] r].
Qed.
Lemma copy_only_stops keep a b : only_stops (copy_file keep a b).
Proof. apply only_stops_bind; [intros w; exact I|]. intros [f|]; [apply only_stops_bind; intros; intros w; exact I|intros w; exact I]. Qed.
Lemma choose_only_stops keep s : only_stops (choose_input keep s).
Proof.
  unfold choose_input. apply only_stops_bind; [intros w; exact I|]. intros [c|]; [|intros w; exact I]. do 2 (apply only_stops_bind; [intros w; exact I|intros ?]).
  destruct (se_separate s); (apply only_stops_bind; [|intros ? w; exact I]).
  - destruct (_ && _); [intros w; exact I|]. destruct a0; intros w; exact I.
  - destruct a as [t|]; [destruct (negb _); [apply copy_only_stops|]|]; destruct a0; first [apply copy_only_stops|intros w; exact I].
Qed.
(** Whatever the state of the file system and the settings, also with a cache in another
    place or after the game's own cache is lost: scripts are compiled against a cache of the
    game, never against one the compiler wrote or part of one. *)
Theorem C35_never_on_a_compiled_cache keep s scripts_ok w :
  match snd (run_end keep s scripts_ok w) with
  | Succeeded base | ScriptErrors base => exists v, base = Pristine v
  | Stopped => True
  end.
Proof.
  assert (G : forall (A : Type) (m : R A) (k : A -> R content), only_stops m ->
    (forall a w, match snd (k a w) with inl base | inr (Succeeded base) | inr (ScriptErrors base) => exists v, base = Pristine v | inr Stopped => True end) ->
    forall w, match snd (rbind m k w) with inl base | inr (Succeeded base) | inr (ScriptErrors base) => exists v, base = Pristine v | inr Stopped => True end).
  { intros A m k M K w0. unfold rbind. specialize (M w0). destruct (m w0) as [[t w1] [a|e]]; cbn [snd] in *; [|destruct e; [contradiction|contradiction|exact I]].
    specialize (K a w1). now destruct (k a w1) as [[t' w2] r]. }
  assert (H : forall w, match snd (compile keep s scripts_ok w) with inl base | inr (Succeeded base) | inr (ScriptErrors base) => exists v, base = Pristine v | inr Stopped => True end).
  { unfold compile. apply G; [intros w0; exact I|]. intros cache. apply G; [destruct cache; [intros w0; exact I|apply only_stops_bind; [intros w0; exact I|intros; apply copy_only_stops]]|]. intros _.
    do 2 (apply G; [intros w0; exact I|intros ?]). apply G; [destruct (_ && _); [apply copy_only_stops|intros w0; exact I]|]. intros _. unfold compile_files.
    apply G; [unfold migrate_ts; apply only_stops_bind; [intros w0; exact I|intros w1; destruct (w_ts w1), (w_legacy w1); intros w0; exact I]|]. intros _.
    apply G; [unfold open_ts; apply only_stops_bind; [intros w0; exact I|intros [t|]; intros w0; exact I]|]. intros _.
    apply G; [apply choose_only_stops|]. intros input. apply G; [intros w0; exact I|]. intros [[c m]|] w0; [|exact I]. cbn [compile_against]. destruct c as [v|c|]; [|exact I|exact I]. cbn [has_signature].
    destruct scripts_ok; [cbn; eauto|cbn; eauto]. }
  unfold run_end. specialize (H w). destruct (compile keep s scripts_ok w) as [[t w'] [b|e]]; exact H.
Qed.
Print Assumptions C35_never_on_a_compiled_cache.

(** A fresh installation of version 1. *)
Definition fresh : world :=
  {| w_file := fun p => match p with Cache => Some {| fl_content := Pristine 1; fl_mtime := 0 |} | _ => None end;
     w_ts := None; w_legacy := None; w_clock := 1 |}.
Definition in_place : settings := {| se_custom := false; se_separate := false |}.
Definition separate : settings := {| se_custom := false; se_separate := true |}.
Lemma fresh_history keep : history keep 1 fresh.
Proof. eapply h_fresh; reflexivity. Qed.

Lemma run_history keep v w s ok : se_custom s = false -> history keep v w ->
  (forall x, last (run_states keep s ok w) (Preparing, w) = x -> fst x <> Saving -> history keep v (snd x)).
Proof.
  intros Hs H [ph w'] E Hp. eapply (h_run keep v w s ok ph w' H Hs); [|cbn in Hp; congruence].
  rewrite <- E. clear E. unfold run_states. destruct (compile keep s ok w) as [[t ?] ?].
  assert (G : forall (l : list (phase * world)) x d, In (last (x :: l) d) (x :: l)).
  { induction l as [|y l IH]; intros x d; [now left|]. right. apply IH. }
  apply G.
Qed.

(** First run in place, then an update to version 2, then a run with a separate
    output that is interrupted, then one in place. *)
Definition ex1 := fst (run_end false in_place true fresh).
Definition ex2 := update 2 ex1.
Definition ex3 := snd (nth 3 (run_states false separate true ex2) (Preparing, ex2)).
Definition ex4 := fst (run_end false in_place true ex3).
Example C35_example : history false 2 ex4 /\
  holds ex1 Cache (Modded (Pristine 1)) /\ holds ex1 Backup (Pristine 1) /\
  holds ex3 Output (Modded (Pristine 2)) /\ w_file ex3 Backup = None /\
  holds ex4 Cache (Modded (Pristine 2)) /\ holds ex4 Backup (Pristine 2) /\
  snd (run_end false in_place false ex4) = ScriptErrors (Pristine 2).
Proof.
  assert (H1 : history false 1 ex1) by (apply (run_history false 1 fresh in_place true eq_refl (fresh_history false) (Finished, ex1) eq_refl); discriminate).
  assert (H2 : history false 2 ex2) by (apply (h_update false 1 ex1 2 H1); intros [? _]; discriminate).
  assert (H3 : history false 2 ex3) by (eapply (h_run false 2 ex2 separate true _ ex3 H2 eq_refl); [right; right; right; left; reflexivity|reflexivity]).
  assert (H4 : history false 2 ex4) by (apply (run_history false 2 ex3 in_place true eq_refl H3 (Finished, ex4) eq_refl); discriminate).
  split; [exact H4|]. repeat split; try (eexists; split; reflexivity).
Qed.

Definition lost (w : world) (c : content) : Prop := forall p, ~ holds w p c.
Lemma lost_all w c : (forall p, match w_file w p with Some f => fl_content f <> c | None => True end) -> lost w c.
Proof. intros H p (f & Hf & Hc). specialize (H p). now rewrite Hf in H. Qed.

(** Interrupting a run while it saves over the cache file: the next run takes the
    half-written or modded cache for the game's own, and copies it over the
    backup.  The game's own cache is gone, and no run compiles any more. *)
Theorem C35_interrupted_while_saving_refuted :
  exists v w w', history false v w /\ In (Saving, w') (run_states false in_place true w) /\
    let (w'', e) := run_end false in_place true w' in
    lost w'' (Pristine v) /\ e = Stopped /\ snd (run_end false in_place true w'') = Stopped.
Proof.
  exists 1%nat, ex1, (put Cache Part ex1). split; [apply (run_history false 1 fresh in_place true eq_refl (fresh_history false) (Finished, ex1) eq_refl); discriminate|].
  split; [right; left; reflexivity|]. vm_compute. split; [|split; reflexivity].
  intros [] (f & Hf & Hc); try discriminate; injection Hf as <-; discriminate.
Qed.
Print Assumptions C35_interrupted_while_saving_refuted.

(** Without any interruption: the first run fails because of errors in the
    scripts, then the game is updated, then the scripts compile.  They are compiled
    against the old version, and the new version's cache is gone. *)
Theorem C35_update_after_failed_run_refuted :
  exists v w, history false v w /\ snd (run_end false in_place false w) = ScriptErrors (Pristine v) /\
    let w1 := fst (run_end false in_place false w) in
    let w2 := update (S v) w1 in
    let (w3, e) := run_end false in_place true w2 in
    e = Succeeded (Pristine v) /\ lost w3 (Pristine (S v)).
Proof.
  exists 1%nat, fresh. split; [apply fresh_history|]. split; [reflexivity|]. vm_compute. split; [reflexivity|].
  intros [] (f & Hf & Hc); try discriminate; injection Hf as <-; discriminate.
Qed.
Print Assumptions C35_update_after_failed_run_refuted.
