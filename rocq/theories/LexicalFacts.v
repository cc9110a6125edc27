(** The type checker resolves names lexically. *)
From Coq Require Import String.
From Coq Require Import ZArith List Bool Lia.
From Verif Require Import Bytes BytesFacts Bytecode Definitions Bundle BundleFacts Ast TypeNames Pool Scope TypeCheck PoolSpec PoolFacts
  TypeIndexSpec TypeIndexFacts GrowFacts WellTypedSpec WellTypedFacts LexicalSpec.
Import ListNotations.
Open Scope Z_scope.

Lemma declared_app {U L} (a b : list (event U L)) : declared (a ++ b) = declared a ++ declared b.
Proof. apply flat_map_app. Qed.
Lemma lexical_app sy a b c d : forall st m e, lexical sy st a b m -> lexical sy m c d e -> lexical sy st (a ++ c) (b ++ d) e.
Proof. intros st m e H. revert e. induction H; intros e X; cbn [app]; [exact X|..]; econstructor; eauto. Qed.

Lemma variables_later p q f k lo ns ls : extends p q -> variables p f k lo ns ls -> variables q f k lo ns ls.
Proof.
  intros X. assert (L : (length (pl_defs p) <= length (pl_defs q))%nat) by (destruct X as ((m & ->) & _); rewrite app_length; lia).
  induction 1 as [|k lo n ns l ls d x B D V F N H IH]; [constructor|]. econstructor; [lia|eapply extends_get_def; eassumption|exact V|exact F|eapply extends_def_name; eassumption|exact IH].
Qed.
Lemma variables_app p q f ns2 ls2 : extends p q -> forall k lo ns ls, variables p f k lo ns ls -> lo <= Z.of_nat (length (pl_defs p)) ->
  variables q f (k + length ls) (Z.of_nat (length (pl_defs p))) ns2 ls2 -> variables q f k lo (ns ++ ns2) (ls ++ ls2).
Proof.
  intros X k lo ns ls H. assert (Q : (length (pl_defs p) <= length (pl_defs q))%nat) by (destruct X as ((m & ->) & _); rewrite app_length; lia).
  induction H as [k lo|k lo n ns l ls d x B D V F N H IH]; intros L H2; cbn [app length] in *.
  - rewrite Nat.add_0_r in H2. destruct H2; [constructor|]. econstructor; eauto. lia.
  - econstructor; [lia|eapply extends_get_def; eassumption|exact V|exact F|eapply extends_def_name; eassumption|].
    apply IH; [lia|]. replace (S k + length ls)%nat with (k + S (length ls))%nat by lia. exact H2.
Qed.
Lemma variables_above p f k lo ns ls : variables p f k lo ns ls -> Forall (fun l => lo <= l) ls.
Proof. induction 1 as [|k lo n ns l ls d x B D V F N H IH]; constructor; [lia|]. eapply Forall_impl; [|exact IH]. cbv beta. intros; lia. Qed.
Lemma variables_distinct p f k lo ns ls : variables p f k lo ns ls -> NoDup ls.
Proof.
  induction 1 as [|k lo n ns l ls d x B D V F N H IH]; constructor; [|exact IH]. intros I. apply variables_above in H. rewrite Forall_forall in H. apply H in I. lia.
Qed.

Section Follows.
Variables (sy : amap symbol) (fn : option pidx).

(** The scope shows the variables of the blocks. *)
Definition agrees (st : list (amap value_ref)) (s : scope) : Prop :=
  (forall n, am_find (sc_references s) n = nearest st n) /\ sc_symbols s = sy /\ sc_function s = fn.
Definition made (t t' : tstate) (ns : list str) (ls : list pidx) : Prop :=
  ts_locals t' = ts_locals t ++ ls /\
  (small (ts_pool t') -> sound_state t -> variables (ts_pool t') fn (length (ts_locals t)) (Z.of_nat (length (pl_defs (ts_pool t)))) ns ls).
Definition tevents := list (event reference pidx).
Definition follows {A} (m : M A) (src : list (event str str)) (R : A -> tevents -> Prop) : Prop :=
  moves m /\ forall t a t' f fs, m t = Done (a, t') -> agrees (f :: fs) (ts_scope t) ->
    exists e f', R a e /\ lexical sy (f :: fs) src e (f' :: fs) /\ agrees (f' :: fs) (ts_scope t') /\ made t t' (declared src) (declared e).
(** A step that neither names nor declares. *)
Definition silent {A} (m : M A) : Prop := moves m /\ forall t a t', m t = Done (a, t') -> ts_scope t' = ts_scope t /\ ts_locals t' = ts_locals t.

Lemma made_trans a b c n1 l1 n2 l2 : progress a b -> progress b c -> made a b n1 l1 -> made b c n2 l2 -> made a c (n1 ++ n2) (l1 ++ l2).
Proof.
  intros P Q (A & A2) (B & B2). split; [now rewrite B, A, app_assoc|]. intros Sm So.
  pose proof (pr_extends _ _ P) as X. pose proof (pr_extends _ _ Q) as Y. pose proof (extends_small _ _ Y Sm) as S1.
  assert (L : (length (pl_defs (ts_pool a)) <= length (pl_defs (ts_pool b)))%nat) by (destruct X as ((m & E) & _); rewrite E, app_length; lia).
  eapply variables_app; [exact Y|exact (A2 S1 So)|lia|]. specialize (B2 Sm (pr_sound _ _ P S1 So)). rewrite A, app_length in B2. exact B2.
Qed.
Lemma follows_weak {A} (m : M A) src (R R' : A -> tevents -> Prop) : follows m src R -> (forall a e, R a e -> R' a e) -> follows m src R'.
Proof. intros (Mm & H) W. split; [exact Mm|]. intros t a t' f fs E G. destruct (H _ _ _ _ _ E G) as (e & f' & X & Y). exists e, f'. split; [auto|exact Y]. Qed.
Lemma follows_ret {A} (a : A) (R : A -> tevents -> Prop) : R a [] -> follows (mret a) [] R.
Proof.
  intros H. split; [apply moves_ret|]. intros t x t' f fs [= <- <-] G. exists [], f. split; [exact H|]. split; [constructor|]. split; [exact G|].
  split; [now rewrite app_nil_r|]. intros _ _. constructor.
Qed.
Lemma follows_bind {A B} (m : M A) (k : A -> M B) s1 s2 R1 R : follows m s1 R1 -> (forall a e1, R1 a e1 -> follows (k a) s2 (fun b e2 => R b (e1 ++ e2))) ->
  (forall a, moves (k a)) -> follows (mbind m k) (s1 ++ s2) R.
Proof.
  intros (Mm & H) K Mk. split; [apply moves_bind; [exact Mm|exact Mk]|]. intros t b t' f fs E G. unfold mbind in E. destruct (m t) as [[a t1]|] eqn:E1; [|discriminate].
  destruct (H _ _ _ _ _ E1 G) as (e1 & f1 & X1 & X2 & X3 & X4). destruct (proj2 (K _ _ X1) _ _ _ _ _ E X3) as (e2 & f2 & Y1 & Y2 & Y3 & Y4).
  exists (e1 ++ e2), f2. split; [exact Y1|]. split; [eapply lexical_app; eassumption|]. split; [exact Y3|]. rewrite !declared_app.
  eapply made_trans; [exact (Mm _ _ _ E1)|exact (Mk _ _ _ _ E)|exact X4|exact Y4].
Qed.
Lemma follows_after {A B} (m : M A) (k : A -> M B) src R : silent m -> (forall a, follows (k a) src R) -> follows (mbind m k) src R.
Proof.
  intros (Mm & H) K. assert (Mk : forall a, moves (k a)) by (intros a; apply K). apply (follows_bind m k [] src (fun _ e => e = []) R); [|intros a e ->; apply K|exact Mk].
  split; [exact Mm|]. intros t a t' f fs E G. destruct (H _ _ _ E) as (X & Y). exists [], f. split; [reflexivity|]. split; [constructor|]. split; [now rewrite X|].
  split; [now rewrite Y, app_nil_r|]. intros _ _. constructor.
Qed.
Lemma follows_fail {A} e src (R : A -> tevents -> Prop) : follows (mfail e) src R.
Proof. split; [apply moves_fail|]. intros t a t' f fs E. discriminate E. Qed.
Lemma follows_failc {A} sp c src (R : A -> tevents -> Prop) : follows (mfailc sp c) src R.
Proof. split; [apply moves_failc|]. intros t a t' f fs E. discriminate E. Qed.
Lemma silent_read {A} (f : scope -> pool -> outcome error A) : silent (reading f).
Proof. split; [apply moves_read|]. intros t a t' E. unfold reading in E. destruct (f _ _); [|discriminate]. injection E as _ <-. auto. Qed.
Lemma silent_push d : silent (push_diag d).
Proof. split; [apply moves_push|]. intros t a t' [= _ <-]. auto. Qed.
Lemma silent_report e : silent (report e).
Proof. unfold report. destruct (diag_from_error e); [apply silent_push|]. split; [apply moves_fail|]. intros t a t' E. discriminate E. Qed.
Lemma silent_ret {A} (a : A) : silent (mret a).
Proof. split; [apply moves_ret|]. intros t x t' [= _ <-]. auto. Qed.
Lemma silent_fail {A} e : silent (@mfail A e).
Proof. split; [apply moves_fail|]. intros t x t' E. discriminate E. Qed.
Lemma silent_failc {A} sp c : silent (@mfailc A sp c).
Proof. split; [apply moves_failc|]. intros t x t' E. discriminate E. Qed.
Lemma silent_bind {A B} (m : M A) (k : A -> M B) : silent m -> (forall a, silent (k a)) -> silent (mbind m k).
Proof.
  intros (M1 & H) K. split; [apply moves_bind; [exact M1|intros a; apply K]|]. intros t b t' E. unfold mbind in E. destruct (m t) as [[a t1]|] eqn:E1; [|discriminate].
  destruct (H _ _ _ E1) as (X & Y). destruct (proj2 (K a) _ _ _ E) as (X2 & Y2). split; congruence.
Qed.

(** Blocks. *)
Lemma follows_scoped {A} (m : M A) src R : follows m src R ->
  follows (scoped m) (Opens :: src ++ [Closes]) (fun a e => exists e1, R a e1 /\ e = Opens :: e1 ++ [Closes]).
Proof.
  intros (Mm & H). split; [now apply moves_scoped|]. intros t a t' f fs E G. unfold scoped in E. destruct (m t) as [[x t1]|] eqn:E1; [|discriminate]. injection E as <- <-.
  destruct (H _ _ _ [] (f :: fs) E1) as (e & f' & X1 & X2 & _ & X3).
  { destruct G as (G1 & G2 & G3). split; [|auto]. intros n. rewrite G1. reflexivity. }
  exists (Opens :: e ++ [Closes]), f. split; [eauto|]. split.
  { constructor. eapply lexical_app; [exact X2|]. constructor. constructor. }
  split; [exact G|]. destruct X3 as (Y1 & Y2). unfold made. cbn [set_scope ts_locals ts_pool].
  change (declared (Opens :: src ++ [Closes])) with (declared (src ++ [Closes])). change (declared (Opens :: e ++ [Closes])) with (declared (e ++ [Closes])).
  rewrite !declared_app. cbn [declared flat_map]. rewrite !app_nil_r. auto.
Qed.
(** Declarations. *)
Lemma follows_local n t sp : follows (add_local n t sp) [Declares n] (fun l e => e = [Declares l]).
Proof.
  split; [apply moves_local|]. intros st l st' f fs E (G1 & G2 & G3). pose proof (moves_local n t sp _ _ _ E) as PR. unfold add_local in E.
  destruct (add_name (ts_pool st) _) as [p1 ni] eqn:E1. destruct (get_type_index t (ts_scope st) p1) as [[[ti s'] p2]|] eqn:E2; [|discriminate]. cbn [with_span map_err obind] in E.
  destruct (sc_function (ts_scope st)) as [g|] eqn:EF; [|discriminate]. destruct (add_definition p2 _) as [p3 li] eqn:E3. injection E as <- <-.
  pose proof (request_scope _ _ _ _ _ _ E2) as ES. exists [Declares li], ((n, VLocal li) :: f). split; [reflexivity|]. split; [constructor; constructor|].
  assert (A1 : sc_references s' = sc_references (ts_scope st)) by (rewrite ES; reflexivity). assert (A2 : sc_symbols s' = sc_symbols (ts_scope st)) by (rewrite ES; reflexivity).
  assert (A3 : sc_function s' = sc_function (ts_scope st)) by (rewrite ES; reflexivity).
  split.
  { unfold agrees. cbn [ts_scope sc_add_local set_references sc_references sc_symbols sc_function]. split; [|split; congruence]. intros m. rewrite A1. specialize (G1 m). cbn [nearest] in *.
    unfold am_insert. cbn [am_find]. destruct (str_eqb n m); [reflexivity|exact G1]. }
  split; [reflexivity|]. cbn [ts_pool ts_locals declared flat_map app]. intros Sm (So & _).
  pose proof (add_name_extends _ _ _ _ E1) as X1. pose proof (inner_extends _ _ _ _ _ _ E2) as X2. pose proof (extends_add_definition _ _ _ _ E3) as X3.
  pose proof (extends_small _ _ X3 Sm) as S2. pose proof (extends_small _ _ X2 S2) as S1.
  destruct (add_name_spec _ _ _ _ E1 So S1) as (Q & _ & NM & PD). destruct (add_definition_spec _ _ _ _ E3 Sm) as (_ & PN & L & L0 & LN & _).
  assert (L12 : (length (pl_defs p1) <= length (pl_defs p2))%nat) by (destruct X2 as ((m & ->) & _); rewrite app_length; lia).
  assert (L3 : (length (pl_defs p3) = S (length (pl_defs p2)))%nat) by (injection E3 as <- _; cbn [set_defs pl_defs]; rewrite app_length; cbn; lia).
  eapply va_more; [rewrite PD in L12; lia|unfold get_def; rewrite L; reflexivity|reflexivity|cbn; congruence| |constructor].
  unfold def_name, get_def. rewrite L. cbn [obind local_definition df_name]. rewrite PN.
  rewrite (prefix_get _ _ _ _ _ (proj1 (proj2 X2)) NM). reflexivity.
Qed.

(** * Trees *)

Lemma events_insert e t c : events (insert_conversion e t c) = events e.
Proof. destruct c; cbn [insert_conversion events flat_map]; rewrite ?app_nil_r; reflexivity. Qed.
Lemma events_strengthen e t : events (strengthen e t) = events e.
Proof. destruct t; try reflexivity. apply events_insert. Qed.
Definition gives (x : texpr) (e : tevents) : Prop := e = events x.
Definition gives_all (xs : list texpr) (e : tevents) : Prop := e = flat_map events xs.

Lemma follows_map {A B} (f : A -> M B) (g : A -> list (event str str)) (h : B -> tevents) l : (forall x, follows (f x) (g x) (fun y e => e = h y)) ->
  follows (mmap f l) (flat_map g l) (fun ys e => e = flat_map h ys).
Proof.
  intros H. assert (Mf : forall x, moves (f x)) by (intros x; apply H). induction l as [|x l IH]; cbn [mmap flat_map]; [now apply follows_ret|].
  eapply follows_bind; [apply H| |intros y; apply moves_bind; [now apply moves_map|intros; apply moves_ret]]. intros y e1 ->. rewrite <- (app_nil_r (flat_map g l)).
  eapply follows_bind; [exact IH| |intros ys; apply moves_ret]. intros ys e2 ->. apply follows_ret. cbn [flat_map]. now rewrite app_nil_r.
Qed.
Lemma follows_opt {A B} (f : A -> M B) (g : A -> list (event str str)) (h : B -> tevents) o : (forall x, follows (f x) (g x) (fun y e => e = h y)) ->
  follows (mopt f o) (match o with Some x => g x | None => [] end) (fun y e => e = match y with Some z => h z | None => [] end).
Proof.
  intros H. destruct o as [x|]; cbn [mopt]; [|now apply follows_ret]. rewrite <- (app_nil_r (g x)). eapply follows_bind; [apply H| |intros; apply moves_ret].
  intros y e ->. apply follows_ret. now rewrite app_nil_r.
Qed.

Section Steps.
Variable rec : checker.
Hypothesis Hrec : forall e w, follows (rec e w) (events e) gives.
Lemma Mrec : forall e w, moves (rec e w). Proof. intros e w. apply Hrec. Qed.

Lemma follows_convert e t : follows (check_and_convert rec e t) (events e) gives.
Proof.
  unfold check_and_convert. rewrite <- (app_nil_r (events e)). eapply follows_bind; [apply Hrec| |intros; moves Mrec]. intros x e1 ->.
  apply follows_after; [apply silent_read|intros from]. apply follows_after; [apply silent_read|intros [c|]].
  - apply follows_ret. unfold gives. now rewrite events_insert, app_nil_r.
  - apply follows_after; [apply silent_read|intros a]. apply follows_after; [apply silent_read|intros b]. apply follows_after; [apply silent_report|intros u]. apply follows_ret. unfold gives. now rewrite app_nil_r.
Qed.
Lemma follows_seq es : follows (check_seq rec es) (flat_map events es) gives_all.
Proof. unfold check_seq. apply follows_map. intros x. apply Hrec. Qed.
Definition block {N} (b : list (expr N)) : list (event (kRef N) (kLocal N)) := Opens :: flat_map events b ++ [Closes].
Lemma follows_block es : follows (scoped (check_seq rec es)) (block es) (fun xs e => e = block xs).
Proof. eapply follows_weak; [apply follows_scoped, follows_seq|]. intros xs e (e1 & -> & ->). reflexivity. Qed.
Lemma follows_zip args : forall types, (length args <= length types)%nat -> follows (check_zip rec args types) (flat_map events args) (fun xs e => gives_all xs e /\ length xs = length args).
Proof.
  induction args as [|a args IH]; intros [|t types] L; cbn [check_zip flat_map length] in *; try lia; try (now apply follows_ret).
  eapply follows_bind; [apply Hrec| |intros y; apply moves_bind; [apply moves_zip, Mrec|intros; apply moves_ret]]. intros y e1 ->. rewrite <- (app_nil_r (flat_map _ args)).
  eapply follows_bind; [apply (IH types); lia| |intros ys; apply moves_ret]. intros ys e2 (-> & E). apply follows_ret. unfold gives_all. cbn [flat_map length]. rewrite app_nil_r. auto.
Qed.
Lemma mapM_length {A B} (f : A -> outcome error B) l r : mapM f l = Done r -> length r = length l.
Proof.
  revert r. induction l as [|x l IH]; intros r; cbn [mapM]; [intros [= <-]; reflexivity|]. destruct (f x); cbn [obind]; [|discriminate]. destruct (mapM f l); cbn [obind]; [|discriminate].
  intros [= <-]. cbn. f_equal. now apply IH.
Qed.
Lemma eligible_long s p n sp cands : forall el errs, eligible_loop s p n sp cands = Done (el, errs) -> Forall (fun x => (n <= length (snd x))%nat) el.
Proof.
  induction cands as [|f cands IH]; intros el errs; cbn [eligible_loop]; [intros [= <- <-]; constructor|]. destruct (validate_call s p f n sp) as [r|[e|e]] eqn:E; [| |discriminate].
  - destruct (eligible_loop s p n sp cands) as [[el' errs']|]; cbn [obind]; [|discriminate]. intros [= <- <-]. constructor; [|eapply IH; reflexivity].
    unfold validate_call in E. destruct (get_function p f) as [fn0|]; cbn [pe map_err oth obind] in E; [|discriminate]. destruct (_ || _) eqn:B; [discriminate|]. apply orb_false_iff in B as (_ & B).
    destruct (mapM _ _) as [types|] eqn:MM; cbn [oth map_err obind] in E; [|discriminate]. injection E as <-. cbn [snd]. rewrite (mapM_length _ _ _ MM). apply Nat.ltb_ge in B. exact B.
  - destruct (eligible_loop s p n sp cands) as [[el' errs']|]; cbn [obind]; [|discriminate]. intros [= <- <-]. eapply IH; reflexivity.
Qed.
Lemma arg_list_length s p args : forall i types cs, validate_arg_list s p i args types = Done cs -> (length args <= length types)%nat -> length cs = length args.
Proof.
  induction args as [|a args IH]; intros i [|t types] cs; cbn [validate_arg_list length]; try (intros [= <-]; cbn; lia). destruct (validate_arg _ _ _ _ _); cbn [obind]; [|discriminate].
  destruct (validate_arg_list _ _ _ _ _) eqn:E; cbn [obind]; [|discriminate]. intros [= <-] L. cbn. f_equal. eapply IH; [exact E|lia].
Qed.
Lemma args_length s p f args types w sp cs : validate_args s p f args types w sp = Done cs -> (length args <= length types)%nat -> length cs = length args.
Proof.
  unfold validate_args. destruct (get_function p f) as [g|]; cbn [pe map_err oth obind]; [|discriminate]. intros E. destruct (match w with Some _ => _ | None => _ end); cbn [obind] in E; [|discriminate].
  exact (arg_list_length _ _ _ _ _ _ E).
Qed.
Lemma events_match f xs : forall cs, length cs = length xs -> flat_map events (snd (function_match f xs cs)) = flat_map events xs.
Proof.
  unfold function_match. cbn [snd]. induction xs as [|x xs IH]; intros [|c cs] L; cbn [zip_with flat_map length] in *; try discriminate; [reflexivity|]. rewrite events_insert, IH by congruence. reflexivity.
Qed.
Lemma matches_long s p args w sp el : forall ms errs, matches_loop s p args w sp el = Done (ms, errs) -> Forall (fun x => (length args <= length (snd x))%nat) el ->
  Forall (fun x => length (snd x) = length args) ms.
Proof.
  induction el as [|[f types] el IH]; intros ms errs; cbn [matches_loop]; [intros [= <- <-]; constructor|]. intros E F. inversion F as [|? ? F1 F2]; subst. cbn [snd] in F1.
  destruct (validate_args s p f args types w sp) as [cs|[e|e]] eqn:EV; [| |discriminate]; (destruct (matches_loop s p args w sp el) as [[ms' errs']|]; cbn [obind] in E; [|discriminate]); injection E as <- <-.
  - constructor; [exact (args_length _ _ _ _ _ _ _ _ EV F1)|]. eapply IH; [reflexivity|exact F2].
  - eapply IH; [reflexivity|exact F2].
Qed.
Definition picked (r : pidx * list texpr + error) (e : tevents) : Prop := match r with inl (_, xs) => gives_all xs e | inr _ => True end.
Lemma follows_map_length args : follows (mmap (fun e => rec e None) args) (flat_map events args) (fun xs e => gives_all xs e /\ length xs = length args).
Proof.
  induction args as [|x l IH]; cbn [mmap flat_map]; [now apply follows_ret|].
  eapply follows_bind; [apply Hrec| |intros y; apply moves_bind; [apply moves_map; intros; apply Mrec|intros; apply moves_ret]]. intros y e1 ->. rewrite <- (app_nil_r (flat_map _ l)).
  eapply follows_bind; [exact IH| |intros ys; apply moves_ret]. intros ys e2 (-> & E). apply follows_ret. unfold gives_all. cbn [flat_map length]. rewrite app_nil_r. auto.
Qed.
Lemma follows_reading {A B} (f : scope -> pool -> outcome error A) (k : A -> M B) src R : (forall a, moves (k a)) ->
  (forall s p a, f s p = Done a -> follows (k a) src R) -> follows (mbind (reading f) k) src R.
Proof.
  intros Mk H. split; [apply moves_bind; [apply moves_read|exact Mk]|]. intros t b t' f0 fs E G. unfold mbind, reading in E. destruct (f _ _) as [a|] eqn:E1; [|discriminate].
  exact (proj2 (H _ _ _ E1) _ _ _ _ _ E G).
Qed.
Lemma follows_pick name args w sp el errs : Forall (fun x => (length args <= length (snd x))%nat) el ->
  follows (pick_overload rec name args w sp el errs) (flat_map events args) picked.
Proof.
  intros F. split; [apply moves_pick, Mrec|].
  assert (G : follows (mbind (mmap (fun e => rec e None) args) (fun checked => mbind (reading (fun s p => matches_loop s p checked w sp el)) (fun '(ms, errs') =>
      match ms with [] => mret (inr (no_matching name (errs ++ errs') sp)) | (f, cs) :: _ => mret (inl (function_match f checked cs)) end))) (flat_map events args) picked).
  { rewrite <- (app_nil_r (flat_map _ _)). eapply follows_bind; [apply follows_map_length| |intros; moves Mrec]. intros xs e (-> & L). apply follows_reading; [intros [ms er]; moves Mrec|].
    intros s p [ms er] E. destruct ms as [|[f cs] ms]; [now apply follows_ret|]. apply follows_ret. unfold picked, gives_all. rewrite <- L in F. pose proof (matches_long _ _ _ _ _ _ _ _ E F) as X.
    inversion X as [|? ? X1 X2]; subst. cbn [snd] in X1. cbn [function_match]. rewrite app_nil_r. symmetry. exact (events_match f _ _ X1). }
  unfold pick_overload. destruct el as [|[f types] [|y el]]; [exact (proj2 G)| |exact (proj2 G)]. clear G.
  inversion F as [|? ? F1 _]; subst. cbn [snd] in F1. rewrite <- (app_nil_r (flat_map _ _)).
  match goal with |- forall t a t' f fs, mbind ?m ?k t = _ -> _ => assert (X : follows (mbind m k) (flat_map events args ++ []) picked) end; [|exact (proj2 X)].
  eapply follows_bind; [apply (follows_zip _ _ F1)| |].
  - intros xs e (-> & L). split.
    + intros t a t' E. destruct (validate_args _ _ _ _ _ _ _) as [|[|]]; injection E as _ <-; apply progress_refl.
    + intros t a t' f0 fs E G. destruct (validate_args _ _ _ _ _ _ _) as [cs|[er|er]] eqn:EV; injection E as <- <-; exists [], f0;
        (split; [|split; [constructor|split; [exact G|split; [cbn; now rewrite app_nil_r|intros _ _; constructor]]]]); cbn [picked function_match]; try exact I.
      unfold gives_all. rewrite app_nil_r. symmetry. apply (events_match f). apply (args_length _ _ _ _ _ _ _ _ EV). lia.
  - intros xs t a t' E. destruct (validate_args _ _ _ _ _ _ _) as [|[|]]; injection E as _ <-; apply progress_refl.
Qed.
Lemma follows_overload name ov args w sp : follows (resolve_overload false rec name ov args w sp) (flat_map events args) (fun r e => gives_all (snd r) e).
Proof.
  unfold resolve_overload. apply follows_reading; [intros [el errs]; moves Mrec; apply moves_pick, Mrec|]. intros s p [el errs] E.
  rewrite <- (app_nil_r (flat_map _ _)). eapply follows_bind; [apply follows_pick, (eligible_long _ _ _ _ _ _ _ E)| |intros; moves Mrec].
  intros [[f xs]|er] e P; [|apply follows_fail]. apply follows_ret. cbn [snd picked] in *. unfold gives_all in *. now rewrite app_nil_r.
Qed.
Lemma follows_fields sp args : forall fields, length args = length fields -> follows (check_fields rec sp args fields) (flat_map events args) gives_all.
Proof.
  induction args as [|a args IH]; intros [|t types] L; cbn [check_fields flat_map length] in *; try discriminate; [now apply follows_ret|].
  apply follows_after; [apply silent_read|intros fd]. apply follows_after; [apply silent_read|intros ft].
  eapply follows_bind; [apply follows_convert| |intros y; apply moves_bind; [apply moves_fields, Mrec|intros; apply moves_ret]]. intros y e1 ->. rewrite <- (app_nil_r (flat_map _ args)).
  eapply follows_bind; [apply (IH types); lia| |intros ys; apply moves_ret]. intros ys e2 ->. apply follows_ret. unfold gives_all. cbn [flat_map]. now rewrite app_nil_r.
Qed.
Lemma silent_related (a b : typeid) sp : silent (fun ts => match lub (ts_pool ts) a b with
   | Fail (CauseUnwind u) => Fail (ErrUnwind u)
   | Fail _ => push_diag (Deprecated UnrelatedTypeEquals sp) ts
   | Done _ => mret tt ts
   end).
Proof.
  split; [apply moves_related|]. intros t x t' E. destruct (lub _ _ _) as [|c]; [injection E as _ <-; auto|]. destruct c; try (injection E as _ <-; auto); discriminate.
Qed.
Definition checked_args (x : typeid * list texpr) (e : tevents) : Prop := gives_all (snd x) e.
Lemma follows_done first (t : typeid) : follows (mret (t, [first])) [] (fun b e2 => checked_args b (events first ++ e2)).
Proof. apply follows_ret. unfold checked_args, gives_all. cbn. now rewrite app_nil_r. Qed.
Lemma follows_read_done first (f : scope -> pool -> outcome error typeid) : follows (mbind (reading f) (fun t => mret (t, [first]))) [] (fun b e2 => checked_args b (events first ++ e2)).
Proof. apply follows_after; [apply silent_read|intros t]. apply follows_done. Qed.
Lemma follows_name_fail {A B} sp c (f : scope -> pool -> outcome error A) src (R : B -> tevents -> Prop) : follows (mbind (reading f) (fun n => mfailc sp (c n))) src R.
Proof. apply follows_after; [apply silent_read|intros n; apply follows_failc]. Qed.
Lemma follows_second first a t (k : texpr -> M (typeid * list texpr)) : (forall x, moves (k x)) ->
  (forall x, follows (k x) [] (fun b e => checked_args b (flat_map events [first; x] ++ e))) ->
  follows (mbind (check_and_convert rec a t) k) (events a) (fun b e2 => checked_args b (events first ++ e2)).
Proof.
  intros Mk H. rewrite <- (app_nil_r (events a)). eapply follows_bind; [apply follows_convert| |exact Mk]. intros x e ->. specialize (H x). cbn [flat_map] in H. rewrite app_nil_r in H.
  eapply follows_weak; [exact H|]. cbv beta. intros b e. now rewrite <- app_assoc.
Qed.
Lemma follows_two first x (t : typeid) : follows (mret (t, [first; x])) [] (fun b e => checked_args b (flat_map events [first; x] ++ e)).
Proof. apply follows_ret. unfold checked_args, gives_all. cbn [snd]. now rewrite app_nil_r. Qed.
Lemma follows_read_two first x (f : scope -> pool -> outcome error typeid) : follows (mbind (reading f) (fun t => mret (t, [first; x]))) [] (fun b e => checked_args b (flat_map events [first; x] ++ e)).
Proof. apply follows_after; [apply silent_read|intros t]. apply follows_two. Qed.

Lemma follows_equals first a ft sp (f : scope -> pool -> outcome error typeid) :
  follows (mbind (rec a (Some ft)) (fun x => mbind (reading (type_of x)) (fun st => mbind (fun ts => match lub (ts_pool ts) ft st with
     | Fail (CauseUnwind u) => Fail (ErrUnwind u)
     | Fail _ => push_diag (Deprecated UnrelatedTypeEquals sp) ts
     | Done _ => mret tt ts
     end) (fun _ => mbind (reading f) (fun t => mret (t, [first; x])))))) (events a) (fun b e2 => checked_args b (events first ++ e2)).
Proof.
  rewrite <- (app_nil_r (events a)). eapply follows_bind; [apply Hrec| |intros; moves Mrec; apply moves_related]. intros x e ->. apply follows_after; [apply silent_read|intros st].
  apply follows_after; [apply silent_related|intros u]. apply follows_after; [apply silent_read|intros t]. apply follows_ret. unfold checked_args, gives_all. cbn [snd flat_map]. rewrite ?app_nil_r. reflexivity.
Qed.
Lemma follows_insert first a b ta tb t : follows (mbind (check_and_convert rec a ta) (fun x => mbind (check_and_convert rec b tb) (fun y => mret (t, [first; x; y])))) (events a ++ events b)
  (fun r e2 => checked_args r (events first ++ e2)).
Proof.
  eapply follows_bind; [apply follows_convert| |intros; moves Mrec; apply moves_convert, Mrec]. intros x e ->. rewrite <- (app_nil_r (events b)). eapply follows_bind; [apply follows_convert| |intros; moves Mrec].
  intros y e ->. apply follows_ret. unfold checked_args, gives_all. cbn [snd flat_map]. rewrite !app_nil_r. reflexivity.
Qed.

Lemma follows_intrinsic i args w sp : follows (check_intrinsic rec i args w sp) (flat_map events args) gives.
Proof.
  unfold check_intrinsic. destruct (Nat.eqb_spec (length args) (arg_count i)) as [L|]; cbn [negb]; [|apply follows_failc].
  assert (Z : exists a args', args = a :: args') by (destruct args; [destruct i; discriminate|eauto]). destruct Z as (a & args' & ->). cbn [nth flat_map].
  eapply follows_bind; [apply Hrec| |].
  2: { intros first. apply moves_bind; [apply moves_read|intros ft]. apply moves_bind; [|intros [t checked]; apply moves_ret].
       destruct i, ft; moves Mrec; try apply moves_convert; try apply moves_related; try exact Mrec. }
  intros first e1 ->. apply follows_after; [apply silent_read|intros ft].
  rewrite <- (app_nil_r (flat_map events args')). apply (follows_bind _ _ _ _ (fun b e2 => checked_args b (events first ++ e2))).
  3: { intros [t checked]; apply moves_ret. }
  2: { intros [t checked] e2 X. apply follows_ret. unfold gives, typed_call. cbn [events]. unfold checked_args, gives_all in X. cbn [snd] in X. now rewrite app_nil_r. }
  destruct i; cbn [arg_count length] in L;
    repeat match goal with H : S (length ?l) = S _ |- _ => injection H as H; destruct l; cbn [length] in H; try discriminate H end; cbn [flat_map app nth]; rewrite ?app_nil_r;
    try apply follows_equals;
    destruct ft; try apply follows_name_fail; try apply follows_done; try apply follows_read_done;
    try (apply follows_second; [intros; moves Mrec|intros; first [apply follows_two|apply follows_read_two]]);
    try (apply follows_after; [apply silent_read|intros ?]; first [apply follows_insert|apply follows_second; [intros; moves Mrec|intros; first [apply follows_two|apply follows_read_two]]]);
    (destruct w as [w|]; [|apply follows_name_fail]; try apply follows_done; destruct w; first [apply follows_name_fail|apply follows_done]).
Qed.

Lemma follows_step e w : follows (check_step false rec e w) (events e) gives.
Proof.
  destruct e; cbn [check_step].
  - (* EIdent *)
    split.
    { apply (moves_step false rec Mrec (EIdent r sp) w). }
    intros t a t' f fs E (G1 & G2 & G3). destruct (resolve_reference (ts_scope t) r) as [v|] eqn:ER; [|discriminate]. injection E as <- <-. exists [Uses v], f. split; [reflexivity|].
    unfold resolve_reference, resolve_value, resolve_symbol in ER. rewrite G1 in ER. split; [|split; [repeat split; auto|split; [cbn; now rewrite app_nil_r|intros _ _; constructor]]].
    destruct (nearest (f :: fs) r) as [x|] eqn:EN; [injection ER as <-; apply lx_variable; [exact EN|constructor]|].
    rewrite G2 in ER. destruct (am_find sy r) as [y|] eqn:EY; [|discriminate]. injection ER as <-. apply lx_symbol; [exact EN|exact EY|constructor].
  - destruct w as [ty|]; [apply follows_after; [apply silent_read|intros n]|]; now apply follows_ret.
  - (* EArrayLit *)
    destruct es as [|x es].
    { destruct w as [[]|]; first [apply follows_name_fail|apply follows_failc|now apply follows_ret]. }
    cbn [events]. rewrite <- (app_nil_r (flat_map _ _)). eapply follows_bind; [apply (follows_map _ (events (N := source_ast)) (events (N := typed_ast)))| |].
    + intros y. destruct w as [[]|]; first [apply Hrec|apply follows_convert].
    + intros ys e1 ->. destruct ys as [|y ys]; [apply follows_fail|]. apply follows_after; [apply silent_read|intros t0]. apply follows_after; [apply silent_read|intros t1].
      apply follows_ret. unfold gives. cbn [events]. now rewrite app_nil_r.
    + intros ys. moves Mrec.
  - (* EInterpolated *)
    cbn [events]. rewrite <- (app_nil_r (flat_map _ _)). eapply follows_bind; [apply (follows_map _ (fun x : sexpr * str => events (fst x)) (fun x : texpr * str => events (fst x)))| |intros; moves Mrec].
    + intros [x s]. cbn [fst snd]. rewrite <- (app_nil_r (events x)). eapply follows_bind; [apply Hrec| |intros; moves Mrec]. intros y e1 ->. apply follows_ret. cbn. now rewrite app_nil_r.
    + intros ys e1 ->. apply follows_ret. unfold gives. cbn [events]. now rewrite app_nil_r.
  - (* EDeclare *)
    cbn [events]. eapply (follows_bind _ _ _ _ (fun (x : option texpr * typeid) e => e = match fst x with Some y => events y | None => [] end)); [| |intros [i ty]; moves Mrec].
    + destruct t as [tn|], init as [x|]; try (apply follows_failc).
      * apply follows_after; [apply silent_read|intros t]. rewrite <- (app_nil_r (events x)). eapply follows_bind; [apply follows_convert| |intros; moves Mrec]. intros y e1 ->. apply follows_ret. cbn. now rewrite app_nil_r.
      * apply follows_after; [apply silent_read|intros t]. now apply follows_ret.
      * rewrite <- (app_nil_r (events x)). eapply follows_bind; [apply Hrec| |intros; moves Mrec]. intros y e1 ->. apply follows_after; [apply silent_read|intros t]. apply follows_ret. cbn. now rewrite app_nil_r.
    + intros [i t0] e1 ->. rewrite <- (app_nil_r [Declares l]). eapply follows_bind; [apply follows_local| |intros; moves Mrec]. intros li e2 ->. apply follows_ret. unfold gives. cbn [events fst]. reflexivity.
  - (* ECast *)
    cbn [events]. apply follows_after; [apply silent_read|intros t0]. rewrite <- (app_nil_r (events e)). eapply follows_bind; [apply Hrec| |intros; moves Mrec]. intros y e1 ->.
    apply follows_after; [apply silent_read|intros t1]. apply follows_ret. unfold gives. cbn [events]. now rewrite events_strengthen, app_nil_r.
  - (* EAssign *)
    cbn [events]. eapply follows_bind; [apply Hrec| |intros; moves Mrec; apply moves_convert, Mrec]. intros y e3 ->. apply follows_after; [apply silent_read|intros t1].
    rewrite <- (app_nil_r (events e2)). eapply follows_bind; [apply follows_convert| |intros; moves Mrec]. intros z e4 ->. apply follows_ret. unfold gives. cbn [events]. now rewrite app_nil_r.
  - (* ECall *)
    cbn [events]. apply follows_after.
    { destruct targs as [|x [|]]; try apply silent_ret. apply silent_bind; [apply silent_read|intros; apply silent_ret]. }
    intros w'. destruct (intrinsic_of_name c) as [i|]; [apply follows_intrinsic|]. apply follows_after; [apply silent_read|intros cands].
    rewrite <- (app_nil_r (flat_map _ _)). eapply follows_bind; [apply follows_overload| |intros [f xs]; moves Mrec]. intros [f xs] e1 X. apply follows_ret. unfold gives, typed_call. cbn [events]. cbn [snd] in X. rewrite X. apply app_nil_r.
  - (* EMethodCall *)
    cbn [events]. eapply follows_bind; [apply Hrec| |intros; moves Mrec; apply moves_overload, Mrec]. intros y e1 ->. apply follows_after; [apply silent_read|intros t1].
    apply follows_after; [destruct (ti_unwrapped t1); first [apply silent_ret|apply silent_bind; [apply silent_read|intros; apply silent_failc]]|intros k]. apply follows_after; [apply silent_read|intros cands].
    rewrite <- (app_nil_r (flat_map _ _)). eapply follows_bind; [apply follows_overload| |intros [g xs]; moves Mrec]. intros [g xs] e2 X. apply follows_ret. unfold gives. cbn [events]. cbn [snd] in X. rewrite X, events_strengthen. now rewrite app_nil_r.
  - (* EMember *)
    cbn [events]. rewrite <- (app_nil_r (events e)). eapply follows_bind; [apply Hrec| |intros; moves Mrec]. intros y e1 ->. apply follows_after; [apply silent_read|intros t1].
    apply follows_after.
    { destruct (ti_unwrapped t1); first [apply silent_bind; [apply silent_read|intros; first [apply silent_ret|apply silent_failc]]]. }
    intros mm. apply follows_ret. unfold gives. cbn [events]. now rewrite events_strengthen, app_nil_r.
  - (* EArrayElem *)
    cbn [events]. apply follows_after; [apply silent_read|intros t0]. eapply follows_bind; [apply Hrec| |intros; moves Mrec; apply moves_convert, Mrec]. intros y e3 ->.
    rewrite <- (app_nil_r (events e2)). eapply follows_bind; [apply follows_convert| |intros; moves Mrec]. intros z e4 ->. apply follows_ret. unfold gives. cbn [events]. now rewrite app_nil_r.
  - (* ENew *)
    cbn [events]. apply follows_after; [apply silent_read|intros t0]. destruct t0; try apply follows_failc.
    + apply follows_after; [apply silent_read|intros k]. destruct (get_flag _ _); [apply follows_failc|]. destruct args as [|x args]; [now apply follows_ret|apply follows_failc].
    + apply follows_after; [apply silent_read|intros k]. destruct (Nat.eqb_spec (length (cl_fields k)) (length args)) as [L|]; cbn [negb]; [|apply follows_failc].
      rewrite <- (app_nil_r (flat_map _ _)). eapply follows_bind; [apply follows_fields; congruence| |intros; moves Mrec]. intros xs e1 ->. apply follows_ret. unfold gives. cbn [events]. apply app_nil_r.
  - (* EReturn *)
    cbn [events]. apply follows_after.
    { split; [|intros t a t' E; destruct (sc_function (ts_scope t)); [|discriminate]; exact (proj2 (silent_read _) _ _ _ E)].
      intros t a t' E. destruct (sc_function (ts_scope t)); [|discriminate]. exact (moves_read _ _ _ _ E). }
    intros g. destruct e as [x|], (fu_return_type g) as [r|]; [| | |now apply follows_ret]; [|apply follows_failc|].
    + apply follows_after; [apply silent_read|intros t0]. rewrite <- (app_nil_r (events x)). eapply follows_bind; [apply follows_convert| |intros; moves Mrec]. intros y e1 ->. apply follows_ret. unfold gives. cbn [events]. apply app_nil_r.
    + apply follows_after; [apply silent_read|intros t0]. apply follows_name_fail.
  - (* ESeq *)
    cbn [events]. rewrite <- (app_nil_r (flat_map _ _)). eapply follows_bind; [apply follows_seq| |intros; moves Mrec]. intros xs e1 ->. apply follows_ret. unfold gives. cbn [events]. apply app_nil_r.
  - (* ESwitch *)
    cbn [events]. eapply follows_bind; [apply Hrec| |].
    2: { intros y. apply moves_bind; [intros st a st' E; (destruct (type_of y _ _) as [ty|er]; [|destruct er; try discriminate]); injection E as _ <-; apply progress_refl|intros mt]. moves Mrec; apply moves_seq, Mrec. }
    intros y e1 ->. apply follows_after.
    { split; intros st a st' E; (destruct (type_of y _ _) as [ty|er]; [|destruct er; try discriminate]); injection E as _ <-; auto using progress_refl. }
    intros mt. eapply follows_bind.
    { apply (follows_map _ (fun c : sexpr * list sexpr => events (fst c) ++ block (snd c)) (fun c : texpr * list texpr => events (fst c) ++ block (snd c))).
      intros [x b]. cbn [fst snd]. eapply follows_bind; [apply Hrec| |intros; moves Mrec; apply moves_seq, Mrec]. intros x' e2 ->. rewrite <- (app_nil_r (block b)).
      eapply follows_bind; [apply follows_block| |intros; moves Mrec]. intros b' e3 ->. apply follows_ret. cbn [fst snd]. now rewrite app_nil_r. }
    2: { intros. moves Mrec; apply moves_seq, Mrec. }
    intros cs e2 ->. match goal with |- follows _ ?x _ => rewrite <- (app_nil_r x) end. eapply follows_bind; [apply (follows_opt _ (block (N := source_ast)) (block (N := typed_ast))); intros b; apply follows_block| |intros; moves Mrec].
    intros d e3 ->. apply follows_ret. unfold gives. cbn [events]. now rewrite app_nil_r.
  - now apply follows_ret.
  - (* EIf *)
    cbn [events]. apply follows_after; [apply silent_read|intros t0]. eapply follows_bind; [apply follows_convert| |intros; moves Mrec; apply moves_seq, Mrec]. intros y e1 ->.
    change (Opens :: flat_map events t ++ [Closes]) with (block t). eapply follows_bind; [apply follows_block| |intros; moves Mrec; apply moves_seq, Mrec]. intros z e2 ->.
    match goal with |- follows _ ?x _ => rewrite <- (app_nil_r x) end. eapply follows_bind; [apply (follows_opt _ (block (N := source_ast)) (block (N := typed_ast))); intros b; apply follows_block| |intros; moves Mrec].
    intros d e3 ->. apply follows_ret. unfold gives. cbn [events]. now rewrite app_nil_r.
  - (* EConditional *)
    cbn [events]. apply follows_after; [apply silent_read|intros t0]. eapply follows_bind; [apply follows_convert| |intros; moves Mrec]. intros y e4 ->.
    eapply follows_bind; [apply Hrec| |intros; moves Mrec]. intros z e5 ->. apply follows_after; [apply silent_read|intros t1]. rewrite <- (app_nil_r (events e3)).
    eapply follows_bind; [apply Hrec| |intros; moves Mrec]. intros u e6 ->. apply follows_ret. unfold gives. cbn [events]. now rewrite app_nil_r.
  - (* EWhile *)
    cbn [events]. apply follows_after; [apply silent_read|intros t0]. eapply follows_bind; [apply follows_convert| |intros; moves Mrec; apply moves_seq, Mrec]. intros y e1 ->.
    change (Opens :: flat_map events body ++ [Closes]) with (block body). rewrite <- (app_nil_r (block body)). eapply follows_bind; [apply follows_block| |intros; moves Mrec]. intros z e2 ->. apply follows_ret.
    unfold gives. cbn [events]. now rewrite app_nil_r.
  - (* EForIn *)
    cbn [events]. eapply follows_bind; [apply Hrec| |intros; moves Mrec; apply moves_seq, Mrec]. intros y e1 ->. apply follows_after; [apply silent_read|intros t0]. destruct t0; try apply follows_name_fail.
    match goal with |- follows _ ?x _ => rewrite <- (app_nil_r x) end. change (Opens :: Declares l :: flat_map events body ++ [Closes]) with (Opens :: (Declares l :: flat_map events body) ++ [Closes]).
    eapply follows_bind; [apply (follows_scoped _ _ (fun (x : pidx * list texpr) e => e = Declares (fst x) :: flat_map events (snd x)))| |intros [li b]; moves Mrec].
    + change (Declares l :: flat_map events body) with ([Declares l] ++ flat_map events body). eapply follows_bind; [apply follows_local| |intros; moves Mrec; apply moves_seq, Mrec]. intros li e2 ->.
      rewrite <- (app_nil_r (flat_map _ _)). eapply follows_bind; [apply follows_seq| |intros; moves Mrec]. intros b e3 ->. apply follows_ret. cbn [fst snd app]. now rewrite app_nil_r.
    + intros [li b] e2 (e3 & X & ->). apply follows_ret. unfold gives. cbn [events]. cbn [fst snd] in X. rewrite X, app_nil_r. reflexivity.
  - (* EBinOp *)
    apply follows_after; [apply silent_read|intros cands]. change (events (EBinOp e1 e2 o sp)) with (events e1 ++ events e2). replace (events e1 ++ events e2) with (flat_map events [e1; e2] ++ []) by (cbn [flat_map]; now rewrite !app_nil_r).
    eapply follows_bind; [apply follows_overload| |intros [f xs]; moves Mrec]. intros [f xs] e3 X. apply follows_ret. unfold gives, typed_call. cbn [events]. cbn [snd] in X. rewrite X. apply app_nil_r.
  - (* EUnOp *)
    apply follows_after; [apply silent_read|intros cands]. change (events (EUnOp e o sp)) with (events e). replace (events e) with (flat_map events [e] ++ []) by (cbn [flat_map]; now rewrite !app_nil_r).
    eapply follows_bind; [apply follows_overload| |intros [f xs]; moves Mrec]. intros [f xs] e3 X. apply follows_ret. unfold gives, typed_call. cbn [events]. cbn [snd] in X. rewrite X. apply app_nil_r.
  - now apply follows_ret.
  - now apply follows_ret.
  - now apply follows_ret.
  - now apply follows_ret.
Qed.
End Steps.
Lemma follows_check n e w : follows (check n false e w) (events e) gives.
Proof. revert e w. induction n as [|n IH]; intros e w; cbn [check]; [apply follows_fail|apply follows_step, IH]. Qed.
End Follows.
