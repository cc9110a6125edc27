(** Facts about overload resolution. *)
From Coq Require Import ZArith List Bool Lia.
From Verif Require Import Bytes Bytecode Definitions Bundle Ast TypeNames Pool Scope TypeCheck TypingSpec TypingFacts
  OverloadSpec.
Import ListNotations.
Open Scope Z_scope.

Lemma required_min p l : required p l (min_params p l).
Proof.
  induction l as [|i l IH]; [constructor|]. unfold min_params in *. cbn [filter].
  destruct (get_parameter p i) as [q|] eqn:E.
  - destruct (get_flag pf_is_optional (pa_flags q)) eqn:F; cbn [negb].
    + constructor; [exists q; auto|assumption].
    + cbn [length]. constructor; [|assumption]. intros (q' & H & H'). congruence.
  - cbn [length]. constructor; [|assumption]. intros (q' & H & H'). congruence.
Qed.
Lemma required_det p l : forall k, required p l k -> k = min_params p l.
Proof.
  induction l as [|i l IH]; intros k H; inversion H; subst; [reflexivity| |]; unfold min_params in *; cbn [filter].
  - destruct H2 as (q & -> & ->). cbn. now apply IH.
  - destruct (get_parameter p i) as [q|] eqn:E.
    + destruct (get_flag _ _) eqn:F; [exfalso; apply H2; exists q; auto|]. cbn. f_equal. now apply IH.
    + cbn. f_equal. now apply IH.
Qed.

Lemma map_err_done {E F A} (f : E -> F) (m : outcome E A) a : map_err f m = Done a <-> m = Done a.
Proof. destruct m; cbn; split; congruence. Qed.

Lemma param_types_mapM s p sp ps types :
  mapM (fun i => let* q := pe (get_parameter p i) in pool_type s p sp (pa_type q)) ps = Done types <->
  Forall2 (fun i t => exists q, get_parameter p i = Done q /\ resolve_type_from_pool s p (pa_type q) = Done t) ps types.
Proof.
  revert types. induction ps as [|i ps IH]; intros types; cbn [mapM].
  - split; [intros [= <-]; constructor|intros H; inversion H; reflexivity].
  - split.
    + destruct (get_parameter p i) as [q|] eqn:E; cbn; [|discriminate].
      destruct (pool_type s p sp (pa_type q)) as [t|] eqn:Et; cbn; [|discriminate].
      destruct (mapM _ ps) as [ts|] eqn:Em; cbn; [|discriminate]. intros [= <-].
      constructor; [exists q; split; [assumption|]|now apply IH].
      unfold pool_type, with_span in Et. now apply map_err_done in Et.
    + intros H. inversion H as [|? t ? ts (q & E & Et) Hf]; subst. apply IH in Hf.
      rewrite Hf, E. cbn. unfold pool_type, with_span. now rewrite Et.
Qed.

Lemma validate_call_done s p f n sp f' types : validate_call s p f n sp = Done (f', types) <->
  f' = f /\ accepts p f n /\ param_types s p f types.
Proof.
  unfold validate_call. destruct (get_function p f) as [fn|] eqn:E; cbn [obind pe oth map_err].
  - split.
    + destruct (n <? min_params p (fu_parameters fn))%nat eqn:E1; [discriminate|]. destruct (length (fu_parameters fn) <? n)%nat eqn:E2; [discriminate|]. cbn.
      apply Nat.ltb_ge in E1, E2.
      destruct (mapM _ _) as [ts|] eqn:Em; [|discriminate]. cbn. intros [= -> ->].
      split; [reflexivity|]. split.
      * exists fn, (min_params p (fu_parameters fn)). auto using required_min.
      * exists fn. split; [assumption|]. now apply param_types_mapM in Em.
    + intros (-> & (fn' & k & E' & Hr & H1 & H2) & (fn'' & E'' & Hf)).
      assert (fn' = fn) by congruence. assert (fn'' = fn) by congruence. subst fn' fn''.
      apply required_det in Hr. subst k.
      apply Nat.ltb_ge in H1, H2. rewrite H1, H2. cbn.
      apply (param_types_mapM s p sp) in Hf. rewrite Hf. reflexivity.
  - split; [discriminate|]. intros (_ & (fn & k & H & _) & _). congruence.
Qed.

Lemma validate_call_mismatch s p f n sp e : validate_call s p f n sp = Fail (MatchError e) -> ~ accepts p f n.
Proof.
  unfold validate_call. destruct (get_function p f) as [fn|] eqn:E; cbn [obind pe oth map_err]; [|discriminate].
  destruct (n <? min_params p (fu_parameters fn))%nat eqn:E1; [|destruct (length (fu_parameters fn) <? n)%nat eqn:E2]; cbn.
  - intros _ (fn' & k & E' & Hr & H1 & H2). assert (fn' = fn) by congruence. subst fn'.
    apply required_det in Hr. apply Nat.ltb_lt in E1. lia.
  - intros _ (fn' & k & E' & Hr & H1 & H2). assert (fn' = fn) by congruence. subst fn'.
    apply Nat.ltb_lt in E2. lia.
  - destruct (mapM _ _); discriminate.
Qed.

(** The eligible candidates are those taking the number of arguments. *)
Inductive elig (s : scope) (p : pool) (n : nat) : list pidx -> list (pidx * list typeid) -> Prop :=
| elig_nil : elig s p n [] []
| elig_in f fs types el : accepts p f n -> param_types s p f types -> elig s p n fs el ->
    elig s p n (f :: fs) ((f, types) :: el)
| elig_out f fs el : ~ accepts p f n -> elig s p n fs el -> elig s p n (f :: fs) el.

Lemma eligible_loop_spec s p n sp cands : forall el errs,
  eligible_loop s p n sp cands = Done (el, errs) -> elig s p n cands el.
Proof.
  induction cands as [|f cands IH]; intros el errs; cbn [eligible_loop].
  - intros [= <- <-]. constructor.
  - destruct (validate_call s p f n sp) as [[f' types]|[e|e]] eqn:E.
    + apply validate_call_done in E as (-> & H1 & H2).
      destruct (eligible_loop s p n sp cands) as [[el' errs']|]; cbn; [|discriminate].
      intros [= <- <-]. constructor; eauto.
    + apply validate_call_mismatch in E.
      destruct (eligible_loop s p n sp cands) as [[el' errs']|]; cbn; [|discriminate].
      intros [= <- <-]. constructor; eauto.
    + discriminate.
Qed.

Lemma eligible_loop_total st n sp cands : known_before st cands ->
  exists el errs, eligible_loop (ts_scope st) (ts_pool st) n sp cands = Done (el, errs).
Proof.
  induction cands as [|f cands IH]; intros H; cbn [eligible_loop]; [eauto|].
  destruct IH as (el & errs & IH); [intros g Hg; apply H; now right|].
  destruct (H f (or_introl eq_refl)) as (types & Ht).
  destruct (validate_call _ _ f n sp) as [[f' ts]|[e|e]] eqn:E; rewrite ?IH; cbn; eauto.
  exfalso. revert E. unfold validate_call. destruct Ht as (fn & Ef & Hf). rewrite Ef. cbn.
  destruct (_ || _); [discriminate|]. apply (param_types_mapM _ _ sp) in Hf. rewrite Hf. discriminate.
Qed.

Lemma elig_split s p n fs el : elig s p n fs el -> forall f types el1 el2, el = el1 ++ (f, types) :: el2 ->
  exists a b, fs = a ++ f :: b /\ elig s p n a el1 /\ elig s p n b el2 /\ accepts p f n /\ param_types s p f types.
Proof.
  induction 1 as [|f fs types el Ha Ht He IH|f fs el Hn He IH]; intros g ts el1 el2 E.
  - destruct el1; discriminate.
  - destruct el1 as [|x el1]; cbn in E; inversion E; subst; clear E.
    + exists [], fs. cbn. repeat (split; [constructor || assumption || reflexivity|]); auto.
    + destruct (IH _ _ _ _ eq_refl) as (a & b & -> & H1 & H2 & H3). exists (f :: a), b.
      split; [reflexivity|]. split; [now constructor|]. auto.
  - destruct (IH _ _ _ _ E) as (a & b & -> & H1 & H2 & H3). exists (f :: a), b.
    split; [reflexivity|]. split; [now apply elig_out|]. auto.
Qed.
Lemma elig_nil_inv s p n fs : elig s p n fs [] -> forall g, In g fs -> ~ accepts p g n.
Proof. intros H. remember [] as el. induction H; subst; [easy|discriminate|]. intros g [<-|Hg]; auto. Qed.
Lemma elig_in_or s p n fs el g : elig s p n fs el -> In g fs ->
  ~ accepts p g n \/ (exists types, In (g, types) el /\ accepts p g n /\ param_types s p g types).
Proof.
  induction 1 as [|f fs types el Ha Ht He IH|f fs el Hn He IH]; [easy| |]; intros [<-|Hg].
  - right. exists types. split; [now left|auto].
  - destruct (IH Hg) as [|(ts & H1 & H2)]; [auto|]. right. exists ts. split; [now right|assumption].
  - now left.
  - auto.
Qed.
Lemma elig_only s p n fs el : elig s p n fs el ->
  (exists a f b, fs = a ++ f :: b /\ accepts p f n /\ forall g, In g (a ++ b) -> ~ accepts p g n) ->
  exists x, el = [x].
Proof.
  induction 1 as [|f fs types el Ha Ht He IH|f fs el Hn He IH]; intros (a & g & b & E & Hg & Hr).
  - destruct a; discriminate.
  - destruct a as [|x a]; cbn in E; injection E as E1 E2.
    + subst g fs. exists (f, types). f_equal. destruct el as [|[h th] el]; [reflexivity|exfalso].
      destruct (elig_split _ _ _ _ _ He h th [] el eq_refl) as (a' & b' & -> & _ & _ & Hh & _).
      apply (Hr h); [cbn; rewrite in_app_iff; cbn; auto|assumption].
    + subst x fs. exfalso. apply (Hr f); [now left|assumption].
  - destruct a as [|x a]; cbn in E; injection E as E1 E2.
    + subst g. contradiction.
    + subst x fs. apply IH. exists a, g, b. split; [reflexivity|]. split; [assumption|]. intros h Hh. apply Hr. now right.
Qed.

Lemma Forall2_len {A B} (R : A -> B -> Prop) l m : Forall2 R l m -> length l = length m.
Proof. induction 1; cbn; lia. Qed.
Lemma params_length s p f types n : param_types s p f types -> accepts p f n -> (n <= length types)%nat.
Proof.
  intros (fn & E & Hf) (fn' & k & E' & _ & _ & H). assert (fn' = fn) by congruence. subst fn'.
  apply Forall2_len in Hf. lia.
Qed.
Lemma params_det s p f t1 t2 : param_types s p f t1 -> param_types s p f t2 -> t1 = t2.
Proof.
  intros (fn & E & H1) (fn' & E' & H2). assert (fn' = fn) by congruence. subst fn'.
  revert t2 H2. induction H1 as [|i t is ts (q & Eq & Et) H1 IH]; intros t2 H2; inversion H2; subst; [reflexivity|].
  destruct H3 as (q' & Eq' & Et'). assert (q' = q) by congruence. subst q'. f_equal; [congruence|now apply IH].
Qed.

Lemma check_zip_checks rec : forall args types st xs st', (length args <= length types)%nat ->
  check_zip rec args types st = Done (xs, st') <-> checks rec args (map Some (firstn (length args) types)) st xs st'.
Proof.
  induction args as [|a args IH]; intros types st xs st' Hl.
  - cbn. destruct types; (split; [intros [= <- <-]; constructor|intros H; inversion H; reflexivity]).
  - destruct types as [|t types]; [cbn in Hl; lia|]. cbn [check_zip firstn length map]. unfold mbind, mret. split.
    + destruct (rec a (Some t) st) as [[x st1]|] eqn:E; [|discriminate].
      destruct (check_zip rec args types st1) as [[ys st2]|] eqn:E'; [|discriminate].
      intros [= <- <-]. econstructor; [eassumption|]. apply IH; [cbn in Hl; lia|assumption].
    + intros H. inversion H as [|? ? ? ? ? x st1 ys ? Hx Hs]; subst. rewrite Hx. apply IH in Hs; [|cbn in Hl; lia]. now rewrite Hs.
Qed.
Lemma mmap_checks rec : forall args st xs st',
  mmap (fun e => rec e None) args st = Done (xs, st') <-> checks rec args (repeat None (length args)) st xs st'.
Proof.
  induction args as [|a args IH]; intros st xs st'.
  - cbn. split; [intros [= <- <-]; constructor|intros H; inversion H; reflexivity].
  - cbn [mmap repeat length]. unfold mbind, mret. split.
    + destruct (rec a None st) as [[x st1]|] eqn:E; [|discriminate].
      destruct (mmap _ args st1) as [[ys st2]|] eqn:E'; [|discriminate].
      intros [= <- <-]. econstructor; [eassumption|]. now apply IH.
    + intros H. inversion H as [|? ? ? ? ? x st1 ys ? Hx Hs]; subst. rewrite Hx. apply IH in Hs. now rewrite Hs.
Qed.
Lemma checks_length rec args ws st xs st' : checks rec args ws st xs st' -> length xs = length args /\ length ws = length args.
Proof. induction 1; cbn; lia. Qed.
Lemma checks_det rec args ws st xs st' : checks rec args ws st xs st' -> forall ys st2, checks rec args ws st ys st2 -> xs = ys /\ st' = st2.
Proof.
  induction 1; intros ys st' H'; inversion H'; subst; [auto|].
  match goal with E : rec a w st = Done (?y, ?z) |- _ =>
    match goal with E' : checks rec args ws z _ _ |- _ => rewrite H in E; injection E as <- <-; apply IHchecks in E' as [-> ->] end end. auto.
Qed.

Definition zip_conv := zip_with (fun (e : texpr) c => insert_conversion e (ac_target c) (ac_conversion c)).

Lemma validate_list_spec s p : forall xs types k, (length xs <= length types)%nat -> grounded_types s p xs ->
  match validate_arg_list s p k xs types with
  | Done cs => converted s p xs types (zip_conv xs cs)
  | Fail (MatchError _) => forall ys, ~ converted s p xs types ys
  | Fail (Other _) => exists x t, In x xs /\ In t types /\
      ~ ((exists a n, type_of x s p = Done a /\ ti_pretty p a = Done n) /\ exists n, ti_pretty p t = Done n)
  end.
Proof.
  induction xs as [|x xs IH]; intros types k Hl Hg; cbn [validate_arg_list].
  - constructor.
  - destruct types as [|t types]; [cbn in Hl; lia|]. unfold validate_arg.
    destruct (type_of x s p) as [a|] eqn:Ex; cbn.
    2:{ exists x, t. cbn. split; [auto|]. split; [auto|]. intros ((a & n & H & _) & _). congruence. }
    destruct (find_conversion_ok p t a) as (r & Er & Hr); [apply (Hg x); [now left|assumption]|].
    rewrite Er. cbn.
    destruct r as [c|]; cbn.
    + specialize (IH types (S k)). destruct (validate_arg_list s p (S k) xs types) as [cs|[e|e]]; cbn.
      * constructor 2 with (a := a); [assumption|now apply Hr|]. apply IH; [cbn in Hl; lia|]. intros y u Hy. apply Hg. now right.
      * intros ys H. inversion H; subst. eapply IH; [cbn in Hl; lia| |eassumption]. intros y u Hy. apply Hg. now right.
      * destruct IH as (y & u & Hy & Hu & H); [cbn in Hl; lia|intros y u Hy; apply Hg; now right|].
        exists y, u. split; [now right|]. split; [now right|assumption].
    + destruct (ti_pretty p a) as [n1|] eqn:E1; cbn.
      2:{ exists x, t. cbn. split; [auto|]. split; [auto|]. intros ((a' & n & H & H') & _). congruence. }
      destruct (ti_pretty p t) as [n2|] eqn:E2; cbn.
      2:{ exists x, t. cbn. split; [auto|]. split; [auto|]. intros (_ & n & H). congruence. }
      intros ys H. inversion H; subst. assert (a0 = a) by congruence. subst a0. apply Hr in H6. discriminate.
Qed.

Lemma validate_args_spec s p f xs types wanted sp : (length xs <= length types)%nat -> grounded_types s p xs ->
  (forall fn r t, get_function p f = Done fn -> fu_return_type fn = Some r -> resolve_type_from_pool s p r = Done t -> grounded p t) ->
  match validate_args s p f xs types wanted sp with
  | Done cs => converted s p xs types (zip_conv xs cs) /\ returns_wanted s p f wanted
  | Fail (MatchError _) => forall ys, ~ (converted s p xs types ys /\ returns_wanted s p f wanted)
  | Fail (Other _) =>
      (forall fn, get_function p f <> Done fn) \/
      (exists x t, In x xs /\ In t types /\
         ~ ((exists a n, type_of x s p = Done a /\ ti_pretty p a = Done n) /\ exists n, ti_pretty p t = Done n)) \/
      (exists fn w, get_function p f = Done fn /\ wanted = Some w /\ get_flag fn_is_cast (fu_flags fn) = true /\
         ~ ((exists r t n, fu_return_type fn = Some r /\ resolve_type_from_pool s p r = Done t /\ ti_pretty p t = Done n) /\
            exists n, ti_pretty p w = Done n))
  end.
Proof.
  intros Hl Hg Hret. unfold validate_args.
  pose proof (validate_list_spec s p xs types 0 Hl Hg) as HL.
  destruct (get_function p f) as [fn|] eqn:Ef; cbn [obind oth pe map_err failc with_span]; [|left; discriminate].
  assert (Hjoin : returns_wanted s p f wanted ->
    match validate_arg_list s p 0 xs types with
    | Done cs => converted s p xs types (zip_conv xs cs) /\ returns_wanted s p f wanted
    | Fail (MatchError _) => forall ys, ~ (converted s p xs types ys /\ returns_wanted s p f wanted)
    | Fail (Other _) => (forall fn', Done fn <> Done fn' :> outcome pool_error function) \/
      (exists x t, In x xs /\ In t types /\
         ~ ((exists a n, type_of x s p = Done a /\ ti_pretty p a = Done n) /\ exists n, ti_pretty p t = Done n)) \/
      (exists fn' w, Done fn = Done fn' :> outcome pool_error function /\ wanted = Some w /\ get_flag fn_is_cast (fu_flags fn') = true /\
         ~ ((exists r t n, fu_return_type fn' = Some r /\ resolve_type_from_pool s p r = Done t /\ ti_pretty p t = Done n) /\
            exists n, ti_pretty p w = Done n)) end).
  { intros Hw. destruct (validate_arg_list s p 0 xs types) as [cs|[e|e]]; [auto| |auto].
    intros ys [H _]. exact (HL ys H). }
  destruct wanted as [w|]; cbn [obind oth pe map_err failc with_span]; [|apply Hjoin; exact I].
  destruct (get_flag fn_is_cast (fu_flags fn)) eqn:Ec; cbn [obind oth pe map_err failc with_span].
  2:{ apply Hjoin. cbn [returns_wanted]. intros fn' E. congruence. }
  destruct (fu_return_type fn) as [r|] eqn:Er; cbn [obind oth pe map_err failc with_span].
  2:{ right. right. exists fn, w. repeat (split; [assumption || reflexivity|]). intros ((r & t & n & H & _) & _). congruence. }
  unfold pool_type, with_span. destruct (resolve_type_from_pool s p r) as [t|] eqn:Et; cbn [obind oth pe map_err failc with_span].
  2:{ right. right. exists fn, w. repeat (split; [assumption || reflexivity|]). intros ((r' & t & n & H & H' & _) & _). congruence. }
  destruct (find_conversion_ok p w t) as (c & Efc & Hc); [now apply (Hret fn r t)|].
  rewrite Efc. cbn [obind oth map_err]. destruct c as [c|].
  - apply Hjoin. cbn [returns_wanted]. intros fn' E _. exists r, t, c. replace fn' with fn by congruence.
    split; [assumption|]. split; [assumption|]. now apply Hc.
  - destruct (ti_pretty p w) as [n1|] eqn:E1; cbn [obind oth pe map_err failc with_span].
    2:{ right. right. exists fn, w. repeat (split; [assumption || reflexivity|]). intros (_ & n & H). congruence. }
    destruct (ti_pretty p t) as [n2|] eqn:E2; cbn [obind oth pe map_err failc with_span].
    2:{ right. right. exists fn, w. repeat (split; [assumption || reflexivity|]). intros ((r' & t' & n & H & H' & H'') & _). congruence. }
    intros ys [_ H]. destruct (H fn Ef Ec) as (r' & t' & c & E1' & E2' & Hcv).
    assert (r' = r) by congruence. subst r'. assert (t' = t) by congruence. subst t'. apply Hc in Hcv. discriminate.
Qed.

(** * The result of picking *)

Lemma matches_loop_spec s p xs wanted sp : grounded_types s p xs -> forall el ms errs,
  (forall f types, In (f, types) el -> (length xs <= length types)%nat) ->
  grounded_returns s p (map fst el) ->
  matches_loop s p xs wanted sp el = Done (ms, errs) ->
  match ms with
  | [] => forall f types ys, In (f, types) el -> ~ (converted s p xs types ys /\ returns_wanted s p f wanted)
  | (f, cs) :: _ => exists a types b, el = a ++ (f, types) :: b /\
      converted s p xs types (zip_conv xs cs) /\ returns_wanted s p f wanted /\
      forall g ts ys, In (g, ts) a -> ~ (converted s p xs ts ys /\ returns_wanted s p g wanted)
  end.
Proof.
  intros Hg. induction el as [|[f types] el IH]; intros ms errs Hl Hr; cbn [matches_loop].
  - intros [= <- <-]. easy.
  - pose proof (validate_args_spec s p f xs types wanted sp (Hl f types (or_introl eq_refl)) Hg) as V.
    assert (forall fn r t, get_function p f = Done fn -> fu_return_type fn = Some r -> resolve_type_from_pool s p r = Done t -> grounded p t) as Hret.
    { intros fn r t. apply (Hr f fn r t). now left. }
    specialize (V Hret).
    assert (Hl' : forall g ts, In (g, ts) el -> (length xs <= length ts)%nat) by (intros g ts H; apply (Hl g ts); now right).
    assert (Hr' : grounded_returns s p (map fst el)) by (intros g fn r t H; apply (Hr g fn r t); now right).
    destruct (validate_args s p f xs types wanted sp) as [cs|[e|e]]; [| |discriminate].
    + destruct (matches_loop s p xs wanted sp el) as [[ms' errs']|]; cbn; [|discriminate]. intros [= <- <-].
      exists [], types, el. split; [reflexivity|]. split; [apply V|]. split; [apply V|]. intros g ts ys [].
    + destruct (matches_loop s p xs wanted sp el) as [[ms' errs']|] eqn:E; cbn; [|discriminate]. intros [= <- <-].
      specialize (IH _ _ Hl' Hr' eq_refl). destruct ms' as [|[g cs] ms'].
      * intros h ts ys [[= <- <-]|H]; [apply V|now apply IH].
      * destruct IH as (a & ts & b & -> & H1 & H2 & H3). exists ((f, types) :: a), ts, b.
        split; [reflexivity|]. split; [assumption|]. split; [assumption|].
        intros h ts' ys [[= <- <-]|H]; [apply V|now apply (H3 h ts')].
Qed.

Lemma matches_loop_total st st' n xs wanted sp cands el : grounded_types (ts_scope st') (ts_pool st') xs ->
  grounded_returns (ts_scope st') (ts_pool st') cands ->
  known_after st st' cands xs wanted -> elig (ts_scope st) (ts_pool st) n cands el -> length xs = n ->
  exists ms errs, matches_loop (ts_scope st') (ts_pool st') xs wanted sp el = Done (ms, errs).
Proof.
  intros Hg Hgr (K1 & K2 & K3 & K4) He Hn. induction He as [|f fs types el Ha Ht He IH|f fs el Hno He IH]; cbn [matches_loop]; [eauto| |].
  - destruct IH as (ms & errs & IH).
    { intros g fn r t Hi. apply (Hgr g fn r t). now right. }
    { intros g Hi. apply K2. now right. }
    { intros g ts t Hi. apply K3. now right. }
    pose proof (validate_args_spec (ts_scope st') (ts_pool st') f xs types wanted sp) as V.
    assert (length xs <= length types)%nat as Hl by (rewrite Hn; eapply params_length; eauto).
    specialize (V Hl Hg (fun fn r t => Hgr f fn r t (or_introl eq_refl))).
    destruct (validate_args _ _ f xs types wanted sp) as [cs|[e|e]]; rewrite ?IH; cbn; eauto.
    exfalso. destruct (K2 f (or_introl eq_refl)) as (fn & Ef & Hc).
    destruct V as [V|[(x & t & Hx & Hti & V)|(fn' & w & Ef' & -> & Hcast & V)]].
    + now apply (V fn).
    + apply V. split.
      * destruct (K1 x Hx) as (a & m & H1 & H2). eauto.
      * apply (K3 f types t); [now left|assumption|assumption].
    + assert (fn' = fn) by congruence. subst fn'. apply V. split; [|exact K4].
      destruct (Hc Hcast) as (r & t & m & H). eauto.
  - apply IH.
    + intros g fn r t Hi. apply (Hgr g fn r t). now right.
    + intros g Hi. apply K2. now right.
    + intros g ts t Hi. apply K3. now right.
Qed.
