(** Property C26. *)
From Coq Require Import String.
From Coq Require Import ZArith List Bool.
From Verif Require Import Bytes Bytecode Definitions Bundle Ast Pool Scope TypeCheck Report.
Import ListNotations.
Open Scope Z_scope.

(** The warnings, listed: everything else is fatal. *)
Inductive warning : diagnostic -> Prop :=
| w_replace f sp : warning (ReplaceMethodConflict f sp)
| w_field sp : warning (FieldConflict sp)
| w_deprecated d sp : warning (Deprecated d sp)
| w_unused sp : warning (UnusedLocal sp)
| w_return sp : warning (MissingReturn sp)
| w_add sp : warning (AddMethodConflict sp).

Lemma fatal_spec d : is_fatal d = false <-> warning d.
Proof. split; [destruct d; try discriminate; constructor|now intros []]. Qed.

(** [splits l ws es]: [ws] are the warnings of [l] and [es] the others, both in
    their order in [l]. *)
Inductive splits : list diagnostic -> list diagnostic -> list diagnostic -> Prop :=
| sp_nil : splits [] [] []
| sp_warning d l ws es : warning d -> splits l ws es -> splits (d :: l) (d :: ws) es
| sp_fatal d l ws es : ~ warning d -> splits l ws es -> splits (d :: l) ws (d :: es).

Lemma splits_filter l : splits l (filter (fun d => negb (is_fatal d)) l) (filter is_fatal l).
Proof.
  induction l as [|d l IH]; cbn [filter]; [constructor|].
  destruct (is_fatal d) eqn:E; cbn [negb]; constructor; auto.
  - rewrite <- fatal_spec. congruence.
  - now apply fatal_spec.
Qed.
Lemma splits_fun l ws es : splits l ws es -> ws = filter (fun d => negb (is_fatal d)) l /\ es = filter is_fatal l.
Proof.
  induction 1 as [|d l ws es W H [-> ->]|d l ws es W H [-> ->]]; cbn [filter]; [auto| |].
  - apply fatal_spec in W. rewrite W. auto.
  - rewrite <- fatal_spec in W. destruct (is_fatal d); [auto|congruence].
Qed.

Lemma sort_splits l : sort_diags l = filter (fun d => negb (is_fatal d)) l ++ filter is_fatal l.
Proof.
  induction l as [|d l IH]; [reflexivity|]. cbn [sort_diags filter]. rewrite IH.
  destruct (is_fatal d) eqn:E; cbn [negb].
  - assert (K : forall es, insert_diag d (filter (fun d => negb (is_fatal d)) l ++ es) =
                 filter (fun d => negb (is_fatal d)) l ++ insert_diag d es).
    { intros es. clear IH. induction l as [|x l IH]; [reflexivity|]. cbn [filter].
      destruct (is_fatal x) eqn:F; cbn [negb]; [exact IH|]. cbn [app insert_diag]. rewrite E, F. cbn. now rewrite IH. }
    rewrite K. f_equal. clear. destruct (filter is_fatal l) as [|x r] eqn:G; [reflexivity|]. cbn [insert_diag].
    assert (In x (filter is_fatal l)) as H by (rewrite G; now left). apply filter_In in H. destruct H as [_ ->].
    now rewrite andb_false_r.
  - cbn [app]. generalize (filter (fun d => negb (is_fatal d)) l ++ filter is_fatal l). intros r.
    destruct r; cbn [insert_diag]; [reflexivity|]. now rewrite E.
Qed.

Lemma log_all_known known l : (forall d, In d l -> known (diag_span d) = true) ->
  log_all known l = (map (fun d => if is_fatal d then LogError d else LogWarn d) l, Done tt).
Proof.
  induction l as [|d l IH]; intros H; [reflexivity|]. cbn [log_all]. unfold log_diag. rewrite (H d (or_introl eq_refl)).
  rewrite IH by (intros; apply H; now right). reflexivity.
Qed.

(** With [ws] the warnings and [es] the other diagnostics of a compilation, in
    the order they were found: the warnings are logged as warnings, then the
    others as errors; the result is Ok exactly if there are no others, and
    otherwise an error that lists the code and span of each of them, in order.
    The position of every diagnostic must be in one of the source files. *)
Theorem C26_report known ds ws es : splits ds ws es -> (forall d, In d ds -> known (diag_span d) = true) ->
  exists result, compile_and_report known (Done ds) = (map LogWarn ws ++ map LogError es, result) /\
    (es = [] -> result = Done ws) /\
    (es <> [] -> result = Fail (MultipleErrors (map (fun d => (diag_code d, diag_span d)) es))).
Proof.
  intros Hs Hk. destruct (splits_fun _ _ _ Hs) as [Hw He].
  cbn [compile_and_report]. rewrite sort_splits, <- Hw, <- He.
  rewrite log_all_known.
  2: { intros d K. apply Hk. apply in_app_iff in K. destruct K as [K|K]; subst; apply filter_In in K; tauto. }
  assert (W : forall d, In d ws -> is_fatal d = false)
    by (intros d K; rewrite Hw in K; apply filter_In in K; destruct K as [_ K]; now apply negb_true_iff in K).
  assert (F : forall d, In d es -> is_fatal d = true) by (intros d K; rewrite He in K; now apply filter_In in K).
  assert (Lg : map (fun d => if is_fatal d then LogError d else LogWarn d) (ws ++ es) = map LogWarn ws ++ map LogError es).
  { rewrite map_app. f_equal; apply map_ext_in; intros d K; [now rewrite W|now rewrite F]. }
  rewrite Lg. clear Lg.
  assert (X : existsb is_fatal (ws ++ es) = negb (match es with [] => true | _ => false end)).
  { destruct es as [|e es].
    - rewrite app_nil_r. apply not_true_is_false. intros K. apply existsb_exists in K. destruct K as (d & A & B).
      rewrite W in B by exact A. discriminate.
    - apply existsb_exists. exists e. split; [apply in_app_iff; right; now left|apply F; now left]. }
  assert (Y : filter is_fatal (ws ++ es) = es).
  { rewrite filter_app. replace (filter is_fatal ws) with (@nil diagnostic).
    - clear -F. cbn [app]. induction es as [|e es IH]; [reflexivity|]. cbn [filter]. rewrite F by now left. f_equal. apply IH.
      intros; apply F; now right.
    - symmetry. clear -W. induction ws as [|e es IH]; [reflexivity|]. cbn [filter]. rewrite W by now left. apply IH.
      intros; apply W; now right. }
  rewrite X, Y. destruct es; cbn [negb]; (eexists; split; [reflexivity|]); (split; intros K; try congruence).
  now rewrite app_nil_r.
Qed.
Print Assumptions C26_report.

(** A compilation stopped by an error is never reported as Ok: an error with a
    position is logged and listed on its own, any other is passed on. *)
Theorem C26_stopped known err : exists evs e, compile_and_report known (Fail err) = (evs, Fail e) /\
  match err with
  | SyntaxError sp => known sp = true -> evs = [LogError (DSyntaxError sp)] /\ e = MultipleErrors [(lit "OTHER", sp)]
  | CteError m sp => known sp = true -> evs = [LogError (DCteError m sp)] /\ e = MultipleErrors [(lit "OTHER", sp)]
  | CompileError c sp => known sp = true -> evs = [LogError (DCompileError c sp)] /\ e = MultipleErrors [(cause_code c, sp)]
  | _ => evs = [LogUnexpected err] /\ e = err
  end.
Proof.
  destruct err; cbn [compile_and_report diag_from_error]; unfold log_diag; cbn [diag_span is_fatal].
  all: try (eexists _, _; split; [reflexivity|auto]; fail).
  all: destruct (known sp); eexists _, _; (split; [reflexivity|intros; auto; discriminate]).
Qed.
Print Assumptions C26_stopped.

Example C26_example :
  exists ws es, splits [DCteError (lit "x") (Span 1 2); UnusedLocal (Span 3 4); StatementFallthrough (Span 5 6); FieldConflict (Span 7 8)] ws es /\
  compile_and_report (fun _ => true) (Done [DCteError (lit "x") (Span 1 2); UnusedLocal (Span 3 4); StatementFallthrough (Span 5 6); FieldConflict (Span 7 8)]) =
  ([LogWarn (UnusedLocal (Span 3 4)); LogWarn (FieldConflict (Span 7 8)); LogError (DCteError (lit "x") (Span 1 2));
    LogError (StatementFallthrough (Span 5 6))], Fail (MultipleErrors [(lit "OTHER", Span 1 2); (lit "OTHER", Span 5 6)])).
Proof. do 2 eexists. split; [apply splits_filter|]. vm_compute. reflexivity. Qed.
