(** Where errors of the type checker, of desugaring, of the checks and of the assembler are
    reported: at places of the expressions they are given. *)
From Coq Require Import ZArith List Bool Lia.
From Verif Require Import Bytes Bytecode Definitions Bundle Ast TypeNames Pool Scope TypeCheck Symbols SourceMap Cursor Assembler Desugar Diagnostics Report Unit PlaceSpec.
Import ListNotations.
Open Scope Z_scope.

Lemma All_in {A} (P : A -> Prop) l : All P l <-> forall x, In x l -> P x.
Proof. induction l as [|a l IH]; cbn; [tauto|]. rewrite IH. split; [intros (?&?) ? [<-|?]; auto|intros H; split; auto]. Qed.
Lemma All_app {A} (P : A -> Prop) a b : All P (a ++ b) <-> All P a /\ All P b.
Proof. induction a as [|x a IH]; cbn; [tauto|]. rewrite IH. tauto. Qed.
Lemma All_impl {A} (P Q : A -> Prop) l : (forall x, P x -> Q x) -> All P l -> All Q l.
Proof. intros H. induction l; cbn; [auto|]. intros (?&?); auto. Qed.

Section Places.
Variable P : span -> Prop.
Notation here := (placed P).
(** Results that are errors at good places only. *)
Definition ok {A} (Q : A -> Prop) (m : outcome error A) : Prop := match m with Done a => Q a | Fail e => error_placed P e end.
Definition any {A} (_ : A) : Prop := True.

Lemma ok_bind {A B} (Q : A -> Prop) (R : B -> Prop) m k : ok Q m -> (forall a, Q a -> ok R (k a)) -> ok R (obind m k).
Proof. destruct m; cbn; auto. Qed.
Lemma ok_weaken {A} (Q R : A -> Prop) m : ok Q m -> (forall a, Q a -> R a) -> ok R m.
Proof. destruct m; cbn; auto. Qed.
Lemma ok_any {A} (Q : A -> Prop) m : ok Q m -> ok any m.
Proof. destruct m; cbn; unfold any; auto. Qed.
Lemma ok_pe {A} (m : outcome pool_error A) : ok any (pe m).
Proof. destruct m; cbn; exact I. Qed.
Lemma ok_span {A} sp (m : outcome cause A) : P sp -> ok any (with_span sp m).
Proof. intros H. destruct m as [|c]; cbn; [exact I|]. destruct c; cbn; auto. Qed.
Lemma ok_failc {A} sp c (Q : A -> Prop) : P sp -> ok Q (failc sp c).
Proof. intros H. unfold failc. destruct c; cbn; auto. Qed.
Lemma ok_mapM {A B} (f : A -> outcome error B) (Q : A -> Prop) l : (forall a, Q a -> ok any (f a)) -> All Q l -> ok any (mapM f l).
Proof.
  intros H. induction l as [|a l IH]; cbn; [intros; exact I|]. intros (X & Y). eapply ok_bind; [exact (H _ X)|]. intros b _.
  eapply ok_bind; [exact (IH Y)|]. intros; exact I.
Qed.
Lemma all_any {A} (l : list A) : All any l. Proof. induction l; cbn; unfold any; auto. Qed.

Lemma here_span {N} (e : expr N) : here e -> P (expr_span e).
Proof. destruct e; cbn; tauto. Qed.
Lemma ok_upcast p : forall n a b, ok any (upcast n p a b).
Proof.
  induction n as [|n IH]; intros a b; cbn; [exact I|]. destruct (a =? b); [exact I|]. eapply ok_bind; [apply ok_pe|]. intros c _.
  destruct (negb _); [apply IH|exact I].
Qed.
Lemma ok_conversion p : forall b a, ok any (find_conversion p a b).
Proof.
  induction b; intros a; cbn [find_conversion]; destruct (typeid_eqb a _); try exact I; destruct a; try exact I;
    try (apply ok_upcast); try (eapply ok_bind; [apply IHb|intros; exact I]).
Qed.
Lemma ok_type : forall e s p, here e -> ok any (type_of e s p).
Proof.
  induction e using expr_ind'; intros sc0 pl0 HH; cbn in HH; cbn [type_of];
    repeat match goal with H : _ /\ _ |- _ => destruct H end; try exact I; try (apply ok_failc; assumption); try (apply ok_span; assumption).
  - destruct r as [[]|[]]; try exact I; try (apply ok_failc; assumption); (eapply ok_bind; [apply ok_pe|]; intros; apply ok_span; assumption).
  - destruct t; exact I.
  - eapply ok_bind; [apply IHe; assumption|]. intros ty _; destruct ty; exact I.
  - destruct c; [|exact I]. eapply ok_bind; [apply ok_pe|]. intros fn _. destruct (fu_return_type fn); [apply ok_span; assumption|exact I].
  - eapply ok_bind; [apply ok_pe|]. intros fn _. destruct (fu_return_type fn); [apply ok_span; assumption|exact I].
  - destruct m; try exact I; (eapply ok_bind; [apply ok_pe|]; intros; apply ok_span; assumption).
  - eapply ok_bind; [apply IHe1; assumption|]. intros ty _; destruct ty; try exact I; (eapply ok_bind; [apply ok_pe|]; intros; apply ok_failc; assumption).
  - destruct t; try exact I; (eapply ok_bind; [apply ok_pe|]; intros; apply ok_failc; assumption).
  - eapply ok_bind; [apply IHe2; assumption|]. intros. eapply ok_bind; [apply IHe3; assumption|]. intros. apply ok_span; assumption.
  - destruct (sc_this sc0); [exact I|apply ok_failc; assumption].
  - destruct (sc_this sc0); [eapply ok_bind; [apply ok_pe|]; intros; exact I|apply ok_failc; assumption].
Qed.
Lemma here_convert e t c : here e -> here (insert_conversion e t c).
Proof. intros H. pose proof (here_span _ H). destruct c; cbn; auto. Qed.
Lemma here_strengthen e t : here e -> here (strengthen e t).
Proof. intros H. destruct t; cbn [strengthen]; auto. now apply here_convert. Qed.

(** * The type checker *)
Definition calm_state (t : tstate) : Prop := All (diag_placed P) (ts_diags t).
Definition okM {A} (Q : A -> Prop) (m : M A) : Prop := forall t, calm_state t -> ok (fun r => Q (fst r) /\ calm_state (snd r)) (m t).
Lemma M_ret {A} (a : A) (Q : A -> Prop) : Q a -> okM Q (mret a).
Proof. intros H t C. cbn. auto. Qed.
Lemma M_bind {A B} (Q : A -> Prop) (R : B -> Prop) m k : okM Q m -> (forall a, Q a -> okM R (k a)) -> okM R (mbind m k).
Proof. intros H K t C. unfold mbind. specialize (H t C). destruct (m t) as [[a t']|e]; cbn in *; [destruct H; exact (K _ H _ H0)|exact H]. Qed.
Lemma M_fail {A} e (Q : A -> Prop) : error_placed P e -> okM Q (mfail e).
Proof. intros H t C. exact H. Qed.
Lemma M_failc {A} sp c (Q : A -> Prop) : P sp -> okM Q (mfailc sp c).
Proof. intros H t C. now apply ok_failc. Qed.
Lemma M_read {A} (f : scope -> pool -> outcome error A) (Q : A -> Prop) : (forall s p, ok Q (f s p)) -> okM Q (reading f).
Proof. intros H t C. unfold reading. specialize (H (ts_scope t) (ts_pool t)). destruct (f _ _); cbn in *; auto. Qed.
Lemma M_push d : diag_placed P d -> okM any (push_diag d).
Proof. intros H t C. cbn. split; [exact I|]. unfold calm_state. cbn. apply All_app. cbn. auto. Qed.
Lemma M_report e : error_placed P e -> okM any (report e).
Proof. intros H. unfold report. destruct e; cbn; try (apply M_push; exact H); now apply M_fail. Qed.
Lemma M_scoped {A} (Q : A -> Prop) m : okM Q m -> okM Q (scoped m).
Proof. intros H t C. unfold scoped. specialize (H t C). destruct (m t) as [[a t']|e]; cbn in *; auto. Qed.
Lemma M_map {A B} (f : A -> M B) (Q : A -> Prop) (R : B -> Prop) l : (forall a, Q a -> okM R (f a)) -> All Q l -> okM (All R) (mmap f l).
Proof.
  intros H. induction l as [|a l IH]; cbn [mmap All]; [intros; now apply M_ret|]. intros (X & Y). eapply M_bind; [exact (H _ X)|]. intros b Hb.
  eapply M_bind; [exact (IH Y)|]. intros bs Hs. apply M_ret. cbn. auto.
Qed.
Definition opt_ok {A} (Q : A -> Prop) (o : option A) : Prop := match o with Some a => Q a | None => True end.
Lemma M_opt {A B} (f : A -> M B) (Q : A -> Prop) (R : B -> Prop) o : (forall a, Q a -> okM R (f a)) -> opt_ok Q o -> okM (opt_ok R) (mopt f o).
Proof. intros H. destruct o; cbn; intros X; [|now apply M_ret]. eapply M_bind; [exact (H _ X)|]. intros. now apply M_ret. Qed.
Lemma M_local n t sp : P sp -> okM any (add_local n t sp).
Proof.
  intros H st C. unfold add_local. destruct (add_name _ _) as [p1 i]. pose proof (ok_span sp (get_type_index t (ts_scope st) p1) H) as K.
  destruct (with_span sp _) as [[[ti s'] p2]|e]; cbn in *; [|exact K]. destruct (sc_function _); [|exact I]. cbn. split; [exact I|exact C].
Qed.
Lemma M_named {sp} n : P sp -> okM any (reading (fun s p => named_type s p sp n)).
Proof. intros H. apply M_read. intros. now apply ok_span. Qed.
Lemma M_pretty t : okM any (reading (fun _ p => pe (ti_pretty p t))).
Proof. apply M_read. intros. apply ok_pe. Qed.
Lemma M_type e : here e -> okM any (reading (type_of e)).
Proof. intros H. apply M_read. intros. now apply ok_type. Qed.

Definition okX {A} (Q : A -> Prop) (m : outcome matcher_error A) : Prop := match m with Done a => Q a | Fail (Other e) => error_placed P e | Fail _ => True end.
Lemma X_oth {A} (Q : A -> Prop) m : ok Q m -> okX Q (oth m).
Proof. destruct m; cbn; auto. Qed.
Lemma X_bind {A B} (Q : A -> Prop) (R : B -> Prop) m k : okX Q m -> (forall a, Q a -> okX R (k a)) -> okX R (obind m k).
Proof. destruct m as [|[]]; cbn; auto. Qed.
Lemma X_call s p f n sp : P sp -> okX any (validate_call s p f n sp).
Proof.
  intros H. unfold validate_call. eapply X_bind; [apply X_oth, ok_pe|]. intros fn _. destruct (_ || _); [exact I|].
  eapply X_bind; [|intros; exact I]. apply X_oth. eapply ok_mapM; [|apply all_any]. intros a _. eapply ok_bind; [apply ok_pe|]. intros. now apply ok_span.
Qed.
Lemma X_arg s p : forall es ts n, All here es -> okX any (validate_arg_list s p n es ts).
Proof.
  induction es as [|e es IH]; intros [|t ts] n H; try exact I. destruct H. cbn [validate_arg_list]. eapply (X_bind any); [|intros ? _; eapply X_bind; [now apply IH|intros; exact I]].
  unfold validate_arg. eapply X_bind; [apply X_oth, ok_type; assumption|]. intros a _. eapply X_bind; [apply X_oth, ok_conversion|]. intros [c|] _; [exact I|].
  eapply X_bind; [apply X_oth, ok_pe|]. intros. eapply X_bind; [apply X_oth, ok_pe|]. intros. exact I.
Qed.
Lemma X_args s p f es ts w sp : P sp -> All here es -> okX any (validate_args s p f es ts w sp).
Proof.
  intros H K. unfold validate_args. eapply X_bind; [apply X_oth, ok_pe|]. intros fn _. eapply (X_bind any); [|intros; now apply X_arg].
  destruct w as [w|]; [|exact I]. destruct (get_flag _ _); [|exact I]. eapply X_bind; [apply X_oth; instantiate (1 := any); destruct (fu_return_type fn); [exact I|now apply ok_failc]|].
  intros r _. eapply X_bind; [apply X_oth, ok_span, H|]. intros rt _. eapply X_bind; [apply X_oth, ok_conversion|]. intros [c|] _; [exact I|].
  eapply X_bind; [apply X_oth, ok_pe|]. intros. eapply X_bind; [apply X_oth, ok_pe|]. intros. exact I.
Qed.
Lemma ok_eligible s p n sp : P sp -> forall l, ok any (eligible_loop s p n sp l).
Proof.
  intros H. induction l as [|f l IH]; cbn; [exact I|]. pose proof (X_call s p f n sp H) as K. destruct (validate_call _ _ _ _ _) as [|[]]; cbn in K; [| |exact K];
    (eapply ok_bind; [exact IH|]; intros [] _; exact I).
Qed.
Lemma ok_matches s p es w sp : P sp -> All here es -> forall l, ok any (matches_loop s p es w sp l).
Proof.
  intros H K. induction l as [|[f ts] l IH]; cbn; [exact I|]. pose proof (X_args s p f es ts w sp H K) as X. destruct (validate_args _ _ _ _ _ _ _) as [|[]]; cbn in X; [| |exact X];
    (eapply ok_bind; [exact IH|]; intros [] _; exact I).
Qed.
Lemma here_zip es cs : All here es -> All here (zip_with (fun e c => insert_conversion e (ac_target c) (ac_conversion c)) es cs).
Proof. revert cs. induction es as [|e es IH]; intros [|c cs] H; cbn; auto. destruct H. split; [now apply here_convert|auto]. Qed.

Section Rec.
Variable rec : checker.
Hypothesis R : forall e t, here e -> okM here (rec e t).
Lemma M_convert e t : here e -> okM here (check_and_convert rec e t).
Proof.
  intros H. eapply M_bind; [now apply R|]. intros x X. eapply M_bind; [now apply M_type|]. intros a _. eapply M_bind; [apply M_read; intros; apply ok_conversion|].
  intros [c|] _; [apply M_ret; now apply here_convert|]. eapply M_bind; [apply M_pretty|]. intros. eapply M_bind; [apply M_pretty|]. intros.
  eapply M_bind; [apply M_report; cbn; now apply here_span|]. intros. now apply M_ret.
Qed.
Lemma M_seq es : All here es -> okM (All here) (check_seq rec es).
Proof. intros H. unfold check_seq. eapply M_map; [|exact H]. intros; now apply R. Qed.
Lemma M_zip es : forall ts, All here es -> okM (All here) (check_zip rec es ts).
Proof.
  induction es as [|e es IH]; intros [|t ts] H; cbn; try (now apply M_ret). destruct H. eapply M_bind; [now apply R|]. intros. eapply M_bind; [now apply IH|]. intros. apply M_ret. cbn; auto.
Qed.
Lemma M_pick n es w sp el errs : P sp -> All here es -> okM (fun r => match r with inl m => All here (snd m) | inr e => error_placed P e end) (pick_overload rec n es w sp el errs).
Proof.
  intros H K. assert (G : forall el, okM (fun r : pidx * list texpr + error => match r with inl m => All here (snd m) | inr e => error_placed P e end)
    (mbind (mmap (fun e => rec e None) es) (fun checked => mbind (reading (fun s p => matches_loop s p checked w sp el)) (fun '(ms, errs') =>
       match ms with [] => mret (inr (no_matching n (errs ++ errs') sp)) | (f, cs) :: _ => mret (inl (function_match f checked cs)) end)))).
  { intros el'. eapply M_bind; [eapply M_map; [|exact K]; intros; now apply R|]. intros xs X. eapply M_bind; [apply M_read; intros; now apply ok_matches|].
    intros [[|[f cs] ms] errs'] _; apply M_ret; [exact H|]. cbn. now apply here_zip. }
  destruct el as [|[f ts] [|y el]]; [exact (G [])| |exact (G ((f, ts) :: y :: el))]. clear G.
  unfold pick_overload. eapply M_bind; [now apply M_zip|]. intros xs X t C. pose proof (X_args (ts_scope t) (ts_pool t) f xs ts w sp H X) as Y.
  destruct (validate_args _ _ _ _ _ _ _) as [cs|[]]; cbn in *; (split; [|exact C]); auto. now apply here_zip.
Qed.
Lemma M_overload pm n os es w sp : P sp -> All here es -> okM (fun m => All here (snd m)) (resolve_overload pm rec n os es w sp).
Proof.
  intros H K. eapply M_bind; [apply M_read; intros; now apply ok_eligible|]. intros [el errs] _. eapply M_bind; [apply M_pick; assumption|].
  intros [m|e] X; [now apply M_ret|]. destruct pm; [|now apply M_fail]. eapply M_bind; [now apply M_report|]. intros _ _.
  eapply M_bind; [eapply M_map; [|exact K]; intros; now apply R|]. intros ds D. destruct os; [now apply M_fail|]. apply M_ret. cbn. now apply here_zip.
Qed.
Lemma arg_here (es : list sexpr) n : All here es -> (n < length es)%nat -> here (nth n es (ENull span0)).
Proof. intros H L. apply (proj1 (All_in _ _) H). now apply nth_In. Qed.
Ltac prim := first [apply M_pretty | apply M_named; assumption | apply M_convert; assumption | apply R; assumption | apply M_type; assumption
  | apply M_read; intros; first [apply ok_pe | apply ok_span; assumption | apply ok_conversion]].
Ltac step := match goal with
  | |- okM _ (mbind _ _) => eapply M_bind; [prim|intros ? ?]
  | |- okM _ (mret _) => apply M_ret; first [exact I | cbn; auto]
  | |- okM _ (mfailc _ _) => apply M_failc; assumption
  end.
Lemma M_intrinsic i es w sp : P sp -> All here es -> okM here (check_intrinsic rec i es w sp).
Proof.
  intros H K. unfold check_intrinsic. destruct (length es =? arg_count i)%nat eqn:L; cbn [negb]; [|now apply M_failc]. apply Nat.eqb_eq in L.
  assert (A0 : (1 <= arg_count i)%nat) by (destruct i; cbn; lia).
  assert (X0 : here (nth 0 es (ENull span0))) by (apply arg_here; [exact K|lia]).
  assert (X1 : (2 <= arg_count i)%nat -> here (nth 1 es (ENull span0))) by (intros; apply arg_here; [exact K|lia]).
  assert (X2 : (3 <= arg_count i)%nat -> here (nth 2 es (ENull span0))) by (intros; apply arg_here; [exact K|lia]).
  eapply M_bind; [now apply R|]. intros first F. eapply M_bind; [now apply M_type|]. intros ft _.
  eapply (M_bind (fun r => All here (snd r))); [|intros [t xs] X; apply M_ret; cbn; auto].
  assert (D : forall n0 : str -> cause, okM (fun r : typeid * list texpr => All here (snd r)) (mbind (reading (fun _ p => pe (ti_pretty p ft))) (fun n => mfailc sp (n0 n)))).
  { intros c. repeat step. }
  destruct i; cbn [arg_count] in X1, X2; try specialize (X1 ltac:(lia)); try specialize (X2 ltac:(lia)); try (destruct ft; (apply D || (repeat step; fail)));
    try (repeat step; fail); try (destruct w as [[]|]; repeat step; fail).
  all: try (destruct ft; try apply D; repeat step; fail).
  all: try (destruct ft; try apply D; destruct w; repeat step; fail).
  all: eapply M_bind; [now apply R|]; intros x2 H2; eapply M_bind; [now apply M_type|]; intros st _;
    (eapply (M_bind any); [|intros _ _; repeat step]);
    intros ts C; destruct (lub (ts_pool ts) ft st) as [|c]; [now apply M_ret|]; destruct c; try (apply M_push; [exact H|exact C]); exact I.
Qed.
Lemma M_fields sp es : forall fs, P sp -> All here es -> okM (All here) (check_fields rec sp es fs).
Proof.
  induction es as [|e es IH]; intros [|f fs] H K; cbn [check_fields]; try (now apply M_ret). destruct K. step. step. step. eapply M_bind; [now apply IH|]. intros. apply M_ret. cbn; auto.
Qed.
Lemma ok_lubs s p sp : P sp -> forall es a, All here es -> ok any (lub_fold s p sp a es).
Proof.
  intros H. induction es as [|e es IH]; intros a K; cbn; [exact I|]. destruct K. eapply ok_bind; [now apply ok_type|]. intros. eapply ok_bind; [now apply ok_span|]. intros. now apply IH.
Qed.
Lemma M_step pm e w : here e -> okM here (check_step pm rec e w).
Proof.
  destruct e; intros H; cbn in H; repeat match goal with H : _ /\ _ |- _ => destruct H end; cbn [check_step]; try (apply M_ret; cbn; auto; fail).
  - intros t C. destruct (resolve_reference _ _) as [|c]; [cbn; auto|]. destruct pm; [|now apply ok_failc].
    refine (M_bind any here (report (CompileError c sp)) (fun _ => mret (ENull sp)) _ _ t C); [now apply M_report|]. intros; now apply M_ret.
  - destruct w; repeat step.
  - destruct es as [|x es].
    + destruct w as [[]|]; repeat step.
    + eapply M_bind; [eapply M_map; [|exact H0]; intros a A; destruct w as [[]|]; first [now apply R|now apply M_convert]|].
      intros [|y ys] Y; [now apply M_fail|]. destruct Y as (Y0 & Y1). step. eapply M_bind; [apply M_read; intros; now apply ok_lubs|]. intros. apply M_ret. cbn; auto.
  - eapply M_bind; [eapply (M_map _ (fun x => here (fst x)) (fun x => here (fst x))); [|exact H0]; intros [a b] A; eapply M_bind; [now apply R|]; intros; now apply M_ret|].
    intros. apply M_ret. cbn; auto.
  - eapply (M_bind (fun r => opt_ok here (fst r))).
    + destruct t; destruct init; repeat step.
    + intros [o t'] O. eapply M_bind; [now apply M_local|]. intros. apply M_ret. cbn; auto.
  - step. step. step. apply M_ret. cbn. split; [assumption|now apply here_strengthen].
  - repeat step.
  - eapply (M_bind any); [destruct targs as [|? []]; repeat step|]. intros w' _.
    destruct (intrinsic_of_name _); [now apply M_intrinsic|]. step. eapply M_bind; [now apply M_overload|]. intros [f xs] X. apply M_ret. cbn; auto.
  - step. step. eapply (M_bind any); [destruct (ti_unwrapped _); repeat step|]. intros k _. step. eapply M_bind; [now apply M_overload|]. intros [f' xs] X. apply M_ret. cbn. auto using here_strengthen.
  - step. step. eapply (M_bind any); [destruct (ti_unwrapped _); repeat step|]. intros k _. apply M_ret. cbn. auto using here_strengthen.
  - repeat step.
  - step. destruct a; try (apply M_failc; assumption).
    + step. destruct (get_flag _ _); [now apply M_failc|]. destruct args; [apply M_ret; cbn; auto|now apply M_failc].
    + step. destruct (negb _); [now apply M_failc|]. eapply M_bind; [now apply M_fields|]. intros. apply M_ret. cbn; auto.
  - eapply (M_bind any); [intros t C; destruct (sc_function _); [exact (M_read _ any (fun _ _ => ok_pe _) t C)|exact I]|]. intros f _.
    destruct e; destruct (fu_return_type f); repeat step.
  - destruct H.
  - step. eapply (M_bind any); [intros t C; pose proof (ok_type _ (ts_scope t) (ts_pool t) H3) as K; destruct (type_of _ _ _) as [|[]]; try exact I; (split; [exact I|exact C])|]. intros mt _.
    eapply M_bind; [eapply (M_map _ _ (fun c => here (fst c) /\ All here (snd c))); [|exact H1]; intros [ca cb] (X & Y); cbn [fst snd] in *;
      eapply M_bind; [now apply R|]; intros; eapply M_bind; [apply M_scoped; now apply M_seq|]; intros; now apply M_ret|].
    intros cs C. eapply M_bind; [eapply (M_opt _ (All here) (All here)); [intros; apply M_scoped; now apply M_seq|exact H2]|]. intros d D. apply M_ret. cbn. auto.
  - step. step. eapply M_bind; [apply M_scoped; now apply M_seq|]. intros. eapply M_bind; [eapply (M_opt _ (All here) (All here)); [intros; apply M_scoped; now apply M_seq|exact H2]|].
    intros. apply M_ret. cbn; auto.
  - repeat step.
  - step. step. eapply M_bind; [apply M_scoped; now apply M_seq|]. intros. apply M_ret. cbn; auto.
  - step. step. destruct a0; try (repeat step; fail).
    eapply (M_bind (fun r => All here (snd r))); [|intros [x b] B; apply M_ret; cbn; auto]. apply M_scoped. eapply M_bind; [now apply M_local|]. intros. eapply M_bind; [now apply M_seq|]. intros. now apply M_ret.
  - step. eapply M_bind; [apply M_overload; [assumption|cbn; auto]|]. intros [f xs] X. apply M_ret. cbn; auto.
  - step. eapply M_bind; [apply M_overload; [assumption|cbn; auto]|]. intros [f xs] X. apply M_ret. cbn; auto.
Qed.
End Rec.
Lemma M_check pm : forall n e w, here e -> okM here (check n pm e w).
Proof. induction n as [|n IH]; intros e w H; [intros t C; exact I|]. cbn [check]. now apply M_step. Qed.
End Places.
