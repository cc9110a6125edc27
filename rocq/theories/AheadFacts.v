(** In the label stream of a body, conditional jumps, switches and case labels
    refer to labels that are placed after them. *)
From Coq Require Import ZArith List Bool Lia.
From Verif Require Import Bytes BytesFacts Bytecode BytecodeFacts Ast Pool Scope TypeCheck Cursor Assembler AssemblerFacts PartsSpec
  LabelSpec LabelFacts.
Import ListNotations.
Open Scope Z_scope.

(** The labels that must lie ahead. *)
Definition later (i : instr label) : list nat :=
  match i with JumpIfFalse l | Switch _ l => [l] | SwitchLabel e s => [e; s] | _ => [] end.
Fixpoint ahead (P : nat -> Prop) (c : code label) : Prop :=
  match c with [] => True | i :: r => Forall (fun l => In (Target l) r \/ P l) (later i) /\ ahead P r end.
Definition nowhere (l : nat) : Prop := False.

Lemma ahead_weaken (P Q : nat -> Prop) c : (forall l, P l -> Q l) -> ahead P c -> ahead Q c.
Proof.
  intros H. induction c as [|i c IH]; [exact id|]. intros [A B]. split; [|apply IH, B].
  eapply Forall_impl; [|exact A]. cbn beta. intros l [?|?]; auto.
Qed.
Lemma ahead_app (P : nat -> Prop) c c' : ahead (fun l => In (Target l) c' \/ P l) c -> ahead P c' -> ahead P (c ++ c').
Proof.
  intros A B. induction c as [|i c IH]; [exact B|]. destruct A as [A A']. split; [|apply IH, A'].
  eapply Forall_impl; [|exact A]. cbn beta. intros l H. rewrite in_app_iff. tauto.
Qed.
Lemma ahead_any P c : ahead nowhere c -> ahead P c.
Proof. apply ahead_weaken. intros l []. Qed.
Lemma ahead_free P c : Forall label_free c -> ahead P c.
Proof.
  induction 1 as [|i c [H _] _ IH]; [exact I|]. split; [|exact IH]. destruct i; try discriminate H; constructor.
Qed.
Lemma ahead_nops P n : ahead P (repeat Nop n).
Proof. induction n; [exact I|]. split; [constructor|assumption]. Qed.

Ltac tin := repeat (rewrite in_app_iff || cbn [In]); tauto.
Ltac ahd :=
  repeat match goal with
  | |- ahead _ (_ ++ _) => apply ahead_app
  | |- ahead _ (_ :: _) => split; [cbn [later]; repeat first [apply Forall_cons; [try solve [left; tin]; try solve [right; tin]|] | apply Forall_nil]|]
  | |- ahead _ [] => exact I
  | |- ahead _ (repeat Nop _) => apply ahead_nops
  | X : ahead nowhere ?c |- ahead _ ?c => exact (ahead_any _ _ X)
  end.

Lemma gens_ahead :
  (forall e exit t c t1, gens e exit t c t1 -> closed e -> ahead nowhere c) /\
  (forall exit d t c t1, gdefault exit d t c t1 -> opt_all (Forall closed) d -> ahead nowhere c) /\
  (forall es exit t c t1, gseq es exit t c t1 -> Forall closed es -> ahead nowhere c) /\
  (forall f args force t c t1, gcall f args force t c t1 -> Forall closed args -> ahead nowhere c) /\
  (forall args flags t c t1, gargs args flags t c t1 -> Forall closed args -> ahead nowhere c) /\
  (forall exit cases body next t c next' t1, gcases exit cases body next t c next' t1 ->
     Forall (fun x => closed (fst x) /\ Forall closed (snd x)) cases -> cases_end cases -> (cases = [] -> body = None) ->
     ahead (fun l => l = next') c /\ (next' = next \/ In (Target next) c) /\ (forall b, body = Some b -> In (Target b) c)).
Proof.
  apply gens_all.
  - intros e exit h args t c1 t1 c2 t2 Hh Eh G IH C.
    destruct (head_quiet _ _ _ Hh _ _ _ _ Eh) as [_ F].
    apply ahead_app; [now apply ahead_free|]. apply IH. eapply closed_parts; [exact (head_parts _ _ _ Hh)|exact C].
  - intros es exit t c t1 G IH C. apply IH. eapply closed_parts; [|exact C]. intros; constructor; assumption.
  - intros sp l t C. ahd.
  - intros c th sp exit t cc t1 ct t2 Gc IHc Gt IHt C.
    assert (U1 : ahead nowhere cc) by (apply IHc; eapply closed_part; [constructor|exact C]).
    assert (U2 : ahead nowhere ct) by (apply IHt; eapply closed_parts; [|exact C]; intros; apply pt_then; assumption).
    ahd.
  - intros c th el sp exit t cc t1 ct t2 cf t3 Gc IHc Gt IHt Gf IHf C.
    assert (U1 : ahead nowhere cc) by (apply IHc; eapply closed_part; [constructor|exact C]).
    assert (U2 : ahead nowhere ct) by (apply IHt; eapply closed_parts; [|exact C]; intros; apply pt_then; assumption).
    assert (U3 : ahead nowhere cf) by (apply IHf; eapply closed_parts; [|exact C]; intros; apply pt_else; assumption).
    ahd.
  - intros c a b sp exit t cc t1 ca t2 cb t3 Gc IHc Ga IHa Gb IHb C.
    assert (U1 : ahead nowhere cc) by (apply IHc; eapply closed_part; [constructor|exact C]).
    assert (U2 : ahead nowhere ca) by (apply IHa; eapply closed_part; [apply pt_cond_then|exact C]).
    assert (U3 : ahead nowhere cb) by (apply IHb; eapply closed_part; [apply pt_cond_else|exact C]).
    ahd.
  - intros c b sp exit t cc t1 cb t2 Gc IHc Gb IHb C.
    assert (U1 : ahead nowhere cc) by (apply IHc; eapply closed_part; [constructor|exact C]).
    assert (U2 : ahead nowhere cb) by (apply IHb; eapply closed_parts; [|exact C]; intros; apply pt_while_body; assumption).
    ahd.
  - intros e f sp exit t ce t1 Ge IHe C.
    assert (U1 : ahead nowhere ce) by (apply IHe; eapply closed_part; [constructor|exact C]).
    ahd.
  - intros f ts args sp exit t c t1 G IH C. apply IH. eapply closed_parts; [|exact C]; intros; apply pt_call; assumption.
  - intros e f args sp exit t c t1 fn T F S G IH C. apply IH.
    eapply closed_parts; [|exact C]; intros; apply pt_method_arg; assumption.
  - intros e f args sp exit t fn ce t1 ca t2 T F S Ge IHe Ga IHa C.
    assert (U1 : ahead nowhere ce) by (apply IHe; eapply closed_part; [constructor|exact C]).
    assert (U2 : ahead nowhere ca) by (apply IHa; eapply closed_parts; [|exact C]; intros; apply pt_method_arg; assumption).
    ahd.
  - intros e cases default sp exit t ty k t1 ce t2 cc next t3 cd t4 Ty Ti Ge IHe Gc IHc Gd IHd C.
    assert (U1 : ahead nowhere ce) by (apply IHe; eapply closed_part; [constructor|exact C]).
    destruct IHc as (U2 & X2 & _); [|eapply closed_cases; exact C|intros; reflexivity|].
    { apply Forall_forall. intros [m b] I. split; [eapply closed_part; [eapply pt_matcher; exact I|exact C]|].
      eapply closed_parts; [|exact C]. intros x Ix. eapply pt_case_body; eassumption. }
    assert (U3 : ahead nowhere cd).
    { apply IHd. destruct default; [|exact I]. eapply closed_parts; [|exact C]. intros; apply pt_default; assumption. }
    ahd. eapply ahead_weaken; [|exact U2]. cbn beta. intros l ->. left. left. reflexivity.
  - intros exit t _. exact I.
  - intros exit d t c t1 G IH C. specialize (IH C). ahd.
  - intros exit t _. exact I.
  - intros e es exit t c t1 cs t2 G IH Gs IHs C. inversion C; subst.
    assert (ahead nowhere c) by (apply IH; assumption). assert (ahead nowhere cs) by (apply IHs; assumption). ahd.
  - intros f args force t fn flags i ca t1 F M H G IH L C. specialize (IH C).
    assert (T : later i = []) by (destruct H; reflexivity).
    split; [rewrite T; constructor|]. ahd.
  - intros flags t _. exact I.
  - intros e args t _. exact I.
  - intros e args fl flags t c t1 cs t2 _ G IH Gs IHs C. inversion C; subst.
    assert (ahead nowhere c) by (apply IH; assumption). assert (ahead nowhere cs) by (apply IHs; assumption). ahd.
  - intros e args fl flags t c t1 cs t2 _ G IH Gs IHs C. inversion C; subst.
    assert (ahead nowhere c) by (apply IH; assumption). assert (ahead nowhere cs) by (apply IHs; assumption). ahd.
  - intros exit body next t _ _ B. split; [exact I|]. split; [left; reflexivity|]. intros b E. rewrite (B eq_refl) in E. discriminate E.
  - intros exit m stmts cases body next t b t0 cm t1 cs next' t2 B Gm IHm E Gc IHc C CE _.
    inversion C as [|? ? [Cm _] Cc]; subst. cbn [fst] in Cm. specialize (IHm Cm).
    assert (NE : cases <> []). { intros ->. specialize (CE [] m stmts eq_refl). congruence. }
    destruct IHc as (U2 & X2 & Y2); [exact Cc|eapply cases_end_tail; exact CE|intros; contradiction|].
    specialize (Y2 _ eq_refl). split; [|split].
    + ahd; [destruct X2 as [->|X2]; [right; reflexivity|left; tin] | exact U2].
    + right. left. reflexivity.
    + intros b' Eb. rewrite Eb in B. destruct B as [-> _]. tin.
  - intros exit m stmts cases body next t b t0 cm t1 cb t2 cs next' t3 B Gm IHm E Gb IHb Gc IHc C CE _.
    inversion C as [|? ? [Cm Cb] Cc]; subst. cbn [fst snd] in *.
    specialize (IHm Cm). specialize (IHb Cb).
    destruct IHc as (U2 & X2 & Y2); [exact Cc|eapply cases_end_tail; exact CE|reflexivity|].
    split; [|split].
    + ahd; [destruct X2 as [->|X2]; [right; reflexivity|left; tin] | exact U2].
    + right. left. reflexivity.
    + intros b' Eb. rewrite Eb in B. destruct B as [-> _]. tin.
Qed.
Lemma ahead_split c pre i post : ahead nowhere c -> c = pre ++ i :: post -> forall l, In l (later i) -> In (Target l) post.
Proof.
  intros A -> l I. induction pre as [|j pre IH]; [|apply IH, A]. destruct A as [A _].
  rewrite Forall_forall in A. destruct (A _ I) as [H|[]]. exact H.
Qed.

(** The length of the code does not depend on the labels. *)
Lemma resolve_total targets : forall (c : code label) s out, resolve_all targets (code_iter s c) = Some out -> total out = total c.
Proof.
  induction c as [|i c IH]; intros s out E; cbn [code_iter resolve_all] in E; [injection E as <-; reflexivity|]. cbn [total].
  destruct (is_target i) eqn:T.
  - rewrite (IH _ _ E). destruct i; try discriminate T. reflexivity.
  - unfold resolve_labels in E. destruct (forallb _ _); [|discriminate E].
    destruct (resolve_all targets _) eqn:R; [|discriminate E]. injection E as <-. cbn [total]. rewrite (IH _ _ R).
    f_equal. destruct i; reflexivity.
Qed.
Lemma into_code_total n c out : into_code n c = Some out -> total out = total c.
Proof. unfold into_code. destruct (place_labels _ _); [|discriminate]. apply resolve_total. Qed.
Lemma nth_code (c : code label) : forall k, (k < length (filter (fun i => negb (is_target i)) c))%nat ->
  exists pre i post, c = pre ++ i :: post /\ is_target i = false /\ length (filter (fun i => negb (is_target i)) pre) = k.
Proof.
  induction c as [|i c IH]; intros k L; [cbn in L; lia|]. cbn [filter] in L. destruct (is_target i) eqn:T; cbn [negb] in L.
  - destruct (IH _ L) as (pre & j & post & -> & Tj & K). exists (i :: pre), j, post. split; [reflexivity|]. split; [exact Tj|].
    cbn [filter]. rewrite T. exact K.
  - destruct k as [|k]; [exists [], i, c; split; [reflexivity|split; [exact T|reflexivity]]|]. cbn [length] in L.
    destruct (IH k) as (pre & j & post & -> & Tj & K); [lia|]. exists (i :: pre), j, post. split; [reflexivity|]. split; [exact Tj|].
    cbn [filter]. rewrite T. cbn [negb length]. now rewrite K.
Qed.
