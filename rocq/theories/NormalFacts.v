(** The statements that are left mean the same (proofs). *)
From Coq Require Import String.
From Coq Require Import ZArith List Bool Lia.
From Verif Require Import Bytes Bytecode Definitions Bundle Ast TypeNames Pool Scope TypeCheck PartsSpec Semantics BodySpec RecoverSpec.
Import ListNotations.
Open Scope Z_scope.

Section Normal.
Variables (R : runtime) (s : scope) (p : pool) (N : nat).
Notation St := (state R).
Notation run := (run R s p N).
Notation all := (run_all R run).

Lemma normal_seq es : normal1 p (ESeq es) = normal p es. Proof. reflexivity. Qed.
Lemma normal_if c t f sp : normal1 p (EIf c t f sp) =
  match f with
  | None => [EIf c (normal p t) None sp]
  | Some f => if stops (normal p t) then EIf c (normal p t) None sp :: normal p f
              else [EIf c (normal p t) (match normal p f with [] => None | f' => Some f' end) sp]
  end.
Proof. destruct f; reflexivity. Qed.
Lemma normal_while c b sp : normal1 p (EWhile c b sp) = [EWhile c (normal p b) sp]. Proof. reflexivity. Qed.

Lemma all_app a b w : all (a ++ b) w = ask r := all a w in match r with Normal _ w1 => all b w1 | _ => Ans r end.
Proof.
  revert w. induction a as [|e a IH]; intros w; [reflexivity|]. cbn [app run_all]. fold (all).
  destruct (run e w) as [[]|]; cbn [then_]; [apply IH|reflexivity..].
Qed.
Lemma all_one e w : all [e] w = run e w.
Proof. cbn [run_all]. destruct (run e w) as [[]|]; reflexivity. Qed.
Lemma stops_not_normal l w w1 : stops l = true -> all l w <> Ans (Normal R w1).
Proof.
  unfold stops. intros H. destruct (rev l) as [|e r] eqn:E; [discriminate H|].
  apply (f_equal (@rev _)) in E. rewrite rev_involutive in E. cbn [rev] in E. subst l. rewrite all_app.
  destruct (all (rev r) w) as [[w2|w2|v w2]|h]; cbn [then_]; try discriminate. rewrite all_one.
  destruct e; try discriminate H; cbn [Semantics.run]; [|discriminate].
  destruct e; cbn [then_]; [|discriminate]. destruct (eval R s p e w2) as [[]|]; cbn [then_]; discriminate.
Qed.
Lemma loop_same k c b b' w : (forall w, b w = b' w) -> loop R k c b w = loop R k c b' w.
Proof.
  intros H. revert w. induction k as [|k IH]; intros w; [reflexivity|]. cbn [loop].
  destruct (c w) as [[v w1]|]; [|reflexivity]. cbn [then_]. destruct (truth R v w1); [|reflexivity]. rewrite H.
  destruct (b' w1) as [[]|]; cbn [then_]; try reflexivity. apply IH.
Qed.
Lemma normal_same_list l : Forall (fun e => forall w, all (normal1 p e) w = run e w) l -> forall w, all (normal p l) w = all l w.
Proof.
  induction 1 as [|e l H _ IH]; intros w; [reflexivity|]. cbn [normal]. destruct (stops (normal1 p e)) eqn:S.
  - rewrite H. cbn [run_all]. fold all. pose proof (fun w1 => stops_not_normal _ w w1 S) as X. rewrite H in X.
    destruct (run e w) as [[w1|w1|v w1]|h]; cbn [then_]; try reflexivity. destruct (X w1 eq_refl).
  - rewrite all_app, H. cbn [run_all]. fold all. destruct (run e w) as [[w1|w1|v w1]|h]; cbn [then_]; try reflexivity. apply IH.
Qed.
Lemma normal_same_one e : forall w, all (normal1 p e) w = run e w.
Proof.
  induction e using expr_ind'; intros w; try apply all_one.
  - destruct t as [t|], i; try apply all_one. cbn [normal1].
    destruct (initial_value p t) as [[]|] eqn:E; try apply all_one. cbn [run_all Semantics.run]. rewrite E. reflexivity.
  - rewrite normal_seq. cbn [Semantics.run]. apply normal_same_list. assumption.
  - rewrite normal_if. cbn [Semantics.run].
    pose proof (normal_same_list t ltac:(assumption)) as Ht.
    destruct f as [f|].
    + assert (Hf : forall w, all (normal p f) w = all f w) by (apply normal_same_list; auto).
      destruct (stops (normal p t)) eqn:S.
      * cbn [run_all Semantics.run]. fold all. destruct (eval R s p e w) as [[v w1]|]; [|reflexivity]. cbn [then_].
        destruct (truth R v w1).
        -- pose proof (fun w2 => stops_not_normal _ w1 w2 S) as X. rewrite Ht in *. destruct (all t w1) as [[w2|w2|v2 w2]|h]; cbn [then_]; try reflexivity. destruct (X w2 eq_refl).
        -- cbn [then_]. apply Hf.
      * rewrite all_one. cbn [Semantics.run]. destruct (eval R s p e w) as [[v w1]|]; [|reflexivity]. cbn [then_].
        destruct (truth R v w1); [apply Ht|]. rewrite <- Hf. destruct (normal p f); reflexivity.
    + rewrite all_one. cbn [Semantics.run]. destruct (eval R s p e w) as [[v w1]|]; [|reflexivity]. cbn [then_].
      destruct (truth R v w1); [apply Ht|reflexivity].
  - rewrite normal_while, all_one. cbn [Semantics.run]. apply loop_same. intros w1. apply normal_same_list. assumption.
Qed.
Lemma normal_same l w : all (normal p l) w = all l w.
Proof. apply normal_same_list. apply Forall_forall. intros e _. apply normal_same_one. Qed.
End Normal.
