(** The parser with positions reads what the one without reads. *)
From Coq Require Import String.
From Coq Require Import ZArith List Bool.
From Verif Require Import Bytes Definitions Bundle Ast TypeNames Pool Scope TypeCheck Symbols Printer Parser Unit Grammar SourceMap Positions PositionSpec.
Import ListNotations.
Open Scope Z_scope.

(** [q] reads what [r] reads, with [f] applied to it. *)
Definition sim {A B} (f : A -> B) (r : rule A) (q : rule B) : Prop :=
  forall i, q i = match r i with PMatch a i' => PMatch (f a) i' | PFail => PFail | PPanic => PPanic | PFuel => PFuel end.
Lemma sim_ret {A B} (f : A -> B) a b : b = f a -> sim f (rret a) (rret b).
Proof. now intros ->. Qed.
Lemma sim_same {A} (r : rule A) : sim (fun x => x) r r.
Proof. intros i. now destruct (r i). Qed.
Lemma sim_fail {A B} (f : A -> B) : sim f (fun _ => PFail) (fun _ => PFail).
Proof. intros i. reflexivity. Qed.
Lemma sim_fuel {A B} (f : A -> B) : sim f (fun _ => PFuel) (fun _ => PFuel).
Proof. intros i. reflexivity. Qed.
Lemma sim_seq {A B C D} (g : A -> C) (f : B -> D) r q k k' : sim g r q -> (forall a, sim f (k a) (k' (g a))) -> sim f (rseq r k) (rseq q k').
Proof. intros R K i. unfold rseq. rewrite R. destruct (r i); auto. apply K. Qed.
Lemma sim_shared {A B D} (f : B -> D) (r : rule A) k k' : (forall a, sim f (k a) (k' a)) -> sim f (rseq r k) (rseq r k').
Proof. intros K. apply (sim_seq (fun x => x)); [apply sim_same|exact K]. Qed.
Lemma sim_pos {B D} (f : B -> D) at_ k q : (forall a, sim f (k a) q) -> sim f (rseq (rpos at_) k) q.
Proof. intros K i. apply (K (at_ i) i). Qed.
Lemma sim_alt {A B} (f : A -> B) r s r' s' : sim f r r' -> sim f s s' -> sim f (ralt r s) (ralt r' s').
Proof. intros R S i. unfold ralt. rewrite R. destruct (r i); auto. Qed.
Lemma sim_opt {A B} (f : A -> B) r q : sim f r q -> sim (option_map f) (ropt r) (ropt q).
Proof. intros R i. unfold ropt. rewrite R. now destruct (r i). Qed.
Lemma sim_many {A B} (f : A -> B) r q n : sim f r q -> sim (map f) (rmany n r) (rmany n q).
Proof.
  intros R. induction n as [|n IH]; [apply sim_fuel|]. intros i. cbn [rmany]. rewrite R. destruct (r i) as [a i'| | |]; auto.
  rewrite IH. now destruct (rmany n r i').
Qed.
Lemma sim_sep {A B} (f : A -> B) r q n sep : sim f r q -> sim (map f) (rsep n r sep) (rsep n q sep).
Proof.
  intros R i. unfold rsep. rewrite R. destruct (r i) as [a i'| | |]; auto.
  rewrite (sim_many f (the _ <- sep; r) (the _ <- sep; q) n); [|apply sim_shared; auto]. now destruct (rmany n _ i').
Qed.
Lemma sim_level {A B} (f : A -> B) l m r q : sim f r q -> sim f (at_level l m r) (at_level l m q).
Proof. intros R. unfold at_level. destruct (Nat.leb m l); [exact R|apply sim_fail]. Qed.
Lemma sim_option {A B C} (f : B -> C) (g : A -> B) (h : A -> C) o : (forall a, h a = f (g a)) -> sim f (of_option g o) (of_option h o).
Proof. intros H i. unfold of_option. destruct o; [now rewrite H|reflexivity]. Qed.

Section Erase.
Variables (fl : float_text) (at_ : list byte -> Z).

Lemma sim_binary rec rec' op l f g x : (forall m, sim unplaced (rec m) (rec' m)) -> (forall x y, unplaced (f x y) = g (unplaced x) (unplaced y)) ->
  sim unplaced (binary rec op l f x) (binary rec' op l g (unplaced x)).
Proof. intros R H. unfold binary. do 3 (apply sim_shared; intros ?). eapply sim_seq; [apply R|]. intros y. apply sim_ret. now rewrite H. Qed.
Lemma sim_args n rec rec' : (forall m, sim unplaced (rec m) (rec' m)) -> sim (map unplaced) (rargs n rec) (rargs n rec').
Proof. intros R. unfold rargs. do 2 (apply sim_shared; intros ?). eapply sim_seq; [apply sim_sep, R|]. intros y. do 2 (apply sim_shared; intros ?). now apply sim_ret. Qed.
Lemma sim_extend n rec rec' min x : (forall m, sim unplaced (rec m) (rec' m)) ->
  sim unplaced (pextend at_ n rec min x) (extend n rec' min (unplaced x)).
Proof.
  intros R. unfold pextend, extend. repeat (apply sim_alt; [apply sim_level|]).
  2-24: now apply sim_binary.
  - do 3 (apply sim_shared; intros ?). eapply sim_seq; [apply R|]. intros y. do 3 (apply sim_shared; intros ?). eapply sim_seq; [apply R|]. intros z. now apply sim_ret.
  - do 3 (apply sim_shared; intros ?). eapply sim_seq; [apply R|]. intros y. do 2 (apply sim_shared; intros ?). apply sim_pos. intros ?. now apply sim_ret.
  - do 5 (apply sim_shared; intros ?). eapply sim_seq; [apply sim_args, R|]. intros y. apply sim_pos. intros ?. now apply sim_ret.
  - do 4 (apply sim_shared; intros ?). apply sim_pos. intros ?. now apply sim_ret.
  - do 4 (apply sim_shared; intros ?). apply sim_pos. intros ?. now apply sim_ret.
  - apply sim_fail.
Qed.
Lemma sim_interpolated n rec rec' : (forall m, sim unplaced (rec m) (rec' m)) -> sim unplaced (pinterpolated at_ n rec) (rinterpolated n rec').
Proof.
  intros R. unfold pinterpolated, rinterpolated. apply sim_pos. intros ?. do 2 (apply sim_shared; intros ?).
  eapply sim_seq with (g := map (fun x => (unplaced (fst x), snd x))).
  - apply sim_many. do 2 (apply sim_shared; intros ?). eapply sim_seq; [apply R|]. intros y. do 3 (apply sim_shared; intros ?). now apply sim_ret.
  - intros parts. apply sim_shared. intros ?. apply sim_pos. intros ?. now apply sim_ret.
Qed.
Lemma sim_start n rec rec' : (forall m, sim unplaced (rec m) (rec' m)) -> sim unplaced (pstart fl at_ n rec) (start fl n rec').
Proof.
  intros R. unfold pstart, start. repeat apply sim_alt; try apply sim_fail; try (apply sim_interpolated; exact R);
    try (apply sim_pos; intros ?).
  1-3: do 2 (apply sim_shared; intros ?); eapply sim_seq; [apply R|]; intros; now apply sim_ret.
  - do 4 (apply sim_shared; intros ?). eapply sim_seq; [apply sim_args, R|]. intros y. apply sim_pos. intros ?. now apply sim_ret.
  - do 2 (apply sim_shared; intros ?). eapply sim_seq; [apply sim_sep, R|]. intros y. do 2 (apply sim_shared; intros ?). apply sim_pos. intros ?. now apply sim_ret.
  - do 2 (apply sim_shared; intros ?). eapply sim_seq; [apply R|]. intros y. do 2 (apply sim_shared; intros ?). now apply sim_ret.
  - apply sim_shared. intros ?. apply sim_pos. intros ?. now apply sim_ret.
  - apply sim_shared. intros ?. apply sim_pos. intros ?. now apply sim_ret.
  - apply sim_shared. intros ?. apply sim_pos. intros ?. now apply sim_ret.
  - apply sim_shared. intros ?. apply sim_pos. intros ?. now apply sim_ret.
  - do 4 (apply sim_shared; intros ?). eapply sim_seq; [apply sim_args, R|]. intros y. apply sim_pos. intros ?. now apply sim_ret.
  - apply sim_shared. intros ?. apply sim_pos. intros ?. now apply sim_ret.
Qed.
Lemma sim_climb n rec rec' min : (forall m, sim unplaced (rec m) (rec' m)) -> forall k x,
  sim unplaced (pclimb at_ k n rec min x) (climb k n rec' min (unplaced x)).
Proof.
  intros R. induction k as [|k IH]; intros x; [apply sim_fuel|]. intros i. cbn [pclimb climb].
  rewrite (sim_extend n rec rec' min x R i). destruct (pextend at_ n rec min x i); auto. apply IH.
Qed.
Lemma sim_expr n : forall min, sim unplaced (pexpr fl at_ n min) (rexpr fl n min).
Proof.
  induction n as [|n IH]; intros min; [apply sim_fuel|]. cbn [pexpr rexpr]. eapply sim_seq; [apply sim_start, IH|]. intros x. now apply sim_climb.
Qed.

Lemma sim_initializer n : sim unplaced (pinitializer fl at_ n) (rinitializer fl n).
Proof. unfold pinitializer, rinitializer. do 2 (apply sim_shared; intros ?). apply sim_expr. Qed.
Lemma sim_let n : sim unplaced (plet fl at_ n) (rlet fl n).
Proof.
  unfold plet, rlet. apply sim_pos. intros ?. do 6 (apply sim_shared; intros ?). eapply sim_seq; [apply sim_opt, sim_initializer|]. intros v.
  do 2 (apply sim_shared; intros ?). apply sim_pos. intros ?. now apply sim_ret.
Qed.
Section Stmt.
Variables (n : nat) (stmt stmt' : rule sexpr).
Hypothesis S : sim unplaced stmt stmt'.
Lemma sim_statements : sim (map unplaced) (rstatements n stmt) (rstatements n stmt').
Proof. apply sim_sep, S. Qed.
Lemma sim_block : sim (map unplaced) (rblock n stmt) (rblock n stmt').
Proof. unfold rblock. do 2 (apply sim_shared; intros ?). eapply sim_seq; [apply sim_statements|]. intros b. do 2 (apply sim_shared; intros ?). now apply sim_ret. Qed.
Lemma sim_while : sim unplaced (pwhile fl at_ n stmt) (rwhile fl n stmt').
Proof.
  unfold pwhile, rwhile. apply sim_pos. intros ?. do 2 (apply sim_shared; intros ?). eapply sim_seq; [apply sim_expr|]. intros c.
  apply sim_shared; intros ?. eapply sim_seq; [apply sim_block|]. intros b. do 2 (apply sim_shared; intros ?). apply sim_pos. intros ?. now apply sim_ret.
Qed.
Lemma sim_for : sim unplaced (pfor fl at_ n stmt) (rfor fl n stmt').
Proof.
  unfold pfor, rfor. apply sim_pos. intros ?. do 6 (apply sim_shared; intros ?). eapply sim_seq; [apply sim_expr|]. intros c.
  apply sim_shared; intros ?. eapply sim_seq; [apply sim_block|]. intros b. do 2 (apply sim_shared; intros ?). apply sim_pos. intros ?. now apply sim_ret.
Qed.
Lemma sim_if k : sim unplaced (pif fl at_ k n stmt) (rif fl k n stmt').
Proof.
  induction k as [|k IH]; [apply sim_fuel|]. cbn [pif rif]. apply sim_pos. intros ?. do 2 (apply sim_shared; intros ?). eapply sim_seq; [apply sim_expr|]. intros c.
  apply sim_shared; intros ?. eapply sim_seq; [apply sim_block|]. intros t. apply sim_shared; intros ?.
  eapply sim_seq with (g := option_map (map unplaced)).
  - apply sim_opt, sim_alt; do 2 (apply sim_shared; intros ?); [apply sim_block|]. eapply sim_seq; [apply IH|]. intros e. now apply sim_ret.
  - intros f. do 2 (apply sim_shared; intros ?). apply sim_pos. intros ?. now apply sim_ret.
Qed.
Lemma sim_switch : sim unplaced (pswitch fl at_ n stmt) (rswitch fl n stmt').
Proof.
  unfold pswitch, rswitch. apply sim_pos. intros ?. do 2 (apply sim_shared; intros ?). eapply sim_seq; [apply sim_expr|]. intros c.
  do 3 (apply sim_shared; intros ?). eapply sim_seq with (g := map (fun c => (unplaced (fst c), map unplaced (snd c)))).
  - apply sim_sep. unfold pcase, rcase. do 2 (apply sim_shared; intros ?). eapply sim_seq; [apply sim_expr|]. intros m. do 3 (apply sim_shared; intros ?).
    eapply sim_seq; [apply sim_statements|]. intros b. now apply sim_ret.
  - intros cs. apply sim_shared; intros ?. eapply sim_seq with (g := option_map (map unplaced)).
    + apply sim_opt. unfold rdefault. do 4 (apply sim_shared; intros ?). apply sim_statements.
    + intros d. do 4 (apply sim_shared; intros ?). apply sim_pos. intros ?. now apply sim_ret.
Qed.
Lemma sim_statement : sim unplaced (pstatement fl at_ n stmt) (statement fl n stmt').
Proof.
  unfold pstatement, statement. repeat apply sim_alt; [apply sim_while|apply sim_for|apply sim_if|apply sim_switch| | |apply sim_let| |apply sim_fail].
  - apply sim_pos. intros ?. do 2 (apply sim_shared; intros ?). eapply sim_seq; [apply sim_opt, sim_expr|]. intros v. do 2 (apply sim_shared; intros ?).
    apply sim_pos. intros ?. now apply sim_ret.
  - apply sim_pos. intros ?. do 3 (apply sim_shared; intros ?). apply sim_pos. intros ?. now apply sim_ret.
  - eapply sim_seq; [apply sim_expr|]. intros e. do 2 (apply sim_shared; intros ?). now apply sim_ret.
Qed.
End Stmt.
Lemma sim_stmt n : sim unplaced (pstmt fl at_ n) (rstmt fl n).
Proof. induction n as [|n IH]; [apply sim_fuel|]. cbn [pstmt rstmt]. now apply sim_statement. Qed.

Lemma sim_annotations n : sim (map unplaced_annotation) (pannotations fl at_ n) (rannotations fl n).
Proof.
  apply sim_sep. unfold pannotation, rannotation. apply sim_pos. intros ?. do 5 (apply sim_shared; intros ?). eapply sim_seq; [apply sim_sep, sim_expr|]. intros args.
  do 2 (apply sim_shared; intros ?). apply sim_pos. intros ?. now apply sim_option.
Qed.
Lemma sim_decl n kind : sim unplaced_decl (pdecl fl at_ n kind) (rdecl fl n kind).
Proof.
  unfold pdecl, rdecl. apply sim_pos. intros ?. eapply sim_seq; [apply sim_annotations|]. intros anns. do 6 (apply sim_shared; intros ?). apply sim_pos. intros ?. now apply sim_ret.
Qed.
Lemma sim_field n : sim unplaced_field (pfield fl at_ n) (rfield fl n).
Proof.
  unfold pfield, rfield. eapply sim_seq; [apply sim_decl|]. intros d. do 3 (apply sim_shared; intros ?). eapply sim_seq; [apply sim_opt, sim_initializer|]. intros v.
  do 2 (apply sim_shared; intros ?). now apply sim_ret.
Qed.
Lemma sim_function_body n : sim (map unplaced) (pfunction_body fl at_ n) (rfunction_body fl n).
Proof.
  unfold pfunction_body, rfunction_body. apply sim_alt; [apply sim_block, sim_stmt|]. apply sim_pos. intros ?. do 2 (apply sim_shared; intros ?).
  eapply sim_seq; [apply sim_expr|]. intros e. apply sim_shared; intros ?. apply sim_pos. intros ?. now apply sim_ret.
Qed.
Lemma sim_function n : sim unplaced_function (pfunction fl at_ n) (rfunction fl n).
Proof.
  unfold pfunction, rfunction. apply sim_pos. intros ?. eapply sim_seq; [apply sim_decl|]. intros d. do 9 (apply sim_shared; intros ?).
  eapply sim_seq; [apply sim_opt, sim_function_body|]. intros b. apply sim_shared; intros ?. apply sim_pos. intros ?. now apply sim_ret.
Qed.
Lemma sim_members n : sim (map unplaced_member) (pmembers fl at_ n) (rmembers fl n).
Proof.
  unfold pmembers, rmembers. do 2 (apply sim_shared; intros ?). eapply sim_seq with (g := map unplaced_member).
  - apply sim_sep. unfold pmember, rmember. apply sim_alt; (eapply sim_seq; [apply sim_function || apply sim_field|]); intros f; now apply sim_ret.
  - intros ms. do 2 (apply sim_shared; intros ?). now apply sim_ret.
Qed.
Lemma sim_class n : sim unplaced_class (pclass fl at_ n) (rclass fl n).
Proof.
  unfold pclass, rclass. apply sim_pos. intros ?. eapply sim_seq; [apply sim_decl|]. intros d. do 3 (apply sim_shared; intros ?).
  eapply sim_seq; [apply sim_members|]. intros ms. apply sim_pos. intros ?. now apply sim_ret.
Qed.
Lemma sim_struct n : sim unplaced_class (pstruct fl at_ n) (rstruct fl n).
Proof.
  unfold pstruct, rstruct. apply sim_pos. intros ?. eapply sim_seq; [apply sim_decl|]. intros d. apply sim_shared; intros ?.
  eapply sim_seq; [apply sim_members|]. intros ms. apply sim_pos. intros ?. now apply sim_ret.
Qed.
Lemma sim_enum n : sim unplaced_enum (penum fl at_ n) (renum fl n).
Proof.
  unfold penum, renum. apply sim_pos. intros ?. eapply sim_seq; [apply sim_decl|]. intros d. do 8 (apply sim_shared; intros ?). apply sim_pos. intros ?. now apply sim_ret.
Qed.
Lemma sim_entry n : sim unplaced_entry (pentry fl at_ n) (rentry fl n).
Proof.
  unfold pentry, rentry. repeat apply sim_alt; try apply sim_fail.
  - eapply sim_seq; [apply sim_function|]. intros x. now apply sim_ret.
  - eapply sim_seq; [apply sim_class|]. intros x. now apply sim_ret.
  - eapply sim_seq; [apply sim_struct|]. intros x. now apply sim_ret.
  - eapply sim_seq; [apply sim_field|]. intros x. now apply sim_ret.
  - eapply sim_seq; [apply sim_enum|]. intros x. now apply sim_ret.
Qed.
Lemma sim_import_head n : sim (fun x => (map unplaced_annotation (fst x), snd x)) (pimport_head fl at_ n) (rimport_head fl n).
Proof.
  unfold pimport_head, rimport_head. eapply sim_seq; [apply sim_annotations|]. intros anns. do 4 (apply sim_shared; intros ?). now apply sim_ret.
Qed.
Lemma sim_import n : sim unplaced_import (pimport fl at_ n) (rimport fl n).
Proof.
  unfold pimport, rimport. repeat apply sim_alt; try apply sim_fail; (apply sim_pos; intros ?); (eapply sim_seq; [apply sim_import_head|]); intros [anns parts]; cbn [fst snd].
  - do 4 (apply sim_shared; intros ?). apply sim_pos. intros ?. now apply sim_ret.
  - do 8 (apply sim_shared; intros ?). apply sim_pos. intros ?. now apply sim_ret.
  - apply sim_pos. intros ?. now apply sim_ret.
Qed.
Lemma sim_module n : sim unplaced_module (pmodule fl at_ n) (rmodule fl n).
Proof.
  unfold pmodule, rmodule. do 3 (apply sim_shared; intros ?). eapply sim_seq; [apply sim_sep, sim_import|]. intros is_. apply sim_shared; intros ?.
  eapply sim_seq; [apply sim_sep, sim_entry|]. intros es. apply sim_shared; intros ?. now apply sim_ret.
Qed.
End Erase.
