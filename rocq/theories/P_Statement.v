(** C54: what is printed for the body of a function is read back. *)
From Coq Require Import String.
From Coq Require Import ZArith List Bool Lia.
From Verif Require Import Bytes BytesFacts Definitions DefinitionsFacts Bundle BundleFacts Ast TypeNames Pool Scope TypeCheck Symbols Printer Parser PrintSpec ParserFacts TextFacts PrintSteps PrintFacts P_Print Unit Grammar GrammarFacts StatementSpec StatementFacts.
Import ListNotations.
Open Scope nat_scope.

Section Statements.
Variables (fl : float_text) (v : bool).
Lemma body_all (P : sexpr -> Prop) es : Forall P es -> forall strict, body_ok v strict es = true -> Forall (fun x => is_empty x = true \/ P x /\ stmt_ok v strict x = true) es.
Proof.
  intros F strict O. unfold body_ok in O. rewrite forallb_forall in O. rewrite Forall_forall in *. intros x Hx. specialize (O x Hx). destruct (is_empty x); [now left|right]. split; [now apply F|exact O].
Qed.
Lemma weak_body es : Forall (fun s => stmt_ok v true s = true -> stmt_ok v false s = true) es -> body_ok v true es = true -> body_ok v false es = true.
Proof.
  intros F O. unfold body_ok in *. rewrite forallb_forall in *. rewrite Forall_forall in F. intros x Hx. specialize (O x Hx). destruct (is_empty x); [reflexivity|]. cbn [orb] in *. now apply F.
Qed.
Lemma strict_weak_stmt s : stmt_ok v true s = true -> stmt_ok v false s = true.
Proof.
  induction s as [n sp|c sp|es t sp IH|p parts sp IH|l t i sp IH|t x sp IH|l r sp IH1 IH2|c ts args sp IH|o f args sp IH1 IH2|x m sp IH|a i sp IH1 IH2|t args sp IH|x sp IH|es IH|x cases d sp IH1 IH2 IH3|t sp|c t f sp IH1 IH2 IH3|c a b sp IH1 IH2 IH3|c b sp IH1 IH2|l x b sp IH1 IH2|l r o sp IH1 IH2|x o sp IH|sp|sp|sp|sp] using expr_ind'; intros O;
    try (cbn [stmt_ok] in *; apply andb_prop in O as [O1 O2]; rewrite (strict_weak v _ O1); exact O2).
  - cbn [stmt_ok] in *. apply andb_prop in O as [O1 O2]. rewrite O1. destruct i as [i|]; [exact (strict_weak v i O2)|reflexivity].
  - cbn [stmt_ok] in *. destruct x as [x|]; [now apply strict_weak|reflexivity].
  - cbn [stmt_ok] in *. unand. repeat (apply andb_true_intro; split).
    + now apply strict_weak.
    + rewrite forallb_forall in *. rewrite Forall_forall in IH2. intros c Hc. match goal with H : forall x, In x cases -> _ |- _ => specialize (H c Hc); apply andb_prop in H as [Ha Hb]; apply andb_prop in Ha as [Ha Hh] end.
      rewrite (strict_weak v _ Ha), Hh. cbn [andb]. destruct (IH2 c Hc) as [_ F]. exact (weak_body _ F Hb).
    + destruct d as [d|]; [|reflexivity]. now apply weak_body.
  - cbn [stmt_ok] in *. unand. repeat (apply andb_true_intro; split).
    + now apply strict_weak.
    + now apply weak_body.
    + destruct f as [f|]; [|reflexivity]. now apply weak_body.
  - cbn [stmt_ok] in *. unand. apply andb_true_intro. split; [now apply strict_weak|now apply weak_body].
  - reflexivity.
Qed.
Lemma body_weak es : body_ok v true es = true -> body_ok v false es = true.
Proof. apply weak_body. apply Forall_forall. intros. now apply strict_weak_stmt. Qed.

(** Everything in the fragment is printed. *)
Lemma shown_body es : Forall (fun s => stmt_ok v false s = true -> forall d, show fl v s None d <> None) es -> body_ok v false es = true -> forall d, show_seq fl v es d <> None.
Proof.
  intros F O d. apply (body_all _ _ F) in O. unfold show_seq. destruct (cat_all (map (fun x => if is_empty x then Some [] else cat [indent d; show fl v x None d; put ";"; newline]) es)) as [t E]; [|now rewrite E].
  apply Forall_map. rewrite Forall_forall in *. intros x Hx. destruct (is_empty x) eqn:Ex; [discriminate|]. destruct (O x Hx) as [C|[S Ox]]; [congruence|].
  match goal with |- cat ?l <> None => destruct (cat_all l) as [? E] end; [|now rewrite E]. repeat apply Forall_cons; try apply Forall_nil; try discriminate. now apply S.
Qed.
Local Ltac all_some := match goal with |- cat ?l <> None => let E := fresh in destruct (cat_all l) as [? E]; [repeat apply Forall_cons; try apply Forall_nil; try discriminate | rewrite E; discriminate] end.
Lemma shown_stmt s : stmt_ok v false s = true -> forall d, show fl v s None d <> None.
Proof.
  induction s as [n sp|c sp|es t sp IH|p parts sp IH|l t i sp IH|t x sp IH|l r sp IH1 IH2|c ts args sp IH|o f args sp IH1 IH2|x m sp IH|a i sp IH1 IH2|t args sp IH|x sp IH|es IH|x cases d sp IH1 IH2 IH3|t sp|c t f sp IH1 IH2 IH3|c a b sp IH1 IH2 IH3|c b sp IH1 IH2|l x b sp IH1 IH2|l r o sp IH1 IH2|x o sp IH|sp|sp|sp|sp] using expr_ind'; intros O dep;
    try (cbn [stmt_ok] in O; apply andb_prop in O as [O1 O2]; now apply shown).
  - cbn [stmt_ok show] in *. unand. all_some.
    + destruct t; [all_some|discriminate].
    + destruct i as [i|]; [|discriminate]. all_some. now apply shown.
  - cbn [stmt_ok show] in *. destruct x as [x|]; [|discriminate]. all_some. now apply shown.
  - cbn [stmt_ok show] in *. unand. all_some.
    + now apply shown.
    + match goal with |- cat ?l <> None => destruct (cat_all l) as [? E] end; [|now rewrite E]. apply Forall_map. rewrite Forall_forall in *. intros c Hc.
      match goal with H : forallb _ cases = true |- _ => rewrite forallb_forall in H; specialize (H c Hc); apply andb_prop in H as [Ha Hb]; apply andb_prop in Ha as [Ha Hh] end.
      all_some; [now apply shown|]. destruct (IH2 c Hc) as [_ F]. exact (shown_body (snd c) F Hb (dep + 2)).
    + destruct d as [d|]; [|discriminate]. all_some. now apply (shown_body d).
  - cbn [stmt_ok show] in *. unand. all_some.
    + now apply shown.
    + now apply (shown_body t).
    + destruct f as [f|]; [|discriminate]. all_some. now apply (shown_body f).
  - cbn [stmt_ok show] in *. unand. all_some; [now apply shown|now apply (shown_body b)].
  - discriminate.
Qed.

(** And means the same. *)
Lemma body_same es : Forall (fun s => stmt_ok v true s = true -> same_statement v s (said v s)) es -> body_ok v true es = true -> same_body v es (said_all v es).
Proof.
  intros F O. apply (body_all _ _ F) in O. unfold same_body, worded, said_all. clear F. induction O as [|x es Hx O IH]; cbn [filter flat_map]; [constructor|].
  destruct (is_empty x) eqn:Ex; cbn [negb app]; [exact IH|]. destruct Hx as [C|[Sx Ox]]; [congruence|]. constructor; [now apply Sx|exact IH].
Qed.
Lemma said_same s : stmt_ok v true s = true -> same_statement v s (said v s).
Proof.
  induction s as [n sp|c sp|es t sp IH|p parts sp IH|l t i sp IH|t x sp IH|l r sp IH1 IH2|c ts args sp IH|o f args sp IH1 IH2|x m sp IH|a i sp IH1 IH2|t args sp IH|x sp IH|es IH|x cases d sp IH1 IH2 IH3|t sp|c t f sp IH1 IH2 IH3|c a b sp IH1 IH2 IH3|c b sp IH1 IH2|l x b sp IH1 IH2|l r o sp IH1 IH2|x o sp IH|sp|sp|sp|sp] using expr_ind'; intros O;
    try (cbn [stmt_ok said] in *; apply andb_prop in O as [O1 O2]; apply same_expression; now apply strict_same).
  - cbn [stmt_ok said] in *. unand. destruct i as [i|]; cbn [option_map]; [apply same_declare_as; now apply strict_same|apply same_declare].
  - cbn [stmt_ok said] in *. destruct x as [x|]; cbn [option_map]; [apply same_return_of; now apply strict_same|apply same_return].
  - cbn [stmt_ok said] in *. unand.
    assert (Cs : Forall2 (fun c c' => same v (fst c) (fst c') /\ Forall2 (same_statement v) (worded (snd c)) (snd c')) cases (map (fun c => (denoted v None None (fst c), said_all v (snd c))) cases)).
    { match goal with H : forallb _ cases = true |- _ => rename H into Oc end. clear - IH2 Oc. induction IH2 as [|c cs [_ Hc] F IH]; cbn [map forallb] in *; constructor.
      - apply andb_prop in Oc as [Oc _]. apply andb_prop in Oc as [Ha Hb]. apply andb_prop in Ha as [Ha _]. split; [now apply strict_same|]. now apply (body_same (snd c)).
      - apply IH. now apply andb_prop in Oc as [_ Oc]. }
    destruct d as [d|]; cbn [option_map]; [apply same_switch_default|apply same_switch]; try assumption; try (now apply strict_same). now apply (body_same d).
  - cbn [stmt_ok said] in *. unand. destruct f as [f|]; cbn [option_map]; [apply same_if_else|apply same_if]; try (now apply strict_same); try (now apply (body_same t)). now apply (body_same f).
  - cbn [stmt_ok said] in *. unand. apply same_while; [now apply strict_same|now apply (body_same b)].
  - apply same_break.
Qed.

(** Every body in the fragment is read back, whatever follows it. *)
Theorem C54_printed_bodies_read_back_partial es depth : body_ok v true es = true -> body_reads_back fl v es depth.
Proof.
  intros O. pose proof (body_weak es O) as Ow. unfold body_reads_back.
  destruct (printed_body fl v es depth) as [t|] eqn:E.
  - exists t, (said_all v es). split; [reflexivity|]. split; [apply body_same; [|exact O]; apply Forall_forall; intros; now apply said_same|].
    intros n rest Hn. now apply (printed_body_reads fl v es depth).
  - exfalso. revert E. change (printed_body fl v es depth <> None). unfold printed_body. all_some. apply shown_body; [|exact Ow]. apply Forall_forall. intros. now apply shown_stmt.
Qed.
End Statements.
Print Assumptions C54_printed_bodies_read_back_partial.

(** The hypotheses are met by a body with every kind of statement. *)
Definition sample : list sexpr :=
  [EDeclare (N := source_ast) (lit "i") (Some (TypeName (lit "Int32") None)) None span0;
   ESeq (N := source_ast) [];
   EDeclare (N := source_ast) (lit "xs") (Some (TypeName (lit "array") (Some [TypeName (lit "Int32") None]))) (Some (name "ys")) span0;
   EWhile (N := source_ast) (op2 Less (name "i") (name "n"))
     [EIf (N := source_ast) (op1 LogicNot (name "p")) [EAssign (N := source_ast) (name "i") (op2 BAdd (name "i") (name "k")) span0; EBreak (N := source_ast) span0]
        (Some [ESwitch (N := source_ast) (name "i")
                [(EConstant (N := source_ast) (CI32 1) span0, [calls (lit "Log") [name "i"]; EBreak (N := source_ast) span0]);
                 (EMember (N := source_ast) (name "Kind") (lit "Other") span0, [])]
                (Some [EIf (N := source_ast) (name "q") [] None span0]) span0]) span0] span0;
   EReturn (N := source_ast) (Some (name "i")) span0].
Example C54_nonvacuous : body_ok false true sample = true.
Proof. vm_compute. reflexivity. Qed.

Example C54_text fl : printed_body fl false sample 1 = cat [
  put "{"; newline;
  put "    let i: Int32;"; newline;
  put "    let xs: array<Int32> = ys;"; newline;
  put "    while i < n {"; newline;
  put "      if !p {"; newline;
  put "        i = i + k;"; newline;
  put "        break;"; newline;
  put "      } else {"; newline;
  put "        switch i {"; newline;
  put "          case 1:"; newline;
  put "            Log(i);"; newline;
  put "            break;"; newline;
  put "          case Kind.Other:"; newline;
  put "          default:"; newline;
  put "            if q {"; newline;
  put "            };"; newline;
  put "        };"; newline;
  put "      };"; newline;
  put "    };"; newline;
  put "    return i;"; newline;
  put "  }"].
Proof. vm_compute. reflexivity. Qed.

(** Not every body is read back. *)
Lemma body_not_read fl v es depth t : printed_body fl v es depth = Some t ->
  (match rfunction_body fl (S (length t)) t with PMatch es' _ => ~ same_body v es es' | _ => True end) -> ~ body_reads_back fl v es depth.
Proof.
  intros E N (t' & es' & E' & Sm & R). rewrite E in E'. injection E' as <-. specialize (R (S (length t)) []). rewrite app_nil_r in R. rewrite R in N by lia. contradiction.
Qed.

(** A jump that fits no statement is printed as `goto 5;`, which the parser rejects. *)
Theorem C54_goto_refuted fl v : exists es, ~ body_reads_back fl v es 0 /\ es = [EGoto (N := source_ast) 5 span0].
Proof. eexists. split; [|reflexivity]. eapply body_not_read; [vm_compute; reflexivity|vm_compute; exact I]. Qed.
(** A variable called like a statement is read as that statement: `break;`. *)
Theorem C54_statement_words_refuted fl v : exists es, ~ body_reads_back fl v es 0 /\ es = [name "break"].
Proof.
  eexists. split; [|reflexivity]. eapply body_not_read; [vm_compute; reflexivity|]. vm_compute. intros H. inversion H; subst.
  match goal with H : same_statement _ _ _ |- _ => inversion H; subst end. match goal with H : same _ _ _ |- _ => inversion H end.
Qed.
Print Assumptions C54_goto_refuted.
Print Assumptions C54_statement_words_refuted.
