(** The rules of statements, declarations and modules do not run out of fuel, leave a
    suffix of their input, and abort only on bad escapes. *)
From Coq Require Import String.
From Coq Require Import ZArith List Bool Lia.
From Verif Require Import Bytes Definitions DefinitionsFacts Bundle Ast TypeNames Pool Scope TypeCheck Symbols Printer Parser PrintSpec ParserFacts ParserSafe Unit Grammar.
Import ListNotations.
Open Scope nat_scope.

(** ** Fuel *)
Lemma takes_sub {A B} L d L' d' (r : rule A) (k : A -> rule B) :
  takes L' d' r -> L <= L' -> (forall a, takes (L - d') (d - d') (k a)) -> takes L d (rseq r k).
Proof. intros H HL K. eapply takes_weaken; [apply takes_seq; [eapply takes_weaken; [exact H|exact HL|reflexivity]|exact K]|lia..]. Qed.
Lemma takes_last {A} L d L' d' (r : rule A) : takes L' d' r -> L <= L' -> d <= d' -> takes L d r.
Proof. intros H HL HD. exact (takes_weaken _ _ _ _ _ H HL HD). Qed.
Lemma takes_sep0 {A} n L L' (r : rule A) sep : takes L' 1 r -> L <= L' -> takes L 0 sep -> L <= n -> takes L 0 (rsep n r sep).
Proof. intros H HL S Hn. apply takes_sep; [exact (takes_weaken _ _ _ _ _ H HL (le_n 1))|exact S|exact Hn]. Qed.
Lemma takes_opt0 {A} L L' d (r : rule A) : takes L' d r -> L <= L' -> takes L 0 (ropt r).
Proof. intros H HL. apply (takes_opt L d). exact (takes_weaken _ _ _ _ _ H HL (le_n d)). Qed.
Lemma takes_comma0 L : takes L 0 rcomma. Proof. exact (takes_weaken _ _ _ _ _ (takes_comma L) (le_n L) (Nat.le_0_l 1)). Qed.
Lemma takes_opt_seq {A B} L d L' d' (r : rule A) (k : option A -> rule B) :
  takes L' d' r -> L <= L' -> (forall a, takes L d (k a)) -> takes L d (rseq (ropt r) k).
Proof. intros H HL K. apply takes_seq0; [exact (takes_opt0 L L' d' r H HL)|exact K]. Qed.
Lemma takes_sep_seq {A B} n L d L' (r : rule A) sep (k : list A -> rule B) :
  takes L' 1 r -> L <= L' -> takes L 0 sep -> L <= n -> (forall a, takes L d (k a)) -> takes L d (rseq (rsep n r sep) k).
Proof. intros H HL S Hn K. apply takes_seq0; [exact (takes_sep0 n L L' r sep H HL S Hn)|exact K]. Qed.
Ltac lens := repeat match goal with |- context [length (lit ?s)] => let n := eval vm_compute in (length (lit s)) in change (length (lit s)) with n end.
Ltac step := first
  [ apply takes_blank_seq; intros ? | apply takes_lit_seq; intros ?; lens | apply takes_keyword_seq; intros ?; lens | apply takes_ident_seq; intros ?
  | apply takes_ret0; lens; lia ].
Lemma takes_semi L : takes L 0 rsemi.
Proof. unfold rsemi. eapply takes_opt_seq; [apply (takes_lit L)|lia|]. intros _. step. Qed.
Lemma takes_word {A} L s (a : A) : 1 <= length (lit s) -> takes L 1 (rword s a).
Proof. intros H. unfold rword. apply takes_keyword_seq. intros _. apply takes_ret0. lia. Qed.
Lemma takes_qualifier L : takes L 1 rqualifier.
Proof. apply takes_alts. repeat apply Forall_cons; try apply Forall_nil; apply takes_word; lens; lia. Qed.
Lemma takes_qualifiers n L : L <= n -> takes L 0 (rqualifiers n).
Proof. intros H. apply (takes_sep0 n L L); [apply takes_qualifier|lia|apply takes_blank|exact H]. Qed.
Lemma takes_let_type n L : L <= n -> takes L 1 (rlet_type n).
Proof. intros H. unfold rlet_type. do 2 step. eapply takes_last; [apply takes_type|lia|lia]. Qed.
Lemma takes_func_type n L : L <= n -> takes L 1 (rfunc_type n).
Proof. intros H. unfold rfunc_type. do 2 step. eapply takes_last; [apply takes_type|lia|lia]. Qed.
Lemma takes_dot L : takes L 0 rdot.
Proof. unfold rdot. step. eapply takes_last; [apply takes_blank|reflexivity|lia]. Qed.
Lemma takes_path n L : L <= n -> takes L 0 (rpath n).
Proof. intros H. apply (takes_sep0 n L L); [apply takes_ident|lia|apply takes_dot|exact H]. Qed.

Section Fuel.
Variable fl : float_text.
Lemma takes_expr_at n L : L <= n -> takes L 1 (rexpr fl n 0).
Proof. intros H. exact (takes_weaken _ _ _ _ _ (takes_expr fl n 0) H (le_n 1)). Qed.
Lemma takes_initializer n L : L <= n -> takes L 1 (rinitializer fl n).
Proof. intros H. unfold rinitializer. do 2 step. eapply takes_last; [apply takes_expr|lia|lia]. Qed.
Lemma takes_let n L : L <= n -> takes L 1 (rlet fl n).
Proof.
  intros H. unfold rlet. do 4 step. eapply takes_opt_seq; [apply (takes_let_type n n); lia|lia|]. intros t. step.
  eapply takes_opt_seq; [apply (takes_initializer n n); lia|lia|]. intros v. do 3 step.
Qed.
Section Body.
Variables (n m : nat) (stmt : rule sexpr).
Hypothesis stmt_takes : takes m 1 stmt.
Lemma takes_statements L : L <= m -> L <= n -> takes L 0 (rstatements n stmt).
Proof. intros H K. apply (takes_sep0 n L m); [exact stmt_takes|exact H|apply takes_blank|exact K]. Qed.
Lemma takes_block L : L <= S m -> L <= S n -> takes L 1 (rblock n stmt).
Proof. intros H K. unfold rblock. do 2 step. eapply takes_sub; [apply (takes_statements (L - 1)); lia|reflexivity|]. intros b. do 3 step. Qed.
Lemma takes_while L : L <= S m -> L <= n -> takes L 1 (rwhile fl n stmt).
Proof.
  intros H K. unfold rwhile. do 2 step. eapply takes_sub; [apply (takes_expr_at n n); lia|lia|]. intros c. step.
  eapply takes_sub; [apply (takes_block (L - 5 - 1)); lia|lia|]. intros b. step. eapply takes_sub; [apply takes_semi|reflexivity|]. intros ?. step.
Qed.
Lemma takes_for L : L <= S m -> L <= n -> takes L 1 (rfor fl n stmt).
Proof.
  intros H K. unfold rfor. do 6 step. eapply takes_sub; [apply (takes_expr_at n n); lia|lia|]. intros c. step.
  eapply takes_sub; [apply (takes_block (L - 3 - 1 - 2 - 1)); lia|lia|]. intros b. step. eapply takes_sub; [apply takes_semi|reflexivity|]. intros ?. step.
Qed.
Lemma takes_if k : forall L, L <= k -> L <= S m -> L <= n -> takes L 1 (rif fl k n stmt).
Proof.
  induction k as [|k IH]; intros L HK H K; cbn [rif]; [intros i Hi; lia|]. do 2 step. eapply takes_sub; [apply (takes_expr_at n n); lia|lia|]. intros c. step.
  eapply takes_sub; [apply (takes_block (L - 2 - 1)); lia|lia|]. intros b. step.
  eapply (takes_opt_seq _ _ (L - 2 - 1 - 1) 1); [apply takes_alt|lia|].
  - do 2 step. eapply takes_last; [apply (takes_block (L - 2 - 1 - 1 - 4)); lia|lia|lia].
  - do 2 step. eapply takes_sub; [apply (IH (L - 2 - 1 - 1 - 4)); lia|lia|]. intros e. step.
  - intros f. step. eapply takes_sub; [apply takes_semi|reflexivity|]. intros ?. step.
Qed.
Lemma takes_case L : L <= S m -> L <= n -> takes L 1 (rcase fl n stmt).
Proof.
  intros H K. unfold rcase. do 2 step. eapply takes_sub; [apply (takes_expr_at n n); lia|lia|]. intros c. do 3 step.
  eapply takes_sub; [apply (takes_statements (L - 4 - 1 - 1)); lia|lia|]. intros b. step.
Qed.
Lemma takes_default L : L <= S m -> L <= n -> takes L 1 (rdefault n stmt).
Proof. intros H K. unfold rdefault. do 4 step. eapply takes_last; [apply (takes_statements (L - 7 - 1)); lia|lia|lia]. Qed.
Lemma takes_switch L : L <= S m -> L <= n -> takes L 1 (rswitch fl n stmt).
Proof.
  intros H K. unfold rswitch. do 2 step. eapply takes_sub; [apply (takes_expr_at n n); lia|lia|]. intros x. do 3 step.
  eapply (takes_sep_seq _ _ _ (L - 6 - 1 - 1)); [apply takes_case; lia|lia|apply takes_blank|lia|]. intros cs. step.
  eapply takes_opt_seq; [apply (takes_default (L - 6 - 1 - 1)); lia|lia|]. intros d. do 3 step.
  eapply takes_sub; [apply takes_semi|reflexivity|]. intros ?. step.
Qed.
Lemma takes_statement L : L <= S m -> L <= n -> takes L 1 (statement fl n stmt).
Proof.
  intros H K. apply takes_alts. repeat apply Forall_cons; try apply Forall_nil.
  - now apply takes_while.
  - now apply takes_for.
  - now apply takes_if.
  - now apply takes_switch.
  - do 2 step. eapply takes_opt_seq; [apply (takes_expr_at n n); lia|lia|]. intros v. do 3 step.
  - do 4 step.
  - now apply takes_let.
  - eapply takes_sub; [apply (takes_expr_at n n); lia|lia|]. intros c. do 3 step.
Qed.
End Body.
Lemma takes_stmt n : takes n 1 (rstmt fl n).
Proof. induction n as [|n IH]; cbn [rstmt]; [intros i Hi; lia|]. apply (takes_statement (S n) n); [exact IH|lia..]. Qed.
Lemma takes_annotation n L : L <= n -> takes L 1 (rannotation fl n).
Proof.
  intros H. unfold rannotation. do 5 step.
  eapply (takes_sep_seq _ _ _ n); [apply takes_expr_at; lia|lia|apply takes_comma0|lia|]. intros args. do 2 step.
  eapply takes_last; [apply takes_option|reflexivity|lia].
Qed.
Lemma takes_annotations n L : L <= n -> takes L 0 (rannotations fl n).
Proof. intros H. apply (takes_sep0 n L L); [now apply takes_annotation|lia|apply takes_blank|exact H]. Qed.
Lemma takes_decl n L kind : L <= n -> takes L (length (lit kind) + 1) (rdecl fl n kind).
Proof.
  intros H. unfold rdecl. eapply takes_sub; [apply (takes_annotations n L); lia|lia|]. intros anns. step.
  eapply takes_sub; [apply (takes_qualifiers n (L - 0)); lia|lia|]. intros qs. step. apply takes_keyword_seq. intros _. do 3 step. 
Qed.
Lemma takes_field n L : L <= n -> takes L 1 (rfield fl n).
Proof.
  intros H. unfold rfield. eapply takes_sub; [apply (takes_decl n L); exact H|lia|]. intros d. lens. step.
  eapply takes_sub; [apply (takes_let_type n n); lia|lia|]. intros t. step.
  eapply takes_opt_seq; [apply (takes_initializer n n); lia|lia|]. intros v. do 3 step.
Qed.
Lemma takes_param n L : L <= n -> takes L 1 (rparam n).
Proof.
  intros H. unfold rparam. eapply takes_sub; [apply (takes_qualifiers n L); lia|lia|]. intros qs. do 3 step. eapply takes_sub; [apply (takes_let_type n n); lia|lia|]. intros t. step.
Qed.
Lemma takes_function_body n L : L <= n -> takes L 1 (rfunction_body fl n).
Proof.
  intros H. apply takes_alt; [apply (takes_block n n); [apply takes_stmt|lia..]|]. do 2 step.
  eapply takes_sub; [apply (takes_expr_at n n); lia|lia|]. intros e. do 2 step.
Qed.
Lemma takes_function n L : L <= n -> takes L 1 (rfunction fl n).
Proof.
  intros H. unfold rfunction. eapply takes_sub; [apply (takes_decl n L); exact H|lia|]. intros d. lens. do 3 step.
  eapply (takes_sep_seq _ _ _ n); [apply takes_param; lia|lia|apply takes_comma0|lia|]. intros ps. do 3 step.
  eapply takes_opt_seq; [apply (takes_func_type n n); lia|lia|]. intros t. step.
  eapply takes_opt_seq; [apply (takes_function_body n n); lia|lia|]. intros b.
  eapply takes_sub; [apply takes_semi|reflexivity|]. intros ?. step.
Qed.
Lemma takes_member n L : L <= n -> takes L 1 (rmember fl n).
Proof.
  intros H. apply takes_alt; (apply (takes_sub L 1 L 1); [|apply le_n|intros ?; step]); [now apply takes_function|now apply takes_field].
Qed.
Lemma takes_members n L : L <= n -> takes L 1 (rmembers fl n).
Proof.
  intros H. unfold rmembers. do 2 step. eapply (takes_sep_seq _ _ _ n); [apply takes_member; lia|lia|apply takes_blank|lia|]. intros ms. do 3 step.
Qed.
Lemma takes_class n L : L <= n -> takes L 1 (rclass fl n).
Proof.
  intros H. unfold rclass. eapply takes_sub; [apply (takes_decl n L); exact H|lia|]. intros d. lens. step.
  eapply (takes_opt_seq _ _ n 1); [unfold rextends; do 2 step; eapply takes_last; [apply takes_ident|reflexivity|lia]|lia|].
  intros b. step. eapply takes_sub; [apply (takes_members n n); lia|lia|]. intros ms. step.
Qed.
Lemma takes_struct n L : L <= n -> takes L 1 (rstruct fl n).
Proof.
  intros H. unfold rstruct. eapply takes_sub; [apply (takes_decl n L); exact H|lia|]. intros d. lens. step. eapply takes_sub; [apply (takes_members n n); lia|lia|]. intros ms. step.
Qed.
Lemma takes_enum n L : L <= n -> takes L 1 (renum fl n).
Proof.
  intros H. unfold renum. eapply takes_sub; [apply (takes_decl n L); exact H|lia|]. intros d. lens. do 3 step.
  eapply (takes_sep_seq _ _ _ n); [|lia|apply takes_comma0|lia|].
  { unfold renum_member. do 4 step. eapply takes_sub; [apply (takes_number fl)|reflexivity|]. intros c. eapply takes_last; [apply takes_option|reflexivity|lia]. }
  intros ms. step. eapply takes_opt_seq; [apply (takes_lit n)|lia|]. intros ?. do 3 step.
Qed.
Lemma takes_entry n L : L <= n -> takes L 1 (rentry fl n).
Proof.
  intros H. apply takes_alts. repeat apply Forall_cons; try apply Forall_nil; (apply (takes_sub L 1 L 1); [|apply le_n|intros ?; step]);
    [now apply takes_function|now apply takes_class|now apply takes_struct|now apply takes_field|now apply takes_enum].
Qed.
Lemma takes_import_head n L : L <= n -> takes L 1 (rimport_head fl n).
Proof.
  intros H. unfold rimport_head. eapply takes_sub; [apply (takes_annotations n L); lia|lia|]. intros anns. do 3 step. eapply takes_sub; [apply (takes_path n n); lia|lia|]. intros p. step.
Qed.
Lemma takes_import n L : L <= n -> takes L 1 (rimport fl n).
Proof.
  intros H. apply takes_alts. repeat apply Forall_cons; try apply Forall_nil; (eapply takes_sub; [now apply takes_import_head|lia|intros [anns parts]]).
  - do 5 step.
  - do 5 step. eapply (takes_sep_seq _ _ _ n); [apply takes_ident|lia|apply takes_comma0|lia|]. intros names. do 3 step.
  - step.
Qed.
Lemma takes_module n : takes n 0 (rmodule fl n).
Proof.
  unfold rmodule. step. eapply (takes_opt_seq _ _ n 1); [unfold rmodule_path; do 2 step; eapply takes_last; [apply (takes_path n n); lia|lia|lia]|lia|].
  intros p. step. eapply (takes_sep_seq _ _ _ n); [now apply takes_import|lia|apply takes_blank|lia|]. intros is. step.
  eapply (takes_sep_seq _ _ _ n); [now apply takes_entry|lia|apply takes_blank|lia|]. intros es. do 2 step.
Qed.
End Fuel.

(** ** Aborts and rests *)
Section Clean.
Variable fl : float_text.
Ltac leaf ::= first [apply clean_contents | apply clean_string | apply clean_constant | apply clean_type | apply clean_type_args | apply clean_comma
  | apply clean_expr | apply clean_option | apply clean_number | match goal with H : clean _ |- clean _ => exact H end].
Lemma clean_semi : clean rsemi. Proof. unfold rsemi. cl. Qed.
Lemma clean_qualifiers n : clean (rqualifiers n).
Proof. unfold rqualifiers, rqualifier, rword. cl. Qed.
Lemma clean_let_type n : clean (rlet_type n). Proof. unfold rlet_type. cl. Qed.
Lemma clean_func_type n : clean (rfunc_type n). Proof. unfold rfunc_type. cl. Qed.
Lemma clean_path n : clean (rpath n). Proof. unfold rpath, rdot. cl. Qed.
Lemma clean_initializer n : clean (rinitializer fl n). Proof. unfold rinitializer. cl. Qed.
Ltac leaf ::= first [apply clean_semi | apply clean_qualifiers | apply clean_let_type | apply clean_func_type | apply clean_path | apply clean_initializer
  | apply clean_contents | apply clean_string | apply clean_constant | apply clean_type | apply clean_type_args | apply clean_comma
  | apply clean_expr | apply clean_option | apply clean_number | match goal with H : clean _ |- clean _ => exact H | H : forall _, clean _ |- clean _ => apply H end].
Lemma clean_let n : clean (rlet fl n). Proof. unfold rlet. cl. Qed.
Lemma clean_block n stmt : clean stmt -> clean (rblock n stmt). Proof. intros H. unfold rblock, rstatements. cl. Qed.
Lemma clean_if k n stmt : clean stmt -> clean (rif fl k n stmt).
Proof. intros H. induction k as [|k IH]; cbn [rif]; [intros i; split; discriminate|]. pose proof (clean_block n stmt H). cl. Qed.
Lemma clean_statement n stmt : clean stmt -> clean (statement fl n stmt).
Proof.
  intros H. pose proof (clean_block n stmt H). pose proof (clean_let n). pose proof (clean_if n n stmt H). unfold statement, rwhile, rfor, rswitch, rcase, rdefault, rstatements. cl.
Qed.
Lemma clean_stmt n : clean (rstmt fl n).
Proof. induction n as [|n IH]; cbn [rstmt]; [intros i; split; discriminate|]. now apply clean_statement. Qed.
Lemma clean_annotations n : clean (rannotations fl n). Proof. unfold rannotations, rannotation. cl. Qed.
Lemma clean_decl n kind : clean (rdecl fl n kind). Proof. pose proof (clean_annotations n). unfold rdecl. cl. Qed.
Lemma clean_field n : clean (rfield fl n). Proof. pose proof (clean_decl n "let"). unfold rfield. cl. Qed.
Lemma clean_function n : clean (rfunction fl n).
Proof. pose proof (clean_decl n "func"). pose proof (clean_block n (rstmt fl n) (clean_stmt n)). unfold rfunction, rparam, rfunction_body. cl. Qed.
Lemma clean_members n : clean (rmembers fl n). Proof. pose proof (clean_function n). pose proof (clean_field n). unfold rmembers, rmember. cl. Qed.
Lemma clean_entry n : clean (rentry fl n).
Proof.
  pose proof (clean_function n). pose proof (clean_field n). pose proof (clean_members n). pose proof (clean_decl n). unfold rentry, rclass, rstruct, renum, rextends, renum_member. cl.
Qed.
Lemma clean_import n : clean (rimport fl n).
Proof. pose proof (clean_annotations n). unfold rimport, rimport_head. apply clean_alts. repeat apply Forall_cons; try apply Forall_nil; (apply clean_seq; [cl|intros [? ?]; cl]). Qed.
Lemma clean_module n : clean (rmodule fl n).
Proof. pose proof (clean_import n). pose proof (clean_entry n). unfold rmodule, rmodule_path. cl. Qed.
End Clean.
