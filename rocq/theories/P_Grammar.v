(** C53: reading any text as a source file. *)
From Coq Require Import String.
From Coq Require Import ZArith List Bool Lia.
From Verif Require Import Bytes Definitions DefinitionsFacts Bundle Ast TypeNames Pool Scope TypeCheck Symbols Printer Parser PrintSpec ParserFacts ParserSafe Unit Grammar GrammarFacts.
Import ListNotations.
Open Scope nat_scope.

(** Reading any text as a source file ends: with a module made of all of the text,
    with a rejection, or - only if the text has an escape that names no character - by
    aborting.  The fuel of the model plays no role. *)
Theorem C53_module_parser_ends fl i :
  match parse_module fl i with
  | PMatch _ rest => rest = []
  | PFail => True
  | PPanic => bad_escape i
  | PFuel => False
  end.
Proof.
  unfold parse_module. destruct (takes_module fl (S (length i)) i) as [T1 _]; [lia|]. destruct (clean_module fl (S (length i)) i) as [C1 _].
  destruct (rmodule fl (S (length i)) i) as [m [|b rest]| | |]; auto.
Qed.
Print Assumptions C53_module_parser_ends.
(** The same for a single statement, which takes at least one byte and leaves the rest
    of the text as it is. *)
Theorem C53_statement_parser_ends fl i :
  match rstmt fl (S (length i)) i with
  | PMatch _ rest => exists p, p <> [] /\ i = p ++ rest
  | PFail => True
  | PPanic => bad_escape i
  | PFuel => False
  end.
Proof.
  destruct (takes_stmt fl (S (length i)) i) as [T1 T2]; [lia|]. destruct (clean_stmt fl (S (length i)) i) as [C1 C2].
  destruct (rstmt fl (S (length i)) i) as [e rest| | |]; auto.
  destruct (C2 e rest eq_refl) as [p ->]. exists p. split; [|reflexivity]. intros ->. specialize (T2 e rest eq_refl). cbn [app] in T2. lia.
Qed.
Print Assumptions C53_statement_parser_ends.
(** It does abort on some file. *)
Theorem C53_module_parser_never_aborts_refuted : exists i, forall fl, parse_module fl i = PPanic.
Proof. exists (lit "let s: String = " ++ quote :: lit "\u{110000}" ++ [quote] ++ lit ";"). intros fl. vm_compute. reflexivity. Qed.
Print Assumptions C53_module_parser_never_aborts_refuted.
(** All three ends occur. *)
Example ends fl :
  parse_module fl (lit "module A.B import C.* /* a /* b */ */ @if(true) public class D extends E { let f: Int32; } // end") =
    PMatch (SourceModule (Some [lit "A"; lit "B"]) [(IAll [lit "C"] span0, [])]
      [EntryClass false (ClassSource
        (Decl [{| an_kind := AIf; an_args := [EConstant (N := source_ast) (CBool true) span0]; an_span := span0 |}] [QPublic] (lit "D") span0)
        (Some (lit "E")) [MemberField (FieldSource (Decl [] [] (lit "f") span0) (TypeName (lit "Int32") None) None)] span0)]) [] /\
  parse_module fl (lit "class A {") = PFail /\
  parse_module fl (lit "@if(" ++ quote :: lit "\u{d800}" ++ [quote] ++ lit ")") = PPanic.
Proof. vm_compute. auto. Qed.
