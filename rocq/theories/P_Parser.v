(** C44, C45: reading any text; texts in quotes. *)
From Coq Require Import String.
From Coq Require Import ZArith List Bool Lia.
From Verif Require Import Bytes Definitions DefinitionsFacts Bundle Ast TypeNames Pool Scope TypeCheck Printer Parser PrintSpec ParserFacts TextFacts ParserSafe.
Import ListNotations.
Open Scope nat_scope.

(** Reading any text as an expression ends: with an expression and the rest of the
    text, with a rejection, or - only if the text has an escape that names no
    character - by aborting.  The fuel of the model plays no role. *)
Theorem expression_parser_ends_partial fl min i :
  match rexpr fl (S (length i)) min i with
  | PMatch _ rest => exists p, p <> [] /\ i = p ++ rest
  | PFail => True
  | PPanic => bad_escape i
  | PFuel => False
  end.
Proof.
  destruct (takes_expr fl (S (length i)) min i) as [T1 T2]; [lia|]. destruct (clean_expr fl (S (length i)) min i) as [C1 C2].
  destruct (rexpr fl (S (length i)) min i) as [e rest| | |]; auto.
  destruct (C2 e rest eq_refl) as [p ->]. exists p. split; [|reflexivity]. intros ->. specialize (T2 e rest eq_refl). cbn [app] in T2. lia.
Qed.
Print Assumptions expression_parser_ends_partial.
(** All three ends occur. *)
Example ends fl :
  (exists e, rexpr fl 20 0 (lit "a + b * (c") = PMatch e (lit " * (c")) /\
  rexpr fl 20 0 (lit ")") = PFail /\
  rexpr fl 20 0 (quote :: lit "\u{d800}" ++ [quote]) = PPanic /\
  bad_escape (quote :: lit "\u{d800}" ++ [quote]).
Proof.
  split; [vm_compute; now eexists|]. split; [vm_compute; reflexivity|]. split; [vm_compute; reflexivity|].
  exists [quote], (lit "d800"), [quote]. vm_compute. repeat split; try discriminate. lia.
Qed.
(** It does abort on some text (char::from_u32(..).unwrap(), parser.rs 238). *)
Theorem expression_parser_never_aborts_refuted : exists i, forall fl, rexpr fl (S (length i)) 0 i = PPanic.
Proof. exists (quote :: lit "\u{110000}" ++ [quote]). intros fl. vm_compute. reflexivity. Qed.
Print Assumptions expression_parser_never_aborts_refuted.

(** A printed text in quotes is read as that text, whatever follows. *)
Theorem quoted_text_reads_back s rest : utf8_valid s = true -> rstring (quoted s ++ rest) = PMatch s rest.
Proof. intros H. now apply string_read. Qed.
Print Assumptions quoted_text_reads_back.
(** Quotes, backslashes, line ends, other controls and a character of four bytes. *)
Example awkward : exists s, s = lit "a""b\c" ++ [x0a; x09; x00; xf0; x9f; x98; x80] /\ utf8_valid s = true /\
  quoted s = quote :: lit "a\""b\\c\n\t\u{0}\u{1f600}" ++ [quote].
Proof. eexists. split; [reflexivity|]. vm_compute. now split. Qed.
