(** How an interpolated string is written (for C64): text, then parts of an
    expression between \( and ) and the text after it, then the closing quote. *)
From Coq Require Import ZArith List Bool.
From Verif Require Import Bytes Ast TextLiteralSpec GapSpec.
Import ListNotations.

(** [reads i e j]: an expression at the start of [i] is [e], and [j] follows it. *)
Section Parts.
Variable expression : Type.
Variable reads : list byte -> expression -> list byte -> Prop.
Definition no_gap (i : list byte) : Prop := forall t rest, i = t ++ rest -> gap t rest -> t = [].
Inductive parts_are : list byte -> list (expression * list byte) -> list byte -> Prop :=
| parts_end rest : parts_are (x22 :: rest) [] rest
| parts_more before i e after text s k parts rest :
    gap before i -> no_gap i ->
    reads i e (after ++ [x29] ++ text ++ k) -> gap after ([x29] ++ text ++ k) ->
    spells text s -> parts_are k parts rest ->
    parts_are ([x5c; x28] ++ before ++ i) ((e, s) :: parts) rest.
End Parts.
