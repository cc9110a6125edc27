(** How imports are written (property C74). *)
From Coq Require Import String.
From Coq Require Import ZArith List Bool.
From Verif Require Import Bytes Definitions Bundle Ast TypeNames Pool Scope TypeCheck Symbols GapSpec.
Import ListNotations.

(** Names with the mark [c] between them; blanks and comments may follow the mark. *)
Inductive names_text (c : byte) : list byte -> list (list byte) -> Prop :=
| names_one w : name w -> names_text c w [w]
| names_more w g u ws : name w -> gap g u -> names_text c u ws -> names_text c (w ++ [c] ++ g ++ u) (w :: ws).

(** The names in braces: none, or names with commas between them and a gap before. *)
Inductive braced_text : list byte -> list (list byte) -> Prop :=
| braced_none g : gap g [x7d] -> braced_text g []
| braced_some g names ws g' : gap g names -> names_text x2c names ws -> gap g' [x7d] -> braced_text (g ++ names ++ g') ws.

(** The three forms: the path alone, with .* after it, or with names in braces. *)
Inductive import_text : list byte -> import -> Prop :=
| import_exact g path parts : g <> [] -> gap g path -> names_text x2e path parts ->
    import_text (lit "import" ++ g ++ path) (IExact parts (Span 0 0))
| import_all g path parts g1 g2 : g <> [] -> gap g path -> names_text x2e path parts -> gap g1 [x2e] -> gap g2 [x2a] ->
    import_text (lit "import" ++ g ++ path ++ g1 ++ [x2e] ++ g2 ++ [x2a]) (IAll parts (Span 0 0))
| import_selected g path parts g1 g2 body ws : g <> [] -> gap g path -> names_text x2e path parts -> gap g1 [x2e] -> gap g2 [x7b] -> braced_text body ws ->
    import_text (lit "import" ++ g ++ path ++ g1 ++ [x2e] ++ g2 ++ [x7b] ++ body ++ [x7d]) (ISelected parts ws (Span 0 0)).

(** What follows does not go on with the name, nor, after blanks and comments, with a
    dot. *)
Definition ends_import (rest : list byte) : Prop :=
  ends_name rest /\ forall g rest', rest = g ++ rest' -> gap g rest' -> forall r, rest' <> x2e :: r.
