(** How fields and functions without a body are written (property C76). *)
From Coq Require Import String.
From Coq Require Import ZArith List Bool.
From Verif Require Import Bytes Definitions Bundle Ast TypeNames Pool Scope TypeCheck Symbols Unit GapSpec TypeTextSpec ParamTextSpec.
Import ListNotations.

(** Qualifiers, the word for what is declared, and the name. *)
Inductive decl_text (word : list byte) : list byte -> declaration -> Prop :=
| decl_of u qs g w : words_text word u qs -> g <> [] -> gap g w -> name w -> decl_text word (u ++ word ++ g ++ w) (Decl [] qs w (Span 0 0)).

(** A field without a value: its declaration, a colon, its type and a semicolon. *)
Inductive field_text : list byte -> field_source -> Prop :=
| field_of i d g g1 t ty g2 : decl_text (lit "let") i d -> gap g [x3a] -> gap g1 t -> type_text t ty -> gap g2 [x3b] ->
    field_text (i ++ g ++ [x3a] ++ g1 ++ t ++ g2 ++ [x3b]) (FieldSource d ty None).

(** Parameters with commas right after them, except the last. *)
Inductive params_text : list byte -> list parameter_source -> Prop :=
| params_one t p : param_text t p -> params_text t [p]
| params_more t p g u ps : param_text t p -> gap g u -> params_text u ps -> params_text (t ++ [x2c] ++ g ++ u) (p :: ps).
Inductive in_parentheses : list byte -> list parameter_source -> Prop :=
| no_params g : gap g [x29] -> in_parentheses g []
| some_params g t ps g' : gap g t -> params_text t ps -> gap g' [x29] -> in_parentheses (g ++ t ++ g') ps.
(** The type that is returned, after an arrow, or nothing. *)
Inductive result_text : list byte -> option typename -> Prop :=
| no_result : result_text [] None
| some_result g t ty : gap g t -> type_text t ty -> result_text (lit "->" ++ g ++ t) (Some ty).

(** A function without a body. *)
Inductive signature_text : list byte -> function_source -> Prop :=
| signature_of i d g ps l g1 r ty g2 : decl_text (lit "func") i d -> gap g [x28] -> in_parentheses ps l -> gap g1 (r ++ g2 ++ [x3b]) -> result_text r ty -> gap g2 [x3b] ->
    signature_text (i ++ g ++ [x28] ++ ps ++ [x29] ++ g1 ++ r ++ g2 ++ [x3b]) (FunctionSource d ty l None (Span 0 0)).
