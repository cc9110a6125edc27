(** How enums are written (property C75). *)
From Coq Require Import String.
From Coq Require Import ZArith List Bool.
From Verif Require Import Bytes Bytecode Definitions Bundle Ast TypeNames Pool Scope TypeCheck Symbols Unit GapSpec LiteralSpec TypeTextSpec ParamTextSpec.
Import ListNotations.

(** A signed integer: perhaps a minus, digits, perhaps an l; of 64 bits with the l and
    of 32 bits without it. *)
Inductive integer_text : list byte -> Z -> Prop :=
| integer_of (minus long : bool) w z : w <> [] -> Forall LiteralSpec.digit w -> z = (if minus then - decimal w else decimal w)%Z -> in_s (if long then 64 else 32) z ->
    integer_text ((if minus then lit "-" else []) ++ w ++ (if long then lit "l" else [])) z.

(** A member: its name, an equals sign and its value. *)
Inductive enum_member_text : list byte -> str * Z -> Prop :=
| enum_member_of w g g' t z : name w -> gap g [x3d] -> gap g' t -> integer_text t z -> enum_member_text (w ++ g ++ [x3d] ++ g' ++ t) (w, z).
(** Members with commas right after them, except the last. *)
Inductive enum_members_text : list byte -> list (str * Z) -> Prop :=
| enum_one t m : enum_member_text t m -> enum_members_text t [m]
| enum_more t m g u ms : enum_member_text t m -> gap g u -> enum_members_text u ms -> enum_members_text (t ++ [x2c] ++ g ++ u) (m :: ms).
(** The end: perhaps a last comma, and the brace. *)
Inductive enum_end : list byte -> Prop :=
| end_plain g : gap g [x7d] -> enum_end (g ++ [x7d])
| end_comma g g' : gap g [x2c] -> gap g' [x7d] -> enum_end (g ++ [x2c] ++ g' ++ [x7d]).

(** Qualifiers, the word enum, the name and the members in braces. *)
Inductive enum_text : list byte -> enum_source -> Prop :=
| enum_of u qs g w g1 g2 t ms e : words_text (lit "enum") u qs -> g <> [] -> gap g w -> name w -> gap g1 [x7b] -> gap g2 t -> enum_members_text t ms -> enum_end e ->
    enum_text (u ++ lit "enum" ++ g ++ w ++ g1 ++ [x7b] ++ g2 ++ t ++ e) (EnumSource (Decl [] qs w (Span 0 0)) ms (Span 0 0)).
