(** What property C71 means: what may stand between the parts of a script. *)
From Coq Require Import ZArith List Bool.
From Verif Require Import Bytes.
Import ListNotations.

Definition opening : list byte := [x2f; x2a].
Definition closing : list byte := [x2a; x2f].
Definition slashes : list byte := [x2f; x2f].
Definition begins (p i : list byte) : Prop := exists rest, i = p ++ rest.

(** A comment: between its marks are characters that begin no mark, and comments.
    What is inside is followed by the closing mark, which counts for where marks
    begin. *)
Inductive comment : list byte -> Prop :=
| comment_of body : inside body -> comment (opening ++ body ++ closing)
with inside : list byte -> Prop :=
| inside_none : inside []
| inside_char b body : inside body -> ~ begins opening (b :: body ++ closing) -> ~ begins closing (b :: body ++ closing) -> inside (b :: body)
| inside_comment c body : comment c -> inside body -> inside (c ++ body).

(** [gap t rest]: in front of [rest], [t] is made of blanks (space, line feed,
    carriage return, tab), of comments, and of two slashes with the rest of their
    line. *)
Inductive gap : list byte -> list byte -> Prop :=
| gap_none rest : gap [] rest
| gap_blank b t rest : In b [x20; x0a; x0d; x09] -> gap t rest -> gap (b :: t) rest
| gap_comment c t rest : comment c -> gap t rest -> gap (c ++ t) rest
| gap_line w t rest : ~ In x0a w -> gap t rest -> t ++ rest = [] \/ begins [x0a] (t ++ rest) -> gap (slashes ++ w ++ t) rest.

(** The characters of names. *)
Definition letter (b : byte) : Prop := (97 <= Z_of_byte b <= 122 \/ 65 <= Z_of_byte b <= 90 \/ Z_of_byte b = 95)%Z.
Definition name_character (b : byte) : Prop := letter b \/ (48 <= Z_of_byte b <= 57)%Z.
Definition name (w : list byte) : Prop := exists b w', w = b :: w' /\ letter b /\ Forall name_character w'.
Definition ends_name (rest : list byte) : Prop := forall b rest', rest = b :: rest' -> ~ name_character b.
