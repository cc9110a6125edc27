(** How a parameter is written (property C73). *)
From Coq Require Import String.
From Coq Require Import ZArith List Bool.
From Verif Require Import Bytes Definitions Bundle Ast TypeNames Pool Scope TypeCheck Symbols Unit GapSpec TypeTextSpec.
Import ListNotations.

(** The words for qualifiers. *)
Definition qualifier_words : list (list byte * qualifier) :=
  [(lit "public", QPublic); (lit "protected", QProtected); (lit "private", QPrivate); (lit "abstract", QAbstract); (lit "static", QStatic);
   (lit "final", QFinal); (lit "const", QConst); (lit "native", QNative); (lit "exec", QExec); (lit "cb", QCallback); (lit "out", QOut);
   (lit "opt", QOptional); (lit "quest", QQuest); (lit "importonly", QImportOnly); (lit "persistent", QPersistent)].

(** Qualifiers in front of [next], each with blanks or comments after it. *)
Inductive words_text (next : list byte) : list byte -> list qualifier -> Prop :=
| words_none : words_text next [] []
| words_more k q g u qs : In (k, q) qualifier_words -> g <> [] -> gap g (u ++ next) -> words_text next u qs ->
    words_text next (k ++ g ++ u) (q :: qs).

(** Qualifiers, a name that is none of their words, a colon and a type. *)
Inductive param_text : list byte -> parameter_source -> Prop :=
| param_of u qs w before after t ty : words_text w u qs -> name w -> (forall q, ~ In (w, q) qualifier_words) ->
    gap before [x3a] -> gap after t -> type_text t ty ->
    param_text (u ++ w ++ before ++ [x3a] ++ after ++ t) (ParamSource qs w ty).
