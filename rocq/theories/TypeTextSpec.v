(** How a type is written (property C72). *)
From Coq Require Import ZArith List Bool.
From Verif Require Import Bytes Bytecode Bundle Ast GapSpec.
Import ListNotations.

(** A name alone, or followed by types between < and >, with commas between them.
    Blanks and comments may stand after < and after a comma, and before >.  Empty
    brackets are as none. *)
Inductive type_text : list byte -> typename -> Prop :=
| type_name w : name w -> type_text w (TypeName w None)
| type_empty w g : name w -> gap g [x3e] -> type_text (w ++ [x3c] ++ g ++ [x3e]) (TypeName w None)
| type_args w before u tys after : name w -> args_text u tys -> gap before u -> gap after [x3e] ->
    type_text (w ++ [x3c] ++ before ++ u ++ after ++ [x3e]) (TypeName w (Some tys))
with args_text : list byte -> list typename -> Prop :=
| args_one t ty : type_text t ty -> args_text t [ty]
| args_more t ty g u tys : type_text t ty -> gap g u -> args_text u tys -> args_text (t ++ [x2c] ++ g ++ u) (ty :: tys).

(** What follows a type goes on neither the name nor with arguments. *)
Definition ends_type (rest : list byte) : Prop := ends_name rest /\ forall rest', rest <> x3c :: rest'.
