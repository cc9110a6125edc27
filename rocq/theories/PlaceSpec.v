(** The places that a source refers to, and that diagnostics are reported at. *)
From Coq Require Import ZArith List Bool.
From Verif Require Import Bytes Bytecode Definitions Bundle Ast Pool Scope TypeCheck Symbols Report Unit.
Import ListNotations.
Open Scope Z_scope.

Definition All {A} (P : A -> Prop) : list A -> Prop :=
  fix go l := match l with [] => True | x :: l' => P x /\ go l' end.

Section Placed.
Variable P : span -> Prop.
(** The places of all parts of an expression have [P].  The parser makes no sequences
    in the place of an expression, which would have no place of their own. *)
Fixpoint placed {N : kinds} (e : expr N) : Prop :=
  match e with
  | EIdent _ sp | EConstant _ sp | EGoto _ sp | EThis sp | ESuper sp | EBreak sp | ENull sp => P sp
  | EArrayLit es _ sp | ECall _ _ es sp | ENew _ es sp => P sp /\ All placed es
  | EInterpolated _ parts sp => P sp /\ All (fun x => placed (fst x)) parts
  | EDeclare _ _ o sp | EReturn o sp => P sp /\ match o with Some x => placed x | None => True end
  | ECast _ x sp | EMember x _ sp | EUnOp x _ sp => P sp /\ placed x
  | EAssign a b sp | EArrayElem a b sp | EBinOp a b _ sp => P sp /\ placed a /\ placed b
  | EMethodCall x _ es sp | EWhile x es sp | EForIn _ x es sp => P sp /\ placed x /\ All placed es
  | ESwitch x cases d sp => P sp /\ placed x /\ All (fun c => placed (fst c) /\ All placed (snd c)) cases /\
                            match d with Some b => All placed b | None => True end
  | EIf c t f sp => P sp /\ placed c /\ All placed t /\ match f with Some b => All placed b | None => True end
  | EConditional a b c sp => P sp /\ placed a /\ placed b /\ placed c
  | ESeq _ => False
  end.
Definition ann_placed (a : annotation) : Prop := P (an_span a) /\ All placed (an_args a).
Definition decl_placed (d : declaration) : Prop := P (dc_span d) /\ All ann_placed (dc_annotations d).
Definition fun_placed (f : function_source) : Prop := P (fs_span f) /\ decl_placed (fs_decl f) /\ match fs_body f with Some b => All placed b | None => True end.
Definition field_placed (f : field_source) : Prop := decl_placed (fd_decl f) /\ match fd_default f with Some e => placed e | None => True end.
Definition member_placed (m : member_source) : Prop := match m with MemberFunction f => fun_placed f | MemberField f => field_placed f end.
Definition class_placed (c : class_source) : Prop := P (cs_span c) /\ decl_placed (cs_decl c) /\ All member_placed (cs_members c).
Definition enum_placed (e : enum_source) : Prop := P (es_span e) /\ decl_placed (es_decl e).
Definition entry_placed (e : source_entry) : Prop :=
  match e with EntryClass _ c => class_placed c | EntryFunction f => fun_placed f | EntryLet f => field_placed f | EntryEnum e => enum_placed e end.
Definition import_placed (i : import * list annotation) : Prop :=
  match fst i with IExact _ sp | ISelected _ _ sp | IAll _ sp => P sp end /\ All ann_placed (snd i).
(** The places of all parts of a module have [P]. *)
Definition module_placed (m : source_module) : Prop := All import_placed (sm_imports m) /\ All entry_placed (sm_entries m).
(** A diagnostic is at a place with [P], and so is an error that has a place. *)
Definition diag_placed (d : diagnostic) : Prop := P (diag_span d).
Definition error_placed (e : error) : Prop := match e with SyntaxError sp | CompileError _ sp | CteError _ sp => P sp | _ => True end.
End Placed.
