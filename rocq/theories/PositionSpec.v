(** What the places of a parsed file must be. *)
From Coq Require Import String.
From Coq Require Import ZArith List Bool.
From Verif Require Import Bytes Definitions Bundle Ast TypeNames Pool Scope TypeCheck Symbols Unit SourceMap P_SourceMap PlaceSpec.
Import ListNotations.
Open Scope Z_scope.

(** ** Taking the places away *)
Fixpoint unplaced {N : kinds} (e : expr N) : expr N :=
  match e with
  | EIdent r _ => EIdent r span0
  | EConstant c _ => EConstant c span0
  | EArrayLit es t _ => EArrayLit (map unplaced es) t span0
  | EInterpolated p parts _ => EInterpolated p (map (fun x => (unplaced (fst x), snd x)) parts) span0
  | EDeclare l t i _ => EDeclare l t (option_map unplaced i) span0
  | ECast t x _ => ECast t (unplaced x) span0
  | EAssign a b _ => EAssign (unplaced a) (unplaced b) span0
  | ECall f ts es _ => ECall f ts (map unplaced es) span0
  | EMethodCall x f es _ => EMethodCall (unplaced x) f (map unplaced es) span0
  | EMember x m _ => EMember (unplaced x) m span0
  | EArrayElem a b _ => EArrayElem (unplaced a) (unplaced b) span0
  | ENew t es _ => ENew t (map unplaced es) span0
  | EReturn o _ => EReturn (option_map unplaced o) span0
  | ESeq es => ESeq (map unplaced es)
  | ESwitch x cases d _ => ESwitch (unplaced x) (map (fun c => (unplaced (fst c), map unplaced (snd c))) cases) (option_map (map unplaced) d) span0
  | EGoto t _ => EGoto t span0
  | EIf c t f _ => EIf (unplaced c) (map unplaced t) (option_map (map unplaced) f) span0
  | EConditional a b c _ => EConditional (unplaced a) (unplaced b) (unplaced c) span0
  | EWhile c b _ => EWhile (unplaced c) (map unplaced b) span0
  | EForIn x a b _ => EForIn x (unplaced a) (map unplaced b) span0
  | EBinOp a b o _ => EBinOp (unplaced a) (unplaced b) o span0
  | EUnOp x o _ => EUnOp (unplaced x) o span0
  | EThis _ => EThis span0
  | ESuper _ => ESuper span0
  | EBreak _ => EBreak span0
  | ENull _ => ENull span0
  end.
Definition unplaced_annotation (a : annotation) : annotation := {| an_kind := an_kind a; an_args := map unplaced (an_args a); an_span := span0 |}.
Definition unplaced_decl (d : declaration) : declaration := Decl (map unplaced_annotation (dc_annotations d)) (dc_qualifiers d) (dc_name d) span0.
Definition unplaced_function (f : function_source) : function_source :=
  FunctionSource (unplaced_decl (fs_decl f)) (fs_type f) (fs_parameters f) (option_map (map unplaced) (fs_body f)) span0.
Definition unplaced_field (f : field_source) : field_source := FieldSource (unplaced_decl (fd_decl f)) (fd_type f) (option_map unplaced (fd_default f)).
Definition unplaced_member (m : member_source) : member_source :=
  match m with MemberFunction f => MemberFunction (unplaced_function f) | MemberField f => MemberField (unplaced_field f) end.
Definition unplaced_class (c : class_source) : class_source := ClassSource (unplaced_decl (cs_decl c)) (cs_base c) (map unplaced_member (cs_members c)) span0.
Definition unplaced_enum (e : enum_source) : enum_source := EnumSource (unplaced_decl (es_decl e)) (es_members e) span0.
Definition unplaced_entry (e : source_entry) : source_entry :=
  match e with
  | EntryClass b c => EntryClass b (unplaced_class c) | EntryFunction f => EntryFunction (unplaced_function f)
  | EntryLet f => EntryLet (unplaced_field f) | EntryEnum e => EntryEnum (unplaced_enum e)
  end.
Definition unplaced_import (i : import * list annotation) : import * list annotation :=
  (match fst i with IExact p _ => IExact p span0 | ISelected p l _ => ISelected p l span0 | IAll p _ => IAll p span0 end, map unplaced_annotation (snd i)).
Definition unplaced_module (m : source_module) : source_module :=
  SourceModule (sm_path m) (map unplaced_import (sm_imports m)) (map unplaced_entry (sm_entries m)).

(** ** Where things are *)
(** In UTF-8 a byte below 128 is a character of its own. *)
Definition ascii (b : byte) : Prop := Z_of_byte b < 128.
Definition alone (c : str) : Prop := forall b r, c = b :: r -> ascii b -> r = [].
Section Located.
(** The characters of the file, and the position of its first. *)
Variables (chars : list str) (off : Z).
(** [w] is the text at [sp]; it starts and ends between characters. *)
Definition text_at (sp : span) (w : str) : Prop :=
  exists before part after, chars = before ++ part ++ after /\ w = concat part /\
    sp = Span (off + blen (concat before)) (off + blen (concat (before ++ part))).
(** The text at [sp] is not empty, starts with [s] and ends with [t]. *)
Definition spelled (sp : span) (s t : str) : Prop :=
  exists w, text_at sp w /\ w <> [] /\ (exists u, w = s ++ u) /\ (exists v, w = v ++ t).
Definition inside (outer inner : span) : Prop := sp_low outer <= sp_low inner /\ sp_high inner <= sp_high outer.

(** The text of a part: a name stands at its place, and everything that starts or
    ends with a word or sign does so in the text. *)
Definition spelling (e : sexpr) : Prop :=
  match e with
  | EIdent x sp => text_at sp x /\ x <> []
  | EThis sp => text_at sp (lit "this")
  | ESuper sp => text_at sp (lit "super")
  | ENull sp => text_at sp (lit "null")
  | EArrayLit _ _ sp => spelled sp (lit "[") (lit "]")
  | EInterpolated _ _ sp => spelled sp [x73; x22] [x22]
  | ENew _ _ sp => spelled sp (lit "new") (lit ")")
  | ECall f _ _ sp => spelled sp f (lit ")")
  | EMethodCall _ _ _ sp => spelled sp [] (lit ")")
  | EMember _ m sp => spelled sp [] m
  | EArrayElem _ _ sp => spelled sp [] (lit "]")
  | EDeclare _ _ _ sp => spelled sp (lit "let") (lit ";")
  | EReturn _ sp => spelled sp (lit "return") (lit ";") \/ spelled sp (lit "=") []
  | EBreak sp => spelled sp (lit "break") (lit ";")
  | EWhile _ _ sp => spelled sp (lit "while") []
  | EForIn _ _ _ sp => spelled sp (lit "for") []
  | EIf _ _ _ sp => spelled sp (lit "if") []
  | ESwitch _ _ _ sp => spelled sp (lit "switch") []
  | EConstant _ sp | ECast _ _ sp | EAssign _ _ sp | EConditional _ _ _ sp | EBinOp _ _ _ sp | EUnOp _ _ sp => spelled sp [] []
  | EGoto _ _ | ESeq _ => False
  end.
(** Every part is inside of what it is a part of, and has its text. *)
Fixpoint located (outer : span) (e : sexpr) : Prop :=
  inside outer (expr_span e) /\ spelling e /\
  match e with
  | EIdent _ _ | EConstant _ _ | EGoto _ _ | EThis _ | ESuper _ | EBreak _ | ENull _ | ESeq _ => True
  | EArrayLit es _ sp | ECall _ _ es sp | ENew _ es sp => All (located sp) es
  | EInterpolated _ parts sp => All (fun x => located sp (fst x)) parts
  | EDeclare _ _ o sp | EReturn o sp => match o with Some x => located sp x | None => True end
  | ECast _ x sp | EMember x _ sp | EUnOp x _ sp => located sp x
  | EAssign a b sp | EArrayElem a b sp | EBinOp a b _ sp => located sp a /\ located sp b
  | EMethodCall x _ es sp | EWhile x es sp | EForIn _ x es sp => located sp x /\ All (located sp) es
  | ESwitch x cases d sp => located sp x /\ All (fun c => located sp (fst c) /\ All (located sp) (snd c)) cases /\
                            match d with Some b => All (located sp) b | None => True end
  | EIf c t f sp => located sp c /\ All (located sp) t /\ match f with Some b => All (located sp) b | None => True end
  | EConditional a b c sp => located sp a /\ located sp b /\ located sp c
  end.
Definition ann_located (outer : span) (a : annotation) : Prop :=
  inside outer (an_span a) /\ spelled (an_span a) (lit "@") (lit ")") /\ All (located (an_span a)) (an_args a).
(** The place of a declaration ends with the declared name. *)
Definition decl_located (outer : span) (d : declaration) : Prop :=
  inside outer (dc_span d) /\ spelled (dc_span d) [] (dc_name d) /\ dc_name d <> [] /\ All (ann_located (dc_span d)) (dc_annotations d).
Definition fun_located (outer : span) (f : function_source) : Prop :=
  inside outer (fs_span f) /\ spelled (fs_span f) [] [] /\ sp_low (dc_span (fs_decl f)) = sp_low (fs_span f) /\
  decl_located (fs_span f) (fs_decl f) /\ match fs_body f with Some b => All (located (fs_span f)) b | None => True end.
Definition field_located (outer : span) (f : field_source) : Prop :=
  decl_located outer (fd_decl f) /\ match fd_default f with Some e => located outer e | None => True end.
Definition member_located (outer : span) (m : member_source) : Prop :=
  match m with MemberFunction f => fun_located outer f | MemberField f => field_located outer f end.
Definition class_located (outer : span) (c : class_source) : Prop :=
  inside outer (cs_span c) /\ spelled (cs_span c) [] (lit "}") /\ sp_low (dc_span (cs_decl c)) = sp_low (cs_span c) /\
  decl_located (cs_span c) (cs_decl c) /\ All (member_located (cs_span c)) (cs_members c).
Definition enum_located (outer : span) (e : enum_source) : Prop :=
  inside outer (es_span e) /\ spelled (es_span e) [] (lit "}") /\ sp_low (dc_span (es_decl e)) = sp_low (es_span e) /\ decl_located (es_span e) (es_decl e).
Definition entry_located (outer : span) (e : source_entry) : Prop :=
  match e with
  | EntryClass _ c => class_located outer c | EntryFunction f => fun_located outer f
  | EntryLet f => field_located outer f | EntryEnum e => enum_located outer e
  end.
Definition import_located (outer : span) (i : import * list annotation) : Prop :=
  let sp := match fst i with IExact _ sp | ISelected _ _ sp | IAll _ sp => sp end in
  inside outer sp /\ spelled sp [] (match fst i with IExact _ _ => [] | ISelected _ _ _ => lit "}" | IAll _ _ => lit "*" end) /\
  All (ann_located sp) (snd i).
Definition module_located (m : source_module) : Prop :=
  let file := Span off (off + blen (concat chars)) in
  All (import_located file) (sm_imports m) /\ All (entry_located file) (sm_entries m).
End Located.
