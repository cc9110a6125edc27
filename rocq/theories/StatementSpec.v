(** What it means that printed statements are read back. *)
From Coq Require Import String.
From Coq Require Import ZArith List Bool.
From Verif Require Import Bytes Definitions Bundle Ast TypeNames Pool Scope TypeCheck Symbols Printer Parser PrintSpec Unit Grammar.
Import ListNotations.
Open Scope Z_scope.

(** The statements of a body that say something. *)
Definition worded (es : list sexpr) : list sexpr := filter (fun x => negb (is_empty x)) es.
(** [same_statement v s s']: the statement [s'] of the source language says what the
    statement [s] of the decompiler says: expressions are the [same], the kind of
    statement, the names and the types are equal, bodies have the same statements in
    the same order, not counting empty ones. *)
Inductive same_statement (v : bool) : sexpr -> sexpr -> Prop :=
| same_expression e e' : same v e e' -> same_statement v e e'
| same_declare n t s s' : same_statement v (EDeclare (N := source_ast) n t None s) (EDeclare (N := source_ast) n t None s')
| same_declare_as n t e e' s s' : same v e e' ->
  same_statement v (EDeclare (N := source_ast) n t (Some e) s) (EDeclare (N := source_ast) n t (Some e') s')
| same_return s s' : same_statement v (EReturn (N := source_ast) None s) (EReturn (N := source_ast) None s')
| same_return_of e e' s s' : same v e e' ->
  same_statement v (EReturn (N := source_ast) (Some e) s) (EReturn (N := source_ast) (Some e') s')
| same_break s s' : same_statement v (EBreak (N := source_ast) s) (EBreak (N := source_ast) s')
| same_while c b s c' b' s' : same v c c' -> Forall2 (same_statement v) (worded b) b' ->
  same_statement v (EWhile (N := source_ast) c b s) (EWhile (N := source_ast) c' b' s')
| same_if c t s c' t' s' : same v c c' -> Forall2 (same_statement v) (worded t) t' ->
  same_statement v (EIf (N := source_ast) c t None s) (EIf (N := source_ast) c' t' None s')
| same_if_else c t f s c' t' f' s' : same v c c' -> Forall2 (same_statement v) (worded t) t' -> Forall2 (same_statement v) (worded f) f' ->
  same_statement v (EIf (N := source_ast) c t (Some f) s) (EIf (N := source_ast) c' t' (Some f') s')
| same_switch x cs s x' cs' s' : same v x x' ->
  Forall2 (fun c c' => same v (fst c) (fst c') /\ Forall2 (same_statement v) (worded (snd c)) (snd c')) cs cs' ->
  same_statement v (ESwitch (N := source_ast) x cs None s) (ESwitch (N := source_ast) x' cs' None s')
| same_switch_default x cs d s x' cs' d' s' : same v x x' ->
  Forall2 (fun c c' => same v (fst c) (fst c') /\ Forall2 (same_statement v) (worded (snd c)) (snd c')) cs cs' ->
  Forall2 (same_statement v) (worded d) d' ->
  same_statement v (ESwitch (N := source_ast) x cs (Some d) s) (ESwitch (N := source_ast) x' cs' (Some d') s').
Definition same_body (v : bool) (es es' : list sexpr) : Prop := Forall2 (same_statement v) (worded es) es'.

(** The body of a function as the decompiler prints it (print.rs 194-229). *)
Definition printed_body (fl : float_text) (v : bool) (es : list sexpr) (depth : nat) : option str :=
  cat [put "{"; newline; show_seq fl v es (depth + 1); indent depth; put "}"].
(** Reading back a body, whatever follows it. *)
Definition body_reads_back (fl : float_text) (v : bool) (es : list sexpr) (depth : nat) : Prop :=
  exists t es', printed_body fl v es depth = Some t /\ same_body v es es' /\
    forall n rest, (length (t ++ rest) < n)%nat -> rfunction_body fl n (t ++ rest) = PMatch es' rest.

(** How the text of an expression starts: with a word or with another character. *)
Inductive head := HWord (w : str) | HMark (b : byte).
Section Fragment.
Variable v : bool.
Fixpoint text_head (parent : option parent_op) (e : sexpr) : head :=
  match e with
  | EIdent n _ => HWord n
  | EConstant (CString LString _) _ => HMark quote
  | EConstant (CString LName _) _ => HWord (lit "n")
  | EConstant (CString LResource _) _ => HWord (lit "r")
  | EConstant (CString LTweakDbId _) _ => HWord (lit "t")
  | EConstant (CBool true) _ => HWord (lit "true")
  | EConstant (CBool false) _ => HWord (lit "false")
  | EConstant _ _ => HMark (digit 0)
  | ENull _ => HWord (lit "null")
  | EThis _ => HWord (lit "this")
  | ESuper _ => HWord (lit "super")
  | ECall c _ args _ =>
    match binop_of_name (short_name c), args with
    | Some o, l :: _ => if needs_parens o parent then HMark x28 else text_head (Some (PBinOp o)) l
    | Some o, [] => HMark x28
    | None, _ =>
      match unop_of_name (short_name c) with
      | Some BitNot => HMark x7e
      | Some LogicNot => HMark x21
      | Some Neg => HMark x2d
      | None => if hidden v (short_name c) then match args with a :: _ => text_head None a | [] => HMark x28 end else HWord (short_name c)
      end
    end
  | EMethodCall o _ _ _ => text_head (Some PDot) o
  | EMember x _ _ => text_head None x
  | EArrayElem a _ _ => text_head None a
  | ENew _ _ _ => HWord (lit "new")
  | ECast _ x _ => match parent with Some _ => HMark x28 | None => text_head None x end
  | EConditional c _ _ _ => text_head None c
  | EAssign l _ _ => text_head None l
  | _ => HMark x28
  end.
(** The words that start statements which are no expressions. *)
Definition statement_words : list str :=
  [lit "while"; lit "for"; lit "if"; lit "switch"; lit "return"; lit "break"; lit "let"].

(** Statements that the printer writes so that they can be read: their expressions are
    kept apart ([levels_ok]), a statement that is an expression does not start with a
    word for another statement, what is compared in a switch starts with a word or a
    literal, and there are no blocks without a head and no jumps. *)
Variable strict : bool.
Fixpoint stmt_ok (s : sexpr) : bool :=
  let body es := forallb (fun x => is_empty x || stmt_ok x) es in
  match s with
  | EDeclare n t e _ =>
    is_name n && match t with Some t => type_ok t | None => true end && match e with Some e => levels_ok v strict e | None => true end
  | EReturn e _ => match e with Some e => levels_ok v strict e | None => true end
  | EBreak _ => true
  | EWhile c b _ => levels_ok v strict c && body b
  | EIf c t f _ => levels_ok v strict c && body t && match f with Some f => body f | None => true end
  | ESwitch x cs d _ =>
    levels_ok v strict x &&
    forallb (fun c => levels_ok v strict (fst c) &&
      match text_head None (fst c) with HWord w => negb (str_eqb w (lit "as")) | HMark b => negb (Byte.eqb b x28 || Byte.eqb b x2d || Byte.eqb b x21 || Byte.eqb b x7e) end &&
      body (snd c)) cs &&
    match d with Some b => body b | None => true end
  | e => levels_ok v strict e && match text_head None e with HWord w => negb (existsb (str_eqb w) statement_words) | HMark _ => true end
  end.
Definition body_ok (es : list sexpr) : bool := forallb (fun x => is_empty x || stmt_ok x) es.
(** The statement that the printed text denotes. *)
Fixpoint said (s : sexpr) : sexpr :=
  let body es := flat_map (fun x => if is_empty x then [] else [said x]) es in
  let den := denoted v None None in
  match s with
  | EDeclare n t e _ => EDeclare (N := source_ast) n t (option_map den e) span0
  | EReturn e _ => EReturn (N := source_ast) (option_map den e) span0
  | EBreak _ => EBreak (N := source_ast) span0
  | EWhile c b _ => EWhile (N := source_ast) (den c) (body b) span0
  | EIf c t f _ => EIf (N := source_ast) (den c) (body t) (option_map body f) span0
  | ESwitch x cs d _ => ESwitch (N := source_ast) (den x) (map (fun c => (den (fst c), body (snd c))) cs) (option_map body d) span0
  | e => den e
  end.
Definition said_all (es : list sexpr) : list sexpr := flat_map (fun x => if is_empty x then [] else [said x]) es.
End Fragment.
