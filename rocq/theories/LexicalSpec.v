(** Names and variables of a body (specification): a name stands for the nearest
    variable declared before it, block by block. *)
From Coq Require Import String.
From Coq Require Import ZArith List Bool.
From Verif Require Import Bytes Bytecode Definitions Bundle Ast Pool Scope TypeCheck PoolSpec.
Import ListNotations.
Open Scope Z_scope.

(** What happens to names and variables, in the order of the text. *)
Inductive event (U L : Type) := Uses (u : U) | Declares (l : L) | Opens | Closes.
Arguments Uses {U L}. Arguments Declares {U L}. Arguments Opens {U L}. Arguments Closes {U L}.

(** The events of an expression, of source code or of checked code. *)
Fixpoint events {N} (e : expr N) : list (event (kRef N) (kLocal N)) :=
  let block b := Opens :: flat_map events b ++ [Closes] in
  match e with
  | EIdent r _ => [Uses r]
  | EConstant _ _ | EGoto _ _ | EThis _ | ESuper _ | EBreak _ | ENull _ => []
  | EArrayLit es _ _ | ESeq es => flat_map events es
  | EInterpolated _ parts _ => flat_map (fun x => events (fst x)) parts
  | EDeclare l _ init _ => match init with Some x => events x | None => [] end ++ [Declares l]
  | ECast _ x _ | EMember x _ _ | EUnOp x _ _ => events x
  | EAssign a b _ | EArrayElem a b _ | EBinOp a b _ _ => events a ++ events b
  | ECall _ _ args _ | ENew _ args _ => flat_map events args
  | EMethodCall x _ args _ => events x ++ flat_map events args
  | EReturn o _ => match o with Some x => events x | None => [] end
  | ESwitch x cases default _ =>
    events x ++ flat_map (fun c => events (fst c) ++ block (snd c)) cases ++ match default with Some b => block b | None => [] end
  | EIf c t f _ => events c ++ block t ++ match f with Some b => block b | None => [] end
  | EConditional c t f _ => events c ++ events t ++ events f
  | EWhile c b _ => events c ++ block b
  | EForIn l a b _ => events a ++ Opens :: Declares l :: flat_map events b ++ [Closes]
  end.
Definition body_events {N} (body : list (expr N)) : list (event (kRef N) (kLocal N)) := flat_map events body.

Definition declared {U L} (es : list (event U L)) : list L := flat_map (fun e => match e with Declares l => [l] | _ => [] end) es.

(** The variables that can be seen: a list of blocks, the innermost first. *)
Fixpoint nearest (blocks : list (amap value_ref)) (n : str) : option value_ref :=
  match blocks with
  | [] => None
  | b :: blocks' => match am_find b n with Some v => Some v | None => nearest blocks' n end
  end.

(** Source and checked code agree: a name is the nearest variable; if there is none
    it is a symbol of the module. *)
Inductive lexical (symbols : amap symbol) : list (amap value_ref) -> list (event str str) -> list (event reference pidx) -> list (amap value_ref) -> Prop :=
| lx_end st : lexical symbols st [] [] st
| lx_variable st n v a b st' : nearest st n = Some v -> lexical symbols st a b st' -> lexical symbols st (Uses n :: a) (Uses (RValue v) :: b) st'
| lx_symbol st n y a b st' : nearest st n = None -> am_find symbols n = Some y -> lexical symbols st a b st' ->
    lexical symbols st (Uses n :: a) (Uses (RSymbol y) :: b) st'
| lx_declared f st n l a b st' : lexical symbols (((n, VLocal l) :: f) :: st) a b st' -> lexical symbols (f :: st) (Declares n :: a) (Declares l :: b) st'
| lx_open st a b st' : lexical symbols ([] :: st) a b st' -> lexical symbols st (Opens :: a) (Opens :: b) st'
| lx_close f st a b st' : lexical symbols st a b st' -> lexical symbols (f :: st) (Closes :: a) (Closes :: b) st'.

(** Each declaration makes a variable of its own in the function [f]; [k] counts the
    variables, [lo] bounds the indices taken before. *)
Inductive variables (p : pool) (f : option pidx) : nat -> Z -> list str -> list pidx -> Prop :=
| va_none k lo : variables p f k lo [] []
| va_more k lo n ns l ls d x : lo <= l < Z.of_nat (length (pl_defs p)) -> get_def p l = Done d -> df_value d = DLocal x -> f = Some (df_parent d) ->
    def_name p l = Done (n ++ lit "$local$" ++ dec (Z.of_nat k)) -> variables p f (S k) (l + 1) ns ls -> variables p f k lo (n :: ns) (l :: ls).
