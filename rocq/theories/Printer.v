(** Printing of expressions and statements by the decompiler.

    Models decompiler/src/print.rs 12-27, 232-454, 480-523.  What the writer receives
    is the text; [None] is a panic (indexing of missing parameters, or an expression
    the printer has no case for).  Errors of the writer are not modelled. *)
From Coq Require Import String.
From Coq Require Import ZArith List Bool Decimal.
From Verif Require Import Bytes Definitions Bundle Ast TypeNames Pool Scope TypeCheck.
Import ListNotations.
Open Scope Z_scope.

(** Texts of floating-point numbers: what [{:.2}] prints and what str::parse reads
    (print.rs 265-266, parser.rs 221-222).  The model is parametric in them. *)
Record float_text := FloatText {
  show_f32 : Z -> str; show_f64 : Z -> str;
  read_f32 : str -> option Z; read_f64 : str -> option Z }.

(** Decimal digits of a number (fmt::Display for integers). *)
Definition digit (d : Z) : byte := byte_of_Z (48 + d).
Fixpoint show_uint (u : uint) : str :=
  match u with
  | Nil => []
  | D0 u => digit 0 :: show_uint u | D1 u => digit 1 :: show_uint u | D2 u => digit 2 :: show_uint u
  | D3 u => digit 3 :: show_uint u | D4 u => digit 4 :: show_uint u | D5 u => digit 5 :: show_uint u
  | D6 u => digit 6 :: show_uint u | D7 u => digit 7 :: show_uint u | D8 u => digit 8 :: show_uint u
  | D9 u => digit 9 :: show_uint u
  end.
Definition show_nat (z : Z) : str := show_uint (N.to_uint (Z.to_N z)).
Definition show_int (z : Z) : str := if z <? 0 then lit "-" ++ show_nat (- z) else show_nat z.

(** The characters of a UTF-8 text, as code points (str::chars). *)
Fixpoint chars (s : str) : list Z :=
  match s with
  | [] => []
  | a :: s1 =>
    let a' := Z_of_byte a in
    if a' <? 128 then a' :: chars s1
    else match s1 with
    | [] => []
    | b :: s2 =>
      let b' := Z_of_byte b - 128 in
      if a' <? 224 then (a' - 192) * 64 + b' :: chars s2
      else match s2 with
      | [] => []
      | c :: s3 =>
        let c' := Z_of_byte c - 128 in
        if a' <? 240 then ((a' - 224) * 64 + b') * 64 + c' :: chars s3
        else match s3 with
        | [] => []
        | d :: s4 => (((a' - 240) * 64 + b') * 64 + c') * 64 + (Z_of_byte d - 128) :: chars s4
        end
      end
    end
  end.
(** A lower-case hexadecimal digit. *)
Definition hex_digit (d : Z) : byte := if d <? 10 then byte_of_Z (48 + d) else byte_of_Z (87 + d).
(** The hexadecimal digits of a code point, without leading zeros: a code point
    needs at most six. *)
Fixpoint show_hex (n : nat) (z : Z) : str :=
  match n with
  | O => []
  | S n' => (if z <? 16 then [] else show_hex n' (z / 16)) ++ [hex_digit (z mod 16)]
  end.
(** char::escape_default, str::escape_default. *)
Definition escape_char (c : Z) : str :=
  if c =? 9 then lit "\t" else if c =? 13 then lit "\r" else if c =? 10 then lit "\n"
  else if c =? 39 then lit "\'" else if c =? 34 then [byte_of_Z 92; byte_of_Z 34] else if c =? 92 then lit "\\"
  else if (32 <=? c) && (c <=? 126) then [byte_of_Z c]
  else lit "\u{" ++ show_hex 6 c ++ lit "}".
Definition escape (s : str) : str := concat (map escape_char (chars s)).
(** A text between double quotes. *)
Definition quote : byte := byte_of_Z 34.
Definition quoted (s : str) : str := quote :: escape s ++ [quote].

(** format_binop, format_unop (print.rs 480-515). *)
Definition format_binop (o : binop) : str :=
  match o with
  | AssignAdd => lit "+=" | AssignSubtract => lit "-=" | AssignMultiply => lit "*=" | AssignDivide => lit "/="
  | AssignOr => lit "|=" | AssignAnd => lit "&=" | LogicOr => lit "||" | LogicAnd => lit "&&"
  | BOr => lit "|" | BXor => lit "^" | Equal => lit "==" | NotEqual => lit "!=" | BAnd => lit "&"
  | Less => lit "<" | LessEqual => lit "<=" | Greater => lit ">" | GreaterEqual => lit ">="
  | BAdd => lit "+" | BSubtract => lit "-" | Multiply => lit "*" | Divide => lit "/" | Modulo => lit "%"
  end.
Definition format_unop (o : unop) : str :=
  match o with BitNot => lit "~" | LogicNot => lit "!" | Neg => lit "-" end.
(** enum ParentOp (print.rs 517-521). *)
Inductive parent_op := PUnOp | PBinOp (o : binop) | PDot.

(** str::split(';').next() (print.rs 399). *)
Fixpoint short_name (s : str) : str :=
  match s with [] => [] | b :: s' => if Byte.eqb b (byte_of_Z 59) then [] else b :: short_name s' end.

(** Concatenation of what several writes produce; a panic stops the output. *)
Fixpoint cat (l : list (option str)) : option str :=
  match l with
  | [] => Some []
  | None :: _ => None
  | Some s :: l' => match cat l' with Some t => Some (s ++ t) | None => None end
  end.
(** Parameters separated by commas (print.rs 302-308, 425-431). *)
Fixpoint commas (l : list (option str)) : option str :=
  match l with
  | [] => Some []
  | [x] => x
  | x :: l' => cat [x; Some (lit ", "); commas l']
  end.
Definition put (s : string) : option str := Some (lit s).
Arguments put s%string.
(** write_indent (print.rs 22-27): two blanks for each level. *)
Definition indent (depth : nat) : option str := Some (repeat (byte_of_Z 32) (2 * depth)).
Definition newline : option str := Some [byte_of_Z 10].

(** Conversions that are left out unless the output is verbose (print.rs 416). *)
Definition hidden (verbose : bool) (name : str) : bool :=
  (str_eqb name (lit "WeakRefToRef") || str_eqb name (lit "RefToWeakRef") || str_eqb name (lit "AsRef"))
  && negb verbose.

(** Constants (print.rs 254-268). *)
Definition show_constant (fl : float_text) (c : constant) : str :=
  match c with
  | CString LString s => quoted s
  | CString LName s => lit "n" ++ quoted s
  | CString LResource s => lit "r" ++ quoted s
  | CString LTweakDbId s => lit "t" ++ quoted s
  | CI32 v => show_int v
  | CI64 v => show_int v ++ lit "l"
  | CU32 v => show_int v ++ lit "u"
  | CU64 v => show_int v ++ lit "u"
  | CF32 v => show_f32 fl v
  | CF64 v => show_f64 fl v ++ lit "d"
  | CBool true => lit "true"
  | CBool false => lit "false"
  end.

Section Show.
Variable fl : float_text.
Variable verbose : bool.

(** Should a binary operation be between parentheses (print.rs 402-408)? *)
Definition needs_parens (o : binop) (parent : option parent_op) : bool :=
  match parent with
  | None => false
  | Some (PUnOp | PDot) => true
  | Some (PBinOp p) => negb (does_associate o p)
  end.

(** write_expr_nested, write_expr, write_seq, write_call, write_binop, write_unop
    (print.rs 232-454). *)
Fixpoint show (e : sexpr) (parent : option parent_op) (depth : nat) {struct e} : option str :=
  let plain x := show x None 0%nat in
  let seq (es : list sexpr) (d : nat) :=
    cat (map (fun x => if is_empty x then Some [] else cat [indent d; show x None d; put ";"; newline]) es) in
  let binop l r o :=
    cat [show l (Some (PBinOp o)) 0%nat; put " "; Some (format_binop o); put " "; show r (Some (PBinOp o)) 0%nat] in
  let unop a o := cat [Some (format_unop o); show a (Some PUnOp) 0%nat] in
  let call name ts (args : list sexpr) parent :=
    let fun_name := short_name name in
    match binop_of_name fun_name with
    | Some o =>
      match args with
      | l :: r :: _ => if needs_parens o parent then cat [put "("; binop l r o; put ")"] else binop l r o
      | _ => None
      end
    | None =>
      match unop_of_name fun_name with
      | Some o => match args with a :: _ => unop a o | [] => None end
      | None =>
        if hidden verbose fun_name then match args with a :: _ => plain a | [] => None end
        else
          cat [Some fun_name;
               match ts with [] => Some [] | _ => Some (lit "<" ++ join (lit ", ") (map pretty ts) ++ lit ">") end;
               put "("; commas (map plain args); put ")"]
      end
    end in
  match e with
  | EIdent n _ => Some n
  | EConstant c _ => Some (show_constant fl c)
  | ECast t x _ =>
    match parent with
    | Some _ => cat [put "("; plain x; put " as "; Some (pretty t); put ")"]
    | None => cat [plain x; put " as "; Some (pretty t)]
    end
  | EDeclare n t v _ =>
    cat [put "let "; Some n;
         match t with Some t => cat [put ": "; Some (pretty t)] | None => Some [] end;
         match v with Some v => cat [put " = "; plain v] | None => Some [] end]
  | EAssign l r _ => cat [plain l; put " = "; plain r]
  | ECall c ts args _ => call c ts args parent
  | EMethodCall o f args _ => cat [show o (Some PDot) 0%nat; put "."; call f [] args None]
  | EArrayElem a i _ => cat [plain a; put "["; plain i; put "]"]
  | ENew t args _ => cat [put "new "; Some (mangled t); put "("; commas (map (fun x => show x None depth) args); put ")"]
  | EReturn (Some x) _ => cat [put "return "; show x None depth]
  | EReturn None _ => put "return"
  | ESeq es => seq es depth
  | ESwitch x cases default _ =>
    cat [put "switch "; plain x; put " {"; newline;
         cat (map (fun c => cat [indent (depth + 1); put "case "; plain (fst c); put ":"; newline; seq (snd c) (depth + 2)%nat]) cases);
         match default with
         | Some b => cat [indent (depth + 1); put "default:"; newline; seq b (depth + 2)%nat]
         | None => Some []
         end;
         indent depth; put "}"]
  | EGoto t _ => cat [put "goto "; Some (show_int t)]
  | EIf c t f _ =>
    cat [put "if "; plain c; put " {"; newline; seq t (depth + 1)%nat; indent depth; put "}";
         match f with
         | Some b => cat [put " else {"; newline; seq b (depth + 1)%nat; indent depth; put "}"]
         | None => Some []
         end]
  | EConditional c t f _ => cat [plain c; put " ? "; plain t; put " : "; plain f]
  | EWhile c b _ => cat [put "while "; plain c; put " {"; newline; seq b (depth + 1)%nat; indent depth; put "}"]
  | EMember x m _ => cat [plain x; put "."; Some m]
  | EBinOp l r o _ => binop l r o
  | EUnOp x o _ => unop x o
  | EBreak _ => put "break"
  | ENull _ => put "null"
  | EThis _ => put "this"
  | ESuper _ => put "super"
  | EArrayLit _ _ _ | EInterpolated _ _ _ | EForIn _ _ _ _ => None
  end.
(** write_seq (print.rs 232-239). *)
Definition show_seq (es : list sexpr) (d : nat) : option str :=
  cat (map (fun x => if is_empty x then Some [] else cat [indent d; show x None d; put ";"; newline]) es).
End Show.
