(** The grammar of expressions and statements.

    Models compiler/src/parser.rs 162-481: the rules for blanks and comments,
    identifiers, numbers, texts, types, expressions and statements.  A rule takes the
    input that is left and yields a value and the input that is left then, fails, or
    panics.  Choices are ordered and do not come back, as in rust-peg.  The text is
    the list of its bytes; a rule that matches one character other than a given one
    takes one byte here, and collects the same text.  Positions are left out: every
    span of a parsed expression is [span0].  [PFuel] stands for running out of the
    model's fuel; ParserFacts proves that it is not reached.  Modules, declarations,
    annotations and the texts of error messages are not modelled. *)
From Coq Require Import String.
From Coq Require Import ZArith List Bool Decimal.
From Verif Require Import Bytes Definitions Bundle Ast TypeNames Pool Scope TypeCheck Printer.
Import ListNotations.
Open Scope Z_scope.

(** RuleResult (rust-peg), with panics and fuel. *)
Inductive pres (A : Type) := PMatch (a : A) (rest : list byte) | PFail | PPanic | PFuel.
Arguments PMatch {A}. Arguments PFail {A}. Arguments PPanic {A}. Arguments PFuel {A}.
Definition rule (A : Type) : Type := list byte -> pres A.
Definition rret {A} (a : A) : rule A := fun i => PMatch a i.
Definition rseq {A B} (r : rule A) (k : A -> rule B) : rule B :=
  fun i => match r i with PMatch a i' => k a i' | PFail => PFail | PPanic => PPanic | PFuel => PFuel end.
Notation "'the' x <- m ; k" := (rseq m (fun x => k)) (at level 200, x pattern, right associativity).
(** Ordered choice. *)
Definition ralt {A} (r s : rule A) : rule A :=
  fun i => match r i with PFail => s i | x => x end.
Definition ralts {A} (l : list (rule A)) : rule A := fold_right ralt (fun _ => PFail) l.
(** r? *)
Definition ropt {A} (r : rule A) : rule (option A) :=
  fun i => match r i with PMatch a i' => PMatch (Some a) i' | PFail => PMatch None i | PPanic => PPanic | PFuel => PFuel end.
(** r*: [n] bounds the number of repetitions. *)
Fixpoint rmany {A} (n : nat) (r : rule A) : rule (list A) :=
  fun i => match n with
  | O => PFuel
  | S n' => match r i with
            | PMatch a i' => match rmany n' r i' with PMatch l i'' => PMatch (a :: l) i'' | x => x end
            | PFail => PMatch [] i
            | PPanic => PPanic
            | PFuel => PFuel
            end
  end.
(** r ** sep: after a separator without an element the separator is not consumed. *)
Definition rsep {A} (n : nat) (r : rule A) (sep : rule unit) : rule (list A) :=
  fun i => match r i with
  | PMatch a i' => match rmany n (the _ <- sep; r) i' with PMatch l i'' => PMatch (a :: l) i'' | x => x end
  | PFail => PMatch [] i
  | PPanic => PPanic
  | PFuel => PFuel
  end.

(** A literal text. *)
Fixpoint strip (s : str) (i : list byte) : option (list byte) :=
  match s, i with
  | [], _ => Some i
  | _, [] => None
  | a :: s', b :: i' => if Byte.eqb a b then strip s' i' else None
  end.
Definition rlit (s : str) : rule unit := fun i => match strip s i with Some i' => PMatch tt i' | None => PFail end.

(** Classes of characters (parser.rs 167, 212, 216). *)
Definition in_range (lo hi : Z) (b : byte) : bool := (lo <=? Z_of_byte b) && (Z_of_byte b <=? hi).
Definition is_digit (b : byte) : bool := in_range 48 57 b.
Definition is_alpha (b : byte) : bool := in_range 97 122 b || in_range 65 90 b || in_range 95 95 b.
Definition is_word_char (b : byte) : bool := is_digit b || is_alpha b.
Definition is_blank (b : byte) : bool := in_range 32 32 b || in_range 10 10 b || in_range 13 13 b || in_range 9 9 b.

(** The rest of a comment (parser.rs 171-175); [d] counts the comments that are open
    inside it, where the grammar recurses. *)
Fixpoint comment_rest (d : nat) (i : list byte) : option (list byte) :=
  match i with
  | [] => None
  | a :: i1 =>
    match i1 with
    | [] => None
    | b :: i2 =>
      if Byte.eqb a x2a && Byte.eqb b x2f then match d with O => Some i2 | S d' => comment_rest d' i2 end
      else if Byte.eqb a x2f && Byte.eqb b x2a then comment_rest (S d) i2
      else comment_rest d i1
    end
  end.
(** The rest of a line (parser.rs 177). *)
Fixpoint line_rest (i : list byte) : list byte :=
  match i with [] => [] | b :: i' => if Byte.eqb b x0a then i else line_rest i' end.
(** One blank or comment (parser.rs 167). *)
Definition blank_step (i : list byte) : option (list byte) :=
  match i with
  | [] => None
  | b :: i' =>
    if is_blank b then Some i' else
    match strip (lit "/*") i with
    | Some i1 => match comment_rest 0 i1 with Some i2 => Some i2 | None => None end
    | None => match strip (lit "//") i with Some i1 => Some (line_rest i1) | None => None end
    end
  end.
(** rule _ (parser.rs 167): it always matches.  Every step takes a byte, so the
    length of the input bounds the number of steps. *)
Fixpoint blanks_n (n : nat) (i : list byte) : list byte :=
  match n with O => i | S n' => match blank_step i with Some i' => blanks_n n' i' | None => i end end.
Definition blanks (i : list byte) : list byte := blanks_n (length i) i.
Definition rblank : rule unit := fun i => PMatch tt (blanks i).

(** The longest prefix of characters of a class, and the rest. *)
Fixpoint span_of (f : byte -> bool) (i : list byte) : str * list byte :=
  match i with
  | [] => ([], [])
  | b :: i' => if f b then let '(w, r) := span_of f i' in (b :: w, r) else ([], i)
  end.
(** rule ident (parser.rs 210-214). *)
Definition rident : rule str :=
  fun i => match i with
  | [] => PFail
  | b :: i' => if is_alpha b then let '(w, r) := span_of is_word_char i' in PMatch (b :: w) r else PFail
  end.
(** rule keyword (parser.rs 216-217). *)
Definition rkeyword (s : str) : rule unit :=
  fun i => match strip s i with
  | None => PFail
  | Some [] => PMatch tt []
  | Some (b :: i') => if is_word_char b then PFail else PMatch tt (b :: i')
  end.

(** Reading of digits (str::parse for the integer types): the text is digits with an
    optional sign, as rule number passes it. *)
Fixpoint read_uint (s : str) : option uint :=
  match s with
  | [] => Some Nil
  | b :: s' =>
    match read_uint s' with
    | None => None
    | Some u =>
      match Z_of_byte b - 48 with
      | 0 => Some (D0 u) | 1 => Some (D1 u) | 2 => Some (D2 u) | 3 => Some (D3 u) | 4 => Some (D4 u)
      | 5 => Some (D5 u) | 6 => Some (D6 u) | 7 => Some (D7 u) | 8 => Some (D8 u) | 9 => Some (D9 u)
      | _ => None
      end
    end
  end.
Definition read_nat (s : str) : option Z :=
  match s with [] => None | _ => match read_uint s with Some u => Some (Z.of_N (N.of_uint u)) | None => None end end.
(** str::parse::<iN> and str::parse::<uN>: a sign is not accepted for the latter. *)
Definition read_int (signed : bool) (lo hi : Z) (s : str) : option Z :=
  let v := match s with
           | b :: s' => if Byte.eqb b x2d then if signed then option_map Z.opp (read_nat s') else None else read_nat s
           | [] => None
           end in
  match v with Some z => if (lo <=? z) && (z <? hi) then Some z else None | None => None end.
Definition read_i32 := read_int true (- 2 ^ 31) (2 ^ 31).
Definition read_i64 := read_int true (- 2 ^ 63) (2 ^ 63).
Definition read_u32 := read_int false 0 (2 ^ 32).
Definition read_u64 := read_int false 0 (2 ^ 64).

(** The value of hexadecimal digits (u32::from_str_radix). *)
Definition hex_value (b : byte) : Z :=
  if is_digit b then Z_of_byte b - 48 else if in_range 97 102 b then Z_of_byte b - 87 else Z_of_byte b - 55.
Definition is_hex (b : byte) : bool := is_digit b || in_range 97 102 b || in_range 65 70 b.
Definition read_hex (s : str) : Z := fold_left (fun v b => v * 16 + hex_value b) s 0.
(** Up to [n] characters of a class. *)
Fixpoint span_upto (n : nat) (f : byte -> bool) (i : list byte) : str * list byte :=
  match n, i with
  | S n', b :: i' => if f b then let '(w, r) := span_upto n' f i' in (b :: w, r) else ([], i)
  | _, _ => ([], i)
  end.
(** char::from_u32: surrogates and numbers above 10FFFF are no characters. *)
Definition is_char (z : Z) : bool := ((0 <=? z) && (z <? 55296)) || ((57344 <=? z) && (z <? 1114112)).
(** The UTF-8 encoding of a character (String: FromIterator<char>). *)
Definition utf8 (z : Z) : str :=
  if z <? 128 then [byte_of_Z z]
  else if z <? 2048 then [byte_of_Z (192 + z / 64); byte_of_Z (128 + z mod 64)]
  else if z <? 65536 then [byte_of_Z (224 + z / 4096); byte_of_Z (128 + z / 64 mod 64); byte_of_Z (128 + z mod 64)]
  else [byte_of_Z (240 + z / 262144); byte_of_Z (128 + z / 4096 mod 64); byte_of_Z (128 + z / 64 mod 64); byte_of_Z (128 + z mod 64)].

(** rule escaped_char (parser.rs 229-240): the bytes of the character. *)
Definition backslash : byte := x5c.
Definition rescape (s : string) (c : Z) : rule str := the _ <- rlit (lit s); rret [byte_of_Z c].
Arguments rescape s%string.
Definition rplain_char : rule str :=
  fun i => match i with
  | [] => PFail
  | b :: i' => if Byte.eqb b backslash || Byte.eqb b quote then PFail else PMatch [b] i'
  end.
Definition runicode : rule str :=
  the _ <- rlit (lit "\u{");
  fun i => let '(w, r) := span_upto 6 is_hex i in
           match w with
           | [] => PFail
           | _ => (the _ <- rlit (lit "}"); fun j => if is_char (read_hex w) then PMatch (utf8 (read_hex w)) j else PPanic) r
           end.
Definition rescaped_char : rule str :=
  ralts [rplain_char; rescape "\n" 10; rescape "\r" 13; rescape "\t" 9; rescape "\'" 39;
         (the _ <- rlit [backslash; quote]; rret [quote]); rescape "\\" 92; runicode].
(** rules string_contents, escaped_string (parser.rs 242-246). *)
Definition rcontents : rule str := fun i => (the l <- rmany (S (length i)) rescaped_char; rret (concat l)) i.
Definition rstring : rule str := the _ <- rlit [quote]; the s <- rcontents; the _ <- rlit [quote]; rret s.

(** rule type_, type_args (parser.rs 268-270); [n] bounds the nesting and the number
    of arguments. *)
Definition rcomma : rule unit := the _ <- rlit (lit ","); rblank.
Fixpoint rtype (n : nat) : rule typename :=
  match n with
  | O => fun _ => PFuel
  | S n' =>
    the name <- rident;
    the args <- ropt (the _ <- rlit (lit "<"); the _ <- rblank; the l <- rsep n (rtype n') rcomma; the _ <- rblank; the _ <- rlit (lit ">"); rret l);
    rret (tn_new name (match args with Some l => l | None => [] end))
  end.
Definition rtype_args (n : nat) : rule (list typename) :=
  the _ <- rlit (lit "<"); the _ <- rblank; the l <- rsep n (rtype n) rcomma; the _ <- rblank; the _ <- rlit (lit ">"); rret l.

Section Parse.
Variable fl : float_text.

(** rule number (parser.rs 219-227). *)
Definition of_option {A B} (f : A -> B) (o : option A) : rule B :=
  fun i => match o with Some a => PMatch (f a) i | None => PFail end.
Definition rnumber : rule constant :=
  fun i =>
  let '(sign, i1) := match i with b :: i' => if Byte.eqb b x2d then ([b], i') else ([], i) | [] => ([], i) end in
  let '(w, i2) := span_of (fun b => is_digit b || in_range 46 46 b) i1 in
  match w with
  | [] => PFail
  | _ =>
    let s := sign ++ w in
    (the unsigned <- ropt (rlit (lit "u"));
     the postfix <- ropt (ralt (the _ <- rlit (lit "l"); rret true) (the _ <- rlit (lit "d"); rret false));
     match postfix with
     | Some false => of_option CF64 (read_f64 fl s)
     | _ =>
       if existsb (in_range 46 46) s then of_option CF32 (read_f32 fl s)
       else match postfix, unsigned with
            | Some true, Some _ => of_option CU64 (read_u64 s)
            | _, Some _ => of_option CU32 (read_u32 s)
            | Some true, None => of_option CI64 (read_i64 s)
            | _, None => of_option CI32 (read_i32 s)
            end
     end) i2
  end.
(** rules literal_type, constant (parser.rs 196-199, 259-264). *)
Definition rliteral_type : rule literal :=
  ralts [the _ <- rlit (lit "n"); rret LName; the _ <- rlit (lit "r"); rret LResource; the _ <- rlit (lit "t"); rret LTweakDbId].
Definition rconstant : rule constant :=
  ralts [the _ <- rkeyword (lit "true"); rret (CBool true);
         the _ <- rkeyword (lit "false"); rret (CBool false);
         rnumber;
         the t <- ropt rliteral_type; the s <- rstring; rret (CString (match t with Some t => t | None => LString end) s)].

(** Rules of the expression table (parser.rs 390-479).  [rec m] is the expression
    with the operators of level [m] and up; the levels are numbered from 0.  A rule
    whose first element is the operand [@] extends the expression [x] read so far. *)
Definition binary (rec : nat -> rule sexpr) (op : string) (level : nat) (f : sexpr -> sexpr -> sexpr) (x : sexpr) : rule sexpr :=
  the _ <- rblank; the _ <- rlit (lit op); the _ <- rblank; the y <- rec level; rret (f x y).
Arguments binary rec op%string level%nat.
(** fn binop, fn unop (parser.rs 483-493). *)
Definition mk_bin (o : binop) (x y : sexpr) : sexpr := EBinOp (N := source_ast) x y o span0.
Definition mk_un (o : unop) (x : sexpr) : sexpr := EUnOp (N := source_ast) x o span0.
Definition rargs (n : nat) (rec : nat -> rule sexpr) : rule (list sexpr) :=
  the _ <- rlit (lit "("); the _ <- rblank; the l <- rsep n (rec 0%nat) rcomma; the _ <- rblank; the _ <- rlit (lit ")"); rret l.

(** A rule of the table holds from a level on. *)
Definition at_level (l min : nat) {A} (r : rule A) : rule A := if (min <=? l)%nat then r else fun _ => PFail.

Arguments at_level (l min)%nat {A} r.

(** What may follow an operand, in the order of the table. *)
Definition extend (n : nat) (rec : nat -> rule sexpr) (min : nat) (x : sexpr) : rule sexpr :=
  ralts
   [at_level 0 min (the _ <- rblank; the _ <- rlit (lit "?"); the _ <- rblank; the y <- rec 0%nat; the _ <- rblank; the _ <- rlit (lit ":");
       the _ <- rblank; the z <- rec 0%nat; rret (EConditional (N := source_ast) x y z span0));
    at_level 0 min (binary rec "=" 0 (fun x y => EAssign (N := source_ast) x y span0) x);
    at_level 0 min (binary rec "+=" 0 (mk_bin AssignAdd) x);
    at_level 0 min (binary rec "-=" 0 (mk_bin AssignSubtract) x);
    at_level 0 min (binary rec "*=" 0 (mk_bin AssignMultiply) x);
    at_level 0 min (binary rec "/=" 0 (mk_bin AssignDivide) x);
    at_level 0 min (binary rec "|=" 0 (mk_bin AssignOr) x);
    at_level 0 min (binary rec "&=" 0 (mk_bin AssignAnd) x);
    at_level 1 min (binary rec "||" 2 (mk_bin LogicOr) x);
    at_level 2 min (binary rec "&&" 3 (mk_bin LogicAnd) x);
    at_level 3 min (binary rec "|" 4 (mk_bin BOr) x);
    at_level 4 min (binary rec "^" 5 (mk_bin BXor) x);
    at_level 5 min (binary rec "&" 6 (mk_bin BAnd) x);
    at_level 6 min (binary rec "==" 7 (mk_bin Equal) x);
    at_level 6 min (binary rec "!=" 7 (mk_bin NotEqual) x);
    at_level 7 min (binary rec "<" 8 (mk_bin Less) x);
    at_level 7 min (binary rec "<=" 8 (mk_bin LessEqual) x);
    at_level 7 min (binary rec ">" 8 (mk_bin Greater) x);
    at_level 7 min (binary rec ">=" 8 (mk_bin GreaterEqual) x);
    at_level 8 min (binary rec "+" 9 (mk_bin BAdd) x);
    at_level 8 min (binary rec "-" 9 (mk_bin BSubtract) x);
    at_level 9 min (binary rec "*" 10 (mk_bin Multiply) x);
    at_level 9 min (binary rec "/" 10 (mk_bin Divide) x);
    at_level 9 min (binary rec "%" 10 (mk_bin Modulo) x);
    at_level 11 min (the _ <- rblank; the _ <- rlit (lit "["); the _ <- rblank; the i <- rec 0%nat; the _ <- rblank; the _ <- rlit (lit "]");
       rret (EArrayElem (N := source_ast) x i span0));
    at_level 11 min (the _ <- rblank; the _ <- rlit (lit "."); the _ <- rblank; the f <- rident; the _ <- rblank; the args <- rargs n rec;
       rret (EMethodCall (N := source_ast) x f args span0));
    at_level 11 min (the _ <- rblank; the _ <- rlit (lit "."); the _ <- rblank; the m <- rident; rret (EMember (N := source_ast) x m span0));
    at_level 11 min (the _ <- rblank; the _ <- rkeyword (lit "as"); the _ <- rblank; the t <- rtype n; rret (ECast (N := source_ast) t x span0))].

(** rules interpolation, string_part, interpolated_string (parser.rs 248-257). *)
Definition rinterpolated (n : nat) (rec : nat -> rule sexpr) : rule sexpr :=
  the _ <- rlit [x73; quote];
  the prefix <- rcontents;
  the parts <- rmany n (the _ <- rlit [backslash; x28]; the _ <- rblank; the e <- rec 0%nat; the _ <- rblank; the _ <- rlit (lit ")"); the s <- rcontents; rret (e, s));
  the _ <- rlit [quote];
  rret (EInterpolated (N := source_ast) prefix parts span0).

(** What an expression starts with: the rules of the table that do not start with an
    operand, in its order, whatever their level.  A prefix operator takes an operand
    of the level above its own, which is 10. *)
Definition start (n : nat) (rec : nat -> rule sexpr) : rule sexpr :=
  ralts
   [the _ <- rlit (lit "!"); the _ <- rblank; the e <- rec 11%nat; rret (mk_un LogicNot e);
    the _ <- rlit (lit "~"); the _ <- rblank; the e <- rec 11%nat; rret (mk_un BitNot e);
    the _ <- rlit (lit "-"); the _ <- rblank; the e <- rec 11%nat; rret (mk_un Neg e);
    the _ <- rkeyword (lit "new"); the _ <- rblank; the c <- rident; the _ <- rblank; the args <- rargs n rec;
      rret (ENew (N := source_ast) (tn_new c []) args span0);
    the _ <- rlit (lit "["); the _ <- rblank; the l <- rsep n (rec 0%nat) rcomma; the _ <- rblank; the _ <- rlit (lit "]");
      rret (EArrayLit (N := source_ast) l None span0);
    the _ <- rlit (lit "("); the _ <- rblank; the e <- rec 0%nat; the _ <- rblank; the _ <- rlit (lit ")"); rret e;
    the _ <- rkeyword (lit "null"); rret (ENull (N := source_ast) span0);
    the _ <- rkeyword (lit "this"); rret (EThis (N := source_ast) span0);
    the _ <- rkeyword (lit "super"); rret (ESuper (N := source_ast) span0);
    rinterpolated n rec;
    the c <- rconstant; rret (EConstant (N := source_ast) c span0);
    the f <- rident; the _ <- rblank; the ts <- ropt (rtype_args n); the _ <- rblank; the args <- rargs n rec;
      rret (ECall (N := source_ast) f (match ts with Some l => l | None => [] end) args span0);
    the x <- rident; rret (EIdent (N := source_ast) x span0)].

(** The loop of rust-peg's precedence climbing: extend the expression while some rule
    of level [min] or above does. *)
Fixpoint climb (k n : nat) (rec : nat -> rule sexpr) (min : nat) (x : sexpr) : rule sexpr :=
  match k with
  | O => fun _ => PFuel
  | S k' => fun i => match extend n rec min x i with
                     | PMatch y i' => climb k' n rec min y i'
                     | PFail => PMatch x i
                     | PPanic => PPanic
                     | PFuel => PFuel
                     end
  end.
(** rule expr (parser.rs 390-479) with the operators of level [min] and up. *)
Fixpoint rexpr (n : nat) (min : nat) : rule sexpr :=
  match n with
  | O => fun _ => PFuel
  | S n' => the x <- start n (rexpr n'); climb n n (rexpr n') min x
  end.
(** lang::expr on a whole text: what is left over is an error (rust-peg). *)
Definition parse_expr (i : list byte) : option sexpr :=
  match rexpr (S (length i)) 0 i with PMatch e [] => Some e | _ => None end.
End Parse.
