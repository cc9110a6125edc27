(** The places that the parser gives to what it reads.

    Models compiler/src/parser.rs 152-493 as Parser.v and Grammar.v do, but with the
    positions that those leave out.  Rules without positions are taken from there;
    P_Positions proves that the others read the same with the places taken away. *)
From Coq Require Import String.
From Coq Require Import ZArith List Bool.
From Verif Require Import Bytes Definitions Bundle Ast TypeNames Pool Scope TypeCheck Symbols Printer Parser Unit Grammar SourceMap.
Import ListNotations.
Open Scope Z_scope.

Section Positions.
(** [at_ i] is the position when [i] is left: [offset + position!()] (parser.rs 166). *)
Variables (fl : float_text) (at_ : list byte -> Z).
(** rule pos (parser.rs 166). *)
Definition rpos : rule Z := fun i => PMatch (at_ i) i.

(** ** Expressions *)
(** x.span().merge(y.span()). *)
Definition merged (x y : sexpr) : span := span_merge (expr_span x) (expr_span y).
(** Span { high, ..x.span() }. *)
Definition up_to (x : sexpr) (high : Z) : span := Span (sp_low (expr_span x)) high.
(** fn binop, fn unop (parser.rs 483-493). *)
Definition pbin (o : binop) (x y : sexpr) : sexpr := EBinOp (N := source_ast) x y o (merged x y).
Definition pun (o : unop) (x : sexpr) : sexpr := EUnOp (N := source_ast) x o (expr_span x).

(** What may follow an operand (parser.rs 390-452). *)
Definition pextend (n : nat) (rec : nat -> rule sexpr) (min : nat) (x : sexpr) : rule sexpr :=
  ralts
   [at_level 0 min (the _ <- rblank; the _ <- rlit (lit "?"); the _ <- rblank; the y <- rec 0%nat; the _ <- rblank; the _ <- rlit (lit ":");
       the _ <- rblank; the z <- rec 0%nat; rret (EConditional (N := source_ast) x y z (merged x z)));
    at_level 0 min (binary rec "=" 0 (fun x y => EAssign (N := source_ast) x y (merged x y)) x);
    at_level 0 min (binary rec "+=" 0 (pbin AssignAdd) x);
    at_level 0 min (binary rec "-=" 0 (pbin AssignSubtract) x);
    at_level 0 min (binary rec "*=" 0 (pbin AssignMultiply) x);
    at_level 0 min (binary rec "/=" 0 (pbin AssignDivide) x);
    at_level 0 min (binary rec "|=" 0 (pbin AssignOr) x);
    at_level 0 min (binary rec "&=" 0 (pbin AssignAnd) x);
    at_level 1 min (binary rec "||" 2 (pbin LogicOr) x);
    at_level 2 min (binary rec "&&" 3 (pbin LogicAnd) x);
    at_level 3 min (binary rec "|" 4 (pbin BOr) x);
    at_level 4 min (binary rec "^" 5 (pbin BXor) x);
    at_level 5 min (binary rec "&" 6 (pbin BAnd) x);
    at_level 6 min (binary rec "==" 7 (pbin Equal) x);
    at_level 6 min (binary rec "!=" 7 (pbin NotEqual) x);
    at_level 7 min (binary rec "<" 8 (pbin Less) x);
    at_level 7 min (binary rec "<=" 8 (pbin LessEqual) x);
    at_level 7 min (binary rec ">" 8 (pbin Greater) x);
    at_level 7 min (binary rec ">=" 8 (pbin GreaterEqual) x);
    at_level 8 min (binary rec "+" 9 (pbin BAdd) x);
    at_level 8 min (binary rec "-" 9 (pbin BSubtract) x);
    at_level 9 min (binary rec "*" 10 (pbin Multiply) x);
    at_level 9 min (binary rec "/" 10 (pbin Divide) x);
    at_level 9 min (binary rec "%" 10 (pbin Modulo) x);
    at_level 11 min (the _ <- rblank; the _ <- rlit (lit "["); the _ <- rblank; the i <- rec 0%nat; the _ <- rblank; the _ <- rlit (lit "]"); the high <- rpos;
       rret (EArrayElem (N := source_ast) x i (up_to x high)));
    at_level 11 min (the _ <- rblank; the _ <- rlit (lit "."); the _ <- rblank; the f <- rident; the _ <- rblank; the args <- rargs n rec; the high <- rpos;
       rret (EMethodCall (N := source_ast) x f args (up_to x high)));
    at_level 11 min (the _ <- rblank; the _ <- rlit (lit "."); the _ <- rblank; the m <- rident; the high <- rpos; rret (EMember (N := source_ast) x m (up_to x high)));
    at_level 11 min (the _ <- rblank; the _ <- rkeyword (lit "as"); the _ <- rblank; the t <- rtype n; the high <- rpos; rret (ECast (N := source_ast) t x (up_to x high)))].

(** rules interpolation, string_part, interpolated_string (parser.rs 248-257, 466-468). *)
Definition pinterpolated (n : nat) (rec : nat -> rule sexpr) : rule sexpr :=
  the pos <- rpos;
  the _ <- rlit [x73; quote];
  the prefix <- rcontents;
  the parts <- rmany n (the _ <- rlit [backslash; x28]; the _ <- rblank; the e <- rec 0%nat; the _ <- rblank; the _ <- rlit (lit ")"); the s <- rcontents; rret (e, s));
  the _ <- rlit [quote];
  the end_ <- rpos;
  rret (EInterpolated (N := source_ast) prefix parts (Span pos end_)).

(** What an expression starts with (parser.rs 427-434, 453-478). *)
Definition pstart (n : nat) (rec : nat -> rule sexpr) : rule sexpr :=
  ralts
   [the _ <- rlit (lit "!"); the _ <- rblank; the e <- rec 11%nat; rret (pun LogicNot e);
    the _ <- rlit (lit "~"); the _ <- rblank; the e <- rec 11%nat; rret (pun BitNot e);
    the _ <- rlit (lit "-"); the _ <- rblank; the e <- rec 11%nat; rret (pun Neg e);
    the pos <- rpos; the _ <- rkeyword (lit "new"); the _ <- rblank; the c <- rident; the _ <- rblank; the args <- rargs n rec; the end_ <- rpos;
      rret (ENew (N := source_ast) (tn_new c []) args (Span pos end_));
    the pos <- rpos; the _ <- rlit (lit "["); the _ <- rblank; the l <- rsep n (rec 0%nat) rcomma; the _ <- rblank; the _ <- rlit (lit "]"); the end_ <- rpos;
      rret (EArrayLit (N := source_ast) l None (Span pos end_));
    the _ <- rlit (lit "("); the _ <- rblank; the e <- rec 0%nat; the _ <- rblank; the _ <- rlit (lit ")"); rret e;
    the pos <- rpos; the _ <- rkeyword (lit "null"); the end_ <- rpos; rret (ENull (N := source_ast) (Span pos end_));
    the pos <- rpos; the _ <- rkeyword (lit "this"); the end_ <- rpos; rret (EThis (N := source_ast) (Span pos end_));
    the pos <- rpos; the _ <- rkeyword (lit "super"); the end_ <- rpos; rret (ESuper (N := source_ast) (Span pos end_));
    pinterpolated n rec;
    the pos <- rpos; the c <- rconstant fl; the end_ <- rpos; rret (EConstant (N := source_ast) c (Span pos end_));
    the pos <- rpos; the f <- rident; the _ <- rblank; the ts <- ropt (rtype_args n); the _ <- rblank; the args <- rargs n rec; the end_ <- rpos;
      rret (ECall (N := source_ast) f (match ts with Some l => l | None => [] end) args (Span pos end_));
    the pos <- rpos; the x <- rident; the end_ <- rpos; rret (EIdent (N := source_ast) x (Span pos end_))].

(** The loop of precedence climbing, and rule expr (parser.rs 390-479), as in Parser.v. *)
Fixpoint pclimb (k n : nat) (rec : nat -> rule sexpr) (min : nat) (x : sexpr) : rule sexpr :=
  match k with
  | O => fun _ => PFuel
  | S k' => fun i => match pextend n rec min x i with
                     | PMatch y i' => pclimb k' n rec min y i'
                     | PFail => PMatch x i
                     | PPanic => PPanic
                     | PFuel => PFuel
                     end
  end.
Fixpoint pexpr (n : nat) (min : nat) : rule sexpr :=
  match n with
  | O => fun _ => PFuel
  | S n' => the x <- pstart n (pexpr n'); pclimb n n (pexpr n') min x
  end.

(** ** Statements *)
(** rules initializer, let (parser.rs 273-277). *)
Definition pinitializer (n : nat) : rule sexpr := the _ <- rlit (lit "="); the _ <- rblank; pexpr n 0.
Definition plet (n : nat) : rule sexpr :=
  the pos <- rpos; the _ <- rkeyword (lit "let"); the _ <- rblank; the name <- rident; the _ <- rblank; the t <- ropt (rlet_type n); the _ <- rblank;
  the v <- ropt (pinitializer n); the _ <- rblank; the _ <- rlit (lit ";"); the end_ <- rpos; rret (EDeclare (N := source_ast) name t v (Span pos end_)).
(** rules while_, for_ (parser.rs 360-366). *)
Definition pwhile (n : nat) (stmt : rule sexpr) : rule sexpr :=
  the pos <- rpos; the _ <- rkeyword (lit "while"); the _ <- rblank; the c <- pexpr n 0; the _ <- rblank; the b <- rblock n stmt; the _ <- rblank; the _ <- rsemi;
  the end_ <- rpos; rret (EWhile (N := source_ast) c b (Span pos end_)).
Definition pfor (n : nat) (stmt : rule sexpr) : rule sexpr :=
  the pos <- rpos; the _ <- rkeyword (lit "for"); the _ <- rblank; the x <- rident; the _ <- rblank; the _ <- rkeyword (lit "in"); the _ <- rblank; the a <- pexpr n 0;
  the _ <- rblank; the b <- rblock n stmt; the _ <- rblank; the _ <- rsemi; the end_ <- rpos; rret (EForIn (N := source_ast) x a b (Span pos end_)).
(** rules if_, else_ (parser.rs 368-373). *)
Fixpoint pif (k n : nat) (stmt : rule sexpr) : rule sexpr :=
  match k with
  | O => fun _ => PFuel
  | S k' =>
    the pos <- rpos; the _ <- rkeyword (lit "if"); the _ <- rblank; the c <- pexpr n 0; the _ <- rblank; the t <- rblock n stmt; the _ <- rblank;
    the f <- ropt (ralt (the _ <- rkeyword (lit "else"); the _ <- rblank; rblock n stmt)
                        (the _ <- rkeyword (lit "else"); the _ <- rblank; the e <- pif k' n stmt; rret [e]));
    the _ <- rblank; the _ <- rsemi; the end_ <- rpos; rret (EIf (N := source_ast) c t f (Span pos end_))
  end.
(** rules switch, case (parser.rs 349-355). *)
Definition pcase (n : nat) (stmt : rule sexpr) : rule (sexpr * list sexpr) :=
  the _ <- rkeyword (lit "case"); the _ <- rblank; the m <- pexpr n 0; the _ <- rblank; the _ <- rlit (lit ":"); the _ <- rblank;
  the b <- rstatements n stmt; rret (m, b).
Definition pswitch (n : nat) (stmt : rule sexpr) : rule sexpr :=
  the pos <- rpos; the _ <- rkeyword (lit "switch"); the _ <- rblank; the x <- pexpr n 0; the _ <- rblank; the _ <- rlit (lit "{"); the _ <- rblank;
  the cs <- rsep n (pcase n stmt) rblank; the _ <- rblank; the d <- ropt (rdefault n stmt); the _ <- rblank; the _ <- rlit (lit "}"); the _ <- rblank;
  the _ <- rsemi; the end_ <- rpos; rret (ESwitch (N := source_ast) x cs d (Span pos end_)).
(** rule stmt (parser.rs 375-388). *)
Definition pstatement (n : nat) (stmt : rule sexpr) : rule sexpr :=
  ralts
   [pwhile n stmt; pfor n stmt; pif n n stmt; pswitch n stmt;
    the pos <- rpos; the _ <- rkeyword (lit "return"); the _ <- rblank; the v <- ropt (pexpr n 0); the _ <- rblank; the _ <- rlit (lit ";"); the end_ <- rpos;
      rret (EReturn (N := source_ast) v (Span pos end_));
    the pos <- rpos; the _ <- rkeyword (lit "break"); the _ <- rblank; the _ <- rlit (lit ";"); the end_ <- rpos; rret (EBreak (N := source_ast) (Span pos end_));
    plet n;
    the e <- pexpr n 0; the _ <- rblank; the _ <- rlit (lit ";"); rret e].
Fixpoint pstmt (n : nat) : rule sexpr :=
  match n with
  | O => fun _ => PFuel
  | S n' => pstatement n (pstmt n')
  end.

(** ** Declarations *)
(** rule annotation (parser.rs 202-207). *)
Definition pannotation (n : nat) : rule annotation :=
  the pos <- rpos; the _ <- rlit (lit "@"); the name <- rident; the _ <- rblank; the _ <- rlit (lit "("); the _ <- rblank; the args <- rsep n (pexpr n 0) rcomma;
  the _ <- rblank; the _ <- rlit (lit ")"); the end_ <- rpos;
  of_option (fun k => {| an_kind := k; an_args := args; an_span := Span pos end_ |}) (kind_of_name name).
Definition pannotations (n : nat) : rule (list annotation) := rsep n (pannotation n) rblank.
(** rule decl (parser.rs 279-281). *)
Definition pdecl (n : nat) (kind : string) : rule declaration :=
  the pos <- rpos; the anns <- pannotations n; the _ <- rblank; the qs <- rqualifiers n; the _ <- rblank; the _ <- rkeyword (lit kind); the _ <- rblank; the name <- rident;
  the end_ <- rpos; rret (Decl anns qs name (Span pos end_)).
Arguments pdecl n kind%string.
(** rule field (parser.rs 283-285). *)
Definition pfield (n : nat) : rule field_source :=
  the d <- pdecl n "let"; the _ <- rblank; the t <- rlet_type n; the _ <- rblank; the v <- ropt (pinitializer n); the _ <- rblank; the _ <- rlit (lit ";");
  rret (FieldSource d t v).
(** rules function, function_body (parser.rs 287-292). *)
Definition pfunction_body (n : nat) : rule (list sexpr) :=
  ralt (rblock n (pstmt n))
       (the pos <- rpos; the _ <- rlit (lit "="); the _ <- rblank; the e <- pexpr n 0; the _ <- rblank; the end_ <- rpos;
        rret [EReturn (N := source_ast) (Some e) (Span pos end_)]).
Definition pfunction (n : nat) : rule function_source :=
  the pos <- rpos; the d <- pdecl n "func"; the _ <- rblank; the _ <- rlit (lit "("); the _ <- rblank; the ps <- rsep n (rparam n) rcomma; the _ <- rblank; the _ <- rlit (lit ")");
  the _ <- rblank; the t <- ropt (rfunc_type n); the _ <- rblank; the b <- ropt (pfunction_body n); the _ <- rsemi; the end_ <- rpos;
  rret (FunctionSource d t ps b (Span pos end_)).
(** rules member, class, struct_ (parser.rs 298-311). *)
Definition pmember (n : nat) : rule member_source :=
  ralt (the f <- pfunction n; rret (MemberFunction f)) (the f <- pfield n; rret (MemberField f)).
Definition pmembers (n : nat) : rule (list member_source) :=
  the _ <- rlit (lit "{"); the _ <- rblank; the ms <- rsep n (pmember n) rblank; the _ <- rblank; the _ <- rlit (lit "}"); rret ms.
Definition pclass (n : nat) : rule class_source :=
  the pos <- rpos; the d <- pdecl n "class"; the _ <- rblank; the base <- ropt rextends; the _ <- rblank; the ms <- pmembers n; the end_ <- rpos;
  rret (ClassSource d base ms (Span pos end_)).
Definition pstruct (n : nat) : rule class_source :=
  the pos <- rpos; the d <- pdecl n "struct"; the _ <- rblank; the ms <- pmembers n; the end_ <- rpos; rret (ClassSource d None ms (Span pos end_)).
(** rule enum_ (parser.rs 313-315). *)
Definition penum (n : nat) : rule enum_source :=
  the pos <- rpos; the d <- pdecl n "enum"; the _ <- rblank; the _ <- rlit (lit "{"); the _ <- rblank; the ms <- rsep n (renum_member fl) rcomma; the _ <- rblank;
  the _ <- ropt (rlit (lit ",")); the _ <- rblank; the _ <- rlit (lit "}"); the end_ <- rpos; rret (EnumSource d ms (Span pos end_)).
(** rule source_entry (parser.rs 326-332). *)
Definition pentry (n : nat) : rule source_entry :=
  ralts [the f <- pfunction n; rret (EntryFunction f); the c <- pclass n; rret (EntryClass false c); the c <- pstruct n; rret (EntryClass true c);
         the f <- pfield n; rret (EntryLet f); the e <- penum n; rret (EntryEnum e)].

(** ** Modules *)
(** rules import, module (parser.rs 334-347). *)
Definition pimport_head (n : nat) : rule (list annotation * module_path) :=
  the anns <- pannotations n; the _ <- rblank; the _ <- rkeyword (lit "import"); the _ <- rblank; the parts <- rpath n; rret (anns, parts).
Definition pimport (n : nat) : rule (import * list annotation) :=
  ralts
   [the pos <- rpos; the (anns, parts) <- pimport_head n; the _ <- rblank; the _ <- rlit (lit "."); the _ <- rblank; the _ <- rlit (lit "*"); the end_ <- rpos;
      rret (IAll parts (Span pos end_), anns);
    the pos <- rpos; the (anns, parts) <- pimport_head n; the _ <- rblank; the _ <- rlit (lit "."); the _ <- rblank; the _ <- rlit (lit "{"); the _ <- rblank;
      the names <- rsep n rident rcomma; the _ <- rblank; the _ <- rlit (lit "}"); the end_ <- rpos; rret (ISelected parts names (Span pos end_), anns);
    the pos <- rpos; the (anns, parts) <- pimport_head n; the end_ <- rpos; rret (IExact parts (Span pos end_), anns)].
Definition pmodule (n : nat) : rule source_module :=
  the _ <- rblank; the path <- ropt (rmodule_path n); the _ <- rblank; the imports <- rsep n (pimport n) rblank; the _ <- rblank;
  the entries <- rsep n (pentry n) rblank; the _ <- rblank; rret (SourceModule path imports entries).
End Positions.
Arguments pdecl fl at_ n kind%string.

(** Pos + usize (ast.rs 325-331, through source_map's [pos_add]) in rule pos. *)
Definition position (offset : Z) (text : list byte) (i : list byte) : Z := pos_add offset (blen text - blen i).
(** parse_file (parser.rs 154-156). *)
Definition parse_file (fl : float_text) (f : file) : pres source_module :=
  match pmodule fl (position (f_low f) (f_source f)) (S (length (f_source f))) (f_source f) with
  | PMatch m [] => PMatch m []
  | PMatch _ _ => PFail
  | x => x
  end.
(** CompilationUnit::parse (unit.rs 141-151): the modules of all files, or the index
    of the file at which it stops, with what happened there.  The place of a syntax
    error (the furthest position at which rust-peg expected something) is left out. *)
Fixpoint parse_files (fl : float_text) (fs : list file) : list source_module + nat * pres source_module :=
  match fs with
  | [] => inl []
  | f :: fs' =>
    match parse_file fl f with
    | PMatch m _ => match parse_files fl fs' with inl ms => inl (m :: ms) | inr (k, x) => inr (S k, x) end
    | x => inr (O, x)
    end
  end.
