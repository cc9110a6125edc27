(** The grammar of statements, declarations and modules.

    Models compiler/src/parser.rs 152-388 on top of Parser.v: the rules take and yield
    what those of Parser.v do, and every span is [span0].  [n] bounds the nesting and
    the number of repetitions; GrammarFacts proves that it is not reached.  The texts
    of error messages are left out. *)
From Coq Require Import String.
From Coq Require Import ZArith List Bool.
From Verif Require Import Bytes Definitions Bundle Ast TypeNames Pool Scope TypeCheck Symbols Printer Parser Unit.
Import ListNotations.
Open Scope Z_scope.

(** A keyword that stands for a value. *)
Definition rword {A} (s : string) (a : A) : rule A := the _ <- rkeyword (lit s); rret a.
Arguments rword {A} s%string.
(** rule qualifier, qualifiers (parser.rs 180-195, 209). *)
Definition rqualifier : rule qualifier :=
  ralts [rword "public" QPublic; rword "protected" QProtected; rword "private" QPrivate; rword "abstract" QAbstract;
         rword "static" QStatic; rword "final" QFinal; rword "const" QConst; rword "native" QNative; rword "exec" QExec;
         rword "cb" QCallback; rword "out" QOut; rword "opt" QOptional; rword "quest" QQuest; rword "importonly" QImportOnly;
         rword "persistent" QPersistent].
Definition rqualifiers (n : nat) : rule (list qualifier) := rsep n rqualifier rblank.
(** AnnotationKind::from_str (parser.rs 142-152; strum, camelCase). *)
Definition kind_of_name (s : str) : option annotation_kind :=
  if str_eqb s (lit "replaceMethod") then Some AReplaceMethod else
  if str_eqb s (lit "wrapMethod") then Some AWrapMethod else
  if str_eqb s (lit "replaceGlobal") then Some AReplaceGlobal else
  if str_eqb s (lit "addMethod") then Some AAddMethod else
  if str_eqb s (lit "addField") then Some AAddField else
  if str_eqb s (lit "if") then Some AIf else
  if str_eqb s (lit "runtimeProperty") then Some ARuntimeProperty else None.
(** rules let_type, func_type (parser.rs 270-271). *)
Definition rlet_type (n : nat) : rule typename := the _ <- rlit (lit ":"); the _ <- rblank; rtype n.
Definition rfunc_type (n : nat) : rule typename := the _ <- rlit (lit "->"); the _ <- rblank; rtype n.
(** rule dotsep (parser.rs 169), of names. *)
Definition rdot : rule Datatypes.unit := the _ <- rlit (lit "."); rblank.
Definition rpath (n : nat) : rule (list str) := rsep n rident rdot.

Section Grammar.
Variable fl : float_text.

(** ** Statements *)
(** rules initializer, let (parser.rs 273-277). *)
Definition rinitializer (n : nat) : rule sexpr := the _ <- rlit (lit "="); the _ <- rblank; rexpr fl n 0.
Definition rlet (n : nat) : rule sexpr :=
  the _ <- rkeyword (lit "let"); the _ <- rblank; the name <- rident; the _ <- rblank; the t <- ropt (rlet_type n); the _ <- rblank;
  the v <- ropt (rinitializer n); the _ <- rblank; the _ <- rlit (lit ";"); rret (EDeclare (N := source_ast) name t v span0).
(** rule seq (parser.rs 264), and a sequence in braces. *)
Definition rstatements (n : nat) (stmt : rule sexpr) : rule (list sexpr) := rsep n stmt rblank.
Definition rblock (n : nat) (stmt : rule sexpr) : rule (list sexpr) :=
  the _ <- rlit (lit "{"); the _ <- rblank; the b <- rstatements n stmt; the _ <- rblank; the _ <- rlit (lit "}"); rret b.
(** ";"? *)
Definition rsemi : rule Datatypes.unit := the _ <- ropt (rlit (lit ";")); rret tt.
(** rules while_, for_ (parser.rs 360-366). *)
Definition rwhile (n : nat) (stmt : rule sexpr) : rule sexpr :=
  the _ <- rkeyword (lit "while"); the _ <- rblank; the c <- rexpr fl n 0; the _ <- rblank; the b <- rblock n stmt; the _ <- rblank; the _ <- rsemi;
  rret (EWhile (N := source_ast) c b span0).
Definition rfor (n : nat) (stmt : rule sexpr) : rule sexpr :=
  the _ <- rkeyword (lit "for"); the _ <- rblank; the x <- rident; the _ <- rblank; the _ <- rkeyword (lit "in"); the _ <- rblank; the a <- rexpr fl n 0;
  the _ <- rblank; the b <- rblock n stmt; the _ <- rblank; the _ <- rsemi; rret (EForIn (N := source_ast) x a b span0).
(** rules if_, else_ (parser.rs 368-373). *)
Fixpoint rif (k n : nat) (stmt : rule sexpr) : rule sexpr :=
  match k with
  | O => fun _ => PFuel
  | S k' =>
    the _ <- rkeyword (lit "if"); the _ <- rblank; the c <- rexpr fl n 0; the _ <- rblank; the t <- rblock n stmt; the _ <- rblank;
    the f <- ropt (ralt (the _ <- rkeyword (lit "else"); the _ <- rblank; rblock n stmt)
                        (the _ <- rkeyword (lit "else"); the _ <- rblank; the e <- rif k' n stmt; rret [e]));
    the _ <- rblank; the _ <- rsemi; rret (EIf (N := source_ast) c t f span0)
  end.
(** rules switch, case, default (parser.rs 349-358). *)
Definition rcase (n : nat) (stmt : rule sexpr) : rule (sexpr * list sexpr) :=
  the _ <- rkeyword (lit "case"); the _ <- rblank; the m <- rexpr fl n 0; the _ <- rblank; the _ <- rlit (lit ":"); the _ <- rblank;
  the b <- rstatements n stmt; rret (m, b).
Definition rdefault (n : nat) (stmt : rule sexpr) : rule (list sexpr) :=
  the _ <- rkeyword (lit "default"); the _ <- rblank; the _ <- rlit (lit ":"); the _ <- rblank; rstatements n stmt.
Definition rswitch (n : nat) (stmt : rule sexpr) : rule sexpr :=
  the _ <- rkeyword (lit "switch"); the _ <- rblank; the x <- rexpr fl n 0; the _ <- rblank; the _ <- rlit (lit "{"); the _ <- rblank;
  the cs <- rsep n (rcase n stmt) rblank; the _ <- rblank; the d <- ropt (rdefault n stmt); the _ <- rblank; the _ <- rlit (lit "}"); the _ <- rblank;
  the _ <- rsemi; rret (ESwitch (N := source_ast) x cs d span0).
(** rule stmt (parser.rs 375-388). *)
Definition statement (n : nat) (stmt : rule sexpr) : rule sexpr :=
  ralts
   [rwhile n stmt; rfor n stmt; rif n n stmt; rswitch n stmt;
    the _ <- rkeyword (lit "return"); the _ <- rblank; the v <- ropt (rexpr fl n 0); the _ <- rblank; the _ <- rlit (lit ";");
      rret (EReturn (N := source_ast) v span0);
    the _ <- rkeyword (lit "break"); the _ <- rblank; the _ <- rlit (lit ";"); rret (EBreak (N := source_ast) span0);
    rlet n;
    the e <- rexpr fl n 0; the _ <- rblank; the _ <- rlit (lit ";"); rret e].
Fixpoint rstmt (n : nat) : rule sexpr :=
  match n with
  | O => fun _ => PFuel
  | S n' => statement n (rstmt n')
  end.
Definition rseq_ (n : nat) : rule (list sexpr) := rstatements n (rstmt n).

(** ** Declarations *)
(** rule annotation (parser.rs 202-207). *)
Definition rannotation (n : nat) : rule annotation :=
  the _ <- rlit (lit "@"); the name <- rident; the _ <- rblank; the _ <- rlit (lit "("); the _ <- rblank; the args <- rsep n (rexpr fl n 0) rcomma;
  the _ <- rblank; the _ <- rlit (lit ")");
  of_option (fun k => {| an_kind := k; an_args := args; an_span := span0 |}) (kind_of_name name).
Definition rannotations (n : nat) : rule (list annotation) := rsep n (rannotation n) rblank.
(** rule decl (parser.rs 279-281). *)
Definition rdecl (n : nat) (kind : string) : rule declaration :=
  the anns <- rannotations n; the _ <- rblank; the qs <- rqualifiers n; the _ <- rblank; the _ <- rkeyword (lit kind); the _ <- rblank; the name <- rident;
  rret (Decl anns qs name span0).
Arguments rdecl n kind%string.
(** rule field (parser.rs 283-285). *)
Definition rfield (n : nat) : rule field_source :=
  the d <- rdecl n "let"; the _ <- rblank; the t <- rlet_type n; the _ <- rblank; the v <- ropt (rinitializer n); the _ <- rblank; the _ <- rlit (lit ";");
  rret (FieldSource d t v).
(** rules function, function_body, param (parser.rs 287-296). *)
Definition rparam (n : nat) : rule parameter_source :=
  the qs <- rqualifiers n; the _ <- rblank; the name <- rident; the _ <- rblank; the t <- rlet_type n; rret (ParamSource qs name t).
Definition rfunction_body (n : nat) : rule (list sexpr) :=
  ralt (rblock n (rstmt n))
       (the _ <- rlit (lit "="); the _ <- rblank; the e <- rexpr fl n 0; the _ <- rblank; rret [EReturn (N := source_ast) (Some e) span0]).
Definition rfunction (n : nat) : rule function_source :=
  the d <- rdecl n "func"; the _ <- rblank; the _ <- rlit (lit "("); the _ <- rblank; the ps <- rsep n (rparam n) rcomma; the _ <- rblank; the _ <- rlit (lit ")");
  the _ <- rblank; the t <- ropt (rfunc_type n); the _ <- rblank; the b <- ropt (rfunction_body n); the _ <- rsemi; rret (FunctionSource d t ps b span0).
(** rules member, extends, class, struct_ (parser.rs 298-311). *)
Definition rmember (n : nat) : rule member_source :=
  ralt (the f <- rfunction n; rret (MemberFunction f)) (the f <- rfield n; rret (MemberField f)).
Definition rmembers (n : nat) : rule (list member_source) :=
  the _ <- rlit (lit "{"); the _ <- rblank; the ms <- rsep n (rmember n) rblank; the _ <- rblank; the _ <- rlit (lit "}"); rret ms.
Definition rextends : rule str := the _ <- rkeyword (lit "extends"); the _ <- rblank; rident.
Definition rclass (n : nat) : rule class_source :=
  the d <- rdecl n "class"; the _ <- rblank; the base <- ropt rextends; the _ <- rblank; the ms <- rmembers n; rret (ClassSource d base ms span0).
Definition rstruct (n : nat) : rule class_source :=
  the d <- rdecl n "struct"; the _ <- rblank; the ms <- rmembers n; rret (ClassSource d None ms span0).
(** rules enum_, enum_member (parser.rs 313-324). *)
Definition renum_member : rule (str * Z) :=
  the name <- rident; the _ <- rblank; the _ <- rlit (lit "="); the _ <- rblank; the c <- rnumber fl;
  of_option (fun v => (name, v)) (match c with CI32 v | CI64 v => Some v | _ => None end).
Definition renum (n : nat) : rule enum_source :=
  the d <- rdecl n "enum"; the _ <- rblank; the _ <- rlit (lit "{"); the _ <- rblank; the ms <- rsep n renum_member rcomma; the _ <- rblank;
  the _ <- ropt (rlit (lit ",")); the _ <- rblank; the _ <- rlit (lit "}"); rret (EnumSource d ms span0).
(** rule source_entry (parser.rs 326-332). *)
Definition rentry (n : nat) : rule source_entry :=
  ralts [the f <- rfunction n; rret (EntryFunction f); the c <- rclass n; rret (EntryClass false c); the c <- rstruct n; rret (EntryClass true c);
         the f <- rfield n; rret (EntryLet f); the e <- renum n; rret (EntryEnum e)].

(** ** Modules *)
(** rules import, module_path, module (parser.rs 334-347). *)
Definition rimport_head (n : nat) : rule (list annotation * module_path) :=
  the anns <- rannotations n; the _ <- rblank; the _ <- rkeyword (lit "import"); the _ <- rblank; the parts <- rpath n; rret (anns, parts).
Definition rimport (n : nat) : rule (import * list annotation) :=
  ralts
   [the (anns, parts) <- rimport_head n; the _ <- rblank; the _ <- rlit (lit "."); the _ <- rblank; the _ <- rlit (lit "*"); rret (IAll parts span0, anns);
    the (anns, parts) <- rimport_head n; the _ <- rblank; the _ <- rlit (lit "."); the _ <- rblank; the _ <- rlit (lit "{"); the _ <- rblank;
      the names <- rsep n rident rcomma; the _ <- rblank; the _ <- rlit (lit "}"); rret (ISelected parts names span0, anns);
    the (anns, parts) <- rimport_head n; rret (IExact parts span0, anns)].
Definition rmodule_path (n : nat) : rule module_path := the _ <- rkeyword (lit "module"); the _ <- rblank; rpath n.
Definition rmodule (n : nat) : rule source_module :=
  the _ <- rblank; the path <- ropt (rmodule_path n); the _ <- rblank; the imports <- rsep n (rimport n) rblank; the _ <- rblank;
  the entries <- rsep n (rentry n) rblank; the _ <- rblank; rret (SourceModule path imports entries).
(** parse_file, parse_str (parser.rs 154-160): what is left over is an error
    (rust-peg). *)
Definition parse_module (i : list byte) : pres source_module :=
  match rmodule (S (length i)) i with PMatch m [] => PMatch m [] | PMatch _ _ => PFail | x => x end.
End Grammar.
