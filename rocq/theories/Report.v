(** Collecting and reporting diagnostics.

    Models compiler/src/diagnostics.rs 56-132, compiler/src/error.rs 115-153
    (Cause::code), and from compiler/src/unit.rs compile_and_report (109-139)
    and the sorting of diagnostics in finish (298-331). *)
From Coq Require Import String.
From Coq Require Import ZArith List Bool.
From Verif Require Import Bytes Bytecode Definitions Bundle Ast Pool Scope TypeCheck.
Import ListNotations.
Open Scope Z_scope.

(** Cause::code (error.rs 116-152). *)
Definition cause_code (c : cause) : str :=
  match c with
  | PoolError _ => lit "POOL_ERR"
  | TypeError _ _ | UnexpectedValueReturn | UnexpectedVoidReturn _ | InvalidIntrinsicUse _ _
  | UnificationFailed _ _ => lit "TYPE_ERR"
  | FunctionNotFound _ => lit "UNRESOLVED_FN"
  | MethodNotFound _ _ | NoMethodWithMatchingSignature | NoMethodWithMatchingName => lit "UNRESOLVED_METHOD"
  | MemberNotFound _ _ => lit "UNRESOLVED_MEMBER"
  | ClassNotFound _ | UnresolvedType _ => lit "UNRESOLVED_TYPE"
  | UnresolvedReference _ => lit "UNRESOLVED_REF"
  | UnresolvedImport _ | UnresolvedModule _ => lit "UNRESOLVED_IMPORT"
  | InvalidArgCount _ _ | NoMatchingOverload _ _ => lit "NO_MATCHING_OVERLOAD"
  | InstantiatingAbstract _ => lit "NEW_ABSTRACT"
  | TypeAnnotationRequired => lit "TYPE_ANN_REQUIRED"
  | InvalidAnnotationArgs => lit "INVALID_ANN_USE"
  | InvalidMemberAccess _ => lit "INVALID_MEMBER_ACCESS"
  | VoidCannotBeUsed => lit "INVALID_VOID_USE"
  | InvalidStaticMethodCall _ => lit "INVALID_STATIC_USE"
  | InvalidNonStaticMethodCall _ => lit "INVALID_NONSTATIC_USE"
  | UnexpectedThis => lit "UNEXPECTED_THIS"
  | SymbolRedefinition => lit "SYM_REDEFINITION"
  | FieldRedefinition => lit "FIELD_REDEFINITION"
  | MissingBody => lit "MISSING_BODY"
  | UnexpectedBody => lit "UNEXPECTED_BODY"
  | UnexpectedNative => lit "UNEXPECTED_NATIVE"
  | UnsupportedPersistent _ => lit "INVALID_PERSISTENT"
  | InvalidConstant => lit "INVALID_CONSTANT"
  | UnsupportedFeature _ | UnsupportedOperation _ _ | UnexpectedToken _ => lit "UNSUPPORTED"
  | CauseUnwind _ => []
  end.

(** Diagnostic::is_fatal (diagnostics.rs 100-110). *)
Definition is_fatal (d : diagnostic) : bool :=
  match d with
  | ReplaceMethodConflict _ _ | FieldConflict _ | Deprecated _ _ | UnusedLocal _ | MissingReturn _
  | AddMethodConflict _ => false
  | _ => true
  end.
(** Diagnostic::span (diagnostics.rs 113-127). *)
Definition diag_span (d : diagnostic) : span :=
  match d with
  | ReplaceMethodConflict _ sp | FieldConflict sp | Deprecated _ sp | UnusedLocal sp | MissingReturn sp
  | StatementFallthrough sp | InvalidUseOfTemporary sp | AddMethodConflict sp | DSyntaxError sp
  | DCompileError _ sp | DCteError _ sp => sp
  end.
(** Diagnostic::code (diagnostics.rs 129-134). *)
Definition diag_code (d : diagnostic) : str :=
  match d with DCompileError c _ => cause_code c | _ => lit "OTHER" end.

(** [diagnostics.sort_by_key(Diagnostic::is_fatal)] in finish (unit.rs 298-331):
    the sort of the standard library is stable; it is modelled by insertion,
    [false] being less than [true]. *)
Fixpoint insert_diag (d : diagnostic) (l : list diagnostic) : list diagnostic :=
  match l with
  | [] => [d]
  | x :: l' => if is_fatal d && negb (is_fatal x) then x :: insert_diag d l' else d :: x :: l'
  end.
Fixpoint sort_diags (l : list diagnostic) : list diagnostic :=
  match l with [] => [] | d :: l' => insert_diag d (sort_diags l') end.

(** What reaches the log (diagnostics.rs 56-66, unit.rs 134). *)
Inductive log_event :=
| LogWarn (d : diagnostic)
| LogError (d : diagnostic)
| LogUnexpected (e : error).
(** Diagnostic::log (diagnostics.rs 56-66).  display looks its span up in the
    source files and panics if no file has it; [known] says whether one does. *)
Definition log_diag (known : span -> bool) (d : diagnostic) : outcome error log_event :=
  if known (diag_span d) then Done (if is_fatal d then LogError d else LogWarn d) else Fail (ErrUnwind Panicked).
(** The loop that logs all diagnostics (unit.rs 112-114): what was logged, and
    whether it finished. *)
Fixpoint log_all (known : span -> bool) (l : list diagnostic) : list log_event * outcome error unit :=
  match l with
  | [] => ([], Done tt)
  | d :: l' =>
    match log_diag known d with
    | Done ev => let (evs, r) := log_all known l' in (ev :: evs, r)
    | Fail e => ([], Fail e)
    end
  end.
(** compile_and_report (unit.rs 109-139).  [compiled] is the result of the
    compilation before the diagnostics are sorted: an error that stopped it, or
    all diagnostics. *)
Definition compile_and_report (known : span -> bool) (compiled : outcome error (list diagnostic))
  : list log_event * outcome error (list diagnostic) :=
  match compiled with
  | Done ds =>
    let ds := sort_diags ds in
    let (evs, r) := log_all known ds in
    match r with
    | Fail e => (evs, Fail e)
    | Done _ =>
      if existsb is_fatal ds then
        (evs, Fail (MultipleErrors (map (fun d => (diag_code d, diag_span d)) (filter is_fatal ds))))
      else (evs, Done ds)
    end
  | Fail err =>
    match diag_from_error err with
    | Done d =>
      match log_diag known d with
      | Done ev => ([ev], Fail (MultipleErrors [(diag_code d, diag_span d)]))
      | Fail e => ([], Fail e)
      end
    | Fail other => ([LogUnexpected other], Fail other)
    end
  end.
