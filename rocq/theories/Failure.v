(** The message that the launcher shows when the compilation fails.

    Models struct ErrorReport of scc/lib/src/lib.rs (276-359): from_error and the
    Display implementation. *)
From Coq Require Import String.
From Coq Require Import ZArith List Bool.
From Verif Require Import Bytes Bytecode Definitions Bundle Ast Pool Scope TypeCheck Report Search SourceMap Scc.
Import ListNotations.
Open Scope Z_scope.

(** What std::path::Path makes of a path: Path::components, which equality,
    strip_prefix and iter work on, and Path::file_name.  How a path is cut into
    components depends on the system; it is an argument here.  Paths are taken
    to be UTF-8, so that to_string_lossy (lib.rs 319) changes nothing. *)
Record path_ops := { components : str -> fpath; file_name : str -> option str }.
(** The orders in which the hash set of the mods and the hash map of the hints are
    walked (lib.rs 334, 343). *)
Record hash_orders := { walk_mods : list str -> list str; walk_hints : list hint -> list hint }.

(** Path::strip_prefix(base).ok(), on components. *)
Fixpoint strip_prefix (p base : fpath) {struct base} : option fpath :=
  match base, p with
  | [], _ => Some p
  | b :: base', c :: p' => if str_eqb c b then strip_prefix p' base' else None
  | _ :: _, [] => None
  end.

(** ErrorReport::from_error (lib.rs 285-303): the codes and places.  [None]: the
    message is that of the I/O or pool error.  Errors that stand for a panic never
    get here. *)
Definition report_spans (e : error) : option (list (str * span)) :=
  match e with
  | CompileError c sp => Some [(cause_code c, sp)]
  | SyntaxError sp => Some [(lit "SYNTAX_ERR", sp)]
  | CteError _ sp => Some [(lit "CTE_ERR", sp)]
  | MultipleErrors spans => Some spans
  | IoError | ErrPool _ | ErrUnwind _ => None
  end.

(** HashSet::insert, the elements in the order of insertion. *)
Definition set_insert (x : str) (l : list str) : list str := if existsb (str_eqb x) l then l else l ++ [x].
(** hints_matched.entry(act.id()).or_insert(act) (lib.rs 326). *)
Definition hint_insert (h : hint) (l : list hint) : list hint :=
  if existsb (fun x => str_eqb (hi_id h) (hi_id x)) l then l else l ++ [h].

(** The body of the loop (lib.rs 311-328): the mod at fault, and the hint. *)
Definition report_one (po : path_ops) (scripts : str) (fs : list file) (hs : hints) (code : str) (sp : span)
  : outcome unwind (str * option hint) :=
  let* loc := files_lookup fs sp in
  match loc with
  | None => Fail Panicked
  | Some (f, (line, _), _) =>
    let rel_path := strip_prefix (components po (f_path f)) (components po scripts) in
    let cause :=
      match rel_path with
      | Some (c :: _) => c
      | _ => match file_name po (f_path f) with Some n => n | None => f_path f end
      end in
    let* source := source_slice f sp in
    let* text := enclosing_line f line in
    Done (cause, get_by_error hs code rel_path source text)
  end.
(** The loop (lib.rs 308-328). *)
Fixpoint report_loop (po : path_ops) (scripts : str) (fs : list file) (hs : hints) (spans : list (str * span))
  (mods : list str) (matched : list hint) : outcome unwind (list str * list hint) :=
  match spans with
  | [] => Done (mods, matched)
  | (code, sp) :: spans' =>
    let* (cause, act) := report_one po scripts fs hs code sp in
    report_loop po scripts fs hs spans' (set_insert cause mods)
      match act with Some h => hint_insert h matched | None => matched end
  end.

(** writeln!. *)
Definition writeln (s : str) : str := s ++ [x0a].
(** Display::fmt (lib.rs 307-356). *)
Definition report_text (po : path_ops) (orders : hash_orders) (scripts : str) (fs : list file) (hs : hints) (spans : list (str * span))
  : outcome unwind str :=
  let* (mods, matched) := report_loop po scripts fs hs spans [] [] in
  Done (writeln (lit "REDScript compilation has failed.") ++
    match mods with
    | [] => []
    | _ :: _ =>
      writeln (lit "This error has been caused by mods listed below:") ++
      concat (map (fun m => writeln (lit "- " ++ m)) (walk_mods orders mods))
    end ++
    match matched with
    | _ :: _ =>
      writeln (lit "One or more of the errors found has a known solution. Here are the recommended steps:") ++
      concat (map (fun h => writeln (lit "- " ++ hi_message h)) (walk_hints orders matched))
    | [] =>
      writeln [] ++
      writeln (lit "You should check if these mods are outdated and update them if possible. They may also be incompatible with the current version of the game, in which case you should remove them and try again.")
    end).

(** From the result of compile_and_report to the message (lib.rs 206-237): [None]
    if the compilation succeeded or if the message is that of an I/O or pool error. *)
Definition failure_message (po : path_ops) (orders : hash_orders) (scripts : str) (fs : list file) (hs : hints)
  (result : outcome error (list diagnostic)) : outcome unwind (option str) :=
  match result with
  | Done _ => Done None
  | Fail (ErrUnwind u) => Fail u
  | Fail e =>
    match report_spans e with
    | None => Done None
    | Some spans => let* s := report_text po orders scripts fs hs spans in Done (Some s)
    end
  end.
