(** The commands [compile] and [lint] of the command line tool (cli/src/main.rs 106-129,
    174-200), from the bytes of the script cache and the source files to the bytes of the
    output file. *)
From Coq Require Import String.
From Coq Require Import ZArith List Bool.
From Verif Require Import Bytes Bytecode Definitions Bundle Ast Pool Scope TypeCheck Report SourceMap Display Sources Printer Parser Positions Unit.
Import ListNotations.
Open Scope Z_scope.

(** How the process ends: with the status of success, with that of an error (main returns
    Err), or by a panic. *)
Inductive status := Success | Failure | Abort.
(** What happens to the output file.  [Spoiled]: it was emptied, and writing it did not
    finish. *)
Inductive effect := Untouched | Written (bytes : list byte) | Spoiled.
(** The diagnostics that are logged; other messages are left out. *)
Record run := Run { run_log : list log_event; run_status : status; run_output : effect }.

(** CompilationUnit::compile_files (compiler/src/unit.rs 87-89).  [stop] is the place of a
    syntax error, which the model of the parser leaves out. *)
Definition compile_files (fl : float_text) (ev : env) (stop : span) (p : pool) : outcome error output :=
  match parse_files fl (ev_files ev) with
  | inl ms => compile ev ms p
  | inr (_, PFail) => Fail (SyntaxError stop)
  | inr (_, PPanic) => Fail (ErrUnwind Panicked)
  | inr (_, _) => Fail (ErrUnwind NoFuel)
  end.
(** What the files and orders of the hash maps are. *)
Definition on_files (ev : env) (fs : list file) : env :=
  Env fs (ev_fuel ev) (ev_children ev) (ev_wrappers ev) (ev_proxies ev) (ev_locals ev) (ev_f32 ev) (ev_f64 ev).
(** CompilationUnit::compile_and_report (unit.rs 109-139) with its result. *)
Definition build (fl : float_text) (ev : env) (stop : span) (p : pool) : list log_event * outcome error output :=
  match compile_files fl ev stop p with
  | Fail (ErrUnwind u) => ([], Fail (ErrUnwind u))
  | compiled =>
    let '(log, r) := compile_and_report (displayable (ev_files ev)) (match compiled with Done out => Done (out_diags out) | Fail e => Fail e end) in
    (log, match r, compiled with
          | Done _, Done out => Done out
          | Done _, Fail e => Fail e
          | Fail e, _ => Fail e
          end)
  end.
(** What both commands do before they differ (main.rs 107-114, 177-183): load_bundle
    (main.rs 194-200), Files::from_dirs and CompilationUnit::new_with_defaults.
    [cache] is the contents of the cache file if it can be opened. *)
Definition prepare (ev : env) (cache : option (list byte)) (disk : filesystem) (src : list str) : bundle * env + status :=
  match cache with
  | None => inr Failure
  | Some bytes =>
    match load bytes with
    | Err Panic => inr Abort
    | Err _ => inr Failure
    | Ok b =>
      match from_dirs disk src KeepAll with
      | None => inr Failure
      | Some files =>
        match unit_new (on_files ev files) (bn_pool b) with
        | Done _ => inl (b, on_files ev files)
        | Fail (ErrUnwind _) => inr Abort
        | Fail _ => inr Failure
        end
      end
    end
  end.
(** compile (main.rs 106-129).  [creatable]: whether the output file can be created.
    Creating it empties it. *)
Definition compile_command (fl : float_text) (ev : env) (stop : span) (cache : option (list byte)) (disk : filesystem) (src : list str)
  (creatable : bool) : run :=
  match prepare ev cache disk src with
  | inr s => Run [] s Untouched
  | inl (b, ev) =>
    match build fl ev stop (bn_pool b) with
    | (log, Fail (ErrUnwind _)) => Run log Abort Untouched
    | (log, Fail _) => Run log Success Untouched
    | (log, Done out) =>
      if creatable then
        match save {| bn_header := bn_header b; bn_pool := out_pool out |} [] with
        | Ok bytes => Run log Success (Written bytes)
        | Err Panic => Run log Abort Spoiled
        | Err _ => Run log Failure Spoiled
        end
      else Run log Failure Untouched
    end
  end.
(** lint (main.rs 174-192); [cache]: whether a bundle is given, and its contents. *)
Definition lint_command (fl : float_text) (ev : env) (stop : span) (cache : option (option (list byte))) (disk : filesystem) (src : list str) : run :=
  match cache with
  | None => Run [] Success Untouched
  | Some cache =>
    match prepare ev cache disk src with
    | inr s => Run [] s Untouched
    | inl (b, ev) =>
      match build fl ev stop (bn_pool b) with
      | (log, Fail (ErrUnwind _)) => Run log Abort Untouched
      | (log, _) => Run log Success Untouched
      end
    end
  end.
