(** The compiler the game starts (scc/lib/src/lib.rs), from the bytes of the script cache
    and the source files to the bytes of the output file.  Which file is read is the subject
    of [Backup.v]. *)
From Coq Require Import String.
From Coq Require Import ZArith List Bool.
From Verif Require Import Bytes Bytecode Definitions Bundle Ast Pool Scope TypeCheck Diagnostics Report SourceMap Display Sources Printer Parser Positions Wrappers Unit Cli.
Import ListNotations.
Open Scope Z_scope.

(** CompilationUnit::new (compiler/src/unit.rs 57-80) takes the passes to run over compiled
    bodies; [Unit.v] has the default ones.  Here they are an argument, a function from a
    body to what they find. *)
Definition pass_list := list texpr -> fun_metadata -> list diagnostic.
(** The passes of scc: none (lib.rs 206). *)
Definition no_passes : pass_list := fun _ _ => [].
(** One body (unit.rs 275-290). *)
Definition compile_body_with (ps : pass_list) (ev : env) (sugar permissive : bool) (x : function_body) : U (list compiled_function) :=
  do p <- uget us_pool;
  match compile_function ev sugar permissive x p with
  | Done (f, ds, p') =>
    do _ <- uput (fun st => set_diags (us_diags st ++ ds) (set_pool p' st));
    do g <- ulift (pe (get_function p' (cf_index f)));
    do _ <- uput (fun st => set_diags (us_diags st ++ ps (cf_code f)
               {| fm_flags := fu_flags g; fm_was_callback := fb_was_callback x; fm_span := cf_span f |}) st);
    uret [f]
  | Fail e => do _ <- ureport e; uret []
  end.
(** compile_modules up to the bodies (unit.rs 153-274). *)
Definition declare_modules (ev : env) (permissive : bool) (l : list source_module) : U (list function_body) :=
  let mods := flat_map (fun m => match sm_path m with Some p => [p] | None => [] end) l in
  do queue <- umap (declare_module permissive mods) l;
  do _ <- define_modules ev mods [] queue;
  do ds <- uget us_defaults;
  do _ <- ueach (compile_default ev) ds;
  do _ <- (fun st => match construct_proxies (ev_files ev) (us_proxies st) (ev_wrappers ev (us_wrappers st)) (us_scope st) (us_pool st) with
                 | Done (s, p) => (Done tt, set_pool p (set_root s st))
                 | Fail e => (Fail e, st)
                 end);
  uget us_bodies.
(** CompilationUnit::compile_modules (unit.rs 153-293) and compile (unit.rs 82-85). *)
Definition compile_modules_with (ps : pass_list) (ev : env) (sugar permissive : bool) (l : list source_module) : U (list compiled_function) :=
  do bodies <- declare_modules ev permissive l;
  do fs <- umap (compile_body_with ps ev sugar permissive) bodies;
  uret (concat fs).
Definition compile_with (ps : pass_list) (ev : env) (l : list source_module) (p : pool) : outcome error output :=
  let* st := unit_new ev p in
  match compile_modules_with ps ev true false l st with
  | (Done fs, st') => finish ev fs st'
  | (Fail e, _) => Fail e
  end.

(** CompilationUnit::compile_files and compile_and_report (unit.rs 87-89, 109-139), as
    [Cli.compile_files] and [Cli.build]. *)
Definition compile_files_with (ps : pass_list) (fl : float_text) (ev : env) (stop : span) (p : pool) : outcome error output :=
  match parse_files fl (ev_files ev) with
  | inl ms => compile_with ps ev ms p
  | inr (_, PFail) => Fail (SyntaxError stop)
  | inr (_, PPanic) => Fail (ErrUnwind Panicked)
  | inr (_, _) => Fail (ErrUnwind NoFuel)
  end.
Definition build_with (ps : pass_list) (fl : float_text) (ev : env) (stop : span) (p : pool) : list log_event * outcome error output :=
  match compile_files_with ps fl ev stop p with
  | Fail (ErrUnwind u) => ([], Fail (ErrUnwind u))
  | compiled =>
    let '(log, r) := compile_and_report (displayable (ev_files ev)) (match compiled with Done out => Done (out_diags out) | Fail e => Fail e end) in
    (log, match r, compiled with
          | Done _, Done out => Done out
          | Done _, Fail e => Fail e
          | Fail e, _ => Fail e
          end)
  end.

(** REDSCRIPT_SIGNATURE_DEF (lib.rs 34). *)
Definition signature : str := lit "$REDSCRIPT_SIGNATURE".
(** check_for_redscript_signature_def (lib.rs 272-274). *)
Definition is_signed (p : pool) : bool := match st_get_index (pl_names p) signature with Some _ => true | None => false end.
(** add_redscript_signature_def (lib.rs 261-270) with Definition::enum_
    (core/src/definition.rs). *)
Definition sign (p : pool) : pool :=
  let '(p', i) := add_name p signature in
  fst (add_definition p' {| df_name := i; df_parent := 0; df_unk1 := 0; df_unk2 := 0; df_unk3 := 0;
                            df_value := DEnum {| en_flags := 0; en_size := 0; en_members := []; en_unk1 := false |} |}).

(** try_compile_files from the loading of the cache on (lib.rs 185-239), after the sources
    are read (lib.rs 77).  The status is that of the result: Success, Failure (an error is
    returned) or Abort (a panic). *)
Definition scc_command (fl : float_text) (ev : env) (stop : span) (cache : option (list byte)) (disk : filesystem) (src : list str)
  (creatable : bool) : run :=
  match from_dirs disk src KeepAll with
  | None => Run [] Failure Untouched
  | Some files =>
    match cache with
    | None => Run [] Failure Untouched
    | Some bytes =>
      match load bytes with
      | Err Panic => Run [] Abort Untouched
      | Err _ => Run [] Failure Untouched
      | Ok b =>
        if is_signed (bn_pool b) then Run [] Failure Untouched
        else match unit_new (on_files ev files) (bn_pool b) with
        | Fail (ErrUnwind _) => Run [] Abort Untouched
        | Fail _ => Run [] Failure Untouched
        | Done _ =>
          match build_with no_passes fl (on_files ev files) stop (bn_pool b) with
          | (log, Fail (ErrUnwind _)) => Run log Abort Untouched
          | (log, Fail _) => Run log Failure Untouched
          | (log, Done out) =>
            if creatable then
              match save {| bn_header := bn_header b; bn_pool := sign (out_pool out) |} [] with
              | Ok bytes => Run log Success (Written bytes)
              | Err Panic => Run log Abort Spoiled
              | Err _ => Run log Failure Spoiled
              end
            else Run log Failure Untouched
          end
        end
      end
    end
  end.
