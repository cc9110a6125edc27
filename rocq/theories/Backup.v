(** One run of the compiler as seen by the file system.

    Models try_compile and try_compile_files of scc/lib/src/lib.rs (48-239), with
    get_base_bundle_path (252-259) and the signature check (261-274).

    A run is the sequence of the states the file system goes through: a run that
    is killed, or that stops because an operation of the system fails, leaves one
    of them behind.  Copying and saving a file are not atomic: in between, the file
    is there with only part of its contents.  Not modelled: the log, loading the
    sources, several runs at the same time (they are excluded by a lock on the
    timestamp file). *)
From Coq Require Import ZArith List Bool.
Import ListNotations.
Open Scope Z_scope.

(** What a script cache holds: the game's own scripts of some version, the result
    of compiling scripts against another cache, or a part of a cache, which cannot
    be loaded. *)
Inductive content := Pristine (version : nat) | Modded (base : content) | Part.
(** check_for_redscript_signature_def (lib.rs 272-274): the signature is added to
    every cache the compiler saves (lib.rs 212, 261-270). *)
Definition has_signature (c : content) : bool := match c with Modded _ => true | _ => false end.

(** A file: contents and modification time. *)
Record file := { fl_content : content; fl_mtime : Z }.

(** The files involved.  For the default settings the cache file is the one in
    r6/cache, and [BaseCache] and [BaseBackup] are not used. *)
Inductive path := Cache | Backup | Output | BaseCache | BaseBackup.
Definition path_eqb (a b : path) : bool :=
  match a, b with
  | Cache, Cache | Backup, Backup | Output, Output | BaseCache, BaseCache | BaseBackup, BaseBackup => true
  | _, _ => false
  end.

(** The state of the file system: script caches, the timestamp file (absent,
    empty, or with a timestamp) and the legacy one, and the clock. *)
Record world := { w_file : path -> option file; w_ts : option (option Z); w_legacy : option (option Z); w_clock : Z }.

(** SccSettings (api.rs 155-162): whether a custom cache file is set, and whether
    an output file different from the cache file is set (lib.rs 107-110). *)
Record settings := { se_custom : bool; se_separate : bool }.
(** r6/cache/final.redscripts and r6/cache/final.redscripts.bk. *)
Definition default_cache (s : settings) : path := if se_custom s then BaseCache else Cache.
Definition default_backup (s : settings) : path := if se_custom s then BaseBackup else Backup.
Definition output_path (s : settings) : path := if se_separate s then Output else Cache.

(** Where in the run a state was observed: before the result is saved, while it is
    being saved and the timestamp is not yet written, or after that. *)
Inductive phase := Preparing | Saving | Finished.

(** How a run ended: successfully, with errors in the scripts, or with another
    error.  The first two carry the cache the scripts were compiled against. *)
Inductive ending := Succeeded (base : content) | ScriptErrors (base : content) | Stopped.

(** A run in progress: it yields the states it goes through, the final state, and
    either a value or the way it ended early. *)
Definition R (A : Type) := world -> list (phase * world) * world * (A + ending).
Definition rret {A} (a : A) : R A := fun w => ([], w, inl a).
Definition rstop {A} (e : ending) : R A := fun w => ([], w, inr e).
Definition rbind {A B} (m : R A) (k : A -> R B) : R B :=
  fun w => match m w with
           | (t, w', inl a) => match k a w' with (t', w'', r) => (t ++ t', w'', r) end
           | (t, w', inr e) => (t, w', inr e)
           end.
Notation "'let!' x := m 'in' k" := (rbind m (fun x => k)) (at level 200, x binder, right associativity).
Notation "m ;; k" := (rbind m (fun _ => k)) (at level 61, right associativity).
Definition get {A} (f : world -> A) : R A := fun w => ([], w, inl (f w)).
(** A change of the file system that can be observed. *)
Definition change (ph : phase) (f : world -> world) : R unit := fun w => ([(ph, f w)], f w, inl tt).

Definition set_file (p : path) (f : option file) (w : world) : world :=
  {| w_file := fun q => if path_eqb p q then f else w_file w q; w_ts := w_ts w; w_legacy := w_legacy w; w_clock := w_clock w |}.
Definition tick (w : world) : world :=
  {| w_file := w_file w; w_ts := w_ts w; w_legacy := w_legacy w; w_clock := w_clock w + 1 |}.
(** Writing contents to a file: it gets the current time. *)
Definition put (p : path) (c : content) (w : world) : world :=
  tick (set_file p (Some {| fl_content := c; fl_mtime := w_clock w |}) w).
Definition exists_file (p : path) (w : world) : bool := match w_file w p with Some _ => true | None => false end.

(** fs::copy.  [keep]: the system gives the copy the modification time of the
    original (Windows does, Unix does not). *)
Definition copy_file (keep : bool) (a b : path) : R unit :=
  let! f := get (fun w => w_file w a) in
  match f with
  | None => rstop Stopped
  | Some f =>
    change Preparing (put b Part) ;;
    change Preparing (fun w => if keep then tick (set_file b (Some f) w) else put b (fl_content f) w)
  end.
(** fs::rename and fs::remove_file. *)
Definition rename_file (a b : path) : R unit :=
  change Preparing (fun w => set_file a None (set_file b (w_file w a) w)).
Definition remove_file (a : path) : R unit := change Preparing (set_file a None).

Definition set_ts (t : option (option Z)) (w : world) : world :=
  {| w_file := w_file w; w_ts := t; w_legacy := w_legacy w; w_clock := w_clock w |}.
(** Renaming the legacy timestamp file (lib.rs 112-119). *)
Definition migrate_ts : R unit :=
  let! w := get (fun w => w) in
  match w_ts w, w_legacy w with
  | None, Some t =>
    change Preparing (fun w => {| w_file := w_file w; w_ts := Some t; w_legacy := None; w_clock := w_clock w |})
  | _, _ => rret tt
  end.
(** Opening the timestamp file, which creates it (lib.rs 121-129). *)
Definition open_ts : R unit :=
  let! t := get w_ts in
  match t with None => change Preparing (set_ts (Some None)) | Some _ => rret tt end.

(** Choosing the cache to compile against (lib.rs 142-183). *)
Definition choose_input (keep : bool) (s : settings) : R path :=
  let! cache := get (fun w => w_file w Cache) in
  match cache with
  | None => rstop Stopped
  | Some cache =>
    let! saved := get (fun w => match w_ts w with Some t => t | None => None end) in
    let! backup := get (exists_file Backup) in
    let ours := match saved with Some t => t =? fl_mtime cache | None => false end in
    if se_separate s then
      (if negb ours && backup then remove_file Backup
       else if backup then rename_file Backup Cache
       else rret tt) ;;
      rret Cache
    else
      (match saved with
       | None => if backup then rret tt else copy_file keep Cache Backup
       | Some _ => if negb ours then copy_file keep Cache Backup
                   else if backup then rret tt
                   else rstop Stopped
       end) ;;
      rret Backup
  end.

(** Loading the chosen cache, compiling and saving (lib.rs 185-226).
    [scripts_ok]: whether the scripts compile. *)
Definition compile_against (s : settings) (scripts_ok : bool) (base : option file) : R content :=
  match base with
  | None => rstop Stopped
  | Some {| fl_content := Part |} => rstop Stopped
  | Some {| fl_content := base |} =>
    if has_signature base then rstop Stopped
    else if scripts_ok then
      change Saving (put (output_path s) Part) ;;
      change Saving (put (output_path s) (Modded base)) ;;
      change Finished (fun w => match w_file w (output_path s) with
                                | Some f => set_ts (Some (Some (fl_mtime f))) w
                                | None => w
                                end) ;;
      rret base
    else rstop (ScriptErrors base)
  end.
(** try_compile_files (lib.rs 99-239). *)
Definition compile_files (keep : bool) (s : settings) (scripts_ok : bool) : R content :=
  migrate_ts ;;
  open_ts ;;
  let! input := choose_input keep s in
  let! base := get (fun w => w_file w input) in
  compile_against s scripts_ok base.

(** try_compile (lib.rs 48-97). *)
Definition compile (keep : bool) (s : settings) (scripts_ok : bool) : R content :=
  let! cache := get (exists_file Cache) in
  (if cache then rret tt
   else let! b := get (exists_file (default_backup s)) in
        copy_file keep (if b then default_backup s else default_cache s) Cache) ;;
  let! fallback := get (exists_file (default_backup s)) in
  let! backup := get (exists_file Backup) in
  (if fallback && negb backup then copy_file keep (default_backup s) Backup else rret tt) ;;
  compile_files keep s scripts_ok.

(** All states a run goes through, and how it ends if it is not interrupted. *)
Definition run_states (keep : bool) (s : settings) (scripts_ok : bool) (w : world) : list (phase * world) :=
  match compile keep s scripts_ok w with (t, _, _) => (Preparing, w) :: t end.
Definition run_end (keep : bool) (s : settings) (scripts_ok : bool) (w : world) : world * ending :=
  match compile keep s scripts_ok w with
  | (_, w', inl base) => (w', Succeeded base)
  | (_, w', inr e) => (w', e)
  end.

(** A game update (or a repair of the game files) puts a new version of the game's
    own scripts in place. *)
Definition update (version : nat) (w : world) : world := put Cache (Pristine version) w.
