(** Printing of definitions as source code.

    Models decompiler/src/print.rs 22-229 and 455-478 in the mode for source code
    ([OutputMode::Code]), and the loop over the roots in cli/src/main.rs 157-168.  The
    text is what has been written when the function returns, also if it returns an
    error.  Writing itself does not fail.  [n] bounds the nesting of definitions and of
    types, and the steps of the decompiler; [DFuel] stands for reaching it. *)
From Coq Require Import String.
From Coq Require Import ZArith List Bool.
From Verif Require Import Bytes Bytecode Definitions Bundle Ast TypeNames Pool Scope TypeCheck Cursor Printer Decompiler.
Import ListNotations.
Open Scope Z_scope.

(** What has been written, and how it has ended. *)
Definition written : Type := str * outcome derror unit.
Definition wput (s : str) : written := (s, Done tt).
Definition wthen (a b : written) : written :=
  match a with (s, Done _) => (s ++ fst b, snd b) | (s, Fail e) => (s, Fail e) end.
Definition wget {A} (m : outcome derror A) (k : A -> written) : written :=
  match m with Done a => k a | Fail e => ([], Fail e) end.
Fixpoint wall (l : list written) : written := match l with [] => wput [] | a :: l' => wthen a (wall l') end.
(** An error that is logged and forgotten; a panic goes on. *)
Definition wlogged (a : written) : written :=
  match a with (s, Fail DPanic) => (s, Fail DPanic) | (s, Fail DFuel) => (s, Fail DFuel) | (s, _) => (s, Done tt) end.
(** Result::unwrap, Option::expect. *)
Definition unwrapped {A} (m : outcome derror A) : outcome derror A :=
  match m with Fail DFuel => Fail DFuel | Fail _ => Fail DPanic | Done a => Done a end.

Definition newline_ : str := [byte_of_Z 10].
Definition words (l : list (bool * string)) : str := concat (map (fun x : bool * string => if fst x then lit (snd x) ++ lit " " else []) l).
(** fn write_indent (print.rs 22-27). *)
Definition spaces (depth : nat) : str := repeat (byte_of_Z 32) (2 * depth).
(** Display for Visibility (definition.rs 751-760). *)
Definition show_visibility (v : visibility) : string := match v with Public => "public" | Protected => "protected" | Private => "private" end.
(** pool.names.get of a definition. *)
Definition name_of (p : pool) (d : definition) : outcome derror str := of_string (st_get (Some none_str) (pl_names p) (df_name d)).

(** fn format_type (print.rs 465-478). *)
Fixpoint format_type (n : nat) (p : pool) (d : definition) : outcome derror str :=
  match n with
  | O => Fail DFuel
  | S n' =>
    let nested (i : pidx) : outcome derror str := let* e := of_pool (get_def p i) in format_type n' p e in
    match df_value d with
    | DType (TPrim | TClass) => name_of p d
    | DType (TRef i) => let* s := nested i in Done (lit "ref<" ++ s ++ lit ">")
    | DType (TWeakRef i) => let* s := nested i in Done (lit "wref<" ++ s ++ lit ">")
    | DType (TArray i) => let* s := nested i in Done (lit "array<" ++ s ++ lit ">")
    | DType (TStaticArray i size) => let* s := nested i in Done (lit "array<" ++ s ++ lit "; " ++ show_int size ++ lit ">")
    | DType (TScriptRef i) => let* s := nested i in Done (lit "script_ref<" ++ s ++ lit ">")
    | _ => Fail DPanic
    end
  end.
Definition type_at (n : nat) (p : pool) (i : pidx) : outcome derror str := let* d := of_pool (get_def p i) in format_type n p d.
(** fn format_param (print.rs 455-463). *)
Definition format_param (n : nat) (p : pool) (d : definition) : outcome derror str :=
  match df_value d with
  | DParameter pa =>
    let* t := type_at n p (pa_type pa) in
    let* name := name_of p d in
    Done (words [(get_flag pf_is_const (pa_flags pa), "const"%string); (get_flag pf_is_out (pa_flags pa), "out"%string); (get_flag pf_is_optional (pa_flags pa), "opt"%string)] ++
          name ++ lit ": " ++ t)
  | _ => Fail DPanic
  end.
(** Itertools::format with ", ": the parameters are written one by one. *)
Fixpoint write_params (l : list (outcome derror str)) : written :=
  match l with
  | [] => wput []
  | [a] => wget a wput
  | a :: l' => wthen (wget a wput) (wthen (wput (lit ", ")) (write_params l'))
  end.

Section Dump.
Variables (fl : float_text) (v : bool) (p : pool).
(** fn write_function_body (print.rs 194-220). *)
Definition write_body (n : nat) (f : function) (d : definition) (depth : nat) : written :=
  wall [wput (lit " {" ++ newline_);
        wget (decompiled n f d p) (fun code => wget (match show_seq fl v code (depth + 1) with Some s => Done s | None => Fail DPanic end) wput);
        wput (spaces depth ++ lit "}")].
(** fn write_definition (print.rs 29-192). *)
Definition write_function (n : nat) (d : definition) (f : function) (depth : nat) : written :=
  let flag b := get_flag b (fu_flags f) in
  wget (match fu_return_type f with None => Done (lit "Void") | Some i => unwrapped (type_at n p i) end) (fun ret =>
  wget (name_of p d) (fun name =>
  wall [wput (newline_ ++ spaces depth ++
              words [(true, show_visibility (fu_visibility f)); (flag fn_is_final, "final"%string); (flag fn_is_static, "static"%string); (flag fn_is_native, "native"%string);
                     (flag fn_is_exec, "exec"%string); (flag fn_is_const, "const"%string); (flag fn_is_quest, "quest"%string); (flag fn_is_callback, "cb"%string)] ++
              lit "func " ++ short_name name ++ lit "(");
        write_params (map (fun i => unwrapped (let* e := of_pool (get_def p i) in format_param n p e)) (fu_parameters f));
        wput (lit ") -> " ++ ret);
        (if flag fn_has_body then write_body n f d depth else wput (lit ";"));
        wput newline_])).
Definition write_property (name : string) (open close : str) (depth : nat) (q : property) : str :=
  spaces depth ++ lit name ++ lit "(" ++ open ++ pp_name q ++ close ++ lit ", " ++ open ++ pp_value q ++ close ++ lit ")" ++ newline_.
Definition write_field (n : nat) (d : definition) (f : field) (depth : nat) : written :=
  let flag b := get_flag b (fi_flags f) in
  wget (type_at n p (fi_type f)) (fun t =>
  wget (name_of p d) (fun name =>
  wput (newline_ ++ concat (map (write_property "@runtimeProperty" [quote] [quote] depth) (fi_attributes f)) ++
        concat (map (write_property "@default" [] [] depth) (fi_defaults f)) ++ spaces depth ++
        words [(true, show_visibility (fi_visibility f)); (flag ff_is_inline, "inline"%string); (flag ff_is_replicated, "replicated"%string); (flag ff_is_editable, "edit"%string);
               (flag ff_is_native, "native"%string); (flag ff_is_persistent, "persistent"%string); (flag ff_is_const, "const"%string)] ++
        lit "let " ++ name ++ lit ": " ++ t ++ lit ";" ++ newline_))).
Fixpoint write_definition (n : nat) (d : definition) (depth : nat) : written :=
  match n with
  | O => ([], Fail DFuel)
  | S n' =>
    let member (i : pidx) : written := wget (of_pool (get_def p i)) (fun e => write_definition n' e (depth + 1)) in
    let logged (i : pidx) : written := wget (of_pool (get_def p i)) (fun e => wlogged (write_definition n' e (depth + 1))) in
    match df_value d with
    | DType _ => wget (format_type n p d) wput
    | DClass k =>
      let flag b := get_flag b (cl_flags k) in
      wall [wput (newline_ ++
                  words [(true, show_visibility (cl_visibility k)); (flag cf_is_abstract, "abstract"%string); (flag cf_is_final, "final"%string);
                         (flag cf_is_import_only, "importonly"%string); (negb (flag cf_is_import_only) && flag cf_is_native, "native"%string);
                         (flag cf_is_struct, "struct"%string); (negb (flag cf_is_struct), "class"%string)]);
            wget (name_of p d) (fun name => wput (name ++ lit " "));
            (if cl_base k =? UNDEFINED then wput [] else wthen (wput []) (wget (of_pool (def_name p (cl_base k))) (fun b => wput (lit "extends " ++ b ++ lit " "))));
            wput (lit "{" ++ newline_);
            wall (map member (cl_fields k));
            wall (map logged (cl_functions k));
            wput (lit "}" ++ newline_)]
    | DEnumValue z => wget (name_of p d) (fun name => wput (spaces depth ++ name ++ lit " = " ++ show_int z ++ lit "," ++ newline_))
    | DEnum e =>
      wthen (wput newline_) (wget (name_of p d) (fun name =>
      wall [wput (lit "enum " ++ name ++ lit " {" ++ newline_); wall (map member (en_members e)); wput (lit "}" ++ newline_)]))
    | DFunction f => write_function n' d f depth
    | DParameter _ => wget (format_param n p d) wput
    | DLocal l =>
      wget (type_at n p (lo_type l)) (fun t => wget (name_of p d) (fun name =>
      wput (spaces depth ++ lit (if get_flag lf_is_const (lo_flags l) then "const " else "let ") ++ name ++ lit ": " ++ t ++ lit ";")))
    | DField f => write_field n' d f depth
    | DSourceFile _ => ([], Fail DPanic)
    end
  end.

(** The definitions that the command line tool prints (main.rs 160-164;
    ConstantPool::definitions, roots, bundle.rs 318-324, 352-354), and its output (main.rs 157-168). *)
Definition is_root (d : definition) : bool :=
  (df_parent d =? UNDEFINED) && match df_value d with DClass _ | DEnum _ | DFunction _ => true | _ => false end.
Definition dump (n : nat) : written := wall (map (fun d => wlogged (write_definition n d 0)) (filter is_root (tl (pl_defs p)))).
End Dump.
