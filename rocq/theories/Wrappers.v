(** Wrapped methods.  Models the @wrapMethod branch of
    CompilationUnit::determine_function_location (compiler/src/unit.rs 784-840),
    construct_proxy (1058-1103), remap_locals (1105-1130), the loop building the
    proxies (268-272) and the loops of finish (298-318).

    A HashMap is a list of pairs with distinct keys.  The order in which a HashMap
    is walked is not specified: the loops below take it as an argument. *)
From Coq Require Import String.
From Coq Require Import ZArith List Bool.
From Verif Require Import Bytes Bytecode Definitions Bundle Ast Pool Scope TypeCheck SourceMap Cursor Assembler Printer.
Import ListNotations.
Open Scope Z_scope.

(** format!("wrapper${idx}"), format!("proxy${idx}") (unit.rs 821, 1097). *)
Definition wrapper_name (i : pidx) : str := lit "wrapper$" ++ show_nat i.
Definition proxy_name (i : pidx) : str := lit "proxy$" ++ show_nat i.

(** Updates of a definition. *)
Definition with_name (d : definition) (n : pidx) : definition :=
  {| df_name := n; df_parent := df_parent d; df_unk1 := df_unk1 d; df_unk2 := df_unk2 d; df_unk3 := df_unk3 d; df_value := df_value d |}.
Definition with_parent (d : definition) (q : pidx) : definition :=
  {| df_name := df_name d; df_parent := q; df_unk1 := df_unk1 d; df_unk2 := df_unk2 d; df_unk3 := df_unk3 d; df_value := df_value d |}.
Definition with_value (d : definition) (v : any_def) : definition :=
  {| df_name := df_name d; df_parent := df_parent d; df_unk1 := df_unk1 d; df_unk2 := df_unk2 d; df_unk3 := df_unk3 d; df_value := v |}.
Definition with_functions (k : class) (fs : list pidx) : class :=
  {| cl_visibility := cl_visibility k; cl_flags := cl_flags k; cl_base := cl_base k; cl_functions := fs;
     cl_fields := cl_fields k; cl_overrides := cl_overrides k |}.
Definition with_code (x : function) (c : code Z) : function :=
  {| fu_visibility := fu_visibility x; fu_flags := fu_flags x; fu_source := fu_source x; fu_return_type := fu_return_type x;
     fu_unk1 := fu_unk1 x; fu_base_method := fu_base_method x; fu_parameters := fu_parameters x; fu_locals := fu_locals x;
     fu_operator := fu_operator x; fu_cast := fu_cast x; fu_code := c; fu_unk2 := fu_unk2 x |}.
Definition with_locals (x : function) (l : list pidx) : function :=
  {| fu_visibility := fu_visibility x; fu_flags := fu_flags x; fu_source := fu_source x; fu_return_type := fu_return_type x;
     fu_unk1 := fu_unk1 x; fu_base_method := fu_base_method x; fu_parameters := fu_parameters x; fu_locals := l;
     fu_operator := fu_operator x; fu_cast := fu_cast x; fu_code := fu_code x; fu_unk2 := fu_unk2 x |}.
Definition with_parameters (x : function) (l : list pidx) : function :=
  {| fu_visibility := fu_visibility x; fu_flags := fu_flags x; fu_source := fu_source x; fu_return_type := fu_return_type x;
     fu_unk1 := fu_unk1 x; fu_base_method := fu_base_method x; fu_parameters := l; fu_locals := fu_locals x;
     fu_operator := fu_operator x; fu_cast := fu_cast x; fu_code := fu_code x; fu_unk2 := fu_unk2 x |}.
Definition with_flags (x : function) (w : Z) : function :=
  {| fu_visibility := fu_visibility x; fu_flags := w; fu_source := fu_source x; fu_return_type := fu_return_type x;
     fu_unk1 := fu_unk1 x; fu_base_method := fu_base_method x; fu_parameters := fu_parameters x; fu_locals := fu_locals x;
     fu_operator := fu_operator x; fu_cast := fu_cast x; fu_code := fu_code x; fu_unk2 := fu_unk2 x |}.
(** Definition::function (definition.rs). *)
Definition function_definition (n parent : pidx) (x : function) : definition :=
  {| df_name := n; df_parent := parent; df_unk1 := 0; df_unk2 := 0; df_unk3 := 0; df_value := DFunction x |}.
(** Definition::type_ with Type::Prim: the stub of ConstantPool::stub_definition
    (bundle.rs 344-346). *)
Definition stub (n : pidx) : definition :=
  {| df_name := n; df_parent := 0; df_unk1 := 0; df_unk2 := 0; df_unk3 := 0; df_value := DType TPrim |}.

(** ConstantPool::put_definition (bundle.rs 330-332); an index out of bounds
    panics. *)
Definition replace_at {A} (i : nat) (x : A) (l : list A) : list A := firstn i l ++ x :: skipn (S i) l.
Definition put_def (p : pool) (i : pidx) (d : definition) : outcome error pool :=
  match nth_def (pl_defs p) i with
  | Some _ => Done (set_defs p (replace_at (Z.to_nat i) d (pl_defs p)))
  | None => Fail (ErrUnwind Panicked)
  end.
(** ConstantPool::rename (bundle.rs 348-350). *)
Definition rename (p : pool) (i n : pidx) : outcome error pool :=
  match nth_def (pl_defs p) i with
  | Some d => put_def p i (with_name d n)
  | None => Fail (ErrUnwind Panicked)
  end.
(** ConstantPool::swap_definition (bundle.rs 334-336). *)
Definition swap_definition (p : pool) (i j : pidx) : outcome error pool :=
  match nth_def (pl_defs p) i, nth_def (pl_defs p) j with
  | Some a, Some b => let* p1 := put_def p i b in put_def p1 j a
  | _, _ => Fail (ErrUnwind Panicked)
  end.
(** pool.class_mut(c)?.functions.push(f). *)
Definition push_member (p : pool) (c f : pidx) : outcome error pool :=
  let* k := pe (get_class p c) in
  let* d := pe (get_def p c) in
  put_def p c (with_value d (DClass (with_functions k (cl_functions k ++ [f])))).
(** pool.function_mut(f)?, followed by an assignment. *)
Definition update_function (p : pool) (f : pidx) (u : function -> function) : outcome error pool :=
  let* x := pe (get_function p f) in
  let* d := pe (get_def p f) in
  put_def p f (with_value d (DFunction (u x))).

(** HashMap::get, insert on PoolIndex keys. *)
Definition pmap := list (pidx * pidx).
Fixpoint find_key (m : pmap) (k : pidx) : option pidx :=
  match m with [] => None | (k', v) :: m' => if k' =? k then Some v else find_key m' k end.
Definition put_key (m : pmap) (k v : pidx) : pmap := (k, v) :: filter (fun x => negb (fst x =? k)) m.

(** The part of CompilationUnit concerned: pool, wrappers, proxies (unit.rs 31-44). *)
Record wrap_state := WrapState { ws_pool : pool; ws_wrappers : pmap; ws_proxies : pmap }.
(** What the slot of a wrapper says: the class, the wrapper's index and the index
    [wrappedMethod] stands for (unit.rs 829-838); [wr_fun] is fun_idx. *)
Record wrapping := Wrapping { wr_class : pidx; wr_fun : pidx; wr_index : pidx; wr_wrapped : pidx }.

(** The @wrapMethod branch (unit.rs 787-840), once the class name is resolved, for
    a method with the given name and signature.  The errors are those of
    unit.rs 803-812. *)
Definition register (c : pidx) (name sig : str) (sp : span) (st : wrap_state) : outcome error (wrapping * wrap_state) :=
  let p := ws_pool st in
  match resolve_direct_method p name c with
  | Fail _ => failc sp NoMethodWithMatchingName
  | Done candidates =>
    match by_id candidates sig p with
    | None => failc sp NoMethodWithMatchingSignature
    | Some f =>
      let '(wrapped, p1, proxies) :=
        match find_key (ws_wrappers st) f with
        | Some w => (w, p, ws_proxies st)
        | None => let '(p1, proxy) := add_definition p default_definition in (proxy, p1, put_key (ws_proxies st) f proxy)
        end in
      let '(p2, name_idx) := add_name p1 (wrapper_name wrapped) in
      let '(p3, wrapper) := add_definition p2 (stub name_idx) in
      let* p4 := push_member p3 c wrapper in
      Done (Wrapping c f wrapper wrapped, WrapState p4 (put_key (ws_wrappers st) f wrapper) proxies)
    end
  end.

(** The loop over the parameters (unit.rs 1071-1076). *)
Fixpoint copy_parameters (ps : list pidx) (p : pool) : outcome error (list pidx * pool) :=
  match ps with
  | [] => Done ([], p)
  | i :: ps' =>
    let* d := pe (get_def p i) in
    let '(p1, j) := add_definition p d in
    let* (js, p2) := copy_parameters ps' p1 in
    Done (j :: js, p2)
  end.
(** The body of a proxy (unit.rs 1078-1088). *)
Definition proxy_body (x : function) (wrapper : pidx) (params : list pidx) : list texpr :=
  let call := ECall (N := typed_ast) (CFunction wrapper) []
                (map (fun i => EIdent (N := typed_ast) (RValue (VParam i)) span_zero) params) span_zero in
  [match fu_return_type x with Some _ => EReturn (Some call) span_zero | None => call end].
(** CompilationUnit::construct_proxy (unit.rs 1058-1103); the wrapped definition
    not being a function is the failing [expect] of 1067. *)
Definition construct_proxy (files : list file) (slot wrapped wrapper : pidx) (s : scope) (p : pool) :
    outcome error (scope * pool) :=
  let* d := pe (get_def p wrapped) in
  match df_value d with
  | DFunction x =>
    let* (params, p1) := copy_parameters (fu_parameters x) p in
    let* (c, s1, p2) := from_body files (proxy_body x wrapper params) s p1 in
    let compiled := with_parameters (with_locals (with_code x c) []) params in
    let '(p3, name) := add_name p2 (proxy_name wrapper) in
    let* p4 := put_def p3 slot (function_definition name (df_parent d) compiled) in
    if df_parent d =? UNDEFINED then Done (s1, p4)
    else let* p5 := push_member p4 (df_parent d) slot in Done (s1, p5)
  | _ => Fail (ErrUnwind Panicked)
  end.
(** The loop over the wrappers (unit.rs 269-272); [order] is the order in which
    the map is drained. *)
Fixpoint construct_proxies (files : list file) (proxies : pmap) (order : pmap) (s : scope) (p : pool) :
    outcome error (scope * pool) :=
  match order with
  | [] => Done (s, p)
  | (wrapped, wrapper) :: order' =>
    match find_key proxies wrapped with
    | None => Fail (ErrUnwind Panicked)
    | Some slot =>
      let* (s1, p1) := construct_proxy files slot wrapped wrapper s p in
      construct_proxies files proxies order' s1 p1
    end
  end.

(** The first loop of finish (unit.rs 299-304), for one function. *)
Definition install (files : list file) (f : pidx) (body : list texpr) (locals : list pidx) (s : scope) (p : pool) :
    outcome error pool :=
  let* (c, _, p1) := from_body files body s p in
  update_function p1 f (fun x => with_locals (with_code x c) locals).

(** The loop copying the locals (unit.rs 1115-1119). *)
Fixpoint copy_locals (proxy : pidx) (ls : list pidx) (m : pmap) (p : pool) : outcome error (pmap * pool) :=
  match ls with
  | [] => Done (m, p)
  | l :: ls' =>
    let* d := pe (get_def p l) in
    let '(p1, j) := add_definition p (with_parent d proxy) in
    copy_locals proxy ls' (put_key m l j) p1
  end.
(** The loop over the instructions (unit.rs 1124-1128); a local that is not in the
    map is a failing unwrap. *)
Fixpoint remap_code (m : pmap) (c : code Z) : option (code Z) :=
  match c with
  | [] => Some []
  | i :: c' =>
    match (match i with Local l => match find_key m l with Some j => Some (Local j) | None => None end | _ => Some i end),
          remap_code m c' with
    | Some i', Some r => Some (i' :: r)
    | _, _ => None
    end
  end.
(** CompilationUnit::remap_locals (unit.rs 1105-1130).  [shuffle] is the order in
    which the values of the map come (1122). *)
Definition remap_locals (shuffle : list pidx -> list pidx) (proxy target : pidx) (p : pool) : outcome error pool :=
  let* x := pe (get_function p target) in
  let* (m, p1) := copy_locals proxy (fu_locals x) [] p in
  let* x1 := pe (get_function p1 target) in
  match remap_code m (fu_code x1) with
  | Some c => update_function p1 target (fun x => with_code (with_locals x (shuffle (map snd m))) c)
  | None => Fail (ErrUnwind Panicked)
  end.
(** The second loop of finish (unit.rs 307-318); [order] is the order in which the
    map is walked. *)
Definition swap_proxy (shuffle : list pidx -> list pidx) (wrapped proxy : pidx) (p : pool) : outcome error pool :=
  let* dw := pe (get_def p wrapped) in
  let* dp := pe (get_def p proxy) in
  let* p1 := update_function p wrapped (fun x => with_flags x (with_flag fn_is_callback false (fu_flags x))) in
  let* p2 := remap_locals shuffle proxy wrapped p1 in
  let* p3 := rename p2 wrapped (df_name dp) in
  let* p4 := rename p3 proxy (df_name dw) in
  swap_definition p4 wrapped proxy.
Fixpoint swap_proxies (shuffle : list pidx -> list pidx) (order : pmap) (p : pool) : outcome error pool :=
  match order with
  | [] => Done p
  | (wrapped, proxy) :: order' => let* p1 := swap_proxy shuffle wrapped proxy p in swap_proxies shuffle order' p1
  end.
