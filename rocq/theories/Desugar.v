(** Desugaring of typed function bodies.

    Models compiler/src/sugar.rs on top of compiler/src/transform.rs (trait
    ExprTransformer, lines 9-227). *)
From Coq Require Import String.
From Coq Require Import ZArith List Bool.
From Verif Require Import Bytes Bytecode Definitions Bundle Ast TypeNames Pool Scope TypeCheck.
Import ListNotations.
Open Scope Z_scope.

(** struct Desugar (sugar.rs 15-21). *)
Record dstate := { ds_pool : pool; ds_scope : scope; ds_count : Z; ds_prefix : list texpr; ds_locals : list pidx }.
(** Desugar::new (sugar.rs 24-32). *)
Definition desugar_new (s : scope) (p : pool) : dstate :=
  {| ds_pool := p; ds_scope := s; ds_count := 0; ds_prefix := []; ds_locals := [] |}.
Definition set_prefix (l : list texpr) (d : dstate) : dstate :=
  {| ds_pool := ds_pool d; ds_scope := ds_scope d; ds_count := ds_count d; ds_prefix := l; ds_locals := ds_locals d |}.

(** A step of the transformer: it may change the state and may fail. *)
Definition D (A : Type) := dstate -> outcome error (A * dstate).
Definition dret {A} (a : A) : D A := fun d => Done (a, d).
Definition dbind {A B} (m : D A) (k : A -> D B) : D B :=
  fun d => match m d with Done (a, d') => k a d' | Fail e => Fail e end.
Notation "'then' x '<-' m ';' k" := (dbind m (fun x => k)) (at level 200, x pattern, m at level 100, k at level 200).
Definition dfail {A} (e : error) : D A := fun _ => Fail e.
(** A computation that only reads the scope and the pool. *)
Definition dread {A} (f : scope -> pool -> outcome error A) : D A :=
  fun d => match f (ds_scope d) (ds_pool d) with Done a => Done (a, d) | Fail e => Fail e end.
Definition dmap {A B} (f : A -> D B) : list A -> D (list B) :=
  fix go l :=
    match l with
    | [] => dret []
    | x :: l' => then y <- f x; then ys <- go l'; dret (y :: ys)
    end.
Definition dopt {A B} (f : A -> D B) (o : option A) : D (option B) :=
  match o with None => dret None | Some x => then y <- f x; dret (Some y) end.

(** Desugar::add_prefix (sugar.rs 40-42). *)
Definition add_prefix (e : texpr) : D unit := fun d => Done (tt, set_prefix (ds_prefix d ++ [e]) d).
(** Desugar::get_function (sugar.rs 44-52). *)
Definition find_function (sig : str) (sp : span) : D callable :=
  dread (fun s p => with_span sp
    (let* l := resolve_function s (sig_name sig) in
     match by_id l sig p with
     | Some i => Done (CFunction i)
     | None => Fail (FunctionNotFound sig)
     end)).
(** Desugar::fresh_local (sugar.rs 54-63). *)
Definition fresh_local (t : typeid) (sp : span) : D reference :=
  fun d =>
    match sc_function (ds_scope d) with
    | None => Fail (ErrUnwind Panicked)
    | Some fn =>
      let '(p1, name_idx) := add_name (ds_pool d) (lit "synthetic$" ++ dec (ds_count d)) in
      let* (ti, s', p2) := with_span sp (get_type_index t (ds_scope d) p1) in
      let '(p3, li) := add_definition p2 (local_definition name_idx fn {| lo_type := ti; lo_flags := 0 |}) in
      Done (RValue (VLocal li),
            {| ds_pool := p3; ds_scope := s'; ds_count := ds_count d + 1; ds_prefix := ds_prefix d;
               ds_locals := ds_locals d ++ [li] |})
    end.

Definition tident (r : reference) (sp : span) : texpr := EIdent (N := typed_ast) r sp.

(** The elements of an array literal (sugar.rs 83-92). *)
Definition array_elements (rec : texpr -> D texpr) (local : reference) (sp : span) : Z -> list texpr -> D unit :=
  fix go i l :=
    match l with
    | [] => dret tt
    | e :: l' =>
      then e' <- rec e;
      then _ <- add_prefix (EAssign (N := typed_ast) (EArrayElem (tident local sp) (EConstant (CU64 i) sp) sp) e' sp);
      go (i + 1) l'
    end.
(** Desugar::on_array_lit (sugar.rs 67-95); [type_.unwrap()] panics. *)
Definition on_array_lit (rec : texpr -> D texpr) (es : list texpr) (t : option typeid) (sp : span) : D texpr :=
  match t with
  | None => dfail (ErrUnwind Panicked)
  | Some t =>
    then local <- fresh_local (TIArray t) sp;
    then _ <- add_prefix (ECall (N := typed_ast) (CIntrinsic IArrayResize TIVoid) []
                            [tident local sp; EConstant (CU64 (Z.of_nat (length es))) sp] sp);
    then _ <- array_elements rec local sp 0 es;
    dret (tident local sp)
  end.

(** The closure as_ref (sugar.rs 112-113). *)
Definition as_ref (str_type : typeid) (sp : span) (e : texpr) : texpr :=
  ECall (N := typed_ast) (CIntrinsic IAsRef (TIScriptRef str_type)) [] [e] sp.
(** The choice of conversion for a part (sugar.rs 118-126). *)
Definition as_text (str_type : typeid) (sp : span) (part : texpr) (t : typeid) (p : pool) : outcome error texpr :=
  let other :=
    let* n := pe (ti_pretty p t) in
    Done (if str_eqb n (lit "String") then as_ref str_type sp part
          else as_ref str_type sp (ECall (N := typed_ast) (CIntrinsic IToString str_type) [] [part] sp)) in
  match t with
  | TIVoid => failc sp (UnsupportedFeature (lit "formatting void"))
  | TIScriptRef inner =>
    let* n := pe (ti_pretty p inner) in if str_eqb n (lit "String") then Done part else other
  | _ => other
  end.
Definition text_constant (s : str) (sp : span) : texpr := EConstant (N := typed_ast) (CString LString s) sp.
(** The loop over the parts (sugar.rs 115-136). *)
Definition text_parts (rec : texpr -> D texpr) (add : callable) (str_type : typeid) (sp : span) :
    texpr -> list (texpr * str) -> D texpr :=
  fix go acc parts :=
    match parts with
    | [] => dret acc
    | (part, s) :: parts' =>
      then part1 <- rec part;
      then t <- dread (type_of part1);
      then part2 <- dread (fun _ p => as_text str_type sp part1 t p);
      let combined :=
        match s with
        | [] => part2
        | _ => as_ref str_type sp (ECall (N := typed_ast) add [] [part2; as_ref str_type sp (text_constant s sp)] sp)
        end in
      go (ECall (N := typed_ast) add [] [as_ref str_type sp acc; combined] sp) parts'
    end.
(** The signature of the string concatenation (sugar.rs 106-109). *)
Definition add_str_sig : str :=
  let r := tn_basic (lit "Script_RefString") in
  sig_return (sig_parameter (sig_parameter (sig_new (binop_name BAdd)) r false) r false) tn_STRING.
(** Desugar::on_interpolated_string (sugar.rs 97-138). *)
Definition on_interpolated (rec : texpr -> D texpr) (prefix : str) (parts : list (texpr * str)) (sp : span) : D texpr :=
  then str_type <- dread (fun s p => named_type s p sp tn_STRING);
  then add <- find_function add_str_sig sp;
  text_parts rec add str_type sp (text_constant prefix sp) parts.

(** The signatures of += and < on Int32 (sugar.rs 169-179). *)
Definition assign_add_sig : str :=
  sig_return (sig_parameter (sig_parameter (sig_new (binop_name AssignAdd)) tn_INT32 true) tn_INT32 false) tn_INT32.
Definition less_sig : str :=
  sig_return (sig_parameter (sig_parameter (sig_new (binop_name Less)) tn_INT32 false) tn_INT32 false) tn_BOOL.
(** The pieces of the loop made for a for-in loop (sugar.rs 181-213). *)
Definition loop_condition (less : callable) (int : typeid) (arr counter : reference) (sp : span) : texpr :=
  ECall (N := typed_ast) less []
    [tident counter sp; ECall (N := typed_ast) (CIntrinsic IArraySize int) [] [tident arr sp] sp] sp.
Definition loop_element (name : pidx) (arr counter : reference) (sp : span) : texpr :=
  EAssign (N := typed_ast) (tident (RValue (VLocal name)) sp) (EArrayElem (tident arr sp) (tident counter sp) sp) sp.
Definition loop_step (add : callable) (counter : reference) (sp : span) : texpr :=
  ECall (N := typed_ast) add [] [tident counter sp; EConstant (CI32 1) sp] sp.
(** Desugar::on_for_in (sugar.rs 140-216). *)
Definition on_for_in (rec : texpr -> D texpr) (rec_seq : list texpr -> D (list texpr))
    (name : pidx) (array : texpr) (body : list texpr) (sp : span) : D texpr :=
  then seq <- rec_seq body;
  then array <- rec array;
  then arr_type <- dread (type_of array);
  then arr <- fresh_local arr_type sp;
  then int <- dread (fun s p => named_type s p sp tn_INT32);
  then counter <- fresh_local int sp;
  then _ <- add_prefix (EAssign (N := typed_ast) (tident arr sp) array sp);
  then _ <- add_prefix (EAssign (N := typed_ast) (tident counter sp) (EConstant (CI32 0) sp) sp);
  then add <- find_function assign_add_sig sp;
  then less <- find_function less_sig sp;
  dret (EWhile (N := typed_ast) (loop_condition less int arr counter sp)
          (loop_element name arr counter sp :: seq ++ [loop_step add counter sp]) sp).

(** Desugar::on_seq (sugar.rs 218-228): what has been added in front so far goes
    before the statement just done. *)
Definition on_seq_with (rec : texpr -> D texpr) : list texpr -> D (list texpr) :=
  fix go es :=
    match es with
    | [] => dret []
    | e :: es' =>
      then done <- rec e;
      then pre <- (fun d => Done (ds_prefix d, set_prefix [] d));
      then rest <- go es';
      dret (pre ++ done :: rest)
    end.
(** The cases of a switch (transform.rs 134-140): the body first. *)
Definition on_cases (rec : texpr -> D texpr) (rec_seq : list texpr -> D (list texpr)) :
    list (texpr * list texpr) -> D (list (texpr * list texpr)) :=
  fix go cases :=
    match cases with
    | [] => dret []
    | (m, b) :: cases' =>
      then b' <- rec_seq b;
      then m' <- rec m;
      then rest <- go cases';
      dret ((m', b') :: rest)
    end.

(** ExprTransformer::on_expr with the default methods (transform.rs 19-218) and the
    overridden ones. *)
Fixpoint on_expr (e : texpr) {struct e} : D texpr :=
  let rec_seq := on_seq_with on_expr in
  match e with
  | EArrayLit es t sp => on_array_lit on_expr es t sp
  | EInterpolated prefix parts sp => on_interpolated on_expr prefix parts sp
  | EDeclare l t init sp => then i <- dopt on_expr init; dret (EDeclare l t i sp)
  | ECast t e sp => then e' <- on_expr e; dret (ECast t e' sp)
  | EAssign l r sp => then l' <- on_expr l; then r' <- on_expr r; dret (EAssign l' r' sp)
  | ECall c ts args sp => then args' <- dmap on_expr args; dret (ECall c ts args' sp)
  | EMethodCall e f args sp => then e' <- on_expr e; then args' <- dmap on_expr args; dret (EMethodCall e' f args' sp)
  | EMember e m sp => then e' <- on_expr e; dret (EMember e' m sp)
  | EArrayElem e i sp => then e' <- on_expr e; then i' <- on_expr i; dret (EArrayElem e' i' sp)
  | ENew t args sp => then args' <- dmap on_expr args; dret (ENew t args' sp)
  | EReturn x sp => then x' <- dopt on_expr x; dret (EReturn x' sp)
  | ESeq es => then es' <- rec_seq es; dret (ESeq es')
  | ESwitch x cases d sp =>
    then cases' <- on_cases on_expr rec_seq cases;
    then d' <- dopt rec_seq d;
    then x' <- on_expr x;
    dret (ESwitch x' cases' d' sp)
  | EIf c t f sp => then t' <- rec_seq t; then f' <- dopt rec_seq f; then c' <- on_expr c; dret (EIf c' t' f' sp)
  | EConditional c t f sp =>
    then c' <- on_expr c; then t' <- on_expr t; then f' <- on_expr f; dret (EConditional c' t' f' sp)
  | EWhile c b sp => then b' <- rec_seq b; then c' <- on_expr c; dret (EWhile c' b' sp)
  | EForIn l a b sp => on_for_in on_expr rec_seq l a b sp
  | EBinOp l r o sp => then l' <- on_expr l; then r' <- on_expr r; dret (EBinOp l' r' o sp)
  | EUnOp e o sp => then e' <- on_expr e; dret (EUnOp e' o sp)
  | EIdent _ _ | EConstant _ _ | EGoto _ _ | EThis _ | ESuper _ | EBreak _ | ENull _ => dret e
  end.
Definition on_seq : list texpr -> D (list texpr) := on_seq_with on_expr.

(** Desugaring a checked body (unit.rs 999-1006): the new body, the added locals,
    the scope and the pool. *)
Definition desugar (body : list texpr) (s : scope) (p : pool) : outcome error (list texpr * list pidx * scope * pool) :=
  match on_seq body (desugar_new s p) with
  | Done (body', d) => Done (body', ds_locals d, ds_scope d, ds_pool d)
  | Fail e => Fail e
  end.
