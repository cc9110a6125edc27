(** The meaning of typed function bodies with array literals and for-in loops, and
    what is assumed of a runtime to replace them (specification). *)
From Coq Require Import String.
From Coq Require Import ZArith List Bool.
From Verif Require Import Bytes Bytecode Definitions Bundle Ast TypeNames Pool Scope TypeCheck PartsSpec Semantics TypeIndexSpec.
Import ListNotations.
Open Scope Z_scope.

(** Arrays in a runtime.  Evaluating a variable, a field or an element may yield a
    reference to it; [load] is what is stored there at the time.  [array] makes an
    array, [elements] are those of an array. *)
Record arrays (R : runtime) := {
  load : value R -> state R -> value R;
  array : list (value R) -> value R;
  elements : value R -> option (list (value R))
}.
Arguments load {R}. Arguments array {R}. Arguments elements {R}.
(** Values that are no references. *)
Definition settled {R} (Y : arrays R) (v : value R) : Prop := forall w, load Y v w = v.

Section Run.
Variables (R : runtime) (Y : arrays R) (s : scope) (p : pool).
Notation St := (state R).
Notation Val := (value R).

(** The values of the elements of a literal: each is evaluated once, left to right,
    where the literal is written. *)
Definition load_all (ev : texpr -> St -> answer (Val * St)) : list texpr -> St -> answer (list Val * St) :=
  fix go l w :=
    match l with
    | [] => Ans ([], w)
    | e :: l' =>
      ask (v, w1) := ev e w in ask (vs, w2) := go l' w1 in Ans (load Y v w1 :: vs, w2)
    end.

(** The value of an expression: as in [Semantics.eval], with array literals. *)
Fixpoint seval (e : texpr) (w : St) {struct e} : answer (Val * St) :=
  match e with
  | EArrayLit es _ _ => ask (vs, w1) := load_all seval es w in Ans (array Y vs, w1)
  | EIdent (RValue (VLocal i)) _ => perform R (OpLocal i) None [] w
  | EIdent (RValue (VParam i)) _ => perform R (OpParam i) None [] w
  | EConstant c _ => perform R (OpConst (const_of c)) None [] w
  | ECast (TIClass c) e _ => strict R seval (Some (OpCast c)) [e] w
  | EAssign l r _ => strict R seval (Some OpAssign) [l; r] w
  | EArrayElem a i _ =>
    strict R seval
      (match static_type s p a with
       | Some (TIArray _) => bind_opt (static_name s p a) (fun n => Some (OpElement false n))
       | Some (TIStaticArray _ _) => bind_opt (static_name s p a) (fun n => Some (OpElement true n))
       | _ => None
       end) [a; i] w
  | ENew (TIClass c) [] _ => perform R (OpNew c) None [] w
  | ENew (TIStruct c) args _ => strict R seval (Some (OpConstruct c)) args w
  | EConditional c t f _ => ask (v, w1) := seval c w in if truth R v w1 then seval t w1 else seval f w1
  | EMember e (ClassField f) _ =>
    ask (v, w1) := seval e w in
    if is_null R v w1 then Ans (no_value R, w1) else perform R (OpField f) (Some v) [] w1
  | EMember e (StructField f) _ => strict R seval (Some (OpStructField f)) [e] w
  | EMember _ (EnumMember en m) _ => perform R (OpConst (KEnum en m)) None [] w
  | ECall (CFunction f) _ args _ => eval_call R p seval f false None args w
  | ECall (CIntrinsic i t) _ args _ => strict R seval (intrinsic_op s p i t args) args w
  | EMethodCall e f args _ =>
    match e with
    | EIdent (RSymbol (SClass _ _)) _ | EIdent (RSymbol (SStruct _ _)) _ => eval_call R p seval f true None args w
    | _ =>
      ask (v, w1) := seval e w in
      if is_null R v w1 then Ans (no_value R, w1)
      else eval_call R p seval f (match e with ESuper _ => true | _ => false end) (Some v) args w1
    end
  | ENull _ => perform R (OpConst KNull) None [] w
  | EThis _ | ESuper _ => perform R OpThis None [] w
  | _ => Halt Malformed
  end.

(** The body once for each value, in order, with the value assigned to the
    variable; a break ends the loop, a return the function.  A loop may iterate
    [fuel] times. *)
Fixpoint for_each (fuel : nat) (var : pidx) (body : St -> answer (end_ R)) (xs : list Val) (w : St) : answer (end_ R) :=
  match fuel with
  | O => Halt OutOfFuel
  | S fuel' =>
    match xs with
    | [] => Ans (Normal R w)
    | x :: xs' =>
      ask (v, w1) := perform R (OpLocal var) None [] w in
      ask (_, w2) := perform R OpAssign None [Some v; Some x] w1 in
      ask r := body w2 in
      match r with
      | Normal _ w3 => for_each fuel' var body xs' w3
      | Broke _ w3 => Ans (Normal R w3)
      | Returned _ v w3 => Ans (Returned R v w3)
      end
    end
  end.
(** A for-in loop: the array is evaluated once.  Arrays have less than 2^31
    elements. *)
Definition run_for (fuel : nat) (ev : texpr -> St -> answer (Val * St)) (var : pidx) (a : texpr) (body : St -> answer (end_ R)) (w : St) :
    answer (end_ R) :=
  match static_type s p a with
  | Some (TIArray _) =>
    ask (v, w1) := ev a w in
    match elements Y (load Y v w1) with
    | Some xs => if Z.of_nat (length xs) <? 2 ^ 31 then for_each fuel var body xs w1 else Halt Malformed
    | None => Halt Malformed
    end
  | _ => Halt Malformed
  end.

(** The effect of a statement: as in [Semantics.run], with for-in loops. *)
Fixpoint srun (fuel : nat) (e : texpr) (w : St) {struct e} : answer (end_ R) :=
  let seq := run_all R (srun fuel) in
  match e with
  | EForIn l a body _ => run_for fuel seval l a (seq body) w
  | EDeclare l _ (Some x) _ =>
    ask (v, w1) := perform R (OpLocal l) None [] w in
    ask (x, w2) := seval x w1 in
    ask (_, w3) := perform R OpAssign None [Some v; Some x] w2 in
    Ans (Normal R w3)
  | EDeclare _ _ None _ => run R s p fuel e w
  | EReturn (Some x) _ => ask (v, w1) := seval x w in Ans (Returned R (Some v) w1)
  | EReturn None _ => Ans (Returned R None w)
  | EBreak _ => Ans (Broke R w)
  | ESeq es => seq es w
  | EIf c t f _ =>
    ask (v, w1) := seval c w in
    if truth R v w1 then seq t w1 else match f with Some f => seq f w1 | None => Ans (Normal R w1) end
  | EWhile c body _ => loop R fuel (seval c) (seq body) w
  | ESwitch x cases default _ =>
    ask t := need (static_name s p x) in
    ask (v, w1) := seval x w in
    ask (k, w2) := select R seval t v cases w1 in
    ask r := run_case R seq (match default with Some d => seq d | None => fun w => Ans (Normal R w) end) k cases w2 in
    Ans (leave_switch R r)
  | _ => ask (_, w1) := seval e w in Ans (Normal R w1)
  end.
End Run.

(** * Runtimes with temporaries *)

(** What desugared code needs of a runtime to keep values in extra local variables,
    those of [temp].  Variables, parameters, constants and the object are evaluated
    without any effect, a variable to a reference to it.  Nothing but the
    operations that are given a reference to a temporary can tell what is in it:
    [clean] values do not refer to temporaries, and [alike] states differ at most
    in them.  [takes o n] says that the [n]th argument of an operation is only
    read. *)
Record temporaries (R : runtime) (Y : arrays R) (p : pool) (temp : pidx -> Prop) (takes : op -> nat -> Prop) := {
  place : pidx -> value R;
  cell : pidx -> nat -> value R;
  param : pidx -> value R;
  self : value R;
  con : const -> value R;
  store : pidx -> value R -> state R -> state R;
  clean : value R -> Prop;
  alike : state R -> state R -> Prop;
  (* evaluation without effects *)
  t_local : forall i w, apply R (OpLocal i) None [] w = Some (place i, w);
  t_param : forall i w, apply R (OpParam i) None [] w = Some (param i, w);
  t_const : forall k w, apply R (OpConst k) None [] w = Some (con k, w);
  t_this : forall w, apply R OpThis None [] w = Some (self, w);
  t_not_null : forall w, is_null R self w = false;
  (* contents *)
  t_load_store : forall i v w, temp i -> settled Y v -> load Y (place i) (store i v w) = v;
  t_load_other : forall i j v w, temp i -> temp j -> i <> j -> load Y (place j) (store i v w) = load Y (place j) w;
  t_load_clean : forall i v x w, temp i -> clean x -> load Y x (store i v w) = load Y x w;
  t_load_load : forall v w, settled Y (load Y v w);
  t_load_con : forall k, settled Y (con k);
  t_load_array : forall l, Forall (settled Y) l -> settled Y (array Y l);
  t_elements : forall l, Forall (settled Y) l -> elements Y (array Y l) = Some l;
  t_array : forall v l, elements Y v = Some l -> v = array Y l /\ Forall (settled Y) l;
  (* what is clean *)
  t_clean_local : forall i, ~ temp i -> clean (place i);
  t_clean_param : forall i, clean (param i);
  t_clean_const : forall k, clean (con k);
  t_clean_self : clean self;
  t_clean_none : clean (no_value R);
  t_clean_load : forall v w, clean v -> clean (load Y v w);
  t_clean_array : forall l, Forall (settled Y) l -> clean (array Y l) <-> Forall clean l;
  (* states that differ in temporaries only *)
  t_alike_store : forall i v w w1, temp i -> alike w w1 -> alike w (store i v w1);
  t_alike_load : forall v w w1, clean v -> alike w w1 -> load Y v w = load Y v w1;
  t_alike_truth : forall v w w1, clean v -> alike w w1 -> truth R v w = truth R v w1;
  t_alike_null : forall v w w1, clean v -> alike w w1 -> is_null R v w = is_null R v w1;
  t_alike_same : forall t v x w w1, clean v -> clean x -> alike w w1 -> same R t v x w = same R t v x w1;
  t_alike_skips : forall o this args w w1, opt_all clean this -> Forall (opt_all clean) args -> alike w w1 ->
    skips R o this args w = skips R o this args w1;
  t_alike_apply : forall o this args w w1, (forall i, temp i -> o <> OpLocal i) -> opt_all clean this -> Forall (opt_all clean) args ->
    alike w w1 ->
    match apply R o this args w, apply R o this args w1 with
    | Some (v, u), Some (v1, u1) => v1 = v /\ clean v /\ alike u u1 /\ forall i, temp i -> load Y (place i) u1 = load Y (place i) w1
    | None, None => True
    | _, _ => False
    end;
  (* operations on temporaries *)
  t_takes_assign : takes OpAssign 1%nat;
  t_takes : forall o this args1 args2 w,
    (length args1 = length args2)%nat ->
    (forall n, nth_error args1 n = nth_error args2 n \/
       takes o n /\ exists i, temp i /\ nth_error args2 n = Some (Some (place i)) /\ nth_error args1 n = Some (Some (load Y (place i) w))) ->
    apply R o this args2 w = apply R o this args1 w;
  t_assign : forall i v w, temp i -> exists x, apply R OpAssign None [Some (place i); Some v] w = Some (x, store i (load Y v w) w);
  t_element : forall i l k n v w, temp i -> Forall (settled Y) l -> load Y (place i) w = array Y l -> (k < length l)%nat ->
    load Y v w = con (KInt 32 (Z.of_nat k)) \/ load Y v w = con (KUint 64 (Z.of_nat k)) ->
    apply R (OpElement false n) None [Some (place i); Some v] w = Some (cell i k, w);
  t_load_cell : forall i k l x w, temp i -> Forall (settled Y) l -> load Y (place i) w = array Y l -> nth_error l k = Some x -> load Y (cell i k) w = x;
  t_assign_cell : forall i k l v w, temp i -> Forall (settled Y) l -> load Y (place i) w = array Y l -> (k < length l)%nat ->
    exists x, apply R OpAssign None [Some (cell i k); Some v] w = Some (x, store i (array Y (firstn k l ++ load Y v w :: skipn (S k) l)) w);
  t_from_cell : forall i k x w, temp i -> clean x ->
    apply R OpAssign None [Some x; Some (cell i k)] w = apply R OpAssign None [Some x; Some (load Y (cell i k) w)] w;
  t_resize : forall i n k w, temp i -> exists x l, length l = k /\ Forall (fun v => settled Y v /\ clean v) l /\
    apply R (OpIntrinsic IArrayResize (Some n)) None [Some (place i); Some (con (KUint 64 (Z.of_nat k)))] w = Some (x, store i (array Y l) w);
  t_size : forall i n l w, temp i -> Forall (settled Y) l -> load Y (place i) w = array Y l -> Z.of_nat (length l) < 2 ^ 31 ->
    apply R (OpIntrinsic IArraySize (Some n)) None [Some (place i)] w = Some (con (KInt 32 (Z.of_nat (length l))), w);
  (* the functions called to count *)
  t_less : forall f, def_name p f = Done (lit "OperatorLess;Int32Int32;Bool") ->
    exists c, callee_of p f false = Some c /\ short_params p f = Some [false; false] /\
    forall i a b w, temp i -> 0 <= a < 2 ^ 31 -> 0 <= b < 2 ^ 31 -> load Y (place i) w = con (KInt 32 a) ->
    exists v, apply R (OpCall c) None [Some (place i); Some (con (KInt 32 b))] w = Some (v, w) /\ truth R v w = (a <? b);
  t_add : forall f, def_name p f = Done (lit "OperatorAssignAdd;OutInt32Int32;Int32") ->
    exists c, callee_of p f false = Some c /\ short_params p f = Some [false; false] /\
    forall i a w, temp i -> 0 <= a < 2 ^ 31 - 1 -> load Y (place i) w = con (KInt 32 a) ->
    exists v, apply R (OpCall c) None [Some (place i); Some (con (KInt 32 1))] w = Some (v, store i (con (KInt 32 (a + 1))) w)
}.
Arguments place {R Y p temp takes}. Arguments cell {R Y p temp takes}. Arguments param {R Y p temp takes}.
Arguments self {R Y p temp takes}. Arguments con {R Y p temp takes}. Arguments store {R Y p temp takes}.
Arguments clean {R Y p temp takes}. Arguments alike {R Y p temp takes}.

(** Two runs end in the same way, in states that differ in temporaries only; what
    they return reads the same. *)
Definition read_alike {R} (Y : arrays R) (v v2 : option (value R)) (u u2 : state R) : Prop :=
  match v, v2 with Some v, Some v2 => load Y v u = load Y v2 u2 | None, None => True | _, _ => False end.
Definition same_ending {R Y p temp takes} (T : temporaries R Y p temp takes) (x y : answer (end_ R)) : Prop :=
  match x, y with
  | Ans (Normal _ u), Ans (Normal _ u2) | Ans (Broke _ u), Ans (Broke _ u2) => alike T u u2
  | Ans (Returned _ v u), Ans (Returned _ v2 u2) => alike T u u2 /\ read_alike Y v v2 u u2
  | Halt h, Halt h2 => h = h2
  | _, _ => False
  end.

(** An expression does not name temporaries. *)
Definition names_no (temp : pidx -> Prop) (e : texpr) : Prop := forall x, within x e ->
  match x with
  | EIdent (RValue (VLocal i)) _ | EDeclare i _ _ _ | EForIn i _ _ _ => ~ temp i
  | _ => True
  end.

(** * Bodies whose array literals can be evaluated in advance *)

Section Early.
Variables (s : scope) (p : pool) (takes : op -> nat -> Prop).

Definition literal_node (e : texpr) : bool := match e with EArrayLit _ _ _ => true | _ => false end.
(** Evaluated without any effect, and independently of all effects. *)
Definition inert (e : texpr) : bool :=
  match e with EIdent (RValue _) _ | EConstant _ _ | EThis _ | ESuper _ | ENull _ => true | _ => false end.
(** Expressions without sugar and statements. *)
Definition value_node (e : texpr) : Prop :=
  match e with
  | EArrayLit _ _ _ | EInterpolated _ _ _ | EForIn _ _ _ _ | EDeclare _ _ _ _ | EReturn _ _ | ESeq _ | ESwitch _ _ _ _
  | EGoto _ _ | EIf _ _ _ _ | EWhile _ _ _ | EBreak _ => False
  | _ => True
  end.
Definition plain (e : texpr) : Prop := forall x, within x e -> value_node x.

(** The arguments of an operation: there is no literal after an argument that has
    an effect, and literals are arguments that are only read. *)
Definition early_args (ev : texpr -> Prop) (o : option op) : nat -> list texpr -> Prop :=
  fix go n args :=
    match args with
    | [] => True
    | a :: rest =>
      ev a /\ (literal_node a = true -> exists o', o = Some o' /\ takes o' n) /\
      if literal_node a || inert a then go (S n) rest else Forall plain rest
    end.
Definition every (P : texpr -> Prop) : list texpr -> Prop :=
  fix go l := match l with [] => True | x :: l' => P x /\ go l' end.
(** The operation of a call with [n] arguments none of which may be skipped. *)
Definition full_call (f : pidx) (super : bool) (n : nat) (o : op) : Prop :=
  exists c, o = OpCall c /\ callee_of p f super = Some c /\
    forall l, short_params p f = Some l -> Forall (eq false) l /\ (n <= length l)%nat.

(** No array literal comes after something with an effect, or is evaluated only
    under a condition. *)
Fixpoint early (e : texpr) {struct e} : Prop :=
  plain e \/
  match e with
  | EArrayLit es _ _ => every early es
  | ECast (TIClass c) x _ => early_args early (Some (OpCast c)) 0 [x]
  | EAssign l r _ => early_args early (Some OpAssign) 0 [l; r]
  | EArrayElem a i _ =>
    early_args early
      (match static_type s p a with
       | Some (TIArray _) => bind_opt (static_name s p a) (fun n => Some (OpElement false n))
       | Some (TIStaticArray _ _) => bind_opt (static_name s p a) (fun n => Some (OpElement true n))
       | _ => None
       end) 0 [a; i]
  | ENew (TIStruct c) args _ => early_args early (Some (OpConstruct c)) 0 args
  | EConditional c t f _ => early c /\ literal_node c = false /\ plain t /\ plain f
  | EMember x (ClassField _) _ => early x /\ literal_node x = false
  | EMember x (StructField f) _ => early_args early (Some (OpStructField f)) 0 [x]
  | ECall (CFunction f) _ args _ => exists o, full_call f false (length args) o /\ early_args early (Some o) 0 args
  | ECall (CIntrinsic i t) _ args _ => early_args early (intrinsic_op s p i t args) 0 args
  | EMethodCall x f args _ =>
    match x with
    | EIdent (RSymbol (SClass _ _)) _ | EIdent (RSymbol (SStruct _ _)) _ | ESuper _ =>
      exists o, full_call f true (length args) o /\ early_args early (Some o) 0 args
    | EThis _ => exists o, full_call f false (length args) o /\ early_args early (Some o) 0 args
    | _ => early x /\ literal_node x = false /\ Forall plain args
    end
  | _ => False
  end.
(** The same of statements. *)
Definition every_case (P : texpr -> Prop) : list (texpr * list texpr) -> Prop :=
  fix go l := match l with [] => True | (m, b) :: l' => plain m /\ every P b /\ go l' end.
Fixpoint tame (e : texpr) {struct e} : Prop :=
  match e with
  | EDeclare _ _ (Some x) _ | EReturn (Some x) _ => early x
  | EDeclare _ _ None _ | EReturn None _ | EBreak _ => True
  | ESeq es => every tame es
  | EIf c t f _ =>
    early c /\ literal_node c = false /\ every tame t /\ match f with Some f => every tame f | None => True end
  | EWhile c b _ => plain c /\ every tame b
  | ESwitch x cases d _ =>
    early x /\ literal_node x = false /\ every_case tame cases /\ match d with Some d => every tame d | None => True end
  | EForIn _ a b _ => early a /\ every tame b
  | _ => early e
  end.
End Early.

(** The type Int32 and the types of array literals are known before, and so are
    the types of the arrays that are looped over. *)
Definition knows_int (s : scope) (p : pool) : Prop := exists t, known s p t /\ forall sp, named_type s p sp tn_INT32 = Done t.
Section Typed.
Variables (s : scope) (p : pool) (s' : scope) (p' : pool).
Definition typed_node (e : texpr) : Prop :=
  match e with
  | EArrayLit _ (Some t) _ => known s p t
  | EForIn _ a _ _ => forall t, type_of a s' p' = Done t -> known s p t
  | _ => True
  end.
Definition typed_ok (e : texpr) : Prop := forall x, within x e -> typed_node x.
End Typed.
