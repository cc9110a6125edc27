(** C66: number literals keep their value. *)
From Coq Require Import String.
From Coq Require Import ZArith List Bool Reals Lia Lra Decimal.
From Flocq Require Import Core IEEE754.Binary IEEE754.Bits.
From Verif Require Import Bytes BytesFacts Bytecode Definitions Bundle BundleFacts Ast TypeNames Pool Scope TypeCheck Parser ParserFacts Cursor SourceMap Assembler TypingFacts LiteralSpec LiteralFacts.
Import ListNotations.
Open Scope Z_scope.

(** * Reading digits *)
Lemma digit_b b : digit b -> is_digit b = true.
Proof. unfold digit, is_digit, in_range. lia. Qed.
Lemma read_digits w : Forall digit w -> exists u, read_uint w = Some u /\
  (forall a, Zpos (Pos.of_uint_acc u a) = fold_left (fun a b => 10 * a + (Z_of_byte b - 48)) w (Zpos a)) /\
  Z.of_N (N.of_uint u) = decimal w.
Proof.
  induction 1 as [|b w D _ (u & E & A & V)]; [exists Nil; repeat split|]. cbn [read_uint]. rewrite E.
  unfold decimal. cbn [fold_left]. unfold digit in D.
  assert (exists k, Z_of_byte b = 48 + k /\ 0 <= k <= 9) as (k & -> & K) by (exists (Z_of_byte b - 48); lia).
  replace (48 + k - 48) with k by lia.
  assert (k = 0 \/ k = 1 \/ k = 2 \/ k = 3 \/ k = 4 \/ k = 5 \/ k = 6 \/ k = 7 \/ k = 8 \/ k = 9) as C by lia.
  repeat (destruct C as [->|C]); [..|subst k]; eexists; (split; [reflexivity|]);
    (split; [intros a; cbn [Pos.of_uint_acc]; rewrite A; f_equal; lia|]); cbn [N.of_uint Pos.of_uint]; try exact V; cbn [Z.of_N]; apply A.
Qed.
Lemma read_decimal w : w <> [] -> Forall digit w -> read_nat w = Some (decimal w).
Proof. intros N D. destruct (read_digits w D) as (u & E & _ & V). unfold read_nat. destruct w; [congruence|]. now rewrite E, V. Qed.
Lemma span_digits f w rest : forallb f w = true -> match rest with b :: _ => f b = false | [] => True end -> Parser.span_of f (w ++ rest) = (w, rest).
Proof.
  induction w as [|b w IH]; cbn [List.app forallb]; intros F R.
  - destruct rest as [|b r]; [reflexivity|]. cbn [Parser.span_of]. cbv beta iota in R. rewrite R. reflexivity.
  - apply andb_true_iff in F as [F1 F2]. cbn [Parser.span_of]. now rewrite F1, (IH F2 R).
Qed.
Lemma not_dot b : digit b -> in_range 46 46 b = false.
Proof. unfold digit, in_range. lia. Qed.
Lemma not_minus b : digit b -> Byte.eqb b x2d = false.
Proof. intros D. destruct (Byte.eqb b x2d) eqn:E; [|reflexivity]. apply byte_dec_bl in E. subst b. exfalso. revert D. unfold digit. cbn. lia. Qed.
Lemma strip_one c rest : match rest with b :: _ => b <> c | [] => True end -> strip [c] rest = None.
Proof.
  destruct rest as [|b r]; [reflexivity|]. cbn [strip]. intros N. destruct (Byte.eqb c b) eqn:E; [|reflexivity].
  apply byte_dec_bl in E. congruence.
Qed.
Lemma strip_one_yes c rest : strip [c] (c :: rest) = Some rest.
Proof. cbn [strip]. now rewrite (byte_dec_lb eq_refl). Qed.
Lemma no_dots w : Forall digit w -> existsb (in_range 46 46) w = false.
Proof. induction 1 as [|b w D _ IH]; [reflexivity|]. cbn [existsb]. now rewrite (not_dot _ D), IH. Qed.

(** The constants of the kind [k]: those in range, and only unsigned ones without a sign. *)
Definition allowed (k : suffix) (minus : bool) (z : Z) : bool :=
  match k with
  | NoSuffix => (- 2 ^ 31 <=? z) && (z <? 2 ^ 31)
  | SuffixL => (- 2 ^ 63 <=? z) && (z <? 2 ^ 63)
  | SuffixU => negb minus && (z <? 2 ^ 32)
  | SuffixUL => negb minus && (z <? 2 ^ 64)
  end.
Lemma read_int_of s lo hi (minus : bool) w : w <> [] -> Forall digit w ->
  read_int s lo hi ((if minus then [x2d] else []) ++ w) =
  if minus && negb s then None
  else let z := if minus then - decimal w else decimal w in if (lo <=? z) && (z <? hi) then Some z else None.
Proof.
  intros N D. unfold read_int. destruct minus; cbn [List.app andb].
  - change (Byte.eqb x2d x2d) with true. cbv iota. rewrite (read_decimal w N D). destruct s; reflexivity.
  - pose proof (read_decimal w N D) as R. destruct w as [|b w]; [congruence|]. inversion D; subst. rewrite (not_minus b), R; [reflexivity|assumption].
Qed.
Lemma decimal_nonneg w : Forall digit w -> 0 <= decimal w.
Proof. intros D. destruct (read_digits w D) as (u & _ & _ & <-). lia. Qed.

(** What is read. *)
Lemma reads fl k (minus : bool) w rest : w <> [] -> Forall digit w -> ends_number rest ->
  let z := if minus then - decimal w else decimal w in
  rnumber fl ((if minus then [x2d] else []) ++ w ++ suffix_text k ++ rest) =
  if allowed k minus z then PMatch (with_suffix k z) rest else PFail.
Proof.
  intros N D R. cbv zeta. unfold rnumber.
  replace (match (if minus then [x2d] else []) ++ w ++ suffix_text k ++ rest with
           | [] => _ | b :: i' => _ end) with (if minus then [x2d] else [] : str, w ++ suffix_text k ++ rest).
  2:{ destruct minus; cbn [List.app]; [reflexivity|]. destruct w as [|b w]; [congruence|]. inversion D; subst. cbn [List.app]. now rewrite (not_minus b). }
  rewrite span_digits.
  2:{ apply forallb_forall. intros b I. rewrite Forall_forall in D. now rewrite (digit_b _ (D b I)). }
  2:{ destruct k; try reflexivity. change (suffix_text NoSuffix) with (@nil byte). cbn [List.app]. destruct rest as [|b r]; [exact I|]. destruct R as [R1 R2].
      cbv beta. unfold is_digit, in_range. unfold digit in R1. assert (Z_of_byte b <> 46); [|lia]. intros E. apply R2. left.
      revert E. clear. destruct b; cbn; try discriminate; reflexivity. }
  destruct w as [|b0 w0] eqn:W; [congruence|]. rewrite <- W in *. clear W b0 w0.
  assert (existsb (in_range 46 46) ((if minus then [x2d] else []) ++ w) = false) as ND
    by (rewrite existsb_app, (no_dots w D); destruct minus; reflexivity).
  assert (forall c, In c [x75; x6c; x64] -> match rest with b :: _ => b <> c | [] => True end) as NR.
  { intros c I. destruct rest as [|b r]; [exact Logic.I|]. destruct R as [_ R]. intros ->. apply R. now right. }
  pose proof (decimal_nonneg w D) as NN.
  unfold rseq, ropt, ralt, rlit, rret, of_option. 
  change (lit "u") with [x75]. change (lit "l") with [x6c]. change (lit "d") with [x64].
  destruct k; [change (suffix_text NoSuffix) with (@nil byte)|change (suffix_text SuffixL) with [x6c]|change (suffix_text SuffixU) with [x75]|change (suffix_text SuffixUL) with [x75; x6c]];
    cbn [List.app];
    repeat (rewrite strip_one_yes || rewrite (strip_one x75) || rewrite (strip_one x6c) || rewrite (strip_one x64)); try (apply NR; cbn; tauto); try (cbn; discriminate);
    rewrite ND; unfold read_i32, read_i64, read_u32, read_u64; rewrite (read_int_of _ _ _ minus w N D); cbn [allowed with_suffix];
    destruct minus; cbn [andb negb]; try reflexivity; cbv zeta;
    repeat match goal with |- context [?a <=? ?b] => destruct (Z.leb_spec a b); try lia end;
    repeat match goal with |- context [?a <? ?b] => destruct (Z.ltb_spec a b); try lia end; reflexivity.
Qed.
Lemma first_char (minus : bool) w i : w <> [] -> Forall digit w ->
  exists b r, (if minus then [x2d] else []) ++ w ++ i = b :: r /\ (digit b \/ b = x2d).
Proof.
  intros N D. destruct minus; [exists x2d, (w ++ i); auto|]. destruct w as [|b w]; [congruence|]. inversion D; subst. exists b, (w ++ i). auto.
Qed.
Lemma no_word s b r c : (digit b \/ b = x2d) -> ~ (digit c \/ c = x2d) -> strip (c :: s) (b :: r) = None.
Proof. intros B C. cbn [strip]. destruct (Byte.eqb c b) eqn:E; [|reflexivity]. apply byte_dec_bl in E. congruence. Qed.
Lemma other_char c : Z_of_byte c < 45 \/ 57 < Z_of_byte c -> ~ (digit c \/ c = x2d).
Proof. intros R [D| ->]; [unfold digit in D; lia|cbn in R; lia]. Qed.

(** * What the compiler does with a literal *)
Lemma widens_dec from to : widens from to \/ ~ widens from to.
Proof.
  unfold widens. destruct (in_dec (fun a b : str * str => ltac:(decide equality; apply (list_eq_dec byte_eq_dec))) (from, to)
    [(lit "Int32", lit "Float"); (lit "Int32", lit "Double"); (lit "Int32", lit "Int64"); (lit "Uint32", lit "Uint64"); (lit "Float", lit "Double")]); tauto.
Qed.
Lemma adjusts c n : constant_in_range c -> widens (number_type c) n ->
  number_type (adjust_constant c n) = n /\
  (forall i, c = CI32 i -> n = lit "Float" -> number_of (adjust_constant c n) = Some (Real (nearest_float (IZR i)))) /\
  (~ (number_type c = lit "Int32" /\ n = lit "Float") -> number_of (adjust_constant c n) = number_of c).
Proof.
  intros R W. unfold widens in W.
  repeat (destruct W as [W|W]; [injection W as W <-; destruct c; try discriminate W; cbn in R|]); [..|destruct W];
    (split; [reflexivity|]);
    repeat match goal with |- context [adjust_constant ?c ?n] => let x := eval hnf in (adjust_constant c n) in
      match x with adjust_constant _ _ => fail 1 | _ => change (adjust_constant c n) with x end end; cbn [number_of];
    (split; [intros i E F; try discriminate F; try discriminate E|intros X]).
  all: try (injection E as <-; f_equal; now apply float_of_i32).
  all: try reflexivity.
  all: try (exfalso; apply X; split; reflexivity).
  all: f_equal; now first [apply double_of_i32|apply widen_float].
Qed.
Lemma float_bits prec bias width i : 1 < prec -> prec < width -> Z.log2 (Z.abs i) + bias + 2 <= 2 ^ (width - prec) -> 0 <= bias ->
  in_u width (float_of_int prec bias width i).
Proof.
  intros P W B Z0. unfold in_u, float_of_int. destruct (Z.eqb_spec i 0) as [->|N]; [split; [lia|apply Z.pow_pos_nonneg; lia]|].
  fold (quot_of prec (Z.abs i)). pose proof (quot_bounds prec 1 P ltac:(lia) (Z.abs i) ltac:(lia)) as Q. pose proof (Z.log2_nonneg (Z.abs i)) as L.
  set (q := quot_of prec (Z.abs i)) in *. set (e := Z.log2 (Z.abs i)) in *. rewrite !Z.shiftl_mul_pow2, !Z.mul_1_l by lia.
  assert (Hp : 2 ^ prec = 2 * 2 ^ (prec - 1)) by (rewrite <- Z.pow_succ_r by lia; f_equal; lia).
  assert (H0 : 0 < 2 ^ (prec - 1)) by (apply Z.pow_pos_nonneg; lia).
  assert (Hw : 2 ^ width = 2 * (2 ^ (width - prec) * 2 ^ (prec - 1))).
  { rewrite <- Z.pow_add_r by lia. rewrite <- Z.pow_succ_r by lia. f_equal. lia. }
  assert (Hw1 : 2 ^ (width - 1) = 2 ^ (width - prec) * 2 ^ (prec - 1)) by (rewrite <- Z.pow_add_r by lia; f_equal; lia).
  rewrite Hw1, Hw. set (u := 2 ^ (prec - 1)) in *. set (v := 2 ^ (width - prec)) in *. clearbody u v q e. 
  assert (V : (e + bias) * u + (q - u) < v * u) by nia. assert (0 <= (e + bias) * u) by nia. destruct (i <? 0); lia.
Qed.
Lemma log_i32 i : in_s 32 i -> Z.log2 (Z.abs i) < 32.
Proof. unfold in_s. intros B. destruct (Z.eq_dec i 0) as [->|N]; [cbn; lia|]. apply Z.log2_lt_pow2; lia. Qed.
Lemma wide_bits b : in_u 32 b -> in_u 64 (f64_of_f32 b).
Proof.
  unfold in_u. intros B. unfold f64_of_f32. rewrite !Z.shiftr_div_pow2, !Z.shiftl_mul_pow2 by lia.
  change 255 with (Z.ones 8). change (2 ^ 23 - 1) with (Z.ones 23). rewrite !Z.land_ones by lia. change (Z.ones 8) with 255.
  set (m := b mod 2 ^ 23). set (e := (b / 2 ^ 23) mod 2 ^ 8). set (s := b / 2 ^ 31).
  assert (M : 0 <= m < 2 ^ 23) by (apply Z.mod_pos_bound; lia). assert (E : 0 <= e < 2 ^ 8) by (apply Z.mod_pos_bound; lia).
  assert (S : 0 <= s <= 1).
  { unfold s. split; [apply Z.div_pos; lia|]. assert (b / 2 ^ 31 < 2); [|lia]. apply Z.div_lt_upper_bound; lia. }
  clearbody m e s. destruct (Z.eqb_spec e 255); [lia|]. destruct (Z.eqb_spec e 0) as [->|].
  - destruct (Z.eqb_spec m 0); [lia|]. assert (P : 0 < m) by lia. pose proof (Z.log2_spec m P) as [L1 L2]. pose proof (Z.log2_nonneg m).
    assert (Z.log2 m < 23) by (apply Z.log2_lt_pow2; lia). set (k := Z.log2 m) in *.
    assert (Q : 2 ^ 52 = 2 ^ k * 2 ^ (52 - k)) by (rewrite <- Z.pow_add_r by lia; f_equal; lia). assert (0 < 2 ^ (52 - k)) by (apply Z.pow_pos_nonneg; lia).
    assert (Q' : 2 ^ Z.succ k = 2 * 2 ^ k) by (apply Z.pow_succ_r; lia).
    assert (W : 0 <= m * 2 ^ (52 - k) - 2 ^ 52 < 2 ^ 52) by (rewrite Q; clear - L1 L2 Q' H1; nia).
    rewrite !Z.shiftl_mul_pow2 by lia. lia.
  - rewrite !Z.shiftl_mul_pow2 by lia. lia.
Qed.
Lemma adjusted_in_range c n : constant_in_range c -> constant_in_range (adjust_constant c n).
Proof.
  intros R. destruct c; try exact R; cbn [adjust_constant]; cbn [constant_in_range] in R; pose proof R as R'; unfold in_s, in_u in R';
    repeat match goal with |- context [if ?b then _ else _] => destruct b end; cbn [constant_in_range]; try exact R.
  - now apply wide_bits.
  - pose proof (log_i32 _ R). apply float_bits; lia.
  - pose proof (log_i32 _ R). apply float_bits; lia.
  - unfold in_s. lia.
  - unfold in_u. lia.
Qed.
Lemma unadjusted c n : ~ widens (number_type c) n -> adjust_constant c n = c.
Proof.
  intros W. unfold widens in W. destruct c; try reflexivity; cbn [adjust_constant];
    repeat (match goal with |- context [str_eqb n ?x] => destruct (str_eqb_spec n x) as [->|]; [exfalso; apply W; repeat (first [left; reflexivity|right])|] end); reflexivity.
Qed.

Lemma allowed_iff k (minus : bool) d : 0 <= d -> let z := if minus then - d else d in
  allowed k minus z = true <-> constant_in_range (with_suffix k z) /\ (minus = true -> signed k = true).
Proof.
  intros N z. unfold z. destruct k, minus; cbn [allowed with_suffix constant_in_range signed negb andb]; unfold in_s, in_u;
    rewrite ?andb_true_iff, ?Z.leb_le, ?Z.ltb_lt; (split; [intros H; first [discriminate H|split; [lia|intros X; (discriminate X || reflexivity)]]|intros [H1 H2]; first [discriminate (H2 eq_refl)|lia]]).
Qed.

(** C66.  The number that is written is the number that is loaded. *)
Theorem C66_integer_literals_are_read_as_their_value fl k (minus : bool) w rest :
  w <> [] -> Forall digit w -> ends_number rest ->
  let text := (if minus then [x2d] else []) ++ w ++ suffix_text k ++ rest in
  let z := if minus then - decimal w else decimal w in
  (constant_in_range (with_suffix k z) -> (minus = true -> signed k = true) -> rconstant fl text = PMatch (with_suffix k z) rest) /\
  (~ (constant_in_range (with_suffix k z) /\ (minus = true -> signed k = true)) -> rconstant fl text = PFail).
Proof.
  intros N D R text z. pose proof (reads fl k minus w rest N D R) as E. cbv zeta in E. fold text z in E.
  destruct (first_char minus w (suffix_text k ++ rest) N D) as (b & r & T & B). fold text in T. clearbody text. subst text.
  pose proof (allowed_iff k minus (decimal w) (decimal_nonneg w D)) as A. cbv zeta in A. fold z in A.
  assert (rconstant fl (b :: r) = match rnumber fl (b :: r) with PFail => PFail | x => x end) as C.
  { unfold rconstant, ralts. cbn [fold_right]. unfold ralt, rseq, rkeyword, ropt, rliteral_type, ralts, rstring. cbn [fold_right]. unfold ralt, rseq, rlit.
    change (lit "true") with (x74 :: [x72; x75; x65]). change (lit "false") with (x66 :: [x61; x6c; x73; x65]).
    change (lit "n") with (x6e :: @nil byte). change (lit "r") with (x72 :: @nil byte). change (lit "t") with (x74 :: @nil byte). change [Printer.quote] with (x22 :: @nil byte).
    rewrite !no_word by (exact B || (apply other_char; cbn; lia)). cbv beta iota.
    destruct (rnumber fl (b :: r)); reflexivity. }
  rewrite C, E. split.
  - intros H1 H2. destruct (allowed k minus z); [reflexivity|]. destruct A as [_ A]. discriminate (A (conj H1 H2)).
  - intros H. destruct (allowed k minus z); [|reflexivity]. destruct A as [A _]. destruct (H (A eq_refl)).
Qed.
Print Assumptions C66_integer_literals_are_read_as_their_value.

Theorem C66_number_literals_keep_their_value fuel permissive c sp expected t e t1 files exit a u code a1 :
  constant_in_range c -> number_of c <> None ->
  check fuel permissive (EConstant c sp) expected t = Done (e, t1) ->
  asm files e exit a = Done (u, code, a1) ->
  t1 = t /\ a1 = a /\
  exists i c', code = [i] /\ loaded i = Some c' /\ constant_in_range c' /\
    (forall ty n, expected = Some ty -> ti_pretty (ts_pool t) ty = Done n -> widens (number_type c) n ->
       number_type c' = n /\
       ((number_type c <> lit "Int32" \/ n <> lit "Float") -> number_of c' = number_of c) /\
       (forall z, c = CI32 z -> n = lit "Float" -> number_of c' = Some (Real (nearest_float (IZR z))))) /\
    (forall ty n, expected = Some ty -> ti_pretty (ts_pool t) ty = Done n -> ~ widens (number_type c) n -> c' = c) /\
    (expected = None -> c' = c).
Proof.
  intros R V C G. destruct fuel as [|fuel]; [discriminate C|].
  assert (t1 = t /\ exists c', e = EConstant c' sp /\ match expected with
    | Some ty => exists n, ti_pretty (ts_pool t) ty = Done n /\ c' = adjust_constant c n | None => c' = c end) as (-> & c' & -> & K).
  { cbn [check check_step] in C. destruct expected as [ty|].
    - unfold mbind, reading in C. destruct (ti_pretty (ts_pool t) ty) as [n|]; [|discriminate C]. cbn [pe map_err] in C. injection C as <- <-. split; [reflexivity|].
      exists (adjust_constant c n). split; [reflexivity|]. exists n. split; reflexivity.
    - injection C as <- <-. split; [reflexivity|]. exists c. split; reflexivity. }
  cbn [asm] in G.
  assert (number_of c' <> None /\ constant_in_range c') as [V' R'].
  { destruct expected as [ty|]; [destruct K as (n & _ & ->)|now subst c']. split; [|now apply adjusted_in_range].
    destruct c; cbn [adjust_constant]; repeat match goal with |- context [if ?b then _ else _] => destruct b end; cbn [number_of] in *; congruence. }
  split; [reflexivity|].
  assert (a1 = a /\ exists i, code = [i] /\ loaded i = Some c') as (-> & i & -> & L).
  { destruct c'; cbn [number_of] in V'; try congruence; cbn [emit_constant] in G; unfold emit in G; injection G as <- <- <-; (split; [reflexivity|]); eexists; split; reflexivity. }
  split; [reflexivity|]. exists i, c'. do 3 (split; [assumption || reflexivity|]). split; [|split].
  - intros ty n -> P W. destruct K as (n' & P' & ->). rewrite P in P'. injection P' as <-. destruct (adjusts c n R W) as (A1 & A2 & A3).
    split; [exact A1|]. split; [intros X; apply A3; intros [X1 X2]; destruct X; congruence|exact A2].
  - intros ty n -> P W. destruct K as (n' & P' & ->). rewrite P in P'. injection P' as <-. now apply unadjusted.
  - intros ->. exact K.
Qed.
Print Assumptions C66_number_literals_keep_their_value.

(** The second branch of a conditional takes the type of the first: a number
    literal there becomes a constant of that type if its own type widens to it, and
    stays as it is otherwise. *)
Theorem C66_second_branch_takes_the_type_of_the_first fuel permissive c x k ks sp expected t e t1 :
  constant_in_range k ->
  check fuel permissive (EConditional c x (EConstant k ks) sp) expected t = Done (e, t1) ->
  exists c' x' k' ty n, e = EConditional c' x' (EConstant k' ks) sp /\
    type_of x' (ts_scope t1) (ts_pool t1) = Done ty /\ ti_pretty (ts_pool t1) ty = Done n /\
    (widens (number_type k) n -> number_type k' = n /\
       ((number_type k <> lit "Int32" \/ n <> lit "Float") -> number_of k' = number_of k) /\
       (forall z, k = CI32 z -> n = lit "Float" -> number_of k' = Some (Real (nearest_float (IZR z))))) /\
    (~ widens (number_type k) n -> k' = k).
Proof.
  intros R C. destruct fuel as [|fuel]; [discriminate C|].
  cbn [check check_step] in C. unfold mbind in C.
  destruct (reading _ t) as [[b t2]|]; [|discriminate C].
  destruct (check_and_convert _ c b t2) as [[c' t3]|]; [|discriminate C].
  destruct (check fuel permissive x None t3) as [[x' t4]|]; [|discriminate C].
  unfold reading at 1 in C. destruct (type_of x' (ts_scope t4) (ts_pool t4)) as [ty|] eqn:T; [|discriminate C].
  destruct fuel as [|fuel]; [discriminate C|].
  cbn [check check_step] in C. unfold mbind, reading in C. destruct (ti_pretty (ts_pool t4) ty) as [n|] eqn:P; [|discriminate C].
  cbn [pe map_err mret] in C. injection C as <- <-. exists c', x', (adjust_constant k n), ty, n.
  split; [reflexivity|]. split; [exact T|]. split; [exact P|]. split.
  - intros W. destruct (adjusts k n R W) as (A1 & A2 & A3). split; [exact A1|]. split; [|exact A2].
    intros X. apply A3. intros [X1 X2]. destruct X; congruence.
  - intros W. now apply unadjusted.
Qed.
Print Assumptions C66_second_branch_takes_the_type_of_the_first.

(** A literal where a type is given: the initial value of a variable with a type,
    an assigned value and a returned value become constants of that type, and are
    not converted in any other way. *)
Definition becomes (k : constant) (n : str) (k' : constant) : Prop :=
  number_type k' = n /\
  ((number_type k <> lit "Int32" \/ n <> lit "Float") -> number_of k' = number_of k) /\
  (forall z, k = CI32 z -> n = lit "Float" -> number_of k' = Some (Real (nearest_float (IZR z)))).
Lemma widened_type k n : widens (number_type k) n -> constant_type (adjust_constant k n) = TypeName n None.
Proof.
  intros W. unfold widens in W.
  repeat (destruct W as [W|W]; [injection W as W <-; destruct k; try discriminate W; reflexivity|]). destruct W.
Qed.
Lemma same_conversion p ty : find_conversion p ty ty = Done (Some Identity).
Proof. destruct ty; cbn [find_conversion]; now rewrite typeid_eqb_refl. Qed.
Lemma convert_literal fuel permissive k ks ty n t e t1 :
  constant_in_range k -> widens (number_type k) n -> ti_pretty (ts_pool t) ty = Done n ->
  resolve_type (ts_scope t) (ts_pool t) (TypeName n None) = Done ty ->
  check_and_convert (check fuel permissive) (EConstant k ks) ty t = Done (e, t1) ->
  t1 = t /\ exists k', e = EConstant k' ks /\ becomes k n k'.
Proof.
  intros R W P Q C. destruct fuel as [|fuel]; [discriminate C|].
  unfold check_and_convert, mbind at 1 in C. cbn [check check_step] in C. unfold mbind at 1, reading at 1 in C. rewrite P in C.
  cbn [pe map_err mret] in C. unfold mbind at 1, reading at 1 in C. cbn [type_of] in C.
  unfold named_type in C. rewrite (widened_type _ _ W), Q in C. cbn [with_span map_err] in C.
  unfold mbind at 1, reading at 1 in C. rewrite same_conversion in C. cbn [insert_conversion] in C.
  injection C as <- <-. split; [reflexivity|]. exists (adjust_constant k n). split; [reflexivity|].
  destruct (adjusts k n R W) as (A1 & A2 & A3). split; [exact A1|]. split; [|exact A2].
  intros X. apply A3. intros [X1 X2]. destruct X; congruence.
Qed.
Lemma literal_keeps fuel permissive k ks ty t e t1 :
  check_and_convert (check fuel permissive) (EConstant k ks) ty t = Done (e, t1) ->
  ts_scope t1 = ts_scope t /\ ts_pool t1 = ts_pool t.
Proof.
  intros C. destruct fuel as [|fuel]; [discriminate C|].
  unfold check_and_convert, mbind, reading in C. cbn [check check_step] in C. unfold mbind, reading in C.
  destruct (ti_pretty (ts_pool t) ty) as [n|]; [|discriminate C]. cbn [pe map_err mret] in C.
  destruct (type_of _ _ _) as [from|]; [|discriminate C]. destruct (find_conversion _ _ _) as [[c|]|]; [|..|discriminate C].
  - injection C as _ <-. split; reflexivity.
  - destruct (ti_pretty (ts_pool t) from) as [m|]; [|discriminate C]. cbn [pe map_err] in C.
    destruct (pe (ti_pretty (ts_pool t) ty)) as [m'|]; [|discriminate C].
    unfold report in C. destruct (diag_from_error (CompileError _ _)) as [d|]; [|discriminate C]. injection C as _ <-. split; reflexivity.
Qed.
Theorem C66_literals_take_the_type_that_is_given fuel permissive k (ks : span) n ty (sp : span) expected (t t1 : tstate) :
  constant_in_range k -> widens (number_type k) n ->
  (forall name (e : texpr), resolve_type (ts_scope t) (ts_pool t) (TypeName n None) = Done ty -> ti_pretty (ts_pool t) ty = Done n ->
     check fuel permissive (EDeclare (N := source_ast) name (Some (TypeName n None)) (Some (EConstant k ks)) sp) expected t = Done (e, t1) ->
     exists l k', e = EDeclare (N := typed_ast) l (Some ty) (Some (EConstant k' ks)) sp /\ becomes k n k') /\
  (forall (x : sexpr) (x' e : texpr), resolve_type (ts_scope t1) (ts_pool t1) (TypeName n None) = Done ty -> ti_pretty (ts_pool t1) ty = Done n ->
     check fuel permissive (EAssign x (EConstant k ks) sp) expected t = Done (EAssign x' e sp, t1) ->
     type_of x' (ts_scope t1) (ts_pool t1) = Done ty ->
     exists k', e = EConstant k' ks /\ becomes k n k') /\
  (forall f fn r (e : texpr), resolve_type (ts_scope t) (ts_pool t) (TypeName n None) = Done ty -> ti_pretty (ts_pool t) ty = Done n ->
     sc_function (ts_scope t) = Some f -> get_function (ts_pool t) f = Done fn -> fu_return_type fn = Some r ->
     pool_type (ts_scope t) (ts_pool t) sp r = Done ty ->
     check fuel permissive (EReturn (Some (EConstant k ks)) sp) expected t = Done (e, t1) ->
     exists k', e = EReturn (Some (EConstant k' ks)) sp /\ becomes k n k').
Proof.
  intros R W. destruct fuel as [|fuel]; [split; [|split]; intros; discriminate|]. cbn [check check_step]. split; [|split].
  - intros name e Q P C. unfold mbind at 1 2, reading at 1, named_type in C. rewrite Q in C. cbn [with_span map_err] in C.
    unfold mbind at 1 in C.
    destruct (check_and_convert (check fuel permissive) (EConstant k ks) ty t) as [[c t2]|] eqn:K; [|discriminate C].
    apply (convert_literal fuel permissive k ks ty n t c t2 R W P Q) in K. destruct K as (-> & k' & -> & B).
    unfold mret at 1 in C. cbv beta iota in C. unfold mbind in C. destruct (add_local _ _ _ _) as [[l t3]|]; [|discriminate C].
    injection C as <- <-. exists l, k'. split; [reflexivity|exact B].
  - intros x x' e Q P C T. unfold mbind at 1 in C. destruct (check fuel permissive x None t) as [[x1 t2]|]; [|discriminate C].
    unfold mbind at 1, reading at 1 in C. destruct (type_of x1 (ts_scope t2) (ts_pool t2)) as [ty'|] eqn:T'; [|discriminate C].
    unfold mbind at 1 in C.
    destruct (check_and_convert (check fuel permissive) (EConstant k ks) ty' t2) as [[c t3]|] eqn:K; [|discriminate C].
    injection C as -> -> ->.
    destruct (literal_keeps _ _ _ _ _ _ _ _ K) as (S1 & S2). rewrite S1, S2 in *. rewrite T in T'. injection T' as <-.
    apply (convert_literal fuel permissive k ks ty n t2 e t1 R W P Q) in K. destruct K as (_ & K). exact K.
  - intros f fn r e Q P F G RT PT C. unfold mbind at 1 in C. rewrite F in C. unfold reading at 1 in C. rewrite G in C.
    cbn [pe map_err] in C. rewrite RT in C. unfold mbind at 1, reading at 1 in C. rewrite PT in C. unfold mbind at 1 in C.
    destruct (check_and_convert (check fuel permissive) (EConstant k ks) ty t) as [[c t2]|] eqn:K; [|discriminate C].
    apply (convert_literal fuel permissive k ks ty n t c t2 R W P Q) in K. destruct K as (-> & k' & -> & B).
    injection C as <- <-. exists k'. split; [reflexivity|exact B].
Qed.
Print Assumptions C66_literals_take_the_type_that_is_given.

(** Integers up to 2^24 are floats. *)
Theorem C66_small_integers_are_floats z : Z.abs z <= 2 ^ 24 -> nearest_float (IZR z) = IZR z.
Proof. apply small_float. Qed.
Print Assumptions C66_small_integers_are_floats.
(** Larger ones need not be: 16777217, where a Float is needed, is 16777216. *)
Theorem C66_large_integers_keep_their_value_refuted :
  exists z, in_s 32 z /\ number_of (adjust_constant (CI32 z) (lit "Float")) <> number_of (CI32 z).
Proof.
  exists 16777217. split; [unfold in_s; lia|]. change (number_of (adjust_constant (CI32 16777217) (lit "Float"))) with (Some (of_float (b32_of_bits (f32_of_i32 16777217)))).
  change (f32_of_i32 16777217) with (f32_of_i32 16777216). rewrite float_of_i32 by (unfold in_s; lia). rewrite small_float by lia. cbn [number_of].
  intros H. injection H as H. apply eq_IZR in H. discriminate H.
Qed.
Print Assumptions C66_large_integers_keep_their_value_refuted.

(** Not vacuous: [-12ul] and [4294967296u] are no numbers, [-7] is one, and in the place of a
    Float or a Double it is a constant of that type; [7] in the place of a Uint32 stays an Int32. *)
Definition li_names : list str := [none_str; lit "Float"; lit "Double"; lit "Uint32"].
Definition li_def (n : Z) : definition := {| df_name := n; df_parent := 0; df_unk1 := 0; df_unk2 := 0; df_unk3 := 0; df_value := DType TPrim |}.
Definition li_state : tstate :=
  {| ts_pool := {| pl_names := {| st_list := li_names; st_map := [] |}; pl_tweakdb := {| st_list := []; st_map := [] |};
                   pl_resources := {| st_list := []; st_map := [] |}; pl_strings := {| st_list := []; st_map := [] |};
                   pl_defs := [default_definition; li_def 1; li_def 2; li_def 3] |};
     ts_locals := []; ts_diags := [];
     ts_scope := {| sc_symbols := []; sc_references := []; sc_types := []; sc_this := None; sc_function := None |} |}.
Definition li_asm : astate := {| as_labels := 0; as_scope := ts_scope li_state; as_pool := ts_pool li_state |}.
Example C66_nonvacuous fl :
  Forall digit (lit "12") /\ ends_number (lit ";") /\
  rconstant fl (lit "-12ul;") = PFail /\ rconstant fl (lit "4294967296u;") = PFail /\ rconstant fl (lit "-7;") = PMatch (CI32 (-7)) (lit ";") /\
  ti_pretty (ts_pool li_state) (TIPrim 1) = Done (lit "Float") /\ widens (lit "Int32") (lit "Float") /\ ~ widens (lit "Int32") (lit "Uint32") /\
  let sp := {| sp_low := 0; sp_high := 2 |} in
  let c ty := match check 1 false (EConstant (CI32 (-7)) sp) (Some (TIPrim ty)) li_state with
              | Done (e, _) => match asm [] e None li_asm with Done (_, code, _) => code | Fail _ => [] end
              | Fail _ => [] end in
  c 1 = [F32Const 3235905536] /\ c 2 = [F64Const 13842939354630062080] /\ c 3 = [I32Const (-7)].
Proof.
  split; [repeat constructor; cbn; lia|]. split; [cbn; split; [unfold digit; cbn; lia|]; intros H; repeat (destruct H as [H|H]; [discriminate H|]); exact H|].
  do 4 (split; [reflexivity|]). split; [left; reflexivity|]. split; [intros H; repeat (destruct H as [H|H]; [discriminate H|]); exact H|].
  cbv zeta. split; [vm_compute; reflexivity|]. split; [vm_compute; reflexivity|]. vm_compute; reflexivity.
Qed.

(** In a scope with Bool and Float, [true ? 1.5 : 2] has a Float in its second branch. *)
Definition li_branches : tstate :=
  {| ts_pool := {| pl_names := {| st_list := [none_str; lit "Float"; lit "Bool"]; st_map := [] |}; pl_tweakdb := {| st_list := []; st_map := [] |};
                   pl_resources := {| st_list := []; st_map := [] |}; pl_strings := {| st_list := []; st_map := [] |};
                   pl_defs := [default_definition; li_def 1; li_def 2] |};
     ts_locals := []; ts_diags := [];
     ts_scope := {| sc_symbols := []; sc_references := []; sc_types := [(lit "Float", 1); (lit "Bool", 2)]; sc_this := None; sc_function := None |} |}.
Example C66_branches_nonvacuous :
  let sp := {| sp_low := 0; sp_high := 2 |} in
  check 3 false (EConditional (EConstant (CBool true) sp) (EConstant (CF32 1069547520) sp) (EConstant (CI32 2) sp) sp) None li_branches =
  Done (EConditional (EConstant (CBool true) sp) (EConstant (CF32 1069547520) sp) (EConstant (CF32 1073741824) sp) sp, li_branches).
Proof. vm_compute. reflexivity. Qed.
(** There [let x: Float = 2] has a Float as its initial value. *)
Definition li_function : definition :=
  {| df_name := 3; df_parent := 0; df_unk1 := 0; df_unk2 := 0; df_unk3 := 0;
     df_value := DFunction {| fu_visibility := Public; fu_flags := 0; fu_source := None; fu_return_type := Some 1; fu_unk1 := false;
       fu_base_method := None; fu_parameters := []; fu_locals := []; fu_operator := None; fu_cast := 0; fu_code := []; fu_unk2 := [] |} |}.
Definition li_body : tstate :=
  {| ts_pool := {| pl_names := {| st_list := [none_str; lit "Float"; lit "Bool"; lit "f;"]; st_map := [] |}; pl_tweakdb := {| st_list := []; st_map := [] |};
                   pl_resources := {| st_list := []; st_map := [] |}; pl_strings := {| st_list := []; st_map := [] |};
                   pl_defs := [default_definition; li_def 1; li_def 2; li_function] |};
     ts_locals := []; ts_diags := [];
     ts_scope := {| sc_symbols := []; sc_references := []; sc_types := [(lit "Float", 1); (lit "Bool", 2)]; sc_this := None; sc_function := Some 3 |} |}.
Example C66_places_nonvacuous :
  let sp := {| sp_low := 0; sp_high := 2 |} in
  resolve_type (ts_scope li_body) (ts_pool li_body) (TypeName (lit "Float") None) = Done (TIPrim 1) /\
  ti_pretty (ts_pool li_body) (TIPrim 1) = Done (lit "Float") /\
  (exists t1, check 3 false (EDeclare (N := source_ast) (lit "x") (Some (TypeName (lit "Float") None)) (Some (EConstant (CI32 2) sp)) sp) None li_body =
     Done (EDeclare (N := typed_ast) 4 (Some (TIPrim 1)) (Some (EConstant (CF32 1073741824) sp)) sp, t1) /\
     exists t2, check 3 false (EAssign (EIdent (N := source_ast) (lit "x") sp) (EConstant (CI32 2) sp) sp) None t1 =
       Done (EAssign (EIdent (N := typed_ast) (RValue (VLocal 4)) sp) (EConstant (CF32 1073741824) sp) sp, t2)) /\
  check 3 false (EReturn (Some (EConstant (CI32 2) sp)) sp) None li_body =
    Done (EReturn (Some (EConstant (CF32 1073741824) sp)) sp, li_body).
Proof.
  cbv zeta. split; [vm_compute; reflexivity|]. split; [vm_compute; reflexivity|]. split; [|vm_compute; reflexivity].
  eexists. split; [vm_compute; reflexivity|]. eexists. vm_compute. reflexivity.
Qed.
