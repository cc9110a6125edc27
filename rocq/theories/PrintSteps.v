(** Steps of the expression grammar on printed text. *)
From Coq Require Import String.
From Coq Require Import ZArith List Bool Lia.
From Verif Require Import Bytes BytesFacts Definitions DefinitionsFacts Bundle BundleFacts Ast TypeNames Pool Scope TypeCheck Printer Parser PrintSpec ParserFacts TextFacts.
Import ListNotations.
Open Scope nat_scope.

Definition hd (i : list byte) : option byte := match i with b :: _ => Some b | [] => None end.

Lemma byte_eq b c : Byte.eqb b c = true -> b = c.
Proof. now destruct (byte_eqb_spec b c). Qed.
Lemma blanks_idem i : blanks (blanks i) = blanks i.
Proof. pose proof (blanks_done i) as D. unfold blanks at 1. destruct (blanks i) as [|b j]; [reflexivity|]. cbn [length blanks_n]. now rewrite D. Qed.
Lemma alts_fail {A} (r : rule A) l i : r i = PFail -> ralts (r :: l) i = ralts l i.
Proof. unfold ralts. cbn [fold_right]. unfold ralt at 1. now intros ->. Qed.
Lemma alts_hit {A} (r : rule A) l i a j : r i = PMatch a j -> ralts (r :: l) i = PMatch a j.
Proof. unfold ralts. cbn [fold_right]. unfold ralt at 1. now intros ->. Qed.
Lemma alts_none {A} (l : list (rule A)) i : ralts l i = PFail <-> Forall (fun r => r i = PFail) l.
Proof.
  split.
  - induction l as [|r l IH]; [constructor|]. unfold ralts. cbn [fold_right]. unfold ralt at 1. destruct (r i) eqn:E; try discriminate.
    intros H. constructor; [assumption|now apply IH].
  - induction 1 as [|r l E F IH]; [reflexivity|]. unfold ralts in *. cbn [fold_right]. unfold ralt at 1. now rewrite E.
Qed.
Lemma level_fail {A} l min (r : rule A) i : r i = PFail -> at_level l min r i = PFail.
Proof. unfold at_level. now destruct (min <=? l). Qed.
Lemma level_out {A} l min (r : rule A) i : l < min -> at_level l min r i = PFail.
Proof. unfold at_level. intros H. now replace (min <=? l) with false by (symmetry; apply Nat.leb_gt; lia). Qed.
Lemma level_hit {A} l min (r : rule A) : min <= l -> at_level l min r = r.
Proof. unfold at_level. intros H. now replace (min <=? l) with true by (symmetry; apply Nat.leb_le; lia). Qed.
Lemma level_up {A} l k k' (r : rule A) i : k <= k' -> at_level l k r i = PFail -> at_level l k' r i = PFail.
Proof.
  intros H. destruct (Nat.leb_spec k' l) as [L|L].
  - now rewrite !level_hit by lia.
  - intros _. now apply level_out.
Qed.

Section Steps.
Variable fl : float_text.

(** From here the grammar's rule for expressions yields ... *)
Definition Parses (min : nat) (i : list byte) (res : pres sexpr) : Prop :=
  forall n, length i < n -> rexpr fl n min i = res.
(** Having read [x], its loop yields ... *)
Definition Loops (min : nat) (x : sexpr) (i : list byte) (res : pres sexpr) : Prop :=
  forall k n m, length i < k -> length i < n -> length i < m -> climb k n (rexpr fl m) min x i = res.
Definition Starts (i : list byte) (x : sexpr) (rest : list byte) : Prop :=
  forall n m, length i < n -> length i <= m -> start fl n (rexpr fl m) i = PMatch x rest.
Definition Extends (min : nat) (x : sexpr) (i : list byte) (y : sexpr) (rest : list byte) : Prop :=
  forall n m, length i < n -> length i < m -> extend n (rexpr fl m) min x i = PMatch y rest.
(** Nothing extends an expression at level [k] or above here. *)
Definition stops (k : nat) (rest : list byte) : Prop :=
  forall n m x, length rest < n -> length rest < m -> extend n (rexpr fl m) k x rest = PFail.

Lemma starts_parses min i x rest res : Starts i x rest -> Loops min x rest res -> length rest < length i -> Parses min i res.
Proof.
  intros S L Hl n Hn. destruct n as [|m]; [lia|]. cbn [rexpr]. unfold rseq. rewrite S by lia. apply L; lia.
Qed.
Lemma extends_loops min x i y rest res : Extends min x i y rest -> Loops min y rest res -> length rest < length i -> Loops min x i res.
Proof.
  intros E L Hl k n m Hk Hn Hm. destruct k as [|k]; [lia|]. cbn [climb]. rewrite E by lia. apply L; lia.
Qed.
Lemma stops_loops k x rest : stops k rest -> Loops k x rest (PMatch x rest).
Proof. intros S j n m Hk Hn Hm. destruct j as [|j]; [lia|]. cbn [climb]. now rewrite S by lia. Qed.
Lemma stops_up k k' rest : k <= k' -> stops k rest -> stops k' rest.
Proof.
  intros H S n m x Hn Hm. specialize (S n m x Hn Hm). unfold extend in *. rewrite alts_none in *.
  repeat (let A := fresh in let B := fresh in inversion S as [|? ? A B]; subst; clear S; constructor; [exact (level_up _ _ _ _ _ H A)|rename B into S]). constructor.
Qed.
Lemma stops_all k rest : 12 <= k -> stops k rest.
Proof. intros H n m x _ _. unfold extend. rewrite alts_none. repeat constructor; apply level_out; lia. Qed.

(** No expression starts with these characters. *)
Definition no_start (b : byte) : bool := existsb (Byte.eqb b) [x3d; x7c; x26; x29; x2c; x5d; x3a; x3f; x3e; x3c; x2a; x2f; x25; x2b; x5e; x3b; x7d; x7b].
Lemma start_none n rec b rest : no_start b = true -> start fl n rec (b :: rest) = PFail.
Proof.
  intros H. unfold no_start in H. cbn [existsb] in H.
  repeat (apply orb_true_iff in H as [H|H]; [apply byte_eq in H as ->; reflexivity | idtac]). discriminate H.
Qed.
Lemma parse_none min b rest : no_start b = true -> Parses min (b :: rest) PFail.
Proof. intros H n Hn. destruct n as [|n]; [lia|]. cbn [rexpr]. unfold rseq. now rewrite start_none. Qed.

(** The level of the right operand of a binary operator. *)
Definition right_level (o : binop) : nat := match level o with O => O | l => S l end.

Ltac skip_rule :=
  rewrite alts_fail; [| first [apply level_out; lia | apply level_fail; reflexivity] ].
Lemma binary_step rec op l f x i j y rest :
  blanks i = lit op ++ j -> rec l (blanks j) = PMatch y rest -> binary rec op l f x i = PMatch (f x y) rest.
Proof.
  intros B R. unfold binary. unfold rseq at 1, rblank at 1. rewrite B. unfold rseq at 1. rewrite lit_read. unfold rseq at 1, rblank. unfold rseq. now rewrite R.
Qed.
Lemma extends_binop o min x i y rest :
  min <= level o -> blanks i = i -> Parses (right_level o) i (PMatch y rest) ->
  Extends min x (lit " " ++ format_binop o ++ lit " " ++ i) (mk_bin o x y) rest.
Proof.
  intros Hm B P n m Hn Hm'. rewrite !app_length in Hm'. assert (R : rexpr fl m (right_level o) i = PMatch y rest) by (apply P; lia).
  destruct m as [|m]; [lia|]. unfold extend.
  destruct o; cbn [level precedence Nat.sub format_binop right_level] in *; repeat skip_rule;
    (eapply alts_hit; rewrite level_hit by exact Hm; eapply binary_step; [reflexivity|]; exact (eq_trans (f_equal (rexpr fl (S m) _) B) R)).
Qed.
Lemma stops_binop o k i : level o < k -> stops k (lit " " ++ format_binop o ++ lit " " ++ i).
Proof.
  intros H n m x Hn Hm. destruct m as [|m]; [lia|]. unfold extend. destruct o; cbn [level precedence Nat.sub format_binop] in *; repeat skip_rule; reflexivity.
Qed.
Lemma stops_end k : stops k [].
Proof. intros n m x Hn Hm. unfold extend. repeat skip_rule. reflexivity. Qed.
Lemma stops_close k b i : existsb (Byte.eqb b) [x29; x2c; x5d; x3b; x7b; x3a] = true -> stops k (b :: i).
Proof.
  intros H n m x Hn Hm. cbn [existsb] in H. unfold extend.
  repeat (apply orb_true_iff in H as [H|H]; [apply byte_eq in H as ->; repeat skip_rule; reflexivity | idtac]). discriminate H.
Qed.
Lemma stops_colon k i : stops k (lit " : " ++ i).
Proof. intros n m x Hn Hm. unfold extend. repeat skip_rule. reflexivity. Qed.
Lemma stops_brace k i : stops k (lit " {" ++ i).
Proof. intros n m x Hn Hm. unfold extend. repeat skip_rule. reflexivity. Qed.
Lemma stops_question k i : 1 <= k -> stops k (lit " ? " ++ i).
Proof. intros H n m x Hn Hm. unfold extend. repeat skip_rule. reflexivity. Qed.
Lemma stops_equals k i : 1 <= k -> stops k (lit " = " ++ i).
Proof. intros H n m x Hn Hm. destruct m; [lia|]. unfold extend. repeat skip_rule. reflexivity. Qed.

Lemma extends_conditional x i y j z rest :
  blanks i = i -> Parses 0 i (PMatch y (lit " : " ++ j)) -> blanks j = j -> Parses 0 j (PMatch z rest) -> length j < length i ->
  Extends 0 x (lit " ? " ++ i) (EConditional (N := source_ast) x y z span0) rest.
Proof.
  intros Bi Pi Bj Pj Hl n m Hn Hm. rewrite app_length in Hm. change (length (lit " ? ")) with 3 in Hm. unfold extend.
  eapply alts_hit. rewrite level_hit by lia. unfold rseq at 1, rblank at 1. change (blanks (lit " ? " ++ i)) with (lit "?" ++ x20 :: i).
  unfold rseq at 1. rewrite lit_read. unfold rseq at 1, rblank at 1. rewrite blanks_space, Bi. unfold rseq at 1. rewrite Pi by lia.
  unfold rseq at 1, rblank at 1. change (blanks (lit " : " ++ j)) with (lit ":" ++ x20 :: j). unfold rseq at 1. rewrite lit_read.
  unfold rseq at 1, rblank at 1. rewrite blanks_space, Bj. unfold rseq at 1. rewrite Pj by lia. reflexivity.
Qed.
Lemma extends_assign x i y rest :
  blanks i = i -> Parses 0 i (PMatch y rest) -> Extends 0 x (lit " = " ++ i) (EAssign (N := source_ast) x y span0) rest.
Proof.
  intros B P n m Hn Hm. rewrite app_length in Hm. change (length (lit " = ")) with 3 in Hm. unfold extend. skip_rule.
  eapply alts_hit. rewrite level_hit by lia. eapply (binary_step _ _ _ (fun x y => EAssign (N := source_ast) x y span0)); [reflexivity|]. refine (eq_trans (f_equal (rexpr fl m _) B) _). apply P. lia.
Qed.
Lemma extends_index min x i y rest : min <= 11 ->
  blanks i = i -> Parses 0 i (PMatch y (lit "]" ++ rest)) -> Extends min x (lit "[" ++ i) (EArrayElem (N := source_ast) x y span0) rest.
Proof.
  intros Hl B P n m Hn Hm. rewrite app_length in Hm. change (length (lit "[")) with 1 in Hm. unfold extend. do 24 skip_rule.
  eapply alts_hit. rewrite level_hit by lia. unfold rseq at 1, rblank at 1. change (blanks (lit "[" ++ i)) with (lit "[" ++ i).
  unfold rseq at 1. rewrite lit_read. unfold rseq at 1, rblank at 1. rewrite B. unfold rseq at 1. rewrite P by lia.
  unfold rseq at 1, rblank at 1. change (blanks (lit "]" ++ rest)) with (lit "]" ++ rest). unfold rseq at 1. now rewrite lit_read.
Qed.
Lemma name_blank n rest : is_name n = true -> blanks (n ++ rest) = n ++ rest.
Proof.
  destruct n as [|b n]; [discriminate|]. cbn [is_name]. intros H. apply andb_prop in H as [H _]. destruct (alpha_plain b H). cbn [app]. now apply blank_other.
Qed.
Lemma extends_method min x f i args rest : min <= 11 -> is_name f = true ->
  (forall n m, length (lit "(" ++ i) < n -> length (lit "(" ++ i) < m -> rargs n (rexpr fl m) (lit "(" ++ i) = PMatch args rest) ->
  Extends min x (lit "." ++ f ++ lit "(" ++ i) (EMethodCall (N := source_ast) x f args span0) rest.
Proof.
  intros Hl F P n m Hn Hm. rewrite !app_length in Hn, Hm. unfold extend. do 25 skip_rule.
  eapply alts_hit. rewrite level_hit by lia. unfold rseq at 1, rblank at 1. change (blanks (lit "." ++ f ++ lit "(" ++ i)) with (lit "." ++ f ++ lit "(" ++ i).
  unfold rseq at 1. rewrite lit_read. unfold rseq at 1, rblank at 1. rewrite name_blank by assumption. unfold rseq at 1. rewrite name_read by (assumption || reflexivity).
  unfold rseq at 1, rblank at 1. change (blanks (lit "(" ++ i)) with (lit "(" ++ i). unfold rseq at 1.
  rewrite P by (rewrite app_length; lia). reflexivity.
Qed.
Lemma args_none n m j : hd j <> Some x28 -> rargs n (rexpr fl m) j = PFail.
Proof.
  intros H. unfold rargs, rseq, rlit. change (lit "(") with [x28]. destruct j as [|b j]; [reflexivity|]. cbn [strip]. destruct (byte_eqb_spec x28 b) as [<-|]; [now destruct H|reflexivity].
Qed.
Lemma extends_member min x f rest : min <= 11 -> is_name f = true -> edge rest -> hd (blanks rest) <> Some x28 ->
  Extends min x (lit "." ++ f ++ rest) (EMember (N := source_ast) x f span0) rest.
Proof.
  intros Hl F E H n m Hn Hm. unfold extend. do 25 skip_rule. rewrite alts_fail.
  - eapply alts_hit. rewrite level_hit by lia. unfold rseq at 1, rblank at 1. change (blanks (lit "." ++ f ++ rest)) with (lit "." ++ f ++ rest).
    unfold rseq at 1. rewrite lit_read. unfold rseq at 1, rblank at 1. rewrite name_blank by assumption. unfold rseq at 1. now rewrite name_read.
  - apply level_fail. unfold rseq at 1, rblank at 1. change (blanks (lit "." ++ f ++ rest)) with (lit "." ++ f ++ rest).
    unfold rseq at 1. rewrite lit_read. unfold rseq at 1, rblank at 1. rewrite name_blank by assumption. unfold rseq at 1. rewrite name_read by assumption.
    unfold rseq at 1, rblank at 1. unfold rseq at 1. now rewrite args_none.
Qed.
Lemma extends_cast min x t rest : min <= 11 -> type_ok t = true -> type_edge rest ->
  Extends min x (lit " as " ++ pretty t ++ rest) (ECast (N := source_ast) t x span0) rest.
Proof.
  intros Hl F E n m Hn Hm. rewrite app_length in Hn. change (length (lit " as ")) with 4 in Hn. unfold extend. do 27 skip_rule.
  eapply alts_hit. rewrite level_hit by lia. unfold rseq at 1, rblank at 1. change (blanks (lit " as " ++ pretty t ++ rest)) with (lit "as" ++ x20 :: pretty t ++ rest).
  unfold rseq at 1. rewrite keyword_read by reflexivity. unfold rseq at 1, rblank at 1. rewrite blanks_space.
  destruct (pretty_head t F) as (b & w & Ep & A). destruct (alpha_plain b A) as [A1 A2]. unfold rseq at 1. rewrite Ep at 1. cbn [app]. rewrite blank_other by assumption.
  change (b :: w ++ rest) with ((b :: w) ++ rest). rewrite <- Ep. rewrite (type_read t F) by (lia || assumption). reflexivity.
Qed.

(** What an expression starts with. *)
Lemma lit_first c s b i : c <> b -> rlit (c :: s) (b :: i) = PFail.
Proof. intros N. unfold rlit. cbn [strip]. now destruct (byte_eqb_spec c b). Qed.
Ltac no_lit s c := rewrite alts_fail; [|unfold rseq at 1; change (lit s) with [c]; rewrite lit_first by assumption; reflexivity].
Lemma seq_fail {A B} (r : rule A) (k : A -> rule B) i : r i = PFail -> rseq r k i = PFail.
Proof. unfold rseq. now intros ->. Qed.
Lemma alpha_not b c : is_alpha b = true -> is_alpha c = false -> c <> b.
Proof. congruence. Qed.
Lemma number_none b i : is_digit b = false -> b <> x2d -> b <> x2e -> rnumber fl (b :: i) = PFail.
Proof.
  intros D M P. unfold rnumber. destruct (byte_eqb_spec b x2d) as [|_]; [congruence|]. cbn [span_of]. rewrite D. cbn [orb].
  assert (Q : in_range 46 46 b = false); [|now rewrite Q]. unfold in_range. destruct (Z.eq_dec (Z_of_byte b) 46) as [E|E]; [now destruct (P (Z_of_byte_inj b x2e E))|lia].
Qed.
Lemma string_none b i : b <> quote -> rstring (b :: i) = PFail.
Proof. intros N. unfold rstring. apply seq_fail. apply lit_first. congruence. Qed.
Lemma string_none' i : hd i <> Some quote -> rstring i = PFail.
Proof. destruct i as [|b i]; [reflexivity|]. intros N. apply string_none. intros ->. now destruct N. Qed.

(** The rules that are left for a word that is not reserved. *)
Definition word_rules n m : list (rule sexpr) :=
  [the f <- rident; the _ <- rblank; the ts <- ropt (rtype_args n); the _ <- rblank; the args <- rargs n (rexpr fl m);
      rret (ECall (N := source_ast) f (match ts with Some l => l | None => [] end) args span0);
   the x <- rident; rret (EIdent (N := source_ast) x span0)].
Lemma name_word n : is_name n = true -> forallb is_word_char n = true.
Proof. destruct n as [|b n]; [discriminate|]. cbn [is_name forallb]. intros H. apply andb_prop in H as [H ->]. unfold is_word_char. now rewrite H, orb_true_r. Qed.
Lemma word_second b n rest : is_name (b :: n) = true -> edge rest -> hd rest <> Some quote -> hd (n ++ rest) <> Some quote.
Proof.
  intros H E Q. destruct n as [|c n]; [assumption|]. cbn [is_name forallb] in H. cbn [app hd]. intros [= ->]. rewrite !andb_true_iff in H. now destruct H as (_ & H & _).
Qed.
Lemma start_word n m w rest : is_name w = true -> reserved w = false -> edge rest -> hd rest <> Some quote ->
  start fl n (rexpr fl m) (w ++ rest) = ralts (word_rules n m) (w ++ rest).
Proof.
  intros N R E Q. pose proof (word_second) as W2. destruct w as [|b w]; [discriminate|]. assert (A : is_alpha b = true) by (cbn [is_name] in N; now apply andb_prop in N).
  specialize (W2 b w rest N E Q).
  assert (D : is_digit b = false) by (unfold is_digit, is_alpha, in_range in *; lia).
  unfold reserved in R. cbn [existsb] in R. repeat (apply orb_false_elim in R as [? R]).
  assert (K : forall s, str_eqb (b :: w) s = false -> forallb is_word_char s = true -> rkeyword s ((b :: w) ++ rest) = PFail).
  { intros s Hs Hw. apply keyword_other; try assumption. intros C. rewrite C in Hs. destruct (str_eqb_spec s s); congruence. }
  unfold start.
  do 3 (rewrite alts_fail; [|apply seq_fail; cbn [app]; apply lit_first; apply (alpha_not b _ A); reflexivity]).
  rewrite alts_fail; [|apply seq_fail; apply K; [assumption|reflexivity]].
  do 2 (rewrite alts_fail; [|apply seq_fail; cbn [app]; apply lit_first; apply (alpha_not b _ A); reflexivity]).
  do 3 (rewrite alts_fail; [|apply seq_fail; apply K; [assumption|reflexivity]]).
  rewrite alts_fail.
  2:{ apply seq_fail. unfold rlit. cbn [app strip]. destruct (byte_eqb_spec x73 b) as [<-|]; [|reflexivity].
      destruct (w ++ rest) as [|c j]; [reflexivity|]. cbn [strip]. destruct (byte_eqb_spec quote c) as [<-|]; [now destruct W2|reflexivity]. }
  rewrite alts_fail; [reflexivity|]. apply seq_fail. unfold rconstant. rewrite alts_none. repeat apply Forall_cons; try apply Forall_nil.
  - apply seq_fail. apply K; [assumption|reflexivity].
  - apply seq_fail. apply K; [assumption|reflexivity].
  - cbn [app]. apply number_none; [assumption|intros ->; discriminate A..].
  - unfold rseq at 1, ropt, rliteral_type, ralts, fold_right, ralt, rseq. unfold rlit. change (lit "n") with [x6e]. change (lit "r") with [x72]. change (lit "t") with [x74].
    cbn [app strip]. destruct (byte_eqb_spec x6e b) as [<-|]; [cbn [rret]; unfold rret; now rewrite string_none'|].
    destruct (byte_eqb_spec x72 b) as [<-|]; [unfold rret; now rewrite string_none'|]. destruct (byte_eqb_spec x74 b) as [<-|]; [unfold rret; now rewrite string_none'|].
    rewrite string_none; [reflexivity|]. intros ->. discriminate A.
Qed.

(** After a word, this is not a call. *)
Definition no_call (rest : list byte) : Prop :=
  forall n, length rest < n -> exists ts j, ropt (rtype_args n) (blanks rest) = PMatch ts j /\ hd (blanks j) <> Some x28.
Lemma type_args_none n j : hd j <> Some x3c -> rtype_args n j = PFail.
Proof.
  intros H. unfold rtype_args. apply seq_fail. unfold rlit. change (lit "<") with [x3c]. destruct j as [|b j]; [reflexivity|]. cbn [strip]. destruct (byte_eqb_spec x3c b) as [<-|]; [now destruct H|reflexivity].
Qed.
Lemma no_call_plain rest : hd (blanks rest) <> Some x3c -> hd (blanks rest) <> Some x28 -> no_call rest.
Proof. intros H1 H2 n _. exists None, (blanks rest). unfold ropt. rewrite type_args_none by assumption. now rewrite blanks_idem. Qed.
Lemma starts_ident w rest : is_name w = true -> reserved w = false -> edge rest -> hd rest <> Some quote -> no_call rest ->
  Starts (w ++ rest) (EIdent (N := source_ast) w span0) rest.
Proof.
  intros N R E Q C n m Hn Hm. rewrite app_length in Hn. rewrite start_word by assumption. unfold word_rules. rewrite alts_fail.
  - eapply alts_hit. unfold rseq. now rewrite name_read.
  - unfold rseq at 1. rewrite name_read by assumption. destruct (C n) as (ts & j & E1 & E2); [lia|]. unfold rseq at 1, rblank at 1. unfold rseq at 1. rewrite E1.
    unfold rseq at 1, rblank. apply seq_fail. now apply args_none.
Qed.
Lemma starts_call w (ts : list typename) i args rest : is_name w = true -> reserved w = false -> forallb type_ok ts = true ->
  (forall n m, length (lit "(" ++ i) < n -> length (lit "(" ++ i) < m -> rargs n (rexpr fl m) (lit "(" ++ i) = PMatch args rest) ->
  Starts (w ++ (match ts with [] => [] | _ => lit "<" ++ join (lit ", ") (map pretty ts) ++ lit ">" end) ++ lit "(" ++ i)
    (ECall (N := source_ast) w ts args span0) rest.
Proof.
  intros N R T P n m Hn Hm. rewrite !app_length in Hn, Hm. assert (1 <= length w) by (destruct w; [discriminate|cbn; lia]).
  rewrite start_word; [|assumption|assumption|destruct ts; reflexivity|destruct ts; discriminate]. unfold word_rules. eapply alts_hit.
  unfold rseq at 1. rewrite name_read; [|assumption|destruct ts; reflexivity]. destruct ts as [|t ts].
  - cbn [app]. unfold rseq at 1, rblank at 1. change (blanks (lit "(" ++ i)) with (lit "(" ++ i). unfold rseq at 1, ropt. rewrite type_args_none by discriminate.
    unfold rseq at 1, rblank at 1. change (blanks (lit "(" ++ i)) with (lit "(" ++ i). unfold rseq at 1. rewrite P by (rewrite app_length; lia). reflexivity.
  - unfold rseq at 1, rblank at 1. rewrite <- !app_assoc. rewrite !app_length in Hn.
    assert (B : forall j, blanks (lit "<" ++ j) = lit "<" ++ j) by reflexivity. rewrite B. clear B.
    unfold rseq at 1, ropt, rtype_args. rewrite type_args_read; [|discriminate|assumption|now apply types_ok_read|rewrite !app_length; lia|rewrite !app_length; lia].
    unfold rseq at 1, rblank at 1. change (blanks (lit "(" ++ i)) with (lit "(" ++ i). unfold rseq at 1. rewrite P by (rewrite app_length; lia). reflexivity.
Qed.
Lemma starts_keyword w x rest : edge rest ->
  (w = lit "null" /\ x = ENull (N := source_ast) span0 \/ w = lit "this" /\ x = EThis (N := source_ast) span0 \/ w = lit "super" /\ x = ESuper (N := source_ast) span0) ->
  Starts (w ++ rest) x rest.
Proof.
  intros E H n m Hn Hm. unfold start. destruct H as [[-> ->]|[[-> ->]|[-> ->]]].
  - do 6 (rewrite alts_fail; [|reflexivity]). eapply alts_hit. unfold rseq. now rewrite keyword_read.
  - do 7 (rewrite alts_fail; [|reflexivity]). eapply alts_hit. unfold rseq. now rewrite keyword_read.
  - do 8 (rewrite alts_fail; [|reflexivity]). eapply alts_hit. unfold rseq. now rewrite keyword_read.
Qed.
Lemma starts_constant i c rest :
  (forall n m, ralts (firstn 10 [the _ <- rlit (lit "!"); the _ <- rblank; the e <- rexpr fl m 11; rret (mk_un LogicNot e);
    the _ <- rlit (lit "~"); the _ <- rblank; the e <- rexpr fl m 11; rret (mk_un BitNot e);
    the _ <- rlit (lit "-"); the _ <- rblank; the e <- rexpr fl m 11; rret (mk_un Neg e);
    the _ <- rkeyword (lit "new"); the _ <- rblank; the c <- rident; the _ <- rblank; the args <- rargs n (rexpr fl m);
      rret (ENew (N := source_ast) (tn_new c []) args span0);
    the _ <- rlit (lit "["); the _ <- rblank; the l <- rsep n (rexpr fl m 0) rcomma; the _ <- rblank; the _ <- rlit (lit "]");
      rret (EArrayLit (N := source_ast) l None span0);
    the _ <- rlit (lit "("); the _ <- rblank; the e <- rexpr fl m 0; the _ <- rblank; the _ <- rlit (lit ")"); rret e;
    the _ <- rkeyword (lit "null"); rret (ENull (N := source_ast) span0);
    the _ <- rkeyword (lit "this"); rret (EThis (N := source_ast) span0);
    the _ <- rkeyword (lit "super"); rret (ESuper (N := source_ast) span0);
    rinterpolated n (rexpr fl m)]) i = PFail) ->
  rconstant fl i = PMatch c rest -> Starts i (EConstant (N := source_ast) c span0) rest.
Proof.
  intros H K n m Hn Hm. specialize (H n m). rewrite alts_none in H. cbn [firstn] in H. unfold start.
  do 10 (let A := fresh in inversion_clear H as [|? ? A H']; rewrite alts_fail; [|exact A]; rename H' into H).
  eapply alts_hit. unfold rseq. now rewrite K.
Qed.
Lemma starts_bool (b : bool) rest : edge rest -> Starts ((if b then lit "true" else lit "false") ++ rest) (EConstant (N := source_ast) (CBool b) span0) rest.
Proof.
  intros E. apply starts_constant; [intros n m; destruct b; reflexivity|]. unfold rconstant. destruct b.
  - eapply alts_hit. unfold rseq. now rewrite keyword_read.
  - rewrite alts_fail; [|reflexivity]. eapply alts_hit. unfold rseq. now rewrite keyword_read.
Qed.
Lemma digit_none n m b i : is_digit b = true -> ralts (firstn 10 [the _ <- rlit (lit "!"); the _ <- rblank; the e <- rexpr fl m 11; rret (mk_un LogicNot e);
    the _ <- rlit (lit "~"); the _ <- rblank; the e <- rexpr fl m 11; rret (mk_un BitNot e);
    the _ <- rlit (lit "-"); the _ <- rblank; the e <- rexpr fl m 11; rret (mk_un Neg e);
    the _ <- rkeyword (lit "new"); the _ <- rblank; the c <- rident; the _ <- rblank; the args <- rargs n (rexpr fl m);
      rret (ENew (N := source_ast) (tn_new c []) args span0);
    the _ <- rlit (lit "["); the _ <- rblank; the l <- rsep n (rexpr fl m 0) rcomma; the _ <- rblank; the _ <- rlit (lit "]");
      rret (EArrayLit (N := source_ast) l None span0);
    the _ <- rlit (lit "("); the _ <- rblank; the e <- rexpr fl m 0; the _ <- rblank; the _ <- rlit (lit ")"); rret e;
    the _ <- rkeyword (lit "null"); rret (ENull (N := source_ast) span0);
    the _ <- rkeyword (lit "this"); rret (EThis (N := source_ast) span0);
    the _ <- rkeyword (lit "super"); rret (ESuper (N := source_ast) span0);
    rinterpolated n (rexpr fl m)]) (b :: i) = PFail.
Proof.
  intros D. assert (K : forall c s, is_digit c = false -> rkeyword (c :: s) (b :: i) = PFail).
  { intros c s C. unfold rkeyword. cbn [strip]. destruct (byte_eqb_spec c b) as [->|]; [congruence|reflexivity]. }
  rewrite alts_none. cbn [firstn].
  repeat apply Forall_cons; try apply Forall_nil; apply seq_fail; first [apply lit_first; congruence | apply K; reflexivity | apply lit_first; intros <-; discriminate D].
Qed.
Lemma starts_number c rest : constant_ok c = true -> match c with CI32 _ | CI64 _ | CU32 _ => True | _ => False end -> number_edge rest ->
  Starts (show_constant fl c ++ rest) (EConstant (N := source_ast) c span0) rest.
Proof.
  intros O K E. assert (F : exists b i, show_constant fl c ++ rest = b :: i /\ is_digit b = true).
  { assert (G : forall z s, (0 <= z)%Z -> exists b i, (show_int z ++ s) ++ rest = b :: i /\ is_digit b = true).
    { intros z s Hz. unfold show_int. replace (z <? 0)%Z with false by lia. pose proof (show_nat_some z) as S. pose proof (show_nat_digits z) as D.
      destruct (show_nat z) as [|b w]; [congruence|]. cbn [forallb] in D. apply andb_prop in D as [D _]. exists b, ((w ++ s) ++ rest). now split. }
    destruct c; try contradiction; cbn [constant_ok show_constant] in *; apply andb_prop in O as [O1 O2].
    - specialize (G v [] ltac:(lia)). now rewrite app_nil_r in G.
    - apply G. lia.
    - apply G. lia. }
  destruct F as (b & i & F & D). apply starts_constant.
  - intros n m. rewrite F. now apply digit_none.
  - assert (K' : forall c s, is_digit c = false -> rkeyword (c :: s) (b :: i) = PFail).
    { intros c' s C. unfold rkeyword. cbn [strip]. destruct (byte_eqb_spec c' b) as [->|]; [congruence|reflexivity]. }
    unfold rconstant. rewrite alts_fail; [|rewrite F; apply seq_fail; apply K'; reflexivity].
    rewrite alts_fail; [|rewrite F; apply seq_fail; apply K'; reflexivity].
    eapply alts_hit. now apply number_read.
Qed.
Lemma starts_string l s rest : utf8_valid s = true -> Starts (show_constant fl (CString l s) ++ rest) (EConstant (N := source_ast) (CString l s) span0) rest.
Proof.
  intros V. apply starts_constant; [intros n m; destruct l; reflexivity|]. unfold rconstant.
  assert (Q : exists w, quoted s = quote :: w) by (unfold quoted; eauto). destruct Q as [w Q].
  assert (H : forall (t : literal) j, rstring j = PMatch s rest -> True) by trivial. clear H.
  destruct l; cbn [show_constant]; rewrite <- ?app_assoc.
  - do 3 (rewrite alts_fail; [|rewrite Q; reflexivity]). eapply alts_hit. unfold rseq at 1.
    assert (L : ropt rliteral_type (quoted s ++ rest) = PMatch None (quoted s ++ rest)) by (rewrite Q; reflexivity). rewrite L. unfold rseq. now rewrite string_read.
  - do 3 (rewrite alts_fail; [|rewrite Q; reflexivity]). eapply alts_hit. unfold rseq at 1.
    change (ropt rliteral_type (lit "n" ++ quoted s ++ rest)) with (PMatch (Some LName) (quoted s ++ rest)). unfold rseq. now rewrite string_read.
  - do 3 (rewrite alts_fail; [|rewrite Q; reflexivity]). eapply alts_hit. unfold rseq at 1.
    change (ropt rliteral_type (lit "r" ++ quoted s ++ rest)) with (PMatch (Some LResource) (quoted s ++ rest)). unfold rseq. now rewrite string_read.
  - do 3 (rewrite alts_fail; [|rewrite Q; reflexivity]). eapply alts_hit. unfold rseq at 1.
    change (ropt rliteral_type (lit "t" ++ quoted s ++ rest)) with (PMatch (Some LTweakDbId) (quoted s ++ rest)). unfold rseq. now rewrite string_read.
Qed.
Lemma starts_paren i x rest : blanks i = i -> Parses 0 i (PMatch x (lit ")" ++ rest)) -> Starts (lit "(" ++ i) x rest.
Proof.
  intros B P n m Hn Hm. rewrite app_length in Hm. change (length (lit "(")) with 1 in Hm. unfold start. do 5 (rewrite alts_fail; [|reflexivity]). eapply alts_hit.
  unfold rseq at 1. rewrite lit_read. unfold rseq at 1, rblank at 1. rewrite B. unfold rseq at 1. rewrite P by lia. unfold rseq at 1, rblank.
  change (blanks (lit ")" ++ rest)) with (lit ")" ++ rest). unfold rseq. now rewrite lit_read.
Qed.
Lemma starts_unary o i x rest : blanks i = i -> Parses 11 i (PMatch x rest) -> Starts (format_unop o ++ i) (mk_un o x) rest.
Proof.
  intros B P n m Hn Hm. rewrite app_length in Hm. assert (L : length (format_unop o) = 1) by now destruct o. unfold start. destruct o; cbn [format_unop] in *.
  - do 1 (rewrite alts_fail; [|reflexivity]). eapply alts_hit. unfold rseq at 1. rewrite lit_read. unfold rseq at 1, rblank. rewrite B. unfold rseq. now rewrite P by lia.
  - eapply alts_hit. unfold rseq at 1. rewrite lit_read. unfold rseq at 1, rblank. rewrite B. unfold rseq. now rewrite P by lia.
  - do 2 (rewrite alts_fail; [|reflexivity]). eapply alts_hit. unfold rseq at 1. rewrite lit_read. unfold rseq at 1, rblank. rewrite B. unfold rseq. now rewrite P by lia.
Qed.
Lemma starts_new c i args rest : is_name c = true ->
  (forall n m, length (lit "(" ++ i) < n -> length (lit "(" ++ i) < m -> rargs n (rexpr fl m) (lit "(" ++ i) = PMatch args rest) ->
  Starts (lit "new " ++ c ++ lit "(" ++ i) (ENew (N := source_ast) (TypeName c None) args span0) rest.
Proof.
  intros N P n m Hn Hm. rewrite !app_length in Hn, Hm. change (length (lit "new ")) with 4 in Hm. unfold start. do 3 (rewrite alts_fail; [|reflexivity]). eapply alts_hit.
  unfold rseq at 1. change (lit "new " ++ c ++ lit "(" ++ i) with (lit "new" ++ x20 :: c ++ lit "(" ++ i). rewrite keyword_read by reflexivity.
  unfold rseq at 1, rblank at 1. rewrite blanks_space, name_blank by assumption. unfold rseq at 1. rewrite name_read by (assumption || reflexivity).
  unfold rseq at 1, rblank at 1. change (blanks (lit "(" ++ i)) with (lit "(" ++ i). unfold rseq at 1. rewrite P by (rewrite app_length; lia). reflexivity.
Qed.
End Steps.
