(** The parser's fuel suffices: every rule takes from its input. *)
From Coq Require Import String.
From Coq Require Import ZArith List Bool Lia.
From Verif Require Import Bytes Definitions Bundle Ast TypeNames Pool Scope TypeCheck Printer Parser.
Import ListNotations.
Open Scope nat_scope.

(** On inputs shorter than [L] the rule does not run out of fuel, and takes at least
    [d] bytes if it matches. *)
Definition takes {A} (L d : nat) (r : rule A) : Prop :=
  forall i, length i < L -> r i <> PFuel /\ forall a i', r i = PMatch a i' -> length i' + d <= length i.

Lemma takes_weaken {A} L d L' d' (r : rule A) : takes L d r -> L' <= L -> d' <= d -> takes L' d' r.
Proof.
  intros H l1 l2 i Hi. destruct (H i) as [H1 H2]; [lia|]. split; [assumption|].
  intros a i' E. specialize (H2 a i' E). lia.
Qed.
Lemma takes_ret {A} L (a : A) : takes L 0 (rret a).
Proof. intros i _. split; [discriminate|]. intros b i' E. injection E as _ <-. lia. Qed.
Lemma takes_fail {A} L d : takes L d (fun _ => @PFail A).
Proof. intros i _. split; discriminate. Qed.
Lemma takes_seq {A B} L d1 d2 (r : rule A) (k : A -> rule B) :
  takes L d1 r -> (forall a, takes (L - d1) d2 (k a)) -> takes L (d1 + d2) (rseq r k).
Proof.
  intros H K i Hi. destruct (H i Hi) as [H1 H2]. unfold rseq. destruct (r i) as [a i'| | |] eqn:E; try (split; discriminate); [|congruence].
  specialize (H2 a i' eq_refl). destruct (K a i') as [K1 K2]; [lia|]. split; [assumption|].
  intros b i'' E'. specialize (K2 b i'' E'). lia.
Qed.
Lemma takes_alt {A} L d (r s : rule A) : takes L d r -> takes L d s -> takes L d (ralt r s).
Proof.
  intros H K i Hi. unfold ralt. destruct (H i Hi) as [H1 H2], (K i Hi) as [K1 K2].
  destruct (r i) as [a i'| | |] eqn:E; split; try congruence; try discriminate; auto.
Qed.
Lemma takes_alts {A} L d (l : list (rule A)) : Forall (takes L d) l -> takes L d (ralts l).
Proof. induction 1; [apply takes_fail|]. now apply takes_alt. Qed.
Lemma takes_opt {A} L d (r : rule A) : takes L d r -> takes L 0 (ropt r).
Proof.
  intros H i Hi. destruct (H i Hi) as [H1 H2]. unfold ropt. destruct (r i) as [a i'| | |] eqn:E; split; try discriminate; try congruence.
  - intros b j E'. injection E' as _ <-. specialize (H2 a i' eq_refl). lia.
  - intros b j E'. injection E' as _ <-. lia.
Qed.
Lemma takes_many {A} n L (r : rule A) : takes L 1 r -> L <= n -> takes L 0 (rmany n r).
Proof.
  intros H. cut (forall n i, length i < L -> length i < n -> rmany n r i <> PFuel /\ forall a i', rmany n r i = PMatch a i' -> length i' <= length i).
  { intros C l i Hi. destruct (C n i) as [C1 C2]; [lia..|]. split; [assumption|]. intros a i' E. specialize (C2 a i' E). lia. }
  clear n. intros n. induction n as [|n IH]; intros i Hi Hn; [lia|]. cbn [rmany]. destruct (H i Hi) as [H1 H2].
  destruct (r i) as [a i'| | |] eqn:E; try (split; discriminate); [|split; [discriminate|]|congruence].
  - specialize (H2 a i' eq_refl). destruct (IH i') as [I1 I2]; [lia..|].
    destruct (rmany n r i') as [l i''| | |] eqn:E'; split; try discriminate; try congruence.
    intros b j Eq. injection Eq as _ <-. specialize (I2 l i'' eq_refl). lia.
  - intros b j Eq. injection Eq as _ <-. lia.
Qed.
Lemma takes_sep {A} n L (r : rule A) sep : takes L 1 r -> takes L 0 sep -> L <= n -> takes L 0 (rsep n r sep).
Proof.
  intros H S l i Hi. unfold rsep. destruct (H i Hi) as [H1 H2]. destruct (r i) as [a i'| | |] eqn:E; try (split; discriminate); [|split; [discriminate|]|congruence].
  - specialize (H2 a i' eq_refl).
    assert (M : takes L 0 (rmany n (the _ <- sep; r))).
    { apply takes_many; [|assumption]. apply (takes_weaken L (0 + 1)); [|lia..]. apply takes_seq; [assumption|].
      intros _. apply (takes_weaken L 1); [assumption|lia..]. }
    destruct (M i') as [M1 M2]; [lia|]. destruct (rmany n _ i') as [x i''| | |] eqn:E'; split; try discriminate; try congruence.
    intros b j Eq. injection Eq as _ <-. specialize (M2 x i'' eq_refl). lia.
  - intros b j Eq. injection Eq as _ <-. lia.
Qed.

Lemma strip_length s i i' : strip s i = Some i' -> length i = length s + length i'.
Proof.
  revert i. induction s as [|a s IH]; intros i; cbn [strip].
  - now intros [= ->].
  - destruct i as [|b i]; [discriminate|]. destruct (Byte.eqb a b); [|discriminate]. intros E. cbn [length]. now rewrite (IH i E).
Qed.
Lemma takes_lit L s : takes L (length s) (rlit s).
Proof.
  intros i _. unfold rlit. destruct (strip s i) as [i'|] eqn:E; split; try discriminate. intros a j Eq. injection Eq as _ <-.
  rewrite (strip_length _ _ _ E). lia.
Qed.
Lemma line_rest_length i : length (line_rest i) <= length i.
Proof. induction i as [|b i IH]; [reflexivity|]. cbn [line_rest]. destruct (Byte.eqb b x0a); cbn [length]; lia. Qed.
Lemma comment_rest_length n : forall d i j, length i <= n -> comment_rest d i = Some j -> length j < length i.
Proof.
  induction n as [|n IH]; intros d i j; destruct i as [|a [|b i]]; cbn [length]; try lia; try discriminate.
  intros Hl. cbn [comment_rest]. destruct (Byte.eqb a x2a && Byte.eqb b x2f).
  - destruct d as [|d].
    + intros [= <-]. lia.
    + intros H. apply IH in H; lia.
  - destruct (Byte.eqb a x2f && Byte.eqb b x2a); intros H.
    + apply IH in H; lia.
    + change (comment_rest d (b :: i) = Some j) in H. apply IH in H; cbn [length] in *; lia.
Qed.
Lemma blank_step_length i j : blank_step i = Some j -> length j < length i.
Proof.
  unfold blank_step. destruct i as [|b i]; [discriminate|]. destruct (is_blank b); [intros [= <-]; cbn; lia|].
  destruct (strip (lit "/*") (b :: i)) as [i1|] eqn:E.
  - apply strip_length in E. change (length (lit "/*")) with 2 in E.
    destruct (comment_rest 0 i1) as [i2|] eqn:E2; [|discriminate]. intros [= <-].
    apply (comment_rest_length (length i1)) in E2; lia.
  - destruct (strip (lit "//") (b :: i)) as [i1|] eqn:E2; [|discriminate]. intros [= <-].
    apply strip_length in E2. change (length (lit "//")) with 2 in E2. pose proof (line_rest_length i1). lia.
Qed.
Lemma blanks_length n i : length (blanks_n n i) <= length i.
Proof.
  revert i. induction n as [|n IH]; intros i; cbn [blanks_n]; [lia|]. destruct (blank_step i) as [j|] eqn:E; [|lia].
  apply blank_step_length in E. specialize (IH j). lia.
Qed.
(** Nothing blank is left over. *)
Lemma blanks_done i : blank_step (blanks i) = None.
Proof.
  unfold blanks. cut (forall n i, length i <= n -> blank_step (blanks_n n i) = None); [intros H; now apply H|].
  intros n. induction n as [|n IH]; intros j Hj; cbn [blanks_n].
  - destruct j; [reflexivity|cbn in Hj; lia].
  - destruct (blank_step j) as [k|] eqn:E; [|assumption]. apply blank_step_length in E. apply IH. lia.
Qed.
Lemma takes_blank L : takes L 0 rblank.
Proof. intros i _. split; [discriminate|]. intros a j E. injection E as _ <-. pose proof (blanks_length (length i) i). unfold blanks. lia. Qed.
Lemma span_of_app f i w r : span_of f i = (w, r) -> i = w ++ r /\ forallb f w = true /\ match r with b :: _ => f b = false | [] => True end.
Proof.
  revert w r. induction i as [|b i IH]; intros w r; cbn [span_of].
  - intros [= <- <-]. repeat split.
  - destruct (f b) eqn:E.
    + destruct (span_of f i) as [w' r'] eqn:E'. intros [= <- <-]. destruct (IH _ _ eq_refl) as (-> & H & H'). split; [reflexivity|].
      split; [|assumption]. cbn [forallb]. now rewrite E.
    + intros [= <- <-]. repeat split. assumption.
Qed.
Lemma takes_ident L : takes L 1 rident.
Proof.
  intros i _. unfold rident. destruct i as [|b i]; [split; discriminate|]. destruct (is_alpha b); [|split; discriminate].
  destruct (span_of is_word_char i) as [w r] eqn:E. split; [discriminate|]. intros a j Eq. injection Eq as _ <-.
  apply span_of_app in E as (-> & _). cbn [length]. rewrite app_length. lia.
Qed.
Lemma takes_keyword L s : takes L (length s) (rkeyword s).
Proof.
  intros i _. unfold rkeyword. destruct (strip s i) as [[|b j]|] eqn:E; [split; [discriminate|]| |split; discriminate].
  - intros a j Eq. injection Eq as _ <-. rewrite (strip_length _ _ _ E). lia.
  - destruct (is_word_char b); split; try discriminate. intros a j' Eq. injection Eq as _ <-. rewrite (strip_length _ _ _ E). cbn [length]. lia.
Qed.

(** Steps of the proofs below: one combinator at a time.  A sequence that starts with
    a rule that takes [d] bytes leaves a shorter input to the rest. *)
Ltac tk_leaf :=
  first [ apply takes_ret | apply takes_blank | apply takes_ident | apply takes_lit | apply takes_keyword | apply takes_fail ].
Lemma takes_lit_seq {B} L d s (k : unit -> rule B) :
  (forall a, takes (L - length s) (d - length s) (k a)) -> takes L d (rseq (rlit s) k).
Proof. intros H. eapply takes_weaken; [apply takes_seq; [apply takes_lit|exact H]|lia..]. Qed.
Lemma takes_keyword_seq {B} L d s (k : unit -> rule B) :
  (forall a, takes (L - length s) (d - length s) (k a)) -> takes L d (rseq (rkeyword s) k).
Proof. intros H. eapply takes_weaken; [apply takes_seq; [apply takes_keyword|exact H]|lia..]. Qed.
Lemma takes_blank_seq {B} L d (k : unit -> rule B) : (forall a, takes L d (k a)) -> takes L d (rseq rblank k).
Proof. intros H. apply (takes_weaken L (0 + d)); [|lia..]. apply takes_seq; [apply takes_blank|]. intros a. apply (takes_weaken L d); [apply H|lia..]. Qed.
Lemma takes_ident_seq {B} L d (k : str -> rule B) : (forall a, takes (L - 1) (d - 1) (k a)) -> takes L d (rseq rident k).
Proof. intros H. eapply takes_weaken; [apply takes_seq; [apply takes_ident|exact H]|lia..]. Qed.
Lemma takes_seq0 {A B} L d (r : rule A) (k : A -> rule B) :
  takes L 0 r -> (forall a, takes L d (k a)) -> takes L d (rseq r k).
Proof. intros H K. apply (takes_weaken L (0 + d)); [|lia..]. apply takes_seq; [exact H|]. intros a. apply (takes_weaken L d); [apply K|lia..]. Qed.
Lemma takes_ret0 {A} L d (a : A) : d = 0 -> takes L d (rret a).
Proof. intros ->. apply takes_ret. Qed.

(** Lengths of literals. *)
Ltac len := repeat match goal with |- context [length (lit ?s)] => let n := eval vm_compute in (length (lit s)) in change (length (lit s)) with n end; lia.

Lemma takes_comma L : takes L 1 rcomma.
Proof. unfold rcomma. apply takes_lit_seq. intros _. eapply takes_weaken; [apply takes_blank|reflexivity|cbn; lia]. Qed.
Lemma takes_type n : takes n 1 (rtype n).
Proof.
  induction n as [|n IH]; cbn [rtype]; [intros i Hi; lia|]. apply takes_ident_seq. intros name. cbn [Nat.sub].
  apply takes_seq0; [|intros a; now apply takes_ret0].
  eapply takes_opt. apply takes_lit_seq with (d := 0). intros _. change (length (lit "<")) with 1.
  apply takes_blank_seq. intros _. apply takes_seq0.
  { apply takes_sep; [|eapply takes_weaken; [apply takes_comma|reflexivity|lia]|lia].
    eapply takes_weaken; [exact IH|lia..]. }
  intros l. apply takes_blank_seq. intros _. apply takes_lit_seq. intros _. now apply takes_ret0.
Qed.
Lemma takes_type_args n L : L <= S n -> takes L 1 (rtype_args n).
Proof.
  intros HL. unfold rtype_args. apply takes_lit_seq. intros _. change (length (lit "<")) with 1.
  apply takes_blank_seq. intros _. apply takes_seq0.
  { apply takes_sep; [|eapply takes_weaken; [apply takes_comma|reflexivity|lia]|lia].
    eapply takes_weaken; [apply takes_type|lia..]. }
  intros l. apply takes_blank_seq. intros _. apply takes_lit_seq. intros _. now apply takes_ret0.
Qed.

Lemma span_upto_length n f i w r : span_upto n f i = (w, r) -> length i = length w + length r.
Proof.
  revert i w r. induction n as [|n IH]; intros i w r; cbn [span_upto]; [intros [= <- <-]; reflexivity|].
  destruct i as [|b i]; [intros [= <- <-]; reflexivity|]. destruct (f b); [|intros [= <- <-]; reflexivity].
  destruct (span_upto n f i) as [w' r'] eqn:E. intros [= <- <-]. cbn [length]. now rewrite (IH _ _ _ E).
Qed.
Lemma takes_escaped L : takes L 1 rescaped_char.
Proof.
  apply takes_alts. repeat apply Forall_cons; try apply Forall_nil.
  - intros i _. unfold rplain_char. destruct i as [|b i]; [split; discriminate|].
    destruct (Byte.eqb b backslash || Byte.eqb b quote); split; try discriminate. intros a j Eq. injection Eq as _ <-. cbn; lia.
  - apply takes_lit_seq. intros _. now apply takes_ret0.
  - apply takes_lit_seq. intros _. now apply takes_ret0.
  - apply takes_lit_seq. intros _. now apply takes_ret0.
  - apply takes_lit_seq. intros _. now apply takes_ret0.
  - apply takes_lit_seq. intros _. now apply takes_ret0.
  - apply takes_lit_seq. intros _. now apply takes_ret0.
  - apply takes_lit_seq. intros _ i _. cbv beta. destruct (span_upto 6 is_hex i) as [w r] eqn:E. apply span_upto_length in E.
    destruct w as [|b w]; [split; discriminate|]. unfold rseq. destruct (rlit (lit "}") r) as [u r'| | |] eqn:E2; try (split; discriminate).
    + destruct (takes_lit (S (length r)) (lit "}") r) as [_ T]; [lia|]. specialize (T _ _ E2).
      destruct (is_char _); split; try discriminate. intros a j Eq. injection Eq as _ <-. clear - T E. cbn [length] in E. lia.
    + now destruct (proj1 (takes_lit (S (length r)) (lit "}") r (Nat.lt_succ_diag_r _)) E2).
Qed.
Lemma takes_contents L : takes L 0 rcontents.
Proof.
  intros i Hi. unfold rcontents.
  apply (takes_seq (S (length i)) 0 0); [|intros a; apply takes_ret|lia].
  apply takes_many; [apply takes_escaped|lia].
Qed.
Lemma takes_string L : takes L 2 rstring.
Proof.
  unfold rstring. apply takes_lit_seq. intros _. apply takes_seq0; [apply takes_contents|]. intros s.
  apply takes_lit_seq. intros _. now apply takes_ret0.
Qed.
Lemma takes_option {A B} L (f : A -> B) o : takes L 0 (of_option f o).
Proof. intros i _. unfold of_option. destruct o; split; try discriminate. intros b j E. injection E as _ <-. lia. Qed.
Lemma takes_number fl L : takes L 1 (rnumber fl).
Proof.
  intros i Hi. unfold rnumber.
  destruct (match i with b :: i' => if Byte.eqb b x2d then ([b], i') else ([], i) | [] => ([], i) end) as [sign i1] eqn:E1.
  assert (L1 : length i1 <= length i).
  { destruct i as [|b i']; [injection E1 as _ <-; lia|]. destruct (Byte.eqb b x2d); injection E1 as _ <-; cbn [length]; lia. }
  destruct (span_of _ i1) as [w i2] eqn:E2. apply span_of_app in E2 as (-> & _). destruct w as [|b w]; [split; discriminate|].
  rewrite app_length in L1. cbn [length] in L1.
  match goal with |- ?r i2 <> _ /\ _ => assert (T : takes (S (length i2)) 0 r) end.
  { apply takes_seq0; [eapply takes_opt; apply takes_lit|]. intros u. apply takes_seq0.
    { eapply takes_opt. apply takes_alt; apply takes_lit_seq with (d := 0); intros _; now apply takes_ret0. }
    intros q. destruct q as [[|]|]; [| |].
    - destruct (existsb _ _); [apply takes_option|]. destruct u; apply takes_option.
    - apply takes_option.
    - destruct (existsb _ _); [apply takes_option|]. destruct u; apply takes_option. }
  destruct (T i2) as [T1 T2]; [lia|]. split; [exact T1|]. intros a j E. specialize (T2 a j E). lia.
Qed.
Lemma takes_constant fl L : takes L 1 (rconstant fl).
Proof.
  apply takes_alts. repeat apply Forall_cons; try apply Forall_nil.
  - apply takes_keyword_seq. intros _. now apply takes_ret0.
  - apply takes_keyword_seq. intros _. now apply takes_ret0.
  - apply takes_number.
  - apply takes_seq0.
    + eapply takes_opt with (d := 1). apply takes_alts. repeat apply Forall_cons; try apply Forall_nil; apply takes_lit_seq; intros _; now apply takes_ret0.
    + intros t. eapply takes_weaken; [apply (takes_seq L 2 0); [apply takes_string|intros s; apply takes_ret]|lia..].
Qed.

Section Fuel.
Variable fl : float_text.
Variable rec : nat -> rule sexpr.
Variable m : nat.
Hypothesis rec_takes : forall l, takes m 1 (rec l).

Lemma takes_rec_seq {B} L d l (k : sexpr -> rule B) :
  L <= m -> (forall a, takes (L - 1) (d - 1) (k a)) -> takes L d (rseq (rec l) k).
Proof. intros HL H. eapply takes_weaken; [apply takes_seq; [eapply takes_weaken; [apply rec_takes|exact HL|reflexivity]|exact H]|lia..]. Qed.
Lemma takes_elements n L : L <= m -> L <= n -> takes L 0 (rsep n (rec 0) rcomma).
Proof.
  intros H H'. apply takes_sep; [eapply takes_weaken; [apply rec_takes|lia..]|eapply takes_weaken; [apply takes_comma|reflexivity|lia]|lia].
Qed.
Lemma takes_args n L : L <= S m -> L <= S n -> takes L 1 (rargs n rec).
Proof.
  intros H H'. unfold rargs. apply takes_lit_seq. intros _. change (length (lit "(")) with 1. apply takes_blank_seq. intros _.
  apply takes_seq0; [apply takes_elements; lia|]. intros l. apply takes_blank_seq. intros _. apply takes_lit_seq. intros _. now apply takes_ret0.
Qed.
Lemma takes_binary L op l f x : L <= S m -> 1 <= length (lit op) -> takes L 1 (binary rec op l f x).
Proof.
  intros H Hl. unfold binary. apply takes_blank_seq. intros _. apply takes_lit_seq. intros _. apply takes_blank_seq. intros _.
  apply takes_rec_seq; [lia|]. intros y. apply takes_ret0. lia.
Qed.
Lemma takes_level {A} L d l min (r : rule A) : takes L d r -> takes L d (at_level l min r).
Proof. unfold at_level. destruct (min <=? l); [trivial|intros _; apply takes_fail]. Qed.

Lemma takes_extend n L min x : L <= S m -> L <= S n -> takes L 1 (extend n rec min x).
Proof.
  intros H H'. apply takes_alts.
  repeat (apply Forall_cons; [apply takes_level; first [apply takes_binary; [exact H|len] | idtac]|]); try apply Forall_nil.
  - apply takes_blank_seq. intros _. apply takes_lit_seq. intros _. apply takes_blank_seq. intros _. apply takes_rec_seq; [len|].
    intros y. apply takes_blank_seq. intros _. apply takes_lit_seq. intros _. apply takes_blank_seq. intros _. apply takes_rec_seq; [len|].
    intros z. now apply takes_ret0.
  - apply takes_blank_seq. intros _. apply takes_lit_seq. intros _. apply takes_blank_seq. intros _. apply takes_rec_seq; [len|].
    intros y. apply takes_blank_seq. intros _. apply takes_lit_seq. intros _. now apply takes_ret0.
  - apply takes_blank_seq. intros _. apply takes_lit_seq. intros _. apply takes_blank_seq. intros _. apply takes_ident_seq. intros f.
    apply takes_blank_seq. intros _. change (length (lit ".")) with 1. cbn [Nat.sub].
    eapply takes_weaken; [apply (takes_seq (L - 1 - 1) 1 0); [apply takes_args; lia|intros l; apply takes_ret]|lia..].
  - apply takes_blank_seq. intros _. apply takes_lit_seq. intros _. apply takes_blank_seq. intros _. apply takes_ident_seq. intros f. now apply takes_ret0.
  - apply takes_blank_seq. intros _. apply takes_keyword_seq. intros _. change (length (lit "as")) with 2. apply takes_blank_seq. intros _. apply takes_seq0.
    + eapply takes_weaken; [apply takes_type|lia..].
    + intros t. now apply takes_ret0.
Qed.

Lemma takes_interpolated n L : L <= S m -> L <= S n -> takes L 1 (rinterpolated n rec).
Proof.
  intros H H'. unfold rinterpolated. apply takes_lit_seq. intros _. change (length [x73; quote]) with 2. apply takes_seq0; [apply takes_contents|].
  intros p. apply takes_seq0.
  - apply takes_many; [|lia]. apply takes_lit_seq. intros _. change (length [backslash; x28]) with 2. apply takes_blank_seq. intros _.
    apply takes_rec_seq; [lia|]. intros e. apply takes_blank_seq. intros _. apply takes_lit_seq. intros _. apply takes_seq0; [apply takes_contents|].
    intros s. now apply takes_ret0.
  - intros ps. apply takes_lit_seq. intros _. now apply takes_ret0.
Qed.
Lemma takes_start n L : L <= S m -> L <= S n -> takes L 1 (start fl n rec).
Proof.
  intros H H'. apply takes_alts. repeat apply Forall_cons; try apply Forall_nil.
  - apply takes_lit_seq. intros _. apply takes_blank_seq. intros _. apply takes_rec_seq; [len|]. intros e. now apply takes_ret0.
  - apply takes_lit_seq. intros _. apply takes_blank_seq. intros _. apply takes_rec_seq; [len|]. intros e. now apply takes_ret0.
  - apply takes_lit_seq. intros _. apply takes_blank_seq. intros _. apply takes_rec_seq; [len|]. intros e. now apply takes_ret0.
  - apply takes_keyword_seq. intros _. change (length (lit "new")) with 3. apply takes_blank_seq. intros _. apply takes_ident_seq. intros c. apply takes_blank_seq. intros _.
    cbn [Nat.sub]. eapply takes_weaken; [apply (takes_seq (L - 3 - 1) 1 0); [apply takes_args; lia|intros l; apply takes_ret]|lia..].
  - apply takes_lit_seq. intros _. change (length (lit "[")) with 1. apply takes_blank_seq. intros _. apply takes_seq0; [apply takes_elements; lia|]. intros l.
    apply takes_blank_seq. intros _. apply takes_lit_seq. intros _. now apply takes_ret0.
  - apply takes_lit_seq. intros _. change (length (lit "(")) with 1. apply takes_blank_seq. intros _. apply takes_rec_seq; [lia|]. intros e.
    apply takes_blank_seq. intros _. apply takes_lit_seq. intros _. now apply takes_ret0.
  - apply takes_keyword_seq. intros _. now apply takes_ret0.
  - apply takes_keyword_seq. intros _. now apply takes_ret0.
  - apply takes_keyword_seq. intros _. now apply takes_ret0.
  - now apply takes_interpolated.
  - eapply takes_weaken; [apply (takes_seq L 1 0); [apply takes_constant|intros l; apply takes_ret]|lia..].
  - apply takes_ident_seq. intros f. apply takes_blank_seq. intros _. apply takes_seq0.
    + eapply takes_opt. apply takes_type_args. lia.
    + intros ts. apply takes_blank_seq. intros _. cbn [Nat.sub]. eapply takes_weaken; [apply (takes_seq (L - 1) 1 0); [apply takes_args; lia|intros l; apply takes_ret]|lia..].
  - apply takes_ident_seq. intros f. now apply takes_ret0.
Qed.
Lemma takes_climb n L min : L <= S m -> L <= S n -> forall k x, L <= k -> takes L 0 (climb k n rec min x).
Proof.
  intros H H'. assert (C : forall k x i, length i < L -> length i < k ->
    climb k n rec min x i <> PFuel /\ forall a i', climb k n rec min x i = PMatch a i' -> length i' <= length i).
  { induction k as [|k IH]; intros x i Hi Hk; [lia|]. cbn [climb]. destruct (takes_extend n L min x H H' i Hi) as [E1 E2].
    destruct (extend n rec min x i) as [y j| | |] eqn:E; try (split; discriminate); [|split; [discriminate|]|congruence].
    - specialize (E2 y j eq_refl). destruct (IH y j) as [I1 I2]; [lia..|]. split; [assumption|]. intros a i' Eq. specialize (I2 a i' Eq). lia.
    - intros a i' Eq. injection Eq as _ <-. lia. }
  intros k x Hk i Hi. destruct (C k x i Hi) as [C1 C2]; [lia|]. split; [assumption|]. intros a i' Eq. specialize (C2 a i' Eq). lia.
Qed.
End Fuel.

Lemma takes_expr fl n : forall min, takes n 1 (rexpr fl n min).
Proof.
  induction n as [|n IH]; intros min; [intros i Hi; lia|]. cbn [rexpr].
  change 1 with (1 + 0). apply takes_seq.
  - apply (takes_start fl (rexpr fl n) n IH); lia.
  - intros x. apply (takes_climb (rexpr fl n) n IH); lia.
Qed.
