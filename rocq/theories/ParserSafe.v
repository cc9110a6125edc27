(** Where the grammar aborts, and what is left of the input. *)
From Coq Require Import String.
From Coq Require Import ZArith List Bool Lia.
From Verif Require Import Bytes Definitions DefinitionsFacts Bundle Ast TypeNames Pool Scope TypeCheck Printer Parser PrintSpec ParserFacts.
Import ListNotations.
Open Scope nat_scope.

(** The rest is a suffix of the input; only a bad escape aborts. *)
Definition clean {A} (r : rule A) : Prop :=
  forall i, (r i = PPanic -> bad_escape i) /\ forall a j, r i = PMatch a j -> exists p, i = p ++ j.

Lemma bad_more p i : bad_escape i -> bad_escape (p ++ i).
Proof. intros (q & w & s & -> & H). exists (p ++ q), w, s. split; [now rewrite app_assoc|assumption]. Qed.
Lemma clean_ret {A} (a : A) : clean (rret a).
Proof. intros i. split; [discriminate|]. intros b j [= _ <-]. now exists []. Qed.
Lemma clean_fail {A} : clean (fun _ => @PFail A).
Proof. intros i. split; discriminate. Qed.
Lemma clean_seq {A B} (r : rule A) (k : A -> rule B) : clean r -> (forall a, clean (k a)) -> clean (rseq r k).
Proof.
  intros H K i. destruct (H i) as [H1 H2]. unfold rseq. destruct (r i) as [a j| | |]; try (split; [auto|]; discriminate).
  destruct (H2 a j eq_refl) as [p ->]. destruct (K a j) as [K1 K2]. split; [intros E; apply bad_more; auto|].
  intros b j' E. destruct (K2 b j' E) as [q ->]. exists (p ++ q). now rewrite app_assoc.
Qed.
Lemma clean_alt {A} (r s : rule A) : clean r -> clean s -> clean (ralt r s).
Proof. intros H K i. destruct (H i) as [H1 H2], (K i) as [K1 K2]. unfold ralt. destruct (r i); split; auto; discriminate. Qed.
Lemma clean_alts {A} (l : list (rule A)) : Forall clean l -> clean (ralts l).
Proof. induction 1; [apply clean_fail|]. now apply clean_alt. Qed.
Lemma clean_opt {A} (r : rule A) : clean r -> clean (ropt r).
Proof.
  intros H i. destruct (H i) as [H1 H2]. unfold ropt. destruct (r i) as [a j| | |]; split; auto; try discriminate.
  - intros b j' [= _ <-]. eauto.
  - intros b j' [= _ <-]. now exists [].
Qed.
Lemma clean_many {A} n (r : rule A) : clean r -> clean (rmany n r).
Proof.
  intros H. induction n as [|n IH]; intros i; cbn [rmany]; [split; discriminate|]. destruct (H i) as [H1 H2].
  destruct (r i) as [a j| | |]; try (split; [auto|]; discriminate).
  - destruct (H2 a j eq_refl) as [p ->]. destruct (IH j) as [I1 I2]. destruct (rmany n r j) as [l j'| | |]; split; try discriminate; [|intros _; apply bad_more; auto].
    intros b j2 [= _ <-]. destruct (I2 l j' eq_refl) as [q ->]. exists (p ++ q). now rewrite app_assoc.
  - split; [discriminate|]. intros b j [= _ <-]. now exists [].
Qed.
Lemma clean_sep {A} n (r : rule A) sep : clean r -> clean sep -> clean (rsep n r sep).
Proof.
  intros H S i. unfold rsep. destruct (H i) as [H1 H2]. destruct (r i) as [a j| | |]; try (split; [auto|]; discriminate).
  - destruct (H2 a j eq_refl) as [p ->]. destruct (clean_many n (the _ <- sep; r) (clean_seq sep (fun _ => r) S (fun _ => H)) j) as [I1 I2].
    destruct (rmany n _ j) as [l j'| | |]; split; try discriminate; [|intros _; apply bad_more; auto].
    intros b j2 [= _ <-]. destruct (I2 l j' eq_refl) as [q ->]. exists (p ++ q). now rewrite app_assoc.
  - split; [discriminate|]. intros b j [= _ <-]. now exists [].
Qed.
Lemma strip_suffix s i j : strip s i = Some j -> i = s ++ j.
Proof.
  revert i. induction s as [|a s IH]; intros i; cbn [strip]; [now intros [= ->]|]. destruct i as [|b i]; [discriminate|]. destruct (byte_eqb_spec a b) as [->|]; [|discriminate].
  intros E. cbn [app]. now rewrite (IH i E).
Qed.
Lemma clean_lit s : clean (rlit s).
Proof. intros i. unfold rlit. destruct (strip s i) as [j|] eqn:E; split; try discriminate. intros a j' [= _ <-]. apply strip_suffix in E. eauto. Qed.
Lemma clean_keyword s : clean (rkeyword s).
Proof.
  intros i. unfold rkeyword. destruct (strip s i) as [[|b j]|] eqn:E; [split; [discriminate|]| |split; discriminate].
  - intros a j' [= _ <-]. apply strip_suffix in E. eauto.
  - destruct (is_word_char b); split; try discriminate. intros a j' [= _ <-]. apply strip_suffix in E. eauto.
Qed.
Lemma line_rest_suffix i : exists p, i = p ++ line_rest i.
Proof. induction i as [|b i [p IH]]; [now exists []|]. cbn [line_rest]. destruct (Byte.eqb b x0a); [now exists []|]. exists (b :: p). cbn [app]. now rewrite <- IH. Qed.
Lemma comment_rest_suffix n : forall d i j, length i <= n -> comment_rest d i = Some j -> exists p, i = p ++ j.
Proof.
  induction n as [|n IH]; intros d i j; destruct i as [|a [|b i]]; cbn [length]; try lia; try discriminate.
  intros Hl. cbn [comment_rest]. destruct (Byte.eqb a x2a && Byte.eqb b x2f).
  - destruct d as [|d].
    + intros [= <-]. now exists [a; b].
    + intros H. apply IH in H as [p ->]; [|lia]. now exists (a :: b :: p).
  - destruct (Byte.eqb a x2f && Byte.eqb b x2a); intros H.
    + apply IH in H as [p ->]; [|lia]. now exists (a :: b :: p).
    + change (comment_rest d (b :: i) = Some j) in H. apply IH in H as [p E]; [|cbn [length]; lia]. exists (a :: p). cbn [app]. now rewrite E.
Qed.
Lemma blank_step_suffix i j : blank_step i = Some j -> exists p, i = p ++ j.
Proof.
  unfold blank_step. destruct i as [|b i]; [discriminate|]. destruct (is_blank b); [intros [= <-]; now exists [b]|].
  destruct (strip (lit "/*") (b :: i)) as [i1|] eqn:E.
  - apply strip_suffix in E. destruct (comment_rest 0 i1) as [i2|] eqn:E2; [|discriminate]. intros [= <-].
    apply (comment_rest_suffix (length i1)) in E2 as [p ->]; [|lia]. exists (lit "/*" ++ p). now rewrite <- app_assoc.
  - destruct (strip (lit "//") (b :: i)) as [i1|] eqn:E2; [|discriminate]. intros [= <-].
    apply strip_suffix in E2. destruct (line_rest_suffix i1) as [p Ep]. exists (lit "//" ++ p). rewrite <- app_assoc, <- Ep. exact E2.
Qed.
Lemma blanks_suffix n i : exists p, i = p ++ blanks_n n i.
Proof.
  revert i. induction n as [|n IH]; intros i; cbn [blanks_n]; [now exists []|]. destruct (blank_step i) as [j|] eqn:E; [|now exists []].
  apply blank_step_suffix in E as [p ->]. destruct (IH j) as [q Eq]. exists (p ++ q). now rewrite <- app_assoc, <- Eq.
Qed.
Lemma clean_blank : clean rblank.
Proof. intros i. split; [discriminate|]. intros a j [= _ <-]. apply blanks_suffix. Qed.
Lemma clean_ident : clean rident.
Proof.
  intros i. unfold rident. destruct i as [|b i]; [split; discriminate|]. destruct (is_alpha b); [|split; discriminate].
  destruct (span_of is_word_char i) as [w r] eqn:E. split; [discriminate|]. intros a j [= _ <-]. apply span_of_app in E as (-> & _). now exists (b :: w).
Qed.
Ltac leaf := fail.
Ltac cl := repeat first
  [ leaf | apply clean_ret | apply clean_blank | apply clean_ident | apply clean_lit | apply clean_keyword | apply clean_fail
  | apply clean_seq; [|intros ?] | apply clean_opt | apply clean_many | apply clean_sep | apply clean_alt | apply clean_alts; repeat apply Forall_cons; try apply Forall_nil ].
Lemma clean_comma : clean rcomma. Proof. unfold rcomma. cl. Qed.
Lemma clean_type n : clean (rtype n).
Proof. induction n as [|n IH]; cbn [rtype]; [intros i; split; discriminate|]. cl; first [exact IH | apply clean_comma]. Qed.
Lemma clean_type_args n : clean (rtype_args n).
Proof. unfold rtype_args. cl; first [apply clean_type | apply clean_comma]. Qed.
Lemma span_upto_app n f i w r : span_upto n f i = (w, r) -> i = w ++ r /\ forallb f w = true /\ length w <= n.
Proof.
  revert i w r. induction n as [|n IH]; intros i w r; cbn [span_upto]; [intros E; inversion E; subst; split; [reflexivity|split; [reflexivity|cbn; lia]]|].
  destruct i as [|b i]; [intros E; inversion E; subst; split; [reflexivity|split; [reflexivity|cbn; lia]]|]. destruct (f b) eqn:F; [|intros E; inversion E; subst; split; [reflexivity|split; [reflexivity|cbn; lia]]].
  destruct (span_upto n f i) as [w' r'] eqn:E. intros [= <- <-]. destruct (IH _ _ _ E) as (-> & H1 & H2). repeat split; cbn [forallb length]; [now rewrite F|lia].
Qed.
Lemma clean_unicode : clean runicode.
Proof.
  intros i. unfold runicode, rseq. unfold rlit at 1 3. destruct (strip (lit "\u{") i) as [j|] eqn:E; [|split; discriminate]. apply strip_suffix in E as ->.
  destruct (span_upto 6 is_hex j) as [w r] eqn:Es. apply span_upto_app in Es as (-> & H1 & H2). destruct w as [|b w]; [split; discriminate|].
  unfold rlit. destruct (strip (lit "}") r) as [s|] eqn:E2; [|split; discriminate]. apply strip_suffix in E2 as ->.
  destruct (is_char (read_hex (b :: w))) eqn:C; split; try discriminate.
  - intros a j [= _ <-]. exists (lit "\u{" ++ (b :: w) ++ lit "}"). now rewrite <- !app_assoc.
  - intros _. exists [], (b :: w), s. split; [reflexivity|]. split; [discriminate|]. now repeat split.
Qed.
Lemma clean_escaped : clean rescaped_char.
Proof.
  apply clean_alts. repeat apply Forall_cons; try apply Forall_nil; try (apply clean_seq; [apply clean_lit|intros ?; apply clean_ret]).
  - intros i. unfold rplain_char. destruct i as [|b i]; [split; discriminate|]. destruct (Byte.eqb b backslash || Byte.eqb b quote); split; try discriminate.
    intros a j [= _ <-]. now exists [b].
  - apply clean_unicode.
Qed.
Ltac leaf ::= apply clean_escaped.
Lemma clean_contents : clean rcontents.
Proof.
  intros i. assert (C : clean (the l <- rmany (S (length i)) rescaped_char; rret (concat l))) by (cl; try apply clean_escaped). apply (C i).
Qed.
Ltac leaf ::= first [apply clean_contents | apply clean_escaped].
Lemma clean_string : clean rstring.
Proof. unfold rstring. cl; try apply clean_contents. Qed.
Ltac leaf ::= first [apply clean_contents | apply clean_string].
Lemma clean_option {A B} (f : A -> B) o : clean (of_option f o).
Proof. intros i. unfold of_option. destruct o; split; try discriminate. intros b j [= _ <-]. now exists []. Qed.
Lemma clean_number fl : clean (rnumber fl).
Proof.
  intros i. unfold rnumber.
  destruct (match i with b :: i' => if Byte.eqb b x2d then ([b], i') else ([], i) | [] => ([], i) end) as [sign i1] eqn:E1.
  assert (P : exists p, i = p ++ i1).
  { destruct i as [|b i']; [injection E1 as _ <-; now exists []|]. destruct (Byte.eqb b x2d); injection E1 as _ <-; [now exists [b]|now exists []]. }
  destruct P as [p ->]. clear E1. destruct (span_of _ i1) as [w i2] eqn:E2. apply span_of_app in E2 as (-> & _). destruct w as [|b w]; [split; discriminate|].
  match goal with |- (?r i2 = _ -> _) /\ _ => assert (T : clean r) end.
  { apply clean_seq; [cl|]. intros u. apply clean_seq; [cl|]. intros q. destruct q as [[|]|].
    - destruct (existsb _ _); [apply clean_option|]. destruct u; apply clean_option.
    - apply clean_option.
    - destruct (existsb _ _); [apply clean_option|]. destruct u; apply clean_option. }
  destruct (T i2) as [T1 T2]. split; [intros E; do 2 apply bad_more; auto|]. intros a j E. destruct (T2 a j E) as [q ->]. exists (p ++ (b :: w) ++ q). now rewrite <- !app_assoc.
Qed.
Lemma clean_constant fl : clean (rconstant fl).
Proof. apply clean_alts. repeat apply Forall_cons; try apply Forall_nil; [cl|cl|apply clean_number|unfold rliteral_type; cl; try apply clean_string; try apply clean_contents]. Qed.

Ltac leaf ::= first [apply clean_contents | apply clean_string | apply clean_constant | apply clean_type | apply clean_type_args | apply clean_comma].
Section Safe.
Variable fl : float_text.
Variable rec : nat -> rule sexpr.
Hypothesis rec_clean : forall l, clean (rec l).
Lemma clean_args n : clean (rargs n rec).
Proof. unfold rargs. cl; apply rec_clean. Qed.
Lemma clean_level {A} l min (r : rule A) : clean r -> clean (at_level l min r).
Proof. unfold at_level. destruct (min <=? l); [trivial|intros _; apply clean_fail]. Qed.
Lemma clean_binary op l f x : clean (binary rec op l f x).
Proof. unfold binary. cl. apply rec_clean. Qed.
Lemma clean_extend n min x : clean (extend n rec min x).
Proof.
  apply clean_alts.
  repeat (apply Forall_cons; [apply clean_level; first [apply clean_binary | idtac]|]); try apply Forall_nil; cl; first [apply rec_clean | apply clean_args].
Qed.
Lemma clean_start n : clean (start fl n rec).
Proof.
  apply clean_alts. repeat apply Forall_cons; try apply Forall_nil; unfold rinterpolated; cl;
    first [apply rec_clean | apply clean_args].
Qed.
Lemma clean_climb n min k : forall x, clean (climb k n rec min x).
Proof.
  induction k as [|k IH]; intros x i; cbn [climb]; [split; discriminate|]. destruct (clean_extend n min x i) as [E1 E2].
  destruct (extend n rec min x i) as [y j| | |]; try (split; [auto|]; discriminate).
  - destruct (E2 y j eq_refl) as [p ->]. destruct (IH y j) as [I1 I2]. split; [intros E; apply bad_more; auto|]. intros a j' E. destruct (I2 a j' E) as [q ->]. exists (p ++ q). now rewrite app_assoc.
  - split; [discriminate|]. intros a j [= _ <-]. now exists [].
Qed.
End Safe.
Lemma clean_expr fl n : forall min, clean (rexpr fl n min).
Proof.
  induction n as [|n IH]; intros min; cbn [rexpr]; [intros i; split; discriminate|].
  apply clean_seq; [now apply clean_start|]. intros x. now apply clean_climb.
Qed.
