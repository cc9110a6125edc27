(** The text of an expression is read as [denoted] says. *)
From Coq Require Import String.
From Coq Require Import ZArith List Bool Lia.
From Verif Require Import Bytes BytesFacts Definitions DefinitionsFacts Bundle BundleFacts Ast TypeNames Pool Scope TypeCheck Printer Parser PrintSpec ParserFacts TextFacts PrintSteps.
Import ListNotations.
Open Scope nat_scope.

Lemma cat_cons x l t : cat (x :: l) = Some t -> exists a b, x = Some a /\ cat l = Some b /\ t = a ++ b.
Proof. cbn [cat]. destruct x as [a|]; [|discriminate]. destruct (cat l) as [b|]; [|discriminate]. intros [= <-]. now exists a, b. Qed.
Lemma put_some s t : put s = Some t -> t = lit s.
Proof. unfold put. congruence. Qed.
Lemma some_eq (a b : str) : Some a = Some b -> a = b.
Proof. congruence. Qed.
Ltac uncat :=
  repeat (match goal with
  | H : cat (_ :: _) = Some _ |- _ => let E := fresh "E" in apply cat_cons in H as (? & ? & E & H & ->)
  | H : cat [] = Some _ |- _ => injection H as <-
  | H : put _ = Some _ |- _ => apply put_some in H as ->
  | H : Some _ = Some _ |- _ => apply some_eq in H as <-
  end); rewrite ?app_nil_r in *; rewrite <- ?app_assoc in *.
Ltac unand := repeat match goal with
  | H : _ && _ = true |- _ => apply andb_prop in H as [? ?]
  | H : negb _ = true |- _ => apply negb_true_iff in H
  | H : (_ <=? _) = true |- _ => apply Nat.leb_le in H
  end.

(** The characters that an expression may start with. *)
Definition first_char (b : byte) : bool := is_alpha b || is_digit b || existsb (Byte.eqb b) [x28; quote; x21; x7e; x2d].
Lemma first_char_plain b : first_char b = true -> is_blank b = false /\ b <> x2f /\ b <> x3e /\ b <> x29 /\ b <> x5d.
Proof. intros H. destruct b; try discriminate H; repeat split; try reflexivity; discriminate. Qed.
Definition front (t : list byte) : Prop := exists b w, t = b :: w /\ first_char b = true.
Lemma front_app t rest : front t -> front (t ++ rest).
Proof. intros (b & w & -> & H). exists b, (w ++ rest). now split. Qed.
Lemma front_blanks t : front t -> blanks t = t.
Proof. intros (b & w & -> & H). apply first_char_plain in H as (H1 & H2 & _). now apply blank_other. Qed.
Lemma front_name n : is_name n = true -> front n.
Proof. destruct n as [|b n]; [discriminate|]. cbn [is_name]. intros H. apply andb_prop in H as [H _]. exists b, n. split; [reflexivity|]. unfold first_char. now rewrite H. Qed.
Lemma front_int z s : (0 <= z)%Z -> front (show_int z ++ s).
Proof.
  intros H. unfold show_int. replace (z <? 0)%Z with false by lia. pose proof (show_nat_some z) as S. pose proof (show_nat_digits z) as D.
  destruct (show_nat z) as [|b w]; [congruence|]. exists b, (w ++ s). split; [reflexivity|]. cbn [forallb] in D. apply andb_prop in D as [D _].
  unfold first_char. rewrite D. now rewrite orb_true_r.
Qed.

Section Facts.
Variables (fl : float_text) (v : bool).
Notation Parses := (Parses fl). Notation Loops := (Loops fl). Notation Starts := (Starts fl). Notation Extends := (Extends fl). Notation stops := (stops fl).
Notation ok := (levels_ok v false).
Notation SL := (shown_level v).

Lemma front_constant c : constant_ok c = true -> front (show_constant fl c).
Proof.
  destruct c as [[]|z|z|z|z|z|z|[]]; cbn [constant_ok show_constant]; try discriminate; intros H; try (now eexists _, _).
  - rewrite <- (app_nil_r (show_int z)). apply front_int. lia.
  - apply front_int. lia.
  - apply front_int. lia.
Qed.
Lemma front_show e : ok e = true -> forall parent d t, show fl v e parent d = Some t -> front t.
Proof.
  induction e as [n sp|c sp|es t sp IH|p parts sp IH|l t i sp IH|t x sp IH|l r sp IH1 IH2|c ts args sp IH|o f args sp IH1 IH2|x m sp IH|a i sp IH1 IH2|t args sp IH|x sp IH|es IH|x cases d sp IH1 IH2 IH3|t sp|c t f sp IH1 IH2 IH3|c a b sp IH1 IH2 IH3|c b sp IH1 IH2|l x b sp IH1 IH2|l r o sp IH1 IH2|x o sp IH|sp|sp|sp|sp] using expr_ind';
    cbn [levels_ok]; try discriminate; intros O parent dep txt H; cbn [show] in H.
  - uncat. unand. now apply front_name.
  - uncat. now apply front_constant.
  - unand. destruct parent; uncat; [now eexists _, _|]. apply front_app. eauto.
  - unand. uncat. apply front_app. eauto.
  - destruct (binop_of_name (short_name c)) as [o|] eqn:Eo.
    + destruct args as [|l [|r [|]]]; try discriminate. unand. inversion_clear IH as [|? ? Hl Hr]. destruct (needs_parens o parent); uncat; [now eexists _, _|]. apply front_app. eauto.
    + destruct (unop_of_name (short_name c)) as [o|] eqn:Eu.
      * destruct args as [|a [|]]; try discriminate. uncat. destruct o; now eexists _, _.
      * destruct (hidden v (short_name c)).
        -- destruct args as [|a [|]]; try discriminate. inversion_clear IH as [|? ? Ha ?]. eauto.
        -- unand. uncat. apply front_app. now apply front_name.
  - unand. uncat. apply front_app. eauto.
  - unand. uncat. apply front_app. eauto.
  - unand. uncat. apply front_app. eauto.
  - uncat. now eexists _, _.
  - unand. uncat. apply front_app. eauto.
  - uncat. now eexists _, _.
  - uncat. now eexists _, _.
  - uncat. now eexists _, _.
Qed.
Lemma open_less_level e : ok e = true -> forall parent, open_less v parent e = true -> SL parent e <= 7.
Proof.
  induction e as [n sp|c sp|es t sp IH|p parts sp IH|l t i sp IH|t x sp IH|l r sp IH1 IH2|c ts args sp IH|o f args sp IH1 IH2|x m sp IH|a i sp IH1 IH2|t args sp IH|x sp IH|es IH|x cases d sp IH1 IH2 IH3|t sp|c t f sp IH1 IH2 IH3|c a b sp IH1 IH2 IH3|c b sp IH1 IH2|l x b sp IH1 IH2|l r o sp IH1 IH2|x o sp IH|sp|sp|sp|sp] using expr_ind';
    cbn [levels_ok open_less shown_level]; try discriminate; intros O parent H; try lia.
  destruct (binop_of_name (short_name c)) as [o|] eqn:Eo.
  - destruct (needs_parens o parent); [discriminate|]. destruct args as [|l [|r [|]]]; try discriminate. inversion_clear IH as [|? ? Hl Hr]. inversion_clear Hr as [|? ? Hr' Hn]. unand.
    unfold right_least in *. apply orb_true_iff in H as [H|H].
    + destruct o; try discriminate. cbn. lia.
    + apply Hr' in H; [|assumption]. destruct o; cbn [right_min level precedence Nat.sub] in *; lia.
  - destruct (unop_of_name (short_name c)) as [o|] eqn:Eu.
    + destruct args as [|a [|]]; try discriminate. inversion_clear IH as [|? ? Ha ?]. unand. apply Ha in H; [lia|assumption].
    + destruct (hidden v (short_name c)); [|discriminate]. destruct args as [|a [|]]; try discriminate. inversion_clear IH as [|? ? Ha ?]. now apply Ha.
Qed.

(** What may follow an expression. *)
Definition quiet (rest : list byte) : Prop := edge rest /\ hd rest <> Some quote /\ hd rest <> Some x3c /\ no_call rest.
Lemma quiet_no_paren rest : quiet rest -> hd (blanks rest) <> Some x28.
Proof.
  intros (_ & _ & _ & C) H. destruct (C (S (length rest)) ltac:(lia)) as (ts & j & E & N). unfold ropt in E. rewrite type_args_none in E by congruence.
  injection E as <- <-. now rewrite blanks_idem in N.
Qed.
Lemma quiet_type_edge rest : quiet rest -> type_edge rest.
Proof. intros (H1 & _ & H2 & _). destruct rest as [|b rest]; [exact I|]. split; [assumption|]. cbn [hd] in H2. congruence. Qed.
Lemma quiet_plain rest : edge rest -> hd rest <> Some quote -> hd rest <> Some x3c -> hd (blanks rest) <> Some x3c -> hd (blanks rest) <> Some x28 -> quiet rest.
Proof. intros H1 H2 H3 H4 H5. repeat split; try assumption. now apply no_call_plain. Qed.
Lemma quiet_nil : quiet [].
Proof. apply quiet_plain; try exact I; discriminate. Qed.
Lemma quiet_mark b i : existsb (Byte.eqb b) [x29; x2c; x5d; x5b; x2e; x3b] = true -> quiet (b :: i).
Proof.
  intros H. cbn [existsb] in H. repeat (apply orb_true_iff in H as [H|H]; [apply byte_eq in H as ->; apply quiet_plain; try reflexivity; discriminate | idtac]). discriminate H.
Qed.
Ltac quiet_tac := apply quiet_plain; [reflexivity|discriminate..].

(** Type arguments do not end here. *)
Definition no_types (i : list byte) : Prop :=
  forall n k, length i < n -> length i < k -> exists l j, rsep k (rtype n) rcomma i = PMatch l j /\ hd (blanks j) <> Some x3e.
Lemma no_types_other b i : first_char b = true -> is_alpha b = false -> no_types (b :: i).
Proof.
  intros F A n k Hn Hk. exists [], (b :: i). unfold rsep. destruct n as [|n]; [lia|]. cbn [rtype]. unfold rseq at 1. cbn [rident]. rewrite A. split; [reflexivity|].
  apply first_char_plain in F as (F1 & F2 & F3 & _). rewrite blank_other by assumption. cbn [hd]. congruence.
Qed.
Lemma lit_hd c j : hd j <> Some c -> rlit [c] j = PFail.
Proof. intros H. destruct j as [|b j]; [reflexivity|]. apply lit_first. cbn [hd] in H. congruence. Qed.
Lemma no_types_word w u : is_name w = true -> edge u -> hd u <> Some x3c -> hd u <> Some x2c -> hd (blanks u) <> Some x3e -> no_types (w ++ u).
Proof.
  intros W E L C G n k Hn Hk. exists [tn_new w []], u. unfold rsep. destruct n as [|n]; [lia|]. cbn [rtype]. unfold rseq at 1. rewrite name_read by assumption.
  unfold rseq at 1, ropt. rewrite seq_fail by (now apply lit_hd). unfold rret at 1. destruct k as [|k]; [lia|]. cbn [rmany].
  rewrite seq_fail; [now split|]. unfold rcomma. apply seq_fail. now apply lit_hd.
Qed.
Lemma no_types_generic w ts i : is_name w = true -> ts <> [] -> forallb type_ok ts = true ->
  no_types (w ++ lit "<" ++ join (lit ", ") (map pretty ts) ++ lit ">" ++ lit "(" ++ i).
Proof.
  intros W N T n k Hn Hk. exists [tn_new w ts], (lit "(" ++ i). split; [|discriminate]. rewrite app_length in Hn.
  assert (1 <= length w) by (destruct w; [discriminate|cbn; lia]). unfold rsep. destruct n as [|n]; [lia|]. cbn [rtype]. unfold rseq at 1. rewrite name_read; [|assumption|reflexivity].
  unfold rseq at 1, ropt. rewrite type_args_read; [|assumption|assumption|now apply types_ok_read|lia|lia]. unfold rret at 1.
  destruct k as [|k]; [lia|]. reflexivity.
Qed.
Lemma no_types_show e : ok e = true -> forall parent d t rest, show fl v e parent d = Some t -> 8 <= SL parent e ->
  edge rest -> hd rest <> Some x3c -> (shown_word v e = true -> hd rest <> Some x2c /\ hd (blanks rest) <> Some x3e) -> no_types (t ++ rest).
Proof.
  induction e as [n sp|c sp|es t sp IH|p parts sp IH|l t i sp IH|t x sp IH|l r sp IH1 IH2|c ts args sp IH|o f args sp IH1 IH2|x m sp IH|a i sp IH1 IH2|t args sp IH|x sp IH|es IH|x cases d sp IH1 IH2 IH3|t sp|c t f sp IH1 IH2 IH3|c a b sp IH1 IH2 IH3|c b sp IH1 IH2|l x b sp IH1 IH2|l r o sp IH1 IH2|x o sp IH|sp|sp|sp|sp] using expr_ind';
    cbn [levels_ok shown_level shown_word]; try discriminate; intros O parent dep txt rest H Hl E L G; cbn [show] in H; try lia.
  - uncat. unand. specialize (G eq_refl) as [G1 G2]. now apply no_types_word.
  - uncat. destruct c as [lt s|z|z|z|z|z|z|b]; cbn [constant_ok] in O; try discriminate O.
    + destruct lt; cbn [show_constant]; rewrite <- ?app_assoc; [now apply no_types_other|apply no_types_word; try reflexivity; discriminate..].
    + destruct (front_int z [] ltac:(lia)) as (b & w & Eb & F). rewrite app_nil_r in Eb. cbn [show_constant]. rewrite Eb. cbn [app]. apply no_types_other; [assumption|].
      pose proof (show_nat_digits z) as D. unfold show_int in Eb. replace (z <? 0)%Z with false in Eb by lia. rewrite Eb in D. cbn [forallb] in D. apply andb_prop in D as [D _]. unfold is_digit, is_alpha, in_range in *. lia.
    + cbn [show_constant]. rewrite <- app_assoc. pose proof (show_nat_digits z) as D. pose proof (show_nat_some z) as S. unfold show_int. replace (z <? 0)%Z with false by lia. destruct (show_nat z) as [|b w]; [congruence|]. cbn [app].
      cbn [forallb] in D. apply andb_prop in D as [D _]. apply no_types_other; [unfold first_char; rewrite D; now rewrite orb_true_r|]. unfold is_digit, is_alpha, in_range in *. lia.
    + cbn [show_constant]. rewrite <- app_assoc. pose proof (show_nat_digits z) as D. pose proof (show_nat_some z) as S. unfold show_int. replace (z <? 0)%Z with false by lia. destruct (show_nat z) as [|b w]; [congruence|]. cbn [app].
      cbn [forallb] in D. apply andb_prop in D as [D _]. apply no_types_other; [unfold first_char; rewrite D; now rewrite orb_true_r|]. unfold is_digit, is_alpha, in_range in *. lia.
    + specialize (G eq_refl) as [G1 G2]. destruct b; now apply no_types_word.
  - unand. destruct parent; uncat; [now apply no_types_other|]. eapply IH; try eassumption; try lia; try reflexivity; try discriminate. now split.
  - destruct (binop_of_name (short_name c)) as [o|] eqn:Eo.
    + destruct args as [|l [|r [|]]]; try discriminate. unand. inversion_clear IH as [|? ? IHl IHr]. destruct (needs_parens o parent); uncat; [now apply no_types_other|].
      eapply IHl; try eassumption; try reflexivity; try discriminate.
      * destruct o; cbn [left_min level precedence Nat.sub] in *; lia.
      * intros _. split; [discriminate|]. destruct o; try discriminate; cbn [level precedence Nat.sub] in Hl; lia.
    + destruct (unop_of_name (short_name c)) as [o|] eqn:Eu.
      * destruct args as [|a [|]]; try discriminate. uncat. destruct o; now apply no_types_other.
      * destruct (hidden v (short_name c)).
        -- destruct args as [|a [|]]; try discriminate. inversion_clear IH as [|? ? Ha ?]. cbn [andb] in G. eapply Ha; eassumption.
        -- unand. uncat. destruct ts as [|t0 ts]; uncat.
           ++ cbn [app]. apply no_types_word; try assumption; try reflexivity; discriminate.
           ++ apply no_types_generic; [assumption|discriminate|assumption].
  - unand. uncat. eapply IH1; try eassumption; try lia; try reflexivity; try discriminate. now split.
  - unand. uncat. eapply IH; try eassumption; try lia; try reflexivity; try discriminate. now split.
  - unand. uncat. eapply IH1; try eassumption; try lia; try reflexivity; try discriminate. now split.
  - uncat. change (lit "new ") with (lit "new" ++ [x20]). rewrite <- app_assoc. apply no_types_word; try reflexivity; try discriminate. cbn [app]. rewrite blanks_space.
    destruct t as [n [|]]; [discriminate|]. unand. cbn [mangled]. rewrite name_blank by assumption. destruct n as [|b n]; [discriminate|]. cbn [app hd]. intros [= ->]. match goal with H : is_name _ = true |- _ => discriminate H end.
  - uncat. specialize (G eq_refl) as [G1 G2]. now apply no_types_word.
  - uncat. specialize (G eq_refl) as [G1 G2]. now apply no_types_word.
  - uncat. specialize (G eq_refl) as [G1 G2]. now apply no_types_word.
Qed.
Lemma quiet_binop o i : front i -> (o = Less -> no_types i) -> quiet (lit " " ++ format_binop o ++ lit " " ++ i).
Proof.
  intros F T. destruct o; cbn [format_binop]; try quiet_tac.
  - specialize (T eq_refl). split; [reflexivity|]. split; [discriminate|]. split; [discriminate|]. intros n Hn. exists None, (lit "< " ++ i). split; [|discriminate].
    change (blanks (lit " " ++ lit "<" ++ lit " " ++ i)) with (lit "<" ++ lit " " ++ i). unfold ropt, rtype_args. unfold rseq at 1. rewrite lit_read.
    unfold rseq at 1, rblank at 1. change (blanks (lit " " ++ i)) with (blanks i). rewrite front_blanks by assumption. unfold rseq at 1. rewrite !app_length in Hn.
    destruct (T n n) as (l & j & E & N); [lia..|]. rewrite E. unfold rseq at 1, rblank. rewrite seq_fail; [reflexivity|]. now apply lit_hd.
  - split; [reflexivity|]. split; [discriminate|]. split; [discriminate|]. intros n Hn. exists None, (lit "<= " ++ i). split; [|discriminate]. destruct n; [lia|]. reflexivity.
Qed.

(** The level from which on nothing may follow. *)
Definition stop_at (k : nat) : nat := match k with O => O | S _ => S k end.
Definition follow (k : nat) (num less : bool) (rest : list byte) : Prop :=
  quiet rest /\ stops (stop_at k) rest /\ (hd rest <> Some x2e \/ k = 11 /\ num = false) /\
  (less = true -> hd rest <> Some x2c /\ hd (blanks rest) <> Some x3e).
(** The main claim. *)
Definition reads (e : sexpr) : Prop := forall parent d t rest min res,
  show fl v e parent d = Some t -> ok e = true ->
  follow (SL parent e) (shown_number v e) (open_less v parent e) rest -> min <= 11 -> min <= SL parent e \/ 10 <= SL parent e ->
  Loops min (denoted v None parent e) rest res -> Parses min (t ++ rest) res.
(** The same behind an operator. *)
Definition continues (e : sexpr) : Prop := forall parent d t rest min o x res,
  show fl v e parent d = Some t -> ok e = true ->
  1 <= level o -> level o <= SL parent e -> min <= level o ->
  quiet rest -> stops (S (level o)) rest -> hd rest <> Some x2e ->
  (open_less v parent e = true -> hd rest <> Some x2c /\ hd (blanks rest) <> Some x3e) ->
  Loops min (denoted v (Some (o, x)) parent e) rest res ->
  Loops min x (lit " " ++ format_binop o ++ lit " " ++ t ++ rest) res.

Lemma pending_alone e : forall parent o x, level o = 0 \/ SL parent e <> level o ->
  ok e = true -> denoted v (Some (o, x)) parent e = mk_bin o x (denoted v None parent e).
Proof.
  induction e as [n sp|c sp|es t sp IH|p parts sp IH|l t i sp IH|t x' sp IH|l r sp IH1 IH2|c ts args sp IH|o' f args sp IH1 IH2|x' m sp IH|a i sp IH1 IH2|t args sp IH|x' sp IH|es IH|x' cases d sp IH1 IH2 IH3|t sp|c t f sp IH1 IH2 IH3|c a b sp IH1 IH2 IH3|c b sp IH1 IH2|l x' b sp IH1 IH2|l r o' sp IH1 IH2|x' o' sp IH|sp|sp|sp|sp] using expr_ind';
    intros parent o x H O; cbn [denoted shown_level levels_ok] in *; try reflexivity; try discriminate O.
  destruct (binop_of_name (short_name c)) as [p|] eqn:Eo.
  - destruct args as [|l [|r [|]]]; try discriminate. cbn [groups].
    assert (G : (level o =? level p) && (1 <=? level p) && negb (needs_parens p parent) = false).
    { destruct (Nat.eqb_spec (level o) (level p)) as [E|]; [|reflexivity]. destruct (needs_parens p parent); [now rewrite andb_false_r|].
      destruct H as [H|H]; [|congruence]. replace (level p) with 0 by lia. reflexivity. }
    rewrite G. reflexivity.
  - destruct (unop_of_name (short_name c)) as [p|] eqn:Eu.
    + destruct args as [|a [|]]; try discriminate. reflexivity.
    + destruct (hidden v (short_name c)); [|reflexivity]. destruct args as [|a [|]]; try discriminate. inversion_clear IH as [|? ? Ha ?]. now apply Ha.
Qed.
Lemma continues_alone e parent d t rest min o x res :
  reads e -> show fl v e parent d = Some t -> ok e = true ->
  level o <= SL parent e -> SL parent e <> level o -> min <= level o ->
  quiet rest -> stops (S (level o)) rest -> hd rest <> Some x2e ->
  (open_less v parent e = true -> hd rest <> Some x2c /\ hd (blanks rest) <> Some x3e) ->
  1 <= level o ->
  Loops min (denoted v (Some (o, x)) parent e) rest res ->
  Loops min x (lit " " ++ format_binop o ++ lit " " ++ t ++ rest) res.
Proof.
  intros R S O L N Hm Q St D G L1 Lo. rewrite pending_alone in Lo by (auto; now right). pose proof (front_show e O parent d t S) as F.
  assert (Lv : level o <= 9) by (destruct o; cbn; lia).
  eapply extends_loops; [apply extends_binop; [assumption|apply front_blanks; now apply front_app|]|eassumption|rewrite !app_length; change (length (lit " ")) with 1; lia].
  unfold right_level. destruct (level o) as [|lo] eqn:El; [lia|].
  eapply R; try eassumption.
  - split; [assumption|]. split; [|split; [now left|assumption]]. eapply stops_up; [|eassumption]. unfold stop_at. destruct (SL parent e); lia.
  - lia.
  - left. lia.
  - now apply stops_loops.
Qed.
Lemma continues_other e : reads e -> (forall parent o, 1 <= level o -> SL parent e <> level o) -> continues e.
Proof. intros R N parent d t rest min o x res S O L1 L Hm Q St D G Lo. eapply continues_alone; try eassumption. now apply N. Qed.

(** Arguments. *)
Lemma reads_alone e d t rest : reads e -> show fl v e None d = Some t -> ok e = true ->
  quiet rest -> (forall k, stops k rest) -> hd rest <> Some x2e -> (open_less v None e = true -> hd rest <> Some x2c /\ hd (blanks rest) <> Some x3e) ->
  Parses 0 (t ++ rest) (PMatch (denoted v None None e) rest).
Proof.
  intros R S O Q St D G. eapply R; try eassumption; try lia.
  - split; [assumption|]. split; [apply St|]. split; [now left|assumption].
  - apply stops_loops. apply St.
Qed.
Lemma quiet_comma i : quiet (lit ", " ++ i). Proof. now apply quiet_mark. Qed.
Lemma stops_comma k i : stops k (lit ", " ++ i). Proof. now apply stops_close. Qed.
Lemma elements_read d args : forall a t rest, Forall reads (a :: args) -> forallb ok (a :: args) = true -> args_ok v (a :: args) = true ->
  quiet rest -> (forall k, stops k rest) -> hd rest <> Some x2e -> hd rest <> Some x2c -> hd (blanks rest) <> Some x3e ->
  commas (map (fun x => show fl v x None d) (a :: args)) = Some t ->
  forall n m, length (t ++ rest) < n -> length (t ++ rest) < m -> exists i, rexpr fl m 0 (t ++ rest) = PMatch (denoted v None None a) i /\
    rmany n (the _ <- rcomma; rexpr fl m 0) i = PMatch (map (denoted v None None) args) rest /\ length i < length (t ++ rest).
Proof.
  induction args as [|b args IH]; intros a t rest R O A Q St D C G H n m Hn Hm.
  - cbn [map commas] in H. cbn [forallb] in O. unand. inversion_clear R as [|? ? Ra _]. exists rest. split; [|split].
    + eapply reads_alone; try eassumption. now split.
    + destruct n as [|n]; [lia|]. cbn [rmany map]. rewrite seq_fail; [reflexivity|]. unfold rcomma. apply seq_fail. now apply lit_hd.
    + rewrite app_length. destruct (front_show a ltac:(assumption) None d t H) as (? & ? & -> & _). cbn [length]. lia.
  - cbn [map] in H. change (cat [show fl v a None d; Some (lit ", "); commas (map (fun x => show fl v x None d) (b :: args))] = Some t) in H.
    apply cat_cons in H as (ta & u & Ea & H & ->). apply cat_cons in H as (c & u' & [= <-] & H & ->). apply cat_cons in H as (tb & e0 & Eb & [= <-] & ->). rewrite app_nil_r in *.
    cbn [forallb] in O. apply andb_prop in O as [Oa O]. inversion_clear R as [|? ? Ra R']. unfold args_ok in A. cbn [removelast forallb] in A. apply andb_prop in A as [A1 A].
    rewrite <- !app_assoc in *. rewrite !app_length in Hn, Hm. change (length (lit ", ")) with 2 in *.
    destruct n as [|n]; [lia|].
    destruct (IH b tb rest R' O A Q St D C G Eb n m ltac:(rewrite app_length; lia) ltac:(rewrite app_length; lia)) as (i & E1 & E2 & E3).
    exists (lit ", " ++ tb ++ rest). split; [|split].
    + eapply reads_alone with (rest := lit ", " ++ tb ++ rest); try eassumption; try discriminate.
      * apply quiet_comma.
      * intros k. apply stops_comma.
      * apply negb_true_iff in A1. congruence.
      * rewrite !app_length. change (length (lit ", ")) with 2. lia.
    + cbn [rmany]. unfold rseq at 1. unfold rcomma at 1. unfold rseq at 1. change (lit ", " ++ tb ++ rest) with (lit "," ++ x20 :: tb ++ rest). rewrite lit_read. unfold rblank at 1. rewrite blanks_space.
      rewrite front_blanks; [|apply front_app; destruct args as [|b' args]; [eapply front_show; [|exact Eb]; cbn [forallb] in O; now unand|];
        cbn [forallb] in O; apply andb_prop in O as [Ob _]; change (cat [show fl v b None d; Some (lit ", "); commas (map (fun x => show fl v x None d) (b' :: args))] = Some tb) in Eb;
        apply cat_cons in Eb as (? & ? & Eb & _ & ->); apply front_app; eapply front_show; eassumption].
      rewrite E1, E2. reflexivity.
    + rewrite !app_length. destruct (front_show a Oa None d ta Ea) as (? & ? & -> & _). cbn [length]. lia.
Qed.
Lemma args_read d args t rest : Forall reads args -> forallb ok args = true -> args_ok v args = true ->
  commas (map (fun x => show fl v x None d) args) = Some t ->
  forall n m, length (lit "(" ++ t ++ lit ")" ++ rest) < n -> length (lit "(" ++ t ++ lit ")" ++ rest) < m ->
  rargs n (rexpr fl m) (lit "(" ++ t ++ lit ")" ++ rest) = PMatch (map (denoted v None None) args) rest.
Proof.
  intros R O A H n m Hn Hm. unfold rargs. unfold rseq at 1. rewrite lit_read. unfold rseq at 1, rblank at 1. rewrite app_length in Hn, Hm. change (length (lit "(")) with 1 in *.
  destruct args as [|a args].
  - cbn [map commas] in H. injection H as <-. cbn [app]. change (blanks (lit ")" ++ rest)) with (lit ")" ++ rest). unfold rseq at 1, rsep. assert (Pn : rexpr fl m 0 (lit ")" ++ rest) = PFail) by (apply (parse_none fl 0 x29 rest eq_refl); cbn in Hm; cbn [length]; lia). rewrite Pn.
    unfold rseq at 1, rblank. change (blanks (lit ")" ++ rest)) with (lit ")" ++ rest). unfold rseq. now rewrite lit_read.
  - assert (Fr : front t).
    { cbn [forallb] in O. apply andb_prop in O as [O _]. cbn [map] in H. destruct args as [|b args].
      - cbn [map commas] in H. eapply front_show; eassumption.
      - change (cat [show fl v a None d; Some (lit ", "); commas (map (fun x => show fl v x None d) (b :: args))] = Some t) in H. apply cat_cons in H as (? & ? & E & _ & ->).
        apply front_app. eapply front_show; eassumption. }
    rewrite front_blanks by now apply front_app.
    destruct (elements_read d args a t (lit ")" ++ rest) R O A) with (n := n) (m := m) as (i & E1 & E2 & _); try assumption; try discriminate; try lia.
    + now apply quiet_mark.
    + intros k. now apply stops_close.
    + unfold rseq at 1, rsep. rewrite E1, E2. unfold rseq at 1, rblank. change (blanks (lit ")" ++ rest)) with (lit ")" ++ rest). unfold rseq. now rewrite lit_read.
Qed.
(** The claims for a binary operation without parentheses. *)
Lemma less_case o l : ok l = true -> left_min o <= SL (Some (PBinOp o)) l -> open_less v (Some (PBinOp o)) l = true ->
  forall i, hd (blanks (lit " " ++ format_binop o ++ lit " " ++ i)) <> Some x3e.
Proof.
  intros O L H i. apply open_less_level in H; [|assumption]. destruct o; cbn [format_binop] in *; try discriminate; cbn [left_min] in L; lia.
Qed.
Lemma quiet_left o r tr rest d : ok r = true -> show fl v r (Some (PBinOp o)) d = Some tr -> right_min o <= SL (Some (PBinOp o)) r ->
  quiet rest -> ((match o with Less => shown_word v r | _ => false end) = true -> hd rest <> Some x2c /\ hd (blanks rest) <> Some x3e) ->
  quiet (lit " " ++ format_binop o ++ lit " " ++ tr ++ rest).
Proof.
  intros O S L (Q1 & Q2 & Q3 & Q4) G. apply quiet_binop; [apply front_app; eapply front_show; eassumption|]. intros ->. eapply no_types_show; try eassumption.
Qed.
Lemma level_le o : level o <= 9 /\ 1 <= left_min o /\ level o <= left_min o /\ level o <= right_min o.
Proof. destruct o; cbn; lia. Qed.

Lemma binary_reads o l r tl tr d d' rest min res :
  reads l -> reads r -> continues r -> ok l = true -> ok r = true ->
  left_min o <= SL (Some (PBinOp o)) l -> right_min o <= SL (Some (PBinOp o)) r ->
  show fl v l (Some (PBinOp o)) d = Some tl -> show fl v r (Some (PBinOp o)) d' = Some tr ->
  min <= level o -> quiet rest -> stops (stop_at (level o)) rest -> hd rest <> Some x2e ->
  ((match o with Less => shown_word v r | _ => false end) || open_less v (Some (PBinOp o)) r = true -> hd rest <> Some x2c /\ hd (blanks rest) <> Some x3e) ->
  Loops min (denoted v (Some (o, denoted v None (Some (PBinOp o)) l)) (Some (PBinOp o)) r) rest res ->
  Parses min (tl ++ lit " " ++ format_binop o ++ lit " " ++ tr ++ rest) res.
Proof.
  intros Rl Rr Cr Ol Or Ll Lr Sl Sr Hm Q St D G Lo. destruct (level_le o) as (V1 & V2 & V3 & V4).
  eapply Rl; try eassumption; try lia.
  - split; [|split; [|split]].
    + eapply quiet_left; try eassumption. intros E. apply G. now rewrite E.
    + apply stops_binop. unfold stop_at. destruct (SL (Some (PBinOp o)) l); lia.
    + left. discriminate.
    + intros E. split; [discriminate|]. exact (less_case o l Ol Ll E _).
  - destruct (Nat.eq_dec (level o) 0) as [E0|N0].
    + rewrite pending_alone in Lo by (auto; now left). replace min with 0 in * by lia. pose proof (front_show r Or _ _ _ Sr) as F.
      eapply extends_loops; [apply extends_binop; [lia|apply front_blanks; now apply front_app|]|eassumption|rewrite !app_length; change (length (lit " ")) with 1; lia].
      unfold right_level. rewrite E0. rewrite E0 in St. cbn [stop_at] in St. eapply Rr; try eassumption; try lia.
      * split; [assumption|]. split; [eapply stops_up; [|eassumption]; lia|]. split; [now left|]. intros E. apply G. rewrite E. apply orb_true_r.
      * now apply stops_loops.
    + eapply Cr; try eassumption; try lia.
      * unfold stop_at in St. now destruct (level o).
      * intros E. apply G. rewrite E. apply orb_true_r.
Qed.
Lemma binary_continues p x o l r tl tr d d' rest min res :
  continues l -> continues r -> ok l = true -> ok r = true ->
  left_min o <= SL (Some (PBinOp o)) l -> right_min o <= SL (Some (PBinOp o)) r ->
  show fl v l (Some (PBinOp o)) d = Some tl -> show fl v r (Some (PBinOp o)) d' = Some tr ->
  level p = level o -> 1 <= level o -> min <= level o -> quiet rest -> stops (S (level o)) rest -> hd rest <> Some x2e ->
  ((match o with Less => shown_word v r | _ => false end) || open_less v (Some (PBinOp o)) r = true -> hd rest <> Some x2c /\ hd (blanks rest) <> Some x3e) ->
  Loops min (denoted v (Some (o, denoted v (Some (p, x)) (Some (PBinOp o)) l)) (Some (PBinOp o)) r) rest res ->
  Loops min x (lit " " ++ format_binop p ++ lit " " ++ tl ++ lit " " ++ format_binop o ++ lit " " ++ tr ++ rest) res.
Proof.
  intros Cl Cr Ol Or Ll Lr Sl Sr Hp H1 Hm Q St D G Lo. destruct (level_le o) as (V1 & V2 & V3 & V4).
  eapply Cl; try eassumption; try lia.
  - eapply quiet_left; try eassumption. intros E. apply G. now rewrite E.
  - apply stops_binop. lia.
  - discriminate.
  - intros E. split; [discriminate|]. exact (less_case o l Ol Ll E _).
  - eapply Cr; try eassumption; try lia. intros E. apply G. rewrite E. apply orb_true_r.
Qed.

Lemma loops_start min i x rest res : Starts i x rest -> Loops min x rest res -> length rest < length i -> Parses min i res.
Proof. apply starts_parses. Qed.
Lemma open_level_11 e parent : ok e = true -> 8 <= SL parent e -> open_less v parent e = false.
Proof. intros O L. destruct (open_less v parent e) eqn:E; [|reflexivity]. apply open_less_level in E; [lia|assumption]. Qed.
Lemma follow_postfix e parent rest : ok e = true -> 11 <= SL parent e -> shown_number v e = false \/ hd rest <> Some x2e -> quiet rest ->
  follow (SL parent e) (shown_number v e) (open_less v parent e) rest.
Proof.
  intros O L D Q. assert (E : SL parent e = 11).
  { assert (SL parent e <= 11); [|lia]. clear. revert parent. induction e as [n sp|c sp|es t sp IH|p parts sp IH|l t i sp IH|t x' sp IH|l r sp IH1 IH2|c ts args sp IH|o' f args sp IH1 IH2|x' m sp IH|a i sp IH1 IH2|t args sp IH|x' sp IH|es IH|x' cases d sp IH1 IH2 IH3|t sp|c t f sp IH1 IH2 IH3|c a b sp IH1 IH2 IH3|c b sp IH1 IH2|l x' b sp IH1 IH2|l r o' sp IH1 IH2|x' o' sp IH|sp|sp|sp|sp] using expr_ind';
      intros parent; cbn [shown_level]; try lia. destruct (binop_of_name (short_name c)) as [o|]; [destruct (needs_parens o parent); [lia|]; destruct (level_le o); lia|].
    destruct (unop_of_name (short_name c)); [lia|]. destruct (hidden v (short_name c)); [|lia]. destruct args as [|a args]; [lia|]. inversion_clear IH as [|? ? H _]. apply H. }
  split; [assumption|]. split; [|split].
  - apply stops_all. rewrite E. cbn. lia.
  - destruct D as [D|D]; [right; now split|now left].
  - rewrite open_level_11 by (assumption || lia). discriminate.
Qed.
Ltac other R := split; [exact R|apply continues_other; [exact R|intros parent' o' Ho'; cbn [shown_level]; destruct (level_le o'); lia]].

Theorem shown_reads e : reads e /\ continues e.
Proof.
  induction e as [n sp|c sp|es t sp IH|p parts sp IH|l t i sp IH|t x sp IH|l r sp IH1 IH2|c ts args sp IH|o f args sp IH1 IH2|x m sp IH|a i sp IH1 IH2|t args sp IH|x sp IH|es IH|x cases d sp IH1 IH2 IH3|t sp|c t f sp IH1 IH2 IH3|c a b sp IH1 IH2 IH3|c b sp IH1 IH2|l x b sp IH1 IH2|l r o sp IH1 IH2|x o sp IH|sp|sp|sp|sp] using expr_ind';
    try (split; [intros parent d0 t0 rest min res _ O; discriminate O|intros parent d0 t0 rest min p0 x0 res _ O; discriminate O]).
  - assert (R : reads (EIdent (N := source_ast) n sp)); [|other R]. intros parent d0 t0 rest min res H O (Q & St & D & G) Hm _ Lo. cbn [show levels_ok denoted finish] in *. uncat. unand.
    destruct Q as (Q1 & Q2 & Q3 & Q4). eapply starts_parses; [now apply starts_ident|eassumption|]. rewrite app_length. destruct n; [discriminate|cbn [length]; lia].
  - assert (R : reads (EConstant (N := source_ast) c sp)); [|other R]. intros parent d0 t0 rest min res H O (Q & St & D & G) Hm _ Lo. cbn [show levels_ok denoted finish] in *. uncat. unand.
    destruct Q as (Q1 & Q2 & Q3 & Q4). pose proof (front_constant c O) as F. eapply starts_parses; [|eassumption|rewrite app_length; destruct F as (? & ? & -> & _); cbn [length]; lia].
    assert (NE : (exists s l, c = CString l s) \/ (exists b, c = CBool b) \/ match c with CI32 _ | CI64 _ | CU32 _ => True | _ => False end) by (destruct c; cbn [constant_ok] in O; eauto; discriminate).
    destruct NE as [(s & l & ->)|[[b ->]|N]].
    + now apply starts_string.
    + replace (show_constant fl (CBool b)) with (if b then lit "true" else lit "false") by now destruct b. now apply starts_bool.
    + apply starts_number; try assumption. cbn [shown_number] in D. destruct rest as [|b rest]; [exact I|]. cbn [hd] in D. split; [exact Q1|]. destruct D as [D|[_ D]]; [congruence|].
      now destruct c.
  - destruct IH as [IHr IHc]. assert (R : reads (ECast (N := source_ast) t x sp)); [|other R]. intros parent d0 t0 rest min res H O (Q & St & D & G) Hm _ Lo. cbn [show levels_ok denoted finish] in *. unand.
    assert (C : forall m rest' tx res', m <= 11 -> show fl v x None 0 = Some tx -> type_edge rest' -> Loops m (ECast (N := source_ast) t (denoted v None None x) span0) rest' res' -> Parses m (tx ++ lit " as " ++ pretty t ++ rest') res').
    { intros m rest' tx res' Hm' Sx E' L'. eapply IHr; try eassumption; try lia.
      - apply follow_postfix; try assumption; try lia; [right; discriminate|]. apply quiet_plain; try reflexivity; discriminate.
      - eapply extends_loops; [apply extends_cast; assumption|exact L'|rewrite !app_length; change (length (lit " as ")) with 4; lia]. }
    destruct parent as [parent|]; uncat.
    + eapply starts_parses; [|eassumption|rewrite app_length; change (length (lit "(")) with 1; rewrite !app_length; lia].
      apply starts_paren.
      * apply front_blanks. apply front_app. eapply front_show; eassumption.
      * apply C; [lia|assumption|split; [reflexivity|discriminate]|]. apply stops_loops. now apply stops_close.
    + apply C; try assumption. now apply quiet_type_edge.
  - destruct IH1 as [IHl _]. destruct IH2 as [IHr _]. assert (R : reads (EAssign (N := source_ast) l r sp)); [|other R]. intros parent d0 t0 rest min res H O (Q & St & D & G) Hm Hm' Lo. cbn [show levels_ok denoted finish shown_level shown_number open_less stop_at] in *. unand. uncat.
    replace min with 0 in * by lia. pose proof (front_show r ltac:(assumption) _ _ _ E1) as F. eapply IHl; try eassumption; try lia.
    + split; [|split; [|split]].
      * apply quiet_plain; try reflexivity; discriminate.
      * apply stops_equals. unfold stop_at. destruct (SL None l); lia.
      * left. discriminate.
      * intros _. split; discriminate.
    + eapply extends_loops; [apply extends_assign; [apply front_blanks; now apply front_app|]|eassumption|rewrite !app_length; change (length (lit " = ")) with 3; lia].
      eapply IHr; try eassumption; try lia.
      * split; [assumption|]. split; [eapply stops_up; [|eassumption]; lia|]. split; [|assumption]. left. destruct D as [D|[D _]]; [assumption|discriminate].
      * now apply stops_loops.
  - (* calls *)
    destruct (binop_of_name (short_name c)) as [o|] eqn:Eo.
    { destruct args as [|l [|r [|r' args]]]; try (split; [intros parent d0 t0 rest min res _ O|intros parent d0 t0 rest min p0 x0 res _ O]; cbn [levels_ok] in O; rewrite Eo in O; discriminate O).
      inversion_clear IH as [|? ? [Rl Cl] IH']. inversion_clear IH' as [|? ? [Rr Cr] _].
      assert (R : reads (ECall (N := source_ast) c ts [l; r] sp)).
      { intros parent d0 t0 rest min res H O (Q & St & D & G) Hm Hm' Lo. cbn [show levels_ok denoted finish shown_level shown_number open_less groups] in *. rewrite Eo in *. unfold right_least in *. unand.
        destruct (level_le o) as (V1 & V2 & V3 & V4). destruct (needs_parens o parent).
        - uncat. eapply starts_parses; [|eassumption|rewrite app_length; change (length (lit "(")) with 1; rewrite !app_length; lia].
          apply starts_paren.
          + apply front_blanks. apply front_app. eapply front_show; [|eassumption]. assumption.
          + eapply (binary_reads o l r); try eassumption; try lia; try discriminate.
            * now apply quiet_mark.
            * now apply stops_close.
            * now split.
            * apply stops_loops. now apply stops_close.
        - uncat. eapply (binary_reads o l r); try eassumption; try lia. destruct D as [D|[D _]]; [assumption|lia]. }
      split; [exact R|]. intros parent d0 t0 rest min p x0 res H O L1 L2 Hm Q St D G Lo.
      destruct (Nat.eq_dec (SL parent (ECall (N := source_ast) c ts [l; r] sp)) (level p)) as [Es|Ns]; [|eapply continues_alone; eassumption].
      cbn [show levels_ok denoted finish shown_level shown_number open_less] in *. rewrite Eo in *. unfold right_least in *. unand.
      destruct (level_le o) as (V1 & V2 & V3 & V4). destruct (level_le p) as (W1 & _). destruct (needs_parens o parent) eqn:Np; [lia|]. unfold groups in Lo. rewrite Np, <- Es in Lo.
      rewrite Nat.eqb_refl in Lo. replace (1 <=? level o) with true in Lo by (symmetry; apply Nat.leb_le; lia). cbn [andb negb] in Lo. rewrite <- Es in *.
      uncat. eapply (binary_continues p x0 o l r); try eassumption; try lia. }
    destruct (unop_of_name (short_name c)) as [o|] eqn:Eu.
    { assert (R : reads (ECall (N := source_ast) c ts args sp)).
      { intros parent d0 t0 rest min res H O (Q & St & D & G) Hm Hm' Lo. cbn [show levels_ok denoted finish shown_level shown_number open_less] in *. rewrite Eo, Eu in *.
        destruct args as [|a [|]]; try discriminate. inversion_clear IH as [|? ? [Ra _] _]. unand. uncat. pose proof (front_show a ltac:(assumption) _ _ _ E0) as F.
        eapply starts_parses; [|eassumption|rewrite !app_length; destruct o; cbn [length format_unop]; change (length (lit _)) with 1; lia].
        apply starts_unary; [apply front_blanks; now apply front_app|].
        eapply Ra; try eassumption; try lia.
        - split; [assumption|]. split; [eapply stops_up; [|eassumption]; unfold stop_at; destruct (SL (Some PUnOp) a); lia|]. split; [|assumption]. left. destruct D as [D|[D _]]; [assumption|lia].
        - apply stops_loops. exact St. }
      split; [exact R|]. apply continues_other; [exact R|]. intros parent' o' Ho'. cbn [shown_level]. rewrite Eo, Eu. destruct (level_le o'). lia. }
    destruct (hidden v (short_name c)) eqn:Eh.
    { destruct args as [|a [|a' args]]; try (split; [intros parent d0 t0 rest min res _ O|intros parent d0 t0 rest min p0 x0 res _ O]; cbn [levels_ok] in O; rewrite Eo, Eu, Eh in O; discriminate O).
      inversion_clear IH as [|? ? [Ra Ca] _]. split.
      - intros parent d0 t0 rest min res H O F Hm Hm' Lo. cbn [show levels_ok denoted finish shown_level shown_number open_less] in *. rewrite Eo, Eu, Eh in *. eapply Ra; eassumption.
      - intros parent d0 t0 rest min p x0 res H O L1 L2 Hm Q St D G Lo. cbn [show levels_ok denoted finish shown_level shown_number open_less] in *. rewrite Eo, Eu, Eh in *. eapply Ca; eassumption. }
    assert (R : reads (ECall (N := source_ast) c ts args sp)).
    { intros parent d0 t0 rest min res H O (Q & St & D & G) Hm Hm' Lo. cbn [show levels_ok denoted finish shown_level shown_number open_less] in *. rewrite Eo, Eu, Eh in *. unand. uncat.
      assert (IH' : Forall reads args) by (eapply Forall_impl; [|exact IH]; now intros ? []).
      match goal with E : match ts with _ => _ end = Some ?w |- _ => replace w with (match ts with [] => [] | _ => lit "<" ++ join (lit ", ") (map pretty ts) ++ lit ">" end) by (destruct ts; now apply some_eq in E) end.
      eapply starts_parses; [apply starts_call; [assumption|assumption|assumption|]|eassumption|rewrite !app_length; change (length (lit "(")) with 1; lia].
      intros n m. apply args_read with (d := 0); assumption. }
    split; [exact R|]. apply continues_other; [exact R|]. intros parent' o' Ho'. cbn [shown_level]. rewrite Eo, Eu, Eh. destruct (level_le o'). lia.
  - destruct IH1 as [IH1 _]. assert (R : reads (EMethodCall (N := source_ast) o f args sp)); [|other R]. intros parent d0 t0 rest min res H O (Q & St & D & G) Hm Hm' Lo. cbn [show levels_ok denoted finish shown_level shown_number open_less] in *. unand.
    destruct (binop_of_name (short_name f)) eqn:Eo; [discriminate|]. destruct (unop_of_name (short_name f)) eqn:Eu; [discriminate|]. destruct (hidden v (short_name f)) eqn:Eh; [discriminate|]. uncat. cbn [app].
    assert (IH' : Forall reads args) by (eapply Forall_impl; [|exact IH2]; now intros ? []).
    eapply IH1; try eassumption; try lia.
    + apply follow_postfix; try assumption; try lia; [now left|]. now apply quiet_mark.
    + eapply extends_loops; [apply extends_method; [assumption|assumption|]|eassumption|rewrite !app_length; change (length (lit "(")) with 1; lia].
      intros n m. apply args_read with (d := 0); assumption.
  - destruct IH as [IH _]. assert (R : reads (EMember (N := source_ast) x m sp)); [|other R]. intros parent d0 t0 rest min res H O (Q & St & D & G) Hm Hm' Lo. cbn [show levels_ok denoted finish shown_level shown_number open_less] in *. unand. uncat.
    eapply IH; try eassumption; try lia.
    + apply follow_postfix; try assumption; try lia; [now left|]. now apply quiet_mark.
    + eapply extends_loops; [apply extends_member; [assumption|assumption|now destruct Q|now apply quiet_no_paren]|eassumption|rewrite !app_length; change (length (lit ".")) with 1; lia].
  - destruct IH1 as [IHa _]. destruct IH2 as [IHi _]. assert (R : reads (EArrayElem (N := source_ast) a i sp)); [|other R]. intros parent d0 t0 rest min res H O (Q & St & D & G) Hm Hm' Lo. cbn [show levels_ok denoted finish shown_level shown_number open_less] in *. unand. uncat.
    eapply IHa; try eassumption; try lia.
    + apply follow_postfix; try assumption; try lia; [right; discriminate|]. now apply quiet_mark.
    + eapply extends_loops; [apply extends_index; [assumption| |]|eassumption|rewrite !app_length; change (length (lit "[")) with 1; lia].
      * apply front_blanks. apply front_app. eapply front_show; [|eassumption]; assumption.
      * eapply reads_alone; try eassumption; try discriminate; [now apply quiet_mark|intros k; now apply stops_close|now split].
  - assert (R : reads (ENew (N := source_ast) t args sp)); [|other R]. intros parent d0 t0 rest min res H O (Q & St & D & G) Hm Hm' Lo. cbn [show levels_ok denoted finish shown_level shown_number open_less] in *.
    destruct t as [n [|]]; [discriminate|]. unand. uncat. cbn [mangled] in *.
    assert (IH' : Forall reads args) by (eapply Forall_impl; [|exact IH]; now intros ? []).
    eapply starts_parses; [apply starts_new; [assumption|]|eassumption|rewrite !app_length; change (length (lit "(")) with 1; lia].
    intros n' m. apply args_read with (d := d0); assumption.
  - destruct IH1 as [IHc _]. destruct IH2 as [IHa _]. destruct IH3 as [IHb _]. assert (R : reads (EConditional (N := source_ast) c a b sp)); [|other R]. intros parent d0 t0 rest min res H O (Q & St & D & G) Hm Hm' Lo. cbn [show levels_ok denoted finish shown_level shown_number open_less stop_at] in *. unand. uncat.
    replace min with 0 in * by lia.
    pose proof (front_show a ltac:(assumption) _ _ _ E1) as Fa. pose proof (front_show b ltac:(assumption) _ _ _ E3) as Fb. eapply IHc; try eassumption; try lia.
    + split; [|split; [|split]].
      * apply quiet_plain; try reflexivity; discriminate.
      * apply stops_question. unfold stop_at. destruct (SL None c); lia.
      * left. discriminate.
      * intros _. split; discriminate.
    + eapply extends_loops; [eapply extends_conditional; [apply front_blanks; now apply front_app| |apply front_blanks; apply (front_app _ rest Fb)| |]|eassumption|rewrite !app_length; change (length (lit " ? ")) with 3; lia].
      * eapply reads_alone; try eassumption; try discriminate; [apply quiet_plain; try reflexivity; discriminate|intros k; apply stops_colon|now split].
      * eapply IHb; try eassumption; try lia.
        -- split; [assumption|]. split; [eapply stops_up; [|eassumption]; lia|]. split; [|assumption]. left. destruct D as [D|[D _]]; [assumption|discriminate].
        -- now apply stops_loops.
      * rewrite !app_length. change (length (lit " : ")) with 3. lia.
  - assert (R : reads (EThis (N := source_ast) sp)); [|other R]. intros parent d0 t0 rest min res H O (Q & St & D & G) Hm _ Lo. cbn [show levels_ok denoted finish] in *. uncat.
    destruct Q as (Q1 & Q2 & Q3 & Q4). eapply starts_parses; [apply starts_keyword; [assumption|right; left; now split]|eassumption|]. rewrite app_length. cbn. lia.
  - assert (R : reads (ESuper (N := source_ast) sp)); [|other R]. intros parent d0 t0 rest min res H O (Q & St & D & G) Hm _ Lo. cbn [show levels_ok denoted finish] in *. uncat.
    destruct Q as (Q1 & Q2 & Q3 & Q4). eapply starts_parses; [apply starts_keyword; [assumption|right; right; now split]|eassumption|]. rewrite app_length. cbn. lia.
  - assert (R : reads (ENull (N := source_ast) sp)); [|other R]. intros parent d0 t0 rest min res H O (Q & St & D & G) Hm _ Lo. cbn [show levels_ok denoted finish] in *. uncat.
    destruct Q as (Q1 & Q2 & Q3 & Q4). eapply starts_parses; [apply starts_keyword; [assumption|left; now split]|eassumption|]. rewrite app_length. cbn. lia.
Qed.
End Facts.
