(** Property C60. *)
From Coq Require Import String.
From Coq Require Import ZArith List Bool Lia Arith.
From Verif Require Import Bytes Bytecode Definitions Bundle Ast Pool Scope Args.
Import ListNotations.
Open Scope nat_scope.

(** ** Specification *)

(** An argument as it is meant: a word, or a path that is put into quotes. *)
Inductive argument := Word (w : str) | Path (p : str).
Definition meant (a : argument) : str := match a with Word w => w | Path p => p end.
Definition typed (a : argument) : str := match a with Word w => w | Path p => quote :: p ++ [quote] end.
(** The command line, with one space between arguments. *)
Definition spaced (l : list str) : str := concat (map (cons space) l).
Definition joined (l : list str) : str := match l with [] => [] | x :: l' => x ++ spaced l' end.
Definition command_line (l : list argument) : str := joined (map typed l).

(** A word has no blanks and quotes. *)
Definition word (w : str) : Prop := w <> [] /\ ~ In quote w /\ ~ In space w /\ ~ In tab w.
(** The number of backslashes at the end. *)
Fixpoint trail (n : nat) (s : str) : nat :=
  match s with
  | [] => n
  | b :: s' => trail (if Byte.eqb b backslash then S n else 0) s'
  end.
Definition slashes (s : str) : nat := trail 0 s.
(** A path with single spaces between words, that ends with [n] backslashes. *)
Definition tidy (n : nat) (p : str) : Prop := slashes p = n /\ exists ws, ws <> [] /\ Forall word ws /\ p = joined ws.

(** Windows takes the quote that follows a backslash for a part of the argument, so
    that from there on it takes what is inside of quotes for what is outside, until
    the next path that ends with a backslash.  [Opened]: that is so since an
    argument that is not over yet; [Swapped]: since an earlier one. *)
Inductive mode := Straight | Opened | Swapped.
Inductive recoverable : mode -> list argument -> Prop :=
| r_nil m : recoverable m []
| r_word m w l : word w -> recoverable m l -> recoverable m (Word w :: l)
| r_path p l : p <> [] -> ~ In quote p -> slashes p = 0 -> recoverable Straight l -> recoverable Straight (Path p :: l)
| r_directory p l : ~ In quote p -> slashes p = 1 -> recoverable Opened l -> recoverable Straight (Path p :: l)
| r_simple m w l : m <> Straight -> tidy 0 w -> word w -> recoverable m l -> recoverable m (Path w :: l)
| r_spaced m p l : m <> Straight -> tidy 0 p -> In space p -> recoverable Swapped l -> recoverable m (Path p :: l)
| r_closed m p l : m <> Straight -> tidy 1 p -> In space p \/ m = Swapped -> recoverable Straight l -> recoverable m (Path p :: l).

(** ** Splitting the line *)
Lemma eqb_no (b c : byte) : b <> c -> Byte.eqb b c = false.
Proof. intros N. destruct (Byte.eqb b c) eqn:E; [|reflexivity]. now apply Byte.byte_dec_bl in E. Qed.
Lemma eqb_yes (b : byte) : Byte.eqb b b = true.
Proof. now destruct b. Qed.
Lemma split_plain t : forall q st cur n s, ~ In quote t -> (q = true \/ ~ In space t /\ ~ In tab t) ->
  split_line q st cur n (t ++ s) = split_line q (match t with [] => st | _ => true end) (cur ++ t) (trail n t) s.
Proof.
  induction t as [|b t IH]; intros q st cur n s Q B; [now rewrite app_nil_r|].
  cbn [app split_line trail]. rewrite (eqb_no b quote) by (intros ->; apply Q; now left).
  assert (Q' : ~ In quote t) by (intros X; apply Q; now right).
  assert (B' : q = true \/ ~ In space t /\ ~ In tab t).
  { destruct B as [B|[B C]]; [now left|right]. split; intros X; [apply B|apply C]; now right. }
  assert (E : ((Byte.eqb b space || Byte.eqb b tab) && negb q)%bool = false).
  { destruct B as [->|[B C]]; [now rewrite andb_false_r|]. rewrite (eqb_no b space), (eqb_no b tab); [reflexivity| |]; intros ->; [apply C|apply B]; now left. }
  rewrite E. replace (cur ++ b :: t) with ((cur ++ [b]) ++ t) by now rewrite <- app_assoc.
  destruct (Byte.eqb b backslash); rewrite IH by assumption; now destruct t.
Qed.
Lemma word_plain w q st cur n s : word w -> split_line q st cur n (w ++ s) = split_line q true (cur ++ w) (trail n w) s.
Proof. intros (N & Q & S & T). rewrite split_plain by auto. destruct w; [easy|reflexivity]. Qed.
Lemma rest_end q st cur n l : split_line q st cur n (spaced (map typed l)) = split_line q st cur 0 (spaced (map typed l)).
Proof. destruct l; reflexivity. Qed.
Lemma line_end cur n l : split_line false true cur n (spaced (map typed l)) = cur :: split_line false false [] 0 (command_line l).
Proof. destruct l; reflexivity. Qed.
Lemma trail_app t : forall n s, trail n (t ++ s) = trail (trail n t) s.
Proof. induction t as [|b t IH]; intros n s; [reflexivity|]. apply IH. Qed.
Lemma trail_one p : slashes p = 1 -> exists x, p = x ++ [backslash].
Proof.
  destruct p as [|b p _] using rev_ind; [discriminate|]. unfold slashes. rewrite trail_app. cbn [trail].
  destruct (Byte.eqb b backslash) eqn:E; [|discriminate]. apply Byte.byte_dec_bl in E. subst. eauto.
Qed.
Lemma first_half (x : str) b : firstn (length (x ++ [b]) - (1 - 1 / 2)) (x ++ [b]) = x.
Proof.
  replace (length (x ++ [b]) - (1 - 1 / 2)) with (length x) by (rewrite app_length; cbn; lia).
  rewrite firstn_app, Nat.sub_diag, firstn_all. cbn. now rewrite app_nil_r.
Qed.
(** A quote after an even or odd number of backslashes. *)
Lemma quote_plain_in cur l : split_line true true cur 0 (quote :: spaced (map typed l)) = cur :: split_line false false [] 0 (command_line l).
Proof.
  change (split_line true true cur 0 (quote :: spaced (map typed l))) with
    (match spaced (map typed l) with
     | c :: s'' => if Byte.eqb c quote then split_line true true (firstn (length cur - 0) cur ++ [c]) 0 s'' else split_line false true (firstn (length cur - 0) cur) 0 (spaced (map typed l))
     | [] => split_line false true (firstn (length cur - 0) cur) 0 (spaced (map typed l))
     end).
  rewrite Nat.sub_0_r, firstn_all. destruct l; reflexivity.
Qed.
Lemma quote_plain_out cur s : split_line false true cur 0 (quote :: s) = split_line true true cur 0 s.
Proof. change (split_line false true cur 0 (quote :: s)) with (split_line true true (firstn (length cur - 0) cur) 0 s). now rewrite Nat.sub_0_r, firstn_all. Qed.
Lemma quote_slash q x s : split_line q true (x ++ [backslash]) 1 (quote :: s) = split_line q true (x ++ [quote]) 0 s.
Proof.
  change (split_line q true (x ++ [backslash]) 1 (quote :: s)) with (split_line q true (firstn (length (x ++ [backslash]) - (1 - 1 / 2)) (x ++ [backslash]) ++ [quote]) 0 s).
  now rewrite first_half.
Qed.
(** A quote that is closed before a word. *)
Lemma quote_before cur w s : word w -> split_line true true cur 0 (space :: quote :: w ++ s) = split_line false true (cur ++ [space]) 0 (w ++ s).
Proof.
  intros (N & Q & _). destruct w as [|b w]; [easy|]. cbn [app].
  change (split_line true true cur 0 (space :: quote :: b :: w ++ s)) with
    (if Byte.eqb b quote then split_line true true (firstn (length (cur ++ [space]) - 0) (cur ++ [space]) ++ [b]) 0 (w ++ s)
     else split_line false true (firstn (length (cur ++ [space]) - 0) (cur ++ [space])) 0 (b :: w ++ s)).
  rewrite (eqb_no b quote) by (intros ->; apply Q; now left). now rewrite Nat.sub_0_r, firstn_all.
Qed.
(** Words with blanks outside of quotes. *)
Lemma words_out mid : forall st cur w last s, word w -> Forall word mid -> word last ->
  split_line false st cur 0 (w ++ spaced (mid ++ [last]) ++ s) = (cur ++ w) :: mid ++ split_line false true last (slashes last) s.
Proof.
  induction mid as [|x mid IH]; intros st cur w last s W M L.
  - rewrite word_plain by exact W. cbn [app spaced map concat]. rewrite app_nil_r. cbn [app].
    change (split_line false true (cur ++ w) (trail 0 w) (space :: last ++ s)) with ((cur ++ w) :: split_line false false [] 0 (last ++ s)).
    rewrite word_plain by exact L. reflexivity.
  - inversion M; subst. rewrite word_plain by exact W.
    change (split_line false true (cur ++ w) (trail 0 w) (spaced ((x :: mid) ++ [last]) ++ s)) with
      ((cur ++ w) :: split_line false false [] 0 ((x ++ spaced (mid ++ [last])) ++ s)).
    rewrite <- app_assoc. rewrite IH by assumption. reflexivity.
Qed.

(** ** Mending the arguments *)
Lemma contains_no c s : ~ In c s -> contains c s = false.
Proof.
  intros N. apply not_true_is_false. intros E. apply existsb_exists in E as (b & B & E). apply Byte.byte_dec_bl in E. now subst.
Qed.
Lemma contains_in c s : In c s -> contains c s = true.
Proof. intros I. apply existsb_exists. exists c. split; [exact I|apply eqb_yes]. Qed.
Lemma escape_none s : ~ In quote s -> escape_quotes s = s.
Proof.
  unfold escape_quotes. induction s as [|b s IH]; intros N; [reflexivity|]. cbn [flat_map]. rewrite (eqb_no b quote) by (intros ->; apply N; now left).
  cbn [app]. rewrite IH; [reflexivity|]. intros X. apply N. now right.
Qed.
Lemma slashes_none s : ~ In quote s -> quotes_to_slashes s = s.
Proof.
  unfold quotes_to_slashes. induction s as [|b s IH]; intros N; [reflexivity|]. cbn [map]. rewrite (eqb_no b quote) by (intros ->; apply N; now left).
  rewrite IH; [reflexivity|]. intros X. apply N. now right.
Qed.
Lemma unspace_none s t : ~ In quote s -> unspace (s ++ t) = s ++ unspace t.
Proof.
  induction s as [|b s IH]; intros N; [reflexivity|]. cbn [app unspace]. rewrite (eqb_no b quote) by (intros ->; apply N; now left).
  rewrite IH; [reflexivity|]. intros X. apply N. now right.
Qed.
Lemma split_at_none c s : ~ In c s -> split_at c s = [s].
Proof.
  induction s as [|b s IH]; intros N; [reflexivity|]. cbn [split_at]. rewrite (eqb_no b c) by (intros ->; apply N; now left).
  rewrite IH; [reflexivity|]. intros X. apply N. now right.
Qed.
Lemma split_at_app c s t : ~ In c s -> split_at c (s ++ c :: t) = s :: split_at c t.
Proof.
  induction s as [|b s IH]; intros N; [cbn [app split_at]; now rewrite eqb_yes|]. cbn [app split_at].
  rewrite (eqb_no b c) by (intros ->; apply N; now left). rewrite IH; [reflexivity|]. intros X. apply N. now right.
Qed.
Lemma split_joined w ws : ~ In space w -> Forall (fun w => ~ In space w) ws -> split_at space (w ++ spaced ws) = w :: ws.
Proof.
  revert w. induction ws as [|x ws IH]; intros w W F.
  - cbn. rewrite app_nil_r. now apply split_at_none.
  - inversion F; subst. change (spaced (x :: ws)) with (space :: x ++ spaced ws). rewrite split_at_app by exact W. now rewrite IH.
Qed.
Lemma spaced_app a b : spaced (a ++ b) = spaced a ++ spaced b.
Proof. unfold spaced. now rewrite map_app, concat_app. Qed.
Lemma words_no_quote ws : Forall word ws -> ~ In quote (spaced ws).
Proof.
  induction 1 as [|w ws (_ & Q & _) W IH]; [easy|]. change (spaced (w :: ws)) with (space :: w ++ spaced ws).
  intros [X|X]; [discriminate X|]. apply in_app_iff in X as [X|X]; auto.
Qed.
Lemma words_no_space ws : Forall word ws -> Forall (fun w => ~ In space w) ws.
Proof. intros F. eapply Forall_impl; [|exact F]. intros w (_ & _ & S & _). exact S. Qed.
Lemma extend_spec l x s : extend_last (l ++ [x]) s = Done (l ++ [x ++ space :: s]).
Proof. unfold extend_last. rewrite rev_app_distr. cbn [rev app]. now rewrite rev_involutive. Qed.

Lemma fix_straight out a : ~ In quote a -> fix_step (out, false) a = Done (out ++ [a], false).
Proof. intros N. unfold fix_step. rewrite (contains_no _ _ N). reflexivity. Qed.
Lemma fix_opened out x ws : ~ In quote x -> Forall word ws ->
  fix_step (out, false) (x ++ quote :: spaced ws) = Done (out ++ (x ++ [backslash]) :: ws, true).
Proof.
  intros N F. unfold fix_step. rewrite contains_in by (apply in_app_iff; right; now left). cbn [negb andb].
  assert (E : unspace (escape_quotes (x ++ quote :: spaced ws)) = (x ++ [backslash]) ++ quote :: joined ws).
  { unfold escape_quotes. rewrite flat_map_app. fold (escape_quotes x). rewrite (escape_none _ N). cbn [flat_map]. rewrite eqb_yes.
    fold (escape_quotes (spaced ws)). rewrite (escape_none _ (words_no_quote _ F)). cbn [app].
    change (x ++ backslash :: quote :: spaced ws) with (x ++ [backslash] ++ quote :: spaced ws). rewrite app_assoc, unspace_none.
    - f_equal. destruct ws as [|w ws]; [reflexivity|]. inversion F as [|? ? (_ & Q & _) F']; subst.
      change (unspace (quote :: spaced (w :: ws))) with (quote :: unspace (w ++ spaced ws)). f_equal.
      rewrite <- (app_nil_r (w ++ spaced ws)) at 1. rewrite unspace_none; [cbn [unspace]; apply app_nil_r|].
      intros X. apply in_app_iff in X as [X|X]; [now apply Q|]. now apply words_no_quote in X.
    - intros X. apply in_app_iff in X as [X|[X|[]]]; [now apply N|discriminate X]. }
  rewrite E, split_at_app.
  2: { intros X. apply in_app_iff in X as [X|[X|[]]]; [now apply N|discriminate X]. }
  destruct ws as [|w ws]; [reflexivity|]. rewrite split_at_none.
  2: { inversion F as [|? ? (_ & Q & _) F']; subst. intros X. apply in_app_iff in X as [X|X]; [now apply Q|]. now apply words_no_quote in X. }
  cbn [obind flat_map joined]. inversion F as [|? ? (W & Q & S & _) F']; subst.
  rewrite split_joined by auto using words_no_space. destruct w as [|b w]; [easy|]. cbn [app]. rewrite app_nil_r. reflexivity.
Qed.
Lemma fix_swapped o last w ws : word w -> Forall word ws ->
  fix_step (o ++ [last], true) (w ++ spaced ws) = Done (o ++ (last ++ space :: w) :: ws, true).
Proof.
  intros (W & Q & S & T) F. unfold fix_step.
  rewrite contains_no by (intros X; apply in_app_iff in X as [X|X]; [now apply Q|]; now apply words_no_quote in X). cbn [negb andb].
  destruct ws as [|x ws].
  - cbn [spaced map concat]. rewrite app_nil_r, (contains_no _ _ S), extend_spec. reflexivity.
  - rewrite contains_in by (apply in_app_iff; right; now left). rewrite split_joined by auto using words_no_space. rewrite extend_spec. cbn [obind].
    now rewrite <- app_assoc.
Qed.
Lemma fix_closed o last l x : Forall word (l ++ [x ++ [backslash]]) ->
  fix_step (o ++ [last], true) (joined (l ++ [x ++ [quote]])) =
  Done (o ++ match l with [] => [last ++ space :: x ++ [backslash]] | w :: l' => (last ++ space :: w) :: l' ++ [x ++ [backslash]] end, false).
Proof.
  intros F. apply Forall_app in F as [F X]. inversion X as [|? ? (_ & XQ & XS & _) _]; subst.
  assert (XN : ~ In quote x) by (intros K; apply XQ; apply in_app_iff; now left).
  assert (E : quotes_to_slashes (joined (l ++ [x ++ [quote]])) = joined (l ++ [x ++ [backslash]])).
  { assert (Y : forall s, quotes_to_slashes (s ++ x ++ [quote]) = quotes_to_slashes s ++ x ++ [backslash]).
    { intros s. unfold quotes_to_slashes. rewrite !map_app. cbn [map]. rewrite eqb_yes. fold (quotes_to_slashes x). now rewrite (slashes_none _ XN). }
    destruct l as [|w l]; [cbn [app joined spaced map concat]; rewrite !app_nil_r; apply (Y [])|].
    cbn [app joined]. rewrite !spaced_app. cbn [spaced map concat]. rewrite !app_nil_r.
    replace (w ++ spaced l ++ space :: x ++ [quote]) with (((w ++ spaced l) ++ [space]) ++ x ++ [quote]) by now rewrite <- !app_assoc.
    replace (w ++ spaced l ++ space :: x ++ [backslash]) with (((w ++ spaced l) ++ [space]) ++ x ++ [backslash]) by now rewrite <- !app_assoc.
    rewrite Y. f_equal. apply slashes_none.
    inversion F as [|? ? (_ & Q & _) F']; subst. intros K. apply in_app_iff in K as [K|[K|[]]]; [|discriminate K].
    apply in_app_iff in K as [K|K]; [now apply Q|]. now apply words_no_quote in K. }
  unfold fix_step. rewrite contains_in.
  2: { destruct l as [|w l]; cbn [app joined]; [|rewrite spaced_app]; cbn [spaced map concat]; rewrite !in_app_iff; cbn [In]; rewrite ?in_app_iff; cbn [In]; tauto. }
  cbn [negb andb]. rewrite E.
  assert (XS' : ~ In space (x ++ [backslash])) by exact XS.
  destruct l as [|w l].
  - cbn [app joined spaced map concat]. rewrite app_nil_r. rewrite (contains_no _ _ XS'), extend_spec. reflexivity.
  - cbn [app joined]. rewrite contains_in by (apply in_app_iff; right; rewrite spaced_app; apply in_app_iff; right; now left).
    inversion F as [|? ? (_ & _ & S & _) F']; subst. rewrite split_joined; [|exact S|].
    + rewrite extend_spec. cbn [obind]. now rewrite <- app_assoc.
    + apply Forall_app. split; [now apply words_no_space|]. repeat constructor. exact XS'.
Qed.

(** An argument that is not over yet: what it makes of the arguments so far. *)
Inductive pending : mode -> list str * bool -> str -> list str -> Prop :=
| p_opened out x ws : ~ In quote x -> Forall word ws ->
    pending Opened (out, false) (x ++ quote :: spaced ws) (out ++ (x ++ [backslash]) :: ws)
| p_swapped o last w ws : word w -> Forall word ws ->
    pending Swapped (o ++ [last], true) (joined (w :: ws)) (o ++ (last ++ space :: w) :: ws).
Lemma pending_step m st cur res : pending m st cur res -> fix_step st cur = Done (res, true).
Proof. destruct 1; [now apply fix_opened|now apply fix_swapped]. Qed.
Lemma pending_word m st cur res w : pending m st cur res -> word w -> pending m st (cur ++ space :: w) (res ++ [w]).
Proof.
  intros P W. assert (E : space :: w = spaced [w]) by (cbn; now rewrite app_nil_r). rewrite E. destruct P as [out x ws N F|o last v ws V F].
  - rewrite <- !app_assoc. cbn [app]. rewrite <- spaced_app. constructor; [exact N|]. apply Forall_app. auto.
  - cbn [joined]. rewrite <- !app_assoc. cbn [app]. rewrite <- spaced_app. change (v ++ spaced (ws ++ [w])) with (joined (v :: ws ++ [w])).
    constructor; [exact V|]. apply Forall_app. auto.
Qed.
Lemma pending_closed st cur res x : pending Swapped st cur res -> word (x ++ [backslash]) ->
  fix_step st (cur ++ space :: x ++ [quote]) = Done (res ++ [x ++ [backslash]], false).
Proof.
  intros P W. remember Swapped as m. destruct P as [|o last v ws V F]; [discriminate|].
  replace (joined (v :: ws) ++ space :: x ++ [quote]) with (joined ((v :: ws) ++ [x ++ [quote]])).
  - rewrite fix_closed by (apply Forall_app; auto). cbn. now rewrite <- app_assoc.
  - cbn [joined app]. rewrite spaced_app, <- app_assoc. cbn. now rewrite app_nil_r.
Qed.
Lemma fix_words mid : forall o j, Forall word mid -> fix_all (o ++ [j], true) mid = Done (o ++ [j ++ spaced mid], true).
Proof.
  induction mid as [|w mid IH]; intros o j F; [cbn; now rewrite app_nil_r|]. inversion F; subst. cbn [fix_all].
  rewrite <- (app_nil_r w) at 1. change (w ++ []) with (w ++ spaced []). rewrite fix_swapped by auto. cbn [obind]. rewrite IH by assumption.
  now rewrite <- app_assoc.
Qed.
Lemma fix_all_app a b st : fix_all st (a ++ b) = obind (fix_all st a) (fun st => fix_all st b).
Proof. revert st. induction a as [|x a IH]; intros st; [reflexivity|]. cbn [app fix_all]. destruct (fix_step st x); cbn [obind]; auto. Qed.

Lemma joined_slashes ws x : slashes (joined (ws ++ [x])) = match ws with [] => slashes x | _ => slashes x end.
Proof.
  destruct ws as [|w ws]; [cbn; now rewrite app_nil_r|]. cbn [app joined]. rewrite spaced_app. unfold slashes.
  rewrite !trail_app. cbn [spaced map concat]. rewrite app_nil_r. reflexivity.
Qed.
Lemma word_slash x n : word (x ++ [backslash]) -> slashes (x ++ [backslash]) = 1 -> trail n x = 0 \/ x = [].
Proof.
  intros _ S. destruct x as [|b x _] using rev_ind; [now right|left]. unfold slashes in S. rewrite <- app_assoc, trail_app in S. cbn [app trail] in S.
  rewrite trail_app. cbn [trail]. destruct (Byte.eqb b backslash) eqn:E; [|reflexivity]. cbn in S. discriminate.
Qed.

Definition runs_to (st : list str * bool) (args : list str) (res : list str) : Prop := exists b, fix_all st args = Done (res, b).
Lemma recovered m l : recoverable m l ->
  match m with
  | Straight => forall out, runs_to (out, false) (split_line false false [] 0 (command_line l)) (out ++ map meant l)
  | _ => forall st cur res, pending m st cur res -> runs_to st (split_line true true cur 0 (spaced (map typed l))) (res ++ map meant l)
  end.
Proof.
  assert (SW : forall m l, m <> Straight ->
    (forall st cur res, pending m st cur res -> runs_to st (split_line true true cur 0 (spaced (map typed l))) (res ++ map meant l)) ->
    match m with
    | Straight => forall out, runs_to (out, false) (split_line false false [] 0 (command_line l)) (out ++ map meant l)
    | _ => forall st cur res, pending m st cur res -> runs_to st (split_line true true cur 0 (spaced (map typed l))) (res ++ map meant l)
    end) by (intros [] l' N H; [easy|exact H|exact H]).
  induction 1 as [m|m w l W R IH|p l N Q S R IH|p l Q S R IH|m w l M T W R IH|m p l M T Sp R IH|m p l M T Sp R IH].
  - destruct m.
    + intros out. exists false. cbn. now rewrite app_nil_r.
    + intros st cur res P. exists true. cbn. rewrite (pending_step _ _ _ _ P), app_nil_r. reflexivity.
    + intros st cur res P. exists true. cbn. rewrite (pending_step _ _ _ _ P), app_nil_r. reflexivity.
  - assert (K : forall m, m <> Straight ->
      (forall st cur res, pending m st cur res -> runs_to st (split_line true true cur 0 (spaced (map typed l))) (res ++ map meant l)) ->
      forall st cur res, pending m st cur res -> runs_to st (split_line true true cur 0 (spaced (map typed (Word w :: l)))) (res ++ map meant (Word w :: l))).
    { clear - W. intros m M IH st cur res P. cbn [map typed meant].
      change (spaced (w :: map typed l)) with ([space] ++ w ++ spaced (map typed l)).
      rewrite split_plain; [|intros [X|[]]; discriminate X|now left]. rewrite word_plain by exact W. rewrite rest_end, <- app_assoc.
      destruct (IH _ _ _ (pending_word _ _ _ _ _ P W)) as (b & E). exists b. rewrite <- app_assoc in E. exact E. }
    destruct m; [|apply K; [easy|exact IH]..]. intros out. unfold command_line. cbn [map typed meant joined].
    rewrite word_plain by exact W. rewrite line_end. destruct (IH (out ++ [w])) as (b & E). exists b. cbn [fix_all app].
    rewrite fix_straight by apply W. cbn [obind]. etransitivity; [exact E|]. now rewrite <- app_assoc.
  - intros out. unfold command_line. cbn [map typed meant joined].
    change ((quote :: p ++ [quote]) ++ spaced (map typed l)) with (quote :: (p ++ [quote]) ++ spaced (map typed l)). rewrite <- app_assoc.
    change (split_line false false [] 0 (quote :: p ++ [quote] ++ spaced (map typed l))) with (split_line true true [] 0 (p ++ quote :: spaced (map typed l))).
    rewrite split_plain by auto. destruct p as [|b p]; [easy|]. unfold slashes in S. rewrite S. cbn [app]. rewrite quote_plain_in.
    destruct (IH (out ++ [b :: p])) as (b' & E). exists b'. cbn [fix_all]. rewrite fix_straight by exact Q. cbn [obind]. etransitivity; [exact E|]. now rewrite <- app_assoc.
  - intros out. unfold command_line. cbn [map typed meant joined].
    change ((quote :: p ++ [quote]) ++ spaced (map typed l)) with (quote :: (p ++ [quote]) ++ spaced (map typed l)). rewrite <- app_assoc.
    change (split_line false false [] 0 (quote :: p ++ [quote] ++ spaced (map typed l))) with (split_line true true [] 0 (p ++ quote :: spaced (map typed l))).
    rewrite split_plain by auto. destruct (trail_one _ S) as (x & ->). unfold slashes in S. rewrite S.
    replace (match x ++ [backslash] with [] => true | _ => true end) with true by now destruct x.
    rewrite app_nil_l, quote_slash. destruct (IH (out, false) (x ++ quote :: spaced []) (out ++ (x ++ [backslash]) :: [])) as (b & E).
    + constructor; [|constructor]. intros X. apply Q. apply in_app_iff. now left.
    + exists b. etransitivity; [exact E|]. now rewrite <- app_assoc.
  - apply SW; [exact M|]. assert (IH' : forall st cur res, pending m st cur res -> runs_to st (split_line true true cur 0 (spaced (map typed l))) (res ++ map meant l)) by (destruct m; [easy|exact IH|exact IH]).
    clear IH. intros st cur res P. cbn [map typed meant]. 
    change (spaced ((quote :: w ++ [quote]) :: map typed l)) with (space :: quote :: (w ++ [quote]) ++ spaced (map typed l)). rewrite <- app_assoc.
    rewrite quote_before by exact W. rewrite word_plain by exact W. destruct T as [T _]. unfold slashes in T. rewrite T. cbn [app]. rewrite quote_plain_out, <- app_assoc.
    destruct (IH' _ _ _ (pending_word _ _ _ _ _ P W)) as (b & E). exists b. rewrite <- app_assoc in E. exact E.
  - apply SW; [exact M|]. intros st cur res P. cbn [map typed meant].
    destruct T as [T (ws & N & F & ->)]. destruct ws as [|w ws]; [easy|]. inversion F as [|? ? W F']; subst.
    destruct ws as [|last mid _] using rev_ind.
    { exfalso. cbn [joined spaced map concat] in Sp. rewrite app_nil_r in Sp. destruct W as (_ & _ & W & _). exact (W Sp). }
    apply Forall_app in F' as [FM FL]. inversion FL as [|? ? L _]; subst.
    change (spaced ((quote :: joined (w :: mid ++ [last]) ++ [quote]) :: map typed l)) with (space :: quote :: (joined (w :: mid ++ [last]) ++ [quote]) ++ spaced (map typed l)).
    rewrite <- app_assoc. cbn [joined]. rewrite <- app_assoc. rewrite quote_before by exact W. rewrite words_out by assumption.
    change (w :: mid ++ [last]) with ((w :: mid) ++ [last]) in T. rewrite joined_slashes in T. rewrite T. cbn [app]. rewrite quote_plain_out.
    rewrite <- app_assoc. cbn [app]. pose proof (pending_step _ _ _ _ (pending_word _ _ _ _ _ P W)) as E1.
    destruct (IH (res ++ [w ++ spaced mid], true) (joined [last]) (res ++ [(w ++ spaced mid) ++ space :: last])) as (b & E).
    { constructor; auto. }
    exists b. cbn [fix_all]. rewrite E1. cbn [obind]. rewrite fix_all_app, fix_words by exact FM. cbn [obind].
    cbn [joined spaced map concat] in E. rewrite app_nil_r in E. rewrite E. rewrite <- !app_assoc. cbn [app]. rewrite spaced_app. cbn [spaced map concat]. rewrite app_nil_r.
    rewrite <- ?app_assoc. reflexivity.
  - apply SW; [exact M|]. intros st cur res P. cbn [map typed meant].
    destruct T as [T (ws & N & F & ->)]. destruct ws as [|w ws]; [easy|]. inversion F as [|? ? W F']; subst.
    destruct ws as [|last mid _] using rev_ind.
    + destruct Sp as [Sp| ->]; [exfalso; cbn [joined spaced map concat] in Sp; rewrite app_nil_r in Sp; destruct W as (_ & _ & W & _); exact (W Sp)|].
      assert (J : joined [w] = w) by apply app_nil_r. rewrite J in *. clear J.
      change (spaced ((quote :: w ++ [quote]) :: map typed l)) with (space :: quote :: (w ++ [quote]) ++ spaced (map typed l)). rewrite <- app_assoc.
      rewrite quote_before by exact W. rewrite word_plain by exact W. unfold slashes in T. rewrite T. cbn [app].
      destruct (trail_one w T) as (x & ->). rewrite <- !app_assoc. rewrite (app_assoc cur), (app_assoc (cur ++ [space])). rewrite quote_slash.
      rewrite line_end. destruct (IH (res ++ [x ++ [backslash]])) as (b & E). exists b. cbn [fix_all].
      rewrite <- !app_assoc. cbn [app]. rewrite (pending_closed _ _ _ _ P W). cbn [obind]. etransitivity; [exact E|]. now rewrite <- app_assoc.
    + apply Forall_app in F' as [FM FL]. inversion FL as [|? ? L _]; subst.
      change (spaced ((quote :: joined (w :: mid ++ [last]) ++ [quote]) :: map typed l)) with (space :: quote :: (joined (w :: mid ++ [last]) ++ [quote]) ++ spaced (map typed l)).
      rewrite <- app_assoc. cbn [joined]. rewrite <- app_assoc. rewrite quote_before by exact W. rewrite words_out by assumption.
      change (w :: mid ++ [last]) with ((w :: mid) ++ [last]) in T. rewrite joined_slashes in T. rewrite T. cbn [app].
      destruct (trail_one last T) as (x & ->). rewrite quote_slash, line_end.
      rewrite <- app_assoc. cbn [app]. pose proof (pending_step _ _ _ _ (pending_word _ _ _ _ _ P W)) as E1.
      assert (X : fix_step (res ++ [w ++ spaced mid], true) (joined ([] ++ [x ++ [quote]])) = Done (res ++ [(w ++ spaced mid) ++ space :: x ++ [backslash]], false)) by (apply fix_closed; cbn [app]; auto).
      cbn [app joined spaced map concat] in X. rewrite app_nil_r in X.
      destruct (IH (res ++ [(w ++ spaced mid) ++ space :: x ++ [backslash]])) as (b & E).
      exists b. cbn [fix_all]. rewrite E1. cbn [obind]. rewrite fix_all_app, fix_words by exact FM. cbn [obind fix_all]. rewrite X. cbn [obind]. rewrite E.
      rewrite <- !app_assoc. cbn [app]. rewrite spaced_app. cbn [spaced map concat]. rewrite app_nil_r. rewrite <- ?app_assoc. reflexivity.
Qed.

(** ** Theorems *)

(** What is taken for the arguments is what they are meant to be, for all command
    lines in which between a path that ends with a backslash and the next such path
    there are words and paths with single spaces, and a path with a space, if only
    the next such path itself. *)
Theorem C60_arguments_recovered_partial l : recoverable Straight l -> fix_args (windows_args (command_line l)) = Done (map meant l).
Proof.
  intros R. assert (N : Forall (fun a => meant a <> []) l).
  { clear - R. induction R as [m|m w l W R IH|p l N Q S R IH|p l Q S R IH|m w l M T W R IH|m p l M T Sp R IH|m p l M [T _] Sp R IH]; constructor; auto; cbn [meant].
    - apply W.
    - intros ->. discriminate S.
    - apply W.
    - intros ->. destruct Sp.
    - intros ->. discriminate T. }
  destruct (recovered _ _ R []) as (b & E). unfold fix_args, windows_args. rewrite E. cbn [obind fst app]. f_equal.
  clear - N. induction N as [|a l A N IH]; [reflexivity|]. cbn [map filter]. destruct (meant a) eqn:K; [easy|]. now rewrite IH.
Qed.
Print Assumptions C60_arguments_recovered_partial.

(** In particular: one of the paths ends with a backslash, as the directory of the
    scripts that the game passes, those before it have no quotes, and those after it
    single spaces only. *)
Definition plain (a : argument) : Prop := match a with Word w => word w | Path p => p <> [] /\ ~ In quote p /\ slashes p = 0 end.
Definition neat (a : argument) : Prop := match a with Word w => word w | Path p => tidy 0 p end.
Theorem C60_one_directory before directory after : Forall plain before -> ~ In quote directory -> slashes directory = 1 -> Forall neat after ->
  fix_args (windows_args (command_line (before ++ Path directory :: after))) = Done (map meant (before ++ Path directory :: after)).
Proof.
  intros B Q S A. apply C60_arguments_recovered_partial.
  assert (K : forall m, m <> Straight -> recoverable m after).
  { clear - A. induction A as [|[w|p] l H A IH]; intros m M; [constructor|now constructor; auto|]. cbn in H.
    destruct (in_dec Byte.byte_eq_dec space p) as [I|I]; [apply r_spaced; auto; now apply IH|]. apply r_simple; auto.
    destruct H as (_ & ws & N & F & ->). destruct ws as [|w ws]; [easy|]. inversion F; subst. destruct ws as [|x ws].
    - cbn. now rewrite app_nil_r.
    - exfalso. apply I. cbn [joined]. apply in_app_iff. right. now left. }
  induction B as [|[w|p] l H B IH]; cbn [app].
  - apply r_directory; auto. now apply K.
  - now constructor.
  - destruct H as (N & Qp & Sp). now apply r_path.
Qed.
Print Assumptions C60_one_directory.

(** Whatever the arguments are, they are mended without a panic, and arguments
    without quotes stay as they are, but for empty ones. *)
Theorem C60_total args : exists l, fix_args args = Done l.
Proof.
  assert (K : forall args st, (snd st = true -> fst st <> []) -> exists st', fix_all st args = Done st').
  { clear. intros args. induction args as [|a args IH]; intros [fixed broken] H; [eexists; reflexivity|]. cbn [fix_all fst snd] in *.
    assert (S : exists st', fix_step (fixed, broken) a = Done st' /\ (snd st' = true -> fst st' <> [])).
    { assert (X : forall s, broken = true -> exists l, extend_last fixed s = Done l /\ l <> []).
      { intros s B. specialize (H B). unfold extend_last. destruct (rev fixed) as [|x r] eqn:R.
        - exfalso. apply H. rewrite <- (rev_involutive fixed), R. reflexivity.
        - eexists. split; [reflexivity|]. now destruct (rev r). }
      assert (P : forall c s, exists x l, split_at c s = x :: l).
      { intros c s. induction s as [|b s (x & l & E)]; cbn [split_at]; [eauto|]. destruct (Byte.eqb b c); eauto. rewrite E. eauto. }
      unfold fix_step. destruct broken; cbn [negb andb].
      - rewrite andb_false_r. destruct (contains space _).
        + destruct (P space (if contains quote a then quotes_to_slashes a else a)) as (x & l & ->). destruct (X x eq_refl) as (l' & -> & N).
          cbn [obind]. eexists. split; [reflexivity|]. intros _. cbn. now destruct l'.
        + destruct (X (if contains quote a then quotes_to_slashes a else a) eq_refl) as (l' & -> & N). cbn [obind]. eexists. split; [reflexivity|]. auto.
      - rewrite andb_true_r. destruct (contains quote a); cbn [negb].
        + destruct (P quote (unspace (escape_quotes a))) as (x & l & ->). cbn [obind]. eexists. split; [reflexivity|]. intros _. cbn. now destruct fixed.
        + cbn [obind]. eexists. split; [reflexivity|]. discriminate. }
    destruct S as (st' & -> & N). cbn [obind]. now apply IH. }
  unfold fix_args. destruct (K args ([], false)) as (st & ->); [discriminate|]. eexists. reflexivity.
Qed.
Print Assumptions C60_total.
Theorem C60_kept args : Forall (fun a => a <> [] /\ ~ In quote a) args -> fix_args args = Done args.
Proof.
  intros F. assert (K : forall out, fix_all (out, false) args = Done (out ++ args, false)).
  { induction F as [|a args [_ Q] F IH]; intros out; [cbn; now rewrite app_nil_r|]. cbn [fix_all]. rewrite fix_straight by exact Q. cbn [obind].
    rewrite IH. now rewrite <- app_assoc. }
  unfold fix_args. rewrite K. clear K. cbn [obind fst app]. f_equal. induction F as [|a args [N _] F IH]; [reflexivity|]. cbn [filter].
  destruct a; [easy|]. now rewrite IH.
Qed.
Print Assumptions C60_kept.

(** Without that the statement is wrong.  Two directories that end with a backslash,
    the second without a space: the option that follows becomes a part of the second. *)
Definition arg_line (l : list argument) : outcome unwind (list str) := fix_args (windows_args (command_line l)).
Theorem C60_two_directories_refuted : exists l, Forall (fun a => match a with Word w => word w | Path p => p <> [] /\ ~ In quote p /\ (tidy 0 p \/ tidy 1 p) end) l /\
  l = [Word (lit "-compile"); Path (lit "C:\Game\r6\scripts\"); Word (lit "-customCacheDir"); Path (lit "D:\cache\"); Word (lit "-optimize")] /\
  arg_line l = Done [lit "-compile"; lit "C:\Game\r6\scripts\"; lit "-customCacheDir"; lit "D:\cache\ -optimize"].
Proof.
  assert (W : forall s, existsb (fun b => Byte.eqb b quote || Byte.eqb b space || Byte.eqb b tab)%bool s = false -> s <> [] -> word s).
  { intros s E N. repeat split; [exact N|..]; intros I; apply not_true_iff_false in E; apply E; apply existsb_exists; eexists; (split; [exact I|reflexivity]). }
  eexists. split; [|split; [reflexivity|vm_compute; reflexivity]].
  repeat match goal with
  | |- Forall _ [] => constructor
  | |- Forall _ (Word _ :: _) => constructor; [apply W; [reflexivity|discriminate]|]
  | |- Forall _ (Path (lit ?p) :: _) => constructor; [split; [discriminate|split; [apply (W (lit p)); [reflexivity|discriminate]|right; split; [reflexivity|]; exists [lit p]; split; [discriminate|split; [|reflexivity]]; constructor; [apply W; [reflexivity|discriminate]|constructor]]]|]
  end.
Qed.
Print Assumptions C60_two_directories_refuted.
(** Two spaces in a path after a directory become one. *)
Theorem C60_two_spaces_refuted : exists l, Forall (fun a => match a with Word w => word w | Path p => p <> [] /\ ~ In quote p /\ slashes p <= 1 end) l /\
  l = [Word (lit "-compile"); Path (lit "C:\scripts\"); Path (lit "D:\my  cache")] /\
  arg_line l = Done [lit "-compile"; lit "C:\scripts\"; lit "D:\my cache"].
Proof.
  eexists. split; [|split; [reflexivity|vm_compute; reflexivity]].
  repeat constructor; try discriminate; vm_compute; try (intuition discriminate); lia.
Qed.
Print Assumptions C60_two_spaces_refuted.

(** The command line of the tests (opts.rs 312-327), and one with a second directory,
    whose name has a space. *)
Example C60_nonvacuous : exists l, recoverable Straight l /\
  l = [Word (lit "-compile"); Path (lit "C:\Program Files (x86)\r6\scripts\"); Path (lit "C:\Program Files (x86)\final.redscripts");
       Word (lit "-customCacheDir"); Path (lit "C:\my cache\"); Word (lit "-optimize"); Path (lit "a  b")] /\
  arg_line l = Done (map meant l) /\ windows_args (command_line l) <> map meant l.
Proof.
  assert (W : forall s, existsb (fun b => Byte.eqb b quote || Byte.eqb b space || Byte.eqb b tab)%bool s = false -> s <> [] -> word s).
  { intros s E N. repeat split; [exact N|..]; intros I; apply not_true_iff_false in E; apply E; apply existsb_exists; eexists; (split; [exact I|reflexivity]). }
  eexists. split; [|split; [reflexivity|split; [vm_compute; reflexivity|vm_compute; discriminate]]].
  apply r_word; [apply W; [reflexivity|discriminate]|].
  apply r_directory; [vm_compute; intuition discriminate|reflexivity|].
  apply r_spaced; [discriminate| |vm_compute; tauto|].
  { split; [reflexivity|]. exists [lit "C:\Program"; lit "Files"; lit "(x86)\final.redscripts"]. split; [discriminate|split; [|reflexivity]].
    repeat constructor; try discriminate; vm_compute; intuition discriminate. }
  apply r_word; [apply W; [reflexivity|discriminate]|].
  apply r_closed; [discriminate| |left; vm_compute; tauto|].
  { split; [reflexivity|]. exists [lit "C:\my"; lit "cache\"]. split; [discriminate|split; [|reflexivity]].
    repeat constructor; try discriminate; vm_compute; intuition discriminate. }
  apply r_word; [apply W; [reflexivity|discriminate]|].
  apply r_path; [discriminate|vm_compute; intuition discriminate|reflexivity|constructor].
Qed.
