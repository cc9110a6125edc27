(** The scc library: timestamp file (C36), error text (C37), user hints (C43). *)
From Coq Require Import String.
From Coq Require Import ZArith List Bool Lia.
From Verif Require Import Bytes BytesFacts Bundle BundleFacts Ast Scc.
Import ListNotations.
Open Scope Z_scope.

(** * C36 *)

(** Writing a timestamp into any file, at whatever position, makes reading return
    it, from whatever position; what the file held before does not matter. *)
Theorem C36_write_read nanos f pos : in_u 128 nanos ->
  let f' := ts_write nanos f in
  snd (ts_read {| of_bytes := of_bytes f'; of_pos := pos |}) = Ok (Some nanos) /\
  of_bytes f' = le_enc 16 nanos ++ skipn 16 (of_bytes f).
Proof.
  intros H. unfold ts_write, write_all, rewind. cbn [of_pos of_bytes]. rewrite le_enc_length. cbn [firstn repeat app Nat.sub Nat.add].
  split; [|reflexivity]. generalize (skipn 16 (of_bytes f)). intros tail.
  unfold ts_read, seek_end, rewind, read_exact. cbn [of_pos of_bytes skipn].
  rewrite app_length, le_enc_length. cbn [Nat.add Nat.eqb Nat.leb].
  replace (firstn 16 (le_enc 16 nanos ++ tail)) with (le_enc 16 nanos).
  - rewrite le_val_enc. cbn [snd]. do 2 f_equal. apply Z.mod_small. exact H.
  - rewrite firstn_app, le_enc_length, Nat.sub_diag, firstn_O, app_nil_r.
    symmetry. apply firstn_all2. rewrite le_enc_length. lia.
Qed.
Print Assumptions C36_write_read.

(** What reading gives, for every file: nothing exactly for the empty file, an
    error exactly for a file of 1 to 15 bytes, and otherwise the number in the
    first 16 bytes. *)
Theorem C36_read f :
  of_bytes (fst (ts_read f)) = of_bytes f /\
  (snd (ts_read f) = Ok None <-> of_bytes f = []) /\
  (snd (ts_read f) = Err Eof <-> (0 < length (of_bytes f) < 16)%nat) /\
  (forall n, snd (ts_read f) = Ok (Some n) <->
     (16 <= length (of_bytes f))%nat /\ in_u 128 n /\ exists rest, of_bytes f = le_enc 16 n ++ rest).
Proof.
  unfold ts_read, seek_end, rewind, read_exact. cbn [of_pos of_bytes skipn].
  destruct (of_bytes f) as [|b l] eqn:E.
  - cbn. split; [reflexivity|]. split; [tauto|]. split; [split; [discriminate|lia]|].
    intros n. split; [discriminate|lia].
  - rewrite <- E. replace (length (of_bytes f) =? 0)%nat with false by (rewrite E; reflexivity).
    destruct (Nat.leb_spec 16 (length (of_bytes f))) as [Hl|Hl]; cbn [fst snd].
    + split; [reflexivity|]. split; [split; [discriminate|rewrite E; discriminate]|].
      split; [split; [discriminate|lia]|]. intros n. split.
      * intros En. assert (n = le_val (firstn 16 (of_bytes f))) as -> by congruence. split; [exact Hl|].
        assert (L : length (firstn 16 (of_bytes f)) = 16%nat) by (rewrite firstn_length; lia).
        pose proof (le_val_bound (firstn 16 (of_bytes f))) as B. rewrite L in B. split; [exact B|].
        exists (skipn 16 (of_bytes f)).
        assert (G : le_enc 16 (le_val (firstn 16 (of_bytes f))) = firstn 16 (of_bytes f)) by (rewrite <- L at 1; apply le_enc_val).
        rewrite G. symmetry. apply firstn_skipn.
      * intros (_ & Hn & rest & Er). do 2 f_equal. rewrite Er, firstn_app, le_enc_length, Nat.sub_diag.
        rewrite firstn_O, app_nil_r, firstn_all2 by (rewrite le_enc_length; lia).
        rewrite le_val_enc. apply Z.mod_small. exact Hn.
    + split; [reflexivity|]. split; [split; [discriminate|rewrite E; discriminate]|].
      split; [split; [intros _; rewrite E in *; cbn in *; lia|reflexivity]|].
      intros n. split; [discriminate|lia].
Qed.
Print Assumptions C36_read.

Example C36_example :
  snd (ts_read (ts_write 1700000000000000000 {| of_bytes := [x01; x02; x03]; of_pos := 3 |})) = Ok (Some 1700000000000000000) /\
  snd (ts_read {| of_bytes := []; of_pos := 0 |}) = Ok None /\
  snd (ts_read {| of_bytes := [x01; x02; x03]; of_pos := 0 |}) = Err Eof.
Proof. repeat split. Qed.

(** * C37 *)

Lemma copy_to_spec bs : forall a m x, copy_to a bs m x =
  if (a <=? x) && (x <? a + Z.of_nat (length bs)) then nth (Z.to_nat (x - a)) bs x00 else m x.
Proof.
  induction bs as [|b bs IH]; intros a m x; cbn [copy_to length].
  - destruct (Z.leb_spec a x), (Z.ltb_spec x (a + Z.of_nat 0)); try reflexivity. lia.
  - rewrite IH. unfold poke.
    destruct (Z.leb_spec (a + 1) x), (Z.ltb_spec x (a + 1 + Z.of_nat (length bs))), (Z.leb_spec a x),
      (Z.ltb_spec x (a + Z.of_nat (S (length bs)))); cbn [andb]; try lia.
    + replace (Z.to_nat (x - a)) with (S (Z.to_nat (x - (a + 1)))) by lia. reflexivity.
    + destruct (Z.eqb_spec x a); [lia|reflexivity].
    + destruct (Z.eqb_spec x a); [|lia]. subst. now rewrite Z.sub_diag.
    + destruct (Z.eqb_spec x a); [lia|reflexivity].
Qed.

(** For a buffer of at least one byte: nothing outside the buffer is written, the
    bytes written are the longest prefix of the text that leaves room for the NUL
    after it, and the result is their number. *)
Theorem C37_within_buffer text buffer size m m' n :
  1 <= size < 2 ^ 64 -> copy_error (SccError text) buffer size m = (m', n) ->
  n = Z.min (Z.of_nat (length text)) (size - 1) /\
  (forall a, ~ (buffer <= a < buffer + size) -> m' a = m a) /\
  (forall i, 0 <= i < n -> m' (buffer + i) = nth (Z.to_nat i) text x00) /\
  m' (buffer + n) = x00 /\
  (forall a, buffer + n < a -> m' a = m a).
Proof.
  intros Hs. unfold copy_error. unfold wrap_u. rewrite Z.mod_small by lia.
  set (k := Z.min (Z.of_nat (length text)) (size - 1)). intros [= <- <-].
  assert (Hl : length (firstn (Z.to_nat k) text) = Z.to_nat k) by (rewrite firstn_length; lia).
  split; [reflexivity|]. unfold poke. repeat split.
  - intros a Ha. rewrite copy_to_spec, Hl. destruct (Z.eqb_spec a (buffer + k)); [lia|].
    destruct (Z.leb_spec buffer a), (Z.ltb_spec a (buffer + Z.of_nat (Z.to_nat k))); try reflexivity. lia.
  - intros i Hi. destruct (Z.eqb_spec (buffer + i) (buffer + k)); [lia|]. rewrite copy_to_spec, Hl.
    destruct (Z.leb_spec buffer (buffer + i)), (Z.ltb_spec (buffer + i) (buffer + Z.of_nat (Z.to_nat k))); try lia. cbn [andb].
    replace (buffer + i - buffer) with i by lia. rewrite <- (firstn_skipn (Z.to_nat k) text) at 2.
    symmetry. apply app_nth1. lia.
  - now rewrite Z.eqb_refl.
  - intros a Ha. destruct (Z.eqb_spec a (buffer + k)); [lia|]. rewrite copy_to_spec, Hl.
    destruct (Z.leb_spec buffer a), (Z.ltb_spec a (buffer + Z.of_nat (Z.to_nat k))); try reflexivity. lia.
Qed.
Print Assumptions C37_within_buffer.

(** Nothing is written when there is no error. *)
Theorem C37_success buffer size m : copy_error SccSuccess buffer size m = (m, 0).
Proof. reflexivity. Qed.
Print Assumptions C37_success.

(** For a buffer of no bytes the subtraction wraps around, and the text is written
    past the end of the buffer. *)
Theorem C37_empty_buffer_refuted : exists text buffer m m' n,
  copy_error (SccError text) buffer 0 m = (m', n) /\ exists a, ~ (buffer <= a < buffer + 0) /\ m' a <> m a.
Proof.
  exists (lit "err"), 1000, (fun _ => x7f). do 2 eexists. split; [reflexivity|].
  exists 1000. split; [lia|]. vm_compute. discriminate.
Qed.
Print Assumptions C37_empty_buffer_refuted.

Example C37_example : exists m, copy_error (SccError (lit "failed")) 10 4 (fun _ => x7f) = (m, 3) /\
  map m [9; 10; 11; 12; 13; 14] = [x7f; x66; x61; x69; x00; x7f].
Proof. eexists. split; reflexivity. Qed.

(** * C43 *)

Lemma fpath_eqb_spec a : forall b, fpath_eqb a b = true <-> a = b.
Proof.
  induction a as [|x a IH]; intros [|y b]; cbn; try (split; [discriminate|discriminate] || tauto).
  rewrite andb_true_iff, IH. destruct (str_eqb_spec x y) as [->|]; split; try tauto.
  - intros [_ ->]. reflexivity.
  - intros [= ->]. auto.
  - intros [? _]. discriminate.
  - intros [= -> _]. congruence.
Qed.
Lemma starts_with_spec p : forall s, starts_with s p = true <-> exists t, s = p ++ t.
Proof.
  induction p as [|a p IH]; intros s; [split; [intros _; now exists s|destruct s; reflexivity]|].
  destruct s as [|b s]; cbn [starts_with]; [split; [discriminate|intros (t & H); discriminate]|].
  rewrite andb_true_iff, IH. split.
  - intros [H (t & ->)]. apply Byte.byte_dec_bl in H as ->. now exists t.
  - intros (t & [= -> ->]). split; [apply Byte.byte_dec_lb; reflexivity|now exists t].
Qed.
Lemma contains_spec sub s : contains s sub = true <-> exists a b, s = a ++ sub ++ b.
Proof.
  induction s as [|c s IH]; cbn [contains]; rewrite orb_true_iff, starts_with_spec.
  - split.
    + intros [(t & E)|H]; [exists [], t; exact E|discriminate].
    + intros (a & b & E). left. symmetry in E. apply app_eq_nil in E as [_ E]. now exists b.
  - rewrite IH. split.
    + intros [(t & E)|(a & b & ->)]; [exists [], t; exact E|exists (c :: a), b; reflexivity].
    + intros ([|x a] & b & E); [left; now exists b|]. right. injection E as -> ->. eauto.
Qed.

(** When a hint is for an error: the file it names, if any, is the file of the
    error, and the error's text begins with, or its line contains, the text it
    gives. *)
Definition applies (path : option fpath) (source line : str) (h : hint) : Prop :=
  (forall p, hi_file h = Some p -> path = Some p) /\
  ((exists s t, hi_span_starts_with h = Some s /\ source = s ++ t) \/
   (exists s a b, hi_line_contains h = Some s /\ line = a ++ s ++ b)).
(** The hints registered for a code, in order. *)
Definition registered (h : hints) (code : str) : list hint := match hints_find h code with Some l => l | None => [] end.

Lemma hint_matches_spec path source line h : hint_matches path source line h = true <-> applies path source line h.
Proof.
  unfold hint_matches, applies. rewrite andb_true_iff, orb_true_iff.
  assert (A : match hi_file h with None => true | Some p => match path with Some q => fpath_eqb p q | None => false end end = true
              <-> forall p, hi_file h = Some p -> path = Some p).
  { destruct (hi_file h) as [p|]; [|split; [discriminate|reflexivity]]. destruct path as [q|].
    - rewrite fpath_eqb_spec. split; [intros -> ? [= ->]; reflexivity|]. intros H. specialize (H p eq_refl). congruence.
    - split; [discriminate|]. intros H. specialize (H p eq_refl). discriminate. }
  assert (B : match hi_span_starts_with h with Some s => starts_with source s | None => false end = true
              <-> exists s t, hi_span_starts_with h = Some s /\ source = s ++ t).
  { destruct (hi_span_starts_with h) as [s|]; [|split; [discriminate|intros (? & ? & ? & _); discriminate]].
    rewrite starts_with_spec. split; [intros (t & E); eauto|intros (s' & t & [= ->] & E); eauto]. }
  assert (C : match hi_line_contains h with Some s => contains line s | None => false end = true
              <-> exists s a b, hi_line_contains h = Some s /\ line = a ++ s ++ b).
  { destruct (hi_line_contains h) as [s|]; [|split; [discriminate|intros (? & ? & ? & ? & _); discriminate]].
    rewrite contains_spec. split; [intros (a & b & E); eauto|intros (s' & a & b & [= ->] & E); eauto]. }
  rewrite A, B, C. reflexivity.
Qed.

(** The hint shown is the first registered one that applies. *)
Theorem C43_first_match h code path source line x :
  get_by_error h code path source line = Some x <->
  exists before after, registered h code = before ++ x :: after /\ applies path source line x /\
    forall y, In y before -> ~ applies path source line y.
Proof.
  unfold get_by_error, registered. destruct (hints_find h code) as [l|].
  2: { split; [discriminate|]. intros ([|? ?] & ? & E & _); discriminate. }
  induction l as [|y l IH]; cbn [find].
  - split; [discriminate|]. intros ([|? ?] & ? & E & _); discriminate.
  - destruct (hint_matches path source line y) eqn:E.
    + split.
      * intros [= <-]. exists [], l. split; [reflexivity|]. split; [now apply hint_matches_spec|intros ? []].
      * intros (before & after & Eq & Hx & Hn). destruct before as [|z before]; injection Eq as -> ->; [reflexivity|].
        exfalso. apply (Hn z); [now left|]. now apply hint_matches_spec.
    + assert (Hy : ~ applies path source line y) by (rewrite <- hint_matches_spec; congruence).
      rewrite IH. split.
      * intros (before & after & -> & Hx & Hn). exists (y :: before), after. split; [reflexivity|]. split; [assumption|].
        intros z [<-|Hz]; auto.
      * intros (before & after & Eq & Hx & Hn). destruct before as [|z before]; injection Eq as -> ->; [contradiction|].
        exists before, after. split; [reflexivity|]. split; [assumption|]. intros w Hw. apply Hn. now right.
Qed.
Print Assumptions C43_first_match.

(** No hint is shown exactly if none registered for the code applies. *)
Theorem C43_no_match h code path source line :
  get_by_error h code path source line = None <-> forall y, In y (registered h code) -> ~ applies path source line y.
Proof.
  unfold get_by_error, registered. destruct (hints_find h code) as [l|]; [|split; [intros _ y []|reflexivity]].
  split.
  - intros H y Hy Ha. apply hint_matches_spec in Ha. rewrite (find_none _ _ H y Hy) in Ha. discriminate.
  - intros H. destruct (find _ l) as [x|] eqn:E; [|reflexivity]. apply find_some in E as [E1 E2].
    apply hint_matches_spec in E2. now apply H in E2.
Qed.
Print Assumptions C43_no_match.

Lemma hints_extend_spec key val h code :
  registered (hints_extend key val h) code = registered h code ++ (if str_eqb key code then val else []).
Proof.
  unfold registered. induction h as [|[k v] h IH]; cbn [hints_extend hints_find].
  - destruct (str_eqb key code); reflexivity.
  - destruct (str_eqb_spec k key) as [->|Hk]; cbn [hints_find].
    + destruct (str_eqb_spec key code); [reflexivity|]. now rewrite app_nil_r.
    + destruct (str_eqb_spec k code) as [->|]; [|exact IH].
      destruct (str_eqb_spec key code); [congruence|]. now rewrite app_nil_r.
Qed.

(** The hints registered for a code are those of the hint files, file after file,
    each in the order of its file. *)
Theorem C43_registered files code : (forall f, In f files -> NoDup (map fst f)) ->
  registered (hints_load files) code = concat (map (fun f => registered f code) files).
Proof.
  intros H. unfold hints_load.
  assert (F : forall f h, NoDup (map fst f) ->
    registered (fold_left (fun h kv => hints_extend (fst kv) (snd kv) h) f h) code = registered h code ++ registered f code).
  { induction f as [|[k v] f IH]; intros h Hd; cbn [fold_left].
    - unfold registered at 3. cbn. now rewrite app_nil_r.
    - inversion Hd as [|? ? Hk Hd']; subst. rewrite IH by assumption. cbn [fst snd]. rewrite hints_extend_spec, <- app_assoc. f_equal.
      unfold registered at 2. cbn [hints_find]. destruct (str_eqb_spec k code) as [->|]; [|reflexivity].
      assert (N : hints_find f code = None).
      { clear - Hk. cbn in Hk. induction f as [|[k' v'] f IH]; [reflexivity|]. cbn in *.
        destruct (str_eqb_spec k' code); [subst; tauto|]. apply IH. tauto. }
      unfold registered. rewrite N. now rewrite app_nil_r. }
  assert (G : forall fs h, (forall f, In f fs -> NoDup (map fst f)) ->
    registered (fold_left (fun h f => fold_left (fun h kv => hints_extend (fst kv) (snd kv) h) f h) fs h) code =
    registered h code ++ concat (map (fun f => registered f code) fs)).
  { induction fs as [|f fs IH]; intros h Hf; cbn [fold_left map concat].
    - now rewrite app_nil_r.
    - rewrite IH by (intros; apply Hf; now right). rewrite F by (apply Hf; now left). now rewrite app_assoc. }
  rewrite G by assumption. reflexivity.
Qed.
Print Assumptions C43_registered.

Definition hint_a := {| hi_id := lit "a"; hi_message := lit "m1"; hi_file := None; hi_span_starts_with := Some (lit "Foo"); hi_line_contains := None |}.
Definition hint_b := {| hi_id := lit "b"; hi_message := lit "m2"; hi_file := Some [lit "mod"; lit "x.reds"];
                        hi_span_starts_with := None; hi_line_contains := Some (lit "let") |}.
Definition ex_hints := hints_load [[(lit "E1", [hint_b])]; [(lit "E2", []); (lit "E1", [hint_a])]].
Example C43_example :
  registered ex_hints (lit "E1") = [hint_b; hint_a] /\
  get_by_error ex_hints (lit "E1") (Some [lit "mod"; lit "x.reds"]) (lit "Foo.Bar") (lit "  let a = Foo.Bar;") = Some hint_b /\
  get_by_error ex_hints (lit "E1") None (lit "Foo.Bar") (lit "  let a = Foo.Bar;") = Some hint_a /\
  get_by_error ex_hints (lit "E1") None (lit "Bar") (lit "Bar") = None /\
  get_by_error ex_hints (lit "E2") None (lit "Foo") (lit "Foo") = None.
Proof. repeat split. Qed.
