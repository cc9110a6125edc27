(** Property C34. *)
From Coq Require Import String.
From Coq Require Import ZArith List Bool Lia ZifyBool Arith.
From Verif Require Import Bytes Bytecode Definitions Bundle Ast Pool Scope Search SourceMap.
Import ListNotations.
Open Scope Z_scope.

(** ** Specification: files are lists of characters *)

(** A character: a byte that is no continuation byte, followed by continuation
    bytes; a newline is one byte. *)
Definition is_char (c : str) : Prop :=
  exists b rest, c = b :: rest /\ is_cont b = false /\ Forall (fun x => is_cont x = true) rest /\ (b = x0a -> rest = []).
Definition newline : str := [x0a].
(** A loaded file: its path and its characters. *)
Definition source := (str * list str)%type.
Definition text_of (s : source) : str := concat (snd s).
(** The number of bytes before file [i], one position being left between files. *)
Definition base (fs : list source) (i : nat) : Z :=
  fold_right Z.add 0 (map (fun s => blen (text_of s) + 1) (firstn i fs)).
(** All files loaded in order. *)
Definition loaded (fs : list source) : list file :=
  fold_left (fun acc s => files_add acc (fst s) (text_of s)) fs [].
(** Positions are 32 bit numbers: all files together must be smaller. *)
Definition fits (fs : list source) : Prop :=
  Forall (fun s => Forall is_char (snd s)) fs /\ base fs (length fs) <= 2 ^ 32.

(** [before] is a sequence of complete lines. *)
Definition complete_lines (before : list str) : Prop := before = [] \/ exists l, before = l ++ [newline].
(** The position after [before ++ left], where the line is [left ++ right]. *)
Record on_line (text before left right after : list str) : Prop := {
  ol_text : text = before ++ left ++ right ++ after;
  ol_before : complete_lines before;
  ol_left : ~ In newline left;
  ol_right : (~ In newline right /\ after = []) \/ exists r, right = r ++ [newline] /\ ~ In newline r }.
(** The number of newlines. *)
Definition newlines (l : list str) : nat := count_occ (list_eq_dec Byte.byte_eq_dec) l newline.

(** Every position between two characters has such a description. *)
Lemma on_line_exists (left_ right_ : list str) : exists before left right after,
  on_line (left_ ++ right_) before left right after /\ left_ = before ++ left /\ right_ = right ++ after.
Proof.
  assert (L : exists before left, left_ = before ++ left /\ complete_lines before /\ ~ In newline left).
  { induction left_ as [|c l IH] using rev_ind.
    - exists [], []. repeat split; [now left|tauto].
    - destruct (list_eq_dec Byte.byte_eq_dec c newline) as [->|N].
      + exists (l ++ [newline]), []. rewrite app_nil_r. repeat split; [right; eauto|tauto].
      + destruct IH as (b & m & -> & Hb & Hm). exists b, (m ++ [c]). rewrite app_assoc. repeat split; [exact Hb|].
        rewrite in_app_iff. cbn. intuition. }
  assert (R : exists right after, right_ = right ++ after /\
     ((~ In newline right /\ after = []) \/ exists r, right = r ++ [newline] /\ ~ In newline r)).
  { induction right_ as [|c l IH].
    - exists [], []. split; [reflexivity|left; tauto].
    - destruct (list_eq_dec Byte.byte_eq_dec c newline) as [->|N].
      + exists [newline], l. split; [reflexivity|right]. exists []. split; [reflexivity|tauto].
      + destruct IH as (r & a & -> & H). exists (c :: r), a. split; [reflexivity|]. destruct H as [[H ->]|(r' & -> & H)].
        * left. split; [|reflexivity]. cbn. intuition.
        * right. exists (c :: r'). split; [reflexivity|]. cbn. intuition. }
  destruct L as (b & m & -> & Hb & Hm). destruct R as (r & a & -> & H). exists b, m, r, a. split; [|auto].
  constructor; auto. now rewrite <- app_assoc.
Qed.

(** ** Lines of one file *)

Lemma wrap_small w n : 0 <= n < 2 ^ w -> wrap_u w n = n.
Proof. intros H. unfold wrap_u. apply Z.mod_small. exact H. Qed.

Lemma offsets_app s t : forall n, newline_offsets n (s ++ t) = newline_offsets n s ++ newline_offsets (n + blen s) t.
Proof.
  unfold blen. induction s as [|b s IH]; intros n; cbn [app newline_offsets].
  - f_equal. cbn. lia.
  - replace (n + Z.of_nat (length (b :: s))) with (n + 1 + Z.of_nat (length s)) by (cbn [length]; lia).
    rewrite IH. destruct (Byte.eqb b x0a); reflexivity.
Qed.
Lemma offsets_range s : forall n o, In o (newline_offsets n s) -> n <= o < n + blen s.
Proof.
  unfold blen. induction s as [|b s IH]; intros n o; cbn [newline_offsets]; [intros []|].
  cbn [length]. destruct (Byte.eqb b x0a); [intros [<-|K]; [lia|]|intros K]; apply IH in K; lia.
Qed.
Lemma blen_app s t : blen (s ++ t) = blen s + blen t.
Proof. unfold blen. rewrite app_length. lia. Qed.
Lemma blen_pos s : 0 <= blen s.
Proof. unfold blen. lia. Qed.

Lemma cont_not_newline b : is_cont b = true -> b <> x0a.
Proof. intros H ->. vm_compute in H. discriminate. Qed.
Lemma offsets_char c n : is_char c -> c <> newline -> newline_offsets n c = [].
Proof.
  intros (b & rest & -> & Hb & Hr & Hn) N. cbn [newline_offsets].
  destruct (Byte.eqb b x0a) eqn:E.
  - apply Byte.byte_dec_bl in E. subst b. rewrite (Hn eq_refl) in N. now contradiction N.
  - clear -Hr. revert n. induction Hr as [|x l Hx Hl IH]; intros n; [reflexivity|]. cbn [newline_offsets].
    destruct (Byte.eqb x x0a) eqn:E; [|apply IH]. apply Byte.byte_dec_bl in E. now apply cont_not_newline in Hx.
Qed.
Lemma offsets_none l : Forall is_char l -> ~ In newline l -> forall n, newline_offsets n (concat l) = [].
Proof.
  intros H. induction H as [|c l Hc Hl IH]; intros N n; [reflexivity|]. cbn [concat]. rewrite offsets_app.
  rewrite offsets_char; [|exact Hc|intros ->; apply N; now left]. apply IH. intros K. apply N. now right.
Qed.
Lemma offsets_count l : Forall is_char l -> forall n, length (newline_offsets n (concat l)) = newlines l.
Proof.
  intros H. induction H as [|c l Hc Hl IH]; intros n; [reflexivity|]. cbn [concat]. rewrite offsets_app, app_length, IH.
  unfold newlines. cbn [count_occ]. destruct (list_eq_dec Byte.byte_eq_dec c newline) as [->|N]; [reflexivity|].
  now rewrite offsets_char.
Qed.

(** Characters start at boundaries. *)
Lemma boundary_app l r : Forall is_char r -> char_boundary (concat l ++ concat r) (length (concat l)) = true.
Proof.
  intros H. unfold char_boundary. destruct (length (concat l)) as [|k] eqn:E; [reflexivity|].
  rewrite nth_error_app2 by lia. replace (S k - length (concat l))%nat with 0%nat by lia.
  destruct H as [|c r Hc Hr].
  - cbn [concat nth_error]. rewrite app_nil_r, E. apply Nat.eqb_refl.
  - destruct Hc as (b & rest & -> & Hb & _). cbn. now rewrite Hb.
Qed.
Lemma char_count_concat l : Forall is_char l -> char_count (concat l) = length l.
Proof.
  unfold char_count. induction 1 as [|c l Hc Hl IH]; [reflexivity|]. cbn [concat length]. rewrite filter_app, app_length, IH.
  destruct Hc as (b & rest & -> & Hb & Hr & _). cbn [filter]. rewrite Hb. cbn [negb length].
  replace (filter _ rest) with (@nil byte); [reflexivity|]. symmetry. clear -Hr.
  induction Hr as [|x r Hx Hr IH]; [reflexivity|]. cbn [filter]. now rewrite Hx.
Qed.
Lemma slice_chars a m z : Forall is_char m -> Forall is_char z ->
  slice (concat (a ++ m ++ z)) (blen (concat a)) (blen (concat (a ++ m))) = Done (concat m).
Proof.
  intros Hm Hz. unfold slice. rewrite !concat_app.
  pose proof (blen_pos (concat a)). pose proof (blen_pos (concat m)). pose proof (blen_pos (concat z)).
  rewrite !blen_app.
  replace (0 <=? blen (concat a)) with true by lia.
  replace (blen (concat a) <=? blen (concat a) + blen (concat m)) with true by lia.
  replace (blen (concat a) + blen (concat m) <=? blen (concat a) + (blen (concat m) + blen (concat z))) with true by lia.
  replace (Z.to_nat (blen (concat a))) with (length (concat a)) by (unfold blen; lia).
  replace (Z.to_nat (blen (concat a) + blen (concat m))) with (length (concat (a ++ m)))
    by (rewrite concat_app, app_length; unfold blen; lia).
  rewrite <- concat_app, boundary_app by (apply Forall_app; auto).
  rewrite concat_app, app_assoc, <- concat_app, boundary_app by exact Hz. cbn [andb].
  replace (Z.to_nat (blen (concat a) + blen (concat m) - blen (concat a))) with (length (concat m)) by (unfold blen; lia).
  rewrite concat_app, <- app_assoc, skipn_app, skipn_all, Nat.sub_diag. cbn [skipn app].
  now rewrite firstn_app, firstn_all, Nat.sub_diag, firstn_O, app_nil_r.
Qed.

(** Searching a strictly increasing list. *)
Inductive increasing : list Z -> Prop :=
| inc_nil : increasing []
| inc_cons x l : Forall (fun y => x < y) l -> increasing l -> increasing (x :: l).
Lemma increasing_nth l : increasing l -> forall i j x y, (i < j)%nat -> nth_error l i = Some x -> nth_error l j = Some y -> x < y.
Proof.
  induction 1 as [|a l Ha Hl IH]; intros i j x y Hij Hi Hj; [destruct i; discriminate|].
  destruct j as [|j]; [lia|]. cbn in Hj. destruct i as [|i]; cbn in Hi.
  - injection Hi as <-. rewrite Forall_forall in Ha. apply Ha. eapply nth_error_In; eassumption.
  - eapply IH; [|eassumption|eassumption]. lia.
Qed.
Lemma search_lines a b pos : increasing (a ++ b) -> Forall (fun x => x <= pos) a -> Forall (fun x => pos < x) b ->
  exists r, binary_search (fun l => l ?= pos) (a ++ b) = Some r /\
    match r with inl i => (i + 1)%nat | inr i => i end = length a.
Proof.
  intros Hi Ha Hb. pose proof (binary_search_spec (fun l => l ?= pos) (a ++ b)) as S.
  rewrite Forall_forall in Ha, Hb.
  destruct (binary_search _ _) as [[i|k]|]; [| |destruct S].
  - exists (inl i). split; [reflexivity|]. destruct S as (x & Hx & E). apply Z.compare_eq in E. subst x.
    assert (i < length a)%nat.
    { destruct (Nat.lt_ge_cases i (length a)) as [L|L]; [exact L|]. rewrite nth_error_app2 in Hx by lia.
      apply nth_error_In, Hb in Hx. lia. }
    assert (~ (S i < length a)%nat); [|lia]. intros L.
    destruct (nth_error (a ++ b) (S i)) as [y|] eqn:Y.
    + assert (pos < y) by (eapply (increasing_nth _ Hi i (S i)); eauto).
      rewrite nth_error_app1 in Y by lia. apply nth_error_In, Ha in Y. lia.
    + apply nth_error_None in Y. rewrite app_length in Y. lia.
  - exists (inr k). split; [reflexivity|]. destruct S as [Hk S].
    assert (Ho : ordered_by (fun l => l ?= pos) (a ++ b)).
    { intros i j x y Hij Hx Hy. pose proof (increasing_nth _ Hi _ _ _ _ Hij Hx Hy).
      rewrite !Z.compare_lt_iff, !Z.compare_gt_iff. lia. }
    specialize (S Ho). rewrite app_length in Hk.
    assert (~ (k < length a)%nat).
    { intros L. destruct (nth_error (a ++ b) k) as [x|] eqn:X; [|apply nth_error_None in X; rewrite app_length in X; lia].
      destruct (S _ _ X) as [_ G]. specialize (G (le_n _)). rewrite Z.compare_gt_iff in G.
      rewrite nth_error_app1 in X by exact L. apply nth_error_In, Ha in X. lia. }
    assert (~ (length a < k)%nat); [|lia]. intros L.
    destruct (nth_error (a ++ b) (length a)) as [x|] eqn:X; [|apply nth_error_None in X; rewrite app_length in X; lia].
    destruct (S _ _ X) as [G _]. specialize (G L). rewrite Z.compare_lt_iff in G.
    rewrite nth_error_app2, Nat.sub_diag in X by lia. apply nth_error_In, Hb in X. lia.
Qed.

Lemma offsets_increasing s : forall n, increasing (newline_offsets n s).
Proof.
  induction s as [|b s IH]; intros n; cbn [newline_offsets]; [constructor|].
  destruct (Byte.eqb b x0a); [|apply IH]. constructor; [|apply IH]. apply Forall_forall. intros y K. apply offsets_range in K. lia.
Qed.
Lemma increasing_map k l : increasing l -> increasing (map (fun o => k + o) l).
Proof.
  induction 1 as [|x l Hx Hl IH]; cbn; constructor; [|exact IH]. apply Forall_map.
  eapply Forall_impl; [|exact Hx]. cbn. lia.
Qed.

(** The file as it is loaded at [low], all positions being in range. *)
Lemma new_file_lines low path s : 0 <= low -> low + blen s < 2 ^ 32 ->
  new_file low path s =
  {| f_path := path; f_low := low; f_lines := map (fun o => (low + 1) + o) (newline_offsets 0 s);
     f_high := low + blen s; f_source := s |}.
Proof.
  intros H1 H2. pose proof (blen_pos s). unfold new_file. f_equal.
  - apply map_ext_in. intros o K. apply offsets_range in K. unfold pos_add. rewrite (wrap_small 32 (low + o)) by lia.
    rewrite wrap_small by lia. lia.
  - unfold pos_add. apply wrap_small. lia.
Qed.

Section OneFile.
Variables (low : Z) (path : str) (text before left right after : list str).
Hypothesis (Hlow : 0 <= low) (Hfit : low + blen (concat text) < 2 ^ 32) (Hchars : Forall is_char text).
Hypothesis Hline : on_line text before left right after.
Let f := new_file low path (concat text).
Let pos := low + blen (concat (before ++ left)).

Lemma parts_chars : Forall is_char before /\ Forall is_char left /\ Forall is_char right /\ Forall is_char after.
Proof. destruct Hline as [E _ _ _]. rewrite E in Hchars. now rewrite !Forall_app in Hchars. Qed.

Lemma newline_char : is_char newline.
Proof. exists x0a, []. repeat split; constructor. Qed.

Lemma all_offsets : newline_offsets 0 (concat text) =
  newline_offsets 0 (concat before) ++ newline_offsets (blen (concat (before ++ left))) (concat (right ++ after)).
Proof.
  destruct parts_chars as (Hb & Hl & Hr & Ha). destruct Hline as [E _ Nl _].
  rewrite E, (app_assoc before left), (concat_app (before ++ left)), offsets_app, Z.add_0_l. f_equal.
  now rewrite concat_app, offsets_app, (offsets_none left), app_nil_r.
Qed.

Lemma line_low : match newlines before with
  | O => Some (O, f_low f)
  | S i => match nth_error (f_lines f) i with Some low => Some (newlines before, low) | None => None end
  end = Some (newlines before, low + blen (concat before)).
Proof.
  destruct parts_chars as (Hb & Hl & Hr & Ha).
  unfold f. rewrite new_file_lines by assumption. cbn [f_lines f_low].
  destruct (ol_before _ _ _ _ _ Hline) as [Eb|(l & Eb)].
  - rewrite Eb. unfold newlines, blen. cbn [count_occ concat length Z.of_nat]. now rewrite Z.add_0_r.
  - assert (N : newlines before = S (newlines l)).
    { rewrite Eb. unfold newlines. rewrite count_occ_app. cbn [count_occ]. destruct (list_eq_dec _ _); [apply Nat.add_1_r|congruence]. }
    rewrite N, all_offsets, map_app, nth_error_app1 by (rewrite map_length, offsets_count by exact Hb; lia).
    rewrite Eb in Hb |- *. apply Forall_app in Hb. destruct Hb as [Hb _].
    rewrite concat_app, offsets_app, map_app, nth_error_app2; rewrite map_length, offsets_count by exact Hb; [|lia].
    rewrite Nat.sub_diag, blen_app. change (concat [newline]) with [x0a]. cbn [newline_offsets Byte.eqb map nth_error].
    change (Byte.eqb x0a x0a) with true. cbn [map nth_error]. change (blen [x0a]) with 1. f_equal. f_equal. lia.
Qed.

Lemma search_pos : exists r, binary_search (fun l => l ?= pos) (f_lines f) = Some r /\
    match r with inl i => (i + 1)%nat | inr i => i end = newlines before.
Proof.
  destruct parts_chars as (Hb & Hl & Hr & Ha).
  unfold f. rewrite new_file_lines by assumption. cbn [f_lines]. rewrite all_offsets, map_app.
  rewrite <- (offsets_count before Hb 0), <- (map_length (fun o => low + 1 + o)).
  apply search_lines.
  - rewrite <- map_app, <- all_offsets. apply increasing_map, offsets_increasing.
  - apply Forall_map, Forall_forall. intros o K. apply offsets_range in K. unfold pos.
    rewrite concat_app, blen_app. pose proof (blen_pos (concat left)). lia.
  - apply Forall_map, Forall_forall. intros o K. apply offsets_range in K. unfold pos. lia.
Qed.

Lemma lookup_one : file_lookup f pos = Done (Some (newlines before, length left)).
Proof.
  destruct parts_chars as (Hb & Hl & Hr & Ha).
  destruct search_pos as (r & Hs & Hi). unfold file_lookup. rewrite Hs, Hi.
  assert (F : f_low f = low) by reflexivity.
  pose proof (blen_pos (concat (before ++ left))).
  replace (pos <? f_low f) with false by (rewrite F; unfold pos; lia).
  rewrite line_low. unfold source_slice. cbn [sp_low sp_high]. rewrite F.
  assert (S : slice (f_source f) (low + blen (concat before) - low) (pos - low) = Done (concat left)).
  { change (f_source f) with (concat text). destruct Hline as [E _ _ _]. rewrite E. unfold pos.
    replace (low + blen (concat before) - low) with (blen (concat before)) by lia.
    replace (low + blen (concat (before ++ left)) - low) with (blen (concat (before ++ left))) by lia.
    apply slice_chars; [exact Hl|]. apply Forall_app; auto. }
  rewrite S. cbn [obind]. now rewrite char_count_concat.
Qed.

Lemma line_one : enclosing_line f (newlines before) = Done (concat (left ++ right)).
Proof.
  destruct parts_chars as (Hb & Hl & Hr & Ha). unfold enclosing_line.
  assert (L : match newlines before with
              | O => Done (f_low f)
              | S i => match nth_error (f_lines f) i with Some l => Done l | None => Fail Panicked end
              end = Done (low + blen (concat before)) :> outcome unwind Z).
  { pose proof line_low as K. destruct (newlines before); [congruence|]. destruct (nth_error (f_lines f) n); congruence. }
  rewrite L. cbn [obind].
  assert (H : match nth_error (f_lines f) (newlines before) with Some h => h | None => f_high f end =
              low + blen (concat (before ++ left ++ right))).
  { unfold f. rewrite new_file_lines by assumption. cbn [f_lines f_high]. rewrite all_offsets, map_app, nth_error_app2;
      rewrite map_length, offsets_count by exact Hb; [|lia]. rewrite Nat.sub_diag.
    destruct (ol_right _ _ _ _ _ Hline) as [[N Ea]|(r & Er & N)].
    - rewrite (ol_text _ _ _ _ _ Hline), Ea, !app_nil_r, (offsets_none right) by assumption. reflexivity.
    - rewrite Er in Hr |- *. apply Forall_app in Hr. destruct Hr as [Hr _]. rewrite !concat_app, !offsets_app, (offsets_none r) by assumption.
      change (concat [newline]) with [x0a]. rewrite !blen_app. cbn [app newline_offsets]. change (Byte.eqb x0a x0a) with true.
      cbn [app map nth_error]. change (blen [x0a]) with 1. lia. }
  rewrite H. unfold source_slice. cbn [sp_low sp_high]. change (f_low f) with low. change (f_source f) with (concat text).
  destruct Hline as [E _ _ _]. rewrite E.
  replace (low + blen (concat before) - low) with (blen (concat before)) by lia.
  replace (low + blen (concat (before ++ left ++ right)) - low) with (blen (concat (before ++ left ++ right))) by lia.
  rewrite (app_assoc left right after). apply slice_chars; [now apply Forall_app|exact Ha].
Qed.
End OneFile.

(** ** All files *)

Lemma base_S fs i s : nth_error fs i = Some s -> base fs (S i) = base fs i + (blen (text_of s) + 1).
Proof.
  unfold base. revert i. induction fs as [|x fs IH]; intros [|i] H; try discriminate; cbn in H.
  - injection H as ->. cbn. lia.
  - specialize (IH i H). cbn [firstn map fold_right] in *. lia.
Qed.
Lemma base_mono fs : forall i j, (i <= j)%nat -> base fs i <= base fs j.
Proof.
  unfold base. induction fs as [|x fs IH]; intros i j H; [destruct i, j; cbn; lia|].
  destruct i as [|i]; destruct j as [|j]; try lia; cbn [firstn map fold_right].
  - specialize (IH 0%nat j). cbn in IH. pose proof (blen_pos (text_of x)). cbn. lia.
  - specialize (IH i j). lia.
Qed.
Lemma base_app fs gs i : (i <= length fs)%nat -> base (fs ++ gs) i = base fs i.
Proof. intros H. unfold base. rewrite firstn_app. replace (i - length fs)%nat with 0%nat by lia. now rewrite firstn_O, app_nil_r. Qed.
Lemma base_nonneg fs i : 0 <= base fs i.
Proof. pose proof (base_mono fs 0 i ltac:(lia)). unfold base in *. cbn in *. lia. Qed.

Lemma loaded_app fs s : loaded (fs ++ [s]) = files_add (loaded fs) (fst s) (text_of s).
Proof. unfold loaded. rewrite fold_left_app. reflexivity. Qed.

Lemma loaded_nth fs : base fs (length fs) <= 2 ^ 32 ->
  length (loaded fs) = length fs /\
  forall i s, nth_error fs i = Some s -> nth_error (loaded fs) i = Some (new_file (base fs i) (fst s) (text_of s)).
Proof.
  induction fs as [|s fs IH] using rev_ind; intros H.
  - split; [reflexivity|]. intros [|i] s E; discriminate.
  - rewrite app_length in H. cbn [length] in H. replace (length fs + 1)%nat with (S (length fs)) in H by lia.
    rewrite (base_S _ _ s) in H by (rewrite nth_error_app2, Nat.sub_diag by lia; reflexivity).
    rewrite base_app in H by lia. pose proof (blen_pos (text_of s)).
    destruct IH as [L IH]; [lia|]. rewrite loaded_app. unfold files_add.
    set (low := match rev (loaded fs) with [] => 0 | f :: _ => pos_add (f_high f) 1 end).
    assert (Elow : low = base fs (length fs)).
    { unfold low. destruct (loaded fs) as [|f r] eqn:E using rev_ind.
      - cbn. destruct fs; [reflexivity|discriminate].
      - clear IHr. rewrite rev_unit. rewrite app_length in L. cbn [length] in L.
        destruct (nth_error fs (length r)) as [x|] eqn:X; [|apply nth_error_None in X; lia].
        pose proof (IH _ _ X) as K. rewrite nth_error_app2, Nat.sub_diag in K by lia. injection K as ->.
        replace (length fs) with (S (length r)) in * by lia. rewrite (base_S _ _ _ X) in *.
        pose proof (base_nonneg fs (length r)). pose proof (blen_pos (text_of x)).
        unfold new_file. cbn [f_high]. unfold pos_add. rewrite (wrap_small 32 (base fs (length r) + blen (text_of x))) by lia.
        rewrite wrap_small by lia. lia. }
    rewrite Elow. split; [rewrite !app_length; cbn; lia|].
    intros i x E. destruct (Nat.lt_ge_cases i (length fs)) as [Li|Li].
    + rewrite nth_error_app1 in E by exact Li. rewrite nth_error_app1 by lia. rewrite base_app by lia. now apply IH.
    + assert (i = length fs) as ->.
      { assert (i < length (fs ++ [s]))%nat by (apply nth_error_Some; congruence). rewrite app_length in *. cbn in *. lia. }
      rewrite nth_error_app2, Nat.sub_diag in E by lia. injection E as <-.
      rewrite nth_error_app2, L, Nat.sub_diag by lia. cbn. now rewrite base_app.
Qed.

(** The file found for a position. *)
Lemma loaded_span fs i s f : base fs (length fs) <= 2 ^ 32 -> nth_error fs i = Some s -> nth_error (loaded fs) i = Some f ->
  f_low f = base fs i /\ f_high f = base fs i + blen (text_of s) /\ f_high f < 2 ^ 32.
Proof.
  intros H E F. destruct (loaded_nth _ H) as [_ G]. rewrite (G _ _ E) in F. injection F as <-.
  pose proof (base_nonneg fs i). pose proof (blen_pos (text_of s)).
  assert (base fs (S i) <= base fs (length fs)).
  { apply base_mono. assert (i < length fs)%nat by (apply nth_error_Some; congruence). lia. }
  rewrite (base_S _ _ _ E) in *. cbn [new_file f_low f_high]. unfold pos_add. rewrite wrap_small by lia. lia.
Qed.

Lemma lookup_file_hit fs i s pos : base fs (length fs) <= 2 ^ 32 -> nth_error fs i = Some s ->
  base fs i <= pos <= base fs i + blen (text_of s) ->
  lookup_file (loaded fs) pos = Some (new_file (base fs i) (fst s) (text_of s)).
Proof.
  intros H E P. destruct (loaded_nth _ H) as [L G]. unfold lookup_file.
  pose proof (binary_search_spec (fun f => span_compare (file_span f) pos) (loaded fs)) as BS.
  assert (Hsp : forall j f, nth_error (loaded fs) j = Some f -> exists t, nth_error fs j = Some t /\
    f_low f = base fs j /\ f_high f = base fs j + blen (text_of t) /\ base fs (S j) = f_high f + 1).
  { intros j f Hj. destruct (nth_error fs j) as [t|] eqn:T.
    - exists t. destruct (loaded_span _ _ _ _ H T Hj) as (A & B & _). rewrite (base_S _ _ _ T). repeat split; auto. lia.
    - apply nth_error_None in T. assert (j < length (loaded fs))%nat by (apply nth_error_Some; congruence). lia. }
  assert (Hcmp : forall j f, nth_error (loaded fs) j = Some f ->
    (j = i -> span_compare (file_span f) pos = Eq) /\ ((j < i)%nat -> span_compare (file_span f) pos = Lt) /\
    ((i < j)%nat -> span_compare (file_span f) pos = Gt)).
  { intros j f Hj. destruct (Hsp _ _ Hj) as (t & T & A & B & C). unfold span_compare, file_span. cbn [sp_low sp_high].
    rewrite A, B in *. pose proof (blen_pos (text_of t)). repeat split; intros K.
    - subst j. rewrite T in E. injection E as ->. destruct (Z.ltb_spec pos (base fs i)); [lia|].
      destruct (Z.ltb_spec (base fs i + blen (text_of s)) pos); [lia|reflexivity].
    - pose proof (base_mono fs (S j) i ltac:(lia)). pose proof (base_mono fs j (S j) ltac:(lia)).
      destruct (Z.ltb_spec pos (base fs j)); [lia|]. destruct (Z.ltb_spec (base fs j + blen (text_of t)) pos); [reflexivity|lia].
    - pose proof (base_mono fs (S i) j ltac:(lia)). rewrite (base_S _ _ _ E) in *.
      destruct (Z.ltb_spec pos (base fs j)); [reflexivity|lia]. }
  destruct (binary_search _ _) as [[j|k]|]; [| |destruct BS].
  - destruct BS as (f & Hj & Ef). destruct (Hcmp _ _ Hj) as (A & B & C). rewrite <- (G _ _ E).
    destruct (Nat.lt_total j i) as [K|[->|K]]; [rewrite B in Ef by exact K; discriminate|reflexivity|rewrite C in Ef by exact K; discriminate].
  - destruct BS as [_ BS]. exfalso. assert (Ho : ordered_by (fun f => span_compare (file_span f) pos) (loaded fs)).
    { intros a b x y Hab Hx Hy. destruct (Hcmp _ _ Hx) as (A1 & B1 & C1). destruct (Hcmp _ _ Hy) as (A2 & B2 & C2). split; intros K.
      - apply B1. destruct (Nat.lt_total b i) as [M|[M|M]]; [lia|rewrite A2 in K by exact M; discriminate|rewrite C2 in K by exact M; discriminate].
      - apply C2. destruct (Nat.lt_total a i) as [M|[M|M]]; [rewrite B1 in K by exact M; discriminate|rewrite A1 in K by exact M; discriminate|lia]. }
    specialize (BS Ho i _ (G _ _ E)). destruct (Hcmp _ _ (G _ _ E)) as (A & _). specialize (A eq_refl). rewrite A in BS.
    destruct BS as [S1 S2]. destruct (Nat.lt_ge_cases i k); [specialize (S1 H0)|specialize (S2 H0)]; discriminate.
Qed.

(** For every position between two characters of a loaded file: the file is
    found, with the number of newlines before the position as line, the number
    of characters since the start of the line as column, and the text of that
    line. *)
Theorem C34_lookup fs i path text before left right after : fits fs ->
  nth_error fs i = Some (path, text) -> on_line text before left right after ->
  let pos := base fs i + blen (concat (before ++ left)) in
  exists f, lookup_file (loaded fs) pos = Some f /\ f_path f = path /\ f_source f = concat text /\
    file_lookup f pos = Done (Some (newlines before, length left)) /\
    enclosing_line f (newlines before) = Done (concat (left ++ right)).
Proof.
  intros [Hc Hf] E Hl pos.
  assert (Hbound : base fs i + blen (concat text) < 2 ^ 32).
  { destruct (loaded_nth _ Hf) as [_ G]. destruct (loaded_span _ _ _ _ Hf E (G _ _ E)) as (_ & A & B). rewrite A in B. exact B. }
  assert (Hchars : Forall is_char text).
  { rewrite Forall_forall in Hc. exact (Hc _ (nth_error_In _ _ E)). }
  exists (new_file (base fs i) path (concat text)). split; [|split; [|split; [|split]]]; try reflexivity.
  - apply (lookup_file_hit fs i (path, text)); [exact Hf|exact E|]. unfold pos, text_of. cbn [snd].
    destruct Hl as [-> _ _ _]. rewrite (app_assoc before), (concat_app (before ++ left)), blen_app.
    pose proof (blen_pos (concat (right ++ after))). pose proof (blen_pos (concat (before ++ left))). lia.
  - eapply lookup_one; [apply base_nonneg|exact Hbound|exact Hchars|exact Hl].
  - eapply line_one; [apply base_nonneg|exact Hbound|exact Hchars|exact Hl].
Qed.
Print Assumptions C34_lookup.

(** A span between two such positions of one file is found with both ends. *)
Theorem C34_lookup_span fs i path text b1 l1 r1 a1 b2 l2 r2 a2 : fits fs ->
  nth_error fs i = Some (path, text) -> on_line text b1 l1 r1 a1 -> on_line text b2 l2 r2 a2 ->
  exists f, files_lookup (loaded fs) (Span (base fs i + blen (concat (b1 ++ l1))) (base fs i + blen (concat (b2 ++ l2)))) =
      Done (Some (f, (newlines b1, length l1), (newlines b2, length l2))) /\ f_path f = path /\ f_source f = concat text.
Proof.
  intros Hf E H1 H2.
  destruct (C34_lookup _ _ _ _ _ _ _ _ Hf E H1) as (f & A & B & C & D & _).
  destruct (C34_lookup _ _ _ _ _ _ _ _ Hf E H2) as (f' & A' & _ & _ & D' & _).
  exists f. unfold files_lookup. cbn [sp_low sp_high]. rewrite A, D. cbn [obind].
  assert (f' = f) as ->; [|rewrite D'; auto].
  destruct Hf as [Hc Hf].
  assert (K : forall b l r a, on_line text b l r a ->
    lookup_file (loaded fs) (base fs i + blen (concat (b ++ l))) = Some (new_file (base fs i) path (concat text))).
  { intros b l r a [-> _ _ _]. apply (lookup_file_hit fs i (path, b ++ l ++ r ++ a)); [exact Hf|exact E|]. unfold text_of. cbn [snd].
    rewrite (app_assoc b), (concat_app (b ++ l)), blen_app.
    pose proof (blen_pos (concat (r ++ a))). pose proof (blen_pos (concat (b ++ l))). lia. }
  rewrite (K _ _ _ _ H1) in A. rewrite (K _ _ _ _ H2) in A'. congruence.
Qed.
Print Assumptions C34_lookup_span.

(** Files never overlap: all positions of a file, its end included, are smaller
    than those of the files loaded after it; and beyond the last file nothing is
    found. *)
Theorem C34_disjoint fs i j s : nth_error fs i = Some s -> (i < j)%nat -> base fs i + blen (text_of s) < base fs j.
Proof. intros E H. pose proof (base_mono fs (S i) j ltac:(lia)). rewrite (base_S _ _ _ E) in *. lia. Qed.
Print Assumptions C34_disjoint.

Theorem C34_outside fs pos : base fs (length fs) <= 2 ^ 32 -> base fs (length fs) <= pos -> lookup_file (loaded fs) pos = None.
Proof.
  intros H P. unfold lookup_file.
  pose proof (binary_search_spec (fun f => span_compare (file_span f) pos) (loaded fs)) as BS.
  destruct (binary_search _ _) as [[j|k]|]; [|reflexivity|destruct BS]. exfalso.
  destruct BS as (f & Hj & Ef). destruct (loaded_nth _ H) as [L _].
  destruct (nth_error fs j) as [t|] eqn:T.
  - destruct (loaded_span _ _ _ _ H T Hj) as (A & B & _). unfold span_compare, file_span in Ef. cbn [sp_low sp_high] in Ef.
    assert (j < length fs)%nat by (apply nth_error_Some; congruence).
    pose proof (base_mono fs (S j) (length fs) ltac:(lia)). rewrite (base_S _ _ _ T) in *. pose proof (blen_pos (text_of t)).
    destruct (Z.ltb_spec pos (f_low f)); [discriminate|]. destruct (Z.ltb_spec (f_high f) pos); [discriminate|lia].
  - apply nth_error_None in T. assert (j < length (loaded fs))%nat by (apply nth_error_Some; congruence). lia.
Qed.
Print Assumptions C34_outside.

(** Three files, the second empty, the third without a final newline and with a
    character of two bytes; the position before the last character. *)
Definition ex_files : list source :=
  [(lit "a", [[x61]; newline]); (lit "b", []); (lit "c", [[x61]; newline; [xc3; xa9]; [x62]; [x63]])].
Example C34_example : fits ex_files /\ base ex_files 2 = 4 /\
  on_line [[x61]; newline; [xc3; xa9]; [x62]; [x63]] [[x61]; newline] [[xc3; xa9]; [x62]] [[x63]] [] /\
  exists f, files_lookup (loaded ex_files) (Span 9 9) = Done (Some (f, (1%nat, 2%nat), (1%nat, 2%nat))) /\ f_path f = lit "c".
Proof.
  split; [|split; [reflexivity|split]].
  - split; [|vm_compute; discriminate].
    assert (C : forall b, is_cont b = false -> is_char [b]) by (intros b H; exists b, []; repeat split; auto).
    repeat constructor; try (apply C; reflexivity). exists xc3, [xa9]. repeat split; [repeat constructor|discriminate].
  - constructor; [reflexivity|right; exists [[x61]]; reflexivity| |left]; vm_compute; intuition discriminate.
  - eexists. split; vm_compute; reflexivity.
Qed.
