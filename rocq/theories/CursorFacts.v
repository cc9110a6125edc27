(** Proofs about the cursor and label resolution. *)
From Coq Require Import ZArith List Bool Lia ZifyBool ZifyNat.
From Verif Require Import Bytes BytesFacts Bytecode BytecodeFacts Search Cursor CursorSpec.
Import ListNotations.
Open Scope Z_scope.

(** * C13 *)
Lemma absolute_relative a b : in_u 16 a -> in_u 16 b -> absolute (relative a b) b = a.
Proof.
  unfold in_u, absolute, relative, wrap_u, wrap_s. change (2 ^ 16) with 65536. change (2 ^ (16 - 1)) with 32768.
  intros Ha Hb. Z.div_mod_to_equations. lia.
Qed.
Lemma relative_range a b : in_s 16 (relative a b).
Proof. unfold relative, in_s, wrap_s. change (2 ^ 16) with 65536. change (2 ^ (16 - 1)) with 32768. Z.div_mod_to_equations. lia. Qed.
Lemma relative_absolute o p : in_s 16 o -> in_u 16 p -> relative (absolute o p) p = o.
Proof.
  unfold in_u, in_s, absolute, relative, wrap_u, wrap_s. change (2 ^ 16) with 65536. change (2 ^ (16 - 1)) with 32768.
  intros Ha Hb. Z.div_mod_to_equations. lia.
Qed.

Lemma some_inj {A} (a b : A) : Some a = Some b -> a = b.
Proof. congruence. Qed.

(** * Running sums *)
Lemma running_length {L} (c : code L) : forall s, length (running s c) = length c.
Proof. induction c as [|i c IH]; intros s; cbn; [reflexivity|]. now rewrite IH. Qed.

Lemma total_firstn_le {L} (c : code L) k : total (firstn k c) <= total c.
Proof.
  rewrite <- (firstn_skipn k c) at 2. rewrite total_app. pose proof (total_nonneg (skipn k c)). lia.
Qed.

Lemma running_nth {L} (c : code L) : forall s k, 0 <= s -> s + total c < 65536 -> (k < length c)%nat ->
  nth_error (running s c) k = Some (s + total (firstn (S k) c)).
Proof.
  induction c as [|i c IH]; intros s k Hs Ht Hk; cbn [length] in Hk; [lia|].
  cbn [total] in Ht. pose proof (instr_size_range i). pose proof (total_nonneg c).
  cbn [running]. rewrite wrap_u_id by (unfold in_u; change (2 ^ 16) with 65536; lia).
  destruct k as [|k]; cbn [nth_error firstn total].
  - f_equal. cbn. lia.
  - rewrite IH by lia. f_equal. cbn [firstn total]. lia.
Qed.


Lemma total_firstn_lt {L} (c : code L) i j : sized c -> (i < j)%nat -> (j <= length c)%nat ->
  total (firstn i c) < total (firstn j c).
Proof.
  intros Hs Hij Hj.
  assert (E : firstn j c = firstn i c ++ firstn (j - i) (skipn i c)).
  { rewrite <- (firstn_skipn i (firstn j c)). rewrite firstn_firstn, Nat.min_l by lia. f_equal.
    rewrite skipn_firstn_comm. reflexivity. }
  rewrite E, total_app.
  destruct (skipn i c) as [|x r] eqn:Er.
  { apply (f_equal (@length _)) in Er. rewrite skipn_length in Er. cbn in Er. lia. }
  destruct (j - i)%nat as [|d] eqn:Ed; [lia|]. cbn [firstn total].
  assert (Hx : 0 < instr_size x).
  { unfold sized in Hs. rewrite Forall_forall in Hs. apply Hs.
    assert (In x (skipn i c)) by (rewrite Er; now left).
    rewrite <- (firstn_skipn i c). apply in_or_app. now right. }
  pose proof (total_nonneg (firstn d r)). lia.
Qed.

Lemma get_index_spec {L} (c : code L) (cur : cursor L) p :
  sized c -> total c < 65536 -> cu_offsets cur = running 0 c ->
  (forall i, get_index cur p = inl i -> (i <= length c)%nat /\ total (firstn i c) = p) /\
  (forall i, (i <= length c)%nat -> total (firstn i c) = p -> get_index cur p = inl i).
Proof.
  intros Hs Ht Ho. unfold get_index. rewrite Ho.
  destruct (Z.eqb_spec p 0) as [->|Np].
  - split.
    + intros i [= <-]. split; [lia|reflexivity].
    + intros [|i] Hi E; [reflexivity|]. exfalso.
      pose proof (total_firstn_lt c 0 (S i) Hs ltac:(lia) Hi). change (total (firstn 0 c)) with 0 in H. lia.
  - assert (Hord : ordered_by (fun i => i ?= p) (running 0 c)).
    { intros i j x y Hij Hx Hy.
      assert (Hi : (i < length c)%nat) by (rewrite <- (running_length c 0); apply nth_error_Some; congruence).
      assert (Hj : (j < length c)%nat) by (rewrite <- (running_length c 0); apply nth_error_Some; congruence).
      rewrite running_nth in Hx, Hy by lia. apply some_inj in Hx, Hy. subst x y.
      pose proof (total_firstn_lt c (S i) (S j) Hs ltac:(lia) ltac:(lia)).
      split; intros HH; [apply Z.compare_lt_iff; apply (proj1 (Z.compare_lt_iff _ _)) in HH; lia|apply Z.compare_gt_iff; apply (proj1 (Z.compare_gt_iff _ _)) in HH; lia]. }
    pose proof (binary_search_spec (fun i => i ?= p) (running 0 c)) as B.
    destruct (binary_search _ _) as [[i|k]|]; [| |contradiction].
    + destruct B as (x & Hx & E).
      assert (Hi : (i < length c)%nat) by (rewrite <- (running_length c 0); apply nth_error_Some; congruence).
      rewrite running_nth in Hx by lia. apply some_inj in Hx. subst x. apply Z.compare_eq_iff in E.
      split.
      * intros j [= <-]. split; [lia|assumption].
      * intros j Hj Ej. f_equal. destruct (Nat.lt_trichotomy j (S i)) as [Hlt|[->|Hlt]]; [|reflexivity|]; exfalso.
        -- pose proof (total_firstn_lt c j (S i) Hs Hlt ltac:(lia)). lia.
        -- pose proof (total_firstn_lt c (S i) j Hs Hlt ltac:(lia)). lia.
    + split; [discriminate|]. intros [|i] Hi E; [cbn in E; congruence|]. exfalso.
      destruct B as (_ & B). specialize (B Hord i p).
      rewrite running_nth in B by lia. cbn [Z.add] in B. rewrite E in B. specialize (B eq_refl).
      rewrite Z.compare_refl in B. destruct (Nat.lt_ge_cases i k); [apply B in H|apply B in H]; discriminate.
Qed.

(** * C12 *)
Definition cursor_on {L} (c : code L) (cur : cursor L) : Prop :=
  cu_code cur = c /\ cu_offsets cur = running 0 c /\ (cu_index cur <= length c)%nat.

Lemma on_new {L} (c : code L) : cursor_on c (new_cursor c).
Proof. split; [reflexivity|]. split; [reflexivity|]. cbn. lia. Qed.
Lemma on_pop {L} (c : code L) cur i cur' : cursor_on c cur -> pop cur = inl (i, cur') -> cursor_on c cur'.
Proof.
  intros (H1 & H2 & H3) E. unfold pop in E. destruct (nth_error _ _) eqn:En; [|discriminate]. injection E as <- <-.
  split; [assumption|]. split; [assumption|]. cbn [cu_index].
  assert (cu_index cur < length (cu_code cur))%nat by (apply nth_error_Some; congruence). rewrite H1 in H. lia.
Qed.
Lemma on_seek {L} (c : code L) cur p cur' : sized c -> total c < 65536 ->
  cursor_on c cur -> seek_abs cur p = inl cur' -> cursor_on c cur'.
Proof.
  intros Hs Ht (H1 & H2 & H3) E. unfold seek_abs in E.
  destruct (get_index cur p) as [i|] eqn:Ei; [|discriminate]. injection E as <-.
  destruct (get_index_spec c cur p Hs Ht H2) as (G & _). apply G in Ei. split; [assumption|]. split; [assumption|]. cbn. lia.
Qed.

Lemma pos_on {L} (c : code L) cur : total c < 65536 -> cursor_on c cur -> pos cur = inl (total (firstn (cu_index cur) c)).
Proof.
  intros Ht (H1 & H2 & H3). unfold pos. rewrite H2. destruct (cu_index cur) as [|n]; [reflexivity|].
  now rewrite running_nth by lia.
Qed.

Lemma skipn_nth {A} (l : list A) k : match nth_error l k with Some x => skipn k l = x :: skipn (S k) l | None => skipn k l = [] end.
Proof.
  revert k. induction l as [|a l IH]; intros [|k]; cbn [nth_error]; try reflexivity.
  specialize (IH k). destruct (nth_error l k); cbn [skipn] in *; assumption.
Qed.

Lemma firstn_S_nth {A} (l : list A) k x : nth_error l k = Some x -> firstn (S k) l = firstn k l ++ [x].
Proof.
  revert k. induction l as [|a l IH]; intros [|k] H; try discriminate; cbn in *.
  - congruence.
  - f_equal. now apply IH.
Qed.

Lemma drain_spec {L} (c : code L) : total c < 65536 -> forall fuel cur, cursor_on c cur ->
  (length c - cu_index cur < fuel)%nat ->
  drain fuel cur = code_iter (total (firstn (cu_index cur) c)) (skipn (cu_index cur) c).
Proof.
  intros Ht. induction fuel as [|fuel IH]; intros cur Hon Hf; [lia|]. cbn [drain].
  rewrite (pos_on c cur Ht Hon). destruct Hon as (H1 & H2 & H3). unfold pop. rewrite H1.
  pose proof (skipn_nth c (cu_index cur)) as Hk. destruct (nth_error c (cu_index cur)) as [i|] eqn:En; rewrite Hk; [|reflexivity].
  cbn [code_iter]. f_equal.
  assert (Hi : (cu_index cur < length c)%nat) by (apply nth_error_Some; congruence).
  rewrite IH; [|repeat split; cbn [cu_code cu_offsets cu_index]; lia || assumption|cbn [cu_index]; lia].
  cbn [cu_index]. f_equal. pose proof (firstn_S_nth c _ _ En) as E.
  pose proof (total_firstn_le c (S (cu_index cur))) as Hle. rewrite E, total_app in *. cbn [total] in *.
  pose proof (total_nonneg (firstn (cu_index cur) c)). pose proof (instr_size_range i).
  rewrite wrap_u_id; [lia|]. unfold in_u. change (2 ^ 16) with 65536. lia.
Qed.

Lemma code_iter_app {L} (a b : code L) : forall s, 0 <= s -> s + total (a ++ b) < 65536 ->
  code_iter s (a ++ b) = code_iter s a ++ code_iter (s + total a) b.
Proof.
  induction a as [|i a IH]; intros s Hs Ht; cbn [app code_iter total] in *.
  - now rewrite Z.add_0_r.
  - pose proof (instr_size_range i). pose proof (total_nonneg (a ++ b)).
    rewrite wrap_u_id by (unfold in_u; change (2 ^ 16) with 65536; lia). rewrite IH by lia.
    cbn [app]. do 2 f_equal. f_equal. lia.
Qed.
Lemma code_iter_length {L} (a : code L) : forall s, length (code_iter s a) = length a.
Proof. induction a as [|i a IH]; intros s; cbn; [reflexivity|]. now rewrite IH. Qed.

Lemma seek_lemma {L} (c : code L) cur p : sized c -> total c < 65536 -> cursor_on c cur ->
  (forall cur', seek_abs cur p = inl cur' -> exists pre post, c = pre ++ post /\ total pre = p) /\
  (forall pre post, c = pre ++ post -> total pre = p ->
    exists cur', seek_abs cur p = inl cur' /\ pos cur' = inl p /\ peek cur' = hd_error post /\
      drain (S (length c)) cur' = code_iter p post /\
      code_iter p post = skipn (length pre) (code_iter 0 c)).
Proof.
  intros Hs Ht Hon. destruct (get_index_spec c cur p Hs Ht (proj1 (proj2 Hon))) as (G1 & G2). split.
  - intros cur' E. unfold seek_abs in E. destruct (get_index cur p) as [i|] eqn:Ei; [|discriminate].
    specialize (G1 i eq_refl). exists (firstn i c), (skipn i c). split; [symmetry; apply firstn_skipn|tauto].
  - intros pre post Ec Ep.
    assert (Ef : firstn (length pre) c = pre) by (rewrite Ec, firstn_app, firstn_all, Nat.sub_diag, firstn_O, app_nil_r; reflexivity).
    assert (Es : skipn (length pre) c = post) by (rewrite Ec, skipn_app, skipn_all, Nat.sub_diag; reflexivity).
    assert (Hl : (length pre <= length c)%nat) by (rewrite Ec, app_length; lia).
    specialize (G2 (length pre) Hl ltac:(now rewrite Ef)). unfold seek_abs. rewrite G2.
    eexists. split; [reflexivity|].
    set (cur' := {| cu_code := _; cu_offsets := _; cu_index := _ |}).
    assert (Hon' : cursor_on c cur') by (destruct Hon as (A & B & _); repeat split; assumption).
    split; [rewrite (pos_on c) by assumption; cbn [cu_index cur']; now rewrite Ef, Ep|].
    split. { unfold peek, cur'. cbn [cu_code cu_index]. destruct Hon as (-> & _). rewrite Ec.
             rewrite nth_error_app2, Nat.sub_diag by lia. destruct post; reflexivity. }
    split. { rewrite (drain_spec c Ht) by (try assumption; cbn [cu_index cur']; lia). cbn [cu_index cur']. now rewrite Ef, Es, Ep. }
    rewrite Ec at 1. rewrite code_iter_app by (rewrite <- ?Ec; lia). rewrite skipn_app, code_iter_length, Nat.sub_diag.
    rewrite skipn_all2 by (rewrite code_iter_length; lia). cbn [app skipn]. now rewrite <- Ep.
Qed.

Lemma range_lemma {L} (c : code L) cur a b d : sized c -> total c < 65536 -> cursor_on c cur -> c = a ++ b ++ d ->
  range cur (total a) (total (a ++ b)) = inl (code_iter (total a) b).
Proof.
  intros Hs Ht Hon E. unfold range.
  destruct (get_index_spec c cur (total a) Hs Ht (proj1 (proj2 Hon))) as (_ & G1).
  destruct (get_index_spec c cur (total (a ++ b)) Hs Ht (proj1 (proj2 Hon))) as (_ & G2).
  rewrite (G1 (length a)), (G2 (length (a ++ b))).
  - rewrite app_length. destruct (Nat.leb_spec (length a) (length a + length b)); [|lia].
    replace (length a + length b - length a)%nat with (length b) by lia.
    destruct Hon as (-> & _). rewrite E, skipn_app, skipn_all, Nat.sub_diag. cbn [app skipn].
    rewrite firstn_app, firstn_all, Nat.sub_diag, firstn_O, app_nil_r. reflexivity.
  - rewrite E, !app_length. lia.
  - rewrite E, app_assoc, firstn_app, firstn_all, Nat.sub_diag, firstn_O, app_nil_r. reflexivity.
  - rewrite E, app_length. lia.
  - rewrite E, firstn_app, firstn_all, Nat.sub_diag, firstn_O, app_nil_r. reflexivity.
Qed.

(** * Label resolution *)
Lemma locs_map_loc {L M} (f : L -> M) i : locs (map_loc f i) = map f (locs i).
Proof. destruct i; reflexivity. Qed.
Lemma map_loc_map {A B C} (f : A -> B) (g : B -> C) i : map_loc g (map_loc f i) = map_loc (fun x => g (f x)) i.
Proof. destruct i; reflexivity. Qed.
Lemma target_size {L} (l : L) : instr_size (Target l) = 0.
Proof. reflexivity. Qed.
Lemma is_target_inv {L} (i : instr L) : is_target i = true -> exists l, i = Target l.
Proof. destruct i; try discriminate. eauto. Qed.

Lemma set_nth_length l i v : (i < length l)%nat -> length (set_nth l i v) = length l.
Proof. intros H. unfold set_nth. rewrite app_length, firstn_length. cbn [length]. rewrite skipn_length. lia. Qed.
Lemma set_nth_same l i v d : (i < length l)%nat -> nth i (set_nth l i v) d = v.
Proof.
  intros H. unfold set_nth. rewrite app_nth2 by (rewrite firstn_length; lia). rewrite firstn_length.
  replace (i - Nat.min i (length l))%nat with O by lia. reflexivity.
Qed.
Lemma set_nth_other l i j v d : (i < length l)%nat -> i <> j -> nth j (set_nth l i v) d = nth j l d.
Proof.
  intros H N. unfold set_nth. destruct (Nat.lt_ge_cases j i) as [L|L].
  - rewrite app_nth1 by (rewrite firstn_length; lia). rewrite <- (firstn_skipn i l) at 2.
    rewrite app_nth1 by (rewrite firstn_length; lia). reflexivity.
  - rewrite app_nth2 by (rewrite firstn_length; lia). rewrite firstn_length.
    replace (j - Nat.min i (length l))%nat with (S (j - S i))%nat by lia. cbn [nth].
    rewrite <- (firstn_skipn (S i) l) at 2. rewrite app_nth2 by (rewrite firstn_length; lia). rewrite firstn_length.
    replace (Nat.min (S i) (length l)) with (S i) by lia. reflexivity.
Qed.

Lemma place_labels_spec (c : code label) : forall s ls, 0 <= s -> s + total c < 65536 ->
  (forall l, In (Target l) c -> (l < length ls)%nat) ->
  exists ls', place_labels (code_iter s c) ls = Some ls' /\ length ls' = length ls /\
   (forall l, ~ In (Target l) c -> nth l ls' 0 = nth l ls 0) /\
   (forall l pre post, c = pre ++ Target l :: post -> ~ In (Target l) post -> nth l ls' 0 = s + total pre).
Proof.
  induction c as [|i c IH]; intros s ls Hs Ht Hl.
  - exists ls. repeat split; try reflexivity. intros l pre post E. destruct pre; discriminate.
  - cbn [total] in Ht. pose proof (instr_size_range i). pose proof (total_nonneg c).
    cbn [code_iter]. rewrite wrap_u_id by (unfold in_u; change (2 ^ 16) with 65536; lia).
    destruct (is_target i) eqn:Et.
    + apply is_target_inv in Et. destruct Et as (l0 & ->).
      assert (Hl0 : (l0 < length ls)%nat) by (apply Hl; now left).
      cbn [place_labels]. destruct (Nat.ltb_spec l0 (length ls)); [|lia].
      destruct (IH (s + instr_size (Target l0)) (set_nth ls l0 s)) as (ls' & E & El & Ek & Ep); try lia.
      { intros l Hi. rewrite set_nth_length by assumption. apply Hl. now right. }
      exists ls'. split; [assumption|]. rewrite set_nth_length in El by assumption. split; [assumption|]. split.
      * intros l Hn. rewrite Ek by (intros Hi; apply Hn; now right). apply set_nth_other; [assumption|].
        intros ->. apply Hn. now left.
      * intros l pre post E' Hn. destruct pre as [|x pre]; cbn [app] in E'; injection E' as E1 E2.
        -- subst l0 post. rewrite Ek by assumption. rewrite set_nth_same by assumption. cbn. lia.
        -- subst x. rewrite (Ep l pre post E2 Hn). cbn [total]. lia.
    + assert (E0 : place_labels ((s, i) :: code_iter (s + instr_size i) c) ls = place_labels (code_iter (s + instr_size i) c) ls)
        by (destruct i; try reflexivity; discriminate Et).
      destruct (IH (s + instr_size i) ls) as (ls' & E & El & Ek & Ep); try lia.
      { intros l Hi. apply Hl. now right. }
      exists ls'. rewrite E0. split; [assumption|]. split; [assumption|]. split.
      * intros l Hn. apply Ek. intros Hi. apply Hn. now right.
      * intros l pre post E' Hn. destruct pre as [|x pre]; cbn [app] in E'; injection E' as E1 E2.
        -- subst i. discriminate Et.
        -- subst x. rewrite (Ep l pre post E2 Hn). cbn [total]. lia.
Qed.

(** The resolved instruction at [loc]. *)
Definition resolved (targets : list Z) (loc : Z) (i : instr label) : instr Z :=
  map_loc (fun l => relative (nth l targets 0) loc) i.

Lemma resolve_all_spec targets (c : code label) : forall s, 0 <= s -> s + total c < 65536 ->
  Forall (fun i => Forall (fun l => (l < length targets)%nat) (locs i)) c ->
  exists out, resolve_all targets (code_iter s c) = Some out /\ total out = total c /\
   Forall (fun i => is_target i = false) out /\
   forall pre i post, c = pre ++ i :: post -> is_target i = false ->
     exists p q, out = p ++ resolved targets (s + total pre) i :: q /\ total p = total pre /\
       length p = length (filter (fun i => negb (is_target i)) pre).
Proof.
  induction c as [|i c IH]; intros s Hs Ht Hl.
  - exists []. repeat split; try reflexivity; try constructor. intros pre i post E. destruct pre; discriminate.
  - cbn [total] in Ht. pose proof (instr_size_range i). pose proof (total_nonneg c).
    inversion Hl as [|? ? Hi Hc]; subst.
    destruct (IH (s + instr_size i) ltac:(lia) ltac:(lia) Hc) as (out & E & Et & Hnt & Hp).
    cbn [code_iter resolve_all]. rewrite wrap_u_id by (unfold in_u; change (2 ^ 16) with 65536; lia).
    destruct (is_target i) eqn:Ei.
    + apply is_target_inv in Ei. destruct Ei as (l0 & ->). rewrite target_size in *.
      exists out. split; [assumption|]. split; [cbn [total]; rewrite target_size; lia|]. split; [assumption|].
      intros pre j post E' Hj. destruct pre as [|x pre]; cbn [app] in E'; injection E' as E1 E2.
      * subst j. discriminate Hj.
      * subst x. destruct (Hp pre j post E2 Hj) as (p & q & H1 & H2 & H3). exists p, q. cbn [total filter is_target negb].
        rewrite target_size. rewrite H1. split; [|split; [lia|assumption]].
        now replace (s + (0 + total pre)) with (s + 0 + total pre) by lia.
    + unfold resolve_labels.
      assert (Hb : forallb (fun l => (l <? length targets)%nat) (locs i) = true).
      { apply forallb_forall. rewrite Forall_forall in Hi. intros l Hin. apply Nat.ltb_lt. auto. }
      rewrite Hb, E. exists (resolved targets s i :: out). split; [reflexivity|].
      split. { cbn [total]. unfold resolved. rewrite instr_size_map, Et. reflexivity. }
      split. { constructor; [|assumption]. unfold resolved. destruct i; try reflexivity; discriminate Ei. }
      intros pre j post E' Hj. destruct pre as [|x pre]; cbn [app] in E'; injection E' as E1 E2.
      * subst j. exists [], out. cbn [app total]. rewrite Z.add_0_r. repeat split; reflexivity.
      * subst x. destruct (Hp pre j post E2 Hj) as (p & q & H1 & H2 & H3).
        exists (resolved targets s i :: p), q. cbn [app total filter]. rewrite Ei. cbn [negb length].
        split; [|split; [unfold resolved; rewrite instr_size_map, H2; reflexivity|lia]].
        rewrite H1. now replace (s + (instr_size i + total pre)) with (s + instr_size i + total pre) by lia.
Qed.

Lemma into_code_lemma n (c : code label) : labels_below n c -> total c < 65536 ->
  exists out, into_code n c = Some out /\ total out = total c /\ Forall (fun i => is_target i = false) out /\
   length out = length (filter (fun i => negb (is_target i)) c) /\
   forall pre i post, c = pre ++ i :: post -> is_target i = false ->
     exists p j q, out = p ++ j :: q /\ total p = total pre /\
       length p = length (filter (fun i => negb (is_target i)) pre) /\
       map_loc (fun _ => tt) j = map_loc (fun _ => tt) i /\
       Forall2 (fun l o => in_s 16 o /\ forall p1 p2, c = p1 ++ Target l :: p2 -> ~ In (Target l) p2 ->
                           absolute o (total p) = total p1) (locs i) (locs j).
Proof.
  intros Hl Ht. unfold into_code.
  destruct (place_labels_spec c 0 (repeat 0 n)) as (ls & E & El & _ & Ep); try lia.
  { intros l Hi. unfold labels_below in Hl. rewrite Forall_forall in Hl. specialize (Hl _ Hi). cbn in Hl.
    inversion Hl; subst. now rewrite repeat_length. }
  rewrite repeat_length in El.
  destruct (resolve_all_spec ls c 0) as (out & Er & Etot & Hnt & Hr); try lia.
  { rewrite El. exact Hl. }
  rewrite E. exists out. split; [assumption|]. split; [assumption|]. split; [assumption|]. split.
  - clear - Er. revert out Er. generalize 0 as s. induction c as [|i c IH]; intros s out Er; cbn [code_iter resolve_all] in Er.
    + injection Er as <-. reflexivity.
    + cbn [filter]. destruct (is_target i); cbn [negb]; [now apply IH in Er|].
      destruct (resolve_labels _ _ _); [|discriminate]. destruct (resolve_all _ _) eqn:Er'; [|discriminate].
      injection Er as <-. cbn [length]. f_equal. now apply IH in Er'.
  - intros pre i post Ec Hi. destruct (Hr pre i post Ec Hi) as (p & q & H1 & H2 & H3). rewrite Z.add_0_l in H1.
    exists p, (resolved ls (total pre) i), q. split; [assumption|]. split; [assumption|]. split; [assumption|].
    split. { unfold resolved. now rewrite map_loc_map. }
    unfold resolved. rewrite locs_map_loc.
    assert (Hil : Forall (fun l => (l < n)%nat) (locs i)).
    { unfold labels_below in Hl. rewrite Forall_forall in Hl. apply Hl. rewrite Ec. apply in_elt. }
    clear Hr H1. induction (locs i) as [|l lst IHl]; cbn [map]; constructor.
    + split; [apply relative_range|]. intros p1 p2 E1 Hn. rewrite H2. rewrite (Ep l p1 p2 E1 Hn), Z.add_0_l.
      assert (Hpre : 0 <= total pre < 65536).
      { pose proof (total_nonneg pre). rewrite Ec, total_app in Ht. cbn [total] in Ht. pose proof (instr_size_range i).
        pose proof (total_nonneg post). lia. }
      assert (Hp1 : 0 <= total p1 < 65536).
      { pose proof (total_nonneg p1). rewrite E1, total_app in Ht. cbn [total] in Ht.
        pose proof (instr_size_range (Target l)). pose proof (total_nonneg p2). lia. }
      apply absolute_relative; unfold in_u; change (2 ^ 16) with 65536; lia.
    + apply IHl. now inversion Hil.
Qed.

Lemma reachable_on {L} (c : code L) cur : sized c -> total c < 65536 -> cursor_of c cur -> cursor_on c cur.
Proof.
  intros Hs Ht H. induction H as [|cur i cur' _ IH E|cur p cur' _ IH E|cur o cur' _ IH E].
  - apply on_new.
  - eapply on_pop; eauto.
  - eapply on_seek; eauto.
  - unfold seek_rel in E. destruct (pos cur); [|discriminate]. eapply on_seek; eauto.
Qed.
