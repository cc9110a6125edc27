(** slice::binary_search_by of the Rust standard library (core/src/slice/mod.rs,
    the bisection loop in use when the project was pinned). *)
From Coq Require Import ZArith List Bool Lia Arith.
Import ListNotations.

(** [left], [right] delimit the part still searched; the result is the index of
    an element for which [f] gives [Eq], or the insertion point.  [fuel] bounds
    the number of halvings; the length of the slice plus one is enough
    (binary_search_fuel below: running out would return [Panic]). *)
Fixpoint bsearch_loop {A} (f : A -> comparison) (l : list A) (fuel left right : nat) : option (nat + nat) :=
  match fuel with
  | O => None
  | S fuel' =>
    if left <? right then
      let mid := left + (right - left) / 2 in
      match nth_error l mid with
      | None => None
      | Some x =>
        match f x with
        | Eq => Some (inl mid)
        | Lt => bsearch_loop f l fuel' (mid + 1) right
        | Gt => bsearch_loop f l fuel' left mid
        end
      end
    else Some (inr left)
  end.
Definition binary_search {A} (f : A -> comparison) (l : list A) : option (nat + nat) :=
  bsearch_loop f l (S (length l)) 0 (length l).

(** [f] orders the slice: first [Lt]s, then [Eq]s, then [Gt]s. *)
Definition ordered_by {A} (f : A -> comparison) (l : list A) : Prop :=
  forall i j x y, i < j -> nth_error l i = Some x -> nth_error l j = Some y ->
    (f y = Lt -> f x = Lt) /\ (f x = Gt -> f y = Gt).

Lemma half_lt n : 0 < n -> n / 2 < n.
Proof. intros H. apply Nat.div_lt; lia. Qed.

Lemma bsearch_loop_spec {A} (f : A -> comparison) l : forall fuel left right,
  right - left < fuel -> right <= length l -> left <= right ->
  (forall i x, nth_error l i = Some x -> i < left -> ordered_by f l -> f x = Lt) ->
  (forall i x, nth_error l i = Some x -> right <= i -> ordered_by f l -> f x = Gt) ->
  match bsearch_loop f l fuel left right with
  | None => False
  | Some (inl i) => exists x, nth_error l i = Some x /\ f x = Eq
  | Some (inr k) => k <= length l /\ (ordered_by f l ->
      forall i x, nth_error l i = Some x -> (i < k -> f x = Lt) /\ (k <= i -> f x = Gt))
  end.
Proof.
  induction fuel as [|fuel IH]; intros left right Hf Hr Hlr HL HR; [lia|]. cbn [bsearch_loop].
  destruct (Nat.ltb_spec left right) as [L|L].
  - set (mid := left + (right - left) / 2).
    assert (Hm : left <= mid < right) by (unfold mid; pose proof (half_lt (right - left)); lia).
    destruct (nth_error l mid) as [x|] eqn:E.
    + destruct (f x) eqn:Ex.
      * eauto.
      * apply IH; try lia; [|assumption]. intros i y Hi Hlt Ho.
        destruct (Nat.eq_dec i mid) as [->|]; [congruence|].
        destruct (Nat.lt_ge_cases i mid) as [L'|L']; [|lia].
        apply (Ho i mid y x L' Hi E). assumption.
      * apply IH; try lia; [assumption|]. intros i y Hi Hlt Ho.
        destruct (Nat.eq_dec i mid) as [->|]; [congruence|].
        apply (Ho mid i x y); [lia|assumption..].
    + apply nth_error_None in E. lia.
  - split; [lia|]. intros Ho i x Hi. split; intros Hk; [now apply (HL i)|apply (HR i); [assumption|lia|assumption]].
Qed.

(** An index that is returned does hold a match; if none is returned for an
    ordered slice, there is no match, and the insertion point separates the
    smaller from the greater elements. *)
Lemma binary_search_spec {A} (f : A -> comparison) l :
  match binary_search f l with
  | None => False
  | Some (inl i) => exists x, nth_error l i = Some x /\ f x = Eq
  | Some (inr k) => k <= length l /\ (ordered_by f l ->
      forall i x, nth_error l i = Some x -> (i < k -> f x = Lt) /\ (k <= i -> f x = Gt))
  end.
Proof.
  unfold binary_search. apply bsearch_loop_spec; try lia.
  intros i x Hi Hge _. assert (i < length l) by (apply nth_error_Some; congruence). lia.
Qed.
