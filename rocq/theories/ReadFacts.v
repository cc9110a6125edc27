(** Reading code with a cursor that stands between two pieces of code (proof device). *)
From Coq Require Import String.
From Coq Require Import ZArith List Bool Lia.
From Verif Require Import Bytes BytesFacts Bytecode BytecodeFacts Definitions Bundle Ast TypeNames Pool Scope TypeCheck Cursor CursorSpec CursorFacts Decompiler.
Import ListNotations.
Open Scope Z_scope.

Definition cur (pre rest : code Z) : dcursor :=
  {| cu_code := pre ++ rest; cu_offsets := running 0 (pre ++ rest); cu_index := length pre |}.
Lemma cur_on pre rest : cursor_on (pre ++ rest) (cur pre rest).
Proof. split; [reflexivity|]. split; [reflexivity|]. cbn. rewrite app_length. lia. Qed.
Lemma cur_new c : new_cursor c = cur [] c. Proof. reflexivity. Qed.
Lemma cur_shift pre i rest : cur (pre ++ [i]) rest = {| cu_code := pre ++ i :: rest; cu_offsets := running 0 (pre ++ i :: rest); cu_index := S (length pre) |}.
Proof. unfold cur. rewrite <- app_assoc, app_length. cbn [app length]. f_equal. lia. Qed.
Lemma xpop_cur pre i rest : xpop (cur pre (i :: rest)) = Done (i, cur (pre ++ [i]) rest).
Proof.
  unfold xpop, pop. cbn [cur cu_code cu_index]. rewrite nth_error_app2, Nat.sub_diag by lia. cbn [nth_error].
  rewrite cur_shift. reflexivity.
Qed.
Lemma xpop_end pre : xpop (cur pre []) = Fail DEnd.
Proof.
  unfold xpop, pop. cbn [cur cu_code cu_index]. rewrite app_nil_r.
  replace (nth_error pre (length pre)) with (@None (instr Z)) by (symmetry; apply nth_error_None; lia). reflexivity.
Qed.
Lemma xpeek_cur pre rest : xpeek (cur pre rest) = Done (hd_error rest, cur pre rest).
Proof.
  unfold xpeek, peek. cbn [cur cu_code cu_index]. rewrite nth_error_app2, Nat.sub_diag by lia. destruct rest; reflexivity.
Qed.
Definition fits (c : code Z) : Prop := sized c /\ total c < 65536.
Lemma xpos_cur pre rest : total (pre ++ rest) < 65536 -> xpos (cur pre rest) = Done (total pre, cur pre rest).
Proof.
  intros H. unfold xpos, pos. cbn [cur cu_offsets cu_index]. destruct (length pre) as [|n] eqn:E.
  - apply length_zero_iff_nil in E. subst pre. reflexivity.
  - rewrite running_nth; [|lia|lia|rewrite app_length; lia]. rewrite <- E, firstn_app, firstn_all, Nat.sub_diag, firstn_O, app_nil_r. reflexivity.
Qed.
Lemma xseek_cur pre rest pre' rest' : fits (pre ++ rest) -> pre ++ rest = pre' ++ rest' -> xseek (total pre') (cur pre rest) = Done (tt, cur pre' rest').
Proof.
  intros [S T] E. unfold xseek, seek_abs.
  destruct (get_index_spec _ (cur pre rest) (total pre') S T eq_refl) as (_ & G).
  rewrite (G (length pre')).
  - cbn [of_cursor cur cu_code cu_offsets]. unfold cur. rewrite E. reflexivity.
  - rewrite E, app_length. lia.
  - rewrite E, firstn_app, firstn_all, Nat.sub_diag, firstn_O, app_nil_r. reflexivity.
Qed.
Lemma xrange_cur pre rest a b d : fits (pre ++ rest) -> pre ++ rest = a ++ b ++ d ->
  xrange (total a) (total (a ++ b)) (cur pre rest) = Done (code_iter (total a) b, cur pre rest).
Proof.
  intros [S T] E. unfold xrange. rewrite (range_lemma _ (cur pre rest) a b d S T (cur_on _ _) E). reflexivity.
Qed.
Lemma xbind_done {A B} (m : X A) (k : A -> X B) c a c' : m c = Done (a, c') -> xbind m k c = k a c'.
Proof. intros H. unfold xbind. rewrite H. reflexivity. Qed.
Ltac popped T := cbn [consume_with app]; rewrite (xbind_done _ _ _ _ _ (xpos_cur _ _ T)); cbv beta; cbn [app]; rewrite (xbind_done _ _ _ _ _ (xpop_cur _ _ _)); cbv beta.
Ltac readp H n T :=
  match goal with |- xbind _ _ (cur ?pre (?q ++ ?post)) = _ =>
    rewrite (xbind_done _ _ _ _ _ (H n ltac:(lia) None pre post ltac:(rewrite <- ?app_assoc; cbn [app]; exact T))); cbv beta end.
