(** Type name properties: C10, C11. *)
From Coq Require Import String.
From Coq Require Import ZArith List Bool Lia.
From Verif Require Import Bytes BytesFacts Bytecode Definitions Bundle BundleFacts Ast TypeNames TypeNamesSpec TypeNamesFacts.
Import ListNotations.
Open Scope Z_scope.

(** * C10 *)

(** Type names with at most one argument per level (all that the pool stores)
    survive the conversion to the pool representation and back. *)
Theorem C10_repr_roundtrip : forall t, tn_ok t -> unary t -> from_repr (repr t) = t.
Proof. exact from_repr_repr_lemma. Qed.
Print Assumptions C10_repr_roundtrip.

(** Every string is the representation of the type name it parses to, which has
    at most one argument per level. *)
Theorem C10_from_repr_exact : forall s, repr (from_repr s) = s /\ unary (from_repr s).
Proof. intros s. split; [apply repr_from_repr_lemma|apply unary_from_repr]. Qed.
Print Assumptions C10_from_repr_exact.

Theorem C10_repr_injective : forall t1 t2, tn_ok t1 -> unary t1 -> tn_ok t2 -> unary t2 ->
  repr t1 = repr t2 -> t1 = t2.
Proof.
  intros t1 t2 H1 U1 H2 U2 E. rewrite <- (from_repr_repr_lemma t1), <- (from_repr_repr_lemma t2) by assumption.
  now rewrite E.
Qed.
Print Assumptions C10_repr_injective.

Example C10_example :
  let t := TypeName (lit "array") (Some [TypeName (lit "ref") (Some [tn_basic (lit "GameObject")])]) in
  tn_ok t /\ unary t /\ repr t = lit "array:ref:GameObject" /\ from_repr (lit "array:ref:GameObject") = t.
Proof.
  cbv zeta. split; [|split; [|split; reflexivity]].
  - tn_ok_tac.
  - repeat constructor.
Qed.

(** With several arguments the representation is ambiguous: A<B, C> and A<B<C>>. *)
Theorem C10_several_arguments_refuted : exists t1 t2, tn_ok t1 /\ tn_ok t2 /\ t1 <> t2 /\ repr t1 = repr t2 /\
  from_repr (repr t1) <> t1.
Proof.
  exists (TypeName (lit "A") (Some [tn_basic (lit "B"); tn_basic (lit "C")])).
  exists (TypeName (lit "A") (Some [TypeName (lit "B") (Some [tn_basic (lit "C")])])).
  split; [tn_ok_tac|]. split; [tn_ok_tac|]. repeat split; discriminate.
Qed.
Print Assumptions C10_several_arguments_refuted.

(** * C11 *)

(** Ordinary functions: not an operator, not a cast, not callback, exec or
    native (those use the bare name). *)
Definition ordinary (f : sig_source) : Prop :=
  binop_of_name (ss_name f) = None /\ ss_name f <> lit "Cast" /\
  ss_callback f = false /\ ss_exec f = false /\ ss_native f = false.

(** As stated the property is false: parameter types are appended without a
    separator, so f(A, B) and f(AB) share the signature "f;AB". *)
Theorem C11_signature_refuted : exists f1 f2, ordinary f1 /\ ordinary f2 /\ ss_name f1 = ss_name f2 /\
  Forall tn_ok (map fst (ss_params f1)) /\ Forall tn_ok (map fst (ss_params f2)) /\
  ~ Forall2 same_unwrapped (map fst (ss_params f1)) (map fst (ss_params f2)) /\
  signature f1 = signature f2.
Proof.
  pose (mk := fun ps => {| ss_name := lit "f"; ss_callback := false; ss_exec := false; ss_native := false;
                           ss_params := ps; ss_return := None |}).
  exists (mk [(tn_basic (lit "A"), false); (tn_basic (lit "B"), false)]), (mk [(tn_basic (lit "AB"), false)]).
  split; [repeat split; discriminate|]. split; [repeat split; discriminate|]. split; [reflexivity|].
  split; [tn_ok_tac|].
  split; [tn_ok_tac|].
  split; [|reflexivity]. intros H. inversion H as [|? ? ? ? _ H']; subst. inversion H'.
Qed.
Print Assumptions C11_signature_refuted.

(** What does hold: single type names are identified exactly up to ref/wref... *)
Theorem C11_mangled_name_iff : forall t1 t2, tn_ok t1 -> tn_ok t2 ->
  (mangled t1 = mangled t2 <-> same_unwrapped t1 t2).
Proof. exact mangled_iff_lemma. Qed.
Print Assumptions C11_mangled_name_iff.

(** ... and whole signatures are, as long as no parameter type's mangled name is
    a proper prefix of another's.  Missing for the full statement: lists where
    one type name is a prefix of another. *)
Theorem C11_signature_identifies_partial : forall f1 f2, ordinary f1 -> ordinary f2 -> ss_name f1 = ss_name f2 ->
  let l1 := map fst (ss_params f1) in let l2 := map fst (ss_params f2) in
  Forall tn_ok l1 -> Forall tn_ok l2 ->
  prefix_free (map mangled (l1 ++ l2)) -> ~ In [] (map mangled (l1 ++ l2)) ->
  (signature f1 = signature f2 <-> Forall2 same_unwrapped l1 l2).
Proof.
  intros f1 f2 (O1 & C1 & A1 & B1 & N1) (O2 & C2 & A2 & B2 & N2) En l1 l2 H1 H2 Hp Hne.
  rewrite <- (forall2_concat l1 l2) by assumption. unfold signature.
  rewrite O1, O2, A1, A2, B1, B2, N1, N2.
  destruct (str_eqb_spec (ss_name f1) (lit "Cast")); [contradiction|].
  destruct (str_eqb_spec (ss_name f2) (lit "Cast")); [contradiction|].
  cbn [negb andb orb]. rewrite !fold_sig, En. unfold l1, l2. rewrite !map_map. split.
  - intros E. now apply app_inv_head in E.
  - now intros ->.
Qed.
Print Assumptions C11_signature_identifies_partial.

(** Casts also record the return type. *)
Theorem C11_cast_signature_partial : forall f1 f2,
  ss_name f1 = lit "Cast" -> ss_name f2 = lit "Cast" ->
  let l1 := map fst (ss_params f1) in let l2 := map fst (ss_params f2) in
  Forall tn_ok l1 -> Forall tn_ok l2 ->
  prefix_free (map mangled (l1 ++ l2)) -> ~ In [] (map mangled (l1 ++ l2)) ->
  forall r1 r2, ss_return f1 = Some r1 -> ss_return f2 = Some r2 -> tn_ok r1 -> tn_ok r2 ->
  (signature f1 = signature f2 <-> Forall2 same_unwrapped l1 l2 /\ same_unwrapped r1 r2).
Proof.
  intros f1 f2 E1 E2 l1 l2 H1 H2 Hp Hne r1 r2 R1 R2 Hr1 Hr2.
  rewrite <- (forall2_concat l1 l2), <- mangled_iff_lemma by assumption. unfold signature.
  rewrite E1, E2, R1, R2.
  change (binop_of_name (lit "Cast")) with (@None binop).
  change (str_eqb (lit "Cast") (lit "Cast")) with true. cbn [negb andb orb].
  rewrite !fold_sig. unfold sig_return. rewrite <- !app_assoc. unfold l1, l2 in *. rewrite !map_map.
  split.
  - intros E. apply app_inv_head in E. apply split_at in E; [assumption| |].
    + rewrite <- map_map. now apply concat_no_semi.
    + rewrite <- map_map. now apply concat_no_semi.
  - now intros [-> ->].
Qed.
Print Assumptions C11_cast_signature_partial.

(** The plain name can be recovered from any signature (member lookup relies on
    it). *)
Theorem C11_signature_name : forall f, ~ In x3b (ss_name f) -> sig_name (signature f) = ss_name f.
Proof. exact sig_name_lemma. Qed.
Print Assumptions C11_signature_name.

Example C11_example :
  let mk ps := {| ss_name := lit "Run"; ss_callback := false; ss_exec := false; ss_native := false;
                  ss_params := ps; ss_return := None |} in
  let a := TypeName (lit "ref") (Some [tn_basic (lit "Player")]) in
  let b := TypeName (lit "array") (Some [a]) in
  ordinary (mk [(a, false); (b, false)]) /\
  signature (mk [(a, false); (b, false)]) = lit "Run;Playerarray<Player>" /\
  prefix_free (map mangled [a; b]) /\ sig_name (lit "Run;Playerarray<Player>") = lit "Run".
Proof.
  cbv zeta. split; [repeat split; discriminate|]. split; [reflexivity|]. split; [|reflexivity].
  intros x y z Hx Hy E. cbn in Hx, Hy. destruct Hx as [<-|[<-|[]]], Hy as [<-|[<-|[]]]; try discriminate E.
  - change (mangled (TypeName (lit "ref") (Some [tn_basic (lit "Player")]))) with (lit "Player") in E.
    cbn in E. congruence.
  - cbn in E. injection E as E. now symmetry.
Qed.
