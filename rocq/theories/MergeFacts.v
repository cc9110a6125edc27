(** Facts about merge_declarations, and about what the decompiler can return. *)
From Coq Require Import String.
From Coq Require Import ZArith List Bool Lia Permutation.
From Verif Require Import Bytes Definitions Bundle BundleFacts Ast TypeNames Pool Scope TypeCheck PartsSpec Cursor Bytecode Decompiler MergeSpec.
Import ListNotations.
Open Scope Z_scope.

Lemma lm_remove_some n m t m' : lm_remove n m = Some (t, m') -> Permutation m ((n, t) :: m').
Proof.
  revert m'; induction m as [|[k u] m IH]; intros m' H; [discriminate|].
  cbn [lm_remove] in H. destruct (str_eqb_spec n k) as [<-|E].
  - injection H as <- <-. reflexivity.
  - destruct (lm_remove n m) as [[t' m'']|] eqn:R; [|discriminate]. injection H as <- <-.
    rewrite (IH m'' eq_refl). apply perm_swap.
Qed.
Lemma lm_remove_none n m : lm_remove n m = None <-> ~ In n (map fst m).
Proof.
  induction m as [|[k u] m IH]; cbn [lm_remove map fst]; [split; auto|].
  destruct (str_eqb_spec n k) as [<-|E].
  - split; [discriminate|intros H; exfalso; apply H; left; reflexivity].
  - destruct (lm_remove n m) as [[t' m'']|] eqn:R; split; intros H0; try discriminate.
    + exfalso. apply H0. right. destruct IH as [_ IH]. destruct (in_dec (list_eq_dec Byte.byte_eq_dec) n (map fst m)) as [I|I]; [exact I|].
      specialize (IH I). discriminate.
    + intros [I|I]; [congruence|]. apply IH; auto.
    + reflexivity.
Qed.

Lemma declared_app a b : declared (a ++ b) = declared a ++ declared b.
Proof. induction a as [|e a IH]; [reflexivity|]. destruct e; cbn [app declared]; rewrite IH; reflexivity. Qed.
Definition typed_local (x : str * typename) : str * option typename := (fst x, Some (snd x)).
Definition bare (x : str * typename) : sexpr := EDeclare (N := source_ast) (fst x) (Some (snd x)) None span0.
Lemma declared_bare m : declared (map bare m) = map typed_local m.
Proof. induction m as [|[n t] m IH]; [reflexivity|]. cbn [map bare declared]. rewrite IH. reflexivity. Qed.

Lemma merge_leading_keeps seq : forall m m' init rest, merge_leading m seq = (m', init, rest) ->
  exists lead, seq = lead ++ rest /\ Forall2 keeps lead init /\ Forall is_assign lead /\
    Permutation (map typed_local m' ++ declared init) (map typed_local m).
Proof.
  induction seq as [|e seq IH]; intros m m' init rest H.
  - injection H as <- <- <-. exists []. split; [reflexivity|]. split; [constructor|]. split; [constructor|].
    cbn [declared]. rewrite app_nil_r. reflexivity.
  - assert (STOP : (m, @nil sexpr, e :: seq) = (m', init, rest) ->
      exists lead, e :: seq = lead ++ rest /\ Forall2 keeps lead init /\ Forall is_assign lead /\
      Permutation (map typed_local m' ++ declared init) (map typed_local m)).
    { intros E. injection E as <- <- <-. exists []. split; [reflexivity|]. split; [constructor|]. split; [constructor|].
      cbn [declared]. rewrite app_nil_r. reflexivity. }
    destruct e; try exact (STOP H). clear STOP.
    assert (KEEP : (let '(m', init, rest) := merge_leading m seq in (m', EAssign (N := source_ast) e1 e2 span0 :: init, rest)) = (m', init, rest) ->
      exists lead, EAssign (N := source_ast) e1 e2 sp :: seq = lead ++ rest /\ Forall2 keeps lead init /\ Forall is_assign lead /\
      Permutation (map typed_local m' ++ declared init) (map typed_local m)).
    { intros E. destruct (merge_leading m seq) as [[m1 i1] r1] eqn:R. injection E as <- <- <-.
      destruct (IH _ _ _ _ R) as (lead & -> & K & A & P). exists (EAssign (N := source_ast) e1 e2 sp :: lead).
      split; [reflexivity|]. split; [constructor; [constructor|exact K]|]. split; [constructor; [do 3 eexists; reflexivity|exact A]|exact P]. }
    cbn [merge_leading] in H. destruct e1; try exact (KEEP H).
    destruct (lm_remove r m) as [[t m1]|] eqn:R; [|exact (KEEP H)]. clear KEEP.
    destruct (merge_leading m1 seq) as [[m2 i2] r2] eqn:L. injection H as <- <- <-.
    destruct (IH _ _ _ _ L) as (lead & -> & K & A & P).
    exists (EAssign (N := source_ast) (EIdent (N := source_ast) r sp0) e2 sp :: lead).
    split; [reflexivity|]. split; [constructor; [constructor|exact K]|]. split; [constructor; [do 3 eexists; reflexivity|exact A]|].
    cbn [declared]. rewrite <- Permutation_middle. rewrite P.
    rewrite (lm_remove_some _ _ _ _ R). reflexivity.
Qed.

(** The statements, and what is declared. *)
Lemma merge_keeps m seq : exists decls kept, merge_declarations m seq = decls ++ kept /\
  Forall only_declares decls /\ Forall2 keeps seq kept.
Proof.
  unfold merge_declarations. destruct (merge_leading m seq) as [[m' init] rest] eqn:L.
  destruct (merge_leading_keeps _ _ _ _ _ L) as (lead & -> & K & _ & _).
  exists (map bare m'), (init ++ rest). split; [reflexivity|]. split.
  - apply Forall_map, Forall_forall. intros [n t] _. exists n, t, span0. reflexivity.
  - apply Forall2_app; [exact K|]. clear. induction rest; constructor; [constructor|assumption].
Qed.
Lemma merge_declares m seq : Permutation (declared (merge_declarations m seq)) (map typed_local m ++ declared seq).
Proof.
  unfold merge_declarations. destruct (merge_leading m seq) as [[m' init] rest] eqn:L.
  destruct (merge_leading_keeps _ _ _ _ _ L) as (lead & -> & _ & A & P).
  rewrite !declared_app. change (map (fun x => _) m') with (map bare m'). rewrite declared_bare, app_assoc.
  assert (D : declared lead = []).
  { clear -A. induction A as [|e l (x & y & z & ->) _ IH]; [reflexivity|exact IH]. }
  rewrite D, P. reflexivity.
Qed.

(** ** Occurrences. *)
Lemma mentions_bare n x : ~ mentions n (bare x).
Proof. intros [s W]. inversion W; subst. inversion H. Qed.
Lemma mentions_declare n k t r s : mentions n (EDeclare (N := source_ast) k t (Some r) s) <-> mentions n r.
Proof.
  split; intros [s' W].
  - inversion W; subst. inversion H; subst. exists s'. assumption.
  - exists s'. eapply wi_part; [apply pt_init|exact W].
Qed.
Lemma mentions_assign n l r s : mentions n (EAssign (N := source_ast) l r s) <-> mentions n l \/ mentions n r.
Proof.
  split.
  - intros [s' W]. inversion W; subst. inversion H; subst; [left|right]; exists s'; assumption.
  - intros [[s' W]|[s' W]]; exists s'; (eapply wi_part; [|exact W]); constructor.
Qed.
Lemma mentions_ident n k s : mentions n (EIdent (N := source_ast) k s) <-> n = k.
Proof.
  split.
  - intros [s' W]. inversion W; subst; [reflexivity|]. inversion H.
  - intros ->. exists s. constructor.
Qed.
Lemma keeps_back n a b : keeps a b -> mentions n b -> mentions n a.
Proof.
  intros K M. destruct K; [exact M| |].
  - apply mentions_assign. apply mentions_assign in M. exact M.
  - apply mentions_assign. right. exact (proj1 (mentions_declare _ _ _ _ _) M).
Qed.
Lemma keeps_forth n a b : keeps a b -> mentions n a -> mentions n b \/ exists s v s', a = EAssign (N := source_ast) (EIdent (N := source_ast) n s) v s'.
Proof.
  intros K M. destruct K; [left; exact M| |].
  - left. apply mentions_assign. apply mentions_assign in M. exact M.
  - apply mentions_assign in M. destruct M as [M|M].
    + apply mentions_ident in M. subst. right. do 3 eexists. reflexivity.
    + left. exact (proj2 (mentions_declare _ _ _ _ _) M).
Qed.
Lemma Forall2_in_l {A B} (R : A -> B -> Prop) l l' x : Forall2 R l l' -> In x l -> exists y, In y l' /\ R x y.
Proof.
  induction 1 as [|a b l l' H _ IH]; [intros []|]. intros [<-|I]; [exists b; split; [left; reflexivity|exact H]|].
  destruct (IH I) as (y & Y & R'). exists y. split; [right; exact Y|exact R'].
Qed.
Lemma Forall2_in_r {A B} (R : A -> B -> Prop) l l' y : Forall2 R l l' -> In y l' -> exists x, In x l /\ R x y.
Proof.
  induction 1 as [|a b l l' H _ IH]; [intros []|]. intros [<-|I]; [exists a; split; [left; reflexivity|exact H]|].
  destruct (IH I) as (x & Y & R'). exists x. split; [right; exact Y|exact R'].
Qed.

(** ** The first assignment to a local becomes its declaration. *)
Lemma merge_leading_first before : forall m n s v s' after, Forall is_assign before -> In n (map fst m) ->
  (forall u w u', ~ In (EAssign (N := source_ast) (EIdent (N := source_ast) n u) w u') before) ->
  exists m' t init1 init2 rest,
    merge_leading m (before ++ EAssign (N := source_ast) (EIdent (N := source_ast) n s) v s' :: after)
    = (m', init1 ++ EDeclare (N := source_ast) n (Some t) (Some v) span0 :: init2, rest) /\ Forall2 keeps before init1.
Proof.
  induction before as [|e before IH]; intros m n s v s' after A I NO.
  - cbn [app merge_leading]. destruct (lm_remove n m) as [[t m1]|] eqn:R.
    + destruct (merge_leading m1 after) as [[m2 i2] r2] eqn:L. exists m2, t, [], i2, r2. split; [reflexivity|constructor].
    + apply lm_remove_none in R. contradiction.
  - inversion A as [|? ? (l & r & u & ->) A']; subst.
    assert (NO' : forall u w u', ~ In (EAssign (N := source_ast) (EIdent (N := source_ast) n u) w u') before)
      by (intros ? ? ? J; eapply NO; right; exact J).
    assert (KEEP : forall m, In n (map fst m) -> exists m' t init1 init2 rest,
      (let '(m', init, rest) := merge_leading m (before ++ EAssign (N := source_ast) (EIdent (N := source_ast) n s) v s' :: after) in
       (m', EAssign (N := source_ast) l r span0 :: init, rest)) =
      (m', init1 ++ EDeclare (N := source_ast) n (Some t) (Some v) span0 :: init2, rest) /\
      Forall2 keeps (EAssign (N := source_ast) l r u :: before) init1).
    { intros m0 I0. destruct (IH m0 n s v s' after A' I0 NO') as (m' & t & i1 & i2 & rest & E & K).
      rewrite E. exists m', t, (EAssign (N := source_ast) l r span0 :: i1), i2, rest. split; [reflexivity|]. constructor; [constructor|exact K]. }
    cbn [app merge_leading]. destruct l; try exact (KEEP m I).
    destruct (lm_remove r0 m) as [[t m1]|] eqn:R; [|exact (KEEP m I)].
    assert (NE : r0 <> n) by (intros ->; eapply NO; left; reflexivity).
    assert (I1 : In n (map fst m1)).
    { apply lm_remove_some in R. apply (Permutation_map fst) in R. eapply Permutation_in in I; [|exact R].
      destruct I as [I|I]; [contradiction|exact I]. }
    destruct (IH m1 n s v s' after A' I1 NO') as (m' & t' & i1 & i2 & rest & E & K).
    rewrite E. exists m', t', (EDeclare (N := source_ast) r0 (Some t) (Some r) span0 :: i1), i2, rest.
    split; [reflexivity|]. constructor; [constructor|exact K].
Qed.
Lemma merge_leading_declares seq : forall m m' init rest, merge_leading m seq = (m', init, rest) -> NoDup (map fst m) ->
  forall init1 n t i s init2, init = init1 ++ EDeclare (N := source_ast) n t i s :: init2 ->
  exists before v s1 s2 after, seq = before ++ EAssign (N := source_ast) (EIdent (N := source_ast) n s1) v s2 :: after /\
    i = Some v /\ Forall2 keeps before init1 /\ Forall is_assign before /\ In n (map fst m) /\
    (forall u w u', ~ In (EAssign (N := source_ast) (EIdent (N := source_ast) n u) w u') before).
Proof.
  induction seq as [|e seq IH]; intros m m' init rest H ND init1 n t i s init2 E.
  - injection H as _ H _. rewrite E in H. destruct init1; discriminate.
  - assert (STOP : (m, @nil sexpr, e :: seq) = (m', init, rest) -> False).
    { intros F. injection F as _ F _. rewrite E in F. destruct init1; discriminate. }
    destruct e; try (destruct (STOP H)). clear STOP.
    assert (KEEP : (let '(m', init, rest) := merge_leading m seq in (m', EAssign (N := source_ast) e1 e2 span0 :: init, rest)) = (m', init, rest) ->
      (forall k s, e1 = EIdent (N := source_ast) k s -> ~ In k (map fst m)) ->
      exists before v s1 s2 after, EAssign (N := source_ast) e1 e2 sp :: seq = before ++ EAssign (N := source_ast) (EIdent (N := source_ast) n s1) v s2 :: after /\
        i = Some v /\ Forall2 keeps before init1 /\ Forall is_assign before /\ In n (map fst m) /\
        (forall u w u', ~ In (EAssign (N := source_ast) (EIdent (N := source_ast) n u) w u') before)).
    { intros F NK. destruct (merge_leading m seq) as [[m1 i1] r1] eqn:R. injection F as _ F _. rewrite E in F. rename F into E'. clear E. rename E' into E.
      destruct init1 as [|x init1]; [discriminate|]. cbn [app] in E. injection E as E0 E1. subst x.
      destruct (IH _ _ _ _ R ND init1 n t i s init2 E1) as (before & v & s1 & s2 & after & -> & -> & K & A & I & NO).
      exists (EAssign (N := source_ast) e1 e2 sp :: before), v, s1, s2, after.
      split; [reflexivity|]. split; [reflexivity|]. split; [constructor; [constructor|exact K]|].
      split; [constructor; [do 3 eexists; reflexivity|exact A]|]. split; [exact I|].
      intros u w u' [J|J]; [|exact (NO _ _ _ J)]. injection J as J _ _. exact (NK _ _ J I). }
    cbn [merge_leading] in H. destruct e1; try (apply (KEEP H); intros ? ? ?; discriminate).
    destruct (lm_remove r m) as [[ty m1]|] eqn:R.
    + clear KEEP. pose proof (lm_remove_some _ _ _ _ R) as P. apply (Permutation_map fst) in P. cbn [map fst] in P.
      assert (ND' : NoDup (r :: map fst m1)) by (eapply Permutation_NoDup; [exact P|exact ND]).
      apply NoDup_cons_iff in ND'. destruct ND' as [NI ND1].
      destruct (merge_leading m1 seq) as [[m2 i2] r2] eqn:L. injection H as _ H _. rewrite E in H. clear E. rename H into E.
      destruct init1 as [|x init1]; cbn [app] in E; injection E as E1 E2.
      * subst. exists [], e2, sp0, sp, seq. split; [reflexivity|]. split; [reflexivity|]. split; [constructor|].
        split; [constructor|]. split; [|intros ? ? ? []]. eapply Permutation_in; [symmetry; exact P|left; reflexivity].
      * subst. destruct (IH _ _ _ _ L ND1 init1 n t i s init2 eq_refl) as (before & v & s1 & s2 & after & -> & -> & K & A & I & NO).
        exists (EAssign (N := source_ast) (EIdent (N := source_ast) r sp0) e2 sp :: before), v, s1, s2, after.
        split; [reflexivity|]. split; [reflexivity|]. split; [constructor; [constructor|exact K]|].
        split; [constructor; [do 3 eexists; reflexivity|exact A]|].
        split; [eapply Permutation_in; [symmetry; exact P|right; exact I]|].
        intros u w u' [J|J]; [|exact (NO _ _ _ J)]. injection J as J _ _. subst. contradiction.
    + apply (KEEP H). intros k s0 J. injection J as -> _. apply lm_remove_none. exact R.
Qed.

Lemma app_cons_split {A} (a b before : list A) x after : a ++ b = before ++ x :: after ->
  (exists a', a = before ++ x :: a' /\ after = a' ++ b) \/ (exists b', before = a ++ b' /\ b = b' ++ x :: after).
Proof.
  revert before; induction a as [|y a IH]; intros before E; cbn [app] in E.
  - right. exists before. split; [reflexivity|exact E].
  - destruct before as [|z before]; cbn [app] in E; injection E as -> E.
    + left. exists a. split; [reflexivity|]. symmetry. exact E.
    + destruct (IH _ E) as [(a' & -> & ->)|(b' & -> & ->)]; [left; exists a'|right; exists b']; split; reflexivity.
Qed.

Lemma merge_before_use m seq : NoDup (map fst m) -> Forall declares_nothing seq ->
  (declared_before_use (merge_declarations m seq) <-> assigned_before_use (map fst m) seq).
Proof.
  intros ND DN. unfold merge_declarations. split.
  - intros D before n s v s' after -> A I NO.
    destruct (merge_leading_first before m n s v s' after A I NO) as (m' & t & i1 & i2 & rest & E & K).
    rewrite E in D. change (map (fun x => _) m') with (map bare m') in D.
    specialize (D (map bare m' ++ i1) n (Some t) (Some v) span0 (i2 ++ rest)).
    rewrite <- !app_assoc in D. cbn [app] in D. specialize (D eq_refl). destruct D as [D1 D2]. split.
    + intros e J M. destruct (Forall2_in_l _ _ _ _ K J) as (y & Y & KY).
      destruct (keeps_forth _ _ _ KY M) as [M'|(u & w & u' & ->)]; [|exact (NO _ _ _ J)].
      apply (D1 y); [apply in_or_app; right; exact Y|exact M'].
    + apply D2. reflexivity.
  - intros AB before n t i s after. destruct (merge_leading m seq) as [[m' init] rest] eqn:L.
    change (map (fun x => _) m') with (map bare m'). intros E.
    destruct (app_cons_split _ _ _ _ _ E) as [(a' & E1 & _)|(b' & -> & E1)].
    + split.
      * intros e J M. assert (J' : In e (map bare m')) by (rewrite E1; apply in_or_app; left; exact J).
        apply in_map_iff in J'. destruct J' as (x & <- & _). exact (mentions_bare _ _ M).
      * intros v ->. assert (J' : In (EDeclare (N := source_ast) n t (Some v) s) (map bare m')) by (rewrite E1; apply in_or_app; right; left; reflexivity).
        apply in_map_iff in J'. destruct J' as (x & X & _). discriminate.
    + destruct (app_cons_split _ _ _ _ _ E1) as [(c' & -> & _)|(c' & _ & E2)].
      * destruct (merge_leading_declares _ _ _ _ _ L ND _ _ _ _ _ _ eq_refl) as (bf & v & s1 & s2 & af & -> & -> & K & A & I & NO).
        destruct (AB _ _ _ _ _ _ eq_refl A I NO) as [U1 U2]. split.
        -- intros e J M. apply in_app_or in J. destruct J as [J|J].
           ++ apply in_map_iff in J. destruct J as (x & <- & _). exact (mentions_bare _ _ M).
           ++ destruct (Forall2_in_r _ _ _ _ K J) as (x & X & KX). exact (U1 x X (keeps_back _ _ _ KX M)).
        -- intros w W. injection W as <-. exact U2.
      * exfalso. destruct (merge_leading_keeps _ _ _ _ _ L) as (lead & -> & _).
        rewrite Forall_forall in DN. refine (DN (EDeclare (N := source_ast) n t i s) _ n t i s (wi_here _)).
        rewrite E2. apply in_or_app; right. apply in_or_app; right. left; reflexivity.
Qed.
