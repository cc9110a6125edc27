(** Proofs about type names and signatures. *)
From Coq Require Import String.
From Coq Require Import ZArith List Bool Lia.
From Verif Require Import Bytes BytesFacts Bytecode Definitions DefinitionsFacts Bundle BundleFacts Ast TypeNames TypeNamesSpec.
Import ListNotations.
Open Scope Z_scope.

Fixpoint typename_ind' (P : typename -> Prop) (h0 : forall n, P (TypeName n None))
  (h1 : forall n l, Forall P l -> P (TypeName n (Some l))) (t : typename) {struct t} : P t :=
  match t with
  | TypeName n None => h0 n
  | TypeName n (Some l) => h1 n l
      ((fix all (l : list typename) : Forall P l :=
          match l with [] => Forall_nil _ | x :: l' => Forall_cons _ (typename_ind' P h0 h1 x) (all l') end) l)
  end.

Lemma byte_eqb_refl b : Byte.eqb b b = true.
Proof. destruct (byte_eqb_spec b b); congruence. Qed.

(** * split and join *)
Lemma split_nosep c s : ~ In c s -> split c s = [s].
Proof.
  induction s as [|b s IH]; intros H; cbn; [reflexivity|].
  destruct (byte_eqb_spec b c) as [->|_]; [exfalso; apply H; now left|].
  rewrite IH by (intros H'; apply H; now right). reflexivity.
Qed.
Lemma split_app c a s : ~ In c a -> split c (a ++ c :: s) = a :: split c s.
Proof.
  induction a as [|b a IH]; intros H; cbn.
  - now rewrite byte_eqb_refl.
  - destruct (byte_eqb_spec b c) as [->|_]; [exfalso; apply H; now left|].
    rewrite IH by (intros H'; apply H; now right). reflexivity.
Qed.
Lemma split_nonempty c s : split c s <> [].
Proof.
  induction s as [|b s IH]; cbn; [discriminate|]. destruct (Byte.eqb b c); [discriminate|].
  destruct (split c s); discriminate.
Qed.
Lemma join_split c s : join [c] (split c s) = s.
Proof.
  induction s as [|b s IH]; [reflexivity|]. cbn [split].
  destruct (byte_eqb_spec b c) as [->|_].
  - pose proof (split_nonempty c s). cbn [join]. destruct (split c s) as [|p ps]; [contradiction|].
    cbn [app]. now rewrite IH.
  - pose proof (split_nonempty c s). destruct (split c s) as [|p ps]; [contradiction|].
    rewrite <- IH. destruct ps; reflexivity.
Qed.

(** * C10 *)
Lemma repr_from_parts n ps : repr (from_parts n ps) = join (lit ":") (n :: ps).
Proof.
  revert n. induction ps as [|p ps IH]; intros n; [reflexivity|]. cbn [from_parts repr map].
  rewrite IH. reflexivity.
Qed.
Lemma repr_from_repr_lemma s : repr (from_repr s) = s.
Proof.
  unfold from_repr. pose proof (split_nonempty x3a s). pose proof (join_split x3a s) as J.
  destruct (split x3a s) as [|n ps]; [contradiction|]. now rewrite repr_from_parts.
Qed.
Lemma plain_nosep s c : plain s -> In c (lit ":<>,; ") -> ~ In c s.
Proof. intros H Hc Hin. unfold plain in H. rewrite Forall_forall in H. exact (H c Hin Hc). Qed.

Lemma from_repr_repr_lemma t : tn_ok t -> unary t -> from_repr (repr t) = t.
Proof.
  intros Hok Hu. induction Hu as [n|n a Hu IH].
  - inversion Hok; subst. unfold from_repr. cbn [repr].
    rewrite split_nosep; [reflexivity|]. apply plain_nosep; [assumption|cbn; auto].
  - inversion Hok as [|? ? ? Hn Ha _]; subst. specialize (IH Ha). unfold from_repr. cbn [repr map join].
    change (lit ":" ++ repr a) with (x3a :: repr a).
    rewrite split_app by (apply plain_nosep; [assumption|cbn; auto]).
    unfold from_repr in IH. pose proof (split_nonempty x3a (repr a)).
    destruct (split x3a (repr a)) as [|p ps]; [contradiction|]. cbn [from_parts]. now rewrite IH.
Qed.

(** * Mangling *)

(** The equation of the code. *)
Lemma mangled_eq t : mangled t =
  match unwrapped t with
  | TypeName n (Some args) => n ++ lit "<" ++ join (lit ",") (map mangled args) ++ lit ">"
  | TypeName n None => n
  end.
Proof.
  induction t as [n|n l IH] using typename_ind'; [reflexivity|].
  destruct l as [|a [|b l]]; [reflexivity| |reflexivity].
  cbn [unwrapped mangled]. destruct (is_ref_kind _); [|reflexivity].
  inversion IH; subst. assumption.
Qed.

Fixpoint erase (t : typename) : typename :=
  match t with
  | TypeName n (Some args) =>
    let plain := TypeName n (Some (map erase args)) in
    match args with
    | [arg] => if is_ref_kind (tn_kind t) then erase arg else plain
    | _ => plain
    end
  | TypeName n None => TypeName n None
  end.
Fixpoint flat (t : typename) : str :=
  match t with
  | TypeName n (Some args) => n ++ lit "<" ++ join (lit ",") (map flat args) ++ lit ">"
  | TypeName n None => n
  end.

Lemma mangled_erase t : mangled t = flat (erase t).
Proof.
  induction t as [n|n l IH] using typename_ind'; [reflexivity|].
  assert (E : map mangled l = map flat (map erase l)).
  { rewrite map_map. apply map_ext_Forall. assumption. }
  cbn [mangled erase]. destruct l as [|a [|b l]].
  - reflexivity.
  - destruct (is_ref_kind _); [now inversion IH|]. cbn [flat]. now rewrite E.
  - cbn [flat]. now rewrite E.
Qed.

Lemma ok_args l : Forall tn_ok l -> Forall tn_ok (map erase l) -> l <> [] ->
  forall n, plain n -> tn_ok (TypeName n (Some (map erase l))).
Proof.
  intros _ H Hn n Hp. destruct l as [|a l]; [contradiction|]. inversion H; subst. now constructor.
Qed.

Lemma erase_ok t : tn_ok t -> tn_ok (erase t).
Proof.
  induction t as [n|n l IH] using typename_ind'; intros H; [assumption|].
  inversion H as [|? a l' Hn Ha Hl]; subst.
  assert (Hm : Forall tn_ok (map erase (a :: l'))).
  { apply Forall_map. rewrite Forall_forall in *. intros x Hx. apply IH; [assumption|].
    destruct Hx as [<-|Hx]; [assumption|]. now apply Hl. }
  cbn [erase]. destruct l' as [|b l'].
  - destruct (is_ref_kind _); [now inversion Hm|]. inversion Hm; subst. now constructor.
  - inversion Hm; subst. now constructor.
Qed.

(** A plain name followed by something that starts with a separator can be
    split in one way only. *)
Definition delim (s : str) : Prop := match s with [] => True | b :: _ => In b (lit ":<>,; ") end.
Lemma plain_split n1 : forall n2 r1 r2, plain n1 -> plain n2 -> delim r1 -> delim r2 ->
  n1 ++ r1 = n2 ++ r2 -> n1 = n2 /\ r1 = r2.
Proof.
  induction n1 as [|b n1 IH]; intros [|c n2] r1 r2 H1 H2 D1 D2 E; cbn [app] in E.
  - auto.
  - subst r1. inversion H2 as [|? ? Hb _]; subst. contradiction.
  - subst r2. inversion H1 as [|? ? Hb _]; subst. contradiction.
  - injection E as <- E. inversion H1; inversion H2; subst.
    destruct (IH n2 r1 r2) as [-> ->]; auto.
Qed.

Lemma plain_no_lt n : plain n -> ~ In x3c n.
Proof. intros H. apply plain_nosep; [assumption|cbn; auto]. Qed.

Definition delim' (s : str) : Prop := match s with [] => True | b :: _ => b = x2c \/ b = x3e \/ b = x3b end.
Lemma delim'_delim s : delim' s -> delim s.
Proof. destruct s; cbn; [auto|]. intros [->|[->| ->]]; auto 10. Qed.

Lemma flat_inj t1 : forall t2 r1 r2, tn_ok t1 -> tn_ok t2 -> delim' r1 -> delim' r2 ->
  flat t1 ++ r1 = flat t2 ++ r2 -> t1 = t2 /\ r1 = r2.
Proof.
  induction t1 as [n1|n1 l1 IH] using typename_ind'; intros [n2 [l2|]] r1 r2 H1 H2 D1 D2 E.
  - exfalso. inversion H1; inversion H2; subst. cbn [flat] in E. rewrite <- app_assoc in E.
    apply plain_split in E; [|assumption|assumption|now apply delim'_delim|cbn; auto 10].
    destruct E as [_ E]. subst r1. cbn in D1. intuition discriminate.
  - inversion H1; inversion H2; subst. cbn [flat] in E.
    apply plain_split in E; [|assumption|assumption|now apply delim'_delim|now apply delim'_delim].
    destruct E as [-> ->]. auto.
  - inversion H1 as [|? a1 l1' Hn1 Ha1 Hl1]; inversion H2 as [|? a2 l2' Hn2 Ha2 Hl2]; subst.
    cbn [flat] in E. rewrite <- !app_assoc in E.
    apply plain_split in E; [|assumption|assumption|cbn; auto 10|cbn; auto 10].
    destruct E as [-> E]. cbn [app lit] in E. injection E as E.
    assert (G : forall a1 l1' a2 l2', Forall (fun t => forall t2 r1 r2, tn_ok t -> tn_ok t2 -> delim' r1 -> delim' r2 ->
        flat t ++ r1 = flat t2 ++ r2 -> t = t2 /\ r1 = r2) (a1 :: l1') ->
        tn_ok a1 -> Forall tn_ok l1' -> tn_ok a2 -> Forall tn_ok l2' ->
        join (lit ",") (map flat (a1 :: l1')) ++ x3e :: r1 = join (lit ",") (map flat (a2 :: l2')) ++ x3e :: r2 ->
        a1 :: l1' = a2 :: l2' /\ r1 = r2).
    { clear. intros a1 l1'. revert a1. induction l1' as [|b1 l1' IHl]; intros a1 a2 l2' IH Ha1 Hl1 Ha2 Hl2 E.
      - inversion IH as [|? ? IHa _]; subst. destruct l2' as [|b2 l2'].
        + cbn [map join] in E. apply IHa in E; [|assumption|assumption|cbn; auto|cbn; auto].
          destruct E as [-> E]. injection E as ->. auto.
        + cbn [map join] in E. rewrite <- !app_assoc in E. apply IHa in E; [|assumption|assumption|cbn; auto|cbn; auto].
          destruct E as [_ E]. discriminate E.
      - inversion IH as [|? ? IHa IHr]; subst. inversion Hl1; subst. destruct l2' as [|b2 l2'].
        + cbn [map join] in E. rewrite <- !app_assoc in E. apply IHa in E; [|assumption|assumption|cbn; auto|cbn; auto].
          destruct E as [_ E]. discriminate E.
        + inversion Hl2; subst. cbn [map] in E. 
          change (join (lit ",") (flat a1 :: flat b1 :: map flat l1')) with (flat a1 ++ lit "," ++ join (lit ",") (map flat (b1 :: l1'))) in E.
          change (join (lit ",") (flat a2 :: flat b2 :: map flat l2')) with (flat a2 ++ lit "," ++ join (lit ",") (map flat (b2 :: l2'))) in E.
          rewrite <- !app_assoc in E. apply IHa in E; [|assumption|assumption|cbn; auto|cbn; auto].
          destruct E as [-> E]. cbn [app lit] in E. injection E as E.
          apply IHl in E; [|assumption|assumption|assumption|assumption|assumption].
          destruct E as [E ->]. now rewrite E. }
    apply G in E; [|assumption..]. destruct E as [E ->]. now rewrite E.
  - exfalso. inversion H1; inversion H2; subst. cbn [flat] in E. rewrite <- app_assoc in E.
    apply plain_split in E; [|assumption|assumption|cbn; auto 10|now apply delim'_delim].
    destruct E as [_ E]. subst r2. cbn in D2. intuition discriminate.
Qed.

(** erase and [same_unwrapped] *)
Definition wrapper (t : typename) : bool :=
  match t with TypeName _ (Some [_]) => is_ref_kind (tn_kind t) | _ => false end.
Lemma erase_wrapper n a : is_ref_kind (tn_kind (TypeName n (Some [a]))) = true -> erase (TypeName n (Some [a])) = erase a.
Proof. intros H. cbn [erase]. now rewrite H. Qed.
Lemma erase_plain n l : wrapper (TypeName n (Some l)) = false -> erase (TypeName n (Some l)) = TypeName n (Some (map erase l)).
Proof. intros H. cbn [erase]. destruct l as [|a [|b l]]; [reflexivity| |reflexivity]. cbn [wrapper] in H. now rewrite H. Qed.
Lemma wrapper_name n a : is_ref_kind (tn_kind (TypeName n (Some [a]))) = true <-> n = lit "ref" \/ n = lit "wref".
Proof.
  unfold tn_kind. cbn [tn_name]. split.
  - destruct (str_eqb_spec n (lit "ref")); [auto|]. destruct (str_eqb_spec n (lit "wref")); [auto|].
    destruct (str_eqb n (lit "script_ref")); [discriminate|]. destruct (str_eqb n (lit "array")); discriminate.
  - intros [->| ->]; reflexivity.
Qed.

Lemma erase_same t1 : forall t2, erase t1 = erase t2 -> same_unwrapped t1 t2.
Proof.
  induction t1 as [n1|n1 l1 IH] using typename_ind'.
  - intros t2. induction t2 as [n2|n2 l2 IH2] using typename_ind'; intros E.
    + injection E as <-. constructor.
    + destruct (wrapper (TypeName n2 (Some l2))) eqn:W.
      * destruct l2 as [|a [|b l]]; try discriminate. cbn [wrapper] in W. rewrite erase_wrapper in E by assumption.
        apply su_right; [now apply (wrapper_name n2 a)|]. inversion IH2; subst; auto.
      * rewrite erase_plain in E by assumption. discriminate.
  - destruct (wrapper (TypeName n1 (Some l1))) eqn:W.
    + destruct l1 as [|a [|b l]]; try discriminate. cbn [wrapper] in W. intros t2 E.
      rewrite erase_wrapper in E by assumption. apply su_left; [now apply (wrapper_name n1 a)|]. inversion IH; subst; auto.
    + intros t2. induction t2 as [n2|n2 l2 IH2] using typename_ind'; intros E.
      * rewrite erase_plain in E by assumption. discriminate.
      * destruct (wrapper (TypeName n2 (Some l2))) eqn:W2.
        -- destruct l2 as [|a [|b l]]; try discriminate. cbn [wrapper] in W2. rewrite (erase_wrapper n2) in E by assumption.
           apply su_right; [now apply (wrapper_name n2 a)|]. inversion IH2; subst; auto.
        -- rewrite !erase_plain in E by assumption. injection E as <- E. apply su_app.
           clear - IH E. revert l2 E. induction IH as [|a l Ha Hl IHl]; intros [|b l2] E; try discriminate; constructor.
           ++ apply Ha. cbn [map] in E. congruence.
           ++ apply IHl. cbn [map] in E. congruence.
Qed.

Lemma same_erase : forall t1 t2, same_unwrapped t1 t2 -> erase t1 = erase t2.
Proof.
  fix rec 3. intros t1 t2 H. destruct H as [w a b Hw H|w a b Hw H|n|n l l' H].
  - rewrite erase_wrapper by now apply wrapper_name. now apply rec.
  - rewrite (erase_wrapper w) by now apply wrapper_name. now apply rec.
  - reflexivity.
  - assert (E : map erase l = map erase l').
    { revert l l' H. fix rec2 3. intros l l' H. destruct H as [|x y l l' Hx H]; [reflexivity|].
      cbn [map]. f_equal; [now apply rec|now apply rec2]. }
    cbn [erase]. assert (L : length l = length l') by (rewrite <- (map_length erase l), E, map_length; reflexivity).
    destruct l as [|a [|b l]], l' as [|a' [|b' l']]; try discriminate L; cbn [map] in E |- *; try congruence.
    change (tn_kind (TypeName n (Some [a]))) with (tn_kind (TypeName n (Some [a']))).
    destruct (is_ref_kind _); congruence.
Qed.

Lemma mangled_iff_lemma t1 t2 : tn_ok t1 -> tn_ok t2 -> (mangled t1 = mangled t2 <-> same_unwrapped t1 t2).
Proof.
  intros H1 H2. split.
  - intros E. rewrite !mangled_erase in E. apply erase_same.
    destruct (flat_inj (erase t1) (erase t2) [] []) as [G _]; try exact I; [now apply erase_ok|now apply erase_ok| |assumption].
    now rewrite E.
  - intros E. apply same_erase in E. now rewrite !mangled_erase, E.
Qed.

(** * Signatures *)
Lemma fold_sig ps sig : fold_left (fun acc p => sig_parameter acc (fst p) (snd p && false)) ps sig =
  sig ++ concat (map (fun p => mangled (fst p)) ps).
Proof.
  revert sig. induction ps as [|[t o] ps IH]; intros sig; cbn [fold_left map concat]; [now rewrite app_nil_r|].
  rewrite IH. unfold sig_parameter. cbn [fst snd]. rewrite andb_false_r. cbn [app]. now rewrite app_assoc.
Qed.

Lemma split_once_app c a s : ~ In c a -> split_once c (a ++ c :: s) = Some (a, s).
Proof.
  induction a as [|b a IH]; intros H; cbn; [now rewrite byte_eqb_refl|].
  destruct (byte_eqb_spec b c) as [->|_]; [exfalso; apply H; now left|].
  now rewrite IH by (intros H'; apply H; now right).
Qed.
Lemma split_once_none c a : ~ In c a -> split_once c a = None.
Proof.
  induction a as [|b a IH]; intros H; cbn; [reflexivity|].
  destruct (byte_eqb_spec b c) as [->|_]; [exfalso; apply H; now left|].
  now rewrite IH by (intros H'; apply H; now right).
Qed.

Lemma sig_starts f : exists s, signature f = ss_name f \/ signature f = ss_name f ++ x3b :: s.
Proof.
  unfold signature. destruct (negb _ && _ && _); [exists []; now left|].
  set (op := match binop_of_name (ss_name f) with Some _ => true | None => false end).
  assert (G : forall ps sig, (exists s, sig = ss_name f ++ x3b :: s) ->
     exists s, fold_left (fun acc p => sig_parameter acc (fst p) (snd p && op)) ps sig = ss_name f ++ x3b :: s).
  { induction ps as [|p ps IH]; intros sig (s & ->); cbn [fold_left]; [eauto|]. apply IH.
    unfold sig_parameter. rewrite <- app_assoc. cbn [app]. eauto. }
  destruct (G (ss_params f) (sig_new (ss_name f))) as (s & ->); [exists []; reflexivity|].
  destruct (op || _).
  - unfold sig_return. rewrite <- app_assoc. cbn [app]. eauto.
  - eauto.
Qed.

Lemma sig_name_lemma f : ~ In x3b (ss_name f) -> sig_name (signature f) = ss_name f.
Proof.
  intros H. unfold sig_name. destruct (sig_starts f) as (s & [->| ->]).
  - now rewrite split_once_none.
  - now rewrite split_once_app.
Qed.

Lemma prefix_code ss : prefix_free ss -> ~ In [] ss -> forall l1 l2, Forall (fun s => In s ss) l1 -> Forall (fun s => In s ss) l2 ->
  concat l1 = concat l2 -> l1 = l2.
Proof.
  intros Hp Hne. induction l1 as [|a l1 IH]; intros [|b l2] H1 H2 E; cbn [concat] in E.
  - reflexivity.
  - exfalso. inversion H2; subst. destruct b; [contradiction|discriminate].
  - exfalso. inversion H1; subst. destruct a; [contradiction|discriminate].
  - inversion H1; inversion H2; subst.
    assert (a = b).
    { destruct (le_ge_dec (length a) (length b)) as [L|L].
      - assert (exists x, b = a ++ x) as (x & ->).
        { exists (skipn (length a) b). rewrite <- (firstn_skipn (length a) b) at 1. f_equal.
          assert (E' : firstn (length a) (a ++ concat l1) = firstn (length a) (b ++ concat l2)) by now rewrite E.
          rewrite firstn_app, firstn_all, Nat.sub_diag, firstn_O, app_nil_r in E'.
          rewrite firstn_app in E'. replace (length a - length b)%nat with 0%nat in E' by lia.
          rewrite firstn_O, app_nil_r in E'. congruence. }
        rewrite (Hp a (a ++ x) x) by (assumption || reflexivity). now rewrite app_nil_r.
      - assert (exists x, a = b ++ x) as (x & ->).
        { exists (skipn (length b) a). rewrite <- (firstn_skipn (length b) a) at 1. f_equal.
          assert (E' : firstn (length b) (a ++ concat l1) = firstn (length b) (b ++ concat l2)) by now rewrite E.
          rewrite (firstn_app _ b), firstn_all, Nat.sub_diag, firstn_O, app_nil_r in E'.
          rewrite firstn_app in E'. replace (length b - length a)%nat with 0%nat in E' by lia.
          rewrite firstn_O, app_nil_r in E'. congruence. }
        rewrite (Hp b (b ++ x) x) by (assumption || reflexivity). now rewrite app_nil_r. }
    subst b. apply app_inv_head in E. f_equal. now apply IH.
Qed.

Lemma forall2_concat l1 l2 :
  prefix_free (map mangled (l1 ++ l2)) -> Forall tn_ok l1 -> Forall tn_ok l2 -> ~ In [] (map mangled (l1 ++ l2)) ->
  (concat (map mangled l1) = concat (map mangled l2) <-> Forall2 same_unwrapped l1 l2).
Proof.
  intros Hp H1 H2 Hne. split.
  - intros E. apply (prefix_code _ Hp Hne) in E.
    + clear Hp Hne. revert l2 H2 E. induction H1 as [|a l1 Ha H1 IH]; intros [|b l2] H2 E; try discriminate; constructor.
      * inversion H2; subst. apply mangled_iff_lemma; try assumption. cbn [map] in E. congruence.
      * inversion H2; subst. apply IH; [assumption|]. cbn [map] in E. congruence.
    + apply Forall_forall. intros x Hx. rewrite map_app. apply in_or_app. now left.
    + apply Forall_forall. intros x Hx. rewrite map_app. apply in_or_app. now right.
  - intros HF. f_equal. clear Hp Hne. induction HF as [|a b l1 l2 Hab HF IH]; [reflexivity|].
    inversion H1; inversion H2; subst. cbn [map]. f_equal; [now apply mangled_iff_lemma|now apply IH].
Qed.

Lemma flat_no_semi t : tn_ok t -> ~ In x3b (flat t).
Proof.
  induction t as [n|n l IH] using typename_ind'; intros H; inversion H as [? Hn|? a l' Hn Ha Hl]; subst; cbn [flat].
  - apply plain_nosep; [assumption|cbn; auto 10].
  - rewrite !in_app_iff. intros [Hi|[Hi|[Hi|Hi]]].
    + revert Hi. apply plain_nosep; [assumption|cbn; auto 10].
    + cbn in Hi. intuition discriminate.
    + assert (G : forall ls, (forall s, In s ls -> ~ In x3b s) -> ~ In x3b (join (lit ",") ls)).
      { clear. induction ls as [|s [|s' ls] IH]; intros H.
        - intros [].
        - apply H. now left.
        - change (join (lit ",") (s :: s' :: ls)) with (s ++ lit "," ++ join (lit ",") (s' :: ls)).
          rewrite !in_app_iff. intros [Hi|[Hi|Hi]].
          + apply (H s); [now left|assumption].
          + cbn in Hi. intuition discriminate.
          + apply IH in Hi; [assumption|]. intros x Hx. apply H. now right. }
      apply G in Hi; [assumption|]. intros s Hs. apply in_map_iff in Hs. destruct Hs as (t & <- & Ht).
      rewrite Forall_forall in IH, Hl. apply IH; [assumption|].
      destruct Ht as [<-|Ht]; [assumption|now apply Hl].
    + cbn in Hi. intuition discriminate.
Qed.

Lemma concat_no_semi l : Forall tn_ok l -> ~ In x3b (concat (map mangled l)).
Proof.
  induction 1 as [|t l Ht Hl IH]; cbn [map concat]; [intros []|]. rewrite in_app_iff.
  intros [Hi|Hi]; [|auto]. rewrite mangled_erase in Hi. revert Hi. apply flat_no_semi. now apply erase_ok.
Qed.

Lemma split_at c : forall (a1 a2 b1 b2 : str), ~ In c a1 -> ~ In c a2 -> a1 ++ c :: b1 = a2 ++ c :: b2 -> a1 = a2 /\ b1 = b2.
Proof.
  induction a1 as [|x a1 IH]; intros [|y a2] b1 b2 H1 H2 E; cbn [app] in E.
  - injection E as ->. auto.
  - injection E as <- _. exfalso. apply H2. now left.
  - injection E as -> _. exfalso. apply H1. now left.
  - injection E as -> E. destruct (IH a2 b1 b2) as [-> ->]; auto.
    + intros H. apply H1. now right.
    + intros H. apply H2. now right.
Qed.

Lemma unary_from_repr s : unary (from_repr s).
Proof.
  unfold from_repr. destruct (split x3a s) as [|n ps]; [constructor|]. revert n.
  induction ps as [|p ps IH]; intros n; cbn [from_parts]; constructor. apply IH.
Qed.

Lemma plain_check s : forallb (fun b => negb (existsb (Byte.eqb b) (lit ":<>,; "))) s = true -> plain s.
Proof.
  intros H. apply Forall_forall. intros b Hb Hin. rewrite forallb_forall in H. specialize (H b Hb).
  apply negb_true_iff in H. assert (E : existsb (Byte.eqb b) (lit ":<>,; ") = true).
  { apply existsb_exists. exists b. split; [assumption|apply byte_eqb_refl]. }
  congruence.
Qed.
Ltac tn_ok_tac := repeat first [apply plain_check; reflexivity | constructor].
