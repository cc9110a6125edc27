(** Facts about member lookup. *)
From Coq Require Import ZArith List Bool Lia.
From Verif Require Import Bytes Bytecode Definitions Bundle BundleFacts Ast TypeNames Pool Scope TypeCheck TypingSpec TypingFacts.
Import ListNotations.
Open Scope Z_scope.

Lemma str_eqb_true a b : str_eqb a b = true <-> a = b.
Proof. pose proof (str_eqb_spec a b). destruct (str_eqb a b); split; intros; try congruence; inversion H; congruence. Qed.

Lemma find_named_spec p n l : (forall f, In f l -> exists m, def_name p f = Done m) ->
  match find_named p n l with
  | Done (Some f) => first_named p n l f
  | Done None => forall f, In f l -> def_name p f <> Done n
  | Fail _ => False
  end.
Proof.
  induction l as [|x l IH]; intros Hn; cbn; [intros f []|].
  destruct (Hn x (or_introl eq_refl)) as (m & Em). rewrite Em. cbn.
  destruct (str_eqb m n) eqn:E.
  - apply str_eqb_true in E. subst. exists [], l. split; [reflexivity|]. split; [exact Em|]. intros x0 [].
  - assert (m <> n) as Hne by (intros ->; rewrite (proj2 (str_eqb_true n n) eq_refl) in E; discriminate).
    assert (forall f, In f l -> exists m, def_name p f = Done m) as Hn' by (intros f Hf; apply Hn; now right).
    specialize (IH Hn'). destruct (find_named p n l) as [[f|]|].
    + destruct IH as (a & b & -> & Ef & Ha). exists (x :: a), b. split; [reflexivity|]. split; [exact Ef|].
      intros y [<-|Hy]; [congruence|auto].
    + intros f [<-|Hf]; [congruence|auto].
    + exact IH.
Qed.

Lemma resolve_field_lemma p n : forall l c fuel, chain p c l -> c <> UNDEFINED -> named_members p l ->
  (length l <= fuel)%nat ->
  match resolve_field_loop fuel p n c with
  | Done f => exists pre d post, l = pre ++ d :: post /\ first_named p n (class_fields p d) f /\
                (forall x, In x pre -> ~ has_field p n x)
  | Fail e => (forall x, In x l -> ~ has_field p n x) /\ exists cn, def_name p c = Done cn /\ e = MemberNotFound n cn
  end.
Proof.
  induction l as [|x l IH]; intros c fuel H Hc Hm Hf; inversion H as [|? k ? _ Hk Hl]; subst; [congruence|].
  destruct fuel as [|fuel]; [cbn in Hf; lia|]. cbn [resolve_field_loop]. rewrite Hk. cbn [pc map_err obind].
  destruct (Hm x (or_introl eq_refl)) as ((cn & Ecn) & Hfs & _).
  assert (class_fields p x = cl_fields k) as Ecf by (unfold class_fields; now rewrite Hk).
  pose proof Hfs as Hfs'. rewrite Ecf in Hfs'. pose proof (find_named_spec p n (cl_fields k) Hfs') as Hfn.
  destruct (find_named p n (cl_fields k)) as [[f|]|]; cbn [obind]; [| |contradiction].
  - exists [], x, l. split; [reflexivity|]. rewrite Ecf. split; [exact Hfn|intros y []].
  - assert (~ has_field p n x) as Hno.
    { intros (f & Hf1 & Hf2). rewrite Ecf in Hf1. now apply (Hfn f). }
    destruct (Z.eqb_spec (cl_base k) UNDEFINED) as [E|E]; cbn [negb].
    + rewrite Ecn. cbn. rewrite E in Hl. inversion Hl; subst; [|congruence]. split; [|eauto].
      intros y [<-|[]]; exact Hno.
    + assert (named_members p l) as Hm' by (intros y Hy; apply Hm; now right).
      specialize (IH (cl_base k) fuel Hl E Hm' ltac:(cbn in Hf; lia)).
      destruct (resolve_field_loop fuel p n (cl_base k)) as [f|e].
      * destruct IH as (pre & d & post & -> & Hd & Hp). exists (x :: pre), d, post.
        split; [reflexivity|]. split; [exact Hd|]. intros y [<-|Hy]; auto.
      * destruct IH as (Hno' & cn' & _ & ->). rewrite Ecn. split; [|eauto]. intros y [<-|Hy]; auto.
Qed.

Lemma functions_named_spec p n l : (forall f, In f l -> exists m, def_name p f = Done m) ->
  functions_named p n l = Done (filter (fun f => match def_name p f with Done m => str_eqb (sig_name m) n | Fail _ => false end) l).
Proof.
  induction l as [|x l IH]; intros Hn; cbn [functions_named filter]; [reflexivity|].
  destruct (Hn x (or_introl eq_refl)) as (m & Em). rewrite Em. cbn [pc map_err obind].
  rewrite IH by (intros f Hf; apply Hn; now right). cbn [obind]. now destruct (str_eqb _ _).
Qed.

Lemma resolve_method_loop_spec p n : forall l c fuel, chain p c l -> named_members p l -> (length l <= fuel)%nat ->
  resolve_method_loop fuel p n c = Done (flat_map (methods_named p n) l).
Proof.
  induction l as [|x l IH]; intros c fuel H Hm Hf.
  - inversion H; subst. destruct fuel; reflexivity.
  - inversion H as [|? k ? Hx Hk Hl]; subst. destruct fuel as [|fuel]; [cbn in Hf; lia|].
    cbn [resolve_method_loop]. destruct (Z.eqb_spec x UNDEFINED); [contradiction|]. rewrite Hk. cbn [pc map_err obind].
    destruct (Hm x (or_introl eq_refl)) as (_ & _ & Hfs).
    assert (class_functions p x = cl_functions k) as Ecf by (unfold class_functions; now rewrite Hk).
    rewrite Ecf in Hfs. rewrite (functions_named_spec p n _ Hfs). cbn [obind].
    rewrite (IH (cl_base k) fuel Hl) by (cbn in Hf; try lia; intros y Hy; apply Hm; now right).
    cbn [obind flat_map]. unfold methods_named at 2. now rewrite Ecf.
Qed.
