(** C72: types are read as they are written. *)
From Coq Require Import String.
From Coq Require Import ZArith List Bool Lia.
From Verif Require Import Bytes BytesFacts Bytecode Definitions DefinitionsFacts Bundle Ast TypeNames Pool Scope TypeCheck Printer Parser PrintSpec ParserFacts ParserSafe TextFacts
  TextLiteralSpec TextLiteralFacts GapSpec GapFacts P_Gap TypeTextSpec.
Import ListNotations.

Scheme type_text_ind2 := Induction for type_text Sort Prop
with args_text_ind2 := Induction for args_text Sort Prop.
Combined Scheme texts_ind from type_text_ind2, args_text_ind2.

Lemma gap_head g rest rest' : gap g rest -> hd_error rest = hd_error rest' -> gap g rest'.
Proof.
  induction 1 as [rest|b t rest B G IH|c t rest C G IH|w t rest N G IH R]; intros E.
  - constructor.
  - constructor; auto.
  - apply gap_comment; auto.
  - apply gap_line; auto. destruct t as [|b t].
    + cbn [List.app] in *. destruct R as [->|(r & ->)]; [left; destruct rest'; [reflexivity|discriminate E]|].
      right. destruct rest' as [|x rest']; [discriminate E|]. injection E as <-. now exists rest'.
    + right. destruct R as [R|(r & R)]; [discriminate R|]. injection R as -> _. now exists (t ++ rest').
Qed.
Lemma hd_app {A} (u more : list A) : u <> [] -> hd_error (u ++ more) = hd_error u.
Proof. now destruct u. Qed.
Lemma name_not_blank b : letter b -> is_blank b = false /\ b <> x2f.
Proof.
  intros L. split.
  - destruct (is_blank b) eqn:E; [|reflexivity]. apply blank_chars in E. unfold letter in L. repeat destruct E as [<-|E]; try (vm_compute in L; intuition discriminate). destruct E.
  - intros ->. vm_compute in L. intuition discriminate.
Qed.
(** Every type starts with a letter. *)
Lemma type_start t ty : type_text t ty -> exists b t', t = b :: t' /\ letter b.
Proof. intros [w (b & w' & -> & L & _)|w g (b & w' & -> & L & _) _|w g u tys g' (b & w' & -> & L & _) _ _ _]; cbn [List.app]; eauto. Qed.
Lemma args_start u tys : args_text u tys -> exists b u', u = b :: u' /\ letter b.
Proof. intros [t ty T|t ty g v l T _ _]; apply type_start in T; destruct T as (b & t' & -> & L); cbn [List.app]; eauto. Qed.
Lemma start_blanks b i : letter b -> blanks (b :: i) = b :: i.
Proof. intros L. destruct (name_not_blank _ L). now apply blank_other. Qed.
Lemma ends_byte b i : is_word_char b = false -> b <> x3c -> ends_type (b :: i).
Proof. intros W N. split; [intros c r E; injection E as <- <-; rewrite <- word_chars; congruence|]. intros r E. injection E as -> _. now apply N. Qed.
Lemma gap_front g rest b r : gap g rest -> g ++ rest = b :: r -> g = [] \/ In b [x20; x0a; x0d; x09; x2f].
Proof.
  intros [rest'|c t rest' B G|c t rest' [body I] G|w t rest' N G R] E; [now left| | |]; right.
  - injection E as -> _. cbn in *; tauto.
  - injection E as <- _. cbn. tauto.
  - injection E as <- _. cbn. tauto.
Qed.
Lemma ends_gap g i : gap g [x3e] -> ends_type (g ++ [x3e] ++ i) /\ rcomma (g ++ [x3e] ++ i) = PFail.
Proof.
  intros G. destruct g as [|b g]; [split; [now apply ends_byte|reflexivity]|].
  destruct (gap_front _ _ b (g ++ [x3e]) G eq_refl) as [E|I]; [discriminate E|]. cbn [List.app].
  split; [|cbn in I; repeat destruct I as [<-|I]; try reflexivity; destruct I].
  cbn in I; apply ends_byte; [repeat destruct I as [<-|I]; try reflexivity; destruct I|intros ->; intuition discriminate].
Qed.
Lemma ident_reads w rest : name w -> ends_name rest -> rident (w ++ rest) = PMatch w rest.
Proof. intros N E. apply C71_names_are_read_as_written. auto. Qed.

Definition in_brackets (n n' : nat) : rule (list typename) :=
  the _ <- rlit (lit "<"); the _ <- rblank; the l <- rsep n (rtype n') rcomma; the _ <- rblank; the _ <- rlit (lit ">"); rret l.
Lemma rtype_eq n : rtype (S n) = (the w <- rident; the args <- ropt (in_brackets (S n) n); rret (tn_new w (match args with Some l => l | None => [] end))).
Proof. reflexivity. Qed.
Definition more_types (n : nat) : rule typename := the _ <- rcomma; rtype n.
Lemma sep_eq m n i t j : rtype n i = PMatch t j ->
  rsep m (rtype n) rcomma i = match rmany m (more_types n) j with PMatch l k => PMatch (t :: l) k | x => x end.
Proof. intros E. unfold rsep. now rewrite E. Qed.

(** Reading what is written. *)
Lemma bracket_ends i : ends_name (x3c :: i).
Proof. intros b r E. injection E as <- <-. rewrite <- word_chars. discriminate. Qed.
Lemma written_read :
  (forall t ty, type_text t ty -> forall n rest, (length t < n)%nat -> ends_type rest -> rtype n (t ++ rest) = PMatch ty rest) /\
  (forall u tys, args_text u tys -> tys <> [] /\ forall n m rest, (length u < n)%nat -> (length u < m)%nat -> ends_type rest -> rcomma rest = PFail ->
     rsep m (rtype n) rcomma (u ++ rest) = PMatch tys rest).
Proof.
  apply texts_ind.
  - intros w N n rest L (E & P). destruct n as [|n]; [lia|]. rewrite rtype_eq. unfold rseq at 1. rewrite (ident_reads _ _ N E).
    unfold rseq. unfold ropt. replace (in_brackets (S n) n rest) with (@PFail (list typename)); [reflexivity|].
    unfold in_brackets, rseq at 1, rlit. destruct rest as [|b rest]; [reflexivity|].
    change (strip (lit "<") (b :: rest)) with (if Byte.eqb x3c b then strip [] rest else None).
    destruct (byte_eqb_spec x3c b) as [<-|_]; [destruct (P rest eq_refl)|reflexivity].
  - intros w g N G n rest L E. destruct n as [|n]; [lia|]. rewrite !app_length in L. cbn [length] in L. rewrite <- !app_assoc. rewrite rtype_eq. unfold rseq at 1.
    rewrite (ident_reads w ([x3c] ++ g ++ [x3e] ++ rest) N (bracket_ends _)).
    assert (B : in_brackets (S n) n ([x3c] ++ g ++ [x3e] ++ rest) = PMatch [] rest).
    { unfold in_brackets, rseq at 1. change (rlit (lit "<") ([x3c] ++ g ++ [x3e] ++ rest)) with (PMatch tt (g ++ [x3e] ++ rest)). cbv beta iota.
      unfold rseq at 1, rblank. rewrite (gap_skipped g ([x3e] ++ rest)) by (apply (gap_head _ _ _ G); reflexivity).
      change ([x3e] ++ rest) with (x3e :: rest). rewrite (blank_other x3e rest eq_refl ltac:(discriminate)). unfold rseq at 1. unfold rsep at 1.
      destruct n as [|n]; [lia|]. change (rtype (S n) (x3e :: rest)) with (@PFail typename). cbv beta iota. unfold rseq.
      change ([x3e] ++ rest) with (x3e :: rest). rewrite (blank_other x3e rest eq_refl ltac:(discriminate)). reflexivity. }
    unfold rseq, ropt. now rewrite B.
  - intros w g u tys g' N A (NE & IH) G G' n rest L E. destruct n as [|n]; [lia|]. rewrite !app_length in L. cbn [length] in L. rewrite <- !app_assoc. rewrite rtype_eq. unfold rseq at 1.
    rewrite (ident_reads w ([x3c] ++ g ++ u ++ g' ++ [x3e] ++ rest) N (bracket_ends _)).
    assert (B : in_brackets (S n) n ([x3c] ++ g ++ u ++ g' ++ [x3e] ++ rest) = PMatch tys rest).
    { unfold in_brackets, rseq at 1. change (rlit (lit "<") ([x3c] ++ g ++ u ++ g' ++ [x3e] ++ rest)) with (PMatch tt (g ++ u ++ g' ++ [x3e] ++ rest)). cbv beta iota.
      destruct (args_start _ _ A) as (b & u' & U & Lb).
      unfold rseq at 1, rblank. rewrite (gap_skipped g (u ++ g' ++ [x3e] ++ rest)) by (apply (gap_head _ _ _ G); symmetry; apply hd_app; rewrite U; discriminate).
      assert (BU : blanks (u ++ g' ++ [x3e] ++ rest) = u ++ g' ++ [x3e] ++ rest) by (rewrite U; cbn [List.app]; now apply start_blanks). rewrite BU.
      destruct (ends_gap g' rest G') as (Eg & Cg). unfold rseq at 1.
      rewrite (IH n (S n) (g' ++ [x3e] ++ rest) ltac:(lia) ltac:(lia) Eg Cg). unfold rseq at 1.
      rewrite (gap_skipped g' ([x3e] ++ rest)) by (apply (gap_head _ _ _ G'); reflexivity).
      change ([x3e] ++ rest) with (x3e :: rest). rewrite (blank_other x3e rest eq_refl ltac:(discriminate)). reflexivity. }
    unfold rseq, ropt. rewrite B. unfold rret, tn_new. destruct tys; [now destruct NE|reflexivity].
  - intros t ty T X. split; [discriminate|]. intros n m rest L M E C.
    rewrite (sep_eq _ _ _ _ _ (X n rest L E)). destruct m as [|m]; [lia|]. cbn [rmany]. unfold more_types, rseq at 1. now rewrite C.
  - intros t ty g u tys T X G A (NE & IH). split; [discriminate|]. intros n m rest L M E C.
    rewrite !app_length in L, M. cbn [length] in L, M. rewrite <- !app_assoc.
    rewrite (sep_eq m n (t ++ [x2c] ++ g ++ u ++ rest) ty _ (X n ([x2c] ++ g ++ u ++ rest) ltac:(lia) (ends_byte x2c _ eq_refl ltac:(discriminate)))).
    destruct m as [|m]; [lia|]. cbn [rmany]. unfold more_types at 1. unfold rseq at 1. unfold rcomma at 1, rseq at 1.
    change (rlit (lit ",") ([x2c] ++ g ++ u ++ rest)) with (PMatch tt (g ++ u ++ rest)). cbv beta iota. unfold rblank.
    destruct (args_start _ _ A) as (b & u' & U & Lb).
    rewrite (gap_skipped g (u ++ rest)) by (apply (gap_head _ _ _ G); symmetry; apply hd_app; rewrite U; discriminate).
    assert (BU : blanks (u ++ rest) = u ++ rest) by (rewrite U; cbn [List.app]; now apply start_blanks). rewrite BU.
    specialize (IH n m rest ltac:(lia) ltac:(lia) E C). unfold rsep in IH. destruct tys as [|t2 tys]; [now destruct NE|].
    destruct (rtype n (u ++ rest)) as [t3 j| | |]; try discriminate IH. fold (more_types n) in *.
    destruct (rmany m (more_types n) j) as [l k| | |]; try discriminate IH. injection IH as -> -> ->. reflexivity.
Qed.

(** What is read is written so. *)
Lemma blanks_split i : exists g, i = g ++ blanks i /\ gap g (blanks i).
Proof. exact (blanks_gap (length i) i). Qed.
Lemma many_written n : (forall i ty rest, rtype n i = PMatch ty rest -> exists t, type_text t ty /\ i = t ++ rest) ->
  forall m i l rest t ty, type_text t ty -> rmany m (more_types n) i = PMatch l rest -> exists u, args_text u (ty :: l) /\ t ++ i = u ++ rest.
Proof.
  intros X. induction m as [|m IH]; intros i l rest t ty T H; cbn [rmany] in H; [discriminate H|].
  destruct (more_types n i) as [ty2 j| | |] eqn:E; try discriminate H.
  - destruct (rmany m (more_types n) j) as [l' k| | |] eqn:R; try discriminate H. injection H as <- <-.
    unfold more_types, rcomma, rseq at 1 in E. unfold rseq in E. destruct (rlit (lit ",") i) as [x i1| | |] eqn:C; try discriminate E. apply rlit_inv in C. subst i.
    unfold rblank in E. apply X in E. destruct E as (t2 & T2 & E2). destruct (IH _ _ _ _ _ T2 R) as (u & U & E3).
    destruct (blanks_split i1) as (g & Eg & G). exists (t ++ [x2c] ++ g ++ u). split.
    + constructor; [exact T| |exact U]. apply (gap_head _ _ _ G). rewrite E2, E3. apply hd_app.
      destruct (args_start _ _ U) as (b & u' & -> & _). discriminate.
    + rewrite Eg at 1. rewrite E2, E3. change (lit ",") with [x2c]. now rewrite <- !app_assoc.
  - injection H as <- <-. exists t. split; [now constructor|reflexivity].
Qed.
Lemma read_written n : forall i ty rest, rtype n i = PMatch ty rest -> exists t, type_text t ty /\ i = t ++ rest.
Proof.
  induction n as [|n IH]; intros i ty rest H; [discriminate H|]. rewrite rtype_eq in H. unfold rseq at 1 in H.
  destruct (rident i) as [w i1| | |] eqn:I; try discriminate H. apply C71_names_are_read_as_written in I. destruct I as (N & -> & _).
  unfold rseq, ropt in H. destruct (in_brackets (S n) n i1) as [l i2| | |] eqn:B; try discriminate H.
  - unfold rret in H. injection H as <- <-. unfold in_brackets, rseq at 1 in B.
    destruct (rlit (lit "<") i1) as [x j| | |] eqn:L; try discriminate B. apply rlit_inv in L. subst i1.
    unfold rseq at 1, rblank in B. unfold rseq at 1 in B. destruct (rsep (S n) (rtype n) rcomma (blanks j)) as [l' k| | |] eqn:S; try discriminate B.
    unfold rseq at 1 in B. unfold rseq in B. destruct (rlit (lit ">") (blanks k)) as [y k1| | |] eqn:C; try discriminate B. apply rlit_inv in C.
    unfold rret in B. injection B as -> ->. destruct (blanks_split j) as (g & Eg & G). destruct (blanks_split k) as (g' & Eg' & G'). rewrite C in Eg', G'.
    unfold rsep in S. destruct (rtype n (blanks j)) as [t0 j1| | |] eqn:T; try discriminate S.
    + fold (more_types n) in S. destruct (rmany (Datatypes.S n) (more_types n) j1) as [l1 k2| | |] eqn:R; try discriminate S. injection S as <- ->.
      apply IH in T. destruct T as (t & T & E). destruct (many_written n IH _ _ _ _ _ _ T R) as (u & U & E2).
      exists (w ++ [x3c] ++ g ++ u ++ g' ++ [x3e]). split.
      * apply type_args; [exact N|exact U| |].
        -- apply (gap_head _ _ _ G). rewrite E, E2. apply hd_app. destruct (args_start _ _ U) as (b & u' & -> & _). discriminate.
        -- apply (gap_head _ _ _ G'). reflexivity.
      * rewrite Eg, E, E2, Eg' at 1. change (lit "<") with [x3c]. change (lit ">") with [x3e]. now rewrite <- !app_assoc.
    + injection S as <- <-. exists (w ++ [x3c] ++ (g ++ g') ++ [x3e]). split.
      * apply type_empty; [exact N|]. apply gap_app; [|apply (gap_head _ _ _ G'); reflexivity].
        apply (gap_head _ _ _ G). rewrite Eg'. change (lit ">") with [x3e]. rewrite app_assoc. apply hd_app. now destruct g'.
      * rewrite Eg at 1. rewrite Eg' at 1. change (lit "<") with [x3c]. change (lit ">") with [x3e]. now rewrite <- !app_assoc.
  - unfold rret in H. injection H as <- <-. exists w. split; [now constructor|reflexivity].
Qed.

(** A type that is written, with something after it that does not go on with it, is
    read as that type; [n] bounds the length. *)
Theorem C72_types_are_read_as_written n t ty rest : type_text t ty -> ends_type rest -> (length t < n)%nat ->
  rtype n (t ++ rest) = PMatch ty rest.
Proof. intros T E L. now apply (proj1 written_read). Qed.
Print Assumptions C72_types_are_read_as_written.
(** Nothing else is read as a type. *)
Theorem C72_nothing_else_is_a_type n i ty rest : rtype n i = PMatch ty rest -> exists t, type_text t ty /\ i = t ++ rest.
Proof. apply read_written. Qed.
Print Assumptions C72_nothing_else_is_a_type.
(** What is written stands for one type. *)
Theorem C72_one_meaning t ty ty' : type_text t ty -> type_text t ty' -> ty = ty'.
Proof.
  intros A B. assert (E : ends_type [x3b]) by now apply ends_byte.
  pose proof (C72_types_are_read_as_written (S (length t)) _ _ _ A E (le_n _)) as R.
  rewrite (C72_types_are_read_as_written (S (length t)) _ _ _ B E (le_n _)) in R. now injection R.
Qed.
Print Assumptions C72_one_meaning.

(** Not vacuous: nested arguments with blanks and a comment; a comparison goes on
    after a type without arguments; a blank before a comma is not allowed. *)
Definition sample_type : typename :=
  TypeName (lit "map") (Some [TypeName (lit "a") None; TypeName (lit "array") (Some [TypeName (lit "wref") (Some [TypeName (lit "C") None])])]).
Example C72_nonvacuous :
  type_text (lit "map< a,/* b */ array<wref<C>> >") sample_type /\ ends_type (lit " x") /\
  rtype 9 (lit "a < b") = PMatch (TypeName (lit "a") None) (lit " < b") /\
  rtype 40 (lit "map<a , b>") = PMatch (TypeName (lit "map") None) (lit "<a , b>").
Proof.
  assert (R : rtype 40 (lit "map< a,/* b */ array<wref<C>> > x") = PMatch sample_type (lit " x")) by (vm_compute; reflexivity).
  apply C72_nothing_else_is_a_type in R. destruct R as (t & T & E).
  change (lit "map< a,/* b */ array<wref<C>> > x") with (lit "map< a,/* b */ array<wref<C>> >" ++ lit " x") in E. apply app_inv_tail in E. rewrite <- E in T.
  split; [exact T|]. split; [now apply ends_byte|]. split; vm_compute; reflexivity.
Qed.
