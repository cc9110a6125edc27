(** The places that the parser gives are those of the text. *)
From Coq Require Import String.
From Coq Require Import ZArith List Bool Lia Arith.
From Verif Require Import Bytes Definitions Bundle Ast TypeNames Pool Scope TypeCheck Symbols Printer Parser ParserFacts Unit Grammar SourceMap P_SourceMap PlaceSpec Positions PositionSpec.
Import ListNotations.
Open Scope Z_scope.

Definition wp {A} (r : rule A) (i : list byte) (Q : A -> list byte -> Prop) : Prop := match r i with PMatch a j => Q a j | _ => True end.
Lemma wp_seq {A B} (r : rule A) (k : A -> rule B) i Q : wp r i (fun a j => wp (k a) j Q) -> wp (rseq r k) i Q.
Proof. unfold wp, rseq. now destruct (r i). Qed.
Lemma wp_ret {A} (a : A) i (Q : A -> list byte -> Prop) : Q a i -> wp (rret a) i Q.
Proof. easy. Qed.
Lemma wp_mono {A} (r : rule A) i (Q Q' : A -> list byte -> Prop) : wp r i Q -> (forall a j, Q a j -> Q' a j) -> wp r i Q'.
Proof. unfold wp. destruct (r i); auto. Qed.
Lemma wp_alt {A} (r s : rule A) i Q : wp r i Q -> wp s i Q -> wp (ralt r s) i Q.
Proof. unfold wp, ralt. now destruct (r i). Qed.
Lemma wp_opt {A} (r : rule A) i (Q : option A -> list byte -> Prop) : wp r i (fun a j => Q (Some a) j) -> Q None i -> wp (ropt r) i Q.
Proof. unfold wp, ropt. now destruct (r i). Qed.
Lemma wp_option {A B} (f : A -> B) o i (Q : B -> list byte -> Prop) : (forall a, Q (f a) i) -> wp (of_option f o) i Q.
Proof. unfold wp, of_option. destruct o; auto. Qed.

Section Places.
Variables (fl : float_text) (chars : list str) (off : Z) (at_ : list byte -> Z).
Hypothesis H_char : Forall is_char chars.
Hypothesis H_alone : Forall alone chars.
Hypothesis H_at : forall w j, concat chars = w ++ j -> at_ j = off + blen w.

Definition suf (j : list byte) : Prop := exists w, concat chars = w ++ j.
Definition okpos (j : list byte) : Prop := exists before after, chars = before ++ after /\ j = concat after.
Definition bpos (p : Z) : Prop := exists before after, chars = before ++ after /\ p = off + blen (concat before).

Lemma blen_app a b : blen (a ++ b) = blen a + blen b.
Proof. unfold blen. rewrite app_length. lia. Qed.
Lemma blen_cons b a : blen (b :: a) = 1 + blen a.
Proof. unfold blen. cbn [length]. lia. Qed.
Lemma blen_pos a : 0 <= blen a.
Proof. unfold blen. lia. Qed.
Lemma blen_concat (a b : list str) : blen (concat (a ++ b)) = blen (concat a) + blen (concat b).
Proof. now rewrite concat_app, blen_app. Qed.
Lemma ok_suf j : okpos j -> suf j.
Proof. intros (b & a & E & ->). exists (concat b). now rewrite E, concat_app. Qed.
Lemma at_app i w j : suf i -> i = w ++ j -> suf j /\ at_ j = at_ i + blen w.
Proof.
  intros (u & E) ->. split; [exists (u ++ w); now rewrite <- app_assoc|].
  rewrite (H_at u (w ++ j) E), (H_at (u ++ w) j) by now rewrite <- app_assoc. rewrite blen_app. lia.
Qed.
Lemma at_ok i : okpos i -> bpos (at_ i).
Proof. intros (b & a & E & ->). exists b, a. split; [exact E|]. apply H_at. now rewrite E, concat_app. Qed.
Lemma alones b a : chars = b ++ a -> Forall alone a.
Proof. intros E. pose proof H_alone as H. rewrite E in H. now apply Forall_app in H. Qed.

(** A position before a byte of its own is between characters. *)
Lemma ok_next b i : okpos (b :: i) -> ascii b -> okpos i.
Proof.
  intros (u & a & E & C) A. destruct a as [|c a]; [discriminate C|]. pose proof (alones _ _ E) as W. inversion W as [|? ? W1 W2 EQ]; subst.
  pose proof H_char as HC. rewrite E in HC. apply Forall_app in HC as (_ & HC). inversion HC as [|? ? (b' & r & -> & _) _ EQ]; subst.
  cbn [concat app] in C. injection C as <- C. specialize (W1 _ _ eq_refl A). subst r.
  cbn in C. exists (u ++ [[b]]), a. split; [now rewrite <- app_assoc|exact C].
Qed.
Lemma ok_app w i : Forall ascii w -> okpos (w ++ i) -> okpos i.
Proof. induction 1 as [|b w A W IH]; intros H; [exact H|]. apply IH. eapply ok_next; [exact H|exact A]. Qed.

Lemma ascii_start b : ascii b -> is_cont b = false.
Proof. destruct b; intros H; reflexivity || (exfalso; vm_compute in H; discriminate). Qed.
Lemma concat_split l : Forall is_char l -> forall w b i, is_cont b = false -> concat l = w ++ b :: i -> exists u v, l = u ++ v /\ b :: i = concat v.
Proof.
  induction 1 as [|c l C _ IH]; intros w b i B E; [now destruct w|].
  cbn [concat] in E. symmetry in E. apply app_eq_app in E as (m & [(E1 & E2)|(E1 & E2)]).
  - destruct (IH m b i B E2) as (u & v & -> & V). exists (c :: u), v. now split.
  - destruct m as [|b' m].
    { destruct (IH [] b i B (eq_sym E2)) as (u & v & -> & V). exists (c :: u), v. now split. }
    cbn in E2. injection E2 as -> E2. destruct C as (x & r & -> & X & R & _). destruct w as [|x' w].
    + exists [], ((x :: r) :: l). split; [reflexivity|]. cbn [app] in E1. rewrite E1, E2. reflexivity.
    + exfalso. cbn in E1. injection E1 as -> ->. rewrite Forall_forall in R. rewrite (R b') in B; [discriminate|]. apply in_or_app. right. now left.
Qed.
Lemma ok_start b i : suf (b :: i) -> ascii b -> okpos (b :: i).
Proof.
  intros (w & E) A. destruct (concat_split chars H_char w b i (ascii_start _ A) E) as (u & v & U & V). now exists u, v.
Qed.
Lemma ok_nil : okpos [].
Proof. exists chars, []. now rewrite app_nil_r. Qed.

(** *** Texts between positions *)
Lemma prefix_of u1 v1 u2 v2 : chars = u1 ++ v1 -> chars = u2 ++ v2 -> blen (concat u1) <= blen (concat u2) -> exists m, u2 = u1 ++ m /\ v1 = m ++ v2.
Proof.
  intros E1 E2 L. pose proof E1 as E. rewrite E2 in E. apply app_eq_app in E as (m & [(A & B)|(A & B)]); [now exists m|].
  (* u1 = u2 ++ m: then m is empty *)
  assert (m = []) as ->.
  { destruct m as [|c m]; [reflexivity|]. exfalso. subst u1. rewrite concat_app, blen_app in L. cbn [concat] in L. rewrite blen_app in L.
    pose proof H_char as HC. rewrite E1 in HC. rewrite <- app_assoc in HC. apply Forall_app in HC as (_ & HC). inversion HC as [|? ? (x & r & -> & _) _ EQ]; subst.
    pose proof (blen_pos (concat m)). pose proof (blen_pos r). rewrite blen_cons in L. lia. }
  rewrite app_nil_r in A. subst u2. exists []. rewrite app_nil_r. now split.
Qed.
Notation text := (text_at chars off).
Lemma text_len p q w : text (Span p q) w -> q = p + blen w.
Proof. intros (u & m & v & _ & -> & E). injection E as -> ->. rewrite concat_app, blen_app. lia. Qed.
Lemma text_bpos p q w : text (Span p q) w -> bpos p /\ bpos q.
Proof.
  intros (u & m & v & E & -> & E'). injection E' as -> ->. split; [now exists u, (m ++ v)|]. exists (u ++ m), v. now rewrite <- app_assoc.
Qed.
Lemma bpos_text p q : bpos p -> bpos q -> p <= q -> exists w, text (Span p q) w.
Proof.
  intros (u1 & v1 & E1 & ->) (u2 & v2 & E2 & ->) L. destruct (prefix_of _ _ _ _ E1 E2) as (m & -> & ->); [lia|].
  exists (concat m), u1, m, v2. now repeat split.
Qed.
Lemma text_join p r q s t : text (Span p r) s -> text (Span r q) t -> text (Span p q) (s ++ t).
Proof.
  intros (u1 & m1 & v1 & E1 & -> & X1) (u2 & m2 & v2 & E2 & -> & X2). injection X1 as -> ->. injection X2 as X2 ->.
  destruct (prefix_of (u1 ++ m1) v1 u2 (m2 ++ v2)) as (m & -> & ->); [now rewrite <- app_assoc|exact E2|lia|].
  pose proof (blen_concat (u1 ++ m1) m) as X3.
  assert (m = []) as ->.
  { destruct m as [|c m]; [reflexivity|]. exfalso. pose proof H_char as HC. rewrite E2 in HC. apply Forall_app in HC as (HC & _). apply Forall_app in HC as (_ & HC). inversion HC as [|? ? (x & r & -> & _) _ EQ]; subst. cbn [concat app] in X3. rewrite blen_cons in X3. pose proof (blen_pos (r ++ concat m)). cbn [concat app] in X2. lia. }
  exists u1, (m1 ++ m2), v2. rewrite app_nil_r in *. rewrite <- !app_assoc. split; [now rewrite <- app_assoc in E2|]. split; [now rewrite concat_app|reflexivity].
Qed.
Lemma text_empty p : bpos p -> text (Span p p) [].
Proof. intros (u & v & E & ->). exists u, [], v. rewrite app_nil_r. now repeat split. Qed.
Lemma spelled_by p r r' q s t : text (Span p r) s -> text (Span r' q) t -> r <= r' -> p < q -> spelled chars off (Span p q) s t.
Proof.
  intros S T L N. destruct (bpos_text r r') as (m & M); [apply (text_bpos _ _ _ S)|apply (text_bpos _ _ _ T)|exact L|].
  pose proof (text_join _ _ _ _ _ (text_join _ _ _ _ _ S M) T) as W. exists ((s ++ m) ++ t). split; [exact W|].
  split; [intros X; apply text_len in W; rewrite X in W; cbn in W; lia|]. split; [exists (m ++ t); now rewrite <- app_assoc|now exists (s ++ m)].
Qed.
Lemma ok_text i w j : okpos i -> okpos j -> i = w ++ j -> text (Span (at_ i) (at_ j)) w.
Proof.
  intros I J E. pose proof (at_app i w j (ok_suf _ I) E) as (_ & A). destruct (bpos_text (at_ i) (at_ j)) as (w' & W); [now apply at_ok|now apply at_ok|pose proof (blen_pos w); lia|].
  destruct W as (u & m & v & C & -> & X). injection X as X1 X2.
  assert (concat (m ++ v) = i) as Y.
  { destruct I as (b & a & CH & ->). rewrite (H_at (concat b) (concat a)) in X1 by now rewrite CH, concat_app.
    destruct (prefix_of u (m ++ v) b a) as (k & -> & K); [exact C|exact CH|lia|].
    destruct (prefix_of (u ++ k) a u (m ++ v)) as (k' & K' & ->); [exact CH|exact C|lia|].
    rewrite <- app_assoc in K'. rewrite <- (app_nil_r u) in K' at 1. apply app_inv_head in K'. symmetry in K'. apply app_eq_nil in K' as (-> & ->). reflexivity. }
  rewrite concat_app, E in Y. rewrite concat_app, blen_app in X2. assert (length (concat m) = length w) by (unfold blen in *; lia).
  apply app_eq_app in Y as (k & [(Y & _)|(Y & _)]).
  - assert (k = []) as -> by (apply length_zero_iff_nil; rewrite Y, app_length in H; lia). rewrite app_nil_r in Y. rewrite <- Y.
    exists u, m, v. split; [exact C|]. split; [reflexivity|]. rewrite X1, X2, concat_app, blen_app. reflexivity.
  - assert (k = []) as -> by (apply length_zero_iff_nil; rewrite Y, app_length in H; lia). rewrite app_nil_r in Y. rewrite Y.
    exists u, m, v. split; [exact C|]. split; [reflexivity|]. rewrite X1, X2, concat_app, blen_app. reflexivity.
Qed.

(** *** Rules *)
Definition gives {A} (P : span -> A -> Prop) (r : rule A) : Prop :=
  forall i, okpos i -> wp r i (fun a j => okpos j /\ at_ i <= at_ j /\ P (Span (at_ i) (at_ j)) a).
Definition reads {A} (r : rule A) : Prop := gives (fun _ _ => True) r.
Lemma gives_reads {A} P (r : rule A) : gives P r -> reads r.
Proof. intros H i I. eapply wp_mono; [apply H, I|]. cbn. tauto. Qed.
Definition is_ascii (b : byte) : bool := Z_of_byte b <? 128.
Lemma all_ascii s : forallb is_ascii s = true -> Forall ascii s.
Proof. rewrite forallb_forall, Forall_forall. intros H b B. apply H in B. unfold is_ascii in B. now apply Z.ltb_lt in B. Qed.
Lemma strip_app s : forall i j, strip s i = Some j -> i = s ++ j.
Proof.
  induction s as [|a s IH]; intros [|b i] j H; cbn in H; try discriminate; try (now injection H as <-).
  destruct (Byte.eqb a b) eqn:E; [|discriminate]. apply Byte.byte_dec_bl in E. subst b. cbn. f_equal. now apply IH.
Qed.
Lemma lit_step s i j : suf i -> s <> [] -> Forall ascii s -> i = s ++ j -> okpos i /\ okpos j /\ text (Span (at_ i) (at_ j)) s /\ at_ i < at_ j.
Proof.
  intros I N A E. destruct s as [|b s]; [easy|]. assert (O : okpos i).
  { rewrite E in I |- *. inversion A; subst. now apply ok_start. }
  assert (J : okpos j) by (apply (ok_app (b :: s)); [exact A|now rewrite E in O]).
  pose proof (ok_text _ _ _ O J E) as T. repeat split; auto. apply text_len in T. rewrite blen_cons in T. pose proof (blen_pos s). lia.
Qed.
Lemma wp_lit {B} s (k : unit -> rule B) i Q : suf i -> s <> [] -> forallb is_ascii s = true ->
  (forall j, okpos j -> text (Span (at_ i) (at_ j)) s -> at_ i < at_ j -> wp (k tt) j Q) -> wp (rseq (rlit s) k) i Q.
Proof.
  intros I N A K. unfold wp, rseq, rlit. destruct (strip s i) as [j|] eqn:E; [|easy]. apply strip_app in E.
  destruct (lit_step _ _ _ I N (all_ascii _ A) E) as (_ & J & T & L). now apply K.
Qed.
Lemma wp_keyword {B} s (k : unit -> rule B) i Q : okpos i -> s <> [] -> forallb is_ascii s = true ->
  (forall j, okpos j -> text (Span (at_ i) (at_ j)) s -> at_ i < at_ j -> wp (k tt) j Q) -> wp (rseq (rkeyword s) k) i Q.
Proof.
  intros I N A K. unfold wp, rseq, rkeyword. destruct (strip s i) as [j|] eqn:E; [|easy]. apply strip_app in E.
  destruct (lit_step _ _ _ (ok_suf _ I) N (all_ascii _ A) E) as (_ & J & T & L). specialize (K j J T L). destruct j as [|b j]; [exact K|]. now destruct (is_word_char b).
Qed.
Lemma reads_lit s : s <> [] -> forallb is_ascii s = true -> gives (fun sp _ => sp_low sp < sp_high sp) (rlit s).
Proof.
  intros N A i I. unfold wp, rlit. destruct (strip s i) as [j|] eqn:E; [|easy]. apply strip_app in E.
  destruct (lit_step _ _ _ (ok_suf _ I) N (all_ascii _ A) E) as (_ & J & T & L). cbn. repeat split; auto. lia.
Qed.
Lemma reads_keyword s : s <> [] -> forallb is_ascii s = true -> gives (fun sp _ => sp_low sp < sp_high sp) (rkeyword s).
Proof.
  intros N A i I. unfold wp, rkeyword. destruct (strip s i) as [j|] eqn:E; [|easy]. apply strip_app in E.
  destruct (lit_step _ _ _ (ok_suf _ I) N (all_ascii _ A) E) as (_ & J & T & L). destruct j as [|b j]; [|destruct (is_word_char b); [easy|]]; cbn; repeat split; auto; lia.
Qed.
(** Blanks *)
Lemma line_app i : exists w, i = w ++ line_rest i.
Proof. induction i as [|b i (w & E)]; [now exists []|]. cbn [line_rest]. destruct (Byte.eqb b x0a); [now exists []|]. exists (b :: w). cbn. now f_equal. Qed.
Lemma line_end i : line_rest i = [] \/ exists j, line_rest i = x0a :: j.
Proof.
  induction i as [|b i IH]; [now left|]. cbn [line_rest]. destruct (Byte.eqb b x0a) eqn:E; [|exact IH]. apply Byte.byte_dec_bl in E. subst b. right. now exists i.
Qed.
Lemma comment_app n : forall d i j, (length i <= n)%nat -> comment_rest d i = Some j -> exists w, i = w ++ x2a :: x2f :: j.
Proof.
  induction n as [|n IH]; intros d [|a [|b i]] j L H; try discriminate H; cbn in L; try lia.
  cbn [comment_rest] in H. destruct (Byte.eqb a x2a && Byte.eqb b x2f) eqn:E1.
  - apply andb_prop in E1 as (E1 & E2). apply Byte.byte_dec_bl in E1, E2. subst a b. destruct d as [|d].
    + injection H as <-. now exists [].
    + destruct (IH d i j) as (w & ->); [lia|exact H|]. now exists (x2a :: x2f :: w).
  - destruct (Byte.eqb a x2f && Byte.eqb b x2a).
    + destruct (IH (S d) i j) as (w & ->); [lia|exact H|]. now exists (a :: b :: w).
    + destruct (IH d (b :: i) j) as (w & E); [cbn; lia|exact H|]. exists (a :: w). cbn. now f_equal.
Qed.
Lemma blank_ascii b : is_blank b = true -> ascii b.
Proof. destruct b; intros H; reflexivity || discriminate H. Qed.
Lemma ok_step i j : blank_step i = Some j -> okpos i -> okpos j /\ at_ i <= at_ j.
Proof.
  intros H I. assert (G : okpos j /\ exists w, i = w ++ j).
  { unfold blank_step in H. destruct i as [|b i]; [easy|]. destruct (is_blank b) eqn:E.
    - injection H as <-. split; [eapply ok_next; [exact I|now apply blank_ascii]|now exists [b]].
    - destruct (strip (lit "/*") (b :: i)) as [i1|] eqn:S1.
      + apply strip_app in S1. destruct (comment_rest 0 i1) as [i2|] eqn:C; [|easy]. injection H as <-. destruct (comment_app _ _ _ _ (le_n _) C) as (w & ->).
        split.
        * destruct (lit_step [x2a; x2f] (x2a :: x2f :: i2) i2) as (_ & J & _); try easy.
          { apply (at_app (b :: i) (lit "/*" ++ w)); [now apply ok_suf|now rewrite <- app_assoc]. }
          { repeat constructor. }
        * exists (lit "/*" ++ w ++ [x2a; x2f]). rewrite <- !app_assoc. exact S1.
      + destruct (strip (lit "//") (b :: i)) as [i1|] eqn:S2; [|easy]. apply strip_app in S2. injection H as <-.
        destruct (line_app i1) as (w & W). assert (SU : b :: i = (lit "//" ++ w) ++ line_rest i1) by (rewrite <- app_assoc, <- W; exact S2).
        split; [|now exists (lit "//" ++ w)]. destruct (line_end i1) as [->|(j & E1)]; [apply ok_nil|].
        rewrite E1. apply ok_start; [|reflexivity]. rewrite <- E1. apply (at_app (b :: i) (lit "//" ++ w)); [now apply ok_suf|exact SU]. }
  destruct G as (J & w & ->). split; [exact J|]. destruct (at_app (w ++ j) w j (ok_suf _ I) eq_refl) as (_ & ->). pose proof (blen_pos w). lia.
Qed.
Lemma ok_blanks n : forall i, okpos i -> okpos (blanks_n n i) /\ at_ i <= at_ (blanks_n n i).
Proof.
  induction n as [|n IH]; intros i I; cbn [blanks_n]; [split; [exact I|lia]|]. destruct (blank_step i) as [j|] eqn:E; [|split; [exact I|lia]].
  destruct (ok_step _ _ E I) as (J & L). destruct (IH j J). split; [assumption|lia].
Qed.
Lemma reads_blank : reads rblank.
Proof. intros i I. unfold wp, rblank. destruct (ok_blanks (length i) i I). now repeat split. Qed.
(** Names *)
Lemma word_ascii b : is_word_char b = true -> ascii b.
Proof. destruct b; intros H; reflexivity || discriminate H. Qed.
Lemma wp_ident {B} (k : str -> rule B) i Q : okpos i ->
  (forall x j, okpos j -> x <> [] -> text (Span (at_ i) (at_ j)) x -> at_ i < at_ j -> wp (k x) j Q) -> wp (rseq rident k) i Q.
Proof.
  intros I K. unfold wp, rseq, rident. destruct i as [|b i]; [easy|]. destruct (is_alpha b) eqn:A; [|easy]. destruct (span_of is_word_char i) as (w, r) eqn:E.
  apply span_of_app in E as (E & W & _). assert (AW : Forall ascii (b :: w)).
  { constructor; [apply word_ascii; unfold is_word_char; now rewrite A, orb_true_r|]. rewrite forallb_forall in W. rewrite Forall_forall. intros x X. now apply word_ascii, W. }
  destruct (lit_step (b :: w) (b :: i) r) as (_ & J & T & L); [now apply ok_suf|easy|exact AW|cbn; now rewrite <- E|]. now apply K.
Qed.
Lemma wp_gives {A B} P (r : rule A) (k : A -> rule B) i Q : gives P r -> okpos i ->
  (forall a j, okpos j -> at_ i <= at_ j -> P (Span (at_ i) (at_ j)) a -> wp (k a) j Q) -> wp (rseq r k) i Q.
Proof. intros H I K. apply wp_seq. eapply wp_mono; [apply H, I|]. cbn. intros a j (J & L & X). auto. Qed.
Lemma gives_ident : gives (fun sp x => text sp x /\ x <> [] /\ sp_low sp < sp_high sp) rident.
Proof.
  intros i I. enough (W : wp (the x <- rident; rret x) i (fun a j => okpos j /\ at_ i <= at_ j /\ text (Span (at_ i) (at_ j)) a /\ a <> [] /\ at_ i < at_ j)).
  { revert W. unfold wp, rseq, rret. now destruct (rident i). }
  apply wp_ident; [exact I|]. intros x j J N T L. apply wp_ret. repeat split; auto. lia.
Qed.

(** *** Combinations *)
Definition grows {A} (P : span -> A -> Prop) : Prop := forall o o' a, inside o' o -> P o a -> P o' a.
Lemma gives_weaken {A} (P Q : span -> A -> Prop) r : gives P r -> (forall sp a, P sp a -> Q sp a) -> gives Q r.
Proof. intros H K i I. eapply wp_mono; [apply H, I|]. cbn. intros a j (J & L & X). auto. Qed.
Lemma gives_many {A} (P : span -> A -> Prop) r n : grows P -> gives P r -> gives (fun sp l => All (P sp) l) (rmany n r).
Proof.
  intros G R. induction n as [|n IH]; intros i I; [exact Logic.I|]. pose proof (R i I) as W. unfold wp in *. cbn [rmany].
  destruct (r i) as [a j| | |]; try exact Logic.I; [|split; [exact I|split; [lia|exact Logic.I]]].
  destruct W as (J & L & X). pose proof (IH j J) as W. unfold wp in W. destruct (rmany n r j) as [l k| | |]; try exact Logic.I. destruct W as (K & L' & Y).
  split; [exact K|]. split; [lia|]. cbn. split; [eapply G; [|exact X]; split; cbn; lia|].
  clear - G Y L. induction l as [|x l IHl]; [exact Logic.I|]. destruct Y as (Y1 & Y2). split; [eapply G; [|exact Y1]; split; cbn; lia|auto].
Qed.
Lemma All_grows {A} (P : span -> A -> Prop) : grows P -> grows (fun sp l => All (P sp) l).
Proof. intros G o o' l I. induction l as [|x l IH]; [easy|]. intros (X & Y). split; [eapply G; eauto|auto]. Qed.
Lemma gives_after {A} (P : span -> A -> Prop) r (sep : rule Datatypes.unit) : grows P -> reads sep -> gives P r -> gives P (the _ <- sep; r).
Proof.
  intros G S R i I. eapply wp_gives; [exact S|exact I|]. intros _ j J L _. eapply wp_mono; [apply R, J|]. cbn. intros a k (K & L' & X). split; [exact K|]. split; [lia|].
  eapply G; [|exact X]. split; cbn; lia.
Qed.
Lemma gives_sep {A} (P : span -> A -> Prop) r n (sep : rule Datatypes.unit) : grows P -> reads sep -> gives P r -> gives (fun sp l => All (P sp) l) (rsep n r sep).
Proof.
  intros G S R i I. pose proof (R i I) as W. unfold wp in *. unfold rsep.
  destruct (r i) as [a j| | |]; try exact Logic.I; [|split; [exact I|split; [lia|exact Logic.I]]].
  destruct W as (J & L & X). pose proof (gives_many P _ n G (gives_after P r sep G S R) j J) as W. unfold wp in W. destruct (rmany n _ j) as [l k| | |]; try exact Logic.I.
  destruct W as (K & L' & Y). split; [exact K|]. split; [lia|]. cbn. split; [eapply G; [|exact X]; split; cbn; lia|]. eapply (All_grows P G); [|exact Y]. split; cbn; lia.
Qed.
Lemma gives_opt {A} (P : span -> A -> Prop) r : gives P r -> gives (fun sp o => match o with Some x => P sp x | None => True end) (ropt r).
Proof. intros R i I. apply wp_opt; [apply R, I|]. cbn. repeat split; auto. lia. Qed.
Lemma gives_alt {A} (P : span -> A -> Prop) r s : gives P r -> gives P s -> gives P (ralt r s).
Proof. intros R S i I. apply wp_alt; [apply R, I|apply S, I]. Qed.
Lemma gives_fail {A} (P : span -> A -> Prop) : gives P (fun _ => PFail).
Proof. intros i I. exact Logic.I. Qed.
Lemma gives_level {A} (P : span -> A -> Prop) l m r : gives P r -> gives P (at_level l m r).
Proof. intros R. unfold at_level. destruct (Nat.leb m l); [exact R|apply gives_fail]. Qed.
Lemma True_grows {A} : grows (fun _ (_ : A) => True).
Proof. easy. Qed.
Lemma reads_sep {A} (r : rule A) n (sep : rule Datatypes.unit) : reads sep -> reads r -> reads (rsep n r sep).
Proof. intros S R. eapply gives_reads, gives_sep; [apply True_grows|exact S|exact R]. Qed.
Lemma reads_opt {A} (r : rule A) : reads r -> reads (ropt r).
Proof. intros R. eapply gives_reads, gives_opt. exact R. Qed.

Lemma wp_pos {B} (k : Z -> rule B) i Q : wp (k (at_ i)) i Q -> wp (rseq (rpos at_) k) i Q.
Proof. easy. Qed.
Ltac ascii_lit := solve [lazy; discriminate | reflexivity | assumption].
Ltac step :=
  lazymatch goal with
  | |- wp (rseq (rpos _) _) _ _ => apply wp_pos
  | |- wp (rseq rblank _) _ _ => eapply wp_gives; [exact reads_blank|assumption|intros ? ? ? ? _]
  | |- wp (rseq (rlit _) _) _ _ => apply wp_lit; [apply ok_suf; assumption|ascii_lit|ascii_lit|intros ? ? ? ?]
  | |- wp (rseq (rkeyword _) _) _ _ => apply wp_keyword; [assumption|ascii_lit|ascii_lit|intros ? ? ? ?]
  | |- wp (rseq rident _) _ _ => apply wp_ident; [assumption|intros ? ? ? ? ? ?]
  end.
Ltac with_ H := eapply wp_gives; [apply H|assumption|intros ? ? ? ? ?].
Ltac done_ := try apply wp_ret; split; [assumption|split; [lia|]].

Lemma gives_comma : gives (fun sp _ => sp_low sp < sp_high sp) rcomma.
Proof. intros i I. unfold rcomma. step. eapply wp_mono; [apply reads_blank; assumption|]. cbn. intros ? ? (J & L & _). split; [assumption|split; lia]. Qed.
Lemma reads_comma : reads rcomma. Proof. apply (gives_reads _ _ gives_comma). Qed.
Lemma reads_type n : reads (rtype n).
Proof.
  induction n as [|n IH]; intros i I; [exact Logic.I|]. cbn [rtype]. step.
  eapply wp_gives; [|assumption|intros ? ? ? ? _; done_; exact Logic.I].
  apply reads_opt. intros i' I'. step. step. eapply wp_gives; [apply reads_sep; [apply reads_comma|exact IH]|assumption|intros ? ? ? ? _]. step. step. done_. exact Logic.I.
Qed.
Lemma reads_type_args n : reads (rtype_args n).
Proof.
  intros i I. unfold rtype_args. step. step. eapply wp_gives; [apply reads_sep; [apply reads_comma|apply reads_type]|assumption|intros ? ? ? ? _]. step. step. done_. exact Logic.I.
Qed.
(** Constants *)
Definition tails {A} (r : rule A) : Prop := forall i a j, r i = PMatch a j -> exists w, i = w ++ j.
Lemma tails_ret {A} (a : A) : tails (rret a).
Proof. intros i a' j E. injection E as <- <-. now exists []. Qed.
Lemma tails_seq {A B} (r : rule A) (k : A -> rule B) : tails r -> (forall a, tails (k a)) -> tails (rseq r k).
Proof.
  intros R K i a j E. unfold rseq in E. destruct (r i) as [b i1| | |] eqn:E1; try discriminate. destruct (R _ _ _ E1) as (w1 & ->). destruct (K _ _ _ _ E) as (w2 & ->).
  exists (w1 ++ w2). now rewrite app_assoc.
Qed.
Lemma tails_alt {A} (r s : rule A) : tails r -> tails s -> tails (ralt r s).
Proof. intros R S i a j E. unfold ralt in E. destruct (r i) eqn:E1; try discriminate; [injection E as <- <-; eapply R; eauto|eapply S; eauto]. Qed.
Lemma tails_lit s : tails (rlit s).
Proof. intros i a j E. unfold rlit in E. destruct (strip s i) eqn:E1; [|discriminate]. injection E as <- <-. exists s. now apply strip_app. Qed.
Lemma tails_many {A} n (r : rule A) : tails r -> tails (rmany n r).
Proof.
  intros R. induction n as [|n IH]; intros i a j E; [discriminate|]. cbn [rmany] in E. destruct (r i) as [b i1| | |] eqn:E1; try discriminate; [|injection E as <- <-; now exists []].
  destruct (rmany n r i1) as [l i2| | |] eqn:E2; try discriminate. injection E as <- <-. destruct (R _ _ _ E1) as (w1 & ->). destruct (IH _ _ _ E2) as (w2 & ->).
  exists (w1 ++ w2). now rewrite app_assoc.
Qed.
Lemma span_upto_app n f : forall i w r, span_upto n f i = (w, r) -> i = w ++ r.
Proof.
  induction n as [|n IH]; intros [|b i] w r E; cbn in E; try (now injection E as <- <-). destruct (f b); [|now injection E as <- <-].
  destruct (span_upto n f i) as (w', r') eqn:E'. injection E as <- <-. cbn. f_equal. now apply IH.
Qed.
Lemma tails_escaped : tails rescaped_char.
Proof.
  unfold rescaped_char, ralts, fold_right, rescape. repeat apply tails_alt; try (apply tails_seq; [apply tails_lit|intros ?; apply tails_ret]).
  - intros [|b i] a j E; [discriminate E|]. unfold rplain_char in E. destruct (Byte.eqb b backslash || Byte.eqb b quote); [discriminate|]. injection E as <- <-. now exists [b].
  - unfold runicode. apply tails_seq; [apply tails_lit|]. intros _ i a j E. destruct (span_upto 6 is_hex i) as (w, r) eqn:E1. apply span_upto_app in E1. destruct w as [|b w]; [discriminate|].
    apply (tails_seq (rlit (lit "}")) _) in E; [|apply tails_lit|].
    + destruct E as (w' & ->). exists ((b :: w) ++ w'). rewrite <- app_assoc. exact E1.
    + intros _ k a' j' E'. destruct (Parser.is_char _); [|discriminate]. injection E' as <- <-. now exists [].
  - intros i a j E. discriminate E.
Qed.
Lemma tails_contents : tails rcontents.
Proof. intros i a j E. unfold rcontents in E. eapply tails_seq in E; [exact E|apply tails_many, tails_escaped|intros ?; apply tails_ret]. Qed.
Lemma wp_contents {B} (k : str -> rule B) i Q : suf i -> (forall s j, suf j -> at_ i <= at_ j -> wp (k s) j Q) -> wp (rseq rcontents k) i Q.
Proof.
  intros I K. unfold wp, rseq. destruct (rcontents i) as [s j| | |] eqn:E; auto. apply tails_contents in E as (w & E). destruct (at_app i w j I E) as (J & L). apply K; [exact J|].
  pose proof (blen_pos w). lia.
Qed.
Lemma gives_string : gives (fun sp _ => sp_low sp < sp_high sp) rstring.
Proof.
  intros i I. unfold rstring. step. apply wp_contents; [now apply ok_suf|]. intros s j0 J0 L0. apply wp_lit; [exact J0|ascii_lit|ascii_lit|]. intros j1 J1 T1 L1. done_. cbn. lia.
Qed.
Lemma digit_ascii b : is_digit b || in_range 46 46 b = true -> ascii b.
Proof. destruct b; intros H; reflexivity || discriminate H. Qed.
Lemma gives_number : gives (fun sp _ => sp_low sp < sp_high sp) (rnumber fl).
Proof.
  intros i I. unfold wp, rnumber.
  assert (SG : exists sg i1, (match i with b :: i' => if Byte.eqb b x2d then ([b], i') else ([], i) | [] => ([], i) end) = (sg, i1) /\ okpos i1 /\ at_ i <= at_ i1).
  { destruct i as [|b i]; [exists [], []; repeat split; auto; lia|]. destruct (Byte.eqb b x2d) eqn:E; [|exists [], (b :: i); repeat split; auto; lia].
    apply Byte.byte_dec_bl in E. subst b. exists [x2d], i. destruct (lit_step [x2d] (x2d :: i) i) as (_ & J & _ & L); [now apply ok_suf|easy|repeat constructor|reflexivity|].
    repeat split; auto. lia. }
  destruct SG as (sg & i1 & -> & I1 & L1). destruct (span_of _ i1) as (w, i2) eqn:E. apply span_of_app in E as (E & W & _). destruct w as [|b w]; [exact Logic.I|].
  assert (AW : Forall ascii (b :: w)) by (rewrite forallb_forall in W; rewrite Forall_forall; intros x X; now apply digit_ascii, W).
  destruct (lit_step (b :: w) i1 i2) as (_ & I2 & _ & L2); [now apply ok_suf|easy|exact AW|exact E|].
  match goal with |- match ?r i2 with _ => _ end => change (wp r i2 (fun a j => okpos j /\ at_ i <= at_ j /\ at_ i < at_ j)) end.
  eapply wp_gives; [apply reads_opt, (gives_reads _ _ (reads_lit (lit "u") ltac:(ascii_lit) eq_refl))|exact I2|]. intros u i3 I3 L3 _.
  eapply wp_gives; [apply reads_opt, gives_alt|exact I3|].
  - intros k K. step. done_. exact Logic.I.
  - intros k K. step. done_. exact Logic.I.
  - intros [[]|] i4 I4 L4 _; repeat match goal with |- context [if ?b then _ else _] => destruct b end; try destruct u; apply wp_option; intros ?; split; try assumption; split; lia.
Qed.
Lemma gives_constant : gives (fun sp _ => sp_low sp < sp_high sp) (rconstant fl).
Proof.
  unfold rconstant, ralts, fold_right. repeat apply gives_alt; [intros i I; step; done_; cbn; lia|intros i I; step; done_; cbn; lia|apply gives_number| |apply gives_fail].
  intros i I. eapply wp_gives; [apply reads_opt|exact I|].
  - unfold rliteral_type, ralts, fold_right. repeat apply gives_alt; try apply gives_fail; intros k K; step; done_; exact Logic.I.
  - intros t j J L _. eapply wp_gives; [apply gives_string|exact J|]. cbn. intros s j' J' L' S. done_. lia.
Qed.

(** *** Expressions *)
Notation loc := (located chars off).
Lemma inside_trans a b c : inside a b -> inside b c -> inside a c.
Proof. unfold inside. lia. Qed.
Lemma located_grows : grows loc.
Proof. intros o o' e I H. destruct e; cbn in H |- *; destruct H as (H1 & H2); (split; [exact (inside_trans _ _ _ I H1)|exact H2]). Qed.
Lemma spelled_text sp s t : spelled chars off sp s t -> exists w, text sp w /\ w <> [].
Proof. intros (w & T & N & _). now exists w. Qed.
Lemma located_text o e : loc o e -> exists w, text (expr_span e) w /\ w <> [].
Proof.
  intros H. assert (S : spelling chars off e) by (destruct e; cbn in H |- *; tauto). clear H.
  destruct e; cbn [spelling expr_span] in S |- *; try (eapply spelled_text; exact S); try easy; try (destruct S as [S|S]; eapply spelled_text; exact S);
    try (eexists; split; [exact S|lazy; discriminate]). destruct S as (S & N). eauto.
Qed.
Lemma located_bounds o e : loc o e -> bpos (sp_low (expr_span e)) /\ bpos (sp_high (expr_span e)) /\ sp_low (expr_span e) < sp_high (expr_span e) /\ inside o (expr_span e).
Proof.
  intros H. assert (I : inside o (expr_span e)) by (destruct e; cbn in H |- *; tauto). apply located_text in H as (w & T & N). destruct (expr_span e) as [p q]. cbn.
  destruct (text_bpos _ _ _ T). apply text_len in T. destruct w as [|b w]; [easy|]. rewrite blen_cons in T. pose proof (blen_pos w). repeat split; auto; lia || apply I.
Qed.
Definition expr_rule (r : rule sexpr) : Prop := gives loc r.
Definition args_end (sp : span) (es : list sexpr) : Prop := All (loc sp) es /\ exists r, sp_low sp <= r /\ text (Span r (sp_high sp)) (lit ")").
Ltac wide :=
  cbv beta in *;
  lazymatch goal with
  | |- located _ _ _ _ => eapply located_grows; [|eassumption]; split; cbn [sp_low sp_high]; lia
  | |- All _ _ => eapply (All_grows _ located_grows); [|eassumption]; split; cbn [sp_low sp_high]; lia
  end.
Lemma spelled_plain p q : bpos p -> bpos q -> p < q -> spelled chars off (Span p q) [] [].
Proof. intros P Q L. apply (spelled_by p p q q); [now apply text_empty|now apply text_empty|lia|exact L]. Qed.
Lemma spelled_start p r q s : text (Span p r) s -> bpos q -> r <= q -> p < q -> spelled chars off (Span p q) s [].
Proof. intros S Q L N. apply (spelled_by p r q q); auto. now apply text_empty. Qed.
Lemma spelled_end p r q t : bpos p -> text (Span r q) t -> p <= r -> p < q -> spelled chars off (Span p q) [] t.
Proof. intros S Q L N. apply (spelled_by p p r q); auto. now apply text_empty. Qed.
Section Rec.
Variables (n : nat) (rec : nat -> rule sexpr).
Hypothesis R : forall m, expr_rule (rec m).
Lemma gives_args : gives args_end (rargs n rec).
Proof.
  intros i I. unfold rargs. step. step. eapply wp_gives; [apply gives_sep; [apply located_grows|apply reads_comma|apply R]|assumption|intros ? ? ? ? ?].
  step. step. done_. split; [wide|]. cbn. eexists. split; [|eassumption]. lia.
Qed.
(** Something that was read in front of [i], from [p] on. *)
Definition extends (x : sexpr) (r : rule sexpr) : Prop :=
  forall p i, p <= at_ i -> okpos i -> loc (Span p (at_ i)) x -> wp r i (fun e j => okpos j /\ at_ i <= at_ j /\ loc (Span p (at_ j)) e).
Lemma merged_spelled p i x y i' j : loc (Span p (at_ i)) x -> loc (Span (at_ i') (at_ j)) y -> at_ i <= at_ i' ->
  merged x y = Span (sp_low (expr_span x)) (sp_high (expr_span y)) /\ spelled chars off (merged x y) [] [] /\ inside (Span p (at_ j)) (merged x y) /\
  inside (merged x y) (expr_span x) /\ inside (merged x y) (expr_span y).
Proof.
  intros X Y L. apply located_bounds in X as (X1 & X2 & X3 & X4), Y as (Y1 & Y2 & Y3 & Y4). unfold merged, span_merge, inside in *. cbn in *.
  rewrite Z.min_l, Z.max_r by lia. split; [reflexivity|]. split; [apply spelled_plain; auto; lia|]. repeat split; lia.
Qed.
Lemma located_own o e o' : loc o e -> inside o' (expr_span e) -> loc o' e.
Proof. intros H I. destruct e; cbn in H, I |- *; (split; [exact I|apply H]). Qed.
Lemma extends_binary x op l f : lit op <> [] -> forallb is_ascii (lit op) = true ->
  (forall y, exists g, f x y = EAssign (N := source_ast) x y (merged x y) \/ f x y = pbin g x y) -> extends x (binary rec op l f x).
Proof.
  intros N A F p i L I X. unfold binary. step. step. step. eapply wp_gives; [apply R|assumption|intros y jy J LJ Y].
  done_. match type of Y with loc (Span (at_ ?i') _) _ => destruct (merged_spelled p i x y i' jy X Y) as (M & S & I1 & I2 & I3); [lia|] end.
  destruct (F y) as (g & [->| ->]); unfold pbin; cbn [located expr_span spelling]; (split; [exact I1|]; split; [exact S|]; split; eapply located_own; eauto).
Qed.
Lemma extends_level x l m r : extends x r -> extends x (at_level l m r).
Proof. intros H. unfold at_level. destruct (Nat.leb m l); [exact H|]. intros p i L I X. exact Logic.I. Qed.
Lemma extends_alt x r s : extends x r -> extends x s -> extends x (ralt r s).
Proof. intros H H' p i L I X. apply wp_alt; auto. Qed.
Lemma up_to_inside p i x j : loc (Span p (at_ i)) x -> at_ i <= j -> inside (Span p j) (up_to x j) /\ inside (up_to x j) (expr_span x).
Proof. intros X L. apply located_bounds in X as (_ & _ & _ & X4). unfold up_to, inside in *. cbn in *. lia. Qed.
Lemma extends_extend m x : extends x (pextend at_ n rec m x).
Proof.
  unfold pextend, ralts, fold_right. repeat (apply extends_alt; [apply extends_level|]); [ | | | | | | | | | | | | | | | | | | | | | | | | | | | | intros p i L I X; exact Logic.I].
  2-24: apply extends_binary; [ascii_lit|reflexivity|intros y; first [exists BAdd; left; reflexivity|eexists; right; reflexivity]].
  - intros p i L I X. step. step. step. eapply wp_gives; [apply R|assumption|intros y jy J LJ Y]. step. step. step. eapply wp_gives; [apply R|assumption|intros z kz K LK Z].
    done_. match type of Z with loc (Span (at_ ?i') _) _ => destruct (merged_spelled p i x z i' kz X Z) as (M & S & I1 & I2 & I3); [lia|] end.
    cbn [located expr_span spelling]. split; [exact I1|]. split; [exact S|]. split; [eapply located_own; eauto|]. split; [|eapply located_own; eauto].
    eapply located_own; [exact Y|]. apply located_bounds in X as (_ & _ & X3 & X4), Y as (_ & _ & Y3 & Y4), Z as (_ & _ & Z3 & Z4). rewrite M. unfold inside in *. cbn in *. lia.
  - intros p i L I X. step. step. step. eapply wp_gives; [apply R|assumption|intros y jy J LJ Y]. step. step. step. done_.
    match goal with |- loc (Span _ ?q) _ => destruct (up_to_inside p i x q X) as (U1 & U2); [lia|] end. apply located_bounds in X as XB. destruct XB as (B1 & B2 & B3 & B4). unfold inside in B4. cbn in B4.
    cbn [located expr_span spelling]. split; [exact U1|]. split; [eapply spelled_end; [exact B1|eassumption|lia|lia]|]. split; [eapply located_own; eauto|].
    eapply located_grows; [|exact Y]. split; cbn; lia.
  - intros p i L I X. step. step. step. step. step. eapply wp_gives; [apply gives_args|assumption|intros args ja J LJ (Y & r & YL & YT)]. step. done_.
    match goal with |- loc (Span _ ?q) _ => destruct (up_to_inside p i x q X) as (U1 & U2); [lia|] end. apply located_bounds in X as XB. destruct XB as (B1 & B2 & B3 & B4). unfold inside in B4. cbn in B4, YL, YT.
    cbn [located expr_span spelling]. split; [exact U1|]. split; [eapply spelled_end; [exact B1|exact YT|lia|lia]|]. split; [eapply located_own; eauto|].
    eapply (All_grows _ located_grows); [|exact Y]. split; cbn; lia.
  - intros p i L I X. step. step. step. step. step. done_.
    match goal with |- loc (Span _ ?q) _ => destruct (up_to_inside p i x q X) as (U1 & U2); [lia|] end. apply located_bounds in X as XB. destruct XB as (B1 & B2 & B3 & B4). unfold inside in B4. cbn in B4.
    cbn [located expr_span spelling]. split; [exact U1|]. split; [eapply spelled_end; [exact B1|eassumption|lia|lia]|]. eapply located_own; eauto.
  - intros p i L I X. step. step. step. eapply wp_gives; [apply reads_type|assumption|intros t jt J LJ _]. step. done_.
    match goal with |- loc (Span _ ?q) _ => destruct (up_to_inside p i x q X) as (U1 & U2); [lia|] end. apply located_bounds in X as XB. destruct XB as (B1 & B2 & B3 & B4). unfold inside in B4. cbn in B4.
    cbn [located expr_span spelling]. split; [exact U1|]. split; [apply spelled_plain; [exact B1|now apply at_ok|lia]|]. eapply located_own; eauto.
Qed.

Definition sgives {A} (P : span -> A -> Prop) (r : rule A) : Prop :=
  forall i, suf i -> wp r i (fun a j => suf j /\ at_ i <= at_ j /\ P (Span (at_ i) (at_ j)) a).
Lemma sgives_many {A} (P : span -> A -> Prop) r k : grows P -> sgives P r -> sgives (fun sp l => All (P sp) l) (rmany k r).
Proof.
  intros G Rr. induction k as [|k IH]; intros i I; [exact Logic.I|]. pose proof (Rr i I) as W. unfold wp in *. cbn [rmany].
  destruct (r i) as [a j| | |]; try exact Logic.I; [|split; [exact I|split; [lia|exact Logic.I]]].
  destruct W as (J & L & X). pose proof (IH j J) as W. unfold wp in W. destruct (rmany k r j) as [l k'| | |]; try exact Logic.I. destruct W as (K & L' & Y).
  split; [exact K|]. split; [lia|]. cbn. split; [eapply G; [|exact X]; split; cbn; lia|]. eapply (All_grows P G); [|exact Y]. split; cbn; lia.
Qed.
Lemma gives_interpolated : gives loc (pinterpolated at_ n rec).
Proof.
  intros i I. unfold pinterpolated. step. step. apply wp_contents; [now apply ok_suf|]. intros s j1 J1 L1.
  apply wp_seq. eapply wp_mono.
  { apply (sgives_many (fun sp x => loc sp (fst x))); [| |exact J1].
    - intros o o' x. apply located_grows.
    - intros i0 I0. apply wp_lit; [exact I0|ascii_lit|ascii_lit|intros ? ? ? ?]. step. eapply wp_gives; [apply R|assumption|intros y jy J LJ Y]. step. step.
      apply wp_contents; [now apply ok_suf|]. intros s' j' J' L'. apply wp_ret. split; [exact J'|]. split; [lia|]. cbn [fst]. wide. }
  cbv beta. intros parts j2 (J2 & L2 & P). apply wp_lit; [exact J2|ascii_lit|ascii_lit|intros ? ? ? ?]. step. done_.
  cbn [located expr_span spelling]. split; [split; cbn; lia|]. split; [eapply spelled_by; [eassumption|eassumption|lia|lia]|].
  refine (All_grows (fun sp x => loc sp (fst x)) _ _ _ _ _ P); [intros o o' x; apply located_grows|split; cbn; lia].
Qed.
Lemma gives_keyword w e : lit w <> [] -> forallb is_ascii (lit w) = true ->
  (forall p q, p < q -> text (Span p q) (lit w) -> loc (Span p q) (e (Span p q))) ->
  gives loc (the pos <- rpos at_; the _ <- rkeyword (lit w); the end_ <- rpos at_; rret (e (Span pos end_))).
Proof. intros N A E i I. step. step. step. done_. now apply E. Qed.
Lemma gives_prefix w o : lit w <> [] -> forallb is_ascii (lit w) = true -> gives loc (the _ <- rlit (lit w); the _ <- rblank; the e <- rec 11%nat; rret (pun o e)).
Proof.
  intros N A i I. step. step. eapply wp_gives; [apply R|assumption|intros y jy J LJ Y]. done_. unfold pun. cbn [located expr_span spelling].
  pose proof (located_bounds _ _ Y) as (B1 & B2 & B3 & B4). unfold inside in *. cbn [sp_low sp_high] in *. split; [lia|]. split; [destruct (expr_span y); now apply spelled_plain|].
  eapply located_own; [exact Y|]. unfold inside. lia.
Qed.
Lemma gives_start : gives loc (pstart fl at_ n rec).
Proof.
  unfold pstart, ralts, fold_right. repeat apply gives_alt; try apply gives_fail.
  1-3: apply gives_prefix; [ascii_lit|reflexivity].
  - intros i I. step. step. step. step. step. eapply wp_gives; [apply gives_args|assumption|intros args ja J LJ (Y & r & YL & YT)]. step. done_. cbn in YL, YT.
    cbn [located expr_span spelling]. split; [split; cbn; lia|]. split; [eapply spelled_by; [eassumption|exact YT|lia|lia]|wide].
  - intros i I. step. step. step. eapply wp_gives; [apply gives_sep; [apply located_grows|apply reads_comma|apply R]|assumption|intros es je J LJ Y]. step. step. step. done_.
    cbn [located expr_span spelling]. split; [split; cbn; lia|]. split; [eapply spelled_by; [eassumption|eassumption|lia|lia]|wide].
  - intros i I. step. step. eapply wp_gives; [apply R|assumption|intros y jy J LJ Y]. step. step. done_. wide.
  - apply (gives_keyword "null" (ENull (N := source_ast))); [ascii_lit|reflexivity|]. intros p q L T. cbn [located expr_span spelling]. repeat split; cbn; auto; lia.
  - apply (gives_keyword "this" (EThis (N := source_ast))); [ascii_lit|reflexivity|]. intros p q L T. cbn [located expr_span spelling]. repeat split; cbn; auto; lia.
  - apply (gives_keyword "super" (ESuper (N := source_ast))); [ascii_lit|reflexivity|]. intros p q L T. cbn [located expr_span spelling]. repeat split; cbn; auto; lia.
  - apply gives_interpolated.
  - intros i I. step. eapply wp_gives; [apply gives_constant|assumption|intros c jc J LJ Y]. step. done_. cbn [sp_low sp_high] in Y.
    cbn [located expr_span spelling]. split; [split; cbn; lia|]. split; [apply spelled_plain; [now apply at_ok|now apply at_ok|lia]|exact Logic.I].
  - intros i I. step. step. step. eapply wp_gives; [apply reads_opt, reads_type_args|assumption|intros ts jt JT LT _]. step.
    eapply wp_gives; [apply gives_args|assumption|intros args ja J LJ (Y & r & YL & YT)]. step. done_. cbn in YL, YT.
    cbn [located expr_span spelling]. split; [split; cbn; lia|]. split; [eapply spelled_by; [eassumption|exact YT|lia|lia]|wide].
  - intros i I. step. step. step. done_. cbn [located expr_span spelling]. repeat split; cbn; auto; lia.
Qed.
Lemma extends_climb m : forall k x, extends x (pclimb at_ k n rec m x).
Proof.
  induction k as [|k IH]; intros x p i L I X; [exact Logic.I|]. unfold wp. cbn [pclimb]. pose proof (extends_extend m x p i L I X) as W. unfold wp in W.
  destruct (pextend at_ n rec m x i) as [y j| | |]; try exact Logic.I; [|split; [exact I|split; [lia|exact X]]]. destruct W as (J & L' & Y).
  assert (LP : p <= at_ j) by lia. pose proof (IH y p j LP J Y) as W. unfold wp in W. destruct (pclimb at_ k n rec m y j); try exact Logic.I. destruct W as (K & L'' & Z). split; [exact K|]. split; [lia|exact Z].
Qed.
End Rec.
Lemma gives_expr n : forall m, gives loc (pexpr fl at_ n m).
Proof.
  induction n as [|n IH]; intros m i I; [exact Logic.I|]. cbn [pexpr]. eapply wp_gives; [apply gives_start, IH|exact I|]. intros x j J L X.
  eapply wp_mono; [apply (extends_climb (S n) (pexpr fl at_ n) IH m (S n) x (at_ i) j L J X)|]. cbv beta. intros e k (K & L' & Y). split; [exact K|]. split; [lia|exact Y].
Qed.

(** *** Statements *)
Lemma gives_initializer n : gives loc (pinitializer fl at_ n).
Proof. intros i I. unfold pinitializer. step. step. eapply wp_mono; [apply gives_expr; assumption|]. cbv beta. intros e k (K & L' & Y). split; [exact K|]. split; [lia|wide]. Qed.
Lemma reads_let_type n : reads (rlet_type n).
Proof. intros i I. unfold rlet_type. step. step. eapply wp_mono; [apply reads_type; assumption|]. cbv beta. intros e k (K & L' & Y). split; [exact K|]. split; [lia|exact Y]. Qed.
Lemma reads_func_type n : reads (rfunc_type n).
Proof. intros i I. unfold rfunc_type. step. step. eapply wp_mono; [apply reads_type; assumption|]. cbv beta. intros e k (K & L' & Y). split; [exact K|]. split; [lia|exact Y]. Qed.
Lemma reads_semi : reads rsemi.
Proof. intros i I. unfold rsemi. eapply wp_gives; [apply reads_opt, (gives_reads _ _ (reads_lit (lit ";") ltac:(ascii_lit) eq_refl))|exact I|]. intros u j J L _. now done_. Qed.
Ltac semi := eapply wp_gives; [exact reads_semi|assumption|intros ? ? ? ? _].
Definition oloc (sp : span) (o : option sexpr) : Prop := match o with Some x => loc sp x | None => True end.
Lemma oloc_grows : grows oloc.
Proof. intros o o' [e|] I H; [|exact H]. eapply located_grows; eauto. Qed.
Definition bloc (sp : span) (o : option (list sexpr)) : Prop := match o with Some b => All (loc sp) b | None => True end.
Lemma bloc_grows : grows bloc.
Proof. intros o o' [e|] I H; [|exact H]. eapply (All_grows _ located_grows); eauto. Qed.
Lemma gives_let n : gives loc (plet fl at_ n).
Proof.
  intros i I. unfold plet. do 5 step. eapply wp_gives; [apply reads_opt, reads_let_type|assumption|intros t jt JT LT _]. step.
  eapply wp_gives; [apply gives_opt, gives_initializer|assumption|intros v jv JV LV V]. do 3 step. done_.
  cbn [located expr_span spelling]. split; [split; cbn; lia|]. split; [eapply spelled_by; [eassumption|eassumption|lia|lia]|].
  refine (oloc_grows _ _ v _ V). split; cbn; lia.
Qed.
Section Stmt.
Variables (n : nat) (stmt : rule sexpr).
Hypothesis S_ : gives loc stmt.
Lemma gives_statements : gives (fun sp l => All (loc sp) l) (rstatements n stmt).
Proof. apply gives_sep; [apply located_grows|apply reads_blank|apply S_]. Qed.
Lemma gives_block : gives (fun sp l => All (loc sp) l) (rblock n stmt).
Proof. intros i I. unfold rblock. do 2 step. eapply wp_gives; [apply gives_statements|assumption|intros b jb JB LB B]. do 2 step. done_. wide. Qed.
Ltac begun := cbn [located expr_span spelling]; split; [split; cbn; lia|]; split; [eapply spelled_start; [eassumption|now apply at_ok|lia|lia]|].
Lemma gives_while : gives loc (pwhile fl at_ n stmt).
Proof.
  intros i I. unfold pwhile. do 3 step. eapply wp_gives; [apply gives_expr|assumption|intros c jc JC LC C]. step.
  eapply wp_gives; [apply gives_block|assumption|intros b jb JB LB B]. step. semi. step. done_. begun. split; wide.
Qed.
Lemma gives_for : gives loc (pfor fl at_ n stmt).
Proof.
  intros i I. unfold pfor. do 7 step. eapply wp_gives; [apply gives_expr|assumption|intros c jc JC LC C]. step.
  eapply wp_gives; [apply gives_block|assumption|intros b jb JB LB B]. step. semi. step. done_.
  cbn [located expr_span spelling]. split; [split; cbn; lia|]. split; [|split; wide].
  match goal with H : text (Span (at_ i) _) (lit "for") |- _ => eapply spelled_start; [exact H|now apply at_ok|lia|lia] end.
Qed.
Lemma gives_if k : gives loc (pif fl at_ k n stmt).
Proof.
  induction k as [|k IH]; intros i I; [exact Logic.I|]. cbn [pif]. do 3 step. eapply wp_gives; [apply gives_expr|assumption|intros c jc JC LC C]. step.
  eapply wp_gives; [apply gives_block|assumption|intros b jb JB LB B]. step.
  eapply (wp_gives bloc); [|assumption|intros f jf JF LF F].
  - apply (gives_opt (fun sp l => All (loc sp) l)), gives_alt; intros i' I'; do 2 step.
    + eapply wp_mono; [apply gives_block; assumption|]. cbv beta. intros e k' (K & L' & Y). split; [exact K|]. split; [lia|wide].
    + eapply wp_gives; [apply IH|assumption|intros e je JE LE E]. done_. split; [wide|exact Logic.I].
  - step. semi. step. done_. begun. split; [wide|]. split; [wide|]. refine (bloc_grows _ _ f _ F). split; cbn; lia.
Qed.
Lemma gives_switch : gives loc (pswitch fl at_ n stmt).
Proof.
  intros i I. unfold pswitch. do 3 step. eapply wp_gives; [apply gives_expr|assumption|intros c jc JC LC C]. do 3 step.
  set (P := fun sp (c : sexpr * list sexpr) => loc sp (fst c) /\ All (loc sp) (snd c)).
  assert (G : grows P).
  { intros o o' x X (A & B). split; [eapply located_grows; eauto|eapply (All_grows _ located_grows); eauto]. }
  eapply (wp_gives (fun sp l => All (P sp) l)); [|assumption|intros cs jcs JCS LCS CS].
  - apply gives_sep; [exact G|apply reads_blank|]. intros i' I'. unfold pcase. do 2 step. eapply wp_gives; [apply gives_expr|assumption|intros m jm JM LM M]. do 3 step.
    eapply wp_gives; [apply gives_statements|assumption|intros b jb JB LB B]. done_. split; cbn [fst snd]; wide.
  - step. eapply (wp_gives bloc); [|assumption|intros d jd JD LD D].
    + apply (gives_opt (fun sp l => All (loc sp) l)). intros i' I'. unfold rdefault. do 4 step. eapply wp_mono; [apply gives_statements; assumption|]. cbv beta.
      intros e k' (K & L' & Y). split; [exact K|]. split; [lia|wide].
    + do 3 step. semi. step. done_.
      cbn [located expr_span spelling]. split; [split; cbn; lia|]. split; [|split; [wide|split]].
      * match goal with H : text (Span (at_ i) _) (lit "switch") |- _ => eapply spelled_start; [exact H|now apply at_ok|lia|lia] end.
      * eapply (All_grows P G); [|exact CS]. split; cbn; lia.
      * refine (bloc_grows _ _ d _ D). split; cbn; lia.
Qed.
Lemma gives_statement : gives loc (pstatement fl at_ n stmt).
Proof.
  unfold pstatement, ralts, fold_right. repeat apply gives_alt; [apply gives_while|apply gives_for|apply gives_if|apply gives_switch| | |apply gives_let| |apply gives_fail].
  - intros i I. do 3 step. eapply (wp_gives oloc); [apply (gives_opt loc), gives_expr|assumption|intros v jv JV LV V]. do 3 step. done_.
    cbn [located expr_span spelling]. split; [split; cbn; lia|]. split; [left; eapply spelled_by; [eassumption|eassumption|lia|lia]|]. refine (oloc_grows _ _ v _ V). split; cbn; lia.
  - intros i I. do 5 step. done_. cbn [located expr_span spelling]. split; [split; cbn; lia|]. split; [eapply spelled_by; [eassumption|eassumption|lia|lia]|exact Logic.I].
  - intros i I. eapply wp_gives; [apply gives_expr|assumption|intros e je JE LE E]. do 2 step. done_. wide.
Qed.
End Stmt.
Lemma gives_stmt n : gives loc (pstmt fl at_ n).
Proof. induction n as [|n IH]; [intros i I; exact Logic.I|]. cbn [pstmt]. now apply gives_statement. Qed.

(** *** Declarations *)
Notation aloc := (ann_located chars off).
Lemma aloc_grows : grows aloc.
Proof. intros o o' a I (A & B). split; [exact (inside_trans _ _ _ I A)|exact B]. Qed.
Lemma gives_annotation n : gives aloc (pannotation fl at_ n).
Proof.
  intros i I. unfold pannotation. do 6 step. eapply wp_gives; [apply gives_sep; [apply located_grows|apply reads_comma|apply gives_expr]|assumption|intros es je JE LE E].
  do 3 step. apply wp_option. intros k. split; [assumption|]. split; [lia|]. unfold ann_located. cbn [an_span an_args]. split; [split; cbn; lia|].
  split; [|wide]. match goal with H : text (Span (at_ i) _) (lit "@") |- _ => eapply spelled_by; [exact H|eassumption|lia|lia] end.
Qed.
Lemma gives_annotations n : gives (fun sp l => All (aloc sp) l) (pannotations fl at_ n).
Proof. apply gives_sep; [apply aloc_grows|apply reads_blank|apply gives_annotation]. Qed.
Lemma reads_word {A} s (a : A) : lit s <> [] -> forallb is_ascii (lit s) = true -> reads (rword s a).
Proof. intros N F i I. unfold rword. step. now done_. Qed.
Lemma reads_qualifiers n : reads (rqualifiers n).
Proof.
  apply reads_sep; [apply reads_blank|]. unfold rqualifier, ralts, fold_right. repeat apply gives_alt; try apply gives_fail; (apply reads_word; [ascii_lit|reflexivity]).
Qed.
Lemma gives_decl n kind : lit kind <> [] -> forallb is_ascii (lit kind) = true -> gives (fun sp d => decl_located chars off sp d /\ dc_span d = sp /\ sp_low sp < sp_high sp) (pdecl fl at_ n kind).
Proof.
  intros N F i I. unfold pdecl. step. eapply wp_gives; [apply gives_annotations|assumption|intros es je JE LE E]. step.
  eapply wp_gives; [apply reads_qualifiers|assumption|intros qs jq JQ LQ _]. do 5 step. done_. unfold decl_located. cbn [dc_span dc_name dc_annotations].
  split; [|split; [reflexivity|cbn; lia]]. split; [split; cbn; lia|]. split; [eapply spelled_end; [now apply at_ok|eassumption|lia|lia]|]. split; [assumption|].
  eapply (All_grows _ aloc_grows); [|exact E]. split; cbn; lia.
Qed.
Lemma decl_own o o' d : decl_located chars off o d -> inside o' (dc_span d) -> decl_located chars off o' d.
Proof. intros (_ & H) I. now split. Qed.
Lemma decl_grows : grows (decl_located chars off).
Proof. intros o o' d I (A & B). split; [exact (inside_trans _ _ _ I A)|exact B]. Qed.
Lemma field_grows : grows (field_located chars off).
Proof. intros o o' f I (A & B). split; [eapply decl_grows; eauto|exact (oloc_grows _ _ _ I B)]. Qed.
Lemma fun_grows : grows (fun_located chars off).
Proof. intros o o' f I (A & B). split; [exact (inside_trans _ _ _ I A)|exact B]. Qed.
Lemma member_grows : grows (member_located chars off).
Proof. intros o o' [f|f] I H; cbn in *; [eapply fun_grows; eauto|eapply field_grows; eauto]. Qed.
Lemma gives_field n : gives (field_located chars off) (pfield fl at_ n).
Proof.
  intros i I. unfold pfield. eapply wp_gives; [apply gives_decl; [ascii_lit|reflexivity]|assumption|intros d jd JD LD (D & E & _)]. step.
  eapply wp_gives; [apply reads_let_type|assumption|intros t jt JT LT _]. step. eapply (wp_gives oloc); [apply (gives_opt loc), gives_initializer|assumption|intros v jv JV LV V].
  do 2 step. done_. unfold field_located. cbn [fd_decl fd_default]. split; [eapply decl_grows; [|exact D]; split; cbn; lia|]. refine (oloc_grows _ _ v _ V). split; cbn; lia.
Qed.
Lemma gives_function_body n : gives (fun sp l => All (loc sp) l) (pfunction_body fl at_ n).
Proof.
  unfold pfunction_body. apply gives_alt; [apply gives_block, gives_stmt|]. intros i I. do 3 step. eapply wp_gives; [apply gives_expr|assumption|intros e je JE LE E].
  do 2 step. done_. split; [|exact Logic.I]. cbn [located expr_span spelling]. split; [split; cbn; lia|]. split; [right; eapply spelled_start; [eassumption|now apply at_ok|lia|lia]|wide].
Qed.
Lemma reads_param n : reads (rparam n).
Proof.
  intros i I. unfold rparam. eapply wp_gives; [apply reads_qualifiers|assumption|intros qs jq JQ LQ _]. do 3 step.
  eapply wp_gives; [apply reads_let_type|assumption|intros t jt JT LT _]. now done_.
Qed.
Lemma gives_function n : gives (fun_located chars off) (pfunction fl at_ n).
Proof.
  intros i I. unfold pfunction. step. eapply wp_gives; [apply gives_decl; [ascii_lit|reflexivity]|assumption|intros d jd JD LD (D & E & N)]. do 3 step.
  eapply wp_gives; [apply reads_sep; [apply reads_comma|apply reads_param]|assumption|intros ps jp JP LP _]. do 3 step.
  eapply wp_gives; [apply reads_opt, reads_func_type|assumption|intros t jt JT LT _]. step.
  eapply (wp_gives bloc); [apply (gives_opt (fun sp l => All (loc sp) l)), gives_function_body|assumption|intros b jb JB LB B]. semi. step. done_.
  unfold fun_located. cbn [fs_decl fs_span fs_body]. cbn [sp_low sp_high] in N. split; [split; cbn; lia|]. split; [apply spelled_plain; [now apply at_ok|now apply at_ok|lia]|].
  split; [now rewrite E|]. split; [eapply decl_grows; [|exact D]; split; cbn; lia|]. refine (bloc_grows _ _ b _ B). split; cbn; lia.
Qed.
Definition members_end (sp : span) (ms : list member_source) : Prop := All (member_located chars off sp) ms /\ exists r, sp_low sp <= r /\ text (Span r (sp_high sp)) (lit "}").
Lemma gives_members n : gives members_end (pmembers fl at_ n).
Proof.
  intros i I. unfold pmembers. do 2 step. eapply wp_gives; [apply gives_sep; [apply member_grows|apply reads_blank|]|assumption|intros ms jm JM LM M].
  - unfold pmember. apply gives_alt; intros i' I'; (eapply wp_gives; [apply gives_function || apply gives_field|assumption|intros f jf JF LF F]); done_; exact F.
  - do 2 step. done_. split; [eapply (All_grows _ member_grows); [|exact M]; split; cbn; lia|]. cbn. eexists. split; [|eassumption]. lia.
Qed.
Lemma gives_class n : gives (class_located chars off) (pclass fl at_ n).
Proof.
  intros i I. unfold pclass. step. eapply wp_gives; [apply gives_decl; [ascii_lit|reflexivity]|assumption|intros d jd JD LD (D & E & N)]. step.
  eapply wp_gives; [apply (reads_opt rextends)|assumption|intros b jb JB LB _].
  { intros i' I'. unfold rextends. do 2 step. eapply wp_mono; [apply gives_ident; assumption|]. cbv beta. intros x k (K & L & _). split; [exact K|]. split; [lia|exact Logic.I]. }
  step. eapply wp_gives; [apply gives_members|assumption|intros ms jm JM LM (M & r & RL & RT)]. step. done_. cbn in RL, RT, N.
  unfold class_located. cbn [cs_span cs_decl cs_members]. split; [split; cbn; lia|]. split; [eapply spelled_end; [now apply at_ok|exact RT|lia|lia]|].
  split; [now rewrite E|]. split; [eapply decl_grows; [|exact D]; split; cbn; lia|]. eapply (All_grows _ member_grows); [|exact M]. split; cbn; lia.
Qed.
Lemma gives_struct n : gives (class_located chars off) (pstruct fl at_ n).
Proof.
  intros i I. unfold pstruct. step. eapply wp_gives; [apply gives_decl; [ascii_lit|reflexivity]|assumption|intros d jd JD LD (D & E & N)].
  step. eapply wp_gives; [apply gives_members|assumption|intros ms jm JM LM (M & r & RL & RT)]. step. done_. cbn in RL, RT, N.
  unfold class_located. cbn [cs_span cs_decl cs_members]. split; [split; cbn; lia|]. split; [eapply spelled_end; [now apply at_ok|exact RT|lia|lia]|].
  split; [now rewrite E|]. split; [eapply decl_grows; [|exact D]; split; cbn; lia|]. eapply (All_grows _ member_grows); [|exact M]. split; cbn; lia.
Qed.
Lemma reads_enum_member : reads (renum_member fl).
Proof.
  intros i I. unfold renum_member. do 4 step. eapply wp_gives; [apply gives_number|assumption|intros c jc JC LC _]. apply wp_option. intros v. split; [assumption|]. split; [lia|exact Logic.I].
Qed.
Lemma gives_enum n : gives (enum_located chars off) (penum fl at_ n).
Proof.
  intros i I. unfold penum. step. eapply wp_gives; [apply gives_decl; [ascii_lit|reflexivity]|assumption|intros d jd JD LD (D & E & N)]. do 3 step.
  eapply wp_gives; [apply reads_sep; [apply reads_comma|apply reads_enum_member]|assumption|intros ps jp JP LP _]. step.
  eapply wp_gives; [apply reads_opt, (gives_reads _ _ (reads_lit (lit ",") ltac:(ascii_lit) eq_refl))|assumption|intros u ju JU LU _]. do 3 step. done_. cbn in N.
  unfold enum_located. cbn [es_span es_decl]. split; [split; cbn; lia|]. split; [eapply spelled_end; [now apply at_ok|eassumption|lia|lia]|].
  split; [now rewrite E|]. eapply decl_grows; [|exact D]. split; cbn; lia.
Qed.
Lemma entry_grows : grows (entry_located chars off).
Proof.
  intros o o' [b c|f|f|e] I H; cbn in *; [|eapply fun_grows; eauto|eapply field_grows; eauto|]; (destruct H as (A & B); split; [exact (inside_trans _ _ _ I A)|exact B]).
Qed.
Lemma gives_entry n : gives (entry_located chars off) (pentry fl at_ n).
Proof.
  unfold pentry, ralts, fold_right. repeat apply gives_alt; [| | | | |apply gives_fail]; intros i I.
  - eapply wp_gives; [apply gives_function|assumption|intros f jf JF LF F]. done_. exact F.
  - eapply wp_gives; [apply gives_class|assumption|intros f jf JF LF F]. done_. exact F.
  - eapply wp_gives; [apply gives_struct|assumption|intros f jf JF LF F]. done_. exact F.
  - eapply wp_gives; [apply gives_field|assumption|intros f jf JF LF F]. done_. exact F.
  - eapply wp_gives; [apply gives_enum|assumption|intros f jf JF LF F]. done_. exact F.
Qed.
Lemma import_grows : grows (import_located chars off).
Proof. intros o o' i I (A & B). split; [exact (inside_trans _ _ _ I A)|exact B]. Qed.
Lemma reads_path n : reads (rpath n).
Proof.
  apply reads_sep; [|apply (gives_reads _ _ gives_ident)]. intros i I. unfold rdot. step. eapply wp_mono; [apply reads_blank; assumption|]. cbv beta. intros x k (K & L & _). split; [exact K|]. split; [lia|exact Logic.I].
Qed.
Lemma gives_import_head n : gives (fun sp x => All (aloc sp) (fst x) /\ sp_low sp < sp_high sp) (pimport_head fl at_ n).
Proof.
  intros i I. unfold pimport_head. eapply wp_gives; [apply gives_annotations|assumption|intros es je JE LE E]. do 3 step. eapply wp_gives; [apply reads_path|assumption|intros ps jp JP LP _].
  done_. cbn [fst]. split; [|cbn; lia]. eapply (All_grows _ aloc_grows); [|exact E]. split; cbn; lia.
Qed.
Lemma gives_import n : gives (import_located chars off) (pimport fl at_ n).
Proof.
  unfold pimport, ralts, fold_right. repeat apply gives_alt; try apply gives_fail; intros i I; step; (eapply wp_gives; [apply gives_import_head|assumption|intros (anns, parts) jh JH LH (A & N)]);
    cbn [fst] in A; cbn in N.
  - do 5 step. done_. unfold import_located. cbn [fst snd]. split; [split; cbn; lia|]. split; [eapply spelled_end; [now apply at_ok|eassumption|lia|lia]|].
    eapply (All_grows _ aloc_grows); [|exact A]. split; cbn; lia.
  - do 5 step. eapply wp_gives; [apply reads_sep; [apply reads_comma|apply (gives_reads _ _ gives_ident)]|assumption|intros ps jp JP LP _]. do 3 step. done_.
    unfold import_located. cbn [fst snd]. split; [split; cbn; lia|]. split; [eapply spelled_end; [now apply at_ok|eassumption|lia|lia]|].
    eapply (All_grows _ aloc_grows); [|exact A]. split; cbn; lia.
  - step. done_. unfold import_located. cbn [fst snd]. split; [split; cbn; lia|]. split; [apply spelled_plain; [now apply at_ok|now apply at_ok|lia]|].
    eapply (All_grows _ aloc_grows); [|exact A]. split; cbn; lia.
Qed.
Lemma bpos_range p : bpos p -> off <= p <= off + blen (concat chars).
Proof. intros (u & v & E & ->). rewrite E, concat_app, blen_app. pose proof (blen_pos (concat u)). pose proof (blen_pos (concat v)). lia. Qed.
Lemma gives_module n : gives (fun _ m => module_located chars off m) (pmodule fl at_ n).
Proof.
  intros i I. unfold pmodule. step. eapply wp_gives; [apply (reads_opt (rmodule_path n))|assumption|intros path jp JP LP _].
  { intros i' I'. unfold rmodule_path. do 2 step. eapply wp_mono; [apply reads_path; assumption|]. cbv beta. intros x k (K & L & _). split; [exact K|]. split; [lia|exact Logic.I]. }
  step. eapply wp_gives; [apply gives_sep; [apply import_grows|apply reads_blank|apply gives_import]|assumption|intros is_ ji JI LI IS]. step.
  eapply wp_gives; [apply gives_sep; [apply entry_grows|apply reads_blank|apply gives_entry]|assumption|intros es je JE LE ES]. step. done_.
  unfold module_located. cbn [sm_imports sm_entries]. cbv beta in IS, ES. split.
  - eapply (All_grows _ import_grows); [|exact IS]. apply at_ok, bpos_range in JI. match type of IS with All (_ (Span (at_ ?a) _)) _ => assert (O : okpos a) by assumption; apply at_ok, bpos_range in O end. split; cbn; lia.
  - eapply (All_grows _ entry_grows); [|exact ES]. apply at_ok, bpos_range in JE. match type of ES with All (_ (Span (at_ ?a) _)) _ => assert (O : okpos a) by assumption; apply at_ok, bpos_range in O end. split; cbn; lia.
Qed.
End Places.
