(** Proofs about loading any bytes (for P_Load.v). *)
From Coq Require Import ZArith NArith List Bool Lia.
From Verif Require Import Bytes BytesFacts Bytecode BytecodeFacts Definitions Bundle LoadSpec.
Import ListNotations.
Open Scope Z_scope.

Definition hard (e : err) : Prop := e = Panic \/ e = OutOfFuel.
Definition never {A} (e : err) (p : parser A) : Prop := forall i, p i <> Err e.

Lemma never_bind {A B} e (p : parser A) (k : A -> parser B) :
  never e p -> (forall a, never e (k a)) -> never e (pbind p k).
Proof. intros P K i H. apply pbind_err in H. destruct H as [H|(a & i' & _ & H)]; [exact (P _ H)|exact (K _ _ H)]. Qed.
Lemma never_ret {A} e (a : A) : never e (pret a). Proof. intros i H. discriminate H. Qed.
Lemma never_take e c : hard e -> never e (take_bytes c).
Proof. intros [-> | ->] i H; unfold take_bytes in H; destruct (_ <=? _); discriminate H. Qed.
Lemma never_u e n : hard e -> never e (dec_u n).
Proof. intros E. apply never_bind; [now apply never_take|intros; apply never_ret]. Qed.
Lemma never_s e n : hard e -> never e (dec_s n).
Proof. intros E. apply never_bind; [now apply never_take|intros; apply never_ret]. Qed.
Lemma never_off e n : hard e -> never e (dec_off n).
Proof. intros E. apply never_bind; [now apply never_s|intros; apply never_ret]. Qed.
Lemma never_bool e : hard e -> never e dec_bool.
Proof. intros E. apply never_bind; [now apply never_u|intros; apply never_ret]. Qed.
Lemma never_utf8 e s : hard e -> never e (check_utf8 s).
Proof. intros [-> | ->] i H; unfold check_utf8 in H; destruct (utf8_valid s); discriminate H. Qed.
Lemma never_str e w : hard e -> never e (dec_str_prefixed w).
Proof.
  intros E. apply never_bind; [now apply never_u|]. intros c. apply never_bind; [now apply never_take|].
  intros s. now apply never_utf8.
Qed.
Lemma never_vec_n {A} e (p : parser A) : never e p -> forall n, never e (dec_vec_n p n).
Proof.
  intros P. induction n as [|n IH]; [apply never_ret|]. cbn [dec_vec_n]. apply never_bind; [exact P|]. intros a.
  apply never_bind; [exact IH|intros; apply never_ret].
Qed.
Lemma never_vec {A} e (p : parser A) w : hard e -> never e p -> never e (dec_vec_prefixed w p).
Proof. intros E P. apply never_bind; [now apply never_u|]. intros c. now apply never_vec_n. Qed.
Lemma never_idxs e b : hard e -> never e (dec_idxs_if b).
Proof. intros E. destruct b; [|apply never_ret]. apply never_vec; [exact E|]. now apply never_u. Qed.
Lemma never_opt {A} e b (p : parser A) : never e p -> never e (dec_opt b p).
Proof. intros P. destruct b; [|apply never_ret]. apply never_bind; [exact P|intros; apply never_ret]. Qed.
Lemma never_or {A} e b (p : parser A) d : never e p -> never e (dec_or b p d).
Proof. intros P. destruct b; [exact P|apply never_ret]. Qed.
Lemma never_cstr e : hard e -> never e dec_cstr.
Proof.
  intros E. apply never_bind; [|intros; now apply never_utf8].
  intros i. induction i as [|b i IH]; cbn [read_cstr]; [destruct E as [-> | ->]; discriminate|].
  destruct (_ =? _); [discriminate|]. destruct (read_cstr i) as [[s r]|e']; [discriminate|]. congruence.
Qed.

Lemma never_instr e : hard e -> never e dec_instr.
Proof.
  intros E i H.
  pose proof (never_u e) as Hu. pose proof (never_s e) as Hs. pose proof (never_off e) as Ho.
  pose proof (never_bool e E) as Hb. pose proof (never_str e) as Hstr.
  apply pbind_err in H. destruct H as [H|(v & i' & P & H)]; [exact (Hu 1%nat E _ H)|].
  apply (dec_u_inv 1) in P. destruct P as [-> Hr]. change (8 * Z.of_nat 1) with 8 in Hr.
  apply opcode_dec in Hr. cbn in Hr.
  repeat (destruct Hr as [Hr|Hr];
   [ subst v; cbv beta iota in H; unfold dec_breakpoint, dec_profiling in H;
     repeat match goal with
     | H : pbind _ _ _ = Err _ |- _ => apply pbind_err in H; destruct H as [H|(? & ? & _ & H)]
     end;
     first [discriminate | exact (Hu _ E _ H) | exact (Hs _ E _ H) | exact (Ho _ E _ H)
           | exact (Hb _ H) | exact (Hstr _ E _ H) | unfold pfail in H; destruct E as [-> | ->]; discriminate H] |]).
  contradiction.
Qed.

Lemma never_code e : hard e -> never e dec_code.
Proof.
  intros [-> | ->]; [|intros i; apply dec_code_fuel].
  apply never_bind; [apply never_u; now left|]. intros max i. generalize (S (length i)) as fuel. intros fuel.
  generalize 0 as offset. revert i. induction fuel as [|fuel IH]; intros i offset; cbn [dec_code_loop]; [discriminate|].
  destruct (offset <? max); [|discriminate]. intros H. apply pbind_err in H.
  destruct H as [H|(ins & i' & _ & H)]; [revert H; apply never_instr; now left|].
  apply pbind_err in H. destruct H as [H|(c & i2 & _ & H)]; [exact (IH _ _ H)|discriminate H].
Qed.

(** * Numbers at positions *)

Lemma skipn_skipn {A} a b (l : list A) : skipn a (skipn b l) = skipn (b + a) l.
Proof.
  revert l. induction b as [|b IH]; intros l; [reflexivity|]. destruct l as [|x l]; [now destruct a|]. exact (IH l).
Qed.
Lemma dec_u_at n file p v r : dec_u n (skipn p file) = Ok (v, r) ->
  v = number_at file p n /\ r = skipn (p + n) file.
Proof.
  unfold dec_u, pbind, take_bytes. rewrite Nat2Z.id. destruct (_ <=? _); [|discriminate].
  intros [= <- <-]. split; [reflexivity|]. now rewrite skipn_skipn.
Qed.
Lemma dec_u_start n file v r : dec_u n file = Ok (v, r) -> v = number_at file 0 n /\ r = skipn n file.
Proof. exact (dec_u_at n file 0 v r). Qed.

Lemma take_at c file p v r : take_bytes c (skipn p file) = Ok (v, r) -> r = skipn (p + Z.to_nat c) file.
Proof.
  unfold take_bytes. destruct (_ <=? _); [|discriminate]. intros [= _ <-]. now rewrite skipn_skipn.
Qed.

Lemma words_at n : forall file p l r, dec_vec_n dec_u32 n (skipn p file) = Ok (l, r) -> r = skipn (p + 4 * n) file.
Proof.
  induction n as [|n IH]; intros file p l r H; cbn [dec_vec_n] in H.
  - injection H as _ <-. f_equal. lia.
  - apply pbind_inv in H. destruct H as (a & i & H & K). apply dec_u_at in H. destruct H as (_ & ->).
    apply pbind_inv in K. destruct K as (l' & i & K & J). apply IH in K. subst i. injection J as _ <-. f_equal. lia.
Qed.

Ltac step H :=
  let a := fresh "a" in let i := fresh "i" in let P := fresh "P" in
  apply pbind_inv in H; destruct H as (a & i & P & H);
  first [apply dec_u_at in P | apply dec_u_start in P]; destruct P as (? & ->).

Lemma table_at file p t r : dec_table (skipn p file) = Ok (t, r) ->
  tb_count t = number_at file (p + 4) 4 /\ r = skipn (p + 12) file.
Proof.
  intros H. unfold dec_table in H. do 3 step H. injection H as <- <-. cbn [tb_count].
  split; [assumption|]. f_equal. lia.
Qed.

Lemma header_at file h r : dec_header file = Ok (h, r) ->
  r = skipn 104 file /\ tb_count (hd_data h) = number_at file 36 4 /\ tb_count (hd_names h) = number_at file 48 4 /\
  tb_count (hd_tweakdb h) = number_at file 60 4 /\ tb_count (hd_resources h) = number_at file 72 4 /\
  tb_count (hd_definitions h) = number_at file 84 4.
Proof.
  intros H. unfold dec_header in H. step H. destruct (negb _); [discriminate H|].
  do 6 step H. cbn [Nat.add] in H.
  do 6 (apply pbind_inv in H; let t := fresh "t" in let i := fresh "i" in let P := fresh "P" in
        destruct H as (t & i & P & H); apply table_at in P; destruct P as (? & ->); cbn [Nat.add] in H).
  injection H as <- <-. cbn [hd_data hd_names hd_tweakdb hd_resources hd_definitions]. auto 10.
Qed.

(** * Entries *)

Lemma entry_at file p d r : dec_def_header (skipn p file) = Ok (d, r) ->
  dh_type d = number_at file (p + 16) 1 /\ dh_offset d = number_at file (p + 8) 4 /\ dh_type d <= 9 /\
  r = skipn (p + 20) file.
Proof.
  intros H. unfold dec_def_header in H. do 4 step H.
  apply pbind_inv in H. destruct H as (t & i & P & H). unfold dec_def_type in P. step P.
  destruct (a3 <=? 9) eqn:L; [|discriminate P]. injection P as <- <-.
  do 3 step H. injection H as <- <-. cbn [dh_type dh_offset]. apply Z.leb_le in L. subst.
  repeat split; try (f_equal; lia).
Qed.
Lemma entry_panics file p : dec_def_header (skipn p file) = Err Panic -> 9 < number_at file (p + 16) 1.
Proof.
  intros H. unfold dec_def_header in H.
  do 4 (apply pbind_err in H; let a := fresh "a" in let i := fresh "i" in let P := fresh "P" in
        destruct H as [H|(a & i & P & H)];
        [exfalso; revert H; apply never_u; now left|apply dec_u_at in P; destruct P as (_ & ->)]).
  apply pbind_err in H. destruct H as [H|(t & i & _ & H)].
  - apply pbind_err in H. destruct H as [H|(t & i & P & H)]; [exfalso; revert H; apply never_u; now left|].
    apply dec_u_at in P. destruct P as (-> & ->). destruct (_ <=? 9) eqn:L; [discriminate H|].
    apply Z.leb_gt in L. replace (p + 16)%nat with (p + 4 + 4 + 4 + 4)%nat by lia. exact L.
  - exfalso. revert H. repeat (apply never_bind; [apply never_u; now left|intros ?]). apply never_ret.
Qed.
Lemma entries_at n : forall file p hs r, dec_vec_n dec_def_header n (skipn p file) = Ok (hs, r) ->
  length hs = n /\
  (forall k d, nth_error hs k = Some d -> dh_type d = number_at file (p + 20 * k + 16) 1 /\
     dh_offset d = number_at file (p + 20 * k + 8) 4 /\ dh_type d <= 9).
Proof.
  induction n as [|n IH]; intros file p hs r H; cbn [dec_vec_n] in H.
  - injection H as <- _. split; [reflexivity|]. intros [|k] d N; discriminate N.
  - apply pbind_inv in H. destruct H as (d0 & i & H & K). apply entry_at in H. destruct H as (T & O & L & ->).
    apply pbind_inv in K. destruct K as (l & i & K & J). injection J as <- _. apply IH in K. destruct K as (Ln & K).
    split; [cbn [length]; lia|]. intros [|k] d N; cbn [nth_error] in N.
    + injection N as <-. replace (p + 20 * 0)%nat with p by lia. auto.
    + apply K in N. replace (p + 20 * Datatypes.S k)%nat with (p + 20 + 20 * k)%nat by lia. exact N.
Qed.
Lemma entries_panic n : forall file p, dec_vec_n dec_def_header n (skipn p file) = Err Panic ->
  exists k, (k < n)%nat /\ 9 < number_at file (p + 20 * k + 16) 1.
Proof.
  induction n as [|n IH]; intros file p H; cbn [dec_vec_n] in H; [discriminate H|].
  apply pbind_err in H. destruct H as [H|(d & i & P & H)].
  - exists 0%nat. split; [lia|]. apply entry_panics in H. replace (p + 20 * 0)%nat with p by lia. exact H.
  - apply entry_at in P. destruct P as (_ & _ & _ & ->).
    apply pbind_err in H. destruct H as [H|(l & i & _ & H)]; [|discriminate H].
    apply IH in H. destruct H as (k & L & K). exists (Datatypes.S k). split; [lia|].
    replace (p + 20 * Datatypes.S k)%nat with (p + 20 + 20 * k)%nat by lia. exact K.
Qed.

(** * Contents *)

Lemma visibility_panics file p : dec_visibility (skipn p file) = Err Panic -> 2 < number_at file p 1.
Proof.
  intros H. apply pbind_err in H. destruct H as [H|(v & r & E & H)]; [exfalso; revert H; apply never_u; now left|].
  pose proof (dec_u_inv _ _ _ _ E) as (_ & R). apply dec_u_at in E. destruct E as (<- & _). unfold in_u in R.
  destruct v as [|q|q]; [discriminate H| |lia].
  destruct q as [q|q|]; [lia|destruct q; [lia|lia|discriminate H]|discriminate H].
Qed.
Lemma visibility_reads file p v r : dec_visibility (skipn p file) = Ok (v, r) -> number_at file p 1 <= 2.
Proof.
  intros H. apply pbind_inv in H. destruct H as (n & i & E & H). apply dec_u_at in E. destruct E as (<- & _).
  destruct n as [|q|q]; [lia| |lia]. destruct q as [q|q|]; [discriminate H| |lia].
  destruct q; [discriminate H|discriminate H|lia].
Qed.

Lemma never_property e : hard e -> never e dec_property.
Proof. intros E. repeat (apply never_bind; [now apply never_str|intros ?]). apply never_ret. Qed.

Ltac never_tail E :=
  repeat first [apply never_ret
    | apply never_bind; [first [now apply never_u | now apply never_idxs | now apply never_str
                               | apply never_vec; [exact E|now apply never_property]
                               | apply never_opt; first [now apply never_u | now apply never_str
                                   | apply never_bind; [now apply never_u|intros ?]; apply never_bind; [now apply never_u|intros ?]; apply never_ret]
                               | apply never_or; first [now apply never_bool | now apply never_u | now apply never_code]]
                        |intros ?]].

Lemma class_err file p e : hard e -> dec_class (skipn p file) = Err e -> dec_visibility (skipn p file) = Err e.
Proof.
  intros E H. apply pbind_err in H. destruct H as [H|(v & i & _ & H)]; [exact H|].
  exfalso. revert H. match goal with |- ?q i = Err e -> False => change (q i <> Err e); revert i; change (never e q) end.
  never_tail E.
Qed.
Lemma function_err file p e : hard e -> dec_function (skipn p file) = Err e -> dec_visibility (skipn p file) = Err e.
Proof.
  intros E H. apply pbind_err in H. destruct H as [H|(v & i & _ & H)]; [exact H|].
  exfalso. revert H. match goal with |- ?q i = Err e -> False => change (q i <> Err e); revert i; change (never e q) end.
  never_tail E.
Qed.
Lemma field_err file p e : hard e -> dec_field (skipn p file) = Err e -> dec_visibility (skipn p file) = Err e.
Proof.
  intros E H. apply pbind_err in H. destruct H as [H|(v & i & _ & H)]; [exact H|].
  exfalso. revert H. match goal with |- ?q i = Err e -> False => change (q i <> Err e); revert i; change (never e q) end.
  never_tail E.
Qed.

Lemma ty_panics file p : dec_ty (skipn p file) = Err Panic -> 6 < number_at file p 1.
Proof.
  intros H. apply pbind_err in H. destruct H as [H|(v & r & E & H)]; [exfalso; revert H; apply never_u; now left|].
  pose proof (dec_u_inv _ _ _ _ E) as (_ & R). apply dec_u_at in E. destruct E as (<- & _). unfold in_u in R.
  destruct (Z_lt_le_dec 6 v) as [L|L]; [exact L|]. exfalso.
  assert (v = 0 \/ v = 1 \/ v = 2 \/ v = 3 \/ v = 4 \/ v = 5 \/ v = 6) as V by lia.
  destruct V as [-> | [-> | [-> | [-> | [-> | [-> | ->]]]]]]; cbv beta iota in H; try discriminate H;
    revert H; repeat (apply never_bind; [apply never_u; now left|intros ?]); apply never_ret.
Qed.
Lemma ty_reads file p v r : dec_ty (skipn p file) = Ok (v, r) -> number_at file p 1 <= 6.
Proof.
  intros H. apply pbind_inv in H. destruct H as (n & i & E & H). apply dec_u_at in E. destruct E as (<- & _).
  destruct (Z_lt_le_dec 6 n) as [L|L]; [|exact L]. exfalso.
  destruct n as [|q|q]; [lia| |lia].
  destruct q as [q|q|]; [| |lia]; (destruct q as [q|q|]; [| |try lia]); try (destruct q; try lia); discriminate H.
Qed.
Lemma ty_ends : never OutOfFuel dec_ty.
Proof.
  assert (E : hard OutOfFuel) by now right.
  apply never_bind; [now apply never_u|]. intros v i.
  destruct v as [|q|q]; [discriminate| |discriminate].
  destruct q as [q|q|]; try destruct q as [q|q|]; try destruct q as [q|q|]; try discriminate;
    (match goal with |- ?f i <> Err OutOfFuel => change (f i <> Err OutOfFuel); revert i; change (never OutOfFuel f) end; never_tail E).
Qed.

(** Content of a definition of kind [t] that starts with byte [b]. *)
Definition odd (t b : Z) : Prop := t = 4 \/ t = 0 /\ 6 < b \/ (t = 1 \/ t = 5 \/ t = 8) /\ 2 < b.

Ltac one_kind H := apply pbind_err in H; let a := fresh "a" in let i := fresh "i" in let J := fresh "J" in
  destruct H as [H|(a & i & _ & J)]; [|discriminate J].

Lemma any_panics t file p : 0 <= t <= 9 -> dec_any t (skipn p file) = Err Panic -> odd t (number_at file p 1).
Proof.
  intros R H. assert (E : hard Panic) by now left. unfold odd.
  assert (t = 0 \/ t = 1 \/ t = 2 \/ t = 3 \/ t = 4 \/ t = 5 \/ t = 6 \/ t = 7 \/ t = 8 \/ t = 9) as V by lia.
  destruct V as [-> | [-> | [-> | [-> | [-> | [-> | [-> | [-> | [-> | ->]]]]]]]]]; cbn [dec_any] in H.
  - one_kind H. apply ty_panics in H. auto.
  - one_kind H. apply class_err in H; [|exact E]. apply visibility_panics in H. auto.
  - exfalso. revert H. apply never_bind; [now apply never_s|intros; apply never_ret].
  - exfalso. revert H. apply never_bind; [|intros; apply never_ret].
    repeat (apply never_bind; [first [now apply never_u | now apply never_bool
      | apply never_vec; [exact E|now apply never_u]]|intros ?]). apply never_ret.
  - auto.
  - one_kind H. apply function_err in H; [|exact E]. apply visibility_panics in H. auto 6.
  - exfalso. revert H. apply never_bind; [|intros; apply never_ret]. unfold dec_parameter. never_tail E.
  - exfalso. revert H. apply never_bind; [|intros; apply never_ret]. unfold dec_local. never_tail E.
  - one_kind H. apply field_err in H; [|exact E]. apply visibility_panics in H. auto 6.
  - exfalso. revert H. apply never_bind; [|intros; apply never_ret]. unfold dec_source_file. never_tail E.
Qed.
Lemma any_reads t file p v r : dec_any t (skipn p file) = Ok (v, r) -> ~ odd t (number_at file p 1).
Proof.
  intros H O. unfold odd in O. destruct O as [-> | [(-> & L) | ([-> | [-> | ->]] & L)]]; cbn [dec_any] in H.
  - discriminate H.
  - apply pbind_inv in H. destruct H as (a & i & H & _). apply ty_reads in H. lia.
  - apply pbind_inv in H. destruct H as (a & i & H & _). apply pbind_inv in H. destruct H as (b & j & H & _).
    apply visibility_reads in H. lia.
  - apply pbind_inv in H. destruct H as (a & i & H & _). apply pbind_inv in H. destruct H as (b & j & H & _).
    apply visibility_reads in H. lia.
  - apply pbind_inv in H. destruct H as (a & i & H & _). apply pbind_inv in H. destruct H as (b & j & H & _).
    apply visibility_reads in H. lia.
Qed.
Lemma visibility_ends : never OutOfFuel dec_visibility.
Proof.
  apply never_bind; [apply never_u; now right|]. intros v i.
  destruct v as [|q|q]; [discriminate| |discriminate]. destruct q as [q|q|]; try destruct q; discriminate.
Qed.
Lemma any_ends t : never OutOfFuel (dec_any t).
Proof.
  assert (E : hard OutOfFuel) by now right. intros i H.
  assert (t = 0 \/ t = 1 \/ t = 2 \/ t = 3 \/ t = 5 \/ t = 6 \/ t = 7 \/ t = 8 \/ t = 9 \/ dec_any t i = Err Panic) as V.
  { destruct t as [|q|q]; [auto| |auto 12]. repeat (destruct q as [q|q|]; cbn [dec_any]; auto 12). }
  change i with (skipn 0 i) in H.
  destruct V as [-> | [-> | [-> | [-> | [-> | [-> | [-> | [-> | [-> | V]]]]]]]]]; [..|cbn [skipn] in H; congruence];
    cbn [dec_any] in H; one_kind H.
  - exact (ty_ends _ H).
  - apply class_err in H; [|exact E]. exact (visibility_ends _ H).
  - exact (never_s _ _ E _ H).
  - revert H. repeat (apply never_bind; [first [now apply never_u | now apply never_bool
      | apply never_vec; [exact E|now apply never_u]]|intros ?]). apply never_ret.
  - apply function_err in H; [|exact E]. exact (visibility_ends _ H).
  - revert H. unfold dec_parameter. never_tail E.
  - revert H. unfold dec_local. never_tail E.
  - apply field_err in H; [|exact E]. exact (visibility_ends _ H).
  - revert H. unfold dec_source_file. never_tail E.
Qed.

Lemma definitions_err file e : forall hs, dec_definitions file hs = Err e ->
  exists k h, nth_error hs k = Some h /\ dec_any (dh_type h) (skipn (Z.to_nat (dh_offset h)) file) = Err e.
Proof.
  induction hs as [|h hs IH]; cbn [dec_definitions]; intros H; [discriminate H|].
  unfold dec_definition in H. destruct (dec_any _ _) as [[v r]|e'] eqn:A.
  - destruct (dec_definitions file hs) as [l|e']; [discriminate H|]. destruct (IH H) as (k & h' & N & P).
    exists (Datatypes.S k), h'. auto.
  - injection H as ->. exists 0%nat, h. auto.
Qed.
Lemma definitions_read file : forall hs l, dec_definitions file hs = Ok l -> forall k h, nth_error hs k = Some h ->
  exists v r, dec_any (dh_type h) (skipn (Z.to_nat (dh_offset h)) file) = Ok (v, r).
Proof.
  induction hs as [|h hs IH]; cbn [dec_definitions]; intros l H k h' N; [now destruct k|].
  unfold dec_definition in H. destruct (dec_any _ _) as [[v r]|e'] eqn:A; [|discriminate H].
  destruct (dec_definitions file hs) as [l'|e'] eqn:D; [|discriminate H].
  destruct k as [|k]; cbn [nth_error] in N; [injection N as <-; eauto|]. exact (IH _ eq_refl _ _ N).
Qed.

Lemma decode_from_err e buf : hard e -> forall offsets idx acc, decode_from_loop buf offsets idx acc <> Err e.
Proof.
  intros E. induction offsets as [|o offsets IH]; intros idx acc; cbn [decode_from_loop]; [discriminate|].
  destruct (dec_cstr _) as [[s r]|e'] eqn:C; [apply IH|]. intros [= ->]. exact (never_cstr _ E _ C).
Qed.
Lemma never_words e n : hard e -> never e (dec_vec dec_u32 n).
Proof. intros E. apply never_vec_n. now apply never_u. Qed.
Lemma lift_ok {A} (r : res A) i a j : plift r i = Ok (a, j) -> r = Ok a /\ j = i.
Proof. unfold plift. destruct r; [intros [= -> ->]; auto|discriminate]. Qed.
Lemma lift_err {A} (r : res A) i e : plift r i = Err e -> r = Err e.
Proof. unfold plift. destruct r; [discriminate|intros [= ->]; reflexivity]. Qed.
Lemma never_from e buf o : hard e -> never e (plift (decode_from buf o)).
Proof. intros E i H. apply lift_err in H. exact (decode_from_err e buf E _ _ _ H). Qed.

Ltac past E H L :=
  apply pbind_err in H; let a := fresh "a" in let i := fresh "i" in let P := fresh "P" in
  destruct H as [H|(a & i & P & H)];
  [exfalso; revert H; first [now apply never_take | now apply never_words | now apply never_from]
  |first [apply take_at in P | apply words_at in P | apply lift_ok in P; destruct P as (_ & P)]; subst i].

(** Reading the tables fails badly only at an entry or at a definition. *)
Lemma pool_err file h p e : hard e -> dec_pool file h (skipn p file) = Err e ->
  let q := (p + Z.to_nat (tb_count (hd_data h)) + 4 * Z.to_nat (tb_count (hd_names h)) +
            4 * Z.to_nat (tb_count (hd_tweakdb h)) + 4 * Z.to_nat (tb_count (hd_resources h)))%nat in
  dec_vec_n dec_def_header (Z.to_nat (tb_count (hd_definitions h))) (skipn q file) = Err e \/
  exists hs r, dec_vec_n dec_def_header (Z.to_nat (tb_count (hd_definitions h))) (skipn q file) = Ok (hs, r) /\
    dec_definitions file (skipn 1 hs) = Err e.
Proof.
  intros E H q. unfold dec_pool in H. do 7 past E H tt.
  apply pbind_err in H. destruct H as [H|(hs & r & P & H)]; [left; exact H|]. right. exists hs, r. split; [exact P|].
  apply pbind_err in H. destruct H as [H|(o & i & _ & H)]; [exfalso; revert H; now apply never_words|].
  apply pbind_err in H. destruct H as [H|(s & j & _ & H)]; [exfalso; revert H; now apply never_from|].
  apply pbind_err in H. destruct H as [H|(d & j' & _ & H)]; [exact (lift_err _ _ _ H)|discriminate H].
Qed.
Lemma pool_reads file h p b r : dec_pool file h (skipn p file) = Ok (b, r) ->
  let q := (p + Z.to_nat (tb_count (hd_data h)) + 4 * Z.to_nat (tb_count (hd_names h)) +
            4 * Z.to_nat (tb_count (hd_tweakdb h)) + 4 * Z.to_nat (tb_count (hd_resources h)))%nat in
  exists hs r' l, dec_vec_n dec_def_header (Z.to_nat (tb_count (hd_definitions h))) (skipn q file) = Ok (hs, r') /\
    dec_definitions file (skipn 1 hs) = Ok l.
Proof.
  intros H q. unfold dec_pool in H.
  do 7 (apply pbind_inv in H; let a := fresh "a" in let i := fresh "i" in let P := fresh "P" in
        destruct H as (a & i & P & H);
        first [apply take_at in P | apply words_at in P | apply lift_ok in P; destruct P as (_ & P)]; subst i).
  apply pbind_inv in H. destruct H as (hs & r' & P & H).
  do 2 (apply pbind_inv in H; destruct H as (? & ? & _ & H)).
  apply pbind_inv in H. destruct H as (l & j & Q & _). apply lift_ok in Q. destruct Q as (Q & _).
  exists hs, r', l. split; [exact P|exact Q].
Qed.

Lemma entry_ends : never OutOfFuel dec_def_header.
Proof.
  assert (E : hard OutOfFuel) by now right. unfold dec_def_header.
  repeat (apply never_bind; [first [now apply never_u
    | unfold dec_def_type; apply never_bind; [now apply never_u|intros t i; destruct (t <=? 9); discriminate]]|intros ?]).
  apply never_ret.
Qed.
Lemma header_err e : hard e -> never e dec_header.
Proof.
  intros E. apply never_bind; [now apply never_u|]. intros m.
  destruct (negb _); [intros i; destruct E as [-> | ->]; discriminate|].
  repeat (apply never_bind; [first [now apply never_u
    | unfold dec_table; repeat (apply never_bind; [now apply never_u|intros ?]); apply never_ret]|intros ?]).
  apply never_ret.
Qed.

Lemma number_byte file p : 0 <= number_at file p 1.
Proof.
  unfold number_at. destruct (skipn p file) as [|b l]; cbn [firstn le_val]; [lia|].
  unfold Z_of_byte. pose proof (N2Z.is_nonneg (to_N b)). lia.
Qed.

Lemma load_ends file : load file <> Err OutOfFuel.
Proof.
  unfold load. destruct (dec_header file) as [[h i]|e] eqn:D.
  - destruct (dec_pool file h i) as [[b r]|e] eqn:P; [discriminate|]. intros [= ->].
    apply header_at in D. destruct D as (-> & _). apply pool_err in P; [|now right].
    destruct P as [P|(hs & r & _ & P)].
    + revert P. apply never_vec_n. exact entry_ends.
    + apply definitions_err in P. destruct P as (k & d & _ & P). exact (any_ends _ _ P).
  - intros [= ->]. revert D. apply header_err. now right.
Qed.

Lemma load_panics file : load file = Err Panic -> odd_kind file.
Proof.
  unfold load. destruct (dec_header file) as [[h i]|e] eqn:D.
  - destruct (dec_pool file h i) as [[b r]|e] eqn:P; [discriminate|]. intros [= ->].
    apply header_at in D. destruct D as (-> & D1 & D2 & D3 & D4 & D5). apply pool_err in P; [|now left].
    rewrite D1, D2, D3, D4, D5 in P. unfold odd_kind.
    destruct P as [P|(hs & r & E & P)].
    + apply entries_panic in P. destruct P as (k & L & K). exists k. split; [exact L|]. left. exact K.
    + apply entries_at in E. destruct E as (Ln & E). apply definitions_err in P. destruct P as (k & d & N & P).
      assert (N' : nth_error hs (Datatypes.S k) = Some d) by (destruct hs as [|x hs]; [now destruct k|exact N]).
      assert (K : (Datatypes.S k < length hs)%nat) by (apply nth_error_Some; rewrite N'; discriminate).
      exists (Datatypes.S k). split; [unfold entry_count; lia|]. right. split; [lia|].
      apply E in N'. destruct N' as (T & O & L9). apply any_panics in P.
      * unfold odd in P. rewrite T, O in P. exact P.
      * split; [rewrite T; apply number_byte|exact L9].
  - intros [= ->]. exfalso. revert D. apply header_err. now left.
Qed.

Lemma load_reads file b : load file = Ok b -> ~ odd_kind file.
Proof.
  unfold load. destruct (dec_header file) as [[h i]|e] eqn:D; [|discriminate].
  destruct (dec_pool file h i) as [[p r]|e] eqn:P; [|discriminate]. intros _ (k & L & K).
  apply header_at in D. destruct D as (-> & D1 & D2 & D3 & D4 & D5). apply pool_reads in P.
  rewrite D1, D2, D3, D4, D5 in P. destruct P as (hs & r' & l & E & Q).
  apply entries_at in E. destruct E as (Ln & E). unfold entry_count in L.
  destruct (nth_error hs k) as [d|] eqn:N; [|apply nth_error_None in N; lia].
  destruct (E _ _ N) as (T & O & L9). destruct K as [K|(K0 & K)].
  - unfold entry_kind, entry in K. rewrite T in L9.
    apply (Z.lt_irrefl 9). eapply Z.lt_le_trans; [exact K|exact L9].
  - destruct k as [|k]; [lia|]. destruct hs as [|x hs]; [discriminate N|]. cbn [skipn] in Q.
    destruct (definitions_read _ _ _ Q k d N) as (v & r2 & A). apply any_reads in A. apply A.
    unfold odd. rewrite T, O. exact K.
Qed.
