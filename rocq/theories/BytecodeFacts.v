(** Facts about the instruction and function body codecs of [Bytecode.v]. *)
From Coq Require Import ZArith NArith List Bool Lia ZifyBool ZifyNat ZifyN.
From Verif Require Import Bytes BytesFacts Bytecode.
Import ListNotations.
Open Scope Z_scope.
Ltac Zify.zify_post_hook ::= Z.div_mod_to_equations.

Lemma reads_off bias v : in_s 16 v -> reads (enc_off bias v) (dec_off bias) v.
Proof.
  intros H. exists (le_enc 2 (wrap_s 16 (v - bias))). split; [reflexivity|]. intros rest.
  unfold dec_off, pbind, dec_i16. rewrite dec_s_enc by lia.
  change (8 * Z.of_nat 2) with 16. unfold pret.
  rewrite (wrap_s_id 16 (wrap_s 16 (v - bias))) by (try apply wrap_s_range; lia).
  rewrite wrap_s_add_l by lia. replace (v - bias + bias) with v by lia.
  now rewrite wrap_s_id by (trivial; lia).
Qed.

Ltac prim_rt :=
  match goal with
  | |- reads (enc_bool _) _ _ => apply rt_bool
  | |- reads (enc_off _ _) _ _ => apply reads_off; assumption
  | |- reads _ dec_u8 _ => apply (rt_u 1); first [assumption | unfold in_u; cbn; lia]
  | |- reads _ dec_u16 _ => apply (rt_u 2); assumption
  | |- reads _ dec_u32 _ => apply (rt_u 4); assumption
  | |- reads _ dec_u64 _ => apply (rt_u 8); assumption
  | |- reads _ dec_i8 _ => apply (rt_s 1); [lia|assumption]
  | |- reads _ dec_i16 _ => apply (rt_s 2); [lia|assumption]
  | |- reads _ dec_i32 _ => apply (rt_s 4); [lia|assumption]
  | |- reads _ dec_i64 _ => apply (rt_s 8); [lia|assumption]
  | |- reads _ dec_idx _ => apply (rt_u 4); assumption
  end.

Lemma reads_breakpoint p : breakpoint_wf p -> reads (enc_breakpoint p) dec_breakpoint p.
Proof.
  destruct p as [l ls c n en pad]. unfold breakpoint_wf; cbn [bp_line bp_line_start bp_col bp_length bp_enabled bp_padding].
  intros (H1 & H2 & H3 & H4 & H5). unfold enc_breakpoint, dec_breakpoint.
  do 5 (eapply reads_bind; [prim_rt|cbv beta]).
  eapply reads_bind_pure; [reflexivity|prim_rt].
Qed.

Lemma reads_profiling p : profiling_wf p -> reads (enc_profiling p) dec_profiling p.
Proof.
  destruct p as [f e]. unfold profiling_wf; cbn [pr_function pr_enabled].
  intros (H1 & H2 & H3). unfold enc_profiling, dec_profiling.
  eapply reads_bind; [apply reads_str_prefixed; assumption|cbv beta].
  eapply reads_bind_pure; [reflexivity|prim_rt].
Qed.

(** Jump targets are not part of the file format: a [Target] marker loses its
    operand (bytecode.rs 378, 578-580). *)
Definition no_target (i : instr Z) : Prop :=
  match i with Target o => o = 0 | _ => True end.

Ltac prim_rt2 :=
  first [ prim_rt | apply reads_breakpoint; assumption | apply reads_profiling; assumption ].
Ltac rd :=
  first [ eapply reads_bind_pure; [|prim_rt2]; reflexivity
        | eapply reads_bind; [prim_rt2|cbv beta iota; rd] ].

Lemma reads_instr i : instr_typed i -> no_target i -> reads (enc_instr i) dec_instr i.
Proof.
  intros H Ht.
  destruct i; cbn [instr_typed no_target] in H, Ht; cbn [enc_instr];
    try subst; repeat match goal with H : _ /\ _ |- _ => destruct H end;
    unfold dec_instr; rd.
Qed.

Lemma instr_size_range {L} (i : instr L) : 0 <= instr_size i < 65536.
Proof.
  destruct i; cbn [instr_size]; try lia. unfold wrap_u. lia.
Qed.

Lemma instr_size_map {L M} (f : L -> M) i : instr_size (map_loc f i) = instr_size i.
Proof. destruct i; reflexivity. Qed.

(** Sum of sizes without wrapping. *)
Fixpoint total {L} (c : code L) : Z :=
  match c with [] => 0 | i :: c' => instr_size i + total c' end.

Lemma total_nonneg {L} (c : code L) : 0 <= total c.
Proof. induction c as [|i c IH]; cbn [total]; [lia|]. pose proof (instr_size_range i). lia. Qed.

Lemma total_app {L} (a b : code L) : total (a ++ b) = total a + total b.
Proof. induction a as [|i a IH]; cbn [total app]; lia. Qed.

Lemma code_size_acc {L} (c : code L) a :
  fold_left (fun acc i => wrap_u 32 (acc + instr_size i)) c a = 
  match c with [] => a | _ => wrap_u 32 (a + total c) end.
Proof.
  revert a; induction c as [|i c IH]; intros a; [reflexivity|].
  cbn [fold_left]. rewrite IH. destruct c as [|j c]; cbn [total].
  - f_equal. lia.
  - unfold wrap_u. rewrite Z.add_mod_idemp_l by lia. f_equal. lia.
Qed.

Lemma code_size_total {L} (c : code L) : code_size c = wrap_u 32 (total c).
Proof.
  unfold code_size. rewrite code_size_acc. destruct c; [reflexivity|]. f_equal.
Qed.

(** The reader loop on the encoding of [c]: reads back exactly [c] provided
    that no proper prefix already reaches the size and that the whole does. *)
Lemma dec_code_loop_enc c :
  forall fuel max offset bs rest,
  Forall instr_typed c -> Forall no_target c ->
  0 <= offset -> offset + total c = max -> max < 2 ^ 32 ->
  (forall p i q, c = p ++ i :: q -> q = [] -> 0 < instr_size i) ->
  (length c < fuel)%nat ->
  enc_slice enc_instr c = Ok bs ->
  dec_code_loop fuel max offset (bs ++ rest) = Ok (c, rest).
Proof.
  induction c as [|i c IH]; intros fuel max offset bs rest Ht Hn Ho Hm Hmax Hlast Hf He.
  - destruct fuel as [|fuel]; [cbn in Hf; lia|]. cbn in He. injection He as <-.
    cbn [total] in Hm. cbn [dec_code_loop].
    replace (offset <? max) with false by lia. reflexivity.
  - destruct fuel as [|fuel]; [cbn in Hf; lia|]. cbn [enc_slice] in He.
    apply wapp_ok in He. destruct He as (x & y & Hx & Hy & ->).
    inversion Ht as [|? ? Ht1 Ht2]; subst. inversion Hn as [|? ? Hn1 Hn2]; subst.
    cbn [total] in Hmax, Hlast |- *.
    assert (Hlt : offset < offset + (instr_size i + total c)).
    { pose proof (instr_size_range i). pose proof (total_nonneg c).
      assert (Hpos : 0 < total (i :: c)); [|cbn [total] in Hpos; lia].
      clear - Hlast.
      destruct (exists_last (l := i :: c)) as (p & j & Hp); [discriminate|].
      rewrite Hp in *. rewrite total_app. cbn [total].
      pose proof (total_nonneg p). specialize (Hlast p j [] eq_refl eq_refl). lia. }
    cbn [dec_code_loop].
    replace (offset <? offset + (instr_size i + total c)) with true by lia.
    destruct (reads_instr i Ht1 Hn1) as (x' & Hx' & Hd).
    rewrite Hx in Hx'. injection Hx' as <-.
    unfold pbind at 1. rewrite <- app_assoc, Hd.
    rewrite wrap_u_id.
    2:{ pose proof (instr_size_range i). pose proof (total_nonneg c). split; lia. }
    unfold pbind. rewrite (IH fuel _ _ y rest); try assumption; try lia.
    + reflexivity.
    + pose proof (instr_size_range i). lia.
    + intros p j q -> ->. apply (Hlast (i :: p) j []); reflexivity.
    + cbn in Hf. lia.
Qed.

Lemma enc_8_length z bs : enc_8 z = Ok bs -> length bs = 1%nat.
Proof. intros H. injection H as <-. reflexivity. Qed.

Lemma enc_instr_nonempty i bs : enc_instr i = Ok bs -> (1 <= length bs)%nat.
Proof.
  destruct i; cbn [enc_instr]; intros H;
    first [ apply enc_8_length in H; lia
          | apply wapp_ok in H; destruct H as (x & y & Hx & Hy & ->);
            apply enc_8_length in Hx; rewrite app_length; lia ].
Qed.

Lemma enc_slice_length c bs : enc_slice enc_instr c = Ok bs -> (length c <= length bs)%nat.
Proof.
  revert bs; induction c as [|i c IH]; intros bs H; cbn [length]; [lia|].
  cbn [enc_slice] in H. apply wapp_ok in H. destruct H as (x & y & Hx & Hy & ->).
  rewrite app_length. apply enc_instr_nonempty in Hx. apply IH in Hy. lia.
Qed.

Lemma enc_slice_ok c :
  Forall instr_typed c -> Forall no_target c -> exists bs, enc_slice enc_instr c = Ok bs.
Proof.
  intros H1 H2. destruct (reads_slice enc_instr dec_instr c) as (bs & H & _).
  - apply Forall_forall. intros i Hi. rewrite Forall_forall in H1, H2.
    apply rt_reads, reads_instr; auto.
  - eauto.
Qed.

(** The exact condition for a body to be read back. *)
Definition ends_sized (c : code Z) : Prop :=
  c = [] \/ exists p i, c = p ++ [i] /\ 0 < instr_size i.

Lemma reads_code c :
  Forall instr_typed c -> Forall no_target c -> total c < 2 ^ 32 -> ends_sized c ->
  reads (enc_code c) dec_code c.
Proof.
  intros Ht Hn Hs Hl. destruct (enc_slice_ok c Ht Hn) as (bs & Hbs).
  unfold enc_code, dec_code.
  exists (le_enc 4 (code_size c) ++ bs). split; [rewrite Hbs; reflexivity|].
  intros rest. unfold pbind, dec_u32. rewrite <- app_assoc, dec_u_enc.
  change (256 ^ Z.of_nat 4) with (2 ^ 32).
  rewrite code_size_total, wrap_u_id by (pose proof (total_nonneg c); split; lia).
  rewrite Z.mod_small by (pose proof (total_nonneg c); lia).
  apply dec_code_loop_enc; try assumption; try lia.
  - intros p i q -> ->. destruct Hl as [Hl|(p' & j & Hl & Hj)].
    + destruct p; discriminate.
    + apply app_inj_tail in Hl. destruct Hl as [_ ->]. exact Hj.
  - rewrite app_length. apply enc_slice_length in Hbs. lia.
Qed.

(** ** Inversion of a successful read *)

Lemma dec_off_inv bias i v r :
  dec_off bias i = Ok (v, r) -> enc_off bias v = Ok (le_enc 2 (wrap_s 16 (v - bias))) /\
  i = le_enc 2 (wrap_s 16 (v - bias)) ++ r /\ in_s 16 v.
Proof.
  intros H. apply pbind_inv in H. destruct H as (w & i' & H1 & H2).
  assert (Hv : v = wrap_s 16 (w + bias)) by (unfold pret in H2; congruence).
  assert (i' = r) by (unfold pret in H2; congruence). subst i'. clear H2.
  apply dec_s_inv in H1; [|lia]. destruct H1 as [-> Hw]. change (8 * Z.of_nat 2) with 16 in Hw.
  subst v. unfold enc_off. rewrite wrap_s_sub_l by lia. replace (w + bias - bias) with w by lia.
  rewrite (wrap_s_id 16 w) by (trivial; lia). split; [reflexivity|].
  split; [reflexivity|]. apply wrap_s_range; lia.
Qed.

Lemma dec_bool_inv i v r :
  dec_bool i = Ok (v, r) -> exists b, i = b :: r /\ v = negb (Z_of_byte b =? 0).
Proof.
  intros H. apply pbind_inv in H. destruct H as (w & i' & H1 & [= <- <-]).
  apply dec_u_inv in H1. destruct H1 as [-> Hw]. exists (byte_of_Z w). split; [reflexivity|].
  rewrite Z_of_byte_of_Z. change (8 * Z.of_nat 1) with 8 in Hw. unfold in_u in Hw.
  rewrite Z.mod_small by lia. reflexivity.
Qed.

Lemma dec_str_prefixed_inv w i s r :
  dec_str_prefixed w i = Ok (s, r) ->
  enc_str_prefixed w s = Ok (le_enc w (Z.of_nat (length s)) ++ s) /\
  i = (le_enc w (Z.of_nat (length s)) ++ s) ++ r /\ utf8_valid s = true /\
  Z.of_nat (length s) < 2 ^ (8 * Z.of_nat w).
Proof.
  intros H. apply pbind_inv in H. destruct H as (c & i' & H1 & H2).
  apply dec_u_inv in H1. destruct H1 as [-> Hc].
  apply pbind_inv in H2. destruct H2 as (bs & i2 & H2 & H3).
  unfold in_u in Hc. apply take_bytes_inv in H2; [|lia]. destruct H2 as [-> Hl].
  unfold check_utf8 in H3. destruct (utf8_valid bs) eqn:Eu; [|discriminate].
  injection H3 as <- <-. rewrite Hl.
  unfold enc_str_prefixed, enc_len. rewrite Hl.
  replace (c <? 2 ^ (8 * Z.of_nat w)) with true by lia.
  repeat split; trivial; try lia. now rewrite <- app_assoc.
Qed.

(** How the bytes of a [Breakpoint] may differ after re-encoding: the boolean at
    offset 11 is written canonically. *)
Definition same_bytes (ins : instr Z) (used bs : list byte) : Prop :=
  match ins with
  | Breakpoint _ =>
      exists pre b b' post, used = pre ++ b :: post /\ bs = pre ++ b' :: post /\
        length pre = 11%nat /\
        b' = (if Z_of_byte b =? 0 then x00 else x01)
  | _ => used = bs
  end.

Ltac binv H :=
  let a := fresh "v" in let i := fresh "i" in let H1 := fresh "P" in
  apply pbind_inv in H; destruct H as (a & i & H1 & H).
Ltac prim_inv P :=
  first
  [ apply (dec_u_inv 1) in P | apply (dec_u_inv 2) in P | apply (dec_u_inv 4) in P
  | apply (dec_u_inv 8) in P
  | apply (dec_s_inv 1) in P; [|lia] | apply (dec_s_inv 2) in P; [|lia]
  | apply (dec_s_inv 4) in P; [|lia] | apply (dec_s_inv 8) in P; [|lia]
  | apply dec_off_inv in P ].

Lemma dec_breakpoint_inv i p r :
  dec_breakpoint i = Ok (p, r) -> breakpoint_wf p /\
  exists pre b post, i = pre ++ b :: post ++ r /\ length pre = 10%nat /\
    enc_breakpoint p = Ok (pre ++ (if Z_of_byte b =? 0 then x00 else x01) :: post).
Proof.
  unfold dec_breakpoint. intros H.
  do 6 binv H. injection H as <- <-.
  apply (dec_u_inv 2) in P. apply (dec_u_inv 4) in P0. apply (dec_u_inv 2) in P1.
  apply (dec_u_inv 2) in P2. apply dec_bool_inv in P3. apply (dec_u_inv 8) in P4.
  destruct P as [-> ?], P0 as [-> ?], P1 as [-> ?], P2 as [-> ?], P3 as (b & -> & Hb), P4 as [-> ?].
  unfold breakpoint_wf; cbn [bp_line bp_line_start bp_col bp_length bp_enabled bp_padding].
  split; [tauto|].
  exists (le_enc 2 v ++ le_enc 4 v0 ++ le_enc 2 v1 ++ le_enc 2 v2), b, (le_enc 8 v4).
  split; [now rewrite <- !app_assoc|]. split; [reflexivity|].
  - unfold enc_breakpoint; cbn [bp_line bp_line_start bp_col bp_length bp_enabled bp_padding].
    unfold enc_bool. rewrite Hb.
    cbv beta delta [wapp enc_16 enc_32 enc_64 enc_8 enc_i] iota.
    rewrite <- !app_assoc. do 5 f_equal.
    destruct (Z_of_byte b =? 0); reflexivity.
Qed.

Lemma dec_profiling_inv i p r :
  dec_profiling i = Ok (p, r) -> profiling_wf p /\
  exists bs, enc_profiling p = Ok bs /\ i = bs ++ r.
Proof.
  unfold dec_profiling. intros H. binv H. binv H. injection H as <- <-.
  apply dec_str_prefixed_inv in P. apply (dec_u_inv 1) in P0.
  destruct P as (E & -> & Hu & Hl), P0 as [-> ?].
  unfold profiling_wf, enc_profiling; cbn [pr_function pr_enabled]. split; [auto|].
  rewrite E. eexists. split; [reflexivity|]. now rewrite <- !app_assoc.
Qed.

Ltac brk :=
  repeat match goal with
  | H : _ /\ _ |- _ => destruct H
  | H : exists _, _ |- _ => destruct H
  end.


Lemma opcode_dec v : in_u 8 v -> In v (map Z.of_nat (seq 0 256)).
Proof.
  intros [H1 H2]. replace v with (Z.of_nat (Z.to_nat v)) by lia.
  apply in_map, in_seq. lia.
Qed.

(** One operand of each kind: consumed bytes and range. *)
Ltac inv_chain H :=
  match type of H with
  | pbind _ _ _ = Ok _ =>
      let P := fresh "P" in
      apply pbind_inv in H; destruct H as (? & ? & P & H);
      first [ prim_inv P; destruct P as [? ?]; brk; subst
            | apply dec_profiling_inv in P; destruct P as (? & ? & ? & ?); subst
            | apply dec_breakpoint_inv in P; destruct P as (? & ? & ? & ? & ? & ? & ?); subst
            | idtac ];
      inv_chain H
  | pret _ _ = Ok _ => injection H as <- <-
  | pfail _ _ = Ok _ => discriminate H
  end.

Definition inv_ok (i : list byte) (ins : instr Z) (r : list byte) : Prop :=
  instr_typed ins /\ no_target ins /\
  exists used bs, i = used ++ r /\ enc_instr ins = Ok bs /\ same_bytes ins used bs.

Lemma inv_ok_plain i ins r bs :
  instr_typed ins -> no_target ins -> enc_instr ins = Ok bs -> i = bs ++ r ->
  same_bytes ins bs bs -> inv_ok i ins r.
Proof. intros. split; [assumption|]. split; [assumption|]. exists bs, bs. auto. Qed.

Lemma dec_instr_inv i ins r : dec_instr i = Ok (ins, r) -> inv_ok i ins r.
Proof.
  unfold dec_instr. intros H. apply pbind_inv in H. destruct H as (v & i0 & P & H).
  apply (dec_u_inv 1) in P. destruct P as [-> Hr]. change (8 * Z.of_nat 1) with 8 in Hr.
  apply opcode_dec in Hr. cbn in Hr.
  repeat (destruct Hr as [Hr|Hr];
    [ subst v; cbv beta iota in H; inv_chain H;
      try solve [ eapply inv_ok_plain;
        [ cbn [instr_typed]; tauto | cbn [no_target]; trivial
        | cbn [enc_instr]; repeat match goal with E : enc_off _ _ = Ok _ |- _ => rewrite E; clear E end;
          try match goal with E : enc_profiling _ = Ok _ |- _ => rewrite E end;
          reflexivity
        | rewrite <- ?app_assoc; reflexivity | reflexivity ] ] |]).
  all: try contradiction.
  (* Breakpoint *)
  - split; [assumption|]. split; [exact I|].
    match goal with E : enc_breakpoint _ = Ok (?pre ++ _ :: ?post) |- inv_ok ((?o ++ _ ++ ?b :: _)) _ _ =>
      exists ((o ++ pre) ++ b :: post), (o ++ pre ++ (if Z_of_byte b =? 0 then x00 else x01) :: post);
      cbn [enc_instr]; rewrite E
    | E : enc_breakpoint _ = Ok (?pre ++ (if Z_of_byte ?b =? 0 then _ else _) :: ?post) |- _ =>
      exists ((le_enc 1 21 ++ pre) ++ b :: post), (le_enc 1 21 ++ pre ++ (if Z_of_byte b =? 0 then x00 else x01) :: post);
      cbn [enc_instr]; rewrite E
    end.
    split; [rewrite <- !app_assoc; reflexivity|]. split; [reflexivity|].
    cbn [same_bytes]. do 4 eexists. split; [reflexivity|]. split; [rewrite app_assoc; reflexivity|].
    rewrite app_length, le_enc_length. split; [lia|reflexivity].
  (* Target *)
  - eapply inv_ok_plain; [cbn; unfold in_s; cbn; lia|reflexivity|reflexivity|reflexivity|reflexivity].
Qed.

(** Re-encoding yields something that reads back as the same instruction. *)
Lemma dec_enc_dec_instr i ins r :
  dec_instr i = Ok (ins, r) -> reads (enc_instr ins) dec_instr ins.
Proof. intros H. apply dec_instr_inv in H. destruct H as (H1 & H2 & _). now apply reads_instr. Qed.

Lemma same_bytes_length ins used bs : same_bytes ins used bs -> length used = length bs.
Proof.
  destruct ins; cbn [same_bytes]; try congruence.
  intros (pre & b & b' & post & -> & -> & _). rewrite !app_length. reflexivity.
Qed.

(** The in-memory size is at most nine times the file size. *)
Lemma instr_size_enc i bs : enc_instr i = Ok bs -> instr_size i <= 9 * Z.of_nat (length bs).
Proof.
  assert (Hi : forall w n bs', enc_len w n = Ok bs' -> length bs' = w).
  { intros w n bs'. unfold enc_len. destruct (_ <? _); [|discriminate]. intros [= <-].
    apply le_enc_length. }
  destruct i; cbn [enc_instr instr_size]; intros H;
  repeat match goal with
  | H : _ +++ _ = Ok _ |- _ => apply wapp_ok in H; destruct H as (? & ? & ? & ? & ?); subst
  | H : enc_8 _ = Ok _ |- _ => apply enc_8_length in H
  | H : enc_breakpoint _ = Ok _ |- _ => unfold enc_breakpoint in H
  | H : enc_profiling _ = Ok _ |- _ => unfold enc_profiling, enc_str_prefixed in H
  | H : enc_len _ _ = Ok _ |- _ => apply Hi in H
  | H : enc_bool _ = Ok _ |- _ => unfold enc_bool in H
  | H : enc_idx _ = Ok _ |- _ => unfold enc_idx in H
  | H : enc_16 _ = Ok _ |- _ => injection H as <-
  | H : enc_32 _ = Ok _ |- _ => injection H as <-
  | H : enc_64 _ = Ok _ |- _ => injection H as <-
  | H : enc_off _ _ = Ok _ |- _ => injection H as <-
  | H : Ok _ = Ok _ |- _ => injection H as <-
  end; rewrite ?app_length; cbn [length] in *; try lia.
  unfold wrap_u. change (2 ^ 16) with 65536. lia.
Qed.

Lemma dec_code_loop_inv fuel : forall max offset i c r,
  0 <= offset ->
  offset + 9 * Z.of_nat (length i) < 2 ^ 32 ->
  dec_code_loop fuel max offset i = Ok (c, r) ->
  Forall instr_typed c /\ Forall no_target c /\
  total c <= 9 * Z.of_nat (length i) /\
  max <= offset + total c /\
  (forall p j, c = p ++ [j] -> 0 < instr_size j /\ offset + total p < max).
Proof.
  induction fuel as [|fuel IH]; intros max offset i c r Ho Hb H; [discriminate|].
  cbn [dec_code_loop] in H. destruct (offset <? max) eqn:E.
  - apply pbind_inv in H. destruct H as (ins & i' & H1 & H).
    apply pbind_inv in H. destruct H as (c' & i2 & H2 & H).
    injection H as <- <-.
    apply dec_instr_inv in H1. destruct H1 as (T1 & T2 & used & bs & -> & He & Hs).
    apply same_bytes_length in Hs. pose proof (instr_size_enc _ _ He) as Hsz.
    pose proof (instr_size_range ins).
    rewrite app_length in Hb. rewrite app_length.
    rewrite wrap_u_id in H2 by (split; lia).
    apply IH in H2; [|lia|lia]. destruct H2 as (F1 & F2 & Ht & Hm & Hl).
    cbn [total]. repeat split; try (constructor; assumption); try lia.
    + destruct p as [|x p]; injection H0 as -> Hc.
      * subst c'. cbn [total] in Hm. lia.
      * apply (Hl p j Hc).
    + destruct p as [|x p]; injection H0 as -> Hc.
      * cbn [total]. lia.
      * cbn [total]. destruct (Hl p j Hc). lia.
  - injection H as <- <-. cbn [total]. repeat split; try constructor; try lia;
    destruct p; discriminate.
Qed.

Lemma dec_code_inv i c r :
  9 * Z.of_nat (length i) < 2 ^ 32 ->
  dec_code i = Ok (c, r) -> reads (enc_code c) dec_code c.
Proof.
  intros Hl H. unfold dec_code in H. apply pbind_inv in H. destruct H as (max & i' & H1 & H2).
  apply (dec_u_inv 4) in H1. destruct H1 as [-> Hm]. rewrite app_length, le_enc_length in Hl.
  apply dec_code_loop_inv in H2; [|lia|lia]. destruct H2 as (F1 & F2 & Ht & Hm2 & Hlast).
  apply reads_code; try assumption; [lia|].
  destruct c as [|x c]; [left; reflexivity|right].
  destruct (exists_last (l := x :: c)) as (p & j & Hp); [discriminate|].
  exists p, j. split; [exact Hp|]. apply (Hlast p j Hp).
Qed.

(** The fuel never runs out. *)
Lemma dec_instr_consumes i ins r : dec_instr i = Ok (ins, r) -> (length r < length i)%nat.
Proof.
  intros H. apply dec_instr_inv in H. destruct H as (_ & _ & used & bs & -> & He & Hs).
  apply same_bytes_length in Hs. apply enc_instr_nonempty in He. rewrite app_length. lia.
Qed.

Lemma pbind_err {A B} (p : parser A) (k : A -> parser B) i e :
  (x <- p ;; k x) i = Err e -> p i = Err e \/ exists a i', p i = Ok (a, i') /\ k a i' = Err e.
Proof. unfold pbind. destruct (p i) as [[a i']|e']; [|intros [= ->]; auto]. right. eauto. Qed.

(** A successful read never ends in an instruction of size 0. *)
Lemma dec_code_loop_last fuel : forall max offset i c r p j,
  in_u 32 offset ->
  dec_code_loop fuel max offset i = Ok (c, r) -> c = p ++ [j] -> 0 < instr_size j.
Proof.
  induction fuel as [|fuel IH]; intros max offset i c r p j Ho H Hc; [discriminate|].
  cbn [dec_code_loop] in H. destruct (offset <? max) eqn:E.
  - apply pbind_inv in H. destruct H as (ins & i' & H1 & H).
    apply pbind_inv in H. destruct H as (c' & i2 & H2 & H).
    injection H as <- <-. pose proof (instr_size_range ins) as Hr.
    destruct p as [|x p]; injection Hc as -> Hc.
    + subst c'. destruct (Z.eq_dec (instr_size j) 0) as [Hz|]; [|lia].
      rewrite Hz, Z.add_0_r, wrap_u_id in H2 by assumption.
      destruct fuel as [|fuel]; [discriminate|]. cbn [dec_code_loop] in H2. rewrite E in H2.
      apply pbind_inv in H2. destruct H2 as (? & ? & _ & H2).
      apply pbind_inv in H2. destruct H2 as (? & ? & _ & H2). discriminate.
    + eapply (IH _ _ _ _ _ p j); [|exact H2|exact Hc]. apply wrap_u_range. lia.
  - injection H as <- <-. destruct p; discriminate.
Qed.

Lemma total_fold {L} (c : code L) : total c = fold_right Z.add 0 (map instr_size c).
Proof. induction c as [|i c IH]; cbn; [reflexivity|]. now rewrite IH. Qed.

Lemma code_roundtrip_iff_lemma (c : code Z) :
  Forall (fun i => instr_typed i /\ no_target i) c ->
  fold_right Z.add 0 (map instr_size c) < 2 ^ 32 ->
  exists bs, enc_code c = Ok bs /\
    ((forall rest, dec_code (bs ++ rest) = Ok (c, rest)) <->
     (c = [] \/ exists front last, c = front ++ [last] /\ 0 < instr_size last)).
Proof.
  intros H Hs. rewrite <- total_fold in Hs.
  assert (Ht : Forall instr_typed c) by (eapply Forall_impl; [|exact H]; intros ? []; assumption).
  assert (Hn : Forall no_target c) by (eapply Forall_impl; [|exact H]; intros ? []; assumption).
  destruct (enc_slice_ok c Ht Hn) as (bs & Hbs).
  exists (le_enc 4 (code_size c) ++ bs). split; [unfold enc_code; rewrite Hbs; reflexivity|].
  split.
  - intros Hd. destruct c as [|x c]; [left; reflexivity|right].
    destruct (exists_last (l := x :: c)) as (p & j & Hp); [discriminate|].
    exists p, j. split; [exact Hp|]. specialize (Hd []).
    unfold dec_code in Hd. apply pbind_inv in Hd. destruct Hd as (m & i' & _ & Hd).
    eapply dec_code_loop_last; [|exact Hd|exact Hp]. split; lia.
  - intros Hl rest. destruct (reads_code c Ht Hn Hs) as (bs' & He & Hd).
    { exact Hl. }
    unfold enc_code in He. rewrite Hbs in He. injection He as <-. apply Hd.
Qed.

Lemma dec_code_loop_fuel fuel : forall max offset i,
  (length i < fuel)%nat -> dec_code_loop fuel max offset i <> Err OutOfFuel.
Proof.
  assert (Htb : forall n i, take_bytes n i <> Err OutOfFuel).
  { intros n i. unfold take_bytes. destruct (_ <=? _); discriminate. }
  assert (Hu : forall n i, dec_u n i <> Err OutOfFuel).
  { intros n i H. apply pbind_err in H. destruct H as [H|(a & i' & _ & H)]; [|discriminate].
    now apply Htb in H. }
  assert (Hs : forall n i, dec_s n i <> Err OutOfFuel).
  { intros n i H. apply pbind_err in H. destruct H as [H|(a & i' & _ & H)]; [|discriminate].
    now apply Htb in H. }
  assert (Ho : forall n i, dec_off n i <> Err OutOfFuel).
  { intros n i H. apply pbind_err in H. destruct H as [H|(a & i' & _ & H)]; [|discriminate].
    now apply Hs in H. }
  assert (Hb : forall i, dec_bool i <> Err OutOfFuel).
  { intros i H. apply pbind_err in H. destruct H as [H|(a & i' & _ & H)]; [|discriminate].
    now apply Hu in H. }
  assert (Hstr : forall n i, dec_str_prefixed n i <> Err OutOfFuel).
  { intros n i H. apply pbind_err in H. destruct H as [H|(a & i' & _ & H)]; [now apply Hu in H|].
    apply pbind_err in H. destruct H as [H|(a' & i2 & _ & H)]; [now apply Htb in H|].
    unfold check_utf8 in H. destruct (utf8_valid a'); discriminate. }
  assert (Hi : forall i, dec_instr i <> Err OutOfFuel).
  { intros i H. apply pbind_err in H. destruct H as [H|(v & i' & P & H)]; [now apply Hu in H|].
    apply (dec_u_inv 1) in P. destruct P as [-> Hr]. change (8 * Z.of_nat 1) with 8 in Hr.
    apply opcode_dec in Hr. cbn in Hr.
    repeat (destruct Hr as [Hr|Hr];
     [ subst v; cbv beta iota in H; unfold dec_breakpoint, dec_profiling in H;
       repeat match goal with
       | H : pbind _ _ _ = Err _ |- _ => apply pbind_err in H; destruct H as [H|(? & ? & _ & H)]
       end;
       first [discriminate | eapply Hu; exact H | eapply Hs; exact H | eapply Ho; exact H
             | eapply Hb; exact H | eapply Hstr; exact H] |]).
    contradiction. }
  induction fuel as [|fuel IH]; intros max offset i Hf; [lia|].
  cbn [dec_code_loop]. destruct (offset <? max); [|discriminate].
  intros H. apply pbind_err in H. destruct H as [H|(ins & i' & H1 & H)]; [now apply Hi in H|].
  apply dec_instr_consumes in H1.
  apply pbind_err in H. destruct H as [H|(c & i2 & _ & H)]; [|discriminate].
  now apply IH in H; [|lia].
Qed.

Lemma dec_code_fuel i : dec_code i <> Err OutOfFuel.
Proof.
  intros H. apply pbind_err in H. destruct H as [H|(a & i' & _ & H)].
  - apply pbind_err in H. destruct H as [H|(a & i' & _ & H)]; [|discriminate].
    unfold take_bytes in H. destruct (_ <=? _); discriminate.
  - revert H. apply dec_code_loop_fuel. lia.
Qed.

Lemma dec_instr_bad_opcode b i : 104 <= Z_of_byte b -> dec_instr (b :: i) = Err InvalidData.
Proof.
  intros Hb. unfold dec_instr, pbind.
  replace (dec_u8 (b :: i)) with (Ok (Z_of_byte b, i)).
  - pose proof (Z_of_byte_range b) as Hr.
    assert (Hi : In (Z_of_byte b) (map Z.of_nat (seq 104 152))).
    { replace (Z_of_byte b) with (Z.of_nat (Z.to_nat (Z_of_byte b))) by lia.
      apply in_map, in_seq. lia. }
    cbn in Hi. repeat (destruct Hi as [<-|Hi]; [reflexivity|]). contradiction.
  - assert (E : b :: i = le_enc 1 (Z_of_byte b) ++ i).
    { cbn. f_equal. symmetry. apply byte_of_Z_of_byte. }
    rewrite E. unfold dec_u8. rewrite dec_u_enc. change (256 ^ Z.of_nat 1) with 256.
    pose proof (Z_of_byte_range b). now rewrite Z.mod_small by lia.
Qed.

Lemma decode_encode_stable_lemma bytes i rest :
  dec_instr bytes = Ok (i, rest) ->
  instr_typed i /\
  exists used rewritten,
    bytes = used ++ rest /\ enc_instr i = Ok rewritten /\
    (forall rest', dec_instr (rewritten ++ rest') = Ok (i, rest')) /\
    (used = rewritten \/
     exists bp pre b post, i = Breakpoint bp /\ length pre = 11%nat /\
       used = pre ++ b :: post /\ b <> x00 /\ rewritten = pre ++ x01 :: post).
Proof.
  intros H. pose proof (dec_enc_dec_instr _ _ _ H) as (bs' & Hbs' & Hd).
  apply dec_instr_inv in H. destruct H as (H1 & H2 & used & bs & -> & He & Hs).
  split; [exact H1|]. exists used, bs. rewrite He in Hbs'. injection Hbs' as <-.
  split; [reflexivity|]. split; [exact He|]. split; [exact Hd|].
  destruct i; cbn [same_bytes] in Hs; try (left; exact Hs).
  destruct Hs as (pre & b & b' & post & -> & -> & Hl & ->).
  destruct (Z_of_byte b =? 0) eqn:E.
  - left. assert (b = x00) as ->; [|reflexivity]. apply Z_of_byte_inj. cbn. lia.
  - right. exists a, pre, b, post. repeat split; trivial. intros ->. cbn in E. lia.
Qed.
