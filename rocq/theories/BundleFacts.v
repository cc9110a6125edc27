(** Facts about string pools and bundle files. *)
From Coq Require Import ZArith NArith List Bool Lia ZifyBool ZifyNat ZifyN.
From Verif Require Import Bytes BytesFacts Bytecode BytecodeFacts Definitions FlagFacts DefinitionsSpec
  DefinitionsFacts Bundle.
Import ListNotations.
Open Scope Z_scope.

Lemma str_eqb_spec a b : reflect (a = b) (str_eqb a b).
Proof.
  revert b; induction a as [|x a IH]; intros [|y b]; cbn; try (constructor; congruence).
  destruct (byte_eqb_spec x y) as [->|N]; cbn; [|constructor; congruence].
  destruct (IH b) as [->|N]; constructor; congruence.
Qed.

Lemma find_insert s v m t : sm_find (sm_insert s v m) t = if str_eqb s t then Some v else sm_find m t.
Proof. reflexivity. Qed.

Lemma str_dec (a b : str) : {a = b} + {a <> b}.
Proof. destruct (str_eqb_spec a b); [now left|now right]. Qed.

(** * Deduplicated data section *)
Definition cstrs (ks : list str) : list byte := concat (map (fun s => s ++ [x00]) ks).

Lemma cstrs_app a b : cstrs (a ++ b) = cstrs a ++ cstrs b.
Proof. unfold cstrs. now rewrite map_app, concat_app. Qed.

(** [m] and [buf] describe the distinct strings [ks]. *)
Definition dedup_inv (ks : list str) (m : smap) (buf : list byte) : Prop :=
  NoDup ks /\ buf = cstrs ks /\
  forall s o, sm_find m s = Some o <->
    exists pre post, ks = pre ++ s :: post /\ o = wrap_u 32 (Z.of_nat (length (cstrs pre))).

Lemma find_in ks m buf s : dedup_inv ks m buf -> (In s ks <-> sm_find m s <> None).
Proof.
  intros (_ & _ & H). split.
  - intros Hin. apply in_split in Hin. destruct Hin as (pre & post & E).
    rewrite (proj2 (H s _) (ex_intro _ pre (ex_intro _ post (conj E eq_refl)))). discriminate.
  - intros Hn. destruct (sm_find m s) as [o|] eqn:E; [|congruence].
    apply H in E. destruct E as (pre & post & -> & _). apply in_elt.
Qed.

Lemma dedup_spec l : forall ks m buf,
  dedup_inv ks m buf ->
  let '(m', buf') := dedup l m buf in
  exists ks', dedup_inv ks' m' buf' /\ (exists more, ks' = ks ++ more) /\
    forall s, In s ks' <-> In s ks \/ In s l.
Proof.
  induction l as [|s l IH]; intros ks m buf Hinv; cbn [dedup].
  - exists ks. split; [assumption|]. split; [exists []; now rewrite app_nil_r|].
    intros t. cbn. tauto.
  - destruct (sm_find m s) as [o|] eqn:E.
    + specialize (IH ks m buf Hinv). destruct (dedup l m buf) as [m' buf'].
      destruct IH as (ks' & H1 & H2 & H3). exists ks'. split; [assumption|]. split; [assumption|].
      intros t. rewrite H3. cbn [In]. split; [tauto|].
      intros [Ht|[<-|Ht]]; [tauto| |tauto]. left. eapply find_in; [exact Hinv|congruence].
    + assert (Hs : ~ In s ks) by (rewrite find_in by exact Hinv; congruence).
      destruct Hinv as (Hnd & Hbuf & Hm).
      assert (Hinv' : dedup_inv (ks ++ [s]) (sm_insert s (wrap_u 32 (Z.of_nat (length buf))) m) (buf ++ s ++ [x00])).
      { split; [|split].
        - rewrite <- rev_involutive with (l := ks ++ [s]). apply NoDup_rev. rewrite rev_app_distr. cbn.
          constructor; [now rewrite <- in_rev|now apply NoDup_rev].
        - rewrite cstrs_app, Hbuf. unfold cstrs at 3. cbn. now rewrite app_nil_r.
        - intros t o. rewrite find_insert. destruct (str_eqb_spec s t) as [<-|N].
          + split.
            * intros [= <-]. exists ks, []. split; [reflexivity|]. now rewrite Hbuf.
            * intros (pre & post & E1 & ->).
              assert (pre = ks /\ post = []) as [-> ->].
              { destruct post as [|q post'] using rev_ind.
                - apply app_inj_tail in E1. destruct E1; now subst.
                - rewrite app_comm_cons, app_assoc in E1. apply app_inj_tail in E1. destruct E1 as [E1 _].
                  exfalso. apply Hs. rewrite E1. apply in_elt. }
              now rewrite Hbuf.
          + rewrite Hm. split.
            * intros (pre & post & -> & ->). exists pre, (post ++ [s]). rewrite <- app_assoc. auto.
            * intros (pre & post & E1 & ->). exists pre.
              destruct post as [|q post'] using rev_ind.
              -- apply app_inj_tail in E1. destruct E1; congruence.
              -- rewrite app_comm_cons, app_assoc in E1. apply app_inj_tail in E1. destruct E1 as [E1 _]. eauto. }
      specialize (IH _ _ _ Hinv'). destruct (dedup l _ _) as [m' buf'].
      destruct IH as (ks' & H1 & (more & H2) & H3). exists ks'. split; [assumption|]. split.
      * exists (s :: more). rewrite H2, <- app_assoc. reflexivity.
      * intros t. rewrite H3, in_app_iff. cbn. tauto.
Qed.

Lemma dedup_inv_nil : dedup_inv [] [] [].
Proof.
  split; [constructor|]. split; [reflexivity|]. intros s o. cbn. split; [discriminate|].
  intros (pre & post & E & _). destruct pre; discriminate.
Qed.

(** Reading a string back from the data section. *)
Lemma read_dedup ks m buf s o : dedup_inv ks m buf -> Z.of_nat (length buf) < 2 ^ 32 ->
  nul_free s -> utf8_valid s = true -> sm_find m s = Some o ->
  in_u 32 o /\ exists rest, dec_cstr (skipn (Z.to_nat o) buf) = Ok (s, rest).
Proof.
  intros (Hnd & -> & Hm) Hlen Hn Hu Hf. apply Hm in Hf. destruct Hf as (pre & post & -> & ->).
  rewrite cstrs_app in Hlen. rewrite app_length in Hlen.
  assert (Hin : in_u 32 (Z.of_nat (length (cstrs pre)))) by (unfold in_u; lia).
  rewrite wrap_u_id by exact Hin. split; [exact Hin|].
  rewrite Nat2Z.id, cstrs_app, skipn_app, skipn_all, Nat.sub_diag. cbn [app skipn].
  change (cstrs (s :: post)) with ((s ++ [x00]) ++ cstrs post).
  destruct (reads_cstr s Hn Hu) as (bs & Hb & Hr). unfold enc_cstr in Hb.
  assert (bs = s ++ [x00]) by congruence. subst bs. eexists. apply Hr.
Qed.

(** * Offset tables *)
Lemma encoded_offsets_spec l m : (forall s, In s l -> sm_find m s <> None) ->
  (forall s o, In s l -> sm_find m s = Some o -> in_u 32 o) ->
  exists bs os, encoded_offsets l m = Ok bs /\ length bs = (4 * length l)%nat /\
    Forall2 (fun s o => sm_find m s = Some o) l os /\
    bs = concat (map (le_enc 4) os) /\
    forall rest, dec_vec_n dec_u32 (length l) (bs ++ rest) = Ok (os, rest).
Proof.
  induction l as [|s l IH]; intros Hf Hr.
  - exists [], []. cbn. repeat split; constructor.
  - destruct IH as (bs & os & H1 & H2 & H3 & Hc & H4).
    { intros t Ht. apply Hf. now right. } { intros t o Ht. apply Hr. now right. }
    cbn [encoded_offsets]. destruct (sm_find m s) as [o|] eqn:E; [|exfalso; apply (Hf s); [now left|assumption]].
    assert (Ho : in_u 32 o) by (apply (Hr s); [now left|assumption]).
    rewrite H1. exists (le_enc 4 o ++ bs), (o :: os). split; [reflexivity|]. split.
    { rewrite app_length, le_enc_length, H2. cbn [length]. lia. }
    split; [now constructor|]. split; [cbn [map concat]; now rewrite Hc|].
    intros rest. rewrite <- app_assoc.
    cbn [length dec_vec_n]. unfold pbind at 1. destruct (rt_u 4 o Ho) as (b & Hb & Hrb).
    unfold enc_i in Hb. assert (b = le_enc 4 o) by congruence. subst b.
    unfold dec_u32. rewrite Hrb. fold dec_u32. unfold pbind. rewrite H4. reflexivity.
Qed.

(** Pool map after reading: latest index of each string. *)
Fixpoint index_map (l : list str) (i : nat) (m : smap) : smap :=
  match l with [] => m | s :: l' => index_map l' (S i) (sm_insert s (wrap_u 32 (Z.of_nat i)) m) end.

Lemma decode_from_loop_ok buf l : forall os idx acc,
  Forall2 (fun s o => exists rest, dec_cstr (skipn (Z.to_nat o) buf) = Ok (s, rest)) l os ->
  decode_from_loop buf os idx acc =
    Ok {| st_list := st_list acc ++ l; st_map := index_map l idx (st_map acc) |}.
Proof.
  induction l as [|s l IH]; intros os idx acc H; inversion H as [|? ? ? ? Hso Hl]; subst; cbn [decode_from_loop index_map].
  - rewrite app_nil_r. now destruct acc.
  - destruct Hso as [rest ->]. rewrite IH by assumption. cbn [st_list st_map]. now rewrite <- app_assoc.
Qed.

Lemma decode_from_ok buf l os :
  Forall2 (fun s o => exists rest, dec_cstr (skipn (Z.to_nat o) buf) = Ok (s, rest)) l os ->
  decode_from buf os = Ok {| st_list := l; st_map := index_map l 0 [] |}.
Proof. intros H. unfold decode_from. now rewrite decode_from_loop_ok with (l := l). Qed.

(** * Output files *)
Definition holds (old E : list byte) (o : out) : Prop :=
  forall i, nth i (o_bytes o) x00 = if (i <? length E)%nat then nth i E x00 else nth i old x00.

Lemma write_nth bs o i :
  nth i (o_bytes (write_all bs o)) x00 =
  if (i <? o_pos o)%nat then nth i (o_bytes o) x00
  else if (i <? o_pos o + length bs)%nat then nth (i - o_pos o) bs x00
  else nth i (o_bytes o) x00.
Proof.
  unfold write_all. destruct bs as [|b bs'].
  { cbn [length]. rewrite Nat.add_0_r. now destruct (i <? o_pos o)%nat. }
  remember (b :: bs') as bs eqn:Eb. clear Eb b bs'. cbn [o_bytes].
  assert (Hl : length (firstn (o_pos o) (pad (o_pos o) (o_bytes o))) = o_pos o).
  { rewrite firstn_length. unfold pad. rewrite app_length, repeat_length. lia. }
  destruct (i <? o_pos o)%nat eqn:E1.
  - rewrite app_nth1 by (rewrite Hl; lia).
    transitivity (nth i (pad (o_pos o) (o_bytes o)) x00).
    + rewrite <- (firstn_skipn (o_pos o) (pad (o_pos o) (o_bytes o))) at 2.
      rewrite app_nth1 by (rewrite Hl; lia). reflexivity.
    + unfold pad. destruct (i <? length (o_bytes o))%nat eqn:E2.
      * now rewrite app_nth1 by lia.
      * rewrite app_nth2 by lia. rewrite nth_repeat. symmetry. apply nth_overflow. lia.
  - rewrite app_nth2 by (rewrite Hl; lia). rewrite Hl.
    destruct (i <? o_pos o + length bs)%nat eqn:E2.
    + now rewrite app_nth1 by lia.
    + rewrite app_nth2 by lia.
      transitivity (nth (o_pos o + length bs + (i - o_pos o - length bs)) (o_bytes o) x00).
      * generalize (i - o_pos o - length bs)%nat as j. generalize (o_pos o + length bs)%nat as k.
        generalize (o_bytes o) as f. clear. intros f k j. revert f.
        induction k as [|k IH]; intros f; [reflexivity|]. destruct f as [|x f]; cbn [skipn plus nth].
        -- now destruct j.
        -- apply IH.
      * f_equal. lia.
Qed.

Lemma write_pos bs o : o_pos (write_all bs o) = (o_pos o + length bs)%nat.
Proof. unfold write_all. destruct bs; cbn; lia. Qed.

Lemma write_length bs o :
  length (o_bytes (write_all bs o)) =
  match bs with [] => length (o_bytes o) | _ => Nat.max (length (o_bytes o)) (o_pos o + length bs) end.
Proof.
  unfold write_all. destruct bs as [|b bs']; [reflexivity|]. remember (b :: bs') as bs eqn:Eb. clear Eb.
  cbn [o_bytes]. rewrite !app_length, firstn_length, skipn_length. unfold pad.
  rewrite app_length, repeat_length. lia.
Qed.

Lemma holds_mid old A X B bs o : holds old (A ++ X ++ B) o -> o_pos o = length A -> length X = length bs ->
  holds old (A ++ bs ++ B) (write_all bs o).
Proof.
  intros H Hp Hx i. rewrite write_nth, Hp. specialize (H i). rewrite !app_length in *. rewrite Hx in H.
  destruct (i <? length A)%nat eqn:E1.
  - replace (i <? length A + (length bs + length B))%nat with true in * by lia.
    rewrite H, !app_nth1 by lia. reflexivity.
  - destruct (i <? length A + length bs)%nat eqn:E2.
    + replace (i <? length A + (length bs + length B))%nat with true by lia.
      rewrite app_nth2, app_nth1 by lia. reflexivity.
    + rewrite H. destruct (i <? length A + (length bs + length B))%nat eqn:E3; [|reflexivity].
      rewrite !app_nth2 by (try rewrite app_length; lia). f_equal. lia.
Qed.

Lemma holds_extend old A n o : holds old A o -> exists X, length X = n /\ holds old (A ++ X) o.
Proof.
  intros H. exists (map (fun i => nth i old x00) (seq (length A) n)).
  split; [now rewrite map_length, seq_length|]. intros i.
  rewrite app_length, map_length, seq_length. rewrite (H i).
  destruct (i <? length A)%nat eqn:E1.
  - replace (i <? length A + n)%nat with true by lia. now rewrite app_nth1 by lia.
  - destruct (i <? length A + n)%nat eqn:E2; [|reflexivity].
    rewrite app_nth2 by lia.
    rewrite (nth_indep (map (fun i => nth i old x00) (seq (length A) n)) x00 (nth 0 old x00)) by (rewrite map_length, seq_length; lia).
    rewrite (map_nth (fun i => nth i old x00)). rewrite seq_nth by lia. f_equal. lia.
Qed.

Lemma holds_end old A bs o : holds old A o -> o_pos o = length A -> holds old (A ++ bs) (write_all bs o).
Proof.
  intros H Hp. destruct (holds_extend old A (length bs) o H) as (X & HX & HX').
  rewrite <- (app_nil_r bs) at 1. apply holds_mid with (X := X); [now rewrite app_nil_r|assumption|assumption].
Qed.

Lemma holds_seek old A o n : holds old A o -> holds old A (seek_start n o).
Proof. intros H i. apply (H i). Qed.
Lemma holds_forward old A o n : holds old A o -> holds old A (seek_forward n o).
Proof. intros H i. apply (H i). Qed.

Lemma holds_file old E o : holds old E o -> length (o_bytes o) = Nat.max (length E) (length old) ->
  o_bytes o = E ++ skipn (length E) old.
Proof.
  intros H Hl. apply nth_ext with (d := x00) (d' := x00).
  - rewrite app_length, skipn_length. lia.
  - intros i Hi. rewrite (H i). destruct (i <? length E)%nat eqn:E1.
    + now rewrite app_nth1 by lia.
    + rewrite app_nth2 by lia.
      rewrite <- (firstn_skipn (length E) old) at 1.
      destruct (le_lt_dec (length E) (length old)).
      * rewrite app_nth2; rewrite firstn_length; [f_equal; lia|lia].
      * lia.
Qed.

(** * Definitions *)
Lemma reads_def_header h : idx_ok (dh_name h) -> idx_ok (dh_parent h) -> in_u 32 (dh_offset h) ->
  in_u 32 (dh_size h) -> 0 <= dh_type h <= 9 -> in_u 8 (dh_unk1 h) -> in_u 8 (dh_unk2 h) -> in_u 8 (dh_unk3 h) ->
  reads (enc_def_header h) dec_def_header h.
Proof.
  destruct h as [n p o s t u1 u2 u3]. cbn [dh_name dh_parent dh_offset dh_size dh_type dh_unk1 dh_unk2 dh_unk3].
  intros H1 H2 H3 H4 H5 H6 H7 H8. unfold enc_def_header, dec_def_header.
  cbn [dh_name dh_parent dh_offset dh_size dh_type dh_unk1 dh_unk2 dh_unk3].
  eapply reads_bind; [now apply (rt_u 4)|].
  eapply reads_bind; [now apply (rt_u 4)|].
  eapply reads_bind; [now apply (rt_u 4)|].
  eapply reads_bind; [now apply (rt_u 4)|].
  eapply reads_bind.
  { unfold dec_def_type. eapply reads_bind_pure with (a := t) (b := t).
    - replace (t <=? 9) with true by lia. reflexivity.
    - apply (rt_u 1). unfold in_u. cbn. lia. }
  eapply reads_bind; [now apply (rt_u 1)|].
  eapply reads_bind; [now apply (rt_u 1)|].
  eapply reads_bind_pure; [|now apply (rt_u 1)]. reflexivity.
Qed.

Lemma enc_def_header_length h bs : enc_def_header h = Ok bs -> length bs = 20%nat.
Proof.
  unfold enc_def_header, enc_idx, enc_32, enc_8, enc_i, wapp. intros [= <-]. reflexivity.
Qed.
Lemma enc_def_header_ok h : exists bs, enc_def_header h = Ok bs.
Proof. unfold enc_def_header, enc_idx, enc_32, enc_8, enc_i, wapp. eauto. Qed.

Lemma def_tag_range d : 0 <= def_tag d <= 9.
Proof. destruct d; cbn; lia. Qed.

(** The header written for a definition placed at [pos] with [n] bytes. *)
Definition header_of (d : definition) (pos n : nat) : def_header :=
  {| dh_name := df_name d; dh_parent := df_parent d; dh_offset := wrap_u 32 (Z.of_nat pos);
     dh_size := wrap_u 32 (Z.of_nat n); dh_type := def_tag (df_value d);
     dh_unk1 := df_unk1 d; dh_unk2 := df_unk2 d; dh_unk3 := df_unk3 d |}.
Fixpoint headers_of (ds : list (definition * list byte)) (pos : nat) : list def_header :=
  match ds with
  | [] => []
  | (d, bs) :: ds' => header_of d pos (length bs) :: headers_of ds' (pos + length bs)
  end.

Lemma enc_definitions_spec old ds : forall bss o A dbuf,
  Forall2 (fun d bs => enc_any (df_value d) = Ok bs) ds bss ->
  holds old A o -> o_pos o = length A ->
  exists o' hb, enc_definitions o ds dbuf = Ok (o', dbuf ++ hb) /\
    holds old (A ++ concat bss) o' /\ o_pos o' = (length A + length (concat bss))%nat /\
    enc_slice enc_def_header (headers_of (combine ds bss) (length A)) = Ok hb /\
    length hb = (20 * length ds)%nat /\
    (length (o_bytes o) <= length (o_bytes o'))%nat /\
    (concat bss = [] \/ length A + length (concat bss) <= length (o_bytes o'))%nat /\
    (length (o_bytes o') <= Nat.max (length (o_bytes o)) (length A + length (concat bss)))%nat.
Proof.
  induction ds as [|d ds IH]; intros bss o A dbuf H Hh Hp; inversion H as [|? bs ? bss' Hd Hds]; subst; cbn [enc_definitions].
  - exists o, []. rewrite !app_nil_r. cbn. repeat split; try assumption; try lia. now left.
  - unfold enc_definition. rewrite Hd.
    destruct (enc_def_header_ok (header_of d (o_pos o) (length bs))) as [hb Hhb].
    change {| dh_name := df_name d; dh_parent := df_parent d;
              dh_offset := wrap_u 32 (Z.of_nat (o_pos o)); dh_size := wrap_u 32 (Z.of_nat (length bs));
              dh_type := def_tag (df_value d); dh_unk1 := df_unk1 d; dh_unk2 := df_unk2 d;
              dh_unk3 := df_unk3 d |} with (header_of d (o_pos o) (length bs)).
    rewrite Hhb.
    destruct (IH bss' (write_all bs o) (A ++ bs) (dbuf ++ hb) Hds) as (o' & hb' & H1 & H2 & H3 & H4 & H5 & L1 & L2 & L3).
    { now apply holds_end. } { rewrite write_pos, app_length. lia. }
    exists o', (hb ++ hb'). rewrite H1, <- !app_assoc. split; [reflexivity|].
    cbn [concat]. rewrite <- app_assoc in H2. split; [assumption|].
    rewrite app_length in *. split; [lia|]. split.
    { cbn [combine headers_of enc_slice]. rewrite <- Hp. rewrite Hhb. rewrite <- Hp in H4. rewrite H4. reflexivity. }
    split.
    { rewrite app_length, (enc_def_header_length _ _ Hhb), H5. cbn [length]. lia. }
    rewrite write_length in *.
    split; [destruct bs; lia|]. split; [|destruct bs; cbn [length] in *; lia].
    destruct (concat bss') eqn:E; [|right; destruct L2 as [L2|L2]; [discriminate|lia]].
    rewrite app_nil_r. destruct bs; [now left|]. right. cbn [length] in *. lia.
Qed.

(** * Tables and header *)
Lemma crc_bit_range c : in_u 32 c -> in_u 32 (crc_bit c).
Proof.
  intros H. unfold crc_bit.
  assert (Hs : in_u 32 (Z.shiftr c 1)).
  { rewrite in_u_high in * by lia. intros i Hi. rewrite Z.shiftr_spec by lia. apply H. lia. }
  destruct (Z.odd c); [|assumption].
  rewrite in_u_high in * by lia. intros i Hi. rewrite Z.lxor_spec, Hs by lia.
  assert (Hk : in_u 32 0xEDB88320) by (unfold in_u; lia).
  rewrite in_u_high in Hk by lia. rewrite Hk by lia. reflexivity.
Qed.
Lemma lxor_range n a b : 0 <= n -> in_u n a -> in_u n b -> in_u n (Z.lxor a b).
Proof.
  intros Hn. rewrite !in_u_high by lia. intros Ha Hb i Hi. rewrite Z.lxor_spec, Ha, Hb by lia. reflexivity.
Qed.
Lemma crc_byte_range c b : in_u 32 c -> in_u 32 (crc_byte c b).
Proof.
  intros H. unfold crc_byte. do 8 apply crc_bit_range. apply lxor_range; [lia|assumption|].
  pose proof (Z_of_byte_range b). unfold in_u. lia.
Qed.
Lemma crc32_range bs : in_u 32 (crc32 bs).
Proof.
  unfold crc32. apply lxor_range; [lia| |unfold in_u; lia].
  assert (H : in_u 32 0xFFFFFFFF) by (unfold in_u; lia). revert H. generalize 0xFFFFFFFF as c.
  induction bs as [|b bs IH]; intros c H; cbn [fold_left]; [assumption|]. apply IH. now apply crc_byte_range.
Qed.

Definition table_ok (t : table) : Prop := in_u 32 (tb_offset t) /\ in_u 32 (tb_count t) /\ in_u 32 (tb_hash t).
Lemma reads_table t : table_ok t -> reads (enc_table t) dec_table t.
Proof.
  destruct t as [o c h]. intros (H1 & H2 & H3). cbn in H1, H2, H3. unfold enc_table, dec_table.
  cbn [tb_offset tb_count tb_hash].
  eapply reads_bind; [now apply (rt_u 4)|].
  eapply reads_bind; [now apply (rt_u 4)|].
  eapply reads_bind_pure; [|now apply (rt_u 4)]. reflexivity.
Qed.

Lemma new_table_ok bs c o : table_ok (new_table bs (wrap_u 32 c) (wrap_u 32 o)).
Proof.
  unfold table_ok, new_table. cbn. split; [apply wrap_u_range; lia|]. split; [apply wrap_u_range; lia|].
  apply crc32_range.
Qed.

(** Values of the header fields that have a fixed-size type in Rust. *)
Definition header_ok (h : header) : Prop :=
  in_u 32 (hd_version h) /\ in_u 32 (hd_flags h) /\ in_u 64 (hd_timestamp h) /\ in_u 32 (hd_unk3 h) /\
  in_u 32 (hd_hash h) /\ in_u 32 (hd_chunks h) /\ table_ok (hd_data h) /\ table_ok (hd_names h) /\
  table_ok (hd_tweakdb h) /\ table_ok (hd_resources h) /\ table_ok (hd_strings h) /\
  table_ok (hd_definitions h).

Lemma reads_header h : header_ok h -> reads (enc_header h) dec_header h.
Proof.
  destruct h as [v f ts u3 hs ch d n t r s df].
  intros (H1 & H2 & H3 & H4 & H5 & H6 & H7 & H8 & H9 & H10 & H11 & H12).
  cbn in H1, H2, H3, H4, H5, H6, H7, H8, H9, H10, H11, H12.
  unfold enc_header, dec_header.
  cbn [hd_version hd_flags hd_timestamp hd_unk3 hd_hash hd_chunks hd_data hd_names hd_tweakdb
       hd_resources hd_strings hd_definitions].
  eapply reads_bind; [apply (rt_u 4); unfold in_u, MAGIC; lia|]. rewrite Z.eqb_refl. cbn [negb].
  eapply reads_bind; [now apply (rt_u 4)|].
  eapply reads_bind; [now apply (rt_u 4)|].
  eapply reads_bind; [now apply (rt_u 8)|].
  eapply reads_bind; [now apply (rt_u 4)|].
  eapply reads_bind; [now apply (rt_u 4)|].
  eapply reads_bind; [now apply (rt_u 4)|].
  do 5 (eapply reads_bind; [now apply reads_table|]).
  eapply reads_bind_pure; [|now apply reads_table]. reflexivity.
Qed.

Lemma enc_header_length h bs : enc_header h = Ok bs -> length bs = 104%nat.
Proof.
  unfold enc_header, enc_table, enc_32, enc_64, enc_i, wapp. intros E.
  assert (H : exists x, bs = x /\ length x = 104%nat); [|destruct H as (x & -> & Hx); exact Hx].
  eexists. split; [symmetry; injection E as E; exact E|].
  repeat rewrite app_length. repeat rewrite le_enc_length. reflexivity.
Qed.
Lemma enc_header_ok h : exists bs, enc_header h = Ok bs.
Proof. unfold enc_header, enc_table, enc_32, enc_64, enc_i, wapp. eauto. Qed.
