(** Proofs of the bundle layout and string pool properties. *)
From Coq Require Import ZArith NArith List Bool Lia ZifyBool ZifyNat ZifyN.
From Verif Require Import Bytes BytesFacts Bytecode BytecodeFacts Definitions FlagFacts DefinitionsSpec
  DefinitionsFacts Bundle BundleFacts BundleSpec BundleLayout BundleLoad.
Import ListNotations.
Open Scope Z_scope.

Lemma sub_app a b c off len : off = Z.of_nat (length a) -> len = Z.of_nat (length b) -> sub (a ++ b ++ c) off len = b.
Proof.
  intros -> ->. unfold sub. rewrite !Nat2Z.id, skipn_app, skipn_all, Nat.sub_diag. cbn [skipn app].
  now rewrite firstn_app, firstn_all, Nat.sub_diag, firstn_O, app_nil_r.
Qed.

Lemma definitions_at_ok ds : forall bss pre,
  Forall2 (fun d bs => enc_any (df_value d) = Ok bs) ds bss ->
  Z.of_nat (length pre + length (concat bss)) < 2 ^ 32 ->
  definitions_at (pre ++ concat bss) (Z.of_nat (length pre)) ds (headers_of (combine ds bss) (length pre)).
Proof.
  induction ds as [|d ds IH]; intros bss pre HF Hlen; inversion HF as [|? bs ? bss' Hd Hds]; subst.
  - cbn. now rewrite app_nil_r.
  - cbn [combine headers_of definitions_at concat] in *. rewrite app_length in Hlen.
    cbn [header_of dh_name dh_parent dh_offset dh_size dh_type dh_unk1 dh_unk2 dh_unk3].
    rewrite !wrap_u_id by (unfold in_u; lia).
    do 6 (split; [reflexivity|]). split; [reflexivity|]. split; [lia|].
    rewrite sub_app by reflexivity.
    split; [assumption|]. split; [reflexivity|].
    specialize (IH bss' (pre ++ bs) Hds). rewrite app_length, <- app_assoc in IH.
    rewrite <- Nat2Z.inj_add. apply IH. lia.
Qed.

Lemma header_hash_bytes h hash hb hb0 :
  enc_header {| hd_version := hd_version h; hd_flags := hd_flags h; hd_timestamp := hd_timestamp h;
      hd_unk3 := hd_unk3 h; hd_hash := hash; hd_chunks := hd_chunks h; hd_data := hd_data h;
      hd_names := hd_names h; hd_tweakdb := hd_tweakdb h; hd_resources := hd_resources h;
      hd_strings := hd_strings h; hd_definitions := hd_definitions h |} = Ok hb0 ->
  enc_header h = Ok hb ->
  hb0 = sub hb 0 24 ++ le_enc 4 hash ++ sub hb 28 76.
Proof.
  unfold enc_header. cbn [hd_version hd_flags hd_timestamp hd_unk3 hd_hash hd_chunks hd_data hd_names hd_tweakdb
       hd_resources hd_strings hd_definitions].
  unfold enc_table, enc_32, enc_64, enc_i, wapp.
  intros H0 H.
  set (A := le_enc 4 MAGIC ++ le_enc 4 (hd_version h) ++ le_enc 4 (hd_flags h) ++ le_enc 8 (hd_timestamp h) ++ le_enc 4 (hd_unk3 h)).
  match type of H with Ok (_ ++ _ ++ _ ++ _ ++ _ ++ _ ++ ?x) = _ => set (C := x) in * end.
  assert (E0 : hb0 = A ++ le_enc 4 hash ++ C) by (unfold A; rewrite <- !app_assoc; congruence).
  assert (E : hb = A ++ le_enc 4 (hd_hash h) ++ C) by (unfold A; rewrite <- !app_assoc; congruence).
  assert (LA : length A = 24%nat) by (unfold A; repeat rewrite app_length; repeat rewrite le_enc_length; reflexivity).
  assert (LC : length C = 76%nat) by (unfold C; repeat rewrite app_length; repeat rewrite le_enc_length; reflexivity).
  clearbody A C. rewrite E0, E. f_equal; [|f_equal].
  - symmetry. rewrite <- (app_nil_l (A ++ _)). apply sub_app; [reflexivity|now rewrite LA].
  - symmetry. rewrite app_assoc, <- (app_nil_r C) at 1. apply sub_app.
    + rewrite app_length, le_enc_length, LA. reflexivity.
    + now rewrite LC.
Qed.

Lemma sub_prefix a b off len : 0 <= off -> 0 <= len -> off + len <= Z.of_nat (length a) -> sub (a ++ b) off len = sub a off len.
Proof.
  intros H1 H2 H3. unfold sub. rewrite skipn_app, firstn_app, skipn_length.
  replace (Z.to_nat len - (length a - Z.to_nat off))%nat with O by lia.
  rewrite firstn_O, app_nil_r. reflexivity.
Qed.

Lemma Forall2_nth_l {A B} (R : A -> B -> Prop) l l' i a :
  Forall2 R l l' -> nth_error l i = Some a -> exists b, nth_error l' i = Some b /\ R a b.
Proof.
  intros H. revert i. induction H as [|x y l l' Hxy H IH]; intros [|i] Hi; try discriminate.
  - injection Hi as <-. exists y. auto.
  - apply IH. assumption.
Qed.

Lemma sub_sub f a n b m : 0 <= a -> 0 <= b -> 0 <= m -> b + m <= n -> sub (sub f a n) b m = sub f (a + b) m.
Proof.
  intros Ha Hb Hm H. unfold sub.
  rewrite skipn_firstn_comm, firstn_firstn.
  rewrite Z2Nat.inj_add by lia. rewrite (Nat.add_comm (Z.to_nat a)).
  replace (Nat.min (Z.to_nat m) (Z.to_nat n - Z.to_nat b)) with (Z.to_nat m) by lia.
  f_equal. clear. generalize (Z.to_nat b) as k, (Z.to_nat a) as j. intros k j. revert f.
  induction j as [|j IH]; intros f; [now rewrite Nat.add_0_r|].
  rewrite Nat.add_succ_r. destruct f; cbn [skipn]; [apply skipn_nil|apply IH].
Qed.

Lemma concat_le_length l : length (concat (map (le_enc 4) l)) = (4 * length l)%nat.
Proof. induction l; cbn [map concat length]; [reflexivity|]. rewrite app_length, le_enc_length. lia. Qed.

Lemma layout_lemma b : meta_ok (bn_header b) -> pool_ok (bn_pool b) ->
  exists file, save b [] = Ok file /\
    (Z.of_nat (length file) < 2 ^ 32 -> exists h, self_describing b file h /\ strings_stored_once b file h).
Proof.
  intros Hm (Ht1 & Ht2 & Ht3 & Ht4 & ds & Hds & Hok).
  destruct (save_layout b [] _ ds Hds) as (q & Hs & Hq).
  { eapply Forall_impl; [|exact Hok]. apply enc_ok_of_ok. }
  rewrite skipn_nil, app_nil_r in Hs. exists (sp_all q). split; [assumption|]. intros Hlen.
  exists (sp_header q).
  pose proof (sa_dedup _ _ _ Hq) as Hdd.
  pose proof (sa_n _ _ _ Hq) as Hqn. pose proof (sa_t _ _ _ Hq) as Hqt.
  pose proof (sa_r _ _ _ Hq) as Hqr. pose proof (sa_s _ _ _ Hq) as Hqs.
  pose proof (proj1 Hqn) as Ln. pose proof (proj1 Hqt) as Lt. pose proof (proj1 Hqr) as Lr. pose proof (proj1 Hqs) as Ls.
  pose proof (sa_dhlen _ _ _ Hq) as Ldh. pose proof (sa_hlen _ _ _ Hq) as Lh.
  destruct (reads_header _ (sp_header_ok _ _ _ Hm Hq)) as (hb & Hhb & Hrh).
  assert (E : hb = sp_hbytes q) by (pose proof (sa_henc _ _ _ Hq); congruence). subst hb.
  destruct (sa_header _ _ _ Hq) as (hb0 & Hhb0 & Hhead). cbv zeta in Hhb0.
  set (p := bn_pool b) in *.
  assert (Ldefs : length (pl_defs p) = S (length ds)) by (rewrite Hds; reflexivity).
  unfold sp_all in Hlen. repeat rewrite app_length in Hlen.
  set (F := sp_all q).
  assert (Hparts : length F = (length (sp_hbytes q) + (length (sp_data q) + (length (sp_n q) + (length (sp_t q) +
      (length (sp_r q) + (length (sp_dh q) + (length (sp_s q) + length (concat (sp_bss q)))))))))%nat)
    by (unfold F, sp_all; repeat rewrite app_length; lia).
  (* ranges *)
  assert (O : forall off len a x c, F = a ++ x ++ c -> off = Z.of_nat (length a) -> len = Z.of_nat (length x) -> sub F off len = x).
  { intros off len a x c -> H1 H2. now apply sub_app. }
  assert (Rd : sub F 104 (Z.of_nat (length (sp_data q))) = sp_data q).
  { eapply (O _ _ (sp_hbytes q)); [reflexivity|lia|reflexivity]. }
  assert (Rn : sub F (Z.of_nat (length (sp_hbytes q ++ sp_data q))) (4 * Z.of_nat (length (st_list (pl_names p)))) = sp_n q).
  { eapply (O _ _ (sp_hbytes q ++ sp_data q)); [unfold F, sp_all; rewrite <- !app_assoc; reflexivity|reflexivity|lia]. }
  assert (Rt : sub F (Z.of_nat (length (sp_hbytes q ++ sp_data q ++ sp_n q))) (4 * Z.of_nat (length (st_list (pl_tweakdb p)))) = sp_t q).
  { eapply (O _ _ (sp_hbytes q ++ sp_data q ++ sp_n q)); [unfold F, sp_all; rewrite <- !app_assoc; reflexivity|reflexivity|lia]. }
  assert (Rr : sub F (Z.of_nat (length (sp_hbytes q ++ sp_data q ++ sp_n q ++ sp_t q))) (4 * Z.of_nat (length (st_list (pl_resources p)))) = sp_r q).
  { eapply (O _ _ (sp_hbytes q ++ sp_data q ++ sp_n q ++ sp_t q)); [unfold F, sp_all; rewrite <- !app_assoc; reflexivity|reflexivity|lia]. }
  assert (Rdh : sub F (Z.of_nat (length (sp_hbytes q ++ sp_data q ++ sp_n q ++ sp_t q ++ sp_r q))) (20 * Z.of_nat (S (length ds))) = sp_dh q).
  { eapply (O _ _ (sp_hbytes q ++ sp_data q ++ sp_n q ++ sp_t q ++ sp_r q)); [unfold F, sp_all; rewrite <- !app_assoc; reflexivity|reflexivity|lia]. }
  assert (Rs : sub F (Z.of_nat (length (sp_hbytes q ++ sp_data q ++ sp_n q ++ sp_t q ++ sp_r q ++ sp_dh q))) (4 * Z.of_nat (length (st_list (pl_strings p)))) = sp_s q).
  { eapply (O _ _ (sp_hbytes q ++ sp_data q ++ sp_n q ++ sp_t q ++ sp_r q ++ sp_dh q)); [unfold F, sp_all; rewrite <- !app_assoc; reflexivity|reflexivity|lia]. }
  assert (Hh104 : skipn 104 F = sp_data q ++ sp_n q ++ sp_t q ++ sp_r q ++ sp_dh q ++ sp_s q ++ concat (sp_bss q)).
  { unfold F, sp_all. rewrite <- Lh. rewrite skipn_app, skipn_all, Nat.sub_diag. reflexivity. }
  assert (Hbss : length ds = length (sp_bss q)).
  { pose proof (sa_bss _ _ _ Hq) as HF. clear - HF. induction HF; cbn; congruence. }
  set (hdr := sp_header q) in *.
  assert (Ud : tb_count (hd_data hdr) = Z.of_nat (length (sp_data q)))
    by (rewrite Hhead; cbn; apply u32len_id; lia).
  assert (Un : tb_count (hd_names hdr) = Z.of_nat (length (st_list (pl_names p))))
    by (rewrite Hhead; cbn; apply u32len_id; lia).
  assert (Ut : tb_count (hd_tweakdb hdr) = Z.of_nat (length (st_list (pl_tweakdb p))))
    by (rewrite Hhead; cbn; apply u32len_id; lia).
  assert (Ur : tb_count (hd_resources hdr) = Z.of_nat (length (st_list (pl_resources p))))
    by (rewrite Hhead; cbn; apply u32len_id; lia).
  assert (Us : tb_count (hd_strings hdr) = Z.of_nat (length (st_list (pl_strings p))))
    by (rewrite Hhead; cbn; apply u32len_id; lia).
  assert (Uf : tb_count (hd_definitions hdr) = Z.of_nat (S (length ds)))
    by (rewrite Hhead; cbn [hd_definitions new_table tb_count]; apply wrap_u_id; unfold in_u; lia).
  assert (Od : tb_offset (hd_data hdr) = 104) by (rewrite Hhead; reflexivity).
  assert (On : tb_offset (hd_names hdr) = Z.of_nat (length (sp_hbytes q ++ sp_data q)))
    by (rewrite Hhead; cbn [hd_names new_table tb_offset]; apply u32len_id; repeat rewrite app_length; lia).
  assert (Ot : tb_offset (hd_tweakdb hdr) = Z.of_nat (length (sp_hbytes q ++ sp_data q ++ sp_n q)))
    by (rewrite Hhead; cbn [hd_tweakdb new_table tb_offset]; apply u32len_id; repeat rewrite app_length; lia).
  assert (Or : tb_offset (hd_resources hdr) = Z.of_nat (length (sp_hbytes q ++ sp_data q ++ sp_n q ++ sp_t q)))
    by (rewrite Hhead; cbn [hd_resources new_table tb_offset]; apply u32len_id; repeat rewrite app_length; lia).
  assert (Of : tb_offset (hd_definitions hdr) = Z.of_nat (length (sp_hbytes q ++ sp_data q ++ sp_n q ++ sp_t q ++ sp_r q)))
    by (rewrite Hhead; cbn [hd_definitions new_table tb_offset]; apply u32len_id; repeat rewrite app_length; lia).
  assert (Os : tb_offset (hd_strings hdr) = Z.of_nat (length (sp_hbytes q ++ sp_data q ++ sp_n q ++ sp_t q ++ sp_r q ++ sp_dh q)))
    by (rewrite Hhead; cbn [hd_strings new_table tb_offset]; apply u32len_id; repeat rewrite app_length; lia).
  split.
  - constructor; fold p; unfold table_bytes;
      rewrite ?Ud, ?Un, ?Ut, ?Ur, ?Us, ?Uf, ?Od, ?On, ?Ot, ?Or, ?Of, ?Os, ?Z.mul_1_l, ?Rd, ?Rn, ?Rt, ?Rr, ?Rdh, ?Rs;
      try (rewrite Hhead; reflexivity); try reflexivity;
      try (rewrite Ldefs; reflexivity); try (rewrite ?Hparts; repeat rewrite app_length; lia).
    + rewrite Hh104. apply Hrh.
    + assert (HH : hd_hash hdr = crc32 hb0) by (rewrite Hhead; reflexivity). rewrite HH. f_equal.
      pose proof (sa_henc _ _ _ Hq) as Henc. fold hdr in Henc.
      unfold F, sp_all. rewrite !sub_prefix by lia.
      eapply header_hash_bytes; [|exact Henc]. rewrite Hhead. cbn [hd_version hd_flags hd_timestamp hd_unk3 hd_hash hd_chunks hd_data hd_names hd_tweakdb
       hd_resources hd_strings hd_definitions]. exact Hhb0.
    + exists default_def_header, (headers_of (combine ds (sp_bss q)) (defs_start q)).
      rewrite Nat2Z.id. unfold F at 1, sp_all.
      replace (sp_hbytes q ++ sp_data q ++ sp_n q ++ sp_t q ++ sp_r q ++ sp_dh q ++ sp_s q ++ concat (sp_bss q))
        with ((sp_hbytes q ++ sp_data q ++ sp_n q ++ sp_t q ++ sp_r q) ++ sp_dh q ++ sp_s q ++ concat (sp_bss q))
        by (rewrite <- !app_assoc; reflexivity).
      rewrite skipn_app, skipn_all, Nat.sub_diag. cbn [skipn app]. rewrite dec_vec_len.
      assert (Hdhr : reads (enc_slice enc_def_header (default_def_header :: headers_of (combine ds (sp_bss q)) (defs_start q)))
         (dec_vec_n dec_def_header (S (length ds))) (default_def_header :: headers_of (combine ds (sp_bss q)) (defs_start q))).
      { replace (S (length ds)) with (length (default_def_header :: headers_of (combine ds (sp_bss q)) (defs_start q)))
          by (cbn [length]; now rewrite headers_of_length).
        apply reads_slice. constructor; [|now apply reads_def_headers].
        apply reads_def_header; cbn; unfold idx_ok, in_u; lia. }
      destruct Hdhr as (dhb & Hdhb & Hdhr). rewrite (sa_dh _ _ _ Hq) in Hdhb.
      assert (dhb = sp_dh q) by congruence. subst dhb.
      eexists. split; [apply Hdhr|]. split; [reflexivity|].
      rewrite Hds. cbn [skipn].
      set (PRE := sp_hbytes q ++ sp_data q ++ sp_n q ++ sp_t q ++ sp_r q ++ sp_dh q ++ sp_s q).
      assert (EF : F = PRE ++ concat (sp_bss q)) by (unfold F, sp_all, PRE; rewrite <- !app_assoc; reflexivity).
      rewrite EF.
      replace (defs_start q) with (length PRE) by (unfold PRE, defs_start; rewrite !app_length; lia).
      match goal with |- definitions_at _ ?pos _ _ => replace pos with (Z.of_nat (length PRE)) end.
      * apply definitions_at_ok; [apply (sa_bss _ _ _ Hq)|]. unfold PRE. repeat rewrite app_length. lia.
      * unfold PRE. repeat rewrite app_length. lia.
  - exists (sp_keys q). destruct Hdd as (Hnd & Hdata & Hmap). split; [assumption|]. split.
    { intros s. rewrite (sa_keys _ _ _ Hq). fold p. rewrite !in_app_iff. reflexivity. }
    split. { unfold table_bytes. rewrite Od, Ud, Z.mul_1_l, Rd. exact Hdata. }
    assert (G : forall l t bs os, offsets_part l (sp_map q) bs os -> sub F (tb_offset t) (4 * Z.of_nat (length l)) = bs ->
       0 <= tb_offset t ->
       forall i s, nth_error l i = Some s ->
       exists before after, sp_keys q = before ++ s :: after /\
        le_val (sub F (tb_offset t + 4 * Z.of_nat i) 4) = Z.of_nat (length (concat (map (fun s => s ++ [x00]) before)))).
    { intros l t bs os (Lb & HF & Hc & _) Hsub Ht i s Hi.
      destruct (Forall2_nth_l _ _ _ _ _ HF Hi) as (o & Ho & Hf). 
      apply Hmap in Hf. destruct Hf as (pre & post & Hk & Hov). exists pre, post. split; [assumption|].
      assert (Hil : (i < length l)%nat) by (apply nth_error_Some; congruence).
      assert (E : sub F (tb_offset t + 4 * Z.of_nat i) 4 = le_enc 4 o).
      { assert (E1 : sub F (tb_offset t + 4 * Z.of_nat i) 4 = sub bs (4 * Z.of_nat i) 4).
        { rewrite <- Hsub. symmetry. apply sub_sub; lia. }
        rewrite E1, Hc. apply nth_error_split in Ho. destruct Ho as (l1 & l2 & -> & Hl1).
        rewrite map_app, concat_app. cbn [map concat].
        apply sub_app; [|now rewrite le_enc_length].
        rewrite (concat_le_length l1). lia. }
      rewrite E, le_val_enc. subst o. 
      assert (Hpre : Z.of_nat (length (cstrs pre)) < 2 ^ 32).
      { assert (length (sp_data q) = (length (cstrs pre) + length (cstrs (s :: post)))%nat)
          by (rewrite Hdata, Hk, cstrs_app, app_length; reflexivity). lia. }
      rewrite wrap_u_id by (unfold in_u; lia). rewrite Z.mod_small; [reflexivity|].
      change (256 ^ Z.of_nat 4) with (2 ^ 32). lia. }
    cbn [In]. intros l t [X|[X|[X|[X|[]]]]]; injection X as <- <-.
    + eapply G; [exact Hqn|now rewrite On|rewrite On; lia].
    + eapply G; [exact Hqt|now rewrite Ot|rewrite Ot; lia].
    + eapply G; [exact Hqr|now rewrite Or|rewrite Or; lia].
    + eapply G; [exact Hqs|now rewrite Os|rewrite Os; lia].
Qed.

(** * String pools *)

Definition pinv (default : option str) (p : strings) : Prop :=
  (forall s i, sm_find (st_map p) s = Some i -> 0 <= i /\ nth_error (st_list p) (Z.to_nat i) = Some s) /\
  (forall s, In s (st_list p) -> exists i, sm_find (st_map p) s = Some i) /\
  match default with Some d => nth_error (st_list p) 0 = Some d | None => True end.

Lemma nth_error_snoc {A} (l : list A) x : nth_error (l ++ [x]) (length l) = Some x.
Proof. rewrite nth_error_app2, Nat.sub_diag by lia. reflexivity. Qed.
Lemma nth_error_keep {A} (l l' : list A) i x : nth_error l i = Some x -> nth_error (l ++ l') i = Some x.
Proof. intros H. rewrite nth_error_app1; [assumption|]. apply nth_error_Some. congruence. Qed.

Lemma pinv_push default p s : pinv default p -> Z.of_nat (length (st_list p)) < 2 ^ 32 ->
  pinv default {| st_list := st_list p ++ [s];
                  st_map := sm_insert s (wrap_u 32 (Z.of_nat (length (st_list p)))) (st_map p) |}.
Proof.
  intros (H1 & H2 & H3) Hlen. rewrite wrap_u_id by (unfold in_u; lia). split; [|split].
  - intros t i. cbn [st_list st_map]. rewrite find_insert. destruct (str_eqb_spec s t) as [<-|_].
    + intros [= <-]. split; [lia|]. rewrite Nat2Z.id. apply nth_error_snoc.
    + intros H. apply H1 in H as (H & H'). split; [assumption|]. now apply nth_error_keep.
  - intros t. cbn [st_list st_map]. rewrite in_app_iff, find_insert. destruct (str_eqb_spec s t) as [<-|Hn]; [eauto|].
    intros [H|[H|[]]]; [auto|congruence].
  - destruct default; [|exact I]. cbn [st_list]. now apply nth_error_keep.
Qed.

Lemma decode_loop_inv buf offsets : forall acc p,
  pinv None acc -> Z.of_nat (length (st_list acc) + length offsets) < 2 ^ 32 ->
  decode_from_loop buf offsets (length (st_list acc)) acc = Ok p ->
  pinv None p /\ length (st_list p) = (length (st_list acc) + length offsets)%nat.
Proof.
  induction offsets as [|o os IH]; intros acc p Hi Hlen H; cbn [decode_from_loop length] in *.
  - injection H as <-. split; [assumption|lia].
  - destruct (dec_cstr _) as [[s r]|]; [|discriminate].
    set (acc' := {| st_list := st_list acc ++ [s]; st_map := _ |}) in H.
    assert (L : length (st_list acc') = S (length (st_list acc))) by (cbn; rewrite app_length; cbn; lia).
    specialize (IH acc' p). rewrite L in IH. destruct IH as (G & G'); [| |assumption|].
    + apply pinv_push; [assumption|lia].
    + lia.
    + split; [assumption|lia].
Qed.

Lemma pinv_empty : pinv None empty_strings.
Proof. split; [|split]; cbn; [discriminate|tauto|exact I]. Qed.

Lemma decode_length buf offsets : forall idx acc p, decode_from_loop buf offsets idx acc = Ok p ->
  length (st_list p) = (length (st_list acc) + length offsets)%nat.
Proof.
  induction offsets as [|o os IH]; intros idx acc p H; cbn [decode_from_loop length] in *.
  - injection H as <-. lia.
  - destruct (dec_cstr _) as [[s r]|]; [|discriminate]. apply IH in H. rewrite H. cbn [st_list].
    rewrite app_length. cbn. lia.
Qed.

Lemma pool_start_inv default p : pool_start default p -> Z.of_nat (length (st_list p)) < 2 ^ 32 -> pinv default p.
Proof.
  intros [Hs Hd] Hlen.
  assert (H : pinv None p).
  { destruct Hs as [->|(buf & os & H)]; [apply pinv_empty|].
    unfold decode_from in H. pose proof (decode_length _ _ _ _ _ H) as L. cbn [st_list empty_strings length] in L.
    change 0%nat with (length (st_list empty_strings)) in H.
    eapply decode_loop_inv in H; [apply H|apply pinv_empty|cbn; lia]. }
  destruct H as (H1 & H2 & _). split; [|split]; assumption.
Qed.

Lemma add_spec default p s : pinv default p -> Z.of_nat (length (st_list p)) < 2 ^ 32 ->
  let r := st_add default p s in
  pinv default (fst r) /\ (length (st_list (fst r)) <= S (length (st_list p)))%nat /\
  (exists l, st_list (fst r) = st_list p ++ l) /\
  (forall t i, sm_find (st_map p) t = Some i -> sm_find (st_map (fst r)) t = Some i) /\
  (if match default with Some d => str_eqb d s | None => false end then snd r = 0
   else sm_find (st_map (fst r)) s = Some (snd r)).
Proof.
  intros Hp Hlen. unfold st_add. cbv zeta.
  destruct (match default with Some d => str_eqb d s | None => false end) eqn:Ed.
  - cbn [fst snd]. split; [assumption|]. split; [lia|]. split; [exists []; now rewrite app_nil_r|]. split; [auto|reflexivity].
  - destruct (sm_find (st_map p) s) as [i|] eqn:Ef; cbn [fst snd].
    + split; [assumption|]. split; [lia|]. split; [exists []; now rewrite app_nil_r|]. split; [auto|assumption].
    + split; [now apply pinv_push|]. cbn [st_list st_map]. rewrite app_length. cbn [length].
      split; [lia|]. split; [eauto|]. split.
      * intros t i Ht. rewrite find_insert. destruct (str_eqb_spec s t) as [<-|]; [congruence|assumption].
      * rewrite find_insert. destruct (str_eqb_spec s s); [reflexivity|congruence].
Qed.

Lemma add_all_spec default l : forall p, pinv default p -> Z.of_nat (length (st_list p) + length l) < 2 ^ 32 ->
  let r := add_all default p l in
  pinv default r /\ (length (st_list r) <= length (st_list p) + length l)%nat /\
  (exists l', st_list r = st_list p ++ l') /\
  (forall t i, sm_find (st_map p) t = Some i -> sm_find (st_map r) t = Some i).
Proof.
  induction l as [|s l IH]; intros p Hp Hlen; cbn [add_all length] in *; cbv zeta.
  - split; [assumption|]. split; [lia|]. split; [exists []; now rewrite app_nil_r|auto].
  - destruct (add_spec default p s Hp ltac:(lia)) as (A1 & A2 & (l1 & A3) & A4 & _).
    destruct (IH (fst (st_add default p s)) A1 ltac:(lia)) as (B1 & B2 & (l2 & B3) & B4).
    split; [assumption|]. split; [lia|]. split; [|auto].
    exists (l1 ++ l2). now rewrite B3, A3, app_assoc.
Qed.

Lemma get_keep default p l' m i t : st_get default p i = inl t ->
  st_get default {| st_list := st_list p ++ l'; st_map := m |} i = inl t.
Proof.
  unfold st_get. cbn [st_list]. destruct default as [d|]; [destruct (i =? 0); [auto|]|];
  (destruct (nth_error (st_list p) (Z.to_nat i)) eqn:E; [|discriminate]; intros [= ->];
   now rewrite (nth_error_keep _ _ _ _ E)).
Qed.

Lemma strings_history_lemma default p0 l1 s l2 :
  pool_start default p0 -> Z.of_nat (length (st_list p0) + length (l1 ++ s :: l2)) < 2 ^ 32 ->
  let p1 := add_all default p0 l1 in
  let '(p2, i) := st_add default p1 s in
  let p3 := add_all default p2 l2 in
  st_get default p3 i = inl s /\
  st_add default p3 s = (p3, i) /\
  (forall j t, st_get default p1 j = inl t -> st_get default p3 j = inl t) /\
  (default <> Some s -> st_get_index p3 s = Some i).
Proof.
  intros Hs Hlen. rewrite app_length in Hlen. cbn [length] in Hlen.
  pose proof (pool_start_inv _ _ Hs ltac:(lia)) as Hi.
  destruct (add_all_spec default l1 p0 Hi ltac:(lia)) as (A1 & A2 & (x1 & A3) & A4).
  cbv zeta. set (p1 := add_all default p0 l1) in *.
  destruct (add_spec default p1 s A1 ltac:(lia)) as (B1 & B2 & (x2 & B3) & B4 & B5).
  destruct (st_add default p1 s) as [p2 i] eqn:Eadd. cbn [fst snd] in *.
  destruct (add_all_spec default l2 p2 B1 ltac:(lia)) as (C1 & C2 & (x3 & C3) & C4).
  set (p3 := add_all default p2 l2) in *.
  assert (Hkeep : forall j t, st_get default p1 j = inl t -> st_get default p3 j = inl t).
  { intros j t H. destruct p3 as [l3 m3]. cbn in C3. rewrite C3, B3, <- app_assoc. now apply get_keep. }
  destruct (match default with Some d => str_eqb d s | None => false end) eqn:Ed.
  - destruct default as [d|]; [|discriminate]. destruct (str_eqb_spec d s) as [->|]; [|discriminate]. subst i.
    split; [reflexivity|]. split; [|split; [assumption|congruence]].
    unfold st_add. destruct (str_eqb_spec s s); [reflexivity|congruence].
  - pose proof (C4 _ _ B5) as Hf. pose proof (proj1 C1 _ _ Hf) as (Hi0 & Hn).
    split; [|split; [|split; [assumption|intros _; exact Hf]]].
    + unfold st_get. rewrite Hn. destruct default as [d|]; [|reflexivity].
      destruct (i =? 0) eqn:E0; [|reflexivity].
      assert (i = 0) by lia. subst i. destruct C1 as (_ & _ & C1). change (Z.to_nat 0) with 0%nat in Hn. congruence.
    + unfold st_add. rewrite Ed, Hf. reflexivity.
Qed.

(** * Corrupt headers *)
Lemma load_inv file b : load file = Ok b ->
  exists h rest, dec_header file = Ok (h, rest) /\ bn_header b = h.
Proof.
  unfold load. destruct (dec_header file) as [[h r]|e] eqn:E; cbn; [|discriminate].
  intros H. exists h, r. split; [reflexivity|].
  destruct (dec_pool file h r) as [[p r']|]; [|discriminate]. injection H as <-. reflexivity.
Qed.

(** * Round trip with the reverse index *)
Lemma load_saved_pool b old file b' : meta_ok (bn_header b) -> pool_ok (bn_pool b) ->
  save b old = Ok file -> Z.of_nat (length file) < 2 ^ 32 -> load file = Ok b' ->
  bn_pool b' = saved_pool (bn_pool b).
Proof.
  intros Hm Hp Hs Hlen Hl. pose proof Hp as (_ & _ & _ & _ & ds & Hds & Hok).
  destruct (save_layout b old _ ds Hds) as (q & Hs' & Hq).
  { eapply Forall_impl; [|exact Hok]. apply enc_ok_of_ok. }
  assert (E : file = sp_all q ++ skipn (length (sp_all q)) old) by congruence. subst file.
  rewrite app_length in Hlen.
  rewrite (load_saved b ds q _) in Hl by (try assumption; lia). injection Hl as <-. reflexivity.
Qed.

Lemma index_after_load p sel s : In sel [pl_names; pl_tweakdb; pl_resources; pl_strings] ->
  index_exact (sel p) -> st_get_index (sel (saved_pool p)) s = st_get_index (sel p) s.
Proof.
  intros Hin He. apply exact_unique; [assumption| |].
  - destruct He as (H1 & H2 & _). cbn in Hin.
    destruct Hin as [<-|[<-|[<-|[<-|[]]]]]; cbn; now apply index_exact_loaded.
  - cbn in Hin. destruct Hin as [<-|[<-|[<-|[<-|[]]]]]; reflexivity.
Qed.

Lemma roundtrip_full_lemma b old : meta_ok (bn_header b) -> pool_ok (bn_pool b) ->
  exists file, save b old = Ok file /\
    (Z.of_nat (length file) < 2 ^ 32 ->
     exists b', load file = Ok b' /\ same_meta (bn_header b) (bn_header b') /\
       pool_saved (bn_pool b) (bn_pool b') /\
       (Forall (fun d => any_canonical (df_value d)) (pl_defs (bn_pool b)) ->
          pl_defs (bn_pool b') = pl_defs (bn_pool b)) /\
       (forall sel, In sel [pl_names; pl_tweakdb; pl_resources; pl_strings] -> index_exact (sel (bn_pool b)) ->
          forall s, st_get_index (sel (bn_pool b')) s = st_get_index (sel (bn_pool b)) s)).
Proof.
  intros Hm Hp. destruct (bundle_roundtrip_lemma b old Hm Hp) as (file & Hs & Hl).
  exists file. split; [assumption|]. intros Hlen. destruct (Hl Hlen) as (b' & H1 & H2 & H3).
  exists b'. split; [assumption|]. split; [assumption|]. split; [assumption|]. split.
  - intros Hc. destruct (bundle_unchanged_lemma b old Hm Hp Hc) as (file' & Hs' & Hl').
    assert (file' = file) by congruence. subst file'. destruct (Hl' Hlen) as (b'' & E & E').
    assert (b'' = b') by congruence. now subst.
  - intros sel Hin He s. rewrite (load_saved_pool b old file b') by assumption. now apply index_after_load.
Qed.

Lemma cstrs_split_eq p1 : forall p2 (s1 s2 : str) q1 q2, p1 ++ s1 :: q1 = p2 ++ s2 :: q2 ->
  length (cstrs p1) = length (cstrs p2) -> s1 = s2.
Proof.
  induction p1 as [|a p1 IH]; intros [|b p2] s1 s2 q1 q2 E L; cbn [app] in E.
  - congruence.
  - unfold cstrs in L. cbn [map concat length] in L. rewrite !app_length in L. cbn in L. lia.
  - unfold cstrs in L. cbn [map concat length] in L. rewrite !app_length in L. cbn in L. lia.
  - injection E as -> E. apply (IH p2 s1 s2 q1 q2 E). unfold cstrs in *. cbn [map concat] in L.
    rewrite !app_length in L. lia.
Qed.

Lemma NoDup_split_unique {A} (p1 : list A) : forall p2 s q1 q2, NoDup (p1 ++ s :: q1) ->
  p1 ++ s :: q1 = p2 ++ s :: q2 -> p1 = p2 /\ q1 = q2.
Proof.
  induction p1 as [|a p1 IH]; intros [|b p2] s q1 q2 Hn E; cbn [app] in *.
  - injection E as <-. auto.
  - injection E as <- E. inversion Hn as [|? ? Hni _]. exfalso. apply Hni. rewrite E. apply in_elt.
  - injection E as -> E. inversion Hn as [|? ? Hni _]. exfalso. apply Hni. apply in_elt.
  - injection E as <- E. inversion Hn as [|? ? _ Hn']. destruct (IH p2 s q1 q2 Hn' E) as [-> ->]. auto.
Qed.
