(** Loading what was saved. *)
From Coq Require Import ZArith NArith List Bool Lia ZifyBool ZifyNat ZifyN.
From Verif Require Import Bytes BytesFacts Bytecode BytecodeFacts Definitions FlagFacts DefinitionsSpec
  DefinitionsFacts Bundle BundleFacts BundleSpec BundleLayout.
Import ListNotations.
Open Scope Z_scope.

Lemma u32len_id {A} (l : list A) : Z.of_nat (length l) < 2 ^ 32 -> u32len l = Z.of_nat (length l).
Proof. intros H. unfold u32len. apply wrap_u_id. unfold in_u. lia. Qed.

Lemma sp_header_ok b ds q : meta_ok (bn_header b) -> saved_as b ds q -> header_ok (sp_header q).
Proof.
  intros (H1 & H2 & H3 & H4 & H5) Hs. destruct (sa_header _ _ _ Hs) as (hb0 & _ & ->).
  unfold header_ok. cbn [hd_version hd_flags hd_timestamp hd_unk3 hd_hash hd_chunks hd_data hd_names hd_tweakdb
       hd_resources hd_strings hd_definitions].
  do 4 (split; [assumption|]). split; [apply crc32_range|]. split; [assumption|].
  repeat split; try apply crc32_range; try (apply wrap_u_range; lia); try apply (wrap_u_range 32); lia.
Qed.

(** Pieces of a concatenation. *)
Lemma dec_vec_len {A} (p : parser A) n : dec_vec p (Z.of_nat n) = dec_vec_n p n.
Proof. unfold dec_vec. now rewrite Nat2Z.id. Qed.

Definition loaded_strings (l : list str) : strings := {| st_list := l; st_map := index_map l 0 [] |}.

Lemma offsets_read ks m buf l bs os rest k (K : strings -> parser k) :
  dedup_inv ks m buf -> Z.of_nat (length buf) < 2 ^ 32 -> Forall text_ok l ->
  offsets_part l m bs os -> Z.of_nat (length l) < 2 ^ 32 ->
  (o <- dec_vec dec_u32 (u32len l) ;; s <- plift (decode_from buf o) ;; K s) (bs ++ rest)
  = K (loaded_strings l) rest.
Proof.
  intros Hd Hb Ht (Hlen & HF & Hc & Hr) Hl. rewrite u32len_id by assumption. rewrite dec_vec_len.
  unfold pbind. rewrite Hr. unfold plift.
  rewrite (decode_from_ok buf l os); [reflexivity|].
  clear Hr Hc Hlen Hl. induction HF as [|s o l os Hso HF IH]; [constructor|].
  inversion Ht as [|? ? Hs Ht']; subst. constructor; [|now apply IH].
  destruct Hs as [Hn Hu]. destruct (read_dedup ks m buf s o Hd Hb Hn Hu Hso) as [_ H]. exact H.
Qed.

Lemma reads_def_headers ds bss pos :
  Forall definition_ok ds -> 
  Forall (fun h => rt enc_def_header dec_def_header h) (headers_of (combine ds bss) pos).
Proof.
  revert bss pos; induction ds as [|d ds IH]; intros bss pos H; [constructor|].
  destruct bss as [|bs bss]; [constructor|]. inversion H as [|? ? Hd Hds]; subst.
  cbn [combine headers_of]. constructor; [|now apply IH].
  destruct Hd as (H1 & H2 & H3 & H4 & H5 & _).
  apply reads_def_header; cbn [header_of dh_name dh_parent dh_offset dh_size dh_type dh_unk1 dh_unk2 dh_unk3];
    try assumption; try (apply wrap_u_range; lia). apply def_tag_range.
Qed.

Lemma headers_of_length ds bss pos : length ds = length bss ->
  length (headers_of (combine ds bss) pos) = length ds.
Proof.
  revert bss pos; induction ds as [|d ds IH]; intros [|bs bss] pos H; cbn in *; try lia; try discriminate.
  now rewrite IH by lia.
Qed.

Definition saved_def (d : definition) : definition :=
  {| df_name := df_name d; df_parent := df_parent d; df_unk1 := df_unk1 d; df_unk2 := df_unk2 d;
     df_unk3 := df_unk3 d; df_value := saved_any (df_value d) |}.

Lemma dec_definitions_ok ds : forall bss pre tail,
  Forall definition_ok ds -> Forall2 (fun d bs => enc_any (df_value d) = Ok bs) ds bss ->
  Z.of_nat (length pre + length (concat bss)) < 2 ^ 32 ->
  dec_definitions (pre ++ concat bss ++ tail) (headers_of (combine ds bss) (length pre)) = Ok (map saved_def ds).
Proof.
  induction ds as [|d ds IH]; intros bss pre tail Hok HF Hlen; inversion HF as [|? bs ? bss' Hd Hds]; subst; [reflexivity|].
  inversion Hok as [|? ? Hdo Hok']; subst. cbn [combine headers_of dec_definitions concat] in *.
  rewrite app_length in Hlen.
  unfold dec_definition. cbn [header_of dh_offset dh_type dh_name dh_parent dh_unk1 dh_unk2 dh_unk3].
  rewrite wrap_u_id by (unfold in_u; lia). rewrite Nat2Z.id.
  rewrite skipn_app, skipn_all, Nat.sub_diag. cbn [skipn app].
  destruct Hdo as (_ & _ & _ & _ & _ & Hany & Hsrc).
  destruct (reads_any _ Hany Hsrc) as (bs' & Hb' & Hr). assert (bs' = bs) by congruence. subst bs'.
  rewrite <- app_assoc, Hr.
  specialize (IH bss' (pre ++ bs) tail Hok' Hds). rewrite app_length, <- app_assoc in IH.
  rewrite IH by lia. reflexivity.
Qed.

Lemma definition_saved_lemma d : definition_saved d (saved_def d).
Proof. unfold definition_saved. cbn. do 5 (split; [reflexivity|]). apply any_saved_lemma. Qed.

Definition saved_pool (p : pool) : pool :=
  {| pl_names := loaded_strings (st_list (pl_names p)); pl_tweakdb := loaded_strings (st_list (pl_tweakdb p));
     pl_resources := loaded_strings (st_list (pl_resources p)); pl_strings := loaded_strings (st_list (pl_strings p));
     pl_defs := map saved_def (pl_defs p) |}.

Lemma default_saved : saved_def default_definition = default_definition.
Proof. reflexivity. Qed.

Lemma pool_saved_lemma p : pool_saved p (saved_pool p).
Proof.
  unfold pool_saved. cbn. do 4 (split; [reflexivity|]).
  induction (pl_defs p); cbn; constructor; [apply definition_saved_lemma|assumption].
Qed.

Lemma enc_ok_of_ok d : definition_ok d -> exists bs, enc_any (df_value d) = Ok bs.
Proof. intros (_ & _ & _ & _ & _ & H & _). now apply enc_any_ok. Qed.

Lemma load_saved b ds q tail :
  meta_ok (bn_header b) -> pool_ok (bn_pool b) -> pl_defs (bn_pool b) = default_definition :: ds ->
  Forall definition_ok ds ->
  saved_as b ds q -> Z.of_nat (length (sp_all q)) < 2 ^ 32 ->
  load (sp_all q ++ tail) = Ok {| bn_header := sp_header q; bn_pool := saved_pool (bn_pool b) |}.
Proof.
  intros Hm (Hn & Ht & Hr & Hs & _) Hd0 Hds Hq Hlen. set (p := bn_pool b) in *.
  unfold load. unfold sp_all in Hlen |- *.
  rewrite !app_length in Hlen.
  destruct (reads_header _ (sp_header_ok _ _ _ Hm Hq)) as (hb & Hhb & Hrh).
  assert (E : hb = sp_hbytes q) by (pose proof (sa_henc _ _ _ Hq); congruence). subst hb.
  rewrite <- app_assoc, Hrh.
  pose proof (sa_dedup _ _ _ Hq) as Hdd.
  pose proof (sa_n _ _ _ Hq) as Hqn. pose proof (sa_t _ _ _ Hq) as Hqt.
  pose proof (sa_r _ _ _ Hq) as Hqr. pose proof (sa_s _ _ _ Hq) as Hqs.
  pose proof (proj1 Hqn) as Ln. pose proof (proj1 Hqt) as Lt. pose proof (proj1 Hqr) as Lr. pose proof (proj1 Hqs) as Ls.
  pose proof (sa_dhlen _ _ _ Hq) as Ldh. pose proof (sa_hlen _ _ _ Hq) as Lh.
  destruct (sa_header _ _ _ Hq) as (hb0 & _ & Hhead).
  assert (Hbss : length ds = length (sp_bss q)).
  { pose proof (sa_bss _ _ _ Hq) as HF. clear - HF. induction HF; cbn; congruence. }
  fold p in Hqn, Hqt, Hqr, Hqs, Ln, Lt, Lr, Ls, Hhead.
  assert (Hfile : forall file, file = (sp_hbytes q ++ sp_data q ++ sp_n q ++ sp_t q ++ sp_r q ++ sp_dh q ++ sp_s q)
        ++ concat (sp_bss q) ++ tail ->
     dec_definitions file (headers_of (combine ds (sp_bss q)) (defs_start q)) = Ok (map saved_def ds)).
  { intros file ->.
    replace (defs_start q) with (length (sp_hbytes q ++ sp_data q ++ sp_n q ++ sp_t q ++ sp_r q ++ sp_dh q ++ sp_s q)).
    - apply dec_definitions_ok; [assumption|apply (sa_bss _ _ _ Hq)|]. rewrite !app_length. lia.
    - rewrite !app_length, Lh. unfold defs_start. lia. }
  unfold dec_pool. rewrite Hhead. cbn [hd_data hd_names hd_tweakdb hd_resources hd_strings hd_definitions new_table tb_count].
  rewrite (u32len_id (sp_data q)) by lia.
  rewrite <- !app_assoc. unfold pbind at 1. rewrite take_bytes_app by reflexivity.
  rewrite (offsets_read (sp_keys q) (sp_map q) (sp_data q) (st_list (pl_names p)) (sp_n q) (sp_no q)) by (assumption || lia).
  rewrite (offsets_read (sp_keys q) (sp_map q) (sp_data q) (st_list (pl_tweakdb p)) (sp_t q) (sp_to q)) by (assumption || lia).
  rewrite (offsets_read (sp_keys q) (sp_map q) (sp_data q) (st_list (pl_resources p)) (sp_r q) (sp_ro q)) by (assumption || lia).
  rewrite wrap_u_id by (unfold in_u; lia). rewrite dec_vec_len.
  assert (Hdhr : reads (enc_slice enc_def_header (default_def_header :: headers_of (combine ds (sp_bss q)) (defs_start q)))
     (dec_vec_n dec_def_header (S (length ds))) (default_def_header :: headers_of (combine ds (sp_bss q)) (defs_start q))).
  { replace (S (length ds)) with (length (default_def_header :: headers_of (combine ds (sp_bss q)) (defs_start q)))
      by (cbn [length]; now rewrite headers_of_length).
    apply reads_slice. constructor; [|now apply reads_def_headers].
    apply reads_def_header; cbn; unfold idx_ok, in_u; lia. }
  destruct Hdhr as (dhb & Hdhb & Hdhr). rewrite (sa_dh _ _ _ Hq) in Hdhb.
  assert (dhb = sp_dh q) by congruence. subst dhb.
  unfold pbind at 1. rewrite Hdhr.
  rewrite (offsets_read (sp_keys q) (sp_map q) (sp_data q) (st_list (pl_strings p)) (sp_s q) (sp_so q)) by (assumption || lia).
  unfold pbind, plift. cbn [skipn].
  rewrite Hfile by (rewrite <- !app_assoc; reflexivity). unfold pret.
  unfold saved_pool. fold p. rewrite Hd0. cbn [map]. rewrite default_saved. reflexivity.
Qed.

Lemma bundle_roundtrip_lemma b old : meta_ok (bn_header b) -> pool_ok (bn_pool b) ->
  exists file, save b old = Ok file /\
    (Z.of_nat (length file) < 2 ^ 32 ->
     exists b', load file = Ok b' /\ same_meta (bn_header b) (bn_header b') /\
       pool_saved (bn_pool b) (bn_pool b')).
Proof.
  intros Hm Hp. pose proof Hp as (_ & _ & _ & _ & ds & Hds & Hok).
  destruct (save_layout b old _ ds Hds) as (q & Hs & Hq).
  { eapply Forall_impl; [|exact Hok]. apply enc_ok_of_ok. }
  eexists. split; [exact Hs|]. intros Hlen. rewrite app_length in Hlen.
  eexists. split; [apply (load_saved b ds); try assumption; lia|]. split.
  - cbn [bn_header]. destruct (sa_header _ _ _ Hq) as (hb0 & _ & ->). unfold same_meta. cbn. auto.
  - cbn [bn_pool]. apply pool_saved_lemma.
Qed.

(** Canonical pools come back exactly (as far as strings and definitions go). *)
Lemma bundle_unchanged_lemma b old : meta_ok (bn_header b) -> pool_ok (bn_pool b) ->
  Forall (fun d => any_canonical (df_value d)) (pl_defs (bn_pool b)) ->
  exists file, save b old = Ok file /\
    (Z.of_nat (length file) < 2 ^ 32 ->
     exists b', load file = Ok b' /\ pl_defs (bn_pool b') = pl_defs (bn_pool b)).
Proof.
  intros Hm Hp Hc. destruct (bundle_roundtrip_lemma b old Hm Hp) as (file & Hs & Hl).
  exists file. split; [assumption|]. intros Hlen. destruct (Hl Hlen) as (b' & H1 & _ & H2).
  exists b'. split; [assumption|]. destruct H2 as (_ & _ & _ & _ & HF). revert Hc.
  generalize dependent (pl_defs (bn_pool b')). intros l' HF. induction HF as [|d d' l l' Hd HF IH]; [reflexivity|].
  intros Hc. inversion Hc as [|? ? Hc1 Hc2]; subst. f_equal; [|now apply IH].
  destruct Hd as (E1 & E2 & E3 & E4 & E5 & E6). apply any_saved_canonical in E6; [|assumption].
  destruct d, d'; cbn in *; congruence.
Qed.

(** The reverse index after loading. *)
Lemma index_map_find l : forall i m s,
  (exists j, nth_error l j = Some s /\ (forall k, nth_error l k = Some s -> (k <= j)%nat) /\
     sm_find (index_map l i m) s = Some (wrap_u 32 (Z.of_nat (i + j)))) \/
  (~ In s l /\ sm_find (index_map l i m) s = sm_find m s).
Proof.
  induction l as [|t l IH]; intros i m s; cbn [index_map].
  - right. split; [intros []|reflexivity].
  - destruct (IH (S i) (sm_insert t (wrap_u 32 (Z.of_nat i)) m) s) as [(j & H1 & H2 & H3)|[H1 H2]].
    + left. exists (S j). split; [assumption|]. split.
      * intros [|k] Hk; [lia|]. cbn in Hk. specialize (H2 k Hk). lia.
      * rewrite H3. do 3 f_equal. lia.
    + rewrite H2, find_insert. destruct (str_eqb_spec t s) as [->|N].
      * left. exists O. split; [reflexivity|]. split.
        -- intros [|k] Hk; [lia|]. exfalso. apply H1. cbn in Hk. eapply nth_error_In; eassumption.
        -- do 3 f_equal. lia.
      * right. split; [intros [E|E]; contradiction|reflexivity].
Qed.

Lemma index_exact_loaded l : NoDup l -> Z.of_nat (length l) < 2 ^ 32 -> index_exact (loaded_strings l).
Proof.
  intros Hnd Hlen. split; [assumption|]. split; [assumption|]. cbn. intros s i.
  destruct (index_map_find l 0 [] s) as [(j & H1 & _ & H3)|[H1 H2]].
  - assert (Hj : (j < length l)%nat) by (apply nth_error_Some; congruence).
    rewrite H3. rewrite wrap_u_id by (unfold in_u; lia). cbn [plus]. split.
    + intros [= <-]. split; [lia|]. now rewrite Nat2Z.id.
    + intros [Hi Hn]. f_equal.
      rewrite NoDup_nth_error in Hnd. specialize (Hnd j (Z.to_nat i) Hj ltac:(congruence)). lia.
  - rewrite H2. split; [discriminate|]. intros [_ Hn]. exfalso. apply H1. eapply nth_error_In; eassumption.
Qed.

Lemma index_survives_lemma p p' : pool_saved p p' ->
  forall (sel : pool -> strings), In sel [pl_names; pl_tweakdb; pl_resources; pl_strings] ->
  st_list (sel p') = st_list (sel p).
Proof.
  intros (H1 & H2 & H3 & H4 & _) sel Hin. cbn in Hin.
  destruct Hin as [<-|[<-|[<-|[<-|[]]]]]; assumption.
Qed.

Lemma exact_unique p p' s : index_exact p -> index_exact p' -> st_list p' = st_list p ->
  st_get_index p' s = st_get_index p s.
Proof.
  intros (_ & _ & H) (_ & _ & H') E. unfold st_get_index.
  destruct (sm_find (st_map p) s) as [i|] eqn:F.
  - apply H in F. apply H'. now rewrite E.
  - destruct (sm_find (st_map p') s) as [i|] eqn:F'; [|reflexivity].
    apply H' in F'. rewrite E in F'. apply H in F'. congruence.
Qed.
