(** Script bundle properties: C05, C06, C07, C08, C09. *)
From Coq Require Import ZArith NArith List Bool Lia.
From Verif Require Import Bytes BytesFacts Bytecode BytecodeFacts Definitions FlagFacts DefinitionsSpec
  DefinitionsFacts Bundle BundleFacts BundleSpec BundleLayout BundleLoad BundleThms.
Import ListNotations.
Open Scope Z_scope.

(** * C05: save/load round trip *)

(** Saving a well-formed bundle into any output (whatever it held before)
    succeeds; if the file stays below 4 GiB, loading it gives back the metadata,
    the four string lists, and every definition under its index.  Definitions
    whose presence flags match their content come back identical, and name
    lookups answer as before. *)
Theorem C05_bundle_roundtrip : forall b old, meta_ok (bn_header b) -> pool_ok (bn_pool b) ->
  exists file, save b old = Ok file /\
    (Z.of_nat (length file) < 2 ^ 32 ->
     exists b', load file = Ok b' /\ same_meta (bn_header b) (bn_header b') /\
       pool_saved (bn_pool b) (bn_pool b') /\
       (Forall (fun d => any_canonical (df_value d)) (pl_defs (bn_pool b)) ->
          pl_defs (bn_pool b') = pl_defs (bn_pool b)) /\
       (forall sel, In sel [pl_names; pl_tweakdb; pl_resources; pl_strings] -> index_exact (sel (bn_pool b)) ->
          forall s, st_get_index (sel (bn_pool b')) s = st_get_index (sel (bn_pool b)) s)).
Proof. exact roundtrip_full_lemma. Qed.
Print Assumptions C05_bundle_roundtrip.

(** A bundle with strings in every pool and several definitions. *)
Definition meta0 : header :=
  let t := {| tb_offset := 0; tb_count := 0; tb_hash := 0 |} in
  {| hd_version := 14; hd_flags := 0; hd_timestamp := 0x123456789A; hd_unk3 := 5; hd_hash := 0; hd_chunks := 0;
     hd_data := t; hd_names := t; hd_tweakdb := t; hd_resources := t; hd_strings := t; hd_definitions := t |}.
Definition txt1 : str := [x41; x62].
Definition txt2 : str := [x49; x6e; x74].
Definition pool0 : pool :=
  {| pl_names := {| st_list := [none_str; txt1; txt2]; st_map := [(none_str, 0); (txt1, 1); (txt2, 2)] |};
     pl_tweakdb := {| st_list := [txt2]; st_map := [(txt2, 0)] |};
     pl_resources := {| st_list := []; st_map := [] |};
     pl_strings := {| st_list := [[]; txt1]; st_map := [([], 0); (txt1, 1)] |};
     pl_defs := [default_definition;
       {| df_name := 2; df_parent := 0; df_unk1 := 0; df_unk2 := 0; df_unk3 := 0; df_value := DType TPrim |};
       {| df_name := 1; df_parent := 0; df_unk1 := 0; df_unk2 := 0; df_unk3 := 0;
          df_value := DEnumValue (-7) |};
       {| df_name := 1; df_parent := 0; df_unk1 := 0; df_unk2 := 0; df_unk3 := 0;
          df_value := DClass {| cl_visibility := Public; cl_flags := 32; cl_base := 0; cl_functions := [];
                                cl_fields := [4; 9]; cl_overrides := [] |} |}] |}.
Definition bundle0 : bundle := {| bn_header := meta0; bn_pool := pool0 |}.

Example C05_example : meta_ok (bn_header bundle0) /\ pool_ok (bn_pool bundle0) /\
  Forall (fun d => any_canonical (df_value d)) (pl_defs (bn_pool bundle0)) /\
  index_exact (pl_names (bn_pool bundle0)) /\
  exists file, save bundle0 [] = Ok file /\ length file = 249%nat.
Proof.
  assert (N : forall s : str, forallb (fun b => negb (Z_of_byte b =? 0)) s = true -> nul_free s).
  { intros s H. apply Forall_forall. rewrite forallb_forall in H. intros x Hin. specialize (H _ Hin). lia. }
  split; [unfold meta_ok, in_u; cbn; lia|]. split; [|split; [|split]].
  - assert (T : forall l, forallb (fun s => forallb (fun b => negb (Z_of_byte b =? 0)) s && utf8_valid s) l = true ->
                          Forall text_ok l).
    { intros l H. apply Forall_forall. intros s Hs. rewrite forallb_forall in H. specialize (H s Hs).
      apply andb_prop in H as (H1 & H2). split; [now apply N|assumption]. }
    split; [apply T; reflexivity|]. split; [apply T; reflexivity|]. split; [apply T; reflexivity|].
    split; [apply T; reflexivity|].
    eexists. split; [reflexivity|].
    repeat constructor; cbn; unfold idx_ok, in_u, in_s; try lia.
  - cbn [pl_defs bundle0 bn_pool pool0].
    apply Forall_forall. intros d [<-|[<-|[<-|[<-|[]]]]]; cbn; try exact I.
    unfold class_canonical. cbn. repeat split; intros; try discriminate; try congruence.
  - split; [|split].
    + cbn. repeat constructor; cbn; intuition discriminate.
    + cbn. lia.
    + intros s i. cbn [st_list st_map sm_find bundle0 bn_pool pool0 pl_names]. split.
      * repeat match goal with |- context [str_eqb ?a ?b] => destruct (str_eqb_spec a b) as [<-|] end;
          intros HH; first [discriminate HH | injection HH as <-; (split; [lia|reflexivity])].
      * intros (Hi & H). destruct (Z.to_nat i) as [|[|[|n]]] eqn:E; cbn in H; try (destruct n; discriminate);
          injection H as <-; cbn; f_equal; lia.
  - eexists. split; [vm_compute; reflexivity|reflexivity].
Qed.

(** The condition that slot 0 exists is needed: the default header is written
    even for an empty definition list (ConstantPool::default), where it
    overwrites the string table. *)
Definition no_defs_bundle : bundle :=
  {| bn_header := meta0;
     bn_pool := {| pl_names := empty_strings; pl_tweakdb := empty_strings; pl_resources := empty_strings;
                   pl_strings := {| st_list := [txt1; txt2]; st_map := [(txt2, 1); (txt1, 0)] |};
                   pl_defs := [] |} |}.
Theorem C05_empty_definitions_refuted :
  exists b file b', save b [] = Ok file /\ load file = Ok b' /\
    st_list (pl_strings (bn_pool b')) <> st_list (pl_strings (bn_pool b)).
Proof.
  exists no_defs_bundle. eexists. eexists. split; [vm_compute; reflexivity|].
  split; [vm_compute; reflexivity|]. cbn. discriminate.
Qed.
Print Assumptions C05_empty_definitions_refuted.

(** * C06 and C08: file layout *)

(** Every table header describes its table, the tables follow each other without
    gaps or overlaps, the definitions fill the rest of the file, and all
    checksums are those of the ranges they describe (see [self_describing]). *)
Theorem C06_layout_self_describing : forall b, meta_ok (bn_header b) -> pool_ok (bn_pool b) ->
  exists file, save b [] = Ok file /\
    (Z.of_nat (length file) < 2 ^ 32 -> exists h, self_describing b file h).
Proof.
  intros b Hm Hp. destruct (layout_lemma b Hm Hp) as (file & Hs & Hl). exists file. split; [assumption|].
  intros Hlen. destruct (Hl Hlen) as (h & H & _). eauto.
Qed.
Print Assumptions C06_layout_self_describing.

(** Each distinct string is stored once, and every offset table entry of every
    pool points at the string it stands for. *)
Theorem C08_strings_stored_once : forall b, meta_ok (bn_header b) -> pool_ok (bn_pool b) ->
  exists file, save b [] = Ok file /\
    (Z.of_nat (length file) < 2 ^ 32 ->
     exists h, dec_header file = Ok (h, skipn 104 file) /\ strings_stored_once b file h).
Proof.
  intros b Hm Hp. destruct (layout_lemma b Hm Hp) as (file & Hs & Hl). exists file. split; [assumption|].
  intros Hlen. destruct (Hl Hlen) as (h & H & H'). exists h. split; [apply (sd_header _ _ _ H)|assumption].
Qed.
Print Assumptions C08_strings_stored_once.

(** So equal strings from different pools share the same offset. *)
Theorem C08_equal_strings_share_offset : forall b file h, strings_stored_once b file h ->
  let tables := [(st_list (pl_names (bn_pool b)), hd_names h); (st_list (pl_tweakdb (bn_pool b)), hd_tweakdb h);
                 (st_list (pl_resources (bn_pool b)), hd_resources h);
                 (st_list (pl_strings (bn_pool b)), hd_strings h)] in
  forall l1 t1 l2 t2, In (l1, t1) tables -> In (l2, t2) tables ->
  forall i j s1 s2, nth_error l1 i = Some s1 -> nth_error l2 j = Some s2 ->
    (le_val (sub file (tb_offset t1 + 4 * Z.of_nat i) 4) = le_val (sub file (tb_offset t2 + 4 * Z.of_nat j) 4) <->
     s1 = s2).
Proof.
  intros b file h (ks & Hnd & _ & _ & H). cbv zeta. intros l1 t1 l2 t2 H1 H2 i j s1 s2 Hi Hj.
  destruct (H _ _ H1 _ _ Hi) as (p1 & q1 & E1 & ->). destruct (H _ _ H2 _ _ Hj) as (p2 & q2 & E2 & ->).
  split.
  - intros HH. apply Nat2Z.inj in HH. eapply (cstrs_split_eq p1 p2 s1 s2 q1 q2); [congruence|exact HH].
  - intros <-. f_equal. f_equal. f_equal. f_equal.
    assert (p1 = p2 /\ q1 = q2) as [-> _]; [|reflexivity].
    apply (NoDup_split_unique p1 p2 s1 q1 q2); congruence.
Qed.
Print Assumptions C08_equal_strings_share_offset.

Example C06_crc_check_value : crc32 [x31; x32; x33; x34; x35; x36; x37; x38; x39] = 0xCBF43926.
Proof. reflexivity. Qed.
(** The hypotheses are met by [bundle0] (C05_example), whose names and strings
    pools share two of four distinct strings. *)
Example C08_example : exists file h, save bundle0 [] = Ok file /\ load file = Ok h /\
  tb_count (hd_data (bn_header h)) = 13 /\
  le_val (sub file (tb_offset (hd_names (bn_header h)) + 4) 4) = 5 /\
  le_val (sub file (tb_offset (hd_strings (bn_header h)) + 4) 4) = 5.
Proof.
  eexists. eexists. split; [vm_compute; reflexivity|]. split; [vm_compute; reflexivity|].
  repeat split.
Qed.

(** * C07: string pool lookups *)

(** Start with any pool as loaded from a file, or an empty one; for the name pool
    (the only one with a default string) index 0 must hold the default string, as
    in every shipped bundle.  After any additions, an index handed out keeps
    denoting its string, whatever is added later; adding again changes nothing. *)
Theorem C07_string_pool_stable : forall default p0 l1 s l2,
  pool_start default p0 -> Z.of_nat (length (st_list p0) + length (l1 ++ s :: l2)) < 2 ^ 32 ->
  let p1 := add_all default p0 l1 in
  let '(p2, i) := st_add default p1 s in
  let p3 := add_all default p2 l2 in
  st_get default p3 i = inl s /\
  st_add default p3 s = (p3, i) /\
  (forall j t, st_get default p1 j = inl t -> st_get default p3 j = inl t) /\
  (default <> Some s -> st_get_index p3 s = Some i).
Proof. exact strings_history_lemma. Qed.
Print Assumptions C07_string_pool_stable.

Example C07_example : pool_start (Some none_str) (loaded_strings [none_str; txt1]) /\
  st_add (Some none_str) (loaded_strings [none_str; txt1]) txt2 =
    ({| st_list := [none_str; txt1; txt2]; st_map := [(txt2, 2); (txt1, 1); (none_str, 0)] |}, 2).
Proof.
  split; [|reflexivity]. split; [|reflexivity]. right.
  exists [x41; x62; x00; x4e; x6f; x6e; x65; x00], [3; 0]. reflexivity.
Qed.

(** Without that condition it fails: a name added first to an empty name pool
    reads back as "None". *)
Theorem C07_empty_name_pool_refuted : exists s,
  let '(p, i) := st_add (Some none_str) empty_strings s in st_get (Some none_str) p i <> inl s.
Proof. exists txt1. cbn. discriminate. Qed.
Print Assumptions C07_empty_name_pool_refuted.

(** * C09: corrupt files *)

(** Only files starting with "REDS" load. *)
Theorem C09_wrong_magic_rejected : forall file b, load file = Ok b ->
  firstn 4 file = [x52; x45; x44; x53].
Proof.
  intros file b H. destruct (load_inv _ _ H) as (h & r & Hd & _).
  unfold dec_header in Hd. apply pbind_inv in Hd. destruct Hd as (m & i & Hm & Hd).
  destruct (m =? MAGIC) eqn:E; [|discriminate]. apply Z.eqb_eq in E. subst m.
  unfold dec_u32 in Hm. apply dec_u_inv in Hm. destruct Hm as (-> & _). reflexivity.
Qed.
Print Assumptions C09_wrong_magic_rejected.

(** Files shorter than the header are rejected. *)
Theorem C09_short_file_rejected : forall file b, load file = Ok b -> (104 <= length file)%nat.
Proof.
  intros file b H. destruct (load_inv _ _ H) as (h & r & Hd & _).
  unfold dec_header in Hd. apply pbind_inv in Hd. destruct Hd as (m & i & Hm & Hd).
  destruct (m =? MAGIC); [|discriminate]. unfold dec_table in Hd. cbn [negb] in Hd.
  unfold dec_u32, dec_u64 in *. apply dec_u_inv in Hm. destruct Hm as (-> & _).
  repeat match goal with
  | H : pbind _ _ _ = Ok _ |- _ => apply pbind_inv in H; destruct H as (? & ? & ? & ?)
  | H : dec_u _ _ = Ok _ |- _ => apply dec_u_inv in H; destruct H as (-> & _)
  | H : pret _ ?i = Ok (_, ?r) |- _ => assert (i = r) by (unfold pret in H; congruence); subst; clear H
  end.
  repeat rewrite app_length. repeat rewrite le_enc_length. lia.
Qed.
Print Assumptions C09_short_file_rejected.

(** Altered content is not noticed: the checksums are never read. *)
Theorem C09_altered_content_refuted : exists b file file' b',
  save b [] = Ok file /\ length file' = length file /\ file' <> file /\ firstn 104 file' = firstn 104 file /\
  (exists h, dec_header file = Ok (h, skipn 104 file) /\
     tb_hash (hd_data h) = crc32 (table_bytes file (hd_data h) 1) /\
     tb_hash (hd_data h) <> crc32 (table_bytes file' (hd_data h) 1)) /\
  load file' = Ok b' /\ st_list (pl_names (bn_pool b')) <> st_list (pl_names (bn_pool b)).
Proof.
  pose (file := match save bundle0 [] with Ok f => f | Err _ => [] end).
  exists bundle0, file, (firstn 109 file ++ [x5a] ++ skipn 110 file).
  eexists. split; [vm_compute; reflexivity|]. split; [vm_compute; reflexivity|].
  split; [vm_compute; discriminate|]. split; [vm_compute; reflexivity|]. split.
  - eexists. split; [vm_compute; reflexivity|]. split; [vm_compute; reflexivity|]. vm_compute. discriminate.
  - split; [vm_compute; reflexivity|]. vm_compute. discriminate.
Qed.
Print Assumptions C09_altered_content_refuted.
