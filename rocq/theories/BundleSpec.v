(** What a saved bundle is supposed to contain. *)
From Coq Require Import ZArith List Bool.
From Verif Require Import Bytes BytesFacts Bytecode Definitions DefinitionsSpec Bundle.
Import ListNotations.
Open Scope Z_scope.

(** Part of a file. *)
Definition sub (file : list byte) (offset len : Z) : list byte :=
  firstn (Z.to_nat len) (skipn (Z.to_nat offset) file).

(** Strings that a Rust program can hold and the NUL-terminated file format can
    represent. *)
Definition text_ok (s : str) : Prop := nul_free s /\ utf8_valid s = true.

Definition definition_ok (d : definition) : Prop :=
  idx_ok (df_name d) /\ idx_ok (df_parent d) /\ in_u 8 (df_unk1 d) /\ in_u 8 (df_unk2 d) /\
  in_u 8 (df_unk3 d) /\ any_ok (df_value d) /\ has_source (df_value d).

(** Pools produced by the compiler: slot 0 of the definitions is the unused
    default entry. *)
Definition pool_ok (p : pool) : Prop :=
  Forall text_ok (st_list (pl_names p)) /\ Forall text_ok (st_list (pl_tweakdb p)) /\
  Forall text_ok (st_list (pl_resources p)) /\ Forall text_ok (st_list (pl_strings p)) /\
  exists ds, pl_defs p = default_definition :: ds /\ Forall definition_ok ds.

(** Metadata fields of the header (the table headers and the checksum are
    recomputed when saving). *)
Definition meta_ok (h : header) : Prop :=
  in_u 32 (hd_version h) /\ in_u 32 (hd_flags h) /\ in_u 64 (hd_timestamp h) /\
  in_u 32 (hd_unk3 h) /\ in_u 32 (hd_chunks h).
Definition same_meta (h h' : header) : Prop :=
  hd_version h' = hd_version h /\ hd_flags h' = hd_flags h /\ hd_timestamp h' = hd_timestamp h /\
  hd_unk3 h' = hd_unk3 h /\ hd_chunks h' = hd_chunks h.

Definition definition_saved (d d' : definition) : Prop :=
  df_name d' = df_name d /\ df_parent d' = df_parent d /\ df_unk1 d' = df_unk1 d /\
  df_unk2 d' = df_unk2 d /\ df_unk3 d' = df_unk3 d /\ any_saved (df_value d) (df_value d').

Definition pool_saved (p p' : pool) : Prop :=
  st_list (pl_names p') = st_list (pl_names p) /\ st_list (pl_tweakdb p') = st_list (pl_tweakdb p) /\
  st_list (pl_resources p') = st_list (pl_resources p) /\ st_list (pl_strings p') = st_list (pl_strings p) /\
  Forall2 definition_saved (pl_defs p) (pl_defs p').

(** A string pool whose reverse index is exact: each string occurs once and the
    index maps it to its position.  (This is what [add] maintains, see C07.) *)
Definition index_exact (p : strings) : Prop :=
  NoDup (st_list p) /\ Z.of_nat (length (st_list p)) < 2 ^ 32 /\
  forall s i, sm_find (st_map p) s = Some i <-> 0 <= i /\ nth_error (st_list p) (Z.to_nat i) = Some s.

(** The definitions [ds] lie one after the other in [file] from [pos] to the end,
    delimited by the headers [hs]. *)
Fixpoint definitions_at (file : list byte) (pos : Z) (ds : list definition) (hs : list def_header) : Prop :=
  match ds, hs with
  | [], [] => pos = Z.of_nat (length file)
  | d :: ds', h :: hs' =>
    dh_name h = df_name d /\ dh_parent h = df_parent d /\ dh_unk1 h = df_unk1 d /\
    dh_unk2 h = df_unk2 d /\ dh_unk3 h = df_unk3 d /\ dh_type h = def_tag (df_value d) /\
    dh_offset h = pos /\ 0 <= dh_size h /\
    enc_any (df_value d) = Ok (sub file pos (dh_size h)) /\
    Z.of_nat (length (sub file pos (dh_size h))) = dh_size h /\
    definitions_at file (pos + dh_size h) ds' hs'
  | _, _ => False
  end.

(** Offset and size of the i-th table in bytes; element sizes are 1 (data), 4
    (string offsets) and 20 (definition headers). *)
Definition table_bytes (file : list byte) (t : table) (elem : Z) : list byte :=
  sub file (tb_offset t) (elem * tb_count t).

Record self_describing (b : bundle) (file : list byte) (h : header) : Prop := {
  sd_header : dec_header file = Ok (h, skipn 104 file);
  (* counts *)
  sd_names_count : tb_count (hd_names h) = Z.of_nat (length (st_list (pl_names (bn_pool b))));
  sd_tweakdb_count : tb_count (hd_tweakdb h) = Z.of_nat (length (st_list (pl_tweakdb (bn_pool b))));
  sd_resources_count : tb_count (hd_resources h) = Z.of_nat (length (st_list (pl_resources (bn_pool b))));
  sd_strings_count : tb_count (hd_strings h) = Z.of_nat (length (st_list (pl_strings (bn_pool b))));
  sd_definitions_count : tb_count (hd_definitions h) = Z.of_nat (length (pl_defs (bn_pool b)));
  (* contiguous, in file order *)
  sd_data_offset : tb_offset (hd_data h) = 104;
  sd_names_offset : tb_offset (hd_names h) = tb_offset (hd_data h) + tb_count (hd_data h);
  sd_tweakdb_offset : tb_offset (hd_tweakdb h) = tb_offset (hd_names h) + 4 * tb_count (hd_names h);
  sd_resources_offset : tb_offset (hd_resources h) = tb_offset (hd_tweakdb h) + 4 * tb_count (hd_tweakdb h);
  sd_definitions_offset : tb_offset (hd_definitions h) = tb_offset (hd_resources h) + 4 * tb_count (hd_resources h);
  sd_strings_offset : tb_offset (hd_strings h) = tb_offset (hd_definitions h) + 20 * tb_count (hd_definitions h);
  sd_inside : tb_offset (hd_strings h) + 4 * tb_count (hd_strings h) <= Z.of_nat (length file);
  (* checksums *)
  sd_data_hash : tb_hash (hd_data h) = crc32 (table_bytes file (hd_data h) 1);
  sd_names_hash : tb_hash (hd_names h) = crc32 (table_bytes file (hd_names h) 4);
  sd_tweakdb_hash : tb_hash (hd_tweakdb h) = crc32 (table_bytes file (hd_tweakdb h) 4);
  sd_resources_hash : tb_hash (hd_resources h) = crc32 (table_bytes file (hd_resources h) 4);
  sd_definitions_hash : tb_hash (hd_definitions h) = crc32 (table_bytes file (hd_definitions h) 20);
  sd_strings_hash : tb_hash (hd_strings h) = crc32 (table_bytes file (hd_strings h) 4);
  (* the header's own checksum is taken with 0xDEADBEEF in its place (bytes 24-27) *)
  sd_header_hash : hd_hash h = crc32 (sub file 0 24 ++ le_enc 4 0xDEADBEEF ++ sub file 28 76);
  (* definitions; entry 0 is a placeholder *)
  sd_definitions : exists h0 hs rest,
    dec_vec dec_def_header (tb_count (hd_definitions h)) (skipn (Z.to_nat (tb_offset (hd_definitions h))) file)
      = Ok (h0 :: hs, rest) /\
    h0 = default_def_header /\
    definitions_at file (tb_offset (hd_strings h) + 4 * tb_count (hd_strings h)) (skipn 1 (pl_defs (bn_pool b))) hs
}.

(** Every string is stored once, NUL-terminated, and every table entry points at
    the string it stands for. *)
Definition strings_stored_once (b : bundle) (file : list byte) (h : header) : Prop :=
  exists ks : list str,
    NoDup ks /\
    (forall s, In s ks <-> In s (st_list (pl_names (bn_pool b))) \/ In s (st_list (pl_tweakdb (bn_pool b))) \/
                           In s (st_list (pl_resources (bn_pool b))) \/ In s (st_list (pl_strings (bn_pool b)))) /\
    table_bytes file (hd_data h) 1 = concat (map (fun s => s ++ [x00]) ks) /\
    forall l t, In (l, t) [(st_list (pl_names (bn_pool b)), hd_names h);
                           (st_list (pl_tweakdb (bn_pool b)), hd_tweakdb h);
                           (st_list (pl_resources (bn_pool b)), hd_resources h);
                           (st_list (pl_strings (bn_pool b)), hd_strings h)] ->
    forall i s, nth_error l i = Some s ->
    exists before after, ks = before ++ s :: after /\
      le_val (sub file (tb_offset t + 4 * Z.of_nat i) 4) =
        Z.of_nat (length (concat (map (fun s => s ++ [x00]) before))).

(** String pool histories: start from an empty pool or from any loaded pool and
    add strings one after the other. *)
Fixpoint add_all (default : option str) (p : strings) (l : list str) : strings :=
  match l with [] => p | s :: l' => add_all default (fst (st_add default p s)) l' end.
Definition pool_start (default : option str) (p : strings) : Prop :=
  (p = empty_strings \/ exists buf offsets, decode_from buf offsets = Ok p) /\
  (* a pool kind with a default string reserves index 0 for it *)
  match default with Some d => nth_error (st_list p) 0 = Some d | None => True end.
