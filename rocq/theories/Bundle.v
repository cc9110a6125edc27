(** Script bundles: string pools, constant pool, file header, load and save.

    Models core/src/bundle.rs 17-475, 477-586, 588-627. *)
From Coq Require Import ZArith List Bool.
From Verif Require Import Bytes Bytecode Definitions.
Import ListNotations.
Open Scope Z_scope.

Definition str := list byte.
Fixpoint str_eqb (a b : str) : bool :=
  match a, b with
  | [], [] => true
  | x :: a', y :: b' => Byte.eqb x y && str_eqb a' b'
  | _, _ => false
  end.

(** hashbrown HashMap keyed by strings, as an association list: [sm_find] returns
    the latest insertion for the key. *)
Definition smap := list (str * Z).
Fixpoint sm_find (m : smap) (s : str) : option Z :=
  match m with
  | [] => None
  | (k, v) :: m' => if str_eqb k s then Some v else sm_find m' s
  end.
Definition sm_insert (s : str) (v : Z) (m : smap) : smap := (s, v) :: m.

(** struct Strings<K> (bundle.rs 357-362). [K::DEFAULT] (bundle.rs 718-745) is an
    argument of the functions that use it. *)
Record strings := { st_list : list str; st_map : smap }.
(** Default for Strings (bundle.rs 432-440). *)
Definition empty_strings : strings := {| st_list := []; st_map := [] |}.
(** The only pool kind with a default string is CName: "None" (bundle.rs 730-732). *)
Definition none_str : str := [x4e; x6f; x6e; x65].

(** enum PoolError (bundle.rs 758-766). *)
Inductive pool_error := StringNotFound (i : pidx) | DefinitionNotFound (i : pidx) | UnexpectedEntry (what : str).

(** Strings::get and get_ref (bundle.rs 390-410). *)
Definition st_get (default : option str) (p : strings) (i : pidx) : str + pool_error :=
  match default with
  | Some d => if i =? 0 then inl d
              else match nth_error (st_list p) (Z.to_nat i) with
                   | Some s => inl s | None => inr (StringNotFound i) end
  | None => match nth_error (st_list p) (Z.to_nat i) with
            | Some s => inl s | None => inr (StringNotFound i) end
  end.
(** Strings::get_index (bundle.rs 412-414). *)
Definition st_get_index (p : strings) (s : str) : option pidx := sm_find (st_map p) s.
(** Strings::add (bundle.rs 416-429). *)
Definition st_add (default : option str) (p : strings) (s : str) : strings * pidx :=
  if match default with Some d => str_eqb d s | None => false end then (p, 0)
  else let idx := wrap_u 32 (Z.of_nat (length (st_list p))) in
       match sm_find (st_map p) s with
       | Some i => (p, i)
       | None => ({| st_list := st_list p ++ [s]; st_map := sm_insert s idx (st_map p) |}, idx)
       end.
(** Strings::decode_from (bundle.rs 365-380); [buf] is the data section. *)
Fixpoint decode_from_loop (buf : list byte) (offsets : list Z) (idx : nat) (acc : strings) : res strings :=
  match offsets with
  | [] => Ok acc
  | o :: offsets' =>
    match dec_cstr (skipn (Z.to_nat o) buf) with
    | Err e => Err e
    | Ok (s, _) =>
      decode_from_loop buf offsets' (S idx)
        {| st_list := st_list acc ++ [s]; st_map := sm_insert s (wrap_u 32 (Z.of_nat idx)) (st_map acc) |}
    end
  end.
Definition decode_from (buf : list byte) (offsets : list Z) : res strings :=
  decode_from_loop buf offsets 0 empty_strings.
(** Strings::encoded_offsets (bundle.rs 382-388); a missing key panics. *)
Fixpoint encoded_offsets (l : list str) (m : smap) : writer :=
  match l with
  | [] => Ok []
  | s :: l' => match sm_find m s with
               | Some o => enc_32 o +++ encoded_offsets l' m
               | None => Err Panic
               end
  end.

(** crc32fast::hash: the reflected CRC-32 with polynomial 0xEDB88320.  (External
    crate; the bit-by-bit form.) *)
Definition crc_bit (c : Z) : Z :=
  if Z.odd c then Z.lxor (Z.shiftr c 1) 0xEDB88320 else Z.shiftr c 1.
Definition crc_byte (c : Z) (b : byte) : Z :=
  crc_bit (crc_bit (crc_bit (crc_bit (crc_bit (crc_bit (crc_bit (crc_bit (Z.lxor c (Z_of_byte b))))))))).
Definition crc32 (bs : list byte) : Z :=
  Z.lxor (fold_left crc_byte bs 0xFFFFFFFF) 0xFFFFFFFF.

(** struct TableHeader and its codec (bundle.rs 442-475). *)
Record table := { tb_offset : Z; tb_count : Z; tb_hash : Z }.
Definition new_table (bytes : list byte) (count offset : Z) : table :=
  {| tb_offset := offset; tb_count := count; tb_hash := crc32 bytes |}.
Definition dec_table : parser table :=
  o <- dec_u32 ;; c <- dec_u32 ;; h <- dec_u32 ;;
  pret {| tb_offset := o; tb_count := c; tb_hash := h |}.
Definition enc_table (t : table) : writer :=
  enc_32 (tb_offset t) +++ enc_32 (tb_count t) +++ enc_32 (tb_hash t).

(** struct Header (bundle.rs 41-55); the timestamp is its 8 raw bytes
    (bundle.rs 588-627) as an unsigned integer. *)
Record header := { hd_version : Z; hd_flags : Z; hd_timestamp : Z; hd_unk3 : Z; hd_hash : Z;
                   hd_chunks : Z; hd_data : table; hd_names : table; hd_tweakdb : table;
                   hd_resources : table; hd_strings : table; hd_definitions : table }.
Definition MAGIC : Z := 0x53444552.
Definition HEADER_SIZE : nat := 104.
(** Decode for Header (bundle.rs 63-105); the version warning is not modelled. *)
Definition dec_header : parser header :=
  magic <- dec_u32 ;;
  if negb (magic =? MAGIC) then pfail InvalidData else
  v <- dec_u32 ;; f <- dec_u32 ;; ts <- dec_u64 ;; u3 <- dec_u32 ;; h <- dec_u32 ;; ch <- dec_u32 ;;
  data <- dec_table ;; names <- dec_table ;; tw <- dec_table ;; rs <- dec_table ;;
  defs <- dec_table ;; strs <- dec_table ;;
  pret {| hd_version := v; hd_flags := f; hd_timestamp := ts; hd_unk3 := u3; hd_hash := h;
          hd_chunks := ch; hd_data := data; hd_names := names; hd_tweakdb := tw;
          hd_resources := rs; hd_strings := strs; hd_definitions := defs |}.
(** Encode for Header (bundle.rs 107-123). *)
Definition enc_header (h : header) : writer :=
  enc_32 MAGIC +++ enc_32 (hd_version h) +++ enc_32 (hd_flags h) +++ enc_64 (hd_timestamp h) +++
  enc_32 (hd_unk3 h) +++ enc_32 (hd_hash h) +++ enc_32 (hd_chunks h) +++ enc_table (hd_data h) +++
  enc_table (hd_names h) +++ enc_table (hd_tweakdb h) +++ enc_table (hd_resources h) +++
  enc_table (hd_definitions h) +++ enc_table (hd_strings h).

(** struct DefinitionHeader (bundle.rs 477-487), DEFAULT (490-499). *)
Record def_header := { dh_name : pidx; dh_parent : pidx; dh_offset : Z; dh_size : Z; dh_type : Z;
                       dh_unk1 : Z; dh_unk2 : Z; dh_unk3 : Z }.
Definition default_def_header : def_header :=
  {| dh_name := 0; dh_parent := 0; dh_offset := 0; dh_size := 0; dh_type := 0;
     dh_unk1 := 0; dh_unk2 := 0; dh_unk3 := 0 |}.
Definition DEF_HEADER_SIZE : nat := 20.
(** Decode for DefinitionType (bundle.rs 576-580): unknown value panics. *)
Definition dec_def_type : parser Z :=
  t <- dec_u8 ;; if t <=? 9 then pret t else pfail Panic.
(** Decode/Encode for DefinitionHeader (bundle.rs 523-558). *)
Definition dec_def_header : parser def_header :=
  n <- dec_idx ;; p <- dec_idx ;; o <- dec_u32 ;; s <- dec_u32 ;; t <- dec_def_type ;;
  u1 <- dec_u8 ;; u2 <- dec_u8 ;; u3 <- dec_u8 ;;
  pret {| dh_name := n; dh_parent := p; dh_offset := o; dh_size := s; dh_type := t;
          dh_unk1 := u1; dh_unk2 := u2; dh_unk3 := u3 |}.
Definition enc_def_header (h : def_header) : writer :=
  enc_idx (dh_name h) +++ enc_idx (dh_parent h) +++ enc_32 (dh_offset h) +++ enc_32 (dh_size h) +++
  enc_8 (dh_type h) +++ enc_8 (dh_unk1 h) +++ enc_8 (dh_unk2 h) +++ enc_8 (dh_unk3 h).

(** struct ConstantPool (bundle.rs 125-132), struct ScriptBundle (17-21). *)
Record pool := { pl_names : strings; pl_tweakdb : strings; pl_resources : strings;
                 pl_strings : strings; pl_defs : list definition }.
Record bundle := { bn_header : header; bn_pool : pool }.

(** Definition::decode (definition.rs 33-57): seek to the header's offset. *)
Definition dec_definition (file : list byte) (h : def_header) : res definition :=
  match dec_any (dh_type h) (skipn (Z.to_nat (dh_offset h)) file) with
  | Ok (v, _) => Ok {| df_name := dh_name h; df_parent := dh_parent h; df_unk1 := dh_unk1 h;
                       df_unk2 := dh_unk2 h; df_unk3 := dh_unk3 h; df_value := v |}
  | Err e => Err e
  end.
Fixpoint dec_definitions (file : list byte) (hs : list def_header) : res (list definition) :=
  match hs with
  | [] => Ok []
  | h :: hs' => match dec_definition file h with
                | Err e => Err e
                | Ok d => match dec_definitions file hs' with Err e => Err e | Ok l => Ok (d :: l) end
                end
  end.

(** Lifting a plain computation into the reader. *)
Definition plift {A} (r : res A) : parser A := fun i => match r with Ok a => Ok (a, i) | Err e => Err e end.

(** ConstantPool::decode (bundle.rs 135-162), reading sequentially after the
    header; [file] is the whole input, needed for the seeks. *)
Definition dec_pool (file : list byte) (h : header) : parser pool :=
  buf <- take_bytes (tb_count (hd_data h)) ;;
  o1 <- dec_vec dec_u32 (tb_count (hd_names h)) ;; names <- plift (decode_from buf o1) ;;
  o2 <- dec_vec dec_u32 (tb_count (hd_tweakdb h)) ;; tw <- plift (decode_from buf o2) ;;
  o3 <- dec_vec dec_u32 (tb_count (hd_resources h)) ;; rs <- plift (decode_from buf o3) ;;
  hs <- dec_vec dec_def_header (tb_count (hd_definitions h)) ;;
  o4 <- dec_vec dec_u32 (tb_count (hd_strings h)) ;; strs <- plift (decode_from buf o4) ;;
  defs <- plift (dec_definitions file (skipn 1 hs)) ;;
  pret {| pl_names := names; pl_tweakdb := tw; pl_resources := rs; pl_strings := strs;
          pl_defs := default_definition :: defs |}.

(** ScriptBundle::load (bundle.rs 24-29). *)
Definition load (file : list byte) : res bundle :=
  match dec_header file with
  | Err e => Err e
  | Ok (h, i) => match dec_pool file h i with
                 | Err e => Err e
                 | Ok (p, _) => Ok {| bn_header := h; bn_pool := p |}
                 end
  end.

(** io::Write + io::Seek on a file or Cursor: bytes and position.  Writing past
    the end fills the gap with zeros; an empty write does nothing. *)
Record out := { o_bytes : list byte; o_pos : nat }.
Definition pad (n : nat) (bs : list byte) : list byte := bs ++ repeat x00 (n - length bs).
Definition write_all (bs : list byte) (o : out) : out :=
  match bs with
  | [] => o
  | _ => {| o_bytes := firstn (o_pos o) (pad (o_pos o) (o_bytes o)) ++ bs
                       ++ skipn (o_pos o + length bs) (o_bytes o);
            o_pos := o_pos o + length bs |}
  end.
Definition seek_start (n : nat) (o : out) : out := {| o_bytes := o_bytes o; o_pos := n |}.
Definition seek_forward (n : nat) (o : out) : out := {| o_bytes := o_bytes o; o_pos := o_pos o + n |}.

(** The string loop of ConstantPool::encode (bundle.rs 165-180). *)
Fixpoint dedup (l : list str) (m : smap) (buf : list byte) : smap * list byte :=
  match l with
  | [] => (m, buf)
  | s :: l' => match sm_find m s with
               | Some _ => dedup l' m buf
               | None => dedup l' (sm_insert s (wrap_u 32 (Z.of_nat (length buf))) m) (buf ++ s ++ [x00])
               end
  end.

(** DefinitionHeader::encode_definition (bundle.rs 502-520). *)
Definition enc_definition (o : out) (d : definition) : res (out * def_header) :=
  match enc_any (df_value d) with
  | Err e => Err e
  | Ok bs => Ok (write_all bs o,
                 {| dh_name := df_name d; dh_parent := df_parent d;
                    dh_offset := wrap_u 32 (Z.of_nat (o_pos o));
                    dh_size := wrap_u 32 (Z.of_nat (length bs));
                    dh_type := def_tag (df_value d); dh_unk1 := df_unk1 d;
                    dh_unk2 := df_unk2 d; dh_unk3 := df_unk3 d |})
  end.
(** The loop over the definitions (bundle.rs 213-217). *)
Fixpoint enc_definitions (o : out) (ds : list definition) (buf : list byte) : res (out * list byte) :=
  match ds with
  | [] => Ok (o, buf)
  | d :: ds' => match enc_definition o d with
                | Err e => Err e
                | Ok (o', h) => match enc_def_header h with
                                | Err e => Err e
                                | Ok hb => enc_definitions o' ds' (buf ++ hb)
                                end
                end
  end.

(** One offset table (bundle.rs 186-199, 205-208): the table's header and the
    output after writing it. *)
Definition put_offsets (l : list str) (m : smap) (o : out) : res (out * table) :=
  match encoded_offsets l m with
  | Err e => Err e
  | Ok bs => Ok (write_all bs o,
                 new_table bs (wrap_u 32 (Z.of_nat (length l))) (wrap_u 32 (Z.of_nat (o_pos o))))
  end.

(** ConstantPool::encode (bundle.rs 164-242). *)
Definition enc_pool (p : pool) (h : header) (o : out) : res (out * header) :=
  let '(m, buf) := dedup (st_list (pl_names p) ++ st_list (pl_tweakdb p) ++
                          st_list (pl_resources p) ++ st_list (pl_strings p)) [] [] in
  let data := new_table buf (wrap_u 32 (Z.of_nat (length buf))) (wrap_u 32 (Z.of_nat (o_pos o))) in
  rbind (put_offsets (st_list (pl_names p)) m (write_all buf o)) (fun '(o, names) =>
  rbind (put_offsets (st_list (pl_tweakdb p)) m o) (fun '(o, tw) =>
  rbind (put_offsets (st_list (pl_resources p)) m o) (fun '(o, rs) =>
  let def_header_pos := o_pos o in
  rbind (put_offsets (st_list (pl_strings p)) m
           (seek_forward (DEF_HEADER_SIZE * length (pl_defs p)) o)) (fun '(o, strs) =>
  rbind (enc_def_header default_def_header) (fun dbuf =>
  rbind (enc_definitions o (skipn 1 (pl_defs p)) dbuf) (fun '(o, dbuf) =>
  let o := write_all dbuf (seek_start def_header_pos o) in
  let defs := new_table dbuf (wrap_u 32 (Z.of_nat (length (pl_defs p)))) (wrap_u 32 (Z.of_nat def_header_pos)) in
  let hh := {| hd_version := hd_version h; hd_flags := hd_flags h; hd_timestamp := hd_timestamp h;
               hd_unk3 := hd_unk3 h; hd_hash := 0xDEADBEEF; hd_chunks := hd_chunks h;
               hd_data := data; hd_names := names; hd_tweakdb := tw; hd_resources := rs;
               hd_strings := strs; hd_definitions := defs |} in
  rbind (enc_header hh) (fun hbytes =>
  Ok (o, {| hd_version := hd_version h; hd_flags := hd_flags h; hd_timestamp := hd_timestamp h;
            hd_unk3 := hd_unk3 h; hd_hash := crc32 hbytes; hd_chunks := hd_chunks h;
            hd_data := data; hd_names := names; hd_tweakdb := tw; hd_resources := rs;
            hd_strings := strs; hd_definitions := defs |})))))))).

(** ScriptBundle::save (bundle.rs 31-38) into an output that already holds
    [old]; the result is the output's bytes. *)
Definition save (b : bundle) (old : list byte) : res (list byte) :=
  rbind (enc_pool (bn_pool b) (bn_header b) {| o_bytes := old; o_pos := HEADER_SIZE |}) (fun '(o, h) =>
  rbind (enc_header h) (fun hb => Ok (o_bytes (write_all hb (seek_start 0 o))))).
