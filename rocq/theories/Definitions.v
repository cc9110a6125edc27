(** Definitions stored in a constant pool and their file encoding.

    Models core/src/definition.rs 180-840.  The [parse-code] feature is on (it
    is a default feature, core/Cargo.toml). *)
From Coq Require Import ZArith List Bool.
From Verif Require Import Bytes Bytecode.
Import ListNotations.
Open Scope Z_scope.

(** Bit fields (modular_bitfield, first field = least significant bit): a flag
    word is an unsigned integer; getters and [with_*] setters act on one bit
    (definition.rs 597-740).  The skipped fields have no accessors. *)
Definition get_flag (k w : Z) : bool := Z.testbit w k.
Definition with_flag (k : Z) (b : bool) (w : Z) : Z := if b then Z.setbit w k else Z.clearbit w k.

(** FieldFlags (definition.rs 597-613). *)
Definition ff_is_native := 0.
Definition ff_is_editable := 1.
Definition ff_is_inline := 2.
Definition ff_is_const := 3.
Definition ff_is_replicated := 4.
Definition ff_has_hint := 5.
Definition ff_is_instance_editable := 6.
Definition ff_has_default := 7.
Definition ff_is_persistent := 8.
Definition ff_is_test_only := 9.
Definition ff_is_browsable := 10.
(** LocalFlags (definition.rs 627-633). *)
Definition lf_is_const := 0.
(** ParameterFlags (definition.rs 647-656). *)
Definition pf_is_optional := 0.
Definition pf_is_out := 1.
Definition pf_is_short_circuit := 2.
Definition pf_is_const := 3.
(** ClassFlags (definition.rs 670-684). *)
Definition cf_is_native := 0.
Definition cf_is_abstract := 1.
Definition cf_is_final := 2.
Definition cf_is_struct := 3.
Definition cf_has_functions := 4.
Definition cf_has_fields := 5.
Definition cf_is_import_only := 6.
Definition cf_is_test_only := 7.
Definition cf_has_overrides := 8.
(** FunctionFlags (definition.rs 698-728). *)
Definition fn_is_static := 0.
Definition fn_is_exec := 1.
Definition fn_is_timer := 2.
Definition fn_is_final := 3.
Definition fn_is_native := 4.
Definition fn_unk1 := 5.
Definition fn_is_callback := 6.
Definition fn_is_operator := 7.
Definition fn_has_return_value := 8.
Definition fn_has_base_method := 9.
Definition fn_has_parameters := 10.
Definition fn_has_locals := 11.
Definition fn_has_body := 12.
Definition fn_is_cast := 13.
Definition fn_is_implicit_cast := 14.
Definition fn_is_thread_safe := 18.
Definition fn_is_const := 19.
Definition fn_unk2 := 20.
Definition fn_unk3 := 21.
Definition fn_is_quest := 22.
Definition fn_unk4 := 23.
Definition fn_unk5 := 24.
Definition fn_unk6 := 25.

(** Flag words are stored as raw little-endian bytes (definition.rs 615-668,
    686-696, 730-740). *)
Definition dec_flags (w : nat) : parser Z := dec_u w.
Definition enc_flags (w : nat) (f : Z) : writer := enc_i w f.

(** enum Visibility (definition.rs 742-749). *)
Inductive visibility := Public | Protected | Private.
(** Encode/Decode for Visibility (definition.rs 762-772): an unknown byte panics. *)
Definition enc_visibility (v : visibility) : writer :=
  enc_8 (match v with Public => 0 | Protected => 1 | Private => 2 end).
Definition dec_visibility : parser visibility :=
  v <- dec_u8 ;;
  match v with 0 => pret Public | 1 => pret Protected | 2 => pret Private | _ => pfail Panic end.

(** struct Class (definition.rs 180-188). *)
Record class := { cl_visibility : visibility; cl_flags : Z; cl_base : pidx;
                  cl_functions : list pidx; cl_fields : list pidx; cl_overrides : list pidx }.

Definition is_nil {A} (l : list A) : bool := match l with [] => true | _ => false end.

(** [if flag { decode_vec_prefixed::<u32, _>() } else { vec![] }] (definition.rs 195-209). *)
Definition dec_idxs_if (b : bool) : parser (list pidx) :=
  if b then dec_vec_prefixed 4 dec_idx else pret [].
Definition enc_idxs_if (b : bool) (l : list pidx) : writer :=
  if b then enc_slice_prefixed 4 enc_idx l else Ok [].

(** Decode for Class (definition.rs 190-222). *)
Definition dec_class : parser class :=
  v <- dec_visibility ;; f <- dec_flags 2 ;; b <- dec_idx ;;
  fs <- dec_idxs_if (get_flag cf_has_functions f) ;;
  fl <- dec_idxs_if (get_flag cf_has_fields f) ;;
  ov <- dec_idxs_if (get_flag cf_has_overrides f) ;;
  pret {| cl_visibility := v; cl_flags := f; cl_base := b; cl_functions := fs;
          cl_fields := fl; cl_overrides := ov |}.
(** The flags written by Encode for Class (definition.rs 226-230). *)
Definition class_out_flags (c : class) : Z :=
  with_flag cf_has_overrides (negb (is_nil (cl_overrides c)))
    (with_flag cf_has_fields (negb (is_nil (cl_fields c)))
      (with_flag cf_has_functions (negb (is_nil (cl_functions c))) (cl_flags c))).
(** Encode for Class (definition.rs 224-246). *)
Definition enc_class (c : class) : writer :=
  let f := class_out_flags c in
  enc_visibility (cl_visibility c) +++ enc_flags 2 f +++ enc_idx (cl_base c) +++
  enc_idxs_if (get_flag cf_has_functions f) (cl_functions c) +++
  enc_idxs_if (get_flag cf_has_fields f) (cl_fields c) +++
  enc_idxs_if (get_flag cf_has_overrides f) (cl_overrides c).

(** struct Enum (definition.rs 248-254), codec (256-280). *)
Record enum := { en_flags : Z; en_size : Z; en_members : list pidx; en_unk1 : bool }.
Definition dec_enum : parser enum :=
  f <- dec_u8 ;; s <- dec_u8 ;; m <- dec_vec_prefixed 4 dec_idx ;; u <- dec_bool ;;
  pret {| en_flags := f; en_size := s; en_members := m; en_unk1 := u |}.
Definition enc_enum (e : enum) : writer :=
  enc_8 (en_flags e) +++ enc_8 (en_size e) +++ enc_slice_prefixed 4 enc_idx (en_members e) +++
  enc_bool (en_unk1 e).

(** struct SourceReference and its codec (definition.rs 774-803). *)
Record source_ref := { sr_file : pidx; sr_line : Z }.
Definition dec_source_ref : parser source_ref :=
  f <- dec_idx ;; l <- dec_u32 ;; pret {| sr_file := f; sr_line := l |}.
Definition enc_source_ref (s : source_ref) : writer := enc_idx (sr_file s) +++ enc_32 (sr_line s).

(** struct Function (definition.rs 282-296). *)
Record function := { fu_visibility : visibility; fu_flags : Z; fu_source : option source_ref;
                     fu_return_type : option pidx; fu_unk1 : bool; fu_base_method : option pidx;
                     fu_parameters : list pidx; fu_locals : list pidx; fu_operator : option Z;
                     fu_cast : Z; fu_code : code Z; fu_unk2 : list pidx }.

(** [if b { Some(input.decode()?) } else { None }] *)
Definition dec_opt {A} (b : bool) (p : parser A) : parser (option A) :=
  if b then (a <- p ;; pret (Some a)) else pret None.
(** [if b { input.decode()? } else { d }] *)
Definition dec_or {A} (b : bool) (p : parser A) (d : A) : parser A := if b then p else pret d.

(** Decode for Function (definition.rs 298-367). *)
Definition dec_function : parser function :=
  v <- dec_visibility ;; f <- dec_flags 4 ;;
  src <- dec_opt (negb (get_flag fn_is_native f)) dec_source_ref ;;
  rt <- dec_opt (get_flag fn_has_return_value f) dec_idx ;;
  u1 <- dec_or (get_flag fn_has_return_value f) dec_bool false ;;
  bm <- dec_opt (get_flag fn_has_base_method f) dec_idx ;;
  ps <- dec_idxs_if (get_flag fn_has_parameters f) ;;
  ls <- dec_idxs_if (get_flag fn_has_locals f) ;;
  op <- dec_opt (get_flag fn_is_operator f) dec_u32 ;;
  ca <- dec_or (get_flag fn_is_cast f) dec_u8 0 ;;
  co <- dec_or (get_flag fn_has_body f) dec_code [] ;;
  u2 <- dec_idxs_if (get_flag fn_unk4 f) ;;
  pret {| fu_visibility := v; fu_flags := f; fu_source := src; fu_return_type := rt;
          fu_unk1 := u1; fu_base_method := bm; fu_parameters := ps; fu_locals := ls;
          fu_operator := op; fu_cast := ca; fu_code := co; fu_unk2 := u2 |}.

Definition is_some {A} (o : option A) : bool := match o with Some _ => true | None => false end.
Definition enc_opt {A} (e : A -> writer) (o : option A) : writer :=
  match o with Some a => e a | None => Ok [] end.

(** The flags written by Encode for Function (definition.rs 371-378). *)
Definition function_out_flags (f : function) : Z :=
  with_flag fn_has_body (negb (is_nil (fu_code f)))
   (with_flag fn_is_operator (is_some (fu_operator f))
    (with_flag fn_has_locals (negb (is_nil (fu_locals f)))
     (with_flag fn_has_parameters (negb (is_nil (fu_parameters f)) || negb (is_nil (fu_unk2 f)))
      (with_flag fn_has_base_method (is_some (fu_base_method f))
       (with_flag fn_has_return_value (is_some (fu_return_type f)) (fu_flags f)))))).

(** Encode for Function (definition.rs 369-414). *)
Definition enc_function (f : function) : writer :=
  let fl := function_out_flags f in
  enc_visibility (fu_visibility f) +++ enc_flags 4 fl +++
  (if negb (get_flag fn_is_native fl) then enc_opt enc_source_ref (fu_source f) else Ok []) +++
  (match fu_return_type f with
   | Some t => enc_idx t +++ enc_bool (fu_unk1 f)
   | None => Ok []
   end) +++
  enc_opt enc_idx (fu_base_method f) +++
  enc_idxs_if (get_flag fn_has_parameters fl) (fu_parameters f) +++
  enc_idxs_if (get_flag fn_has_locals fl) (fu_locals f) +++
  enc_opt enc_32 (fu_operator f) +++
  (if get_flag fn_is_cast fl then enc_8 (fu_cast f) else Ok []) +++
  (if get_flag fn_has_body fl then enc_code (fu_code f) else Ok []) +++
  enc_idxs_if (get_flag fn_unk4 fl) (fu_unk2 f).

(** struct Property and its codec (definition.rs 805-827). *)
Record property := { pp_name : list byte; pp_value : list byte }.
Definition dec_property : parser property :=
  n <- dec_str_prefixed 2 ;; v <- dec_str_prefixed 2 ;; pret {| pp_name := n; pp_value := v |}.
Definition enc_property (p : property) : writer :=
  enc_str_prefixed 2 (pp_name p) +++ enc_str_prefixed 2 (pp_value p).

(** struct Field (definition.rs 416-424), codec (426-464). *)
Record field := { fi_visibility : visibility; fi_type : pidx; fi_flags : Z;
                  fi_hint : option (list byte); fi_attributes : list property;
                  fi_defaults : list property }.
Definition dec_field : parser field :=
  v <- dec_visibility ;; t <- dec_idx ;; f <- dec_flags 2 ;;
  h <- dec_opt (get_flag ff_has_hint f) (dec_str_prefixed 2) ;;
  a <- dec_vec_prefixed 4 dec_property ;; d <- dec_vec_prefixed 4 dec_property ;;
  pret {| fi_visibility := v; fi_type := t; fi_flags := f; fi_hint := h;
          fi_attributes := a; fi_defaults := d |}.
Definition field_out_flags (f : field) : Z := with_flag ff_has_hint (is_some (fi_hint f)) (fi_flags f).
Definition enc_field (f : field) : writer :=
  enc_visibility (fi_visibility f) +++ enc_idx (fi_type f) +++ enc_flags 2 (field_out_flags f) +++
  enc_opt (enc_str_prefixed 2) (fi_hint f) +++
  enc_slice_prefixed 4 enc_property (fi_attributes f) +++
  enc_slice_prefixed 4 enc_property (fi_defaults f).

(** enum Type and its codec (definition.rs 466-521). *)
Inductive ty := TPrim | TClass | TRef (i : pidx) | TWeakRef (i : pidx) | TArray (i : pidx)
  | TStaticArray (i : pidx) (n : Z) | TScriptRef (i : pidx).
Definition dec_ty : parser ty :=
  tag <- dec_u8 ;;
  match tag with
  | 0 => pret TPrim
  | 1 => pret TClass
  | 2 => i <- dec_idx ;; pret (TRef i)
  | 3 => i <- dec_idx ;; pret (TWeakRef i)
  | 4 => i <- dec_idx ;; pret (TArray i)
  | 5 => i <- dec_idx ;; n <- dec_u32 ;; pret (TStaticArray i n)
  | 6 => i <- dec_idx ;; pret (TScriptRef i)
  | _ => pfail Panic
  end.
Definition enc_ty (t : ty) : writer :=
  match t with
  | TPrim => enc_8 0
  | TClass => enc_8 1
  | TRef i => enc_8 2 +++ enc_idx i
  | TWeakRef i => enc_8 3 +++ enc_idx i
  | TArray i => enc_8 4 +++ enc_idx i
  | TStaticArray i n => enc_8 5 +++ enc_idx i +++ enc_32 n
  | TScriptRef i => enc_8 6 +++ enc_idx i
  end.

(** struct Local, struct Parameter and their codecs (definition.rs 523-569). *)
Record local := { lo_type : pidx; lo_flags : Z }.
Definition dec_local : parser local :=
  t <- dec_idx ;; f <- dec_flags 1 ;; pret {| lo_type := t; lo_flags := f |}.
Definition enc_local (l : local) : writer := enc_idx (lo_type l) +++ enc_flags 1 (lo_flags l).
Record parameter := { pa_type : pidx; pa_flags : Z }.
Definition dec_parameter : parser parameter :=
  t <- dec_idx ;; f <- dec_flags 1 ;; pret {| pa_type := t; pa_flags := f |}.
Definition enc_parameter (p : parameter) : writer := enc_idx (pa_type p) +++ enc_flags 1 (pa_flags p).

(** struct SourceFile and its codec (definition.rs 571-595).  A path is its
    UTF-8 bytes; [path.to_str().unwrap()] on a non-UTF-8 path is excluded by the
    representation. *)
Record source_file := { sf_id : Z; sf_path_hash : Z; sf_path : list byte }.
Definition replace_byte (a b : byte) (s : list byte) : list byte :=
  map (fun c => if Byte.eqb c a then b else c) s.
Definition b_slash : byte := x2f.
Definition b_backslash : byte := x5c.
Definition dec_source_file : parser source_file :=
  i <- dec_u32 ;; h <- dec_u64 ;; p <- dec_str_prefixed 2 ;;
  pret {| sf_id := i; sf_path_hash := h; sf_path := replace_byte b_backslash b_slash p |}.
Definition enc_source_file (s : source_file) : writer :=
  enc_32 (sf_id s) +++ enc_64 (sf_path_hash s) +++
  enc_str_prefixed 2 (replace_byte b_slash b_backslash (sf_path s)).

(** enum AnyDefinition (definition.rs 135-146). *)
Inductive any_def :=
| DType (t : ty) | DClass (c : class) | DEnumValue (v : Z) | DEnum (e : enum)
| DFunction (f : function) | DParameter (p : parameter) | DLocal (l : local)
| DField (f : field) | DSourceFile (s : source_file).

(** struct Definition (definition.rs 14-21) and its DEFAULT (24-31). *)
Record definition := { df_name : pidx; df_parent : pidx; df_unk1 : Z; df_unk2 : Z; df_unk3 : Z;
                       df_value : any_def }.
Definition default_definition : definition :=
  {| df_name := 0; df_parent := 0; df_unk1 := 0; df_unk2 := 0; df_unk3 := 0; df_value := DType TPrim |}.

(** Tag of a definition, AnyDefinition::type_ (definition.rs 148-162) with the
    DefinitionType values of bundle.rs 560-574. *)
Definition def_tag (d : any_def) : Z :=
  match d with
  | DType _ => 0 | DClass _ => 1 | DEnumValue _ => 2 | DEnum _ => 3 | DFunction _ => 5
  | DParameter _ => 6 | DLocal _ => 7 | DField _ => 8 | DSourceFile _ => 9
  end.
(** Encode for AnyDefinition (definition.rs 164-178). *)
Definition enc_any (d : any_def) : writer :=
  match d with
  | DType t => enc_ty t | DClass c => enc_class c | DEnumValue v => enc_64 v | DEnum e => enc_enum e
  | DFunction f => enc_function f | DParameter p => enc_parameter p | DLocal l => enc_local l
  | DField f => enc_field f | DSourceFile s => enc_source_file s
  end.
(** The dispatch of Definition::decode (definition.rs 33-57); tag 4 (BitField)
    panics, a tag above 9 already panics when the header is read. *)
Definition dec_any (tag : Z) : parser any_def :=
  match tag with
  | 0 => t <- dec_ty ;; pret (DType t)
  | 1 => c <- dec_class ;; pret (DClass c)
  | 2 => v <- dec_i64 ;; pret (DEnumValue v)
  | 3 => e <- dec_enum ;; pret (DEnum e)
  | 5 => f <- dec_function ;; pret (DFunction f)
  | 6 => p <- dec_parameter ;; pret (DParameter p)
  | 7 => l <- dec_local ;; pret (DLocal l)
  | 8 => f <- dec_field ;; pret (DField f)
  | 9 => s <- dec_source_file ;; pret (DSourceFile s)
  | _ => pfail Panic
  end.
