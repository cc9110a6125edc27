(** Byte-level encoders and decoders.

    Models core/src/encode.rs and core/src/decode.rs.  A byte stream that is
    written to is the list of bytes written; a byte stream that is read from is
    the list of bytes that remain.  Integers are [Z] with explicit wrapping.
    I/O errors of the underlying stream other than running out of input are not
    modelled. *)
From Coq Require Import ZArith NArith List Bool.
From Coq Require Export Strings.Byte.
Import ListNotations.
Open Scope Z_scope.

(** Outcomes.  [Eof]: io::ErrorKind::UnexpectedEof from read_exact
    (core/src/decode.rs 9-107).  [InvalidData]: io::ErrorKind::InvalidData
    (decode.rs 96, 137; bytecode.rs 483).  [Panic]: a Rust panic (expect,
    unwrap, panic!, index out of range).  [OutOfFuel] is an artefact of the
    model: every theorem that mentions success excludes it. *)
Inductive err := Eof | InvalidData | Panic | OutOfFuel.

(** io::Result (core/src/encode.rs 7-9, core/src/decode.rs 5-7). *)
Inductive res (A : Type) := Ok (a : A) | Err (e : err).
Arguments Ok {A} a.
Arguments Err {A} e.

(** The [?] operator (used throughout core/src). *)
Definition rbind {A B} (m : res A) (k : A -> res B) : res B :=
  match m with Ok a => k a | Err e => Err e end.

(** A reader: consumes a prefix of the remaining input (decode.rs 5-7). *)
Definition parser (A : Type) := list byte -> res (A * list byte).

(** Sequencing of readers with [?] (decode.rs, throughout). *)
Definition pbind {A B} (p : parser A) (k : A -> parser B) : parser B :=
  fun i => match p i with Ok (a, i') => k a i' | Err e => Err e end.
(** Ok(value) without reading (decode.rs, throughout). *)
Definition pret {A} (a : A) : parser A := fun i => Ok (a, i).
(** Returning an error without reading (bytecode.rs 483). *)
Definition pfail {A} (e : err) : parser A := fun _ => Err e.

Notation "x <- m ;; k" := (pbind m (fun x => k))
  (at level 61, m at next level, right associativity).
Notation "' p <- m ;; k" := (pbind m (fun x => match x with p => k end))
  (at level 61, p pattern, m at next level, right associativity).

(** A writer yields the bytes it wrote, or panics (encode.rs 116-122). *)
Definition writer := res (list byte).

(** Sequencing of writers with [?] (encode.rs, throughout). *)
Definition wapp (a b : writer) : writer :=
  match a with
  | Ok x => match b with Ok y => Ok (x ++ y) | Err e => Err e end
  | Err e => Err e
  end.
Infix "+++" := wapp (at level 60, right associativity).

(** Conversion between bytes and integers. *)
Definition Z_of_byte (b : byte) : Z := Z.of_N (Byte.to_N b).
(** [as u8] of an integer (truncating). *)
Definition byte_of_Z (z : Z) : byte :=
  match Byte.of_N (Z.to_N (z mod 256)) with Some b => b | None => x00 end.

(** Machine integer ranges and the wrapping [as] casts. *)
Definition in_u (bits : Z) (z : Z) : Prop := 0 <= z < 2 ^ bits.
Definition in_s (bits : Z) (z : Z) : Prop := - 2 ^ (bits - 1) <= z < 2 ^ (bits - 1).
Definition wrap_u (bits : Z) (z : Z) : Z := z mod 2 ^ bits.
Definition wrap_s (bits : Z) (z : Z) : Z :=
  (z + 2 ^ (bits - 1)) mod 2 ^ bits - 2 ^ (bits - 1).

(** Little-endian writing of the low [8*n] bits in two's complement
    (byteorder write_*::<LittleEndian>, encode.rs 11-86). *)
Fixpoint le_enc (n : nat) (z : Z) : list byte :=
  match n with
  | O => []
  | S n' => byte_of_Z z :: le_enc n' (z / 256)
  end.

(** Value of a little-endian byte string, unsigned. *)
Fixpoint le_val (bs : list byte) : Z :=
  match bs with
  | [] => 0
  | b :: bs' => Z_of_byte b + 256 * le_val bs'
  end.

(** read_exact of [c] bytes (decode.rs 100-107, 129-134). *)
Definition take_bytes (c : Z) : parser (list byte) :=
  fun i => if c <=? Z.of_nat (length i)
           then Ok (firstn (Z.to_nat c) i, skipn (Z.to_nat c) i)
           else Err Eof.

(** read_u{8,16,32,64} (decode.rs 37-63) and floats as bit patterns
    (decode.rs 72-84; a float is modelled by its bits). *)
Definition dec_u (n : nat) : parser Z :=
  bs <- take_bytes (Z.of_nat n) ;; pret (le_val bs).
(** read_i{8,16,32,64} (decode.rs 9-35). *)
Definition dec_s (n : nat) : parser Z :=
  bs <- take_bytes (Z.of_nat n) ;; pret (wrap_s (8 * Z.of_nat n) (le_val bs)).
(** write_{u,i,f}* (encode.rs 11-86). *)
Definition enc_i (n : nat) (z : Z) : writer := Ok (le_enc n z).

Definition dec_u8 := dec_u 1.
Definition dec_u16 := dec_u 2.
Definition dec_u32 := dec_u 4.
Definition dec_u64 := dec_u 8.
Definition dec_i8 := dec_s 1.
Definition dec_i16 := dec_s 2.
Definition dec_i32 := dec_s 4.
Definition dec_i64 := dec_s 8.
Definition enc_8 := enc_i 1.
Definition enc_16 := enc_i 2.
Definition enc_32 := enc_i 4.
Definition enc_64 := enc_i 8.

(** bool: written as 0/1, read as [!= 0] (encode.rs 67-72, decode.rs 65-70). *)
Definition enc_bool (b : bool) : writer := enc_8 (if b then 1 else 0).
Definition dec_bool : parser bool := v <- dec_u8 ;; pret (negb (v =? 0)).

(** UTF-8 well-formedness as checked by String::from_utf8 (Unicode table 3-7).
    Strings are modelled by their bytes; a Rust String always satisfies this. *)
Definition brange (lo hi : Z) (b : byte) : bool :=
  (lo <=? Z_of_byte b) && (Z_of_byte b <=? hi).
Fixpoint utf8_valid (s : list byte) : bool :=
  match s with
  | [] => true
  | a :: s1 =>
    if brange 0 127 a then utf8_valid s1
    else match s1 with
    | [] => false
    | b :: s2 =>
      if brange 194 223 a then brange 128 191 b && utf8_valid s2
      else match s2 with
      | [] => false
      | c :: s3 =>
        if brange 224 239 a then
          (if Z_of_byte a =? 224 then brange 160 191 b
           else if Z_of_byte a =? 237 then brange 128 159 b
           else brange 128 191 b) && brange 128 191 c && utf8_valid s3
        else match s3 with
        | [] => false
        | d :: s4 =>
          brange 240 244 a &&
          (if Z_of_byte a =? 240 then brange 144 191 b
           else if Z_of_byte a =? 244 then brange 128 143 b
           else brange 128 191 b) && brange 128 191 c && brange 128 191 d && utf8_valid s4
        end
      end
    end
  end.

(** String::from_utf8(..).map_err(InvalidData) (decode.rs 96, 137). *)
Definition check_utf8 (s : list byte) : parser (list byte) :=
  if utf8_valid s then pret s else pfail InvalidData.

(** The loop of [Decode for String]: bytes up to a NUL (decode.rs 86-95). *)
Fixpoint read_cstr (i : list byte) : res (list byte * list byte) :=
  match i with
  | [] => Err Eof
  | b :: i' => if Z_of_byte b =? 0 then Ok ([], i')
               else match read_cstr i' with
                    | Ok (s, r) => Ok (b :: s, r)
                    | Err e => Err e
                    end
  end.
(** [Decode for String] (decode.rs 86-98). *)
Definition dec_cstr : parser (list byte) := s <- read_cstr ;; check_utf8 s.
(** [Encode for &str] (encode.rs 88-94). *)
Definition enc_cstr (s : list byte) : writer := Ok (s ++ [x00]).

(** decode_vec (decode.rs 115-122).  Vec::with_capacity aborting for lack of
    memory is not modelled. *)
Fixpoint dec_vec_n {A} (p : parser A) (n : nat) : parser (list A) :=
  match n with
  | O => pret []
  | S n' => a <- p ;; l <- dec_vec_n p n' ;; pret (a :: l)
  end.
Definition dec_vec {A} (p : parser A) (count : Z) : parser (list A) :=
  dec_vec_n p (Z.to_nat count).
(** decode_vec_prefixed::<S> (decode.rs 124-127), [S] given by its width. *)
Definition dec_vec_prefixed {A} (w : nat) (p : parser A) : parser (list A) :=
  c <- dec_u w ;; dec_vec p c.
(** decode_str, decode_str_prefixed (decode.rs 136-143). *)
Definition dec_str (count : Z) : parser (list byte) :=
  bs <- take_bytes count ;; check_utf8 bs.
Definition dec_str_prefixed (w : nat) : parser (list byte) :=
  c <- dec_u w ;; dec_str c.

(** encode_slice (encode.rs 109-114). *)
Fixpoint enc_slice {A} (e : A -> writer) (l : list A) : writer :=
  match l with
  | [] => Ok []
  | a :: l' => e a +++ enc_slice e l'
  end.
(** The length prefix: panics with "Size overflow" (encode.rs 120). *)
Definition enc_len (w : nat) (n : nat) : writer :=
  if Z.of_nat n <? 2 ^ (8 * Z.of_nat w) then enc_i w (Z.of_nat n) else Err Panic.
(** encode_slice_prefixed (encode.rs 116-122). *)
Definition enc_slice_prefixed {A} (w : nat) (e : A -> writer) (l : list A) : writer :=
  enc_len w (length l) +++ enc_slice e l.
(** encode_str_prefixed (encode.rs 128-133); the bytes are written one by one. *)
Definition enc_str_prefixed (w : nat) (s : list byte) : writer :=
  enc_len w (length s) +++ Ok s.
