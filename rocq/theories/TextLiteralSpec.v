(** What property C70 means: how a text is spelled between quotes. *)
From Coq Require Import ZArith List Bool.
From Verif Require Import Bytes.
Import ListNotations.
Open Scope Z_scope.

(** A character as itself (byte by byte), a backslash and a letter, or the number
    of a character in hexadecimal digits, [\u{...}]. *)
Inductive item := Plain (b : byte) | Short (c : byte) | Numbered (digits : list byte).
Definition spelling (x : item) : list byte :=
  match x with
  | Plain b => [b]
  | Short c => [x5c; c]
  | Numbered w => [x5c; x75; x7b] ++ w ++ [x7d]
  end.

(** The letters after a backslash: n, r, t, the two quotes and the backslash. *)
Definition short_escapes : list (byte * byte) :=
  [(x6e, x0a); (x72, x0d); (x74, x09); (x27, x27); (x22, x22); (x5c, x5c)].

(** Hexadecimal digits, 0-9, A-F, a-f, and their value. *)
Definition hex_digit_is (b : byte) (d : Z) : Prop :=
  0 <= d < 10 /\ Z_of_byte b = 48 + d \/ 10 <= d < 16 /\ (Z_of_byte b = 55 + d \/ Z_of_byte b = 87 + d).
Inductive hex_is : list byte -> Z -> Prop :=
| hex_one b d : hex_digit_is b d -> hex_is [b] d
| hex_more w v b d : hex_is w v -> hex_digit_is b d -> hex_is (w ++ [b]) (16 * v + d).

(** The bytes that encode the character with number [z] in UTF-8: six bits in each
    byte after the first, and as few bytes as possible.  The numbers from D800 to
    DFFF and those above 10FFFF are no characters. *)
Definition six (n : Z) : Prop := 0 <= n < 64.
Definition encodes (bs : list byte) (z : Z) : Prop :=
  (map Z_of_byte bs = [z] /\ 0 <= z <= 0x7F) \/
  (exists a b, six b /\ map Z_of_byte bs = [192 + a; 128 + b] /\ z = 64 * a + b /\ 0x80 <= z <= 0x7FF) \/
  (exists a b c, six b /\ six c /\ map Z_of_byte bs = [224 + a; 128 + b; 128 + c] /\ z = 64 * (64 * a + b) + c /\
     0x800 <= z <= 0xFFFF /\ ~ 0xD800 <= z <= 0xDFFF) \/
  (exists a b c d, six b /\ six c /\ six d /\ map Z_of_byte bs = [240 + a; 128 + b; 128 + c; 128 + d] /\
     z = 64 * (64 * (64 * a + b) + c) + d /\ 0x10000 <= z <= 0x10FFFF).

(** What an item stands for.  A backslash or a quote does not stand for itself. *)
Definition means (x : item) (bs : list byte) : Prop :=
  match x with
  | Plain b => b <> x5c /\ b <> x22 /\ bs = [b]
  | Short c => exists b, In (c, b) short_escapes /\ bs = [b]
  | Numbered w => (length w <= 6)%nat /\ exists z, hex_is w z /\ encodes bs z
  end.

(** The text [s] can be written as [t] between quotes. *)
Definition spells (t s : list byte) : Prop :=
  exists items texts, Forall2 means items texts /\ t = concat (map spelling items) /\ s = concat texts.
