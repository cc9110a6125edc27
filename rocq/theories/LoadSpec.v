(** What property C69 means: which bytes of a file make loading abort.  Written in
    terms of positions in the file only. *)
From Coq Require Import ZArith List.
From Verif Require Import Bytes.
Open Scope Z_scope.

(** The little-endian number in the [n] bytes at position [p]. *)
Definition number_at (file : list byte) (p n : nat) : Z := le_val (firstn n (skipn p file)).

(** The sizes that the file header states.  From position 32 on it describes the
    tables by three numbers of four bytes each; the second one is the size. *)
Definition text_bytes (file : list byte) : nat := Z.to_nat (number_at file 36 4).
Definition name_count (file : list byte) : nat := Z.to_nat (number_at file 48 4).
Definition tweakdb_count (file : list byte) : nat := Z.to_nat (number_at file 60 4).
Definition resource_count (file : list byte) : nat := Z.to_nat (number_at file 72 4).
Definition entry_count (file : list byte) : nat := Z.to_nat (number_at file 84 4).

(** Where the table of definitions starts: after the file header, the texts and
    three tables of offsets.  An entry has twenty bytes. *)
Definition entry (file : list byte) (k : nat) : nat :=
  104 + text_bytes file + 4 * name_count file + 4 * tweakdb_count file + 4 * resource_count file + 20 * k.
(** An entry states the kind of the definition and where its content starts. *)
Definition entry_kind (file : list byte) (k : nat) : Z := number_at file (entry file k + 16) 1.
Definition entry_body (file : list byte) (k : nat) : nat := Z.to_nat (number_at file (entry file k + 8) 4).
Definition first_byte (file : list byte) (k : nat) : Z := number_at file (entry_body file k) 1.

(** The content of an entry starts with a byte that means nothing: the kind of
    a type is above 6, the visibility of a class, function or field above 2; or
    the entry is of the one kind that has a number but no content (4). *)
Definition odd_content (file : list byte) (k : nat) : Prop :=
  entry_kind file k = 4 \/
  entry_kind file k = 0 /\ 6 < first_byte file k \/
  (entry_kind file k = 1 \/ entry_kind file k = 5 \/ entry_kind file k = 8) /\ 2 < first_byte file k.

(** The file has an entry of no known kind, or one with such content.  The
    content of the first entry is never read. *)
Definition odd_kind (file : list byte) : Prop :=
  exists k, (k < entry_count file)%nat /\ (9 < entry_kind file k \/ (0 < k)%nat /\ odd_content file k).
