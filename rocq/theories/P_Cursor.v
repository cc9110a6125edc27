(** Code position properties: C12, C13, C14. *)
From Coq Require Import ZArith List Bool Lia.
From Verif Require Import Bytes BytesFacts Bytecode BytecodeFacts Search Cursor CursorSpec CursorFacts.
Import ListNotations.
Open Scope Z_scope.

(** * C12 *)

(** From any cursor state, seeking to [p] succeeds exactly if [p] is where some
    suffix of the code starts (an instruction or the end); afterwards the cursor
    is at [p] and reads exactly that suffix, which is also what iterating over
    the code yields from there. *)
Theorem C12_seek_exact : forall L (c : code L) cur p, sized c -> total c < 65536 -> cursor_of c cur ->
  (forall cur', seek_abs cur p = inl cur' -> exists pre post, c = pre ++ post /\ total pre = p) /\
  (forall pre post, c = pre ++ post -> total pre = p ->
    exists cur', seek_abs cur p = inl cur' /\ pos cur' = inl p /\ peek cur' = hd_error post /\
      drain (S (length c)) cur' = code_iter p post /\
      code_iter p post = skipn (length pre) (code_iter 0 c)).
Proof. intros L c cur p Hs Ht Hc. apply seek_lemma; try assumption. now apply reachable_on. Qed.
Print Assumptions C12_seek_exact.

(** A failed seek reports the position. *)
Theorem C12_seek_error : forall L (c : code L) cur p e, sized c -> total c < 65536 -> cursor_of c cur ->
  seek_abs cur p = inr e -> e = InvalidInstructionOffset p /\ ~ exists pre post, c = pre ++ post /\ total pre = p.
Proof.
  intros L c cur p e Hs Ht Hc E. split.
  - unfold seek_abs, get_index in E. destruct (p =? 0); [discriminate|].
    pose proof (binary_search_spec (fun i => i ?= p) (cu_offsets cur)) as B.
    destruct (binary_search _ _) as [[i|k]|]; [discriminate|congruence|contradiction].
  - intros (pre & post & E1 & E2). destruct (C12_seek_exact L c cur p Hs Ht Hc) as (_ & H).
    destruct (H pre post E1 E2) as (cur' & H' & _). congruence.
Qed.
Print Assumptions C12_seek_error.

(** The range between two positions consists of the instructions between them. *)
Theorem C12_range_exact : forall L (c : code L) cur a b d, sized c -> total c < 65536 -> cursor_of c cur ->
  c = a ++ b ++ d -> range cur (total a) (total (a ++ b)) = inl (code_iter (total a) b).
Proof. intros L c cur a b d Hs Ht Hc E. eapply range_lemma; try eassumption. now apply reachable_on. Qed.
Print Assumptions C12_range_exact.

Example C12_example :
  let c := [Jump 5; Nop; I32Const 7; Return] : code Z in
  sized c /\ total c < 65536 /\ total [Jump 5; Nop] = 4 /\
  match seek_abs (new_cursor c) 4 with inl cur => drain 5 cur = [(4, I32Const 7); (9, Return)] | inr _ => False end /\
  seek_abs (new_cursor c) 5 = inr (InvalidInstructionOffset 5).
Proof. cbv zeta. repeat split; try (repeat constructor; cbn; lia). Qed.

(** * C13 *)
Theorem C13_relative_inverts : forall from to, in_u 16 from -> in_u 16 to ->
  in_s 16 (relative to from) /\ absolute (relative to from) from = to.
Proof. intros from to Hf Ht. split; [apply relative_range|now apply absolute_relative]. Qed.
Print Assumptions C13_relative_inverts.

(** Conversely every 16-bit offset is the relative offset of the place it leads
    to. *)
Theorem C13_absolute_inverts : forall o p, in_s 16 o -> in_u 16 p ->
  in_u 16 (absolute o p) /\ relative (absolute o p) p = o.
Proof. intros o p Ho Hp. split; [apply wrap_u_range; lia|now apply relative_absolute]. Qed.
Print Assumptions C13_absolute_inverts.

Example C13_example : relative 0xF000 0x0010 = -0x1010 /\ absolute (-0x1010) 0x0010 = 0xF000.
Proof. split; reflexivity. Qed.

(** * C14 *)

(** Assembling a label stream of less than 64 KiB: the result has the same
    instructions in the same order without the markers, each at the same
    position; only label operands differ, and each of them, applied at the
    position of its instruction, designates the position of the (last) marker of
    that label. *)
Theorem C14_jumps_land_on_labels : forall n (c : code label), labels_below n c -> total c < 65536 ->
  exists out, into_code n c = Some out /\ total out = total c /\ Forall (fun i => is_target i = false) out /\
   length out = length (filter (fun i => negb (is_target i)) c) /\
   forall pre i post, c = pre ++ i :: post -> is_target i = false ->
     exists p j q, out = p ++ j :: q /\ total p = total pre /\
       length p = length (filter (fun i => negb (is_target i)) pre) /\
       map_loc (fun _ => tt) j = map_loc (fun _ => tt) i /\
       Forall2 (fun l o => in_s 16 o /\ forall p1 p2, c = p1 ++ Target l :: p2 -> ~ In (Target l) p2 ->
                           absolute o (total p) = total p1) (locs i) (locs j).
Proof. exact into_code_lemma. Qed.
Print Assumptions C14_jumps_land_on_labels.

(** while (local 9) { nop }: the loop label is placed first, the exit label last. *)
Example C14_example :
  let c := [Target 1%nat; JumpIfFalse 0%nat; Local 9; Nop; Jump 1%nat; Target 0%nat; Nop] in
  labels_below 2 c /\ total c < 65536 /\
  into_code 2 c = Some [JumpIfFalse 16; Local 9; Nop; Jump (-13); Nop].
Proof. cbv zeta. split; [|split; [cbn; lia|reflexivity]]. repeat constructor. Qed.
