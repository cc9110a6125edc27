(** Layout of saved bundles and the save/load round trip. *)
From Coq Require Import ZArith NArith List Bool Lia ZifyBool ZifyNat ZifyN.
From Verif Require Import Bytes BytesFacts Bytecode BytecodeFacts Definitions FlagFacts DefinitionsSpec
  DefinitionsFacts Bundle BundleFacts BundleSpec.
Import ListNotations.
Open Scope Z_scope.

Lemma put_offsets_spec old A l m o ks buf : dedup_inv ks m buf -> (forall s, In s l -> In s ks) ->
  holds old A o -> o_pos o = length A ->
  exists o' bs os, put_offsets l m o =
      Ok (o', new_table bs (wrap_u 32 (Z.of_nat (length l))) (wrap_u 32 (Z.of_nat (length A)))) /\
    holds old (A ++ bs) o' /\ o_pos o' = (length A + length bs)%nat /\
    length bs = (4 * length l)%nat /\ Forall2 (fun s o => sm_find m s = Some o) l os /\
    bs = concat (map (le_enc 4) os) /\
    (forall rest, dec_vec_n dec_u32 (length l) (bs ++ rest) = Ok (os, rest)) /\
    o_bytes o' = o_bytes (write_all bs o).
Proof.
  intros Hd Hl Hh Hp. destruct (encoded_offsets_spec l m) as (bs & os & H1 & H2 & H3 & Hc & H4).
  { intros s Hs. rewrite <- (find_in ks m buf s Hd). now apply Hl. }
  { intros s v _ Hf. destruct Hd as (_ & _ & Hd). apply Hd in Hf. destruct Hf as (? & ? & _ & ->).
    apply wrap_u_range. lia. }
  exists (write_all bs o), bs, os. unfold put_offsets. rewrite H1, Hp. split; [reflexivity|].
  split; [now apply holds_end|]. split; [rewrite write_pos; lia|]. auto.
Qed.

Lemma write_bounds bs o :
  (length (o_bytes o) <= length (o_bytes (write_all bs o)) <= Nat.max (length (o_bytes o)) (o_pos o + length bs))%nat /\
  (length bs = 0%nat \/ (o_pos o + length bs <= length (o_bytes (write_all bs o)))%nat) /\
  (length bs = 0%nat -> length (o_bytes (write_all bs o)) = length (o_bytes o)).
Proof. rewrite write_length. destruct bs; cbn [length]; lia. Qed.

Record saved_parts := {
  sp_header : header; sp_hbytes : list byte; sp_keys : list str; sp_map : smap; sp_data : list byte;
  sp_n : list byte; sp_t : list byte; sp_r : list byte; sp_s : list byte;
  sp_no : list Z; sp_to : list Z; sp_ro : list Z; sp_so : list Z;
  sp_dh : list byte; sp_bss : list (list byte) }.

Definition sp_all (q : saved_parts) : list byte :=
  sp_hbytes q ++ sp_data q ++ sp_n q ++ sp_t q ++ sp_r q ++ sp_dh q ++ sp_s q ++ concat (sp_bss q).

Definition u32len {A} (l : list A) : Z := wrap_u 32 (Z.of_nat (length l)).

Definition offsets_part (l : list str) (m : smap) (bs : list byte) (os : list Z) : Prop :=
  length bs = (4 * length l)%nat /\ Forall2 (fun s o => sm_find m s = Some o) l os /\
  bs = concat (map (le_enc 4) os) /\
  forall rest, dec_vec_n dec_u32 (length l) (bs ++ rest) = Ok (os, rest).

Definition defs_start (q : saved_parts) : nat :=
  104 + length (sp_data q) + length (sp_n q) + length (sp_t q) + length (sp_r q)
  + length (sp_dh q) + length (sp_s q).

Record saved_as (b : bundle) (ds : list definition) (q : saved_parts) : Prop := {
  sa_hlen : length (sp_hbytes q) = 104%nat;
  sa_henc : enc_header (sp_header q) = Ok (sp_hbytes q);
  sa_dedup : dedup_inv (sp_keys q) (sp_map q) (sp_data q);
  sa_keys : forall s, In s (sp_keys q) <-> In s (st_list (pl_names (bn_pool b)) ++ st_list (pl_tweakdb (bn_pool b)) ++
                          st_list (pl_resources (bn_pool b)) ++ st_list (pl_strings (bn_pool b)));
  sa_n : offsets_part (st_list (pl_names (bn_pool b))) (sp_map q) (sp_n q) (sp_no q);
  sa_t : offsets_part (st_list (pl_tweakdb (bn_pool b))) (sp_map q) (sp_t q) (sp_to q);
  sa_r : offsets_part (st_list (pl_resources (bn_pool b))) (sp_map q) (sp_r q) (sp_ro q);
  sa_s : offsets_part (st_list (pl_strings (bn_pool b))) (sp_map q) (sp_s q) (sp_so q);
  sa_bss : Forall2 (fun d bs => enc_any (df_value d) = Ok bs) ds (sp_bss q);
  sa_dh : enc_slice enc_def_header (default_def_header :: headers_of (combine ds (sp_bss q)) (defs_start q))
          = Ok (sp_dh q);
  sa_dhlen : length (sp_dh q) = (20 * S (length ds))%nat;
  sa_header : exists hb0,
    let h := bn_header b in
    let hh hash := {| hd_version := hd_version h; hd_flags := hd_flags h; hd_timestamp := hd_timestamp h;
       hd_unk3 := hd_unk3 h; hd_hash := hash; hd_chunks := hd_chunks h;
       hd_data := new_table (sp_data q) (u32len (sp_data q)) (wrap_u 32 104);
       hd_names := new_table (sp_n q) (u32len (st_list (pl_names (bn_pool b))))
                     (u32len (sp_hbytes q ++ sp_data q));
       hd_tweakdb := new_table (sp_t q) (u32len (st_list (pl_tweakdb (bn_pool b))))
                     (u32len (sp_hbytes q ++ sp_data q ++ sp_n q));
       hd_resources := new_table (sp_r q) (u32len (st_list (pl_resources (bn_pool b))))
                     (u32len (sp_hbytes q ++ sp_data q ++ sp_n q ++ sp_t q));
       hd_strings := new_table (sp_s q) (u32len (st_list (pl_strings (bn_pool b))))
                     (u32len (sp_hbytes q ++ sp_data q ++ sp_n q ++ sp_t q ++ sp_r q ++ sp_dh q));
       hd_definitions := new_table (sp_dh q) (wrap_u 32 (Z.of_nat (S (length ds))))
                     (u32len (sp_hbytes q ++ sp_data q ++ sp_n q ++ sp_t q ++ sp_r q)) |} in
    enc_header (hh 0xDEADBEEF) = Ok hb0 /\ sp_header q = hh (crc32 hb0)
}.

Lemma enc_defs_all ds : Forall (fun d => exists bs, enc_any (df_value d) = Ok bs) ds ->
  exists bss, Forall2 (fun d bs => enc_any (df_value d) = Ok bs) ds bss.
Proof.
  induction 1 as [|d ds [bs Hb] _ [bss IH]]; [exists []; constructor|].
  exists (bs :: bss). now constructor.
Qed.

Lemma save_layout b old d0 ds : pl_defs (bn_pool b) = d0 :: ds ->
  Forall (fun d => exists bs, enc_any (df_value d) = Ok bs) ds ->
  exists q, save b old = Ok (sp_all q ++ skipn (length (sp_all q)) old) /\ saved_as b ds q.
Proof.
  intros Hds Henc. destruct (enc_defs_all ds Henc) as [bss Hbss].
  set (p := bn_pool b) in *. set (h := bn_header b).
  pose proof (dedup_spec (st_list (pl_names p) ++ st_list (pl_tweakdb p) ++
                          st_list (pl_resources p) ++ st_list (pl_strings p)) [] [] [] dedup_inv_nil) as Hd.
  unfold save, enc_pool. destruct (dedup _ [] []) as [m buf]. destruct Hd as (ks & Hd & _ & Hks).
  fold p h.
  assert (Hks' : forall s, In s ks <-> In s (st_list (pl_names p) ++ st_list (pl_tweakdb p) ++
                          st_list (pl_resources p) ++ st_list (pl_strings p))).
  { intros s. rewrite Hks. cbn [In]. tauto. }
  clear Hks.
  cbn [o_pos]. set (o0 := {| o_bytes := old; o_pos := HEADER_SIZE |}).
  destruct (holds_extend old [] 104 o0) as (X & HX & Ho0). { intros i. reflexivity. } cbn [app] in Ho0.
  assert (Ho1 : holds old (X ++ buf) (write_all buf o0)) by (apply holds_end; [assumption|now rewrite HX]).
  assert (Hp1 : o_pos (write_all buf o0) = length (X ++ buf)) by (rewrite write_pos, app_length, HX; reflexivity).
  destruct (put_offsets_spec old (X ++ buf) (st_list (pl_names p)) m (write_all buf o0) ks buf Hd)
    as (o2 & bn & nos & E2 & Hh2 & Hp2 & Ln & Fn & Cn & Rn & B2); [|assumption|assumption|].
  { intros s Hs. apply Hks'. rewrite !in_app_iff. tauto. }
  rewrite E2. cbn [rbind]. rewrite <- app_length in Hp2.
  destruct (put_offsets_spec old ((X ++ buf) ++ bn) (st_list (pl_tweakdb p)) m o2 ks buf Hd)
    as (o3 & bt & tos & E3 & Hh3 & Hp3 & Lt & Ft & Ct & Rt & B3); [|assumption|assumption|].
  { intros s Hs. apply Hks'. rewrite !in_app_iff. tauto. }
  rewrite E3. cbn [rbind]. rewrite <- app_length in Hp3.
  destruct (put_offsets_spec old (((X ++ buf) ++ bn) ++ bt) (st_list (pl_resources p)) m o3 ks buf Hd)
    as (o4 & br & ros & E4 & Hh4 & Hp4 & Lr & Fr & Cr & Rr & B4); [|assumption|assumption|].
  { intros s Hs. apply Hks'. rewrite !in_app_iff. tauto. }
  rewrite E4. cbn [rbind]. rewrite <- app_length in Hp4.
  set (N := (DEF_HEADER_SIZE * length (pl_defs p))%nat).
  destruct (holds_extend old ((((X ++ buf) ++ bn) ++ bt) ++ br) N o4 Hh4) as (Y & HY & Hh4').
  set (o4' := seek_forward N o4).
  destruct (put_offsets_spec old (((((X ++ buf) ++ bn) ++ bt) ++ br) ++ Y) (st_list (pl_strings p)) m o4' ks buf Hd)
    as (o5 & bs & sos & E5 & Hh5 & Hp5 & Ls & Fs & Cs & Rs & B5).
  { intros s Hs. apply Hks'. rewrite !in_app_iff. tauto. }
  { apply holds_forward. assumption. }
  { unfold o4'. cbn [seek_forward o_pos]. rewrite Hp4, (app_length _ Y), HY. reflexivity. }
  rewrite E5. cbn [rbind]. rewrite <- app_length in Hp5.
  destruct (enc_def_header_ok default_def_header) as [dh0 Hdh0]. rewrite Hdh0. cbn [rbind].
  rewrite Hds. cbn [skipn].
  destruct (enc_definitions_spec old ds bss o5 _ dh0 Hbss Hh5 Hp5)
    as (o6 & dh1 & E6 & Hh6 & Hp6 & Hdh1 & Ldh & L61 & L62 & L63).
  rewrite E6. cbn [rbind].
  set (dh := dh0 ++ dh1) in *.
  assert (LdhN : length dh = N).
  { unfold dh, N. rewrite app_length, Ldh, (enc_def_header_length _ _ Hdh0), Hds. cbn [length]. unfold DEF_HEADER_SIZE. lia. }
  set (o7 := write_all dh (seek_start (o_pos o4) o6)).
  assert (Hh7 : holds old (((((X ++ buf) ++ bn) ++ bt) ++ br) ++ dh ++ bs ++ concat bss) o7).
  { unfold o7. apply holds_mid with (X := Y); [|cbn [seek_start o_pos]; assumption|lia].
    apply holds_seek. rewrite <- !app_assoc in Hh6. rewrite <- !app_assoc. exact Hh6. }
  match goal with |- context [enc_header ?hh0] => destruct (enc_header_ok hh0) as [hb0 Hhb0]; rewrite Hhb0 end.
  cbn [rbind].
  match goal with |- context [rbind (enc_header ?hh1)] =>
    destruct (enc_header_ok hh1) as [hb Hhb]; rewrite Hhb; set (hfin := hh1) in * end.
  cbn [rbind].
  pose proof (enc_header_length _ _ Hhb) as Lhb.
  set (q := {| sp_header := hfin; sp_hbytes := hb; sp_keys := ks; sp_map := m; sp_data := buf; sp_n := bn;
               sp_t := bt; sp_r := br; sp_s := bs; sp_no := nos; sp_to := tos; sp_ro := ros; sp_so := sos;
               sp_dh := dh; sp_bss := bss |}).
  exists q. split.
  - f_equal. apply holds_file.
    + rewrite <- (app_nil_l (sp_all q)). unfold sp_all. cbn [q sp_hbytes sp_data sp_n sp_t sp_r sp_dh sp_s sp_bss].
      apply holds_mid with (X := X); [|reflexivity|lia].
      apply holds_seek. cbn [app]. rewrite <- !app_assoc in Hh7. exact Hh7.
    + pose proof (write_bounds hb (seek_start 0 o7)) as W8. pose proof (write_bounds dh (seek_start (o_pos o4) o6)) as W7.
      fold o7 in W7. cbn [seek_start o_pos o_bytes] in W7, W8.
      pose proof (write_bounds bs o4') as W5. rewrite <- B5 in W5. unfold o4' in W5. cbn [seek_forward o_bytes o_pos] in W5.
      pose proof (write_bounds br o3) as W4. rewrite <- B4 in W4.
      pose proof (write_bounds bt o2) as W3. rewrite <- B3 in W3.
      pose proof (write_bounds bn (write_all buf o0)) as W2. rewrite <- B2 in W2.
      pose proof (write_bounds buf o0) as W1.
      rewrite Hp1, Hp2, Hp3, Hp4 in *. cbn [o0 o_bytes o_pos] in *. unfold HEADER_SIZE in *.
      assert (L62' : length (concat bss) = 0%nat \/ (length X + length buf + length bn + length bt + length br + N + length bs + length (concat bss) <= length (o_bytes o6))%nat)
        by (destruct L62 as [L62|L62]; [left; now rewrite L62|right; repeat rewrite app_length in L62; rewrite HY in L62; clear - L62; lia]).
      unfold sp_all. cbn [q sp_hbytes sp_data sp_n sp_t sp_r sp_dh sp_s sp_bss].
      repeat rewrite app_length in *.
      assert (HN : (0 < N)%nat) by (unfold N; rewrite Hds; clear; unfold DEF_HEADER_SIZE; cbn [length]; lia).
      clear - L61 L62' L63 HX HY Lhb LdhN W1 W2 W3 W4 W5 W7 W8 HN.
      set (l0 := length old) in *. set (l1 := length (o_bytes (write_all buf o0))) in *.
      set (l2 := length (o_bytes o2)) in *. set (l3 := length (o_bytes o3)) in *.
      set (l4 := length (o_bytes o4)) in *. set (l5 := length (o_bytes o5)) in *.
      set (l6 := length (o_bytes o6)) in *. set (l7 := length (o_bytes o7)) in *.
      set (l8 := length (o_bytes (write_all hb _))) in *.
      set (c1 := length buf) in *. set (c2 := length bn) in *. set (c3 := length bt) in *.
      set (c4 := length br) in *. set (c5 := length bs) in *. set (c6 := length (concat bss)) in *.
      rewrite HX, HY, Lhb, LdhN in *.
      clearbody l0 l1 l2 l3 l4 l5 l6 l7 l8 c1 c2 c3 c4 c5 c6 N.
      destruct W1 as [[W1 W1'] _], W2 as [[W2 W2'] _], W3 as [[W3 W3'] _], W4 as [[W4 W4'] _].
      destruct W5 as ([W5 W5'] & W5'' & _), W7 as ([W7 W7'] & W7'' & _), W8 as ([W8 W8'] & _ & _).
      set (T := (104 + (c1 + (c2 + (c3 + (c4 + (N + (c5 + c6)))))))%nat).
      assert (U1 : (l1 <= Nat.max T l0)%nat) by (clear - W1'; lia).
      assert (U2 : (l2 <= Nat.max T l0)%nat) by (clear - U1 W2'; lia).
      assert (U3 : (l3 <= Nat.max T l0)%nat) by (clear - U2 W3'; lia).
      assert (U4 : (l4 <= Nat.max T l0)%nat) by (clear - U3 W4'; lia).
      assert (U5 : (l5 <= Nat.max T l0)%nat) by (clear - U4 W5'; lia).
      assert (U6 : (l6 <= Nat.max T l0)%nat) by (clear - U5 L63; lia).
      assert (U7 : (l7 <= Nat.max T l0)%nat) by (clear - U6 W7'; lia).
      assert (U8 : (l8 <= Nat.max T l0)%nat) by (clear - U7 W8'; lia).
      assert (V : (T <= l7)%nat).
      { destruct L62' as [Z6|L6]; [|clear - L6 W7; lia].
        destruct W5'' as [Z5|L5]; [|clear - L5 L61 Z6 W7; lia].
        destruct W7'' as [Z7|L7]; [clear - Z7 HN; lia|clear - L7 Z5 Z6; lia]. }
      clear - U8 V W1 W2 W3 W4 W5 L61 W7 W8. lia.
  - constructor; cbn [q sp_header sp_hbytes sp_keys sp_map sp_data sp_n sp_t sp_r sp_s sp_no sp_to sp_ro sp_so sp_dh sp_bss];
      try assumption; try (split; [assumption|split; [assumption|split; assumption]]).
    + cbn [enc_slice]. rewrite Hdh0. unfold defs_start. cbn [sp_data sp_n sp_t sp_r sp_dh sp_s q].
      match goal with |- context [headers_of _ ?x] => replace x with (length (((((X ++ buf) ++ bn) ++ bt) ++ br) ++ Y) + length bs)%nat end.
      * rewrite <- app_length. rewrite Hdh1. reflexivity.
      * rewrite !app_length, HX, HY, LdhN. lia.
    + rewrite LdhN. unfold N, DEF_HEADER_SIZE. rewrite Hds. reflexivity.
    + exists hb0. cbv zeta. unfold u32len.
      assert (Q : hfin = 
        {| hd_version := hd_version h; hd_flags := hd_flags h; hd_timestamp := hd_timestamp h;
           hd_unk3 := hd_unk3 h; hd_hash := crc32 hb0; hd_chunks := hd_chunks h;
           hd_data := new_table buf (wrap_u 32 (Z.of_nat (length buf))) (wrap_u 32 104);
           hd_names := new_table bn (wrap_u 32 (Z.of_nat (length (st_list (pl_names p))))) (wrap_u 32 (Z.of_nat (length (hb ++ buf))));
           hd_tweakdb := new_table bt (wrap_u 32 (Z.of_nat (length (st_list (pl_tweakdb p))))) (wrap_u 32 (Z.of_nat (length (hb ++ buf ++ bn))));
           hd_resources := new_table br (wrap_u 32 (Z.of_nat (length (st_list (pl_resources p))))) (wrap_u 32 (Z.of_nat (length (hb ++ buf ++ bn ++ bt))));
           hd_strings := new_table bs (wrap_u 32 (Z.of_nat (length (st_list (pl_strings p))))) (wrap_u 32 (Z.of_nat (length (hb ++ buf ++ bn ++ bt ++ br ++ dh))));
           hd_definitions := new_table dh (wrap_u 32 (Z.of_nat (S (length ds)))) (wrap_u 32 (Z.of_nat (length (hb ++ buf ++ bn ++ bt ++ br)))) |}).
      { unfold hfin. rewrite Hp4. repeat rewrite app_length. rewrite HX, HY, Lhb, LdhN. cbn [length].
        repeat rewrite Nat.add_assoc. reflexivity. }
      split; [|exact Q].
      rewrite <- Hhb0. unfold hfin in Q. injection Q as Q1 Q2 Q3 Q4 Q5.
      rewrite Hp4. repeat rewrite app_length. rewrite HX, HY, Lhb, LdhN. cbn [length].
      repeat rewrite Nat.add_assoc. reflexivity.
Qed.
