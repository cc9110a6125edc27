(** Proofs about the definition codecs. *)
From Coq Require Import ZArith NArith List Bool Lia ZifyBool ZifyNat ZifyN.
From Verif Require Import Bytes BytesFacts Bytecode BytecodeFacts Definitions FlagFacts DefinitionsSpec.
Import ListNotations.
Open Scope Z_scope.

Lemma reads_idxs l : idxs_ok l -> reads (enc_slice_prefixed 4 enc_idx l) (dec_vec_prefixed 4 dec_idx) l.
Proof.
  intros [Hl Hn]. apply reads_slice_prefixed; [assumption|].
  eapply Forall_impl; [|exact Hl]. intros i Hi. now apply (rt_u 4).
Qed.

Lemma reads_idxs_if b l : idxs_ok l -> (b = false -> l = []) ->
  reads (enc_idxs_if b l) (dec_idxs_if b) l.
Proof.
  intros Hl Hb. unfold enc_idxs_if, dec_idxs_if. destruct b.
  - now apply reads_idxs.
  - rewrite Hb by reflexivity. apply reads_ret.
Qed.

Lemma reads_visibility v : reads (enc_visibility v) dec_visibility v.
Proof.
  unfold dec_visibility. eapply reads_bind_pure; [|apply (rt_u 1); destruct v; unfold in_u; cbn; lia].
  destruct v; reflexivity.
Qed.

Lemma nonempty_flag {A} (l : list A) : negb (is_nil l) = true <-> l <> [].
Proof. destruct l; cbn; split; congruence. Qed.
Lemma some_flag {A} (o : option A) : is_some o = true <-> o <> None.
Proof. destruct o; cbn; split; congruence. Qed.

Ltac flagw :=
  unfold get_flag, class_out_flags, function_out_flags, field_out_flags, cf_has_functions, cf_has_fields,
    cf_has_overrides, fn_is_native, fn_has_return_value, fn_has_base_method, fn_has_parameters,
    fn_has_locals, fn_is_operator, fn_is_cast, fn_has_body, fn_unk4, ff_has_hint;
  repeat rewrite with_flag_spec by lia; cbn [Z.eqb Pos.eqb].

Definition saved_class (c : class) : class :=
  {| cl_visibility := cl_visibility c; cl_flags := class_out_flags c; cl_base := cl_base c;
     cl_functions := cl_functions c; cl_fields := cl_fields c; cl_overrides := cl_overrides c |}.

Lemma nil_flag {A} (l : list A) : negb (is_nil l) = false -> l = [].
Proof. destruct l; [reflexivity|discriminate]. Qed.

Lemma reads_class c : class_ok c -> reads (enc_class c) dec_class (saved_class c).
Proof.
  intros (Hf & Hb & H1 & H2 & H3). unfold enc_class, dec_class. cbv zeta.
  eapply reads_bind; [apply reads_visibility|].
  eapply reads_bind; [apply (rt_u 2)|].
  { unfold class_out_flags. repeat apply with_flag_range; try (unfold cf_has_overrides, cf_has_fields, cf_has_functions; cbn; lia). assumption. }
  eapply reads_bind; [now apply (rt_u 4)|].
  eapply reads_bind; [apply reads_idxs_if; [assumption|flagw; apply nil_flag]|].
  eapply reads_bind; [apply reads_idxs_if; [assumption|flagw; apply nil_flag]|].
  eapply reads_bind_pure; [|apply reads_idxs_if; [assumption|flagw; apply nil_flag]].
  reflexivity.
Qed.

Lemma class_saved_lemma c : class_saved c (saved_class c).
Proof.
  unfold class_saved, class_canonical. cbn [saved_class cl_visibility cl_base cl_functions cl_fields cl_overrides cl_flags].
  do 5 (split; [reflexivity|]). split.
  - intros i Hi Hn. cbn in Hn. flagw.
    destruct (Z.eqb_spec i 8); [lia|]. destruct (Z.eqb_spec i 5); [lia|].
    destruct (Z.eqb_spec i 4); [lia|]. reflexivity.
  - flagw. split; [|split]; apply nonempty_flag.
Qed.

Lemma reads_enum e : enum_ok e -> reads (enc_enum e) dec_enum e.
Proof.
  destruct e as [fl sz mem u]. intros (H1 & H2 & H3). cbn in H1, H2, H3. unfold enc_enum, dec_enum.
  cbn [en_flags en_size en_members en_unk1].
  eapply reads_bind; [now apply (rt_u 1)|].
  eapply reads_bind; [now apply (rt_u 1)|].
  eapply reads_bind; [now apply reads_idxs|].
  eapply reads_bind_pure; [|apply rt_bool]. reflexivity.
Qed.

Lemma reads_source_ref s : source_ref_ok s -> reads (enc_source_ref s) dec_source_ref s.
Proof.
  destruct s as [a b]. intros (H1 & H2). cbn in H1, H2. unfold enc_source_ref, dec_source_ref.
  eapply reads_bind; [now apply (rt_u 4)|].
  eapply reads_bind_pure; [|now apply (rt_u 4)]. reflexivity.
Qed.

Lemma reads_opt {A} (e : A -> writer) (d : parser A) b o :
  opt_ok (fun a => reads (e a) d a) o -> b = is_some o ->
  reads (enc_opt e o) (dec_opt b d) o.
Proof.
  intros H ->. destruct o as [a|]; cbn in *.
  - eapply reads_bind_pure; [|exact H]. reflexivity.
  - apply reads_ret.
Qed.

Lemma opt_ok_impl {A} (P Q : A -> Prop) o : (forall a, P a -> Q a) -> opt_ok P o -> opt_ok Q o.
Proof. destruct o; cbn; auto. Qed.

Lemma reads_or {A} b w (p : parser A) d a :
  (b = true -> reads w p a) -> reads (if b then w else Ok []) (dec_or b p d) (if b then a else d).
Proof. destruct b; cbn; intros H; [now apply H|apply reads_ret]. Qed.

Lemma function_out_range f : in_u 32 (fu_flags f) -> in_u 32 (function_out_flags f).
Proof.
  intros H. unfold function_out_flags.
  repeat apply with_flag_range; try assumption;
    unfold fn_has_return_value, fn_has_base_method, fn_has_parameters,
    fn_has_locals, fn_is_operator, fn_has_body; lia.
Qed.

Definition saved_function (f : function) : function :=
  {| fu_visibility := fu_visibility f; fu_flags := function_out_flags f;
     fu_source := if get_flag fn_is_native (fu_flags f) then None else fu_source f;
     fu_return_type := fu_return_type f;
     fu_unk1 := if is_some (fu_return_type f) then fu_unk1 f else false;
     fu_base_method := fu_base_method f; fu_parameters := fu_parameters f;
     fu_locals := fu_locals f; fu_operator := fu_operator f;
     fu_cast := if get_flag fn_is_cast (fu_flags f) then fu_cast f else 0;
     fu_code := fu_code f;
     fu_unk2 := if get_flag fn_unk4 (fu_flags f) then fu_unk2 f else [] |}.

Lemma reads_code_ok c : code_ok c -> reads (enc_code c) dec_code c.
Proof.
  intros (H1 & H2 & H3). destruct (code_roundtrip_iff_lemma c H1 H2) as (bs & Hb & Hi).
  exists bs. split; [exact Hb|]. now apply Hi.
Qed.

Lemma reads_wapp_ret {A B} w1 w2 (p : parser A) (k : A -> parser B) a b :
  reads w1 p a -> reads w2 (k a) b -> reads (w1 +++ w2) (pbind p k) b.
Proof. apply reads_bind. Qed.

Lemma reads_function f : function_ok f -> has_source (DFunction f) ->
  reads (enc_function f) dec_function (saved_function f).
Proof.
  intros (Hf & Hs & Hr & Hb & Hp & Hl & Ho & Hc & Hcode & Hu) Hsrc. cbn in Hsrc.
  unfold enc_function, dec_function. cbv zeta.
  set (fl := function_out_flags f).
  assert (Efl : function_out_flags f = fl) by reflexivity. clearbody fl.
  assert (E4 : get_flag fn_is_native fl = get_flag fn_is_native (fu_flags f)) by (rewrite <- Efl; now flagw).
  assert (E8 : get_flag fn_has_return_value fl = is_some (fu_return_type f)) by (rewrite <- Efl; now flagw).
  assert (E9 : get_flag fn_has_base_method fl = is_some (fu_base_method f)) by (rewrite <- Efl; now flagw).
  assert (E10 : get_flag fn_has_parameters fl = negb (is_nil (fu_parameters f)) || negb (is_nil (fu_unk2 f))) by (rewrite <- Efl; now flagw).
  assert (E11 : get_flag fn_has_locals fl = negb (is_nil (fu_locals f))) by (rewrite <- Efl; now flagw).
  assert (E7 : get_flag fn_is_operator fl = is_some (fu_operator f)) by (rewrite <- Efl; now flagw).
  assert (E13 : get_flag fn_is_cast fl = get_flag fn_is_cast (fu_flags f)) by (rewrite <- Efl; now flagw).
  assert (E12 : get_flag fn_has_body fl = negb (is_nil (fu_code f))) by (rewrite <- Efl; now flagw).
  assert (E23 : get_flag fn_unk4 fl = get_flag fn_unk4 (fu_flags f)) by (rewrite <- Efl; now flagw).
  eapply reads_bind; [apply reads_visibility|].
  eapply reads_bind; [apply (rt_u 4); rewrite <- Efl; now apply function_out_range|].
  rewrite E4, E8, E9, E10, E11, E7, E13, E12, E23.
  eapply reads_bind with (a := if get_flag fn_is_native (fu_flags f) then None else fu_source f).
  { destruct (get_flag fn_is_native (fu_flags f)) eqn:En; cbn [negb]; [apply reads_ret|].
    destruct (fu_source f) as [s|]; [|now destruct (Hsrc En)].
    apply (reads_opt enc_source_ref dec_source_ref true (Some s)); [|reflexivity].
    now apply reads_source_ref. }
  rewrite <- !wapp_assoc. rewrite !wapp_assoc.
  assert (Hrt : forall w B (k : option pidx -> bool -> parser B) (b : B),
    reads w (k (fu_return_type f) (if is_some (fu_return_type f) then fu_unk1 f else false)) b ->
    reads ((match fu_return_type f with Some t => enc_idx t +++ enc_bool (fu_unk1 f) | None => Ok [] end) +++ w)
      (rt <- dec_opt (is_some (fu_return_type f)) dec_idx ;;
       u1 <- dec_or (is_some (fu_return_type f)) dec_bool false ;; k rt u1) b).
  { intros w B k b Hk. destruct (fu_return_type f) as [t|]; cbn [is_some dec_opt dec_or] in *.
    - rewrite wapp_assoc. eapply reads_bind; [|eapply reads_bind; [apply rt_bool|exact Hk]].
      apply reads_bind_ret. now apply (rt_u 4).
    - eapply reads_bind; [apply reads_ret|].
      destruct w as [x|e].
      + destruct Hk as (y & Hy & Hk). assert (x = y) by congruence; subst y.
        exists x. split; [reflexivity|]. exact Hk.
      + destruct Hk as (y & Hy & Hk). discriminate. }
  apply Hrt. clear Hrt.
  eapply reads_bind; [apply reads_opt; [|reflexivity]; eapply opt_ok_impl; [|exact Hb]; intros a Ha; now apply (rt_u 4)|].
  eapply reads_bind; [apply reads_idxs_if; [assumption|]|].
  { destruct (fu_parameters f); [reflexivity|discriminate]. }
  eapply reads_bind; [apply reads_idxs_if; [assumption|apply nil_flag]|].
  eapply reads_bind; [apply reads_opt; [|reflexivity]; eapply opt_ok_impl; [|exact Ho]; intros a Ha; now apply (rt_u 4)|].
  eapply reads_bind; [apply reads_or; intros _; now apply (rt_u 1)|].
  eapply reads_bind with (a := fu_code f).
  { destruct (fu_code f) as [|i c] eqn:Ec; cbn [is_nil negb dec_or]; [apply reads_ret|].
    now apply reads_code_ok. }
  eapply reads_bind_pure with (a := if get_flag fn_unk4 (fu_flags f) then fu_unk2 f else []).
  - unfold saved_function. rewrite Efl. reflexivity.
  - unfold enc_idxs_if, dec_idxs_if. destruct (get_flag fn_unk4 (fu_flags f)); [now apply reads_idxs|apply reads_ret].
Qed.

Lemma function_saved_lemma f : function_saved f (saved_function f).
Proof.
  unfold function_saved.
  cbn [saved_function fu_visibility fu_flags fu_source fu_return_type fu_unk1 fu_base_method
       fu_parameters fu_locals fu_operator fu_cast fu_code fu_unk2].
  split; [reflexivity|]. split; [reflexivity|]. split; [reflexivity|].
  split; [now destruct (fu_return_type f)|].
  do 4 (split; [reflexivity|]). split; [reflexivity|]. split; [reflexivity|]. split; [reflexivity|].
  split.
  - intros i Hi Hn. cbn in Hn. flagw.
    repeat match goal with |- context [i =? ?k] => destruct (Z.eqb_spec i k); [lia|] end. reflexivity.
  - flagw. rewrite orb_true_iff, !nonempty_flag, !some_flag. tauto.
Qed.

Lemma reads_str s : str_ok s -> reads (enc_str_prefixed 2 s) (dec_str_prefixed 2) s.
Proof. intros [H1 H2]. now apply reads_str_prefixed. Qed.

Lemma reads_property p : property_ok p -> reads (enc_property p) dec_property p.
Proof.
  destruct p as [a b]. intros [H1 H2]. cbn [pp_name pp_value] in H1, H2. unfold enc_property, dec_property.
  eapply reads_bind; [now apply reads_str|].
  eapply reads_bind_pure; [|now apply reads_str]. reflexivity.
Qed.

Lemma reads_properties l : properties_ok l ->
  reads (enc_slice_prefixed 4 enc_property l) (dec_vec_prefixed 4 dec_property) l.
Proof.
  intros [Hl Hn]. apply reads_slice_prefixed; [assumption|].
  eapply Forall_impl; [|exact Hl]. intros i Hi. now apply reads_property.
Qed.

Definition saved_field (f : field) : field :=
  {| fi_visibility := fi_visibility f; fi_type := fi_type f; fi_flags := field_out_flags f;
     fi_hint := fi_hint f; fi_attributes := fi_attributes f; fi_defaults := fi_defaults f |}.

Lemma reads_field f : field_ok f -> reads (enc_field f) dec_field (saved_field f).
Proof.
  intros (H1 & H2 & H3 & H4 & H5). unfold enc_field, dec_field.
  eapply reads_bind; [apply reads_visibility|].
  eapply reads_bind; [now apply (rt_u 4)|].
  eapply reads_bind; [apply (rt_u 2); apply with_flag_range; [unfold ff_has_hint; cbn; lia|assumption]|].
  eapply reads_bind; [apply reads_opt; [|now flagw]; eapply opt_ok_impl; [|exact H3]; apply reads_str|].
  eapply reads_bind; [now apply reads_properties|].
  eapply reads_bind_pure; [|now apply reads_properties]. reflexivity.
Qed.

Lemma field_saved_lemma f : field_saved f (saved_field f).
Proof.
  unfold field_saved, field_canonical.
  cbn [saved_field fi_visibility fi_type fi_flags fi_hint fi_attributes fi_defaults].
  do 5 (split; [reflexivity|]). split.
  - intros i Hi Hn. cbn in Hn. flagw. destruct (Z.eqb_spec i 5); [lia|]. reflexivity.
  - flagw. apply some_flag.
Qed.

Lemma reads_ty t : ty_ok t -> reads (enc_ty t) dec_ty t.
Proof.
  destruct t; cbn [ty_ok enc_ty]; intros H; unfold dec_ty, idx_ok in *;
    repeat match goal with H : _ /\ _ |- _ => destruct H end; rd.
Qed.

Lemma reads_local l : local_ok l -> reads (enc_local l) dec_local l.
Proof.
  destruct l as [a b]. intros (H1 & H2). cbn in H1, H2. unfold enc_local, dec_local.
  eapply reads_bind; [now apply (rt_u 4)|].
  eapply reads_bind_pure; [|now apply (rt_u 1)]. reflexivity.
Qed.

Lemma reads_parameter p : parameter_ok p -> reads (enc_parameter p) dec_parameter p.
Proof.
  destruct p as [a b]. intros (H1 & H2). cbn in H1, H2. unfold enc_parameter, dec_parameter.
  eapply reads_bind; [now apply (rt_u 4)|].
  eapply reads_bind_pure; [|now apply (rt_u 1)]. reflexivity.
Qed.

(** Replacing one slash by the other keeps the text valid. *)
Definition slash_map (f : byte -> byte) : Prop :=
  forall b, f b = b \/ (Z_of_byte b < 128 /\ Z_of_byte (f b) < 128).

Lemma slash_map_range f lo hi b : slash_map f -> 128 <= lo -> brange lo hi (f b) = brange lo hi b.
Proof.
  intros Hf Hlo. destruct (Hf b) as [->|[H1 H2]]; [reflexivity|]. unfold brange. lia.
Qed.
Lemma slash_map_ascii f b : slash_map f -> brange 0 127 (f b) = brange 0 127 b.
Proof.
  intros Hf. destruct (Hf b) as [->|[H1 H2]]; [reflexivity|].
  unfold brange. pose proof (Z_of_byte_range b). pose proof (Z_of_byte_range (f b)). lia.
Qed.
Lemma slash_map_eq f b k : slash_map f -> 128 <= k -> (Z_of_byte (f b) =? k) = (Z_of_byte b =? k).
Proof. intros Hf Hk. destruct (Hf b) as [->|[H1 H2]]; [reflexivity|]. lia. Qed.

Lemma utf8_slash_map f s : slash_map f -> utf8_valid (map f s) = utf8_valid s.
Proof.
  intros Hf. remember (length s) as n eqn:Hn. assert (Hle : (length s <= n)%nat) by lia. clear Hn.
  revert s Hle. induction n as [|n IH]; intros s Hle.
  - destruct s; [reflexivity|cbn in Hle; lia].
  - destruct s as [|a s1]; [reflexivity|]. cbn [map length] in *.
    cbn [utf8_valid]. rewrite slash_map_ascii by assumption.
    destruct (brange 0 127 a); [apply IH; lia|].
    destruct s1 as [|b s2]; [reflexivity|]. cbn [map length] in *.
    rewrite !slash_map_range by (assumption || lia).
    destruct (brange 194 223 a); [now rewrite IH by lia|].
    destruct s2 as [|c s3]; [reflexivity|]. cbn [map length] in *.
    rewrite !slash_map_range, !slash_map_eq by (assumption || lia).
    destruct (brange 224 239 a); [now rewrite IH by lia|].
    destruct s3 as [|d s4]; [reflexivity|]. cbn [map length] in *.
    rewrite !slash_map_range by (assumption || lia).
    now rewrite IH by lia.
Qed.

Lemma slash_map_replace a b : Z_of_byte a < 128 -> Z_of_byte b < 128 ->
  slash_map (fun c => if Byte.eqb c a then b else c).
Proof.
  intros Ha Hb c. destruct (Byte.eqb c a) eqn:E; [|now left].
  apply Byte.byte_dec_bl in E. subst. now right.
Qed.

Definition saved_source_file (s : source_file) : source_file :=
  {| sf_id := sf_id s; sf_path_hash := sf_path_hash s;
     sf_path := replace_byte b_backslash b_slash (replace_byte b_slash b_backslash (sf_path s)) |}.

Lemma reads_source_file s : source_file_ok s -> reads (enc_source_file s) dec_source_file (saved_source_file s).
Proof.
  intros (H1 & H2 & H3 & H4). unfold enc_source_file, dec_source_file.
  eapply reads_bind; [now apply (rt_u 4)|].
  eapply reads_bind; [now apply (rt_u 8)|].
  eapply reads_bind_pure; [|apply reads_str; split].
  - reflexivity.
  - unfold replace_byte. rewrite utf8_slash_map; [assumption|]. now apply slash_map_replace.
  - unfold replace_byte. now rewrite map_length.
Qed.

Lemma byte_eqb_spec a b : reflect (a = b) (Byte.eqb a b).
Proof.
  destruct (Byte.eqb a b) eqn:E; constructor.
  - now apply Byte.byte_dec_bl.
  - intros ->. rewrite (Byte.byte_dec_lb eq_refl) in E. discriminate.
Qed.

Lemma source_file_saved_lemma s : source_file_saved s (saved_source_file s).
Proof.
  unfold source_file_saved. cbn [saved_source_file sf_id sf_path_hash sf_path].
  split; [reflexivity|]. split; [reflexivity|]. unfold replace_byte.
  split; [now rewrite !map_length|]. intros i b Hb. rewrite !nth_error_map, Hb. cbn [option_map]. f_equal.
  destruct (byte_eqb_spec b b_slash) as [->|N]; [reflexivity|].
  destruct (Byte.eqb b b_backslash); reflexivity.
Qed.

Definition saved_any (d : any_def) : any_def :=
  match d with
  | DClass c => DClass (saved_class c)
  | DFunction f => DFunction (saved_function f)
  | DField f => DField (saved_field f)
  | DSourceFile s => DSourceFile (saved_source_file s)
  | _ => d
  end.

Lemma any_saved_lemma d : any_saved d (saved_any d).
Proof.
  destruct d; cbn; try reflexivity.
  - apply class_saved_lemma.
  - apply function_saved_lemma.
  - apply field_saved_lemma.
  - apply source_file_saved_lemma.
Qed.

Lemma reads_any d : any_ok d -> has_source d -> reads (enc_any d) (dec_any (def_tag d)) (saved_any d).
Proof.
  intros H Hs. destruct d; cbn [any_ok] in H; cbn [enc_any def_tag dec_any saved_any];
    (eapply reads_bind_pure;
     [|first [ apply reads_ty | apply reads_class | apply (rt_s 8); [lia|] | apply reads_enum
             | apply reads_function | apply reads_parameter | apply reads_local
             | apply reads_field | apply reads_source_file ]; eassumption]); reflexivity.
Qed.

Lemma definition_roundtrip_lemma d : any_ok d -> has_source d ->
  exists bs d', enc_any d = Ok bs /\ any_saved d d' /\
    forall rest, dec_any (def_tag d) (bs ++ rest) = Ok (d', rest).
Proof.
  intros H Hs. destruct (reads_any d H Hs) as (bs & Hb & Hr).
  exists bs, (saved_any d). split; [assumption|]. split; [apply any_saved_lemma|assumption].
Qed.

(** Uniqueness of the saved form of a canonical definition. *)
Lemma flags_eq w w' ks : (forall k, In k ks -> Z.testbit w' k = Z.testbit w k) ->
  agree_except ks w w' -> w' = w.
Proof.
  intros Hk Ha. apply Z.bits_inj'. intros i Hi.
  destruct (in_dec Z.eq_dec i ks); [now apply Hk|now apply Ha].
Qed.

Lemma iff_bool_eq (a b : bool) P : (a = true <-> P) -> (b = true <-> P) -> a = b.
Proof. destruct a, b; intuition congruence. Qed.

Lemma nth_error_ext {A} (l1 l2 : list A) :
  length l1 = length l2 -> (forall i a, nth_error l1 i = Some a -> nth_error l2 i = Some a) -> l2 = l1.
Proof.
  revert l2; induction l1 as [|a l1 IH]; intros [|b l2] Hl H; cbn in Hl; try discriminate; [reflexivity|].
  f_equal.
  - specialize (H O a eq_refl). cbn in H. congruence.
  - apply IH; [lia|]. intros i c Hc. exact (H (S i) c Hc).
Qed.

Lemma any_saved_canonical d d' : any_saved d d' -> any_canonical d -> d' = d.
Proof.
  destruct d; destruct d'; cbn [any_saved any_canonical]; try contradiction; try (intros -> _; reflexivity);
    try (intros; congruence).
  - intros (H1 & H2 & H3 & H4 & H5 & H6 & C4 & C5 & C8) (D4 & D5 & D8).
    rewrite H3, H4, H5 in *. f_equal.
    assert (cl_flags c0 = cl_flags c).
    { apply flags_eq with (ks := [4; 5; 8]); [|assumption]. cbn.
      intros k [<-|[<-|[<-|[]]]]; eapply iff_bool_eq; eassumption. }
    destruct c, c0; cbn in *; congruence.
  - intros (H1 & H2 & H3 & H4 & H5 & H6 & H7 & H8 & H9 & H10 & H11 & H12 & C8 & C9 & C10 & C11 & C7 & C12)
      (D4 & D8 & D8' & D9 & D10 & D11 & D7 & D13 & D12 & D23).
    assert (E : fu_flags f0 = fu_flags f).
    { apply flags_eq with (ks := [7; 8; 9; 10; 11; 12]); [|assumption].
      intros k. cbn. intros [<-|[<-|[<-|[<-|[<-|[<-|[]]]]]]]; eapply iff_bool_eq; eassumption. }
    assert (E1 : fu_source f0 = fu_source f).
    { rewrite H2. destruct (Z.testbit (fu_flags f) 4) eqn:T; [|reflexivity].
      destruct (fu_source f); [|reflexivity]. destruct D4 as [_ D4].
      exfalso. enough (true = false) by discriminate. apply D4. discriminate. }
    assert (E2 : fu_unk1 f0 = fu_unk1 f).
    { rewrite H4. destruct (fu_return_type f); [reflexivity|]. symmetry. now apply D8'. }
    assert (E3 : fu_cast f0 = fu_cast f).
    { rewrite H9. destruct (Z.testbit (fu_flags f) 13); [reflexivity|]. symmetry. now apply D13. }
    assert (E4 : fu_unk2 f0 = fu_unk2 f).
    { rewrite H11. destruct (Z.testbit (fu_flags f) 23); [reflexivity|]. symmetry. now apply D23. }
    f_equal. clear - E E1 E2 E3 E4 H1 H3 H5 H6 H7 H8 H10. destruct f, f0; cbn in *; congruence.
  - intros (H1 & H2 & H3 & H4 & H5 & H6 & C5) D5. unfold field_canonical in *. rewrite H3 in C5.
    assert (fi_flags f0 = fi_flags f).
    { apply flags_eq with (ks := [5]); [|assumption]. intros k. cbn. intros [<-|[]]. eapply iff_bool_eq; eassumption. }
    f_equal. destruct f, f0; cbn in *; congruence.
  - intros (H1 & H2 & H3 & H4) Hc. unfold source_file_canonical in Hc.
    assert (sf_path s0 = sf_path s).
    { apply nth_error_ext; [congruence|]. intros i b Hb. rewrite (H4 i b Hb).
      destruct (byte_eqb_spec b b_backslash) as [->|]; [|reflexivity].
      exfalso. apply Hc. eapply nth_error_In; eassumption. }
    f_equal. destruct s, s0; cbn in *; congruence.
Qed.

Lemma any_saved_self d : has_source d -> any_saved d d -> any_canonical d.
Proof.
  destruct d; cbn [any_saved any_canonical has_source]; trivial; intros Hs.
  - intros H. apply H.
  - intros (H1 & H2 & H3 & H4 & H5 & H6 & H7 & H8 & H9 & H10 & H11 & H12 & C8 & C9 & C10 & C11 & C7 & C12).
    unfold function_canonical.
    split; [split; [exact Hs|]|]. { intros Hn. destruct (Z.testbit (fu_flags f) 4); [congruence|reflexivity]. }
    split; [assumption|]. split; [now intros E; rewrite E in H4|].
    split; [assumption|]. split; [assumption|]. split; [assumption|]. split; [assumption|].
    split; [intros E; now rewrite E in H9|]. split; [assumption|]. intros E; now rewrite E in H11.
  - intros H. apply H.
  - intros (_ & _ & _ & H) Hin. apply In_nth_error in Hin. destruct Hin as [i Hi].
    specialize (H i _ Hi). rewrite Hi in H. discriminate.
Qed.

(** A decoded non-native function always has a source reference. *)
Lemma dec_function_source i f r :
  dec_function i = Ok (f, r) -> Z.testbit (fu_flags f) 4 = false -> fu_source f <> None.
Proof.
  intros H Hn. unfold dec_function in H.
  apply pbind_inv in H; destruct H as (v & i1 & _ & H).
  apply pbind_inv in H; destruct H as (fl & i2 & _ & H).
  apply pbind_inv in H; destruct H as (src & i3 & Hsrc & H).
  do 9 (apply pbind_inv in H; destruct H as (? & ? & _ & H)).
  unfold pret in H. injection H as <- <-. cbn [fu_flags fu_source] in *.
  unfold get_flag, fn_is_native in Hsrc. rewrite Hn in Hsrc. cbn [negb dec_opt] in Hsrc.
  apply pbind_inv in Hsrc. destruct Hsrc as (? & ? & _ & H). unfold pret in H. congruence.
Qed.

Lemma canonical_has_source d : any_canonical d -> has_source d.
Proof. destruct d; cbn; trivial. intros [H _]. apply H. Qed.

(** Encoding never fails on representable values. *)
Lemma reads_ok {A} w (p : parser A) a : reads w p a -> exists bs, w = Ok bs.
Proof. intros (bs & H & _). eauto. Qed.

Lemma enc_function_ok f : function_ok f -> exists bs, enc_function f = Ok bs.
Proof.
  intros H. destruct (Z.testbit (fu_flags f) 4) eqn:N.
  - destruct (reads_function f H) as (bs & Hb & _); [cbn [has_source]; congruence|]. eauto.
  - destruct (fu_source f) as [s|] eqn:S.
    + destruct (reads_function f H) as (bs & Hb & _); [cbn [has_source]; congruence|]. eauto.
    + (* set the native bit: the encoding differs only in the flag word *)
      set (g := {| fu_visibility := fu_visibility f; fu_flags := Z.setbit (fu_flags f) 4;
                   fu_source := None; fu_return_type := fu_return_type f; fu_unk1 := fu_unk1 f;
                   fu_base_method := fu_base_method f; fu_parameters := fu_parameters f;
                   fu_locals := fu_locals f; fu_operator := fu_operator f; fu_cast := fu_cast f;
                   fu_code := fu_code f; fu_unk2 := fu_unk2 f |}).
      assert (Hg : function_ok g).
      { destruct H as (H1 & H2 & H3). split; [|split; [exact I|exact H3]]. cbn.
        change (Z.setbit (fu_flags f) 4) with (with_flag 4 true (fu_flags f)).
        apply with_flag_range; [lia|assumption]. }
      assert (Hn : Z.testbit (fu_flags g) 4 = true) by (cbn [g fu_flags]; apply Z.setbit_eq; lia).
      assert (Hs : has_source (DFunction g)) by (cbn [has_source]; intros E; rewrite Hn in E; discriminate).
      destruct (reads_function g Hg Hs) as (bs & Hb & _).
      revert Hb. unfold enc_function. cbv zeta.
      assert (Hbit : forall k, 0 <= k -> k <> 4 ->
        get_flag k (function_out_flags f) = get_flag k (function_out_flags g)).
      { intros k Hk Hk4. flagw. cbn [g fu_flags fu_code fu_operator fu_locals fu_parameters fu_unk2 fu_base_method fu_return_type].
        repeat match goal with |- context [k =? ?j] => destruct (Z.eqb_spec k j); [reflexivity|] end.
        change (Z.setbit (fu_flags f) 4) with (with_flag 4 true (fu_flags f)).
        rewrite with_flag_spec by lia. destruct (Z.eqb_spec k 4); [lia|reflexivity]. }
      unfold fn_is_native, fn_has_parameters, fn_has_locals, fn_is_cast, fn_has_body, fn_unk4 in *.
      rewrite !(Hbit 10), !(Hbit 11), !(Hbit 13), !(Hbit 12), !(Hbit 23) by lia.
      assert (Ef : get_flag 4 (function_out_flags f) = false) by (flagw; assumption).
      assert (Eg : get_flag 4 (function_out_flags g) = true) by (flagw; assumption).
      rewrite Ef, Eg, S. cbn [negb enc_opt].
      unfold enc_flags, enc_i.
      cbn [g fu_visibility fu_return_type fu_unk1 fu_base_method fu_parameters fu_locals fu_operator fu_cast fu_code fu_unk2].
      match goal with |- context [enc_visibility ?v +++ Ok ?x +++ Ok [] +++ ?w] =>
        generalize (enc_visibility v); generalize w end.
      intros w w0. rewrite !wapp_ok. intros (x & y & -> & Hy & _).
      apply wapp_ok in Hy. destruct Hy as (x1 & y1 & _ & Hy & _).
      apply wapp_ok in Hy. destruct Hy as (x2 & y2 & _ & -> & _).
      cbn. eauto.
Qed.

Lemma enc_any_ok d : any_ok d -> exists bs, enc_any d = Ok bs.
Proof.
  intros H. destruct d; try (eapply reads_ok; apply reads_any; [exact H|exact I]).
  now apply enc_function_ok.
Qed.

Lemma definition_unchanged_iff_lemma d : any_ok d ->
  exists bs, enc_any d = Ok bs /\
    ((forall rest, dec_any (def_tag d) (bs ++ rest) = Ok (d, rest)) <-> any_canonical d).
Proof.
  intros H. destruct (enc_any_ok d H) as [bs Hb]. exists bs. split; [assumption|]. split.
  - intros Hd.
    assert (Hs : has_source d).
    { destruct d; cbn; trivial. specialize (Hd []). cbn [def_tag dec_any] in Hd.
      apply pbind_inv in Hd. destruct Hd as (f' & i' & Hf & Hp). unfold pret in Hp.
      assert (f' = f) by congruence. subst f'. eapply dec_function_source; eassumption. }
    destruct (reads_any d H Hs) as (bs' & Hb' & Hr).
    assert (bs' = bs) by congruence. subst bs'.
    specialize (Hd []). specialize (Hr []). rewrite Hd in Hr.
    assert (E : d = saved_any d) by congruence.
    apply any_saved_self; [assumption|]. rewrite E at 2. apply any_saved_lemma.
  - intros Hc. destruct (reads_any d H (canonical_has_source d Hc)) as (bs' & Hb' & Hr).
    assert (bs' = bs) by congruence. subst bs'.
    now rewrite (any_saved_canonical d (saved_any d) (any_saved_lemma d) Hc) in Hr.
Qed.
