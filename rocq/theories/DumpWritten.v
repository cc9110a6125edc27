(** What is written for definitions that can be read back. *)
From Coq Require Import String.
From Coq Require Import ZArith List Bool Lia.
From Verif Require Import Bytes BytesFacts Bytecode Definitions DefinitionsFacts Bundle BundleFacts Ast TypeNames Pool Scope TypeCheck Symbols Printer Parser Decompiler Dump PrintSpec ParserFacts TextFacts PrintSteps PrintFacts P_Print Unit Grammar GrammarFacts StatementSpec StatementFacts P_Statement DumpSpec DumpFacts.
Import ListNotations.
Open Scope nat_scope.

Section Written.
Variables (fl : float_text) (v : bool) (p : pool).
Notation at_ := (at_ p). Notation named := (named p). Notation typed := (typed p).

(** With enough steps. *)
Definition writes (m : nat -> written) (t : str) : Prop := exists n0, forall n, n0 <= n -> m n = (t, Done tt).
Lemma writes_then a b s t : writes a s -> writes b t -> writes (fun n => wthen (a n) (b n)) (s ++ t).
Proof. intros [n1 H1] [n2 H2]. exists (n1 + n2). intros n L. rewrite H1, H2 by lia. reflexivity. Qed.
Lemma writes_put t : writes (fun _ => wput t) t.
Proof. now exists 0. Qed.
Lemma writes_all {A} (g : A -> nat -> written) l ts : Forall2 (fun a t => writes (g a) t) l ts -> writes (fun n => wall (map (fun a => g a n) l)) (concat ts).
Proof. intros F. induction F as [|a t l ts H F IH]; cbn [map wall concat]; [apply writes_put|]. now apply writes_then. Qed.
Lemma writes_less m t : writes m t -> writes (fun n => m (pred n)) t.
Proof. intros [n0 H]. exists (S n0). intros n L. apply H. lia. Qed.
Lemma writes_ext m m' t : writes m t -> (forall n, m (S n) = m' (S n)) -> writes m' t.
Proof. intros [n0 H] E. exists (S n0). intros n L. destruct n as [|n]; [lia|]. rewrite <- E. apply H. lia. Qed.
Lemma writes_logged m t : writes m t -> writes (fun n => wlogged (m n)) t.
Proof. intros [n0 H]. exists n0. intros n L. now rewrite H. Qed.

Lemma of_at i d : at_ i d -> of_pool (get_def p i) = Done d.
Proof. intros H. unfold DumpSpec.at_ in H. now rewrite H. Qed.
Lemma of_named d name : named d name -> name_of p d = Done name.
Proof. intros H. unfold name_of, of_string. unfold DumpSpec.named in H. now rewrite H. Qed.
Lemma type_written i t : typed i t -> exists n0, forall n, n0 <= n -> type_at n p i = Done (pretty t).
Proof.
  intros T. induction T as [i d t name A V K N|i d t w j u A V W T IH].
  - exists 1. intros n L. destruct n as [|n]; [lia|]. unfold type_at. rewrite (of_at i d A). cbn [obind format_type]. rewrite V.
    destruct K as [-> | ->]; now apply of_named.
  - destruct IH as [n0 IH]. exists (S n0). intros n L. destruct n as [|n]; [lia|]. specialize (IH n ltac:(lia)). unfold type_at in *. rewrite (of_at i d A). cbn [obind format_type]. rewrite V.
    destruct t; cbn [wrapper] in W; try discriminate; injection W as <- <-; rewrite IH; cbn [pretty map join]; reflexivity.
Qed.

(** ** Parameters *)
Lemma param_written i : readable_parameter p i -> exists s n0, describes_parameter p i s /\ param_ok s /\
  forall n, n0 <= n -> (let* e := of_pool (get_def p i) in format_param n p e) = Done (param_text s).
Proof.
  intros (d & a & name & A & V & N & Nn & Q & t & T & Ot). destruct (type_written _ _ T) as [n0 H].
  set (table := [(get_flag pf_is_const (pa_flags a), QConst); (get_flag pf_is_out (pa_flags a), QOut); (get_flag pf_is_optional (pa_flags a), QOptional)]).
  exists (ParamSource (chosen table) name t), n0. split; [|split].
  - constructor. exists d, a. cbn [ps_name ps_type ps_qualifiers]. repeat split; try assumption; apply chosen_exactly.
  - now split.
  - intros n L. rewrite (of_at i d A). cbn [obind]. unfold format_param. rewrite V, H by exact L. cbn [obind]. rewrite (of_named d name N). cbn [obind]. unfold param_text. cbn [ps_name ps_type ps_qualifiers].
    rewrite <- words_chosen. reflexivity.
Qed.
Lemma params_written l : Forall (readable_parameter p) l -> exists ss n0, Forall2 (describes_parameter p) l ss /\ Forall param_ok ss /\
  forall n, n0 <= n -> write_params (map (fun i => unwrapped (let* e := of_pool (get_def p i) in format_param n p e)) l) = (join (lit ", ") (map param_text ss), Done tt).
Proof.
  intros F. induction F as [|i l R F (ss & n0 & D & O & W)].
  - exists [], 0. repeat split; constructor.
  - destruct (param_written i R) as (s & n1 & Ds & Os & Ws). exists (s :: ss), (n0 + n1). split; [now constructor|]. split; [now constructor|].
    intros n L. cbn [map]. rewrite Ws by lia. specialize (W n ltac:(lia)). inversion D; subst; [reflexivity|]. cbn [map] in *.
    match goal with |- write_params (?a :: ?b :: ?m) = _ => change (write_params (a :: b :: m)) with (wthen (wget a wput) (wthen (wput (lit ", ")) (write_params (b :: m)))) end.
    rewrite W. cbn [unwrapped wget wput wthen fst snd]. now rewrite app_assoc_reverse || reflexivity.
Qed.

(** ** Functions *)
Lemma function_written depth d f : readable_function v p d f -> exists text s, writes (fun n => write_function fl v p n d f depth) text /\ describes_function v p d f s /\
  starts_with (fun w => is_qualifier_word w = true) text /\
  forall A (r : rule A) k n, (forall i f j, rfunction fl n i = PMatch f j -> r i = PMatch (k f) j) -> piece r n text (k s).
Proof.
  intros [(name & N & Nn) Rt Ps Bd].
  assert (T : exists t n0, match fu_return_type f with None => t = TypeName (lit "Void") None | Some i => typed i t end /\ type_ok t = true /\
    forall n, n0 <= n -> match fu_return_type f with None => Done (lit "Void") | Some i => unwrapped (type_at n p i) end = Done (pretty t)).
  { destruct (fu_return_type f) as [i|].
    - destruct Rt as (t & T & O). destruct (type_written i t T) as [n0 H]. exists t, n0. split; [exact T|]. split; [exact O|]. intros n L. now rewrite H.
    - exists (TypeName (lit "Void") None), 0. split; [reflexivity|]. split; reflexivity. }
  destruct T as (t & n1 & Tt & Ot & Wt). destruct (params_written _ Ps) as (ss & n2 & Dp & Op & Wp).
  assert (B : exists tb b n3, (if get_flag fn_has_body (fu_flags f) then exists code body, yields p f d code /\ b = Some body /\ same_body v code body else b = None) /\
    (forall m, body_part fl m tb b) /\ forall n, n3 <= n -> (if get_flag fn_has_body (fu_flags f) then write_body fl v p n f d depth else wput (lit ";")) = (tb, Done tt)).
  { destruct (get_flag fn_has_body (fu_flags f)).
    - destruct (Bd eq_refl) as (code & [n3 Y] & O). destruct (C54_printed_bodies_read_back_partial fl v code depth O) as (tx & es' & Px & S & Rx).
      unfold printed_body, put, newline, indent in Px. apply cat_cons in Px as (? & ? & [= <-] & Px & ->). apply cat_cons in Px as (? & ? & [= <-] & Px & ->). apply cat_cons in Px as (tc & ? & Ec & Px & ->).
      apply cat_cons in Px as (? & ? & [= <-] & Px & ->). apply cat_cons in Px as (? & ? & [= <-] & Px & ->). cbn [cat] in Px. injection Px as <-. rewrite app_nil_r in Rx.
      exists (lit " " ++ lit "{" ++ newline_ ++ tc ++ spaces depth ++ lit "}"), (Some es'), n3. split; [|split].
      + exists code, es'. split; [now exists n3|]. now split.
      + intros m. exists (newline_ ++ tc ++ spaces depth ++ lit "}"). split; [reflexivity|]. intros rest L. rewrite <- Rx with (n := m) (rest := rest); [|rewrite <- !app_assoc in *; exact L]. now rewrite <- !app_assoc.
      + intros n L. unfold write_body. rewrite Y by exact L. cbn [wall wget]. rewrite Ec. cbn [wget wput wthen fst snd]. f_equal. rewrite app_nil_r. rewrite <- !app_assoc. reflexivity.
    - exists (lit ";"), None, 0. split; [reflexivity|]. split; reflexivity. }
  destruct B as (tb & b & n3 & Db & Pb & Wb).
  set (table := [(true, of_visibility (fu_visibility f)); (get_flag fn_is_final (fu_flags f), QFinal); (get_flag fn_is_static (fu_flags f), QStatic);
     (get_flag fn_is_native (fu_flags f), QNative); (get_flag fn_is_exec (fu_flags f), QExec); (get_flag fn_is_const (fu_flags f), QConst);
     (get_flag fn_is_quest (fu_flags f), QQuest); (get_flag fn_is_callback (fu_flags f), QCallback)]).
  exists (spaced depth (function_head (chosen table) (short_name name) ss t ++ tb ++ newline_)), (FunctionSource (Decl [] (chosen table) (short_name name) span0) (Some t) ss b span0).
  split; [|split; [|split]].
  - exists (n1 + n2 + n3). intros n L. unfold write_function. rewrite Wt by lia. cbn [wget]. rewrite (of_named d name N). cbn [wget wall]. rewrite Wp, Wb by lia.
    cbn [wput wthen fst snd]. f_equal. rewrite app_nil_r. unfold spaced, function_head. rewrite <- words_chosen. rewrite <- !app_assoc. destruct (fu_visibility f); reflexivity.
  - constructor; cbn [fs_decl fs_type fs_parameters fs_body dc_name dc_annotations dc_qualifiers]; try assumption; try reflexivity.
    + now exists name.
    + apply chosen_exactly.
    + destruct (fu_return_type f); [now exists t|now rewrite Tt].
  - exists (lit (qualifier_word (of_visibility (fu_visibility f)))). split; [now destruct (fu_visibility f)|]. split; [apply word_name|].
    intros rest. rewrite spaced_blanks by apply front_app, function_front. unfold function_head, chosen, table. cbn [filter fst map snd concat]. unfold qualifier_text at 1. rewrite <- !app_assoc. eexists. split; [reflexivity|reflexivity].
  - intros A r k n H. apply function_piece with (fl := fl); try assumption. apply Pb.
Qed.

(** ** Fields *)
Lemma field_written depth d f : readable_field p d f -> exists text s, writes (fun n => write_field p n d f depth) text /\ describes_field p d f s /\
  forall n, piece (rmember fl n) n text (MemberField s).
Proof.
  intros [(name & N & Nn) (t & T & Ot) (F1 & F2 & F3) Df At]. destruct (type_written _ _ T) as [n0 Wt].
  set (table := [(true, of_visibility (fi_visibility f)); (get_flag ff_is_native (fi_flags f), QNative); (get_flag ff_is_persistent (fi_flags f), QPersistent);
     (get_flag ff_is_const (fi_flags f), QConst)]).
  exists (field_text depth (fi_attributes f) (chosen table) name t), (FieldSource (Decl (map property_annotation (fi_attributes f)) (chosen table) name span0) t None).
  split; [|split].
  - exists n0. intros n L. unfold write_field. rewrite Wt by exact L. cbn [wget]. rewrite (of_named d name N). cbn [wget]. unfold wput. f_equal. rewrite Df, F1, F2, F3. unfold field_text. rewrite <- words_chosen.
    cbn [map concat app]. destruct (fi_visibility f); reflexivity.
  - constructor; cbn [fd_decl fd_type fd_default dc_name dc_annotations dc_qualifiers]; try assumption; try reflexivity. apply chosen_exactly.
  - intros n. now apply field_piece.
Qed.

(** ** Members *)
Lemma members_written (X : Type) (g : pidx -> nat -> written) (P : pidx -> Prop) (Q : pidx -> X -> Prop) (k : X -> member_source) l :
  (forall i, P i -> exists t s, writes (g i) t /\ Q i s /\ forall n, piece (rmember fl n) n t (k s)) -> Forall P l ->
  exists ts ss, Forall2 (fun i t => writes (g i) t) l ts /\ Forall2 Q l ss /\ forall n, Forall2 (piece (rmember fl n) n) ts (map k ss).
Proof.
  intros H F. induction F as [|i l Pi F (ts & ss & I1 & I2 & I3)]; [exists [], []; repeat split; constructor|].
  destruct (H i Pi) as (t & s & H1 & H2 & H3). exists (t :: ts), (s :: ss). split; [now constructor|]. split; [now constructor|]. intros n. cbn [map]. now constructor.
Qed.
Definition member_at (depth : nat) (i : pidx) (n : nat) : written := wget (of_pool (get_def p i)) (fun e => write_definition fl v p (pred n) e (depth + 1)).
Definition logged_at (depth : nat) (i : pidx) (n : nat) : written := wget (of_pool (get_def p i)) (fun e => wlogged (write_definition fl v p (pred n) e (depth + 1))).
Lemma class_written d k : df_value d = DClass k -> readable_class v p d k -> exists text s, writes (fun n => write_definition fl v p n d 0) text /\ describes_class v p d k s /\
  starts_with (fun w => is_qualifier_word w = true) text /\ forall n, piece (rentry fl n) n text (EntryClass (get_flag cf_is_struct (cl_flags k)) s).
Proof.
  intros V [(name & N & Nn) Bs Fs Gs].
  destruct (members_written field_source (member_at 0) (fun i => exists d f, at_ i d /\ df_value d = DField f /\ readable_field p d f) (fun i s => exists d f, at_ i d /\ df_value d = DField f /\ describes_field p d f s) MemberField (cl_fields k)) as (tf & fs & Wf & Df & Pf).
  { intros i (d' & f & A & V' & R). destruct (field_written 1 d' f R) as (t & s & W & D & P). exists t, s. split; [|split; [now exists d', f|exact P]].
    unfold member_at. rewrite (of_at i d' A). cbn [wget]. apply (writes_less (fun n => write_definition fl v p n d' (0 + 1))). apply (writes_ext _ (fun n => write_definition fl v p n d' (0 + 1)) t (writes_less _ _ W)). intros n. cbn [pred write_definition]. now rewrite V'. }
  { exact Fs. }
  destruct (members_written function_source (logged_at 0) (fun i => exists d f, at_ i d /\ df_value d = DFunction f /\ readable_function v p d f) (fun i s => exists d f, at_ i d /\ df_value d = DFunction f /\ describes_function v p d f s) MemberFunction (cl_functions k)) as (tg & gs & Wg & Dg & Pg).
  { intros i (d' & f & A & V' & R). destruct (function_written 1 d' f R) as (t & s & W & D & _ & P). exists t, s. split; [|split; [now exists d', f|]].
    - unfold logged_at. rewrite (of_at i d' A). cbn [wget]. apply writes_logged, (writes_less (fun n => write_definition fl v p n d' (0 + 1))).
      apply (writes_ext _ (fun n => write_definition fl v p n d' (0 + 1)) t (writes_less _ _ W)). intros n. cbn [pred write_definition]. now rewrite V'.
    - intros n. apply (P member_source (rmember fl n) MemberFunction n). intros i' f' j' E. unfold rmember, ralt. now erewrite seq_step by exact E. }
  { exact Gs. }
  assert (Bb : exists base, match base with Some b => is_name b = true /\ get_flag cf_is_struct (cl_flags k) = false | None => True end /\
    (if (cl_base k =? UNDEFINED)%Z then base = None else exists b bn, at_ (cl_base k) b /\ named b bn /\ base = Some bn) /\
    (if (cl_base k =? UNDEFINED)%Z then wput [] else wthen (wput []) (wget (of_pool (def_name p (cl_base k))) (fun b => wput (lit "extends " ++ b ++ lit " ")))) =
    wput match base with Some b => lit "extends " ++ b ++ lit " " | None => [] end).
  { destruct (Z.eqb_spec (cl_base k) UNDEFINED) as [E|E]; [now exists None|]. destruct Bs as [C|(St & b & A & bn & Nb & Ob)]; [contradiction|]. exists (Some bn). split; [now split|]. split; [now exists b, bn|].
    unfold def_name. unfold DumpSpec.at_ in A. rewrite A. cbn [obind]. unfold DumpSpec.named in Nb. rewrite Nb. reflexivity. }
  destruct Bb as (base & Ob & Db & Wb).
  set (table := [(true, of_visibility (cl_visibility k)); (get_flag cf_is_abstract (cl_flags k), QAbstract); (get_flag cf_is_final (cl_flags k), QFinal);
     (get_flag cf_is_import_only (cl_flags k), QImportOnly); (negb (get_flag cf_is_import_only (cl_flags k)) && get_flag cf_is_native (cl_flags k), QNative)]).
  exists (class_text (get_flag cf_is_struct (cl_flags k)) (chosen table) name base (tf ++ tg)), (ClassSource (Decl [] (chosen table) name span0) base (map MemberField fs ++ map MemberFunction gs) span0).
  split; [|split; [|split]].
  - pose proof (writes_all _ _ _ Wf) as [n1 W1]. pose proof (writes_all _ _ _ Wg) as [n2 W2]. exists (S (n1 + n2)). intros n L. specialize (W1 n ltac:(lia)). specialize (W2 n ltac:(lia)).
    destruct n as [|n]; [lia|]. unfold member_at, logged_at in W1, W2. cbn [pred] in W1, W2. cbn [write_definition]. rewrite V. rewrite (of_named d name N), Wb.
    change (0 + 1) with 1 in *. cbn [wall]. rewrite W1, W2. cbn [wget wput wthen fst snd]. f_equal. rewrite app_nil_r. unfold class_text, spaced, class_head. rewrite concat_app, <- words_chosen. rewrite <- !app_assoc.
    destruct (cl_visibility k), (get_flag cf_is_struct (cl_flags k)); unfold table; cbn [map words fst snd concat show_visibility of_visibility qualifier_word negb]; rewrite <- ?app_assoc; reflexivity.
  - constructor; cbn [cs_decl cs_base cs_members dc_name dc_annotations dc_qualifiers]; try assumption; try reflexivity; [apply chosen_exactly|]. now exists fs, gs.
  - exists (lit (qualifier_word (of_visibility (cl_visibility k)))). split; [now destruct (cl_visibility k)|]. split; [apply word_name|].
    intros rest. unfold class_text. rewrite spaced_blanks by (apply front_app; unfold class_head; rewrite app_assoc; apply front_app, quals_front; now destruct (get_flag cf_is_struct (cl_flags k))).
    unfold class_head, chosen, table. cbn [filter fst map snd concat]. unfold qualifier_text at 1. rewrite <- !app_assoc. eexists. split; [reflexivity|reflexivity].
  - intros n. apply class_piece; try assumption. apply Forall2_app; [apply Pf|apply Pg].
Qed.

(** ** Enums *)
Lemma enum_written d e : df_value d = DEnum e -> readable_enum p d e -> exists text s, writes (fun n => write_definition fl v p n d 0) text /\ describes_enum p d e s /\
  starts_with (fun w => w = lit "enum") text /\ forall n, piece (rentry fl n) n text (EntryEnum s).
Proof.
  intros V [(name & N & Nn) Ms].
  assert (M : exists ms, Forall2 (fun i m => exists d, at_ i d /\ df_value d = DEnumValue (snd m) /\ named d (fst m)) (en_members e) ms /\ Forall member_ok ms /\
    Forall2 (fun i t => writes (member_at 0 i) t) (en_members e) (map member_text ms)).
  { induction Ms as [|i l (d' & z & A & V' & (mn & Nm & Om) & Rz) Ms (ms & M1 & M2 & M3)]; [exists []; repeat split; constructor|].
    exists ((mn, z) :: ms). split; [constructor; [now exists d'|exact M1]|]. split; [constructor; [now split|exact M2]|]. cbn [map]. constructor; [|exact M3].
    exists 2. intros n L. unfold member_at. rewrite (of_at i d' A). cbn [wget]. destruct n as [|[|n]]; [lia|lia|]. cbn [pred write_definition]. rewrite V'. rewrite (of_named d' mn Nm). cbn [wget]. unfold wput. f_equal.
    unfold member_text, member_core. cbn [fst snd]. now rewrite <- !app_assoc. }
  destruct M as (ms & M1 & M2 & M3). exists (enum_text name ms), (EnumSource (Decl [] [] name span0) ms span0). split; [|split; [|split]].
  - pose proof (writes_all _ _ _ M3) as [n1 W1]. exists (S n1). intros n L. specialize (W1 n ltac:(lia)). destruct n as [|n]; [lia|]. unfold member_at in W1. cbn [pred] in W1. cbn [write_definition]. rewrite V.
    rewrite (of_named d name N). cbn [wget wall]. rewrite W1. cbn [wput wthen fst snd]. reflexivity.
  - constructor; cbn [es_decl es_members dc_name dc_annotations dc_qualifiers]; try assumption. now split.
  - exists (lit "enum"). split; [reflexivity|]. split; [reflexivity|]. intros rest. eexists. split; [unfold enum_text; rewrite <- !app_assoc; change (newline_ ++ ?x) with (byte_of_Z 10 :: x); rewrite blanks_skip by reflexivity; reflexivity|reflexivity].
  - intros n. now apply enum_piece.
Qed.

(** ** The whole text *)
Lemma root_written d : readable v p d -> exists text e, writes (fun n => write_definition fl v p n d 0) text /\ describes v p d e /\
  starts_with (fun w => w <> lit "module" /\ w <> lit "import") text /\ forall n, piece (rentry fl n) n text e.
Proof.
  unfold readable, describes. destruct (df_value d) as [t|k|z|e|f|a|l|f|s] eqn:V; try contradiction; intros R.
  - destruct (class_written d k V R) as (text & s & W & D & (w & S & N & St) & P). exists text, (EntryClass (get_flag cf_is_struct (cl_flags k)) s). split; [exact W|]. split; [now exists s|]. split; [|exact P].
    exists w. split; [split; intros ->; discriminate S|now split].
  - destruct (enum_written d e V R) as (text & s & W & D & (w & -> & N & St) & P). exists text, (EntryEnum s). split; [exact W|]. split; [now exists s|]. split; [|exact P].
    exists (lit "enum"). split; [split; discriminate|now split].
  - destruct (function_written 0 d f R) as (text & s & W & D & (w & S & N & St) & P). exists text, (EntryFunction s). split; [|split; [now exists s|split]].
    + apply (writes_ext _ (fun n => write_definition fl v p n d 0) text (writes_less _ _ W)). intros n. cbn [pred write_definition]. now rewrite V.
    + exists w. split; [split; intros ->; discriminate S|now split].
    + intros n. apply (P source_entry (rentry fl n) EntryFunction n). intros i f' j E. unfold rentry, ralts. cbn [fold_right]. unfold ralt. now erewrite seq_step by exact E.
Qed.
Lemma list_written ds : Forall (readable v p) ds ->
  exists text es, writes (fun n => wall (map (fun d => wlogged (write_definition fl v p n d 0)) ds)) text /\ parse_module fl text = PMatch (SourceModule None [] es) [] /\ Forall2 (describes v p) ds es.
Proof.
  intros R.
  assert (H : exists ts es, Forall2 (fun d t => writes (fun n => wlogged (write_definition fl v p n d 0)) t) ds ts /\ Forall2 (describes v p) ds es /\
    Forall (starts_with (fun w => w <> lit "module" /\ w <> lit "import")) ts /\ forall n, Forall2 (piece (rentry fl n) n) ts es).
  { induction R as [|d l Rd R (ts & es & I1 & I2 & I3 & I4)]; [exists [], []; repeat split; constructor|].
    destruct (root_written d Rd) as (t & e & W & D & S & P). exists (t :: ts), (e :: es). split; [constructor; [now apply writes_logged|exact I1]|]. split; [now constructor|]. split; [now constructor|]. intros n. now constructor. }
  destruct H as (ts & es & H1 & H2 & H3 & H4). exists (concat ts), es. split; [exact (writes_all (fun d n => wlogged (write_definition fl v p n d 0)) _ _ H1)|]. split; [now apply module_read|exact H2].
Qed.
Theorem dump_written : Forall (readable v p) (filter is_root (tl (pl_defs p))) ->
  exists text es, prints v p fl text /\ parse_module fl text = PMatch (SourceModule None [] es) [] /\ Forall2 (describes v p) (filter is_root (tl (pl_defs p))) es.
Proof. exact (list_written (filter is_root (tl (pl_defs p)))). Qed.
Lemma selected_roots l ds : selects top_level l ds -> ds = filter is_root l.
Proof.
  intros S. induction S as [|d l ds P S IH|d l ds P S IH]; cbn [filter]; [reflexivity| |].
  - destruct P as [E V]. unfold is_root at 1. rewrite E, Z.eqb_refl. destruct (df_value d); try contradiction; cbn [andb]; now rewrite IH.
  - destruct (is_root d) eqn:R; [|exact IH]. destruct P. unfold is_root in R. apply andb_prop in R as [E V]. apply Z.eqb_eq in E. split; [exact E|]. destruct (df_value d); try discriminate V; exact I.
Qed.
End Written.
