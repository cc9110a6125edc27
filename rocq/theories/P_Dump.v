(** C56: what is printed for a bundle is read back as the declarations that it has. *)
From Coq Require Import String.
From Coq Require Import ZArith List Bool Lia.
From Verif Require Import Bytes BytesFacts Bytecode Definitions DefinitionsFacts Bundle BundleFacts Ast TypeNames Pool Scope TypeCheck Symbols Printer Parser Decompiler TermFacts Dump PrintSpec ParserFacts TextFacts PrintSteps PrintFacts P_Print Unit Grammar GrammarFacts StatementSpec StatementFacts P_Statement DumpSpec DumpFacts DumpWritten.
Import ListNotations.
Open Scope Z_scope.

(** The whole text is printed, read as a module without a name and without imports,
    and its declarations are those of the pool, in the order of the pool. *)
Definition reads_back (fl : float_text) (v : bool) (p : pool) : Prop :=
  exists text ds es, prints v p fl text /\ parse_module fl text = PMatch (SourceModule None [] es) [] /\ selects top_level (tl (pl_defs p)) ds /\ Forall2 (describes v p) ds es.

(** Every pool whose roots are readable is read back.  Missing: definitions that are
    not; see the refutations below. *)
Theorem C56_printed_bundles_read_back_partial fl v p ds : selects top_level (tl (pl_defs p)) ds -> Forall (readable v p) ds -> reads_back fl v p.
Proof.
  intros S R. pose proof (selected_roots _ _ S) as E. subst ds. destruct (dump_written fl v p R) as (text & es & P & M & D). now exists text, (filter is_root (tl (pl_defs p))), es.
Qed.
Print Assumptions C56_printed_bundles_read_back_partial.

(** One run of the decompiler shows what it yields. *)
Lemma yields_once p f d n code : decompiled n f d p = Done code -> yields p f d code.
Proof.
  intros H. exists n. intros m L. rewrite <- H. unfold decompiled in *. destruct (named_locals p (fu_locals f) []) as [ls|]; [|discriminate]. cbn [obind] in *.
  rewrite (decompile_same p d n m (fu_code f)); [reflexivity|exact L|]. destruct (decompile p d n (fu_code f)) as [body|e]; [discriminate|]. discriminate.
Qed.

(** ** A pool with two classes, an enum and a function *)
Definition sample_names : list str :=
  map lit ["None"; "Int32"; "Base"; "Foo"; "bar"; "Baz;Int32"; "x"; "Kind"; "On"; "Off"; "Main;"; "ref:Foo"; "out"; "array:Foo"]%string.
Definition item (name parent : Z) (v : any_def) : definition := {| df_name := name; df_parent := parent; df_unk1 := 0; df_unk2 := 0; df_unk3 := 0; df_value := v |}.
Definition pool_of (defs : list definition) : pool :=
  {| pl_names := {| st_list := sample_names; st_map := [] |}; pl_tweakdb := empty_strings; pl_resources := empty_strings; pl_strings := empty_strings;
     pl_defs := default_definition :: defs |}.
Definition a_class (flags base : Z) (functions fields : list Z) : any_def :=
  DClass {| cl_visibility := Public; cl_flags := flags; cl_base := base; cl_functions := functions; cl_fields := fields; cl_overrides := [] |}.
Definition a_field (flags type : Z) (attributes defaults : list property) : any_def :=
  DField {| fi_visibility := Private; fi_type := type; fi_flags := flags; fi_hint := None; fi_attributes := attributes; fi_defaults := defaults |}.
Definition a_function (flags : Z) (ret : option Z) (params : list Z) (c : code Z) : any_def :=
  DFunction {| fu_visibility := Protected; fu_flags := flags; fu_source := None; fu_return_type := ret; fu_unk1 := false; fu_base_method := None;
               fu_parameters := params; fu_locals := []; fu_operator := None; fu_cast := 0; fu_code := c; fu_unk2 := [] |}.
(** [[
    public abstract class Base { }
    public class Foo extends Base {
      @runtimeProperty("k", "v") private persistent let bar: ref<Foo>;
      protected final func Baz(opt x: Int32) -> Int32 { return x; }
    }
    enum Kind { On = 1, Off = -1, }
    protected static native func Main() -> Void;
    ]] *)
Definition sample_pool : pool :=
  pool_of [item 1 0 (DType TPrim); item 2 0 (a_class 2 0 [] []); item 3 0 (DType TClass); item 11 0 (DType (TRef 3));
           item 3 0 (a_class 0 2 [7] [6]); item 4 5 (a_field 256 4 [{| pp_name := lit "k"; pp_value := lit "v" |}] []);
           item 5 5 (a_function (2 ^ 12 + 2 ^ 10 + 2 ^ 8 + 8) (Some 1) [8] [Return (Loc := Z); Param (Loc := Z) 8]); item 6 7 (DParameter {| pa_type := 1; pa_flags := 1 |});
           item 7 0 (DEnum {| en_flags := 0; en_size := 4; en_members := [10; 11]; en_unk1 := false |}); item 8 9 (DEnumValue 1); item 9 9 (DEnumValue (-1));
           item 10 0 (a_function 17 None [] [])].
Lemma sample_int : has_type sample_pool 1.
Proof. exists (TypeName (lit "Int32") None). split; [|reflexivity]. eapply typed_plain; [reflexivity|reflexivity|now left|reflexivity]. Qed.
Example C56_nonvacuous v : exists ds, selects top_level (tl (pl_defs sample_pool)) ds /\ Forall (readable v sample_pool) ds /\ length ds = 4%nat.
Proof.
  exists (map (fun i => nth i (pl_defs sample_pool) default_definition) [2; 5; 9; 12]%nat). split.
  { cbn [map nth sample_pool pool_of pl_defs tl]. repeat first [apply selects_none | apply selects_this; [now split|] | apply selects_not; [intros [? ?]; (discriminate || contradiction)|]]. }
  split; [|reflexivity]. cbn [map nth sample_pool pool_of pl_defs].
  assert (Ri : has_type sample_pool 1) by apply sample_int.
  assert (Rr : has_type sample_pool 4).
  { exists (TypeName (lit "ref") (Some [TypeName (lit "Foo") None])). split; [|reflexivity]. eapply typed_wrapped; [reflexivity|reflexivity|reflexivity|]. eapply typed_plain; [reflexivity|reflexivity|now right|reflexivity]. }
  constructor; [|constructor; [|constructor; [|constructor; [|constructor]]]]; cbn [readable item df_value].
  - constructor; [exists (lit "Base"); now split|now left|constructor|constructor].
  - constructor.
    + exists (lit "Foo"). now split.
    + right. split; [reflexivity|]. eexists. split; [reflexivity|]. exists (lit "Base"). now split.
    + constructor; [|constructor]. eexists _, _. split; [reflexivity|]. split; [reflexivity|]. constructor.
      * exists (lit "bar"). now split.
      * exact Rr.
      * repeat split.
      * reflexivity.
      * constructor; [|constructor]. repeat split.
    + constructor; [|constructor]. eexists _, _. split; [reflexivity|]. split; [reflexivity|]. constructor.
      * exists (lit "Baz;Int32"). now split.
      * exact Ri.
      * constructor; [|constructor]. eexists _, _, (lit "x"). split; [reflexivity|]. split; [reflexivity|]. repeat split. exact Ri.
      * intros _. eexists. split; [apply (yields_once _ _ _ 20); vm_compute; reflexivity|reflexivity].
  - constructor; [exists (lit "Kind"); now split|]. constructor; [|constructor; [|constructor]]; eexists _, _; (split; [reflexivity|]); (split; [reflexivity|]); (split; [eexists; now split|]); lia.
  - constructor.
    + exists (lit "Main;"). now split.
    + exact I.
    + constructor.
    + discriminate.
Qed.

(** ** Definitions that are not read back *)
(** The text of a pool does not depend on the number of steps from some point on. *)
Lemma not_read fl v p k text : (forall n, dump fl v p (k + n) = (text, Done tt)) -> parse_module fl text = PFail -> ~ reads_back fl v p.
Proof.
  intros D F (t & ds & es & [n0 P] & R & _). specialize (D n0). rewrite P in D by lia. injection D as ->. congruence.
Qed.
Ltac unread := match goal with |- ~ reads_back ?fl ?v ?p => eapply (not_read fl v p 12); [intros n; vm_compute; reflexivity|vm_compute; reflexivity] end.
Definition one_field (f : any_def) : pool := pool_of [item 1 0 (DType TPrim); item 3 0 (a_class 0 0 [] [3]); item 4 2 f; item 13 0 (DType (TStaticArray 1 4))].
(** Fields that are inline, replicated or editable have a word that the grammar lacks:
    [private inline let bar: Int32;]. *)
Theorem C56_field_words_refuted fl v : forall k, In k [ff_is_inline; ff_is_replicated; ff_is_editable] ->
  exists p, ~ reads_back fl v p /\ p = one_field (a_field (2 ^ k) 1 [] []).
Proof. intros k [<-|[<-|[<-|[]]]]; eexists; (split; [|reflexivity]); unread. Qed.
(** Default values of fields are printed as annotations that are not known: [@default(Foo, 1)]. *)
Theorem C56_default_values_refuted fl v : exists p, ~ reads_back fl v p /\ p = one_field (a_field 128 1 [] [{| pp_name := lit "Foo"; pp_value := lit "1" |}]).
Proof. eexists. split; [|reflexivity]. unread. Qed.
(** The texts of properties are printed without escapes. *)
Theorem C56_property_texts_refuted fl v : exists p, ~ reads_back fl v p /\ p = one_field (a_field 0 1 [{| pp_name := lit "k"; pp_value := [quote] |}] []).
Proof. eexists. split; [|reflexivity]. unread. Qed.
(** Arrays of fixed size have no type in the language: [private let bar: array<Int32; 4>;]. *)
Theorem C56_static_arrays_refuted fl v : exists p, ~ reads_back fl v p /\ p = one_field (a_field 0 4 [] []).
Proof. eexists. split; [|reflexivity]. unread. Qed.
(** A struct with a base: [public struct Foo extends Base { }]. *)
Theorem C56_derived_structs_refuted fl v : exists p, ~ reads_back fl v p /\ p = pool_of [item 2 0 (a_class 8 0 [] []); item 3 0 (a_class 8 1 [] [])].
Proof. eexists. split; [|reflexivity]. unread. Qed.
(** A parameter whose name is a word for a qualifier: [func Main(out: Int32)]. *)
Theorem C56_parameter_names_refuted fl v : exists p, ~ reads_back fl v p /\
  p = pool_of [item 1 0 (DType TPrim); item 10 0 (a_function (2 ^ 10 + 17) None [3] []); item 12 2 (DParameter {| pa_type := 1; pa_flags := 0 |})].
Proof. eexists. split; [|reflexivity]. unread. Qed.
(** Values of enums are printed as numbers without a suffix, which are 32-bit. *)
Theorem C56_enum_values_refuted fl v : exists p, ~ reads_back fl v p /\
  p = pool_of [item 7 0 (DEnum {| en_flags := 0; en_size := 8; en_members := [2]; en_unk1 := false |}); item 8 1 (DEnumValue (2 ^ 31))].
Proof. eexists. split; [|reflexivity]. unread. Qed.
(** A method that cannot be decompiled is logged, but its text has no end: here the code
    refers to a local that does not exist. *)
Theorem C56_failed_methods_refuted fl v : exists p, ~ reads_back fl v p /\
  p = pool_of [item 3 0 (a_class 0 0 [2] []); item 5 1 (a_function (2 ^ 12) None [] [Return (Loc := Z); Local (Loc := Z) 99])].
Proof. eexists. split; [|reflexivity]. unread. Qed.
Print Assumptions C56_field_words_refuted.
Print Assumptions C56_default_values_refuted.
Print Assumptions C56_property_texts_refuted.
Print Assumptions C56_static_arrays_refuted.
Print Assumptions C56_derived_structs_refuted.
Print Assumptions C56_parameter_names_refuted.
Print Assumptions C56_enum_values_refuted.
Print Assumptions C56_failed_methods_refuted.
