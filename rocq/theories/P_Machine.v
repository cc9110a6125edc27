(** C17: the assembled code does what the source program does. *)
From Coq Require Import String.
From Coq Require Import ZArith List Bool Lia.
From Verif Require Import Bytes BytesFacts Bytecode BytecodeFacts Definitions Bundle BundleFacts Ast TypeNames Pool Scope TypeCheck Diagnostics PoolSpec PoolFacts
  TypeIndexSpec TypeIndexFacts PartsSpec P_Checks Cursor CursorSpec CursorFacts P_Cursor SourceMap Assembler AssemblerFacts LabelSpec LabelFacts
  P_TypeIndex P_Assembler Semantics BodySpec Machine GrowFacts ShapeFacts MachineFacts BodyFacts DefinedFacts P_Flow.
Import ListNotations.
Open Scope Z_scope.

(** A body the theorems are about, assembled to [out] starting with the scope [s] and
    the pool [p] and ending with [s'] and [p']: its last cases have statements, its
    code fits 16-bit offsets, its structs have less than 256 fields, it has no
    statements as values, the fallthrough check reports nothing, and the pools are
    consistent. *)
Record assembled (files : list file) (body : list texpr) (s : scope) (p : pool) (out : code Z) (s' : scope) (p' : pool) : Prop := {
  ab_code : exists c t, asm_body files body {| as_labels := 0; as_scope := s; as_pool := p |} = Done (tt, c, t) /\
    total c < 65536 /\ as_scope t = s' /\ as_pool t = p';
  ab_out : from_body files body s p = Done (out, s', p');
  ab_closed : Forall closed body;
  ab_few : Forall few body;
  ab_tidy : Forall tidy body;
  ab_silent : stmt_fallthrough body = [];
  ab_pool : pool_ok p /\ types_named s p;
  ab_literals : knows_literals s;
  ab_small : small p';
  ab_complete : complete p'
}.
Section Same.
Variables (files : list file) (body : list texpr) (s : scope) (p : pool) (out : code Z) (s' : scope) (p' : pool).
Hypothesis A : assembled files body s p out s' p'.

Lemma ab_follows R N w :
  match run_body R s' p' N body w with
  | Ans r => exists k, forall n, (k <= n)%nat -> run_code R p' out n w = Ans r
  | Halt Aborted => exists k, forall n, (k <= n)%nat -> run_code R p' out n w = Halt Aborted
  | Halt OutOfFuel => forall n, (n <= N)%nat -> run_code R p' out n w = Halt OutOfFuel
  | Halt FellThrough | Halt Malformed => True
  end.
Proof.
  destruct A as [(c & t & E & L & <- & <-) O Cl Fe _ _ [P1 P2] K Sm _].
  assert (Eo : into_code (as_labels t) c = Some out).
  { unfold from_body in O. rewrite E in O. destruct (into_code (as_labels t) c); [|discriminate O]. injection O as ->. reflexivity. }
  apply (machine_follows files body s p c t out E Cl L Eo); auto.
Qed.
Lemma ab_sane R N w : run_body R s' p' N body w <> Halt Malformed.
Proof.
  destruct A as [(c & t & E & L & <- & <-) O Cl Fe Ti _ [P1 P2] K Sm Co].
  destruct (body_sound _ _ _ _ _ E) as (c' & G & _).
  destruct (proj1 (proj2 (proj2 (gens_shape (as_scope t) (as_pool t) Sm))) _ _ _ _ _ G) as (_ & Q & _);
    [split; [exact (conj P1 (conj P2 K))|apply grows_refl]|exact Fe|].
  destruct (proj1 (proj2 (statements_sane R (as_scope t) (as_pool t) Co N)) _ _ _ Q Ti w) as [S B].
  unfold run_body. destruct (run_all R _ body w) as [[w1|w1|v w1]|h]; cbn [then_]; try discriminate.
  - destruct (B eq_refl w1). reflexivity.
  - intros [= ->]. apply S. reflexivity.
Qed.
Lemma ab_lands R N w : run_body R s' p' N body w <> Halt FellThrough.
Proof. apply C32_no_fallthrough. apply A. Qed.
End Same.

(** Every terminating execution of the source, with its effects (the final state) and
    its result, is one of the code. *)
Theorem C17_code_does_what_source_does_partial : forall files body s p out s' p', assembled files body s p out s' p' ->
  forall R N w r, run_body R s' p' N body w = Ans r ->
  exists k, forall n, (k <= n)%nat -> run_code R p' out n w = Ans r.
Proof. intros files body s p out s' p' A R N w r E. pose proof (ab_follows _ _ _ _ _ _ _ A R N w) as F. rewrite E in F. exact F. Qed.
Print Assumptions C17_code_does_what_source_does_partial.

(** Every terminating execution of the code is one of the source. *)
Theorem C17_source_does_what_code_does_partial : forall files body s p out s' p', assembled files body s p out s' p' ->
  forall R n w r, run_code R p' out n w = Ans r -> exists N, run_body R s' p' N body w = Ans r.
Proof.
  intros files body s p out s' p' A R n w r E. exists n. pose proof (ab_follows _ _ _ _ _ _ _ A R n w) as F.
  pose proof (ab_sane _ _ _ _ _ _ _ A R n w) as S. pose proof (ab_lands _ _ _ _ _ _ _ A R n w) as L.
  assert (U : forall k r', (forall m, (k <= m)%nat -> run_code R p' out m w = r') -> r' = Ans r).
  { intros k r' H. specialize (H (Nat.max k n) ltac:(lia)). subst r'.
    destruct (go_mono R p' out n (Nat.max k n) (Running R) 0 w ltac:(lia)) as [B|B]; unfold run_code in *; congruence. }
  destruct (run_body R s' p' n body w) as [r'|[]]; try congruence.
  - destruct F as [k F]. apply U in F. exact F.
  - destruct F as [k F]. apply U in F. discriminate F.
  - rewrite F in E by lia. discriminate E.
Qed.
Print Assumptions C17_source_does_what_code_does_partial.

(** The code runs forever if the source does, and an operation that never returns
    is reached by both or by none. *)
Theorem C17_same_divergence_partial : forall files body s p out s' p', assembled files body s p out s' p' ->
  forall R w,
  ((forall N, run_body R s' p' N body w = Halt OutOfFuel) <-> (forall n, run_code R p' out n w = Halt OutOfFuel)) /\
  ((exists N, run_body R s' p' N body w = Halt Aborted) <-> (exists n, run_code R p' out n w = Halt Aborted)).
Proof.
  intros files body s p out s' p' A R w. split; split.
  - intros H n. pose proof (ab_follows _ _ _ _ _ _ _ A R n w) as F. rewrite H in F. apply F. lia.
  - intros H N. pose proof (ab_follows _ _ _ _ _ _ _ A R N w) as F.
    pose proof (ab_sane _ _ _ _ _ _ _ A R N w) as S. pose proof (ab_lands _ _ _ _ _ _ _ A R N w) as L.
    destruct (run_body R s' p' N body w) as [r'|[]]; try congruence; destruct F as [k F]; specialize (F k ltac:(lia)); rewrite H in F; discriminate F.
  - intros [N H]. pose proof (ab_follows _ _ _ _ _ _ _ A R N w) as F. rewrite H in F. destruct F as [k F]. exists k. apply F. lia.
  - intros [n E]. exists n. pose proof (ab_follows _ _ _ _ _ _ _ A R n w) as F.
    pose proof (ab_sane _ _ _ _ _ _ _ A R n w) as S. pose proof (ab_lands _ _ _ _ _ _ _ A R n w) as L.
    assert (U : forall k r', (forall m, (k <= m)%nat -> run_code R p' out m w = r') -> r' = Halt Aborted).
    { intros k r' H. specialize (H (Nat.max k n) ltac:(lia)). subst r'.
      destruct (go_mono R p' out n (Nat.max k n) (Running R) 0 w ltac:(lia)) as [B|B]; unfold run_code in *; congruence. }
    destruct (run_body R s' p' n body w) as [r'|[]]; try congruence.
    + destruct F as [k F]. apply U in F. discriminate F.
    + rewrite F in E by lia. discriminate E.
Qed.
Print Assumptions C17_same_divergence_partial.

(** * The hypotheses can be met *)
Definition lit_names : list str := Eval vm_compute in
  none_str :: map (fun t => repr t) [tn_STRING; tn_CNAME; tn_RESOURCE; tn_TWEAKDB_ID; tn_FLOAT; tn_DOUBLE; tn_INT32; tn_INT64; tn_UINT32; tn_UINT64; tn_BOOL].
Definition numbered (l : list str) : list (str * Z) := combine l (map Z.of_nat (seq 0 (length l))).
Definition one_entry : strings := {| st_list := [lit ""]; st_map := [(lit "", 0)] |}.
Definition lit_pool : pool := Eval vm_compute in
  {| pl_names := {| st_list := lit_names; st_map := numbered lit_names |};
     pl_tweakdb := one_entry; pl_resources := one_entry; pl_strings := empty_strings;
     pl_defs := default_definition :: map (fun i => type_definition (Z.of_nat i) TPrim) (seq 1 11) |}.
Definition lit_scope : scope := Eval vm_compute in
  {| sc_symbols := []; sc_references := []; sc_types := tl (numbered lit_names); sc_this := None; sc_function := None |}.
Ltac by_name := repeat match goal with H : (if str_eqb ?a ?b then _ else _) = _ |- _ => destruct (str_eqb_spec a b) as [<-|] end;
  try match goal with H : Some _ = Some _ |- _ => injection H as <- end; try discriminate.
Lemma lit_ok : pool_ok lit_pool /\ types_named lit_scope lit_pool /\ knows_literals lit_scope.
Proof.
  assert (E : indexed None empty_strings) by (split; [discriminate|split; [intros s []|exact I]]).
  assert (E1 : indexed None one_entry).
  { split; [|split; [|exact I]].
    - intros s i H. cbn [one_entry st_map sm_find] in H. by_name. split; [cbn; lia|reflexivity].
    - intros s [<-|[]]. eexists. reflexivity. }
  split; [|split].
  - split; [|auto]. split; [|split; [|reflexivity]].
    + intros s i H. cbn [lit_pool pl_names st_map sm_find] in H. by_name; (split; [cbn; lia|reflexivity]).
    + intros s H. cbn [lit_pool pl_names st_list In] in H. repeat match type of H with _ \/ _ => destruct H as [<-|H]; [eexists; reflexivity|] end; contradiction H.
  - intros n i H. cbn [lit_scope sc_types am_find] in H. by_name; reflexivity.
  - intros c. destruct c as [[]|v|v|v|v|v|v|[]]; eexists; reflexivity.
Qed.
(** while 1 { if 0 { return 5; } x = 1 ? 4 : 3; switch 2 { case 1: break; case 2: case 3: x = 6; break; default: return 9; } break; } return 8; *)
Definition set (e : texpr) : texpr := EAssign (EIdent (N := typed_ast) (RValue (VLocal 20)) sp0) e sp0.
Definition cm_body : list texpr :=
  [EWhile (num 1)
     [EIf (num 0) [EReturn (Some (num 5)) sp0] None sp0;
      set (EConditional (num 1) (num 4) (num 3) sp0);
      ESwitch (num 2) [(num 1, [EBreak sp0]); (num 2, []); (num 3, [set (num 6); EBreak sp0])] (Some [EReturn (Some (num 9)) sp0]) sp0;
      EBreak sp0] sp0;
   EReturn (Some (num 8)) sp0].
Definition cm_code : code Z * scope * pool := Eval vm_compute in
  match from_body [] cm_body lit_scope lit_pool with Done x => x | Fail _ => ([], lit_scope, lit_pool) end.
Lemma each_within (P : texpr -> Prop) body : Forall P (flat_map visited body) -> Forall (fun e => forall x, within x e -> P x) body.
Proof.
  intros F. apply Forall_forall. intros e I x W. rewrite Forall_forall in F. apply F. apply occurs_visited. exists e. auto.
Qed.
Example C17_nonvacuous : assembled [] cm_body lit_scope lit_pool (fst (fst cm_code)) (snd (fst cm_code)) (snd cm_code) /\
  run_body toy (snd (fst cm_code)) (snd cm_code) 5 cm_body [] = Ans (Return_ toy (Some 8) [6; 4]) /\
  run_code toy (snd cm_code) (fst (fst cm_code)) 50 [] = Ans (Return_ toy (Some 8) [6; 4]).
Proof.
  split; [|split; vm_compute; reflexivity]. destruct lit_ok as (P1 & P2 & P3). split; try assumption.
  - assert (X : exists x, asm_body [] cm_body {| as_labels := 0; as_scope := lit_scope; as_pool := lit_pool |} = Done x /\
      total (snd (fst x)) < 65536 /\ as_scope (snd x) = snd (fst cm_code) /\ as_pool (snd x) = snd cm_code)
      by (eexists; split; [vm_compute; reflexivity|]; vm_compute; auto).
    destruct X as ([[[] c] t] & X). exists c, t. exact X.
  - vm_compute. reflexivity.
  - apply each_within. cbn. repeat (apply Forall_cons; [try exact I|]); [|apply Forall_nil].
    intros before m b E. apply (f_equal (fun l => last l (num 0, []))) in E. rewrite last_last in E. cbn [last] in E.
    injection E as <- <-. exists (EBreak sp0). split; [right; left; reflexivity|reflexivity].
  - apply each_within. cbn. repeat (apply Forall_cons; [try exact I|]). apply Forall_nil.
  - apply each_within. cbn. repeat (apply Forall_cons; [split; [intros x O; inversion O; subst; try reflexivity|intros []]|]); try apply Forall_nil.
    all: repeat match goal with K : In _ _ |- _ => cbn [In] in K | K : _ \/ _ |- _ => destruct K as [[= <- <-]|K]; [reflexivity|] end; contradiction.
  - vm_compute. reflexivity.
  - split; assumption.
  - repeat split.
  - split.
    + intros f fn H. exfalso. unfold get_function, def_by in H. destruct (nth_def _ f) as [d|] eqn:E; [|discriminate H].
      assert (F : Forall (fun d => as_function (df_value d) = None) (pl_defs (snd cm_code))) by (repeat constructor).
      unfold nth_def in E. destruct (f <? 0); [discriminate E|]. apply nth_error_In in E. rewrite Forall_forall in F. rewrite (F _ E) in H. discriminate H.
    + intros [] K; [destruct (K eq_refl)| | |]; eexists; reflexivity.
Qed.

(** Without statements in the last case the code differs from the source: here the
    source returns, but the code starts all over again, forever. *)
Definition lc_body : list texpr := [ESwitch (num 2) [(num 1, [EBreak sp0]); (num 2, [])] (Some [EReturn None sp0]) sp0].
Definition lc_code : code Z * scope * pool := Eval vm_compute in
  match from_body [] lc_body lit_scope lit_pool with Done x => x | Fail _ => ([], lit_scope, lit_pool) end.
Theorem C17_empty_last_case_refuted : exists files body s p out s' p' R w r,
  from_body files body s p = Done (out, s', p') /\ run_body R s' p' 0 body w = Ans r /\
  forall n, run_code R p' out n w = Halt OutOfFuel.
Proof.
  exists [], lc_body, lit_scope, lit_pool, (fst (fst lc_code)), (snd (fst lc_code)), (snd lc_code), toy, [], (Return_ toy None []).
  split; [vm_compute; reflexivity|]. split; [vm_compute; reflexivity|].
  set (out := fst (fst lc_code)). set (q := snd lc_code). unfold run_code.
  assert (V : forall a c n w, fetch out a = Some (I32Const c) -> value_at toy q out (S n) a None w = Ans (c, a + 5, w)).
  { intros a c n w F. rewrite (value_op toy q out n a None w _ (OpConst (KInt 32 c)) 0 F eq_refl). reflexivity. }
  assert (L1 : forall n, go toy q out (S (S n)) (Running toy) 0 [] = go toy q out (S n) (Matching toy (lit "Int32") 2) 16 []).
  { intros n. rewrite (go_switch toy q out (S n) 0 [] 7 16 (lit "Int32") eq_refl eq_refl). rewrite (V _ 2) by reflexivity. reflexivity. }
  assert (L2 : forall n, go toy q out (S (S n)) (Matching toy (lit "Int32") 2) 16 [] = go toy q out (S n) (Matching toy (lit "Int32") 2) 29 []).
  { intros n. rewrite (go_label toy q out (S n) 16 [] (lit "Int32") 2 13 10 eq_refl). rewrite (V _ 1) by reflexivity. reflexivity. }
  assert (L3 : forall n, go toy q out (S (S n)) (Matching toy (lit "Int32") 2) 29 [] = go toy q out (S n) (Running toy) 0 []).
  { intros n. rewrite (go_label toy q out (S n) 29 [] (lit "Int32") 2 10 (-29) eq_refl). rewrite (V _ 2) by reflexivity. reflexivity. }
  intros n. induction n as [n IH] using lt_wf_ind. destruct n as [|[|[|[|n]]]]; [vm_compute; reflexivity..|].
  rewrite L1, L2, L3. apply IH. lia.
Qed.
Print Assumptions C17_empty_last_case_refuted.
