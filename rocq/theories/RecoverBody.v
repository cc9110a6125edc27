(** Decompiling what was assembled: whole bodies (proofs). *)
From Coq Require Import String.
From Coq Require Import ZArith List Bool Lia.
From Verif Require Import Bytes BytesFacts Bytecode BytecodeFacts Definitions Bundle BundleFacts Ast TypeNames Pool Scope TypeCheck PoolSpec PoolFacts
  TypeIndexSpec TypeIndexFacts PartsSpec Cursor CursorSpec CursorFacts P_Cursor SourceMap Decompiler Assembler AssemblerFacts LabelSpec LabelFacts P_Assembler
  Semantics BodySpec Machine GrowFacts ShapeFacts MachineFacts BodyFacts RecoverSpec NormalFacts ReadFacts RecoverFacts RecoverFlow.
Import ListNotations.
Open Scope Z_scope.

Lemma res_of_resolve ls c : total c < 65536 ->
  (forall pre l post, c = pre ++ Target l :: post -> nth l ls 0 = total pre) ->
  (forall i l, In i c -> In l (locs i) -> in_u 16 (nth l ls 0)) ->
  forall c' pre out, c = pre ++ c' -> resolve_all ls (code_iter (total pre) c') = Some out -> res (fun l => nth l ls 0) c' (total pre) out.
Proof.
  intros L T U c'. induction c' as [|i c' IH]; intros pre out E R; [injection R as <-; constructor|].
  assert (E' : c = (pre ++ [i]) ++ c') by (rewrite <- app_assoc; exact E).
  assert (Tp : total (pre ++ [i]) = total pre + instr_size i) by (rewrite total_app; cbn [total]; lia).
  assert (B : 0 <= total pre /\ total pre + instr_size i < 65536).
  { rewrite E, total_app in L. cbn [total] in L. pose proof (total_nonneg c'). pose proof (total_nonneg pre). lia. }
  pose proof (instr_size_range i).
  cbn [code_iter resolve_all] in R. rewrite wrap_u_id in R by (unfold in_u; change (2 ^ 16) with 65536; lia). rewrite <- Tp in R.
  destruct (is_target i) eqn:Ti.
  - apply is_target_inv in Ti. destruct Ti as (l0 & ->). apply r_target; [exact (T _ _ _ E)|]. specialize (IH _ _ E' R).
    replace (total pre) with (total (pre ++ [Target l0])) by (rewrite Tp, target_size; lia). exact IH.
  - destruct (resolve_labels ls (total pre) i) as [j|] eqn:Ej; [|discriminate R]. destruct (resolve_all _ _) as [r|] eqn:Er; [|discriminate R].
    injection R as <-. unfold resolve_labels in Ej. destruct (forallb _ _); [|discriminate Ej]. injection Ej as <-.
    apply r_instr; [exact Ti|apply map_loc_map| |].
    + rewrite locs_map_loc. assert (X : forall l, In l (locs i) -> in_u 16 (nth l ls 0)) by (intros l I; apply (U i); [rewrite E; apply in_elt|exact I]).
      induction (locs i) as [|l ks IHk]; constructor.
      * split; [apply relative_range|]. apply absolute_relative; [apply X; left; reflexivity|unfold in_u; change (2 ^ 16) with 65536; lia].
      * apply IHk. intros l0 I. apply X. right. exact I.
    + rewrite <- Tp. apply IH; assumption.
Qed.

(** A body and the end of the code. *)
Lemma read_to_end p this r d l c : path p this None 0 r l -> c = r ++ d ++ [Nop] -> sized c -> total c < 32768 -> last_ends l = true \/ d = [] ->
  exists N, forall fuel, (N <= fuel)%nat -> exists l', decompile p this fuel c = Done l' /\ clean l' = clean l.
Proof.
  intros P -> Sz L D. destruct (path_loop p this (fun _ => 0) _ _ _ _ P) as [N H]. exists (N + length l + 3)%nat. intros fuel F.
  assert (Rm : room ([] ++ r ++ d ++ [Nop])) by (split; [exact Sz|exact L]).
  unfold decompile. rewrite cur_new. unfold consume_path, location_max. change (2 ^ 16 - 1) with 65535.
  assert (Tr : total r < 32768) by (rewrite total_app in L; pose proof (total_nonneg (d ++ [Nop])); lia).
  pose proof (H fuel (S (S (S (fuel - length l - 3)))) ltac:(lia) [] (d ++ [Nop]) [] 65535 eq_refl Rm ltac:(lia) eq_refl) as H1.
  replace (length l + S (S (S (fuel - length l - 3))))%nat with fuel in H1 by lia. cbn [app] in H1. rewrite H1. clear H H1.
  generalize (fuel - length l - 3)%nat. intros m. rewrite app_nil_r.
  assert (Xp : forall a b, r ++ d ++ [Nop] = a ++ b -> xpos (cur a b) = Done (total a, cur a b)) by (intros a b E; apply xpos_cur; rewrite <- E; lia).
  cbn [consume_path_loop]. rewrite (xbind_done _ _ _ _ _ (Xp _ _ eq_refl)). cbv beta.
  destruct (Z.leb_spec 65535 (total r)); [lia|]. cbn [orb].
  destruct (last_ends l) eqn:E.
  - unfold last_ends in E. rewrite E. exists l. rewrite rev_involutive. split; reflexivity.
  - unfold last_ends in E. rewrite E. destruct D as [D| ->]; [discriminate D|]. cbn [app] in *. destruct fuel as [|fuel]; [lia|].
    assert (E1 : consume_with p this (S fuel) None None (cur r [Nop]) = Done (Decompiler.s_empty, cur (r ++ [Nop]) [])).
    { assert (T : total (r ++ [Nop]) < 65536) by lia. popped T. reflexivity. }
    rewrite E1. assert (T : total ((r ++ [Nop]) ++ []) < 65536) by (rewrite app_nil_r; lia).
    rewrite (xbind_done _ _ _ _ _ (xpos_cur _ _ T)). cbv beta. destruct (Z.leb_spec 65535 (total (r ++ [Nop]))); [lia|]. cbn [orb ends_path Decompiler.s_empty].
    assert (E2 : consume_with p this (S fuel) None None (cur (r ++ [Nop]) []) = Fail DEnd).
    { cbn [consume_with]. rewrite (xbind_done _ _ _ _ _ (xpos_cur _ _ T)). cbv beta. unfold xbind. rewrite xpop_end. reflexivity. }
    rewrite E2. exists (l ++ [Decompiler.s_empty]). split; [cbn [rev]; rewrite rev_involutive; reflexivity|apply clean_empty].
Qed.

Section Body.
Variables (files : list file) (body : list texpr) (s : scope) (p : pool) (c : code label) (t : astate) (out : code Z).
Hypothesis Asm : asm_body files body {| as_labels := 0; as_scope := s; as_pool := p |} = Done (tt, c, t).
Hypothesis Cl : Forall closed body.
Hypothesis Len : total out < 32768.
Hypothesis Short : total c < 65536.
Hypothesis Out : into_code (as_labels t) c = Some out.

Lemma body_resolved : exists place, res place c 0 out.
Proof.
  destruct (C15_labels_placed_once_partial _ _ _ _ _ _ Asm Cl) as (P & U & T).
  pose proof Out as E. unfold into_code in E.
  destruct (place_labels_spec c 0 (repeat 0 (as_labels t))) as (ls & E1 & El & _ & Ep); [lia|exact Short|intros l I; rewrite repeat_length; apply T, I|].
  rewrite E1 in E. exists (fun l => nth l ls 0).
  assert (M : forall pre l post, c = pre ++ Target l :: post -> nth l ls 0 = total pre).
  { intros pre l post Ec. destruct (P l) as (c1 & c2 & E' & N1 & N2); [apply T; rewrite Ec; apply in_elt|].
    assert (X : pre = c1) by (apply (split_unique (Target l) _ post _ c2); [congruence|exact N1|exact N2]). subst pre.
    assert (post = c2) as -> by (rewrite Ec in E'; apply app_inv_head in E'; injection E' as ->; reflexivity).
    rewrite (Ep _ _ _ Ec N2). lia. }
  refine (res_of_resolve ls c Short M _ c [] out eq_refl E).
  intros i l I J. assert (Lt : (l < as_labels t)%nat).
  { destruct (is_target i) eqn:Ti; [|apply U; exists i; auto]. apply is_target_inv in Ti. destruct Ti as (l0 & ->). destruct J as [<-|[]]. apply T, I. }
  destruct (P l Lt) as (c1 & c2 & E' & _ & _). rewrite (M _ _ _ E'). rewrite E', total_app in Short. cbn [total] in Short.
  pose proof (total_nonneg c1). pose proof (total_nonneg c2). pose proof (instr_size_range (Target l)). unfold in_u. change (2 ^ 16) with 65536. lia.
Qed.
Lemma body_read this : pool_ok p -> types_named s p -> knows_literals s -> small (as_pool t) -> complete (as_pool t) ->
  Forall few body -> Forall tidy body -> Forall (recoverable (as_pool t)) body ->
  exists N, forall fuel, (N <= fuel)%nat -> exists l, decompile (as_pool t) this fuel out = Done l /\
    clean l = map (show (as_pool t)) (normal (as_pool t) body).
Proof.
  intros P1 P2 P3 Sm Co Fe Ti Rc. destruct body_resolved as [place R].
  pose proof (out_sized _ _ _ _ _ _ _ Asm Out) as Sz.
  destruct (body_sound _ _ _ _ _ Asm) as (c' & G & Ec).
  destruct (proj1 (proj2 (proj2 (gens_shape (as_scope t) (as_pool t) Sm))) _ _ _ _ _ G) as (_ & Q & _);
    [split; [exact (conj P1 (conj P2 P3))|apply grows_refl]|exact Fe|].
  pose proof (res_total _ _ _ _ R) as To. rewrite Ec in R, To. apply res_app in R. destruct R as (q1 & q2 & -> & R1 & R2).
  apply res_plain in R2; [|reflexivity|reflexivity]. destruct R2 as (q3 & -> & R2). apply res_nil in R2. subst q3.
  change (at_zero Nop) with (@Nop Z) in *. rewrite total_app in Len, To. cbn [total] in Len. pose proof (res_total _ _ _ _ R1) as T1. pose proof (instr_size_range (@Nop Z)).
  assert (Fs : Forall (fine_stmt (as_pool t)) body).
  { apply Forall_forall. intros x I. rewrite Forall_forall in Ti, Rc. split; auto. }
  assert (L1 : 0 + total c' < 32768) by lia.
  pose proof (sized_parts _ _ Sz) as [Sz1 _].
  destruct (proj1 (proj2 (statements_read (as_scope t) (as_pool t) this place Co)) _ _ _ Q Fs None 0 q1 R1 Sz1 ltac:(lia) L1
    ltac:(left; split; reflexivity)) as (r & d & l & -> & Pa & C & E & D & F).
  destruct (read_to_end (as_pool t) this r d l ((r ++ d) ++ [Nop]) Pa) as [N Hn].
  - rewrite <- app_assoc. reflexivity.
  - exact Sz.
  - rewrite total_app. cbn [total]. exact Len.
  - rewrite E. destruct (stops _); [left; reflexivity|right; apply D; left; reflexivity].
  - exists N. intros fuel Lf. destruct (Hn fuel Lf) as (l' & El & Ecl). exists l'. split; [exact El|]. rewrite Ecl. exact C.
Qed.
End Body.
