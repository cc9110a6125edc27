(** C25: wrapped methods form a chain. *)
From Coq Require Import String.
From Coq Require Import ZArith List Bool Lia Permutation.
From Verif Require Import Bytes Bytecode Definitions Bundle Ast TypeNames Pool Scope TypeCheck SourceMap Cursor
  Assembler AssemblerFacts PoolSpec PoolFacts Semantics Wrappers WrapSpec WrapFacts WrapSteps P_Machine.
Import ListNotations.
Open Scope Z_scope.

Lemma chain_of p0 ws st f ws' : inv p0 ws st -> wrappers_of f ws = ws' -> ws' <> [] ->
  exists v P, find_key (ws_wrappers st) f = Some v /\ find_key (ws_proxies st) f = Some P /\ map wr_wrapped ws' ++ [v] = P :: map wr_index ws'.
Proof.
  intros I <- NE. pose proof (i_chain _ _ _ I f) as H. destruct (find_key (ws_wrappers st) f) as [v|]; [|destruct H; contradiction].
  destruct H as (P & A & _ & B). exists v, P. auto.
Qed.
Lemma same_class D c c' f : method_of D c f -> method_of D c' f -> c = c'.
Proof. intros (d & x & A & _ & B & _) (d' & x' & A' & _ & B' & _). congruence. Qed.

(** A wrapper wraps the wrapper registered before it for the same method. *)
Theorem wrapper_wraps_previous p0 ws D X C F f before w w' after : real_compilation p0 ws D X C F ->
  wrappers_of f ws = before ++ w :: w' :: after -> wr_wrapped w' = wr_index w.
Proof.
  intros (HC & HN & HM & HF & HD & HL) E. destruct (compilation_stages _ _ _ _ _ _ HC HN HM HF HD HL) as [wr px dn sw I _ _ _ _ _ _].
  destruct (chain_of _ _ _ f _ I E) as (v & P & _ & _ & EQ); [now destruct before|].
  rewrite !map_app in EQ. cbn [map] in EQ. clear E. revert P EQ. induction before as [|a before IH]; intros P EQ; cbn [map app] in EQ; [now injection EQ|].
  injection EQ as _ EQ. destruct before as [|b before]; [exact (IH _ EQ)|exact (IH _ EQ)].
Qed.
Print Assumptions wrapper_wraps_previous.

(** The first wrapper wraps the method itself. *)
Theorem first_wrapper_wraps_original p0 ws D X C F f w after : real_compilation p0 ws D X C F -> wrappers_of f ws = w :: after ->
  exists d x n, def_at C f = Some d /\ df_value d = DFunction x /\ moved C F (wr_wrapped w) d x n.
Proof.
  intros (HC & HN & HM & HF & HD & HL) E. destruct (compilation_stages _ _ _ _ _ _ HC HN HM HF HD HL) as [wr px dn sw I PB KD KC BO SB KS].
  destruct (chain_of _ _ _ f _ I E) as (v & P & _ & K & EQ); [discriminate|]. cbn [map app] in EQ. injection EQ as -> _.
  destruct (done_F _ _ _ _ _ _ _ _ _ _ I PB KD KC BO SB KS HD f P K) as (d & x & dp & A & B & _ & _ & M). exists d, x, (df_name dp). auto.
Qed.
Print Assumptions first_wrapper_wraps_original.

Lemma wrapped_target p0 ws D X C F w : real_compilation p0 ws D X C F -> In w ws ->
  exists n, member F (wr_class w) (wr_wrapped w) /\ def_name F (wr_wrapped w) = Done n /\ def_name X (wr_wrapped w) = Done n /\
    forall c j, member F c j -> def_name F j = Done n -> j = wr_wrapped w.
Proof.
  intros R Hw. pose proof R as (HC & HN & HM & HF & HD & HL). destruct (compilation_stages _ _ _ _ _ _ HC HN HM HF HD HL) as [wr px dn sw I PB KD KC BO SB KS].
  pose proof (name_all _ _ _ _ _ _ _ _ _ _ I PB KD KC BO SB KS HD) as NA. pose proof (member_F _ _ _ _ _ _ _ _ _ _ I PB KD KC BO SB KS HD) as MF.
  assert (HI : In w (wrappers_of (wr_fun w) ws)) by (apply in_wrappers_of; auto). destruct (in_split _ _ HI) as (l & l' & E).
  assert (U : exists n, member X (wr_class w) (wr_wrapped w) /\ def_name X (wr_wrapped w) = Done n /\ forall c j, member X c j -> def_name X j = Done n -> j = wr_wrapped w).
  { destruct l as [|a l].
    - cbn [app] in E. destruct (chain_of _ _ _ _ _ I E) as (v & P & Kv & K & EQ); [discriminate|]. cbn [map app] in EQ. injection EQ as -> _. exists (proxy_name v).
      exact (unique_proxy _ _ _ _ _ _ _ _ I PB KD KS (wr_fun w) v P (wr_class w) (proj2 (KD _ _) Kv) K (HD w Hw)).
    - destruct (exists_last (l := a :: l)) as (m & w' & Em); [discriminate|]. rewrite Em in E. rewrite <- app_assoc in E. cbn [app] in E.
      assert (Q : wr_wrapped w = wr_index w') by exact (wrapper_wraps_previous _ _ _ _ _ _ _ _ _ _ _ R E). rewrite Q.
      assert (Hw' : In w' ws /\ wr_fun w' = wr_fun w) by (apply in_wrappers_of; rewrite E; apply in_or_app; right; left; reflexivity). destruct Hw' as (Hw' & Ef).
      pose proof (HD w' Hw') as M'. rewrite Ef in M'. rewrite (same_class _ _ _ _ (HD w Hw) M'). exists (wrapper_name (wr_wrapped w')). exact (unique_wrapper _ _ _ _ _ _ _ _ I PB KD KS HD w' Hw'). }
  destruct U as (n & A & B & U). exists n. split; [now apply MF|]. split; [now apply (NA (wr_class w))|]. split; [exact B|].
  intros c j Mj Nj. apply MF in Mj. apply (U c j Mj). now apply (NA c).
Qed.

(** A call of the wrapped method from a wrapper reaches the function it stands for,
    whatever the class of the receiver. *)
Theorem wrapped_call_reaches p0 ws D X C F w q force callee d : real_compilation p0 ws D X C F -> In w ws -> between X q C ->
  callee_of q (wr_wrapped w) force = Some callee -> below F d (wr_class w) -> reaches F d callee (wr_wrapped w).
Proof.
  intros R Hw (KQ & _) CA B. destruct (wrapped_target _ _ _ _ _ _ w R Hw) as (n & M & NF & NX & U).
  pose proof (keeps_name _ _ _ _ _ KQ NX) as NQ. unfold callee_of in CA. rewrite NQ in CA. destruct (get_function q (wr_wrapped w)); [|discriminate].
  match type of CA with Some (if ?b then _ else _) = _ => destruct b end; injection CA as <-; [reflexivity|]. cbn [reaches]. now apply (dispatch_unique F (wr_class w)).
Qed.
Print Assumptions wrapped_call_reaches.

(** The same for the instructions: what the code generator emits for the call. *)
Lemma head_callee p f fn force exit i n : call_head p f fn force exit i -> get_function p f = Done fn -> def_name p f = Done n ->
  exists cal, callee_of p f force = Some cal /\ called p i = Some cal.
Proof.
  intros H G N. unfold callee_of. rewrite G, N. destruct H as [d line inv FO H1 H2 H3 D|line inv H].
  - rewrite FO, H1, H2, H3. cbn [orb]. eexists. split; [reflexivity|]. cbn [called]. revert N. unfold def_name. rewrite D. cbn [obind].
    destruct (st_get _ _ _); [now intros [= ->]|discriminate].
  - rewrite H. eexists. split; reflexivity.
Qed.
Theorem wrapped_call_code p0 ws D X C F w files ts args sp exit t code t1 : real_compilation p0 ws D X C F -> In w ws -> between X (as_pool t) C ->
  asm files (ECall (N := typed_ast) (CFunction (wr_wrapped w)) ts args sp) exit t = Done (tt, code, t1) ->
  exists i rest callee, code = i :: rest /\ called F i = Some callee /\ forall d, below F d (wr_class w) -> reaches F d callee (wr_wrapped w).
Proof.
  intros R Hw BT A. destruct (wrapped_target _ _ _ _ _ _ w R Hw) as (n & M & NF & NX & U). pose proof (keeps_name _ _ _ _ _ (proj1 BT) NX) as NQ.
  apply asm_sound in A. inversion A; subst; [discriminate|]. match goal with H : gcall _ _ _ _ _ _ |- _ => inversion H; subst end.
  match goal with H : call_head _ _ _ _ _ _, G : get_function _ _ = _ |- _ => destruct (head_callee _ _ _ _ _ _ _ H G NQ) as (cal & C1 & C2) end.
  eexists. eexists. exists cal. split; [reflexivity|]. split; [|intros d B; exact (wrapped_call_reaches _ _ _ _ _ _ w _ _ _ d R Hw BT C1 B)].
  destruct R as (HC & HN & HM & HF & HD & HL). destruct (compilation_stages _ _ _ _ _ _ HC HN HM HF HD HL) as [wr px dn sw I PB KD KC BO SB KS].
  assert (Q : prefix (st_list (pl_names (as_pool t))) (st_list (pl_names F))) by (rewrite (sb_names _ _ _ SB); exact (proj2 BT)). exact (called_prefix _ _ _ _ Q C2).
Qed.
Print Assumptions wrapped_call_code.

(** The method itself: name, class, flags and return type stay, the parameters are
    copies of its parameters, and the body calls the last wrapper with them, in
    order. *)
Theorem method_calls_last_wrapper p0 ws D X C F f before w : real_compilation p0 ws D X C F -> wrappers_of f ws = before ++ [w] ->
  exists d x d' y callee, def_at D f = Some d /\ df_value d = DFunction x /\ def_at F f = Some d' /\ df_value d' = DFunction y /\
    df_name d' = df_name d /\ df_parent d' = df_parent d /\ y = with_parameters (with_locals (with_code x (fu_code y)) []) (fu_parameters y) /\
    Forall2 (fun i j => def_at F j = def_at D i /\ def_at D i <> None) (fu_parameters x) (fu_parameters y) /\
    params_used (fu_code y) = fu_parameters y /\ just_calls F (fu_return_type x) (fu_code y) callee /\
    forall c, below F c (wr_class w) -> reaches F c callee (wr_index w).
Proof.
  intros R E. pose proof R as (HC & HN & HM & HF & HD & HL). destruct (compilation_stages _ _ _ _ _ _ HC HN HM HF HD HL) as [wr px dn sw I PB KD KC BO SB KS].
  destruct (chain_of _ _ _ f _ I E) as (v & P & Kv & K & EQ); [now destruct before|]. cbn [ws_wrappers ws_proxies] in Kv, K.
  rewrite !map_app, app_comm_cons in EQ. cbn [map] in EQ. apply app_inj_tail in EQ as (_ & ->).
  pose proof (proj2 (KD _ _) Kv) as Hd. assert (Hw : In w ws /\ wr_fun w = f) by (apply in_wrappers_of; rewrite E; apply in_or_app; right; left; reflexivity). destruct Hw as (Hw & Ef).
  destruct (f_at_C _ _ _ _ _ _ _ _ I PB KD BO HD f P K) as (d & x & c0 & ls & Dd & Vd & _ & DC).
  destruct (P_at_C _ _ _ _ _ PB KC f _ P Hd K) as ((c & d1 & x1 & ps & co & nm & nw & D1 & V1 & Pa & _ & Nw & L & RP & _ & PU & cal & CC & CQ) & EP).
  rewrite Dd in D1. injection D1 as <-. rewrite Vd in V1. injection V1 as <-. rewrite RP in EP.
  destruct (sb_done _ _ _ SB f P _ _ _ (proj2 (KS f P) K) DC eq_refl EP) as (DF & _).
  eexists d, x, _, _, cal. split; [exact Dd|]. split; [exact Vd|]. split; [exact DF|]. split; [reflexivity|]. split; [reflexivity|]. split; [cbn; congruence|]. split; [reflexivity|].
  cbn [with_parameters fu_parameters fu_code with_locals with_code]. split; [|split; [exact PU|split]].
  - clear - L KC SB KS I PB KD BO HD. induction L as [|a b l l' (B1 & e & y & A1 & A2 & A3) L IH]; [constructor|]. constructor; [|exact IH]. rewrite A2. split; [|discriminate].
    pose proof (keeps_param _ _ _ KC _ _ _ A1 A3) as AC. rewrite (sb_same _ _ _ SB); [exact AC|apply at_bounds in AC; lia| |].
    + intros X1. apply in_keys in X1 as (P & X1). apply KS in X1. destruct (f_at_C _ _ _ _ _ _ _ _ I PB KD BO HD b P X1) as (db & xb & _ & _ & D1 & _). apply at_bounds in D1. lia.
    + intros X1. apply in_values in X1 as (f & X1). apply KS in X1. apply find_in in X1. apply (in_map snd) in X1. cbn [snd] in X1. destruct (i_proxy _ _ _ I _ X1) as (B2 & _). cbn [ws_pool] in B2. lia.
  - apply CQ. rewrite (sb_names _ _ _ SB). exact (keeps_names _ _ _ KC).
  - intros c1 B. destruct CC as [-> | ->]; [reflexivity|]. cbn [reaches]. destruct (unique_wrapper _ _ _ _ _ _ _ _ I PB KD KS HD w Hw) as (M & N & U).
    pose proof (name_all _ _ _ _ _ _ _ _ _ _ I PB KD KC BO SB KS HD) as NA. pose proof (member_F _ _ _ _ _ _ _ _ _ _ I PB KD KC BO SB KS HD) as MF.
    destruct (i_wrap _ _ _ I w Hw) as (_ & _ & _ & Nw'). cbn [ws_pool] in Nw'. rewrite Nw in Nw'. injection Nw' as ->.
    apply (dispatch_unique F (wr_class w)); [now apply MF|now apply (NA (wr_class w))| |exact B].
    intros c' j Mj Nj. apply MF in Mj. apply (U c' j Mj). now apply (NA c').
Qed.
Print Assumptions method_calls_last_wrapper.

(** All other definitions are those of the compiled bodies. *)
Theorem others_unchanged p0 ws D X C F i : real_compilation p0 ws D X C F -> 0 <= i < size C ->
  (forall w, In w ws -> i <> wr_fun w) -> (forall f w after, wrappers_of f ws = w :: after -> i <> wr_wrapped w) -> def_at F i = def_at C i.
Proof.
  intros (HC & HN & HM & HF & HD & HL) B N1 N2. destruct (compilation_stages _ _ _ _ _ _ HC HN HM HF HD HL) as [wr px dn sw I PB KD KC BO SB KS].
  apply (sb_same _ _ _ SB); [lia| |].
  - intros H. apply in_keys in H as (P & H). apply KS in H. destruct (wrapped_proxy _ _ _ _ _ _ I KD i P H) as (w & Hw & E & _). now apply (N1 w Hw).
  - intros H. apply in_values in H as (f & H). apply KS in H. destruct (wrapped_proxy _ _ _ _ _ _ I KD f i H) as (w & Hw & E & _). subst f.
    destruct (wrappers_of (wr_fun w) ws) as [|a l] eqn:W; [assert (HI : In w (wrappers_of (wr_fun w) ws)) by (apply in_wrappers_of; auto); rewrite W in HI; destruct HI|].
    destruct (chain_of _ _ _ _ _ I W) as (v & P & _ & K & EQ); [discriminate|]. cbn [map app] in EQ. injection EQ as EQ _. cbn [ws_proxies] in K. rewrite H in K. injection K as <-. now apply (N2 _ a l W).
Qed.
Print Assumptions others_unchanged.

(** Names from the source dispatch to the same indices as before, so a call of a
    wrapped method arrives at its index, and other calls where they did. *)
Theorem dispatch_unchanged p0 ws D X C F c n i : real_compilation p0 ws D X C F -> plain n -> dispatch F c n i <-> dispatch D c n i.
Proof.
  intros (HC & HN & HM & HF & HD & HL) PL. destruct (compilation_stages _ _ _ _ _ _ HC HN HM HF HD HL) as [wr px dn sw I PB KD KC BO SB KS].
  pose proof (name_all _ _ _ _ _ _ _ _ _ _ I PB KD KC BO SB KS HD) as NA. pose proof (member_F _ _ _ _ _ _ _ _ _ _ I PB KD KC BO SB KS HD) as MF.
  assert (CF : forall c k, get_class F c = Done k <-> get_class X c = Done k).
  { intros c' k. rewrite (class_F _ _ _ _ _ _ _ _ _ _ I PB KD KC BO SB KS HD). destruct BO as (_ & B1 & B2). split; auto. }
  transitivity (dispatch X c n i).
  { split; apply dispatch_same.
    - exact CF.
    - intros c' i' n' M. apply (NA c'). now apply MF.
    - intros c' k. symmetry. apply CF.
    - intros c' i' n' M. symmetry. now apply (NA c'). }
  assert (FRESH : forall f w P, In (f, w) dn -> find_key px f = Some P -> def_name X P <> Done n).
  { intros f w P A B. rewrite (proxy_named _ _ _ _ PB f w P A B). intros [= <-]. destruct (PL w) as (_ & X1). now apply X1. }
  split; intros H.
  - induction H as [c n i M N|c k n i G NO H IH].
    + pose proof M as M0. apply (member_X _ _ _ _ PB) in M as [M|(f & w & A & B & _)]; [|destruct (FRESH _ _ _ A B N)]. apply dispatch_own; [exact M|].
      now apply (name_X _ _ _ _ _ _ _ I PB c).
    + apply class_at in G as (d & Dd & V). destruct (pb_back _ _ _ _ _ _ _ PB Dd V) as (d0 & k0 & D0 & V0). destruct (pb_class _ _ _ _ PB c d0 k0 D0 V0) as (fs & E & _).
      rewrite Dd in E. injection E as ->. cbn in V. injection V as <-. cbn [with_functions cl_functions cl_base] in *. apply (dispatch_base D c k0); [apply class_at; eauto| |now apply IH].
      intros j A B. apply (NO j); [apply in_or_app; now left|]. apply (name_X _ _ _ _ _ _ _ I PB c); [exists k0; split; [apply class_at; eauto|exact A]|exact B].
  - induction H as [c n i M N|c k n i G NO H IH].
    + apply dispatch_own; [apply (member_X _ _ _ _ PB); now left|now apply (name_X _ _ _ _ _ _ _ I PB c)].
    + pose proof G as G0. apply class_at in G as (d & Dd & V). destruct (pb_class _ _ _ _ PB c d k Dd V) as (fs & E & Fs).
      eapply (dispatch_base X c); [apply class_at; eexists; split; [exact E|reflexivity]| |cbn; now apply IH].
      cbn [with_functions cl_functions]. intros j A B. apply in_app_iff in A as [A|A].
      * apply (NO j A). apply (name_X _ _ _ _ _ _ _ I PB c); [exists k; auto|exact B].
      * apply Fs in A as (f & w & A1 & A2 & _). exact (FRESH _ _ _ A1 A2 B).
Qed.
Print Assumptions dispatch_unchanged.

(** * The hypotheses can be met *)
(** Class A has a method f with a parameter and a local and a callback g; class B
    extends A and overrides f. *)
Definition ex_names : list str := Eval vm_compute in [none_str; lit "Int32"; lit "A"; lit "f;Int32"; lit "g;"; lit "x"; lit "v"; lit "B"].
Definition ex_function (flags : Z) (ret : option pidx) (ps ls : list pidx) (c : code Z) : function :=
  {| fu_visibility := Public; fu_flags := flags; fu_source := None; fu_return_type := ret; fu_unk1 := false; fu_base_method := None;
     fu_parameters := ps; fu_locals := ls; fu_operator := None; fu_cast := 0; fu_code := c; fu_unk2 := [] |}.
Definition ex_def (n parent : pidx) (v : any_def) : definition :=
  {| df_name := n; df_parent := parent; df_unk1 := 0; df_unk2 := 0; df_unk3 := 0; df_value := v |}.
Definition ex_class (base : pidx) (fs : list pidx) : any_def :=
  DClass {| cl_visibility := Public; cl_flags := 0; cl_base := base; cl_functions := fs; cl_fields := []; cl_overrides := [] |}.
Definition ex_param : any_def := DParameter {| pa_type := 1; pa_flags := 0 |}.
Definition ex_pool : pool := Eval vm_compute in
  {| pl_names := {| st_list := ex_names; st_map := combine ex_names (map Z.of_nat (seq 0 8)) |};
     pl_tweakdb := empty_strings; pl_resources := empty_strings; pl_strings := empty_strings;
     pl_defs := [default_definition; ex_def 1 0 (DType TPrim); ex_def 2 0 (ex_class 0 [3; 4]);
       ex_def 3 2 (DFunction (ex_function 0 (Some 1) [5] [6] [Assign; Local 6; Param 5; Return; Local 6; Nop]));
       ex_def 4 2 (DFunction (ex_function 64 None [] [] [Nop])); ex_def 5 3 ex_param; ex_def 6 3 (DLocal {| lo_type := 1; lo_flags := 0 |});
       ex_def 7 0 (ex_class 2 [8]); ex_def 3 7 (DFunction (ex_function 0 (Some 1) [9] [] [Return; Param 9; Nop])); ex_def 5 8 ex_param] |}.
Definition ex_get {E A} (d : A) (m : outcome E A) : A := match m with Done x => x | Fail _ => d end.
Definition ex_sp : span := span_zero.
Definition ex_register (c : pidx) (name sig : str) (x : list wrapping * wrap_state) : list wrapping * wrap_state :=
  match register c name sig ex_sp (snd x) with Done (w, s) => (fst x ++ [w], s) | Fail _ => x end.
(** Wrappers for A.f, A.g, B.f and again A.f. *)
Definition ex_registered : list wrapping * wrap_state := Eval vm_compute in
  ex_register 2 (lit "f") (lit "f;Int32") (ex_register 7 (lit "f") (lit "f;Int32") (ex_register 2 (lit "g") (lit "g;")
    (ex_register 2 (lit "f") (lit "f;Int32") ([], WrapState ex_pool [] [])))).
Definition ex_ws : list wrapping := Eval vm_compute in fst ex_registered.
Definition ex_st : wrap_state := Eval vm_compute in snd ex_registered.
(** Their declarations: parameters, then the functions. *)
Definition ex_add (p : pool) (d : definition) : pool := fst (add_definition p d).
Definition ex_p1 : pool := Eval vm_compute in ex_add (ex_add (ex_add (ws_pool ex_st) (ex_def 5 11 ex_param)) (ex_def 5 15 ex_param)) (ex_def 5 16 ex_param).
Definition ex_put (i parent : pidx) (x : function) (p : pool) : pool :=
  match nth_def (pl_defs p) i with Some d => ex_get p (put_def p i (with_parent (with_value d (DFunction x)) parent)) | None => p end.
Definition ex_p2 : pool := Eval vm_compute in ex_put 11 2 (ex_function 0 (Some 1) [17] [] []) ex_p1.
Definition ex_p3 : pool := Eval vm_compute in ex_put 13 2 (ex_function 0 None [] [] []) ex_p2.
Definition ex_p4 : pool := Eval vm_compute in ex_put 15 7 (ex_function 0 (Some 1) [18] [] []) ex_p3.
Definition ex_defined : pool := Eval vm_compute in ex_put 16 2 (ex_function 0 (Some 1) [19] [] []) ex_p4.
Definition ex_scope : scope := {| sc_symbols := []; sc_references := []; sc_types := []; sc_this := None; sc_function := None |}.
Definition ex_files : list file := [].
Definition ex_proxied : scope * pool := Eval vm_compute in
  ex_get (ex_scope, ex_pool) (construct_proxies ex_files (ws_proxies ex_st) (ws_wrappers ex_st) ex_scope ex_defined).
(** Their bodies: return wrappedMethod(x), or wrappedMethod(). *)
Definition ex_call (i : pidx) (ps : list pidx) : texpr :=
  ECall (N := typed_ast) (CFunction i) [] (map (fun j => EIdent (N := typed_ast) (RValue (VParam j)) ex_sp) ps) ex_sp.
Definition ex_install (i : pidx) (body : texpr) (p : pool) : pool := ex_get p (install ex_files i [body] [] ex_scope p).
Definition ex_c1 : pool := Eval vm_compute in ex_install 11 (EReturn (N := typed_ast) (Some (ex_call 10 [17])) ex_sp) (snd ex_proxied).
Definition ex_c2 : pool := Eval vm_compute in ex_install 13 (ex_call 12 []) ex_c1.
Definition ex_c3 : pool := Eval vm_compute in ex_install 15 (EReturn (N := typed_ast) (Some (ex_call 14 [18])) ex_sp) ex_c2.
Definition ex_compiled : pool := Eval vm_compute in ex_install 16 (EReturn (N := typed_ast) (Some (ex_call 11 [19])) ex_sp) ex_c3.
Definition ex_final : pool := Eval vm_compute in ex_get ex_pool (swap_proxies (fun l => l) (ws_proxies ex_st) ex_compiled).
Lemma ex_steps :
  construct_proxies ex_files (ws_proxies ex_st) (ws_wrappers ex_st) ex_scope ex_defined = Done (fst ex_proxied, snd ex_proxied) /\
  swap_proxies (fun l => l) (ws_proxies ex_st) ex_compiled = Done ex_final.
Proof. split; vm_compute; reflexivity. Qed.
Lemma ex_plain n b r : n = b :: r -> b <> x77 -> b <> x70 -> plain n.
Proof. intros -> N1 N2 k. unfold wrapper_name, proxy_name. split; intros E; apply (f_equal (hd x00)) in E; cbn in E; contradiction. Qed.
Lemma ex_start : names_ok ex_pool /\ members_named ex_pool.
Proof.
  split.
  - split; [|split; [|reflexivity]].
    + intros s i H. cbn [ex_pool pl_names st_map sm_find] in H. by_name; (split; [lia|reflexivity]).
    + intros s H. cbn [ex_pool pl_names st_list In] in H. repeat match goal with H : _ \/ _ |- _ => destruct H as [<-|H] end; try destruct H; eexists; vm_compute; reflexivity.
  - intros c i (k & G & H). apply class_at in G as (d & D & V). pose proof (at_bounds _ _ _ D) as B. change (size ex_pool) with 10 in B.
    assert (X : c = 0 \/ c = 1 \/ c = 2 \/ c = 3 \/ c = 4 \/ c = 5 \/ c = 6 \/ c = 7 \/ c = 8 \/ c = 9) by lia.
    assert (Y : forall n d, def_at ex_pool i = Some d -> st_get (Some none_str) (pl_names ex_pool) (df_name d) = inl n -> plain n ->
      exists n, def_name ex_pool i = Done n /\ forall k, n = wrapper_name k \/ n = proxy_name k -> k < Z.of_nat (length (pl_defs ex_pool))).
    { intros n e De N P. exists n. split; [exact (name_at _ _ _ _ De N)|]. intros k' [E|E]; destruct (P k') as (P1 & P2); contradiction. }
    repeat destruct X as [->|X]; try subst c; vm_compute in D; injection D as <-; try discriminate V; injection V as <-; cbn [cl_functions] in H;
      repeat destruct H as [<-|H]; try destruct H; (eapply Y; [reflexivity|vm_compute; reflexivity|eapply ex_plain; [reflexivity|discriminate|discriminate]]).
Qed.
Lemma ex_registers : registers ex_pool ex_ws ex_st.
Proof.
  assert (PF : plain (lit "f;Int32")) by (eapply ex_plain; [reflexivity|discriminate|discriminate]).
  assert (PG : plain (lit "g;")) by (eapply ex_plain; [reflexivity|discriminate|discriminate]).
  assert (R : forall c name sig ws st w s, registers ex_pool ws st -> plain sig -> register c name sig ex_sp st = Done (w, s) -> registers ex_pool (ws ++ [w]) s)
    by (intros c name sig ws st w s A B E; exact (registers_wrapper _ _ _ _ _ _ _ _ _ A B E)).
  pose proof (registers_none ex_pool) as R0.
  epose proof (R 2 (lit "f") _ _ _ _ _ R0 PF ltac:(vm_compute; reflexivity)) as R1.
  epose proof (R 2 (lit "g") _ _ _ _ _ R1 PG ltac:(vm_compute; reflexivity)) as R2.
  epose proof (R 7 (lit "f") _ _ _ _ _ R2 PF ltac:(vm_compute; reflexivity)) as R3.
  epose proof (R 2 (lit "f") _ _ _ _ _ R3 PF ltac:(vm_compute; reflexivity)) as R4.
  exact R4.
Qed.
Definition ex_own : list pidx := Eval vm_compute in map snd (ws_proxies ex_st).
Ltac ex_fits := split; vm_compute; reflexivity.
Ltac ex_own := repeat constructor; vm_compute; reflexivity.
Lemma ex_not_own i : In i [11; 13; 15; 16] -> ~ In i ex_own.
Proof. intros H X. vm_compute in H, X. repeat destruct H as [<-|H]; repeat destruct X as [X|X]; try discriminate; contradiction. Qed.
Lemma ex_keeps1 : keeps ex_own (ws_pool ex_st) ex_defined.
Proof.
  assert (P : forall i q p n x, ex_put i q x p = n -> In i [11; 13; 15; 16] -> nth_def (pl_defs p) i = Some (stub (match nth_def (pl_defs p) i with Some d => df_name d | None => 0 end)) -> keeps ex_own p n).
  { intros i q p n x E I D. unfold ex_put in E. rewrite D in E. set (d := stub _) in *. destruct (put_def p i _) as [p'|] eqn:U; cbn [ex_get] in E; subst n; [|apply keeps_self].
    apply (keeps_put _ _ _ _ _ _ U D); try discriminate; [reflexivity|now apply ex_not_own]. }
  apply (keeps_then _ _ ex_p1).
  { apply keeps_adds; [|ex_fits|ex_own]. assert (A : forall p d, passive d -> adds p (ex_add p d)) by (intros p d H; apply (adds_def p d _ _ (surjective_pairing _)), H).
    change ex_p1 with (ex_add (ex_add (ex_add (ws_pool ex_st) (ex_def 5 11 ex_param)) (ex_def 5 15 ex_param)) (ex_def 5 16 ex_param)).
    eapply adds_trans; [eapply adds_trans|]; apply A; exact I. }
  apply (keeps_then _ _ ex_p2); [apply (P 11 2 _ _ (ex_function 0 (Some 1) [17] [] [])); [reflexivity|cbn; tauto|reflexivity]|].
  apply (keeps_then _ _ ex_p3); [apply (P 13 2 _ _ (ex_function 0 None [] [] [])); [reflexivity|cbn; tauto|reflexivity]|].
  apply (keeps_then _ _ ex_p4); [apply (P 15 7 _ _ (ex_function 0 (Some 1) [18] [] [])); [reflexivity|cbn; tauto|reflexivity]|].
  apply (P 16 2 _ _ (ex_function 0 (Some 1) [19] [] [])); [reflexivity|cbn; tauto|reflexivity].
Qed.
Lemma ex_keeps3 : keeps ex_own (snd ex_proxied) ex_c3 /\ (keeps ex_own (snd ex_proxied) ex_compiled /\ bodies_only (snd ex_proxied) ex_compiled).
Proof.
  assert (P : forall i b p n, install ex_files i [b] [] ex_scope p = Done n -> fits n -> In i [11; 13; 15; 16] -> Forall (fun i => i < size p) ex_own -> keeps ex_own p n /\ bodies_only p n).
  { intros i b p n E F I O. exact (keeps_install _ _ _ _ _ _ _ _ E F (ex_not_own i I) O). }
  assert (K1 : keeps ex_own (snd ex_proxied) ex_c1 /\ bodies_only (snd ex_proxied) ex_c1)
    by (apply (P 11 (EReturn (N := typed_ast) (Some (ex_call 10 [17])) ex_sp)); [vm_compute; reflexivity|ex_fits|cbn; tauto|ex_own]).
  assert (K2 : keeps ex_own ex_c1 ex_c2 /\ bodies_only ex_c1 ex_c2) by (apply (P 13 (ex_call 12 [])); [vm_compute; reflexivity|ex_fits|cbn; tauto|ex_own]).
  assert (K3 : keeps ex_own ex_c2 ex_c3 /\ bodies_only ex_c2 ex_c3)
    by (apply (P 15 (EReturn (N := typed_ast) (Some (ex_call 14 [18])) ex_sp)); [vm_compute; reflexivity|ex_fits|cbn; tauto|ex_own]).
  assert (K4 : keeps ex_own ex_c3 ex_compiled /\ bodies_only ex_c3 ex_compiled)
    by (apply (P 16 (EReturn (N := typed_ast) (Some (ex_call 11 [19])) ex_sp)); [vm_compute; reflexivity|ex_fits|cbn; tauto|ex_own]).
  split; [exact (keeps_then _ _ _ _ (proj1 K1) (keeps_then _ _ _ _ (proj1 K2) (proj1 K3)))|].
  split; [exact (keeps_then _ _ _ _ (proj1 K1) (keeps_then _ _ _ _ (proj1 K2) (keeps_then _ _ _ _ (proj1 K3) (proj1 K4))))|].
  exact (bodies_then _ _ _ (proj2 K1) (bodies_then _ _ _ (proj2 K2) (bodies_then _ _ _ (proj2 K3) (proj2 K4)))).
Qed.
Definition ex_keeps2 := proj2 ex_keeps3.
Example wrapped_example : real_compilation ex_pool ex_ws ex_defined (snd ex_proxied) ex_compiled ex_final /\
  map wr_index (wrappers_of 3 ex_ws) = [11; 16] /\ map wr_index (wrappers_of 8 ex_ws) = [15] /\
  between (snd ex_proxied) ex_c3 ex_compiled /\ below ex_final 7 2.
Proof.
  destruct ex_steps as (E1 & E2). destruct ex_start as (S1 & S2). split; [|split; [reflexivity|split; [reflexivity|]]].
  - split; [|split; [exact S1|split; [exact S2|split; [ex_fits|split]]]].
    + exact (Compilation _ _ _ _ _ _ ex_st ex_files ex_scope _ _ _ (fun l => l) ex_registers ex_keeps1 (Permutation_refl _) E1 (proj1 ex_keeps2) (proj2 ex_keeps2) (Permutation_refl _) (fun l => Permutation_refl l) E2).
    + intros w H. vm_compute in H. repeat destruct H as [<-|H]; try destruct H; (eexists; eexists; split; [vm_compute; reflexivity|]; split; [reflexivity|]; split; [reflexivity|]; split; [discriminate|]);
        repeat constructor; (eexists; eexists; split; [vm_compute; reflexivity|reflexivity]).
    + intros w H. vm_compute in H. repeat destruct H as [<-|H]; try destruct H; intros d x D V; vm_compute in D; injection D as <-; injection V as <-;
        repeat constructor; (eexists; eexists; split; [vm_compute; reflexivity|reflexivity]).
  - split; [|apply (below_base _ _ {| cl_visibility := Public; cl_flags := 0; cl_base := 2; cl_functions := [8; 15; 14]; cl_fields := []; cl_overrides := [] |}); [reflexivity|eapply below_self; reflexivity]].
    split; [|exists []; vm_compute; reflexivity]. destruct ex_keeps3 as (K & _). constructor; try apply K. intros i [].
Qed.
