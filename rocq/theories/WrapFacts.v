(** Proofs about wrapped methods. *)
From Coq Require Import String.
From Coq Require Import ZArith List Bool Lia Permutation.
From Verif Require Import Bytes BytesFacts Bytecode Definitions DefinitionsFacts Bundle BundleFacts Ast TypeNames Pool Scope TypeCheck SourceMap Cursor
  Assembler AssemblerFacts PoolSpec PoolFacts Semantics Printer Parser ParserFacts TextFacts Wrappers WrapSpec.
From Verif Require GrowFacts.
Import ListNotations.
Open Scope Z_scope.


(** Generated names. *)
Lemma show_nat_inj a b : 0 <= a -> 0 <= b -> show_nat a = show_nat b -> a = b.
Proof. intros A B E. apply (f_equal read_nat) in E. rewrite !show_nat_read in E by assumption. congruence. Qed.
Lemma wrapper_name_inj a b : 0 <= a -> 0 <= b -> wrapper_name a = wrapper_name b -> a = b.
Proof. intros A B E. apply app_inv_head in E. now apply show_nat_inj. Qed.
Lemma proxy_name_inj a b : 0 <= a -> 0 <= b -> proxy_name a = proxy_name b -> a = b.
Proof. intros A B E. apply app_inv_head in E. now apply show_nat_inj. Qed.
Lemma wrapper_not_proxy a b : wrapper_name a <> proxy_name b.
Proof. intros E. discriminate E. Qed.

(** Definitions by index. *)
Lemma at_bounds p i d : def_at p i = Some d -> 0 <= i < size p.
Proof.
  unfold nth_def, size. destruct (Z.ltb_spec i 0); [discriminate|]. intros E.
  assert (nth_error (pl_defs p) (Z.to_nat i) <> None) as H1 by congruence. apply nth_error_Some in H1. lia.
Qed.
Lemma at_some p i : 0 <= i < size p -> exists d, def_at p i = Some d.
Proof.
  unfold nth_def, size. intros H. destruct (Z.ltb_spec i 0); [lia|].
  destruct (nth_error _ _) eqn:E; [eauto|]. apply nth_error_None in E. lia.
Qed.
Lemma nth_replace_at {A} (l : list A) : forall i x j, (i < length l)%nat ->
  nth_error (replace_at i x l) j = if (j =? i)%nat then Some x else nth_error l j.
Proof.
  unfold replace_at. induction l as [|y l IH]; intros i x j H; [cbn in H; lia|].
  destruct i as [|i]; cbn [firstn skipn app].
  - destruct j; reflexivity.
  - destruct j as [|j]; [reflexivity|]. cbn [nth_error Nat.eqb]. apply IH. cbn in H. lia.
Qed.
Lemma length_replace_at {A} (l : list A) i x : (i < length l)%nat -> length (replace_at i x l) = length l.
Proof. intros H. unfold replace_at. rewrite app_length, firstn_length. cbn [length]. rewrite skipn_length. lia. Qed.
Lemma put_spec p i d p' : put_def p i d = Done p' ->
  def_at p' i = Some d /\ (forall j, j <> i -> def_at p' j = def_at p j) /\ pl_names p' = pl_names p /\ size p' = size p.
Proof.
  unfold put_def. destruct (def_at p i) as [e|] eqn:E; [|discriminate]. intros [= <-].
  pose proof (at_bounds _ _ _ E) as B. unfold size in *. unfold nth_def. cbn [set_defs pl_defs pl_names].
  rewrite length_replace_at by lia. split; [|split; [|split; reflexivity]].
  - destruct (Z.ltb_spec i 0); [lia|]. rewrite nth_replace_at, Nat.eqb_refl by lia. reflexivity.
  - intros j D. destruct (Z.ltb_spec j 0); [reflexivity|]. rewrite nth_replace_at by lia.
    destruct (Nat.eqb_spec (Z.to_nat j) (Z.to_nat i)); [lia|reflexivity].
Qed.
Lemma put_ok p i d e : def_at p i = Some e -> exists p', put_def p i d = Done p'.
Proof. unfold put_def. intros ->. eauto. Qed.
Lemma add_def_spec p d p' i : add_definition p d = (p', i) -> fits p' ->
  i = size p /\ def_at p' i = Some d /\ (forall j, j <> i -> def_at p' j = def_at p j) /\ pl_names p' = pl_names p /\ size p' = size p + 1.
Proof.
  intros [= <- <-] (H & _). cbn [set_defs pl_defs] in *. rewrite app_length in H. cbn [length] in H.
  assert (W : wrap_u 32 (Z.of_nat (length (pl_defs p))) = size p) by (unfold size; rewrite wrap_u_id; [reflexivity|unfold in_u; lia]).
  rewrite W. split; [reflexivity|]. unfold nth_def, size. cbn [set_defs pl_defs pl_names]. rewrite app_length. cbn [length].
  split; [|split; [|split; [reflexivity|lia]]].
  - destruct (Z.ltb_spec (Z.of_nat (length (pl_defs p))) 0); [lia|]. rewrite Nat2Z.id. rewrite nth_error_app2, Nat.sub_diag by lia. reflexivity.
  - intros j D. destruct (Z.ltb_spec j 0); [reflexivity|]. destruct (Nat.lt_ge_cases (Z.to_nat j) (length (pl_defs p))).
    + now rewrite nth_error_app1.
    + rewrite (proj2 (nth_error_None _ _)); [|rewrite app_length; cbn; lia]. symmetry. apply nth_error_None. lia.
Qed.
Lemma add_def_grows p d p' i : add_definition p d = (p', i) -> size p <= size p' /\ pl_names p' = pl_names p.
Proof. intros [= <- <-]. unfold size. cbn [set_defs pl_defs pl_names]. rewrite app_length. split; [lia|reflexivity]. Qed.
Lemma add_name_defs p s p' i : add_name p s = (p', i) -> pl_defs p' = pl_defs p.
Proof. unfold add_name. destruct (st_add _ _ _). intros [= <- <-]. reflexivity. Qed.
Lemma add_name_grows p s p' i : add_name p s = (p', i) -> prefix (st_list (pl_names p)) (st_list (pl_names p')).
Proof.
  unfold add_name, st_add. destruct (str_eqb none_str s); [intros [= <- <-]; apply prefix_refl|].
  destruct (sm_find _ _); intros [= <- <-]; cbn [set_names pl_names st_list]; [apply prefix_refl|]. now exists [s].
Qed.
Lemma add_text p s p' i : add_name p s = (p', i) -> names_ok p -> fits p' ->
  names_ok p' /\ st_get (Some none_str) (pl_names p') i = inl s.
Proof.
  unfold add_name. destruct (st_add (Some none_str) (pl_names p) s) as [n j] eqn:E. intros [= <- <-] H (_ & F).
  cbn [set_names pl_names] in *. pose proof (add_indexed (Some none_str) (pl_names p) s H) as A. rewrite E in A. cbv zeta in A. cbn [fst snd] in A.
  destruct (A F) as (A1 & _ & A3 & _). now split.
Qed.

(** Names of definitions as the pool changes. *)
Lemma name_same p p' i d d' n : prefix (st_list (pl_names p)) (st_list (pl_names p')) ->
  def_at p i = Some d -> def_at p' i = Some d' -> df_name d' = df_name d -> def_name p i = Done n -> def_name p' i = Done n.
Proof.
  intros H A B E. unfold def_name, get_def. rewrite A, B. cbn [obind]. rewrite E.
  destruct (st_get (Some none_str) (pl_names p) (df_name d)) as [s|] eqn:G; [|discriminate].
  rewrite (prefix_get _ _ _ _ _ H G). auto.
Qed.
Lemma name_at p i d s : def_at p i = Some d -> st_get (Some none_str) (pl_names p) (df_name d) = inl s -> def_name p i = Done s.
Proof. intros A B. unfold def_name, get_def. rewrite A. cbn [obind]. now rewrite B. Qed.
Lemma name_def p i n : def_name p i = Done n -> exists d, def_at p i = Some d.
Proof. unfold def_name, get_def. destruct (def_at p i); [eauto|discriminate]. Qed.
Lemma class_at p c k : get_class p c = Done k <-> exists d, def_at p c = Some d /\ df_value d = DClass k.
Proof.
  unfold get_class, def_by. split.
  - destruct (def_at p c) as [d|]; [|discriminate]. unfold as_class. destruct (df_value d) eqn:E; try discriminate. intros [= <-]. eauto.
  - intros (d & -> & ->). reflexivity.
Qed.
Lemma function_at p f x : get_function p f = Done x <-> exists d, def_at p f = Some d /\ df_value d = DFunction x.
Proof.
  unfold get_function, def_by. split.
  - destruct (def_at p f) as [d|]; [|discriminate]. unfold as_function. destruct (df_value d) eqn:E; try discriminate. intros [= <-]. eauto.
  - intros (d & -> & ->). reflexivity.
Qed.
Lemma def_done p i d : pe (get_def p i) = Done d -> def_at p i = Some d.
Proof. unfold get_def. destruct (def_at p i); [intros [= <-]; reflexivity|discriminate]. Qed.
Lemma pe_done {A} (m : outcome pool_error A) x : pe m = Done x -> m = Done x.
Proof. unfold pe, map_err. destruct m; [intros [= ->]; reflexivity|discriminate]. Qed.
Lemma class_same p p' c : def_at p' c = def_at p c -> get_class p' c = get_class p c.
Proof. unfold get_class, def_by. now intros ->. Qed.
Lemma member_same p p' c i : def_at p' c = def_at p c -> member p' c i <-> member p c i.
Proof. intros E. unfold member. now rewrite (class_same _ _ _ E). Qed.

(** A new member. *)
Lemma push_spec p c f p' : push_member p c f = Done p' ->
  pl_names p' = pl_names p /\ size p' = size p /\ (forall j, j <> c -> def_at p' j = def_at p j) /\
  exists d k, def_at p c = Some d /\ df_value d = DClass k /\
    def_at p' c = Some (with_value d (DClass (with_functions k (cl_functions k ++ [f])))).
Proof.
  unfold push_member. intros H. destruct (pe (get_class p c)) as [k|] eqn:K; [|discriminate]. cbn [obind] in H.
  destruct (pe (get_def p c)) as [d|] eqn:D; [|discriminate]. cbn [obind] in H. apply put_spec in H as (A & B & N & S).
  apply pe_done, class_at in K as (d' & K1 & K2). apply def_done in D. assert (d' = d) by congruence. subst d'. eauto 12.
Qed.
Lemma push_member_iff p c f p' : push_member p c f = Done p' -> forall c' i, member p' c' i <-> member p c' i \/ c' = c /\ i = f.
Proof.
  intros H c' i. destruct (push_spec _ _ _ _ H) as (_ & _ & O & d & k & A & V & B). destruct (Z.eq_dec c' c) as [->|D].
  - assert (K : get_class p c = Done k) by (apply class_at; eauto).
    assert (K' : get_class p' c = Done (with_functions k (cl_functions k ++ [f]))) by (apply class_at; eexists; split; [exact B|reflexivity]).
    unfold member. rewrite K, K'. split.
    + intros (k' & [= <-] & I). cbn [with_functions cl_functions] in I. apply in_app_or in I as [I|[->|[]]]; [left; eauto|now right].
    + intros [(k' & [= <-] & I)|(_ & ->)]; (eexists; split; [reflexivity|]); cbn [with_functions cl_functions]; apply in_or_app; [now left|right; now left].
  - rewrite (member_same _ _ _ _ (O c' D)). split; [auto|]. intros [M|(E & _)]; [exact M|congruence].
Qed.
Lemma push_at p c f p' i d : push_member p c f = Done p' -> def_at p i = Some d -> exists d', def_at p' i = Some d' /\ df_name d' = df_name d.
Proof.
  intros H A. destruct (push_spec _ _ _ _ H) as (_ & _ & O & e & k & E & V & B). destruct (Z.eq_dec i c) as [->|D].
  - rewrite E in A. injection A as <-. eexists; split; [exact B|reflexivity].
  - exists d. split; [now rewrite (O i D)|reflexivity].
Qed.

(** Maps. *)
Lemma find_put m k v k' : find_key (put_key m k v) k' = if k =? k' then Some v else find_key m k'.
Proof.
  unfold put_key. cbn [find_key]. destruct (Z.eqb_spec k k') as [->|D]; [reflexivity|].
  induction m as [|[a b] m IH]; [reflexivity|]. cbn [filter fst find_key]. destruct (Z.eqb_spec a k) as [->|E]; cbn [negb].
  - rewrite IH. destruct (Z.eqb_spec k k'); [congruence|reflexivity].
  - cbn [find_key]. destruct (a =? k'); [reflexivity|exact IH].
Qed.
Lemma find_in m k v : find_key m k = Some v -> In (k, v) m.
Proof. induction m as [|[a b] m IH]; [discriminate|]. cbn [find_key]. destruct (Z.eqb_spec a k) as [->|]; [intros [= ->]; now left|right; auto]. Qed.
Lemma in_find m k v : NoDup (map fst m) -> In (k, v) m -> find_key m k = Some v.
Proof.
  induction m as [|[a b] m IH]; [contradiction|]. cbn [map fst find_key]. intros N. inversion N; subst. intros [[= -> ->]|I].
  - now rewrite Z.eqb_refl.
  - destruct (Z.eqb_spec a k) as [->|]; [exfalso; apply H1; exact (in_map fst _ _ I)|auto].
Qed.
Lemma filter_key m k : find_key m k = None -> filter (fun x : pidx * pidx => negb (fst x =? k)) m = m.
Proof.
  induction m as [|[a b] m IH]; [reflexivity|]. cbn [find_key filter fst]. destruct (a =? k); [discriminate|]. cbn [negb]. intros H. now rewrite IH.
Qed.
Lemma put_fresh m k v : find_key m k = None -> put_key m k v = (k, v) :: m.
Proof. intros H. unfold put_key. f_equal. exact (filter_key m k H). Qed.
Lemma find_none m k : ~ In k (map fst m) -> find_key m k = None.
Proof.
  induction m as [|[a b] m IH]; [reflexivity|]. cbn [map fst find_key]. intros H. destruct (Z.eqb_spec a k) as [->|]; [exfalso; apply H; now left|].
  apply IH. intros I. apply H. now right.
Qed.
Lemma keys_filter m k : NoDup (map fst m) -> NoDup (map fst (filter (fun x : pidx * pidx => negb (fst x =? k)) m)).
Proof.
  induction m as [|[a b] m IH]; [auto|]. cbn [map fst]. intros N. inversion N; subst. cbn [filter fst].
  destruct (a =? k); cbn [negb]; [auto|]. cbn [map fst]. constructor; [|auto].
  intros I. apply H1. apply in_map_iff in I as ([x y] & <- & I). apply filter_In in I as [I _]. exact (in_map fst _ _ I).
Qed.
Lemma keys_put m k v : NoDup (map fst m) -> NoDup (map fst (put_key m k v)).
Proof.
  intros N. unfold put_key. cbn [map fst]. constructor; [|now apply keys_filter].
  intros I. apply in_map_iff in I as ([x y] & <- & I). apply filter_In in I as [_ I]. cbn [fst] in I. now rewrite Z.eqb_refl in I.
Qed.
Lemma values_filter m k v : NoDup (map fst m) -> find_key m k = Some v ->
  Permutation (map snd m) (v :: map snd (filter (fun x : pidx * pidx => negb (fst x =? k)) m)).
Proof.
  induction m as [|[a b] m IH]; [discriminate|]. cbn [map fst snd find_key filter]. intros N. inversion N; subst.
  destruct (Z.eqb_spec a k) as [->|]; cbn [negb].
  - intros [= ->]. rewrite filter_key; [reflexivity|]. now apply find_none.
  - intros F. cbn [map snd]. rewrite (IH H2 F). apply perm_swap.
Qed.
Lemma values_in m k v x : In x (map snd (put_key m k v)) -> x = v \/ In x (map snd m).
Proof.
  unfold put_key. cbn [map snd]. intros [<-|I]; [now left|]. right. apply in_map_iff in I as (y & <- & I). apply filter_In in I as [I _]. now apply in_map.
Qed.

(** Growth. *)
Lemma keeps_size own p p' : keeps own p p' -> size p <= size p'.
Proof.
  intros K. destruct (Z.le_gt_cases (size p) (size p')) as [|G]; [assumption|].
  destruct (Z.eq_dec (size p) 0) as [Z0|Z0]; [unfold size in *; lia|].
  destruct (at_some p (size p - 1)) as [d D]; [unfold size in *; lia|]. destruct (keeps_def _ _ _ K _ _ D) as (d' & D' & _).
  apply at_bounds in D'. lia.
Qed.
Lemma fits_back p p' : size p <= size p' -> prefix (st_list (pl_names p)) (st_list (pl_names p')) -> fits p' -> fits p.
Proof. unfold fits, size. intros A B (C & D). apply prefix_length in B. lia. Qed.
Lemma keeps_fits own p p' : keeps own p p' -> fits p' -> fits p.
Proof. intros K. apply fits_back; [now apply keeps_size in K|apply K]. Qed.
Lemma keeps_name own p p' i n : keeps own p p' -> def_name p i = Done n -> def_name p' i = Done n.
Proof.
  intros K N. destruct (name_def _ _ _ N) as [d D]. destruct (keeps_def _ _ _ K _ _ D) as (d' & D' & E).
  exact (name_same _ _ _ _ _ _ (keeps_names _ _ _ K) D D' E N).
Qed.
Lemma keeps_member own p p' c i : keeps own p p' -> member p c i -> member p' c i.
Proof. intros K (k & A & B). destruct (keeps_class _ _ _ K _ _ A) as (k' & A' & _ & I). exists k'. auto. Qed.

(** The state after a number of declarations. *)
Record inv (p0 : pool) (ws : list wrapping) (st : wrap_state) : Prop := Inv {
  i_ok : names_ok (ws_pool st);
  i_size : size p0 <= size (ws_pool st);
  i_named : forall c i, member (ws_pool st) c i -> exists n, def_name (ws_pool st) i = Done n;
  i_wrap : forall w, In w ws -> size p0 <= wr_wrapped w < wr_index w /\ wr_index w < size (ws_pool st) /\
    member (ws_pool st) (wr_class w) (wr_index w) /\ def_name (ws_pool st) (wr_index w) = Done (wrapper_name (wr_wrapped w));
  i_fun : forall w, In w ws -> member (ws_pool st) (wr_class w) (wr_fun w) /\
    exists n, def_name (ws_pool st) (wr_fun w) = Done n /\ plain n;
  i_gen_w : forall c i k, member (ws_pool st) c i -> def_name (ws_pool st) i = Done (wrapper_name k) -> size p0 <= k ->
    exists w, In w ws /\ wr_index w = i /\ wr_wrapped w = k;
  i_gen_p : forall c i k, member (ws_pool st) c i -> def_name (ws_pool st) i = Done (proxy_name k) -> k < size p0;
  i_nodup : NoDup (map wr_wrapped ws ++ map snd (ws_wrappers st));
  i_values : forall v, In v (map snd (ws_wrappers st)) -> size p0 <= v < size (ws_pool st);
  i_chain : forall f, match find_key (ws_wrappers st) f with
    | None => wrappers_of f ws = [] /\ find_key (ws_proxies st) f = None
    | Some v => exists P, find_key (ws_proxies st) f = Some P /\ wrappers_of f ws <> [] /\
        map wr_wrapped (wrappers_of f ws) ++ [v] = P :: map wr_index (wrappers_of f ws)
    end;
  i_keys_w : NoDup (map fst (ws_wrappers st));
  i_keys_p : NoDup (map fst (ws_proxies st));
  i_proxies : NoDup (map snd (ws_proxies st));
  i_proxy : forall P, In P (map snd (ws_proxies st)) -> size p0 <= P < size (ws_pool st) /\
    def_at (ws_pool st) P = Some default_definition /\ forall c, ~ member (ws_pool st) c P }.

Lemma inv_start p0 : names_ok p0 -> members_named p0 -> inv p0 [] (WrapState p0 [] []).
Proof.
  intros O M. constructor; cbn [ws_pool ws_wrappers ws_proxies map app find_key]; try contradiction; auto using NoDup_nil.
  - lia.
  - intros c i H. destruct (M c i H) as (n & A & _). eauto.
  - intros c i k H N G. destruct (M c i H) as (n & A & B). assert (k < size p0); [|lia]. apply B. left. congruence.
  - intros c i k H N. destruct (M c i H) as (n & A & B). apply B. right. congruence.
Qed.
Lemma inv_keeps p0 ws st p' : inv p0 ws st -> keeps (map snd (ws_proxies st)) (ws_pool st) p' ->
  inv p0 ws (WrapState p' (ws_wrappers st) (ws_proxies st)).
Proof.
  intros I K. pose proof (keeps_size _ _ _ K) as S. destruct I. constructor; cbn [ws_pool ws_wrappers ws_proxies]; auto.
  - now apply (keeps_ok _ _ _ K).
  - lia.
  - intros c i H. destruct (keeps_members _ _ _ K _ _ H) as [M|(_ & n & N & _)]; [|eauto].
    destruct (i_named0 _ _ M) as [n N]. exists n. exact (keeps_name _ _ _ _ _ K N).
  - intros w W. destruct (i_wrap0 w W) as (A & B & C & D). split; [exact A|]. split; [lia|].
    split; [exact (keeps_member _ _ _ _ _ K C)|exact (keeps_name _ _ _ _ _ K D)].
  - intros w W. destruct (i_fun0 w W) as (A & n & B & C). split; [exact (keeps_member _ _ _ _ _ K A)|]. exists n.
    split; [exact (keeps_name _ _ _ _ _ K B)|exact C].
  - intros c i k H N G. destruct (keeps_members _ _ _ K _ _ H) as [M|(_ & n & N' & P)].
    + destruct (i_named0 _ _ M) as [n N']. pose proof (keeps_name _ _ _ _ _ K N'). apply (i_gen_w0 c i k M); [congruence|exact G].
    + destruct (P k) as [P' _]. congruence.
  - intros c i k H N. destruct (keeps_members _ _ _ K _ _ H) as [M|(_ & n & N' & P)].
    + destruct (i_named0 _ _ M) as [n N']. pose proof (keeps_name _ _ _ _ _ K N'). apply (i_gen_p0 c i k M); congruence.
    + destruct (P k) as [_ P']. congruence.
  - intros v V. specialize (i_values0 v V). lia.
  - intros P H. destruct (i_proxy0 P H) as (A & B & C). split; [lia|]. rewrite (keeps_own _ _ _ K P H). split; [exact B|].
    intros c M. destruct (keeps_members _ _ _ K _ _ M) as [M'|(L & _)]; [exact (C c M')|]. unfold size in *. lia.
Qed.

Lemma functions_named_in p n : forall l r i, functions_named p n l = Done r -> In i r -> In i l.
Proof.
  induction l as [|a l IH]; intros r i; cbn [functions_named]; [intros [= <-]; auto|].
  destruct (pc (def_name p a)) as [m|]; [|discriminate]. cbn [obind]. destruct (functions_named p n l) as [r'|] eqn:E; [|discriminate]. cbn [obind].
  intros [= <-]. destruct (str_eqb _ n); [intros [->|I]; [now left|right; eapply IH; eauto]|right; eapply IH; eauto].
Qed.
Lemma found_method p name c l sig f : resolve_direct_method p name c = Done l -> by_id l sig p = Some f -> member p c f /\ def_name p f = Done sig.
Proof.
  unfold resolve_direct_method, by_id. intros R B. apply find_some in B as [B1 B2].
  destruct (def_name p f) as [m|] eqn:N; [|discriminate]. destruct (str_eqb_spec m sig) as [->|]; [|discriminate]. split; [|reflexivity].
  destruct (get_class p c) as [k|] eqn:K; [|discriminate]. cbn [pc map_err obind] in R.
  destruct (functions_named p name (cl_functions k)) as [r|] eqn:F; [|discriminate]. cbn [obind] in R.
  exists k. split; [exact K|]. apply (functions_named_in _ _ _ _ _ F). destruct r; [destruct (def_name p c); discriminate|]. now injection R as ->.
Qed.

(** What registering a wrapper does. *)
Lemma register_spec c name sig sp st w st' : register c name sig sp st = Done (w, st') -> fits (ws_pool st') ->
  let p := ws_pool st in let p' := ws_pool st' in
  wr_class w = c /\ member p c (wr_fun w) /\ def_name p (wr_fun w) = Done sig /\
  ws_wrappers st' = put_key (ws_wrappers st) (wr_fun w) (wr_index w) /\
  (find_key (ws_wrappers st) (wr_fun w) = Some (wr_wrapped w) /\ wr_index w = size p /\ ws_proxies st' = ws_proxies st \/
   find_key (ws_wrappers st) (wr_fun w) = None /\ wr_wrapped w = size p /\ wr_index w = size p + 1 /\
   ws_proxies st' = put_key (ws_proxies st) (wr_fun w) (size p) /\ def_at p' (size p) = Some default_definition) /\
  size p' = wr_index w + 1 /\ prefix (st_list (pl_names p)) (st_list (pl_names p')) /\
  (names_ok p -> names_ok p' /\ def_name p' (wr_index w) = Done (wrapper_name (wr_wrapped w))) /\
  (forall i d, def_at p i = Some d -> exists d', def_at p' i = Some d' /\ df_name d' = df_name d /\ (i <> c -> d' = d)) /\
  (forall c' i, member p' c' i <-> member p c' i \/ c' = c /\ i = wr_index w).
Proof.
  unfold register. cbv zeta. destruct (resolve_direct_method (ws_pool st) name c) as [l|] eqn:R; [|discriminate].
  destruct (by_id l sig (ws_pool st)) as [f|] eqn:B; [|discriminate]. destruct (found_method _ _ _ _ _ _ R B) as (Mf & Nf). clear R B.
  destruct (match find_key (ws_wrappers st) f with Some w0 => _ | None => _ end) as [[k p1] prox] eqn:E1.
  destruct (add_name p1 (wrapper_name k)) as [p2 nm] eqn:E2. destruct (add_definition p2 (stub nm)) as [p3 wi] eqn:E3.
  destruct (push_member p3 c wi) as [p4|] eqn:E4; [|discriminate]. cbn [obind]. intros [= <- <-]. cbn [ws_pool ws_wrappers ws_proxies wr_class wr_fun wr_index wr_wrapped].
  intros F4. destruct (push_spec _ _ _ _ E4) as (N4 & S4 & O4 & _). pose proof (push_member_iff _ _ _ _ E4) as M4.
  assert (F3 : fits p3) by (revert F4; apply fits_back; [lia|rewrite N4; apply prefix_refl]).
  destruct (add_def_spec _ _ _ _ E3 F3) as (I3 & D3 & O3 & N3 & S3).
  assert (F2 : fits p2) by (revert F3; apply fits_back; [lia|rewrite N3; apply prefix_refl]).
  pose proof (add_name_defs _ _ _ _ E2) as Q2. pose proof (add_name_grows _ _ _ _ E2) as G2.
  assert (S2 : size p2 = size p1) by (unfold size; now rewrite Q2).
  assert (F1 : fits p1) by (revert F2; apply fits_back; [lia|exact G2]).
  set (p := ws_pool st) in *.
  assert (H1 : pl_names p1 = pl_names p /\ size p <= size p1 /\ (forall j, j < size p -> def_at p1 j = def_at p j) /\
    (forall j, size p <= j -> def_at p1 j = None \/ def_at p1 j = Some default_definition) /\
    (find_key (ws_wrappers st) f = Some k /\ size p1 = size p /\ prox = ws_proxies st \/
     find_key (ws_wrappers st) f = None /\ k = size p /\ size p1 = size p + 1 /\ prox = put_key (ws_proxies st) f (size p) /\ def_at p1 (size p) = Some default_definition)).
  { destruct (find_key (ws_wrappers st) f) as [k'|].
    - injection E1 as <- <- <-. split; [reflexivity|]. split; [lia|]. split; [reflexivity|]. split; [|auto].
      intros j L. left. destruct (def_at p j) eqn:X; [|reflexivity]. apply at_bounds in X. lia.
    - destruct (add_definition p default_definition) as [q i] eqn:E0. injection E1 as <- <- <-.
      destruct (add_def_spec _ _ _ _ E0 F1) as (I0 & D0 & O0 & N0 & S0). split; [exact N0|]. split; [lia|]. split; [intros j L; apply O0; lia|].
      split; [|right; rewrite <- I0 at 1 3 4; auto].
      intros j L. destruct (Z.eq_dec j i) as [->|]; [now right|]. left. rewrite O0 by assumption. destruct (def_at p j) eqn:X; [|reflexivity]. apply at_bounds in X. lia. }
  destruct H1 as (N1 & L1 & O1 & V1 & C1). clear E1.
  assert (D12 : forall j, def_at p2 j = def_at p1 j) by (intros j; now rewrite Q2).
  assert (Bf : 0 <= f < size p) by (destruct (name_def _ _ _ Nf) as [d D]; now apply at_bounds in D).
  assert (Bc : 0 <= c < size p) by (destruct Mf as (k0 & A & _); apply class_at in A as (d & D & _); now apply at_bounds in D).
  split; [reflexivity|]. split; [exact Mf|]. split; [exact Nf|]. split; [reflexivity|].
  split. { destruct C1 as [(A1 & A2 & A3)|(A1 & A2 & A3 & A4 & A5)]; [left|right].
    - split; [exact A1|]. split; [lia|exact A3].
    - split; [exact A1|]. split; [exact A2|]. split; [lia|]. split; [exact A4|]. rewrite O4 by lia. rewrite O3 by lia. now rewrite D12. }
  split; [lia|]. split; [rewrite N4, N3, <- N1; exact G2|].
  split. { intros OK. assert (OK1 : names_ok p1) by (unfold names_ok; now rewrite N1).
    destruct (add_text _ _ _ _ E2 OK1 F2) as (A & T). split; [unfold names_ok; now rewrite N4, N3|].
    destruct (push_at _ _ _ _ _ _ E4 D3) as (d' & D' & X). apply (name_at _ _ _ _ D'). rewrite X. cbn [stub df_name]. now rewrite N4, N3. }
  split. { intros i d D. pose proof (at_bounds _ _ _ D) as Bi. assert (D3' : def_at p3 i = Some d) by (rewrite O3, D12, O1 by lia; exact D).
    destruct (push_at _ _ _ _ _ _ E4 D3') as (d' & D' & X). exists d'. split; [exact D'|]. split; [exact X|]. intros H. rewrite O4 in D' by exact H. congruence. }
  intros c' i. rewrite M4. assert (X : member p3 c' i <-> member p c' i); [|now rewrite X].
  destruct (Z.lt_ge_cases c' (size p)) as [L|G].
  - apply member_same. rewrite O3 by lia. rewrite D12. now apply O1.
  - assert (NC : ~ member p3 c' i).
    { intros (k0 & A & _). apply class_at in A as (d & D & V). destruct (Z.eq_dec c' wi) as [->|]; [rewrite D3 in D; injection D as <-; discriminate V|].
      rewrite O3, D12 in D by assumption. destruct (V1 c' G) as [X|X]; rewrite X in D; [discriminate|]. injection D as <-. discriminate V. }
    assert (NC' : ~ member p c' i) by (intros (k0 & A & _); apply class_at in A as (d & D & _); apply at_bounds in D; lia). tauto.
Qed.

Lemma wrappers_of_snoc f ws w : wrappers_of f (ws ++ [w]) = wrappers_of f ws ++ (if wr_fun w =? f then [w] else []).
Proof. unfold wrappers_of. rewrite filter_app. cbn [filter]. destruct (wr_fun w =? f); reflexivity. Qed.
Lemma inv_register p0 ws st c name sig sp w st' : inv p0 ws st -> plain sig -> register c name sig sp st = Done (w, st') -> fits (ws_pool st') ->
  inv p0 (ws ++ [w]) st'.
Proof.
  intros I PL E F. destruct (register_spec _ _ _ _ _ _ _ E F) as (Wc & Mf & Nf & Wr & C & S & G & OK & D & M). cbv zeta in *. clear E.
  destruct I. destruct (OK i_ok0) as (OK' & NW). clear OK.
  assert (Bf : 0 <= size p0) by (unfold size; lia).
  assert (SI : size (ws_pool st) <= wr_index w) by (destruct C as [(_ & X & _)|(_ & _ & X & _)]; lia).
  assert (Kb : size p0 <= wr_wrapped w < wr_index w).
  { destruct C as [(A & X & _)|(_ & X & Y & _)]; [|lia]. apply find_in, (in_map snd), i_values0 in A. cbn [snd] in A. lia. }
  assert (Nm : forall i n, def_name (ws_pool st) i = Done n -> def_name (ws_pool st') i = Done n).
  { intros i n N. destruct (name_def _ _ _ N) as [d Dd]. destruct (D _ _ Dd) as (d' & Dd' & X & _). exact (name_same _ _ _ _ _ _ G Dd Dd' X N). }
  assert (Mm : forall c' i, member (ws_pool st) c' i -> member (ws_pool st') c' i) by (intros; apply M; now left).
  assert (Hold : forall w', In w' ws -> wr_index w' < size (ws_pool st)) by (intros w' H; apply (i_wrap0 w' H)).
  assert (CH : find_key (ws_wrappers st) (wr_fun w) = None -> find_key (ws_proxies st) (wr_fun w) = None /\ wrappers_of (wr_fun w) ws = []).
  { intros N. specialize (i_chain0 (wr_fun w)). rewrite N in i_chain0. tauto. }
  constructor.
  - exact OK'.
  - lia.
  - intros c' i H. apply M in H as [H|(-> & ->)]; [|eauto]. destruct (i_named0 _ _ H) as [n N]. eauto.
  - intros w' H. apply in_app_or in H as [H|[<-|[]]].
    + destruct (i_wrap0 w' H) as (A & B & C' & D'). split; [exact A|]. split; [lia|]. auto.
    + split; [exact Kb|]. split; [lia|]. split; [apply M; right; auto|exact NW].
  - intros w' H. apply in_app_or in H as [H|[<-|[]]].
    + destruct (i_fun0 w' H) as (A & n & B & C'). eauto 6.
    + rewrite Wc. eauto 6.
  - intros c' i k H N L. apply M in H as [H|(-> & ->)].
    + destruct (i_named0 _ _ H) as [n N']. pose proof (Nm _ _ N') as N''. destruct (i_gen_w0 c' i k H) as (w' & A & B); [congruence|exact L|].
      exists w'. split; [apply in_or_app; now left|exact B].
    + exists w. split; [apply in_or_app; right; now left|]. split; [reflexivity|]. apply wrapper_name_inj; [lia|lia|congruence].
  - intros c' i k H N. apply M in H as [H|(-> & ->)].
    + destruct (i_named0 _ _ H) as [n N']. pose proof (Nm _ _ N') as N''. apply (i_gen_p0 c' i k H). congruence.
    + exfalso. apply (wrapper_not_proxy (wr_wrapped w) k). congruence.
  - rewrite Wr, map_app, <- app_assoc. cbn [map app].
    assert (FR : forall x, In x (map wr_wrapped ws ++ map snd (ws_wrappers st)) -> x < size (ws_pool st)).
    { intros x H. apply in_app_or in H as [H|H].
      - apply in_map_iff in H as (w' & <- & H). destruct (i_wrap0 w' H). lia.
      - apply i_values0 in H. lia. }
    destruct C as [(A & X & _)|(A & X & Y & _)].
    + apply (Permutation_NoDup (l := wr_index w :: map wr_wrapped ws ++ map snd (ws_wrappers st))).
      * rewrite (values_filter _ _ _ i_keys_w0 A). unfold put_key. cbn [map snd]. rewrite Permutation_middle. apply Permutation_app_head. apply perm_swap.
      * constructor; [|assumption]. intros H. apply FR in H. lia.
    + rewrite (put_fresh _ _ _ A). cbn [map snd].
      apply (Permutation_NoDup (l := wr_wrapped w :: wr_index w :: map wr_wrapped ws ++ map snd (ws_wrappers st))).
      * rewrite <- Permutation_middle. apply perm_skip. apply Permutation_middle.
      * constructor; [|constructor; [|assumption]]; [intros [H|H]; [lia|apply FR in H; lia]|intros H; apply FR in H; lia].
  - intros v H. rewrite Wr in H. apply values_in in H as [->|H]; [lia|]. apply i_values0 in H. lia.
  - intros f. rewrite Wr, find_put, wrappers_of_snoc. destruct (Z.eqb_spec (wr_fun w) f) as [<-|Df].
    + rewrite !map_app. cbn [map]. destruct C as [(A & X & PX)|(A & X & Y & PX & _)].
      * specialize (i_chain0 (wr_fun w)). rewrite A in i_chain0. destruct i_chain0 as (P & C1 & C2 & C3). exists P. rewrite PX. split; [exact C1|].
        split; [destruct (wrappers_of (wr_fun w) ws); discriminate|]. rewrite C3. reflexivity.
      * destruct (CH A) as (_ & C2). rewrite C2. exists (size (ws_pool st)). rewrite PX, find_put, Z.eqb_refl. split; [reflexivity|]. split; [discriminate|].
        cbn [map app]. now rewrite X.
    + rewrite app_nil_r. specialize (i_chain0 f). assert (PF : find_key (ws_proxies st') f = find_key (ws_proxies st) f).
      { destruct C as [(_ & _ & ->)|(_ & _ & _ & -> & _)]; [reflexivity|]. rewrite find_put. now destruct (Z.eqb_spec (wr_fun w) f). }
      now rewrite PF.
  - rewrite Wr. now apply keys_put.
  - destruct C as [(_ & _ & ->)|(_ & _ & _ & -> & _)]; [assumption|now apply keys_put].
  - destruct C as [(_ & _ & ->)|(A & _ & _ & -> & _)]; [assumption|]. rewrite put_fresh by (now apply CH). cbn [map snd]. constructor; [|assumption].
    intros H. apply i_proxy0 in H. lia.
  - intros P H.
    assert (NM : forall q, q < size (ws_pool st') -> q <> wr_index w -> (forall c', ~ member (ws_pool st) c' q) -> forall c', ~ member (ws_pool st') c' q).
    { intros q _ H1 H2 c' H3. apply M in H3 as [H3|(_ & H3)]; [exact (H2 c' H3)|contradiction]. }
    assert (OLD : In P (map snd (ws_proxies st)) -> size p0 <= P < size (ws_pool st') /\ def_at (ws_pool st') P = Some default_definition /\ forall c', ~ member (ws_pool st') c' P).
    { intros H0. destruct (i_proxy0 P H0) as (A & B & C'). split; [lia|]. split; [|apply NM; [lia|lia|exact C']].
      destruct (D _ _ B) as (d' & D' & _ & E'). rewrite D', E'; [reflexivity|]. intros ->. destruct Mf as (k & K & _). apply class_at in K as (dk & K & V). rewrite B in K. injection K as <-. discriminate V. }
    destruct C as [(_ & _ & PX)|(A & X & Y & PX & Df)]; rewrite PX in H; [auto|]. apply values_in in H as [->|H]; [|auto].
    split; [lia|]. split; [exact Df|]. apply NM; [lia|lia|]. intros c' H'. destruct (i_named0 _ _ H') as [n N]. destruct (name_def _ _ _ N) as [d Dd]. apply at_bounds in Dd. lia.
Qed.
Lemma register_grows c name sig sp st w st' : register c name sig sp st = Done (w, st') ->
  size (ws_pool st) <= size (ws_pool st') /\ prefix (st_list (pl_names (ws_pool st))) (st_list (pl_names (ws_pool st'))).
Proof.
  unfold register. destruct (resolve_direct_method _ _ _) as [l|]; [|discriminate]. destruct (by_id _ _ _) as [f|]; [|discriminate].
  destruct (match find_key (ws_wrappers st) f with Some w0 => _ | None => _ end) as [[k p1] prox] eqn:E1.
  destruct (add_name p1 (wrapper_name k)) as [p2 nm] eqn:E2. destruct (add_definition p2 (stub nm)) as [p3 wi] eqn:E3.
  destruct (push_member p3 c wi) as [p4|] eqn:E4; [|discriminate]. cbn [obind]. intros [= <- <-]. cbn [ws_pool].
  destruct (push_spec _ _ _ _ E4) as (N4 & S4 & _). destruct (add_def_grows _ _ _ _ E3) as (S3 & N3).
  pose proof (add_name_defs _ _ _ _ E2) as Q2. pose proof (add_name_grows _ _ _ _ E2) as G2.
  assert (S2 : size p2 = size p1) by (unfold size; now rewrite Q2). rewrite N4, N3.
  destruct (find_key (ws_wrappers st) f); [injection E1 as _ <- _; split; [lia|exact G2]|].
  destruct (add_definition (ws_pool st) default_definition) as [q i] eqn:E0. injection E1 as _ <- _. destruct (add_def_grows _ _ _ _ E0) as (S0 & N0).
  rewrite <- N0. split; [lia|exact G2].
Qed.
Lemma inv_registers p0 ws st : registers p0 ws st -> fits (ws_pool st) -> names_ok p0 -> members_named p0 -> inv p0 ws st.
Proof.
  intros R F O M. induction R as [|ws st c name sig sp w st' R IH PL E|ws st p' R IH K].
  - now apply inv_start.
  - destruct (register_grows _ _ _ _ _ _ _ E) as (A & B). apply (inv_register _ _ _ _ _ _ _ _ _ (IH (fits_back _ _ A B F)) PL E F).
  - apply inv_keeps; [|exact K]. apply IH. exact (keeps_fits _ _ _ K F).
Qed.

(** Labels do not matter to calls and parameters. *)
Lemma called_map {K L} p (f : K -> L) (i : instr K) : called p (map_loc f i) = called p i.
Proof. destruct i; reflexivity. Qed.
Definition param_of {L} (i : instr L) : list pidx := match i with Param x => [x] | _ => [] end.
Lemma param_map {K L} (f : K -> L) (i : instr K) : param_of (map_loc f i) = param_of i.
Proof. destruct i; reflexivity. Qed.
Lemma calls_app {L} p (a b : code L) : calls p (a ++ b) = calls p a ++ calls p b.
Proof. apply flat_map_app. Qed.
Lemma params_app {L} (a b : code L) : params_used (a ++ b) = params_used a ++ params_used b.
Proof. apply flat_map_app. Qed.
Lemma resolve_all_keeps p ts : forall cs out, resolve_all ts cs = Some out -> calls p out = calls p (map snd cs) /\ params_used out = params_used (map snd cs).
Proof.
  induction cs as [|[loc i] cs IH]; intros out; cbn [resolve_all map snd]; [intros [= <-]; split; reflexivity|].
  destruct (is_target i) eqn:T; [destruct i; try discriminate T; exact (IH out)|].
  unfold resolve_labels. destruct (forallb _ _); [|discriminate]. destruct (resolve_all ts cs) as [r|]; [|discriminate]. intros [= <-].
  destruct (IH r eq_refl) as (A & B). unfold calls, params_used in *. cbn [flat_map]. rewrite A, B, called_map. split; [reflexivity|].
  f_equal. exact (param_map _ i).
Qed.
Lemma code_iter_snd {L} : forall (c : code L) pos, map snd (code_iter pos c) = c.
Proof. induction c as [|i c IH]; intros pos; [reflexivity|]. cbn [code_iter map snd]. now rewrite IH. Qed.
Lemma into_code_keeps p n c out : into_code n c = Some out -> calls p out = calls p c /\ params_used out = params_used c.
Proof.
  unfold into_code. destruct (place_labels _ _); [|discriminate]. intros H. apply (resolve_all_keeps p) in H. now rewrite code_iter_snd in H.
Qed.

Lemma resolve_head ts loc i cs out : is_target i = false -> resolve_all ts ((loc, i) :: cs) = Some out -> exists g r, out = map_loc g i :: r /\ resolve_all ts cs = Some r.
Proof.
  intros T. cbn [resolve_all]. rewrite T. unfold resolve_labels. destruct (forallb _ _); [|discriminate]. destruct (resolve_all ts cs) as [r|]; [|discriminate]. intros [= <-]. eauto.
Qed.
Lemma into_code_just n p ret c f out : just_calls p ret c f -> into_code n (c ++ [Nop]) = Some out -> just_calls p ret out f.
Proof.
  intros (A & i & r & C & E) H. split; [rewrite (proj1 (into_code_keeps p _ _ _ H)), calls_app, A; reflexivity|].
  assert (T : is_target i = false) by (destruct i; try discriminate C; reflexivity). unfold into_code in H. destruct (place_labels _ _) as [ts|]; [|discriminate]. subst c.
  destruct ret; cbn [app code_iter] in H.
  - apply resolve_head in H as (g & r1 & -> & H); [|reflexivity]. apply resolve_head in H as (g' & r2 & -> & H); [|exact T]. exists (map_loc g' i), r2. split; [now rewrite called_map|reflexivity].
  - apply resolve_head in H as (g' & r2 & -> & H); [|exact T]. exists (map_loc g' i), r2. split; [now rewrite called_map|reflexivity].
Qed.

(** The call instruction. *)
Lemma head_called p f fn exit i n : call_head p f fn false exit i -> get_function p f = Done fn -> def_name p f = Done n ->
  exists cal, callee_of p f false = Some cal /\ called p i = Some cal.
Proof.
  intros H G N. unfold callee_of. rewrite G, N. destruct H as [d line inv _ H1 H2 H3 D|line inv H].
  - rewrite H1, H2, H3. cbn [orb]. eexists. split; [reflexivity|]. cbn [called]. revert N. unfold def_name. rewrite D. cbn [obind].
    destruct (st_get _ _ _); [now intros [= ->]|discriminate].
  - rewrite H. eexists. split; reflexivity.
Qed.
Lemma param_gens i sp t c t1 : gens (EIdent (N := typed_ast) (RValue (VParam i)) sp) None t c t1 -> c = [Param i] /\ as_pool t1 = as_pool t.
Proof.
  intros G. inversion G; subst. match goal with H : head_of _ = _ |- _ => cbn [head_of] in H; injection H as <- <- end.
  match goal with H : emit _ _ = _ |- _ => apply emit_done in H as (-> & ->) end. match goal with H : gseq [] _ _ _ _ |- _ => inversion H; subst end. split; reflexivity.
Qed.
Lemma param_args p sp ps : forall flags t c t1, (length ps <= length flags)%nat ->
  gargs (map (fun i => EIdent (N := typed_ast) (RValue (VParam i)) sp) ps) flags t c t1 ->
  calls p c = [] /\ params_used c = ps /\ as_pool t1 = as_pool t.
Proof.
  induction ps as [|i ps IH]; intros flags t c t1 L G; cbn [map] in G; inversion G; subst; cbn [length] in *; try lia; [repeat split|..].
  all: match goal with H : gens _ _ _ _ _ |- _ => apply param_gens in H as (-> & E1) end;
    match goal with H : gargs _ _ _ _ _ |- _ => apply IH in H as (A & B & E2); [|lia] end; cbn [bump as_pool] in *; (split; [exact A|]); (split; [|congruence]); cbn.
  - f_equal. exact B.
  - f_equal. exact B.
Qed.

Lemma called_prefix {L} p q (i : instr L) cal : prefix (st_list (pl_names p)) (st_list (pl_names q)) -> called p i = Some cal -> called q i = Some cal.
Proof.
  intros E C. destruct i; try discriminate C; cbn [called] in *; [exact C|].
  destruct (st_get (Some none_str) (pl_names p) _) as [s|] eqn:G; [|discriminate]. now rewrite (prefix_get _ _ _ _ _ E G).
Qed.
(** The code of a proxy. *)
Lemma proxy_gens x w ps t c t1 n : gseq (proxy_body x w ps) None t c t1 -> def_name (as_pool t) w = Done n ->
  as_pool t1 = as_pool t /\ params_used c = ps /\ exists cal, callee_of (as_pool t) w false = Some cal /\
    forall q, prefix (st_list (pl_names (as_pool t))) (st_list (pl_names q)) -> just_calls q (fu_return_type x) c cal.
Proof.
  intros G N. unfold proxy_body in G. inversion G as [|e es exit t0 c1 t2 c2 t3 Gs Gn]; subst. inversion Gn; subst. rewrite app_nil_r. clear G Gn.
  assert (M : forall c, gcall w (map (fun i => EIdent (N := typed_ast) (RValue (VParam i)) span_zero) ps) false t c t1 ->
    as_pool t1 = as_pool t /\ params_used c = ps /\ exists cal, callee_of (as_pool t) w false = Some cal /\
    forall q, prefix (st_list (pl_names (as_pool t))) (st_list (pl_names q)) -> calls q c = [cal] /\ exists i r, called q i = Some cal /\ c = i :: r).
  { intros c' G. inversion G as [f args force t' fn flags i ca t2 F Fl Hd Ga Le]; subst. rewrite map_length in Le.
    destruct (head_called _ _ _ _ _ _ Hd F N) as (cal & C1 & C2).
    assert (R : forall q m, params_used (repeat (@Nop nat) m) = [] /\ calls q (repeat (@Nop nat) m) = []) by (induction m; [split; reflexivity|exact IHm]).
    split; [exact (proj2 (proj2 (param_args (as_pool t) _ _ _ _ _ _ Le Ga)))|]. split; [|exists cal; split; [exact C1|]].
    - destruct (param_args (as_pool t) _ _ _ _ _ _ Le Ga) as (_ & B & _).
      change (i :: ca ++ ?r) with ([i] ++ ca ++ r). rewrite !params_app, B, (proj1 (R (as_pool t) _)). destruct Hd; cbn; apply app_nil_r.
    - intros q Q. destruct (param_args q _ _ _ _ _ _ Le Ga) as (A & _). change (i :: ca ++ ?r) with ([i] ++ ca ++ r). rewrite !calls_app, A, (proj2 (R q _)).
      unfold calls at 1. cbn [flat_map]. rewrite (called_prefix _ _ _ _ Q C2). split; [reflexivity|]. exists i. eexists. split; [exact (called_prefix _ _ _ _ Q C2)|reflexivity]. }
  unfold just_calls. destruct (fu_return_type x).
  - inversion Gs; subst; try discriminate. match goal with H : head_of _ = _ |- _ => cbn [head_of] in H; injection H as <- <- end.
    match goal with H : emit _ _ = _ |- _ => apply emit_done in H as (-> & ->) end.
    match goal with H : gseq [_] _ _ _ _ |- _ => inversion H; subst end. match goal with H : gseq [] _ _ _ _ |- _ => inversion H; subst end. rewrite app_nil_r.
    match goal with H : gens _ _ _ _ _ |- _ => inversion H; subst; [discriminate|] end. match goal with H : gcall _ _ _ _ _ _ |- _ => apply M in H as (A & B & cal & C & D) end.
    split; [exact A|]. split; [exact B|]. exists cal. split; [exact C|]. intros q Q. destruct (D q Q) as (D1 & i & r & D2 & ->). split; [exact D1|]. now exists i, r.
  - inversion Gs; subst; [discriminate|]. now apply M.
Qed.

Definition is_param (d : definition) : Prop := exists y, df_value d = DParameter y.
Lemma copy_parameters_spec ps : forall p js p', copy_parameters ps p = Done (js, p') -> fits p' ->
  Forall (fun i => exists e y, def_at p i = Some e /\ df_value e = DParameter y) ps ->
  pl_names p' = pl_names p /\ size p <= size p' /\ (forall i, i < size p -> def_at p' i = def_at p i) /\
  (forall i e, size p <= i -> def_at p' i = Some e -> is_param e) /\ Forall2 (fun i j => size p <= j /\ def_at p' j = def_at p i) ps js.
Proof.
  induction ps as [|i ps IH]; intros p js p'; cbn [copy_parameters].
  - intros [= <- <-] _ _. repeat split; auto; [lia|]. intros i e L D. apply at_bounds in D. lia.
  - destruct (pe (get_def p i)) as [d|] eqn:D; [|discriminate]. cbn [obind]. apply def_done in D. destruct (add_definition p d) as [p1 j] eqn:E.
    destruct (copy_parameters ps p1) as [[js' p2]|] eqn:C; [|discriminate]. cbn [obind]. intros [= <- <-] F H. inversion H as [|? ? (e & y & A & B) H']; subst.
    assert (G : size p1 <= size p2 /\ prefix (st_list (pl_names p1)) (st_list (pl_names p2))).
    { clear - C. revert p1 js' C. induction ps as [|i ps IH]; intros p1 js; cbn [copy_parameters]; [intros [= <- <-]; split; [lia|apply prefix_refl]|].
      destruct (pe (get_def p1 i)) as [d|]; [|discriminate]. cbn [obind]. destruct (add_definition p1 d) as [q j] eqn:E.
      destruct (copy_parameters ps q) as [[js2 q2]|] eqn:C; [|discriminate]. cbn [obind]. intros [= <- <-]. destruct (IH _ _ C) as (A & B).
      destruct (add_def_grows _ _ _ _ E) as (S & N). rewrite <- N. split; [lia|exact B]. }
    assert (F1 : fits p1) by (exact (fits_back _ _ (proj1 G) (proj2 G) F)).
    destruct (add_def_spec _ _ _ _ E F1) as (I1 & D1 & O1 & N1 & S1).
    destruct (IH p1 js' p2 C F) as (N2 & S2 & O2 & V2 & L2).
    { apply Forall_impl with (2 := H'). intros i' (e' & y' & A' & B'). exists e', y'. split; [|exact B']. rewrite O1; [exact A'|]. apply at_bounds in A'. lia. }
    split; [congruence|]. split; [lia|]. split; [intros i' L; rewrite O2 by lia; apply O1; lia|]. split.
    + intros i' e' L D'. destruct (Z.eq_dec i' j) as [->|]; [|apply (V2 i' e'); [lia|exact D']].
      rewrite O2, D1 in D' by lia. injection D' as <-. rewrite D in A. injection A as <-. now exists y.
    + constructor.
      * split; [lia|]. rewrite O2, D1 by lia. congruence.
      * clear - L2 O1 S1 I1 H'. revert H'. induction L2 as [|a b l l' (X & Y) L IH]; intros H'; [constructor|]. inversion H' as [|? ? (e & y & A & _) H2]; subst.
        constructor; [|auto]. split; [lia|]. rewrite Y. apply O1. apply at_bounds in A. lia.
Qed.

(** What building a proxy does. *)
Lemma construct_proxy_spec files slot f w s p s' p' c nw : construct_proxy files slot f w s p = Done (s', p') -> fits p' -> names_ok p ->
  def_name p w = Done nw -> method_of p c f -> def_at p slot = Some default_definition ->
  names_ok p' /\ size p <= size p' /\ prefix (st_list (pl_names p)) (st_list (pl_names p')) /\ slot <> c /\
  (forall i, i < size p -> i <> slot -> i <> c -> def_at p' i = def_at p i) /\
  (forall i e, size p <= i -> def_at p' i = Some e -> is_param e) /\
  (exists dc k, def_at p c = Some dc /\ df_value dc = DClass k /\
     def_at p' c = Some (with_value dc (DClass (with_functions k (cl_functions k ++ [slot]))))) /\
  exists d x params code nm, def_at p f = Some d /\ df_value d = DFunction x /\ df_parent d = c /\
    Forall2 (fun i j => size p <= j /\ def_at p' j = def_at p i) (fu_parameters x) params /\
    def_at p' slot = Some (function_definition nm c (with_parameters (with_locals (with_code x code) []) params)) /\
    st_get (Some none_str) (pl_names p') nm = inl (proxy_name w) /\ params_used code = params /\
    exists cal, (cal = Direct w \/ cal = Virtual nw) /\ forall q, prefix (st_list (pl_names p)) (st_list (pl_names q)) -> just_calls q (fu_return_type x) code cal.
Proof.
  unfold construct_proxy. intros E F OK NW (d & x & D & V & PA & UN & PS) SL. unfold get_def in E. rewrite D in E. cbn [pe map_err obind] in E. rewrite V, PA in E.
  destruct (copy_parameters (fu_parameters x) p) as [[params p1]|] eqn:E1; [|discriminate]. cbn [obind] in E.
  destruct (from_body files (proxy_body x w params) s p1) as [[[code s1] p2]|] eqn:E2; [|discriminate]. cbn [obind] in E.
  destruct (add_name p2 (proxy_name w)) as [p3 nm] eqn:E3. destruct (put_def p3 slot _) as [p4|] eqn:E4; [|discriminate]. cbn [obind] in E.
  destruct (Z.eqb_spec c UNDEFINED) as [|_]; [contradiction|]. destruct (push_member p4 c slot) as [p5|] eqn:E5; [|discriminate]. cbn [obind] in E. injection E as <- <-.
  destruct (push_spec _ _ _ _ E5) as (N5 & S5 & O5 & dc & k & D5 & V5 & R5). destruct (put_spec _ _ _ _ E4) as (D4 & O4 & N4 & S4).
  pose proof (add_name_defs _ _ _ _ E3) as Q3. pose proof (add_name_grows _ _ _ _ E3) as G3. assert (S3 : size p3 = size p2) by (unfold size; now rewrite Q3).
  (* the code *)
  unfold from_body in E2. destruct (asm_body files (proxy_body x w params) _) as [[[u lc] t]|] eqn:EA; [|discriminate]. destruct u.
  destruct (into_code (as_labels t) lc) as [out|] eqn:EI; [|discriminate]. injection E2 as <- <- <-.
  apply body_sound in EA as (lc' & GS & ->).
  assert (P2 : forall n, def_name p1 w = Done n -> as_pool t = p1 /\ params_used out = params /\ exists cal, callee_of p1 w false = Some cal /\
    forall q, prefix (st_list (pl_names p1)) (st_list (pl_names q)) -> just_calls q (fu_return_type x) out cal).
  { intros n Hn. destruct (proxy_gens _ _ _ _ _ _ _ GS Hn) as (A & B & cal & C & G). cbn [as_pool] in *. split; [exact A|].
    split; [rewrite (proj2 (into_code_keeps p1 _ _ _ EI)), params_app, B; apply app_nil_r|]. exists cal. split; [exact C|]. intros q Q.
    exact (into_code_just _ _ _ _ _ _ (G q Q) EI). }
  assert (G13 : as_pool t = p1 -> fits p1 /\ fits p3).
  { intros A. rewrite A in *. assert (F3 : fits p3) by (revert F; apply fits_back; [lia|rewrite N5, N4; apply prefix_refl]). split; [|exact F3]. revert F3. apply fits_back; [lia|exact G3]. }
  (* the pool before the assembler is small enough, and the assembler leaves it alone *)
  assert (W1 : def_name p1 w = Done nw).
  { clear - E1 NW. revert p params E1 NW. induction (fu_parameters x) as [|i ps IH]; intros p js; cbn [copy_parameters]; [now intros [= <- <-]|].
    destruct (pe (get_def p i)) as [d|]; [|discriminate]. cbn [obind]. destruct (add_definition p d) as [q j] eqn:E. destruct (copy_parameters ps q) as [[js2 q2]|] eqn:C; [|discriminate].
    cbn [obind]. intros [= <- <-] N. apply (IH _ _ C). exact (extends_def_name _ _ _ _ (extends_add_definition _ _ _ _ E) N). }
  destruct (P2 nw W1) as (A & B & cal & C & CL). destruct (G13 A) as (F1 & F3). rewrite A in *. clear P2 G13 GS EI.
  destruct (copy_parameters_spec _ _ _ _ E1 F1 PS) as (N1 & S1 & O1 & V1 & L1).
  assert (OK1 : names_ok p1) by (unfold names_ok; now rewrite N1). destruct (add_text _ _ _ _ E3 OK1 F3) as (OK3 & T3).
  assert (D13 : forall i, def_at p3 i = def_at p1 i) by (intros i; now rewrite Q3).
  pose proof (at_bounds _ _ _ SL) as BS.
  assert (NE : slot <> c) by (intros ->; rewrite D4 in D5; injection D5 as <-; discriminate V5).
  assert (BC : c < size p). { destruct (Z.lt_ge_cases c (size p)) as [|GE]; [assumption|]. rewrite O4, D13 in D5 by congruence. destruct (V1 c dc GE D5) as (y & Y). congruence. }
  split; [unfold names_ok; now rewrite N5, N4|]. split; [lia|]. split; [rewrite N5, N4, <- N1; exact G3|]. split; [exact NE|].
  split; [intros i L X Y; rewrite O5, O4, D13 by assumption; now apply O1|].
  split; [intros i e L X; apply (V1 i e L); rewrite <- D13, <- O4, <- O5 by lia; exact X|].
  split; [exists dc, k; split; [rewrite <- O1, <- D13, <- O4 by congruence; exact D5|split; [exact V5|exact R5]]|].
  exists d, x, params, out, nm. split; [exact D|]. split; [exact V|]. split; [exact PA|].
  split. { clear - L1 D13 O4 O5 BS BC. induction L1 as [|a b l l' (X & Y) L IH]; constructor; [|exact IH]. split; [exact X|]. rewrite O5, O4, D13 by lia. exact Y. }
  split; [rewrite O5 by exact NE; exact D4|]. split; [rewrite N5, N4; exact T3|]. split; [exact B|]. exists cal. split.
  - unfold callee_of in C. rewrite W1 in C. destruct (get_function p1 w); [|discriminate]. match type of C with Some (if ?b then _ else _) = _ => destruct b end; injection C as <-; auto.
  - intros q Q. apply CL. now rewrite N1.
Qed.

(** The loop building the proxies. *)
Definition proxy_of (p0 p : pool) (f w P : pidx) : Prop :=
  exists c d x params code nm nw, def_at p0 f = Some d /\ df_value d = DFunction x /\ df_parent d = c /\ (exists k, get_class p0 c = Done k) /\ def_name p0 w = Done nw /\
    Forall2 (fun i j => size p0 <= j /\ exists e y, def_at p j = Some e /\ def_at p0 i = Some e /\ df_value e = DParameter y) (fu_parameters x) params /\
    def_at p P = Some (function_definition nm c (with_parameters (with_locals (with_code x code) []) params)) /\
    st_get (Some none_str) (pl_names p) nm = inl (proxy_name w) /\ params_used code = params /\
    exists cal, (cal = Direct w \/ cal = Virtual nw) /\ forall q, prefix (st_list (pl_names p)) (st_list (pl_names q)) -> just_calls q (fu_return_type x) code cal.
Definition slot_in (proxies dn : pmap) (P : pidx) : Prop := exists f w, In (f, w) dn /\ find_key proxies f = Some P.
Record proxied_by (p0 : pool) (proxies dn : pmap) (p : pool) : Prop := Proxied {
  pb_ok : names_ok p;
  pb_size : size p0 <= size p;
  pb_names : prefix (st_list (pl_names p0)) (st_list (pl_names p));
  pb_same : forall i d, def_at p0 i = Some d -> (forall k, df_value d <> DClass k) -> ~ slot_in proxies dn i -> def_at p i = Some d;
  pb_class : forall c d k, def_at p0 c = Some d -> df_value d = DClass k ->
    exists fs, def_at p c = Some (with_value d (DClass (with_functions k (cl_functions k ++ fs)))) /\
      forall P, In P fs <-> exists f w, In (f, w) dn /\ find_key proxies f = Some P /\ method_of p0 c f;
  pb_new : forall i e, size p0 <= i -> def_at p i = Some e -> is_param e;
  pb_proxy : forall f w P, In (f, w) dn -> find_key proxies f = Some P -> proxy_of p0 p f w P }.
Lemma pb_start p0 proxies : names_ok p0 -> proxied_by p0 proxies [] p0.
Proof.
  intros OK. constructor; auto.
  - lia.
  - apply prefix_refl.
  - intros c d k D V. exists []. split; [|intros P; split; [intros []|intros (f & w & [] & _)]]. rewrite app_nil_r, D. destruct d; cbn in *. subst. now destruct k.
  - intros i e L D. apply at_bounds in D. lia.
  - intros f w P [].
Qed.
Lemma prefix_get_name s s' n t : prefix (st_list s) (st_list s') -> st_get (Some none_str) s n = inl t -> st_get (Some none_str) s' n = inl t.
Proof. intros P H. exact (prefix_get _ _ _ _ _ P H). Qed.

Lemma class_dec d : (exists k, df_value d = DClass k) \/ forall k, df_value d <> DClass k.
Proof. destruct (df_value d); eauto; right; discriminate. Qed.
Lemma slot_dec proxies dn i : slot_in proxies dn i \/ ~ slot_in proxies dn i.
Proof.
  induction dn as [|[f w] dn IH]; [right; intros (f & w & [] & _)|].
  destruct (find_key proxies f) as [v|] eqn:E; [destruct (Z.eq_dec v i) as [->|N]|].
  - left. exists f, w. split; [left; reflexivity|exact E].
  - destruct IH as [(f' & w' & A & B)|IH]; [left; exists f', w'; split; [right; exact A|exact B]|right]. intros (f' & w' & [[= <- <-]|A] & B); [congruence|]. apply IH. now exists f', w'.
  - destruct IH as [(f' & w' & A & B)|IH]; [left; exists f', w'; split; [right; exact A|exact B]|right]. intros (f' & w' & [[= <- <-]|A] & B); [congruence|]. apply IH. now exists f', w'.
Qed.
Lemma pb_back p0 proxies dn p c dc k : proxied_by p0 proxies dn p -> def_at p c = Some dc -> df_value dc = DClass k ->
  exists d k0, def_at p0 c = Some d /\ df_value d = DClass k0.
Proof.
  intros J D V. destruct (Z.lt_ge_cases c (size p0)) as [L|L].
  - destruct (at_some p0 c) as (d & D0); [pose proof (at_bounds _ _ _ D); lia|]. destruct (class_dec d) as [(k0 & K)|K]; [now exists d, k0|]. exfalso.
    destruct (slot_dec proxies dn c) as [(f & w & A & B)|N].
    + destruct (pb_proxy _ _ _ _ J f w c A B) as (c' & d' & x & ps & co & nm & nw & _ & _ & _ & _ & _ & _ & E & _). rewrite D in E. injection E as ->. discriminate V.
    + rewrite (pb_same _ _ _ _ J c d D0 K N) in D. injection D as <-. now apply (K k).
  - destruct (pb_new _ _ _ _ J c dc L D) as (y & Y). congruence.
Qed.
Lemma pb_name p0 proxies dn p i n : proxied_by p0 proxies dn p -> ~ slot_in proxies dn i -> def_name p0 i = Done n -> def_name p i = Done n.
Proof.
  intros J N D. destruct (name_def _ _ _ D) as (d & E). destruct (class_dec d) as [(k & K)|K].
  - destruct (pb_class _ _ _ _ J i d k E K) as (fs & F & _). eapply name_same; [exact (pb_names _ _ _ _ J)|exact E|exact F|reflexivity|exact D].
  - eapply name_same; [exact (pb_names _ _ _ _ J)|exact E|exact (pb_same _ _ _ _ J i d E K N)|reflexivity|exact D].
Qed.
Lemma pb_step p0 proxies dn p files P f w s s' p' c nw : proxied_by p0 proxies dn p ->
  construct_proxy files P f w s p = Done (s', p') -> fits p' -> find_key proxies f = Some P -> ~ slot_in proxies dn P ->
  (forall i, slot_in proxies ((f, w) :: dn) i -> def_at p0 i = Some default_definition) ->
  method_of p0 c f -> def_name p0 w = Done nw -> ~ slot_in proxies dn w -> proxied_by p0 proxies ((f, w) :: dn) p'.
Proof.
  intros J E F K NS SL M NW NSW. pose proof M as (d & x & D & V & PA & UN & PS).
  assert (NSLOT : forall i e, def_at p0 i = Some e -> df_value e <> df_value default_definition -> ~ slot_in proxies dn i).
  { intros i e De N (f' & w' & A & B). apply N. enough (Some e = Some default_definition) as [= ->] by reflexivity.
    rewrite <- De. apply SL. exists f', w'. split; [right; exact A|exact B]. }
  assert (Df : def_at p f = Some d). { apply (pb_same _ _ _ _ J); [exact D|congruence|]. apply (NSLOT f d D). rewrite V. discriminate. }
  assert (M' : method_of p c f).
  { exists d, x. repeat split; try assumption. apply Forall_impl with (2 := PS). intros i (e & y & A & B). exists e, y. split; [|exact B].
    apply (pb_same _ _ _ _ J); [exact A|congruence|]. apply (NSLOT i e A). rewrite B. discriminate. }
  assert (SP : def_at p P = Some default_definition).
  { apply (pb_same _ _ _ _ J); [|discriminate|exact NS]. apply SL. exists f, w. split; [left; reflexivity|exact K]. }
  pose proof (pb_name _ _ _ _ _ _ J NSW NW) as NWp.
  destruct (construct_proxy_spec _ _ _ _ _ _ _ _ _ _ E F (pb_ok _ _ _ _ J) NWp M' SP)
    as (OK & S & PR & NE & O & V' & (dc & k & Dc & Vc & Rc) & d1 & x1 & params & code & nm & D1 & V1 & PA1 & L1 & R1 & T1 & U1 & cal & C1 & C2).
  rewrite Df in D1. injection D1 as <-. rewrite V in V1. injection V1 as <-.
  destruct (pb_back _ _ _ _ _ _ _ J Dc Vc) as (dc0 & k0 & Dc0 & Vc0).
  pose proof (pb_size _ _ _ _ J) as S0. pose proof (at_bounds _ _ _ Dc0) as Bc. pose proof (at_bounds _ _ _ (SL P (ex_intro _ f (ex_intro _ w (conj (or_introl eq_refl) K))))) as BP.
  constructor.
  - exact OK.
  - lia.
  - exact (prefix_trans _ _ _ (pb_names _ _ _ _ J) PR).
  - intros i e De Ke Ns. pose proof (at_bounds _ _ _ De) as Bi. rewrite O.
    + apply (pb_same _ _ _ _ J); [exact De|exact Ke|]. intros (f' & w' & A & B). apply Ns. exists f', w'. split; [right; exact A|exact B].
    + lia.
    + intros ->. apply Ns. exists f, w. split; [left; reflexivity|exact K].
    + intros ->. rewrite Dc0 in De. injection De as <-. now apply (Ke k0).
  - intros c' d' k' Dc' Vc'. destruct (pb_class _ _ _ _ J c' d' k' Dc' Vc') as (fs & Fs & Is). destruct (Z.eq_dec c' c) as [->|NC].
    + rewrite Fs in Dc. injection Dc as <-. cbn [with_value df_value] in Vc. injection Vc as <-.
      exists (fs ++ [P]). split; [rewrite Rc; cbn; now rewrite <- app_assoc|]. intros Q. rewrite in_app_iff, Is. split.
      * intros [(f' & w' & A & B & C)|[<-|[]]]; [exists f', w'; split; [right; exact A|]; now split|]. exists f, w. split; [left; reflexivity|]. now split.
      * intros (f' & w' & [[= <- <-]|A] & B & C); [right; left; congruence|left; exists f', w'; now repeat split].
    + exists fs. split; [rewrite O; [exact Fs|pose proof (at_bounds _ _ _ Dc'); lia| |exact NC]|].
      * intros ->. specialize (SL P (ex_intro _ f (ex_intro _ w (conj (or_introl eq_refl) K)))). rewrite SL in Dc'. injection Dc' as <-. discriminate Vc'.
      * intros Q. rewrite Is. split; intros (f' & w' & A & B & C); [exists f', w'; split; [right; exact A|now split]|].
        destruct A as [[= <- <-]|A]; [|exists f', w'; now repeat split]. exfalso. apply NC. destruct C as (dd & xx & X & _ & Y & _). congruence.
  - intros i e L De. destruct (Z.lt_ge_cases i (size p)) as [L'|L']; [|exact (V' i e L' De)]. rewrite O in De by lia. exact (pb_new _ _ _ _ J i e L De).
  - intros f' w' P' [[= <- <-]|A] B.
    + rewrite K in B. injection B as <-. exists c, d, x, params, code, nm, nw. split; [exact D|]. split; [exact V|]. split; [exact PA|].
      split; [exists k0; apply class_at; eauto|]. split; [exact NW|]. split; [|split; [exact R1|split; [exact T1|split; [exact U1|exists cal; split; [exact C1|]]]]].
      * clear - L1 PS S0 J NSLOT. revert PS. induction L1 as [|a b l l' (X & Y) L IH]; intros PS; [constructor|]. inversion PS as [|? ? (e & y & A & B) PS']; subst.
        constructor; [|exact (IH PS')]. split; [lia|]. exists e, y. split; [|now split]. rewrite Y. apply (pb_same _ _ _ _ J); [exact A|congruence|].
        apply (NSLOT a e A). rewrite B. discriminate.
      * intros q Q. apply C2. exact (prefix_trans _ _ _ PR Q).
    + destruct (pb_proxy _ _ _ _ J f' w' P' A B) as (c1 & d1 & y1 & ps1 & co1 & nm1 & nw1 & D1 & V1 & PA2 & KC & NW1 & L2 & R2 & T2 & U2 & cal2 & C3 & C4).
      exists c1, d1, y1, ps1, co1, nm1, nw1. split; [exact D1|]. split; [exact V1|]. split; [exact PA2|]. split; [exact KC|]. split; [exact NW1|].
      split; [|split; [|split; [exact (prefix_get_name _ _ _ _ PR T2)|split; [exact U2|exists cal2; split; [exact C3|intros q Q; apply C4; exact (prefix_trans _ _ _ PR Q)]]]]].
      * clear - L2 O Dc Vc BP SP. induction L2 as [|a b l l' (X & e & y & Y1 & Y2 & Y3) L IH]; [constructor|]. constructor; [|exact IH]. split; [exact X|]. exists e, y. split; [|now split].
        rewrite O; [exact Y1|apply at_bounds in Y1; lia| |].
        -- intros ->. rewrite SP in Y1. injection Y1 as <-. discriminate Y3.
        -- intros ->. rewrite Dc in Y1. injection Y1 as <-. congruence.
      * rewrite O; [exact R2|apply at_bounds in R2; lia| |].
        -- intros ->. rewrite SP in R2. discriminate R2.
        -- intros ->. rewrite Dc in R2. injection R2 as ->. discriminate Vc.
Qed.
Lemma from_body_grows files body s p c s1 p1 : from_body files body s p = Done (c, s1, p1) -> size p <= size p1 /\ prefix (st_list (pl_names p)) (st_list (pl_names p1)).
Proof.
  unfold from_body. destruct (asm_body files body _) as [[[u lc] t]|] eqn:EA; [|discriminate]. destruct u.
  destruct (into_code (as_labels t) lc) as [out|] eqn:EI; [|discriminate]. intros [= <- <- <-]. apply body_sound in EA as (lc' & GS & ->).
  destruct GrowFacts.gens_keeps as (_ & _ & G & _). destruct (G _ _ _ _ _ GS) as ((((m & D) & N & _) & _) & _). cbn in D, N. split; [|exact N].
  unfold size. rewrite D, app_length. lia.
Qed.
Lemma construct_proxy_grows files slot f w s p s' p' : construct_proxy files slot f w s p = Done (s', p') ->
  size p <= size p' /\ prefix (st_list (pl_names p)) (st_list (pl_names p')).
Proof.
  unfold construct_proxy. destruct (pe (get_def p f)) as [d|]; [|discriminate]. cbn [obind]. destruct (df_value d); try discriminate.
  destruct (copy_parameters _ p) as [[params p1]|] eqn:E1; [|discriminate]. cbn [obind].
  destruct (from_body _ _ s p1) as [[[code s1] p2]|] eqn:E2; [|discriminate]. cbn [obind].
  destruct (add_name p2 _) as [p3 nm] eqn:E3. destruct (put_def p3 slot _) as [p4|] eqn:E4; [|discriminate]. cbn [obind].
  assert (G1 : forall ps p js p', copy_parameters ps p = Done (js, p') -> size p <= size p' /\ pl_names p' = pl_names p).
  { clear. induction ps as [|i ps IH]; intros p js p'; cbn [copy_parameters]; [intros [= <- <-]; split; [lia|reflexivity]|].
    destruct (pe (get_def p i)) as [d|]; [|discriminate]. cbn [obind]. destruct (add_definition p d) as [q j] eqn:E. destruct (copy_parameters ps q) as [[js2 q2]|] eqn:C; [|discriminate].
    cbn [obind]. intros [= <- <-]. destruct (IH _ _ _ C) as (A & B). destruct (add_def_grows _ _ _ _ E) as (S & N). split; [lia|congruence]. }
  destruct (G1 _ _ _ _ E1) as (S1 & N1). destruct (from_body_grows _ _ _ _ _ _ _ E2) as (S2 & N2). destruct (put_spec _ _ _ _ E4) as (_ & _ & N4 & S4).
  pose proof (add_name_grows _ _ _ _ E3) as N3. pose proof (add_name_defs _ _ _ _ E3) as D3. assert (S3 : size p3 = size p2) by (unfold size; now rewrite D3).
  assert (N : prefix (st_list (pl_names p)) (st_list (pl_names p4))) by (rewrite N4, <- N1; exact (prefix_trans _ _ _ N2 N3)).
  destruct (df_parent d =? UNDEFINED); [intros [= <- <-]; split; [lia|exact N]|]. destruct (push_member p4 _ slot) as [p5|] eqn:E5; [|discriminate]. cbn [obind].
  intros [= <- <-]. destruct (push_spec _ _ _ _ E5) as (N5 & S5 & _). split; [lia|now rewrite N5].
Qed.
Lemma construct_proxies_grows files proxies order : forall s p s' p', construct_proxies files proxies order s p = Done (s', p') ->
  size p <= size p' /\ prefix (st_list (pl_names p)) (st_list (pl_names p')).
Proof.
  induction order as [|[f w] order IH]; intros s p s' p'; cbn [construct_proxies]; [intros [= <- <-]; split; [lia|apply prefix_refl]|].
  destruct (find_key proxies f) as [slot|]; [|discriminate]. destruct (construct_proxy files slot f w s p) as [[s1 p1]|] eqn:E; [|discriminate]. cbn [obind].
  intros H. destruct (IH _ _ _ _ H) as (A & B). destruct (construct_proxy_grows _ _ _ _ _ _ _ _ E) as (C & D). split; [lia|exact (prefix_trans _ _ _ D B)].
Qed.
Lemma pb_loop p0 proxies files : NoDup (map snd proxies) -> (forall P, In P (map snd proxies) -> def_at p0 P = Some default_definition) ->
  forall order dn s p s' p', proxied_by p0 proxies dn p -> construct_proxies files proxies order s p = Done (s', p') -> fits p' ->
  NoDup (map fst (order ++ dn)) -> (forall f w, In (f, w) order -> (exists c, method_of p0 c f) /\ (exists nw, def_name p0 w = Done nw) /\ ~ In w (map snd proxies)) ->
  exists dn', proxied_by p0 proxies dn' p' /\ (forall x, In x dn' <-> In x order \/ In x dn).
Proof.
  intros ND SL. assert (SI : forall dn i, slot_in proxies dn i -> In i (map snd proxies)).
  { intros dn i (f & w & _ & A). apply find_in in A. now apply (in_map snd) in A. }
  assert (INJ : forall f f' P, find_key proxies f = Some P -> find_key proxies f' = Some P -> f = f').
  { clear SL SI. intros f f' P A B. apply find_in in A. apply find_in in B. induction proxies as [|[k v] m IH]; [destruct A|]. cbn [map snd] in ND. inversion ND as [|? ? NI ND']; subst.
    destruct A as [A|A], B as [B|B]; [congruence| | |now apply IH].
    - exfalso. apply NI. injection A as -> ->. exact (in_map snd _ _ B).
    - exfalso. apply NI. injection B as -> ->. exact (in_map snd _ _ A). }
  induction order as [|[f w] order IH]; intros dn s p s' p' J E F NK H; cbn [construct_proxies] in E.
  - injection E as <- <-. exists dn. split; [exact J|]. intros x. cbn. tauto.
  - destruct (find_key proxies f) as [slot|] eqn:K; [|discriminate]. destruct (construct_proxy files slot f w s p) as [[s1 p1]|] eqn:E1; [|discriminate]. cbn [obind] in E.
    destruct (H f w (or_introl eq_refl)) as ((c & M) & (nw & NW) & NI). destruct (construct_proxies_grows _ _ _ _ _ _ _ E) as (G1 & G2). pose proof (fits_back _ _ G1 G2 F) as F1.
    cbn [app map fst] in NK. inversion NK as [|? ? N1 N2]; subst.
    assert (J1 : proxied_by p0 proxies ((f, w) :: dn) p1).
    { apply (pb_step p0 proxies dn p files slot f w s s1 p1 c nw J E1 F1 K); try assumption.
      - intros (f' & w' & A & B). pose proof (INJ _ _ _ K B) as <-. apply N1. rewrite map_app. apply in_or_app. right. exact (in_map fst _ _ A).
      - intros i Hi. apply SL. exact (SI _ _ Hi).
      - intros X. apply NI. exact (SI _ _ X). }
    destruct (IH _ _ _ _ _ J1 E F) as (dn' & J' & I').
    + apply (Permutation_NoDup (l := map fst ((f, w) :: order ++ dn))); [|constructor; assumption]. apply Permutation_map. apply Permutation_middle.
    + intros f' w' X. apply H. right. exact X.
    + exists dn'. split; [exact J'|]. intros x. rewrite I'. cbn. tauto.
Qed.

(** Exchanging the proxy and the wrapped method. *)
Definition is_local (d : definition) : Prop := exists y, df_value d = DLocal y.
Lemma values_nodup_filter m k : NoDup (map snd m) -> NoDup (map snd (filter (fun x : pidx * pidx => negb (fst x =? k)) m)).
Proof.
  induction m as [|[k' v] m IH]; cbn [filter map snd fst]; [auto|]. intros H. inversion H as [|? ? NI ND]; subst. destruct (k' =? k); cbn [negb]; [auto|].
  cbn [map snd]. constructor; [|auto]. intros X. apply NI. apply in_map_iff in X as ([a b] & <- & X). apply filter_In in X as (X & _). exact (in_map snd _ _ X).
Qed.
Lemma copy_locals_spec P ls : forall m p m' p', copy_locals P ls m p = Done (m', p') -> fits p' ->
  Forall (fun i => exists e y, def_at p i = Some e /\ df_value e = DLocal y) ls ->
  NoDup (map fst m) -> NoDup (map snd m) -> (forall v, In v (map snd m) -> v < size p) ->
  pl_names p' = pl_names p /\ size p <= size p' /\ (forall i, i < size p -> def_at p' i = def_at p i) /\
  (forall i e, size p <= i -> def_at p' i = Some e -> is_local e) /\ NoDup (map fst m') /\ NoDup (map snd m') /\
  (forall l, ~ In l ls -> find_key m' l = find_key m l) /\
  (forall l, In l ls -> exists j e, find_key m' l = Some j /\ size p <= j < size p' /\ def_at p l = Some e /\ def_at p' j = Some (with_parent e P)).
Proof.
  induction ls as [|l ls IH]; intros m p m' p'; cbn [copy_locals].
  - intros [= <- <-] F _ N1 N2 B. split; [reflexivity|]. split; [lia|]. split; [auto|]. split; [intros i e L D; apply at_bounds in D; lia|]. repeat split; auto; contradiction.
  - destruct (pe (get_def p l)) as [d|] eqn:D; [|discriminate]. cbn [obind]. apply def_done in D. destruct (add_definition p (with_parent d P)) as [p1 j] eqn:E. intros C F H N1 N2 B.
    inversion H as [|? ? (e & y & A1 & A2) H']; subst. rewrite D in A1. injection A1 as <-.
    assert (G : forall ls m p m' p', copy_locals P ls m p = Done (m', p') -> size p <= size p' /\ prefix (st_list (pl_names p)) (st_list (pl_names p'))).
    { clear. induction ls as [|l ls IH]; intros m p m' p'; cbn [copy_locals]; [intros [= <- <-]; split; [lia|apply prefix_refl]|].
      destruct (pe (get_def p l)) as [d|]; [|discriminate]. cbn [obind]. destruct (add_definition p (with_parent d P)) as [p1 j] eqn:E. intros C. destruct (IH _ _ _ _ C) as (A & B).
      destruct (add_def_grows _ _ _ _ E) as (S & N). rewrite <- N. split; [lia|exact B]. }
    destruct (G _ _ _ _ _ C) as (G1 & G2). pose proof (fits_back _ _ G1 G2 F) as F1. destruct (add_def_spec _ _ _ _ E F1) as (I1 & D1 & O1 & NA & S1).
    destruct (IH (put_key m l j) p1 m' p' C F) as (R1 & R2 & R3 & R4 & R5 & R6 & R7 & R8).
    { apply Forall_impl with (2 := H'). intros i' (e' & y' & A' & B'). exists e', y'. split; [|exact B']. rewrite O1; [exact A'|]. apply at_bounds in A'. lia. }
    { now apply keys_put. }
    { unfold put_key. cbn [map snd]. constructor; [|now apply values_nodup_filter]. intros X. apply in_map_iff in X as ([a b] & X1 & X). cbn [snd] in X1. subst b.
      apply filter_In in X as (X & _). specialize (B j (in_map snd _ _ X)). lia. }
    { intros v X. apply values_in in X as [->|X]; [lia|]. specialize (B v X). lia. }
    split; [congruence|]. split; [lia|]. split; [intros i L; rewrite R3 by lia; apply O1; lia|]. split.
    + intros i e L De. destruct (Z.eq_dec i j) as [->|]; [|apply (R4 i e); [lia|exact De]]. rewrite R3, D1 in De by lia. injection De as <-. now exists y.
    + split; [exact R5|]. split; [exact R6|]. split.
      * intros l' NI. rewrite R7 by (intros X; apply NI; right; exact X). rewrite find_put. destruct (Z.eqb_spec l l') as [->|]; [exfalso; apply NI; left; reflexivity|reflexivity].
      * intros l' Hl. destruct (in_dec Z.eq_dec l' ls) as [I|NI].
        -- destruct (R8 l' I) as (j' & e & X1 & X2 & X3 & X4). exists j', e. split; [exact X1|]. split; [lia|]. split; [|exact X4]. rewrite <- O1; [exact X3|].
           rewrite Forall_forall in H'. destruct (H' l' I) as (e' & _ & X & _). apply at_bounds in X. lia.
        -- destruct Hl as [<-|Hl]; [|contradiction]. exists j, d. split; [rewrite R7 by exact NI; rewrite find_put; now rewrite Z.eqb_refl|]. split; [lia|]. split; [exact D|].
           rewrite R3 by lia. exact D1.
Qed.
Definition renaming (m : pmap) (l : pidx) : pidx := match find_key m l with Some j => j | None => l end.
Lemma remap_code_spec m : forall c c', remap_code m c = Some c' -> c' = map (rename_local (renaming m)) c /\ forall l, In (Local l) c -> find_key m l <> None.
Proof.
  induction c as [|i c IH]; intros c'; cbn [remap_code map]; [intros [= <-]; split; [reflexivity|intros l []]|].
  destruct (match i with Local l => _ | _ => _ end) as [i'|] eqn:E; [|discriminate]. destruct (remap_code m c) as [r|]; [|discriminate]. intros [= <-]. destruct (IH r eq_refl) as (-> & H). split.
  - f_equal. destruct i; try (injection E as <-; reflexivity). cbn [rename_local]. unfold renaming. destruct (find_key m _); [injection E as <-; reflexivity|discriminate].
  - intros l [->|X]; [|now apply H]. destruct (find_key m l); [discriminate|discriminate E].
Qed.
Lemma update_spec p f u p' : update_function p f u = Done p' -> exists d x, def_at p f = Some d /\ df_value d = DFunction x /\
  def_at p' f = Some (with_value d (DFunction (u x))) /\ (forall j, j <> f -> def_at p' j = def_at p j) /\ pl_names p' = pl_names p /\ size p' = size p.
Proof.
  unfold update_function. destruct (pe (get_function p f)) as [x|] eqn:X; [|discriminate]. cbn [obind]. destruct (pe (get_def p f)) as [d|] eqn:D; [|discriminate]. cbn [obind]. intros H.
  apply def_done in D. apply pe_done, function_at in X as (d' & D' & V). rewrite D in D'. injection D' as <-. destruct (put_spec _ _ _ _ H) as (A & B & C & S). exists d, x. now repeat split.
Qed.
Lemma rename_spec p i n p' : rename p i n = Done p' -> exists d, def_at p i = Some d /\ def_at p' i = Some (with_name d n) /\
  (forall j, j <> i -> def_at p' j = def_at p j) /\ pl_names p' = pl_names p /\ size p' = size p.
Proof. unfold rename. destruct (def_at p i) as [d|] eqn:D; [|discriminate]. intros H. destruct (put_spec _ _ _ _ H) as (A & B & C & S). exists d. now repeat split. Qed.
Lemma swap_spec p i j p' : swap_definition p i j = Done p' -> i <> j -> def_at p' i = def_at p j /\ def_at p' j = def_at p i /\
  (forall k, k <> i -> k <> j -> def_at p' k = def_at p k) /\ pl_names p' = pl_names p /\ size p' = size p.
Proof.
  unfold swap_definition. destruct (def_at p i) as [a|] eqn:A; [|discriminate]. destruct (def_at p j) as [b|] eqn:B; [|discriminate]. destruct (put_def p i b) as [p1|] eqn:E1; [|discriminate]. cbn [obind].
  intros E2 N. destruct (put_spec _ _ _ _ E1) as (A1 & B1 & C1 & S1). destruct (put_spec _ _ _ _ E2) as (A2 & B2 & C2 & S2).
  split; [rewrite B2 by exact N; exact A1|]. split; [exact A2|]. split; [intros k X Y; rewrite B2, B1 by assumption; reflexivity|]. split; [congruence|lia].
Qed.

Lemma swap_proxy_spec shuffle f P p p' d x dp : swap_proxy shuffle f P p = Done p' -> (forall l, Permutation (shuffle l) l) -> fits p' -> f <> P ->
  def_at p f = Some d -> df_value d = DFunction x -> def_at p P = Some dp -> locals_of p f ->
  pl_names p' = pl_names p /\ size p <= size p' /\ (forall i, i < size p -> i <> f -> i <> P -> def_at p' i = def_at p i) /\
  (forall i e, size p <= i -> def_at p' i = Some e -> is_local e) /\
  def_at p' f = Some (with_name dp (df_name d)) /\ moved p p' P d x (df_name dp).
Proof.
  intros E SH F NE D V DP LO. unfold swap_proxy, get_def in E. rewrite D, DP in E. cbn [pe map_err obind] in E.
  destruct (update_function p f _) as [p1|] eqn:E1; [|discriminate]. cbn [obind] in E. destruct (remap_locals shuffle P f p1) as [p2|] eqn:E2; [|discriminate]. cbn [obind] in E.
  destruct (rename p2 f _) as [p3|] eqn:E3; [|discriminate]. cbn [obind] in E. destruct (rename p3 P _) as [p4|] eqn:E4; [|discriminate]. cbn [obind] in E.
  destruct (swap_spec _ _ _ _ E NE) as (A5 & B5 & O5 & N5 & S5). destruct (rename_spec _ _ _ _ E4) as (d4 & X4 & Y4 & O4 & N4 & S4). destruct (rename_spec _ _ _ _ E3) as (d3 & X3 & Y3 & O3 & N3 & S3).
  destruct (update_spec _ _ _ _ E1) as (d1 & x1 & X1 & V1 & Y1 & O1 & N1 & S1). rewrite D in X1. injection X1 as <-. rewrite V in V1. injection V1 as <-.
  unfold remap_locals in E2. assert (GF : get_function p1 f = Done (with_flags x (with_flag fn_is_callback false (fu_flags x)))) by (apply function_at; eexists; split; [exact Y1|reflexivity]).
  rewrite GF in E2. cbn [pe map_err obind] in E2. change (fu_locals (with_flags x _)) with (fu_locals x) in E2.
  destruct (copy_locals P (fu_locals x) [] p1) as [[m p1']|] eqn:EC; [|discriminate]. cbn [obind] in E2.
  destruct (pe (get_function p1' f)) as [x1|] eqn:GF'; [|discriminate]. cbn [obind] in E2. apply pe_done in GF'.
  destruct (remap_code m (fu_code x1)) as [c|] eqn:ER; [|discriminate]. destruct (update_spec _ _ _ _ E2) as (d2 & x2 & X2 & V2 & Y2 & O2 & N2 & S2).
  assert (NP' : pl_names p' = pl_names p1') by congruence. assert (F1 : fits p1') by (revert F; apply fits_back; [lia|rewrite NP'; apply prefix_refl]).
  destruct (copy_locals_spec _ _ _ _ _ _ EC F1) as (CN & CS & CO & CV & CK & CW & CM & CL).
  { apply Forall_impl with (2 := LO d x D V). intros i (e & y & A & B). exists e, y. split; [|exact B]. rewrite O1; [exact A|]. intros ->. rewrite D in A. injection A as <-. congruence. }
  { constructor. } { constructor. } { intros v []. }
  assert (BF : f < size p1) by (apply at_bounds in Y1; lia). assert (BP : 0 <= P < size p) by (apply at_bounds in DP; lia). assert (Bf : 0 <= f < size p) by (apply at_bounds in D; lia).
  rewrite CO, Y1 in X2 by exact BF. injection X2 as <-. cbn [with_value df_value] in V2. injection V2 as <-.
  apply function_at in GF' as (dx & DX & VX). rewrite CO, Y1 in DX by exact BF. injection DX as <-. cbn [with_value df_value] in VX. injection VX as <-.
  apply remap_code_spec in ER as (-> & LK). change (fu_code (with_flags x _)) with (fu_code x) in *.
  assert (OLD : forall i, i < size p -> i <> f -> def_at p2 i = def_at p i) by (intros i L N; rewrite O2, CO, O1 by (try assumption; lia); reflexivity).
  rewrite Y2 in X3. injection X3 as <-. rewrite O3, OLD, DP in X4 by (try congruence; lia). injection X4 as <-.
  assert (INJ : forall l l' j, find_key m l = Some j -> find_key m l' = Some j -> l = l').
  { clear - CW. intros l l' j A B. apply find_in in A, B. induction m as [|[k v] m IH]; [destruct A|]. cbn [map snd] in CW. inversion CW as [|? ? NI ND]; subst.
    destruct A as [A|A], B as [B|B]; [congruence| | |now apply IH]; exfalso; apply NI; [injection A as -> ->; exact (in_map snd _ _ B)|injection B as -> ->; exact (in_map snd _ _ A)]. }
  split; [congruence|]. split; [lia|]. split; [intros i L N1' N2'; rewrite O5, O4, O3 by assumption; now apply OLD|].
  split. { intros i e L De. rewrite O5, O4, O3, O2 in De by lia. apply (CV i e); [lia|exact De]. }
  split; [rewrite A5; exact Y4|]. exists (renaming m), (shuffle (map snd m)).
  split; [rewrite B5, O4, Y3 by congruence; reflexivity|]. split; [apply (Permutation_NoDup (Permutation_sym (SH _))), CW|]. split; [|split; [|split]].
  - intros j. split.
    + intros X. apply (Permutation_in _ (SH _)) in X. apply in_map_iff in X as ([l j'] & X1 & X). cbn in X1. subst j'. apply (in_find _ _ _ CK) in X. exists l. split; [|unfold renaming; now rewrite X].
      destruct (in_dec Z.eq_dec l (fu_locals x)) as [|NI]; [assumption|]. rewrite (CM l NI) in X. discriminate X.
    + intros (l & I & <-). destruct (CL l I) as (j & e & A & _). apply (Permutation_in _ (Permutation_sym (SH _))). unfold renaming. rewrite A. apply find_in in A. exact (in_map snd _ _ A).
  - intros l I. destruct (in_dec Z.eq_dec l (fu_locals x)) as [|NI]; [assumption|]. exfalso. apply (LK l I). now rewrite (CM l NI).
  - intros l I. destruct (CL l I) as (j & e & A & B & C1 & C2). unfold renaming. rewrite A. split; [lia|]. exists e. split.
    + rewrite <- O1; [exact C1|]. intros ->. specialize (LO d x D V). rewrite Forall_forall in LO. destruct (LO f I) as (e' & y & Z1 & Z2). rewrite D in Z1. injection Z1 as <-. congruence.
    + rewrite O5, O4, O3, O2 by lia. exact C2.
  - intros l l' I I'. destruct (CL l I) as (j & e & A & _). destruct (CL l' I') as (j' & e' & A' & _). unfold renaming. rewrite A, A'. intros <-. exact (INJ _ _ _ A A').
Qed.

Record swapped_by (q : pool) (dn : pmap) (p : pool) : Prop := Swapped {
  sb_names : pl_names p = pl_names q;
  sb_size : size q <= size p;
  sb_same : forall i, i < size q -> ~ In i (map fst dn) -> ~ In i (map snd dn) -> def_at p i = def_at q i;
  sb_new : forall i e, size q <= i -> def_at p i = Some e -> is_local e;
  sb_done : forall f P d x dp, In (f, P) dn -> def_at q f = Some d -> df_value d = DFunction x -> def_at q P = Some dp ->
    def_at p f = Some (with_name dp (df_name d)) /\ moved q p P d x (df_name dp) }.
Lemma swap_proxy_grows shuffle f P p p' : swap_proxy shuffle f P p = Done p' -> size p <= size p' /\ pl_names p' = pl_names p.
Proof.
  unfold swap_proxy. destruct (pe (get_def p f)) as [d|]; [|discriminate]. cbn [obind]. destruct (pe (get_def p P)) as [dp|]; [|discriminate]. cbn [obind].
  destruct (update_function p f _) as [p1|] eqn:E1; [|discriminate]. cbn [obind]. destruct (remap_locals shuffle P f p1) as [p2|] eqn:E2; [|discriminate]. cbn [obind].
  destruct (rename p2 f _) as [p3|] eqn:E3; [|discriminate]. cbn [obind]. destruct (rename p3 P _) as [p4|] eqn:E4; [|discriminate]. cbn [obind]. intros E.
  destruct (rename_spec _ _ _ _ E4) as (d4 & _ & _ & _ & N4 & S4). destruct (rename_spec _ _ _ _ E3) as (d3 & _ & _ & _ & N3 & S3). destruct (update_spec _ _ _ _ E1) as (d1 & x1 & _ & _ & _ & _ & N1 & S1).
  assert (G5 : size p' = size p4 /\ pl_names p' = pl_names p4).
  { revert E. unfold swap_definition. destruct (def_at p4 f) as [a|]; [|discriminate]. destruct (def_at p4 P) as [b|]; [|discriminate]. destruct (put_def p4 f b) as [p5|] eqn:F1; [|discriminate]. cbn [obind]. intros F2.
    destruct (put_spec _ _ _ _ F1) as (_ & _ & ? & ?). destruct (put_spec _ _ _ _ F2) as (_ & _ & ? & ?). split; [lia|congruence]. }
  assert (G2 : size p1 <= size p2 /\ pl_names p2 = pl_names p1).
  { revert E2. unfold remap_locals. destruct (pe (get_function p1 f)) as [x|]; [|discriminate]. cbn [obind]. destruct (copy_locals P (fu_locals x) [] p1) as [[m q]|] eqn:C; [|discriminate]. cbn [obind].
    destruct (pe (get_function q f)) as [x2|]; [|discriminate]. cbn [obind]. destruct (remap_code m (fu_code x2)) as [c|]; [|discriminate]. intros U. destruct (update_spec _ _ _ _ U) as (d2 & y2 & _ & _ & _ & _ & N2 & S2).
    assert (G : forall ls m p m' p', copy_locals P ls m p = Done (m', p') -> size p <= size p' /\ pl_names p' = pl_names p).
    { clear. induction ls as [|l ls IH]; intros m p m' p'; cbn [copy_locals]; [intros [= <- <-]; split; [lia|reflexivity]|].
      destruct (pe (get_def p l)) as [d|]; [|discriminate]. cbn [obind]. destruct (add_definition p (with_parent d P)) as [p1 j] eqn:E. intros C. destruct (IH _ _ _ _ C) as (A & B).
      destruct (add_def_grows _ _ _ _ E) as (S & N). split; [lia|congruence]. }
    destruct (G _ _ _ _ _ C). split; [lia|congruence]. }
  split; [lia|]. destruct G5, G2. congruence.
Qed.
Lemma swap_proxies_grows shuffle order : forall p p', swap_proxies shuffle order p = Done p' -> size p <= size p' /\ pl_names p' = pl_names p.
Proof.
  induction order as [|[f P] order IH]; intros p p'; cbn [swap_proxies]; [intros [= <-]; split; [lia|reflexivity]|].
  destruct (swap_proxy shuffle f P p) as [p1|] eqn:E; [|discriminate]. cbn [obind]. intros H. destruct (IH _ _ H). destruct (swap_proxy_grows _ _ _ _ _ E). split; [lia|congruence].
Qed.
Lemma sb_start q : swapped_by q [] q.
Proof. constructor; auto; [lia|intros i e L D; apply at_bounds in D; lia|intros f P d x dp []]. Qed.
Lemma sb_loop shuffle q : (forall l, Permutation (shuffle l) l) -> forall order dn p p', swapped_by q dn p -> swap_proxies shuffle order p = Done p' -> fits p' ->
  NoDup (map fst (order ++ dn)) -> NoDup (map snd (order ++ dn)) -> (forall f, In f (map fst (order ++ dn)) -> ~ In f (map snd (order ++ dn))) ->
  (forall f P, In (f, P) (order ++ dn) -> (exists d x, def_at q f = Some d /\ df_value d = DFunction x) /\ (exists dp y, def_at q P = Some dp /\ df_value dp = DFunction y) /\ locals_of q f) ->
  exists dn', swapped_by q dn' p' /\ Permutation dn' (order ++ dn).
Proof.
  intros SH. induction order as [|[f P] order IH]; intros dn p p' J E F NK NV DJ H; cbn [swap_proxies] in E.
  - injection E as <-. exists dn. split; [exact J|apply Permutation_refl].
  - destruct (swap_proxy shuffle f P p) as [p1|] eqn:E1; [|discriminate]. cbn [obind] in E.
    destruct (swap_proxies_grows _ _ _ _ E) as (G1 & G2). assert (F1 : fits p1) by (revert F; apply fits_back; [exact G1|rewrite G2; apply prefix_refl]).
    destruct (H f P (or_introl eq_refl)) as ((d & x & D & V) & (dp & y & DP & VP) & LO).
    assert (NF : ~ In f (map fst dn) /\ ~ In f (map snd dn) /\ ~ In P (map fst dn) /\ ~ In P (map snd dn) /\ f <> P).
    { cbn [app map fst snd] in *. rewrite map_app in NK, NV, DJ. rewrite map_app in DJ. inversion NK as [|? ? A1 A2]; subst. inversion NV as [|? ? B1 B2]; subst.
      pose proof (DJ f (or_introl eq_refl)) as D1. split; [intros X; apply A1; apply in_or_app; auto|]. split; [intros X; apply D1; right; apply in_or_app; auto|].
      split; [intros X; apply (DJ P); [right; apply in_or_app; auto|left; reflexivity]|]. split; [intros X; apply B1; apply in_or_app; auto|]. intros ->. apply D1. left. reflexivity. }
    destruct NF as (Z1 & Z2 & Z3 & Z4 & NE). pose proof (at_bounds _ _ _ D) as Bf. pose proof (at_bounds _ _ _ DP) as BP.
    assert (NLOC : forall l e z, def_at q l = Some e -> df_value e = DLocal z -> ~ In l (map fst ((f, P) :: dn)) /\ ~ In l (map snd ((f, P) :: dn))).
    { intros l e z A B. split; intros X; apply in_map_iff in X as ([f' P'] & X1 & X); cbn in X1; subst l; (destruct (H f' P') as ((d' & x' & D' & V') & (dp' & y' & DP' & VP') & _);
        [destruct X as [X|X]; [left; exact X|right; apply in_or_app; right; exact X]|congruence]). }
    assert (LO' : locals_of p f).
    { intros d' x' D' V'. rewrite (sb_same _ _ _ J f ltac:(lia) Z1 Z2) in D'. specialize (LO d' x' D' V'). apply Forall_impl with (2 := LO). intros i (e & z & A & B). exists e, z. split; [|exact B].
      destruct (NLOC i e z A B) as (Y1 & Y2). rewrite (sb_same _ _ _ J); [exact A|apply at_bounds in A; lia| |]; intros X; [apply Y1|apply Y2]; right; exact X. }
    destruct (swap_proxy_spec _ _ _ _ _ d x dp E1 SH F1 NE) as (N1 & S1 & O1 & V1 & DF & MV); try assumption.
    { rewrite (sb_same _ _ _ J); try assumption. lia. } { rewrite (sb_same _ _ _ J); try assumption. lia. }
    pose proof (sb_size _ _ _ J) as S0.
    assert (J1 : swapped_by q ((f, P) :: dn) p1).
    { constructor.
      - rewrite N1. exact (sb_names _ _ _ J).
      - lia.
      - intros i L X Y. cbn [map fst snd In] in X, Y. rewrite O1; [apply (sb_same _ _ _ J); tauto|lia|intros ->; tauto|intros ->; tauto].
      - intros i e L De. destruct (Z.lt_ge_cases i (size p)) as [L'|L']; [|exact (V1 i e L' De)]. rewrite O1 in De by lia. exact (sb_new _ _ _ J i e L De).
      - intros f' P' d' x' dp' X D' V' DP'. destruct X as [X|X].
        + injection X as <- <-. rewrite D in D'. injection D' as <-. rewrite DP in DP'. injection DP' as <-. rewrite V in V'. injection V' as <-. split; [exact DF|].
          destruct MV as (r & ls & M1 & M2 & M3 & M4 & M5 & M6). exists r, ls. split; [exact M1|]. split; [exact M2|]. split; [exact M3|]. split; [exact M4|]. split; [|exact M6].
          intros l I. destruct (M5 l I) as (B1 & e & B2 & B3). split; [lia|]. exists e. split; [|exact B3]. specialize (LO d x D V). rewrite Forall_forall in LO. destruct (LO l I) as (e' & z & A & B).
          destruct (NLOC l e' z A B) as (Y1 & Y2). rewrite <- (sb_same _ _ _ J); [exact B2|apply at_bounds in A; lia| |]; intros X; [apply Y1|apply Y2]; right; exact X.
        + destruct (sb_done _ _ _ J f' P' d' x' dp' X D' V' DP') as (A & r & ls & M1 & M2 & M3 & M4 & M5 & M6).
          assert (NX : f' <> f /\ f' <> P /\ P' <> f /\ P' <> P).
          { repeat split; intros ->; [apply Z1|apply Z3|apply Z2|apply Z4]; [exact (in_map fst _ _ X)|exact (in_map fst _ _ X)|exact (in_map snd _ _ X)|exact (in_map snd _ _ X)]. }
          destruct NX as (W1 & W2 & W3 & W4). pose proof (at_bounds _ _ _ D') as B1. pose proof (at_bounds _ _ _ DP') as B2. split; [rewrite O1 by (try assumption; lia); exact A|].
          exists r, ls. split; [rewrite O1 by (try assumption; lia); exact M1|]. split; [exact M2|]. split; [exact M3|]. split; [exact M4|]. split; [|exact M6].
          intros l I. destruct (M5 l I) as (C1 & e & C2 & C3). split; [exact C1|]. exists e. split; [exact C2|]. rewrite O1; [exact C3|apply at_bounds in C3; lia|lia|lia]. }
    destruct (IH _ _ _ J1 E F) as (dn' & J' & PM).
    + apply (Permutation_NoDup (l := map fst (((f, P) :: order) ++ dn))); [apply Permutation_map, Permutation_middle|exact NK].
    + apply (Permutation_NoDup (l := map snd (((f, P) :: order) ++ dn))); [apply Permutation_map, Permutation_middle|exact NV].
    + intros i A B. apply (DJ i); [apply (Permutation_in _ (Permutation_sym (Permutation_map fst (Permutation_middle order dn (f, P))))), A|apply (Permutation_in _ (Permutation_sym (Permutation_map snd (Permutation_middle order dn (f, P))))), B].
    + intros f' P' X. apply H. apply (Permutation_in _ (Permutation_sym (Permutation_middle order dn (f, P))) X).
    + exists dn'. split; [exact J'|]. rewrite PM. symmetry. apply Permutation_middle.
Qed.

Lemma nodup_left {A} (a b : list A) : NoDup (a ++ b) -> NoDup a.
Proof.
  induction a as [|x a IH]; cbn [app]; [constructor|]. intros H. inversion H as [|? ? N R]; subst. constructor; [|exact (IH R)]. intros X. apply N. apply in_or_app. now left.
Qed.
Lemma nodup_right {A} (a b : list A) : NoDup (a ++ b) -> NoDup b.
Proof. induction a as [|x a IH]; cbn [app]; [auto|]. intros H. inversion H. auto. Qed.

(** A compilation as a whole. *)
Inductive stages (p0 : pool) (ws : list wrapping) (D X C F : pool) : Prop :=
| Stages (wrappers proxies dn sw : pmap) :
    inv p0 ws (WrapState D wrappers proxies) ->
    proxied_by D proxies dn X -> (forall f w, In (f, w) dn <-> find_key wrappers f = Some w) ->
    keeps (map snd proxies) X C -> bodies_only X C ->
    swapped_by C sw F -> (forall f P, In (f, P) sw <-> find_key proxies f = Some P) -> stages p0 ws D X C F.
Lemma in_wrappers_of w f ws : In w (wrappers_of f ws) <-> In w ws /\ wr_fun w = f.
Proof. unfold wrappers_of. rewrite filter_In, Z.eqb_eq. reflexivity. Qed.
Lemma chain_last p0 ws st f v : inv p0 ws st -> find_key (ws_wrappers st) f = Some v ->
  exists l w, wrappers_of f ws = l ++ [w] /\ wr_index w = v /\ In w ws /\ wr_fun w = f.
Proof.
  intros I K. pose proof (i_chain _ _ _ I f) as H. rewrite K in H. destruct H as (P & _ & NE & E). destruct (exists_last NE) as (l & w & L). exists l, w. split; [exact L|].
  rewrite L in E. rewrite !map_app, app_comm_cons in E. cbn [map] in E. apply app_inj_tail in E as (_ & ->). split; [reflexivity|]. apply in_wrappers_of. rewrite L. apply in_or_app. right. left. reflexivity.
Qed.
Lemma chain_proxy p0 ws st f P : inv p0 ws st -> find_key (ws_proxies st) f = Some P -> exists v, find_key (ws_wrappers st) f = Some v.
Proof. intros I K. pose proof (i_chain _ _ _ I f) as H. destruct (find_key (ws_wrappers st) f) as [v|]; [eauto|]. destruct H as (_ & H). congruence. Qed.
Lemma in_keys (m : pmap) k : In k (map fst m) -> exists v, In (k, v) m.
Proof. intros H. apply in_map_iff in H as ([a b] & <- & H). eauto. Qed.
Lemma in_values (m : pmap) v : In v (map snd m) -> exists k, In (k, v) m.
Proof. intros H. apply in_map_iff in H as ([a b] & <- & H). eauto. Qed.

Lemma compilation_stages p0 ws D X C F : compilation p0 ws D X C F -> names_ok p0 -> members_named p0 -> fits F ->
  (forall w, In w ws -> method_of D (wr_class w) (wr_fun w)) -> (forall w, In w ws -> locals_of C (wr_fun w)) -> stages p0 ws D X C F.
Proof.
  intros [st files s s' order1 order2 shuffle R K1 O1 CP K2 BO O2 SH SP] HN HM HF HD HL.
  destruct (swap_proxies_grows _ _ _ _ SP) as (G1 & G2). assert (FC : fits C) by (revert HF; apply fits_back; [exact G1|rewrite G2; apply prefix_refl]).
  pose proof (keeps_fits _ _ _ K2 FC) as FX. destruct (construct_proxies_grows _ _ _ _ _ _ _ CP) as (G3 & G4). pose proof (fits_back _ _ G3 G4 FX) as FD. pose proof (keeps_fits _ _ _ K1 FD) as FS.
  pose proof (inv_keeps _ _ _ _ (inv_registers _ _ _ R FS HN HM) K1) as I. set (st' := WrapState D (ws_wrappers st) (ws_proxies st)) in *.
  assert (KW : forall f w, In (f, w) order1 <-> find_key (ws_wrappers st) f = Some w).
  { intros f w. split; [intros H; apply (in_find _ _ _ (i_keys_w _ _ _ I)), (Permutation_in _ O1 H)|intros H; apply (Permutation_in _ (Permutation_sym O1)), find_in, H]. }
  assert (KP : forall f w, In (f, w) order2 <-> find_key (ws_proxies st) f = Some w).
  { intros f w. split; [intros H; apply (in_find _ _ _ (i_keys_p _ _ _ I)), (Permutation_in _ O2 H)|intros H; apply (Permutation_in _ (Permutation_sym O2)), find_in, H]. }
  assert (PB : exists dn, proxied_by D (ws_proxies st) dn X /\ forall x, In x dn <-> In x order1 \/ In x []).
  { apply (pb_loop D (ws_proxies st) files (i_proxies _ _ _ I)) with (s := s) (p := D) (s' := s'); [|apply pb_start, (i_ok _ _ _ I)|exact CP|exact FX| |].
    - intros P HP. exact (proj1 (proj2 (i_proxy _ _ _ I P HP))).
    - rewrite app_nil_r. apply (Permutation_NoDup (Permutation_map fst (Permutation_sym O1))), (i_keys_w _ _ _ I).
    - intros f v Hv. apply KW in Hv. destruct (chain_last _ _ _ _ _ I Hv) as (l & w & _ & E & Hw & Ef). subst f v. split; [exists (wr_class w); now apply HD|].
      destruct (i_wrap _ _ _ I w Hw) as (_ & _ & M & N). split; [eauto|]. intros HP. exact (proj2 (proj2 (i_proxy _ _ _ I _ HP)) _ M). }
  destruct PB as (dn & PB & Hdn).
  assert (KD : forall f w, In (f, w) dn <-> find_key (ws_wrappers st) f = Some w) by (intros f w; rewrite Hdn, <- KW; cbn; tauto).
  assert (SB : exists sw, swapped_by C sw F /\ Permutation sw (order2 ++ [])).
  { apply (sb_loop shuffle C SH order2 [] C F); [apply sb_start|exact SP|exact HF| | | |]; rewrite app_nil_r.
    - apply (Permutation_NoDup (Permutation_map fst (Permutation_sym O2))), (i_keys_p _ _ _ I).
    - apply (Permutation_NoDup (Permutation_map snd (Permutation_sym O2))), (i_proxies _ _ _ I).
    - intros f HF1 HF2. apply in_keys in HF1 as (P & HP). apply KP in HP. destruct (chain_proxy _ _ _ _ _ I HP) as (v & Hv). destruct (chain_last _ _ _ _ _ I Hv) as (l & w & _ & _ & Hw & Ef). subst f.
      apply (Permutation_in _ (Permutation_map snd O2)) in HF2. exact (proj2 (proj2 (i_proxy _ _ _ I _ HF2)) _ (proj1 (i_fun _ _ _ I w Hw))).
    - intros f P HP. apply KP in HP. destruct (chain_proxy _ _ _ _ _ I HP) as (v & Hv). destruct (chain_last _ _ _ _ _ I Hv) as (l & w & _ & _ & Hw & Ef). subst f.
      destruct (HD w Hw) as (d & x & Dd & Vd & _). split; [|split; [|now apply HL]].
      + destruct (proj1 BO (wr_fun w) d x) as (c & ls & Dc); [|exact Vd|eexists; eexists; split; [exact Dc|reflexivity]].
        apply (pb_same _ _ _ _ PB); [exact Dd|congruence|]. intros (f' & w' & _ & B). apply find_in in B. apply (in_map snd) in B.
        exact (proj2 (proj2 (i_proxy _ _ _ I _ B)) _ (proj1 (i_fun _ _ _ I w Hw))).
      + apply KD in Hv. destruct (pb_proxy _ _ _ _ PB _ _ _ Hv HP) as (c & d1 & x1 & ps & co & nm & nw & _ & _ & _ & _ & _ & _ & R1 & _).
        eexists. eexists. split; [rewrite (keeps_own _ _ _ K2); [exact R1|apply find_in in HP; exact (in_map snd _ _ HP)]|reflexivity]. }
  destruct SB as (sw & SB & PM). rewrite app_nil_r in PM.
  apply (Stages _ _ _ _ _ _ (ws_wrappers st) (ws_proxies st) dn sw I PB KD K2 BO SB).
  intros f P. rewrite <- KP. split; apply Permutation_in; [exact PM|now symmetry].
Qed.

(** Names and members at the end. *)
Section Stages.
Variables (p0 : pool) (ws : list wrapping) (D X C F : pool) (wrappers proxies dn sw : pmap).
Let st := WrapState D wrappers proxies.
Hypothesis I : inv p0 ws st.
Hypothesis PB : proxied_by D proxies dn X.
Hypothesis KD : forall f w, In (f, w) dn <-> find_key wrappers f = Some w.
Hypothesis KC : keeps (map snd proxies) X C.
Hypothesis BO : bodies_only X C.
Hypothesis SB : swapped_by C sw F.
Hypothesis KS : forall f P, In (f, P) sw <-> find_key proxies f = Some P.
Hypothesis HD : forall w, In w ws -> method_of D (wr_class w) (wr_fun w).

Lemma slot_proxy i : slot_in proxies dn i -> In i (map snd proxies).
Proof. intros (f & w & _ & A). apply find_in in A. exact (in_map snd _ _ A). Qed.
Lemma not_slot c i : member D c i -> ~ slot_in proxies dn i.
Proof. intros M S. apply slot_proxy in S. exact (proj2 (proj2 (i_proxy _ _ _ I _ S)) _ M). Qed.
Lemma wrapped_proxy f P : find_key proxies f = Some P -> exists w, In w ws /\ wr_fun w = f /\ find_key wrappers f = Some (wr_index w) /\ In (f, wr_index w) dn.
Proof.
  intros K. destruct (chain_proxy _ _ st _ _ I K) as (v & Hv). destruct (chain_last _ _ st _ _ I Hv) as (l & w & _ & E & Hw & Ef). exists w. subst v. split; [exact Hw|]. split; [exact Ef|].
  split; [exact Hv|]. now apply KD.
Qed.
Lemma member_X c i : member X c i <-> member D c i \/ exists f w, In (f, w) dn /\ find_key proxies f = Some i /\ method_of D c f.
Proof.
  split.
  - intros (k & G & H). apply class_at in G as (d & Dd & V). destruct (pb_back _ _ _ _ _ _ _ PB Dd V) as (d0 & k0 & D0 & V0). destruct (pb_class _ _ _ _ PB c d0 k0 D0 V0) as (fs & E & Fs).
    rewrite Dd in E. injection E as ->. cbn in V. injection V as <-. cbn [with_functions cl_functions] in H. apply in_app_iff in H as [H|H]; [left; exists k0; split; [apply class_at; eauto|exact H]|right; now apply Fs].
  - intros [(k & G & H)|(f & w & A & B & M)].
    + apply class_at in G as (d & Dd & V). destruct (pb_class _ _ _ _ PB c d k Dd V) as (fs & E & _). eexists. split; [apply class_at; eexists; split; [exact E|reflexivity]|]. cbn. apply in_or_app. now left.
    + destruct (pb_proxy _ _ _ _ PB f w i A B) as (c' & d & x & ps & co & nm & nw & Df & _ & Pa & (k & G) & _). destruct M as (d' & x' & Df' & Vf & Pa' & R). rewrite Df in Df'. injection Df' as <-.
      replace c' with c in * by congruence. apply class_at in G as (dc & Dc & V). destruct (pb_class _ _ _ _ PB _ _ _ Dc V) as (fs & E & Fs). eexists. split; [apply class_at; eexists; split; [exact E|reflexivity]|].
      cbn. apply in_or_app. right. apply Fs. exists f, w. split; [exact A|]. split; [exact B|]. exists d, x'. repeat split; try assumption; apply R.
Qed.
Lemma proxy_named f w P : In (f, w) dn -> find_key proxies f = Some P -> def_name X P = Done (proxy_name w).
Proof.
  intros A B. destruct (pb_proxy _ _ _ _ PB f w P A B) as (c' & d & x & ps & co & nm & nw & _ & _ & _ & _ & _ & _ & R & T & _). eapply name_at; [exact R|exact T].
Qed.
Lemma name_X c i n : member D c i -> def_name D i = Done n <-> def_name X i = Done n.
Proof.
  intros M. destruct (i_named _ _ _ I c i M) as (n' & N). cbn [st ws_pool] in N. pose proof (pb_name _ _ _ _ _ _ PB (not_slot _ _ M) N) as N'. rewrite N, N'. reflexivity.
Qed.
Lemma member_C c i : member C c i <-> member X c i.
Proof. destruct BO as (_ & B1 & B2). split; intros (k & G & H); exists k; auto. Qed.
Lemma named_X c i : member X c i -> exists n, def_name X i = Done n.
Proof.
  intros M. apply member_X in M as [M|(f & w & A & B & _)]; [|eauto using proxy_named]. destruct (i_named _ _ _ I c i M) as (n & N). exists n. now apply (name_X c).
Qed.
Lemma name_C c i n : member X c i -> def_name X i = Done n <-> def_name C i = Done n.
Proof. intros M. destruct (named_X c i M) as (n' & N). rewrite N, (keeps_name _ _ _ _ _ KC N). reflexivity. Qed.
Lemma f_at_C f P : find_key proxies f = Some P -> exists d x c ls, def_at D f = Some d /\ df_value d = DFunction x /\
  def_at X f = Some d /\ def_at C f = Some (with_value d (DFunction (with_locals (with_code x c) ls))).
Proof.
  intros K. destruct (wrapped_proxy f P K) as (w & Hw & <- & _). destruct (HD w Hw) as (d & x & Dd & Vd & _).
  assert (DX : def_at X (wr_fun w) = Some d) by (apply (pb_same _ _ _ _ PB); [exact Dd|congruence|exact (not_slot _ _ (proj1 (i_fun _ _ _ I w Hw)))]).
  destruct (proj1 BO _ _ _ DX Vd) as (c & ls & E). exists d, x, c, ls. auto.
Qed.
Lemma P_at_C f w P : In (f, w) dn -> find_key proxies f = Some P -> proxy_of D X f w P /\ def_at C P = def_at X P.
Proof. intros A B. split; [exact (pb_proxy _ _ _ _ PB f w P A B)|]. apply (keeps_own _ _ _ KC). apply find_in in B. exact (in_map snd _ _ B). Qed.
Lemma function_P f P : find_key proxies f = Some P -> exists dp y, def_at C P = Some dp /\ df_value dp = DFunction y.
Proof.
  intros K. destruct (wrapped_proxy f P K) as (w & _ & _ & _ & Hd). destruct (P_at_C f _ P Hd K) as ((c' & d & x & ps & co & nm & nw & _ & _ & _ & _ & _ & _ & R & _) & E). rewrite E, R. eexists. eexists. split; reflexivity.
Qed.
Lemma done_F f P : find_key proxies f = Some P -> exists d x dp, def_at C f = Some d /\ df_value d = DFunction x /\ def_at C P = Some dp /\
  def_at F f = Some (with_name dp (df_name d)) /\ moved C F P d x (df_name dp).
Proof.
  intros K. destruct (f_at_C f P K) as (d & x & c & ls & _ & _ & _ & E). destruct (function_P f P K) as (dp & y & DP & _).
  exists (with_value d (DFunction (with_locals (with_code x c) ls))), (with_locals (with_code x c) ls), dp. split; [exact E|]. split; [reflexivity|]. split; [exact DP|].
  exact (sb_done _ _ _ SB f P _ _ _ (proj2 (KS f P) K) E eq_refl DP).
Qed.
Lemma class_F c k : get_class F c = Done k <-> get_class C c = Done k.
Proof.
  rewrite !class_at.
  assert (KV : In c (map fst sw) \/ In c (map snd sw) -> (forall d, def_at C c = Some d -> df_value d <> DClass k) /\ (forall d, def_at F c = Some d -> df_value d <> DClass k)).
  { intros [H|H]; [apply in_keys in H as (P & H)|apply in_values in H as (f & H)]; apply KS in H.
    - destruct (done_F c P H) as (d & x & dp & A & B & DP & E & _). destruct (function_P c P H) as (dp' & y & DP' & VP). rewrite DP in DP'. injection DP' as <-.
      split; intros d' D'; [rewrite A in D'; injection D' as <-; congruence|rewrite E in D'; injection D' as <-; cbn; congruence].
    - destruct (done_F f c H) as (d & x & dp & A & B & DP & _ & (r & ls & E & _)). destruct (function_P f c H) as (dp' & y & DP' & VP). rewrite DP in DP'. injection DP' as <-.
      split; intros d' D'; [rewrite DP in D'; injection D' as <-; congruence|rewrite E in D'; injection D' as <-; discriminate]. }
  destruct (in_dec Z.eq_dec c (map fst sw)) as [H1|H1]; [|destruct (in_dec Z.eq_dec c (map snd sw)) as [H2|H2]].
  - destruct (KV (or_introl H1)) as (N1 & N2). split; intros (d & A & B); [destruct (N2 d A B)|destruct (N1 d A B)].
  - destruct (KV (or_intror H2)) as (N1 & N2). split; intros (d & A & B); [destruct (N2 d A B)|destruct (N1 d A B)].
  - destruct (Z.lt_ge_cases c (size C)) as [L|L]; [rewrite (sb_same _ _ _ SB c L H1 H2); reflexivity|].
    split; intros (d & A & B); [destruct (sb_new _ _ _ SB c d L A) as (y & Y); congruence|apply at_bounds in A; lia].
Qed.
Lemma name_F i n : i < size C -> def_name F i = Done n <-> def_name C i = Done n.
Proof.
  intros L. assert (E : forall d d', def_at C i = Some d -> def_at F i = Some d' -> df_name d' = df_name d -> def_name F i = Done n <-> def_name C i = Done n).
  { intros d d' A B E. unfold def_name, get_def. rewrite A, B. cbn [obind]. rewrite E, (sb_names _ _ _ SB). reflexivity. }
  destruct (in_dec Z.eq_dec i (map fst sw)) as [H1|H1]; [|destruct (in_dec Z.eq_dec i (map snd sw)) as [H2|H2]].
  - apply in_keys in H1 as (P & H). apply KS in H. destruct (done_F i P H) as (d & x & dp & A & B & DP & R & _). exact (E _ _ A R eq_refl).
  - apply in_values in H2 as (f & H). apply KS in H. destruct (done_F f i H) as (d & x & dp & A & B & DP & _ & (r & ls & R & _)). exact (E _ _ DP R eq_refl).
  - unfold def_name, get_def. rewrite (sb_same _ _ _ SB i L H1 H2), (sb_names _ _ _ SB). reflexivity.
Qed.
Lemma member_F c i : member F c i <-> member X c i.
Proof. rewrite <- member_C. split; intros (k & G & H); exists k; (split; [apply class_F; exact G|exact H]). Qed.
Lemma size_X_C : size X <= size C. Proof. exact (keeps_size _ _ _ KC). Qed.
Lemma name_all c i n : member X c i -> def_name F i = Done n <-> def_name X i = Done n.
Proof.
  intros M. rewrite (name_C c) by exact M. apply name_F. destruct (named_X c i M) as (n' & N). apply name_def in N as (d & Dd). apply at_bounds in Dd. pose proof size_X_C. lia.
Qed.

(** Generated names are unique. *)
Lemma unique_wrapper w : In w ws -> member X (wr_class w) (wr_index w) /\ def_name X (wr_index w) = Done (wrapper_name (wr_wrapped w)) /\
  forall c j, member X c j -> def_name X j = Done (wrapper_name (wr_wrapped w)) -> j = wr_index w.
Proof.
  intros Hw. destruct (i_wrap _ _ _ I w Hw) as (B1 & B2 & M & N). cbn [st ws_pool] in *. split; [apply member_X; now left|]. split; [now apply (name_X (wr_class w))|].
  intros c j Mj Nj. apply member_X in Mj as [Mj|(f & v & A & B & _)].
  - apply (name_X c) in Nj; [|exact Mj]. destruct (i_gen_w _ _ _ I c j _ Mj Nj ltac:(lia)) as (w' & Hw' & E1 & E2). subst j. enough (w' = w) by congruence.
    pose proof (i_nodup _ _ _ I) as ND. apply nodup_left in ND. clear - ND Hw Hw' E2. induction ws as [|a l IH]; [destruct Hw|]. cbn [map] in ND. inversion ND as [|? ? NI ND']; subst.
    destruct Hw as [->|Hw], Hw' as [->|Hw']; [reflexivity| | |now apply IH]; exfalso; apply NI; [rewrite <- E2|rewrite E2]; now apply in_map.
  - rewrite (proxy_named f v j A B) in Nj. exfalso. injection Nj as Nj. now apply (wrapper_not_proxy (wr_wrapped w) v).
Qed.
Lemma wrapper_bounds f v : find_key wrappers f = Some v -> size p0 <= v.
Proof. intros K. apply find_in in K. apply (in_map snd) in K. exact (proj1 (i_values _ _ _ I v K)). Qed.
Lemma unique_proxy f w P c : In (f, w) dn -> find_key proxies f = Some P -> method_of D c f -> member X c P /\ def_name X P = Done (proxy_name w) /\
  forall c' j, member X c' j -> def_name X j = Done (proxy_name w) -> j = P.
Proof.
  intros A B M. split; [apply member_X; right; eauto|]. split; [exact (proxy_named f w P A B)|]. intros c' j Mj Nj. pose proof (proj1 (KD f w) A) as KW. pose proof (wrapper_bounds _ _ KW) as BW.
  apply member_X in Mj as [Mj|(f' & v & A' & B' & _)].
  - apply (name_X c') in Nj; [|exact Mj]. pose proof (i_gen_p _ _ _ I c' j w Mj Nj). lia.
  - rewrite (proxy_named f' v j A' B') in Nj. pose proof (proj1 (KD f' v) A') as KW'. pose proof (wrapper_bounds _ _ KW') as BW'.
    assert (E : proxy_name v = proxy_name w) by congruence. apply proxy_name_inj in E; [|unfold size in *; lia|unfold size in *; lia]. subst v.
    pose proof (i_nodup _ _ _ I) as ND. apply nodup_right in ND. cbn [st ws_wrappers] in ND. enough (f' = f) by congruence.
    apply find_in in KW, KW'. clear - ND KW KW'. induction wrappers as [|[k u] m IH]; [destruct KW|]. cbn [map snd] in ND. inversion ND as [|? ? NI ND']; subst.
    destruct KW as [E|H], KW' as [E'|H']; [congruence| | |now apply IH]; exfalso; apply NI; [injection E as -> ->; exact (in_map snd _ _ H')|injection E' as -> ->; exact (in_map snd _ _ H)].
Qed.
End Stages.

(** Dispatch on a name that only one member has. *)
Lemma named_in p n : forall l, (exists j, In j l /\ def_name p j = Done n) \/ (forall j, In j l -> def_name p j <> Done n).
Proof.
  induction l as [|j l [(i & A & B)|H]]; [right; intros j []|left; exists i; split; [right|]; assumption|].
  destruct (def_name p j) as [m|] eqn:E.
  - destruct (str_eqb_spec m n) as [->|N]; [left; exists j; split; [left; reflexivity|exact E]|right; intros i [<-|A]; [congruence|now apply H]].
  - right. intros i [<-|A]; [congruence|now apply H].
Qed.
Lemma dispatch_member p c n j : dispatch p c n j -> (exists c', member p c' j) /\ def_name p j = Done n.
Proof. induction 1; [split; eauto|assumption]. Qed.
Lemma dispatch_unique p c n i : member p c i -> def_name p i = Done n -> (forall c' j, member p c' j -> def_name p j = Done n -> j = i) ->
  forall d, below p d c -> forall j, dispatch p d n j <-> j = i.
Proof.
  intros M N U d B j. split.
  - intros H. apply dispatch_member in H as ((c' & A) & E). exact (U c' j A E).
  - intros ->. induction B as [c k G|d k c G B IH]; [now apply dispatch_own|]. destruct (named_in p n (cl_functions k)) as [(j & A & E)|H].
    + assert (Mj : member p d j) by (exists k; auto). rewrite <- (U d j Mj E). now apply dispatch_own.
    + apply (dispatch_base p d k); auto.
Qed.
Lemma dispatch_same p q : (forall c k, get_class p c = Done k <-> get_class q c = Done k) -> (forall c i n, member p c i -> def_name p i = Done n <-> def_name q i = Done n) ->
  forall c n i, dispatch p c n i -> dispatch q c n i.
Proof.
  intros HC HN c n i H. induction H as [c n i M N|c k n i G NO H IH].
  - apply dispatch_own; [destruct M as (k & G & M); exists k; split; [now apply HC|exact M]|now apply (HN c)].
  - apply (dispatch_base q c k); [now apply HC| |exact IH]. intros j A B. apply (NO j A). apply (HN c j n); [exists k; auto|exact B].
Qed.
