(** With and without the passes the same is compiled. *)
From Coq Require Import ZArith List Bool Permutation.
From Verif Require Import Bytes Bytecode Definitions Bundle Ast Pool Scope TypeCheck Diagnostics Report SourceMap Display Sources Printer Parser Positions Wrappers Unit Cli SccCompile SccCompileSpec.
Import ListNotations.
Open Scope Z_scope.

Lemma passes_found body m : Forall of_a_pass (passes body m).
Proof.
  unfold passes. rewrite !Forall_app. repeat split.
  - unfold unused_local. cbv zeta. apply Forall_forall. intros d I. apply in_map_iff in I as (x & <- & _). exact Logic.I.
  - unfold missing_return. destruct (_ && _); repeat constructor.
  - apply Forall_forall. intros d I. apply in_flat_map in I as (x & _ & I). unfold fallthrough_here in I. destruct x; try destruct I. apply in_map_iff in I as (c & <- & _). exact Logic.I.
  - apply Forall_forall. intros d I. apply in_flat_map in I as (x & _ & I). unfold temp_use_here in I.
    repeat match type of I with In _ (match ?x with _ => _ end) => destruct x end; try destruct I as [<-|[]]; try destruct I; exact Logic.I.
Qed.

Definition alike (st st' : ustate) : Prop := st = set_diags (us_diags st) st' /\ more_of_passes (us_diags st) (us_diags st').
Lemma alike_refl st : alike st st.
Proof. split; [now destruct st|]. exists []. rewrite app_nil_r. split; [apply Permutation_refl|constructor]. Qed.
Lemma more_app l l' ds : more_of_passes l l' -> more_of_passes (l ++ ds) (l' ++ ds).
Proof.
  intros (x & P & F). exists x. split; [|exact F]. rewrite <- app_assoc. rewrite (Permutation_app_comm ds x), app_assoc. now apply Permutation_app_tail.
Qed.
Lemma more_found l l' ds : more_of_passes l l' -> Forall of_a_pass ds -> more_of_passes (l ++ ds) (l' ++ []).
Proof.
  intros (x & P & F) G. exists (x ++ ds). rewrite app_nil_r, app_assoc. split; [now apply Permutation_app_tail|now rewrite Forall_app].
Qed.
Lemma body_alike ev sg pm x st st' : alike st st' ->
  fst (compile_body ev sg pm x st) = fst (compile_body_with no_passes ev sg pm x st') /\
  alike (snd (compile_body ev sg pm x st)) (snd (compile_body_with no_passes ev sg pm x st')).
Proof.
  intros (E & M). destruct st as [a b c d e f g h i j k], st' as [a' b' c' d' e' f' g' h' i' j' k']. cbn in E, M. injection E as -> -> -> -> -> -> -> -> -> ->.
  unfold compile_body, compile_body_with, ubind, uget, uput, ulift, uret, ureport, ubind, push_diagnostic, uput, ulift. cbn [us_pool].
  destruct (compile_function ev sg pm x a') as [[[fn ds] p']|er].
  - cbn. destruct (get_function p' (cf_index fn)) as [y|er]; cbn.
    + split; [reflexivity|]. split; [reflexivity|]. cbn. apply more_found; [now apply more_app|apply passes_found].
    + split; [reflexivity|]. split; [reflexivity|]. cbn. now apply more_app.
  - destruct (diag_from_error er) as [dg|er']; cbn; (split; [reflexivity|]; split; [reflexivity|]); cbn; [now apply more_app|exact M].
Qed.
Lemma bodies_alike ev sg pm l : forall st st', alike st st' ->
  fst (umap (compile_body ev sg pm) l st) = fst (umap (compile_body_with no_passes ev sg pm) l st') /\
  alike (snd (umap (compile_body ev sg pm) l st)) (snd (umap (compile_body_with no_passes ev sg pm) l st')).
Proof.
  induction l as [|x l IH]; intros st st' A; [split; [reflexivity|exact A]|]. cbn [umap]. unfold ubind at 1 3 5 7.
  destruct (body_alike ev sg pm x st st' A) as (E & A1). destruct (compile_body ev sg pm x st) as [r s1], (compile_body_with no_passes ev sg pm x st') as [r' s1']. cbn [fst snd] in E, A1. subst r'.
  destruct r as [y|er]; [|split; [reflexivity|exact A1]]. unfold ubind. specialize (IH _ _ A1) as (E & A2).
  destruct (umap (compile_body ev sg pm) l s1) as [r2 s2], (umap (compile_body_with no_passes ev sg pm) l s1') as [r2' s2']. cbn [fst snd] in E, A2. subst r2'.
  destruct r2; (split; [reflexivity|exact A2]).
Qed.
Lemma modules_split ev sg pm l st : compile_modules ev sg pm l st =
  (do bodies <- declare_modules ev pm l; do fs <- umap (compile_body ev sg pm) bodies; uret (concat fs)) st.
Proof.
  unfold compile_modules, declare_modules, ubind, uget, uret.
  destruct (umap (declare_module pm _) l st) as [[q|e] s1]; [|reflexivity]. destruct (define_modules _ _ _ _ s1) as [[[]|e] s2]; [|reflexivity].
  destruct (ueach _ _ s2) as [[[]|e] s3]; [|reflexivity]. destruct (construct_proxies _ _ _ _ _) as [[s p]|e]; reflexivity.
Qed.
Lemma modules_alike ev sg pm l st :
  fst (compile_modules ev sg pm l st) = fst (compile_modules_with no_passes ev sg pm l st) /\
  alike (snd (compile_modules ev sg pm l st)) (snd (compile_modules_with no_passes ev sg pm l st)).
Proof.
  rewrite modules_split. unfold compile_modules_with. unfold ubind at 1 3 5 7. destruct (declare_modules ev pm l st) as [[bs|e] s]; [|split; [reflexivity|apply alike_refl]].
  unfold ubind. destruct (bodies_alike ev sg pm bs s s (alike_refl s)) as (E & A).
  destruct (umap (compile_body ev sg pm) bs s) as [r s1], (umap (compile_body_with no_passes ev sg pm) bs s) as [r' s1']. cbn [fst snd] in E, A. subst r'.
  destruct r; (split; [reflexivity|exact A]).
Qed.
Lemma insert_perm d l : Permutation (insert_diag d l) (d :: l).
Proof. induction l as [|x l IH]; cbn [insert_diag]; [reflexivity|]. destruct (_ && _); [|reflexivity]. rewrite IH. apply perm_swap. Qed.
Lemma sort_perm l : Permutation (sort_diags l) l.
Proof. induction l as [|x l IH]; cbn [sort_diags]; [reflexivity|]. rewrite insert_perm. now constructor. Qed.
Lemma more_sort l l' : more_of_passes l l' -> more_of_passes (sort_diags l) (sort_diags l').
Proof. intros (x & P & F). exists x. split; [|exact F]. rewrite !sort_perm. exact P. Qed.
Lemma finish_alike ev fs st st' : alike st st' -> same_result (finish ev fs st) (finish ev fs st').
Proof.
  intros (E & M). destruct st as [a b c d e f g h i j k], st' as [a' b' c' d' e' f' g' h' i' j' k']. cbn in E, M. injection E as -> -> -> -> -> -> -> -> -> ->.
  unfold finish, assemble_all. cbn [us_pool us_proxies us_refs us_diags]. destruct (let* p := install_all ev fs a' in swap_proxies (ev_locals ev) (ev_proxies ev h') p) as [p|er]; cbn; [|reflexivity].
  destruct (of_cleanup _) as [[p' refs]|er]; cbn; [|reflexivity]. split; [reflexivity|]. split; [reflexivity|]. now apply more_sort.
Qed.
Lemma compile_alike ev l p : same_result (compile ev l p) (compile_with no_passes ev l p).
Proof.
  unfold compile, compile_with. destruct (unit_new ev p) as [st|e]; cbn; [|reflexivity].
  destruct (modules_alike ev true false l st) as (E & A). destruct (compile_modules ev true false l st) as [r s], (compile_modules_with no_passes ev true false l st) as [r' s']. cbn [fst snd] in E, A. subst r'.
  destruct r as [fs|e]; [now apply finish_alike|reflexivity].
Qed.
