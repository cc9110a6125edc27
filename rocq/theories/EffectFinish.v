(** Declarations take effect: default values, bodies and code. *)
From Coq Require Import String.
From Coq Require Import ZArith List Bool Lia Permutation.
From Verif Require Import Bytes Bytecode Definitions Bundle BundleFacts Ast TypeNames Pool Scope TypeCheck Symbols SourceMap Cursor Assembler
  Desugar Diagnostics Report Printer PoolSpec PoolFacts TypeIndexSpec TypeIndexFacts Wrappers WrapSpec WrapFacts WrapSteps TidyFacts Unit UnitSpec UnitSteps UnitFacts
  P_Symbols P_Reproducible EffectSpec EffectFacts EffectDefine EffectDeclare.
Import ListNotations.
Open Scope Z_scope.

(** Definitions change as [K] says and keep their names. *)
Definition over (K : pidx -> definition -> definition -> Prop) (p q : pool) : Prop :=
  size p <= size q /\ prefix (st_list (pl_names p)) (st_list (pl_names q)) /\
  forall i d, def_at p i = Some d -> exists d', def_at q i = Some d' /\ df_name d' = df_name d /\ K i d d'.
Definition kept (i : pidx) (d d' : definition) : Prop := d' = d.
Lemma over_comp (K1 K2 K3 : pidx -> definition -> definition -> Prop) p q r : (forall i d d' d'', K1 i d d' -> K2 i d' d'' -> K3 i d d'') -> over K1 p q -> over K2 q r -> over K3 p r.
Proof.
  intros H (A1 & A2 & A3) (B1 & B2 & B3). split; [lia|]. split; [exact (prefix_trans _ _ _ A2 B2)|]. intros i d D.
  destruct (A3 _ _ D) as (d1 & D1 & N1 & K). destruct (B3 _ _ D1) as (d2 & D2 & N2 & K'). exists d2. split; [exact D2|]. split; [congruence|eauto].
Qed.
Lemma over_weaken (K K' : pidx -> definition -> definition -> Prop) p q : (forall i d d', K i d d' -> K' i d d') -> over K p q -> over K' p q.
Proof. intros H (A & B & C). split; [exact A|]. split; [exact B|]. intros i d D. destruct (C _ _ D) as (d' & X & Y & Z). eauto. Qed.
Lemma over_extends p q : extends p q -> over kept p q.
Proof.
  intros X. pose proof (grown_extends _ _ X) as (A & B). split; [exact A|]. split; [exact B|]. intros i d D. exists d. split; [exact (extends_nth _ _ _ _ X D)|]. split; reflexivity.
Qed.
Lemma over_name K p q i n : over K p q -> def_name p i = Done n -> def_name q i = Done n.
Proof. intros (_ & P & O) N. destruct (name_def _ _ _ N) as (d & D). destruct (O _ _ D) as (d' & D' & E & _). exact (name_same _ _ _ _ _ _ P D D' E N). Qed.
Lemma over_earlier K p q : over K p q -> earlier p q.
Proof. intros O i n. apply (over_name _ _ _ _ _ O). Qed.

(** * Default values *)
Inductive filled (ev : env) (ds : list field_default) (q : pool) (i : pidx) (d : definition) : definition -> Prop :=
| filled_not : (forall b, In b ds -> ft_index b <> i) -> filled ev ds q i d d
| filled_by x b n text : In b ds -> ft_index b = i -> df_value d = DField x -> def_name q (ft_class b) = Done n -> stringify_default ev (ft_value b) = Done text ->
    filled ev ds q i d (with_value d (DField (with_defaults x [{| pp_name := n; pp_value := text |}]))).
Lemma put_defaults_spec p i l p' : put_defaults p i l = Done p' -> exists d x, def_at p i = Some d /\ df_value d = DField x /\
  def_at p' i = Some (with_value d (DField (with_defaults x l))) /\ (forall j, j <> i -> def_at p' j = def_at p j) /\ pl_names p' = pl_names p /\ size p' = size p.
Proof.
  unfold put_defaults. destruct (pe (get_field p i)) as [x|] eqn:X; [|discriminate]. cbn [obind]. destruct (pe (get_def p i)) as [d|] eqn:D; [|discriminate]. cbn [obind]. intros H.
  apply def_done in D. apply pe_done in X. unfold get_field, def_by in X. rewrite D in X. unfold as_field in X. exists d, x. split; [exact D|].
  destruct (put_spec _ _ _ _ H) as (A & B & C & S). split; [destruct (df_value d); try discriminate X; now injection X as ->|]. now repeat split.
Qed.
Lemma back_defaults ev ds : back (ueach (compile_default ev) ds).
Proof. apply back_of; [apply mono_each; intros; apply mono_default|apply quiet_each; intros; apply quiet_default]. Qed.
Lemma run_default ev b st r st' : compile_default ev b st = (Done r, st') -> us_bodies st' = us_bodies st /\
  exists n text, def_name (us_pool st) (ft_class b) = Done n /\ stringify_default ev (ft_value b) = Done text /\
    over (fun i d d' => ft_index b <> i /\ d' = d \/ ft_index b = i /\ exists x, df_value d = DField x /\ d' = with_value d (DField (with_defaults x [{| pp_name := n; pp_value := text |}]))) (us_pool st) (us_pool st').
Proof.
  unfold compile_default. intros E. apply bind_done in E as (p & st1 & E1 & E). injection E1 as <- <-. apply bind_done in E as (f & st1 & E1 & E). injection E1 as _ <-.
  apply bind_done in E as (t & st1 & E1 & E). injection E1 as _ <-. apply bind_done in E as (n & st1 & E1 & E). injection E1 as EN <-. apply bind_done in E as (v & st1 & E1 & E). injection E1 as EV <-.
  apply bind_done in E as (u & st1 & E1 & E). unfold change_pool, on_pool in E1. destruct (put_defaults _ _ _) as [p1|] eqn:PD; [|discriminate]. cbn [obind] in E1. injection E1 as _ <-.
  apply (check_default_pool ev b t) in E as ((X & _) & ds & ST). cbn [set_pool us_pool] in X. apply pe_done in EN.
  split; [rewrite ST; reflexivity|]. exists n, v. split; [exact EN|]. split; [exact EV|].
  destruct (put_defaults_spec _ _ _ _ PD) as (d & x & D & V & D' & OT & NM & SZ). pose proof (over_extends _ _ X) as (Y1 & Y2 & Y3).
  split; [lia|]. split; [rewrite <- NM; exact Y2|]. intros i e De. destruct (Z.eq_dec (ft_index b) i) as [<-|NE].
  - assert (e = d) by congruence. subst e. destruct (Y3 _ _ D') as (d2 & D2 & N2 & ->). eexists. split; [exact D2|]. split; [reflexivity|]. right. split; [reflexivity|]. eauto.
  - rewrite <- OT in De by congruence. destruct (Y3 _ _ De) as (d2 & D2 & N2 & ->). exists e. split; [exact D2|]. split; [reflexivity|]. left. auto.
Qed.
Lemma run_defaults ev ds : forall st r st', ueach (compile_default ev) ds st = (Done r, st') -> us_bodies st' = us_bodies st /\ over (filled ev ds (us_pool st')) (us_pool st) (us_pool st').
Proof.
  induction ds as [|b ds IH]; intros st r st' E; cbn [ueach] in E.
  - injection E as _ <-. split; [reflexivity|]. eapply over_weaken; [|apply over_extends, extends_refl]. intros i d d' ->. apply filled_not. intros b [].
  - apply bind_done in E as (u & st1 & E1 & E2). apply run_default in E1 as (B1 & n & text & N1 & T1 & O1). destruct (IH _ _ _ E2) as (B2 & O2). split; [congruence|].
    pose proof (over_name _ _ _ _ _ O2 (over_name _ _ _ _ _ O1 N1)) as NQ. eapply over_comp; [|exact O1|exact O2]. cbv beta.
    intros i d d' d'' [(NE & ->)|(IX & x & V & ->)] F.
    + destruct F as [F|x b' n' t' I1 I2 V N' T']; [apply filled_not; intros b' [<-|I]; auto|]. eapply filled_by; eauto. now right.
    + destruct F as [F|x' b' n' t' I1 I2 V' N' T'].
      * eapply filled_by; eauto. now left.
      * cbn [with_value df_value] in V'. injection V' as <-. cbn [with_value with_defaults df_name df_parent df_unk1 df_unk2 df_unk3 fi_visibility fi_type fi_flags fi_hint fi_attributes].
        eapply (filled_by ev (b :: ds) (us_pool st') i d x b' n' t'); auto. now right.
Qed.

(** * Code *)
Definition coded (i : pidx) (d d' : definition) : Prop := same_but_code d d'.
Lemma coded_trans i d d' d'' : coded i d d' -> coded i d' d'' -> coded i d d''.
Proof.
  intros [->|(x & c & ls & V & ->)] H; [exact H|]. destruct H as [->|(x' & c' & ls' & V' & ->)]; [right; eauto 6|]. cbn [with_value df_value] in V'. injection V' as <-.
  right. exists x, c', ls'. split; [exact V|reflexivity].
Qed.
Lemma coded_extends p q : extends p q -> over coded p q.
Proof. intros X. eapply over_weaken; [|exact (over_extends _ _ X)]. intros i d d' ->. now left. Qed.
Lemma coded_over p q r : over coded p q -> over coded q r -> over coded p r.
Proof. apply over_comp. exact coded_trans. Qed.
Lemma coded_ready count p q : count <= size p -> over coded p q -> ready count p q.
Proof. intros L O. split; [exact L|]. split; [exact (over_earlier _ _ _ O)|]. destruct O as (_ & _ & O). intros i d D. destruct (O _ _ D) as (d' & D' & _ & K). eauto. Qed.

Lemma fallthrough_harm body : no_harm (stmt_fallthrough body) -> stmt_fallthrough body = [].
Proof.
  assert (H : forall d, In d (stmt_fallthrough body) -> ~ harmless d).
  { intros d I. unfold stmt_fallthrough in I. apply in_flat_map in I as (e & _ & I). unfold fallthrough_here in I. destruct e; try contradiction. apply in_map_iff in I as (c & <- & _). intros []. }
  destruct (stmt_fallthrough body) as [|d l]; [reflexivity|]. intros N. inversion N. destruct (H d (or_introl eq_refl)); assumption.
Qed.
Lemma temp_use_harm body : no_harm (invalid_temp_use body) -> invalid_temp_use body = [].
Proof.
  assert (H : forall d, In d (invalid_temp_use body) -> ~ harmless d).
  { intros d I. unfold invalid_temp_use in I. apply in_flat_map in I as (e & _ & I). unfold temp_use_here in I. destruct (temp_operand e) as [x|]; [|contradiction]. destruct (is_prvalue x); [|contradiction].
    destruct I as [<-|[]]. intros []. }
  destruct (invalid_temp_use body) as [|d l]; [reflexivity|]. intros N. inversion N. destruct (H d (or_introl eq_refl)); assumption.
Qed.

(** The compiled function [g] of the body [b], between [p] and [q]. *)
Definition compiled_from (ev : env) (p q : pool) (b : function_body) (g : compiled_function) : Prop :=
  cf_index g = fb_index b /\ exists p1 p2 x s1 checked t made, get_function p1 (fb_index b) = Done x /\ body_scope p1 b x = Done s1 /\
    check_seq (check (ev_fuel ev) false) (fb_code b) (fresh_checker s1 p1) = Done (checked, t) /\ no_harm (ts_diags t) /\
    desugar checked (ts_scope t) (ts_pool t) = Done (cf_code g, made, cf_scope g, p2) /\ cf_locals g = ts_locals t ++ made /\
    no_harm (passes (cf_code g) {| fm_flags := fu_flags x; fm_was_callback := fb_was_callback b; fm_span := fb_span b |}) /\ extends p p1 /\ extends p1 q.
Lemma compiled_parts ev b p g p2 y ds : compile_function ev true false b p = Done (g, ds, p2) -> no_harm ds -> extends p p2 -> get_function p2 (cf_index g) = Done y ->
  no_harm (passes (cf_code g) {| fm_flags := fu_flags y; fm_was_callback := fb_was_callback b; fm_span := cf_span g |}) -> compiled_from ev p p2 b g.
Proof.
  unfold compile_function. destruct (pe (get_function p (fb_index b))) as [x|] eqn:X; [|discriminate]. cbn [obind]. apply pe_done in X.
  destruct (body_scope p b x) as [s1|] eqn:S; [|discriminate]. cbn [obind]. destruct (check_seq _ _ _) as [[checked t]|] eqn:C; [|discriminate]. cbn [obind].
  destruct (desugar _ _ _) as [[[[simple made] s2] p3]|] eqn:D; [|discriminate]. cbn [obind]. intros [= <- <- <-] TD E G P. cbn [cf_index cf_code cf_span cf_locals cf_scope] in *.
  split; [reflexivity|]. exists p, p3, x, s1, checked, t, made. assert (y = x) as -> by (pose proof (extends_def_by _ _ _ _ _ E X) as X'; unfold get_function in G; congruence).
  do 7 (split; [assumption || reflexivity|]). split; [apply extends_refl|exact E].
Qed.
Lemma run_bodies ev bs : forall st r st', umap (compile_body ev true false) bs st = (Done r, st') -> no_harm (us_diags st') ->
  extends (us_pool st) (us_pool st') /\ Forall2 (compiled_from ev (us_pool st) (us_pool st')) bs (concat r) /\ us_proxies st' = us_proxies st /\ no_harm (us_diags st).
Proof.
  induction bs as [|b bs IH]; intros st r st' E H; cbn [umap] in E.
  - injection E as <- <-. split; [apply extends_refl|]. split; [constructor|]. auto.
  - apply bind_done in E as (x & st1 & E1 & E). apply bind_done in E as (rs & st2 & E2 & E). injection E as <- <-. destruct (IH _ _ _ E2 H) as (X2 & F2 & P2 & D1).
    destruct (body_done _ _ _ _ _ _ _ E1 D1) as (D0 & g & y & ds & -> & C & CD & P1 & GY & PY). destruct (tidy_function _ _ _ _ _ _ _ _ C) as ((X1 & _) & IX).
    split; [exact (extends_trans _ _ _ X1 X2)|]. split; [|split; [congruence|exact D0]]. cbn [concat app]. constructor.
    + destruct (compiled_parts _ _ _ _ _ _ _ C CD X1 GY PY) as (_ & p1 & p2 & x & s1 & ck & t & made & Q). split; [exact IX|]. exists p1, p2, x, s1, ck, t, made.
      destruct Q as (Q1 & Q2 & Q3 & Q4 & Q5 & Q6 & Q7 & Q8 & Q9). do 7 (split; [assumption|]). split; [exact Q8|exact (extends_trans _ _ _ Q9 X2)].
    + eapply Forall2_weaken; [exact F2|]. intros b' g' _ (I & p1 & p2 & x & s1 & ck & t & made & Q1 & Q2 & Q3 & Q4 & Q5 & Q6 & Q7 & Q8 & Q9). split; [exact I|]. exists p1, p2, x, s1, ck, t, made.
      do 7 (split; [assumption|]). split; [exact (extends_trans _ _ _ X1 Q8)|exact Q9].
Qed.
Inductive installed (ev : env) (gs : list compiled_function) (p q : pool) (i : pidx) (d : definition) : definition -> Prop :=
| installed_not : (forall g, In g gs -> cf_index g <> i) -> installed ev gs p q i d d
| installed_by x g c s p3 p4 : In g gs -> cf_index g = i -> df_value d = DFunction x -> from_body (ev_files ev) (cf_code g) (cf_scope g) p3 = Done (c, s, p4) ->
    over coded p p3 -> over coded p3 q -> installed ev gs p q i d (with_value d (DFunction (with_locals (with_code x c) (cf_locals g)))).
Lemma run_install ev gs : forall p q, install_all ev gs p = Done q -> over (installed ev gs p q) p q /\ over coded p q.
Proof.
  induction gs as [|g gs IH]; intros p q E; cbn [install_all] in E.
  - injection E as <-. split; [|apply coded_extends, extends_refl]. eapply over_weaken; [|apply over_extends, extends_refl]. intros i d d' ->. apply installed_not. intros g [].
  - unfold install in E. destruct (from_body _ _ _ _) as [[[c s] p1]|] eqn:B; [|discriminate]. cbn [obind] in E. destruct (update_function _ _ _) as [p2|] eqn:U; [|discriminate]. cbn [obind] in E.
    destruct (IH _ _ E) as (O2 & C2). pose proof (proj1 (tidy_body _ _ _ _ _ _ _ B)) as X. destruct (update_spec _ _ _ _ U) as (d0 & x0 & D0 & V0 & D0' & OT & NM & SZ).
    assert (O1 : over (fun i d d' => cf_index g <> i /\ d' = d \/ cf_index g = i /\ (forall x, df_value d = DFunction x -> d' = with_value d (DFunction (with_locals (with_code x c) (cf_locals g)))) /\
      (forall e, d = e -> def_at p i = Some e -> exists x, df_value e = DFunction x \/ size p <= i)) p p2).
    { pose proof (over_extends _ _ X) as (Y1 & Y2 & Y3). split; [lia|]. split; [rewrite NM; exact Y2|]. intros i d D. destruct (Y3 _ _ D) as (d1 & D1 & _ & ->).
      destruct (Z.eq_dec (cf_index g) i) as [<-|NE].
      - assert (d0 = d) by congruence. subst d0. eexists. split; [exact D0'|]. split; [reflexivity|]. right. split; [reflexivity|]. split; [intros x Vx; congruence|]. intros e <- _. exists x0. now left.
      - exists d. rewrite OT by congruence. split; [exact D1|]. split; [reflexivity|]. left. auto. }
    assert (C1 : over coded p p2).
    { destruct O1 as (A1 & A2 & A3). split; [exact A1|]. split; [exact A2|]. intros i d D. destruct (A3 _ _ D) as (d' & D' & N' & [(_ & ->)|(_ & W & Z)]).
      - exists d. split; [exact D'|]. split; [reflexivity|now left].
      - exists d'. split; [exact D'|]. split; [exact N'|]. destruct (Z _ eq_refl D) as (x & [Vx|Bx]); [|apply at_bounds in D; lia]. right. exists x, c, (cf_locals g). auto. }
    split; [|exact (coded_over _ _ _ C1 C2)]. destruct O1 as (A1 & A2 & A3), O2 as (B1 & B2 & B3). split; [lia|]. split; [exact (prefix_trans _ _ _ A2 B2)|]. intros i d D.
    destruct (A3 _ _ D) as (d1 & D1 & N1 & K1). destruct (B3 _ _ D1) as (d2 & D2 & N2 & K2). exists d2. split; [exact D2|]. split; [congruence|].
    destruct K1 as [(NE & ->)|(IX & W & Z)].
    + destruct K2 as [K2|x g' c' s' p3 p4 I1 I2 V F P1 P2]; [apply installed_not; intros g' [<-|I]; auto|]. eapply installed_by; eauto; [now right|exact (coded_over _ _ _ C1 P1)].
    + destruct (Z _ eq_refl D) as (x & [Vx|Bx]); [|apply at_bounds in D; lia]. specialize (W _ Vx). subst d1.
      destruct K2 as [K2|x' g' c' s' p3 p4 I1 I2 V F P1 P2].
      * eapply installed_by; [now left|exact IX|exact Vx|exact B|apply coded_extends, extends_refl|exact (coded_over _ _ _ C1 C2)].
      * cbn [with_value df_value] in V. injection V as <-. cbn [with_value with_locals with_code df_name df_parent df_unk1 df_unk2 df_unk3].
        eapply (installed_by ev (g :: gs) p q i d x g' c' s' p3 p4); auto; [now right|exact (coded_over _ _ _ C1 P1)].
Qed.

(** * Scopes of bodies *)
Lemma parameters_scope p ps : forall s s', add_parameters p ps s = Done s' ->
  sc_symbols s' = sc_symbols s /\ sc_function s' = sc_function s /\ sc_this s' = sc_this s /\
  (forall n v, am_find (sc_references s') n = Some v -> am_find (sc_references s) n = Some v \/ exists i, v = VParam i /\ In i ps /\ def_name p i = Done n) /\
  (forall n, am_find (sc_references s) n <> None -> am_find (sc_references s') n <> None) /\
  (forall i, In i ps -> exists n, def_name p i = Done n /\ am_find (sc_references s') n <> None).
Proof.
  induction ps as [|i ps IH]; intros s s'; cbn [add_parameters].
  - intros [= <-]. repeat split; auto. intros i [].
  - destruct (pe (def_name p i)) as [n|] eqn:N; [|discriminate]. cbn [obind]. apply pe_done in N. intros E. destruct (IH _ _ E) as (A & B & C & D & F & G).
    assert (X : forall m, am_find (sc_references (sc_add_parameter s n i)) m = if str_eqb n m then Some (VParam i) else am_find (sc_references s) m) by reflexivity.
    split; [exact A|]. split; [exact B|]. split; [exact C|]. split; [|split].
    + intros m v H. destruct (D _ _ H) as [K|(j & K1 & K2 & K3)]; [|right; exists j; split; [exact K1|]; split; [now right|exact K3]].
      rewrite X in K. destruct (str_eqb_spec n m) as [<-|]; [|now left]. injection K as <-. right. exists i. split; [reflexivity|]. split; [now left|exact N].
    + intros m H. apply F. rewrite X. destruct (str_eqb_spec n m); [discriminate|exact H].
    + intros j [<-|I]; [|exact (G _ I)]. exists n. split; [exact N|]. apply F. rewrite X. now destruct (str_eqb_spec n n).
Qed.
Lemma text_of_default ev e t : stringify_default ev e = Done t -> default_text ev e t.
Proof.
  destruct e as [| | | | | | | | |r m sp| | | | | | | | | | | | | | | |]; cbn [stringify_default]; try discriminate.
  - match goal with c : constant |- _ => destruct c as [| | | | | | |[]] end; intros [= <-]; constructor.
  - destruct r; try discriminate. intros [= <-]. constructor.
  - intros [= <-]. constructor.
Qed.

(** * What has been declared, at the end *)
Lemma type_earlier syms p q t i : earlier p q -> type_is syms p t i -> type_is syms q t i.
Proof. intros E (s & p1 & ty & n & A & B & C & D & F & G). exists s, p1, ty, n. split; [exact A|]. split; [exact B|]. split; [intros j m X; exact (E _ _ (C _ _ X))|]. auto. Qed.
Lemma returns_earlier syms p q o r : earlier p q -> returns syms p o r -> returns syms q o r.
Proof. intros E. unfold returns. destruct o, r; auto. intros (A & B). split; [exact A|exact (type_earlier _ _ _ _ _ E B)]. Qed.
Section End.
Variables (ev : env) (count : Z) (syms : amap symbol) (st : ustate) (p3 p5 q : pool) (gs : list compiled_function).
Hypothesis O3 : over (filled ev (us_defaults st) p3) (us_pool st) p3.
Hypothesis X5 : extends p3 p5.
Hypothesis F5 : Forall2 (compiled_from ev p3 p5) (us_bodies st) gs.
Hypothesis O6 : over (installed ev gs p5 q) p5 q.
Hypothesis C6 : over coded p5 q.
Hypothesis LO : count <= size (us_pool st).
Hypothesis BR : Forall (fun b => sc_references (fb_scope b) = []) (us_bodies st).

Lemma last_earlier : earlier p3 q.
Proof. intros i n X. exact (over_name _ _ _ _ _ O6 (over_name _ _ _ _ _ (over_extends _ _ X5) X)). Qed.
Lemma end_earlier : earlier (us_pool st) q.
Proof. intros i n X. exact (last_earlier _ _ (over_name _ _ _ _ _ O3 X)). Qed.
Lemma end_at i d : def_at (us_pool st) i = Some d -> exists d3 d', filled ev (us_defaults st) p3 i d d3 /\ installed ev gs p5 q i d3 d' /\ def_at q i = Some d'.
Proof.
  intros D. destruct O3 as (_ & _ & O). destruct (O _ _ D) as (d3 & D3 & _ & K3). destruct O6 as (_ & _ & O'). destruct (O' _ _ (extends_nth _ _ _ _ X5 D3)) as (d' & D' & _ & K').
  exists d3, d'. auto.
Qed.
Lemma end_plain i d : def_at (us_pool st) i = Some d -> (forall x, df_value d <> DFunction x) -> (forall x, df_value d <> DField x) -> def_at q i = Some d.
Proof.
  intros D N1 N2. destruct (end_at _ _ D) as (d3 & d' & K3 & K' & D'). destruct K3 as [K3|x b n t I1 I2 V]; [|destruct (N2 _ V)]. destruct K' as [K'|x g c s p4 p4' I1 I2 V]; [exact D'|destruct (N1 _ V)].
Qed.
Lemma end_class c k : get_class (us_pool st) c = Done k -> get_class q c = Done k.
Proof. intros K. apply class_at in K as (d & D & V). apply class_at. exists d. split; [|exact V]. apply (end_plain _ _ D); intros x; congruence. Qed.
Lemma end_member c f : member (us_pool st) c f -> member q c f.
Proof. intros (k & K & I). exists k. split; [exact (end_class _ _ K)|exact I]. Qed.
Lemma end_parameter f src i : parameter_is syms (us_pool st) f src i -> parameter_is syms q f src i.
Proof.
  intros (d & t & fl & D & N & P & V & T & F). exists d, t, fl. split; [apply (end_plain _ _ D); intros x; congruence|]. split; [exact (end_earlier _ _ N)|]. split; [exact P|]. split; [exact V|].
  split; [exact (type_earlier _ _ _ _ _ end_earlier T)|exact F].
Qed.
Lemma end_function lo f c v base repl src : fun_at (ev := ev) syms st lo f c v base repl src -> function_is ev count syms q f c v base repl src.
Proof.
  intros (d & x & D & V & (H1 & H2 & H3 & H4 & H5 & H6) & WA & CO & LC & _ & B1 & B2). destruct (end_at _ _ D) as (d3 & d' & K3 & K' & D').
  assert (d3 = d) as -> by (destruct K3 as [K3|x3 b n t I1 I2 V3]; [reflexivity|congruence]). clear K3.
  assert (K3 : exists d3, def_at p3 f = Some d3 /\ d3 = d).
  { destruct O3 as (_ & _ & O). destruct (O _ _ D) as (d3 & D3 & _ & K3). exists d3. split; [exact D3|]. destruct K3 as [K3|x3 b n t I1 I2 V3]; [reflexivity|congruence]. }
  assert (H3' : returns syms q (fs_type src) (fu_return_type x)) by exact (returns_earlier _ _ _ _ _ end_earlier H3).
  assert (H4' : Forall2 (parameter_is syms q f) (fs_parameters src) (fu_parameters x)) by (apply (Forall2_weaken _ _ _ _ H4); intros a b _; apply end_parameter).
  destruct K' as [K'|x3 g co s pa pb I1 I2 V3 FB CP CQ].
  - exists d, x. split; [exact D'|]. split; [exact V|]. split; [repeat split; auto|]. split; [exact WA|]. unfold body_is. destruct (fs_body src) as [body|]; [|auto]. destruct (B1 _ eq_refl) as (b & Ib & Eb).
    exfalso. assert (X : exists g, In g gs /\ cf_index g = fb_index b).
    { clear - F5 Ib. induction F5 as [|b' g bs gs' (A & _) F IH]; [destruct Ib|]. destruct Ib as [->|I]; [exists g; split; [now left|exact A]|]. destruct (IH F I) as (g' & X & Y). exists g'. split; [now right|exact Y]. }
    destruct X as (g & Ig & Eg). apply (K' _ Ig). congruence.
  - assert (x3 = x) by congruence. subst x3.
    assert (X : exists b, In b (us_bodies st) /\ compiled_from ev p3 p5 b g).
    { clear - F5 I1. induction F5 as [|b g' bs gs' A F IH]; [destruct I1|]. destruct I1 as [->|I]; [exists b; split; [now left|exact A]|]. destruct (IH F I) as (b' & X & Y). exists b'. split; [now right|exact Y]. }
    destruct X as (b & Ib & (Eb & p1 & p2 & x1 & s1 & ck & t & made & Q1 & Q2 & Q3 & Q4 & Q5 & Q6 & Q7 & XA & XB)). destruct (B2 _ Ib (eq_trans (eq_sym Eb) I2)) as (body & BO & BA1 & BA2 & BA3 & BA4 & BA5 & BA6 & BA7).
    eexists _, _. split; [exact D'|]. split; [reflexivity|]. split; [repeat split; auto|]. split; [exact WA|]. unfold body_is. rewrite BO.
    assert (D3 : def_at p3 f = Some d) by (destruct K3 as (d3 & D3 & E3); now subst).
    assert (x1 = x) as -> by (pose proof (extends_nth _ _ _ _ XA D3) as D1; rewrite BA1 in Q1; unfold get_function, def_by in Q1; rewrite D1 in Q1; unfold as_function in Q1; rewrite V in Q1; now injection Q1).
    assert (L3 : size (us_pool st) <= size p3) by exact (proj1 O3). pose proof (proj1 (over_extends _ _ XA)) as L1. pose proof (proj1 (over_extends _ _ X5)) as L5. pose proof (proj1 CP) as L6.
    exists p1, s1, ck, t, (cf_code g), made, (cf_scope g), p2, pa, s, pb. split; [apply coded_ready; [lia|]; exact (coded_over _ _ _ (coded_extends _ _ XB) C6)|].
    split; [apply coded_ready; [lia|exact CQ]|]. rewrite Forall_forall in BR. pose proof (BR _ Ib) as RF. cbn [with_locals with_code fu_flags fu_parameters fu_code fu_locals].
    assert (E1 : earlier p1 q) by exact (over_earlier _ _ _ (coded_over _ _ _ (coded_extends _ _ XB) C6)).
    split; [|unfold passes in Q7; rewrite BA6, BA7 in Q7; rewrite BA4 in Q3; apply no_harm_app in Q7 as (_ & Q7); apply no_harm_app in Q7 as (_ & Q7); apply no_harm_app in Q7 as (Q73 & Q74); apply fallthrough_harm in Q73; apply temp_use_harm in Q74; repeat (split; [assumption|]); assumption].
    unfold body_scope in Q2. destruct (add_parameters _ _ _) as [s0|] eqn:AP; [|discriminate]. cbn [obind] in Q2. rewrite BA3 in Q2. injection Q2 as ->.
    destruct (parameters_scope _ _ _ _ AP) as (P1 & P2 & P3 & P4 & _ & P6). cbn [with_context sc_symbols sc_function sc_this sc_references] in *.
    split; [congruence|]. split; [rewrite P2, BA1; reflexivity|]. split; [rewrite P3, BA2; reflexivity|]. split.
    + intros n v0 H. destruct (P4 _ _ H) as [K|(i & K1 & K2 & K3')]; [rewrite RF in K; discriminate|]. exists i. split; [exact K1|]. split; [exact K2|exact (E1 _ _ K3')].
    + intros i n I N. destruct (P6 _ I) as (m & N1 & N2). apply E1 in N1. assert (m = n) by congruence. subst m. cbn [sc_references]. destruct (am_find _ n) as [v0|]; [eauto|congruence].
Qed.
Lemma end_field i c v src : field_at syms st i c v src -> field_is ev syms q i c v src.
Proof.
  intros (d & x & D & V & (H1 & H2 & H3 & H4 & H5 & H6 & H7) & DE & B1 & B2). destruct (end_at _ _ D) as (d3 & d' & K3 & K' & D').
  assert (H4' : type_is syms q (fd_type src) (fi_type x)) by exact (type_earlier _ _ _ _ _ end_earlier H4). pose proof (end_earlier _ _ H1) as H1'.
  destruct K3 as [K3|x3 b n t I1 I2 V3 N T].
  - assert (d' = d) as -> by (destruct K' as [K'|x3 g co s pa pb I1 I2 V3 FB CP CQ]; [reflexivity|congruence]).
    exists d, x. split; [exact D'|]. split; [exact V|]. split; [repeat split; auto|]. destruct (fd_default src) as [e|]; [|exact DE]. destruct (B1 _ eq_refl) as (b & Ib & Eb). destruct (K3 _ Ib Eb).
  - assert (x3 = x) by congruence. subst x3.
    assert (d' = with_value d (DField (with_defaults x [{| pp_name := n; pp_value := t |}]))) as ->.
    { destruct K' as [K'|x3 g co s pa pb J1 J2 W FB CP CQ]; [reflexivity|cbn in W; discriminate]. }
    eexists _, _. split; [exact D'|]. split; [reflexivity|]. split; [repeat split; auto|]. destruct (B2 _ I1 I2) as (EC & ED). rewrite ED. exists n, t.
    rewrite EC in N. split; [exact (last_earlier _ _ N)|]. split; [exact (text_of_default _ _ _ T)|reflexivity].
Qed.
Lemma end_let i v src : let_now syms st i v src -> exists a n c w i' k, In a (dc_annotations (fd_decl src)) /\ an_kind a = AAddField /\ ann_ident a = Done n /\
  am_find syms n = Some (SClass c w) /\ get_class q c = Done k /\ In i' (cl_fields k) /\ field_is ev syms q i' c v src.
Proof.
  intros (a & n & c & w & k & A & B & C & D & E & F & G). exists a, n, c, w, i, k. do 4 (split; [assumption|]). split; [exact (end_class _ _ E)|]. split; [exact F|exact (end_field _ _ _ _ G)].
Qed.
Lemma end_enum lo i src : enum_now (us_pool st) lo i src -> enum_is q i src.
Proof.
  intros (d & e & A & B & C & D & E & F). exists d, e. split; [apply (end_plain _ _ A); intros x; congruence|]. do 3 (split; [assumption|]). apply (Forall2_weaken _ _ _ _ E).
  intros m j _ (c & X & Y & Z & W). exists c. split; [apply (end_plain _ _ X); intros x; congruence|]. split; [exact (end_earlier _ _ Y)|auto].
Qed.
Lemma end_shape mods lo i b v src : class_now (ev := ev) mods syms st lo i b v src -> class_is ev mods count syms q i b v src.
Proof.
  intros (d & k & fields & more & D & PA & V & VI & FL & BA & FU & FI & GI & OV). exists d, k, fields, more. split; [apply (end_plain _ _ D); intros x; congruence|].
  do 5 (split; [assumption|]). split; [|split; [exact FI|]; split; [|exact OV]].
  - apply (Forall2_weaken _ _ _ _ FU). intros f j _ (_ & X & N). split; [exact (end_function _ _ _ _ _ _ _ X)|exact (end_earlier _ _ N)].
  - apply (Forall2_weaken _ _ _ _ GI). intros f j _ (_ & X). exact (end_field _ _ _ _ X).
Qed.
Lemma end_overrides p c sig base : overrides p (us_pool st) c sig base -> overrides p q c sig base.
Proof.
  intros (k & K & H). exists k. split; [exact K|]. destruct base as [f|]; [|exact H]. destruct H as (b & B & I & N). exists b. split; [exact (end_class _ _ B)|]. split; [exact I|exact (end_earlier _ _ N)].
Qed.
End End.
