(* C67 in binary64: the axes of all four charts. *)
From Coq Require Import List NArith ZArith Bool Arith Lia Reals Lra Sorting.Sorted Psatz.
From Flocq Require Import Core BinarySingleNaN.
Require Import Verif.Base Verif.Num Verif.F64 Verif.XReal Verif.LinAlg Verif.Mode Verif.Weights Verif.Options
  Verif.Params Verif.Env Verif.State Verif.Sampling Verif.History Verif.Termination Verif.Plot Verif.Draw Verif.Cmaes Verif.Lib Verif.Order
  Verif.NextInv Verif.Spec Verif.LogLemmas Verif.TraceLemmas Verif.BuildLemmas Verif.PanicLemmas Verif.NextSafe
  Verif.CastLemmas Verif.TermSpec Verif.TermLemmas Verif.Sort Verif.F64Lemmas Verif.CeilLemmas Verif.XRound Verif.XLe Verif.F64Acc
  Verif.Toy Verif.ToyLemmas Verif.PlotLemmas Verif.DrawLemmas Verif.DrawAxis Verif.PropPlot Verif.PropShape Verif.PropDraw Verif.F64Weights Verif.F64Rates Verif.PropFloatParams Verif.DrawFloat.
Import ListNotations.
Open Scope nat_scope.

(* What the recorded numbers must be. The best and median values, the step sizes and the axis ratios may be NaN or
   infinite as long as one of them is a finite number; the square roots of the eigenvalues and the scales may be infinite but
   not NaN, as long as one of them is finite; the means are finite and not all one and the same negative or tiny number. *)
Record plain64 (d : plot_data f64) : Prop := {
  pf_value : exists v, fin64 v /\ (In v (pd_best d) \/ In v (pd_median d) \/ In v (pd_sigma d) \/ In v (pd_axis_ratio d));
  pf_mean : Forall (Forall fin64) (pd_mean d);
  pf_spread : f64_spread (concat (pd_mean d));
  pf_eigen : Forall (Forall num64) (pd_sqrt_eigenvalues d) /\ exists l v, In l (pd_sqrt_eigenvalues d) /\ In v l /\ fin64 v;
  pf_scales : Forall (Forall num64) (pd_coord_scales d) /\ exists l v, In l (pd_coord_scales d) /\ In v l /\ fin64 v
}.

Lemma in_concat2 : forall {A} (P : A -> Prop) (l : list (list A)), Forall (Forall P) l -> Forall P (concat l).
Proof.
  intros A P l H. apply Forall_forall. intros v Hv. apply in_concat in Hv. destruct Hv as [x [H1 H2]].
  rewrite Forall_forall in H. specialize (H x H1). rewrite Forall_forall in H. apply H. exact H2.
Qed.
Lemma fin_concat : forall l : list (list f64), (exists x v, In x l /\ In v x /\ fin64 v) -> exists v, In v (concat l) /\ fin64 v.
Proof. intros l [x [v [H1 [H2 H3]]]]. exists v. split; [apply in_concat; exists x; auto|exact H3]. Qed.

Section Float.
  Context {LT : Libm f64} {DT : DrawLib f64} {E : Env f64}.
  Hypothesis Heig : eigen_shape (T := f64).
  Hypothesis Hexp : forall x : f64, nltb (lm_exp x) n0 = false.
  Hypothesis HR : rough_log LT DT.
  Context {F : Type} (ev : F -> vec f64 -> outcome (f64 * F)).

  (* the numbers of a recorded moment are sums of the offset and of numbers that are not negative *)
  Record shot_ok64 (x : shot f64) : Prop := {
    s6_best : exists y, sh_best x = apply_offset y;
    s6_median : exists y, sh_median x = apply_offset y;
    s6_sigma : exists y, sh_sigma x = apply_offset y /\ not_neg64 y;
    s6_ratio : exists y, sh_axis_ratio x = apply_offset y /\ not_neg64 y;
    s6_eigen : Forall (fun v => exists y, v = apply_offset y /\ not_neg64 y) (sh_eigen x);
    s6_scales : Forall (fun v => exists y, v = apply_offset y /\ not_neg64 y) (sh_scales x)
  }.
  Lemma not_below_1 : forall x : f64, nltb x n1 = false -> not_neg64 x.
  Proof.
    intros x H. unfold not_neg64. rewrite f2x_ltb in *. change (f2x n0) with (XFin 0).
    pose proof is1 as I1. unfold is in I1. rewrite I1 in H. destruct (f2x x) as [|[]|r]; cbn in *; auto. apply Rltb_false. apply Rltb_false in H. lra.
  Qed.
  Lemma reached_ok64 : forall o f (c : cmaes f64 F), reaches ev o f c -> shot_ok64 (shot_of c).
  Proof.
    intros o f c Hr. pose proof (C72_sigma ev Hexp o f c Hr) as Hs. pose proof (C72_axis_ratio ev o f c Hr) as Ha. pose proof (reaches_scaled ev o f c Hr) as Hd.
    constructor; unfold shot_of, shot_at; cbn [sh_best sh_median sh_sigma sh_axis_ratio sh_eigen sh_scales]; eauto.
    - eexists. split; [reflexivity|]. apply not_below_1. exact Ha.
    - apply Forall_forall. intros v Hv. apply in_map_iff in Hv. destruct Hv as [y [<- Hy]]. exists y. split; [reflexivity|].
      apply (Permutation.Permutation_in _ (Permutation.Permutation_sym (sort_by_perm _ _))) in Hy. unfold scaled in Hd. rewrite Forall_forall in Hd.
      apply scale_like_not_neg. apply Hd. exact Hy.
    - apply Forall_forall. intros v Hv. apply in_map_iff in Hv. destruct Hv as [y [<- Hy]]. exists (nsqrt y). split; [reflexivity|]. apply sqrt_not_neg64.
  Qed.
  Lemma moments_ok64 : forall o f c p l, recorded ev o f c p l -> Forall (fun m => shot_ok64 (snd m)) l.
  Proof.
    intros o f c p l Hl. eapply Forall_impl; [|apply (rd_moments _ _ _ _ _ _ Hl)]. intros m [c1 [M1 [_ [_ <-]]]].
    eapply reached_ok64. exact M1.
  Qed.
  Lemma moments_len64 : forall o f c p l, recorded ev o f c p l ->
    Forall (fun m => length (sh_eigen (snd m)) = dims o /\ length (sh_scales (snd m)) = dims o) l.
  Proof.
    intros o f c p l Hl. eapply Forall_impl; [|apply (rd_moments _ _ _ _ _ _ Hl)]. intros m [c1 [M1 [_ [_ <-]]]].
    pose proof (reaches_wf Heig ev _ _ _ M1) as W.
    pose proof (wf_st _ _ W) as S. unfold shot_of, shot_at. cbn [sh_eigen sh_scales]. rewrite !map_length, sort_by_len, !diagonal_length.
    split; [apply (ws_sqrt _ _ S)|apply (ws_cov _ _ S)].
  Qed.

  Lemma series_pos64 : forall n (g : shot f64 -> list f64) (l : list (shot f64)),
    Forall (fun x => length (g x) = n /\ Forall (fun v => exists y, v = apply_offset y /\ not_neg64 y) (g x)) l ->
    Forall (Forall num64) (series n (map g l)) -> Forall pos64 (concat (series n (map g l))).
  Proof.
    intros n g l H1 H2. apply in_concat2 in H2. apply Forall_forall. intros v Hv. rewrite Forall_forall in H2.
    pose proof (H2 v Hv) as Nv. apply series_concat in Hv. destruct Hv as [i [m [I1 [I2 Ev]]]].
    rewrite Forall_forall in H1. destruct (H1 m I2) as [G1 G2]. rewrite Forall_forall in G2.
    destruct (G2 v) as [y [Ey Hy]]; [rewrite Ev; apply nth_In; rewrite G1; exact I1|]. subst v. rewrite Ey in *. apply offset_pos64; assumption.
  Qed.

  Lemma values_pos64 : forall m n (d : plot_data f64) l, describes n d l -> Forall shot_ok64 l -> Forall pos64 (single_dimensioned_values m d).
  Proof.
    intros m n d l D Hok. apply Forall_forall. intros v Hv. unfold single_dimensioned_values in Hv.
    apply filter_In in Hv. destruct Hv as [Hv Hn]. unfold not_nan in Hn. apply negb_true_iff in Hn.
    rewrite Forall_forall in Hok.
    repeat (apply in_app_or in Hv; destruct Hv as [Hv|Hv]).
    - apply in_map_iff in Hv. destruct Hv as [b [<- Hb]]. rewrite (ds_best _ _ _ D) in Hb.
      apply in_map_iff in Hb. destruct Hb as [x [<- Hx]]. destruct (s6_best _ (Hok x Hx)) as [y E1]. rewrite E1 in *. apply abs_offset_pos64. exact Hn.
    - apply in_map_iff in Hv. destruct Hv as [b [<- Hb]]. rewrite (ds_median _ _ _ D) in Hb.
      apply in_map_iff in Hb. destruct Hb as [x [<- Hx]]. destruct (s6_median _ (Hok x Hx)) as [y E1]. rewrite E1 in *. apply abs_offset_pos64. exact Hn.
    - rewrite (ds_sigma _ _ _ D) in Hv.
      apply in_map_iff in Hv. destruct Hv as [x [<- Hx]]. destruct (s6_sigma _ (Hok x Hx)) as [y [E1 E2]]. rewrite E1 in *. apply offset_pos64; assumption.
    - rewrite (ds_axis _ _ _ D) in Hv.
      apply in_map_iff in Hv. destruct Hv as [x [<- Hx]]. destruct (s6_ratio _ (Hok x Hx)) as [y [E1 E2]]. rewrite E1 in *. apply offset_pos64; assumption.
    - destruct (overall_best m d) as [[i b]|]; [|destruct Hv].
      apply in_map_iff in Hv. destruct Hv as [[j w] [Ew Hv]]. cbn [snd] in Ew. subst w. apply filter_In in Hv. destruct Hv as [Hv _].
      apply in_combine_r in Hv. unfold dist_to_best in Hv. apply in_map_iff in Hv. destruct Hv as [a [<- Ha]].
      apply offset_pos64; [apply abs_not_neg64|exact Hn].
  Qed.
  Lemma values_fin64 : forall m (d : plot_data f64), plain64 d -> exists v, In v (single_dimensioned_values m d) /\ fin64 v.
  Proof.
    intros m d Hp. destruct (pf_value _ Hp) as [v [Fv Hv]].
    assert (K : forall w : f64, fin64 w -> In w (map nabs (pd_best d)) \/ In w (map nabs (pd_median d)) \/ In w (pd_sigma d) \/ In w (pd_axis_ratio d) ->
      In w (single_dimensioned_values m d)).
    { intros w Fw Hw. unfold single_dimensioned_values. apply filter_In. split; [rewrite !in_app_iff; tauto|]. destruct w; try discriminate Fw; reflexivity. }
    assert (Fa : fin64 (nabs v)) by (destruct v; try discriminate Fv; reflexivity).
    destruct Hv as [Hv|[Hv|[Hv|Hv]]].
    - exists (nabs v). split; [apply K; [exact Fa|left; apply in_map; exact Hv]|exact Fa].
    - exists (nabs v). split; [apply K; [exact Fa|right; left; apply in_map; exact Hv]|exact Fa].
    - exists v. split; [apply K; tauto|exact Fv].
    - exists v. split; [apply K; tauto|exact Fv].
  Qed.

  (* C67 in binary64. Only the refuted case (C67_refuted) and recorded numbers that are not finite are left out. *)
  Theorem C67_axes_float_partial : forall o f c p, reaches ev o f c -> c_plot c = Some p ->
    (function_evals c < 2 ^ 64)%N -> plain64 (pl_data p) ->
    exists im, build_plot p = Ret im /\ usable im.
  Proof.
    intros o f c p Hr Hp Hc Hd. destruct (C66_saves Heig ev _ _ _ _ Hr Hp) as [im Him]. exists im. split; [exact Him|].
    destruct (reaches_plot Heig ev _ _ _ _ Hr Hp) as [l Hl]. pose proof (rd_data _ _ _ _ _ _ Hl) as D.
    pose proof (moments_ok64 _ _ _ _ _ Hl) as Hok. pose proof (moments_len64 _ _ _ _ _ Hl) as Hlen.
    assert (Hs : StronglySorted N.le (pd_function_evals (pl_data p))).
    { rewrite (ds_evals _ _ _ D), map_map. apply (rd_evals _ _ _ _ _ _ Hl). }
    assert (Hb : Forall (fun n => (n < 2 ^ 64)%N) (pd_function_evals (pl_data p))).
    { rewrite (ds_evals _ _ _ D), map_map. apply Forall_map. eapply Forall_impl; [|apply (rd_le _ _ _ _ _ _ Hl)]. intros m [_ H].
      eapply N.le_lt_trans; [exact H|exact Hc]. }
    pose proof (build_plot_spans f64_abs_nan _ _ _ _ D Him) as [S1 [S2 [S3 S4]]]. cbv zeta in *.
    pose proof (spans_x _ _ _ _ S1 nofN_105 Hs Hb). pose proof (spans_x _ _ _ _ S2 nofN_105 Hs Hb).
    pose proof (spans_x _ _ _ _ S3 nofN_105 Hs Hb). pose proof (spans_x _ _ _ _ S4 nofN_105 Hs Hb).
    unfold usable, charts. repeat (apply Forall_cons; [split; [assumption|]|]); [| | | |constructor].
    - apply (spans_y _ _ _ _ S1). intros y. apply (f64_log_axis HR); [|apply values_fin64; exact Hd].
      eapply values_pos64; [exact D|]. apply Forall_map. exact Hok.
    - apply (spans_y _ _ _ _ S2). intros y. apply f64_linear_axis; [apply in_concat2; apply (pf_mean _ Hd)|apply (pf_spread _ Hd)].
    - apply (spans_y _ _ _ _ S3). intros y. apply (f64_log_axis HR); [|apply fin_concat; apply (pf_eigen _ Hd)]. rewrite (ds_eigen _ _ _ D). apply series_pos64.
      + apply Forall_map. apply Forall_forall. intros m Hm. rewrite Forall_forall in Hok, Hlen. split; [apply (Hlen m Hm)|apply (s6_eigen _ (Hok m Hm))].
      + rewrite <- (ds_eigen _ _ _ D). apply (pf_eigen _ Hd).
    - apply (spans_y _ _ _ _ S4). intros y. apply (f64_log_axis HR); [|apply fin_concat; apply (pf_scales _ Hd)]. rewrite (ds_scales _ _ _ D). apply series_pos64.
      + apply Forall_map. apply Forall_forall. intros m Hm. rewrite Forall_forall in Hok, Hlen. split; [apply (Hlen m Hm)|apply (s6_scales _ (Hok m Hm))].
      + rewrite <- (ds_scales _ _ _ D). apply (pf_scales _ Hd).
  Qed.
End Float.
Print Assumptions C67_axes_float_partial.

(* ---- a platform and a plot that meet the hypotheses: correctly rounded functions, and the plot of C44_case ---- *)
Open Scope R_scope.
Lemma nearest_fits : forall r, Rabs (rnd64 r) < bpow radix2 1024 -> is (nearest r) (rnd64 r).
Proof.
  intros r Hr. set (y := rnd64 r) in *. assert (Fy : generic_format radix2 fexp64 y) by (apply generic_format_round; [apply valid_fexp64|apply valid_rnd_N]).
  assert (Ey : F2R (Float radix2 (Ztrunc (scaled_mantissa radix2 fexp64 y)) (cexp radix2 fexp64 y)) = y) by (symmetry; exact Fy).
  pose proof (binary_normalize_correct 53 1024 f64_prec f64_emax mode_NE (Ztrunc (scaled_mantissa radix2 fexp64 y)) (cexp radix2 fexp64 y) false) as H. cbv zeta in H.
  rewrite Ey in H. change (round radix2 (SpecFloat.fexp 53 1024) (round_mode mode_NE) y) with (rnd64 y) in H. rewrite (rnd64_id y Fy) in H.
  rewrite Rlt_bool_true in H by exact Hr.
  destruct H as [H1 [H2 _]]. unfold is. unfold nearest. fold y. rewrite (f2x_finite _ H2), H1. reflexivity.
Qed.

Definition infinity : f64 := B754_infinity false.
Definition near_log10 (x : f64) : f64 := match x with B754_infinity false => infinity | _ => nearest (log10 (B2R x)) end.
Definition near_pow10 (y : f64) : f64 :=
  match y with B754_infinity false => infinity | _ => if Rle_dec (B2R y) 308 then nearest (pow10 (B2R y)) else infinity end.
Definition rough_libm : Libm f64 :=
  {| lm_ln := toy_ln; lm_exp := fun x => nabs (toy_exp x);
     lm_powf := fun b y => if neqb b (nofZ 10) then near_pow10 y else toy_powf b y |}.
Definition rough_draw : DrawLib f64 := {| lm_log10 := near_log10; lm_round := fun x => x |}.

Definition below_max : f64 := @B754_finite 53 1024 false 6755399441055744 971 eq_refl.
Lemma pow10_308 : pow10 308 <= B2R below_max.
Proof.
  assert (E1 : pow10 308 = IZR (10 ^ 308)).
  { unfold pow10. rewrite <- (exp_ln (IZR (10 ^ 308))) by (apply (IZR_lt 0); reflexivity). f_equal.
    change 308%Z with (Z.of_nat 308). rewrite <- pow_IZR. rewrite ln_pow by lra. rewrite INR_IZR_INZ. reflexivity. }
  assert (E2 : B2R below_max = IZR (6755399441055744 * 2 ^ 971)).
  { unfold below_max, B2R, F2R. cbn [Fnum Fexp cond_Zopp]. rewrite mult_IZR. f_equal. }
  rewrite E1, E2. apply IZR_le. vm_compute. discriminate.
Qed.
Lemma ln10_1 : 1 <= ln 10.
Proof. pose proof exp_le_3 as H. rewrite <- (ln_exp 1). left. apply ln_increasing; [apply exp_pos|lra]. Qed.
Lemma log10_bounds : forall x : f64, is_finite x = true -> 0 < B2R x -> Rabs (log10 (B2R x)) <= 512.
Proof.
  intros x Fx Px. pose proof (f64_pos_min x Fx Px) as H1. pose proof (abs_B2R_lt_emax 53 1024 x) as H2. apply Rabs_lt_inv in H2.
  pose proof (log10_le _ _ (bpow_gt_0 radix2 (-1074)) H1) as L1. pose proof (log10_le _ _ Px (Rlt_le _ _ (proj2 H2))) as L2. pose proof log10_max as L3.
  assert (L4 : -324 <= log10 (bpow radix2 (-1074))).
  { rewrite bpow_exp. unfold log10. rewrite ln_exp. change (IZR radix2) with 2. pose proof two93. pose proof ln10_pos.
    apply Rmult_le_reg_r with (ln 10); [assumption|]. replace (IZR (-1074) * ln 2 / ln 10 * ln 10) with (-1074 * ln 2) by (field; lra). lra. }
  apply Rabs_le. lra.
Qed.
Lemma exp_up : forall t, 0 < t -> 1 + t < exp t.
Proof. intros t H. apply exp_ineq1. lra. Qed.

Lemma rough_meets : rough_log rough_libm rough_draw.
Proof.
  assert (N10 : neqb (nofZ 10 : f64) (nofZ 10) = true) by (vm_compute; reflexivity).
  constructor; cbn [lm_log10 lm_powf rough_libm rough_draw]; try rewrite N10.
  - intros x Fx Px. pose proof (log10_bounds x Fx Px) as B. pose proof (rnd_rough _ B) as R1.
    exists (rnd64 (log10 (B2R x))). split.
    + replace (near_log10 x) with (nearest (log10 (B2R x))) by (destruct x as [s|[]| |s m e He]; try discriminate Fx; reflexivity).
      apply nearest_is. apply Rle_trans with (1 := B). change 512 with (bpow radix2 9). apply bpow_le. lia.
    + apply Rle_trans with (1 := R1). lra.
  - reflexivity.
  - intros y Fy Hy. exists (rnd64 (pow10 (B2R y))).
    assert (E1 : near_pow10 y = nearest (pow10 (B2R y))).
    { unfold near_pow10. destruct (Rle_dec (B2R y) 308) as [S|S]; [|exfalso; lra]. destruct y as [s|[]| |s m e He]; try discriminate Fy; reflexivity. }
    rewrite E1. set (r := B2R y) in *. clearbody r.
    assert (P : / 1606938044258990275541962092341162602522202993782792835301376 <= pow10 r).
    { apply Rle_trans with (pow10 (-22)); [|apply pow10_le; lra]. unfold pow10.
      replace (-22 * ln 10) with (- (INR 22 * ln 10)) by (rewrite INR_IZR_INZ; change (IZR (Z.of_nat 22)) with 22; lra).
      rewrite exp_Ropp, <- ln_pow, exp_ln by (try apply pow_lt; lra). rewrite pow_IZR. apply Rinv_le; [apply (IZR_lt 0); reflexivity|].
      apply IZR_le. vm_compute. discriminate. }
    destruct (near _ P) as [N1 N2]. pose proof (pow10_pos r) as Pr. pose proof ln10_1 as L10. split.
    + apply nearest_fits. assert (U : rnd64 (pow10 r) <= B2R below_max).
      { rewrite <- (rnd64_id (B2R below_max)) by apply generic_format_B2R. apply rnd64_le. apply Rle_trans with (2 := pow10_308). apply pow10_le. lra. }
      rewrite Rabs_pos_eq by nra. apply Rle_lt_trans with (1 := U). apply Rle_lt_trans with (Rabs (B2R below_max)); [apply Rle_abs|]. apply (abs_B2R_lt_emax 53 1024).
    + split.
      * apply Rle_trans with (2 := N1). replace (pow10 (r - / 20)) with (pow10 r * exp (- (/ 20 * ln 10))) by (unfold pow10; rewrite <- exp_plus; f_equal; ring).
        apply Rmult_le_compat_l; [lra|]. rewrite exp_Ropp. pose proof (exp_up (/ 20 * ln 10) ltac:(nra)) as X.
        apply Rle_trans with (/ (1 + / 20)); [apply Rinv_le; nra|]. lra.
      * apply Rle_trans with (1 := N2). replace (pow10 (r + / 20)) with (pow10 r * exp (/ 20 * ln 10)) by (unfold pow10; rewrite <- exp_plus; f_equal; ring).
        apply Rmult_le_compat_l; [lra|]. pose proof (exp_up (/ 20 * ln 10) ltac:(nra)) as X. nra.
  - intros y Fy Hy. replace (near_pow10 y) with infinity; [exact I|].
    unfold near_pow10. destruct (Rle_dec (B2R y) 308) as [S|S]; [exfalso; lra|]. destruct y as [s|[]| |s m e He]; reflexivity.
  - reflexivity.
Qed.

Definition c67_finite (d : plot_data f64) : bool :=
  existsb (@is_finite 53 1024) (pd_best d) && existsb (@is_finite 53 1024) (pd_median d) && forallb (@is_finite 53 1024) (pd_sigma d)
  && forallb (forallb (@is_finite 53 1024)) (pd_mean d) && existsb (fun v => nleb (lit 1 1) v) (concat (pd_mean d))
  && forallb (forallb (@is_finite 53 1024)) (pd_sqrt_eigenvalues d) && forallb (forallb (@is_finite 53 1024)) (pd_coord_scales d)
  && existsb (existsb (@is_finite 53 1024)) (pd_sqrt_eigenvalues d) && existsb (existsb (@is_finite 53 1024)) (pd_coord_scales d).
Lemma all_num : forall l : list (list f64), forallb (forallb (@is_finite 53 1024)) l = true -> Forall (Forall fin64) l /\ Forall (Forall num64) l.
Proof.
  intros l H. rewrite forallb_forall in H. split; apply Forall_forall; intros x Hx; apply Forall_forall; intros v Hv; specialize (H x Hx); rewrite forallb_forall in H;
    specialize (H v Hv); [exact H|]. destruct v; try discriminate H; reflexivity.
Qed.
Lemma some_fin : forall l : list (list f64), existsb (existsb (@is_finite 53 1024)) l = true -> exists x v, In x l /\ In v x /\ fin64 v.
Proof. intros l H. apply existsb_exists in H. destruct H as [x [Hx H]]. apply existsb_exists in H. destruct H as [v [Hv H]]. exists x, v. auto. Qed.
Lemma c67_finite_plain : forall d, c67_finite d = true -> plain64 d.
Proof.
  intros d H. unfold c67_finite in H. repeat (apply andb_prop in H; let K := fresh "K" in destruct H as [H K]).
  constructor.
  - apply existsb_exists in H. destruct H as [v [V1 V2]]. exists v. auto.
  - apply (all_num _ K4).
  - left. apply existsb_exists in K3. destruct K3 as [v [V1 V2]]. exists v. split; [exact V1|]. right.
    pose proof (in_concat2 _ _ (proj1 (all_num _ K4))) as Fv. rewrite Forall_forall in Fv. specialize (Fv v V1).
    rewrite f2x_leb in V2. rewrite (f2x_finite _ Fv) in V2.
    assert (E1 : f2x (lit 1 1) = XFin 1) by (rewrite f2x_finite by reflexivity; apply f_equal; vm_compute; lra).
    rewrite E1 in V2. apply Rle_trans with 1%R; [change 1%R with (bpow radix2 0); apply bpow_le; lia|].
    apply xle_leb in V2. exact V2.
  - split; [apply (all_num _ K2)|apply some_fin; exact K0].
  - split; [apply (all_num _ K1)|apply some_fin; exact K].
Qed.
Example C67_float_case : eigen_shape (T := f64) /\ (forall x : f64, nltb (lm_exp (Libm := rough_libm) x) n0 = false) /\ rough_log rough_libm rough_draw /\
  exists (c : cmaes f64 unit) p, reaches (LT := rough_libm) toy_sphere c44_options tt c /\ c_plot c = Some p /\ plot_len p = 4%nat /\
    (function_evals c < 2 ^ 64)%N /\ plain64 (pl_data p).
Proof.
  split; [exact toy_eigen_shape|]. split; [intros x; cbn [lm_exp rough_libm]; destruct (toy_exp x) as [s|s| |s m e He]; cbn; reflexivity|].
  split; [exact rough_meets|].
  destruct (holds_ex (after (LT := rough_libm) toy_sphere tt c44_options c44_ops)
    (fun c => (function_evals c <? 2 ^ 64)%N && match c_plot c with Some p => (plot_len p =? 4)%nat && c67_finite (pl_data p) | None => false end)) as [c [H1 H2]].
  { vm_compute. reflexivity. }
  apply after_reaches in H1. destruct H1 as [c0 [H0 H1]]. apply andb_prop in H2. destruct H2 as [Hc H2]. apply N.ltb_lt in Hc.
  destruct (c_plot c) as [p|] eqn:Ep; [|discriminate H2]. apply andb_prop in H2. destruct H2 as [H2 H3]. apply Nat.eqb_eq in H2.
  exists c, p. split; [exists c0, c44_ops; auto|]. split; [exact Ep|]. split; [exact H2|]. split; [exact Hc|]. apply c67_finite_plain. exact H3.
Qed.
