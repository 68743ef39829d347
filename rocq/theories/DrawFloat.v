(* The logarithmic axes in binary64, with a logarithm and a power function that are only roughly right. *)
From Coq Require Import List NArith ZArith Bool Reals Lra Lia Arith Psatz Sorting.Sorted.
From Flocq Require Import Core.
From Flocq Require Import IEEE754.BinarySingleNaN.
Require Import Verif.Base Verif.Num Verif.F64 Verif.XReal Verif.LinAlg Verif.Mode Verif.Weights Verif.Options Verif.Params Verif.Env
  Verif.State Verif.Sampling Verif.History Verif.Cmaes
  Verif.Termination Verif.Plot Verif.Draw Verif.Lib Verif.Order Verif.Sort Verif.F64Lemmas Verif.CastLemmas Verif.CeilLemmas
  Verif.XRound Verif.XLe Verif.F64Acc Verif.NextInv Verif.Spec Verif.LogLemmas Verif.TraceLemmas Verif.BuildLemmas Verif.PanicLemmas
  Verif.TermLemmas Verif.TermSpec Verif.PlotLemmas Verif.DrawLemmas Verif.DrawAxis Verif.PropShape.
Import ListNotations.
Open Scope R_scope.

Definition log10 (x : R) : R := ln x / ln 10.
Definition pow10 (y : R) : R := exp (y * ln 10).

Lemma ln10_pos : 0 < ln 10.
Proof. rewrite <- ln_1. apply ln_increasing; lra. Qed.
Lemma log10_le : forall a b, 0 < a -> a <= b -> log10 a <= log10 b.
Proof.
  intros a b Ha H. unfold log10, Rdiv. apply Rmult_le_compat_r; [left; apply Rinv_0_lt_compat, ln10_pos|].
  destruct (Req_dec a b) as [->|N]; [lra|]. left. apply ln_increasing; lra.
Qed.
Lemma pow10_le : forall a b, a <= b -> pow10 a <= pow10 b.
Proof.
  intros a b H. unfold pow10. destruct (Req_dec a b) as [->|N]; [lra|]. left. apply exp_increasing. apply Rmult_lt_compat_r; [apply ln10_pos|lra].
Qed.
Lemma pow10_lt : forall a b, a < b -> pow10 a < pow10 b.
Proof. intros a b H. unfold pow10. apply exp_increasing. apply Rmult_lt_compat_r; [apply ln10_pos|lra]. Qed.
Lemma pow10_log10 : forall x, 0 < x -> pow10 (log10 x) = x.
Proof. intros x H. unfold pow10, log10. replace (ln x / ln 10 * ln 10) with (ln x) by (field; apply Rgt_not_eq, ln10_pos). apply exp_ln. exact H. Qed.
Lemma log10_pow10 : forall y, log10 (pow10 y) = y.
Proof. intros y. unfold pow10, log10. rewrite ln_exp. field. apply Rgt_not_eq, ln10_pos. Qed.
Lemma pow10_pos : forall y, 0 < pow10 y.
Proof. intros. apply exp_pos. Qed.

Lemma two93 : 93 * ln 2 <= 28 * ln 10.
Proof.
  assert (H : 9903520314283042199192993792 <= 10000000000000000000000000000) by lra.
  assert (E1 : ln 9903520314283042199192993792 = 93 * ln 2).
  { replace 9903520314283042199192993792 with (2 ^ 93) by (rewrite pow_IZR; reflexivity). rewrite ln_pow by lra. f_equal. rewrite INR_IZR_INZ. reflexivity. }
  assert (E2 : ln 10000000000000000000000000000 = 28 * ln 10).
  { replace 10000000000000000000000000000 with (10 ^ 28) by (rewrite pow_IZR; reflexivity). rewrite ln_pow by lra. f_equal. rewrite INR_IZR_INZ. reflexivity. }
  rewrite <- E1, <- E2. left. apply ln_increasing; lra.
Qed.
(* the largest number is below 10^308.31 *)
Lemma log10_max : log10 (bpow radix2 1024) <= 30831 / 100.
Proof.
  rewrite bpow_exp. unfold log10. rewrite ln_exp. change (IZR radix2) with 2. pose proof two93. pose proof ln10_pos.
  apply Rmult_le_reg_r with (ln 10); [assumption|]. replace (IZR 1024 * ln 2 / ln 10 * ln 10) with (1024 * ln 2) by (field; lra). lra.
Qed.
Lemma log10_21 : log10 (/ 1000000000000000000000) = -21.
Proof.
  unfold log10. rewrite ln_Rinv by lra. replace 1000000000000000000000 with (10 ^ 21) by (rewrite pow_IZR; reflexivity).
  rewrite ln_pow by lra. rewrite INR_IZR_INZ. change (IZR (Z.of_nat 21)) with 21. field. apply Rgt_not_eq, ln10_pos.
Qed.

Lemma rnd_rough : forall x, Rabs x <= 512 -> Rabs (rnd64 x - x) <= / 200.
Proof.
  intros x H. destruct (Rle_dec (bpow radix2 (-1000)) (Rabs x)) as [B|B].
  - pose proof (rnd_err x B). lra.
  - assert (S : Rabs x <= bpow radix2 (-10)) by (apply Rle_trans with (bpow radix2 (-1000)); [lra|apply bpow_le; lia]).
    pose proof (rnd_abs x (-10) ltac:(lia) S) as R. change (bpow radix2 (-10)) with (/ 1024) in *.
    apply Rabs_le. apply Rabs_le_inv in S. apply Rabs_le_inv in R. lra.
Qed.

(* log10 is right to within 0.05 and powf(10, .) to within a factor of 10^0.05, as long as nothing overflows; beyond
   that powf must only be large enough. *)
Record rough_log {LT : Libm f64} {DT : DrawLib f64} : Prop := {
  rl_log : forall x : f64, is_finite x = true -> 0 < B2R x -> exists y, is (lm_log10 x) y /\ Rabs (y - log10 (B2R x)) <= / 20;
  rl_inf : f2x (lm_log10 (B754_infinity false : f64)) = XInf false;
  rl_pow : forall y : f64, is_finite y = true -> -22 <= B2R y <= 308 ->
    exists z, is (lm_powf (nofZ 10) y) z /\ pow10 (B2R y - / 20) <= z <= pow10 (B2R y + / 20);
  rl_pow_big : forall y : f64, is_finite y = true -> 308 < B2R y -> xle (XFin (pow10 (B2R y - / 20))) (f2x (lm_powf (nofZ 10) y));
  rl_pow_inf : f2x (lm_powf (nofZ 10) (B754_infinity false : f64)) = XInf false
}.
Arguments rough_log : clear implicits.

(* at least 10^-21, possibly infinite *)
Definition pos64 (v : f64) : Prop := xle (XFin (/ 1000000000000000000000)) (f2x v).
Definition fin64 (v : f64) : Prop := is_finite v = true.
Definition num64 (v : f64) : Prop := nis_nan v = false.

Lemma f2x_inj_inf : forall v : f64, f2x v = XInf false -> v = B754_infinity false.
Proof. intros [s|s| |s m e He] H; cbn in H; try discriminate H. destruct s; [discriminate H|reflexivity]. Qed.

Section Axis.
  Context {LT : Libm f64} {DT : DrawLib f64}.
  Hypothesis HR : rough_log LT DT.

  Lemma margin : exists q, is (nlit 4 10 : f64) q /\ 399 / 1000 <= q <= 401 / 1000.
  Proof. eexists. split; [vm_compute; reflexivity|]. unfold F2R; cbn. lra. Qed.

  Lemma log_range : forall a : f64, fin64 a -> / 1000000000000000000000 <= B2R a -> -21 <= log10 (B2R a) <= 30831 / 100.
  Proof.
    intros a Fa Ha. split.
    - rewrite <- log10_21. apply log10_le; [lra|exact Ha].
    - apply Rle_trans with (2 := log10_max). apply log10_le; [lra|]. pose proof (abs_B2R_lt_emax 53 1024 a) as H. apply Rabs_lt_inv in H. lra.
  Qed.

  Lemma log_start : forall a : f64, fin64 a -> / 1000000000000000000000 <= B2R a ->
    exists s, is (lm_powf (nofZ 10) (nsub (lm_log10 a) (nlit 4 10))) s /\ s < B2R a.
  Proof.
    intros a Fa Ha. destruct (log_range a Fa Ha) as [R1 R2]. destruct (rl_log HR a Fa ltac:(lra)) as [y [I1 D1]]. destruct margin as [q [Iq Hq]].
    apply Rabs_le_inv in D1. assert (B1 : Rabs (y - q) <= 512) by (apply Rabs_le; lra). pose proof (rnd_rough _ B1) as B2. apply Rabs_le_inv in B2.
    assert (I2 : is (nsub (lm_log10 a) (nlit 4 10)) (rnd64 (y - q))).
    { apply is_sub; auto. apply Rle_trans with (1 := B1). change 512 with (bpow radix2 9). apply bpow_le. lia. }
    apply is_B2R in I2. destruct I2 as [F2 E2].
    destruct (rl_pow HR _ F2) as [z [I3 H3]]; [rewrite E2; lra|]. exists z. split; [exact I3|].
    rewrite E2 in H3. apply Rle_lt_trans with (1 := proj2 H3). rewrite <- (pow10_log10 (B2R a)) by lra. apply pow10_lt. lra.
  Qed.
  Lemma log_end : forall a : f64, pos64 a -> xle (f2x a) (f2x (lm_powf (nofZ 10) (nadd (lm_log10 a) (nlit 4 10)))).
  Proof.
    intros a Ha. destruct margin as [q [Iq Hq]]. destruct (is_finite a) eqn:Fa.
    - unfold pos64 in Ha. rewrite (f2x_finite _ Fa) in Ha |- *. cbn [xle] in Ha. destruct (log_range a Fa Ha) as [R1 R2].
      destruct (rl_log HR a Fa ltac:(lra)) as [y [I1 D1]].
      apply Rabs_le_inv in D1. assert (B1 : Rabs (y + q) <= 512) by (apply Rabs_le; lra). pose proof (rnd_rough _ B1) as B2. apply Rabs_le_inv in B2.
      assert (I2 : is (nadd (lm_log10 a) (nlit 4 10)) (rnd64 (y + q))).
      { apply is_add; auto. apply Rle_trans with (1 := B1). change 512 with (bpow radix2 9). apply bpow_le. lia. }
      apply is_B2R in I2. destruct I2 as [F2 E2].
      assert (G : B2R a <= pow10 (rnd64 (y + q) - / 20)).
      { rewrite <- (pow10_log10 (B2R a)) at 1 by lra. apply pow10_le. lra. }
      destruct (Rle_dec (B2R (nadd (lm_log10 a) (nlit 4 10))) 308) as [S|S].
      + destruct (rl_pow HR _ F2) as [z [I3 H3]]; [rewrite E2 in *; lra|]. rewrite I3. cbn [xle]. rewrite E2 in H3. lra.
      + pose proof (rl_pow_big HR _ F2 ltac:(lra)) as K. eapply xle_trans; [|exact K]. cbn [xle]. rewrite E2. exact G.
    - assert (Ea : a = B754_infinity false).
      { apply f2x_inj_inf. unfold pos64 in Ha. destruct a as [s|s| |s m e He]; try discriminate Fa; cbn in Ha; try contradiction. destruct s; [contradiction|reflexivity]. }
      subst a. assert (E1 : nadd (lm_log10 (B754_infinity false : f64)) (nlit 4 10) = (B754_infinity false : f64)).
      { apply f2x_inj_inf. rewrite f2x_add, (rl_inf HR), Iq. reflexivity. }
      rewrite E1, (rl_pow_inf HR). exact I.
  Qed.

  Lemma f64_log_axis : forall l y, Forall pos64 l -> (exists v, In v l /\ fin64 v) -> get_log_y_axis l = Ret y ->
    nltb (ya_start y) (ya_end y) = true /\ Forall (fun v => nleb (ya_start y) v = true /\ nleb v (ya_end y) = true) l.
  Proof.
    intros l y Hf [w [Hw Fw]] H. unfold get_log_y_axis in H. oinv H. oinv H. apply Ret_inj in H. subst y. cbn [ya_start ya_end].
    assert (Hn : Forall (fun v : f64 => nis_nan v = false) l).
    { eapply Forall_impl; [|exact Hf]. intros v Hv. unfold pos64 in Hv. apply xle_nan in Hv. rewrite f2x_nan. apply Hv. }
    assert (G1 : min_by partial_cmp l = Some a) by (destruct (min_by partial_cmp l); cbn in Ho; [apply Ret_inj in Ho; congruence|discriminate]).
    assert (G2 : max_by partial_cmp l = Some a0) by (destruct (max_by partial_cmp l); cbn in Ho0; [apply Ret_inj in Ho0; congruence|discriminate]).
    apply (min_least _ _ Hn) in G1. apply (max_greatest _ _ Hn) in G2. destruct G1 as [I1 G1], G2 as [I2 G2].
    rewrite Forall_forall in Hf, Hn, G1, G2. clear Ho Ho0.
    assert (Hlt : forall u v : f64, In u l -> In v l -> nltb u v = false -> xle (f2x v) (f2x u)).
    { intros u v Hu Hv Hl. specialize (Hn u Hu) as Nu. specialize (Hn v Hv) as Nv. rewrite f2x_ltb in Hl. rewrite f2x_nan in Nu, Nv.
      destruct (f2x u) as [|[]|r], (f2x v) as [|[]|s]; cbn in *; try discriminate; auto. apply Rltb_false in Hl. lra. }
    assert (Hlo : forall v, In v l -> xle (f2x a) (f2x v)) by (intros v Hv; apply Hlt; auto).
    assert (Hhi : forall v, In v l -> xle (f2x v) (f2x a0)) by (intros v Hv; apply Hlt; auto).
    assert (Fa : fin64 a).
    { pose proof (Hlo w Hw) as K. rewrite (f2x_finite _ Fw) in K. pose proof (Hf a I1) as P. unfold pos64 in P.
      destruct a as [s|s| |s m e He]; try reflexivity; cbn in K, P; try contradiction. destruct s; contradiction. }
    assert (Pa : / 1000000000000000000000 <= B2R a) by (pose proof (Hf a I1) as P; unfold pos64 in P; rewrite (f2x_finite _ Fa) in P; exact P).
    destruct (log_start a Fa Pa) as [s [Is Hs]]. pose proof (log_end a0 (Hf a0 I2)) as He.
    set (st := lm_powf (nofZ 10) (nsub (lm_log10 a) (nlit 4 10))) in *. set (en := lm_powf (nofZ 10) (nadd (lm_log10 a0) (nlit 4 10))) in *. clearbody st en.
    assert (Hin : forall v, In v l -> xle (f2x v) (f2x en)).
    { intros v Hv. eapply xle_trans; [apply Hhi; exact Hv|exact He]. }
    split.
    - pose proof (Hin a I1) as K. rewrite f2x_ltb, Is. rewrite (f2x_finite _ Fa) in K.
      clear - K Hs. destruct (f2x en) as [|[]|r]; cbn in *; try contradiction; auto. apply Rltb_true. lra.
    - apply Forall_forall. intros v Hv. rewrite !f64_xle. split; [|apply Hin; exact Hv]. eapply xle_trans; [|apply Hlo; exact Hv].
      rewrite Is, (f2x_finite _ Fa). cbn [xle]. lra.
  Qed.
End Axis.

(* ---- the numbers that are plotted ---- *)
Lemma offset64 : exists o, is plot_offset o /\ / 1000000000000000000000 <= o /\ xround (XFin o) = XFin o /\ xround (XFin (- o)) = XFin (- o).
Proof.
  assert (H : exists o, is plot_offset o /\ / 1000000000000000000000 <= o).
  { eexists. split; [vm_compute; reflexivity|]. unfold F2R; cbn. lra. }
  destruct H as [o [Io Ho]]. exists o. split; [exact Io|]. split; [exact Ho|].
  pose proof (xround_f2x plot_offset) as R1. unfold is in Io. rewrite Io in R1. split; [exact R1|].
  pose proof (xround_f2x (nneg plot_offset)) as R2. rewrite f2x_neg, Io in R2. exact R2.
Qed.

Definition not_neg64 (v : f64) : Prop := nltb v n0 = false.
Lemma offset_pos64 : forall y, not_neg64 y -> nis_nan (apply_offset y) = false -> pos64 (apply_offset y).
Proof.
  intros y Hy Hn. rewrite f64_offset_nan in Hn. destruct offset64 as [o [Io [Ho [R1 R2]]]]. unfold is in Io.
  unfold not_neg64 in Hy. rewrite f2x_ltb in Hy. change (f2x n0) with (XFin 0) in Hy. rewrite f2x_nan in Hn.
  unfold pos64, apply_offset. unfold ngeb. rewrite f2x_leb. change (f2x n0) with (XFin 0).
  assert (H0 : xle (XFin 0) (f2x y)).
  { destruct (f2x y) as [|[]|r]; cbn in Hy, Hn |- *; try discriminate; auto. apply Rltb_false in Hy. lra. }
  rewrite (proj2 (xle_leb _ _) H0). rewrite f2x_add, Io. apply xle_trans with (XFin o); [exact Ho|]. rewrite <- R1 at 1. apply xround_le.
  destruct (f2x y) as [|[]|r]; cbn in *; try contradiction; auto. lra.
Qed.
Lemma abs_offset_pos64 : forall y, nis_nan (nabs (apply_offset y)) = false -> pos64 (nabs (apply_offset y)).
Proof.
  intros y Hn. rewrite f64_abs_nan, f64_offset_nan in Hn. destruct (nltb y n0) eqn:Ey.
  - destruct offset64 as [o [Io [Ho [R1 R2]]]]. unfold is in Io. rewrite f2x_ltb in Ey. change (f2x n0) with (XFin 0) in Ey.
    unfold pos64. rewrite f2x_abs. unfold apply_offset. unfold ngeb. rewrite f2x_leb. change (f2x n0) with (XFin 0).
    assert (H0 : x_leb (XFin 0) (f2x y) = false).
    { destruct (x_leb (XFin 0) (f2x y)) eqn:E0; [|reflexivity]. apply xle_leb in E0. destruct (f2x y) as [|[]|r]; cbn in *; try contradiction; try discriminate. apply Rltb_true in Ey. lra. }
    rewrite H0, f2x_sub, Io.
    assert (K : xle (xround (x_sub (f2x y) (XFin o))) (XFin (- o))).
    { rewrite <- R2. apply xround_le. destruct (f2x y) as [|[]|r]; cbn in Ey |- *; try discriminate; auto. apply Rltb_true in Ey. lra. }
    destruct (xround (x_sub (f2x y) (XFin o))) as [|[]|r]; cbn in K |- *; try contradiction; auto. rewrite Rabs_left; lra.
  - assert (P : pos64 (apply_offset y)) by (apply offset_pos64; [exact Ey|rewrite f64_offset_nan; exact Hn]).
    unfold pos64 in *. rewrite f2x_abs. destruct (f2x (apply_offset y)) as [|[]|r]; cbn in *; try contradiction; auto. rewrite Rabs_pos_eq; lra.
Qed.
Lemma abs_not_neg64 : forall x : f64, not_neg64 (nabs x).
Proof.
  intros x. unfold not_neg64. rewrite f2x_ltb, f2x_abs. change (f2x n0) with (XFin 0). destruct (f2x x) as [|[]|r]; cbn; auto. apply Rltb_false. apply Rabs_pos.
Qed.
Lemma sqrt_not_neg64 : forall x : f64, not_neg64 (nsqrt x).
Proof.
  intros x. unfold not_neg64. rewrite f2x_ltb. change (f2x n0) with (XFin 0).
  destruct x as [s|s| |s m e He]; [cbn; apply Rltb_false; lra|destruct s; reflexivity|reflexivity|]. destruct s; [reflexivity|].
  assert (Hm : 0 <= B2R (B754_finite false m e He : f64)) by (apply sign_pos; reflexivity).
  assert (I1 : is (B754_finite false m e He : f64) (B2R (B754_finite false m e He : f64))) by (apply f2x_finite; reflexivity).
  pose proof (is_sqrt _ _ I1 Hm) as K. unfold is in K. rewrite K. cbn [x_ltb]. apply Rltb_false. rewrite <- rnd64_0. apply rnd64_le, sqrt_pos.
Qed.
Lemma scale_like_not_neg : forall d : f64, scale_like d -> not_neg64 d.
Proof.
  intros d [H|H]; unfold not_neg64; rewrite f2x_ltb; change (f2x n0) with (XFin 0).
  - rewrite f2x_nan in H. destruct (f2x d); try discriminate H. reflexivity.
  - destruct (f2x d) as [|[]|r]; unfold xle in H; try contradiction; auto. cbn [x_ltb]. apply Rltb_false.
    assert (P : 0 < bpow radix2 (-537)) by apply bpow_gt_0. generalize dependent (bpow radix2 (-537)). intros. lra.
Qed.
