(* Recombination weights and learning rates in exact arithmetic: the values the model computes, as real numbers. *)
From Coq Require Import List NArith ZArith Bool Reals Lra Lia Arith.
Require Import Verif.Base Verif.Num Verif.XReal Verif.LinAlg Verif.Mode Verif.Weights Verif.Options Verif.Params Verif.RSum.
Import ListNotations.
Open Scope nat_scope.

Lemma powi_2 : forall a, powi (XFin a) 2 = XFin (a * a).
Proof. intros a. cbn. f_equal. lra. Qed.
Lemma fin_div : forall a b, b <> 0%R -> ndiv (XFin a) (XFin b) = XFin (a / b).
Proof. intros a b H. cbn. rewrite Reqb_false by exact H. reflexivity. Qed.
Lemma fin_lit : forall p q, (q <> 0)%Z -> nlit p q = XFin (IZR p / IZR q).
Proof. intros p q H. unfold nlit. cbn. rewrite Reqb_false; [reflexivity|]. apply not_0_IZR. exact H. Qed.
Lemma fin_N : forall n, nofN n = XFin (INR (N.to_nat n)).
Proof. intros n. unfold nofN. cbn. rewrite INR_IZR_INZ. f_equal. f_equal. lia. Qed.

Lemma fv_app : forall n v x, fv n v x -> forall k, k <= n -> fv k (firstn k v) x /\ fv (n - k) (skipn k v) (fun i => x (k + i)).
Proof.
  intros n v x [L V] k Hk. split; (split; [rewrite ?firstn_length, ?skipn_length; lia|]); intros i Hi.
  - rewrite <- (V i) by lia. rewrite <- (firstn_skipn k v) at 2. rewrite app_nth1; [reflexivity|]. rewrite firstn_length. lia.
  - rewrite <- (V (k + i)) by lia. rewrite <- (firstn_skipn k v) at 2. rewrite app_nth2; rewrite firstn_length; [|lia]. f_equal. lia.
Qed.
Lemma nsum_filter : forall n l f (p : xreal -> bool), fv n l f ->
  nsum (filter p l) = XFin (Sig n (fun i => if p (XFin (f i)) then f i else 0%R)).
Proof.
  unfold nsum. intros n l. revert n. induction l as [|a l IH] using rev_ind; intros n f p [L V].
  - cbn in L. subst n. reflexivity.
  - rewrite app_length in L. cbn in L. destruct n as [|n]; [lia|]. assert (HL : length l = n) by lia.
    rewrite filter_app, fold_left_app, (IH n f).
    + specialize (V n ltac:(lia)). rewrite app_nth2 in V by lia. rewrite HL, Nat.sub_diag in V. cbn in V. subst a. cbn [filter Sig].
      destruct (p (XFin (f n))); cbn; f_equal; lra.
    + split; [exact HL|]. intros i Hi. specialize (V i ltac:(lia)). rewrite app_nth1 in V by lia. exact V.
Qed.

(* ---- the weights before normalisation ---- *)
Definition half (l : N) : nat := N.to_nat (l / 2).
Definition rawR (l : N) (i : nat) : R := (ln ((INR (N.to_nat l) + 1) / 2) - ln (INR (i + 1)))%R.
Definition base (s : weights_setting) (l : N) (i : nat) : R := match s with WUniform => 1%R | _ => rawR l i end.
Definition count (s : weights_setting) (l : N) : nat := match s with WNegative => N.to_nat l | _ => half l end.

Lemma half_bounds : forall l, (2 <= l)%N -> 1 <= half l /\ (2 * half l = N.to_nat l \/ 2 * half l + 1 = N.to_nat l).
Proof.
  intros l H. unfold half. pose proof (N.div_mod l 2 ltac:(discriminate)) as D. pose proof (N.mod_lt l 2 ltac:(discriminate)) as M.
  generalize dependent (l / 2)%N. generalize dependent (l mod 2)%N. intros. lia.
Qed.
Lemma ln_lt : forall a b, (0 < a)%R -> (a < b)%R -> (ln a < ln b)%R.
Proof. intros. apply ln_increasing; auto. Qed.
Lemma INR_ge1 : forall i, (1 <= INR (i + 1))%R.
Proof. intros i. rewrite plus_INR. cbn. pose proof (pos_INR i). lra. Qed.
Lemma rawR_pos : forall l i, i < half l -> (0 < rawR l i)%R.
Proof.
  intros l i H. unfold rawR. assert (2 * (i + 1) <= N.to_nat l).
  { unfold half in H. pose proof (N.mul_div_le l 2 ltac:(discriminate)). generalize dependent (l / 2)%N. intros. lia. }
  apply le_INR in H0. rewrite mult_INR in H0. cbn [INR] in H0. pose proof (INR_ge1 i).
  pose proof (ln_lt (INR (i + 1)) ((INR (N.to_nat l) + 1) / 2) ltac:(lra) ltac:(lra)). lra.
Qed.
Lemma rawR_nonpos : forall l i, half l <= i -> (rawR l i <= 0)%R.
Proof.
  intros l i H. unfold rawR. assert (N.to_nat l + 1 <= 2 * (i + 1)).
  { unfold half in H. pose proof (N.div_mod l 2 ltac:(discriminate)). pose proof (N.mod_lt l 2 ltac:(discriminate)).
    generalize dependent (l / 2)%N. generalize dependent (l mod 2)%N. intros. lia. }
  apply le_INR in H0. rewrite mult_INR, plus_INR in H0. cbn [INR] in H0. pose proof (pos_INR (N.to_nat l)).
  destruct (Rle_lt_or_eq_dec ((INR (N.to_nat l) + 1) / 2) (INR (i + 1)) ltac:(lra)) as [Lt|Eq].
  - pose proof (ln_lt ((INR (N.to_nat l) + 1) / 2) (INR (i + 1)) ltac:(lra) Lt). lra.
  - rewrite Eq. lra.
Qed.
Lemma rawR_last : forall l, (2 <= l)%N -> (rawR l (N.to_nat l - 1) < 0)%R.
Proof.
  intros l H. unfold rawR. replace (N.to_nat l - 1 + 1) with (N.to_nat l) by lia. assert (2 <= N.to_nat l) by lia. apply le_INR in H0. cbn in H0.
  pose proof (ln_lt ((INR (N.to_nat l) + 1) / 2) (INR (N.to_nat l)) ltac:(lra) ltac:(lra)). lra.
Qed.
Lemma rawR_decreasing : forall l i j, i < j -> (rawR l j < rawR l i)%R.
Proof.
  intros l i j H. unfold rawR. pose proof (INR_ge1 i). assert (i + 1 < j + 1) by lia. apply lt_INR in H1.
  pose proof (ln_lt (INR (i + 1)) (INR (j + 1)) ltac:(lra) H1). lra.
Qed.
Lemma base_pos : forall s l i, i < half l -> (0 < base s l i)%R.
Proof. intros [] l i H; cbn; try lra; apply rawR_pos; exact H. Qed.
Lemma base_decreasing : forall s l i j, i <= j -> (base s l j <= base s l i)%R.
Proof.
  intros s l i j H. destruct (Nat.eq_dec i j) as [-> |N]; [lra|]. destruct s; cbn; try lra; left; apply rawR_decreasing; lia.
Qed.
Lemma half_le : forall l, half l <= N.to_nat l.
Proof. intros l. unfold half. pose proof (N.mul_div_le l 2 ltac:(discriminate)). generalize dependent (l / 2)%N. intros. lia. Qed.
Lemma count_half : forall s l, half l <= count s l.
Proof. intros [] l; cbn; try lia. apply half_le. Qed.

Lemma raw_weight_fin : forall l i, (1 <= i)%N -> raw_weight l i = XFin (rawR l (N.to_nat i - 1)).
Proof.
  intros l i H. unfold raw_weight. rewrite !fin_N. pose proof (pos_INR (N.to_nat l)). cbn. rewrite Reqb_false by lra.
  assert (0 < INR (N.to_nat i))%R by (apply lt_0_INR; lia). cbn. rewrite (Rltb_true 0 ((INR (N.to_nat l) + 1) / 2)) by lra. rewrite (Rltb_true 0 (INR (N.to_nat i))) by lra. cbn.
  unfold rawR. replace (N.to_nat i - 1 + 1) with (N.to_nat i) by lia. f_equal.
Qed.
Lemma one_to_map : forall l n, fv (N.to_nat n) (map (raw_weight l) (one_to n)) (rawR l).
Proof.
  intros l n. unfold one_to. rewrite map_map. split; [rewrite map_length; apply seq_length|]. intros i Hi.
  rewrite (nth_indep _ n0 (raw_weight l (N.of_nat 0))) by (rewrite map_length, seq_length; exact Hi).
  rewrite (map_nth (fun x => raw_weight l (N.of_nat x))), seq_nth by exact Hi. rewrite raw_weight_fin by lia. f_equal. f_equal. lia.
Qed.
Lemma weights_fin : forall s l, fv (count s l) (iw_weights (iw_new l s)) (base s l).
Proof.
  intros s l. destruct s; cbn [iw_new iw_weights count base].
  - apply one_to_map.
  - apply one_to_map.
  - split; [apply repeat_length|]. intros i Hi. rewrite (nth_indep _ n0 n1) by (rewrite repeat_length; exact Hi). apply nth_repeat.
Qed.

(* ---- variance effective selection mass ---- *)
Definition mass (n : nat) (f : nat -> R) : R := (Sig n f * Sig n f / Sig n (fun i => (f i * f i)%R))%R.
Definition meff (s : weights_setting) (l : N) : R := mass (half l) (base s l).
Definition meff_minus (l : N) : R := mass (N.to_nat l - half l) (fun i => rawR l (half l + i)).

Lemma mu_eff_fin : forall s l, (2 <= l)%N -> iw_mu_eff (iw_new l s) = XFin (meff s l).
Proof.
  intros s l H. unfold iw_mu_eff. cbn [iw_mu iw_new]. destruct (fv_app _ _ _ (weights_fin s l) (half l) (count_half s l)) as [F _].
  change (N.to_nat (l / 2)) with (half l). rewrite (nsum_fv _ _ _ F). rewrite (nsum_fv (half l) _ (fun i => (base s l i * base s l i)%R)).
  - rewrite powi_2. rewrite fin_div; [reflexivity|]. destruct (half_bounds l H) as [Hh _]. apply Rgt_not_eq. apply (Sig_pos _ _ 0); [|lia|].
    + intros. apply Rle_0_sqr.
    + pose proof (base_pos s l 0 ltac:(lia)). nra.
  - eapply fv_map; [exact F|]. intros. apply powi_2.
Qed.
Lemma sum_sq_le : forall n f, (forall i, i < n -> (0 <= f i)%R) -> (Sig n (fun i => (f i * f i)%R) <= Sig n f * Sig n f)%R.
Proof.
  induction n; intros f H; cbn; [lra|]. pose proof (IHn f ltac:(intros; apply H; lia)). pose proof (Sig_nonneg n f ltac:(intros; apply H; lia)).
  pose proof (H n ltac:(lia)). nra.
Qed.
Lemma meff_bounds : forall s l, (2 <= l)%N -> (1 <= meff s l <= INR (half l))%R.
Proof.
  intros s l H. destruct (half_bounds l H) as [Hh _]. unfold meff, mass.
  assert (P : (0 < Sig (half l) (fun i => (base s l i * base s l i)%R))%R).
  { apply (Sig_pos _ _ 0); [intros; apply Rle_0_sqr|lia|]. pose proof (base_pos s l 0 ltac:(lia)). nra. }
  split.
  - apply Rmult_le_reg_r with (1 := P). rewrite Rmult_1_l. unfold Rdiv. rewrite Rmult_assoc, Rinv_l, Rmult_1_r by lra.
    apply sum_sq_le. intros i Hi. left. apply base_pos. exact Hi.
  - apply Rmult_le_reg_r with (1 := P). unfold Rdiv. rewrite Rmult_assoc, Rinv_l, Rmult_1_r by lra.
    pose proof (Sig_cauchy (half l) (fun _ => 1%R) (base s l)) as C. unfold Rsqr in C. rewrite !Sig_mul_l, Sig_const in C. rewrite !Rmult_1_l, ?Rmult_1_r in C. exact C.
Qed.
Lemma rest_square : forall l, (2 <= l)%N -> (0 < Sig (N.to_nat l - half l) (fun i => (rawR l (half l + i) * rawR l (half l + i))%R))%R.
Proof.
  intros l H. destruct (half_bounds l H) as [Hh Hb]. apply (Sig_pos _ _ (N.to_nat l - half l - 1)); [intros; apply Rle_0_sqr|lia|].
  replace (half l + (N.to_nat l - half l - 1)) with (N.to_nat l - 1) by lia. pose proof (rawR_last l H). nra.
Qed.
Lemma mu_eff_minus_fin : forall s l, (2 <= l)%N ->
  iw_mu_eff_minus (iw_new l s) = match s with WNegative => Some (XFin (meff_minus l)) | _ => None end.
Proof.
  intros s l H. destruct (half_bounds l H) as [Hh Hb]. unfold iw_mu_eff_minus. pose proof (weights_fin s l) as W. assert (L : length (iw_weights (iw_new l s)) = count s l) by apply W.
  rewrite L. cbn [iw_mu iw_new]. destruct s; cbn [count].
  - replace (l / 2 <? N.of_nat (half l))%N with false; [reflexivity|]. symmetry. apply N.ltb_ge. unfold half. lia.
  - replace (l / 2 <? N.of_nat (N.to_nat l))%N with true; [|symmetry; apply N.ltb_lt; unfold half in *; lia].
    destruct (fv_app _ _ _ W (half l) (count_half WNegative l)) as [_ F]. cbn [count base] in F. change (N.to_nat (l / 2)) with (half l).
    rewrite (nsum_fv _ _ _ F). rewrite (nsum_fv (N.to_nat l - half l) _ (fun i => (rawR l (half l + i) * rawR l (half l + i))%R)).
    + rewrite powi_2, fin_div; [reflexivity|]. apply Rgt_not_eq. apply rest_square. exact H.
    + eapply fv_map; [exact F|]. intros. apply powi_2.
  - replace (l / 2 <? N.of_nat (half l))%N with false; [reflexivity|]. symmetry. apply N.ltb_ge. unfold half. lia.
Qed.
Lemma meff_minus_pos : forall l, (2 <= l)%N -> (0 < meff_minus l)%R.
Proof.
  intros l H. unfold meff_minus, mass. pose proof (rest_square l H). destruct (half_bounds l H) as [Hh Hb].
  assert (N : (Sig (N.to_nat l - half l) (fun i => rawR l (half l + i)) < 0)%R).
  { pose proof (Sig_pos (N.to_nat l - half l) (fun i => (- rawR l (half l + i))%R) (N.to_nat l - half l - 1)) as P.
    rewrite (Sig_ext _ (fun i => (- rawR l (half l + i))%R) (fun i => (-1 * rawR l (half l + i))%R)) in P by (intros; lra). rewrite Sig_mul_l in P.
    assert (0 < -1 * Sig (N.to_nat l - half l) (fun i => rawR l (half l + i)))%R; [|lra]. apply P; [|lia|].
    - intros i Hi. pose proof (rawR_nonpos l (half l + i) ltac:(lia)). lra.
    - replace (half l + (N.to_nat l - half l - 1)) with (N.to_nat l - 1) by lia. pose proof (rawR_last l H). lra. }
  apply Rmult_lt_0_compat; [nra|]. apply Rinv_0_lt_compat. exact H0.
Qed.

(* ---- learning rates; n is the dimension, m the selection mass ---- *)
Definition ccR (n m : R) : R := ((4 + m / n) / (n + 4 + 2 * m / n))%R.
Definition c1R (n m : R) : R := (2 / ((n + 13 / 10) * (n + 13 / 10) + m))%R.
Definition cmu0R (n m : R) : R := (2 * (m - 2 + 1 / m) / ((n + 2) * (n + 2) + 2 * m / 2))%R.
Definition cmuR (n m : R) : R := Rmin (1 - c1R n m) (cmu0R n m).
Definition csR (n m : R) : R := ((m + 2) / (n + m + 5))%R.
Definition dampR (n m : R) : R := (1 + csR n m + 2 * Rmax (sqrt ((m - 1) / (n + 1)) - 1) 0)%R.

Lemma fin_min : forall a b, nmin (XFin a) (XFin b) = XFin (Rmin a b).
Proof. intros a b. unfold nmin, Rmin. cbn. unfold Rltb. destruct (Rlt_dec a b), (Rle_dec a b); try lra; f_equal; lra. Qed.
Lemma fin_max : forall a b, nmax (XFin a) (XFin b) = XFin (Rmax a b).
Proof. intros a b. unfold nmax, Rmax. cbn. unfold Rltb. destruct (Rlt_dec b a), (Rle_dec a b); try lra; f_equal; lra. Qed.
Lemma frac_bounds : forall a b, (0 < a)%R -> (a < b)%R -> (0 < a / b < 1)%R.
Proof.
  intros a b Ha Hb. split; [apply Rdiv_lt_0_compat; lra|]. apply Rmult_lt_reg_r with b; [lra|]. unfold Rdiv. rewrite Rmult_assoc, Rinv_l by lra. lra.
Qed.
Lemma frac_le : forall a b c, (0 < b)%R -> (a <= c * b)%R -> (a / b <= c)%R.
Proof. intros a b c Hb H. apply Rmult_le_reg_r with b; [lra|]. unfold Rdiv. rewrite Rmult_assoc, Rinv_l by lra. lra. Qed.
Lemma frac_lt : forall a b c, (0 < b)%R -> (a < c * b)%R -> (a / b < c)%R.
Proof. intros a b c Hb H. apply Rmult_lt_reg_r with b; [lra|]. unfold Rdiv. rewrite Rmult_assoc, Rinv_l by lra. lra. Qed.

Section Rates.
  Variables (dim : N) (m : R).
  Hypothesis Hn : (1 <= dim)%N.
  Hypothesis Hm : (1 <= m)%R.
  Let n := INR (N.to_nat dim).
  Lemma n_ge : (1 <= n)%R.
  Proof. unfold n. change 1%R with (INR 1). apply le_INR. lia. Qed.
  Lemma cc_fin : calc_cc dim (XFin m) = XFin (ccR n m).
  Proof.
    pose proof n_ge. unfold calc_cc. rewrite !fin_N. fold n. cbn. rewrite Reqb_false by lra. cbn. rewrite Reqb_false; [reflexivity|].
    assert (0 < 2 * m / n)%R by (apply Rdiv_lt_0_compat; lra). lra.
  Qed.
  Lemma cc_range : (0 < ccR n m <= 1)%R.
  Proof.
    pose proof n_ge. unfold ccR. assert (0 < m / n)%R by (apply Rdiv_lt_0_compat; lra).
    assert (E : (2 * m / n = 2 * (m / n))%R) by (field; lra). rewrite E.
    pose proof (frac_bounds (4 + m / n) (n + 4 + 2 * (m / n)) ltac:(lra) ltac:(lra)). lra.
  Qed.
  Lemma c1_fin : calc_c1 dim (XFin m) = XFin (c1R n m).
  Proof.
    pose proof n_ge. unfold calc_c1. rewrite !fin_N, fin_lit by discriminate. fold n. cbn [nadd Num_xreal x_add]. rewrite powi_2. cbn. rewrite Reqb_false; [reflexivity|]. nra.
  Qed.
  Lemma c1_range : (0 < c1R n m < 1)%R.
  Proof. pose proof n_ge. unfold c1R. apply frac_bounds; [lra|]. nra. Qed.
  Lemma cmu_fin : calc_cmu dim (XFin m) (XFin (c1R n m)) = XFin (cmuR n m).
  Proof.
    pose proof n_ge. unfold calc_cmu. rewrite !fin_N. fold n. unfold n1, n2. cbn [nadd nsub nmul ndiv nofZ Num_xreal x_add x_sub x_mul x_neg].
    rewrite powi_2. cbn [x_div]. rewrite !Reqb_false by nra. cbn [x_add x_sub x_mul x_neg x_div]. rewrite Reqb_false by nra. rewrite fin_min. reflexivity.
  Qed.
  Lemma cmu0_nonneg : (0 <= cmu0R n m)%R.
  Proof.
    pose proof n_ge. unfold cmu0R. assert (E : (m - 2 + 1 / m = (m - 1) * (m - 1) / m)%R) by (field; lra). rewrite E.
    apply Rmult_le_pos; [|left; apply Rinv_0_lt_compat; nra]. apply Rmult_le_pos; [lra|]. apply Rmult_le_pos; [apply Rle_0_sqr|]. left. apply Rinv_0_lt_compat. lra.
  Qed.
  Lemma cmu_range : (0 <= cmuR n m <= 1 - c1R n m)%R.
  Proof.
    pose proof c1_range. pose proof cmu0_nonneg. unfold cmuR. split; [apply Rmin_glb; lra|apply Rmin_l].
  Qed.
  Lemma cmu_small : (m <= (n + 2) * (n + 2) - 2)%R -> (cmuR n m < 1 - c1R n m)%R.
  Proof.
    intros Hb. pose proof n_ge. pose proof cmu0_nonneg. unfold cmuR. apply Rle_lt_trans with (1 := Rmin_r _ _). unfold cmu0R, c1R.
    set (A := ((n + 2) * (n + 2))%R) in *. assert (B : (5 <= (n + 13 / 10) * (n + 13 / 10))%R) by nra. set (b := ((n + 13 / 10) * (n + 13 / 10))%R) in *.
    assert (I : (1 / m <= 1)%R) by (apply frac_le; lra). assert (I0 : (0 < 1 / m)%R) by (apply Rdiv_lt_0_compat; lra). set (i := (1 / m)%R) in *.
    replace (2 * m / 2)%R with m by field.
    assert (P : (2 / (b + m) < 1 - 2 * (m - 2 + i) / (A + m))%R); [|lra].
    apply frac_lt; [lra|]. replace (1 - 2 * (m - 2 + i) / (A + m))%R with ((A - m + 4 - 2 * i) / (A + m))%R by (field; nra).
    assert (HA : (0 < A + m)%R) by nra. apply Rmult_lt_reg_r with (A + m)%R; [exact HA|].
    replace ((A - m + 4 - 2 * i) / (A + m) * (b + m) * (A + m))%R with ((A - m + 4 - 2 * i) * (b + m))%R by (field; lra). nra.
  Qed.
  Lemma cs_fin : calc_cs dim (XFin m) = XFin (csR n m).
  Proof. pose proof n_ge. unfold calc_cs. rewrite !fin_N. fold n. cbn. rewrite Reqb_false by lra. reflexivity. Qed.
  Lemma cs_range : (0 < csR n m < 1)%R.
  Proof. pose proof n_ge. unfold csR. apply frac_bounds; lra. Qed.
  Lemma damp_fin : calc_damp_s dim (XFin m) (XFin (csR n m)) = XFin (dampR n m).
  Proof.
    pose proof n_ge. unfold calc_damp_s. rewrite !fin_N. fold n. unfold n1, n2, n0. cbn [nadd nsub nmul ndiv nofZ nsqrt Num_xreal x_add x_sub x_neg x_div].
    rewrite Reqb_false by lra. cbn [x_sqrt]. rewrite Rltb_false.
    - cbn [x_sub x_add x_neg]. rewrite fin_max. reflexivity.
    - apply Rmult_le_pos; [lra|]. left. apply Rinv_0_lt_compat. lra.
  Qed.
  Lemma damp_range : (1 < dampR n m)%R.
  Proof. pose proof cs_range. unfold dampR. pose proof (Rmax_r (sqrt ((m - 1) / (n + 1)) - 1) 0). lra. Qed.
End Rates.

(* ---- the final weights ---- *)
Definition neg_sum (l : N) : R := Rabs (Sig (N.to_nat l - half l) (fun i => rawR l (half l + i))).
Definition alpha (n m : R) (l : N) : R :=
  let a_eff := (1 + 2 * meff_minus l / (m + 2))%R in
  if Req_EM_T (cmuR n m) 0 then a_eff
  else Rmin (1 + c1R n m / cmuR n m) (Rmin a_eff ((1 - c1R n m - cmuR n m) / (n * cmuR n m))).
Definition weight (n : R) (s : weights_setting) (l : N) (i : nat) : R :=
  if i <? half l then (base s l i / Sig (half l) (base s l))%R
  else (base s l i * alpha n (meff s l) l / neg_sum l)%R.

Lemma rest_sum_neg : forall l, (2 <= l)%N -> (Sig (N.to_nat l - half l) (fun i => rawR l (half l + i)) < 0)%R.
Proof.
  intros l H. destruct (half_bounds l H) as [Hh Hb].
  pose proof (Sig_pos (N.to_nat l - half l) (fun i => (- rawR l (half l + i))%R) (N.to_nat l - half l - 1)) as P.
  rewrite (Sig_ext _ (fun i => (- rawR l (half l + i))%R) (fun i => (-1 * rawR l (half l + i))%R)) in P by (intros; lra). rewrite Sig_mul_l in P.
  assert (0 < -1 * Sig (N.to_nat l - half l) (fun i => rawR l (half l + i)))%R; [|lra]. apply P; [|lia|].
  - intros i Hi. pose proof (rawR_nonpos l (half l + i) ltac:(lia)). lra.
  - replace (half l + (N.to_nat l - half l - 1)) with (N.to_nat l - 1) by lia. pose proof (rawR_last l H). lra.
Qed.
Lemma neg_sum_pos : forall l, (2 <= l)%N -> (0 < neg_sum l)%R /\ neg_sum l = (- Sig (N.to_nat l - half l) (fun i => rawR l (half l + i)))%R.
Proof.
  intros l H. pose proof (rest_sum_neg l H). unfold neg_sum. rewrite Rabs_left by exact H0. split; lra.
Qed.
Lemma base_sum_pos : forall s l, (2 <= l)%N -> (0 < Sig (half l) (base s l))%R.
Proof.
  intros s l H. destruct (half_bounds l H) as [Hh _]. apply (Sig_pos _ _ 0); [intros i Hi; left; apply base_pos; exact Hi|lia|apply base_pos; lia].
Qed.
Lemma alpha_nonneg : forall dim m l, (1 <= dim)%N -> (2 <= l)%N -> (1 <= m)%R -> (0 <= alpha (INR (N.to_nat dim)) m l)%R.
Proof.
  intros dim m l Hd Hl Hm. pose proof (cmu_range dim m Hd Hm). pose proof (c1_range dim m Hd Hm). pose proof (meff_minus_pos l Hl). pose proof (n_ge dim Hd).
  set (n := INR (N.to_nat dim)) in *. unfold alpha. cbv zeta.
  assert (0 < 2 * meff_minus l / (m + 2))%R by (apply Rdiv_lt_0_compat; lra).
  destruct (Req_EM_T (cmuR n m) 0); [lra|].
  assert (0 < c1R n m / cmuR n m)%R by (apply Rdiv_lt_0_compat; lra).
  apply Rmin_glb; [lra|]. apply Rmin_glb; [lra|]. apply Rmult_le_pos; [lra|]. left. apply Rinv_0_lt_compat. nra.
Qed.
(* min(1 + c1/cmu, min(a, (1 - c1 - cmu)/(n cmu))) also when cmu = 0 *)
Lemma alpha_fin : forall dim m l, (1 <= dim)%N -> (2 <= l)%N -> (1 <= m)%R ->
  let n := INR (N.to_nat dim) in
  nmin (nadd n1 (ndiv (XFin (c1R n m)) (XFin (cmuR n m))))
       (nmin (nadd n1 (ndiv (nmul n2 (XFin (meff_minus l))) (nadd (XFin m) n2)))
             (ndiv (nsub (nsub n1 (XFin (c1R n m))) (XFin (cmuR n m))) (nmul (nofN dim) (XFin (cmuR n m)))))
  = XFin (alpha n m l).
Proof.
  intros dim m l Hd Hl Hm n. pose proof (cmu_range dim m Hd Hm). pose proof (c1_range dim m Hd Hm). pose proof (n_ge dim Hd).
  fold n in H, H0, H1. unfold alpha. cbv zeta. rewrite fin_N. fold n. unfold n1, n2. cbn [nadd nsub nmul ndiv nofZ Num_xreal x_add x_sub x_mul x_neg x_div].
  rewrite (Reqb_false (m + 2) 0) by lra. cbn [x_add]. destruct (Req_EM_T (cmuR n m) 0) as [Z|Z].
  - rewrite Z. rewrite Rmult_0_r, Reqb_true. unfold x_signed_inf. rewrite (Rltb_true 0 (c1R n m)) by lra. rewrite Rltb_true by lra. cbn. reflexivity.
  - rewrite (Reqb_false (cmuR n m) 0) by exact Z. rewrite (Reqb_false (n * cmuR n m) 0) by nra. cbn [x_add]. rewrite !fin_min. reflexivity.
Qed.

Lemma finalize_fin : forall s l dim, (2 <= l)%N -> (1 <= dim)%N ->
  let n := INR (N.to_nat dim) in let m := meff s l in
  fv (count s l) (iw_finalize (iw_new l s) dim (XFin (c1R n m)) (XFin (cmuR n m))) (weight n s l).
Proof.
  intros s l dim Hl Hd n m. pose proof (half_bounds l Hl) as [Hh Hb]. pose proof (count_half s l) as Hc. pose proof (base_sum_pos s l Hl) as Hs.
  pose proof (weights_fin s l) as W. pose proof (meff_bounds s l Hl) as [Hm _]. fold m in Hm.
  assert (X : forall i, i < count s l -> half l <= i -> s = WNegative /\ (base s l i <= 0)%R /\ i < N.to_nat l).
  { intros i H1 H2. destruct s; cbn [count] in H1; try lia. split; [reflexivity|]. split; [apply rawR_nonpos; exact H2|exact H1]. }
  assert (S1 : nsum (filter (fun w => ngtb w n0) (iw_weights (iw_new l s))) = XFin (Sig (half l) (base s l))).
  { rewrite (nsum_filter _ _ _ _ W). f_equal. replace (count s l) with (half l + (count s l - half l)) by lia. rewrite Sig_split.
    rewrite (Sig_ext (half l) _ (base s l)).
    - rewrite (Sig_zero (count s l - half l)); [lra|]. intros i Hi. destruct (X (half l + i) ltac:(lia) ltac:(lia)) as [_ [Q _]]. unfold ngtb. cbn. rewrite Rltb_false by exact Q. reflexivity.
    - intros i Hi. pose proof (base_pos s l i Hi). unfold ngtb. cbn. rewrite Rltb_true by exact H. reflexivity. }
  set (first := fun i => if i <? half l then (base s l i / Sig (half l) (base s l))%R else base s l i).
  assert (W1 : fv (count s l) (map (fun w => if ngtb w n0 then ndiv w (XFin (Sig (half l) (base s l))) else w) (iw_weights (iw_new l s))) first).
  { eapply fv_map; [exact W|]. intros i Hi. unfold first. destruct (Nat.ltb_spec i (half l)) as [Q|Q].
    - unfold ngtb. cbn. rewrite Rltb_true by (apply base_pos; exact Q). rewrite Reqb_false by lra. reflexivity.
    - destruct (X i Hi Q) as [_ [B _]]. unfold ngtb. cbn. rewrite Rltb_false by exact B. reflexivity. }
  unfold iw_finalize. rewrite (mu_eff_fin s l Hl), (mu_eff_minus_fin s l Hl), S1. fold m.
  assert (NN : forall i, s <> WNegative -> i < count s l -> first i = weight n s l i).
  { intros i Hne Hi. unfold first, weight. destruct (Nat.ltb_spec i (half l)) as [Q|Q]; [reflexivity|]. destruct (X i Hi Q) as [E _]. contradiction. }
  destruct s.
  - eapply fv_ext; [|exact W1]. intros i Hi. apply NN; [discriminate|exact Hi].
  - pose proof (alpha_fin dim m l Hd Hl Hm) as AF. cbv zeta in AF. fold n in AF. rewrite AF. clear AF.
    assert (S2 : nabs (nsum (filter (fun w => nltb w n0) (map (fun w => if ngtb w n0 then ndiv w (XFin (Sig (half l) (base WNegative l))) else w)
                   (iw_weights (iw_new l WNegative))))) = XFin (neg_sum l)).
    { rewrite (nsum_filter _ _ _ _ W1). cbn [nabs Num_xreal x_abs]. unfold neg_sum. f_equal. f_equal. cbn [count].
      replace (N.to_nat l) with (half l + (N.to_nat l - half l)) at 1 by lia. rewrite Sig_split. rewrite (Sig_zero (half l)).
      - rewrite Rplus_0_l. apply Sig_ext. intros i Hi. unfold first. replace (half l + i <? half l) with false by (symmetry; apply Nat.ltb_ge; lia).
        cbn [base]. pose proof (rawR_nonpos l (half l + i) ltac:(lia)). unfold nltb. cbn. unfold Rltb. destruct (Rlt_dec _ _); [reflexivity|lra].
      - intros i Hi. unfold first. replace (i <? half l) with true by (symmetry; apply Nat.ltb_lt; lia).
        pose proof (base_pos WNegative l i Hi). assert (0 < base WNegative l i / Sig (half l) (base WNegative l))%R by (apply Rdiv_lt_0_compat; lra).
        cbn. rewrite Rltb_false by (cbn in *; lra). reflexivity. }
    rewrite S2. destruct (neg_sum_pos l Hl) as [NP _]. eapply fv_map; [exact W1|]. intros i Hi. unfold first, weight. fold m. destruct (Nat.ltb_spec i (half l)) as [Q|Q].
    + pose proof (base_pos WNegative l i Q). assert (0 < base WNegative l i / Sig (half l) (base WNegative l))%R by (apply Rdiv_lt_0_compat; lra).
      cbn [nltb Num_xreal x_ltb n0 nofZ]. unfold n0. cbn. rewrite Rltb_false by (cbn in *; lra). reflexivity.
    + unfold n0. cbn [nltb Num_xreal x_ltb nofZ]. unfold Rltb. destruct (Rlt_dec (base WNegative l i) 0) as [Lt|Ge].
      * cbn. rewrite Reqb_false by lra. reflexivity.
      * destruct (X i Hi Q) as [_ [B _]]. assert (E : base WNegative l i = 0%R) by lra. rewrite E. f_equal. field. lra.
  - eapply fv_ext; [|exact W1]. intros i Hi. apply NN; [discriminate|exact Hi].
Qed.
