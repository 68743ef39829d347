(* Rounding errors of binary64 sums, products and quotients of positive numbers. *)
From Coq Require Import List NArith ZArith Bool Reals Lra Lia Arith Psatz.
From Flocq Require Import Core Relative.
From Flocq Require Import IEEE754.BinarySingleNaN.
Require Import Verif.Base Verif.Num Verif.F64 Verif.XReal Verif.Order Verif.F64Lemmas Verif.CeilLemmas Verif.XRound Verif.XLe.
Import ListNotations.
Open Scope R_scope.

Notation uu := (/ 9007199254740992).

(* x is the finite number r *)
Definition is (x : f64) (r : R) : Prop := f2x x = XFin r.

Lemma is_fun : forall x a b, is x a -> is x b -> a = b.
Proof. unfold is. intros. congruence. Qed.
Lemma is_B2R : forall x r, is x r -> is_finite x = true /\ B2R x = r.
Proof.
  intros x r H. unfold is in H. assert (F : is_finite x = true) by (destruct x; try discriminate; reflexivity).
  split; [exact F|]. rewrite (f2x_finite _ F) in H. congruence.
Qed.
Lemma is_format : forall x r, is x r -> generic_format radix2 fexp64 r.
Proof. intros x r H. apply is_B2R in H. destruct H as [_ <-]. apply generic_format_B2R. Qed.
Lemma is_round : forall x r, is x r -> rnd64 r = r.
Proof. intros x r H. apply rnd64_id. eapply is_format; eauto. Qed.

Lemma rnd_abs : forall x e, (-1074 <= e)%Z -> Rabs x <= bpow radix2 e -> Rabs (rnd64 x) <= bpow radix2 e.
Proof.
  intros x e He H. apply abs_round_le_generic; [apply valid_fexp64|apply valid_rnd_N| |exact H].
  apply generic_format_bpow. unfold SpecFloat.fexp, SpecFloat.emin. lia.
Qed.
Lemma xround_small : forall x, Rabs x <= bpow radix2 1000 -> xround (XFin x) = XFin (rnd64 x).
Proof.
  intros x H. cbn [xround]. rewrite Rlt_bool_true; [reflexivity|].
  apply Rle_lt_trans with (bpow radix2 1000); [apply rnd_abs; [lia|exact H]|apply bpow_lt; lia].
Qed.

Lemma is_add : forall x y a b, is x a -> is y b -> Rabs (a + b) <= bpow radix2 1000 -> is (nadd x y) (rnd64 (a + b)).
Proof. unfold is. intros x y a b Hx Hy H. rewrite f2x_add, Hx, Hy. cbn [x_add]. apply xround_small. exact H. Qed.
Lemma is_sub : forall x y a b, is x a -> is y b -> Rabs (a - b) <= bpow radix2 1000 -> is (nsub x y) (rnd64 (a - b)).
Proof. unfold is. intros x y a b Hx Hy H. rewrite f2x_sub, Hx, Hy. unfold x_sub. cbn [x_neg x_add]. apply xround_small. exact H. Qed.
Lemma is_mul : forall x y a b, is x a -> is y b -> Rabs (a * b) <= bpow radix2 1000 -> is (nmul x y) (rnd64 (a * b)).
Proof. unfold is. intros x y a b Hx Hy H. rewrite f2x_mul, Hx, Hy. cbn [x_mul]. apply xround_small. exact H. Qed.
Lemma is_div : forall x y a b, is x a -> is y b -> 0 < b -> Rabs (a / b) <= bpow radix2 1000 -> is (ndiv x y) (rnd64 (a / b)).
Proof.
  unfold is. intros x y a b Hx Hy Hb H. rewrite (f2x_div_pos _ _ _ Hy Hb), Hx. cbn [x_div].
  rewrite (proj2 (Reqb_false b 0)) by lra. apply xround_small. exact H.
Qed.
Lemma is_sqrt : forall x a, is x a -> 0 <= a -> is (nsqrt x) (rnd64 (sqrt a)).
Proof.
  intros x a Hx Ha. apply is_B2R in Hx. destruct Hx as [Fx Ex].
  pose proof (Bsqrt_correct 53 1024 f64_prec f64_emax mode_NE x) as [S1 [S2 _]].
  change (Bsqrt mode_NE x) with (nsqrt x : f64) in S1, S2. unfold is. rewrite f2x_finite.
  - rewrite S1, Ex. reflexivity.
  - rewrite S2. destruct x as [s|s| |s m e He]; try discriminate Fx; [reflexivity|]. destruct s; [|reflexivity].
    exfalso. cbn [B2R] in Ex. assert (K : F2R (Float radix2 (cond_Zopp true (Zpos m)) e) < 0) by (apply F2R_lt_0; reflexivity). lra.
Qed.
Lemma is_ofN : forall n, (n <= 9007199254740992)%N -> is (nofN n) (IZR (Z.of_N n)).
Proof.
  intros n H. change (nofN n) with (f64_ofZ (Z.of_N n)). destruct (f64_ofZ_exact (Z.of_N n)) as [F1 E1]; [lia|].
  unfold is. rewrite (f2x_finite _ F1), E1. reflexivity.
Qed.
Lemma is_ofZ : forall z, (Z.abs z <= 9007199254740992)%Z -> is (nofZ z) (IZR z).
Proof.
  intros z H. change (nofZ z) with (f64_ofZ z). destruct (f64_ofZ_exact z) as [F1 E1]; [lia|].
  unfold is. rewrite (f2x_finite _ F1), E1. reflexivity.
Qed.
Lemma is_powi2 : forall x a, is x a -> Rabs (a * a) <= bpow radix2 1000 -> is (powi x 2) (rnd64 (a * a)).
Proof.
  intros x a Hx H. change (powi x 2) with (nmul n1 (nmul x x)). pose proof (is_mul _ _ _ _ Hx Hx H) as K.
  pose proof (is_mul n1 (nmul x x) 1 _ (is_ofZ 1 ltac:(lia)) K) as J. rewrite !Rmult_1_l in J. rewrite (is_round _ _ K) in J.
  apply J. apply rnd_abs; [lia|exact H].
Qed.
Lemma is_lt : forall x y a b, is x a -> is y b -> (nltb x y = true <-> a < b).
Proof. unfold is. intros x y a b Hx Hy. rewrite f2x_ltb, Hx, Hy. cbn. apply Rltb_true. Qed.
Lemma is_nlt : forall x y a b, is x a -> is y b -> (nltb x y = false <-> b <= a).
Proof. unfold is. intros x y a b Hx Hy. rewrite f2x_ltb, Hx, Hy. cbn. rewrite Rltb_false. lra. Qed.
Lemma is_not_nan : forall x a, is x a -> nis_nan x = false.
Proof. unfold is. intros x a H. rewrite f2x_nan, H. reflexivity. Qed.

(* relative error *)
Lemma rnd_err : forall x, bpow radix2 (-1000) <= Rabs x -> Rabs (rnd64 x - x) <= uu * Rabs x.
Proof.
  intros x Hx.
  assert (Hr : Rabs (rnd64 x - x) <= / 2 * bpow radix2 (- 53 + 1) * Rabs x).
  { apply (relative_error_N_FLT radix2 (-1074) 53 eq_refl (fun z => negb (Z.even z))).
    apply Rle_trans with (2 := Hx). apply bpow_le. lia. }
  assert (Hb : bpow radix2 (- 53 + 1) = / 4503599627370496) by (simpl; f_equal; lra). rewrite Hb in Hr. lra.
Qed.
Lemma rnd_near : forall x, bpow radix2 (-1000) <= x -> x * (1 - uu) <= rnd64 x <= x * (1 + uu).
Proof.
  intros x Hx. pose proof (bpow_gt_0 radix2 (-1000)). assert (Ha : Rabs x = x) by (apply Rabs_pos_eq; lra).
  pose proof (rnd_err x) as K. rewrite Ha in K. specialize (K Hx). apply Rabs_le_inv in K. lra.
Qed.
Lemma rnd_between : forall e1 e2 x, (-1074 <= e1)%Z -> (-1074 <= e2)%Z -> bpow radix2 e1 <= x <= bpow radix2 e2 -> bpow radix2 e1 <= rnd64 x <= bpow radix2 e2.
Proof.
  intros e1 e2 x H1 H2 [A B].
  rewrite <- (rnd64_id (bpow radix2 e1)) by (apply generic_format_bpow; unfold SpecFloat.fexp, SpecFloat.emin; lia).
  rewrite <- (rnd64_id (bpow radix2 e2)) by (apply generic_format_bpow; unfold SpecFloat.fexp, SpecFloat.emin; lia).
  split; apply rnd64_le; assumption.
Qed.
Lemma rnd_nonneg : forall x, 0 <= x -> 0 <= rnd64 x.
Proof. intros x H. rewrite <- rnd64_0. apply rnd64_le. exact H. Qed.
Lemma rnd_nonpos : forall x, x <= 0 -> rnd64 x <= 0.
Proof. intros x H. rewrite <- rnd64_0. apply rnd64_le. exact H. Qed.
Lemma rnd_int_le : forall z x, (Z.abs z <= 9007199254740992)%Z -> IZR z <= x -> IZR z <= rnd64 x.
Proof. intros z x Hz H. rewrite <- (is_round _ _ (is_ofZ z Hz)). apply rnd64_le. exact H. Qed.
Lemma rnd_le_int : forall z x, (Z.abs z <= 9007199254740992)%Z -> x <= IZR z -> rnd64 x <= IZR z.
Proof. intros z x Hz H. rewrite <- (is_round _ _ (is_ofZ z Hz)). apply rnd64_le. exact H. Qed.

(* ---- sums ---- *)
Definition tot (l : list R) : R := fold_right Rplus 0 l.
Lemma tot_nonneg : forall l, Forall (fun r => 0 <= r) l -> 0 <= tot l.
Proof. intros l. induction 1; cbn [tot fold_right]; [lra|]. fold (tot l). lra. Qed.
Lemma tot_le : forall l b, Forall (fun r => r <= b) l -> tot l <= INR (length l) * b.
Proof. intros l b. induction 1 as [|r l Hr Hl IH]; [cbn; lra|]. change (tot (r :: l)) with (r + tot l). cbn [length]. rewrite S_INR. lra. Qed.

Lemma bernoulli : forall k, 1 - INR k * uu <= (1 - uu) ^ k <= 1.
Proof.
  induction k as [|k [IH1 IH2]]; [cbn; lra|]. rewrite S_INR. cbn [pow]. pose proof (pos_INR k). split; [|nra].
  destruct (Rle_lt_dec 0 (1 - INR k * uu)); nra.
Qed.

Lemma sum_acc_from : forall ws rs acc s t k,
  Forall2 is ws rs -> Forall (fun r => bpow radix2 (-200) <= r <= bpow radix2 200) rs ->
  is acc s -> (s = 0 /\ t = 0 \/ bpow radix2 (-200) <= t) -> (1 - uu) ^ k * t <= s -> s * (1 - uu) ^ k <= t ->
  t <= INR k * bpow radix2 200 -> INR (k + length rs) <= 1099511627776 ->
  exists s', is (fold_left nadd ws acc) s' /\ (1 - uu) ^ (k + length rs) * (t + tot rs) <= s' /\ s' * (1 - uu) ^ (k + length rs) <= t + tot rs.
Proof.
  intros ws rs acc s t k H. revert acc s t k. induction H as [|w r ws rs Hw _ IH]; intros acc s t k Hb Ha Hz H1 H2 H3 H4.
  - exists s. cbn [fold_left length tot fold_right]. rewrite Nat.add_0_r, Rplus_0_r. auto.
  - inversion Hb as [|? ? Hr Hb']; subst. cbn [fold_left length] in H4 |- *. change (tot (r :: rs)) with (r + tot rs).
    replace (k + S (length rs))%nat with (S k + length rs)%nat in * by lia.
    pose proof (bpow_gt_0 radix2 (-200)) as P1. pose proof (bpow_gt_0 radix2 200) as P2.
    assert (Hk : 0 <= INR k <= 1099511627776).
    { split; [apply pos_INR|]. apply Rle_trans with (2 := H4). apply le_INR. lia. }
    destruct (bernoulli k) as [B1 B2]. assert (B3 : 1 / 2 <= (1 - uu) ^ k) by lra.
    assert (T0 : 0 <= t) by (destruct Hz as [[_ ->]|Hz]; lra).
    assert (S0 : 0 <= s <= 2 * t) by nra.
    assert (Hsum : bpow radix2 (-1000) <= s + r /\ Rabs (s + r) <= bpow radix2 1000).
    { assert (Q1 : bpow radix2 (-1000) <= bpow radix2 (-200)) by (apply bpow_le; lia). split; [lra|].
      rewrite Rabs_pos_eq by lra. apply Rle_trans with (bpow radix2 42 * bpow radix2 200); [|rewrite <- bpow_plus; apply bpow_le; lia].
      change (bpow radix2 42) with 4398046511104. nra. }
    destruct Hsum as [Q1 Q2]. pose proof (is_add _ _ _ _ Ha Hw Q2) as Hs'. destruct (rnd_near _ Q1) as [N1 N2].
    set (s' := rnd64 (s + r)) in *. clearbody s'.
    replace (t + (r + tot rs)) with ((t + r) + tot rs) by ring.
    assert (Pk : 0 <= (1 - uu) ^ k) by lra. set (q := (1 - uu) ^ k) in *.
    apply (IH _ s' (t + r) (S k)); auto.
    + right. lra.
    + change ((1 - uu) ^ S k) with ((1 - uu) * q). nra.
    + change ((1 - uu) ^ S k) with ((1 - uu) * q). clearbody q.
      apply Rle_trans with (((s + r) * (1 + uu)) * ((1 - uu) * q)); [apply Rmult_le_compat_r; nra|].
      apply Rle_trans with ((s + r) * q); [|nra]. nra.
    + rewrite S_INR. nra.
Qed.
Lemma sum_acc_len : forall ws rs, Forall2 is ws rs -> Forall (fun r => bpow radix2 (-200) <= r <= bpow radix2 200) rs ->
  (length rs <= N.to_nat 1099511627776)%nat ->
  exists s, is (nsum ws) s /\ (1 - INR (length rs) * uu) * tot rs <= s /\ s * (1 - INR (length rs) * uu) <= tot rs.
Proof.
  intros ws rs H Hb Hl. assert (HI : INR (length rs) <= 1099511627776).
  { rewrite INR_IZR_INZ. apply IZR_le. lia. }
  destruct (sum_acc_from ws rs n0 0 0 O H Hb) as [s [K1 [K2 K3]]]; try (cbn [pow INR]; lra).
  - exact (is_ofZ 0 ltac:(lia)).
  - exact HI.
  - rewrite Nat.add_0_l, Rplus_0_l in K2, K3. exists s. split; [exact K1|]. destruct (bernoulli (length rs)) as [B1 B2].
    assert (T0 : 0 <= tot rs).
    { apply tot_nonneg. eapply Forall_impl; [|exact Hb]. cbn beta. intros a Ha. pose proof (bpow_gt_0 radix2 (-200)). lra. }
    assert (B3 : 8191 / 8192 <= (1 - uu) ^ length rs) by lra. set (q := (1 - uu) ^ length rs) in *. clearbody q.
    assert (S0 : 0 <= s) by nra. split; nra.
Qed.
Lemma sum_acc : forall ws rs, Forall2 is ws rs -> Forall (fun r => bpow radix2 (-200) <= r <= bpow radix2 200) rs ->
  (length rs <= N.to_nat 1099511627776)%nat ->
  exists s, is (nsum ws) s /\ 8191 / 8192 * tot rs <= s /\ s * (8191 / 8192) <= tot rs.
Proof.
  intros ws rs H Hb Hl. destruct (sum_acc_len ws rs H Hb Hl) as [s [K1 [K2 K3]]]. exists s. split; [exact K1|].
  assert (HI : INR (length rs) <= 1099511627776) by (rewrite INR_IZR_INZ; apply IZR_le; lia).
  assert (T0 : 0 <= tot rs).
  { apply tot_nonneg. eapply Forall_impl; [|exact Hb]. cbn beta. intros a Ha. pose proof (bpow_gt_0 radix2 (-200)). lra. }
  assert (B3 : 8191 / 8192 <= 1 - INR (length rs) * uu) by lra. set (q := 1 - INR (length rs) * uu) in *. clearbody q.
  assert (S0 : 0 <= s) by nra. split; nra.
Qed.

(* square of the sum and sum of the squares *)
Lemma squares_le : forall l, Forall (fun r => 0 <= r) l -> tot (map (fun r => r * r) l) <= tot l * tot l.
Proof.
  intros l. induction 1 as [|r l Hr Hl IH]; [cbn; lra|]. cbn [map]. change (tot (r * r :: map (fun r => r * r) l)) with (r * r + tot (map (fun r => r * r) l)).
  change (tot (r :: l)) with (r + tot l). pose proof (tot_nonneg l Hl). nra.
Qed.
Lemma cauchy : forall l, tot l * tot l <= INR (length l) * tot (map (fun r => r * r) l).
Proof.
  intros l. induction l as [|r l IH]; [cbn; lra|]. cbn [map length]. rewrite S_INR.
  change (tot (r * r :: map (fun r => r * r) l)) with (r * r + tot (map (fun r => r * r) l)). change (tot (r :: l)) with (r + tot l).
  set (t := tot l) in *. set (q := tot (map (fun r => r * r) l)) in *. pose proof (pos_INR (length l)) as Hk.
  assert (Q0 : 0 <= q).
  { apply tot_nonneg. apply Forall_forall. intros x Hx. apply in_map_iff in Hx. destruct Hx as [y [<- _]]. nra. }
  set (k := INR (length l)) in *. clearbody k q t.
  destruct (Req_dec k 0) as [Ek|Ek]; [assert (t * t <= 0) by (rewrite Ek in IH; lra); assert (t = 0) by nra; subst t; rewrite Ek; nra|].
  assert (Pk : 0 < k) by lra. assert (D : 2 * r * t <= k * (r * r) + q); [|nra].
  apply Rmult_le_reg_l with k; [exact Pk|]. pose proof (Rle_0_sqr (k * r - t)) as Sq. unfold Rsqr in Sq. nra.
Qed.
Lemma squares_max : forall l m, Forall (fun r => 0 <= r <= m) l -> tot (map (fun r => r * r) l) <= m * tot l.
Proof.
  intros l m. induction 1 as [|r l Hr Hl IH]; [cbn; lra|]. cbn [map].
  change (tot (r * r :: map (fun r => r * r) l)) with (r * r + tot (map (fun r => r * r) l)). change (tot (r :: l)) with (r + tot l). nra.
Qed.
