(* ceil(a as f64 / b as f64) as usize is the integer quotient rounded up, for operands below 2^53. *)
From Coq Require Import List NArith ZArith Bool Reals Lra Lia.
From Flocq Require Import Core.
From Flocq Require Import IEEE754.BinarySingleNaN.
From Flocq Require Import Relative.
Require Import Verif.Num Verif.F64 Verif.XReal Verif.Order Verif.F64Lemmas Verif.CastLemmas.
Open Scope R_scope.

Notation fexp64 := (SpecFloat.fexp 53 1024).
Notation rnd64 := (round radix2 fexp64 (round_mode mode_NE)).

Lemma valid_fexp64 : Valid_exp fexp64.
Proof. apply (fexp_correct 53 1024 f64_prec). Qed.

Lemma format_IZR : forall z, (Z.abs z <= 9007199254740992)%Z -> generic_format radix2 fexp64 (IZR z).
Proof. intros z Hz. destruct (f64_ofZ_exact z Hz) as [_ H]. rewrite <- H. apply format_B2R. Qed.

Lemma rnd64_le : forall x y, x <= y -> rnd64 x <= rnd64 y.
Proof. intros x y H. apply round_le; [apply valid_fexp64|apply valid_rnd_round_mode|exact H]. Qed.
Lemma rnd64_id : forall x, generic_format radix2 fexp64 x -> rnd64 x = x.
Proof. intros. apply round_generic; auto. apply valid_rnd_round_mode. Qed.

(* relative error, for results that are not tiny *)
Lemma rnd64_rel : forall x, 1 / 2 <= x -> x * (1 - / 9007199254740992) <= rnd64 x.
Proof.
  intros x Hx.
  assert (Hr : Rabs (rnd64 x - x) <= / 2 * bpow radix2 (- 53 + 1) * Rabs x).
  { apply (relative_error_N_FLT radix2 (-1074) 53 eq_refl (fun z => negb (Z.even z))).
    rewrite (Rabs_pos_eq x) by lra. apply Rle_trans with (bpow radix2 (-1)); [apply bpow_le; lia|].
    simpl. lra. }
  rewrite (Rabs_pos_eq x) in Hr by lra.
  assert (Hb : bpow radix2 (- 53 + 1) = / 4503599627370496) by (simpl; f_equal; lra).
  rewrite Hb in Hr. apply Rabs_le_inv in Hr. lra.
Qed.

Lemma ceil_quotient : forall a b : Z, (0 < a < 9007199254740992)%Z -> (0 < b < 9007199254740992)%Z ->
  Zceil (rnd64 (IZR a / IZR b)) = ((a + b - 1) / b)%Z.
Proof.
  intros a b Ha Hb. set (q := ((a + b - 1) / b)%Z).
  assert (Hq1 : (b * q <= a + b - 1)%Z) by (apply Z.mul_div_le; lia).
  assert (Hq2 : (a + b - 1 < b * (q + 1))%Z).
  { pose proof (Z.mul_succ_div_gt (a + b - 1) b). unfold q. lia. }
  assert (Hq : (1 <= q <= a)%Z) by nia.
  assert (Hbr : 0 < IZR b) by (apply IZR_lt; lia).
  assert (Hle : IZR a / IZR b <= IZR q).
  { apply Rmult_le_reg_r with (IZR b); auto. unfold Rdiv. rewrite Rmult_assoc, Rinv_l, Rmult_1_r by lra.
    rewrite <- mult_IZR. apply IZR_le. nia. }
  assert (Hup : rnd64 (IZR a / IZR b) <= IZR q).
  { rewrite <- (rnd64_id (IZR q)) by (apply format_IZR; lia). apply rnd64_le. exact Hle. }
  apply Zceil_imp. split; [|exact Hup].
  (* q - 1 < round (a / b) *)
  destruct (Z.eq_dec q 1) as [E|E].
  - rewrite E. simpl. apply Rlt_le_trans with (bpow radix2 (-53)); [apply bpow_gt_0|].
    rewrite <- (rnd64_id (bpow radix2 (-53))).
    + apply rnd64_le. apply Rmult_le_reg_r with (IZR b); auto. unfold Rdiv. rewrite Rmult_assoc, Rinv_l, Rmult_1_r by lra.
      apply Rle_trans with 1; [|apply IZR_le; lia].
      apply Rle_trans with (bpow radix2 (-53) * IZR 9007199254740992).
      * apply Rmult_le_compat_l; [apply bpow_ge_0|]. apply IZR_le. lia.
      * simpl. lra.
    + apply generic_format_bpow. simpl. unfold SpecFloat.fexp, SpecFloat.emin. lia.
  - assert (Hge : IZR (q - 1) + / IZR b <= IZR a / IZR b).
    { apply Rmult_le_reg_r with (IZR b); auto. unfold Rdiv.
      rewrite Rmult_plus_distr_r, Rmult_assoc, !Rinv_l, Rmult_1_r by lra.
      rewrite <- mult_IZR, <- plus_IZR. apply IZR_le. nia. }
    assert (Hib : 0 < / IZR b) by (apply Rinv_0_lt_compat; auto).
    assert (H1 : 1 <= IZR (q - 1)) by (apply IZR_le; lia).
    pose proof (rnd64_rel (IZR a / IZR b)) as Hrel.
    assert (Hx : IZR a / IZR b * / 9007199254740992 < / IZR b).
    { unfold Rdiv. rewrite (Rmult_comm (IZR a)), Rmult_assoc. rewrite <- (Rmult_1_r (/ IZR b)) at 2.
      apply Rmult_lt_compat_l; auto. apply Rmult_lt_reg_r with 9007199254740992; [lra|].
      rewrite Rmult_assoc, Rinv_l by lra. rewrite Rmult_1_r, Rmult_1_l. apply IZR_lt. lia. }
    assert (Hh : 1 / 2 <= IZR a / IZR b) by lra. specialize (Hrel Hh). lra.
Qed.

Lemma f64_div_finite : forall a b : Z, (0 <= a < 9007199254740992)%Z -> (0 < b < 9007199254740992)%Z ->
  is_finite (f64_div (f64_ofZ a) (f64_ofZ b)) = true /\ B2R (f64_div (f64_ofZ a) (f64_ofZ b)) = rnd64 (IZR a / IZR b).
Proof.
  intros a b Ha Hb. destruct (f64_ofZ_exact a) as [Fa Ea]; [lia|]. destruct (f64_ofZ_exact b) as [Fb Eb]; [lia|].
  assert (Hbr : 0 < IZR b) by (apply IZR_lt; lia).
  pose proof (Bdiv_correct 53 1024 f64_prec f64_emax mode_NE (f64_ofZ a) (f64_ofZ b)) as H.
  rewrite Ea, Eb in H. specialize (H (Rgt_not_eq _ _ Hbr)). cbv zeta in H.
  assert (Hbound : Rabs (rnd64 (IZR a / IZR b)) < bpow radix2 1024).
  { assert (H0 : 0 <= IZR a / IZR b).
    { apply Rmult_le_pos; [apply IZR_le; lia|]. left. apply Rinv_0_lt_compat; auto. }
    assert (H0' : 0 <= rnd64 (IZR a / IZR b)).
    { rewrite <- (rnd64_id 0) by apply generic_format_0. apply rnd64_le. exact H0. }
    rewrite Rabs_pos_eq by exact H0'. apply Rle_lt_trans with (IZR a).
    - apply Rle_trans with (rnd64 (IZR a)); [|rewrite rnd64_id by (apply format_IZR; lia); apply Rle_refl]. apply rnd64_le.
      rewrite <- (Rmult_1_r (IZR a)) at 2. apply Rmult_le_compat_l; [apply IZR_le; lia|].
      rewrite <- Rinv_1. apply Rinv_le; [lra|]. apply IZR_le. lia.
    - apply Rlt_trans with (bpow radix2 53); [|apply bpow_lt; lia]. simpl. apply IZR_lt. lia. }
  rewrite Rlt_bool_true in H by exact Hbound. destruct H as [H1 [H2 _]]. unfold f64_div. rewrite H2, H1. auto.
Qed.

Lemma f64_ceil_correct : forall x : f64, is_finite x = true ->
  is_finite (f64_ceil x) = true /\ B2R (f64_ceil x) = IZR (Zceil (B2R x)).
Proof.
  intros x Hx. destruct (Bnearbyint_correct 53 1024 f64_emax mode_UP x) as [H1 [H2 _]]. unfold f64_ceil. rewrite H1, H2. split; auto.
  unfold round, scaled_mantissa, cexp, FIX_exp, F2R. simpl. rewrite !Rmult_1_r. reflexivity.
Qed.

Lemma f64_to_usize_IZR : forall (x : f64) z, is_finite x = true -> B2R x = IZR z ->
  (0 <= z <= 18446744073709551615)%Z -> f64_to_usize x = Z.to_N z.
Proof.
  intros x z Fx Hx Hz. assert (Hb : Btrunc x = z).
  { pose proof (Btrunc_correct 53 1024 f64_emax x) as H.
    assert (Hr : round radix2 (FIX_exp 0) Ztrunc (B2R x) = IZR (Ztrunc (B2R x))).
    { unfold round, scaled_mantissa, cexp, FIX_exp, F2R. simpl. rewrite !Rmult_1_r. reflexivity. }
    rewrite Hr in H. apply eq_IZR in H. rewrite H, Hx. apply Ztrunc_IZR. }
  destruct x; cbn [is_finite] in Fx; try discriminate; cbn [f64_to_usize]; rewrite Hb; f_equal; lia.
Qed.

Lemma f64_ceil_div : forall a b : N, (a < 9007199254740992)%N -> (0 < b < 9007199254740992)%N ->
  nto_usize (nceil (ndiv (nofN (T := f64) a) (nofN b))) = ((a + b - 1) / b)%N.
Proof.
  intros a b Ha Hb. cbn [nto_usize nceil ndiv nofN nofZ Num_f64]. unfold nofN. cbn [nofZ Num_f64].
  assert (Ha' : (0 <= Z.of_N a < 9007199254740992)%Z) by lia. assert (Hb' : (0 < Z.of_N b < 9007199254740992)%Z) by lia.
  destruct (f64_div_finite (Z.of_N a) (Z.of_N b) Ha' Hb') as [H1 H2].
  destruct (f64_ceil_correct _ H1) as [H3 H4]. rewrite H2 in H4.
  assert (Hc : Zceil (rnd64 (IZR (Z.of_N a) / IZR (Z.of_N b))) = ((Z.of_N a + Z.of_N b - 1) / Z.of_N b)%Z).
  { destruct (N.eq_dec a 0) as [->|Hn].
    - simpl Z.of_N. unfold Rdiv. rewrite Rmult_0_l. rewrite rnd64_id by apply generic_format_0.
      rewrite Zceil_IZR. symmetry. apply Z.div_small. lia.
    - apply ceil_quotient; lia. }
  rewrite Hc in H4. rewrite (f64_to_usize_IZR _ _ H3 H4).
  - rewrite <- N2Z.inj_add, <- (N2Z.inj_sub _ 1) by lia. rewrite <- N2Z.inj_div, N2Z.id. reflexivity.
  - assert ((Z.of_N a + Z.of_N b - 1) / Z.of_N b < 18446744073709551615)%Z; [|split; [apply Z.div_pos; lia|lia]].
    apply Z.div_lt_upper_bound; nia.
Qed.
