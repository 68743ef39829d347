(* binary64 facts: what the operations mean over the reals. *)
From Coq Require Import List NArith ZArith Bool Reals Lra Lia.
From Flocq Require Import Core.
From Flocq Require Import IEEE754.BinarySingleNaN.
Require Import Verif.Num Verif.F64 Verif.XReal Verif.Order.
Open Scope R_scope.

(* the smallest positive normal number *)
Definition min_normal : R := bpow radix2 (-1022).

Lemma f64_ofZ_0 : f64_ofZ 0 = B754_zero false.
Proof. reflexivity. Qed.

Lemma f64_is_normal_finite : forall a : f64, f64_is_normal a = true -> is_finite a = true.
Proof. destruct a; simpl; auto; discriminate. Qed.

Lemma f64_bound_exponent : forall m e, SpecFloat.bounded 53 1024 m e = true -> (-1074 <= e)%Z /\
  (Zpos m < 4503599627370496 -> e = -1074)%Z.
Proof.
  intros m e H. unfold SpecFloat.bounded in H. apply andb_true_iff in H. destruct H as [H _].
  unfold SpecFloat.canonical_mantissa in H. apply Zeq_bool_eq in H.
  unfold SpecFloat.fexp, SpecFloat.emin in H. rewrite Digits.Zpos_digits2_pos in H.
  split; [lia|]. intros Hm.
  assert (Digits.Zdigits radix2 (Zpos m) <= 52)%Z; [|lia].
  apply Digits.Zdigits_le_Zpower. simpl. exact Hm.
Qed.

Lemma min_normal_pos : 0 < min_normal.
Proof. apply bpow_gt_0. Qed.
Lemma min_normal_eq : min_normal = IZR 4503599627370496 * bpow radix2 (-1074).
Proof.
  unfold min_normal. change (-1022)%Z with (52 + -1074)%Z. rewrite bpow_plus.
  rewrite <- (IZR_Zpower radix2) by lia. reflexivity.
Qed.
#[global] Opaque min_normal.

Lemma f64_normal_pos : forall a : f64,
  nis_normal a = true /\ nltb n0 a = true <-> is_finite a = true /\ min_normal <= B2R a.
Proof.
  intros a. change (nis_normal a) with (f64_is_normal a).
  change (nltb n0 a) with (Bltb (B754_zero false) a).
  pose proof min_normal_pos as Hmn.
  destruct a as [s|s| |s m e B].
  - split; [intros [H _]; discriminate|]. intros [_ H]. simpl in H. lra.
  - split; [intros [H _]; discriminate|intros [H _]; discriminate].
  - split; [intros [H _]; discriminate|intros [H _]; discriminate].
  - destruct (f64_bound_exponent m e B) as [He Hsub].
    rewrite Bltb_correct by reflexivity. rewrite Rlt_bool_Rltb, Rltb_true.
    cbn [is_finite B2R f64_is_normal]. rewrite Z.leb_le.
    unfold F2R. cbn [Fnum Fexp].
    pose proof min_normal_eq as Hmin.
    assert (Hpe : 0 < bpow radix2 e) by apply bpow_gt_0.
    assert (Hp : 0 < bpow radix2 (-1074)) by apply bpow_gt_0.
    assert (Hle : bpow radix2 (-1074) <= bpow radix2 e) by (apply bpow_le; lia).
    assert (Heq : e = (-1074)%Z -> bpow radix2 e = bpow radix2 (-1074)) by congruence.
    assert (Hbig : 0 < IZR 4503599627370496) by (apply IZR_lt; lia).
    revert Hpe Hp Hle Heq Hmin. generalize (bpow radix2 e) (bpow radix2 (-1074)).
    intros be b0 Hpe Hp Hle Heq Hmin.
    split.
    + intros [H1 H2]. split; auto. destruct s; cbn [cond_Zopp] in *.
      * exfalso. assert (IZR (- Z.pos m) < 0) by (apply IZR_lt; lia). nra.
      * rewrite Hmin. apply IZR_le in H1. nra.
    + intros [_ H]. assert (Hs : s = false).
      { destruct s; auto. exfalso. cbn [cond_Zopp] in H. assert (IZR (- Z.pos m) < 0) by (apply IZR_lt; lia). nra. }
      subst s. cbn [cond_Zopp] in *. assert (Hm : 0 < IZR (Z.pos m)) by (apply IZR_lt; lia). split; [|nra].
      destruct (Z.le_gt_cases 4503599627370496 (Z.pos m)) as [L|L]; auto. exfalso.
      rewrite Heq, Hmin in H by (apply Hsub; lia).
      apply Rmult_le_reg_r in H; auto. apply le_IZR in H. lia.
Qed.

Lemma f64_ofZ_exact : forall z, (Z.abs z <= 9007199254740992)%Z ->
  is_finite (f64_ofZ z) = true /\ B2R (f64_ofZ z) = IZR z.
Proof.
  intros z Hz. unfold f64_ofZ.
  pose proof (binary_normalize_correct 53 1024 f64_prec f64_emax mode_NE z 0 false) as H. cbv zeta in H.
  assert (Hf : F2R (Float radix2 z 0) = IZR z) by (unfold F2R; simpl; lra).
  rewrite Hf in H.
  assert (Hg : generic_format radix2 (SpecFloat.fexp 53 1024) (IZR z)).
  { apply generic_format_FLT. 
    destruct (Z.eq_dec (Z.abs z) 9007199254740992) as [E|E].
    - assert (z = 9007199254740992 \/ z = -9007199254740992)%Z as [-> | ->] by lia.
      + apply (FLT_spec radix2 _ 53 _ (Float radix2 1 53)); [unfold F2R; simpl; lra|reflexivity|vm_compute; discriminate].
      + apply (FLT_spec radix2 _ 53 _ (Float radix2 (-1) 53)); [unfold F2R; simpl; lra|reflexivity|vm_compute; discriminate].
    - apply (FLT_spec radix2 _ 53 _ (Float radix2 z 0)); [auto| |vm_compute; discriminate]. change (Zpower radix2 53) with 9007199254740992%Z. simpl. lia. }
  rewrite round_generic in H; [|apply valid_rnd_round_mode|exact Hg].
  rewrite Rlt_bool_true in H.
  - destruct H as [H1 [H2 _]]. split; [exact H2|exact H1].
  - rewrite <- abs_IZR. apply Rle_lt_trans with (IZR 9007199254740992).
    + apply IZR_le. lia.
    + replace (IZR 9007199254740992) with (bpow radix2 53) by (simpl; lra). apply bpow_lt. reflexivity.
Qed.
