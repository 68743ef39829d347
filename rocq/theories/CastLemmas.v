(* The cast law of PanicLemmas for binary64 and for exact numbers. *)
From Coq Require Import List NArith ZArith Bool Reals Lra Lia.
From Flocq Require Import Core.
From Flocq Require Import IEEE754.BinarySingleNaN.
Require Import Verif.Num Verif.F64 Verif.XReal Verif.Order Verif.F64Lemmas Verif.PanicLemmas.
Open Scope R_scope.

Lemma format_B2R : forall x : f64, generic_format radix2 (SpecFloat.fexp 53 1024) (B2R x).
Proof. intros x. apply (generic_format_B2R 53 1024). Qed.

(* a product with a factor in [0, 1] stays between 0 and the other factor *)
Lemma f64_mul_shrink : forall x y : f64, is_finite x = true -> is_finite y = true ->
  0 <= B2R x -> 0 <= B2R y <= 1 ->
  is_finite (f64_mul x y) = true /\ 0 <= B2R (f64_mul x y) <= B2R x.
Proof.
  intros x y Fx Fy Hx Hy.
  pose proof (Bmult_correct 53 1024 f64_prec f64_emax mode_NE x y) as H. cbv zeta in H.
  assert (H0 : 0 <= round radix2 (SpecFloat.fexp 53 1024) (round_mode mode_NE) (B2R x * B2R y)).
  { rewrite <- (round_0 radix2 (SpecFloat.fexp 53 1024) (round_mode mode_NE)).
    apply round_le; [apply (fexp_correct 53 1024 f64_prec)|apply valid_rnd_round_mode|]. apply Rmult_le_pos; tauto. }
  assert (H1 : round radix2 (SpecFloat.fexp 53 1024) (round_mode mode_NE) (B2R x * B2R y) <= B2R x).
  { rewrite <- (round_generic radix2 (SpecFloat.fexp 53 1024) (round_mode mode_NE) (B2R x)) at 2 by apply format_B2R.
    apply round_le; [apply (fexp_correct 53 1024 f64_prec)|apply valid_rnd_round_mode|].
    rewrite <- (Rmult_1_r (B2R x)) at 2. apply Rmult_le_compat_l; tauto. }
  rewrite Rlt_bool_true in H.
  - destruct H as [H2 [H3 _]]. unfold f64_mul. rewrite Fx, Fy in H3. split; [exact H3|].
    rewrite H2. split; assumption.
  - rewrite Rabs_pos_eq by assumption. eapply Rle_lt_trans; [exact H1|].
    eapply Rle_lt_trans; [apply Rle_abs|]. apply abs_B2R_lt_emax.
Qed.

Lemma f64_to_usize_le : forall (x : f64) n, is_finite x = true -> B2R x <= IZR (Z.of_N n) -> (f64_to_usize x <= n)%N.
Proof.
  intros x n Fx Hx. assert (Hb : (Btrunc x <= Z.of_N n \/ Btrunc x <= 0)%Z).
  { pose proof (Btrunc_correct 53 1024 f64_emax x) as H.
    assert (Hr : round radix2 (FIX_exp 0) Ztrunc (B2R x) = IZR (Ztrunc (B2R x))).
    { unfold round, scaled_mantissa, cexp, FIX_exp, F2R. simpl. rewrite !Rmult_1_r. reflexivity. }
    rewrite Hr in H. apply eq_IZR in H. rewrite H. left. rewrite <- (Ztrunc_IZR (Z.of_N n)). apply Ztrunc_le. exact Hx. }
  destruct x; simpl in *; try discriminate; lia.
Qed.

Lemma third_unit : is_finite (nlit (T := f64) 3 10) = true /\ 0 <= B2R (nlit (T := f64) 3 10) <= 1.
Proof.
  assert (H : is_finite (nlit (T := f64) 3 10) = true) by (vm_compute; reflexivity). split; [exact H|].
  assert (H0 : Bleb (f64_ofZ 0) (nlit (T := f64) 3 10) = true) by (vm_compute; reflexivity).
  assert (H1 : Bleb (nlit (T := f64) 3 10) (f64_ofZ 1) = true) by (vm_compute; reflexivity).
  destruct (f64_ofZ_exact 0) as [F0 E0]; [lia|]. destruct (f64_ofZ_exact 1) as [F1 E1]; [lia|].
  rewrite Bleb_correct in H0, H1 by assumption. rewrite E0 in H0. rewrite E1 in H1.
  split; [apply Rle_bool_true_iff in H0 || idtac|].
  - destruct (Rle_bool_spec 0 (B2R (nlit (T := f64) 3 10))); [assumption|discriminate].
  - destruct (Rle_bool_spec (B2R (nlit (T := f64) 3 10)) 1); [assumption|discriminate].
Qed.

#[global] Instance CastLaws_f64 : CastLaws f64.
Proof.
  constructor. intros n Hn. change nto_usize with f64_to_usize. change nmul with f64_mul.
  destruct (f64_ofZ_exact (Z.of_N n)) as [Fn En]; [lia|].
  destruct third_unit as [Ft Et].
  assert (Hp : 0 <= B2R (f64_ofZ (Z.of_N n))) by (rewrite En; apply IZR_le; lia).
  destruct (f64_mul_shrink (f64_ofZ (Z.of_N n)) (nlit (T := f64) 3 10) Fn Ft Hp Et) as [Fm Em].
  apply f64_to_usize_le; [exact Fm|]. rewrite <- En. apply Em.
Qed.

#[global] Instance CastLaws_xreal : CastLaws xreal.
Proof.
  constructor. intros n Hn.
  assert (Hr : exists r, nlit (T := xreal) 3 10 = XFin r /\ 0 <= r <= 1).
  { unfold nlit. simpl. unfold x_div. destruct (Reqb 10 0) eqn:E.
    - apply Reqb_true in E. lra.
    - eexists. split; [reflexivity|lra]. }
  destruct Hr as [r [-> Hr]]. cbn [nmul nofN nofZ nto_usize Num_xreal x_mul x_to_usize].
  assert (Ht : (Ztrunc (IZR (Z.of_N n) * r) <= Z.of_N n)%Z).
  { rewrite <- (Ztrunc_IZR (Z.of_N n)) at 2. apply Ztrunc_le. rewrite <- (Rmult_1_r (IZR (Z.of_N n))) at 2.
    apply Rmult_le_compat_l; [apply IZR_le; lia|tauto]. }
  lia.
Qed.
