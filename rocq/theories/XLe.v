(* Order, rounding, floor and casts on extended reals, and the binary64 operations seen through f2x. *)
From Coq Require Import List NArith ZArith Bool Reals Lra Lia.
From Flocq Require Import Core.
From Flocq Require Import IEEE754.BinarySingleNaN.
Require Import Verif.Num Verif.F64 Verif.XReal Verif.Order Verif.F64Lemmas Verif.CastLemmas Verif.CeilLemmas Verif.XRound.
Open Scope R_scope.

(* a <= b, false when one of them is NaN *)
Definition xle (a b : xreal) : Prop :=
  match a, b with
  | XFin r, XFin s => r <= s
  | XInf true, XFin _ | XInf true, XInf _ | XFin _, XInf false | XInf false, XInf false => True
  | _, _ => False
  end.
Lemma xle_leb : forall a b, x_leb a b = true <-> xle a b.
Proof.
  intros [|[]|r] [|[]|q]; unfold x_leb; cbn; try (split; [discriminate|contradiction]); try (split; reflexivity || trivial; fail).
  unfold Rltb, Reqb. destruct (Rlt_dec r q); cbn; [split; [lra|auto]|]. destruct (Req_EM_T r q); split; auto; try lra; discriminate.
Qed.
Lemma f64_xle : forall a b : f64, nleb a b = true <-> xle (f2x a) (f2x b).
Proof. intros. rewrite f2x_leb. apply xle_leb. Qed.
Lemma xle_refl : forall a, x_is_nan a = false -> xle a a.
Proof. intros [|[]|r] H; cbn; auto; try lra; discriminate. Qed.
Lemma xle_trans : forall a b c, xle a b -> xle b c -> xle a c.
Proof. intros [|[]|a] [|[]|b] [|[]|c]; cbn; auto; try contradiction; lra. Qed.
Lemma xle_nan : forall a b, xle a b -> x_is_nan a = false /\ x_is_nan b = false.
Proof. intros [|[]|a] [|[]|b]; cbn; auto; contradiction. Qed.

Lemma xround_le : forall a b, xle a b -> xle (xround a) (xround b).
Proof.
  intros [|[]|a] [|[]|b]; cbn [xle xround]; auto; try contradiction; intros H.
  - destruct (Rlt_bool_spec (Rabs (rnd64 b)) (bpow radix2 1024)); cbn; auto.
  - destruct (Rlt_bool_spec (Rabs (rnd64 a)) (bpow radix2 1024)); cbn; auto. destruct (Rltb a 0); auto.
  - pose proof (rnd64_le _ _ H) as R. pose proof (bpow_gt_0 radix2 1024) as B. generalize dependent (bpow radix2 1024). intros M.
    intros HM. unfold Rltb.
    assert (S : forall x, Rabs (rnd64 x) >= M -> (x < 0 -> rnd64 x <= - M) /\ (~ x < 0 -> M <= rnd64 x)).
    { intros x Hx. split; intros Hs.
      - assert (X : rnd64 x <= 0) by (rewrite <- rnd64_0; apply rnd64_le; lra). rewrite Rabs_left1 in Hx by lra. lra.
      - assert (X : 0 <= rnd64 x) by (rewrite <- rnd64_0; apply rnd64_le; lra). rewrite Rabs_pos_eq in Hx by lra. lra. }
    destruct (Rlt_bool_spec (Rabs (rnd64 a)) M) as [Ha|Ha]; destruct (Rlt_bool_spec (Rabs (rnd64 b)) M) as [Hb|Hb]; cbn.
    + exact R.
    + apply Rabs_def2 in Ha. destruct (S b) as [S1 S2]; [lra|]. destruct (Rlt_dec b 0) as [Q|Q]; [specialize (S1 Q); lra|exact I].
    + apply Rabs_def2 in Hb. destruct (S a) as [S1 S2]; [lra|]. destruct (Rlt_dec a 0) as [Q|Q]; [exact I|specialize (S2 Q); lra].
    + destruct (S a) as [S1 S2]; [lra|]. destruct (S b) as [S3 S4]; [lra|]. destruct (Rlt_dec a 0) as [Q|Q]; destruct (Rlt_dec b 0) as [P|P]; try exact I. lra.
Qed.
Lemma xround_id : forall r, generic_format radix2 fexp64 r -> Rabs r < bpow radix2 1024 -> xround (XFin r) = XFin r.
Proof. intros r Hr Hb. unfold xround. rewrite rnd64_id by exact Hr. rewrite Rlt_bool_true; auto. Qed.
Lemma xround_f2x : forall a : f64, xround (f2x a) = f2x a.
Proof.
  intros a. destruct (is_finite a) eqn:Fa.
  - rewrite (f2x_finite _ Fa). apply xround_id; [apply format_B2R|apply abs_B2R_lt_emax].
  - destruct a; try discriminate; reflexivity.
Qed.

Lemma floor_le : forall a b, xle a b -> xle (x_floor a) (x_floor b).
Proof.
  intros [|[]|a] [|[]|b]; cbn; auto. intros H. apply IZR_le. apply Zfloor_le. exact H.
Qed.
Lemma to_usize_le : forall a b, xle a b -> (x_to_usize a <= x_to_usize b)%N.
Proof.
  intros [|[]|a] [|[]|b]; cbn; try contradiction; intros H; try lia.
  apply Ztrunc_le in H. lia.
Qed.

Lemma f2x_floor : forall a : f64, f2x (nfloor a) = x_floor (f2x a).
Proof.
  intros a. change (nfloor a) with (f64_floor a). destruct (is_finite a) eqn:Fa.
  - destruct (Bnearbyint_correct 53 1024 f64_emax mode_DN a) as [H1 [H2 _]]. rewrite (f2x_finite _ Fa). unfold f64_floor.
    rewrite f2x_finite by (rewrite H2; exact Fa). rewrite H1. cbn [x_floor]. f_equal.
    unfold round, scaled_mantissa, cexp, FIX_exp, F2R. simpl. rewrite !Rmult_1_r. reflexivity.
  - destruct a; try discriminate; reflexivity.
Qed.
Lemma f2x_to_usize : forall a : f64, nto_usize a = x_to_usize (f2x a).
Proof.
  intros a. change (nto_usize a) with (f64_to_usize a). destruct (is_finite a) eqn:Fa.
  - rewrite (f2x_finite _ Fa). cbn [x_to_usize].
    assert (Hb : Btrunc a = Ztrunc (B2R a)).
    { pose proof (Btrunc_correct 53 1024 f64_emax a) as H. apply eq_IZR. rewrite H.
      unfold round, scaled_mantissa, cexp, FIX_exp, F2R. simpl. rewrite !Rmult_1_r. reflexivity. }
    rewrite <- Hb. destruct a; try discriminate; reflexivity.
  - destruct a; try discriminate; reflexivity.
Qed.
Lemma f2x_ofZ : forall z, (Z.abs z <= 9007199254740992)%Z -> f2x (nofZ z) = XFin (IZR z).
Proof. intros z Hz. change (nofZ z) with (f64_ofZ z). destruct (f64_ofZ_exact z Hz) as [H1 H2]. rewrite (f2x_finite _ H1), H2. reflexivity. Qed.
Lemma f2x_max : forall a b : f64, f2x (nmax a b) = nmax (f2x a) (f2x b).
Proof.
  intros a b. unfold nmax. rewrite !f2x_nan, f2x_ltb. cbn [nis_nan nltb Num_xreal].
  destruct (x_is_nan (f2x a)); auto. destruct (x_is_nan (f2x b)); auto. destruct (x_ltb _ _); auto.
Qed.
Lemma xmax_one : forall a, xle (XFin 1) (nmax a (XFin 1)).
Proof.
  intros [|[]|a]; unfold nmax; cbn; try lra; auto. unfold Rltb. destruct (Rlt_dec 1 a); cbn; lra.
Qed.
Lemma xmax_up : forall a b, x_ltb (nmax b (XFin 1)) a = false -> xle (nmax a (XFin 1)) (nmax b (XFin 1)).
Proof.
  intros [|[]|a] [|[]|b]; unfold nmax; cbn; unfold Rltb; repeat (destruct (Rlt_dec _ _); cbn); try discriminate; try lra; auto;
    unfold Rltb in *; repeat (destruct (Rlt_dec _ _)); try discriminate; try lra; auto.
Qed.

(* division by a positive finite number *)
Lemma f2x_div_pos : forall (a b : f64) r, f2x b = XFin r -> 0 < r -> f2x (ndiv a b) = xround (x_div (f2x a) (XFin r)).
Proof.
  intros a b r Hb Hr. change (ndiv a b) with (f64_div a b).
  assert (Fb : is_finite b = true) by (destruct b; try discriminate; reflexivity).
  rewrite (f2x_finite b Fb) in Hb. injection Hb as Eb'.
  assert (Sb : Bsign b = false) by (destruct (Bsign b) eqn:Sb; [apply sign_neg in Sb; lra|reflexivity]).
  assert (H2 : Reqb r 0 = false) by (apply Reqb_false; lra).
  destruct (is_finite a) eqn:Fa.
  - rewrite (f2x_finite a Fa). cbn [x_div]. rewrite H2. cbn [xround].
    pose proof (Bdiv_correct 53 1024 f64_prec f64_emax mode_NE a b) as Hd.
    rewrite Eb' in Hd. assert (N2 : r <> 0) by lra. specialize (Hd N2). cbv zeta in Hd.
    change (round radix2 (SpecFloat.fexp 53 1024) (round_mode mode_NE) (B2R a / r)) with (rnd64 (B2R a / r)) in Hd.
    destruct (Rlt_bool _ _) eqn:Eb.
    + destruct Hd as [H1 [Hf _]]. unfold f64_div. rewrite Fa in Hf. rewrite (f2x_finite _ Hf), H1. reflexivity.
    + unfold f64_div. rewrite (f2x_overflow _ _ Hd). f_equal.
      assert (Hz : B2R a / r <> 0).
      { intros E0. rewrite E0, rnd64_0, Rabs_R0 in Eb. rewrite Rlt_bool_true in Eb; [discriminate|apply bpow_gt_0]. }
      rewrite Sb, xorb_false_r.
      assert (Ha : B2R a <> 0) by (intros X; apply Hz; rewrite X; unfold Rdiv; ring).
      assert (Hi : 0 < / r) by (apply Rinv_0_lt_compat; exact Hr).
      destruct (Bsign a) eqn:Sa; [apply sign_neg in Sa|apply sign_pos in Sa]; symmetry; [apply Rltb_true|apply Rltb_false]; unfold Rdiv; nra.
  - assert (Hl : Rltb r 0 = false) by (apply Rltb_false; lra).
    destruct a as [s|s| |s m e B]; try discriminate; try (destruct b; reflexivity).
    cbn [f2x x_div]. rewrite Hl. cbn [xround]. unfold f64_div.
    destruct b as [s'|s'| |s' m' e' B']; try discriminate Fb; cbn in Sb; rewrite Sb; destruct s; reflexivity.
Qed.

Lemma xround_bpow : forall e, (-1074 <= e)%Z -> (e < 1024)%Z -> xround (XFin (bpow radix2 e)) = XFin (bpow radix2 e).
Proof.
  intros e H1 H2. apply xround_id.
  - apply generic_format_bpow. unfold SpecFloat.fexp, SpecFloat.emin. lia.
  - rewrite Rabs_pos_eq by apply bpow_ge_0. apply bpow_lt. exact H2.
Qed.
Lemma xround_between : forall e1 e2 x, (-1074 <= e1)%Z -> (e2 < 1024)%Z -> bpow radix2 e1 <= x <= bpow radix2 e2 ->
  exists y, xround (XFin x) = XFin y /\ bpow radix2 e1 <= y <= bpow radix2 e2.
Proof.
  intros e1 e2 x H1 H2 [X1 X2].
  assert (He : (e1 <= e2)%Z) by (apply (le_bpow radix2); lra).
  pose proof (xround_le (XFin _) (XFin x) X1) as A. pose proof (xround_le (XFin x) (XFin _) X2) as B.
  rewrite xround_bpow in A by lia. rewrite xround_bpow in B by lia.
  destruct (xround (XFin x)) as [|[]|y]; try contradiction. exists y. split; [reflexivity|]. split; assumption.
Qed.
