(* The binary64 operations seen as extended reals: the exact operation followed by one rounding. *)
From Coq Require Import List NArith ZArith Bool Reals Lra Lia Arith.
From Flocq Require Import Core.
From Flocq Require Import IEEE754.BinarySingleNaN.
Require Import Verif.Base Verif.Num Verif.F64 Verif.XReal Verif.Mode Verif.Order Verif.F64Lemmas Verif.CastLemmas
  Verif.CeilLemmas Verif.MedianLemmas.
Import ListNotations.
Open Scope R_scope.

(* rounding to nearest with overflow to infinity *)
Definition xround (x : xreal) : xreal :=
  match x with
  | XFin r => if Rlt_bool (Rabs (rnd64 r)) (bpow radix2 1024) then XFin (rnd64 r) else XInf (Rltb r 0)
  | _ => x
  end.

Lemma f2x_finite : forall a : f64, is_finite a = true -> f2x a = XFin (B2R a).
Proof. intros [s|s| |s m e B] H; try discriminate; reflexivity. Qed.
Lemma f2x_overflow : forall (a : f64) s, B2SF a = binary_overflow 53 1024 mode_NE s -> f2x a = XInf s.
Proof. intros [t|t| |t m e B] s H; cbn in H; unfold binary_overflow in H; cbn in H; inversion H. reflexivity. Qed.

Lemma rnd64_opp : forall r, rnd64 (- r) = - rnd64 r.
Proof. intros r. unfold rnd64. apply round_NE_opp. Qed.
Lemma rnd64_0 : rnd64 0 = 0.
Proof. unfold rnd64. apply round_0. apply valid_rnd_round_mode. Qed.

Lemma sign_neg : forall a : f64, Bsign a = true -> B2R a <= 0.
Proof.
  intros [s|s| |s m e B] H; cbn in *; try lra. subst. apply Rlt_le, F2R_lt_0. reflexivity.
Qed.
Lemma sign_pos : forall a : f64, Bsign a = false -> 0 <= B2R a.
Proof.
  intros [s|s| |s m e B] H; cbn in *; try lra. subst. apply Rlt_le, F2R_gt_0. reflexivity.
Qed.

Lemma f2x_add : forall a b : f64, f2x (nadd a b) = xround (x_add (f2x a) (f2x b)).
Proof.
  intros a b. change (nadd a b) with (f64_add a b).
  destruct (is_finite a) eqn:Fa; [destruct (is_finite b) eqn:Fb|].
  - rewrite (f2x_finite a Fa), (f2x_finite b Fb). cbn [x_add xround].
    pose proof (Bplus_correct 53 1024 f64_prec f64_emax mode_NE a b Fa Fb) as Hc. cbv zeta in Hc.
    change (round radix2 (SpecFloat.fexp 53 1024) (round_mode mode_NE) (B2R a + B2R b)) with (rnd64 (B2R a + B2R b)) in Hc.
    destruct (Rlt_bool _ _) eqn:Eb.
    + destruct Hc as [Hc [Hf _]]. unfold f64_add. rewrite (f2x_finite _ Hf), Hc. reflexivity.
    + destruct Hc as [Hc Hs]. unfold f64_add. rewrite (f2x_overflow _ _ Hc). f_equal.
      assert (Hz : B2R a + B2R b <> 0).
      { intros E0. rewrite E0, rnd64_0, Rabs_R0 in Eb. rewrite Rlt_bool_true in Eb; [discriminate|apply bpow_gt_0]. }
      destruct (Bsign a) eqn:Sa; symmetry in Hs.
      * apply sign_neg in Sa. apply sign_neg in Hs. symmetry. apply Rltb_true. lra.
      * apply sign_pos in Sa. apply sign_pos in Hs. symmetry. apply Rltb_false. lra.
  - destruct a as [s|s| |s m e B], b as [t|t| |t m' e' B']; try discriminate; reflexivity.
  - destruct a as [s|s| |s m e B], b as [t|t| |t m' e' B']; try discriminate; try reflexivity. destruct s, t; reflexivity.
Qed.

Lemma f2x_neg : forall a : f64, f2x (nneg a) = x_neg (f2x a).
Proof.
  intros a. change (nneg a) with (Bopp a). destruct a as [s|s| |s m e B]; try reflexivity.
  - cbn. rewrite Ropp_0. reflexivity.
  - change (XFin (B2R (Bopp (B754_finite s m e B))) = XFin (- B2R (B754_finite s m e B))). rewrite B2R_Bopp. reflexivity.
Qed.
Lemma sub_add : forall a b : f64, nsub a b = nadd a (nneg b).
Proof. intros [s|s| |s m e B] [t|t| |t m' e' B']; reflexivity. Qed.
Lemma f2x_sub : forall a b : f64, f2x (nsub a b) = xround (x_sub (f2x a) (f2x b)).
Proof. intros. rewrite sub_add, f2x_add, f2x_neg. reflexivity. Qed.
Lemma f2x_abs : forall a : f64, f2x (nabs a) = x_abs (f2x a).
Proof.
  intros a. change (nabs a) with (Babs a). destruct a as [s|s| |s m e B]; try reflexivity.
  - cbn. rewrite Rabs_R0. reflexivity.
  - change (XFin (B2R (Babs (B754_finite s m e B))) = XFin (Rabs (B2R (B754_finite s m e B)))). rewrite B2R_Babs. reflexivity.
Qed.

Lemma mul_sign : forall a b : f64, is_finite a = true -> is_finite b = true -> B2R a * B2R b <> 0 ->
  xorb (Bsign a) (Bsign b) = Rltb (B2R a * B2R b) 0.
Proof.
  intros a b Fa Fb H. destruct (Bsign a) eqn:Sa, (Bsign b) eqn:Sb; cbn; symmetry;
    [apply sign_neg in Sa; apply sign_neg in Sb|apply sign_neg in Sa; apply sign_pos in Sb|
     apply sign_pos in Sa; apply sign_neg in Sb|apply sign_pos in Sa; apply sign_pos in Sb];
    [apply Rltb_false|apply Rltb_true|apply Rltb_true|apply Rltb_false]; nra.
Qed.
Lemma f2x_mul : forall a b : f64, f2x (nmul a b) = xround (x_mul (f2x a) (f2x b)).
Proof.
  intros a b. change (nmul a b) with (f64_mul a b).
  destruct (is_finite a) eqn:Fa; [destruct (is_finite b) eqn:Fb|].
  - rewrite (f2x_finite a Fa), (f2x_finite b Fb). cbn [x_mul xround].
    pose proof (Bmult_correct 53 1024 f64_prec f64_emax mode_NE a b) as Hc. cbv zeta in Hc.
    change (round radix2 (SpecFloat.fexp 53 1024) (round_mode mode_NE) (B2R a * B2R b)) with (rnd64 (B2R a * B2R b)) in Hc.
    destruct (Rlt_bool _ _) eqn:Eb.
    + destruct Hc as [Hc [Hf _]]. unfold f64_mul. rewrite Fa, Fb in Hf. rewrite (f2x_finite _ Hf), Hc. reflexivity.
    + unfold f64_mul. rewrite (f2x_overflow _ _ Hc). f_equal. apply mul_sign; auto.
      intros E0. rewrite E0, rnd64_0, Rabs_R0 in Eb. rewrite Rlt_bool_true in Eb; [discriminate|apply bpow_gt_0].
  - destruct a as [s|s| |s m e B], b as [t|t| |t m' e' B']; try discriminate; try reflexivity.
    + cbn. unfold x_signed_inf, Rltb. destruct (Rlt_dec 0 0); [lra|]. destruct (Rlt_dec 0 0); [lra|]. reflexivity.
    + change (f2x (B754_infinity (xorb s t)) = xround (x_signed_inf t (B2R (B754_finite s m e B)))).
      cbn [f2x]. unfold x_signed_inf, Rltb. destruct s.
      * assert (B2R (B754_finite true m e B) < 0) by (apply F2R_lt_0; reflexivity).
        destruct (Rlt_dec _ _); [lra|]. destruct (Rlt_dec _ _); [|lra]. destruct t; reflexivity.
      * assert (0 < B2R (B754_finite false m e B)) by (apply F2R_gt_0; reflexivity).
        destruct (Rlt_dec _ _); [|lra]. destruct t; reflexivity.
  - destruct a as [s|s| |s m e B], b as [t|t| |t m' e' B']; try discriminate; try reflexivity.
    + cbn. unfold x_signed_inf, Rltb. destruct (Rlt_dec 0 0); [lra|]. destruct (Rlt_dec 0 0); [lra|]. reflexivity.
    + change (f2x (B754_infinity (xorb s t)) = xround (x_signed_inf s (B2R (B754_finite t m' e' B')))).
      cbn [f2x]. unfold x_signed_inf, Rltb. destruct t.
      * assert (B2R (B754_finite true m' e' B') < 0) by (apply F2R_lt_0; reflexivity).
        destruct (Rlt_dec _ _); [lra|]. destruct (Rlt_dec _ _); [|lra]. destruct s; reflexivity.
      * assert (0 < B2R (B754_finite false m' e' B')) by (apply F2R_gt_0; reflexivity).
        destruct (Rlt_dec _ _); [|lra]. destruct s; reflexivity.
Qed.

(* division by two *)
Lemma f2x_half : forall a : f64, f2x (ndiv a n2) = xround (x_div (f2x a) (XFin 2)).
Proof.
  intros a. change (ndiv a n2) with (f64_div a (n2 (T := f64))). destruct two_f64 as [F2 E2].
  assert (H2 : Reqb 2 0 = false) by (apply Reqb_false; lra).
  destruct (is_finite a) eqn:Fa.
  - rewrite (f2x_finite a Fa). cbn [x_div]. rewrite H2. cbn [xround].
    pose proof (Bdiv_correct 53 1024 f64_prec f64_emax mode_NE a (n2 (T := f64))) as Hd.
    rewrite E2 in Hd. assert (N2 : 2 <> 0) by lra. specialize (Hd N2). cbv zeta in Hd.
    change (round radix2 (SpecFloat.fexp 53 1024) (round_mode mode_NE) (B2R a / 2)) with (rnd64 (B2R a / 2)) in Hd.
    destruct (Rlt_bool _ _) eqn:Eb.
    + destruct Hd as [H1 [Hf _]]. unfold f64_div. rewrite Fa in Hf. rewrite (f2x_finite _ Hf), H1. reflexivity.
    + unfold f64_div. rewrite (f2x_overflow _ _ Hd). f_equal.
      assert (Hz : B2R a / 2 <> 0).
      { intros E0. rewrite E0, rnd64_0, Rabs_R0 in Eb. rewrite Rlt_bool_true in Eb; [discriminate|apply bpow_gt_0]. }
      change (Bsign (n2 (T := f64))) with false. rewrite xorb_false_r.
      destruct (Bsign a) eqn:Sa; [apply sign_neg in Sa|apply sign_pos in Sa]; symmetry; [apply Rltb_true|apply Rltb_false]; lra.
  - assert (Hl : Rltb 2 0 = false) by (apply Rltb_false; lra).
    destruct a as [s|s| |s m e B]; try discriminate; try reflexivity.
    cbn [f2x x_div]. rewrite Hl. cbn [xround]. unfold f64_div.
    replace (n2 (T := f64)) with (f64_ofZ 2) by reflexivity.
    cbn. rewrite ?xorb_false_r. destruct s; reflexivity.
Qed.

(* the exact operations *)
Lemma x_add_comm : forall a b, x_add a b = x_add b a.
Proof. intros [|[]|r] [|[]|s]; cbn; auto. rewrite Rplus_comm. reflexivity. Qed.
Lemma x_neg_neg : forall a, x_neg (x_neg a) = a.
Proof. intros [|[]|r]; cbn; auto. rewrite Ropp_involutive. reflexivity. Qed.
Lemma x_neg_add : forall a b, x_add (x_neg a) (x_neg b) = x_neg (x_add a b).
Proof. intros [|[]|r] [|[]|s]; cbn; auto. f_equal. ring. Qed.
Lemma x_neg_half : forall a, x_div (x_neg a) (XFin 2) = x_neg (x_div a (XFin 2)).
Proof.
  intros [|[]|r]; cbn; auto; unfold Reqb, Rltb; try (destruct (Rlt_dec 2 0); [lra|reflexivity]).
  destruct (Req_EM_T 2 0); [lra|]. cbn. f_equal. field.
Qed.
Lemma x_neg_ltb : forall a b, x_ltb (x_neg a) (x_neg b) = x_ltb b a.
Proof.
  intros [|[]|r] [|[]|s]; cbn; auto. unfold Rltb. destruct (Rlt_dec _ _), (Rlt_dec _ _); auto; lra.
Qed.
Lemma x_neg_eqb : forall a b, x_eqb (x_neg a) (x_neg b) = x_eqb a b.
Proof.
  intros [|[]|r] [|[]|s]; cbn; auto. unfold Reqb. destruct (Req_EM_T _ _), (Req_EM_T _ _); auto; lra.
Qed.
Lemma x_neg_nan : forall a, x_is_nan (x_neg a) = x_is_nan a.
Proof. intros [|[]|r]; reflexivity. Qed.
Lemma x_neg_abs : forall a, x_abs (x_neg a) = x_abs a.
Proof. intros [|[]|r]; cbn; auto. rewrite Rabs_Ropp. reflexivity. Qed.
Lemma xround_neg : forall a, xround (x_neg a) = x_neg (xround a).
Proof.
  intros [|[]|r]; try reflexivity. cbn [x_neg xround]. rewrite rnd64_opp, Rabs_Ropp. destruct (Rlt_bool _ _) eqn:E; cbn [x_neg]; [reflexivity|]. f_equal.
  assert (Hz : r <> 0).
  { intros ->. rewrite rnd64_0, Rabs_R0 in E. rewrite Rlt_bool_true in E; [discriminate|apply bpow_gt_0]. }
  unfold Rltb. destruct (Rlt_dec _ _), (Rlt_dec _ _); cbn; auto; lra.
Qed.
Lemma xround_nan : forall a, x_is_nan (xround a) = x_is_nan a.
Proof. intros [|[]|r]; try reflexivity. cbn [xround]. destruct (Rlt_bool _ _); reflexivity. Qed.
