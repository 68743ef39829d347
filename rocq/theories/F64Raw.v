(* The raw weights in binary64, when the logarithm of the platform is accurate to a few units in the last place. *)
From Coq Require Import List NArith ZArith Bool Reals Lra Lia Arith Psatz Sorting.Sorted.
From Flocq Require Import Core.
From Flocq Require Import IEEE754.BinarySingleNaN.
Require Import Verif.Base Verif.Lib Verif.Num Verif.F64 Verif.XReal Verif.Weights Verif.Params Verif.Order Verif.F64Lemmas Verif.CeilLemmas Verif.XRound Verif.XLe
  Verif.F64Acc Verif.F64Weights Verif.F64Rates.
Import ListNotations.
Open Scope R_scope.

(* the platform's logarithm of a number from 1 to 2^40 is finite and has a relative error of at most 2^-50 (8 units of 2^-53) *)
Definition accurate_ln {L : Libm f64} : Prop :=
  forall x : f64, is_finite x = true -> 1 <= B2R x <= 1099511627776 ->
    is_finite (lm_ln x) = true /\ Rabs (B2R (lm_ln x) - ln (B2R x)) <= ln (B2R x) / 1125899906842624.

Lemma ln_le : forall x y, 0 < x -> x <= y -> ln x <= ln y.
Proof. intros x y H [K|K]; [left; apply ln_increasing; assumption|subst; apply Rle_refl]. Qed.
Lemma ln_up : forall x, 0 < x -> ln x <= x - 1.
Proof.
  intros x H. destruct (Req_dec x 1) as [->|N]; [rewrite ln_1; lra|].
  assert (K : 1 + (x - 1) < exp (x - 1) \/ x - 1 = 0) by (destruct (Req_dec (x - 1) 0); [right; auto|left; apply exp_ineq1; auto]).
  destruct K as [K|K]; [|lra]. rewrite <- (ln_exp (x - 1)). left. apply ln_increasing; lra.
Qed.
Lemma ln_gap : forall x y, 0 < x <= y -> (y - x) / y <= ln y - ln x.
Proof.
  intros x y H. pose proof (ln_up (x / y)) as K. assert (0 < x / y) by (apply Rdiv_lt_0_compat; lra). specialize (K H0).
  unfold Rdiv in K at 1. rewrite ln_mult in K; [|lra|apply Rinv_0_lt_compat; lra]. rewrite ln_Rinv in K by lra.
  replace ((y - x) / y) with (1 - x / y) by (field; lra). lra.
Qed.
Lemma ln_40 : forall x, 1 <= x <= 1099511627776 -> 0 <= ln x <= 40.
Proof.
  intros x H. split; [rewrite <- ln_1; apply ln_le; lra|].
  apply Rle_trans with (ln (2 ^ 40)); [apply ln_le; lra|]. rewrite ln_pow by lra. pose proof (ln_up 2 ltac:(lra)). replace (INR 40) with 40 by (rewrite INR_IZR_INZ; reflexivity). lra.
Qed.
Lemma sorted_seq : forall (W : nat -> R) n a, (forall i j, (a <= i < j)%nat -> (j < a + n)%nat -> W j <= W i) -> StronglySorted (fun x y => y <= x) (map W (seq a n)).
Proof.
  induction n as [|n IH]; intros a H; cbn [seq map]; constructor.
  - apply IH. intros i j Hij Hj. apply H; lia.
  - apply Forall_forall. intros x Hx. apply in_map_iff in Hx. destruct Hx as [j [<- Hj]]. apply in_seq in Hj. apply H; lia.
Qed.
Lemma split_seq : forall {A} (W : nat -> A) k n, (k <= n)%nat -> firstn k (map W (seq 1 n)) = map W (seq 1 k) /\ skipn k (map W (seq 1 n)) = map W (seq (1 + k) (n - k)).
Proof.
  intros A W k n H. assert (E : map W (seq 1 n) = map W (seq 1 k) ++ map W (seq (1 + k) (n - k))) by (rewrite <- map_app, <- seq_app; do 2 f_equal; lia).
  assert (El : length (map W (seq 1 k)) = k) by (rewrite map_length, seq_length; reflexivity).
  rewrite E. rewrite firstn_app, skipn_app, El, Nat.sub_diag. rewrite (firstn_all2 (n := k)), (skipn_all2 (n := k)) by lia.
  split; [apply app_nil_r|reflexivity].
Qed.

Lemma Forall2_map_seq : forall {A B} (P : A -> B -> Prop) f g n a, (forall i, (a <= i < a + n)%nat -> P (f i) (g i)) -> Forall2 P (map f (seq a n)) (map g (seq a n)).
Proof. induction n as [|n IH]; intros a H; cbn [seq map]; constructor; [apply H; lia|apply IH; intros i Hi; apply H; lia]. Qed.

Section Raw.
  Context {L : Libm f64} (Hln : accurate_ln) (lambda : N) (Hl : (2 <= lambda <= 1099511627775)%N).

  Lemma ln_is : forall x r, is x r -> 1 <= r <= 1099511627776 -> is (lm_ln x) (B2R (lm_ln x)) /\ Rabs (B2R (lm_ln x) - ln r) <= 40 / 1125899906842624.
  Proof.
    intros x r Hx Hr. apply is_B2R in Hx. destruct Hx as [F E]. destruct (Hln x F) as [A B]; [rewrite E; exact Hr|]. rewrite E in B.
    split; [unfold is; apply f2x_finite; exact A|]. pose proof (ln_40 r Hr). lra.
  Qed.

  Let lam := IZR (Z.of_N lambda).
  Let A := (lam + 1) / 2.
  Lemma lam_range : 2 <= lam <= 1099511627775.
  Proof. unfold lam. split; [apply (IZR_le 2)|apply (IZR_le _ 1099511627775)]; lia. Qed.

  Lemma A_is : is (ndiv (nadd (nofN lambda) n1) n2) A.
  Proof.
    pose proof lam_range as Hr. assert (E : lam + 1 = IZR (Z.of_N lambda + 1)) by (unfold lam; rewrite plus_IZR; reflexivity).
    assert (K : is (nadd (nofN lambda) n1) (2 * A)).
    { replace (2 * A) with (rnd64 (lam + 1)); [apply is_add; [apply is_ofN; lia|exact is1|apply bigp; lra]|].
      replace (2 * A) with (lam + 1) by (unfold A; field). apply Rle_antisym; rewrite E; [apply rnd_le_int|apply rnd_int_le]; lia || lra. }
    apply rnd_halve; [exact K|exact K|apply bigp; unfold A; lra|].
    replace A with (F2R (Float radix2 (Z.of_N lambda + 1) (-1))) by (unfold F2R; cbn [Fnum Fexp]; rewrite <- E; unfold A; cbn; field).
    apply (generic_format_FLT radix2 (-1074) 53). exists (Float radix2 (Z.of_N lambda + 1) (-1)); [reflexivity|cbn [Fnum]; cbn; lia|cbn; lia].
  Qed.

  Definition LA := B2R (lm_ln (ndiv (nadd (nofN lambda) n1) n2 : f64)).
  Definition LI (i : nat) := B2R (lm_ln (nofN (N.of_nat i) : f64)).
  Definition W (i : nat) := rnd64 (LA - LI i).

  Lemma la_err : is (lm_ln (ndiv (nadd (nofN lambda) n1) n2)) LA /\ Rabs (LA - ln A) <= 40 / 1125899906842624.
  Proof. pose proof lam_range. apply ln_is; [exact A_is|]. unfold A. lra. Qed.
  Lemma inat : forall i, IZR (Z.of_N (N.of_nat i)) = INR i.
  Proof. intros i. rewrite INR_IZR_INZ. f_equal. lia. Qed.
  Lemma irange : forall i, (1 <= i <= N.to_nat lambda)%nat -> 1 <= INR i <= lam.
  Proof. intros i H. rewrite INR_IZR_INZ. unfold lam. split; [apply (IZR_le 1)|apply IZR_le]; lia. Qed.
  Lemma li_err : forall i, (1 <= i <= N.to_nat lambda)%nat -> is (lm_ln (nofN (N.of_nat i))) (LI i) /\ Rabs (LI i - ln (INR i)) <= 40 / 1125899906842624.
  Proof. intros i Hi. pose proof lam_range. pose proof (irange i Hi). apply ln_is; [rewrite <- inat; apply is_ofN; lia|lra]. Qed.

  Lemma diff_err : forall i, (1 <= i <= N.to_nat lambda)%nat -> - (80 / 1125899906842624) <= LA - LI i - (ln A - ln (INR i)) <= 80 / 1125899906842624.
  Proof. intros i Hi. destruct la_err as [_ B1]. destruct (li_err i Hi) as [_ B2]. apply Rabs_le_inv in B1, B2. lra. Qed.

  Lemma w_is : forall i, (1 <= i <= N.to_nat lambda)%nat -> is (raw_weight lambda (N.of_nat i)) (W i) /\ -50 <= LA - LI i <= 50.
  Proof.
    intros i Hi. destruct la_err as [A1 _]. destruct (li_err i Hi) as [A2 _]. pose proof (diff_err i Hi) as D. pose proof lam_range. pose proof (irange i Hi).
    pose proof (ln_40 (INR i) ltac:(lra)). pose proof (ln_40 A ltac:(unfold A; lra)). assert (B : -50 <= LA - LI i <= 50) by lra. split; [|exact B].
    unfold raw_weight, W. apply is_sub; auto. apply big. apply Rabs_le. lra.
  Qed.

  Lemma rnd_small_ge : forall x, / 4398046511104 <= x -> / 4398046511104 <= rnd64 x.
  Proof.
    intros x H. change 4398046511104 with (bpow radix2 42) in *. rewrite <- bpow_opp in *.
    rewrite <- (rnd64_id (bpow radix2 (- (42)))) by (apply generic_format_bpow; unfold SpecFloat.fexp, SpecFloat.emin; lia). apply rnd64_le. exact H.
  Qed.

  Lemma gap_ge : forall x y, 0 < x -> y <= 1099511627776 -> / 2 <= y - x -> / 2199023255552 <= ln y - ln x.
  Proof.
    intros x y Hx Hy Hg. pose proof (ln_gap x y ltac:(lra)) as G. apply Rle_trans with (2 := G).
    apply Rmult_le_reg_r with y; [lra|]. replace ((y - x) / y * y) with (y - x) by (field; lra). lra.
  Qed.

  Lemma w_pos : forall i, (1 <= i)%nat -> (2 * i <= N.to_nat lambda)%nat -> / 4398046511104 <= W i <= 64.
  Proof.
    intros i H1 H2. assert (Hi : (1 <= i <= N.to_nat lambda)%nat) by lia. destruct (w_is i Hi) as [_ B]. pose proof (diff_err i Hi) as D. pose proof (irange i Hi) as Ir.
    pose proof lam_range as Lr. assert (G : 2 * INR i <= lam).
    { rewrite INR_IZR_INZ, <- (mult_IZR 2). unfold lam. apply IZR_le. lia. }
    pose proof (gap_ge (INR i) A ltac:(lra) ltac:(unfold A; lra) ltac:(unfold A; lra)) as Gp.
    split; [apply rnd_small_ge; lra|apply (rnd_le_int 64); [lia|lra]].
  Qed.

  Lemma w_neg : forall i, (i <= N.to_nat lambda)%nat -> (N.to_nat lambda + 1 < 2 * i)%nat -> -64 <= W i <= - / 4398046511104.
  Proof.
    intros i H1 H2. assert (Hi : (1 <= i <= N.to_nat lambda)%nat) by lia. destruct (w_is i Hi) as [_ B]. pose proof (diff_err i Hi) as D. pose proof (irange i Hi) as Ir.
    pose proof lam_range as Lr. assert (G : lam + 2 <= 2 * INR i).
    { rewrite INR_IZR_INZ, <- (mult_IZR 2). unfold lam. rewrite <- (plus_IZR _ 2). apply IZR_le. lia. }
    pose proof (gap_ge A (INR i) ltac:(unfold A; lra) ltac:(lra) ltac:(unfold A; lra)) as Gp.
    split; [apply (rnd_int_le (-64)); [lia|lra]|]. apply Ropp_le_cancel. rewrite Ropp_involutive. unfold W. rewrite <- rnd64_opp. apply rnd_small_ge. lra.
  Qed.

  Lemma w_mid : forall i, (N.to_nat lambda + 1 = 2 * i)%nat -> W i = 0.
  Proof.
    intros i H. assert (E : (nofN (N.of_nat i) : f64) = ndiv (nadd (nofN lambda) n1) n2).
    { pose proof lam_range. apply is_inj with A; [|exact A_is|unfold A; lra]. replace A with (IZR (Z.of_N (N.of_nat i))) by
      (rewrite inat; unfold A, lam; rewrite INR_IZR_INZ; replace (Z.of_N lambda) with (2 * Z.of_nat i - 1)%Z by lia; rewrite minus_IZR, mult_IZR; field).
      apply is_ofN. lia. }
    unfold W, LI, LA. rewrite E, Rminus_diag_eq by reflexivity. apply rnd64_id. apply generic_format_0.
  Qed.

  Lemma w_mono : forall i j, (1 <= i < j)%nat -> (j <= N.to_nat lambda)%nat -> W j <= W i.
  Proof.
    intros i j H1 H2. apply rnd64_le. destruct (li_err i ltac:(lia)) as [_ B1]. destruct (li_err j ltac:(lia)) as [_ B2]. apply Rabs_le_inv in B1, B2.
    pose proof (irange i ltac:(lia)) as I1. pose proof (irange j ltac:(lia)) as I2. pose proof lam_range as Lr.
    assert (G : 1 <= INR j - INR i) by (rewrite <- minus_INR by lia; apply (le_INR 1); lia).
    pose proof (gap_ge (INR i) (INR j) ltac:(lra) ltac:(lra) ltac:(lra)). lra.
  Qed.

  Lemma w_second : (4 <= lambda)%N -> 15 / 100 * W 1 <= W 2.
  Proof.
    intros H4. pose proof lam_range as Lr. assert (L4 : 4 <= lam) by (unfold lam; apply (IZR_le 4); lia). destruct (w_is 1 ltac:(lia)) as [_ B1]. destruct (w_is 2 ltac:(lia)) as [_ B2].
    pose proof (diff_err 1 ltac:(lia)) as D1. pose proof (diff_err 2 ltac:(lia)) as D2. cbn [INR] in D1, D2. rewrite ln_1 in D1. replace (1 + 1) with 2 in D2 by ring.
    assert (E5 : 6 * ln 2 <= 5 * ln A).
    { assert (K : ln (2 ^ 6) <= ln (A ^ 5)).
      { apply ln_le; [lra|]. apply Rle_trans with ((5 / 2) ^ 5); [lra|]. apply pow_incr. unfold A. lra. }
      rewrite !ln_pow in K by (unfold A; lra). replace (INR 6) with 6 in K by (rewrite INR_IZR_INZ; reflexivity). replace (INR 5) with 5 in K by (rewrite INR_IZR_INZ; reflexivity). lra. }
    pose proof ln_lt_2 as L2.
    assert (N2 : / 1606938044258990275541962092341162602522202993782792835301376 <= LA - LI 2) by lra.
    assert (N1 : / 1606938044258990275541962092341162602522202993782792835301376 <= LA - LI 1) by lra.
    destruct (near _ N1) as [_ K1]. destruct (near _ N2) as [K2 _]. unfold W. set (a := rnd64 (LA - LI 1)) in *. set (b := rnd64 (LA - LI 2)) in *. clearbody a b.
    lra.
  Qed.

  Theorem raw_new : forall setting, exists rs, raw_ok (iw_weights (iw_new lambda setting)) rs (N.to_nat (lambda / 2)) /\
    length rs = length (iw_weights (iw_new (T := f64) lambda setting)).
  Proof.
    intros setting. unfold iw_new. cbn [iw_weights iw_mu]. assert (Hm : (1 <= N.to_nat (lambda / 2))%nat).
    { assert (1 <= lambda / 2)%N by (apply N.div_le_lower_bound; lia). lia. }
    assert (Hm2 : (2 * N.to_nat (lambda / 2) <= N.to_nat lambda)%nat) by (pose proof (N.mul_div_le lambda 2 ltac:(lia)); lia).
    assert (Hm3 : (N.to_nat lambda + 1 <= 2 * (N.to_nat (lambda / 2) + 1))%nat) by (pose proof (N.mul_succ_div_gt lambda 2 ltac:(lia)); lia).
    set (mu := N.to_nat (lambda / 2)) in *.
    assert (Main : forall n, (mu <= n <= N.to_nat lambda)%nat -> (n = mu \/ n = N.to_nat lambda) ->
      raw_ok (map (raw_weight lambda) (map N.of_nat (seq 1 n))) (map W (seq 1 n)) mu).
    { intros n Hn Hc. destruct (split_seq W mu n ltac:(lia)) as [Ef Es]. constructor.
      - rewrite map_map. apply Forall2_map_seq. intros i Hi. apply (w_is i); lia.
      - lia.
      - rewrite map_length, seq_length. lia.
      - rewrite Ef. apply Forall_forall. intros x Hx. apply in_map_iff in Hx. destruct Hx as [i [<- Hi]]. apply in_seq in Hi. apply w_pos; lia.
      - rewrite Es. apply Forall_forall. intros x Hx. apply in_map_iff in Hx. destruct Hx as [i [<- Hi]]. apply in_seq in Hi.
        destruct (Nat.eq_dec (N.to_nat lambda + 1) (2 * i)) as [E|E]; [left; apply w_mid; exact E|right; apply w_neg; lia].
      - rewrite Es. intros K. destruct Hc as [Hc|Hc]; [rewrite Hc, Nat.sub_diag in K; elim K; reflexivity|].
        apply Exists_exists. exists (W n). split; [apply in_map; apply in_seq; lia|]. pose proof (w_neg n ltac:(lia) ltac:(lia)). lra.
      - apply sorted_seq. intros i j Hij Hj. apply w_mono; lia.
      - intros H2. destruct n as [|[|n]]; [lia|lia|]. cbn [seq map nth]. apply w_second. lia. }
    destruct setting.
    - exists (map W (seq 1 mu)). unfold one_to. fold mu. split; [apply Main; lia|]. rewrite !map_length. reflexivity.
    - exists (map W (seq 1 (N.to_nat lambda))). unfold one_to. split; [apply Main; lia|]. rewrite !map_length. reflexivity.
    - exists (repeat 1 mu). split; [|rewrite !repeat_length; reflexivity].
      assert (Er : forall n, skipn n (repeat 1 n) = []) by (intros n; rewrite skipn_all2; [reflexivity|rewrite repeat_length; lia]).
      assert (Ef : forall n, firstn n (repeat 1 n) = repeat 1 n) by (intros n; apply firstn_all2; rewrite repeat_length; lia).
      constructor.
      + generalize mu. induction mu0 as [|n IH]; cbn [repeat]; constructor; [exact is1|exact IH].
      + lia.
      + rewrite repeat_length. lia.
      + rewrite Ef. apply Forall_forall. intros x Hx. apply repeat_spec in Hx. lra.
      + rewrite Er. constructor.
      + rewrite Er. intros K. elim K. reflexivity.
      + generalize mu. induction mu0 as [|n IH]; cbn [repeat]; constructor; [exact IH|]. apply Forall_forall. intros x Hx. apply repeat_spec in Hx. lra.
      + intros H2. destruct mu as [|[|n]]; [lia|lia|]. cbn. lra.
  Qed.
End Raw.
