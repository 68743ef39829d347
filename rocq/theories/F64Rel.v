(* Relative errors of binary64 computations, measured as distances of logarithms so that they add up. *)
From Coq Require Import List NArith ZArith Bool Reals Lra Lia Arith Psatz.
From Flocq Require Import Core.
From Flocq Require Import IEEE754.BinarySingleNaN.
Require Import Verif.Base Verif.Lib Verif.Num Verif.F64 Verif.XReal Verif.Order Verif.F64Lemmas Verif.CeilLemmas Verif.XRound Verif.XLe
  Verif.F64Acc Verif.F64Weights Verif.F64Rates.
Import ListNotations.
Open Scope R_scope.

(* x is within a factor exp(e) of the positive number y *)
Definition rel (e x y : R) : Prop := 0 < y /\ y * exp (- e) <= x <= y * exp e.
(* the cost of one rounding *)
Notation e0 := (/ 4503599627370496).

Lemma exp_low : forall x, 1 + x <= exp x.
Proof. intros x. destruct (Req_dec x 0) as [->|N]; [rewrite exp_0; lra|left; apply exp_ineq1; exact N]. Qed.
Lemma exp_neg : forall x, exp (- x) * exp x = 1.
Proof. intros x. rewrite <- exp_plus. replace (- x + x) with 0 by ring. apply exp_0. Qed.
Lemma exp_mono : forall x y, x <= y -> exp x <= exp y.
Proof. intros x y [H|H]; [left; apply exp_increasing; exact H|subst; lra]. Qed.

Lemma rel_pos : forall e x y, rel e x y -> 0 < x.
Proof. intros e x y [H [H1 _]]. pose proof (exp_pos (- e)). nra. Qed.
Lemma rel_refl : forall x, 0 < x -> rel 0 x x.
Proof. intros x H. unfold rel. rewrite Ropp_0, exp_0. lra. Qed.
Lemma rel_weaken : forall e e' x y, rel e x y -> e <= e' -> rel e' x y.
Proof. intros e e' x y [H [H1 H2]] L. pose proof (exp_mono e e' L). pose proof (exp_mono (- e') (- e) ltac:(lra)). split; [exact H|]. split; nra. Qed.
Lemma rel_trans : forall e1 e2 x y z, rel e1 x y -> rel e2 y z -> rel (e1 + e2) x z.
Proof.
  intros e1 e2 x y z [H [H1 H2]] [K [K1 K2]]. split; [exact K|]. rewrite Ropp_plus_distr, !exp_plus.
  pose proof (exp_pos e1). pose proof (exp_pos (- e1)). split.
  - apply Rle_trans with (2 := H1). replace (z * (exp (- e1) * exp (- e2))) with (z * exp (- e2) * exp (- e1)) by ring. apply Rmult_le_compat_r; lra.
  - apply Rle_trans with (1 := H2). replace (z * (exp e1 * exp e2)) with (z * exp e2 * exp e1) by ring. apply Rmult_le_compat_r; lra.
Qed.
Lemma rel_add : forall e x y a b, rel e x a -> rel e y b -> rel e (x + y) (a + b).
Proof. intros e x y a b [H [H1 H2]] [K [K1 K2]]. unfold rel. split; lra. Qed.
Lemma rel_mul : forall e1 e2 x y a b, rel e1 x a -> rel e2 y b -> rel (e1 + e2) (x * y) (a * b).
Proof.
  intros e1 e2 x y a b Hx Hy. pose proof (rel_pos _ _ _ Hx) as P1. pose proof (rel_pos _ _ _ Hy) as P2. destruct Hx as [H [H1 H2]], Hy as [K [K1 K2]].
  split; [nra|]. rewrite Ropp_plus_distr, !exp_plus. pose proof (exp_pos (- e1)). pose proof (exp_pos (- e2)). split.
  - replace (a * b * (exp (- e1) * exp (- e2))) with (a * exp (- e1) * (b * exp (- e2))) by ring. apply Rmult_le_compat; nra.
  - replace (a * b * (exp e1 * exp e2)) with (a * exp e1 * (b * exp e2)) by ring. apply Rmult_le_compat; lra.
Qed.
Lemma rel_inv : forall e x a, rel e x a -> rel e (/ x) (/ a).
Proof.
  intros e x a Hx. pose proof (rel_pos _ _ _ Hx) as P. destruct Hx as [H [H1 H2]]. pose proof (exp_neg e) as En. pose proof (exp_pos e). pose proof (exp_pos (- e)).
  split; [apply Rinv_0_lt_compat; exact H|]. split.
  - apply Rmult_le_reg_r with (x * a); [nra|]. replace (/ x * (x * a)) with a by (field; lra). replace (/ a * exp (- e) * (x * a)) with (x * exp (- e)) by (field; lra).
    apply Rle_trans with (a * exp e * exp (- e)); [apply Rmult_le_compat_r; lra|]. replace (a * exp e * exp (- e)) with (a * (exp (- e) * exp e)) by ring. rewrite En. lra.
  - apply Rmult_le_reg_r with (x * a); [nra|]. replace (/ x * (x * a)) with a by (field; lra). replace (/ a * exp e * (x * a)) with (x * exp e) by (field; lra).
    apply Rle_trans with (a * exp (- e) * exp e); [|apply Rmult_le_compat_r; lra]. rewrite Rmult_assoc, En. lra.
Qed.
Lemma rel_div : forall e1 e2 x y a b, rel e1 x a -> rel e2 y b -> rel (e1 + e2) (x / y) (a / b).
Proof. intros. apply rel_mul; [assumption|apply rel_inv; assumption]. Qed.
Lemma rel_sqrt : forall e x a, rel (2 * e) x a -> rel e (sqrt x) (sqrt a).
Proof.
  intros e x a Hx. pose proof (rel_pos _ _ _ Hx) as P. destruct Hx as [H [H1 H2]].
  assert (S : forall t, sqrt (a * exp (2 * t)) = sqrt a * exp t).
  { intros t. rewrite sqrt_mult by (try lra; left; apply exp_pos). f_equal. replace (2 * t) with (t + t) by ring. rewrite exp_plus. apply sqrt_square. left. apply exp_pos. }
  split; [apply sqrt_lt_R0; exact H|]. rewrite <- !S. split; apply sqrt_le_1_alt; [replace (2 * - e) with (- (2 * e)) by ring|]; assumption.
Qed.
Lemma rel_min : forall e x y a b, rel e x a -> rel e y b -> rel e (Rmin x y) (Rmin a b).
Proof.
  intros e x y a b [H [H1 H2]] [K [K1 K2]]. pose proof (exp_pos e). pose proof (exp_pos (- e)). split; [unfold Rmin; destruct (Rle_dec a b); assumption|].
  unfold Rmin. destruct (Rle_dec x y), (Rle_dec a b); split; nra.
Qed.
Lemma rel_rnd : forall x, / 1606938044258990275541962092341162602522202993782792835301376 <= x -> rel e0 (rnd64 x) x.
Proof.
  intros x H. destruct (near x H) as [H1 H2]. assert (0 < x) by lra. set (y := rnd64 x) in *. clearbody y. split; [assumption|]. pose proof (exp_low e0) as A.
  pose proof (exp_neg e0) as En. pose proof (exp_pos (- e0)) as P. assert (B : exp (- e0) <= 1 - uu) by nra. split; nra.
Qed.

(* from and to ordinary relative errors *)
Lemma rel_of : forall d x y, 0 < y -> 0 <= d <= 1 / 2 -> Rabs (x - y) <= d * y -> rel (2 * d) x y.
Proof.
  intros d x y H Hd K. apply Rabs_le_inv in K. pose proof (exp_low (2 * d)) as A. pose proof (exp_neg (2 * d)) as En. pose proof (exp_pos (- (2 * d))) as P.
  assert (B : exp (- (2 * d)) <= 1 - d).
  { apply Rmult_le_reg_r with (exp (2 * d)); [apply exp_pos|]. rewrite En. apply Rle_trans with ((1 - d) * (1 + 2 * d)); [nra|]. apply Rmult_le_compat_l; lra. }
  split; [exact H|]. split; nra.
Qed.
Lemma rel_to : forall e x y, rel e x y -> 0 <= e <= 1 / 2 -> Rabs (x - y) <= 2 * e * y.
Proof.
  intros e x y [H [H1 H2]] He. pose proof (exp_low (- e)) as A. pose proof (exp_neg e) as En. pose proof (exp_pos e) as P.
  assert (B : exp e <= 1 + 2 * e).
  { apply Rmult_le_reg_l with (1 - e); [lra|]. apply Rle_trans with 1; [|nra]. rewrite <- En. apply Rmult_le_compat_r; lra. }
  apply Rabs_le. split; nra.
Qed.

Lemma rel_tot : forall e l m, l <> [] -> Forall2 (rel e) l m -> rel e (tot l) (tot m).
Proof.
  intros e l m Hn H. induction H as [|x y l m Hx H IH]; [elim Hn; reflexivity|]. change (tot (x :: l)) with (x + tot l). change (tot (y :: m)) with (y + tot m).
  destruct H as [|x2 y2 l m Hx2 H]; [cbn [tot fold_right]; rewrite !Rplus_0_r; exact Hx|]. apply rel_add; [exact Hx|]. apply IH. discriminate.
Qed.

(* a sum of n positive numbers costs n roundings *)
Lemma rel_sum : forall ws rs, Forall2 is ws rs -> Forall (fun r => bpow radix2 (-200) <= r <= bpow radix2 200) rs -> rs <> [] ->
  (length rs <= N.to_nat 1099511627776)%nat -> exists s, is (nsum ws) s /\ rel (INR (length rs) * e0) s (tot rs).
Proof.
  intros ws rs H Hb Hn Hl. destruct (sum_acc_len ws rs H Hb Hl) as [s [K1 [K2 K3]]]. exists s. split; [exact K1|].
  assert (HI : INR (length rs) <= 1099511627776) by (rewrite INR_IZR_INZ; apply IZR_le; lia). pose proof (pos_INR (length rs)) as H0.
  assert (T0 : 0 < tot rs).
  { destruct rs as [|r rs]; [elim Hn; reflexivity|]. inversion Hb as [|? ? Hr Hb']; subst. change (tot (r :: rs)) with (r + tot rs). pose proof (bpow_gt_0 radix2 (-200)) as B.
    assert (0 <= tot rs) by (apply tot_nonneg; eapply Forall_impl; [|exact Hb']; cbn beta; intros; lra). lra. }
  assert (Q : 0 <= INR (length rs) * uu <= 1 / 4) by lra. replace (INR (length rs) * e0) with (2 * (INR (length rs) * uu)) by lra.
  set (d := INR (length rs) * uu) in *. clearbody d. set (t := tot rs) in *. clearbody t.
  pose proof (exp_low (2 * d)) as A. pose proof (exp_neg (2 * d)) as En. pose proof (exp_pos (- (2 * d))) as P.
  assert (B : exp (- (2 * d)) <= 1 - d).
  { apply Rmult_le_reg_r with (exp (2 * d)); [apply exp_pos|]. rewrite En. apply Rle_trans with ((1 - d) * (1 + 2 * d)); [nra|]. apply Rmult_le_compat_l; lra. }
  split; [exact T0|]. split; [nra|]. assert (B2 : 1 <= (1 - d) * exp (2 * d)) by nra. assert (s0 : 0 <= s) by nra.
  apply Rmult_le_reg_r with (1 - d); [lra|]. apply Rle_trans with t; [exact K3|]. nra.
Qed.
