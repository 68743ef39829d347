(* Rounding errors of the test that stops the evolution path of the covariance matrix. *)
From Coq Require Import List NArith ZArith Bool Reals Lra Lia Arith Psatz.
From Flocq Require Import Core.
From Flocq Require Import IEEE754.BinarySingleNaN.
Require Import Verif.Base Verif.Num Verif.F64 Verif.XReal Verif.Weights Verif.Params Verif.State Verif.Order Verif.F64Lemmas Verif.CeilLemmas Verif.XRound Verif.XLe Verif.F64Acc Verif.F64Rel
  Verif.F64Weights Verif.F64Rates Verif.F64Mean Verif.F64Sigma Verif.F64CovErr Verif.F64Step.
Import ListNotations.
Open Scope R_scope.

(* the rate cs is not small if the dimension is at most 2^40 *)
Lemma cs_low : forall dim (mu_eff : f64) M, (1 <= dim <= 1099511627776)%N -> is mu_eff M -> 99 / 100 <= M -> M <= 1200000000000 ->
  forall c, is (calc_cs dim mu_eff) c -> / 1000000000000 <= c.
Proof.
  intros dim mu_eff M Hd HM M1 M2 c Hc. unfold calc_cs in Hc.
  assert (HD : is (nofN dim) (IZR (Z.of_N dim))) by (apply is_ofN; lia). assert (D1 : 1 <= IZR (Z.of_N dim) <= 1099511627776) by (split; apply IZR_le; lia). set (D := IZR (Z.of_N dim)) in *. clearbody D.
  assert (I1 : is (nadd mu_eff n2) (rnd64 (M + 2))) by (apply is_add; auto; [exact is2|apply bigp; lra]).
  assert (I2 : is (nadd (nofN dim) mu_eff) (rnd64 (D + M))) by (apply is_add; auto; apply bigp; lra).
  destruct (near (M + 2)) as [A1 A2]; [lra|]. destruct (near (D + M)) as [B1 B2]; [lra|].
  set (a := rnd64 (M + 2)) in *. set (b := rnd64 (D + M)) in *. clearbody a b.
  assert (I3 : is (nadd (nadd (nofN dim) mu_eff) (nofZ 5)) (rnd64 (b + 5))) by (apply is_add; auto; [exact (is_ofZ 5 ltac:(lia))|apply bigp; lra]).
  destruct (near (b + 5)) as [C1 C2]; [lra|]. set (d := rnd64 (b + 5)) in *. clearbody d.
  assert (Q : 11 / 10000000000000 <= a / d) by (apply Rmult_le_reg_r with d; [lra|]; replace (a / d * d) with a by (field; lra); lra).
  assert (Q1 : a / d <= 10) by (apply Rmult_le_reg_r with d; [lra|]; replace (a / d * d) with a by (field; lra); lra).
  assert (c = rnd64 (a / d)) by (eapply is_fun; [exact Hc|apply is_div; auto; [lra|apply bigp; lra]]). subst c. destruct (near (a / d)) as [Q3 Q4]; [lra|]. lra.
Qed.

(* ---- powers by repeated squaring ---- *)
(* v' is the computed value of v, a number between 0 and 1 *)
Definition close (e m : nat) (v' v : R) : Prop := 0 <= v <= 1 /\ 0 <= v' <= 1 /\ Rabs (v' - v) <= (grow e - 1) * v + grow e * (INR m * eta).
Lemma grow_add : forall a b, grow (a + b) = grow a * grow b.
Proof. intros a b. unfold grow. apply pow_add. Qed.
Lemma close_mul : forall e1 m1 a' a e2 m2 b' b, close e1 m1 a' a -> close e2 m2 b' b -> close (e1 + e2 + 1) (m1 + m2 + 1) (rnd64 (a' * b')) (a * b).
Proof.
  intros e1 m1 a' a e2 m2 b' b [A1 [A2 A3]] [B1 [B2 B3]].
  assert (P1 : 0 <= a * b) by (apply Rmult_le_pos; lra). assert (P2 : a * b <= 1) by nra. assert (P3 : 0 <= a' * b') by (apply Rmult_le_pos; lra). assert (P4 : a' * b' <= 1) by nra.
  split; [lra|]. split; [split; [apply rnd_nonneg; exact P3|apply (rnd_le_int 1); [lia|exact P4]]|].
  pose proof (rnd_any (a' * b')) as R. rewrite (Rabs_pos_eq (a' * b') P3) in R. pose proof eta_tiny as Et. pose proof (grow_1 e1) as G1. pose proof (grow_1 e2) as G2.
  rewrite !grow_add, !plus_INR. replace (grow 1) with (1 + uu) by (unfold grow; ring). change (INR 1) with 1.
  pose proof (pos_INR m1) as N1. pose proof (pos_INR m2) as N2. set (r := rnd64 (a' * b')) in *. set (g1 := grow e1) in *. set (g2 := grow e2) in *. set (e := eta) in *. set (n1' := INR m1) in *. set (n2' := INR m2) in *. clearbody r g1 g2 e n1' n2'.
  assert (X1 : 0 <= n1' * e) by (apply Rmult_le_pos; lra). assert (X2 : 0 <= n2' * e) by (apply Rmult_le_pos; lra). set (x1 := n1' * e) in *. set (x2 := n2' * e) in *.
  assert (GG : 1 <= g1 * g2) by nra.
  assert (K : Rabs (a' * b' - a * b) <= (g1 * g2 - 1) * (a * b) + g1 * g2 * (x1 + x2)).
  { replace (a' * b' - a * b) with (a' * (b' - b) + b * (a' - a)) by ring. apply Rle_trans with (1 := Rabs_triang _ _). rewrite !Rabs_mult, (Rabs_pos_eq a'), (Rabs_pos_eq b) by lra.
    assert (J1 : a' * Rabs (b' - b) <= a' * ((g2 - 1) * b) + g2 * x2).
    { apply Rle_trans with (a' * ((g2 - 1) * b + g2 * x2)); [apply Rmult_le_compat_l; lra|]. rewrite Rmult_plus_distr_l. apply Rplus_le_compat_l. rewrite <- (Rmult_1_l (g2 * x2)) at 2. apply Rmult_le_compat_r; [apply Rmult_le_pos; lra|lra]. }
    assert (J2 : b * Rabs (a' - a) <= b * ((g1 - 1) * a + g1 * x1)) by (apply Rmult_le_compat_l; lra).
    assert (J3 : a' <= g1 * a + g1 * x1) by (apply Rabs_le_inv in A3; lra).
    assert (J4 : a' * ((g2 - 1) * b) <= (g1 * a + g1 * x1) * ((g2 - 1) * b)) by (apply Rmult_le_compat_r; [apply Rmult_le_pos; lra|exact J3]).
    assert (Z1 : 0 <= g1 * g2 * x1) by (apply Rmult_le_pos; lra).
    assert (J5 : g1 * g2 * x1 * b <= g1 * g2 * x1) by (rewrite <- (Rmult_1_r (g1 * g2 * x1)) at 2; apply Rmult_le_compat_l; lra).
    assert (J6 : g2 * x2 <= g1 * g2 * x2) by (replace (g1 * g2 * x2) with (g2 * x2 * g1) by ring; rewrite <- (Rmult_1_r (g2 * x2)) at 1; apply Rmult_le_compat_l; [apply Rmult_le_pos; lra|lra]).
    replace ((g1 * a + g1 * x1) * ((g2 - 1) * b)) with (g1 * g2 * (a * b) - g1 * (a * b) + g1 * g2 * x1 * b - g1 * x1 * b) in J4 by ring.
    replace (b * ((g1 - 1) * a + g1 * x1)) with (g1 * (a * b) - a * b + g1 * x1 * b) in J2 by ring.
    replace ((g1 * g2 - 1) * (a * b) + g1 * g2 * (x1 + x2)) with (g1 * g2 * (a * b) - a * b + g1 * g2 * x1 + g1 * g2 * x2) by ring.
    set (t1 := a' * Rabs (b' - b)) in *. set (t2 := b * Rabs (a' - a)) in *. set (t3 := g1 * g2 * (a * b)) in *. set (t4 := a * b) in *. set (t5 := g1 * t4) in *. set (t6 := g1 * g2 * x1) in *. set (t7 := t6 * b) in *. set (t8 := g1 * x1 * b) in *. set (t9 := g1 * g2 * x2) in *. set (t10 := g2 * x2) in *. set (t11 := a' * ((g2 - 1) * b)) in *.
    clearbody t1 t2 t3 t4 t5 t6 t7 t8 t9 t10 t11. clear - J1 J2 J4 J5 J6. lra. }
  replace ((n1' + n2' + 1) * e) with (x1 + x2 + e) by (unfold x1, x2; ring). clearbody x1 x2. set (q := a' * b') in *. set (v := a * b) in *. set (g := g1 * g2) in *. clearbody q v g. clear A3 B3.
  assert (K2 : q <= v + ((g - 1) * v + g * (x1 + x2))) by (apply Rabs_le_inv in K; lra).
  replace (r - v) with ((r - q) + (q - v)) by ring. apply Rle_trans with (1 := Rabs_triang _ _).
  assert (K3 : uu * q <= uu * (g * v + g * (x1 + x2))) by (apply Rmult_le_compat_l; lra).
  assert (K4 : e <= g * (1 + uu) * e) by (rewrite <- (Rmult_1_l e) at 1; apply Rmult_le_compat_r; [lra|]; nra).
  replace ((g * (1 + uu) - 1) * v + g * (1 + uu) * (x1 + x2 + e)) with ((g - 1) * v + g * (x1 + x2) + uu * (g * v + g * (x1 + x2)) + g * (1 + uu) * e) by ring. lra.
Qed.
Lemma close_weaken : forall e m e2 m2 v' v, close e m v' v -> (e <= e2)%nat -> (m <= m2)%nat -> close e2 m2 v' v.
Proof.
  intros e m e2 m2 v' v [H1 [H2 H3]] He Hm. split; [exact H1|]. split; [exact H2|]. apply Rle_trans with (1 := H3). pose proof (grow_le e e2 He) as G. pose proof (grow_1 e) as G1. pose proof (le_INR _ _ Hm) as M. pose proof eta_tiny as Et.
  apply Rplus_le_compat; [apply Rmult_le_compat_r; lra|]. apply Rmult_le_compat; [lra|apply Rmult_le_pos; [apply pos_INR|lra]|exact G|apply Rmult_le_compat_r; lra].
Qed.
Lemma unit_big : forall x, 0 <= x <= 1 -> Rabs x <= bpow radix2 1000.
Proof. intros x H. apply bigp; lra. Qed.
Lemma powi_close : forall p (r a : f64) r' a' rv av j k, is r r' -> is a a' -> close (2 * j) j r' rv -> close (2 * k - 1) (k - 1) a' av -> (1 <= k)%nat ->
  exists q, is (powi_loop r a p) q /\ close (2 * (j + k * Pos.to_nat p)) (j + k * Pos.to_nat p) q (rv * av ^ Pos.to_nat p).
Proof.
  assert (Two : forall a a' av k, is a a' -> close (2 * k - 1) (k - 1) a' av -> (1 <= k)%nat -> is (nmul a a) (rnd64 (a' * a')) /\ close (2 * (2 * k) - 1) (2 * k - 1) (rnd64 (a' * a')) (av * av)).
  { intros a a' av k Ia Ca Hk. destruct (proj1 (proj2 Ca)) as [Q1 Q2]. split; [apply is_mul; auto; apply unit_big; nra|]. eapply close_weaken; [apply (close_mul _ _ _ _ _ _ _ _ Ca Ca)|lia|lia]. }
  assert (Mul : forall r a r' a' rv av j k, is r r' -> is a a' -> close (2 * j) j r' rv -> close (2 * k - 1) (k - 1) a' av -> (1 <= k)%nat -> is (nmul r a) (rnd64 (r' * a')) /\ close (2 * (j + k)) (j + k) (rnd64 (r' * a')) (rv * av)).
  { intros r a r' a' rv av j k Ir Ia Cr Ca Hk. destruct (proj1 (proj2 Ca)) as [Q1 Q2]. destruct (proj1 (proj2 Cr)) as [Q3 Q4]. split; [apply is_mul; auto; apply unit_big; nra|]. eapply close_weaken; [apply (close_mul _ _ _ _ _ _ _ _ Cr Ca)|lia|lia]. }
  induction p as [p IH|p IH|]; intros r a r' a' rv av j k Ir Ia Cr Ca Hk; cbn [powi_loop].
  - destruct (Two _ _ _ _ Ia Ca Hk) as [T1 T2]. destruct (Mul _ _ _ _ _ _ _ _ Ir Ia Cr Ca Hk) as [M1 M2].
    destruct (IH _ _ _ _ _ _ _ _ M1 T1 M2 T2 ltac:(lia)) as [q [Iq Cq]]. exists q. split; [exact Iq|].
    rewrite Pos2Nat.inj_xI. replace (rv * av ^ S (2 * Pos.to_nat p)) with (rv * av * (av * av) ^ Pos.to_nat p) by (rewrite <- tech_pow_Rmult, pow_mult; replace (av ^ 2) with (av * av) by ring; ring).
    replace (j + k * S (2 * Pos.to_nat p))%nat with (j + k + 2 * k * Pos.to_nat p)%nat by ring. exact Cq.
  - destruct (Two _ _ _ _ Ia Ca Hk) as [T1 T2].
    destruct (IH _ _ _ _ _ _ _ _ Ir T1 Cr T2 ltac:(lia)) as [q [Iq Cq]]. exists q. split; [exact Iq|].
    rewrite Pos2Nat.inj_xO. replace (rv * av ^ (2 * Pos.to_nat p)) with (rv * (av * av) ^ Pos.to_nat p) by (rewrite pow_mult; replace (av ^ 2) with (av * av) by ring; reflexivity).
    replace (j + k * (2 * Pos.to_nat p))%nat with (j + 2 * k * Pos.to_nat p)%nat by ring. exact Cq.
  - destruct (Mul _ _ _ _ _ _ _ _ Ir Ia Cr Ca Hk) as [M1 M2]. exists (rnd64 (r' * a')). split; [exact M1|]. change (Pos.to_nat 1) with 1%nat. rewrite pow_1, Nat.mul_1_r. exact M2.
Qed.

(* k x^k <= (1 - x^k) / (1 - x) *)
Lemma geometric : forall x k, 0 <= x <= 1 -> INR k * x ^ k * (1 - x) <= 1 - x ^ k.
Proof.
  intros x k Hx. induction k as [|k IH]; [cbn; lra|]. rewrite S_INR. cbn [pow]. assert (P : 0 <= x ^ k <= 1) by (split; [apply pow_le; lra|]; rewrite <- (pow1 k); apply pow_incr; lra).
  assert (N : 0 <= INR k) by apply pos_INR. set (n := INR k) in *. set (q := x ^ k) in *. clearbody n q.
  assert (x * (n * q * (1 - x)) <= x * (1 - q)) by (apply Rmult_le_compat_l; lra). assert (0 <= (1 - x) * (1 - x * q)) by (apply Rmult_le_pos; [lra|nra]). nra.
Qed.

(* 1 - (1 - cs)^k *)
Lemma decay_rel : forall (fcs : f64) cs p, is fcs cs -> / 1000000000000 <= cs < 1 -> (Zpos p <= 2147483648)%Z -> (2 <= Pos.to_nat p)%nat ->
  exists D, is (nsub n1 (powi (nsub n1 fcs) (Zpos p))) D /\ rel (31 / 10 * (2 * uu) / cs) D (1 - (1 - cs) ^ Pos.to_nat p) /\ cs <= 1 - (1 - cs) ^ Pos.to_nat p <= 1.
Proof.
  intros fcs cs p Ic Hc Hp Hp2. pose proof eta_tiny as Et. assert (Fc : generic_format radix2 fexp64 cs) by (eapply is_format; exact Ic).
  assert (I1 : is (nsub n1 fcs) (rnd64 (1 - cs))) by (apply is_sub; [exact is1|exact Ic|apply bigp; lra]).
  pose proof (sub_err 1 cs (is_format _ _ is1) Fc) as R0. rewrite (Rabs_pos_eq (1 - cs)) in R0 by lra.
  assert (C1 : close (2 * 1 - 1) (1 - 1) (rnd64 (1 - cs)) (1 - cs)).
  { split; [lra|]. split; [split; [apply rnd_nonneg; lra|apply (rnd_le_int 1); [lia|lra]]|]. cbn [minus mult plus]. replace (grow 1) with (1 + uu) by (unfold grow; ring). cbn [INR]. lra. }
  assert (C0 : close (2 * 0) 0 1 1) by (split; [lra|]; split; [lra|]; cbn [mult]; rewrite Rminus_diag_eq, Rabs_R0 by reflexivity; unfold grow; cbn; lra).
  destruct (powi_close p _ _ _ _ _ _ 0%nat 1%nat is1 I1 C0 C1 ltac:(lia)) as [q [Iq [Q1 [Q2 Q3]]]]. cbn [powi]. rewrite Rmult_1_l in *. cbn [plus] in Q3. rewrite Nat.mul_1_l in Q3.
  pose proof (geometric (1 - cs) (Pos.to_nat p) ltac:(lra)) as Ge. replace (1 - (1 - cs)) with cs in Ge by ring.
  set (k := Pos.to_nat p) in *. assert (Bk : 2 <= INR k <= 2147483648). { split; [apply (le_INR 2); exact Hp2|]. rewrite INR_IZR_INZ. apply IZR_le. unfold k. rewrite positive_nat_Z. exact Hp. }
  assert (X1 : (1 - cs) ^ k <= 1 - cs). { destruct k as [|k']; [lia|]. cbn [pow]. assert ((1 - cs) ^ k' <= 1) by (pose proof (pow_incr (1 - cs) 1 k' ltac:(lra)) as W; rewrite pow1 in W; exact W). apply Rle_trans with ((1 - cs) * 1); [apply Rmult_le_compat_l; lra|lra]. }
  pose proof (grow_small (2 * k)) as Gs. rewrite mult_INR in Gs. change (INR 2) with 2 in Gs. specialize (Gs ltac:(lra)). pose proof (grow_1 (2 * k)) as G1. set (g := grow (2 * k)) in *. clearbody g. set (x := (1 - cs) ^ k) in *. clearbody x. set (n := INR k) in *. clearbody n.
  assert (Fq : generic_format radix2 fexp64 q) by (eapply is_format; exact Iq). pose proof (sub_err 1 q (is_format _ _ is1) Fq) as R1. rewrite (Rabs_pos_eq (1 - q)) in R1 by lra.
  exists (rnd64 (1 - q)). split; [apply is_sub; [exact is1|exact Iq|apply bigp; lra]|]. split; [|lra].
  assert (G2 : g <= 101 / 100) by lra. set (e := eta) in *. clearbody e.
  (* the error of the power *)
  assert (E1 : Rabs (q - x) <= 2003 / 1000 * uu * (n * x) + uu * uu * (n * (101 / 100))).
  { apply Rle_trans with (1 := Q3). apply Rplus_le_compat.
    - apply Rle_trans with (2002 / 1000 * (n * uu) * x); [apply Rmult_le_compat_r; lra|]. assert (0 <= n * uu * x) by (apply Rmult_le_pos; lra). lra.
    - replace (uu * uu * (n * (101 / 100))) with (101 / 100 * (n * (uu * uu))) by ring. apply Rmult_le_compat; [lra|apply Rmult_le_pos; lra|exact G2|apply Rmult_le_compat_l; lra]. }
  assert (Pc : 0 < / cs) by (apply Rinv_0_lt_compat; lra). assert (Pc1 : 1 <= / cs) by (rewrite <- Rinv_1; apply Rinv_le_contravar; lra).
  assert (Pc2 : / cs <= 1000000000000) by (rewrite <- (Rinv_inv 1000000000000); apply Rinv_le_contravar; lra).
  assert (E2 : n * x <= / cs * (1 - x)). { apply Rmult_le_reg_r with cs; [lra|]. replace (/ cs * (1 - x) * cs) with (1 - x) by (field; lra). lra. }
  assert (E3 : 1 <= / cs * (1 - x)). { apply Rmult_le_reg_l with cs; [lra|]. replace (cs * (/ cs * (1 - x))) with (1 - x) by (field; lra). lra. }
  set (w := / cs * (1 - x)) in *.
  assert (E4 : Rabs (q - x) <= 2004 / 1000 * uu * w).
  { apply Rle_trans with (1 := E1). assert (uu * uu * (n * (101 / 100)) <= / 1000 * uu * w).
    { replace (uu * uu * (n * (101 / 100))) with (uu * (101 / 100 * (n * uu))) by ring. replace (/ 1000 * uu * w) with (uu * (/ 1000 * w)) by ring. apply Rmult_le_compat_l; lra. }
    lra. }
  assert (E5 : 1 - x <= w). { unfold w. rewrite <- (Rmult_1_l (1 - x)) at 1. apply Rmult_le_compat_r; lra. }
  replace (31 / 10 * (2 * uu) / cs) with (2 * (31 / 10 * uu * / cs)) by (field; lra).
  apply rel_of; [lra| |].
  - split; [apply Rmult_le_pos; [lra|lra]|]. apply Rle_trans with (31 / 10 * uu * 1000000000000); [apply Rmult_le_compat_l; lra|lra].
  - replace (31 / 10 * uu * / cs * (1 - x)) with (31 / 10 * uu * w) by (unfold w; ring). replace (rnd64 (1 - q) - (1 - x)) with ((rnd64 (1 - q) - (1 - q)) - (q - x)) by ring. pose proof (Rabs_triang (rnd64 (1 - q) - (1 - q)) (- (q - x))) as T. rewrite Rabs_Ropp in T. apply Rle_trans with (1 := T). apply Rabs_le_inv in E4. pose proof (Rabs_le _ _ E4) as E4'. clear T.
    set (y := Rabs (q - x)) in *. set (z := Rabs (rnd64 (1 - q) - (1 - q))) in *. clearbody y z w. assert (1 - q <= 101 / 100 * w) by lra. lra.
Qed.

(* the test *)
Definition stall_test (dim : N) (fcs len : f64) (p : positive) : bool :=
  nltb (ndiv len (nsqrt (nsub n1 (powi (nsub n1 fcs) (Zpos p))))) (nmul (nadd (nlit 14 10) (ndiv n2 (nadd (nofN dim) n1))) (chi_n dim)).
Lemma limit_rel : forall dim, (1 <= dim <= 1099511627776)%N -> let D := IZR (Z.of_N dim) in let T := (14 / 10 + 2 / (D + 1)) * (sqrt D * (1 - 1 / (4 * D) + 1 / (21 * (D * D)))) in
  exists r, is (nmul (nadd (nlit 14 10) (ndiv n2 (nadd (nofN dim) n1))) (chi_n dim)) r /\ 35 / 100 <= T <= 180143985094819840 /\ rel (13 * e0) r T.
Proof.
  intros dim Hd D. cbv zeta. destruct (chi_rel dim ltac:(lia)) as [chi [Ix [X1 X2]]]. fold D in X1, X2. set (X := sqrt D * _) in *. clearbody X.
  pose proof (is_ofN dim ltac:(lia)) as HD. fold D in HD. assert (DR : 1 <= D <= 1099511627776) by (unfold D; split; apply IZR_le; lia). clearbody D.
  assert (I14 : is (nlit 14 10) (rnd64 (14 / 10))) by (unfold nlit; apply is_div; [apply is_ofZ; lia|apply is_ofZ; lia|lra|apply bigp; lra]).
  assert (R14 : rel e0 (rnd64 (14 / 10)) (14 / 10)) by (apply rel_rnd; lra). destruct (near (14 / 10)) as [B1 B2]; [lra|]. set (a := rnd64 (14 / 10)) in *. clearbody a.
  assert (In : is (nadd (nofN dim) n1) (rnd64 (D + 1))) by (apply is_add; [exact HD|exact is1|apply bigp; lra]). assert (Rn : rel e0 (rnd64 (D + 1)) (D + 1)) by (apply rel_rnd; lra). destruct (near (D + 1)) as [B3 B4]; [lra|]. set (m := rnd64 (D + 1)) in *. clearbody m.
  assert (Q : / 10000000000000 <= 2 / m <= 2). { assert (0 < / m) by (apply Rinv_0_lt_compat; lra). split; apply Rmult_le_reg_r with m; try lra; replace (2 / m * m) with 2 by (field; lra); lra. }
  assert (Iq : is (ndiv n2 (nadd (nofN dim) n1)) (rnd64 (2 / m))) by (apply is_div; [exact is2|exact In|lra|apply bigp; lra]).
  assert (Rq : rel (2 * e0) (rnd64 (2 / m)) (2 / (D + 1))).
  { eapply rel_weaken; [eapply rel_trans; [apply rel_rnd; lra|apply rel_div; [apply rel_refl; lra|exact Rn]]|]. lra. }
  destruct (near (2 / m)) as [B5 B6]; [lra|]. set (b := rnd64 (2 / m)) in *. clearbody b.
  assert (Is : is (nadd (nlit 14 10) (ndiv n2 (nadd (nofN dim) n1))) (rnd64 (a + b))) by (apply is_add; [exact I14|exact Iq|apply bigp; lra]).
  assert (Rs : rel (3 * e0) (rnd64 (a + b)) (14 / 10 + 2 / (D + 1))).
  { eapply rel_weaken; [eapply rel_trans; [apply rel_rnd; lra|apply (rel_add (2 * e0)); [eapply rel_weaken; [exact R14|lra]|exact Rq]]|]. lra. }
  destruct (near (a + b)) as [B7 B8]; [lra|]. set (s := rnd64 (a + b)) in *. clearbody s.
  assert (Rx : rel (12 * e0) (s * chi) ((14 / 10 + 2 / (D + 1)) * X)) by (eapply rel_weaken; [apply rel_mul; [exact Rs|exact X2]|lra]).
  assert (Q2 : 0 <= 2 / (D + 1) <= 1). { assert (0 < / (D + 1)) by (apply Rinv_0_lt_compat; lra). split; [unfold Rdiv; lra|]. apply Rmult_le_reg_r with (D + 1); [lra|]. replace (2 / (D + 1) * (D + 1)) with 2 by (field; lra). lra. }
  set (c := 14 / 10 + 2 / (D + 1)) in *. assert (Bc : 14 / 10 <= c <= 24 / 10) by (unfold c; lra). clearbody c. assert (BT : 35 / 100 <= c * X <= 180143985094819840) by (split; nra).
  assert (Ee : 0 <= 12 * e0 <= 1 / 2) by (lra). pose proof (rel_to _ _ _ Rx Ee) as Bx. apply Rabs_le_inv in Bx. assert (Bs : 3 / 10 <= s * chi <= 1801439850948198400) by (lra).
  exists (rnd64 (s * chi)). split; [apply is_mul; [exact Is|exact Ix|apply bigp; lra]|]. split; [exact BT|]. eapply rel_weaken; [eapply rel_trans; [apply rel_rnd; lra|exact Rx]|lra].
Qed.
Lemma stall_decision : forall dim (fcs len : f64) cs l p, (1 <= dim <= 1099511627776)%N -> is fcs cs -> / 1000000000000 <= cs < 1 -> (Zpos p <= 2147483648)%Z -> (2 <= Pos.to_nat p)%nat -> is len l -> 0 <= l ->
  let D := IZR (Z.of_N dim) in let T := (14 / 10 + 2 / (D + 1)) * (sqrt D * (1 - 1 / (4 * D) + 1 / (21 * (D * D)))) in
  let E := sqrt (1 - (1 - cs) ^ Pos.to_nat p) in let t := (4 / cs + 30) * uu in
  0 < T * E /\ (l * exp t < T * E -> stall_test dim fcs len p = true) /\ (T * E * exp t < l -> stall_test dim fcs len p = false).
Proof.
  intros dim fcs len cs l p Hd Ic Hc Hp Hp2 Il Hl D T E t. unfold stall_test. destruct (limit_rel dim Hd) as [T' [IT [BT RT]]]. fold D in BT, RT. cbv zeta in BT, RT. fold T in BT, RT.
  destruct (decay_rel fcs cs p Ic Hc Hp Hp2) as [W [IW [RW BW]]]. set (k := Pos.to_nat p) in *. clearbody T. clear D.
  assert (Pc : 0 < / cs) by (apply Rinv_0_lt_compat; lra). assert (Pc2 : / cs <= 1000000000000) by (rewrite <- (Rinv_inv 1000000000000); apply Rinv_le_contravar; lra).
  set (v := 31 / 10 * uu / cs) in *. replace (31 / 10 * (2 * uu) / cs) with (2 * v) in RW by (unfold v; field; lra). assert (Pv : 0 <= v <= / 1000) by (unfold v, Rdiv; split; [apply Rmult_le_pos; lra|]; apply Rle_trans with (31 / 10 * uu * 1000000000000); [apply Rmult_le_compat_l; lra|lra]).
  assert (PW : 0 < W) by (eapply rel_pos; exact RW). apply rel_sqrt in RW. fold E in RW.
  assert (BE : / 1000000000000 <= E <= 1). { unfold E. set (z := 1 - (1 - cs) ^ k) in *. clearbody z. pose proof (sqrt_le_1 z 1 ltac:(lra) ltac:(lra) ltac:(lra)) as Z1. rewrite sqrt_1 in Z1. split; [|exact Z1]. apply Rle_trans with z; [lra|]. rewrite <- (sqrt_square z) at 1 by lra. apply sqrt_le_1; nra. }
  assert (IE : is (nsqrt (nsub n1 (powi (nsub n1 fcs) (Zpos p)))) (rnd64 (sqrt W))) by (apply is_sqrt; [exact IW|lra]).
  pose proof (rel_to _ _ _ RW ltac:(lra)) as Bw. apply Rabs_le_inv in Bw. assert (Bw2 : 2 * v * E <= 2 / 1000 * E) by (apply Rmult_le_compat_r; lra).
  assert (RE : rel (v + e0) (rnd64 (sqrt W)) E) by (eapply rel_weaken; [eapply rel_trans; [apply rel_rnd; lra|exact RW]|lra]).
  destruct (near (sqrt W)) as [N1 N2]; [lra|]. set (E' := rnd64 (sqrt W)) in *. clearbody E'. clear RW IW.
  assert (PE : / 10000000000000 <= E' <= 2) by lra. clear Bw Bw2.
  assert (Pt : v + 15 * e0 <= t). { unfold t, v. replace ((4 / cs + 30) * uu) with (4 * uu * / cs + 30 * uu) by (field; lra). replace (31 / 10 * uu / cs) with (31 / 10 * uu * / cs) by (unfold Rdiv; ring). assert (0 <= uu * / cs) by (apply Rmult_le_pos; lra). lra. }
  clearbody t v E. destruct RT as [PT [T1 T2]]. destruct RE as [PE0 [E1 E2]]. pose proof (exp_pos t) as Pet.
  assert (Y0 : 0 <= l / E') by (apply Rmult_le_pos; [exact Hl|apply Rlt_le, Rinv_0_lt_compat; lra]).
  assert (TE : 0 < T * E) by (apply Rmult_lt_0_compat; lra). split; [exact TE|].
  assert (LT : 3 / 10 <= T'). { pose proof (exp_low (- (13 * e0))) as Q. assert (T * (1 + - (13 * e0)) <= T * exp (- (13 * e0))) by (apply Rmult_le_compat_l; lra). lra. }
  (* l / E' against l / E *)
  assert (U1 : E * exp (- (v + e0)) <= E') by exact E1. assert (U2 : E' <= E * exp (v + e0)) by exact E2.
  split; intros H.
  - assert (K : l < T * E * exp (- t)). { apply Rmult_lt_reg_r with (exp t); [exact Pet|]. replace (T * E * exp (- t) * exp t) with (T * E * (exp (- t) * exp t)) by ring. rewrite exp_neg. lra. }
    assert (K1 : l / E' < T * exp (v + e0 - t)).
    { apply Rmult_lt_reg_r with E'; [lra|]. replace (l / E' * E') with l by (field; lra). apply Rlt_le_trans with (1 := K). apply Rle_trans with (T * exp (v + e0 - t) * (E * exp (- (v + e0)))); [|apply Rmult_le_compat_l; [apply Rmult_le_pos; [lra|apply Rlt_le, exp_pos]|exact U1]].
      right. replace (- t) with ((v + e0 - t) + - (v + e0)) by ring. rewrite exp_plus. ring. }
    assert (K2 : exp (v + e0 - t) <= exp (- (14 * e0))) by (apply exp_mono; lra).
    assert (K3 : l / E' < T * exp (- (14 * e0))). { apply Rlt_le_trans with (1 := K1). apply Rmult_le_compat_l; lra. }
    assert (K4 : exp (- (14 * e0)) <= 1) by (rewrite <- exp_0; apply exp_mono; lra).
    assert (K5 : l / E' <= 180143985094819840). { assert (T * exp (- (14 * e0)) <= T * 1) by (apply Rmult_le_compat_l; lra). lra. }
    assert (Iq : is (ndiv len (nsqrt (nsub n1 (powi (nsub n1 fcs) (Zpos p))))) (rnd64 (l / E'))) by (apply is_div; [exact Il|exact IE|lra|apply bigp; lra]).
    apply (proj2 (is_lt _ _ _ _ Iq IT)). destruct (Rle_dec (/ 1606938044258990275541962092341162602522202993782792835301376) (l / E')) as [Big|Small].
    + destruct (rel_rnd _ Big) as [_ [_ Q]]. apply Rle_lt_trans with (1 := Q). apply Rlt_le_trans with (2 := T1). apply Rlt_le_trans with (T * exp (- (14 * e0)) * exp e0); [apply Rmult_lt_compat_r; [apply exp_pos|exact K3]|]. right. rewrite Rmult_assoc, <- exp_plus. do 2 f_equal. lra.
    + pose proof (rnd_any (l / E')) as Q. rewrite (Rabs_pos_eq (l / E')) in Q by exact Y0. apply Rabs_le_inv in Q. pose proof eta_tiny. lra.
  - assert (K1 : T * exp (t - (v + e0)) < l / E').
    { apply Rmult_lt_reg_r with E'; [lra|]. replace (l / E' * E') with l by (field; lra). apply Rle_lt_trans with (2 := H). apply Rle_trans with (T * exp (t - (v + e0)) * (E * exp (v + e0))); [apply Rmult_le_compat_l; [apply Rmult_le_pos; [lra|apply Rlt_le, exp_pos]|exact U2]|].
      right. assert (X : exp t = exp (t - (v + e0)) * exp (v + e0)) by (rewrite <- exp_plus; replace (t - (v + e0) + (v + e0)) with t by lra; reflexivity). rewrite X. ring. }
    assert (K2 : exp (14 * e0) <= exp (t - (v + e0))) by (apply exp_mono; lra).
    assert (K3 : T * exp (14 * e0) < l / E'). { apply Rle_lt_trans with (2 := K1). apply Rmult_le_compat_l; lra. }
    assert (K4 : 1 <= exp (14 * e0)) by (rewrite <- exp_0; apply exp_mono; lra).
    assert (K5 : 35 / 100 <= l / E'). { assert (T * 1 <= T * exp (14 * e0)) by (apply Rmult_le_compat_l; lra). lra. }
    rewrite f2x_ltb, IT, (f2x_div_pos _ _ _ IE ltac:(lra)), Il. cbn [x_div]. rewrite (proj2 (Reqb_false E' 0)) by lra. cbn [xround]. destruct (Rlt_bool _ _).
    + cbn [x_ltb]. apply Rltb_false. apply Rle_trans with (1 := T2). destruct (rel_rnd (l / E') ltac:(lra)) as [_ [Q _]]. apply Rle_trans with (2 := Q).
      apply Rle_trans with (T * exp (14 * e0) * exp (- e0)); [|apply Rmult_le_compat_r; [apply Rlt_le, exp_pos|lra]]. right. rewrite Rmult_assoc, <- exp_plus. do 2 f_equal. lra.
    + cbn [x_ltb]. unfold Rltb. destruct (Rlt_dec (l / E') 0); [lra|reflexivity].
Qed.

(* ---- when the test cannot succeed ---- *)
Lemma mul_unit : forall (x y : f64) a b, is x a -> is y b -> 0 <= a <= 1 -> 0 <= b <= 1 -> Bsign x = false -> Bsign y = false ->
  is (nmul x y) (rnd64 (a * b)) /\ 0 <= rnd64 (a * b) <= 1 /\ Bsign (nmul x y : f64) = false.
Proof.
  intros x y a b Ix Iy Ha Hb Sx Sy. assert (0 <= a * b) by (apply Rmult_le_pos; lra). assert (a * b <= 1) by nra.
  assert (I : is (nmul x y) (rnd64 (a * b))) by (apply is_mul; [exact Ix|exact Iy|apply bigp; lra]). split; [exact I|]. split; [split; [apply rnd_nonneg; assumption|apply (rnd_le_int 1); [lia|assumption]]|].
  pose proof (is_not_nan _ _ I) as Nn. pose proof (Bmult_correct 53 1024 f64_prec f64_emax mode_NE x y) as Q. destruct (is_B2R _ _ Ix) as [_ Bx]. destruct (is_B2R _ _ Iy) as [_ By]. rewrite Bx, By in Q.
  rewrite Rlt_bool_true in Q.
  - destruct Q as [_ [_ Q]]. change (Bmult mode_NE x y) with (nmul x y : f64) in Q. rewrite Q, Sx, Sy; [reflexivity|]. exact Nn.
  - change (round radix2 (SpecFloat.fexp 53 1024) (round_mode mode_NE) (a * b)) with (rnd64 (a * b)). apply Rle_lt_trans with (bpow radix2 1000); [|apply bpow_lt; lia]. apply rnd_abs; [lia|]. apply bigp; lra.
Qed.
Lemma powi_unit : forall p (r a : f64) r' a', is r r' -> is a a' -> 0 <= r' <= 1 -> 0 <= a' <= 1 -> Bsign r = false -> Bsign a = false ->
  exists q, is (powi_loop r a p) q /\ 0 <= q <= 1 /\ Bsign (powi_loop r a p : f64) = false.
Proof.
  induction p as [p IH|p IH|]; intros r a r' a' Ir Ia Hr Ha Sr Sa; cbn [powi_loop].
  - destruct (mul_unit _ _ _ _ Ir Ia Hr Ha Sr Sa) as [X1 [X2 X3]]. destruct (mul_unit _ _ _ _ Ia Ia Ha Ha Sa Sa) as [Y1 [Y2 Y3]]. exact (IH _ _ _ _ X1 Y1 X2 Y2 X3 Y3).
  - destruct (mul_unit _ _ _ _ Ia Ia Ha Ha Sa Sa) as [Y1 [Y2 Y3]]. exact (IH _ _ _ _ Ir Y1 Hr Y2 Sr Y3).
  - destruct (mul_unit _ _ _ _ Ir Ia Hr Ha Sr Sa) as [X1 [X2 X3]]. exists (rnd64 (r' * a')). auto.
Qed.
(* a power with an exponent that is not positive is at least 1, or infinite *)
Lemma powi_inverse : forall (fcs : f64) cs e, is fcs cs -> / 1000000000000 <= cs < 1 -> (e <= 0)%Z -> xle (XFin 1) (f2x (powi (nsub n1 fcs) e)).
Proof.
  intros fcs cs e Ic Hc He. destruct e as [|p|p]; [cbn [powi]; rewrite is1; cbn [xle]; lra|lia|]. cbn [powi].
  assert (I1 : is (nsub n1 fcs) (rnd64 (1 - cs))) by (apply is_sub; [exact is1|exact Ic|apply bigp; lra]).
  assert (B : 0 <= rnd64 (1 - cs) <= 1) by (split; [apply rnd_nonneg; lra|apply (rnd_le_int 1); [lia|lra]]).
  assert (P : 0 < rnd64 (1 - cs)).
  { destruct (Rle_lt_or_eq_dec _ _ (proj1 B)) as [Q|Q]; [exact Q|exfalso]. pose proof (sub_err 1 cs (is_format _ _ is1) (is_format _ _ Ic)) as R. rewrite <- Q in R. rewrite Rabs_minus_sym, Rminus_0_r, (Rabs_pos_eq (1 - cs)) in R by lra. nra. }
  assert (S1 : Bsign (nsub n1 fcs : f64) = false) by (destruct (Bsign (nsub n1 fcs : f64)) eqn:S; [apply sign_neg in S; rewrite (proj2 (is_B2R _ _ I1)) in S; lra|reflexivity]).
  destruct (powi_unit p n1 (nsub n1 fcs) 1 _ is1 I1 ltac:(lra) B eq_refl S1) as [q [Iq [Hq Sq]]].
  destruct (Rle_lt_or_eq_dec _ _ (proj1 Hq)) as [Q|Q].
  - rewrite (f2x_div_pos _ _ _ Iq Q), is1. cbn [x_div]. rewrite (proj2 (Reqb_false q 0)) by lra.
    assert (K : xle (XFin 1) (XFin (1 / q))). { cbn [xle]. apply Rmult_le_reg_r with q; [exact Q|]. replace (1 / q * q) with 1 by (field; lra). lra. }
    apply xround_le in K. rewrite xround_id in K; [exact K|exact (is_format _ _ is1)|]. rewrite Rabs_R1. change 1 with (bpow radix2 0). apply bpow_lt. lia.
  - subst q. destruct (is_B2R _ _ Iq) as [Fq Bq]. set (z := powi_loop n1 (nsub n1 fcs) p : f64) in *. clearbody z. destruct z as [s|s| |s m x Hb]; try discriminate Fq; [cbn in Sq; subst s; vm_compute; exact I|].
    exfalso. apply (eq_0_F2R radix2) in Bq. destruct s; discriminate Bq.
Qed.
Lemma stall_wrapped : forall (fcs len lim : f64) cs e, (e <= 0)%Z -> is fcs cs -> / 1000000000000 <= cs < 1 -> low len 0 ->
  nltb (ndiv len (nsqrt (nsub n1 (powi (nsub n1 fcs) e)))) lim = false.
Proof.
  intros fcs len lim cs e He Ic Hc Hl. pose proof (powi_inverse fcs cs e Ic Hc He) as H. set (r := powi (nsub n1 fcs) e : f64) in *. clearbody r.
  assert (N : forall x : f64, f2x x = XNaN -> nltb (ndiv len x) lim = false).
  { intros x Hx. destruct x as [s|s| |s m ee Hb]; try discriminate Hx. rewrite f2x_ltb. destruct len; reflexivity. }
  assert (Z : nltb (ndiv len (B754_zero false : f64)) lim = false).
  { rewrite f2x_ltb. destruct len as [s|s| |s m ee Hb].
    - reflexivity.
    - destruct s; [destruct Hl as [Q|Q]; [discriminate Q|cbn in Q; contradiction]|]. destruct lim as [| [] | |]; reflexivity.
    - reflexivity.
    - destruct s; [exfalso; destruct Hl as [Q|Q]; [discriminate Q|]|destruct lim as [| [] | |]; reflexivity]. pose proof (sign_neg (B754_finite true m ee Hb) eq_refl) as Q2. rewrite (f2x_finite (B754_finite true m ee Hb)) in Q by reflexivity. cbn [xle] in Q. assert (Q3 : B2R (B754_finite true m ee Hb) = 0) by lra. apply (eq_0_F2R radix2) in Q3. discriminate Q3. }
  destruct r as [s|s| |s m ee Hb] eqn:Er.
  - exfalso. cbn [f2x xle] in H. cbn [B2R] in H. lra.
  - destruct s; [exfalso; exact H|]. apply N. reflexivity.
  - exfalso. exact H.
  - rewrite <- Er in *. assert (Fr : is_finite r = true) by (rewrite Er; reflexivity). clear Er. assert (Ir : is r (B2R r)) by (apply f2x_finite; exact Fr). rewrite Ir in H. cbn [xle] in H.
    destruct (Rle_lt_or_eq_dec _ _ H) as [Q|Q].
    + apply N. assert (D : f2x (nsub n1 r) = XInf true \/ exists d, f2x (nsub n1 r) = XFin d /\ d < 0).
      { assert (E : f2x (nsub n1 r) = xround (XFin (1 - B2R r))) by (rewrite f2x_sub; change (f2x n1) with (f2x (n1 : f64)); rewrite is1, Ir; reflexivity). rewrite E. cbn [xround]. destruct (Rlt_bool _ _).
        - right. eexists. split; [reflexivity|]. pose proof (sub_err 1 (B2R r) (is_format _ _ is1) (is_format _ _ Ir)) as R. rewrite (Rabs_left (1 - B2R r)) in R by lra. apply Rabs_le_inv in R. lra.
        - left. f_equal. apply Rltb_true. lra. }
      set (x := nsub n1 r : f64) in *. clearbody x. destruct D as [D|[d [D Hd]]]; destruct x as [t|t| |t mm eee Hbb]; try discriminate D.
      * cbn in D. injection D as ->. reflexivity.
      * exfalso. cbn [f2x] in D. injection D as <-. lra.
      * destruct t; [reflexivity|exfalso]. destruct (is_B2R _ _ D) as [_ D2]. pose proof (sign_pos (B754_finite false mm eee Hbb) eq_refl) as D3. rewrite D2 in D3. lra.
    + assert (r = n1).
      { assert (S : Bsign r = false) by (destruct (Bsign r) eqn:S; [apply sign_neg in S; lra|reflexivity]). apply B2R_Bsign_inj; [exact Fr|reflexivity|rewrite <- Q; symmetry; exact (proj2 (is_B2R _ _ is1))|rewrite S; reflexivity]. }
      subst r. exact Z.
Qed.
Lemma stall_infinite : forall dim (fcs len : f64) cs p, (1 <= dim <= 1099511627776)%N -> is fcs cs -> / 1000000000000 <= cs < 1 -> (Zpos p <= 2147483648)%Z -> (2 <= Pos.to_nat p)%nat -> low len 0 -> is_finite len = false ->
  stall_test dim fcs len p = false.
Proof.
  intros dim fcs len cs p Hd Ic Hc Hp Hp2 Hl Hf. destruct (decay_rel fcs cs p Ic Hc Hp Hp2) as [W [IW [RW BW]]]. assert (PW : 0 < W) by (eapply rel_pos; exact RW).
  unfold stall_test. set (lim := nmul _ (chi_n dim)). clearbody lim.
  assert (IE : is (nsqrt (nsub n1 (powi (nsub n1 fcs) (Zpos p)))) (rnd64 (sqrt W))) by (apply is_sqrt; [exact IW|lra]). rewrite f2x_ltb. set (e := nsqrt _ : f64) in *. clearbody e.
  assert (PE : 0 < rnd64 (sqrt W)).
  { assert (Pc2 : / cs <= 1000000000000) by (rewrite <- (Rinv_inv 1000000000000); apply Rinv_le_contravar; lra). assert (Pc : 0 < / cs) by (apply Rinv_0_lt_compat; lra).
    assert (V : 0 <= 31 / 10 * (2 * uu) / cs <= / 1000) by (unfold Rdiv; split; [apply Rmult_le_pos; lra|]; apply Rle_trans with (31 / 10 * (2 * uu) * 1000000000000); [apply Rmult_le_compat_l; lra|lra]).
    pose proof (rel_to _ _ _ RW ltac:(lra)) as B. apply Rabs_le_inv in B. set (z := 1 - (1 - cs) ^ Pos.to_nat p) in *. clearbody z. set (u := 31 / 10 * (2 * uu) / cs) in *. clearbody u. assert (2 * u * z <= 2 / 1000 * z) by (apply Rmult_le_compat_r; lra).
    assert (BWl : / 10000000000000 <= W) by lra. clear B RW BW. pose proof (sqrt_sqrt W ltac:(lra)) as S. pose proof (sqrt_pos W) as S0. assert (S1 : / 10000000000000 <= sqrt W) by (destruct (Rle_dec (/ 10000000000000) (sqrt W)) as [C|C]; [exact C|exfalso; nra]).
    eapply rel_pos. apply rel_rnd. lra. }
  destruct len as [s|s| |s m x Hb]; try discriminate Hf.
  - destruct s; [destruct Hl as [Q|Q]; [discriminate Q|cbn in Q; contradiction]|]. rewrite (f2x_div_pos _ _ _ IE PE). cbn [f2x x_div]. rewrite (proj2 (Rltb_false _ 0)) by lra. cbn [xround]. destruct (f2x lim) as [|[]|]; reflexivity.
  - reflexivity.
Qed.
