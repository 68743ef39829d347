(* Rounding errors of the update of the step size. *)
From Coq Require Import List NArith ZArith Bool Reals Lra Lia Arith Psatz.
From Flocq Require Import Core.
From Flocq Require Import IEEE754.BinarySingleNaN.
Require Import Verif.Base Verif.Num Verif.F64 Verif.XReal Verif.Weights Verif.Params Verif.State Verif.Order Verif.F64Lemmas Verif.CeilLemmas Verif.XRound Verif.XLe Verif.F64Acc Verif.F64Weights Verif.F64Rates Verif.F64Rel
  Verif.F64Mean Verif.F64Sigma Verif.F64CovErr.
Import ListNotations.
Open Scope R_scope.

(* the expected length of a normal vector is computed to a few units in the last place *)
Lemma chi_rel : forall dim, (1 <= dim <= 9007199254740992)%N -> let D := IZR (Z.of_N dim) in
  exists r, is (chi_n dim) r /\ / 4 <= sqrt D * (1 - 1 / (4 * D) + 1 / (21 * (D * D))) <= 18014398509481984 /\ rel (9 * e0) r (sqrt D * (1 - 1 / (4 * D) + 1 / (21 * (D * D)))).
Proof.
  intros dim Hd D0. unfold chi_n. pose proof (is_ofN dim ltac:(lia)) as HD. assert (ZQ : IZR (Z.of_N (dim * dim)) = D0 * D0) by (unfold D0; rewrite N2Z.inj_mul, mult_IZR; reflexivity). fold D0 in HD. set (D := D0) in *. 
  assert (DR : 1 <= D <= 9007199254740992) by (unfold D, D0; split; [apply (IZR_le 1)|apply (IZR_le _ 9007199254740992)]; lia). clearbody D. clear D0.
  assert (Is : is (nsqrt (nofN dim)) (rnd64 (sqrt D))) by (apply is_sqrt; [exact HD|lra]).
  assert (S1 : 1 <= sqrt D) by (rewrite <- sqrt_1; apply sqrt_le_1; lra).
  assert (S2 : sqrt D <= 9007199254740992). { apply Rle_trans with (sqrt (D * D)); [apply sqrt_le_1; nra|]. rewrite sqrt_square; lra. }
  assert (A1 : 1 <= rnd64 (sqrt D)) by (apply (rnd_int_le 1); [lia|exact S1]). assert (A2 : rnd64 (sqrt D) <= 9007199254740992) by (apply (rnd_le_int 9007199254740992); [lia|exact S2]).
  assert (R1 : rel e0 (rnd64 (sqrt D)) (sqrt D)) by (apply rel_rnd; lra).
  set (q := rnd64 (sqrt D)) in *. clearbody q. set (sD := sqrt D) in *. clearbody sD.
  (* 1 / (4 dim) *)
  assert (I4 : is (nmul (nofZ 4) (nofN dim)) (rnd64 (4 * D))) by (apply is_mul; [apply (is_ofZ 4); lia|exact HD|apply bigp; rewrite ?Rabs_pos_eq; lra]).
  assert (B1 : 4 <= rnd64 (4 * D)) by (apply (rnd_int_le 4); [lia|lra]).
  assert (R2 : rel e0 (rnd64 (4 * D)) (4 * D)) by (apply rel_rnd; lra). destruct (near (4 * D)) as [_ B2]; [lra|].
  set (d4 := rnd64 (4 * D)) in *. clearbody d4.
  assert (E4 : / 100000000000000000 <= 1 / d4 <= / 4).
  { split; (apply Rmult_le_reg_r with d4; [lra|]; replace (1 / d4 * d4) with 1 by (field; lra); lra). }
  assert (R3 : rel (e0 + e0) (rnd64 (1 / d4)) (1 / (4 * D))).
  { apply rel_trans with (1 / d4); [apply rel_rnd; lra|]. unfold Rdiv. rewrite !Rmult_1_l. apply rel_inv. exact R2. }
  assert (I5 : is (ndiv n1 (nmul (nofZ 4) (nofN dim))) (rnd64 (1 / d4))) by (apply is_div; [exact is1|exact I4|lra|apply bigp; lra]).
  set (e4 := rnd64 (1 / d4)) in *. clearbody e4.
  assert (F4 : 0 < 1 / (4 * D) <= / 4).
  { split; [apply Rdiv_lt_0_compat; lra|]. apply Rmult_le_reg_r with (4 * D); [lra|]. replace (1 / (4 * D) * (4 * D)) with 1 by (field; lra). lra. }
  apply rel_to in R3; [|lra]. set (f4 := 1 / (4 * D)) in *. clearbody f4. clear B1 B2 E4 R2 d4 I4.
  assert (R4 : Rabs (e4 - f4) <= e0) by (apply Rle_trans with (1 := R3); nra). clear R3. apply Rabs_le_inv in R4.
  assert (I6 : is (nsub n1 (ndiv n1 (nmul (nofZ 4) (nofN dim)))) (rnd64 (1 - e4))) by (apply is_sub; [exact is1|exact I5|apply bigp; lra]).
  destruct (near (1 - e4)) as [G1 G2]; [lra|]. set (g := rnd64 (1 - e4)) in *. clearbody g.
  assert (R5 : - (3 / 2 * e0 + uu * e0) <= g - (1 - f4) <= 3 / 2 * e0 + uu * e0) by lra.
  (* 1 / (21 dim^2) *)
  assert (QR : 1 <= D * D <= 81129638414606681695789005144064) by nra.
  assert (IQ : is (nofN (dim * dim)) (rnd64 (D * D))).
  { unfold is. change (nofN (dim * dim) : f64) with (nofZ (Z.of_N (dim * dim)) : f64). rewrite ofZ_round, ZQ. apply xround_small. apply bigp; lra. }
  assert (P1 : 1 <= rnd64 (D * D)) by (apply (rnd_int_le 1); [lia|lra]). destruct (near (D * D)) as [_ P2]; [lra|].
  assert (T1 : rel e0 (rnd64 (D * D)) (D * D)) by (apply rel_rnd; lra). set (Q := rnd64 (D * D)) in *. clearbody Q.
  assert (I7 : is (nmul (nofZ 21) (nofN (dim * dim))) (rnd64 (21 * Q))) by (apply is_mul; [apply (is_ofZ 21); lia|exact IQ|apply bigp; lra]).
  assert (P3 : 21 <= rnd64 (21 * Q)) by (apply (rnd_int_le 21); [lia|lra]). destruct (near (21 * Q)) as [_ P4]; [lra|].
  assert (T2 : rel (e0 + e0) (rnd64 (21 * Q)) (21 * (D * D))).
  { apply rel_trans with (21 * Q); [apply rel_rnd; lra|]. apply rel_weaken with (0 + e0); [apply rel_mul; [apply rel_refl; lra|exact T1]|lra]. }
  set (z := rnd64 (21 * Q)) in *. clearbody z.
  assert (E7 : / 10000000000000000000000000000000000 <= 1 / z <= 1).
  { split; (apply Rmult_le_reg_r with z; [lra|]; replace (1 / z * z) with 1 by (field; lra); lra). }
  assert (T3 : rel (e0 + (e0 + e0)) (rnd64 (1 / z)) (1 / (21 * (D * D)))).
  { apply rel_trans with (1 / z); [apply rel_rnd; lra|]. unfold Rdiv. rewrite !Rmult_1_l. apply rel_inv. exact T2. }
  assert (I8 : is (ndiv n1 (nmul (nofZ 21) (nofN (dim * dim)))) (rnd64 (1 / z))) by (apply is_div; [exact is1|exact I7|lra|apply bigp; lra]).
  set (y := rnd64 (1 / z)) in *. clearbody y.
  assert (F7 : 0 < 1 / (21 * (D * D)) <= / 21).
  { split; [apply Rdiv_lt_0_compat; lra|]. apply Rmult_le_reg_r with (21 * (D * D)); [lra|]. replace (1 / (21 * (D * D)) * (21 * (D * D))) with 1 by (field; lra). lra. }
  apply rel_to in T3; [|lra]. set (f7 := 1 / (21 * (D * D))) in *. clearbody f7. clear P3 P4 E7 T1 T2 z I7 P1 P2 IQ Q QR ZQ.
  assert (T4 : Rabs (y - f7) <= 6 / 21 * e0) by (apply Rle_trans with (1 := T3); nra). clear T3. apply Rabs_le_inv in T4.
  (* together *)
  assert (I9 : is (nadd (nsub n1 (ndiv n1 (nmul (nofZ 4) (nofN dim)))) (ndiv n1 (nmul (nofZ 21) (nofN (dim * dim))))) (rnd64 (g + y))) by (apply is_add; [exact I6|exact I8|apply bigp; lra]).
  destruct (near (g + y)) as [U1 U2]; [lra|]. set (h := rnd64 (g + y)) in *. clearbody h.
  assert (R6 : rel (2 * (7 / 2 * e0)) h (1 - f4 + f7)) by (apply rel_of; [lra|lra|apply Rabs_le; lra]).
  exists (rnd64 (q * h)). split; [apply is_mul; [exact Is|exact I9|apply bigp; nra]|]. split; [split; nra|].
  apply rel_weaken with (e0 + (e0 + 2 * (7 / 2 * e0))); [|lra]. apply rel_trans with (q * h); [apply rel_rnd; nra|]. apply rel_mul; assumption.
Qed.

(* the exponent: m is the computed length of the path, r the computed expected length *)
Lemma exponent_err : forall Q chi r m, / 10000000000000000000000000000000000000000 <= Q < 1 -> rel (9 * e0) r chi -> 0 <= m -> generic_format radix2 fexp64 r ->
  Rabs (rnd64 (rnd64 Q * rnd64 (rnd64 (m / r) - 1)) - Q * (m / chi - 1)) <= 22 * e0 * (Q * (m / chi + 1)).
Proof.
  intros Q chi r m HQ Hr Hm _. assert (Et : 0 < eta <= / 1606938044258990275541962092341162602522202993782792835301376) by (split; [apply eta_pos|change (/ 1606938044258990275541962092341162602522202993782792835301376) with (bpow radix2 (-200)); unfold eta; apply bpow_le; lia]).
  pose proof (rel_pos _ _ _ Hr) as Pr. assert (Pc : 0 < chi) by apply Hr.
  assert (K1 : Rabs (m / r - m / chi) <= 18 * e0 * (m / chi)).
  { apply rel_inv in Hr. apply rel_to in Hr; [|lra]. unfold Rdiv. replace (m * / r - m * / chi) with (m * (/ r - / chi)) by ring. rewrite Rabs_mult, (Rabs_pos_eq m) by lra.
    apply Rle_trans with (m * (2 * (9 * e0) * / chi)); [apply Rmult_le_compat_l; lra|right; ring]. }
  assert (PM : 0 <= m / chi) by (apply Rmult_le_pos; [lra|left; apply Rinv_0_lt_compat; lra]). assert (PR : 0 <= m / r) by (apply Rmult_le_pos; [lra|left; apply Rinv_0_lt_compat; lra]).
  set (M := m / chi) in *. pose proof (rnd_any (m / r)) as K2. rewrite (Rabs_pos_eq (m / r)) in K2 by lra. set (v := m / r) in *. clearbody v M.
  pose proof (sub_err (rnd64 v) 1 (rnd_format v) (is_format _ _ is1)) as K3. set (a := rnd64 v) in *. clearbody a.
  set (b := rnd64 (a - 1)) in *. clearbody b. destruct (near Q) as [T1 T2]; [lra|]. set (t := rnd64 Q) in *. clearbody t.
  pose proof (rnd_any (t * b)) as K4. set (x := rnd64 (t * b)) in *. clearbody x. set (e := eta) in *. clearbody e. clear Hr.
  apply Rabs_le_inv in K1. apply Rabs_le_inv in K2.
  assert (H1 : Rabs (a - M) <= 19 * e0 * (M + 1)) by (apply Rabs_le; lra).
  assert (H2 : Rabs (a - 1) <= 101 / 100 * (M + 1)) by (apply Rabs_le_inv in H1; apply Rabs_le; lra).
  assert (H3 : Rabs (b - (M - 1)) <= 20 * e0 * (M + 1)).
  { replace (b - (M - 1)) with ((b - (a - 1)) + (a - M)) by ring. apply Rle_trans with (1 := Rabs_triang _ _). lra. }
  assert (H4 : Rabs b <= 101 / 100 * (M + 1)).
  { pose proof (near_abs _ _ _ H3) as N. assert (Rabs (M - 1) <= M + 1) by (apply Rabs_le; lra). lra. }
  assert (H5 : Rabs (t - Q) <= uu * Q) by (apply Rabs_le; lra).
  set (S := M + 1) in *. assert (PS : 1 <= S) by (unfold S; lra).
  assert (PQ : 0 <= Q * S) by (apply Rmult_le_pos; lra).
  assert (H6 : Rabs (t * b - Q * (M - 1)) <= 21 * e0 * (Q * S)).
  { replace (t * b - Q * (M - 1)) with ((t - Q) * b + Q * (b - (M - 1))) by ring. apply Rle_trans with (1 := Rabs_triang _ _). rewrite !Rabs_mult, (Rabs_pos_eq Q) by lra.
    assert (J1 : Rabs (t - Q) * Rabs b <= uu * Q * (101 / 100 * S)) by (apply Rmult_le_compat; (apply Rabs_pos || assumption)).
    assert (J2 : Q * Rabs (b - (M - 1)) <= Q * (20 * e0 * S)) by (apply Rmult_le_compat_l; [lra|exact H3]).
    replace (uu * Q * (101 / 100 * S)) with (uu * (101 / 100) * (Q * S)) in J1 by ring. replace (Q * (20 * e0 * S)) with (20 * e0 * (Q * S)) in J2 by ring. lra. }
  assert (H7 : Rabs (Q * (M - 1)) <= Q * S).
  { rewrite Rabs_mult, (Rabs_pos_eq Q) by lra. apply Rmult_le_compat_l; [lra|]. unfold S. apply Rabs_le. lra. }
  pose proof (near_abs _ _ _ H6) as H8. assert (He : e <= e0 / 100 * (Q * S)) by (assert (Q * 1 <= Q * S) by (apply Rmult_le_compat_l; lra); lra).
  replace (x - Q * (M - 1)) with ((x - t * b) + (t * b - Q * (M - 1))) by ring. apply Rle_trans with (1 := Rabs_triang _ _). lra.
Qed.

(* rounding of a product that stays well above the smallest numbers *)
Lemma rel_round_above : forall y, bpow radix2 (-1000) < rnd64 y -> rel e0 (rnd64 y) y.
Proof.
  intros y H. assert (L : bpow radix2 (-1000) <= y).
  { apply Rnot_lt_le. intros C. assert (G : rnd64 y <= rnd64 (bpow radix2 (-1000))) by (apply rnd64_le; lra).
    rewrite (rnd64_id (bpow radix2 (-1000))) in G by (apply generic_format_bpow; unfold SpecFloat.fexp, SpecFloat.emin; lia). lra. }
  destruct (rnd_near y L) as [H1 H2]. pose proof (bpow_gt_0 radix2 (-1000)) as P. assert (0 < y) by lra. clear H L P. set (x := rnd64 y) in *. clearbody x. split; [assumption|]. pose proof (exp_low e0) as A.
  pose proof (exp_neg e0) as En. pose proof (exp_pos (- e0)) as Pn. assert (B : exp (- e0) <= 1 - uu) by nra. split; nra.
Qed.

Lemma rel_exp : forall d x y, Rabs (x - y) <= d -> rel d (exp x) (exp y).
Proof.
  intros d x y H. apply Rabs_le_inv in H. split; [apply exp_pos|]. rewrite <- !exp_plus. split; apply exp_mono; lra.
Qed.
