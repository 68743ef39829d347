(* Rounding errors of the evolution path of the covariance matrix, one component. *)
From Coq Require Import List NArith ZArith Bool Reals Lra Lia Arith Psatz.
From Flocq Require Import Core.
From Flocq Require Import IEEE754.BinarySingleNaN.
Require Import Verif.Base Verif.Num Verif.F64 Verif.XReal Verif.Weights Verif.Params Verif.Order Verif.F64Lemmas Verif.CeilLemmas Verif.XRound Verif.XLe Verif.F64Acc Verif.F64Weights Verif.F64Rates Verif.F64Mean Verif.F64CovErr.
Import ListNotations.
Open Scope R_scope.

Lemma sqrt_near : forall A A' t, 0 < A -> 0 <= A' -> Rabs (A' - A) <= t * A -> Rabs (sqrt A' - sqrt A) <= t * sqrt A.
Proof.
  intros A A' t HA HA' H. pose proof (sqrt_lt_R0 A HA) as Pa. pose proof (sqrt_pos A') as Pb. pose proof (sqrt_sqrt A ltac:(lra)) as Ea. pose proof (sqrt_sqrt A' HA') as Eb. set (a := sqrt A) in *. set (b := sqrt A') in *. clearbody a b.
  assert (K : Rabs (b - a) * (b + a) <= t * (a * a)).
  { rewrite <- (Rabs_pos_eq (b + a)) by lra. rewrite <- Rabs_mult. replace ((b - a) * (b + a)) with (A' - A) by (rewrite <- Ea, <- Eb; ring). rewrite Ea. exact H. }
  apply Rmult_le_reg_r with a; [exact Pa|]. apply Rle_trans with (Rabs (b - a) * (b + a)); [apply Rmult_le_compat_l; [apply Rabs_pos|lra]|]. lra.
Qed.

(* the factor of the weighted step *)
Lemma root_err : forall (fcc fme : f64) cc M, is fcc cc -> is fme M -> / 1000000000000000000000 <= cc <= 1 -> 999 / 1000 <= M <= 1200000000000 ->
  exists g, is (nsqrt (nmul (nmul fcc (nsub n2 fcc)) fme)) g /\ Rabs (g - sqrt (cc * (2 - cc) * M)) <= 5 * uu * sqrt (cc * (2 - cc) * M).
Proof.
  intros fcc fme cc M Ic IM Hc HM.
  assert (I1 : is (nsub n2 fcc) (rnd64 (2 - cc))) by (apply is_sub; [exact is2|exact Ic|apply bigp; lra]). destruct (near (2 - cc)) as [N1 N2]; [lra|]. set (x := rnd64 (2 - cc)) in *. clearbody x.
  assert (X : 9 / 10 <= x <= 21 / 10) by lra. assert (X1 : / 10000000000000000000000 <= cc * x <= 21 / 10) by nra.
  assert (I2 : is (nmul fcc (nsub n2 fcc)) (rnd64 (cc * x))) by (apply is_mul; auto; apply bigp; lra). destruct (near (cc * x)) as [N3 N4]; [lra|]. set (y := rnd64 (cc * x)) in *. clearbody y.
  assert (Y : / 100000000000000000000000 <= y <= 22 / 10) by lra. assert (Y1 : / 1000000000000000000000000 <= y * M <= 10000000000000) by nra.
  assert (I3 : is (nmul (nmul fcc (nsub n2 fcc)) fme) (rnd64 (y * M))) by (apply is_mul; auto; apply bigp; lra). destruct (near (y * M)) as [N5 N6]; [lra|]. set (z := rnd64 (y * M)) in *. clearbody z.
  assert (Z : / 10000000000000000000000000 <= z) by lra. set (A := cc * (2 - cc) * M). assert (PA : 0 < A) by (unfold A; apply Rmult_lt_0_compat; [apply Rmult_lt_0_compat; lra|lra]).
  assert (B1 : cc * (2 - cc) * (1 - uu) <= cc * x <= cc * (2 - cc) * (1 + uu)) by (split; rewrite Rmult_assoc; apply Rmult_le_compat_l; lra).
  assert (B2 : cc * (2 - cc) * (1 - 201 / 100 * uu) <= y <= cc * (2 - cc) * (1 + 201 / 100 * uu)).
  { assert (P : 0 < cc * (2 - cc)) by (apply Rmult_lt_0_compat; lra). set (q := cc * (2 - cc)) in *. set (r := cc * x) in *. clearbody q r. clear - B1 N3 N4 P. lra. }
  assert (B3 : A * (1 - 201 / 100 * uu) <= y * M <= A * (1 + 201 / 100 * uu)).
  { unfold A. set (q := cc * (2 - cc)) in *. clearbody q. clear - B2 HM. split; [replace (q * M * (1 - 201 / 100 * uu)) with (q * (1 - 201 / 100 * uu) * M) by ring|replace (q * M * (1 + 201 / 100 * uu)) with (q * (1 + 201 / 100 * uu) * M) by ring]; apply Rmult_le_compat_r; lra. }
  assert (B4 : Rabs (z - A) <= 302 / 100 * uu * A) by (set (t := y * M) in *; clearbody t A; clear - B3 N5 N6 PA; apply Rabs_le; lra).
  pose proof (sqrt_near A z _ PA ltac:(lra) B4) as S1. exists (rnd64 (sqrt z)). split; [apply is_sqrt; [exact I3|lra]|].
  assert (Sz : / 1606938044258990275541962092341162602522202993782792835301376 <= sqrt z).
  { apply Rle_trans with (sqrt (/ 10000000000000000000000000)); [|apply sqrt_le_1; lra]. apply Rle_trans with (sqrt (/ 1606938044258990275541962092341162602522202993782792835301376 * / 1606938044258990275541962092341162602522202993782792835301376)); [rewrite sqrt_square by lra; lra|apply sqrt_le_1; lra]. }
  destruct (near (sqrt z) Sz) as [N7 N8]. pose proof (sqrt_lt_R0 A PA) as Pa. set (a := sqrt A) in *. set (s := sqrt z) in *. set (g := rnd64 s) in *. clearbody a s g. clear - S1 N7 N8 Pa. apply Rabs_le_inv in S1. apply Rabs_le. lra.
Qed.

(* one component of the path *)
Lemma path_err : forall cc p h g G yw Y S N, 0 <= cc <= 1 -> generic_format radix2 fexp64 cc -> h = 0 \/ h = 1 -> 0 <= G -> generic_format radix2 fexp64 g -> Rabs (g - G) <= 5 * uu * G ->
  0 <= N <= 1099511627776 -> Rabs Y <= S -> Rabs (yw - Y) <= 2 * N * uu * S + 4 * N * eta ->
  Rabs (rnd64 (rnd64 (rnd64 (1 - cc) * p) + rnd64 (rnd64 (h * g) * yw)) - ((1 - cc) * p + h * G * Y)) <= (3 * N + 8) * uu * ((1 - cc) * Rabs p + h * G * S) + (5 * N * G + 3) * eta.
Proof.
  intros cc p h g G yw Y S N Hc Fc Hh HG Fg Hg HN HY Hy. pose proof eta_tiny as Et.
  assert (Eh : rnd64 (h * g) = h * g) by (destruct Hh as [-> | ->]; [rewrite Rmult_0_l; apply rnd64_id, (is_format _ _ is0)|rewrite Rmult_1_l; apply rnd64_id, Fg]). rewrite Eh. clear Eh.
  pose proof (sub_err 1 cc (is_format _ _ is1) Fc) as R0. rewrite (Rabs_pos_eq (1 - cc)) in R0 by lra. set (x := rnd64 (1 - cc)) in *. clearbody x.
  pose proof (rnd_any (x * p)) as R1. set (q1 := rnd64 (x * p)) in *. assert (F1 : generic_format radix2 fexp64 q1) by apply rnd_format. clearbody q1.
  pose proof (rnd_any (h * g * yw)) as R2. set (q2 := rnd64 (h * g * yw)) in *. assert (F2 : generic_format radix2 fexp64 q2) by apply rnd_format. clearbody q2.
  pose proof (add_err q1 q2 F1 F2) as R3. set (r := rnd64 (q1 + q2)) in *. clearbody r. clear F1 F2 Fc Fg. set (e := eta) in *. clearbody e.
  set (A := (1 - cc) * Rabs p) in *. assert (PA : 0 <= A) by (unfold A; apply Rmult_le_pos; [lra|apply Rabs_pos]).
  assert (PS : 0 <= S) by (apply Rle_trans with (2 := HY); apply Rabs_pos).
  assert (K1 : Rabs (x * p - (1 - cc) * p) <= uu * A).
  { replace (x * p - (1 - cc) * p) with ((x - (1 - cc)) * p) by ring. rewrite Rabs_mult. apply Rle_trans with (uu * (1 - cc) * Rabs p); [apply Rmult_le_compat_r; [apply Rabs_pos|exact R0]|right; unfold A; ring]. }
  assert (K0 : Rabs ((1 - cc) * p) = A) by (rewrite Rabs_mult, (Rabs_pos_eq (1 - cc)) by lra; reflexivity).
  pose proof (near_abs _ _ _ K1) as K2. rewrite K0 in K2.
  assert (Q1 : Rabs (q1 - (1 - cc) * p) <= 201 / 100 * uu * A + e).
  { replace (q1 - (1 - cc) * p) with ((q1 - x * p) + (x * p - (1 - cc) * p)) by ring. apply Rle_trans with (1 := Rabs_triang _ _). set (a := Rabs (q1 - x * p)) in *. set (b := Rabs (x * p - (1 - cc) * p)) in *. set (c := Rabs (x * p)) in *. clearbody a b c A. clear - R1 K1 K2 PA Et. lra. }
  set (B := h * G * S) in *. assert (Hh2 : 0 <= h <= 1) by (destruct Hh; lra). assert (HG2 : 0 <= h * G <= G) by (split; [apply Rmult_le_pos; lra|]; apply Rle_trans with (1 * G); [apply Rmult_le_compat_r; lra|lra]). assert (PB : 0 <= B) by (unfold B; apply Rmult_le_pos; lra).
  set (nu := N * uu) in *. assert (NU : 0 <= nu <= / 8192) by (unfold nu; lra). set (V := N * e) in *. assert (PV : 0 <= V) by (unfold V; apply Rmult_le_pos; lra).
  assert (Hy' : Rabs (yw - Y) <= 2 * nu * S + 4 * V) by (apply Rle_trans with (1 := Hy); right; unfold nu, V; ring).
  assert (Dy : Rabs yw <= 1001 / 1000 * S + 4 * V).
  { pose proof (near_abs _ _ _ Hy') as D. assert (nu * S <= / 8192 * S) by (apply Rmult_le_compat_r; lra). lra. }
  assert (K3 : Rabs (h * g * yw - h * G * Y) <= (2 * nu + 502 / 100 * uu) * B + 41 / 10 * (G * V)).
  { replace (h * g * yw - h * G * Y) with (h * (g - G) * yw + h * G * (yw - Y)) by ring. apply Rle_trans with (1 := Rabs_triang _ _). rewrite !Rabs_mult, (Rabs_pos_eq h), (Rabs_pos_eq G) by lra.
    assert (J1 : h * Rabs (g - G) * Rabs yw <= h * (5 * uu * G) * (1001 / 1000 * S + 4 * V)).
    { apply Rmult_le_compat; [apply Rmult_le_pos; [lra|apply Rabs_pos]|apply Rabs_pos|apply Rmult_le_compat_l; lra|exact Dy]. }
    assert (J2 : h * G * Rabs (yw - Y) <= h * G * (2 * nu * S + 4 * V)) by (apply Rmult_le_compat_l; lra).
    replace (h * (5 * uu * G) * (1001 / 1000 * S + 4 * V)) with (5 * uu * (1001 / 1000 * B + 4 * (h * G * V))) in J1 by (unfold B; ring). replace (h * G * (2 * nu * S + 4 * V)) with (2 * nu * B + 4 * (h * G * V)) in J2 by (unfold B; ring).
    assert (J3 : 0 <= h * G * V <= G * V) by (split; [apply Rmult_le_pos; lra|apply Rmult_le_compat_r; lra]). set (hv := h * G * V) in *. set (gv := G * V) in *. replace ((2 * nu + 502 / 100 * uu) * B) with (2 * nu * B + 502 / 100 * uu * B) by ring. set (nb := 2 * nu * B) in *.
    set (a1 := h * Rabs (g - G) * Rabs yw) in *. set (a2 := h * G * Rabs (yw - Y)) in *. clearbody hv gv nb a1 a2 B. clear - J1 J2 J3 PB. lra. }
  assert (K4 : Rabs (h * G * Y) <= B) by (rewrite Rabs_mult, (Rabs_pos_eq (h * G)) by lra; unfold B; apply Rmult_le_compat_l; lra).
  pose proof (near_abs _ _ _ K3) as K5. assert (NB : 0 <= nu * B <= / 8192 * B) by (split; [apply Rmult_le_pos; lra|apply Rmult_le_compat_r; lra]). assert (GV : 0 <= G * V) by (apply Rmult_le_pos; lra).
  replace ((2 * nu + 502 / 100 * uu) * B) with (2 * (nu * B) + 502 / 100 * uu * B) in * by ring. 
  replace ((3 * N + 8) * uu * (A + B) + (5 * N * G + 3) * e) with (3 * (nu * A) + 3 * (nu * B) + 8 * uu * (A + B) + 5 * (G * V) + 3 * e) by (unfold nu, V; ring). assert (NA : 0 <= nu * A) by (apply Rmult_le_pos; lra).
  set (nb := nu * B) in *. set (na := nu * A) in *. set (gv := G * V) in *. clearbody nb na gv.
  assert (Q2 : Rabs (q2 - h * G * Y) <= 201 / 100 * nb + 604 / 100 * uu * B + 42 / 10 * gv + e).
  { replace (q2 - h * G * Y) with ((q2 - h * g * yw) + (h * g * yw - h * G * Y)) by ring. apply Rle_trans with (1 := Rabs_triang _ _). set (a := Rabs (q2 - h * g * yw)) in *. set (b := Rabs (h * g * yw - h * G * Y)) in *. set (c := Rabs (h * g * yw)) in *. set (d := Rabs (h * G * Y)) in *. clearbody a b c d B. clear - R2 K3 K4 K5 PB Et NB GV. lra. }
  pose proof (near_abs _ _ _ Q1) as X1. rewrite K0 in X1. pose proof (near_abs _ _ _ Q2) as X2. pose proof (Rabs_triang q1 q2) as X3.
  replace (r - ((1 - cc) * p + h * G * Y)) with ((r - (q1 + q2)) + ((q1 - (1 - cc) * p) + (q2 - h * G * Y))) by ring. apply Rle_trans with (1 := Rabs_triang _ _). pose proof (Rabs_triang (q1 - (1 - cc) * p) (q2 - h * G * Y)) as X4.
  set (a1 := Rabs (r - (q1 + q2))) in *. set (a2 := Rabs (q1 - (1 - cc) * p + (q2 - h * G * Y))) in *. set (a3 := Rabs (q1 - (1 - cc) * p)) in *. set (a4 := Rabs (q2 - h * G * Y)) in *. set (a5 := Rabs (q1 + q2)) in *. set (a6 := Rabs q1) in *. set (a7 := Rabs q2) in *. set (a8 := Rabs (h * G * Y)) in *. clearbody a1 a2 a3 a4 a5 a6 a7 a8 A B.
  clear - R3 Q1 Q2 X1 X2 X3 X4 K4 PA PB NA NB GV Et. lra.
Qed.
