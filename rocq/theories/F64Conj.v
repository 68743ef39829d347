(* Rounding errors of the conjugate evolution path, one component, and of its length. *)
From Coq Require Import List NArith ZArith Bool Reals Lra Lia Arith Psatz.
From Flocq Require Import Core.
From Flocq Require Import IEEE754.BinarySingleNaN.
Require Import Verif.Base Verif.Num Verif.F64 Verif.XReal Verif.LinAlg Verif.Weights Verif.Params Verif.Order Verif.F64Lemmas Verif.CeilLemmas Verif.XRound Verif.XLe Verif.F64Acc Verif.F64Weights Verif.F64Rates
  Verif.F64Mean Verif.F64CovErr Verif.F64Path Verif.RSum.
Import ListNotations.
Open Scope R_scope.

(* Every way of adding the terms up: the bound for the order of the model holds for any other. *)
Inductive any_sum : list R -> R -> Prop :=
| As_one : forall x, any_sum [x] x
| As_add : forall a b x y, any_sum a x -> any_sum b y -> any_sum (a ++ b) (rnd64 (x + y)).
Lemma any_sum_format : forall l r, any_sum l r -> Forall (generic_format radix2 fexp64) l -> generic_format radix2 fexp64 r.
Proof. intros l r H. induction H as [x|a b x y H1 I1 H2 I2]; intros F; [inversion F; assumption|apply rnd_format]. Qed.
Lemma any_sum_length : forall l r, any_sum l r -> (1 <= length l)%nat.
Proof. intros l r H. induction H; [cbn; lia|]. rewrite app_length. lia. Qed.
Lemma any_sum_err : forall l r, any_sum l r -> Forall (generic_format radix2 fexp64) l -> Rabs (r - tot l) <= (grow (length l - 1) - 1) * tot (map Rabs l).
Proof.
  intros l r H. induction H as [x|a b x y H1 I1 H2 I2]; intros F.
  - cbn. unfold grow. cbn. rewrite !Rplus_0_r, Rminus_diag_eq, Rabs_R0 by reflexivity. lra.
  - apply Forall_app in F. destruct F as [Fa Fb]. specialize (I1 Fa). specialize (I2 Fb). pose proof (any_sum_length _ _ H1) as La. pose proof (any_sum_length _ _ H2) as Lb.
    rewrite tot_app, map_app, tot_app, app_length.
    assert (Q : Rabs (rnd64 (x + y) - (tot a + tot b)) <= ((1 + uu) * grow (length a + length b - 2) - 1) * (tot (map Rabs a) + tot (map Rabs b))).
    { apply join_err; [eapply any_sum_format; eauto|eapply any_sum_format; eauto|apply grow_1|apply tot_abs|apply tot_abs| |].
      - apply Rle_trans with (1 := I1). apply Rmult_le_compat_r; [apply tot_abs_nonneg|]. pose proof (grow_le (length a - 1) (length a + length b - 2) ltac:(lia)). lra.
      - apply Rle_trans with (1 := I2). apply Rmult_le_compat_r; [apply tot_abs_nonneg|]. pose proof (grow_le (length b - 1) (length a + length b - 2) ltac:(lia)). lra. }
    rewrite <- grow_S in Q. replace (S (length a + length b - 2)) with (length a + length b - 1)%nat in Q by lia. exact Q.
Qed.

(* one product of the row *)
Section Product.
  Variables (g G b v Y S M e : R).
  Hypothesis HG : 0 <= G.
  Hypothesis Hg : Rabs (g - G) <= 5 * uu * G.
  Hypothesis HM : 0 <= M <= 1099511627776.
  Hypothesis HY : Rabs Y <= S.
  Hypothesis He : e = eta.
  Hypothesis Hv : Rabs (v - Y) <= 2 * M * uu * S + 4 * M * e.

  Lemma product_err : Rabs (rnd64 (rnd64 (g * b) * v) - G * b * Y) <= (201 / 100 * M + 711 / 100) * uu * (G * Rabs b * S) + 42 / 10 * (M * (G * Rabs b)) * e + 102 / 100 * (1 + S) * e.
  Proof.
    pose proof eta_tiny as Et. pose proof (prod3_err g b v) as R1. rewrite <- He in *. set (r := rnd64 (rnd64 (g * b) * v)) in *. clearbody r. clear He.
    assert (PS : 0 <= S) by (apply Rle_trans with (2 := HY); apply Rabs_pos).
    set (nu := M * uu). assert (NU : 0 <= nu <= / 8192) by (unfold nu; lra). set (V := M * e). assert (PV : 0 <= V <= uu * / 8192) by (unfold V; split; [apply Rmult_le_pos; lra|]; apply Rle_trans with (M * (uu * uu)); [apply Rmult_le_compat_l; lra|]; unfold nu in NU; replace (M * (uu * uu)) with (uu * (M * uu)) by ring; apply Rmult_le_compat_l; lra).
    assert (Hv' : Rabs (v - Y) <= 2 * nu * S + 4 * V) by (apply Rle_trans with (1 := Hv); right; unfold nu, V; ring).
    assert (NS : 0 <= nu * S <= / 8192 * S) by (split; [apply Rmult_le_pos; lra|apply Rmult_le_compat_r; lra]).
    pose proof (near_abs _ _ _ Hv') as Dv. assert (Dv' : Rabs v <= 1001 / 1000 * S + 4 * V) by lra. clear Dv.
    set (B := G * Rabs b) in *. assert (PB : 0 <= B) by (unfold B; apply Rmult_le_pos; [lra|apply Rabs_pos]).
    set (P := B * S). assert (PP : 0 <= P) by (unfold P; apply Rmult_le_pos; lra). set (W := B * V). assert (PW : 0 <= W) by (unfold W; apply Rmult_le_pos; lra).
    assert (K : Rabs (g * b * v - G * b * Y) <= (2 * nu + 501 / 100 * uu) * P + 41 / 10 * W).
    { replace (g * b * v - G * b * Y) with ((g - G) * b * v + G * b * (v - Y)) by ring. apply Rle_trans with (1 := Rabs_triang _ _). rewrite !Rabs_mult, (Rabs_pos_eq G) by lra. fold B.
      assert (J1 : Rabs (g - G) * Rabs b * Rabs v <= 5 * uu * B * (1001 / 1000 * S + 4 * V)).
      { apply Rmult_le_compat; [apply Rmult_le_pos; apply Rabs_pos|apply Rabs_pos| |exact Dv']. replace (5 * uu * B) with (5 * uu * G * Rabs b) by (unfold B; ring). apply Rmult_le_compat_r; [apply Rabs_pos|exact Hg]. }
      assert (J2 : B * Rabs (v - Y) <= B * (2 * nu * S + 4 * V)) by (apply Rmult_le_compat_l; lra).
      replace (5 * uu * B * (1001 / 1000 * S + 4 * V)) with (5 * uu * (1001 / 1000 * P + 4 * W)) in J1 by (unfold P, W; ring). replace (B * (2 * nu * S + 4 * V)) with (2 * nu * P + 4 * W) in J2 by (unfold P, W; ring).
      set (a := Rabs (g - G) * Rabs b * Rabs v) in *. set (c := B * Rabs (v - Y)) in *. clearbody a c P W. lra. }
    assert (K0 : Rabs (G * b * Y) <= P) by (rewrite !Rabs_mult, (Rabs_pos_eq G) by lra; fold B; unfold P; apply Rmult_le_compat_l; lra).
    pose proof (near_abs _ _ _ K) as K1. assert (NP : 0 <= nu * P <= / 8192 * P) by (split; [apply Rmult_le_pos; lra|apply Rmult_le_compat_r; lra]).
    replace ((2 * nu + 501 / 100 * uu) * P) with (2 * (nu * P) + 501 / 100 * uu * P) in * by ring.
    replace ((201 / 100 * M + 711 / 100) * uu * P) with (201 / 100 * (nu * P) + 711 / 100 * uu * P) by (unfold nu; ring). replace (42 / 10 * (M * B) * e) with (42 / 10 * W) by (unfold W, V; ring).
    assert (R2 : 101 / 100 * (1 + Rabs v) * e <= 102 / 100 * (1 + S) * e) by (apply Rmult_le_compat_r; lra).
    replace (r - G * b * Y) with ((r - g * b * v) + (g * b * v - G * b * Y)) by ring. apply Rle_trans with (1 := Rabs_triang _ _).
    set (x1 := Rabs (r - g * b * v)) in *. set (x2 := Rabs (g * b * v - G * b * Y)) in *. set (x3 := Rabs (g * b * v)) in *. set (x4 := Rabs (G * b * Y)) in *. set (x5 := 101 / 100 * (1 + Rabs v) * e) in *. set (x6 := 102 / 100 * (1 + S) * e) in *. set (q := nu * P) in *.
    clearbody x1 x2 x3 x4 x5 x6 q P W. clear - R1 R2 K K0 K1 NP PP PW. lra.
  Qed.
End Product.

(* the row times the weighted mean of the steps *)
Section Row.
  Variables (n : nat) (g G M : R) (b v Y S : nat -> R).
  Hypothesis HG : 0 <= G.
  Hypothesis Hg : Rabs (g - G) <= 5 * uu * G.
  Hypothesis HM : 0 <= M <= 1099511627776.
  Hypothesis Hn : INR n <= 1099511627776.
  Hypothesis HY : forall j, (j < n)%nat -> Rabs (Y j) <= S j.
  Hypothesis Hv : forall j, (j < n)%nat -> Rabs (v j - Y j) <= 2 * M * uu * S j + 4 * M * eta.
  Let N := INR n.
  Let P := G * Sig n (fun j => Rabs (b j) * S j).
  Let Q := M * (G * Sig n (fun j => Rabs (b j))).
  Let Z := Sig n (fun j => 1 + S j).

  Lemma row_err : Rabs (fsum (map (fun j => rnd64 (rnd64 (g * b j) * v j)) (seq 0 n)) 0 - G * Sig n (fun j => b j * Y j)) <=
    (202 / 100 * M + 101 / 100 * N + 712 / 100) * uu * P + (43 / 10 * Q + 103 / 100 * Z) * eta.
  Proof.
    set (r := fun j => rnd64 (rnd64 (g * b j) * v j)). pose proof (fsum_grow (map r (seq 0 n)) 0 (is_format _ _ is0)) as H. rewrite map_length, seq_length, map_map in H.
    rewrite Rplus_0_l, Rabs_R0, Rplus_0_l in H. rewrite !tot_Sig in H. specialize (H ltac:(apply Forall_map, Forall_forall; intros; apply rnd_format)). cbn [plus] in H.
    pose proof (grow_small n ltac:(lra)) as Gn. pose proof (grow_1 n) as G1. pose proof eta_tiny as Et.
    assert (D : forall j, (j < n)%nat -> Rabs (r j - G * b j * Y j) <= (201 / 100 * M + 711 / 100) * uu * (G * Rabs (b j) * S j) + 42 / 10 * (M * (G * Rabs (b j))) * eta + 102 / 100 * (1 + S j) * eta).
    { intros j Hj. unfold r. apply product_err; auto. }
    assert (PS : forall j, (j < n)%nat -> 0 <= S j) by (intros j Hj; apply Rle_trans with (2 := HY j Hj); apply Rabs_pos).
    set (k := 201 / 100 * M + 711 / 100) in *.
    assert (D1 : Sig n (fun j => k * uu * (G * Rabs (b j) * S j) + 42 / 10 * (M * (G * Rabs (b j))) * eta + 102 / 100 * (1 + S j) * eta) = k * uu * P + 42 / 10 * Q * eta + 102 / 100 * Z * eta).
    { unfold P, Q, Z. rewrite !Sig_plus. rewrite (Sig_ext n (fun j => k * uu * (G * Rabs (b j) * S j)) (fun j => k * uu * G * (Rabs (b j) * S j))) by (intros; ring).
      rewrite (Sig_ext n (fun j => 42 / 10 * (M * (G * Rabs (b j))) * eta) (fun j => 42 / 10 * M * G * eta * Rabs (b j))) by (intros; ring). rewrite (Sig_ext n (fun j => 102 / 100 * (1 + S j) * eta) (fun j => 102 / 100 * eta * (1 + S j))) by (intros; ring). rewrite !Sig_mul_l. rewrite !Sig_plus. ring. }
    assert (D2 : Rabs (Sig n r - G * Sig n (fun j => b j * Y j)) <= k * uu * P + 42 / 10 * Q * eta + 102 / 100 * Z * eta).
    { rewrite <- D1. replace (Sig n r - G * Sig n (fun j => b j * Y j)) with (Sig n (fun j => r j - G * b j * Y j)).
      - apply Rle_trans with (1 := Sig_abs _ _). apply Sig_le. exact D.
      - rewrite <- Sig_mul_l. rewrite (Sig_ext _ _ (fun j => r j + (-1) * (G * (b j * Y j)))) by (intros; ring). rewrite Sig_plus, Sig_mul_l. ring. }
    assert (D3 : Sig n (fun j => Rabs (r j)) <= P + (k * uu * P + 42 / 10 * Q * eta + 102 / 100 * Z * eta)).
    { rewrite <- D1. unfold P. rewrite <- Sig_mul_l, <- Sig_plus. apply Sig_le. intros j Hj. pose proof (near_abs _ _ _ (D j Hj)) as A. apply Rle_trans with (1 := A). apply Rplus_le_compat_r. rewrite !Rabs_mult, (Rabs_pos_eq G) by lra. rewrite Rmult_assoc. apply Rmult_le_compat_l; [lra|]. apply Rmult_le_compat_l; [apply Rabs_pos|apply HY; exact Hj]. }
    assert (PP : 0 <= P) by (apply Rmult_le_pos; [lra|]; apply Sig_nonneg; intros j Hj; apply Rmult_le_pos; [apply Rabs_pos|apply PS; exact Hj]).
    assert (PQ : 0 <= Q) by (apply Rmult_le_pos; [lra|]; apply Rmult_le_pos; [lra|]; apply Sig_nonneg; intros; apply Rabs_pos).
    assert (PZ : 0 <= Z) by (apply Sig_nonneg; intros j Hj; specialize (PS j Hj); lra).
    fold N in Gn, Hn. set (gn := grow n) in *. set (F := fsum _ _) in *. set (S1 := Sig n r) in *. set (S2 := Sig n (fun j => Rabs (r j))) in *. set (T := G * Sig n (fun j => b j * Y j)) in *. clearbody gn F S1 S2 T P Q Z. clear D D1 PS r HY Hv.
    assert (PN : 0 <= N) by apply pos_INR. set (e := eta) in *. clearbody e N. set (X := 42 / 10 * Q * e + 102 / 100 * Z * e) in *. assert (PQe : 0 <= Q * e) by (apply Rmult_le_pos; lra). assert (PZe : 0 <= Z * e) by (apply Rmult_le_pos; lra). assert (PX : 0 <= X) by (unfold X; lra).
    set (nu := N * uu) in *. assert (NU : 0 <= nu <= / 8192) by (unfold nu; lra). set (mu := M * uu). assert (MU : 0 <= mu <= / 8192) by (unfold mu; lra).
    replace (k * uu * P + 42 / 10 * Q * e + 102 / 100 * Z * e) with (201 / 100 * (mu * P) + 711 / 100 * uu * P + X) in * by (unfold X, k, mu; ring).
    assert (MP : 0 <= mu * P <= / 8192 * P) by (split; [apply Rmult_le_pos; lra|apply Rmult_le_compat_r; lra]).
    assert (S2b : S2 <= 1001 / 1000 * P + X) by lra.
    assert (H' : (gn - 1) * S2 <= 1001 / 1000 * nu * (1001 / 1000 * P + X)).
    { apply Rle_trans with ((gn - 1) * (1001 / 1000 * P + X)); [apply Rmult_le_compat_l; lra|apply Rmult_le_compat_r; lra]. }
    assert (NX : 0 <= nu * X <= / 8192 * X) by (split; [apply Rmult_le_pos; lra|apply Rmult_le_compat_r; lra]). assert (NP : 0 <= nu * P) by (apply Rmult_le_pos; lra).
    replace (1001 / 1000 * nu * (1001 / 1000 * P + X)) with (1001 / 1000 * (1001 / 1000) * (nu * P) + 1001 / 1000 * (nu * X)) in H' by ring.
    replace ((202 / 100 * M + 101 / 100 * N + 712 / 100) * uu * P + (43 / 10 * Q + 103 / 100 * Z) * e) with (202 / 100 * (mu * P) + 101 / 100 * (nu * P) + 712 / 100 * uu * P + 43 / 10 * (Q * e) + 103 / 100 * (Z * e)) by (unfold mu, nu; ring).
    replace (F - T) with ((F - S1) + (S1 - T)) by ring. apply Rle_trans with (1 := Rabs_triang _ _). assert (EX : X = 42 / 10 * (Q * e) + 102 / 100 * (Z * e)) by (unfold X; ring).
    set (x1 := Rabs (F - S1)) in *. set (x2 := Rabs (S1 - T)) in *. set (qe := Q * e) in *. set (ze := Z * e) in *. set (mp := mu * P) in *. set (np := nu * P) in *. set (nx := nu * X) in *. clearbody x1 x2 qe ze mp np nx X. set (gs := (gn - 1) * S2) in *. clearbody gs. clear - H H' D2 EX MP NX NP PP PQe PZe PX. lra.
  Qed.
End Row.

(* one component *)
Lemma conj_err : forall cs p t T U D, 0 <= cs <= 1 -> generic_format radix2 fexp64 cs -> generic_format radix2 fexp64 t -> Rabs T <= U -> 0 <= D -> Rabs (t - T) <= D ->
  Rabs (rnd64 (rnd64 (rnd64 (1 - cs) * p) + t) - ((1 - cs) * p + T)) <= 302 / 100 * uu * ((1 - cs) * Rabs p) + uu * U + 101 / 100 * D + 101 / 100 * eta.
Proof.
  intros cs p t T U D Hc Fc Ft HT HD Ht. pose proof eta_tiny as Et.
  pose proof (sub_err 1 cs (is_format _ _ is1) Fc) as R0. rewrite (Rabs_pos_eq (1 - cs)) in R0 by lra. set (x := rnd64 (1 - cs)) in *. clearbody x.
  pose proof (rnd_any (x * p)) as R1. set (q1 := rnd64 (x * p)) in *. assert (F1 : generic_format radix2 fexp64 q1) by apply rnd_format. clearbody q1.
  pose proof (add_err q1 t F1 Ft) as R3. set (r := rnd64 (q1 + t)) in *. clearbody r. clear F1 Ft Fc. set (e := eta) in *. clearbody e.
  set (A := (1 - cs) * Rabs p) in *. assert (PA : 0 <= A) by (unfold A; apply Rmult_le_pos; [lra|apply Rabs_pos]).
  assert (K1 : Rabs (x * p - (1 - cs) * p) <= uu * A).
  { replace (x * p - (1 - cs) * p) with ((x - (1 - cs)) * p) by ring. rewrite Rabs_mult. apply Rle_trans with (uu * (1 - cs) * Rabs p); [apply Rmult_le_compat_r; [apply Rabs_pos|exact R0]|right; unfold A; ring]. }
  assert (K0 : Rabs ((1 - cs) * p) = A) by (rewrite Rabs_mult, (Rabs_pos_eq (1 - cs)) by lra; reflexivity).
  pose proof (near_abs _ _ _ K1) as K2. rewrite K0 in K2.
  assert (Q1 : Rabs (q1 - (1 - cs) * p) <= 201 / 100 * uu * A + e).
  { replace (q1 - (1 - cs) * p) with ((q1 - x * p) + (x * p - (1 - cs) * p)) by ring. apply Rle_trans with (1 := Rabs_triang _ _). set (a := Rabs (q1 - x * p)) in *. set (b := Rabs (x * p - (1 - cs) * p)) in *. set (c := Rabs (x * p)) in *. clearbody a b c A. clear - R1 K1 K2 PA Et. lra. }
  pose proof (near_abs _ _ _ Q1) as X1. rewrite K0 in X1. pose proof (near_abs _ _ _ Ht) as X2. pose proof (Rabs_triang q1 t) as X3.
  replace (r - ((1 - cs) * p + T)) with ((r - (q1 + t)) + ((q1 - (1 - cs) * p) + (t - T))) by ring. apply Rle_trans with (1 := Rabs_triang _ _). pose proof (Rabs_triang (q1 - (1 - cs) * p) (t - T)) as X4.
  assert (PU : 0 <= U) by (apply Rle_trans with (2 := HT); apply Rabs_pos).
  set (a1 := Rabs (r - (q1 + t))) in *. set (a2 := Rabs (q1 - (1 - cs) * p + (t - T))) in *. set (a3 := Rabs (q1 - (1 - cs) * p)) in *. set (a4 := Rabs (t - T)) in *. set (a5 := Rabs (q1 + t)) in *. set (a6 := Rabs q1) in *. set (a7 := Rabs t) in *. set (a8 := Rabs T) in *. clearbody a1 a2 a3 a4 a5 a6 a7 a8 A. clear - R3 Q1 X1 X2 X3 X4 HT HD Ht PA PU Et. lra.
Qed.

(* the length *)
Lemma sqrt_apart : forall a b, 0 <= a -> 0 <= b -> Rabs (sqrt a - sqrt b) <= sqrt (Rabs (a - b)).
Proof.
  assert (G : forall a b, 0 <= b <= a -> sqrt a - sqrt b <= sqrt (a - b)).
  { intros a b H. pose proof (sqrt_pos b) as P1. pose proof (sqrt_pos (a - b)) as P2. pose proof (sqrt_sqrt b ltac:(lra)) as E1. pose proof (sqrt_sqrt (a - b) ltac:(lra)) as E2.
    assert (sqrt a <= sqrt (Rsqr (sqrt b + sqrt (a - b)))). { apply sqrt_le_1; [lra|apply Rle_0_sqr|]. unfold Rsqr. assert (0 <= sqrt b * sqrt (a - b)) by (apply Rmult_le_pos; assumption). lra. }
    rewrite sqrt_Rsqr in H0 by lra. lra. }
  intros a b Ha Hb. destruct (Rle_dec b a) as [H|H].
  - rewrite (Rabs_pos_eq (a - b)) by lra. rewrite Rabs_pos_eq; [apply G; lra|]. pose proof (sqrt_le_1 b a Hb Ha H). lra.
  - rewrite (Rabs_minus_sym a b), (Rabs_pos_eq (b - a)) by lra. rewrite Rabs_minus_sym, Rabs_pos_eq; [apply G; lra|]. pose proof (sqrt_le_1 a b Ha Hb ltac:(lra)). lra.
Qed.
Section Length.
  Variables (n : nat) (x : nat -> R).
  Hypothesis Hn : INR n <= 1099511627776.
  Let N := INR n.
  Let P := Sig n (fun i => x i * x i).
  Let s := fsum (map (fun i => rnd64 (x i * x i)) (seq 0 n)) 0.

  Lemma square_err : 0 <= P /\ Rabs (s - P) <= (101 / 100 * N + 101 / 100) * uu * P + 101 / 100 * N * eta.
  Proof.
    assert (PP : 0 <= P) by (apply Sig_nonneg; intros; nra). split; [exact PP|].
    set (r := fun i => rnd64 (x i * x i)) in *. pose proof (fsum_grow (map r (seq 0 n)) 0 (is_format _ _ is0)) as H. rewrite map_length, seq_length, map_map in H.
    rewrite Rplus_0_l, Rabs_R0, Rplus_0_l in H. rewrite !tot_Sig in H. specialize (H ltac:(apply Forall_map, Forall_forall; intros; apply rnd_format)). cbn [plus] in H. fold s in H.
    pose proof (grow_small n ltac:(lra)) as Gn. pose proof (grow_1 n) as G1. pose proof eta_tiny as Et.
    assert (D : forall i, Rabs (r i - x i * x i) <= uu * (x i * x i) + eta) by (intros i; unfold r; pose proof (rnd_any (x i * x i)) as A; rewrite (Rabs_pos_eq (x i * x i)) in A by nra; exact A).
    assert (D1 : Sig n (fun i => uu * (x i * x i) + eta) = uu * P + N * eta) by (unfold P; rewrite Sig_plus, Sig_mul_l, Sig_const; reflexivity).
    assert (D2 : Rabs (Sig n r - P) <= uu * P + N * eta).
    { rewrite <- D1. replace (Sig n r - P) with (Sig n (fun i => r i - x i * x i)); [apply Rle_trans with (1 := Sig_abs _ _); apply Sig_le; intros; apply D|].
      unfold P. rewrite (Sig_ext _ _ (fun j => r j + (-1) * (x j * x j))) by (intros; ring). rewrite Sig_plus, (Sig_mul_l _ (-1)). ring. }
    assert (D3 : Sig n (fun j => Rabs (r j)) <= P + (uu * P + N * eta)).
    { rewrite <- D1. unfold P. rewrite <- Sig_plus. apply Sig_le. intros j Hj. pose proof (near_abs _ _ _ (D j)) as A. rewrite (Rabs_pos_eq (x j * x j)) in A by nra. lra. }
    fold N in Gn. set (gn := grow n) in *. set (S1 := Sig n r) in *. set (S2 := Sig n (fun j => Rabs (r j))) in *. assert (PN : 0 <= N) by apply pos_INR. fold N in Hn. clearbody gn S1 S2 P s N. clear D D1 r. set (e := eta) in *. clearbody e.
    set (nu := N * uu) in *. assert (NU : 0 <= nu <= / 8192) by (unfold nu; lra). set (X := N * e) in *. assert (PX : 0 <= X) by (unfold X; apply Rmult_le_pos; lra).
    assert (H' : (gn - 1) * S2 <= 1001 / 1000 * nu * (1001 / 1000 * P + X)).
    { apply Rle_trans with ((gn - 1) * (1001 / 1000 * P + X)); [apply Rmult_le_compat_l; lra|apply Rmult_le_compat_r; lra]. }
    assert (NX : 0 <= nu * X <= / 8192 * X) by (split; [apply Rmult_le_pos; lra|apply Rmult_le_compat_r; lra]). assert (NP : 0 <= nu * P) by (apply Rmult_le_pos; lra).
    replace (1001 / 1000 * nu * (1001 / 1000 * P + X)) with (1001 / 1000 * (1001 / 1000) * (nu * P) + 1001 / 1000 * (nu * X)) in H' by ring.
    replace ((101 / 100 * N + 101 / 100) * uu * P + 101 / 100 * N * e) with (101 / 100 * (nu * P) + 101 / 100 * uu * P + 101 / 100 * X) by (unfold nu, X; ring).
    replace (s - P) with ((s - S1) + (S1 - P)) by ring. apply Rle_trans with (1 := Rabs_triang _ _).
    set (x1 := Rabs (s - S1)) in *. set (x2 := Rabs (S1 - P)) in *. set (np := nu * P) in *. set (nx := nu * X) in *. set (gs := (gn - 1) * S2) in *. clearbody x1 x2 np nx gs X. clear - H H' D2 NX NP PP PX. lra.
  Qed.

  Lemma length_err : 0 <= s -> Rabs (rnd64 (sqrt s) - sqrt P) <= (102 / 100 * N + 21 / 10) * uu * sqrt P + bpow radix2 (-515).
  Proof.
    intros Hs. destruct square_err as [PP H]. pose proof eta_tiny as Et. assert (PN : 0 <= N) by apply pos_INR. fold N in Hn. set (t := (101 / 100 * N + 101 / 100) * uu) in *. assert (Tt : 0 <= t <= / 4000) by (unfold t; lra).
    (* s = P + d1 + d2 with d1 relative *)
    assert (Z : Rabs (sqrt s - sqrt P) <= t * sqrt P + sqrt (101 / 100 * N * eta)).
    { assert (PE : 0 <= 101 / 100 * N * eta) by (apply Rmult_le_pos; [lra|lra]). set (X := 101 / 100 * N * eta) in *. clearbody X.
      assert (Ex : exists a, 0 <= a /\ Rabs (a - P) <= t * P /\ Rabs (s - a) <= X).
      { assert (TP : 0 <= t * P) by (apply Rmult_le_pos; lra). assert (t * P <= / 4000 * P) by (apply Rmult_le_compat_r; lra). apply Rabs_le_inv in H. destruct (Rle_dec s (P - t * P)) as [C|C]; [exists (P - t * P)|destruct (Rle_dec (P + t * P) s) as [C'|C']; [exists (P + t * P)|exists s]].
        - split; [lra|]. split; apply Rabs_le; lra.
        - split; [lra|]. split; apply Rabs_le; lra.
        - split; [lra|]. split; apply Rabs_le; lra. }
      destruct Ex as [a [Pa [Ha Hb]]]. pose proof (sqrt_apart s a Hs Pa) as A1. pose proof (sqrt_le_1 _ _ (Rabs_pos _) PE Hb) as A2.
      assert (A3 : Rabs (sqrt a - sqrt P) <= t * sqrt P).
      { destruct (Req_dec P 0) as [E0|E0]; [|apply sqrt_near; [lra|exact Pa|exact Ha]]. rewrite E0 in *. rewrite Rmult_0_r, Rminus_0_r in Ha. rewrite (Rabs_pos_eq a Pa) in Ha. assert (a = 0) by lra. subst a. rewrite sqrt_0, Rmult_0_r, Rminus_diag_eq, Rabs_R0 by reflexivity. lra. }
      pose proof (Rabs_triang_sub (sqrt s) (sqrt a) (sqrt P)) as A4. lra. }
    assert (B1 : sqrt (101 / 100 * N * eta) <= / 2 * (/ 2 * bpow radix2 (-514))).
    { rewrite <- (sqrt_square (/ 2 * (/ 2 * bpow radix2 (-514)))) by (pose proof (bpow_gt_0 radix2 (-514)); lra). apply sqrt_le_1; [apply Rmult_le_pos; lra|apply Rmult_le_pos; pose proof (bpow_gt_0 radix2 (-514)); lra|].
      assert (E : bpow radix2 (-514) * bpow radix2 (-514) = 70368744177664 * eta) by (rewrite <- bpow_plus; change (-514 + -514)%Z with (46 + -1074)%Z; rewrite bpow_plus; reflexivity).
      set (bb := bpow radix2 (-514)) in *. clearbody bb. replace (/ 2 * (/ 2 * bb) * (/ 2 * (/ 2 * bb))) with (/ 16 * (bb * bb)) by field. rewrite E. set (e := eta) in *. clearbody e.
      rewrite <- Rmult_assoc. apply Rmult_le_compat_r; [lra|]. lra. }
    pose proof (rnd_any (sqrt s)) as R. rewrite (Rabs_pos_eq (sqrt s)) in R by apply sqrt_pos.
    assert (B2 : eta <= / 1000 * (bpow radix2 (-514))). { unfold eta. change (-1074)%Z with (-560 + -514)%Z. rewrite bpow_plus. apply Rmult_le_compat_r; [apply bpow_ge_0|]. apply Rle_trans with (bpow radix2 (-10)); [apply bpow_le; lia|]. change (bpow radix2 (-10)) with (/ 1024). lra. }
    change (-515)%Z with (-1 + -514)%Z. rewrite bpow_plus. change (bpow radix2 (-1)) with (/ 2). pose proof (bpow_gt_0 radix2 (-514)) as Pb. pose proof (sqrt_pos P) as Pq. pose proof (near_abs _ _ _ Z) as Z1. rewrite (Rabs_pos_eq (sqrt P)), (Rabs_pos_eq (sqrt s)) in Z1 by apply sqrt_pos.
    replace ((102 / 100 * N + 21 / 10) * uu * sqrt P) with (t * sqrt P + (/ 100 * N + 109 / 100) * uu * sqrt P) by (unfold t; field).
    assert (NP : 0 <= N * uu * sqrt P) by (apply Rmult_le_pos; [lra|exact Pq]). assert (TP : t * sqrt P <= / 4000 * sqrt P) by (apply Rmult_le_compat_r; lra). replace ((/ 100 * N + 109 / 100) * uu * sqrt P) with (/ 100 * (N * uu * sqrt P) + 109 / 100 * uu * sqrt P) by ring.
    set (bb := bpow radix2 (-514)) in *. set (q := sqrt P) in *. set (v := sqrt s) in *. set (w := sqrt (101 / 100 * N * eta)) in *. set (e := eta) in *. set (tq := t * q) in *. set (nq := N * uu * q) in *. set (z := rnd64 v) in *. clearbody bb q v w e tq nq z. clear - Z Z1 R B1 B2 Pb Pq NP TP.
    replace (z - q) with ((z - v) + (v - q)) by ring. apply Rle_trans with (1 := Rabs_triang _ _). lra.
  Qed.
End Length.
