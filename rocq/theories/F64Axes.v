(* Rounding errors of the matrices computed from an eigenvalue decomposition and of the points drawn with them. *)
From Coq Require Import List NArith ZArith Bool Reals Lra Lia Arith Psatz.
From Flocq Require Import Core.
From Flocq Require Import IEEE754.BinarySingleNaN.
Require Import Verif.Lib Verif.Base Verif.Num Verif.F64 Verif.XReal Verif.LinAlg Verif.Weights Verif.Params Verif.Order Verif.F64Lemmas Verif.CeilLemmas Verif.XRound Verif.XLe Verif.F64Acc Verif.F64Weights Verif.F64Rates
  Verif.F64Mean Verif.F64CovErr Verif.F64Path Verif.F64Conj Verif.RSum.
Import ListNotations.
Open Scope R_scope.

(* a sum that does not overflow *)
Lemma fold_forward : forall (l : list f64) rs acc s, is acc s -> Forall2 is l rs -> (Rabs s + tot (map Rabs rs)) * grow (length rs) <= bpow radix2 1000 -> is (fold_left nadd l acc) (fsum rs s).
Proof.
  induction l as [|x l IH]; intros rs acc s Ha H B; inversion H; subst; [exact Ha|]. cbn [fold_left]. unfold fsum. cbn [fold_left]. fold (fsum l' (rnd64 (s + y))).
  cbn [length map] in B. rewrite grow_S in B. change (tot (Rabs y :: map Rabs l')) with (Rabs y + tot (map Rabs l')) in B.
  pose proof (grow_1 (length l')) as G. set (g := grow (length l')) in *. pose proof (tot_abs_nonneg l') as P. set (Q := tot (map Rabs l')) in *. pose proof (Rabs_pos s) as S1. pose proof (Rabs_pos y) as S2. pose proof (Rabs_triang s y) as T.
  set (big := bpow radix2 1000) in *.
  assert (U : (1 + uu) * (Rabs s + Rabs y + Q) <= big). { apply Rle_trans with (2 := B). replace ((Rabs s + (Rabs y + Q)) * ((1 + uu) * g)) with ((1 + uu) * (Rabs s + Rabs y + Q) * g) by ring. rewrite <- (Rmult_1_r ((1 + uu) * (Rabs s + Rabs y + Q))) at 1. apply Rmult_le_compat_l; [|exact G]. apply Rmult_le_pos; lra. }
  apply IH.
  - apply is_add; [exact Ha|assumption|]. fold big. assert (0 <= uu * (Rabs s + Rabs y + Q)) by (apply Rmult_le_pos; lra). lra.
  - assumption.
  - fold g Q big. apply Rle_trans with (2 := B). replace ((Rabs s + (Rabs y + Q)) * ((1 + uu) * g)) with (((1 + uu) * (Rabs s + Rabs y + Q)) * g) by ring. apply Rmult_le_compat_r; [lra|].
    pose proof (add_err s y (is_format _ _ Ha) (is_format _ _ ltac:(eassumption))) as A. apply near_abs in A. assert (uu * Rabs (s + y) <= uu * (Rabs s + Rabs y)) by (apply Rmult_le_compat_l; lra). assert (0 <= uu * Q) by (apply Rmult_le_pos; lra). lra.
Qed.

Lemma rnd_id : forall x, generic_format radix2 fexp64 x -> rnd64 x = x.
Proof. intros x H. apply round_generic; [apply valid_rnd_round_mode|exact H]. Qed.
(* a sum with one term *)
Lemma fsum_single : forall k t n a s, generic_format radix2 fexp64 s ->
  fsum (map (fun j => if Nat.eqb j k then t else 0) (seq a n)) s = if (Nat.leb a k && Nat.ltb k (a + n))%bool then rnd64 (s + t) else s.
Proof.
  intros k t. induction n as [|n IH]; intros a s Fs.
  - cbn [seq map]. unfold fsum. cbn [fold_left]. destruct (Nat.leb_spec a k), (Nat.ltb_spec k (a + 0)); try reflexivity; lia.
  - cbn [seq map]. unfold fsum. cbn [fold_left]. destruct (Nat.eqb_spec a k) as [->|Ne].
    + change (fold_left _ ?l ?x) with (fsum l x). rewrite IH by apply rnd_format. destruct (Nat.leb_spec (S k) k); [lia|]. cbn [andb]. destruct (Nat.leb_spec k k); [|lia]. destruct (Nat.ltb_spec k (k + S n)); [reflexivity|lia].
    + change (fold_left _ ?l ?x) with (fsum l x). rewrite Rplus_0_r, (rnd_id s Fs), IH by exact Fs. replace (S a + n)%nat with (a + S n)%nat by lia. destruct (Nat.leb_spec (S a) k), (Nat.leb_spec a k); try reflexivity; lia.
Qed.

(* ---- errors; nu stands for n * 2^-53 ---- *)
Section Errors.
  Variables (nu e : R).
  Hypothesis Hnu : 0 <= nu <= / 8192.
  Hypothesis He : 0 < e <= uu * uu.

  (* x approximates y: relative error r, absolute error a *)
  Definition approx (x y r a : R) : Prop := Rabs (x - y) <= r * Rabs y + a.
  Lemma approx_abs : forall x y r a, approx x y r a -> Rabs x <= (1 + r) * Rabs y + a.
  Proof. intros x y r a H. apply near_abs in H. lra. Qed.
  Lemma approx_round : forall q x y r a, Rabs (q - x) <= uu * Rabs x + e -> approx x y r a -> 0 <= r <= / 2 -> approx q y (r + uu * (1 + r)) ((1 + uu) * a + e).
  Proof.
    intros q x y r a Hq H Hr. pose proof (approx_abs _ _ _ _ H) as A. unfold approx in *. pose proof (Rabs_triang_sub q x y) as T. assert (uu * Rabs x <= uu * ((1 + r) * Rabs y + a)) by (apply Rmult_le_compat_l; lra).
    replace ((r + uu * (1 + r)) * Rabs y + ((1 + uu) * a + e)) with (r * Rabs y + a + uu * ((1 + r) * Rabs y + a) + e) by ring. lra.
  Qed.
  Lemma approx_mul : forall x y r a x' y' r' a', approx x y r a -> approx x' y' r' a' -> 0 <= r -> 0 <= a -> 0 <= r' -> 0 <= a' ->
    approx (x * x') (y * y') (r + r' + r * r') ((1 + r) * Rabs y * a' + (1 + r') * Rabs y' * a + a * a').
  Proof.
    intros x y r a x' y' r' a' H H' Hr Ha Hr' Ha'. unfold approx in *. replace (x * x' - y * y') with ((x - y) * (x' - y') + (x - y) * y' + y * (x' - y')) by ring.
    apply Rle_trans with (1 := Rabs_triang _ _). pose proof (Rabs_triang ((x - y) * (x' - y')) ((x - y) * y')) as T. rewrite !Rabs_mult in *.
    pose proof (Rabs_pos y) as P1. pose proof (Rabs_pos y') as P2. pose proof (Rabs_pos (x - y)) as P3. pose proof (Rabs_pos (x' - y')) as P4.
    set (Y := Rabs y) in *. set (Y' := Rabs y') in *. set (D := Rabs (x - y)) in *. set (D' := Rabs (x' - y')) in *. clearbody Y Y' D D'.
    assert (A1 : D * D' <= (r * Y + a) * (r' * Y' + a')) by (apply Rmult_le_compat; assumption). assert (A2 : D * Y' <= (r * Y + a) * Y') by (apply Rmult_le_compat_r; assumption). assert (A3 : Y * D' <= Y * (r' * Y' + a')) by (apply Rmult_le_compat_l; assumption).
    apply Rle_trans with ((r * Y + a) * (r' * Y' + a') + (r * Y + a) * Y' + Y * (r' * Y' + a')); [lra|]. right. ring.
  Qed.
  Lemma approx_weaken : forall x y r a r' a', approx x y r a -> r <= r' -> a <= a' -> approx x y r' a'.
  Proof. intros x y r a r' a' H Hr Ha. unfold approx in *. apply Rle_trans with (1 := H). apply Rplus_le_compat; [apply Rmult_le_compat_r; [apply Rabs_pos|exact Hr]|exact Ha]. Qed.
  Lemma approx_refl : forall x, approx x x 0 0.
  Proof. intros x. unfold approx. rewrite Rminus_diag_eq, Rabs_R0 by reflexivity. lra. Qed.

  (* a component divided by a length *)
  Lemma axis_err : forall v l s q, / 2 <= l <= 2 -> Rabs (s - l) <= (102 / 100 * nu + 21 / 10 * uu) * l + uu / 1000 -> Rabs (q - v / s) <= uu * Rabs (v / s) + e ->
    approx q (v / l) (103 / 100 * nu + 32 / 10 * uu) e.
  Proof.
    intros v l s q Hl Hs Hq. set (t := 102 / 100 * nu + 2105 / 1000 * uu). assert (Ht : 0 <= t <= / 4000) by (unfold t; lra).
    assert (Hs' : Rabs (s - l) <= t * l) by (unfold t; lra). assert (Ps : (1 - t) * l <= s) by (apply Rabs_le_inv in Hs'; lra). assert (Ps' : 0 < s) by (apply Rlt_le_trans with (2 := Ps); apply Rmult_lt_0_compat; lra).
    assert (A : approx (v / s) (v / l) (1001 / 1000 * t) 0).
    { unfold approx. replace (v / s - v / l) with (- ((s - l) / s) * (v / l)) by (field; lra). rewrite Rabs_mult, Rabs_Ropp, Rplus_0_r. apply Rmult_le_compat_r; [apply Rabs_pos|]. unfold Rdiv. rewrite Rabs_mult, (Rabs_pos_eq (/ s)) by (left; apply Rinv_0_lt_compat; exact Ps').
      apply Rmult_le_reg_r with s; [exact Ps'|]. rewrite Rmult_assoc, Rinv_l, Rmult_1_r by lra. apply Rle_trans with (1 := Hs'). apply Rle_trans with (1001 / 1000 * t * ((1 - t) * l)); [|apply Rmult_le_compat_l; lra]. replace (1001 / 1000 * t * ((1 - t) * l)) with (t * l * (1001 / 1000 * (1 - t))) by ring.
      assert (0 <= t * l) by (apply Rmult_le_pos; lra). assert (1 <= 1001 / 1000 * (1 - t)) by lra. nra. }
    pose proof (approx_round q _ _ _ _ Hq A ltac:(lra)) as B. eapply approx_weaken; [exact B| |lra]. assert (uu * t <= uu * / 4000) by (apply Rmult_le_compat_l; lra). unfold t in *. lra.
  Qed.
  (* times a standard deviation *)
  Lemma transform_err : forall V a D s t, approx V a (103 / 100 * nu + 32 / 10 * uu) e -> 0 <= s -> approx D s uu 0 -> Rabs (t - V * D) <= uu * Rabs (V * D) + e ->
    approx t (a * s) (104 / 100 * nu + 53 / 10 * uu) (101 / 100 * s * e + e).
  Proof.
    intros V a D s t HV Hs HD Ht. pose proof (approx_mul _ _ _ _ _ _ _ _ HV HD ltac:(lra) ltac:(lra) ltac:(lra) ltac:(lra)) as A. rewrite !Rmult_0_r, Rplus_0_l, Rplus_0_r, (Rabs_pos_eq s) in A by exact Hs.
    set (k := 103 / 100 * nu + 32 / 10 * uu) in *. assert (K : 0 <= k <= / 4000) by (unfold k; lra). assert (KU : 0 <= k * uu <= / 4000 * uu) by (split; [apply Rmult_le_pos; lra|apply Rmult_le_compat_r; lra]).
    pose proof (approx_round t _ _ _ _ Ht A ltac:(lra)) as B. eapply approx_weaken; [exact B| |].
    - assert (uu * (k + uu + k * uu) <= uu * / 1000) by (apply Rmult_le_compat_l; lra). unfold k in *. lra.
    - assert (P : 0 <= s * e) by (apply Rmult_le_pos; lra). replace ((1 + uu) * ((1 + uu) * s * e)) with ((1 + uu) * (1 + uu) * (s * e)) by ring. assert ((1 + uu) * (1 + uu) * (s * e) <= 101 / 100 * (s * e)) by (apply Rmult_le_compat_r; lra). lra.
  Qed.
  (* times a normal number *)
  Lemma drawn_err : forall t a s z p, approx t (a * s) (104 / 100 * nu + 53 / 10 * uu) (101 / 100 * s * e + e) -> 0 <= s -> Rabs (p - t * z) <= uu * Rabs (t * z) + e ->
    approx p (a * s * z) (105 / 100 * nu + 632 / 100 * uu) ((102 / 100 * s + 101 / 100) * Rabs z * e + e).
  Proof.
    intros t a s z p Ht Hs Hp. set (k := 104 / 100 * nu + 53 / 10 * uu) in *. assert (K : 0 <= k <= / 4000) by (unfold k; lra). pose proof (Rabs_pos z) as Pz. assert (P : 0 <= s * e) by (apply Rmult_le_pos; lra).
    pose proof (approx_mul _ _ _ _ _ _ _ _ Ht (approx_refl z) ltac:(lra) ltac:(lra) ltac:(lra) ltac:(lra)) as A. rewrite !Rmult_0_r, !Rplus_0_r, Rplus_0_l, Rmult_1_l in A.
    pose proof (approx_round p _ _ _ _ Hp A ltac:(lra)) as B. eapply approx_weaken; [exact B| |].
    - assert (uu * k <= uu * / 4000) by (apply Rmult_le_compat_l; lra). unfold k in *. lra.
    - apply Rplus_le_compat_r. replace ((1 + uu) * (Rabs z * (101 / 100 * s * e + e))) with (Rabs z * ((1 + uu) * (101 / 100) * (s * e) + (1 + uu) * e)) by ring. replace ((102 / 100 * s + 101 / 100) * Rabs z * e) with (Rabs z * (102 / 100 * (s * e) + 101 / 100 * e)) by ring.
      apply Rmult_le_compat_l; [exact Pz|]. assert ((1 + uu) * (101 / 100) * (s * e) <= 102 / 100 * (s * e)) by (apply Rmult_le_compat_r; lra). assert (uu * e <= / 100 * e) by (apply Rmult_le_compat_r; lra). lra.
  Qed.
  (* the inverse of a standard deviation *)
  Lemma inverse_err : forall D s r, 0 < s -> approx D s uu 0 -> approx r (/ D) uu 0 -> approx r (/ s) (201 / 100 * uu) 0.
  Proof.
    intros D s r Hs HD Hr. unfold approx in *. rewrite (Rabs_pos_eq s) in HD by lra. assert (PD : (1 - uu) * s <= D <= (1 + uu) * s) by (apply Rabs_le_inv in HD; lra). assert (PD' : 0 < D) by (apply Rlt_le_trans with (2 := proj1 PD); apply Rmult_lt_0_compat; lra).
    assert (Q : Rabs (/ D - / s) <= 1001 / 1000 * uu * / s). { replace (/ D - / s) with ((s - D) / D * / s) by (field; lra). rewrite Rabs_mult, (Rabs_pos_eq (/ s)) by (left; apply Rinv_0_lt_compat; lra). apply Rmult_le_compat_r; [left; apply Rinv_0_lt_compat; lra|].
      unfold Rdiv. rewrite Rabs_mult, (Rabs_pos_eq (/ D)), Rabs_minus_sym by (left; apply Rinv_0_lt_compat; exact PD'). apply Rmult_le_reg_r with D; [exact PD'|]. rewrite Rmult_assoc, Rinv_l, Rmult_1_r by lra. apply Rle_trans with (uu * s); [lra|]. apply Rle_trans with (1001 / 1000 * uu * ((1 - uu) * s)); [|apply Rmult_le_compat_l; lra]. nra. }
    assert (Pi : 0 < / s) by (apply Rinv_0_lt_compat; exact Hs). assert (Pd : 0 < / D) by (apply Rinv_0_lt_compat; exact PD'). rewrite (Rabs_pos_eq (/ s)) by lra. rewrite (Rabs_pos_eq (/ D)) in Hr by lra. pose proof (Rabs_triang_sub r (/ D) (/ s)) as T. apply Rabs_le_inv in Q as Q'. assert (uu * / D <= uu * (1001 / 1000 * / s)) by (apply Rmult_le_compat_l; [lra|]; nra). nra.
  Qed.
  (* an entry of the whitening matrix, one term *)
  Lemma whitening_err : forall V a W b r s t p, approx V a (103 / 100 * nu + 32 / 10 * uu) e -> approx W b (103 / 100 * nu + 32 / 10 * uu) e -> Rabs a <= 1 -> Rabs b <= 1 ->
    0 < s -> approx r (/ s) (201 / 100 * uu) 0 -> Rabs (t - V * r) <= uu * Rabs (V * r) + e -> Rabs (p - t * W) <= uu * Rabs (t * W) + e ->
    approx p (a * b / s) (209 / 100 * nu + 11 * uu) (21 / 10 * (/ s) * e + 21 / 10 * e).
  Proof.
    intros V a W b r s t p HV HW Ha Hb Hs Hr Ht Hp. set (k := 103 / 100 * nu + 32 / 10 * uu) in *. assert (K : 0 <= k <= / 4000) by (unfold k; lra). assert (Pi : 0 < / s) by (apply Rinv_0_lt_compat; exact Hs).
    assert (P : 0 <= / s * e) by (apply Rmult_le_pos; lra).
    pose proof (approx_mul _ _ _ _ _ _ _ _ HV Hr ltac:(lra) ltac:(lra) ltac:(lra) ltac:(lra)) as A. rewrite !Rmult_0_r, Rplus_0_l, Rplus_0_r, (Rabs_pos_eq (/ s)) in A by lra.
    assert (KU : 0 <= k * uu <= / 4000 * uu) by (split; [apply Rmult_le_pos; lra|apply Rmult_le_compat_r; lra]).
    assert (B : approx t (a * / s) (104 / 100 * nu + 63 / 10 * uu) (101 / 100 * (/ s * e) + e)).
    { eapply approx_weaken; [exact (approx_round t _ _ _ _ Ht A ltac:(lra))| |].
      - assert (uu * (k + 201 / 100 * uu + k * (201 / 100 * uu)) <= uu * / 1000) by (apply Rmult_le_compat_l; lra). unfold k in *. lra.
      - apply Rplus_le_compat_r. replace ((1 + uu) * ((1 + 201 / 100 * uu) * / s * e)) with ((1 + uu) * (1 + 201 / 100 * uu) * (/ s * e)) by ring. apply Rmult_le_compat_r; lra. }
    set (m := 104 / 100 * nu + 63 / 10 * uu) in *. assert (M : 0 <= m <= / 4000) by (unfold m; lra). set (x := / s * e) in *.
    pose proof (approx_mul _ _ _ _ _ _ _ _ B HW ltac:(lra) ltac:(lra) ltac:(lra) ltac:(lra)) as C.
    pose proof (approx_round p _ _ _ _ Hp C ltac:(nra)) as D. replace (a * b / s) with (a * / s * b) by (unfold Rdiv; ring). eapply approx_weaken; [exact D| |].
    - assert (MK : 0 <= m * k <= / 4000 * k) by (split; [apply Rmult_le_pos; lra|apply Rmult_le_compat_r; lra]). assert (uu * (m + k + m * k) <= uu * / 1000) by (apply Rmult_le_compat_l; lra).
      (* m * k is below nu / 4000 and a little uu *) unfold m, k in *. lra.
    - rewrite Rabs_mult, (Rabs_pos_eq (/ s)) by lra. pose proof (Rabs_pos a) as A0. pose proof (Rabs_pos b) as B0.
      assert (X1 : (1 + m) * (Rabs a * / s) * e <= 1001 / 1000 * x). { unfold x. replace ((1 + m) * (Rabs a * / s) * e) with ((1 + m) * Rabs a * (/ s * e)) by ring. apply Rmult_le_compat_r; [exact P|]. nra. }
      assert (X2 : (1 + k) * Rabs b * (101 / 100 * x + e) <= 1001 / 1000 * (101 / 100 * x + e)) by (apply Rmult_le_compat_r; [lra|]; nra).
      assert (X3 : (101 / 100 * x + e) * e <= (101 / 100 * x + e) * / 1000) by (apply Rmult_le_compat_l; lra).
      apply Rle_trans with ((1 + uu) * (2015 / 1000 * x + 1005 / 1000 * e) + e); [apply Rplus_le_compat_r, Rmult_le_compat_l; lra|]. assert (uu * (2015 / 1000 * x + 1005 / 1000 * e) <= / 1000 * (2015 / 1000 * x + 1005 / 1000 * e)) by (apply Rmult_le_compat_r; lra). unfold x in *. lra.
  Qed.
End Errors.

(* a sum of approximated terms *)
Lemma sum_approx : forall n p x r a, INR n <= 1099511627776 -> 0 <= r <= / 2 -> (forall j, (j < n)%nat -> generic_format radix2 fexp64 (p j)) -> (forall j, (j < n)%nat -> approx (p j) (x j) r (a j) /\ 0 <= a j) ->
  Rabs (fsum (map p (seq 0 n)) 0 - Sig n x) <= (r + 1001 / 1000 * (INR n * uu) * (1 + r)) * Sig n (fun j => Rabs (x j)) + (1 + 1001 / 1000 * (INR n * uu)) * Sig n a.
Proof.
  intros n p x r a Hn Hr Fp H. pose proof (fsum_grow (map p (seq 0 n)) 0 (is_format _ _ is0)) as G. rewrite map_length, seq_length, map_map in G. rewrite Rplus_0_l, Rabs_R0, Rplus_0_l in G. rewrite !tot_Sig in G.
  specialize (G ltac:(apply Forall_map, Forall_forall; intros j Hj; apply Fp; apply in_seq in Hj; lia)). pose proof (grow_small n ltac:(lra)) as Gn. pose proof (grow_1 n) as G1.
  assert (A : Rabs (Sig n p - Sig n x) <= r * Sig n (fun j => Rabs (x j)) + Sig n a).
  { replace (Sig n p - Sig n x) with (Sig n (fun j => p j - x j)); [|rewrite (Sig_ext _ _ (fun j => p j + (-1) * x j)) by (intros; ring); rewrite Sig_plus, (Sig_mul_l _ (-1)); ring]. apply Rle_trans with (1 := Sig_abs _ _). rewrite <- Sig_mul_l, <- Sig_plus. apply Sig_le. intros j Hj. apply (H j Hj). }
  assert (B : Sig n (fun j => Rabs (p j)) <= (1 + r) * Sig n (fun j => Rabs (x j)) + Sig n a).
  { rewrite <- Sig_mul_l, <- Sig_plus. apply Sig_le. intros j Hj. eapply approx_abs. apply (H j Hj). }
  set (P := Sig n (fun j => Rabs (x j))) in *. set (A' := Sig n a) in *. set (Q := Sig n (fun j => Rabs (p j))) in *. set (S1 := Sig n p) in *. set (S2 := Sig n x) in *. set (nu := INR n * uu) in *. pose proof (Rabs_triang_sub (fsum (map p (seq 0 n)) 0) S1 S2) as T.
  assert (PA : 0 <= A') by (apply Sig_nonneg; intros j Hj; apply (H j Hj)). assert (PP : 0 <= P) by (apply Sig_nonneg; intros; apply Rabs_pos). assert (PQ : 0 <= Q) by (apply Sig_nonneg; intros; apply Rabs_pos).
  assert (G' : (grow n - 1) * Q <= 1001 / 1000 * nu * ((1 + r) * P + A')) by (apply Rmult_le_compat; lra).
  replace ((r + 1001 / 1000 * nu * (1 + r)) * P + (1 + 1001 / 1000 * nu) * A') with (r * P + A' + 1001 / 1000 * nu * ((1 + r) * P + A')) by ring.
  apply Rle_trans with (1 := T). apply Rle_trans with ((grow n - 1) * Q + (r * P + A')); [apply Rplus_le_compat; [exact G|exact A]|]. rewrite (Rplus_comm (r * P + A')). apply Rplus_le_compat_r. exact G'.
Qed.

(* a coordinate of a point *)
Lemma point_err : forall nu e m sg S X P A q, 0 <= nu <= / 8192 -> 0 < e <= uu * uu -> 0 <= sg -> 0 <= A -> 0 <= P -> Rabs X <= P -> generic_format radix2 fexp64 m -> generic_format radix2 fexp64 q ->
  Rabs (S - X) <= (207 / 100 * nu + 633 / 100 * uu) * P + 1001 / 1000 * A -> Rabs (q - sg * S) <= uu * Rabs (sg * S) + e ->
  Rabs (rnd64 (m + q) - (m + sg * X)) <= (3 * nu + 9 * uu) * (Rabs m + sg * P) + 101 / 100 * sg * A + 101 / 100 * e.
Proof.
  intros nu e m sg S X P A q Hnu He Hsg HA HP HX Fm Fq HS Hq. set (k := 207 / 100 * nu + 633 / 100 * uu) in *. assert (K : 0 <= k <= / 3000) by (unfold k; lra).
  pose proof (add_err m q Fm Fq) as R1. set (x := rnd64 (m + q)) in *. clearbody x. pose proof (near_abs _ _ _ HS) as S1.
  assert (KP : 0 <= k * P <= / 3000 * P) by (split; [apply Rmult_le_pos; lra|apply Rmult_le_compat_r; lra]). set (B := sg * P). set (C := sg * A). assert (PB : 0 <= B) by (apply Rmult_le_pos; lra). assert (PC : 0 <= C) by (apply Rmult_le_pos; lra).
  assert (Q1 : Rabs (sg * S) <= 1001 / 1000 * B + 1001 / 1000 * C). { rewrite Rabs_mult, (Rabs_pos_eq sg) by exact Hsg. unfold B, C. replace (1001 / 1000 * (sg * P) + 1001 / 1000 * (sg * A)) with (sg * (1001 / 1000 * P + 1001 / 1000 * A)) by ring. apply Rmult_le_compat_l; [exact Hsg|lra]. }
  assert (Q2 : Rabs (sg * S - sg * X) <= k * B + 1001 / 1000 * C). { replace (sg * S - sg * X) with (sg * (S - X)) by ring. rewrite Rabs_mult, (Rabs_pos_eq sg) by exact Hsg. unfold B, C. replace (k * (sg * P) + 1001 / 1000 * (sg * A)) with (sg * (k * P + 1001 / 1000 * A)) by ring. apply Rmult_le_compat_l; [exact Hsg|exact HS]. }
  pose proof (Rabs_triang m q) as T1. pose proof (near_abs _ _ _ Hq) as Q3. pose proof (Rabs_triang_sub q (sg * S) (sg * X)) as T2. pose proof (Rabs_pos m) as Pm.
  assert (T3 : Rabs (x - (m + sg * X)) <= Rabs (x - (m + q)) + Rabs (q - sg * X)). { replace (x - (m + sg * X)) with (x - (m + q) + (q - sg * X)) by ring. apply Rabs_triang. }
  assert (KB : 0 <= k * B) by (apply Rmult_le_pos; lra). replace ((3 * nu + 9 * uu) * (Rabs m + B) + 101 / 100 * sg * A + 101 / 100 * e) with ((3 * nu + 9 * uu) * Rabs m + (3 * nu + 9 * uu) * B + 101 / 100 * C + 101 / 100 * e) by (unfold C; ring).
  assert (NM : 0 <= nu * Rabs m) by (apply Rmult_le_pos; lra). assert (NB : 0 <= nu * B) by (apply Rmult_le_pos; lra).
  set (nm := nu * Rabs m) in *. set (nb := nu * B) in *. replace (k * B) with (207 / 100 * nb + 633 / 100 * (uu * B)) in * by (unfold k, nb; ring). replace ((3 * nu + 9 * uu) * Rabs m) with (3 * nm + 9 * uu * Rabs m) by (unfold nm; ring). replace ((3 * nu + 9 * uu) * B) with (3 * nb + 9 * (uu * B)) by (unfold nb; ring).
  set (a := Rabs (sg * S)) in *. set (b := Rabs (m + q)) in *. set (c := Rabs q) in *. clearbody a b c nm nb B C. lra.
Qed.
Lemma point_err_any : forall nu e m sg S X P A q, 0 <= nu <= / 8192 -> 0 < e <= uu * uu -> 0 <= A -> 0 <= P -> Rabs X <= P -> generic_format radix2 fexp64 m -> generic_format radix2 fexp64 q ->
  Rabs (S - X) <= (207 / 100 * nu + 633 / 100 * uu) * P + 1001 / 1000 * A -> Rabs (q - sg * S) <= uu * Rabs (sg * S) + e ->
  Rabs (rnd64 (m + q) - (m + sg * X)) <= (3 * nu + 9 * uu) * (Rabs m + Rabs sg * P) + 101 / 100 * Rabs sg * A + 101 / 100 * e.
Proof.
  intros nu e m sg S X P A q Hnu He HA HP HX Fm Fq HS Hq. destruct (Rle_dec 0 sg) as [H|H]; [rewrite (Rabs_pos_eq sg) by exact H; eapply point_err; eassumption|].
  assert (E1 : sg * S = (- sg) * (- S)) by ring. assert (E2 : sg * X = (- sg) * (- X)) by ring. rewrite E1 in Hq. rewrite E2, (Rabs_left sg) by lra. eapply point_err; try eassumption; [lra|rewrite Rabs_Ropp; exact HX|]. replace (- S - - X) with (- (S - X)) by ring. rewrite Rabs_Ropp. exact HS.
Qed.

Lemma fsum_nonneg : forall rs s, 0 <= s -> Forall (fun r => 0 <= r) rs -> 0 <= fsum rs s.
Proof. induction rs as [|r rs IH]; intros s Hs H; [exact Hs|]. inversion H; subst. change (fsum (r :: rs) s) with (fsum rs (rnd64 (s + r))). apply IH; [apply rnd_nonneg; lra|assumption]. Qed.
Lemma float_small : forall q, generic_format radix2 fexp64 q -> 0 < q -> bpow radix2 (-1074) <= q.
Proof. intros q Fq Hq. apply generic_format_ge_bpow with fexp64; [|exact Hq|exact Fq]. intros e. unfold fexp64, SpecFloat.fexp, SpecFloat.emin. lia. Qed.

(* the standard deviation computed from an eigenvalue *)
Lemma deviation_err : forall q, generic_format radix2 fexp64 q -> 0 < q -> approx (rnd64 (sqrt q)) (sqrt q) uu 0 /\ bpow radix2 (-600) <= sqrt q.
Proof.
  intros q Fq Hq. pose proof (float_small q Fq Hq) as H. assert (S : bpow radix2 (-537) <= sqrt q). { rewrite <- (sqrt_square (bpow radix2 (-537))) by apply bpow_ge_0. apply sqrt_le_1; [apply Rmult_le_pos; apply bpow_ge_0|lra|]. rewrite <- bpow_plus. exact H. }
  split; [|apply Rle_trans with (2 := S); apply bpow_le; lia]. unfold approx. rewrite Rplus_0_r, (Rabs_pos_eq (sqrt q)) by apply sqrt_pos. pose proof (rnd_near (sqrt q)) as N. assert (bpow radix2 (-1000) <= sqrt q) by (apply Rle_trans with (2 := S); apply bpow_le; lia). specialize (N H0). apply Rabs_le. lra.
Qed.
(* and its inverse, which neither overflows nor underflows *)
Lemma recip_err : forall q, generic_format radix2 fexp64 q -> 0 < q -> q < bpow radix2 1024 -> let D := rnd64 (sqrt q) in 0 < D /\ Rabs (1 / D) <= bpow radix2 1000 /\ approx (rnd64 (1 / D)) (/ D) uu 0.
Proof.
  intros q Fq Hq Hb D. destruct (deviation_err q Fq Hq) as [A B]. fold D in A. unfold approx in A. rewrite Rplus_0_r, (Rabs_pos_eq (sqrt q)) in A by apply sqrt_pos. apply Rabs_le_inv in A. pose proof (bpow_gt_0 radix2 (-600)) as P0.
  assert (L1 : bpow radix2 (-601) <= D). { replace (bpow radix2 (-601)) with (/ 2 * bpow radix2 (-600)) by (change (-600)%Z with (1 + -601)%Z; rewrite bpow_plus; change (bpow radix2 1) with 2; lra). lra. }
  assert (U : sqrt q <= bpow radix2 512). { rewrite <- (sqrt_square (bpow radix2 512)) by apply bpow_ge_0. apply sqrt_le_1; [lra|apply Rmult_le_pos; apply bpow_ge_0|]. rewrite <- bpow_plus. left. exact Hb. }
  assert (U1 : D <= bpow radix2 513). { replace (bpow radix2 513) with (2 * bpow radix2 512) by (change 513%Z with (1 + 512)%Z; rewrite bpow_plus; change (bpow radix2 1) with 2; lra). pose proof (sqrt_pos q). lra. }
  pose proof (bpow_gt_0 radix2 (-601)) as P1. assert (PD : 0 < D) by lra. split; [exact PD|].
  assert (I1 : 1 / D <= bpow radix2 601). { unfold Rdiv. rewrite Rmult_1_l. change 601%Z with (- (-601))%Z. rewrite bpow_opp. apply Rinv_le_contravar; assumption. }
  assert (I2 : bpow radix2 (-513) <= 1 / D). { unfold Rdiv. rewrite Rmult_1_l. replace (bpow radix2 (-513)) with (/ bpow radix2 513) by (rewrite <- bpow_opp; reflexivity). apply Rinv_le_contravar; assumption. }
  pose proof (bpow_gt_0 radix2 (-513)) as P2. split; [rewrite Rabs_pos_eq by lra; apply Rle_trans with (1 := I1); apply bpow_le; lia|].
  unfold approx. rewrite Rplus_0_r. replace (/ D) with (1 / D) by (unfold Rdiv; ring). rewrite (Rabs_pos_eq (1 / D)) by lra. pose proof (rnd_near (1 / D) ltac:(apply Rle_trans with (2 := I2); apply bpow_le; lia)) as N. apply Rabs_le. lra.
Qed.
