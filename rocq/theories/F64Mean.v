(* Rounding error of the new mean, one coordinate at a time. *)
From Coq Require Import List NArith ZArith Bool Reals Lra Lia Arith Psatz.
From Flocq Require Import Core Relative.
From Flocq Require Import IEEE754.BinarySingleNaN.
Require Import Verif.Base Verif.Num Verif.F64 Verif.XReal Verif.Order Verif.F64Lemmas Verif.CeilLemmas Verif.XRound Verif.XLe Verif.F64Acc Verif.RSum.
Import ListNotations.
Open Scope R_scope.

(* the smallest positive number *)
Definition eta : R := bpow radix2 (-1074).
Lemma eta_pos : 0 < eta.
Proof. apply bpow_gt_0. Qed.

(* rounding anywhere *)
Lemma rnd_any : forall x, Rabs (rnd64 x - x) <= uu * Rabs x + eta.
Proof.
  intros x. pose proof eta_pos as He. destruct (Rle_dec (bpow radix2 (-1000)) (Rabs x)) as [B|B].
  - pose proof (rnd_err x B). lra.
  - destruct (error_N_FLT radix2 (-1074) 53 eq_refl (fun z => negb (Z.even z)) x) as [e [t [H1 [H2 [_ H4]]]]].
    assert (E1 : rnd64 x = x * (1 + e) + t) by exact H4. rewrite E1. replace (x * (1 + e) + t - x) with (x * e + t) by ring.
    apply Rle_trans with (1 := Rabs_triang _ _). rewrite Rabs_mult.
    assert (H1' : Rabs e <= uu) by (apply Rle_trans with (1 := H1); simpl; lra).
    assert (H2' : Rabs t <= eta) by (apply Rle_trans with (1 := H2); change (bpow radix2 (-1074)) with eta; lra).
    pose proof (Rabs_pos x) as Hx. rewrite (Rmult_comm uu). apply Rplus_le_compat; [apply Rmult_le_compat_l; assumption|exact H2'].
Qed.

(* a finite result comes from finite operands *)
Lemma xround_fin : forall x r, xround x = XFin r -> exists a, x = XFin a /\ r = rnd64 a.
Proof. intros [|s|a] r H; cbn in H; try discriminate. destruct (Rlt_bool _ _); [|discriminate]. exists a. injection H as <-. split; reflexivity. Qed.
Lemma add_fin : forall (a b : f64) r, is (nadd a b) r -> exists x y, is a x /\ is b y /\ r = rnd64 (x + y).
Proof.
  unfold is. intros a b r H. rewrite f2x_add in H. apply xround_fin in H. destruct H as [z [H ->]].
  destruct (f2x a) as [|[]|x], (f2x b) as [|[]|y]; cbn in H; try discriminate. exists x, y. injection H as <-. auto.
Qed.
Lemma mul_fin : forall (a b : f64) r, is (nmul a b) r -> exists x y, is a x /\ is b y /\ r = rnd64 (x * y).
Proof.
  unfold is. intros a b r H. rewrite f2x_mul in H. apply xround_fin in H. destruct H as [z [H ->]].
  destruct (f2x a) as [|s|x], (f2x b) as [|t|y]; cbn in H; try discriminate.
  - unfold x_signed_inf in H. destruct (Rltb 0 y); [destruct s; discriminate|]. destruct (Rltb y 0); [destruct s; discriminate|discriminate].
  - unfold x_signed_inf in H. destruct (Rltb 0 x); [destruct t; discriminate|]. destruct (Rltb x 0); [destruct t; discriminate|discriminate].
  - exists x, y. injection H as <-. auto.
Qed.

(* ---- sums ---- *)
Definition fsum (rs : list R) (s : R) : R := fold_left (fun a r => rnd64 (a + r)) rs s.
Lemma fold_back : forall (l : list f64) acc r, is (fold_left nadd l acc) r ->
  exists s rs, is acc s /\ Forall2 is l rs /\ r = fsum rs s.
Proof.
  induction l as [|x l IH]; intros acc r H; cbn [fold_left] in H.
  - exists r, []. split; [exact H|]. split; [constructor|reflexivity].
  - destruct (IH _ _ H) as [s1 [rs [H1 [H2 H3]]]]. destruct (add_fin _ _ _ H1) as [s [q [A1 [A2 A3]]]].
    exists s, (q :: rs). split; [exact A1|]. split; [constructor; assumption|]. unfold fsum. cbn [fold_left]. rewrite <- A3. exact H3.
Qed.
Lemma fsum_err : forall rs s, 2 * (INR (length rs) * uu) <= 1 ->
  Rabs (fsum rs s - (s + tot rs)) <= 2 * (INR (length rs) * uu) * (Rabs s + tot (map Rabs rs)) + 2 * INR (length rs) * eta.
Proof.
  induction rs as [|r rs IH]; intros s Hn.
  - unfold fsum. cbn [fold_left length tot fold_right map INR]. rewrite !Rplus_0_r, Rminus_diag_eq, Rabs_R0 by reflexivity. lra.
  - cbn [length map] in *. rewrite S_INR in *. change (tot (r :: rs)) with (r + tot rs). change (tot (Rabs r :: map Rabs rs)) with (Rabs r + tot (map Rabs rs)).
    change (fsum (r :: rs) s) with (fsum rs (rnd64 (s + r))). pose proof (rnd_any (s + r)) as H1. set (s1 := rnd64 (s + r)) in *. clearbody s1.
    pose proof (pos_INR (length rs)) as Hp. assert (Hn' : 2 * (INR (length rs) * uu) <= 1) by lra. specialize (IH s1 Hn').
    assert (A0 : 0 <= tot (map Rabs rs)) by (apply tot_nonneg; apply Forall_map; apply Forall_forall; intros; apply Rabs_pos).
    set (A := tot (map Rabs rs)) in *. set (F := fsum rs s1) in *. set (t := tot rs) in *. clearbody A F t.
    set (n := INR (length rs)) in *. clearbody n. pose proof eta_pos as He. set (e := eta) in *. clearbody e.
    pose proof (Rabs_triang s r) as T1. set (B := Rabs s + Rabs r) in *.
    assert (HB : 0 <= B) by (unfold B; pose proof (Rabs_pos s); pose proof (Rabs_pos r); lra).
    assert (H2 : Rabs (s1 - (s + r)) <= uu * B + e) by (apply Rle_trans with (1 := H1); apply Rplus_le_compat_r; apply Rmult_le_compat_l; lra).
    assert (H3 : Rabs s1 <= B + uu * B + e) by (replace s1 with ((s1 - (s + r)) + (s + r)) by ring; apply Rle_trans with (1 := Rabs_triang _ _); lra).
    replace (F - (s + (r + t))) with ((F - (s1 + t)) + (s1 - (s + r))) by ring. apply Rle_trans with (1 := Rabs_triang _ _).
    replace (Rabs s + (Rabs r + A)) with (B + A) by (unfold B; ring). clearbody B.
    assert (K1 : 2 * (n * uu) * (Rabs s1 + A) <= 2 * (n * uu) * (B + uu * B + e + A)) by (apply Rmult_le_compat_l; lra).
    assert (K2 : 2 * (n * uu) * (uu * B) <= 1 * (uu * B)) by (apply Rmult_le_compat_r; nra).
    assert (K3 : 2 * (n * uu) * e <= 1 * e) by (apply Rmult_le_compat_r; lra).
    assert (K4 : 0 <= uu * A) by nra. assert (K5 : 0 <= uu * B) by nra. lra.
Qed.

(* products with weights, then the sum *)
Lemma Sig_abs : forall n f, Rabs (Sig n f) <= Sig n (fun k => Rabs (f k)).
Proof. induction n as [|n IH]; intros f; cbn [Sig]; [rewrite Rabs_R0; lra|]. apply Rle_trans with (1 := Rabs_triang _ _). specialize (IH f). lra. Qed.
Lemma tot_Sig : forall (g : nat -> R) n k, tot (map g (seq k n)) = Sig n (fun i => g (k + i)%nat).
Proof.
  intros g n. induction n as [|n IH]; intros k; [reflexivity|]. rewrite seq_S, map_app. unfold tot. rewrite fold_right_app. cbn [map fold_right].
  rewrite Rplus_0_r. cbn [Sig]. rewrite <- IH. clear IH. generalize (map g (seq k n)). intros l. generalize (g (k + n)%nat). intros x.
  induction l as [|y l IHl]; cbn [fold_right tot]; [ring|]. rewrite IHl. fold (tot l). ring.
Qed.

Section Weighted.
  Variables (n : nat) (w y : nat -> R).
  Hypothesis Hw : forall k, (k <= n)%nat -> 0 <= w k.
  Hypothesis Hn : 2 * (INR n * uu) <= 1.
  Let r k := rnd64 (y k * w k).
  Let A := Sig (S n) (fun k => w k * Rabs (y k)).
  Lemma weighted_err : Rabs (fsum (map r (seq 1 n)) (r 0%nat) - Sig (S n) (fun k => w k * y k)) <=
    (2 * INR n + 2) * uu * A + 4 * (INR n + 1) * eta.
  Proof.
    assert (L : length (map r (seq 1 n)) = n) by (rewrite map_length, seq_length; reflexivity).
    pose proof (fsum_err (map r (seq 1 n)) (r 0%nat)) as H. rewrite L in H. specialize (H Hn).
    assert (E1 : r 0%nat + tot (map r (seq 1 n)) = Sig (S n) r) by (rewrite tot_Sig; change (S n) with (1 + n)%nat; rewrite Sig_split; cbn [Sig]; ring).
    assert (E2 : Rabs (r 0%nat) + tot (map Rabs (map r (seq 1 n))) = Sig (S n) (fun k => Rabs (r k))).
    { rewrite map_map, tot_Sig. change (S n) with (1 + n)%nat. rewrite Sig_split. cbn [Sig]. ring. }
    rewrite E1, E2 in H. clear E1 E2 L.
    assert (Hr : forall k, (k < S n)%nat -> Rabs (r k - w k * y k) <= uu * (w k * Rabs (y k)) + eta).
    { intros k Hk. unfold r. rewrite (Rmult_comm (y k)). apply Rle_trans with (1 := rnd_any _). rewrite Rabs_mult, (Rabs_pos_eq (w k)) by (apply Hw; lia). lra. }
    assert (D1 : Rabs (Sig (S n) r - Sig (S n) (fun k => w k * y k)) <= uu * A + INR (S n) * eta).
    { replace (Sig (S n) r - Sig (S n) (fun k => w k * y k)) with (Sig (S n) (fun k => r k - w k * y k)).
      - apply Rle_trans with (1 := Sig_abs _ _). apply Rle_trans with (Sig (S n) (fun k => uu * (w k * Rabs (y k)) + eta)); [apply Sig_le; exact Hr|].
        rewrite Sig_plus, Sig_mul_l, Sig_const. fold A. lra.
      - rewrite (Sig_ext _ _ (fun k => r k + (-1) * (w k * y k))) by (intros; ring). rewrite Sig_plus, (Sig_mul_l _ (-1)). ring. }
    assert (D2 : Sig (S n) (fun k => Rabs (r k)) <= A + uu * A + INR (S n) * eta).
    { apply Rle_trans with (Sig (S n) (fun k => w k * Rabs (y k) + (uu * (w k * Rabs (y k)) + eta))).
      - apply Sig_le. intros k Hk. replace (r k) with (w k * y k + (r k - w k * y k)) at 1 by ring. apply Rle_trans with (1 := Rabs_triang _ _).
        rewrite Rabs_mult, (Rabs_pos_eq (w k)) by (apply Hw; lia). apply Rplus_le_compat_l. apply Hr. exact Hk.
      - rewrite Sig_plus, Sig_plus, Sig_mul_l, Sig_const. fold A. lra. }
    assert (A0 : 0 <= A) by (apply Sig_nonneg; intros k Hk; apply Rmult_le_pos; [apply Hw; lia|apply Rabs_pos]).
    rewrite S_INR in *. set (S1 := Sig (S n) r) in *. set (S2 := Sig (S n) (fun k => Rabs (r k))) in *. set (Y := Sig (S n) (fun k => w k * y k)) in *.
    set (Fs := fsum _ _) in *. clearbody A S1 S2 Y Fs. pose proof (pos_INR n) as Hp. set (N := INR n) in *. clearbody N. pose proof eta_pos as He. set (e := eta) in *. clearbody e.
    replace (Fs - Y) with ((Fs - S1) + (S1 - Y)) by ring. apply Rle_trans with (1 := Rabs_triang _ _).
    assert (K1 : 2 * (N * uu) * S2 <= 2 * (N * uu) * (A + uu * A + (N + 1) * e)) by (apply Rmult_le_compat_l; lra).
    assert (K2 : 2 * (N * uu) * (uu * A) <= 1 * (uu * A)) by (apply Rmult_le_compat_r; nra).
    assert (K3 : 2 * (N * uu) * ((N + 1) * e) <= 1 * ((N + 1) * e)) by (apply Rmult_le_compat_r; [nra|lra]). nra.
  Qed.
End Weighted.

(* ---- one coordinate of a point and of the mean ---- *)
Lemma Rabs_triang_minus : forall a b, Rabs (a - b) <= Rabs a + Rabs b.
Proof. intros a b. unfold Rminus. rewrite <- (Rabs_Ropp b). apply Rabs_triang. Qed.
(* x = rnd (m + rnd (s * y)): the step, scaled back, is x - m *)
Lemma point_err : forall s m y X, 0 <= X -> Rabs m <= X -> Rabs (rnd64 (m + rnd64 (s * y))) <= X ->
  Rabs (s * y - (rnd64 (m + rnd64 (s * y)) - m)) <= 4 * uu * X + 3 * eta /\ Rabs (s * y) <= 202 / 100 * X + 4 * eta.
Proof.
  intros s m y X HX Hm Hx. pose proof (rnd_any (s * y)) as H1. pose proof (rnd_any (m + rnd64 (s * y))) as H2.
  set (p := s * y) in *. set (t := rnd64 p) in *. set (x := rnd64 (m + t)) in *. clearbody p t x. pose proof eta_pos as He. set (e := eta) in *. clearbody e.
  assert (B1 : Rabs (m + t) <= Rabs x + Rabs (x - (m + t))) by (replace (m + t) with (x - (x - (m + t))) at 1 by ring; apply Rabs_triang_minus).
  assert (B2 : Rabs t <= Rabs (m + t) + Rabs m) by (replace t with ((m + t) - m) at 1 by ring; apply Rabs_triang_minus).
  assert (B3 : Rabs p <= Rabs t + Rabs (t - p)) by (replace p with (t - (t - p)) at 1 by ring; apply Rabs_triang_minus).
  assert (B4 : Rabs (p - (x - m)) <= Rabs (t - p) + Rabs (x - (m + t))).
  { replace (p - (x - m)) with (- (t - p) - (x - (m + t))) by ring. apply Rle_trans with (1 := Rabs_triang_minus _ _). rewrite Rabs_Ropp. lra. }
  split; lra.
Qed.
Lemma Rabs_triang_sub : forall a b c, Rabs (a - c) <= Rabs (a - b) + Rabs (b - c).
Proof. intros a b c. replace (a - c) with ((a - b) + (b - c)) by ring. apply Rabs_triang. Qed.

Section Mean.
  Variables (n : nat) (w y : nat -> R) (s m c X : R).
  Hypothesis Hn : INR (S n) <= 1099511627776.
  Hypothesis Hw : forall k, (k <= n)%nat -> 0 <= w k.
  Hypothesis HW : Sig (S n) w <= 101 / 100.
  Hypothesis Hs : 0 < s.
  Hypothesis Hc : 0 < c <= 1.
  Hypothesis Hcs : bpow radix2 (-1000) <= c * s.
  Hypothesis Hm : Rabs m <= X.
  Let x k := rnd64 (m + rnd64 (s * y k)).
  Hypothesis Hx : forall k, (k <= n)%nat -> Rabs (x k) <= X.
  Let Y := fsum (map (fun k => rnd64 (y k * w k)) (seq 1 n)) (rnd64 (y 0%nat * w 0%nat)).
  Let m' := rnd64 (m + rnd64 (rnd64 (c * s) * Y)).
  Let mu := INR (S n).

  Lemma mean_err : Rabs (m' - (m + c * Sig (S n) (fun k => w k * (x k - m)))) <= (5 * mu + 12) * uu * X + (5 * mu * s + 12) * eta.
  Proof.
    assert (HX : 0 <= X) by (apply Rle_trans with (2 := Hm); apply Rabs_pos).
    assert (P0 : 0 <= INR n) by apply pos_INR. assert (Hmu : mu = INR n + 1) by (unfold mu; rewrite S_INR; reflexivity).
    assert (W0 : 0 <= Sig (S n) w) by (apply Sig_nonneg; intros; apply Hw; lia).
    pose proof (weighted_err n w y Hw ltac:(unfold mu in *; lra)) as E1. change (fsum _ _) with Y in E1.
    assert (Hp : forall k, (k < S n)%nat -> Rabs (s * y k - (x k - m)) <= 4 * uu * X + 3 * eta /\ Rabs (s * y k) <= 202 / 100 * X + 4 * eta).
    { intros k Hk. apply point_err; [exact HX|exact Hm|apply Hx; lia]. }
    set (D := Sig (S n) (fun k => w k * (x k - m))). set (A := Sig (S n) (fun k => w k * Rabs (y k))) in *. set (Q := Sig (S n) (fun k => w k * y k)) in *.
    assert (E2 : Rabs (s * Q - D) <= Sig (S n) w * (4 * uu * X + 3 * eta)).
    { replace (s * Q - D) with (Sig (S n) (fun k => w k * (s * y k - (x k - m)))).
      - apply Rle_trans with (1 := Sig_abs _ _). rewrite <- Sig_mul_r. apply Sig_le. intros k Hk. rewrite Rabs_mult, (Rabs_pos_eq (w k)) by (apply Hw; lia).
        apply Rmult_le_compat_l; [apply Hw; lia|apply Hp; exact Hk].
      - unfold Q, D. rewrite <- Sig_mul_l. rewrite (Sig_ext _ (fun k => w k * (s * y k - (x k - m))) (fun k => s * (w k * y k) + (-1) * (w k * (x k - m)))) by (intros; ring).
        rewrite Sig_plus, (Sig_mul_l _ (-1)). ring. }
    assert (E3 : s * A <= Sig (S n) w * (202 / 100 * X + 4 * eta)).
    { unfold A. rewrite <- Sig_mul_l, <- Sig_mul_r. apply Sig_le. intros k Hk. replace (s * (w k * Rabs (y k))) with (w k * Rabs (s * y k)) by (rewrite Rabs_mult, (Rabs_pos_eq s) by lra; ring).
      apply Rmult_le_compat_l; [apply Hw; lia|apply Hp; exact Hk]. }
    assert (E4 : Rabs D <= Sig (S n) w * (2 * X)).
    { unfold D. apply Rle_trans with (1 := Sig_abs _ _). rewrite <- Sig_mul_r. apply Sig_le. intros k Hk. rewrite Rabs_mult, (Rabs_pos_eq (w k)) by (apply Hw; lia).
      apply Rmult_le_compat_l; [apply Hw; lia|]. apply Rle_trans with (1 := Rabs_triang_minus _ _). specialize (Hx k ltac:(lia)). lra. }
    assert (A0 : 0 <= A) by (apply Sig_nonneg; intros k Hk; apply Rmult_le_pos; [apply Hw; lia|apply Rabs_pos]).
    pose proof (rnd_err (c * s)) as E5. rewrite (Rabs_pos_eq (c * s)) in E5 by nra. specialize (E5 Hcs).
    pose proof (rnd_any (rnd64 (c * s) * Y)) as E6. pose proof (rnd_any (m + rnd64 (rnd64 (c * s) * Y))) as E7. fold m' in E7.
    set (P := rnd64 (c * s)) in *. set (V := rnd64 (P * Y)) in *. unfold mu in *. clearbody P V D A Q Y m'. set (W := Sig (S n) w) in *. clearbody W. clear Hp x Hx Hw.
    rewrite S_INR in *. set (N := INR n) in *. clearbody N. clear Hcs. pose proof eta_pos as He. set (e := eta) in *. clearbody e.
    assert (K1 : W * (4 * uu * X + 3 * e) <= 101 / 100 * (4 * uu * X + 3 * e)) by (apply Rmult_le_compat_r; lra).
    assert (K2 : W * (202 / 100 * X + 4 * e) <= 101 / 100 * (202 / 100 * X + 4 * e)) by (apply Rmult_le_compat_r; lra).
    assert (K3 : W * (2 * X) <= 101 / 100 * (2 * X)) by (apply Rmult_le_compat_r; lra).
    set (M := N + 1) in *. assert (M1 : 1 <= M) by (unfold M; lra). assert (Mu : 2 * M * uu <= / 4096) by lra.
    (* s Y against the sum of the differences *)
    assert (F1 : Rabs (s * Y - s * Q) <= 2 * M * uu * (s * A) + 4 * M * s * e).
    { rewrite <- Rmult_minus_distr_l, Rabs_mult, (Rabs_pos_eq s) by lra. apply Rle_trans with (s * ((2 * N + 2) * uu * A + 4 * M * e)); [apply Rmult_le_compat_l; [lra|exact E1]|]. unfold M. right. ring. }
    assert (F2 : 2 * M * uu * (s * A) <= 2 * M * uu * (205 / 100 * X + 5 * e)) by (apply Rmult_le_compat_l; lra).
    assert (F3 : 2 * M * uu * (5 * e) <= / 4096 * (5 * e)) by (apply Rmult_le_compat_r; lra).
    assert (F4 : 2 * M * uu * (205 / 100 * X) <= / 4096 * (205 / 100 * X)) by (apply Rmult_le_compat_r; lra).
    pose proof (Rabs_triang_sub (s * Y) (s * Q) D) as F5.
    assert (MX : 0 <= M * uu * X) by (apply Rmult_le_pos; lra). assert (Mse : 0 <= M * s * e) by (apply Rmult_le_pos; [apply Rmult_le_pos|]; lra).
    assert (G1 : Rabs (s * Y - D) <= 41 / 10 * (M * uu * X) + 405 / 100 * uu * X + 4 * (M * s * e) + 4 * e) by lra.
    assert (G2 : Rabs (s * Y) <= 21 / 10 * X + 4 * (M * s * e) + 5 * e).
    { pose proof (Rabs_triang (s * Y - D) D) as T. replace (s * Y - D + D) with (s * Y) in T by ring. lra. }
    (* the product *)
    assert (H1 : Rabs (P * Y - c * (s * Y)) <= uu * Rabs (s * Y)).
    { replace (P * Y - c * (s * Y)) with ((P - c * s) * Y) by ring. rewrite Rabs_mult. apply Rle_trans with (uu * (c * s) * Rabs Y); [apply Rmult_le_compat_r; [apply Rabs_pos|exact E5]|].
      rewrite Rabs_mult, (Rabs_pos_eq s) by lra. pose proof (Rabs_pos Y) as PY. assert (PS : 0 <= s * Rabs Y) by (apply Rmult_le_pos; lra). replace (uu * (c * s) * Rabs Y) with (uu * (c * (s * Rabs Y))) by ring. apply Rmult_le_compat_l; [lra|]. rewrite <- (Rmult_1_l (s * Rabs Y)) at 2. apply Rmult_le_compat_r; lra. }
    assert (H2 : Rabs (c * (s * Y)) <= Rabs (s * Y)) by (rewrite Rabs_mult, (Rabs_pos_eq c) by lra; pose proof (Rabs_pos (s * Y)); rewrite <- (Rmult_1_l (Rabs (s * Y))) at 2; apply Rmult_le_compat_r; lra).
    assert (H3 : Rabs (P * Y) <= Rabs (c * (s * Y)) + Rabs (P * Y - c * (s * Y))) by (pose proof (Rabs_triang (P * Y - c * (s * Y)) (c * (s * Y))) as T; replace (P * Y - c * (s * Y) + c * (s * Y)) with (P * Y) in T by ring; lra).
    pose proof (Rabs_triang_sub V (P * Y) (c * (s * Y))) as H4.
    assert (H5 : Rabs (c * (s * Y) - c * D) <= Rabs (s * Y - D)) by (rewrite <- Rmult_minus_distr_l, Rabs_mult, (Rabs_pos_eq c) by lra; pose proof (Rabs_pos (s * Y - D)); rewrite <- (Rmult_1_l (Rabs (s * Y - D))) at 2; apply Rmult_le_compat_r; lra).
    pose proof (Rabs_triang_sub V (c * (s * Y)) (c * D)) as H6.
    assert (H7 : Rabs (m + V) <= Rabs m + Rabs V) by apply Rabs_triang.
    assert (H8 : Rabs V <= Rabs (V - c * (s * Y)) + Rabs (c * (s * Y))) by (pose proof (Rabs_triang (V - c * (s * Y)) (c * (s * Y))) as T; replace (V - c * (s * Y) + c * (s * Y)) with V in T by ring; lra).
    assert (H9 : Rabs (m' - (m + c * D)) <= Rabs (m' - (m + V)) + Rabs (V - c * D)) by (pose proof (Rabs_triang_sub m' (m + V) (m + c * D)) as T; replace (m + V - (m + c * D)) with (V - c * D) in T by ring; exact T).
    replace ((5 * M + 12) * uu * X + (5 * M * s + 12) * e) with (5 * (M * uu * X) + 12 * (uu * X) + 5 * (M * s * e) + 12 * e) by ring.
    set (MUX := M * uu * X) in *. set (MSE := M * s * e) in *. clearbody MUX MSE. clear - HX He MX Mse G1 G2 H1 H2 H3 H4 H5 H6 H7 H8 H9 E6 E7 Hm.
    assert (0 <= uu * X) by nra. lra.
  Qed.
End Mean.
