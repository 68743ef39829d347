(* C80: the parameters that are computed in binary64 are the published ones up to a small relative error. *)
From Coq Require Import List NArith ZArith Bool Reals Lra Lia Arith Psatz.
From Flocq Require Import Core.
From Flocq Require Import IEEE754.BinarySingleNaN.
Require Import Verif.Lib Verif.Base Verif.Num Verif.F64 Verif.XReal Verif.LinAlg Verif.Mode Verif.Weights Verif.Options
  Verif.Params Verif.Env Verif.State Verif.Sampling Verif.History Verif.Termination Verif.Plot Verif.Cmaes
  Verif.Spec Verif.Order Verif.F64Lemmas Verif.BuildLemmas Verif.TraceLemmas Verif.CeilLemmas Verif.XRound Verif.XLe
  Verif.F64Acc Verif.F64Weights Verif.F64Rates Verif.F64Final Verif.F64Raw Verif.F64Mean Verif.F64Rel Verif.F64Published Verif.Toy Verif.PropFloatParams.
Import ListNotations.
Open Scope R_scope.

(* The published parameters (Hansen, The CMA Evolution Strategy: A Tutorial, table 1), as real numbers, from the three options they depend on. *)
Section Published.
  Variables (setting : weights_setting) (lambda n : nat).
  Let mu := (lambda / 2)%nat.
  (* the preference of rank i, counted from 1 *)
  Definition pub_raw (i : nat) : R := match setting with WUniform => 1 | _ => ln ((INR lambda + 1) / 2) - ln (INR i) end.
  Definition pub_sum (f : R -> R) : R := fold_right Rplus 0 (map (fun i => f (pub_raw i)) (seq 1 mu)).
  Definition pub_weight (i : nat) : R := pub_raw i / pub_sum (fun w => w).
  Definition pub_mu_eff : R := Rsqr (pub_sum (fun w => w)) / pub_sum Rsqr.
  Definition pub_c1 : R := 2 / (Rsqr (INR n + 1.3) + pub_mu_eff).
  Definition pub_cmu : R := Rmin (1 - pub_c1) (2 * (pub_mu_eff - 2 + 1 / pub_mu_eff) / (Rsqr (INR n + 2) + 2 * pub_mu_eff / 2)).
  Definition pub_cc : R := (4 + pub_mu_eff / INR n) / (INR n + 4 + 2 * pub_mu_eff / INR n).
  Definition pub_cs : R := (pub_mu_eff + 2) / (INR n + pub_mu_eff + 5).
  Definition pub_damp : R := 1 + 2 * Rmax 0 (sqrt ((pub_mu_eff - 1) / (INR n + 1)) - 1) + pub_cs.
End Published.

(* the number x is finite and its relative error with respect to r is at most d *)
Definition within (d : R) (x : f64) (r : R) : Prop := is_finite x = true /\ Rabs (B2R x - r) <= d * r.

Lemma is_within : forall x r s d, is x r -> Rabs (r - s) <= d * s -> within d x s.
Proof. intros x r s d H K. apply is_B2R in H. destruct H as [H E]. split; [exact H|rewrite E; exact K]. Qed.

(* the error of a raw weight *)
Notation ew l := (2 * (80 / 1125899906842624 * (INR l + 1)) + e0).
Lemma raw_rel : forall {L : Libm f64} (Hln : accurate_ln) lambda (Hl : (2 <= lambda <= 1099511627775)%N) i, (1 <= i)%nat -> (2 * i <= N.to_nat lambda)%nat ->
  rel (ew (N.to_nat lambda)) (W lambda i) (ln ((INR (N.to_nat lambda) + 1) / 2) - ln (INR i)).
Proof.
  intros L Hln lambda Hl i Hi Hi2. set (lam := INR (N.to_nat lambda)). assert (El : IZR (Z.of_N lambda) = lam) by (unfold lam; rewrite INR_IZR_INZ; f_equal; lia).
  pose proof (diff_err Hln lambda Hl i ltac:(lia)) as D. rewrite El in D.
  assert (Lr : 2 <= lam <= 1099511627775) by (rewrite <- El; split; [apply (IZR_le 2)|apply (IZR_le _ 1099511627775)]; lia).
  assert (I1 : 1 <= INR i) by (apply (le_INR 1); exact Hi). assert (I2 : 2 * INR i <= lam) by (unfold lam; change 2 with (INR 2); rewrite <- mult_INR; apply le_INR; lia).
  pose proof (ln_gap (INR i) ((lam + 1) / 2) ltac:(lra)) as G. clearbody lam.
  assert (G2 : / (lam + 1) <= ln ((lam + 1) / 2) - ln (INR i)).
  { apply Rle_trans with (2 := G). apply Rmult_le_reg_r with (lam + 1); [lra|]. replace (/ (lam + 1) * (lam + 1)) with 1 by (field; lra).
    replace (((lam + 1) / 2 - INR i) / ((lam + 1) / 2) * (lam + 1)) with (lam + 1 - 2 * INR i) by (field; lra). lra. }
  set (w := ln ((lam + 1) / 2) - ln (INR i)) in *. assert (W0 : / 1099511627776 <= w) by (apply Rle_trans with (2 := G2); apply Rinv_le_contravar; lra).
  assert (W1 : 1 <= (lam + 1) * w).
  { apply Rle_trans with ((lam + 1) * / (lam + 1)); [rewrite Rinv_r by lra; lra|]. apply Rmult_le_compat_l; lra. }
  unfold W. set (x := LA lambda - LI i) in *. clearbody x w.
  apply rel_weaken with (e0 + 2 * (80 / 1125899906842624 * (lam + 1))); [|lra]. apply rel_step; [lra|]. apply rel_of; [lra|lra|].
  apply Rle_trans with (80 / 1125899906842624); [apply Rabs_le; lra|]. rewrite Rmult_assoc. nra.
Qed.

Lemma tot_pub : forall s l f, pub_sum s l f = tot (map f (map (pub_raw s l) (seq 1 (l / 2)))).
Proof. intros s l f. unfold pub_sum, tot. rewrite map_map. reflexivity. Qed.

Lemma raw_published : forall {L : Libm f64}, accurate_ln -> forall lambda, (2 <= lambda <= 1099511627775)%N -> forall setting rs,
  Forall2 is (iw_weights (iw_new lambda setting)) rs ->
  Forall2 (rel (ew (N.to_nat lambda))) (firstn (N.to_nat (lambda / 2)) rs) (map (pub_raw setting (N.to_nat lambda)) (seq 1 (N.to_nat lambda / 2))).
Proof.
  intros L Hln lambda Hl setting rs H. assert (Em : N.to_nat (lambda / 2) = (N.to_nat lambda / 2)%nat) by apply N2Nat.inj_div. rewrite Em. set (mu := (N.to_nat lambda / 2)%nat) in *.
  assert (Hm : (2 * mu <= N.to_nat lambda)%nat) by (unfold mu; apply Nat.mul_div_le; lia).
  assert (F : forall (l : list f64) a b, Forall2 is l a -> Forall2 is l b -> a = b).
  { induction l as [|x l IH]; intros a b Ha Hb; inversion Ha; inversion Hb; subst; [reflexivity|]. f_equal; [eapply is_fun; eassumption|apply IH; assumption]. }
  assert (P0 : 0 <= ew (N.to_nat lambda)) by (pose proof (pos_INR (N.to_nat lambda)); lra).
  assert (Main : forall n, (mu <= n <= N.to_nat lambda)%nat -> Forall2 is (map (raw_weight lambda) (map N.of_nat (seq 1 n))) rs ->
    Forall2 (rel (ew (N.to_nat lambda))) (firstn mu rs) (map (fun i => ln ((INR (N.to_nat lambda) + 1) / 2) - ln (INR i)) (seq 1 mu))).
  { intros n Hn Hr. assert (Hw : Forall2 is (map (raw_weight lambda) (map N.of_nat (seq 1 n))) (map (W lambda) (seq 1 n))).
    { rewrite map_map. apply Forall2_map_seq. intros i Hi. apply (w_is Hln lambda Hl i). lia. }
    rewrite (F _ _ _ Hr Hw). destruct (split_seq (W lambda) mu n ltac:(lia)) as [-> _]. apply Forall2_map_seq. intros i Hi. apply raw_rel; [exact Hln|exact Hl|lia|lia]. }
  unfold iw_new, one_to in H. cbn [iw_weights] in H. unfold pub_raw. destruct setting.
  - rewrite Em in H. apply (Main mu); [lia|exact H].
  - apply (Main (N.to_nat lambda)); [lia|exact H].
  - rewrite Em in H. assert (Hw : Forall2 is (repeat n1 mu) (repeat 1 mu)) by (clear; induction mu; cbn [repeat]; constructor; [exact is1|assumption]).
    rewrite (F _ _ _ H Hw). rewrite firstn_all2 by (rewrite repeat_length; lia). assert (Er : forall k a, map (fun _ : nat => 1) (seq a k) = repeat 1 k).
    { induction k as [|k IH]; intros a; cbn [seq map repeat]; [reflexivity|rewrite IH; reflexivity]. }
    rewrite Er. clear - P0. induction mu; cbn [repeat]; constructor; [|assumption]. apply rel_weaken with 0; [apply rel_refl; lra|exact P0].
Qed.

Lemma firstn_nth_lt : forall {A} (l : list A) k i d, (i < k)%nat -> nth i (firstn k l) d = nth i l d.
Proof. induction l as [|a l IH]; intros [|k] [|i] d H; try lia; cbn [firstn nth]; try reflexivity. apply IH. lia. Qed.

(* a positive final weight *)
Lemma final_positive : forall (ws : list f64) rs mu setting dim c1 cmu i, raw_ok ws rs (N.to_nat mu) -> (i < N.to_nat mu)%nat ->
  nth i (iw_finalize (mkIW ws setting mu) dim c1 cmu) n0 = ndiv (nth i ws n0) (nsum (firstn (N.to_nat mu) ws)) \/
  ~ (exists r, is (ndiv (nth i ws n0) (nsum (firstn (N.to_nat mu) ws))) r /\ 0 <= r).
Proof.
  intros ws rs mu setting dim c1 cmu i Hraw Hi. destruct Hraw as [Hii Hm [Hl1 Hl2] Hp Hn _ _ _]. set (k := N.to_nat mu) in *.
  pose proof (Forall2_firstn is k _ _ Hii) as Hf. pose proof (Forall2_skipn is k _ _ Hii) as Hsk. pose proof (Forall2_len _ _ _ Hii) as Lw.
  assert (Ef : filter (fun w => ngtb w n0) ws = firstn k ws).
  { rewrite <- (firstn_skipn k ws) at 1. rewrite filter_app, (filter_gt_all _ _ Hf), (filter_gt_none _ _ Hsk), app_nil_r; [reflexivity| |].
    - eapply Forall_impl; [|exact Hn]. cbn beta. intros; lra.
    - eapply Forall_impl; [|exact Hp]. cbn beta. intros; lra. }
  unfold iw_finalize. cbn [iw_weights]. rewrite Ef. set (S := nsum (firstn k ws)). set (x := nth i ws n0).
  assert (Hx : ngtb x n0 = true).
  { assert (Hin : In x (firstn k ws)).
    { unfold x. rewrite <- (firstn_nth_lt ws k i n0 Hi). apply nth_In. rewrite firstn_length. lia. }
    rewrite <- (filter_gt_all _ _ Hf) in Hin; [apply filter_In in Hin; tauto|]. eapply Forall_impl; [|exact Hp]. cbn beta. intros; lra. }
  set (g := fun w => if ngtb w n0 then ndiv w S else w).
  assert (N1 : nth i (map g ws) n0 = ndiv x S).
  { rewrite (nth_indep _ _ (g n0)) by (rewrite map_length; lia). rewrite map_nth. fold x. unfold g. rewrite Hx. reflexivity. }
  destruct (iw_mu_eff_minus _) as [mm|]; [|left; exact N1].
  set (h := fun w => if nltb w n0 then _ else w). destruct (nltb (ndiv x S) n0) eqn:El.
  - right. intros [r [Ir Hr]]. apply (is_lt _ _ _ _ Ir is0) in El. lra.
  - left. rewrite (nth_indep _ _ (h n0)) by (rewrite !map_length; lia). rewrite (map_nth h), N1. unfold h. rewrite El. reflexivity.
Qed.

Section FloatPublished.
  Context {L : Libm f64} {E : Env f64} {F : Type} (ev : F -> vec f64 -> outcome (f64 * F)).

  Theorem C80_published : accurate_ln -> forall o f c, reaches ev o f c ->
    (o_population_size o <= 67108864)%N -> (N.of_nat (length (o_initial_mean o)) <= 9007199254740992)%N ->
    let p := c_params c in
    let lambda := N.to_nat (o_population_size o) in
    let s := o_weights o in
    let n := length (o_initial_mean o) in
    let d := (INR lambda + 1) / 2 ^ 38 in
    (forall i, (i < lambda / 2)%nat -> within d (nth i (p_weights p) n0) (pub_weight s lambda (i + 1))) /\
    within d (p_mu_eff p) (pub_mu_eff s lambda) /\
    within d (p_c1 p) (pub_c1 s lambda n) /\
    within d (p_cc p) (pub_cc s lambda n) /\
    within d (p_cs p) (pub_cs s lambda n) /\
    within (128 * d) (p_cmu p) (pub_cmu s lambda n) /\
    within (128 * d) (p_damp_s p) (pub_damp s lambda n) /\
    p_cm p = o_cm o.
  Proof.
    intros Hln o f c Hr Hsize Hdim p lambda s n d. destruct (setup ev Hln o f c Hr ltac:(split; lia)) as [seed [rs [Hp [Hd [Hraw Hlen]]]]].
    destruct (reached_params ev o f c Hr) as [Hv _]. destruct (sizes o Hv) as [Hl _].
    pose proof (raw_published Hln (o_population_size o) ltac:(lia) s rs (ra_is _ _ _ Hraw)) as Hpub. fold lambda in Hpub.
    set (qs := map (pub_raw s lambda) (seq 1 (lambda / 2))) in *. set (k := N.to_nat (o_population_size o / 2)) in *.
    assert (Ek : k = (lambda / 2)%nat) by (unfold k, lambda; apply N2Nat.inj_div).
    assert (HL : 2 <= INR lambda <= 67108864).
    { unfold lambda. rewrite INR_IZR_INZ. split; [apply (IZR_le 2)|apply (IZR_le _ 67108864)]; lia. }
    assert (HK : 1 <= INR k <= INR lambda / 2).
    { split; [apply (le_INR 1); exact (ra_mu _ _ _ Hraw)|]. assert (X : INR (2 * k) <= INR lambda) by (apply le_INR; rewrite Ek; apply Nat.mul_div_le; lia). rewrite mult_INR in X. cbn [INR] in X. lra. }
    assert (Hmu : (1 <= o_population_size o / 2 <= 1099511627776)%N).
    { pose proof (ra_mu _ _ _ Hraw) as X. pose proof (N.div_le_upper_bound (o_population_size o) 2 1099511627776 ltac:(lia) ltac:(lia)). unfold k in X. lia. }
    (* the effective number of parents *)
    destruct (mu_eff_rel _ rs qs s (ew lambda) (o_population_size o / 2) (ra_is _ _ _ Hraw)) as [M' [IM RM]].
    { rewrite <- Hlen. apply (ra_len _ _ _ Hraw). }
    { exact Hpub. }
    { exact (ra_pos _ _ _ Hraw). }
    { exact Hmu. }
    fold k in RM. set (M := tot qs * tot qs / tot (map (fun q => q * q) qs)) in *.
    assert (EM : pub_mu_eff s lambda = M).
    { unfold pub_mu_eff, M, Rsqr. rewrite !tot_pub. fold qs. rewrite map_id. reflexivity. }
    destruct (mu_eff_cases _ rs (o_population_size o / 2) s Hraw) as [M2 [IM2 [Mc Mr]]]. rewrite (is_fun _ _ _ IM2 IM) in Mc, Mr. clear M2 IM2.
    assert (Qp : Forall (fun q => 0 < q) qs).
    { clear - Hpub. induction Hpub as [|a b l m [Ha _] H IH]; constructor; assumption. }
    assert (Qn : qs <> []).
    { intros X. apply (f_equal (@length R)) in X. unfold qs in X. rewrite map_length, seq_length, <- Ek in X. cbn [length] in X. pose proof (ra_mu _ _ _ Hraw) as Y. rewrite X in Y. lia. }
    assert (Tq : 0 < tot (map (fun q => q * q) qs)).
    { destruct qs as [|q l]; [elim Qn; reflexivity|]. inversion Qp as [|? ? A B]; subst. cbn [map]. change (tot (q * q :: map (fun q => q * q) l)) with (q * q + tot (map (fun q => q * q) l)).
      assert (0 <= tot (map (fun q => q * q) l)) by (apply tot_nonneg, Forall_forall; intros x Hx; apply in_map_iff in Hx; destruct Hx as [y [<- _]]; nra). nra. }
    assert (M1 : 1 <= M).
    { unfold M. apply Rmult_le_reg_r with (tot (map (fun q => q * q) qs)); [exact Tq|]. rewrite Rmult_1_l.
      replace (tot qs * tot qs / tot (map (fun q => q * q) qs) * tot (map (fun q => q * q) qs)) with (tot qs * tot qs) by (field; lra).
      apply squares_le. eapply Forall_impl; [|exact Qp]. cbn beta. intros; lra. }
    assert (Mone : M = 1 /\ M' = 1 \/ 114 / 100 <= M').
    { destruct Mc as [[K ->]|K]; [left|right; exact K]. split; [|reflexivity]. unfold M. assert (k1 : k = 1%nat) by (unfold k; rewrite K; reflexivity).
      rewrite Ek in k1. unfold qs. rewrite k1 in *. cbn [seq map tot fold_right]. unfold qs in Qp. rewrite k1 in Qp. cbn [seq map] in Qp. inversion Qp as [|? ? Q1 _]; subst. field. lra. }
    assert (M3 : M' <= 1200000000000).
    { assert (X : IZR (Z.of_N (o_population_size o / 2)) = INR k) by (rewrite INR_IZR_INZ; unfold k; f_equal; lia). rewrite X in Mr. lra. }
    set (e := 645 / 1125899906842624 * (INR lambda + 1)).
    assert (RM' : rel e M' M) by (eapply rel_weaken; [exact RM|]; unfold e; lra). assert (He : 645 / 1125899906842624 * 3 <= e <= / 16384) by (unfold e; lra).
    assert (Ed : (INR lambda + 1) / 2 ^ 38 = 4096 / 645 * e) by (unfold e; field). clear RM Hlen Mr Mc.
    unfold d. rewrite Ed. clear d.
    unfold p. rewrite Hp. unfold params_of_options. cbn [p_weights p_mu_eff p_c1 p_cmu p_cc p_cs p_damp_s p_cm].
    set (dim := N.of_nat (length (o_initial_mean o))) in *. set (me := iw_mu_eff (iw_new (o_population_size o) (o_weights o))) in *.
    change (is me M') in IM.
    assert (ED : IZR (Z.of_N dim) = INR n) by (unfold dim, n; rewrite INR_IZR_INZ; f_equal; lia).
    unfold pub_c1, pub_cc, pub_cmu, pub_damp, pub_cs, pub_c1. rewrite EM.
    destruct (c1_rel dim me M' M e Hd IM RM' ltac:(lra) Mone M3) as [x1 [I1 R1]]. destruct (cc_rel dim me M' M e Hd IM RM' ltac:(lra) Mone M3) as [x2 [I2 R2]].
    destruct (cs_rel dim me M' M e Hd IM RM' ltac:(lra) Mone M3) as [x3 [I3 R3]]. destruct (damp_rel dim me M' M e Hd IM RM' ltac:(lra) Mone M1 M3) as [x4 [I4 R4]].
    destruct (cmu_rel dim me M' M e Hd IM RM' ltac:(lra) Mone M1 M3) as [x5 [I5 R5]]. cbv zeta in R5. rewrite ED in R1, R2, R3, R4, R5.
    assert (To : forall g x y t, rel g x y -> 0 <= g <= 1 / 2 -> 2 * g <= t -> Rabs (x - y) <= t * y).
    { intros g x y t H1 H2 H3. apply Rle_trans with (1 := rel_to _ _ _ H1 H2). apply Rmult_le_compat_r; [destruct H1; lra|exact H3]. }
    split; [|split; [|split; [|split; [|split; [|split; [|split; [|reflexivity]]]]]]].
    - intros i Hi. rewrite <- Ek in Hi.
      pose proof (Forall2_firstn is k _ _ (ra_is _ _ _ Hraw)) as Hf. pose proof (ra_pos _ _ _ Hraw) as Hpos. fold k in Hpos.
      destruct (ra_len _ _ _ Hraw) as [Hl1 Hl2]. fold k in Hl1. assert (Lf : length (firstn k rs) = k) by (apply firstn_length_le; exact Hl1).
      assert (Hne : firstn k rs <> []) by (intros X; rewrite X in Lf; cbn in Lf; pose proof (ra_mu _ _ _ Hraw) as Y; fold k in Y; lia).
      destruct (rel_sum _ _ Hf) as [S [IS RS]].
      { eapply Forall_impl; [|exact Hpos]. cbn beta. intros r Hr0. apply bp200. lra. }
      { exact Hne. }
      { rewrite Lf. unfold k. lia. }
      rewrite Lf in RS. pose proof (rel_trans _ _ _ _ _ RS (rel_tot _ _ _ Hne Hpub)) as RT.
      assert (SB : / 10000000000000 <= S <= 100000000000000).
      { assert (TU : small <= tot (firstn k rs) <= INR k * 64).
        { split; [|rewrite <- Lf at 2; apply tot_le; eapply Forall_impl; [|exact Hpos]; cbn beta; intros; lra].
          destruct (firstn k rs) as [|r l]; [elim Hne; reflexivity|]. inversion Hpos as [|? ? Hr0 Hl0]; subst. change (tot (r :: l)) with (r + tot l).
          assert (0 <= tot l) by (apply tot_nonneg; eapply Forall_impl; [|exact Hl0]; cbn beta; intros; lra). lra. }
        pose proof (rel_to _ _ _ RS ltac:(lra)) as X. apply Rabs_le_inv in X. set (t := tot (firstn k rs)) in *. clearbody t.
        assert (Y : 2 * (INR k * e0) * t <= / 1024 * t) by (apply Rmult_le_compat_r; lra). lra. }
      set (x := nth i (iw_weights (iw_new (T := f64) (o_population_size o) (o_weights o))) n0).
      assert (Hx : exists r, is x r /\ small <= r <= 64 /\ rel (ew lambda) r (nth i qs 0)).
      { exists (nth i (firstn k rs) 0). split; [|split].
        - unfold x. rewrite <- (firstn_nth_lt _ k i n0 Hi).
          clear - Hf Hi Lf. rewrite <- Lf in Hi. revert i Hi. induction Hf as [|a b l m H1 H2 IH]; intros i Hi; [cbn in Hi; lia|].
          assert (G : forall l m, Forall2 is l m -> forall i, (i < length m)%nat -> is (nth i l n0) (nth i m 0)).
          { clear. intros l m H. induction H as [|a b l m H1 H2 IH]; intros i Hi; [cbn in Hi; lia|]. destruct i; cbn [nth]; [exact H1|apply IH; cbn in Hi; lia]. }
          apply G; [constructor; assumption|exact Hi].
        - rewrite Forall_forall in Hpos. apply Hpos. apply nth_In. lia.
        - assert (G : forall l m, Forall2 (rel (ew lambda)) l m -> forall i, (i < length l)%nat -> rel (ew lambda) (nth i l 0) (nth i m 0)).
          { clear. intros l m H. induction H as [|a b l m H1 H2 IH]; intros i Hi; [cbn in Hi; lia|]. destruct i; cbn [nth]; [exact H1|apply IH; cbn in Hi; lia]. }
          apply G; [exact Hpub|lia]. }
      destruct Hx as [r [Ix [Hr1 Rx]]].
      assert (Q1 : / 100000000000000000000000000000 <= r / S) by (apply Rmult_le_reg_r with S; [lra|]; replace (r / S * S) with r by (field; lra); lra).
      assert (Q2 : r / S <= 10000000000000000) by (apply Rmult_le_reg_r with S; [lra|]; replace (r / S * S) with r by (field; lra); lra).
      assert (Iw : is (ndiv x (nsum (firstn k (iw_weights (iw_new (o_population_size o) (o_weights o)))))) (rnd64 (r / S))) by (apply is_div; auto; [lra|apply bigp; lra]).
      pose proof (rel_step (r / S) _ _ ltac:(lra) (rel_div _ _ _ _ _ _ Rx RT)) as Rw.
      destruct (final_positive _ rs (o_population_size o / 2) s dim (calc_c1 dim me) (calc_cmu dim me (calc_c1 dim me)) i Hraw Hi) as [Hw|Hw].
      2: { elim Hw. exists (rnd64 (r / S)). split; [exact Iw|]. apply rnd_nonneg. lra. }
      change (mkIW (iw_weights (iw_new (o_population_size o) (o_weights o))) s (o_population_size o / 2)) with (iw_new (T := f64) (o_population_size o) (o_weights o)) in Hw.
      rewrite Hw. eapply is_within; [exact Iw|]. unfold pub_weight. rewrite tot_pub. fold qs. rewrite map_id.
      assert (En : nth i qs 0 = pub_raw s lambda (i + 1)).
      { unfold qs. rewrite (nth_indep _ _ (pub_raw s lambda 0%nat)) by (rewrite map_length, seq_length; lia). rewrite map_nth. f_equal. rewrite seq_nth by lia. lia. }
      rewrite En in Rw. eapply To; [exact Rw|unfold e in He; lra|unfold e; lra].
    - eapply is_within; [exact IM|]. eapply To; [exact RM'|lra|lra].
    - eapply is_within; [exact I1|]. unfold Rsqr. replace 1.3 with (13 / 10) by lra. eapply To; [exact R1|lra|lra].
    - eapply is_within; [exact I2|]. eapply To; [exact R2|lra|lra].
    - eapply is_within; [exact I3|]. eapply To; [exact R3|lra|lra].
    - eapply is_within; [exact I5|]. unfold Rsqr. replace 1.3 with (13 / 10) by lra. replace (2 * M / 2) with M by field. apply Rle_trans with (1 := R5).
      apply Rmult_le_compat_r; [|lra]. assert (N0 : 1 <= INR n) by (rewrite <- ED; apply (IZR_le 1); lia). apply Rmin_glb.
      + assert (X : 2 / ((INR n + 13 / 10) * (INR n + 13 / 10) + M) <= 1).
        { apply Rmult_le_reg_r with ((INR n + 13 / 10) * (INR n + 13 / 10) + M); [nra|]. replace (2 / ((INR n + 13 / 10) * (INR n + 13 / 10) + M) * ((INR n + 13 / 10) * (INR n + 13 / 10) + M)) with 2 by (field; nra). nra. }
        lra.
      + apply Rmult_le_pos; [|left; apply Rinv_0_lt_compat; nra]. replace (M - 2 + 1 / M) with ((M - 1) * (M - 1) / M) by (field; lra).
        apply Rmult_le_pos; [lra|]. apply Rmult_le_pos; [nra|left; apply Rinv_0_lt_compat; lra].
    - eapply is_within; [exact I4|]. eapply To; [exact R4|lra|lra].
  Qed.
End FloatPublished.
Print Assumptions C80_published.

(* Built optimisers on a platform with the correctly rounded logarithm, for every setting, dimension and population in wide ranges. *)
Example C80_case : accurate_ln (L := rounded_libm) /\
  forall dim w l, (1 <= dim <= 1000)%nat -> (2 <= l <= 1000000)%N ->
    (o_population_size (c75_options dim w l) <= 67108864)%N /\ (N.of_nat (length (o_initial_mean (c75_options dim w l))) <= 9007199254740992)%N /\
    exists c, reaches (E := toy_env) (LT := rounded_libm) toy_sphere (c75_options dim w l) tt c.
Proof.
  split; [exact rounded_accurate|]. intros dim w l Hd Hl. split; [|split; [|apply c75_built; lia]].
  - cbn [c75_options toy_options apply_setters fold_left apply_setter options_new o_population_size]. lia.
  - cbn [c75_options toy_options apply_setters fold_left apply_setter options_new o_initial_mean]. rewrite repeat_length. lia.
Qed.
