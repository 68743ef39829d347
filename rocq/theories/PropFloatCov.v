(* C81: without negative weights, no diagonal entry of the covariance matrix can collapse, as computed in binary64. *)
From Coq Require Import List NArith ZArith Bool Reals Lra Lia Arith Psatz.
From Flocq Require Import Core.
From Flocq Require Import IEEE754.BinarySingleNaN.
Require Import Verif.Lib Verif.Base Verif.Num Verif.F64 Verif.XReal Verif.LinAlg Verif.Mode Verif.Weights Verif.Options
  Verif.Params Verif.Env Verif.State Verif.Sampling Verif.History Verif.Termination Verif.Plot Verif.Cmaes
  Verif.Spec Verif.Order Verif.F64Lemmas Verif.BuildLemmas Verif.TraceLemmas Verif.CeilLemmas Verif.XRound Verif.XLe
  Verif.F64Acc Verif.F64Weights Verif.F64Rates Verif.F64Final Verif.F64Raw Verif.F64Mean Verif.F64Sigma Verif.F64Cov Verif.Toy Verif.ToyLemmas Verif.PanicLemmas Verif.StateLemmas Verif.TermLemmas
  Verif.PropRun Verif.PropFloatParams Verif.PropFloatSigma Verif.PropFloatPublished.
Import ListNotations.
Open Scope R_scope.

(* the least part of the variance that one generation keeps: 1 - c1 - cmu, with room for rounding *)
Definition kept (o : options f64) (c1 cmu : R) : R := 1 - c1 - cmu - (2 * INR (N.to_nat (o_population_size o)) + 8) / 2 ^ 52.
(* entry (i, j) of the covariance matrix that the optimiser shows *)
Definition entry {L : Libm f64} {E : Env f64} {F : Type} (c : cmaes f64 F) (i j : nat) : f64 := nth j (nth i (covariance_matrix c) []) n0.

(* the real weights without negative ones *)
Lemma sum_slack : forall ws gs n, Forall2 is ws gs -> length gs = n -> Forall (fun r => 0 < r) gs -> tot gs <= 1 + INR (n + 1) / 4503599627370496 -> INR n <= 1099511627776 ->
  exists S, is (nsum ws) S /\ 0 <= S <= 1 + (5 * INR n + 3) * uu.
Proof.
  intros ws gs n H Hn Hp Ht Hs. rewrite plus_INR in Ht. cbn [INR] in Ht. pose proof (pos_INR n) as N0.
  assert (A : Forall (fun r => 0 <= r <= IZR 2) gs).
  { assert (T2 : tot gs <= 2) by lra. clear - Hp T2. revert T2. induction Hp as [|g gs Hg Hp IH]; intros T; [constructor|]. change (tot (g :: gs)) with (g + tot gs) in T.
    assert (0 <= tot gs) by (apply tot_nonneg; eapply Forall_impl; [|exact Hp]; cbn beta; intros; lra). constructor; [lra|apply IH; lra]. }
  assert (Hz : (2 * Z.of_nat (length gs) <= B53)%Z).
  { rewrite Hn. apply le_IZR. rewrite mult_IZR, <- INR_IZR_INZ. change (IZR B53) with 9007199254740992. lra. }
  destruct (sum_bound 2 ws gs ltac:(lia) H A Hz) as [S [IS [[S0 _] _]]]. exists S. split; [exact IS|]. split; [exact S0|].
  unfold nsum in IS. destruct (fold_back _ _ _ IS) as [s [rs [I0 [Hr Es]]]]. assert (s = 0) by (eapply is_fun; [exact I0|exact is0]). subst s.
  assert (rs = gs). { clear - Hr H. revert gs H. induction Hr as [|x r l m Hx Hr IH]; intros gs H; inversion H; subst; [reflexivity|]. f_equal; [eapply is_fun; eassumption|apply IH; assumption]. } subst rs.
  pose proof (fsum_err gs 0) as X. rewrite Hn, <- Es in X. assert (Habs : map Rabs gs = gs).
  { clear - Hp. induction Hp as [|g gs Hg Hp IH]; [reflexivity|]. cbn [map]. rewrite IH, Rabs_pos_eq by lra. reflexivity. }
  rewrite Habs, Rabs_R0, !Rplus_0_l in X. assert (X0 : 2 * (INR n * uu) <= 1) by lra. specialize (X X0). apply Rabs_le_inv in X. destruct X as [_ X].
  assert (Et : 0 < eta <= uu * uu). { split; [apply eta_pos|]. unfold eta. change uu with (bpow radix2 (-53)). rewrite <- bpow_plus. apply bpow_le. lia. }
  set (N := INR n) in *. set (t := tot gs) in *. clearbody N t. clear - X Ht Hs N0 Et. set (e := eta) in *. clearbody e.
  assert (N * e <= 1099511627776 * (uu * uu)) by (apply Rmult_le_compat; lra).
  assert (2 * (N * uu) * t <= 2 * (N * uu) * (1 + (N + 1) / 4503599627370496)) by (apply Rmult_le_compat_l; lra).
  assert ((N + 1) / 4503599627370496 <= / 2000) by lra. nra.
Qed.

Section FloatCov.
  Context {L : Libm f64} {E : Env f64} {F : Type} (ev : F -> vec f64 -> outcome (f64 * F)).

  Definition slack (o : options f64) : R := (5 * INR (N.to_nat (o_population_size o / 2)) + 3) * uu.
  Lemma slack_small : forall o : options f64, sizes_fit o -> 0 <= slack o <= 1 /\ slack o + 10 * uu <= (2 * INR (N.to_nat (o_population_size o)) + 8) / 2 ^ 52.
  Proof.
    intros o [Hs _]. unfold slack. assert (A : 2 * INR (N.to_nat (o_population_size o / 2)) <= INR (N.to_nat (o_population_size o))).
    { change 2 with (INR 2). rewrite <- mult_INR. apply le_INR. pose proof (N.mul_div_le (o_population_size o) 2 ltac:(lia)). lia. }
    assert (B : INR (N.to_nat (o_population_size o)) <= 1099511627776).
    { rewrite INR_IZR_INZ. apply IZR_le. lia. }
    pose proof (pos_INR (N.to_nat (o_population_size o / 2))). set (x := INR (N.to_nat (o_population_size o / 2))) in *. set (y := INR (N.to_nat (o_population_size o))) in *. clearbody x y. lra.
  Qed.

  Lemma cov_rates : accurate_ln -> forall o f c, reaches ev o f c -> sizes_fit o -> o_weights o <> WNegative -> exists c1 cmu cc S,
    is (p_c1 (c_params c)) c1 /\ is (p_cmu (c_params c)) cmu /\ is (p_cc (c_params c)) cc /\ is (nsum (p_weights (c_params c))) S /\ Forall weight_ok (p_weights (c_params c)) /\
    0 < c1 <= 1 / 2 /\ 0 <= cmu <= 1 /\ 0 < cc <= 1 /\ 0 <= S <= 1 + slack o.
  Proof.
    intros Hln o f c Hr Hf Hneg. destruct (C75_rates ev Hln o f c Hr Hf) as [me [c1 [cmu [cc [cs [ds H]]]]]]. destruct H as [_ [I1 [Im [Ic [_ [_ [_ [H1 [Hm [Hc _]]]]]]]]]].
    destruct (setup ev Hln o f c Hr Hf) as [seed [rs [Hp [Hd [Hraw Hlen]]]]].
    destruct (final_weights (iw_weights (iw_new (o_population_size o) (o_weights o))) rs (o_population_size o / 2) (o_weights o) _ Hraw Hd) as [gs [G1 [G2 [G3 [_ [_ G6]]]]]].
    change (mkIW (iw_weights (iw_new (o_population_size o) (o_weights o))) (o_weights o) (o_population_size o / 2)) with (iw_new (T := f64) (o_population_size o) (o_weights o)) in G1.
    assert (Lg : length gs = N.to_nat (o_population_size o / 2)).
    { rewrite G2, Hlen. unfold iw_new, one_to. cbn [iw_weights]. destruct (o_weights o); rewrite ?map_length, ?seq_length, ?repeat_length; [reflexivity|contradiction|reflexivity]. }
    rewrite firstn_all2 in G3, G6 by lia. set (W := p_weights (c_params c)).
    assert (Ew : Forall2 is W gs) by (unfold W; rewrite Hp; exact G1). clearbody W. clear G1.
    assert (Hmu : INR (N.to_nat (o_population_size o / 2)) <= 1099511627776).
    { destruct Hf as [Hf _]. rewrite INR_IZR_INZ. apply IZR_le. pose proof (N.div_le_upper_bound (o_population_size o) 2 1099511627776 ltac:(lia) ltac:(lia)). lia. }
    destruct (sum_slack W gs _ Ew Lg G3 (proj2 G6) Hmu) as [S [IS HS]]. exists c1, cmu, cc, S. repeat (split; [assumption|]). split.
    - clear - Ew G3. revert G3. induction Ew as [|w g ws gs Hw H IH]; intros G; [constructor|]. inversion G; subst. constructor; [exists g; split; [exact Hw|lra]|apply IH; assumption].
    - split; [lra|]. split; [lra|]. split; [lra|]. exact HS.
  Qed.

  (* the matrix stays square *)
  Lemma cov_square : forall o f c, reaches ev o f c -> shape (length (o_initial_mean o)) (length (o_initial_mean o)) (covariance_matrix c).
  Proof.
    intros o f c Hr. destruct (reached_params ev o f c Hr) as [Hv _]. destruct (sizes o Hv) as [_ Hd]. destruct Hr as [c0 [l [[rs [now Hb]] Hl]]]. set (n := length (o_initial_mean o)) in *.
    revert Hl. apply (steps_invariant ev (fun a => shape n n (covariance_matrix a))).
    - intros a op b Ha Hq Hs. destruct (quiet_core _ _ _ _ Hq Hs) as [_ [_ [K3 _]]]. unfold covariance_matrix in *. rewrite K3. exact Ha.
    - intros par tk a r b Ha Hn. apply next_outcome in Hn. unfold covariance_matrix in *. destruct Hn as [[_ [_ [_ X]]]|[inds [ok [_ [_ [_ [X _]]]]]]]; [rewrite X; exact Ha|].
      apply state_update_inv in X. destruct X as [yw [rm [cov X]]]. pose proof (up_set _ _ _ _ _ _ _ _ _ _ X) as Hset. apply set_cov_cov in Hset. rewrite Hset.
      pose proof (up_cov _ _ _ _ _ _ _ _ _ _ X) as Hcov. unfold calc_cov in Hcov. oinv Hcov. match goal with X : madd_c _ _ = Ret a0 |- _ => rename X into Hm end.
      pose proof (madd_c_shape (T := f64) n _ _ _ ltac:(lia) (shape_mscale _ _ _ _ Ha) Hm) as Sa. pose proof (madd_c_shape (T := f64) n _ _ _ ltac:(lia) Sa Hcov) as Sc.
      unfold fill_lower. destruct Sc as [Sc _]. unfold mat, vec in *. rewrite Sc. apply shape_mbuild.
    - pose proof (cmaes_new_inv _ _ _ _ _ Hb) as C. cbv zeta in C. destruct C as [_ [_ [_ [C3 _]]]]. unfold covariance_matrix. rewrite C3. cbn [st_cov state_new cov_new cm_cov].
      apply shape_mbuild.
  Qed.

  (* One call of next: whatever a diagonal entry was at least, it is at least the kept part of it now. *)
  Theorem C81_generation : accurate_ln -> forall o f c par tk r c', reaches ev o f c -> sizes_fit o -> o_weights o <> WNegative ->
    next ev par tk c = Ret (r, c') ->
    exists c1 cmu, f2x (p_c1 (c_params c)) = XFin c1 /\ f2x (p_cmu (c_params c)) = XFin cmu /\ 0 < c1 <= 1 / 2 /\ 0 <= cmu <= 1 /\
      (0 < kept o c1 cmu -> forall i v, (i < length (o_initial_mean o))%nat -> 0 <= v -> not_below (entry c i i) v ->
        not_below (entry c' i i) (v * kept o c1 cmu - tiny)).
  Proof.
    intros Hln o f c par tk r c' Hr Hf Hneg Hn. destruct (cov_rates Hln o f c Hr Hf Hneg) as [c1 [cmu [cc [S [I1 [Im [Ic [Is [Hw [H1 [Hm [Hc HS]]]]]]]]]]]].
    exists c1, cmu. repeat (split; [assumption|]). intros Hk i v Hi Hv H. apply low_not_below. apply low_not_below in H. pose proof (cov_square o f c Hr) as Sq.
    destruct (slack_small o Hf) as [E1 E2]. unfold kept in *. set (k := (2 * INR (N.to_nat (o_population_size o)) + 8) / 2 ^ 52) in *. clearbody k.
    pose proof eta_pos as P. change tiny with eta. unfold entry, covariance_matrix in *. apply next_outcome in Hn. destruct Hn as [[_ [_ [_ X]]]|[inds [ok [_ [_ [_ [X _]]]]]]].
    - rewrite X. apply low_mono with (1 := H). nra.
    - destruct (update_diag _ _ _ _ _ _ _ (length (o_initial_mean o)) c1 cmu cc S (slack o) i v X ltac:(lia) Sq I1 Im Ic Is Hw ltac:(lra) Hm ltac:(lra) HS E1) as [_ U].
      apply low_mono with (1 := proj1 (U ltac:(lra) Hi Hv H)). nra.
  Qed.

  (* After any use of the optimiser, with k generations evaluated. *)
  Theorem C81_total : accurate_ln -> forall o f c, reaches ev o f c -> sizes_fit o -> o_weights o <> WNegative ->
    exists c1 cmu k, f2x (p_c1 (c_params c)) = XFin c1 /\ f2x (p_cmu (c_params c)) = XFin cmu /\ 0 < c1 <= 1 / 2 /\ 0 <= cmu <= 1 /\
      function_evals c = (o_population_size o * N.of_nat k)%N /\
      (0 < kept o c1 cmu -> forall i, (i < length (o_initial_mean o))%nat -> not_below (entry c i i) (kept o c1 cmu ^ k - INR k * tiny)).
  Proof.
    intros Hln o f c Hr Hf Hneg. destruct (cov_rates Hln o f c Hr Hf Hneg) as [c1 [cmu [cc [S [I1 [Im [Ic [Is [Hw [H1 [Hm [Hc HS]]]]]]]]]]]]. exists c1, cmu.
    destruct (reached_params ev o f c Hr) as [Hv _]. destruct (sizes o Hv) as [_ Hd]. destruct (slack_small o Hf) as [E1 E2]. pose proof eta_pos as P. change tiny with eta.
    assert (Hq : kept o c1 cmu <= 1 - c1 - cmu - (slack o + 10 * uu)) by (unfold kept; lra). assert (Hq1 : 1 - c1 - cmu - (slack o + 10 * uu) <= 1) by lra. set (q := kept o c1 cmu) in *. clearbody q.
    destruct Hr as [c0 [l [[rs [now Hb]] Hl]]]. pose proof (cmaes_new_inv _ _ _ _ _ Hb) as C. cbv zeta in C. destruct C as [_ [C1 [C2 [C3 _]]]].
    assert (S0 : same_setup c c0).
    { revert Hl. apply (steps_invariant ev (fun a => same_setup a c0)).
      - intros a op b Ha Hqu Hs. eapply same_setup_trans; [|exact Ha]. apply core_setup. eapply quiet_core; eauto.
      - intros par tk a r b Ha Hn. eapply same_setup_trans; [|exact Ha]. eapply next_setup; eauto.
      - apply same_setup_refl. }
    destruct S0 as [Ep _]. rewrite Ep in *. set (n := length (o_initial_mean o)) in *.
    set (P0 := fun a : cmaes f64 F => same_setup a c0 /\ shape n n (covariance_matrix a) /\ exists k, function_evals a = (o_population_size o * N.of_nat k)%N /\
      (0 < q -> forall i, (i < n)%nat -> low (entry a i i) 0 /\ low (entry a i i) (q ^ k - INR k * eta))).
    assert (K : P0 c).
    { revert Hl. apply (steps_invariant ev P0); unfold P0; clear P0.
      - intros a op b [A1 [A0 [k [A2 A3]]]] Hqu Hs. split; [eapply same_setup_trans; [|exact A1]; apply core_setup; eapply quiet_core; eauto|].
        destruct (quiet_core _ _ _ _ Hqu Hs) as [K1 [_ [K3 _]]]. unfold function_evals, entry, covariance_matrix in *. rewrite K1, K3. split; [exact A0|]. exists k. auto.
      - intros par tk a r b [A1 [A0 [k [A2 A3]]]] Hn. split; [eapply same_setup_trans; [|exact A1]; eapply next_setup; eauto|].
        pose proof (next_counters ev _ _ _ _ _ Hn) as [N1 _]. destruct A1 as [A1 [_ [_ [_ [_ [_ A5]]]]]]. rewrite A5, C1 in N1. cbn [sm_population_size sampler_new] in N1.
        assert (Hn' := Hn). apply next_outcome in Hn'. unfold entry, covariance_matrix in *. destruct Hn' as [[_ [V [_ X]]]|[inds [ok [_ [V [_ [X _]]]]]]].
        + rewrite V in N1. split; [rewrite X; exact A0|]. exists k. split; [lia|]. rewrite X. exact A3.
        + rewrite V in N1. rewrite A1 in X.
          pose proof (fun i v => update_diag _ _ _ _ _ _ _ n c1 cmu cc S (slack o) i v X ltac:(lia) A0 I1 Im Ic Is Hw ltac:(lra) Hm ltac:(lra) HS E1) as U.
          split; [exact (proj1 (U 0%nat 0))|]. exists (Datatypes.S k). split; [lia|]. intros Hq0 i Hi. destruct (A3 Hq0 i Hi) as [B1 B2].
          assert (Hpos : 0 < 1 - c1 - cmu - (slack o + 9 * uu)) by lra. pose proof (proj2 (U i 0) Hpos Hi (Rle_refl 0) B1) as [_ U0]. split; [exact U0|].
          rewrite S_INR. cbn [pow]. pose proof (pos_INR k) as Pk. assert (PE : 0 <= INR k * eta) by nra. rewrite Rmult_plus_distr_r, Rmult_1_l. set (z := q ^ k) in *. set (y := INR k * eta) in *. clearbody z y.
          destruct (Rle_or_lt 0 (z - y)) as [G|G].
          * apply low_mono with (1 := proj1 (proj2 (U i _) Hpos Hi G B2)). assert ((z - y) * q <= (z - y) * (1 - c1 - cmu - (slack o + 10 * uu))) by (apply Rmult_le_compat_l; lra). assert (y * q <= y * 1) by (apply Rmult_le_compat_l; lra). lra.
          * apply low_mono with (1 := U0). assert (q * z <= q * y) by (apply Rmult_le_compat_l; lra). assert (y * q <= y * 1) by (apply Rmult_le_compat_l; lra). lra.
      - split; [apply same_setup_refl|]. unfold entry, covariance_matrix, function_evals. rewrite C1, C3. cbn [sm_function_evals sampler_new st_cov state_new cov_new cm_cov]. split; [apply shape_mbuild|].
        exists 0%nat. split; [lia|]. intros _ i Hi. assert (Ei : nth i (nth i (identity (T := f64) n) []) n0 = n1).
        { change (mnth (identity (T := f64) n) i i = n1). unfold identity. rewrite mnth_mbuild by exact Hi. rewrite Nat.eqb_refl. reflexivity. }
        fold n. rewrite Ei. split; right; rewrite is1; cbn [xle pow INR]; lra. }
    destruct K as [_ [_ [k [K1 K2]]]]. exists k. repeat (split; [assumption|]). intros Hq0 i Hi. apply low_not_below. apply (K2 Hq0 i Hi).
  Qed.
End FloatCov.
Print Assumptions C81_generation.
Print Assumptions C81_total.

(* In particular an entry does not reach zero before the product of the kept parts does. *)
Theorem C81_positive : forall {L : Libm f64} {E : Env f64} {F : Type} (ev : F -> vec f64 -> outcome (f64 * F)), accurate_ln -> forall o f c k i, reaches ev o f c -> sizes_fit o -> o_weights o <> WNegative ->
  function_evals c = (o_population_size o * N.of_nat k)%N -> (i < length (o_initial_mean o))%nat ->
  exists c1 cmu, f2x (p_c1 (c_params c)) = XFin c1 /\ f2x (p_cmu (c_params c)) = XFin cmu /\
    (0 < kept o c1 cmu -> INR k * tiny < kept o c1 cmu ^ k -> nis_nan (entry c i i) = true \/ nltb n0 (entry c i i) = true).
Proof.
  intros L E F ev Hln o f c k i Hr Hf Hneg Hk Hi. destruct (C81_total ev Hln o f c Hr Hf Hneg) as [c1 [cmu [k' [I1 [Im [_ [_ [Hk' H]]]]]]]]. exists c1, cmu. split; [exact I1|]. split; [exact Im|].
  intros Hq Hs. destruct (reached_params ev o f c Hr) as [Hv _]. destruct (sizes o Hv) as [Hl _]. assert (k' = k) by (rewrite Hk in Hk'; apply N.mul_cancel_l in Hk'; lia). subst k'.
  specialize (H Hq i Hi). destruct H as [H|[H|[H1 H2]]]; [left; exact H|right; rewrite H; reflexivity|right]. rewrite f2x_ltb, is0, (f2x_finite _ H1). cbn [x_ltb]. unfold Rltb.
  destruct (Rlt_dec 0 (B2R (entry c i i))); [reflexivity|lra].
Qed.
Print Assumptions C81_positive.

(* The part that is kept is positive in ordinary settings, such as populations up to the dimension. *)
Lemma kept_positive : forall {L : Libm f64} {E : Env f64} {F : Type} (ev : F -> vec f64 -> outcome (f64 * F)), accurate_ln -> forall o f c c1 cmu, reaches ev o f c ->
  (o_population_size o <= N.of_nat (length (o_initial_mean o)))%N -> (3 <= length (o_initial_mean o))%nat -> (N.of_nat (length (o_initial_mean o)) <= 1000000)%N ->
  is (p_c1 (c_params c)) c1 -> is (p_cmu (c_params c)) cmu -> 1 / 4 <= kept o c1 cmu.
Proof.
  intros L E F ev Hln o f c c1 cmu Hr Hl Hn Hn2 I1 Im.
  assert (Hf : sizes_fit o) by (split; lia). destruct (C75_rates ev Hln o f c Hr Hf) as [me [c1' [cmu' [cc [cs [ds H]]]]]]. destruct H as [Ie [I1' [Im' [_ [_ [_ [He [H1 [Hm _]]]]]]]]].
  assert (c1' = c1) by (eapply is_fun; eassumption). assert (cmu' = cmu) by (eapply is_fun; eassumption). subst c1' cmu'.
  destruct (C80_published ev Hln o f c Hr) as [_ [Pm P]]; [lia|lia|].
  set (lam := N.to_nat (o_population_size o)) in *. set (n := length (o_initial_mean o)) in *.
  assert (Pc : within (128 * ((INR lam + 1) / 2 ^ 38)) (p_cmu (c_params c)) (pub_cmu (o_weights o) lam n)) by tauto. clear P.
  destruct Pm as [_ Pm]. destruct Pc as [_ Pc]. pose proof (is_B2R _ _ Ie) as [_ Ee]. pose proof (is_B2R _ _ Im) as [_ Em]. rewrite Ee in Pm. rewrite Em in Pc.
  assert (A : 2 * INR (N.to_nat (o_population_size o / 2)) <= INR lam).
  { change 2 with (INR 2). rewrite <- mult_INR. apply le_INR. pose proof (N.mul_div_le (o_population_size o) 2 ltac:(lia)). unfold lam. lia. }
  assert (B : INR lam <= INR n) by (apply le_INR; unfold lam; lia). assert (Nn : 3 <= INR n <= 1000000) by (split; [rewrite INR_IZR_INZ; apply (IZR_le 3); lia|rewrite INR_IZR_INZ; apply IZR_le; lia]).
  unfold kept. fold lam. pose proof (pos_INR lam) as L0. set (x := INR (N.to_nat (o_population_size o / 2))) in *. clearbody x. set (y := INR lam) in *. clearbody y. unfold pub_cmu in Pc. fold n in Pc.
  set (M := pub_mu_eff (o_weights o) lam) in *. set (K1 := pub_c1 _ _ _) in *. clearbody M K1. set (N0 := INR n) in *. clearbody N0.
  clear - Pm Pc He A B Nn L0 H1 Hm.
  set (d := (y + 1) / 2 ^ 38) in *. assert (D : 0 < d <= / 200000) by (unfold d; lra). assert (D2 : (2 * y + 8) / 2 ^ 52 <= / 100) by lra. clearbody d. apply Rabs_le_inv in Pm. apply Rabs_le_inv in Pc.
  assert (M0 : 9 / 10 <= M) by nra. assert (M1 : M <= 51 / 100 * N0) by nra.
  set (q := 2 * (M - 2 + 1 / M) / (Rsqr (N0 + 2) + 2 * M / 2)) in *. assert (Q : q <= 17 / 100).
  { unfold q. apply Rmult_le_reg_r with (Rsqr (N0 + 2) + 2 * M / 2); [unfold Rsqr; nra|]. unfold Rsqr in *. replace (2 * (M - 2 + 1 / M) / ((N0 + 2) * (N0 + 2) + 2 * M / 2) * ((N0 + 2) * (N0 + 2) + 2 * M / 2)) with (2 * (M - 2 + 1 / M)) by (field; split; nra).
    assert (1 / M <= 10 / 9) by (apply Rmult_le_reg_r with M; [lra|]; replace (1 / M * M) with 1 by (field; lra); lra). nra. }
  assert (Qm : Rmin (1 - K1) q <= 17 / 100) by (apply Rle_trans with (1 := Rmin_r _ _); exact Q). set (w := Rmin (1 - K1) q) in *. clearbody w q.
  assert (cmu <= 18 / 100); [|lra]. assert (128 * d * w <= 128 * d * (17 / 100)) by (apply Rmult_le_compat_l; lra). lra.
Qed.

(* On the platform of C78, sessions of any number of generations (on a constant function) in which the kept part is at least 1/4, for both settings without negative weights. *)
Example C81_case : accurate_ln (L := c78_libm) /\
  forall dim w l, (3 <= dim <= 1000)%nat -> (2 <= l <= N.of_nat dim)%N -> w <> WNegative ->
    sizes_fit (c75_options dim w l) /\ o_weights (c75_options dim w l) <> WNegative /\
    forall k, exists c c1 cmu, reaches (LT := c78_libm) (E := toy_env) flat (c75_options dim w l) tt c /\
      function_evals c = (o_population_size (c75_options dim w l) * N.of_nat k)%N /\
      f2x (p_c1 (c_params c)) = XFin c1 /\ f2x (p_cmu (c_params c)) = XFin cmu /\ 1 / 4 <= kept (c75_options dim w l) c1 cmu.
Proof.
  split; [exact c78_ln|]. intros dim w l Hd Hl Hw. destruct C78_case as [_ [_ H]]. destruct (H dim w l ltac:(lia) ltac:(lia)) as [H1 H2]. split; [exact H1|]. split; [exact Hw|].
  intros k. destruct (H2 k) as [c [R1 R2]]. destruct (C81_total (L := c78_libm) flat c78_ln _ _ _ R1 H1 Hw) as [c1 [cmu [_ [I1 [Im _]]]]]. exists c, c1, cmu. repeat (split; [assumption|]).
  assert (Ln : length (o_initial_mean (c75_options dim w l)) = dim) by (cbn; apply repeat_length).
  eapply (kept_positive (L := c78_libm) flat); [exact c78_ln|exact R1|rewrite Ln; cbn; lia|rewrite Ln; lia|rewrite Ln; lia|exact I1|exact Im].
Qed.
