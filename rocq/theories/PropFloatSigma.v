(* C78: the step size, as computed in binary64, cannot collapse. *)
From Coq Require Import List NArith ZArith Bool Reals Lra Lia Arith Psatz.
From Flocq Require Import Core.
From Flocq Require Import IEEE754.BinarySingleNaN.
Require Import Verif.Lib Verif.Base Verif.Num Verif.F64 Verif.XReal Verif.LinAlg Verif.Mode Verif.Weights Verif.Options
  Verif.Params Verif.Env Verif.State Verif.Sampling Verif.History Verif.Termination Verif.Plot Verif.Cmaes
  Verif.Spec Verif.Order Verif.F64Lemmas Verif.BuildLemmas Verif.TraceLemmas Verif.CeilLemmas Verif.XRound Verif.XLe
  Verif.F64Acc Verif.F64Weights Verif.F64Rates Verif.F64Raw Verif.F64Mean Verif.F64Sigma Verif.Toy Verif.ToyLemmas Verif.PanicLemmas Verif.TermLemmas Verif.PropRun Verif.PropPanic Verif.PropShape
  Verif.PropFloatParams.
Import ListNotations.
Open Scope R_scope.

(* The exponential function of the platform is not too small: of NaN it is NaN, and from -1 upwards it is infinite, or a
   number below the true value by a relative error of at most 2^-50. *)
Definition exp_not_too_small {L : Libm f64} : Prop :=
  (forall x : f64, nis_nan x = true -> nis_nan (lm_exp x) = true) /\
  (forall x : f64, nleb (nofZ (-1)) x = true ->
    lm_exp x = B754_infinity false \/
    (is_finite x = true /\ is_finite (lm_exp x) = true /\ exp (B2R x) * (1 - / 2 ^ 50) <= B2R (lm_exp x))).

(* what can be said of a number computed in binary64: it is NaN or infinite (an overflow), or at least r *)
Definition not_below (x : f64) (r : R) : Prop := nis_nan x = true \/ x = B754_infinity false \/ (is_finite x = true /\ r <= B2R x).

(* the spacing of the smallest numbers of binary64 *)
Definition tiny : R := bpow radix2 (-1074).
(* the least factor of one generation: exp (- cs / damp), with room for rounding *)
Definition shrink (cs damp : R) : R := exp (- (cs / damp)) * (1 - / 2 ^ 49).

Lemma low_not_below : forall x r, low x r <-> not_below x r.
Proof.
  intros x r. unfold low, not_below. split.
  - intros [H|H]; [left; rewrite f2x_nan, H; reflexivity|right]. destruct x as [s|s| |s m e B]; try contradiction.
    + right. split; [reflexivity|exact H].
    + destruct s; [contradiction|left; reflexivity].
    + right. split; [reflexivity|exact H].
  - intros [H|[->|[H1 H2]]].
    + left. rewrite f2x_nan in H. destruct (f2x x); [reflexivity|discriminate|discriminate].
    + right. exact I.
    + right. rewrite (f2x_finite _ H1). exact H2.
Qed.

Lemma exp_low {L : Libm f64} : exp_not_too_small -> forall x r, low x (- r) -> 0 <= r <= 1 -> low (lm_exp x) (exp (- r) * (1 - / 2 ^ 50)).
Proof.
  intros [Hn He] x r [H|H] Hr.
  { left. specialize (Hn x). rewrite !f2x_nan, H in Hn. specialize (Hn eq_refl). destruct (f2x (lm_exp x)); [reflexivity|discriminate|discriminate]. }
  assert (K : nleb (nofZ (-1)) x = true). { rewrite f2x_leb. rewrite (is_ofZ (-1)) by lia. apply xle_leb. apply xle_trans with (XFin (- r)); [cbn; lra|exact H]. }
  destruct (He x K) as [E|[F1 [F2 B]]]; [right; rewrite E; exact I|]. right. rewrite (f2x_finite _ F2). cbn [xle]. rewrite (f2x_finite _ F1) in H. cbn [xle] in H.
  apply Rle_trans with (exp (B2R x) * (1 - / 2 ^ 50)); [|exact B]. apply Rmult_le_compat_r; [lra|]. destruct H as [H|H]; [left; apply exp_increasing; exact H|right; rewrite H; reflexivity].
Qed.

Lemma shrink_range : forall cs ds, 0 < cs < 1 -> 1 <= ds -> 0 < shrink cs ds < 1.
Proof.
  intros cs ds Hc Hd. unfold shrink. assert (Q : 0 < cs / ds) by (apply Rdiv_lt_0_compat; lra). pose proof (exp_pos (- (cs / ds))) as Pe.
  assert (X : exp (- (cs / ds)) < exp 0) by (apply exp_increasing; lra). rewrite exp_0 in X. split; [apply Rmult_lt_0_compat; lra|nra].
Qed.

Lemma valid_sigma : forall o : options f64, validate o = None -> is_finite (o_initial_step_size o) = true /\ 0 < B2R (o_initial_step_size o).
Proof.
  intros o Hv. unfold validate in Hv. destruct (Nat.eqb _ 0); [discriminate Hv|]. destruct (_ <? _)%N; [discriminate Hv|].
  destruct (is_initial_step_size_valid (o_initial_step_size o)) eqn:Es; cbn [negb] in Hv; [|discriminate Hv]. clear Hv.
  unfold is_initial_step_size_valid in Es. apply andb_prop in Es. destruct Es as [B0 B1].
  assert (Fs : is_finite (o_initial_step_size o) = true) by (destruct (o_initial_step_size o); try discriminate B0; reflexivity). split; [exact Fs|].
  unfold ngtb in B1. rewrite f2x_ltb, is0, (f2x_finite _ Fs) in B1. cbn [x_ltb] in B1. unfold Rltb in B1. destruct (Rlt_dec 0 (B2R (o_initial_step_size o))); [assumption|discriminate B1].
Qed.

Section FloatSigma.
  Context {L : Libm f64} {E : Env f64} {F : Type} (ev : F -> vec f64 -> outcome (f64 * F)).

  (* one computed update *)
  Lemma update_low : exp_not_too_small -> forall (p : params f64) s path cs ds chi r,
    is (p_cs p) cs -> is (p_damp_s p) ds -> 0 < cs < 1 -> 1 <= ds -> is (chi_n (p_dim p)) chi -> 0 < chi -> low (st_sigma s) r -> 0 <= r ->
    low (calc_sigma p s path) (r * shrink cs ds - tiny) /\ low (calc_sigma p s path) 0.
  Proof.
    intros He p s path cs ds chi r Ic Id Hc Hd Ix Hx Hs Hr. unfold calc_sigma.
    assert (Q0 : 0 < cs / ds < 1).
    { split; [apply Rdiv_lt_0_compat; lra|]. apply Rmult_lt_reg_r with ds; [lra|]. replace (cs / ds * ds) with cs by (field; lra). lra. }
    assert (It : is (ndiv (p_cs p) (p_damp_s p)) (rnd64 (cs / ds))) by (apply is_div; [exact Ic|exact Id|lra|apply bigp; lra]).
    assert (T1 : 0 <= rnd64 (cs / ds)) by (apply rnd_nonneg; lra). assert (T2 : rnd64 (cs / ds) <= 1) by (apply (rnd_le_int 1); [lia|lra]).
    pose proof (rnd_any (cs / ds)) as T3. rewrite (Rabs_pos_eq (cs / ds)) in T3 by lra. apply Rabs_le_inv in T3.
    assert (Et : 0 < eta <= uu). { split; [apply eta_pos|]. unfold eta. change uu with (bpow radix2 (-53)). apply bpow_le. lia. }
    set (t := rnd64 (cs / ds)) in *. clearbody t.
    pose proof (scale_low _ _ _ It T1 (sub1_low _ (div_low _ _ _ (sqrt_low (norm2 path)) Ix Hx))) as Ha.
    pose proof (exp_low He _ _ Ha (conj T1 T2)) as Le.
    assert (Pe : 0 < exp (- t) * (1 - / 2 ^ 50)) by (apply Rmult_lt_0_compat; [apply exp_pos|lra]).
    destruct (product_low _ _ _ _ Hs Le Hr Pe) as [W1 W2]. split; [|exact W2]. apply low_mono with (1 := W1). unfold shrink. change tiny with eta. set (q := cs / ds) in *. clearbody q.
    assert (D : exp (- q) * (1 - 2 * uu) <= exp (- t)).
    { replace (- t) with (- q + (q - t)) by ring. rewrite exp_plus. apply Rmult_le_compat_l; [left; apply exp_pos|].
      apply Rle_trans with (1 + (q - t)); [nra|apply exp_ineq1_le]. }
    pose proof (exp_pos (- q)) as Pq. set (u := exp (- q)) in *. set (v := exp (- t)) in *. clearbody u v. clear - D Pq Hr Et. destruct Et as [Et _].
    assert (X : u * (1 - / 2 ^ 49) <= v * (1 - / 2 ^ 50) * (1 - uu)).
    { assert (v * (1 - / 2 ^ 50) * (1 - uu) >= u * (1 - 2 * uu) * ((1 - / 2 ^ 50) * (1 - uu))) by (rewrite Rmult_assoc; apply Rle_ge; apply Rmult_le_compat_r; [nra|exact D]).
      assert (u * (1 - 2 * uu) * ((1 - / 2 ^ 50) * (1 - uu)) >= u * (1 - / 2 ^ 49)); [|lra]. rewrite Rmult_assoc. apply Rle_ge, Rmult_le_compat_l; [lra|]. lra. }
    assert (Y : r * (u * (1 - / 2 ^ 49)) <= r * (v * (1 - / 2 ^ 50)) * (1 - uu)) by (rewrite (Rmult_assoc r (v * _)); apply Rmult_le_compat_l; [exact Hr|exact X]). lra.
  Qed.

  Lemma update_sigma : forall tree evals (p : params f64) inds s ok s', state_update tree evals p inds s = Ret (ok, s') -> exists path, st_sigma s' = calc_sigma p s path.
  Proof.
    intros tree evals p inds s ok s' X. unfold state_update in X. oinv X. oinv X. oinv X. oinv X. oinv X. oinv X. oinv X. destruct a5 as [ok' cm]. exists a1.
    destruct ok'; apply Ret_inj in X; apply (f_equal snd) in X; cbn [snd] in X; rewrite <- X; reflexivity.
  Qed.

  (* the rates of the optimiser, as numbers *)
  Lemma rates : accurate_ln -> forall o f c, reaches ev o f c -> sizes_fit o -> exists cs ds chi,
    is (p_cs (c_params c)) cs /\ is (p_damp_s (c_params c)) ds /\ 0 < cs < 1 /\ 1 <= ds /\ is (chi_n (p_dim (c_params c))) chi /\ 0 < chi.
  Proof.
    intros Hln o f c Hr Hf. destruct (C75_rates ev Hln o f c Hr Hf) as [me [c1 [cmu [cc [cs [ds H]]]]]]. destruct H as [_ [_ [_ [_ [Ic [Id [_ [_ [_ [_ [Hc [Hd _]]]]]]]]]]]].
    destruct (setup ev Hln o f c Hr Hf) as [seed [rs [Hp [Hdim _]]]]. destruct (chi_ok _ Hdim) as [chi [Ix Hx]]. exists cs, ds, chi. repeat (split; [assumption|]).
    split; [|exact Hx]. rewrite Hp. exact Ix.
  Qed.

  (* One call of next: whatever the step size was at least, it is at least the shrunk value now. *)
  Theorem C78_generation : accurate_ln -> exp_not_too_small -> forall o f c par tk r c', reaches ev o f c -> sizes_fit o ->
    next ev par tk c = Ret (r, c') ->
    exists cs ds, f2x (p_cs (c_params c)) = XFin cs /\ f2x (p_damp_s (c_params c)) = XFin ds /\ 0 < cs < 1 /\ 1 <= ds /\
      forall s, 0 <= s -> not_below (sigma c) s -> not_below (sigma c') (s * shrink cs ds - tiny).
  Proof.
    intros Hln He o f c par tk r c' Hr Hf Hn. destruct (rates Hln o f c Hr Hf) as [cs [ds [chi [Ic [Id [Hc [Hd [Ix Hx]]]]]]]].
    exists cs, ds. repeat (split; [assumption|]). intros s Hs H. apply low_not_below. apply low_not_below in H. unfold sigma in *. apply next_outcome in Hn.
    destruct Hn as [[_ [_ [_ X]]]|[inds [ok [_ [_ [_ [X _]]]]]]].
    - rewrite X. apply low_mono with (1 := H). pose proof (shrink_range cs ds Hc Hd) as [S1 S2]. pose proof eta_pos as P. change tiny with eta. nra.
    - destruct (update_sigma _ _ _ _ _ _ _ X) as [path ->]. apply (fun a b c d e f g h => proj1 (update_low He _ _ path cs ds chi s a b c d e f g h)); assumption.
  Qed.

  (* After any use of the optimiser, with k generations evaluated. *)
  Theorem C78_total : accurate_ln -> exp_not_too_small -> forall o f c, reaches ev o f c -> sizes_fit o ->
    exists cs ds k, f2x (p_cs (c_params c)) = XFin cs /\ f2x (p_damp_s (c_params c)) = XFin ds /\ 0 < cs < 1 /\ 1 <= ds /\
      function_evals c = (o_population_size o * N.of_nat k)%N /\
      not_below (sigma c) (B2R (o_initial_step_size o) * shrink cs ds ^ k - INR k * tiny).
  Proof.
    intros Hln He o f c Hr Hf. destruct (rates Hln o f c Hr Hf) as [cs [ds [chi [Ic [Id [Hc [Hd [Ix Hx]]]]]]]]. exists cs, ds.
    pose proof (shrink_range cs ds Hc Hd) as [S1 S2]. pose proof eta_pos as P. change tiny with eta. set (q := shrink cs ds) in *.
    assert (Hr' := Hr). destruct Hr' as [c0 [l [[rs [now Hb]] Hl]]]. pose proof (cmaes_new_inv _ _ _ _ _ Hb) as C. cbv zeta in C. destruct C as [Hv [C1 [C2 [C3 _]]]].
    assert (S0 : same_setup c c0).
    { revert Hl. apply (steps_invariant ev (fun a => same_setup a c0)).
      - intros a op b Ha Hq Hs. eapply same_setup_trans; [|exact Ha]. apply core_setup. eapply quiet_core; eauto.
      - intros par tk a r b Ha Hn. eapply same_setup_trans; [|exact Ha]. eapply next_setup; eauto.
      - apply same_setup_refl. }
    destruct S0 as [Ep _]. rewrite Ep in *.
    set (P0 := fun a : cmaes f64 F => same_setup a c0 /\ exists k, function_evals a = (o_population_size o * N.of_nat k)%N /\ low (sigma a) 0 /\ low (sigma a) (B2R (o_initial_step_size o) * q ^ k - INR k * eta)).
    assert (K : P0 c).
    { revert Hl. apply (steps_invariant ev P0); unfold P0; clear P0.
      - intros a op b [A1 [k [A2 [A3 A4]]]] Hq Hs. split; [eapply same_setup_trans; [|exact A1]; apply core_setup; eapply quiet_core; eauto|]. exists k.
        destruct (quiet_core _ _ _ _ Hq Hs) as [K1 [_ [K3 _]]]. unfold function_evals, sigma in *. rewrite K1, K3. auto.
      - intros par tk a r b [A1 [k [A2 [A3 A4]]]] Hn. split; [eapply same_setup_trans; [|exact A1]; eapply next_setup; eauto|].
        pose proof (next_counters ev _ _ _ _ _ Hn) as [N1 _]. destruct A1 as [A1 [_ [_ [_ [_ [_ A5]]]]]]. rewrite A5, C1 in N1. cbn [sm_population_size sampler_new] in N1.
        assert (Hn' := Hn). apply next_outcome in Hn'. destruct Hn' as [[_ [V [_ X]]]|[inds [ok [_ [V [_ [X _]]]]]]].
        + rewrite V in N1. exists k. split; [lia|]. unfold sigma in *. rewrite X. auto.
        + rewrite V in N1. exists (S k). split; [lia|]. unfold sigma in *. destruct (update_sigma _ _ _ _ _ _ _ X) as [path ->]. rewrite A1.
          pose proof (update_low He (c_params c0) (c_state a) path cs ds chi 0 Ic Id Hc Hd Ix Hx A3 (Rle_refl 0)) as U0. pose proof (fun r => update_low He (c_params c0) (c_state a) path cs ds chi r Ic Id Hc Hd Ix Hx) as U. fold q in U.
          split; [apply U0|]. destruct (Rle_or_lt 0 (B2R (o_initial_step_size o) * q ^ k - INR k * eta)) as [G|G].
          * apply low_mono with (1 := proj1 (U _ A4 G)). rewrite S_INR. cbn [pow]. pose proof (pos_INR k) as Pk. assert (0 <= INR k * eta) by nra. change tiny with eta. nra.
          * apply low_mono with (1 := proj2 U0). rewrite S_INR. cbn [pow]. pose proof (pos_INR k) as Pk. assert (0 <= INR k * eta) by nra. nra.
      - split; [apply same_setup_refl|]. exists 0%nat. unfold function_evals, sigma. rewrite C1, C3. cbn [sm_function_evals sampler_new st_sigma state_new]. split; [lia|].
        assert (V : is_finite (o_initial_step_size o) = true /\ 0 < B2R (o_initial_step_size o)) by (apply valid_sigma; exact Hv). destruct V as [V1 V2].
        split; right; rewrite (f2x_finite _ V1); cbn [xle pow INR]; lra. }
    destruct K as [_ [k [K1 [_ K2]]]]. exists k. repeat (split; [assumption|]). apply low_not_below. exact K2.
  Qed.

  (* In particular the step size does not reach zero before the product of the factors does. *)
  Theorem C78_positive : accurate_ln -> exp_not_too_small -> forall o f c k, reaches ev o f c -> sizes_fit o ->
    function_evals c = (o_population_size o * N.of_nat k)%N -> INR k * 4 ^ k * tiny < B2R (o_initial_step_size o) ->
    nis_nan (sigma c) = true \/ nltb n0 (sigma c) = true.
  Proof.
    intros Hln He o f c k Hr Hf Hk Hs. destruct (C78_total Hln He o f c Hr Hf) as [cs [ds [k' [_ [_ [Hc [Hd [Hk' H]]]]]]]].
    destruct (reached_params ev o f c Hr) as [Hv _]. destruct (sizes o Hv) as [Hl _]. assert (k' = k) by (rewrite Hk in Hk'; apply N.mul_cancel_l in Hk'; lia). subst k'.
    assert (Q : / 4 <= shrink cs ds).
    { unfold shrink. assert (Q0 : cs / ds < 1) by (apply Rmult_lt_reg_r with ds; [lra|]; replace (cs / ds * ds) with cs by (field; lra); lra).
      assert (X : exp (-(1)) < exp (- (cs / ds))) by (apply exp_increasing; lra). assert (Y : / 3 <= exp (-(1))) by (rewrite exp_Ropp; apply Rinv_le_contravar; [apply exp_pos|exact exp_le_3]). nra. }
    assert (Z : 0 < B2R (o_initial_step_size o) * shrink cs ds ^ k - INR k * tiny).
    { assert (A : / 4 ^ k <= shrink cs ds ^ k) by (rewrite <- pow_inv; apply pow_incr; lra). assert (P4 : 0 < 4 ^ k) by (apply pow_lt; lra).
      assert (B : B2R (o_initial_step_size o) * / 4 ^ k > INR k * tiny).
      { apply Rmult_lt_reg_r with (4 ^ k); [exact P4|]. replace (B2R (o_initial_step_size o) * / 4 ^ k * 4 ^ k) with (B2R (o_initial_step_size o)) by (field; lra). lra. }
      destruct (valid_sigma o Hv) as [_ V]. assert (B2R (o_initial_step_size o) * / 4 ^ k <= B2R (o_initial_step_size o) * shrink cs ds ^ k) by (apply Rmult_le_compat_l; lra). lra. }
    destruct H as [H|[H|[H1 H2]]]; [left; exact H|right; rewrite H; reflexivity|right]. rewrite f2x_ltb, is0, (f2x_finite _ H1). cbn [x_ltb]. unfold Rltb. destruct (Rlt_dec 0 (B2R (sigma c))); [reflexivity|lra].
  Qed.
End FloatSigma.
Print Assumptions C78_generation.
Print Assumptions C78_total.
Print Assumptions C78_positive.

(* A platform with correctly rounded logarithm and exponential function (infinite from 500 on). *)
Definition rounded_exp (x : f64) : f64 :=
  if nis_nan x then nnan else if nleb (nofZ 500) x then B754_infinity false else nearest (exp (B2R x)).
Definition c78_libm : Libm f64 := {| lm_ln := fun x => nearest (ln (B2R x)); lm_exp := rounded_exp; lm_powf := toy_powf |}.
Lemma exp_bpow : forall n : nat, exp (INR n) <= bpow radix2 (2 * Z.of_nat n).
Proof.
  induction n as [|n IH]; [cbn [INR]; rewrite exp_0; cbn; lra|]. rewrite S_INR, exp_plus. replace (2 * Z.of_nat (S n))%Z with (2 * Z.of_nat n + 2)%Z by lia. rewrite bpow_plus.
  apply Rmult_le_compat; [left; apply exp_pos|left; apply exp_pos|exact IH|]. apply Rle_trans with 3; [exact exp_le_3|]. change (bpow radix2 2) with 4. lra.
Qed.
Lemma c78_exp : exp_not_too_small (L := c78_libm).
Proof.
  split.
  - intros x Hx. cbn [lm_exp c78_libm]. unfold rounded_exp. rewrite Hx. reflexivity.
  - intros x Hx. cbn [lm_exp c78_libm]. unfold rounded_exp. rewrite f2x_nan, !f2x_leb in *. rewrite (is_ofZ (-1)) in Hx by lia. rewrite (is_ofZ 500) by lia.
    apply xle_leb in Hx. destruct (f2x x) as [|[]|r] eqn:Ex; try contradiction; cbn [x_is_nan]; [left; reflexivity|].
    destruct (x_leb (XFin 500) (XFin r)) eqn:E5; [left; reflexivity|right]. cbn [xle] in Hx.
    assert (R5 : r < 500). { apply Rnot_le_lt. intros C. assert (X : x_leb (XFin 500) (XFin r) = true) by (apply xle_leb; exact C). congruence. }
    apply is_B2R in Ex. destruct Ex as [F1 E1]. split; [exact F1|]. rewrite E1.
    assert (U : exp r <= bpow radix2 1000).
    { apply Rle_trans with (exp (INR 500)); [|apply (exp_bpow 500)]. left. apply exp_increasing. rewrite INR_IZR_INZ. cbn [Z.of_nat]. exact R5. }
    assert (Lo : bpow radix2 (-1000) <= exp r).
    { apply Rle_trans with (bpow radix2 (-2)); [apply bpow_le; lia|]. change (bpow radix2 (-2)) with (/ 4).
      assert (Y : / 3 <= exp (-(1))) by (rewrite exp_Ropp; apply Rinv_le_contravar; [apply exp_pos|exact exp_le_3]).
      assert (X : exp (-(1)) <= exp r) by (destruct Hx as [Hx|Hx]; [left; apply exp_increasing; lra|right; f_equal; lra]). lra. }
    assert (In : is (nearest (exp r)) (rnd64 (exp r))) by (apply nearest_is; rewrite Rabs_pos_eq; [exact U|left; apply exp_pos]).
    apply is_B2R in In. destruct In as [I1 I2]. split; [exact I1|]. rewrite I2. pose proof (rnd_near (exp r) Lo) as [N1 _]. pose proof (exp_pos r). nra.
Qed.
Lemma c78_ln : accurate_ln (L := c78_libm).
Proof. exact rounded_accurate. Qed.

(* on that platform, with any weights, sessions of any number of generations exist (here on a constant function) *)
Definition flat : unit -> vec f64 -> outcome (f64 * unit) := fun u _ => Ret (n0, u).
Lemma flat_seq : forall (s : state f64) ys u r u', evaluate_seq flat s ys u = Ret (r, u') -> r <> None.
Proof.
  intros s ys. induction ys as [|y ys IH]; intros u r u' H; cbn [evaluate_seq] in H.
  - apply Ret_inj in H. apply (f_equal fst) in H. cbn [fst] in H. rewrite <- H. discriminate.
  - unfold evaluate_point in H. destruct (to_point y (st_mean s) (st_sigma s)); cbn [obind flat] in H; try discriminate H. change (nis_nan (n0 : f64)) with false in H. cbn [obind] in H.
    destruct (evaluate_seq flat s ys u) as [[q u2]| |] eqn:Eq; cbn [obind] in H; try discriminate H. apply IH in Eq. apply Ret_inj in H. apply (f_equal fst) in H. cbn [fst] in H. rewrite <- H.
    destruct q; [discriminate|contradiction].
Qed.
Lemma flat_next : forall {L : Libm f64} {E : Env f64} tk c r c', next (E := E) flat false tk c = Ret (r, c') -> reports InvalidFunctionValue r = false.
Proof.
  intros L E0 tk c r c' H. apply next_outcome in H. destruct H as [[H _]|[inds [ok [_ [H _]]]]]; [|exact H]. exfalso. unfold sample in H.
  destruct (resample _ _ _ _ _ _ _ _ _) as [[ys g]| |]; cbn [obind] in H; try discriminate H.
  destruct (evaluate_seq flat (c_state c) ys (sm_objective (c_sampler c))) as [[q u]| |] eqn:Eq; cbn [obind] in H; try discriminate H. apply flat_seq in Eq.
  destruct q; [|contradiction]. apply Ret_inj in H. apply (f_equal fst) in H. discriminate H.
Qed.
Example C78_case : accurate_ln (L := c78_libm) /\ exp_not_too_small (L := c78_libm) /\
  forall dim w l, (1 <= dim <= 1000)%nat -> (2 <= l <= 1000000)%N -> sizes_fit (c75_options dim w l) /\
    forall k, exists c : cmaes (E := toy_env) f64 unit, reaches (LT := c78_libm) flat (c75_options dim w l) tt c /\
      function_evals c = (o_population_size (c75_options dim w l) * N.of_nat k)%N.
Proof.
  split; [exact c78_ln|]. split; [exact c78_exp|]. intros dim w l Hd Hl. destruct C75_case as [_ H]. destruct (H dim w l Hd Hl) as [H1 _]. split; [exact H1|]. clear H.
  induction k as [|k [c [IH1 IH2]]].
  - assert (V : validate (c75_options dim w l) = None).
    { destruct dim as [|dim]; [lia|]. unfold validate.
      cbn [c75_options toy_options apply_setters fold_left apply_setter options_new o_initial_mean o_population_size o_initial_step_size o_cm repeat length Nat.eqb].
      destruct (N.ltb_spec l 2); [lia|]. vm_compute. reflexivity. }
    pose proof (cmaes_new_outcome (LT := c78_libm) (E := toy_env) 0%N 0%N tt (c75_options dim w l)) as Hn. rewrite V in Hn. destruct Hn as [c Hn].
    exists c. split; [exists c, []; split; [exists 0%N, 0%N; exact Hn|reflexivity]|]. apply cmaes_new_inv in Hn. cbv zeta in Hn. destruct Hn as [_ [C1 _]].
    unfold function_evals. rewrite C1. cbn [sm_function_evals sampler_new]. lia.
  - destruct (C28_next_returns_partial c78_libm toy_env unit flat (c75_options dim w l) tt c false toy_tick) as [r [c' Hn]]; [exact toy_eigen_shape|left; intros; discriminate|exact IH1| | |cbn; lia|discriminate|].
    + intros g x _. eexists. reflexivity.
    + reflexivity.
    + exists c'. split.
      * destruct IH1 as [c0 [ops [B Sp]]]. exists c0, (ops ++ [ONext false toy_tick]). split; [exact B|]. rewrite steps_app, Sp. cbn [obind steps step]. rewrite Hn. reflexivity.
      * pose proof (next_counters flat _ _ _ _ _ Hn) as [N1 _]. rewrite (flat_next _ _ _ _ Hn) in N1. apply reaches_setup in IH1. destruct IH1 as [rs [now [c0 [B Sp]]]].
        destruct Sp as [_ [_ [_ [_ [_ [_ Sp]]]]]]. apply cmaes_new_inv in B. cbv zeta in B. destruct B as [_ [C1 _]]. rewrite Sp, C1 in N1. cbn [sm_population_size sampler_new] in N1. rewrite N1, IH2. lia.
Qed.
