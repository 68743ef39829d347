(* C84: the update of the step size as computed in binary64. *)
From Coq Require Import List NArith ZArith Bool Reals Lra Lia Arith Psatz.
From Flocq Require Import Core.
From Flocq Require Import IEEE754.BinarySingleNaN.
Require Import Verif.Lib Verif.Base Verif.Num Verif.F64 Verif.XReal Verif.LinAlg Verif.Mode Verif.Weights Verif.Options
  Verif.Params Verif.Env Verif.State Verif.Sampling Verif.History Verif.Termination Verif.Plot Verif.Cmaes
  Verif.Spec Verif.Order Verif.F64Lemmas Verif.BuildLemmas Verif.TraceLemmas Verif.CeilLemmas Verif.XRound Verif.XLe Verif.NextSafe Verif.StateLemmas
  Verif.F64Acc Verif.F64Weights Verif.F64Rates Verif.F64Rel Verif.F64Raw Verif.F64Mean Verif.F64Sigma Verif.F64CovErr Verif.F64Step Verif.Toy Verif.ToyLemmas Verif.PanicLemmas Verif.TermLemmas
  Verif.PropRun Verif.PropPlot Verif.PropPanic Verif.PropShape Verif.PropFloatParams Verif.PropFloatSigma.
Import ListNotations.
Open Scope R_scope.

(* ---- specification ---- *)
(* The exponential function of the platform: of NaN it is NaN, and from -1 upwards it is infinite (an overflow), or a number
   with a relative error of at most 2^-50. *)
Definition accurate_exp {L : Libm f64} : Prop :=
  (forall x : f64, nis_nan x = true -> nis_nan (lm_exp x) = true) /\
  (forall x : f64, nleb (nofZ (-1)) x = true ->
    lm_exp x = B754_infinity false \/
    (is_finite x = true /\ is_finite (lm_exp x) = true /\ Rabs (B2R (lm_exp x) - exp (B2R x)) <= exp (B2R x) / 2 ^ 50)).

(* the expected length of a standard normal vector with n components (Hansen's tutorial, appendix) *)
Definition expected_length (n : R) : R := sqrt n * (1 - 1 / (4 * n) + 1 / (21 * n ^ 2)).
(* what the step size should become (equation 44): s is the step size, l the length of its path *)
Definition new_step_size (cs damp n s l : R) : R := s * exp (cs / damp * (l / expected_length n - 1)).
(* how far the computed one may be from it, as an exponent *)
Definition step_tolerance (cs damp n l : R) : R := (22 * (cs / damp * (l / expected_length n + 1)) + 9) / 2 ^ 52.

Lemma accurate_exp_low {L : Libm f64} : accurate_exp -> exp_not_too_small.
Proof.
  intros [H1 H2]. split; [exact H1|]. intros x Hx. destruct (H2 x Hx) as [K|[K1 [K2 K3]]]; [left; exact K|right]. split; [exact K1|]. split; [exact K2|]. apply Rabs_le_inv in K3. lra.
Qed.

Section FloatStep.
  Context {L : Libm f64} {E : Env f64} {F : Type} (ev : F -> vec f64 -> outcome (f64 * F)).

  Lemma step_rates : accurate_ln -> forall o f c, reaches ev o f c -> sizes_fit o -> exists cs ds chi,
    is (p_cs (c_params c)) cs /\ is (p_damp_s (c_params c)) ds /\ / 1000000000000000000000 <= cs < 1 /\ 1 <= ds <= 5000000 /\ is (chi_n (p_dim (c_params c))) chi /\ / 4 <= expected_length (INR (dims o)) /\ rel (9 * e0) chi (expected_length (INR (dims o))).
  Proof.
    intros Hln o f c Hr Hf. destruct (setup ev Hln o f c Hr Hf) as [seed [rs [Hp [Hd [Hraw Hlen]]]]].
    destruct (mu_eff_acc _ _ _ (o_weights o) Hraw) as [M [HM [M1 [M2 M3]]]].
    change (mkIW (iw_weights (iw_new (o_population_size o) (o_weights o))) (o_weights o) (o_population_size o / 2)) with (iw_new (T := f64) (o_population_size o) (o_weights o)) in HM.
    assert (Hk : IZR (Z.of_N (o_population_size o / 2)) <= 1099511627776).
    { apply IZR_le. destruct Hf as [Hf _]. pose proof (N.div_le_upper_bound (o_population_size o) 2 1099511627776 ltac:(lia) ltac:(lia)). lia. }
    assert (M4 : M <= 1200000000000) by lra.
    rewrite Hp. unfold params_of_options. cbn [p_cs p_damp_s p_dim].
    assert (EN : INR (dims o) = IZR (Z.of_N (N.of_nat (length (o_initial_mean o))))) by (rewrite INR_IZR_INZ; unfold dims; f_equal; lia).
    set (dim := N.of_nat (length (o_initial_mean o))) in *. set (me := iw_mu_eff (iw_new (o_population_size o) (o_weights o))) in *.
    destruct (cs_range dim me M Hd HM M1 M4) as [cs [Ics Hcs]]. destruct (damp_range dim me M Hd HM M1 M4) as [ds [Ids Hds]].
    destruct (chi_rel dim Hd) as [chi [Ix [[X1 _] X2]]]. exists cs, ds, chi. unfold expected_length. rewrite EN. replace (IZR (Z.of_N dim) ^ 2) with (IZR (Z.of_N dim) * IZR (Z.of_N dim)) by ring.
    repeat (split; [assumption|]). assumption.
  Qed.

  (* One call of next that evaluates all its points: unless the computation overflows, or the step size becomes extremely small,
     the new step size is the one of the published rule up to a factor exp (+- step_tolerance). *)
  Theorem C84_step : accurate_ln -> accurate_exp -> forall o f c par tk r c', reaches ev o f c -> sizes_fit o ->
    next ev par tk c = Ret (r, c') -> reports InvalidFunctionValue r = false ->
    is_finite (sigma c') = true -> bpow radix2 (-1000) < B2R (sigma c') ->
    is_finite (sigma c) = true /\ 0 < B2R (sigma c) /\
    exists cs damp l,
      f2x (p_cs (c_params c)) = XFin cs /\ f2x (p_damp_s (c_params c)) = XFin damp /\ f2x (LinAlg.magnitude (st_path_sigma (c_state c'))) = XFin l /\
      0 < cs < 1 /\ 1 <= damp /\ 0 <= l /\ / 4 <= expected_length (INR (dims o)) /\
      let s := new_step_size cs damp (INR (dims o)) (B2R (sigma c)) l in let d := step_tolerance cs damp (INR (dims o)) l in
      s * exp (- d) <= B2R (sigma c') <= s * exp d.
  Proof.
    intros Hln He o f c par tk r c' Hr Hf Hn Hi Fs Bs. destruct (step_rates Hln o f c Hr Hf) as [cs [ds [chi [Ic [Id [Hc [Hd [Ix [X1 X2]]]]]]]]]. set (n := INR (dims o)) in *. clearbody n.
    apply next_outcome in Hn. destruct Hn as [[_ [V _]]|[inds [ok [_ [_ [_ [X _]]]]]]]; [congruence|].
    apply state_update_inv in X. destruct X as [yw [rm [cov U]]]. pose proof (up_sigma _ _ _ _ _ _ _ _ _ _ U) as Es. clear U. unfold sigma in *. set (path := st_path_sigma (c_state c')) in *.
    assert (Is' : is (st_sigma (c_state c')) (B2R (st_sigma (c_state c')))) by (apply f2x_finite; exact Fs). set (s' := B2R (st_sigma (c_state c'))) in *. rewrite Es in Is'. clearbody s' path. clear Es.
    unfold calc_sigma in Is'. destruct (mul_fin _ _ _ Is') as [s [w [I1 [I2 E1]]]]. set (ex := nmul (ndiv (p_cs (c_params c)) (p_damp_s (c_params c))) (nsub (ndiv (LinAlg.magnitude path) (chi_n (p_dim (c_params c)))) n1)) in *.
    assert (Q0 : / 10000000000000000000000000000000000000000 <= cs / ds < 1).
    { split; [apply Rle_trans with (cs * / 5000000); [lra|]; apply Rmult_le_compat_l; [lra|]; apply Rinv_le_contravar; lra|].
      apply Rmult_lt_reg_r with ds; [lra|]. replace (cs / ds * ds) with cs by (field; lra). lra. }
    assert (Pchi : 0 < chi) by exact (rel_pos _ _ _ X2).
    (* the exponent is not below -1 *)
    assert (It : is (ndiv (p_cs (c_params c)) (p_damp_s (c_params c))) (rnd64 (cs / ds))) by (apply is_div; [exact Ic|exact Id|lra|apply bigp; lra]).
    assert (T1 : 0 <= rnd64 (cs / ds)) by (apply rnd_nonneg; lra). assert (T2 : rnd64 (cs / ds) <= 1) by (apply (rnd_le_int 1); [lia|lra]).
    assert (Lm : low (LinAlg.magnitude path) 0) by exact (sqrt_low (norm2 path)).
    assert (Ha : low ex (- rnd64 (cs / ds))) by (apply scale_low; [exact It|exact T1|]; apply sub1_low; eapply div_low; [exact Lm|exact Ix|exact Pchi]).
    destruct He as [He1 He2]. destruct Ha as [Ha|Ha].
    { exfalso. specialize (He1 ex). rewrite !f2x_nan, Ha in He1. specialize (He1 eq_refl). rewrite I2 in He1. discriminate He1. }
    assert (K : nleb (nofZ (-1)) ex = true). { rewrite f2x_leb. rewrite (is_ofZ (-1)) by lia. apply xle_leb. apply xle_trans with (XFin (- rnd64 (cs / ds))); [cbn [xle]; clear - T2; lra|exact Ha]. }
    destruct (He2 ex K) as [C|[F1 [F2 B]]]; [unfold is in I2; rewrite C in I2; discriminate I2|]. apply is_B2R in I2. destruct I2 as [_ I2]. rewrite I2 in B.
    (* the exponent is close to the published one *)
    assert (Ie : is ex (B2R ex)) by (apply f2x_finite; exact F1). set (x := B2R ex) in *. unfold ex in Ie. destruct (mul_fin _ _ _ Ie) as [t [b [It' [Ib Ex]]]]. assert (t = rnd64 (cs / ds)) by (eapply is_fun; eassumption). subst t.
    destruct (sub_fin _ _ _ Ib) as [a [k [Ia [Ik Eb]]]]. assert (k = 1) by (eapply is_fun; [exact Ik|exact is1]). subst k.
    assert (D : exists m, is (LinAlg.magnitude path) m /\ 0 <= m /\ a = rnd64 (m / chi)).
    { unfold is in Ia. rewrite (f2x_div_pos _ _ _ Ix Pchi) in Ia. apply xround_fin in Ia. destruct Ia as [z [Ia ->]]. destruct Lm as [Lm|Lm]; [rewrite Lm in Ia; discriminate Ia|].
      destruct (f2x (LinAlg.magnitude path)) as [|[]|m] eqn:Em; cbn [x_div] in Ia; try contradiction.
      - unfold x_signed_inf, Rltb in Ia. repeat (destruct (Rlt_dec _ _) in Ia; try discriminate Ia).
      - exists m. split; [exact Em|]. split; [exact Lm|]. rewrite (proj2 (Reqb_false chi 0)) in Ia by lra. injection Ia as <-. reflexivity. }
    destruct D as [m [Im [Hm ->]]]. pose proof (exponent_err (cs / ds) _ chi m Q0 X2 Hm (is_format _ _ Ix)) as Err. rewrite <- Eb, <- Ex in Err.
    apply rel_exp in Err.
    assert (Pw : 0 < w) by (apply Rabs_le_inv in B; pose proof (exp_pos x); lra).
    assert (Rw : rel (2 * / 2 ^ 50) w (exp x)) by (apply rel_of; [apply exp_pos|lra|]; apply Rle_trans with (1 := B); right; unfold Rdiv; ring).
    assert (Ps : 0 < s).
    { apply Rnot_le_lt. intros C. assert (G : rnd64 (s * w) <= rnd64 0) by (apply rnd64_le; nra). rewrite (rnd64_id 0 (is_format _ _ is0)), <- E1 in G. pose proof (bpow_gt_0 radix2 (-1000)). lra. }
    pose proof (is_B2R _ _ I1) as [Fc Bc]. rewrite Bc. split; [exact Fc|]. split; [exact Ps|]. exists cs, ds, m. split; [exact Ic|]. split; [exact Id|]. split; [exact Im|]. split; [lra|]. split; [lra|]. split; [exact Hm|]. split; [exact X1|].
    rewrite E1 in Bs. pose proof (rel_round_above _ Bs) as Rr. rewrite <- E1 in Rr.
    pose proof (rel_trans _ _ _ _ _ Rw Err) as R1. pose proof (rel_mul 0 _ _ _ _ _ (rel_refl s Ps) R1) as R2. pose proof (rel_trans _ _ _ _ _ Rr R2) as R3.
    unfold new_step_size, step_tolerance. cbv zeta. set (y := cs / ds * (m / expected_length n + 1)) in *.
    apply rel_weaken with (e' := (22 * y + 9) / 2 ^ 52) in R3; [|clearbody y; lra]. exact (proj2 R3).
  Qed.
End FloatStep.
Print Assumptions C84_step.

(* the platform of C78 has an accurate exponential function *)
Lemma c84_exp : accurate_exp (L := c78_libm).
Proof.
  split.
  - intros x Hx. cbn [lm_exp c78_libm]. unfold rounded_exp. rewrite Hx. reflexivity.
  - intros x Hx. cbn [lm_exp c78_libm]. unfold rounded_exp. rewrite f2x_nan, !f2x_leb in *. rewrite (is_ofZ (-1)) in Hx by lia. rewrite (is_ofZ 500) by lia.
    apply xle_leb in Hx. destruct (f2x x) as [|[]|r] eqn:Ex; try contradiction; cbn [x_is_nan]; [left; reflexivity|].
    destruct (x_leb (XFin 500) (XFin r)) eqn:E5; [left; reflexivity|right]. cbn [xle] in Hx.
    assert (R5 : r < 500). { apply Rnot_le_lt. intros C. assert (X : x_leb (XFin 500) (XFin r) = true) by (apply xle_leb; exact C). congruence. }
    apply is_B2R in Ex. destruct Ex as [F1 E1]. split; [exact F1|]. rewrite E1.
    assert (U : exp r <= bpow radix2 1000).
    { apply Rle_trans with (exp (INR 500)); [|apply (exp_bpow 500)]. left. apply exp_increasing. rewrite INR_IZR_INZ. cbn [Z.of_nat]. exact R5. }
    assert (Lo : bpow radix2 (-1000) <= exp r).
    { apply Rle_trans with (bpow radix2 (-2)); [apply bpow_le; lia|]. change (bpow radix2 (-2)) with (/ 4).
      assert (Y : / 3 <= exp (-(1))) by (rewrite exp_Ropp; apply Rinv_le_contravar; [apply exp_pos|exact exp_le_3]).
      assert (X : exp (-(1)) <= exp r) by (apply exp_mono; lra). lra. }
    assert (In : is (nearest (exp r)) (rnd64 (exp r))) by (apply nearest_is; rewrite Rabs_pos_eq; [exact U|left; apply exp_pos]).
    apply is_B2R in In. destruct In as [I1 I2]. split; [exact I1|]. rewrite I2. pose proof (rnd_near (exp r) Lo) as [N1 N2]. pose proof (exp_pos r). apply Rabs_le. lra.
Qed.

(* On that platform: a first call of next on the sphere function that changes the step size to a number between 1/8 and 8. *)
Definition c84_options : options f64 := c75_options 2 WUniform 4.
Example C84_case : accurate_ln (L := c78_libm) /\ accurate_exp (L := c78_libm) /\ sizes_fit c84_options /\
  exists (c c' : cmaes (E := toy_env) f64 unit) r,
    reaches (LT := c78_libm) toy_sphere c84_options tt c /\ next (LT := c78_libm) toy_sphere false toy_tick c = Ret (r, c') /\
    reports InvalidFunctionValue r = false /\ is_finite (sigma c') = true /\ / 8 <= B2R (sigma c') <= 8.
Proof.
  split; [exact c78_ln|]. split; [exact c84_exp|]. split; [split; [vm_compute; reflexivity|vm_compute; discriminate]|].
  destruct (holds_ex (after (LT := c78_libm) (E := toy_env) toy_sphere tt c84_options [])
    (fun c => neqb (st_sigma (c_state c)) (lit 1 2) && holds (sample (E := toy_env) toy_sphere false toy_tick (c_state c) (p_mode (c_params c)) (c_sampler c)) (fun is_ => match fst is_ with
      | Some inds => holds (calc_yw (c_params c) inds) (fun yw => holds (calc_path_sigma (c_params c) (c_state c) yw) (fun ps =>
          let x := nmul (ndiv (p_cs (c_params c)) (p_damp_s (c_params c))) (nsub (ndiv (LinAlg.magnitude ps) (chi_n (p_dim (c_params c)))) n1) in nleb (nofZ (-1)) x && nleb x n1))
      | None => false end))) as [c [H1 H2]].
  { vm_compute. reflexivity. }
  apply after_reaches in H1. destruct H1 as [c0 [H0 H1]]. assert (Hr : reaches (LT := c78_libm) (E := toy_env) toy_sphere c84_options tt c) by (exists c0, []; auto).
  destruct (C28_next_returns_partial c78_libm toy_env unit toy_sphere c84_options tt c false toy_tick) as [r [c' Hn]]; [exact toy_eigen_shape|left; intros; discriminate|exact Hr| | |cbn; lia|discriminate|].
  { intros g x _. eexists. reflexivity. }
  { reflexivity. }
  exists c, c', r. split; [exact Hr|]. split; [exact Hn|]. apply andb_prop in H2. destruct H2 as [Hs H2]. apply holds_ex in H2. destruct H2 as [[oi sm] [H2 H3]]. cbn [fst] in H3. destruct oi as [inds|]; [|discriminate H3].
  apply holds_ex in H3. destruct H3 as [yw [H3 H4]]. apply holds_ex in H4. destruct H4 as [ps [H4 H5]]. cbv zeta in H5. apply andb_prop in H5. destruct H5 as [H5 H6].
  apply next_outcome in Hn. destruct Hn as [[N1 _]|[inds' [ok [N1 [N2 [_ [X _]]]]]]]; [rewrite N1 in H2; apply Ret_inj in H2; apply (f_equal fst) in H2; discriminate H2|].
  rewrite N1 in H2. apply Ret_inj in H2. apply (f_equal fst) in H2. cbn [fst] in H2. assert (inds' = inds) by congruence. subst inds'. split; [exact N2|].
  apply state_update_inv in X. destruct X as [yw' [rm [cov U]]]. pose proof (up_yw _ _ _ _ _ _ _ _ _ _ U) as Ey. rewrite H3 in Ey. apply Ret_inj in Ey. subst yw'.
  pose proof (up_ps _ _ _ _ _ _ _ _ _ _ U) as Ep. rewrite H4 in Ep. apply Ret_inj in Ep. pose proof (up_sigma _ _ _ _ _ _ _ _ _ _ U) as Es. clear U H2 H3 H4 N1. unfold sigma. rewrite <- Ep in Es. unfold calc_sigma in Es.
  set (x := nmul (ndiv (p_cs (c_params c)) (p_damp_s (c_params c))) _) in *. clearbody x.
  rewrite f2x_leb, is1 in H6. assert (H5' := H5). rewrite f2x_leb, (is_ofZ (-1)) in H5' by lia. apply xle_leb in H5'. apply xle_leb in H6.
  destruct (f2x x) as [|[]|v] eqn:Ex; try contradiction. cbn [xle] in *. assert (Bx : B2R x = v) by exact (proj2 (is_B2R _ _ Ex)).
  destruct c84_exp as [_ He]. destruct (He x H5) as [C|[F1 [F2 B]]].
  { exfalso. cbn [lm_exp c78_libm] in C. unfold rounded_exp in C. rewrite f2x_nan, f2x_leb, (is_ofZ 500), Ex in C by lia. cbn [x_is_nan] in C.
    destruct (x_leb (XFin 500) (XFin v)) eqn:E5; [apply xle_leb in E5; cbn [xle] in E5; lra|]. rewrite Bx in C.
    assert (In : is (nearest (exp v)) (rnd64 (exp v))).
    { apply nearest_is. rewrite Rabs_pos_eq by (left; apply exp_pos). apply Rle_trans with (exp 1); [apply exp_mono; exact H6|]. apply Rle_trans with 3; [exact exp_le_3|]. apply Rle_trans with (bpow radix2 2); [change (bpow radix2 2) with 4; lra|apply bpow_le; lia]. }
    apply is_B2R in In. rewrite C in In. destruct In as [In _]. discriminate In. }
  rewrite Bx in B. assert (Y1 : / 3 <= exp v).
  { apply Rle_trans with (exp (-(1))); [rewrite exp_Ropp; apply Rinv_le_contravar; [apply exp_pos|exact exp_le_3]|]. apply exp_mono. exact H5'. }
  assert (Y2 : exp v <= 3) by (apply Rle_trans with (2 := exp_le_3); apply exp_mono; exact H6). apply Rabs_le_inv in B.
  assert (Iw : is (lm_exp (Libm := c78_libm) x) (B2R (lm_exp (Libm := c78_libm) x))) by (apply f2x_finite; exact F2). set (w := lm_exp (Libm := c78_libm) x) in *. set (u := B2R w) in *.
  assert (I0 : is (st_sigma (c_state c)) (/ 2)).
  { assert (Ih : is (lit 1 2) (/ 2)) .
    { assert (G : rnd64 (IZR 1 / IZR 2) = / 2).
      { replace (IZR 1 / IZR 2) with (bpow radix2 (-1)) by (cbn; lra). rewrite rnd64_id; [cbn; lra|apply generic_format_bpow; unfold SpecFloat.fexp, SpecFloat.emin; lia]. }
      rewrite <- G. unfold lit. apply is_div; [apply (is_ofZ 1); lia|apply (is_ofZ 2); lia|lra|apply bigp; lra]. }
    revert Hs. rewrite f2x_eqb, Ih. unfold is. destruct (f2x (st_sigma (c_state c))) as [|[]|q]; cbn [x_eqb]; try discriminate. unfold Reqb. destruct (Req_EM_T q (/ 2)) as [-> |]; [reflexivity|discriminate]. }
  assert (I3 : is (st_sigma (c_state c')) (rnd64 (/ 2 * u))) by (rewrite Es; apply is_mul; [exact I0|exact Iw|apply bigp; lra]).
  apply is_B2R in I3. destruct I3 as [I3 ->]. split; [exact I3|]. destruct (near (/ 2 * u)) as [Z1 Z2]; lra.
Qed.
