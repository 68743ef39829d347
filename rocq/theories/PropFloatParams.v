(* C75: the recombination weights and the learning rates are sound as computed in binary64, not only in exact arithmetic. *)
From Coq Require Import List NArith ZArith Bool Reals Lra Lia Arith Psatz Sorting.Sorted.
From Flocq Require Import Core.
From Flocq Require Import IEEE754.BinarySingleNaN.
Require Import Verif.Lib Verif.Base Verif.Num Verif.F64 Verif.XReal Verif.LinAlg Verif.Mode Verif.Weights Verif.Options
  Verif.Params Verif.Env Verif.State Verif.Sampling Verif.History Verif.Termination Verif.Plot Verif.Cmaes
  Verif.Spec Verif.Order Verif.F64Lemmas Verif.BuildLemmas Verif.TraceLemmas Verif.CeilLemmas Verif.XRound Verif.XLe
  Verif.F64Acc Verif.F64Weights Verif.F64Rates Verif.F64Final Verif.F64Raw Verif.Toy Verif.TermLemmas Verif.PropRun.
Import ListNotations.
Open Scope R_scope.

Section FloatParams.
  Context {L : Libm f64} {E : Env f64} {F : Type} (ev : F -> vec f64 -> outcome (f64 * F)).

  Lemma reached_params : forall o f c, reaches ev o f c -> validate o = None /\ exists seed, c_params c = params_of_options o seed.
  Proof.
    intros o f c H. apply reaches_setup in H. destruct H as [rs [now [c0 [H1 H2]]]]. pose proof (cmaes_new_inv _ _ _ _ _ H1) as C. cbv zeta in C.
    destruct C as [C1 [_ [C2 _]]]. split; [exact C1|]. destruct H2 as [H2 _]. rewrite H2. eexists. exact C2.
  Qed.
  Lemma sizes : forall o : options f64, validate o = None -> (2 <= o_population_size o)%N /\ (1 <= N.of_nat (length (o_initial_mean o)))%N.
  Proof.
    intros o H. unfold validate in H. destruct (o_initial_mean o); cbn [length Nat.eqb] in H; [discriminate H|]. cbn [length]. split; [|lia].
    destruct (N.ltb_spec (o_population_size o) 2); [discriminate H|lia].
  Qed.

  (* populations below 2^40 and dimensions up to 2^53 *)
  Definition sizes_fit (o : options f64) : Prop :=
    (o_population_size o < 1099511627776)%N /\ (N.of_nat (length (o_initial_mean o)) <= 9007199254740992)%N.

  (* the real value of a weight *)
  Definition weight (w : list f64) (i : nat) : R := B2R (nth i w n0).
  Definition sum_to (w : list f64) (n : nat) : R := fold_right Rplus 0 (map (weight w) (seq 0 n)).

  Lemma firstn_nth_R : forall (gs : list R) n, (n <= length gs)%nat -> firstn n gs = map (fun i => nth i gs 0) (seq 0 n).
  Proof.
    induction gs as [|g gs IH]; intros [|n] H; cbn [length firstn seq map nth] in *; auto; [lia|]. f_equal.
    rewrite IH by lia. rewrite <- seq_shift, map_map. reflexivity.
  Qed.
  Lemma weight_nth : forall ws gs i, Forall2 is ws gs -> (i < length gs)%nat -> weight ws i = nth i gs 0.
  Proof.
    intros ws gs i H. revert i. induction H as [|w g ws gs Hw H IH]; intros i Hi; [cbn in Hi; lia|]. destruct i as [|i]; unfold weight; cbn [nth].
    - apply is_B2R in Hw. tauto.
    - apply IH. cbn in Hi. lia.
  Qed.

  Lemma setup : accurate_ln -> forall o f c, reaches ev o f c -> sizes_fit o ->
    exists seed rs, c_params c = params_of_options o seed /\
      (1 <= N.of_nat (length (o_initial_mean o)) <= 9007199254740992)%N /\
      raw_ok (iw_weights (iw_new (o_population_size o) (o_weights o))) rs (N.to_nat (o_population_size o / 2)) /\
      length rs = length (iw_weights (iw_new (T := f64) (o_population_size o) (o_weights o))).
  Proof.
    intros Hln o f c Hr [S1 S2]. destruct (reached_params o f c Hr) as [Hv [seed Hp]]. destruct (sizes o Hv) as [Hl Hd].
    destruct (raw_new Hln (o_population_size o) ltac:(lia) (o_weights o)) as [rs [R1 R2]]. exists seed, rs. split; [exact Hp|]. split; [lia|]. split; [exact R1|exact R2].
  Qed.

  Theorem C75_weights : accurate_ln -> forall o f c, reaches ev o f c -> sizes_fit o ->
    let w := p_weights (c_params c) in
    let mu := N.to_nat (o_population_size o / 2) in
    length w = (match o_weights o with WNegative => N.to_nat (o_population_size o) | _ => mu end) /\
    Forall (fun x => is_finite x = true) w /\
    (forall i, (i < mu)%nat -> 0 < weight w i) /\
    (forall i, (mu <= i < length w)%nat -> weight w i <= 0) /\
    (forall i j, (i < j < length w)%nat -> weight w j <= weight w i) /\
    Rabs (sum_to w mu - 1) <= INR (mu + 1) / 2 ^ 52.
  Proof.
    intros Hln o f c Hr Hf w mu. destruct (setup Hln o f c Hr Hf) as [seed [rs [Hp [Hd [Hraw Hlen]]]]].
    destruct (final_weights (iw_weights (iw_new (o_population_size o) (o_weights o))) rs (o_population_size o / 2) (o_weights o) _ Hraw Hd) as [gs [G1 [G2 [G3 [G4 [G5 G6]]]]]].
    assert (Ew : w = iw_finalize (iw_new (o_population_size o) (o_weights o)) (N.of_nat (length (o_initial_mean o)))
      (calc_c1 (N.of_nat (length (o_initial_mean o))) (iw_mu_eff (iw_new (o_population_size o) (o_weights o))))
      (calc_cmu (N.of_nat (length (o_initial_mean o))) (iw_mu_eff (iw_new (o_population_size o) (o_weights o)))
        (calc_c1 (N.of_nat (length (o_initial_mean o))) (iw_mu_eff (iw_new (o_population_size o) (o_weights o)))))) by (unfold w; rewrite Hp; reflexivity).
    change (mkIW (iw_weights (iw_new (o_population_size o) (o_weights o))) (o_weights o) (o_population_size o / 2)) with (iw_new (T := f64) (o_population_size o) (o_weights o)) in G1.
    rewrite <- Ew in G1. clearbody w. clear Ew. fold mu in G3, G4, G6, Hraw.
    pose proof (Forall2_len _ _ _ G1) as Lw. assert (Hmu : (mu <= length gs)%nat) by (rewrite G2; apply (ra_len _ _ _ Hraw)).
    assert (LL : length w = (match o_weights o with WNegative => N.to_nat (o_population_size o) | _ => mu end)).
    { rewrite Lw, G2, Hlen. unfold iw_new, one_to. cbn [iw_weights]. destruct (o_weights o); rewrite ?map_length, ?seq_length, ?repeat_length; reflexivity. }
    split; [exact LL|]. split.
    { clear - G1. induction G1 as [|x g l m Hx H IH]; constructor; auto. apply is_B2R in Hx. tauto. }
    split.
    { intros i Hi. rewrite (weight_nth _ _ _ G1) by lia. rewrite <- (firstn_skipn mu gs), app_nth1 by (rewrite firstn_length; lia).
      rewrite Forall_forall in G3. apply G3. apply nth_In. rewrite firstn_length. lia. }
    split.
    { intros i Hi. rewrite (weight_nth _ _ _ G1) by lia. rewrite <- (firstn_skipn mu gs), app_nth2 by (rewrite firstn_length; lia).
      rewrite Forall_forall in G4. apply G4. apply nth_In. rewrite skipn_length, firstn_length. lia. }
    split.
    { intros i j Hij. rewrite !(weight_nth _ _ _ G1) by lia. assert (Hij' : (i < j < length gs)%nat) by lia. clear - G5 Hij'.
      revert i j Hij'. induction G5 as [|a l Hs IH Ha]; intros i j Hij; [cbn in Hij; lia|]. destruct j as [|j]; [lia|]. destruct i as [|i]; cbn [nth length] in *.
      - rewrite Forall_forall in Ha. apply Ha. apply nth_In. lia.
      - apply IH. lia. }
    assert (Es : sum_to w mu = tot (firstn mu gs)).
    { unfold sum_to, tot. f_equal. rewrite firstn_nth_R by exact Hmu. apply map_ext_in. intros i Hi. apply in_seq in Hi. apply weight_nth; [exact G1|lia]. }
    rewrite Es. replace (2 ^ 52) with 4503599627370496 by lra. apply Rabs_le. lra.
  Qed.

  (* what parameters() shows for the rates *)
  Theorem C75_rates : accurate_ln -> forall o f c, reaches ev o f c -> sizes_fit o ->
    let p := c_params c in
    exists mu_eff c1 cmu cc cs damp,
      f2x (p_mu_eff p) = XFin mu_eff /\ f2x (p_c1 p) = XFin c1 /\ f2x (p_cmu p) = XFin cmu /\
      f2x (p_cc p) = XFin cc /\ f2x (p_cs p) = XFin cs /\ f2x (p_damp_s p) = XFin damp /\
      999 / 1000 <= mu_eff <= 1001 / 1000 * INR (N.to_nat (o_population_size o / 2)) /\
      0 < c1 <= 1 / 2 /\ 0 <= cmu <= 1 /\ 0 < cc <= 1 /\ 0 < cs < 1 /\ 1 <= damp /\
      (* the share that is kept, as the code computes it, is not negative *)
      nleb n0 (nsub (nsub n1 (p_c1 p)) (p_cmu p)) = true.
  Proof.
    intros Hln o f c Hr Hf p. destruct (setup Hln o f c Hr Hf) as [seed [rs [Hp [Hd [Hraw Hlen]]]]].
    destruct (mu_eff_acc _ _ _ (o_weights o) Hraw) as [M [HM [M1 [M2 M3]]]].
    change (mkIW (iw_weights (iw_new (o_population_size o) (o_weights o))) (o_weights o) (o_population_size o / 2)) with (iw_new (T := f64) (o_population_size o) (o_weights o)) in HM.
    assert (Emu : IZR (Z.of_N (o_population_size o / 2)) = INR (N.to_nat (o_population_size o / 2))) by (rewrite INR_IZR_INZ; f_equal; lia).
    assert (Hk : IZR (Z.of_N (o_population_size o / 2)) <= 1099511627776).
    { apply IZR_le. destruct Hf as [Hf _]. pose proof (N.div_le_upper_bound (o_population_size o) 2 1099511627776 ltac:(lia) ltac:(lia)). lia. }
    rewrite Emu in M3. rewrite Emu in Hk. assert (M4 : M <= 1200000000000) by lra.
    unfold p. rewrite Hp. unfold params_of_options. cbn [p_mu_eff p_c1 p_cmu p_cc p_cs p_damp_s].
    set (dim := N.of_nat (length (o_initial_mean o))) in *. set (me := iw_mu_eff (iw_new (o_population_size o) (o_weights o))) in *.
    destruct (c1_ok dim me M Hd HM M1 M4) as [c1 [Ic1 Hc1]]. destruct (cc_ok dim me M Hd HM M1 M4) as [cc [Icc Hcc]]. destruct (cs_ok dim me M Hd HM M1 M4) as [cs [Ics Hcs]].
    destruct (damp_ok dim me M Hd HM M1 M4) as [d [Id Hdm]]. pose proof (cmu_ok dim me M Hd HM M1 M4 c1 Ic1 ltac:(lra) ltac:(lra)) as Hcmu.
    assert (K : exists m, is (calc_cmu dim me (calc_c1 dim me)) m /\ 0 <= m <= rnd64 (1 - c1)).
    { destruct Hcmu as [[_ ->]|[_ [m [I1 I2]]]]; [exists 0; split; [reflexivity|]; split; [lra|apply rnd_nonneg; lra]|exists m; split; [exact I1|lra]]. }
    destruct K as [m [Im Hm]]. assert (I1 : is (nsub n1 (calc_c1 dim me)) (rnd64 (1 - c1))) by (apply is_sub; [exact is1|exact Ic1|apply bigp; lra]).
    assert (U : rnd64 (1 - c1) <= 1) by (apply (rnd_le_int 1); [lia|lra]).
    exists M, c1, m, cc, cs, d. repeat (split; [assumption || lra|]).
    assert (I2 : is (nsub (nsub n1 (calc_c1 dim me)) (calc_cmu dim me (calc_c1 dim me))) (rnd64 (rnd64 (1 - c1) - m))) by (apply is_sub; auto; apply bigp; lra).
    rewrite f2x_leb, I2, is0. apply xle_leb. cbn [xle]. apply rnd_nonneg. lra.
  Qed.
End FloatParams.
Print Assumptions C75_weights.
Print Assumptions C75_rates.

(* A platform that meets the hypothesis: the correctly rounded logarithm. *)
Definition nearest (r : R) : f64 :=
  binary_normalize 53 1024 f64_prec f64_emax mode_NE (Ztrunc (scaled_mantissa radix2 fexp64 (rnd64 r))) (cexp radix2 fexp64 (rnd64 r)) false.
Lemma nearest_is : forall r, Rabs r <= bpow radix2 1000 -> is (nearest r) (rnd64 r).
Proof.
  intros r Hr. set (y := rnd64 r). assert (Fy : generic_format radix2 fexp64 y) by (apply generic_format_round; [apply valid_fexp64|apply valid_rnd_N]).
  assert (Ey : F2R (Float radix2 (Ztrunc (scaled_mantissa radix2 fexp64 y)) (cexp radix2 fexp64 y)) = y) by (symmetry; exact Fy).
  pose proof (binary_normalize_correct 53 1024 f64_prec f64_emax mode_NE (Ztrunc (scaled_mantissa radix2 fexp64 y)) (cexp radix2 fexp64 y) false) as H. cbv zeta in H.
  rewrite Ey in H. change (round radix2 (SpecFloat.fexp 53 1024) (round_mode mode_NE) y) with (rnd64 y) in H. rewrite (rnd64_id y Fy) in H.
  rewrite Rlt_bool_true in H.
  - destruct H as [H1 [H2 _]]. unfold is. fold (nearest r). unfold nearest. fold y. rewrite (f2x_finite _ H2), H1. reflexivity.
  - apply Rle_lt_trans with (bpow radix2 1000); [apply rnd_abs; [lia|exact Hr]|apply bpow_lt; lia].
Qed.
Definition rounded_libm : Libm f64 := {| lm_ln := fun x => nearest (ln (B2R x)); lm_exp := toy_exp; lm_powf := toy_powf |}.
Lemma rounded_accurate : accurate_ln (L := rounded_libm).
Proof.
  intros x Fx Hx. cbn [lm_ln rounded_libm]. pose proof (ln_40 _ Hx) as Hl. assert (Hi : is (nearest (ln (B2R x))) (rnd64 (ln (B2R x)))) by (apply nearest_is, bigp; lra).
  apply is_B2R in Hi. destruct Hi as [I1 I2]. split; [exact I1|]. rewrite I2. destruct (Req_dec (B2R x) 1) as [E1|N1].
  - rewrite E1, ln_1. rewrite rnd64_id by apply generic_format_0. rewrite Rminus_0_r, Rabs_R0. lra.
  - (* the next number after 1 is 1 + 2^-52 *)
    assert (Hs : 1 + / 4503599627370496 <= B2R x).
    { assert (Fm : generic_format radix2 fexp64 (B2R x)) by apply generic_format_B2R.
      assert (F1 : generic_format radix2 fexp64 1) by exact (is_format _ _ is1).
      assert (L1 : 1 < B2R x) by lra. pose proof valid_fexp64 as V64. pose proof (succ_le_lt radix2 fexp64 1 (B2R x) F1 Fm L1) as K. rewrite succ_eq_pos in K by lra. change 1 with (bpow radix2 0) in K at 2.
      rewrite ulp_bpow in K. change (fexp64 (0 + 1)) with (-52)%Z in K. change (bpow radix2 (-52)) with (/ 4503599627370496) in K. exact K. }
    assert (G : / 1606938044258990275541962092341162602522202993782792835301376 <= ln (B2R x)).
    { pose proof (ln_gap 1 (B2R x) ltac:(lra)) as G. rewrite ln_1, Rminus_0_r in G. apply Rle_trans with (2 := G).
      apply Rmult_le_reg_r with (B2R x); [lra|]. replace ((B2R x - 1) / B2R x * B2R x) with (B2R x - 1) by (field; lra). lra. }
    destruct (near _ G) as [A B]. set (y := rnd64 (ln (B2R x))) in *. clearbody y. apply Rabs_le. lra.
Qed.

(* built optimisers on that platform: three settings, an odd population with negative weights among them *)
Definition c75_options (dim : nat) (w : weights_setting) (l : N) : options f64 := apply_setters (toy_options dim) [SWeights w; SPopulationSize l].
Lemma c75_built : forall dim w l, (1 <= dim)%nat -> (2 <= l)%N -> exists c, reaches (E := toy_env) (LT := rounded_libm) toy_sphere (c75_options dim w l) tt c.
Proof.
  intros dim w l Hd Hl. assert (V : validate (c75_options dim w l) = None).
  { destruct dim as [|dim]; [lia|]. unfold validate.
    cbn [c75_options toy_options apply_setters fold_left apply_setter options_new o_initial_mean o_population_size o_initial_step_size o_cm repeat length Nat.eqb].
    destruct (N.ltb_spec l 2); [lia|]. vm_compute. reflexivity. }
  pose proof (cmaes_new_outcome (LT := rounded_libm) (E := toy_env) 0%N 0%N tt (c75_options dim w l)) as Hn. rewrite V in Hn. destruct Hn as [c Hn].
  exists c, c, []. split; [exists 0%N, 0%N; exact Hn|reflexivity].
Qed.
Example C75_case : accurate_ln (L := rounded_libm) /\
  forall dim w l, (1 <= dim <= 1000)%nat -> (2 <= l <= 1000000)%N ->
    sizes_fit (c75_options dim w l) /\ exists c, reaches (E := toy_env) (LT := rounded_libm) toy_sphere (c75_options dim w l) tt c.
Proof.
  split; [exact rounded_accurate|]. intros dim w l Hd Hl. split; [|apply c75_built; lia]. split.
  - cbn [c75_options toy_options apply_setters fold_left apply_setter options_new o_population_size]. lia.
  - cbn [c75_options toy_options apply_setters fold_left apply_setter options_new o_initial_mean]. rewrite repeat_length. lia.
Qed.
