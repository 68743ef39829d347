(* C88: integer overflow in builds with overflow checks. *)
From Coq Require Import List NArith ZArith Bool Reals Lra Lia Arith Psatz.
From Flocq Require Import Core.
From Flocq Require Import IEEE754.BinarySingleNaN.
Require Import Verif.Lib Verif.Base Verif.Num Verif.F64 Verif.XReal Verif.LinAlg Verif.Mode Verif.Weights Verif.Options
  Verif.Params Verif.Env Verif.State Verif.Sampling Verif.History Verif.Termination Verif.Plot Verif.Cmaes Verif.Checked
  Verif.Spec Verif.Order Verif.F64Lemmas Verif.BuildLemmas Verif.TraceLemmas Verif.CeilLemmas Verif.XRound Verif.XLe
  Verif.NextInv Verif.SamplingLemmas Verif.PanicLemmas Verif.NextSafe Verif.PlotLemmas Verif.F64Acc Verif.F64Weights Verif.F64Rates Verif.F64Final Verif.F64Raw
  Verif.Toy Verif.ToyLemmas Verif.StateLemmas Verif.TermLemmas Verif.PropPanic Verif.PropRun Verif.PropFloatParams Verif.PropFloatSigma Verif.PropFloatConj Verif.PropFloatStall Verif.PropPlot.
Import ListNotations.
Open Scope R_scope.

Lemma usize_fits : forall z, (z <= 18446744073709551615)%N -> usize z = Ret z.
Proof. intros z H. unfold usize. apply N.leb_le in H. rewrite H. reflexivity. Qed.
Lemma usize_Ret : forall z y, usize z = Ret y -> y = z /\ (z <= 18446744073709551615)%N.
Proof. intros z y H. unfold usize in H. destruct (N.leb_spec z 18446744073709551615) as [Hz|Hz]; [split; [congruence|exact Hz]|discriminate H]. Qed.
Lemma i32_fits : forall z, (-2147483648 <= z <= 2147483647)%Z -> i32 z = Ret z.
Proof. intros z [H1 H2]. unfold i32. apply Z.leb_le in H1, H2. rewrite H1, H2. reflexivity. Qed.
Lemma i32_Ret : forall z y, i32 z = Ret y -> y = z /\ (-2147483648 <= z <= 2147483647)%Z.
Proof. intros z y H. unfold i32 in H. destruct (Z.leb_spec (-2147483648) z) as [H1|H1]; [|discriminate H]. destruct (Z.leb_spec z 2147483647) as [H2|H2]; [split; [cbn in H; congruence|split; assumption]|discriminate H]. Qed.
Lemma wrapping_fits : forall a b, (a + b <= 18446744073709551615)%N -> wrapping_add a b = (a + b)%N.
Proof. intros a b H. unfold wrapping_add. apply N.mod_small. lia. Qed.

(* a number rounded up and converted *)
Lemma ceil_usize_le : forall (x : f64) r k, is x r -> 0 <= r <= IZR (Z.of_N k) -> (k <= 18446744073709551615)%N -> (nto_usize (nceil x) <= k)%N.
Proof.
  intros x r k Ix [R0 R1] Hk. destruct (is_B2R _ _ Ix) as [Fx Ex]. destruct (f64_ceil_correct x Fx) as [F1 E1]. rewrite Ex in E1.
  assert (C0 : (0 <= Zceil r)%Z). { apply le_IZR. apply Rle_trans with (1 := R0). apply Zceil_ub. }
  assert (C1 : (Zceil r <= Z.of_N k)%Z) by (apply Zceil_glb; exact R1).
  change (nto_usize (nceil x)) with (f64_to_usize (f64_ceil x)). rewrite (f64_to_usize_IZR _ _ F1 E1) by lia. lia.
Qed.

Section Sizes.
  Variables (dim lam : N) (mu_eff : f64) (M : R).
  Hypotheses (Hd : (1 <= dim <= 67108864)%N) (Hl : (2 <= lam <= 4294967296)%N) (HM : is mu_eff M) (M1 : 9 / 10 <= M) (M2 : M <= 2200000000).
  Let D := IZR (Z.of_N dim).
  Let K := IZR (Z.of_N lam).
  Lemma ranges : is (nofN dim) D /\ 1 <= D <= 67108864 /\ is (nofN lam) K /\ 2 <= K <= 4294967296 /\ is (nofN (dim * dim)) (D * D).
  Proof.
    assert (Id : is (nofN dim) D) by (apply is_ofN; lia). assert (Il : is (nofN lam) K) by (apply is_ofN; lia).
    split; [exact Id|]. split; [unfold D; split; [apply (IZR_le 1)|apply (IZR_le _ 67108864)]; lia|]. split; [exact Il|].
    split; [unfold K; split; [apply (IZR_le 2)|apply (IZR_le _ 4294967296)]; lia|]. unfold D. rewrite <- mult_IZR, <- N2Z.inj_mul. apply is_ofN. nia.
  Qed.

  Lemma c1_low : exists c, is (calc_c1 dim mu_eff) c /\ 1 / ((D + 2) * (D + 2) + M) <= c <= 1.
  Proof.
    destruct ranges as [Id [D1 _]]. unfold calc_c1.
    assert (Hq : exists q, is (nlit 13 10) q /\ 5 / 4 <= q <= 3 / 2).
    { eexists. split; [vm_compute; reflexivity|]. unfold F2R; cbn. lra. }
    destruct Hq as [q [Iq Hq]].
    assert (I1 : is (nadd (nofN dim) (nlit 13 10)) (rnd64 (D + q))) by (apply is_add; auto; apply bigp; lra).
    destruct (near (D + q)) as [A1 A2]; [lra|]. set (x := rnd64 (D + q)) in *. clearbody x.
    assert (X : 2 <= x <= 1001 / 1000 * (D + 3 / 2)) by lra.
    assert (I2 : is (powi (nadd (nofN dim) (nlit 13 10)) 2) (rnd64 (x * x))) by (apply is_powi2; auto; apply bigp; nra).
    destruct (near (x * x)) as [B1 B2]; [nra|]. set (y := rnd64 (x * x)) in *. clearbody y.
    assert (X2 : 4 <= x * x <= 1003 / 1000 * ((D + 2) * (D + 2))) by nra. assert (Y : 3 <= y <= 1004 / 1000 * ((D + 2) * (D + 2))) by lra.
    assert (DD : (D + 2) * (D + 2) <= 10000000000000000) by nra.
    assert (I3 : is (nadd (powi (nadd (nofN dim) (nlit 13 10)) 2) mu_eff) (rnd64 (y + M))) by (apply is_add; auto; apply bigp; lra).
    destruct (near (y + M)) as [C1 C2]; [lra|]. set (z := rnd64 (y + M)) in *. clearbody z.
    set (q2 := (D + 2) * (D + 2)) in *. assert (Q : 9 <= q2) by (unfold q2; nra). clearbody q2.
    assert (Z : 3 <= z <= 101 / 100 * (q2 + M)) by lra.
    assert (E1 : 2 / z <= 2 / 3) by (apply Rmult_le_compat_l; [lra|apply Rinv_le; lra]).
    assert (E2 : 19 / 10 / (q2 + M) <= 2 / z). { apply Rle_trans with (2 / (101 / 100 * (q2 + M))); [|apply Rmult_le_compat_l; [lra|apply Rinv_le; lra]]. replace (2 / (101 / 100 * (q2 + M))) with (200 / 101 * / (q2 + M)) by (field; lra). unfold Rdiv. assert (0 < / (q2 + M)) by (apply Rinv_0_lt_compat; lra). lra. }
    assert (P : / 1000000000000000000 <= / (q2 + M)) by (apply Rinv_le; lra).
    exists (rnd64 (2 / z)). split; [apply is_div; auto; [exact is2|lra|apply bigp; lra]|]. destruct (near (2 / z)) as [F1 F2]; [lra|]. lra.
  Qed.

  (* the refresh interval *)
  Lemma interval_bound : forall (c1 cmu : f64) r m, is c1 r -> 1 / ((D + 2) * (D + 2) + M) <= r <= 1 -> is cmu m -> 0 <= m <= 1 ->
    (nto_usize (nceil (ndiv (nmul (nmul (nlit 1 2) (nofN dim)) (nofN lam)) (nmul (nadd c1 cmu) (nofN (dim * dim))))) <= 12000000000000000000)%N.
  Proof.
    intros c1 cmu r m I1 [R1 R2] I2 [K1 K2]. destruct ranges as [Id [D1 [Il [L1 Idd]]]].
    assert (Ih : exists h, is (nlit 1 2) h /\ h = / 2). { eexists. split; [vm_compute; reflexivity|]. unfold F2R; cbn. lra. } destruct Ih as [h [Ih ->]].
    assert (J1 : is (nmul (nlit 1 2) (nofN dim)) (rnd64 (/ 2 * D))) by (apply is_mul; auto; apply bigp; lra). destruct (near (/ 2 * D)) as [A1 A2]; [lra|]. set (a := rnd64 (/ 2 * D)) in *. clearbody a.
    assert (J2 : is (nmul (nmul (nlit 1 2) (nofN dim)) (nofN lam)) (rnd64 (a * K))) by (apply is_mul; auto; apply bigp; nra). destruct (near (a * K)) as [B1 B2]; [nra|]. set (b := rnd64 (a * K)) in *. clearbody b.
    assert (B : 0 < b <= 51 / 100 * (D * K)). { assert (a * K <= 505 / 1000 * (D * K)) by nra. assert (0 < a * K) by nra. lra. }
    set (g := (D + 2) * (D + 2) + M) in *. assert (G : 9 <= g <= 9 * (D * D) + 2200000000) by (unfold g; nra). assert (G' : g <= 100000000000000000) by nra. assert (P : / 100000000000000000 <= 1 / g) by (unfold Rdiv; rewrite Rmult_1_l; apply Rinv_le; lra).
    assert (J3 : is (nadd c1 cmu) (rnd64 (r + m))) by (apply is_add; auto; apply bigp; lra). destruct (near (r + m)) as [C1 C2]; [lra|]. set (s := rnd64 (r + m)) in *. clearbody s. assert (Hs : 99 / 100 * (1 / g) <= s <= 3) by lra.
    assert (J4 : is (nmul (nadd c1 cmu) (nofN (dim * dim))) (rnd64 (s * (D * D)))) by (apply is_mul; auto; apply bigp; nra). destruct (near (s * (D * D))) as [E1 E2]; [nra|]. set (t := rnd64 (s * (D * D))) in *. clearbody t.
    assert (Ht : 98 / 100 * (D * D) / g <= t). { assert (H : 99 / 100 * (1 / g) * (D * D) <= s * (D * D)) by (apply Rmult_le_compat_r; nra). assert (W : 0 < D * D / g) by (apply Rdiv_lt_0_compat; nra). replace (99 / 100 * (1 / g) * (D * D)) with (99 / 100 * (D * D / g)) in H by (field; lra). replace (98 / 100 * (D * D) / g) with (98 / 100 * (D * D / g)) by (field; lra). lra. }
    assert (T0 : / 200000000000000000 <= t) by (apply Rle_trans with (2 := Ht); unfold Rdiv in *; nra).
    assert (Q : b / t <= 53 / 100 * (K * (9 * D + 2200000000))).
    { apply Rmult_le_reg_r with t; [lra|]. unfold Rdiv. rewrite Rmult_assoc, Rinv_l, Rmult_1_r by lra. apply Rle_trans with (53 / 100 * (K * (9 * D + 2200000000)) * (98 / 100 * (D * D) / g)); [|apply Rmult_le_compat_l; [nra|exact Ht]].
      assert (H : g <= D * (9 * D + 2200000000)) by nra. apply Rmult_le_reg_r with g; [lra|]. replace (53 / 100 * (K * (9 * D + 2200000000)) * (98 / 100 * (D * D) / g) * g) with (53 / 100 * (98 / 100) * (D * K * (D * (9 * D + 2200000000)))) by (field; lra).
      apply Rle_trans with (51 / 100 * (D * K) * g); [apply Rmult_le_compat_r; lra|]. assert (0 <= D * K) by nra. assert (D * K * g <= D * K * (D * (9 * D + 2200000000))) by (apply Rmult_le_compat_l; assumption). replace (51 / 100 * (D * K) * g) with (51 / 100 * (D * K * g)) by ring. set (U := D * K * (D * (9 * D + 2200000000))) in *. assert (0 <= D * K * g) by (apply Rmult_le_pos; lra). lra. }
    assert (Q2 : b / t <= 7000000000000000000) by nra. assert (Q0 : 0 <= b / t) by (apply Rlt_le, Rdiv_lt_0_compat; lra).
    eapply ceil_usize_le; [apply is_div; [exact J2|exact J4|lra|apply bigp; lra]| |lia]. split; [apply rnd_nonneg; exact Q0|]. cbn [Z.of_N].
    destruct (Rle_or_lt 1 (b / t)) as [H|H]; [destruct (near (b / t)) as [_ N2]; [lra|]; lra|]. apply Rle_trans with (rnd64 1); [apply rnd64_le; lra|]. rewrite (is_round _ _ is1). lra.
  Qed.

  Lemma window_bound : (nto_usize (T := f64) (nceil (ndiv (nmul (nofZ 30) (nofN dim)) (nofN lam))) <= 12000000000000000000)%N.
  Proof.
    destruct ranges as [Id [D1 [Il [L1 Idd]]]]. assert (I30 : is (nofZ 30) 30) by (exact (is_ofZ 30 ltac:(lia))).
    assert (J1 : is (nmul (nofZ 30) (nofN dim)) (rnd64 (30 * D))) by (apply is_mul; auto; apply bigp; lra). destruct (near (30 * D)) as [A1 A2]; [lra|]. set (a := rnd64 (30 * D)) in *. clearbody a.
    assert (Q : 0 <= a / K <= 31 * D). { split; [apply Rlt_le, Rdiv_lt_0_compat; lra|]. apply Rmult_le_reg_r with K; [lra|]. unfold Rdiv. rewrite Rmult_assoc, Rinv_l, Rmult_1_r by lra. nra. }
    eapply ceil_usize_le; [apply is_div; [exact J1|exact Il|lra|apply bigp; lra]| |lia]. split; [apply rnd_nonneg; lra|]. cbn [Z.of_N].
    apply Rle_trans with (rnd64 4000000000); [apply rnd64_le; lra|]. rewrite (is_round _ _ (is_ofZ 4000000000 ltac:(lia))). lra.
  Qed.
End Sizes.

(* ---- the checked computation and the unchecked one ---- *)
Section Any.
  Context {T : Type} {NT : Num T} {LT : Libm T} {E : Env T} {F : Type} (ev : F -> vec T -> outcome (T * F)).

  (* the exponent fits as long as the generation number is below 2^30 - 1 *)
  Lemma exponent_fits : forall g, (g < 1073741823)%N -> exists e, hs_exponent_checked g = Ret e.
  Proof.
    intros g Hg. unfold hs_exponent_checked. rewrite (wrap_small (Z.of_N g)) by lia. rewrite i32_fits by lia. cbn [obind]. rewrite i32_fits by lia. eexists. reflexivity.
  Qed.
  Lemma exponent_overflows : hs_exponent_checked 1073741823 = Panic POverflow.
  Proof. vm_compute. reflexivity. Qed.

  Lemma update_checked_Ret : forall tree n p inds (s : state T) r, state_update_checked tree n p inds s = Ret r ->
    state_update tree n p inds s = Ret r /\ exists e, hs_exponent_checked (st_generation s) = Ret e.
  Proof.
    intros tree n p inds s r H. unfold state_update_checked in H. oinv H. oinv H. oinv H. oinv H. destruct a2 as [ok s']. oinv H. split; [congruence|eauto].
  Qed.


  Lemma plot_checked_Ret : forall (c c1 : cmaes T F),
    match c_plot c with
    | Some p => if (generation c <=? 1)%N then add_plot_point c else e <- next_data_point_evals_checked p ;; if (e <=? function_evals c)%N then add_plot_point c else Ret c
    | None => Ret c
    end = Ret c1 ->
    match c_plot c with
    | Some p => if (generation c <=? 1)%N || (next_data_point_evals p <=? function_evals c)%N then add_plot_point c else Ret c
    | None => Ret c
    end = Ret c1.
  Proof.
    intros c c1 H. destruct (c_plot c) as [p|]; [|exact H]. destruct (generation c <=? 1)%N; [exact H|]. cbn [orb]. oinv H. unfold next_data_point_evals_checked, next_data_point_evals in *. destruct (pl_last_evals p) as [n|].
    - apply usize_Ret in Ho. destruct Ho as [-> Ho]. rewrite wrapping_fits by exact Ho. exact H.
    - assert (a = 0%N) by congruence. subst a. exact H.
  Qed.
  Lemma print_checked_Ret : forall (c c1 : cmaes T F),
    match c_print_gap c with
    | Some gap => e <- usize (c_last_print c + gap) ;; Ret (if (e <=? function_evals c)%N then set_last_print (function_evals c) (print_info c) else if (generation c <? 4)%N then print_info c else c)
    | None => Ret c
    end = Ret c1 ->
    match c_print_gap c with
    | Some gap => if (wrapping_add (c_last_print c) gap <=? function_evals c)%N then set_last_print (function_evals c) (print_info c) else if (generation c <? 4)%N then print_info c else c
    | None => c
    end = c1.
  Proof.
    intros c c1 H. destruct (c_print_gap c) as [gap|]; [|congruence]. oinv H. apply usize_Ret in Ho. destruct Ho as [-> Ho]. rewrite wrapping_fits by exact Ho. congruence.
  Qed.

  Lemma internal_checked_Ret : forall tk inds (c : cmaes T F) r, next_internal_checked tk inds c = Ret r ->
    next_internal tk inds c = Ret r /\ exists e, hs_exponent_checked (generation c) = Ret e.
  Proof.
    intros tk inds c r H. unfold next_internal_checked in H. oinv H. destruct a as [ok st]. apply update_checked_Ret in Ho. destruct Ho as [Hs He]. split; [|exact He].
    unfold next_internal. rewrite Hs. cbn [obind]. cbv zeta in H. destruct (negb ok); [exact H|]. oinv H. apply plot_checked_Ret in Ho. rewrite Ho. cbn [obind]. oinv H. apply print_checked_Ret in Ho0. rewrite Ho0. oinv H. exact H.
  Qed.

  (* what a checked call returns, the unchecked call returns too *)
  Lemma next_checked_Ret : forall par tk (c : cmaes T F) r c', next_checked ev par tk c = Ret (r, c') ->
    next ev par tk c = Ret (r, c') /\ (reports InvalidFunctionValue r = false -> exists e, hs_exponent_checked (generation c) = Ret e).
  Proof.
    intros par tk c r c' H. unfold next_checked in H. oinv H. destruct a as [ri c1]. unfold next. rewrite Ho. cbn [obind]. assert (Es : c_state c1 = c_state c).
    { unfold cmaes_sample in Ho. oinv Ho. destruct a as [rs sm]. destruct rs as [l|]; [oinv Ho|]; apply Ret_inj in Ho; apply (f_equal snd) in Ho; cbn [snd] in Ho; rewrite <- Ho; reflexivity. }
    destruct ri as [inds|].
    - oinv H. apply internal_checked_Ret in H. destruct H as [H He]. split; [exact H|]. intros _. unfold generation in He. rewrite Es in He. exact He.
    - split; [exact H|]. intros Hi. apply Ret_inj in H. apply (f_equal fst) in H. cbn [fst] in H. rewrite <- H in Hi. discriminate Hi.
  Qed.


  Lemma usize_cases : forall z, usize z = Ret z \/ usize z = Panic POverflow.
  Proof. intros z. unfold usize. destruct (z <=? 18446744073709551615)%N; auto. Qed.

  (* everything that has to fit *)
  Record fits (c : cmaes T F) : Prop := {
    fi_dim : (p_dim (c_params c) * p_dim (c_params c) <= 18446744073709551615)%N;
    fi_gen : (generation c < 1073741823)%N;
    fi_eigen : (st_last_eigen (c_state c) + evals_per_eigen_update (c_params c) <= 18446744073709551615)%N;
    fi_past : (past_generations (c_params c) <= 18446744073709551615)%N;
    fi_print : forall gap, c_print_gap c = Some gap -> (c_last_print c + gap <= 18446744073709551615)%N;
    fi_plot : forall p e, c_plot c = Some p -> pl_last_evals p = Some e -> (e + po_min_gap_evals (pl_options p) <= 18446744073709551615)%N
  }.
  Lemma internal_checked_same : forall tk inds (c : cmaes T F), fits c -> next_internal_checked tk inds c = next_internal tk inds c.
  Proof.
    intros tk inds c H. unfold next_internal_checked, next_internal, state_update_checked. rewrite (usize_fits _ (fi_dim c H)). cbn [obind]. destruct (exponent_fits _ (fi_gen c H)) as [e He]. unfold generation in He. rewrite He. cbn [obind]. rewrite (usize_fits _ (fi_eigen c H)). cbn [obind].
    destruct (state_update _ _ _ _ _) as [[ok st]| |]; cbn [obind]; [|reflexivity|reflexivity]. destruct ok; cbn [negb]; [|reflexivity]. pose proof (fi_gen c H) as G. unfold generation in G. rewrite usize_fits by lia. cbn [obind]. cbv zeta.
    set (c1 := mkCmaes (c_sampler c) (c_params c) st (c_history c) (c_plot c) (c_print_gap c) (c_last_print c) (c_created c) (c_out c)).
    change (c_plot c1) with (c_plot c).
    assert (P : match c_plot c with Some p => if (generation c1 <=? 1)%N then add_plot_point c1 else e <- next_data_point_evals_checked p ;; if (e <=? function_evals c1)%N then add_plot_point c1 else Ret c1 | None => Ret c1 end
      = match c_plot c with Some p => if (generation c1 <=? 1)%N || (next_data_point_evals p <=? function_evals c1)%N then add_plot_point c1 else Ret c1 | None => Ret c1 end).
    { destruct (c_plot c) as [p|] eqn:Ep; [|reflexivity]. destruct (generation c1 <=? 1)%N; [reflexivity|]. cbn [orb]. unfold next_data_point_evals_checked, next_data_point_evals. destruct (pl_last_evals p) as [n|] eqn:En; [|reflexivity].
      pose proof (fi_plot c H p n Ep En) as B. rewrite (usize_fits _ B), (wrapping_fits _ _ B). reflexivity. }
    rewrite P. clear P. set (m := match c_plot c with Some _ => _ | None => _ end).
    assert (Q : forall c2, m = Ret c2 -> c_params c2 = c_params c /\ c_print_gap c2 = c_print_gap c /\ c_last_print c2 = c_last_print c).
    { intros c2 Hm. assert (K : m = add_plot_point c1 \/ m = Ret c1) by (unfold m; destruct (c_plot c); [destruct (_ || _); auto|auto]). destruct K as [K|K]; rewrite K in Hm.
      - apply add_plot_point_core in Hm. destruct Hm as [[_ [H1 [_ [_ [_ H2]]]]] [H3 _]]. rewrite H1, H2, H3. auto.
      - apply Ret_inj in Hm. rewrite <- Hm. auto. }
    destruct m as [c2| |]; cbn [obind]; [|reflexivity|reflexivity]. destruct (Q c2 eq_refl) as [Q1 [Q2 Q3]]. rewrite Q2.
    destruct (c_print_gap c) as [gap|] eqn:Eg.
    - rewrite Q3. pose proof (fi_print c H gap Eg) as B. rewrite (usize_fits _ B), (wrapping_fits _ _ B). cbn [obind]. set (c3 := if (_ <=? _)%N then _ else _). assert (E3 : c_params c3 = c_params c2) by (unfold c3; destruct (_ <=? _)%N; [|destruct (_ <? _)%N]; reflexivity). rewrite E3, Q1, (usize_fits _ (fi_past c H)). reflexivity.
    - cbn [obind]. rewrite Q1, (usize_fits _ (fi_past c H)). reflexivity.
  Qed.

  Lemma next_checked_same : forall par tk (c : cmaes T F), fits c -> (forall r c1, cmaes_sample ev par tk c = Ret (r, c1) -> (function_evals c1 <= 18446744073709551615)%N) ->
    next_checked ev par tk c = next ev par tk c.
  Proof.
    intros par tk c H Hf. unfold next_checked, next. destruct (cmaes_sample ev par tk c) as [[[inds|] c1]| |] eqn:Es; cbn [obind]; try reflexivity. rewrite (usize_fits _ (Hf _ _ eq_refl)). cbn [obind]. apply internal_checked_same.
    unfold cmaes_sample in Es. oinv Es. destruct a as [[l|] sm]; [|apply Ret_inj in Es; apply (f_equal fst) in Es; discriminate Es]. oinv Es. apply Ret_inj in Es. apply (f_equal snd) in Es. cbn [snd] in Es. rewrite <- Es. destruct H as [H1 H2 H3 H4 H5 H6]. constructor; cbn; assumption.
  Qed.

  (* sessions of a build with overflow checks: calls of next that do not panic, and the other operations (run is a sequence of these, C29) *)
  Inductive checked_session (o : options T) (f : F) : cmaes T F -> Prop :=
  | CS_built : forall c, built o f c -> checked_session o f c
  | CS_next : forall c par tk r c', checked_session o f c -> next_checked ev par tk c = Ret (r, c') -> checked_session o f c'
  | CS_other : forall c op c', checked_session o f c -> quiet op -> step ev c op = Ret c' -> checked_session o f c'.

  Lemma checked_reaches : forall o f c, checked_session o f c -> reaches ev o f c.
  Proof.
    intros o f c H. induction H as [c Hb|c par tk r c' _ IH Hn|c op c' _ IH _ Hs]; [exists c, []; split; [exact Hb|reflexivity]| |eapply reaches_step; eassumption].
    apply next_checked_Ret in Hn. destruct Hn as [Hn _]. eapply reaches_step with (op := ONext par tk); [exact IH|]. cbn [step]. rewrite Hn. reflexivity.
  Qed.

  (* No session of such a build gets past generation 2^30 - 1, whatever the objective function, the options and the random numbers. *)
  Theorem C88_limit : forall o f c, checked_session o f c -> reaches ev o f c /\ (generation c <= 1073741823)%N.
  Proof.
    intros o f c H. split; [apply checked_reaches; exact H|]. induction H as [c [rs [now Hb]]|c par tk r c' _ IH Hn|c op c' _ IH Hq Hs].
    - apply cmaes_new_inv in Hb. cbv zeta in Hb. destruct Hb as [_ [_ [_ [C3 _]]]]. unfold generation. rewrite C3. cbn. lia.
    - apply next_checked_Ret in Hn. destruct Hn as [Hn He]. apply next_counters in Hn. destruct Hn as [_ Hg]. rewrite Hg. destruct (reports InvalidFunctionValue r) eqn:Ei; cbn [orb]; [lia|]. destruct (reports PosDefCov r); [lia|]. destruct (He eq_refl) as [e He']. 
      destruct (N.eq_dec (generation c) 1073741823) as [Ec|Ec]; [rewrite Ec, exponent_overflows in He'; discriminate He'|lia].
    - apply (quiet_core ev) in Hs; [|exact Hq]. destruct Hs as [_ [_ [Hs _]]]. unfold generation in *. rewrite Hs. exact IH.
  Qed.

  (* The call that would complete generation 2^30 panics instead. *)
  Theorem C88_overflow : forall (c : cmaes T F) par tk r c', next ev par tk c = Ret (r, c') -> reports InvalidFunctionValue r = false -> generation c = 1073741823%N ->
    next_checked ev par tk c = Panic POverflow.
  Proof.
    intros c par tk r c' Hn Hi Hg. unfold next in Hn. unfold next_checked. destruct (cmaes_sample ev par tk c) as [[[inds|] c1]| |] eqn:Es; cbn [obind] in *; try discriminate Hn.
    - destruct (usize_cases (function_evals c1)) as [U|U]; rewrite U; cbn [obind]; [|reflexivity]. assert (E1 : c_state c1 = c_state c). { unfold cmaes_sample in Es. oinv Es. destruct a as [[l|] sm]; [|apply Ret_inj in Es; apply (f_equal fst) in Es; discriminate Es]. oinv Es. apply Ret_inj in Es. apply (f_equal snd) in Es. cbn [snd] in Es. rewrite <- Es. reflexivity. }
      unfold next_internal_checked, state_update_checked. destruct (usize_cases (p_dim (c_params c1) * p_dim (c_params c1))) as [V|V]; rewrite V; cbn [obind]; [|reflexivity]. unfold generation in Hg. rewrite E1, Hg, exponent_overflows. reflexivity.
    - apply Ret_inj in Hn. apply (f_equal fst) in Hn. cbn [fst] in Hn. rewrite <- Hn in Hi. discriminate Hi.
  Qed.

  (* So does a call after which the sum of the evaluations at the last plotted generation and the plot gap is above 2^64 - 1. *)
  Theorem C88_plot_gap : forall (c : cmaes T F) par tk r c' p e, next ev par tk c = Ret (r, c') -> reports InvalidFunctionValue r = false -> reports PosDefCov r = false ->
    (1 <= generation c)%N -> c_plot c = Some p -> pl_last_evals p = Some e -> (18446744073709551615 < e + po_min_gap_evals (pl_options p))%N ->
    next_checked ev par tk c = Panic POverflow.
  Proof.
    intros c par tk r c' p e Hn Hi Hc Hg Hp He Ho. pose proof (next_counters _ _ _ _ _ _ Hn) as [_ Hgen]. rewrite Hi, Hc in Hgen. cbn [orb] in Hgen. unfold next in Hn. unfold next_checked. destruct (cmaes_sample ev par tk c) as [[[inds|] c1]| |] eqn:Es; cbn [obind] in *; try discriminate Hn.
    - destruct (usize_cases (function_evals c1)) as [U|U]; rewrite U; cbn [obind]; [|reflexivity].
      assert (E1 : c_state c1 = c_state c /\ c_plot c1 = c_plot c). { unfold cmaes_sample in Es. oinv Es. destruct a as [[l|] sm]; [|apply Ret_inj in Es; apply (f_equal fst) in Es; discriminate Es]. oinv Es. apply Ret_inj in Es. apply (f_equal snd) in Es. cbn [snd] in Es. rewrite <- Es. auto. }
      destruct E1 as [E1 E2]. unfold next_internal_checked, state_update_checked.
      destruct (usize_cases (p_dim (c_params c1) * p_dim (c_params c1))) as [V|V]; rewrite V; cbn [obind]; [|reflexivity].
      destruct (hs_exponent_checked (st_generation (c_state c1))) as [x|x|] eqn:Eh; cbn [obind];
        [|unfold hs_exponent_checked, i32 in Eh; destruct (_ && _); cbn [obind] in Eh; [destruct (_ && _) in Eh|]; congruence
         |unfold hs_exponent_checked, i32 in Eh; destruct (_ && _); cbn [obind] in Eh; [destruct (_ && _) in Eh|]; congruence].
      destruct (usize_cases (st_last_eigen (c_state c1) + evals_per_eigen_update (c_params c1))) as [W|W]; rewrite W; cbn [obind]; [|reflexivity].
      unfold next_internal in Hn. destruct (state_update (t_tree tk) (function_evals c1) (c_params c1) inds (c_state c1)) as [[ok st]| |] eqn:Eu; cbn [obind] in *; try discriminate Hn.
      destruct ok; cbn [negb] in *.
      + destruct (usize_cases (st_generation (c_state c1) + 1)) as [Z|Z]; rewrite Z; cbn [obind]; [|reflexivity]. cbn [c_plot]. rewrite E2, Hp.
        assert (G : st_generation st = (st_generation (c_state c1) + 1)%N). { apply state_update_inv in Eu. destruct Eu as [yw [rm [cov Eu]]]. rewrite (up_gen _ _ _ _ _ _ _ _ _ _ Eu). reflexivity. }
        unfold generation in *. cbn [c_state]. rewrite G, E1. replace (st_generation (c_state c) + 1 <=? 1)%N with false by (symmetry; apply N.leb_gt; lia).
        unfold next_data_point_evals_checked. rewrite He. unfold usize. replace (e + po_min_gap_evals (pl_options p) <=? 18446744073709551615)%N with false by (symmetry; apply N.leb_gt; lia). reflexivity.
      + apply Ret_inj in Hn. apply (f_equal fst) in Hn. cbn [fst] in Hn. rewrite <- Hn in Hc. discriminate Hc.
    - apply Ret_inj in Hn. apply (f_equal fst) in Hn. cbn [fst] in Hn. rewrite <- Hn in Hi. discriminate Hi.
  Qed.
End Any.
Print Assumptions C88_limit.
Print Assumptions C88_overflow.
Print Assumptions C88_plot_gap.

Section FloatOverflow.
  Context {L : Libm f64} {E : Env f64} {F : Type} (ev : F -> vec f64 -> outcome (f64 * F)).

  (* the counters kept in a session never exceed the number of evaluations *)
  Definition behind (o : options f64) (c : cmaes f64 F) : Prop :=
    (st_last_eigen (c_state c) <= function_evals c)%N /\ (c_last_print c <= function_evals c)%N /\ c_print_gap c = o_print_gap_evals o /\
    match c_plot c with
    | Some p => o_plot_options o = Some (pl_options p) /\ match pl_last_evals p with Some e => (e <= function_evals c)%N | None => True end
    | None => True
    end.
  Lemma add_point_behind : forall o (c c' : cmaes f64 F), behind o c -> add_plot_point c = Ret c' -> behind o c'.
  Proof.
    intros o c c' [B1 [B2 [B3 B4]]] H. unfold add_plot_point in H. destruct (c_plot c) as [p|] eqn:Ep; [|apply Ret_inj in H; rewrite <- H; unfold behind; rewrite Ep; auto].
    oinv H. apply Ret_inj in H. rewrite <- H. unfold behind. cbn [c_state c_last_print c_print_gap c_plot]. change (function_evals {| c_sampler := c_sampler c; c_params := c_params c; c_state := c_state c; c_history := c_history c; c_plot := Some a; c_print_gap := c_print_gap c; c_last_print := c_last_print c; c_created := c_created c; c_out := c_out c |}) with (function_evals c).
    split; [exact B1|]. split; [exact B2|]. split; [exact B3|]. unfold plot_add_point in Ho. destruct (match pl_last_generation p with Some g => _ | None => _ end).
    - apply Ret_inj in Ho. rewrite <- Ho. exact B4.
    - oinv Ho. apply Ret_inj in Ho. rewrite <- Ho. cbn [pl_options pl_last_evals]. split; [apply B4|lia].
  Qed.
  Lemma behind_kept : forall o f c, reaches ev o f c -> behind o c.
  Proof.
    intros o f c [c0 [l [[rs [now Hb]] Hst]]]. refine (steps_invariant ev (behind o) _ _ l c0 c _ Hst).
    - intros a op b Ha Hq Hs. destruct op; simpl in Hq, Hs; try contradiction.
      + eapply add_point_behind; eassumption.
      + destruct Ha as [B1 [B2 [B3 B4]]]. unfold clear_plot in Hs. destruct (c_plot a) as [p|] eqn:Ep; [|apply Ret_inj in Hs; rewrite <- Hs; unfold behind; rewrite Ep; auto].
        oinv Hs. apply Ret_inj in Hs. rewrite <- Hs. unfold behind. cbn [c_state c_last_print c_print_gap c_plot]. split; [exact B1|]. split; [exact B2|]. split; [exact B3|]. unfold plot_clear in Ho. oinv Ho. apply Ret_inj in Ho. rewrite <- Ho. exact B4.
      + apply Ret_inj in Hs. rewrite <- Hs. exact Ha.
      + apply Ret_inj in Hs. rewrite <- Hs. exact Ha.
      + apply Ret_inj in Hs. rewrite <- Hs. unfold print_final_info. destruct (function_evals a =? c_last_print a)%N; exact Ha.
    - intros par tk a r b [B1 [B2 [B3 B4]]] Hn. pose proof (next_counters _ _ _ _ _ _ Hn) as [Hc _]. pose proof (next_setup _ _ _ _ _ _ Hn) as HS. assert (Hle : (function_evals a <= function_evals b)%N) by lia. apply next_outcome in Hn. destruct Hn as [[_ [_ [_ Eb]]]|[inds [ok [_ [_ [_ [Hs H]]]]]]].
      + unfold behind. assert (X1 : c_state b = c_state a) by (rewrite Eb; reflexivity). assert (X2 : c_last_print b = c_last_print a) by (rewrite Eb; reflexivity). assert (X3 : c_print_gap b = c_print_gap a) by (rewrite Eb; reflexivity). assert (X4 : c_plot b = c_plot a) by (rewrite Eb; reflexivity). rewrite X1, X2, X3, X4. split; [lia|]. split; [lia|]. split; [exact B3|]. destruct (c_plot a) as [p|]; [|exact I]. split; [apply B4|]. destruct (pl_last_evals p); [|exact I]. destruct B4 as [_ B4]. lia.
      + assert (Le : (st_last_eigen (c_state b) <= function_evals b)%N). { apply state_update_inv in Hs. destruct Hs as [yw [rm [cov U]]]. rewrite (up_last _ _ _ _ _ _ _ _ _ _ U). destruct (ok && _); lia. }
        split; [exact Le|]. destruct H as [[_ [_ [_ [H1 [H2 H3]]]]]|[_ [_ [reasons [D _]]]]].
        * assert (Hg : c_print_gap b = c_print_gap a) by (apply HS). rewrite H1, H2, Hg. split; [lia|]. split; [exact B3|]. destruct (c_plot a) as [p|]; [|exact I]. split; [apply B4|]. destruct (pl_last_evals p); [|exact I]. destruct B4 as [_ B4]. lia.
        * pose proof (nd_print _ _ _ _ _ D) as Hp. rewrite (nd_gap _ _ _ _ _ D). split.
          { apply (f_equal fst) in Hp. cbn [fst] in Hp. rewrite Hp. unfold printed. destruct (c_print_gap a) as [g|]; [|cbn [fst]; lia]. destruct (_ <=? _)%N; [cbn [fst]; lia|]. destruct (_ <? _)%N; cbn [fst]; lia. }
          split; [exact B3|]. pose proof (nd_plot _ _ _ _ _ D) as Hq. destruct (c_plot a) as [p|]; [|rewrite Hq; exact I]. assert (B5 : match pl_last_evals p with Some e => (e <= function_evals b)%N | None => True end) by (destruct B4 as [_ B4]; destruct (pl_last_evals p); [lia|exact I]).
          destruct (_ || _); [|rewrite Hq; split; [apply B4|exact B5]]. destruct Hq as [p' [Hq ->]]. unfold plot_add_point in Hq. destruct (match pl_last_generation p with Some g => _ | None => _ end).
          { apply Ret_inj in Hq. rewrite <- Hq. split; [apply B4|exact B5]. }
          oinv Hq. apply Ret_inj in Hq. rewrite <- Hq. cbn [pl_options pl_last_evals]. split; [apply B4|lia].
    - unfold cmaes_new in Hb. destruct (validate o); [apply Ret_inj in Hb; discriminate Hb|]. oinv Hb. apply Ret_inj in Hb. assert (Hb' : match c_print_gap a with Some _ => print_initial_info a | None => a end = c0) by congruence. clear Hb.
      assert (Ba : behind o a). { eapply add_point_behind; [|exact Ho]. unfold behind. cbn. split; [lia|]. split; [lia|]. split; [reflexivity|]. destruct (o_plot_options o) as [po|]; [split; [reflexivity|exact I]|exact I]. }
      rewrite <- Hb'. destruct (c_print_gap a); exact Ba.
  Qed.

  Lemma population_kept : forall o f c, reaches ev o f c -> sm_population_size (c_sampler c) = o_population_size o.
  Proof.
    intros o f c [c0 [l [[rs [now Hb]] Hst]]]. refine (steps_invariant ev (fun c => sm_population_size (c_sampler c) = o_population_size o) _ _ l c0 c _ Hst).
    - intros a op b Ha Hq Hs. pose proof (quiet_core ev _ _ _ Hq Hs) as [Hs' _]. rewrite Hs'. exact Ha.
    - intros par tk a r b Ha Hn. pose proof (next_setup _ _ _ _ _ _ Hn) as [_ [_ [_ [_ [_ [_ HS]]]]]]. rewrite HS. exact Ha.
    - unfold cmaes_new in Hb. destruct (validate o); [apply Ret_inj in Hb; discriminate Hb|]. oinv Hb. apply Ret_inj in Hb. assert (Hb' : match c_print_gap a with Some _ => print_initial_info a | None => a end = c0) by congruence. rewrite <- Hb'.
      apply add_plot_point_core in Ho. destruct Ho as [[Ho _] _]. destruct (c_print_gap a); cbn [print_initial_info emit c_sampler]; rewrite Ho; reflexivity.
  Qed.

  (* the sizes for which counters cannot overflow *)
  Definition counters_fit (o : options f64) : Prop :=
    (o_population_size o <= 4294967296)%N /\ (N.of_nat (dims o) <= 67108864)%N /\
    (forall gap, o_print_gap_evals o = Some gap -> (gap <= 9223372036854775808)%N) /\
    (forall po, o_plot_options o = Some po -> (po_min_gap_evals po <= 9223372036854775808)%N).

  (* Up to generation 2^30 - 1 and 2^62 evaluations a build with overflow checks does the same as a build without. *)
  Theorem C88_no_overflow : accurate_ln -> forall o f c par tk, reaches ev o f c -> counters_fit o ->
    (generation c < 1073741823)%N -> (function_evals c <= 4611686018427387904)%N ->
    next_checked ev par tk c = next ev par tk c.
  Proof.
    intros Hln o f c par tk Hr [F1 [F2 [F3 F4]]] Hg He. pose proof (behind_kept o f c Hr) as [B1 [B2 [B3 B4]]].
    assert (Hf : sizes_fit o) by (split; [lia|unfold dims in F2; lia]). destruct (setup ev Hln o f c Hr Hf) as [seed [rs [Hp [Hd [Hraw Hlen]]]]].
    destruct (mu_eff_acc _ _ _ (o_weights o) Hraw) as [M [HM [M1 [M2 M3]]]]. change (mkIW (iw_weights (iw_new (o_population_size o) (o_weights o))) (o_weights o) (o_population_size o / 2)) with (iw_new (T := f64) (o_population_size o) (o_weights o)) in HM.
    destruct (reached_params ev o f c Hr) as [Hv _]. destruct (sizes o Hv) as [Hl _].
    assert (Hk : IZR (Z.of_N (o_population_size o / 2)) <= 2147483648). { apply IZR_le. pose proof (N.div_le_upper_bound (o_population_size o) 2 2147483648 ltac:(lia) ltac:(lia)). lia. }
    destruct (C75_rates ev Hln o f c Hr Hf) as [M' [c1 [cmu [_ [_ [_ [_ [I1 [I2 [_ [_ [_ [_ [K1 [K2 _]]]]]]]]]]]]]]].
    apply next_checked_same.
    - assert (Pd : p_dim (c_params c) = N.of_nat (dims o)) by (rewrite Hp; reflexivity). assert (Pl : p_lambda (c_params c) = o_population_size o) by (rewrite Hp; reflexivity).
      constructor.
      + rewrite Pd. nia.
      + exact Hg.
      + unfold evals_per_eigen_update. assert (Hd' : (1 <= N.of_nat (dims o) <= 67108864)%N) by (unfold dims in *; lia). assert (Hl' : (2 <= o_population_size o <= 4294967296)%N) by lia.
        destruct (c1_low (N.of_nat (dims o)) (o_population_size o) _ M Hd' Hl' HM ltac:(lra) ltac:(lra)) as [r [Ir Hr']].
        assert (Pc : p_c1 (c_params c) = calc_c1 (N.of_nat (dims o)) (iw_mu_eff (iw_new (o_population_size o) (o_weights o)))) by (rewrite Hp; reflexivity). rewrite <- Pc in Ir. rewrite Pd, Pl.
        pose proof (interval_bound (N.of_nat (dims o)) (o_population_size o) M Hd' Hl' ltac:(lra) ltac:(lra) _ _ r cmu Ir Hr' I2 K2) as B. lia.
      + unfold past_generations. rewrite Pd, Pl. pose proof (window_bound (N.of_nat (dims o)) (o_population_size o) ltac:(unfold dims in *; lia) ltac:(lia)) as B. lia.
      + intros gap Hgap. rewrite B3 in Hgap. specialize (F3 _ Hgap). lia.
      + intros p e Hplot Hev. rewrite Hplot in B4. destruct B4 as [B4 B5]. rewrite Hev in B5. specialize (F4 _ B4). lia.
    - intros r c' Hs. unfold cmaes_sample in Hs. oinv Hs. destruct a as [q sm]. pose proof (sample_evals ev _ _ _ _ _ _ _ Ho) as S1. rewrite (population_kept o f c Hr) in S1. assert (S2 : c_sampler c' = sm).
      { destruct q; [oinv Hs|]; apply Ret_inj in Hs; apply (f_equal snd) in Hs; cbn [snd] in Hs; rewrite <- Hs; reflexivity. }
      unfold function_evals in *. rewrite S2, S1. destruct q; lia.
  Qed.
End FloatOverflow.
Print Assumptions C88_no_overflow.

(* Sessions in which a build with overflow checks panics: for every dimension up to 1000, population up to 10^6 and every kind of weights
   there is a session that reaches generation 2^30 - 1 and whose next call completes in a build without checks. *)
Example C88_case : accurate_ln (L := c78_libm) /\
  forall dim w l, (1 <= dim <= 1000)%nat -> (2 <= l <= 1000000)%N -> counters_fit (c75_options dim w l) /\
    exists c : cmaes (E := unit_env) f64 (unit * list (Spec.entry f64)), reaches (LT := c78_libm) (log_ev flat) (c75_options dim w l) (tt, []) c /\ generation c = 1073741823%N /\
      (exists x, next (LT := c78_libm) (log_ev flat) false toy_tick c = Ret x) /\ next_checked (LT := c78_libm) (log_ev flat) false toy_tick c = Panic POverflow.
Proof.
  destruct C86_wrapped_case as [H0 H]. split; [exact H0|]. intros dim w l Hd Hl. destruct (H dim w l Hd Hl) as [_ [_ H1]]. split.
  - unfold counters_fit, dims, c75_options, toy_options. cbn [apply_setters fold_left apply_setter options_new o_initial_mean o_population_size o_print_gap_evals o_plot_options]. rewrite repeat_length. split; [lia|]. split; [lia|]. split; intros; discriminate.
  - destruct (H1 1073741823%N) as [c [c' [r [A1 [A2 [A3 A4]]]]]]. exists c. split; [exact A1|]. split; [exact A2|]. split; [eexists; exact A3|]. eapply C88_overflow; eassumption.
Qed.

(* with the plot gap 2^64 - 1 that is the second call: without checks it completes, and with checks it panics *)
Example C88_plot_gap_case : exists (c : cmaes f64 unit) p e r c', reaches toy_sphere c45_options tt c /\ next toy_sphere false toy_tick c = Ret (r, c') /\
  r = None /\ generation c = 1%N /\ c_plot c = Some p /\ pl_last_evals p = Some e /\ (18446744073709551615 < e + po_min_gap_evals (pl_options p))%N.
Proof.
  destruct (holds_ex (after toy_sphere tt c45_options [ONext false toy_tick])
    (fun c => (generation c =? 1)%N && match c_plot c with Some p => match pl_last_evals p with Some e => (18446744073709551615 <? e + po_min_gap_evals (pl_options p))%N | None => false end | None => false end
              && holds (next toy_sphere false toy_tick c) (fun rc => match fst rc with None => true | Some _ => false end))) as [c [H1 H2]].
  { vm_compute. reflexivity. }
  apply after_reaches in H1. destruct H1 as [c0 [H0 H1]].
  apply andb_prop in H2. destruct H2 as [H2 H4]. apply andb_prop in H2. destruct H2 as [H2 H3]. apply N.eqb_eq in H2.
  destruct (c_plot c) as [p|] eqn:Ep; [|discriminate H3]. destruct (pl_last_evals p) as [e|] eqn:Ee; [|discriminate H3]. apply N.ltb_lt in H3.
  apply holds_ex in H4. destruct H4 as [[r c'] [H4 H5]]. cbn [fst] in H5.
  exists c, p, e, r, c'. split; [exists c0, [ONext false toy_tick]; auto|]. split; [exact H4|]. split; [destruct r; [discriminate H5|reflexivity]|]. auto.
Qed.
