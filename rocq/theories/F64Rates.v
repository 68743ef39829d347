(* The learning rates in binary64. *)
From Coq Require Import List NArith ZArith Bool Reals Lra Lia Arith Psatz Sorting.Sorted.
From Flocq Require Import Core Sterbenz Mult_error.
From Flocq Require Import IEEE754.BinarySingleNaN.
Require Import Verif.Base Verif.Num Verif.F64 Verif.XReal Verif.Weights Verif.Params Verif.Order Verif.F64Lemmas Verif.CeilLemmas Verif.XRound Verif.XLe Verif.F64Acc Verif.F64Weights.
Import ListNotations.
Open Scope R_scope.

Lemma is0 : is n0 0. Proof. exact (is_ofZ 0 ltac:(lia)). Qed.
Lemma is1 : is n1 1. Proof. exact (is_ofZ 1 ltac:(lia)). Qed.
Lemma is2 : is n2 2. Proof. exact (is_ofZ 2 ltac:(lia)). Qed.
Lemma rnd_dbl : forall x r, is x r -> Rabs (2 * r) <= bpow radix2 1000 -> is (nmul n2 x) (2 * r).
Proof.
  intros x r Hx Hb. pose proof (is_mul _ _ _ _ is2 Hx Hb) as K. rewrite rnd64_id in K; [exact K|].
  replace (2 * r) with (r * bpow radix2 1) by (cbn; ring). apply mult_bpow_pos_exact_FLT with (emin := (-1074)%Z) (prec := 53%Z); [|lia].
  apply is_format with (x := x). exact Hx.
Qed.
Lemma rnd_halve : forall x r, is x (2 * r) -> is x (2 * r) -> Rabs r <= bpow radix2 1000 -> generic_format radix2 fexp64 r -> is (ndiv x n2) r.
Proof.
  intros x r Hx _ Hb Hf. assert (E : 2 * r / 2 = r) by field. pose proof (is_div _ _ _ _ Hx is2 ltac:(lra)) as K. rewrite E in K.
  specialize (K Hb). rewrite rnd64_id in K by exact Hf. exact K.
Qed.

Section Rates.
  Variables (dim : N) (mu_eff : f64) (M : R).
  Hypotheses (Hd : (1 <= dim <= 9007199254740992)%N) (HM : is mu_eff M) (M1 : M = 1 \/ 114 / 100 <= M) (M2 : M <= 1200000000000).
  Let D := IZR (Z.of_N dim).
  Lemma D_is : is (nofN dim) D. Proof. apply is_ofN. lia. Qed.
  Lemma D_range : 1 <= D <= 9007199254740992.
  Proof. unfold D. split; [apply (IZR_le 1)|apply (IZR_le _ 9007199254740992)]; lia. Qed.

  Lemma c1_ok : exists c, is (calc_c1 dim mu_eff) c /\ / 1000000000000000000000000000000000000 <= c <= 1 / 2.
  Proof.
    unfold calc_c1. destruct D_range as [D1 D2]. pose proof D_is as HD.
    assert (Hq : exists q, is (nlit 13 10) q /\ 5 / 4 <= q <= 3 / 2).
    { eexists. split; [vm_compute; reflexivity|]. unfold F2R; cbn. lra. }
    destruct Hq as [q [Iq Hq]].
    assert (I1 : is (nadd (nofN dim) (nlit 13 10)) (rnd64 (D + q))) by (apply is_add; auto; apply bigp; lra).
    assert (A1 : 2 <= rnd64 (D + q)) by (apply (rnd_int_le 2); [lia|lra]). destruct (near (D + q)) as [_ A2]; [lra|].
    set (x := rnd64 (D + q)) in *. clearbody x.
    assert (I2 : is (powi (nadd (nofN dim) (nlit 13 10)) 2) (rnd64 (x * x))) by (apply is_powi2; auto; apply bigp; nra).
    assert (B1 : 4 <= rnd64 (x * x)) by (apply (rnd_int_le 4); [lia|nra]). destruct (near (x * x)) as [_ B2]; [nra|].
    assert (B3 : x * x <= 100000000000000000000000000000000) by nra. set (y := rnd64 (x * x)) in *. clearbody y.
    assert (I3 : is (nadd (powi (nadd (nofN dim) (nlit 13 10)) 2) mu_eff) (rnd64 (y + M))) by (apply is_add; auto; apply bigp; lra).
    assert (C1 : 4 <= rnd64 (y + M)) by (apply (rnd_int_le 4); [lia|lra]). destruct (near (y + M)) as [_ C2]; [lra|].
    set (z := rnd64 (y + M)) in *. clearbody z. clear I1 I2.
    assert (E1 : 2 / z <= 1 / 2) by (apply Rmult_le_reg_r with z; [lra|]; replace (2 / z * z) with 2 by (field; lra); lra).
    assert (E2 : / 200000000000000000000000000000000 <= 2 / z) by (apply Rmult_le_reg_r with z; [lra|]; replace (2 / z * z) with 2 by (field; lra); lra).
    exists (rnd64 (2 / z)). split; [apply is_div; auto; [exact is2|lra|apply bigp; lra]|]. destruct (near (2 / z)) as [F1 _]; [lra|].
    split; [lra|]. assert (G : rnd64 (2 / z) <= rnd64 (bpow radix2 (-1))) by (apply rnd64_le; cbn; lra).
    rewrite (rnd64_id (bpow radix2 (-1))) in G by (apply generic_format_bpow; unfold SpecFloat.fexp, SpecFloat.emin; lia). change (bpow radix2 (-1)) with (/ 2) in G. lra.
  Qed.

  Lemma cc_range : exists c, is (calc_cc dim mu_eff) c /\ / 1000000000000000000000 <= c <= 1.
  Proof.
    unfold calc_cc. destruct D_range as [D1 D2]. pose proof D_is as HD.
    assert (Q0 : 0 < M / D <= M).
    { split; [apply Rdiv_lt_0_compat; lra|]. apply Rmult_le_reg_r with D; [lra|]. replace (M / D * D) with M by (field; lra). nra. }
    assert (I1 : is (ndiv mu_eff (nofN dim)) (rnd64 (M / D))) by (apply is_div; auto; [lra|apply bigp; lra]).
    assert (I2 : is (ndiv (nmul n2 mu_eff) (nofN dim)) (rnd64 (2 * M / D))).
    { apply is_div; auto; [apply rnd_dbl; [exact HM|apply bigp; lra]|lra|]. replace (2 * M / D) with (2 * (M / D)) by (unfold Rdiv; ring). apply bigp; lra. }
    assert (L1 : rnd64 (M / D) <= rnd64 (2 * M / D)) by (apply rnd64_le; replace (2 * M / D) with (2 * (M / D)) by (unfold Rdiv; ring); lra).
    assert (L0 : 0 <= rnd64 (M / D)) by (apply rnd_nonneg; lra).
    assert (L2 : rnd64 (2 * M / D) <= 9007199254740992).
    { apply (rnd_le_int 9007199254740992); [lia|]. replace (2 * M / D) with (2 * (M / D)) by (unfold Rdiv; ring). lra. }
    set (a := rnd64 (M / D)) in *. set (b := rnd64 (2 * M / D)) in *. clearbody a b.
    assert (I3 : is (nadd (nofZ 4) (ndiv mu_eff (nofN dim))) (rnd64 (4 + a))) by (apply is_add; [exact (is_ofZ 4 ltac:(lia))|auto|apply bigp; lra]).
    assert (I4 : is (nadd (nofN dim) (nofZ 4)) (rnd64 (D + 4))) by (apply is_add; [auto|exact (is_ofZ 4 ltac:(lia))|apply bigp; lra]).
    assert (L3 : 4 <= rnd64 (D + 4)) by (apply (rnd_int_le 4); [lia|lra]). destruct (near (D + 4)) as [_ L4]; [lra|].
    set (d := rnd64 (D + 4)) in *. clearbody d.
    assert (I5 : is (nadd (nadd (nofN dim) (nofZ 4)) (ndiv (nmul n2 mu_eff) (nofN dim))) (rnd64 (d + b))) by (apply is_add; auto; apply bigp; lra).
    assert (L5 : rnd64 (4 + a) <= rnd64 (d + b)) by (apply rnd64_le; lra). assert (L6 : 4 <= rnd64 (4 + a)) by (apply (rnd_int_le 4); [lia|lra]).
    destruct (near (d + b)) as [_ L7]; [lra|]. set (x := rnd64 (4 + a)) in *. set (y := rnd64 (d + b)) in *. clearbody x y.
    assert (Q1 : x / y <= 1) by (apply Rmult_le_reg_r with y; [lra|]; replace (x / y * y) with x by (field; lra); lra).
    assert (Q2 : / 100000000000000000000 <= x / y) by (apply Rmult_le_reg_r with y; [lra|]; replace (x / y * y) with x by (field; lra); lra).
    exists (rnd64 (x / y)). split; [apply is_div; auto; [lra|apply bigp; lra]|]. destruct (near (x / y)) as [Q3 _]; [lra|].
    split; [lra|]. apply (rnd_le_int 1); [lia|exact Q1].
  Qed.
  Lemma cc_ok : exists c, is (calc_cc dim mu_eff) c /\ 0 < c <= 1.
  Proof. destruct cc_range as [c [H1 H2]]. exists c. split; [exact H1|lra]. Qed.

  Lemma cs_range : exists c, is (calc_cs dim mu_eff) c /\ / 1000000000000000000000 <= c < 1.
  Proof.
    unfold calc_cs. destruct D_range as [D1 D2]. pose proof D_is as HD.
    assert (I1 : is (nadd mu_eff n2) (rnd64 (M + 2))) by (apply is_add; auto; [exact is2|apply bigp; lra]).
    assert (I2 : is (nadd (nofN dim) mu_eff) (rnd64 (D + M))) by (apply is_add; auto; apply bigp; lra).
    destruct (near (M + 2)) as [A1 A2]; [lra|]. destruct (near (D + M)) as [B1 B2]; [lra|].
    set (a := rnd64 (M + 2)) in *. set (b := rnd64 (D + M)) in *. clearbody a b.
    assert (I3 : is (nadd (nadd (nofN dim) mu_eff) (nofZ 5)) (rnd64 (b + 5))) by (apply is_add; auto; [exact (is_ofZ 5 ltac:(lia))|apply bigp; lra]).
    destruct (near (b + 5)) as [C1 C2]; [lra|]. set (d := rnd64 (b + 5)) in *. clearbody d.
    assert (E1 : a + 3 <= d) by lra.
    assert (Q1 : a / d <= 1 - / 5000000000000).
    { apply Rmult_le_reg_r with d; [lra|]. replace (a / d * d) with a by (field; lra).
      destruct (Rle_lt_dec d 10000000000000); [|lra]. nra. }
    assert (Q2 : / 100000000000000000000 <= a / d) by (apply Rmult_le_reg_r with d; [lra|]; replace (a / d * d) with a by (field; lra); lra).
    exists (rnd64 (a / d)). split; [apply is_div; auto; [lra|apply bigp; lra]|]. destruct (near (a / d)) as [Q3 Q4]; [lra|]. lra.
  Qed.

  Lemma cs_ok : exists c, is (calc_cs dim mu_eff) c /\ 0 < c < 1.
  Proof. destruct cs_range as [c [H1 H2]]. exists c. split; [exact H1|lra]. Qed.

  Lemma damp_range : exists d, is (calc_damp_s dim mu_eff (calc_cs dim mu_eff)) d /\ 1 <= d <= 5000000.
  Proof.
    unfold calc_damp_s. destruct D_range as [D1 D2]. pose proof D_is as HD. destruct cs_ok as [cs [Ic Hc]].
    assert (I1 : is (nsub mu_eff n1) (rnd64 (M - 1))) by (apply is_sub; auto; [exact is1|apply bigp; lra]).
    assert (A1 : 0 <= rnd64 (M - 1)) by (apply rnd_nonneg; lra).
    assert (A2 : rnd64 (M - 1) <= 1200000000000) by (apply (rnd_le_int 1200000000000); [lia|lra]).
    assert (I2 : is (nadd (nofN dim) n1) (rnd64 (D + 1))) by (apply is_add; auto; [exact is1|apply bigp; lra]).
    assert (B1 : 2 <= rnd64 (D + 1)) by (apply (rnd_int_le 2); [lia|lra]).
    set (a := rnd64 (M - 1)) in *. set (b := rnd64 (D + 1)) in *. clearbody a b.
    assert (Q1 : 0 <= a / b) by (apply Rmult_le_pos; [lra|left; apply Rinv_0_lt_compat; lra]).
    assert (Q2 : a / b <= 1200000000000) by (apply Rmult_le_reg_r with b; [lra|]; replace (a / b * b) with a by (field; lra); nra).
    assert (I3 : is (ndiv (nsub mu_eff n1) (nadd (nofN dim) n1)) (rnd64 (a / b))) by (apply is_div; auto; [lra|apply bigp; lra]).
    assert (C1 : 0 <= rnd64 (a / b)) by (apply rnd_nonneg; lra).
    assert (C2 : rnd64 (a / b) <= 1200000000000) by (apply (rnd_le_int 1200000000000); [lia|lra]).
    set (q := rnd64 (a / b)) in *. clearbody q. pose proof (is_sqrt _ _ I3 C1) as I4.
    assert (S1 : 0 <= sqrt q) by apply sqrt_pos.
    assert (S2 : sqrt q <= 2000000).
    { rewrite <- (sqrt_square 2000000) by lra. apply sqrt_le_1_alt. lra. }
    assert (T1 : 0 <= rnd64 (sqrt q)) by (apply rnd_nonneg; lra).
    assert (T2 : rnd64 (sqrt q) <= 2000000) by (apply (rnd_le_int 2000000); [lia|lra]).
    set (s := rnd64 (sqrt q)) in *. clearbody s.
    assert (I5 : is (nsub (nsqrt (ndiv (nsub mu_eff n1) (nadd (nofN dim) n1))) n1) (rnd64 (s - 1))).
    { apply is_sub; auto; [exact is1|]. apply big. apply Rabs_le. lra. }
    assert (U2 : rnd64 (s - 1) <= 2000000) by (apply (rnd_le_int 2000000); [lia|lra]).
    set (t := rnd64 (s - 1)) in *. clearbody t.
    assert (I6 : exists m, is (nmax (nsub (nsqrt (ndiv (nsub mu_eff n1) (nadd (nofN dim) n1))) n1) n0) m /\ 0 <= m <= 2000000).
    { unfold nmax. rewrite (is_not_nan _ _ I5), (is_not_nan _ _ is0). destruct (nltb n0 _) eqn:El.
      - apply (is_lt _ _ _ _ is0 I5) in El. exists t. split; [exact I5|lra].
      - exists 0. split; [exact is0|lra]. }
    destruct I6 as [m [I6 Hm]].
    pose proof (rnd_dbl _ _ I6 (bigp (2 * m) ltac:(lra) ltac:(lra))) as I7.
    assert (I8 : is (nadd n1 (calc_cs dim mu_eff)) (rnd64 (1 + cs))) by (apply is_add; [exact is1|exact Ic|apply bigp; lra]).
    assert (V1 : 1 <= rnd64 (1 + cs)) by (apply (rnd_int_le 1); [lia|lra]). assert (V2 : rnd64 (1 + cs) <= 2) by (apply (rnd_le_int 2); [lia|lra]).
    set (v := rnd64 (1 + cs)) in *. clearbody v.
    eexists. split; [apply is_add; [exact I8|exact I7|apply bigp; lra]|]. split; [apply (rnd_int_le 1); [lia|lra]|apply (rnd_le_int 5000000); [lia|lra]].
  Qed.
  Lemma damp_ok : exists d, is (calc_damp_s dim mu_eff (calc_cs dim mu_eff)) d /\ 1 <= d.
  Proof. destruct damp_range as [d [H1 H2]]. exists d. split; [exact H1|lra]. Qed.

  (* M - 2 + 1/M *)
  Lemma t_ok : 114 / 100 <= M -> exists t, is (nadd (nsub mu_eff n2) (ndiv n1 mu_eff)) t /\ / 128 <= t <= 1300000000000.
  Proof.
    intros HM1. assert (J : 0 < 1 / M <= 1).
    { split; [apply Rdiv_lt_0_compat; lra|]. apply Rmult_le_reg_r with M; [lra|]. replace (1 / M * M) with 1 by (field; lra). lra. }
    assert (I1 : is (ndiv n1 mu_eff) (rnd64 (1 / M))) by (apply is_div; [exact is1|exact HM|lra|apply bigp; lra]).
    assert (A0 : 0 <= rnd64 (1 / M)) by (apply rnd_nonneg; lra). assert (A1 : rnd64 (1 / M) <= 1) by (apply (rnd_le_int 1); [lia|lra]).
    assert (I2 : is (nsub mu_eff n2) (rnd64 (M - 2))) by (apply is_sub; [exact HM|exact is2|apply big; apply Rabs_le; lra]).
    assert (B0 : -1 <= rnd64 (M - 2)) by (apply (rnd_int_le (-1)); [lia|lra]).
    assert (B1 : rnd64 (M - 2) <= 1200000000000) by (apply (rnd_le_int 1200000000000); [lia|lra]).
    assert (G : / 128 <= rnd64 (M - 2) + rnd64 (1 / M)).
    { destruct (Rle_lt_dec M (21 / 10)) as [L|L].
      - assert (E : rnd64 (M - 2) = M - 2).
        { apply rnd64_id. apply sterbenz; try apply valid_fexp64.
          - change fexp64 with (FLT_exp (-1074) 53). apply FLT_exp_monotone.
          - eapply is_format; exact HM.
          - eapply is_format; exact is2.
          - lra. }
        rewrite E. destruct (near (1 / M)) as [N1 N2].
        { apply Rmult_le_reg_r with M; [lra|]. replace (1 / M * M) with 1 by (field; lra). lra. }
        assert (K : 17 / 1000 <= M - 2 + 1 / M).
        { apply Rmult_le_reg_r with M; [lra|]. replace ((M - 2 + 1 / M) * M) with ((M - 1) * (M - 1)) by (field; lra). nra. }
        lra.
      - destruct (near (M - 2)) as [N1 _]; [lra|]. lra. }
    set (a := rnd64 (M - 2)) in *. set (b := rnd64 (1 / M)) in *. clearbody a b.
    assert (I3 : is (nadd (nsub mu_eff n2) (ndiv n1 mu_eff)) (rnd64 (a + b))) by (apply is_add; auto; apply bigp; lra).
    eexists. split; [exact I3|]. split.
    - assert (Z : rnd64 (bpow radix2 (-7)) <= rnd64 (a + b)) by (apply rnd64_le; cbn; lra).
      rewrite (rnd64_id (bpow radix2 (-7))) in Z by (apply generic_format_bpow; unfold SpecFloat.fexp, SpecFloat.emin; lia). change (bpow radix2 (-7)) with (/ 128) in Z. lra.
    - apply (rnd_le_int 1300000000000); [lia|lra].
  Qed.

  Lemma cmu_den : exists z, is (nadd (powi (nadd (nofN dim) n2) 2) (ndiv (nmul n2 mu_eff) n2)) z /\ 4 <= z <= 1000000000000000000000000000000000.
  Proof.
    destruct D_range as [D1 D2]. pose proof D_is as HD.
    assert (I1 : is (nadd (nofN dim) n2) (rnd64 (D + 2))) by (apply is_add; auto; [exact is2|apply bigp; lra]).
    assert (A1 : 2 <= rnd64 (D + 2)) by (apply (rnd_int_le 2); [lia|lra]). destruct (near (D + 2)) as [_ A2]; [lra|].
    set (x := rnd64 (D + 2)) in *. clearbody x.
    assert (I2 : is (powi (nadd (nofN dim) n2) 2) (rnd64 (x * x))) by (apply is_powi2; auto; apply bigp; nra).
    assert (B1 : 4 <= rnd64 (x * x)) by (apply (rnd_int_le 4); [lia|nra]). destruct (near (x * x)) as [_ B2]; [nra|].
    assert (B3 : x * x <= 100000000000000000000000000000000) by nra. set (y := rnd64 (x * x)) in *. clearbody y.
    assert (I3 : is (ndiv (nmul n2 mu_eff) n2) M).
    { assert (I : is (nmul n2 mu_eff) (2 * M)) by (apply rnd_dbl; [exact HM|apply bigp; lra]).
      apply rnd_halve; auto; [apply bigp; lra|eapply is_format; exact HM]. }
    assert (I4 : is (nadd (powi (nadd (nofN dim) n2) 2) (ndiv (nmul n2 mu_eff) n2)) (rnd64 (y + M))) by (apply is_add; auto; apply bigp; lra).
    eexists. split; [exact I4|]. split; [apply (rnd_int_le 4); [lia|lra]|]. destruct (near (y + M)) as [_ C2]; [lra|]. lra.
  Qed.

  (* either there is one weight and the rank-mu update is off, or cmu is positive *)
  Lemma cmu_ok : forall c, is (calc_c1 dim mu_eff) c -> c <= 1 / 2 -> 0 <= c ->
    (M = 1 /\ calc_cmu dim mu_eff (calc_c1 dim mu_eff) = B754_zero false \/
     114 / 100 <= M /\ exists m, is (calc_cmu dim mu_eff (calc_c1 dim mu_eff)) m /\ / 1000000000000000000000000000000000000 <= m <= rnd64 (1 - c)) .
  Proof.
    intros c Ic C1 C0. destruct cmu_den as [z [Iz Hz]].
    assert (I1 : is (nsub n1 (calc_c1 dim mu_eff)) (rnd64 (1 - c))) by (apply is_sub; [exact is1|exact Ic|apply bigp; lra]).
    assert (A1 : / 4 <= rnd64 (1 - c)) by (destruct (near (1 - c)) as [N1 _]; [lra|lra]).
    destruct M1 as [E|L].
    - left. split; [exact E|]. unfold calc_cmu.
      assert (Em : mu_eff = n1) by (apply (is_inj _ _ 1); [rewrite <- E; exact HM|exact is1|lra]).
      assert (En : nmul n2 (nadd (nsub mu_eff n2) (ndiv n1 mu_eff)) = (B754_zero false : f64)) by (rewrite Em; vm_compute; reflexivity).
      rewrite En. set (den := nadd _ _) in *. clearbody den.
      assert (Ed : ndiv (B754_zero false : f64) den = B754_zero false).
      { destruct den as [s|s| |s m e He]; try discriminate Iz; [unfold is in Iz; cbn in Iz; injection Iz as Iz; lra|].
        destruct s; [|reflexivity]. apply is_B2R in Iz. destruct Iz as [_ Iz]. cbn [B2R] in Iz.
        assert (K : F2R (Float radix2 (cond_Zopp true (Zpos m)) e) < 0) by (apply F2R_lt_0; reflexivity). lra. }
      rewrite Ed. assert (I0 : is (B754_zero false : f64) 0) by reflexivity.
      unfold nmin. rewrite (is_not_nan _ _ I1), (is_not_nan _ _ I0). rewrite (proj2 (is_nlt _ _ _ _ I1 I0)) by lra. reflexivity.
    - right. split; [exact L|]. destruct (t_ok L) as [t [It Ht]]. unfold calc_cmu.
      pose proof (rnd_dbl _ _ It (bigp (2 * t) ltac:(lra) ltac:(lra))) as I2. set (num := nmul n2 (nadd _ _)) in *. set (den := nadd (powi _ 2) _) in *.
      assert (Q1 : / 100000000000000000000000000000000000 * 1 <= 2 * t / z).
      { apply Rmult_le_reg_r with z; [lra|]. replace (2 * t / z * z) with (2 * t) by (field; lra). lra. }
      assert (Q2 : 2 * t / z <= 1000000000000) by (apply Rmult_le_reg_r with z; [lra|]; replace (2 * t / z * z) with (2 * t) by (field; lra); lra).
      assert (I3 : is (ndiv num den) (rnd64 (2 * t / z))).
      { apply is_div; [exact I2|exact Iz|lra|]. apply bigp; lra. }
      destruct (near (2 * t / z)) as [N1 _]; [lra|]. set (q := rnd64 (2 * t / z)) in *. clearbody q.
      unfold nmin. rewrite (is_not_nan _ _ I1), (is_not_nan _ _ I3). destruct (nltb _ _) eqn:El.
      + exists (rnd64 (1 - c)). split; [exact I1|lra].
      + apply (is_nlt _ _ _ _ I1 I3) in El. exists q. split; [exact I3|lra].
  Qed.
End Rates.
