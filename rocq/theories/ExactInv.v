(* Invariants of the state in exact arithmetic. Lemmas only. *)
From Coq Require Import List NArith ZArith Bool Arith Lia Reals Lra Permutation.
From Flocq Require Import Core.
Require Import Verif.Base Verif.Num Verif.XReal Verif.LinAlg Verif.Mode Verif.Weights Verif.Options Verif.Params Verif.Env
  Verif.State Verif.Sampling Verif.History Verif.Termination Verif.Plot Verif.Cmaes Verif.Lib Verif.Sort
  Verif.NextInv Verif.Spec Verif.LogLemmas Verif.TraceLemmas Verif.BuildLemmas Verif.NextSafe Verif.RSum Verif.WeightLemmas Verif.ExactStep Verif.ExactEigen.
Import ListNotations.
Open Scope nat_scope.

(* ---- the parameters of accepted options ---- *)
Definition re (x : xreal) : R := match x with XFin r => r | _ => 0%R end.
Definition rates_of (o : options xreal) : rates :=
  let n := INR (length (o_initial_mean o)) in let l := o_population_size o in let s := o_weights o in let m := meff s l in
  mkRates (length (o_initial_mean o)) (half l) (count s l) (weight n s l) m (ccR n m) (c1R n m) (csR n m) (cmuR n m) (re (o_cm o)) (dampR n m).
Definition lamb (o : options xreal) : nat := N.to_nat (o_population_size o).

Lemma valid_opts : forall o : options xreal, validate o = None ->
  (2 <= o_population_size o)%N /\ 1 <= length (o_initial_mean o) /\
  (exists sg, o_initial_step_size o = XFin sg /\ (0 < sg)%R) /\ (exists cm, o_cm o = XFin cm /\ (0 < cm <= 1)%R).
Proof.
  intros o H. unfold validate in H. destruct (Nat.eqb_spec (length (o_initial_mean o)) 0); [discriminate H|].
  destruct (N.ltb_spec (o_population_size o) 2); [discriminate H|].
  unfold is_initial_step_size_valid in H. destruct (nis_normal (o_initial_step_size o) && ngtb (o_initial_step_size o) n0) eqn:E1; cbn [negb] in H; [|discriminate H].
  destruct (negb (nis_normal (o_cm o)) || nleb (o_cm o) n0 || ngtb (o_cm o) n1) eqn:E2; [discriminate H|].
  split; [exact H0|]. split; [lia|]. split.
  - destruct (o_initial_step_size o) as [| |sg]; cbn in E1; try discriminate E1. apply andb_true_iff in E1. destruct E1 as [_ E1].
    exists sg. split; [reflexivity|]. unfold ngtb, n0 in E1. cbn in E1. unfold Rltb in E1. destruct (Rlt_dec 0 sg); [assumption|discriminate E1].
  - apply orb_false_iff in E2. destruct E2 as [E2 E4]. apply orb_false_iff in E2. destruct E2 as [E2 E3].
    destruct (o_cm o) as [| |cm]; cbn in E2; try discriminate E2. exists cm. split; [reflexivity|].
    unfold ngtb, n1 in E4. cbn in E3, E4. unfold x_leb in E3. cbn in E3. unfold Rltb, Reqb in *.
    destruct (Rlt_dec cm 0), (Req_EM_T cm 0), (Rlt_dec 1 cm); cbn in *; try discriminate; lra.
Qed.

Lemma params_fin : forall o seed, validate o = None -> par_fin (params_of_options o seed) (rates_of o) /\ rates_ok (rates_of o) (lamb o).
Proof.
  intros o seed Hv. destruct (valid_opts o Hv) as [Hl [Hd [_ [cm [Hcm Hc]]]]].
  set (l := o_population_size o) in *. set (s := o_weights o). set (dim := N.of_nat (length (o_initial_mean o))) in *.
  assert (Hdim : (1 <= dim)%N) by (unfold dim; lia).
  assert (Hn : INR (length (o_initial_mean o)) = INR (N.to_nat dim)) by (unfold dim; rewrite Nat2N.id; reflexivity).
  destruct (half_bounds l Hl) as [Hh Hb]. pose proof (meff_bounds s l Hl) as [M1 M2]. pose proof (mu_eff_fin s l Hl) as ME. pose proof (finalize_fin s l dim Hl Hdim) as FW. cbv zeta in FW.
  set (m := meff s l) in *. pose proof (count_half s l) as CH.
  split.
  - constructor; unfold params_of_options, rates_of; cbn [p_dim p_mu p_weights p_mu_eff p_cc p_c1 p_cs p_cmu p_cm p_damp_s q_n q_mu q_cnt q_w q_meff q_cc q_c1 q_cs q_cmu q_cm q_ds];
      fold l s dim m; rewrite ?ME, ?Hn.
    + reflexivity.
    + reflexivity.
    + rewrite (c1_fin dim m Hdim M1), (cmu_fin dim m Hdim M1). exact FW.
    + reflexivity.
    + apply cc_fin; auto.
    + apply c1_fin; auto.
    + apply cs_fin; auto.
    + rewrite (c1_fin dim m Hdim M1). apply cmu_fin; auto.
    + rewrite Hcm. reflexivity.
    + rewrite (cs_fin dim m Hdim M1). apply damp_fin; auto.
  - constructor; unfold rates_of, lamb; cbn [q_n q_mu q_cnt q_w q_meff q_cc q_c1 q_cs q_cmu q_cm q_ds]; fold l s m; rewrite ?Hn; auto.
    + unfold s. destruct (o_weights o); cbn [count]; lia.
    + apply cs_range; auto.
    + apply cc_range; auto.
    + apply c1_range; auto.
    + apply cmu_range; auto.
    + apply damp_range; auto.
Qed.

(* what the weights give for the covariance update *)
Definition neg_mass (q : rates) : R := (- Sig (q_cnt q - q_mu q) (fun i => q_w q (q_mu q + i)%nat))%R.
Lemma neg_mass_facts : forall o, validate o = None ->
  let q := rates_of o in let a := neg_mass q in
  (forall k, k < q_mu q -> (0 < q_w q k)%R) /\ (forall k, q_mu q <= k -> k < q_cnt q -> (q_w q k <= 0)%R) /\
  Sig (q_cnt q) (q_w q) = (1 - a)%R /\ (0 <= a)%R /\ (q_cmu q * a <= q_c1 q + q_cmu q)%R /\
  (INR (q_n q) * (q_cmu q * a) <= 1 - (q_c1 q + q_cmu q))%R /\ (o_weights o <> WNegative -> q_cnt q = q_mu q).
Proof.
  intros o Hv q a. destruct (valid_opts o Hv) as [Hl [Hd _]].
  set (l := o_population_size o) in *. set (s := o_weights o). set (dim := N.of_nat (length (o_initial_mean o))) in *.
  assert (Hdim : (1 <= dim)%N) by (unfold dim; lia).
  assert (Hn : INR (length (o_initial_mean o)) = INR (N.to_nat dim)) by (unfold dim; rewrite Nat2N.id; reflexivity).
  destruct (half_bounds l Hl) as [Hh Hb]. pose proof (meff_bounds s l Hl) as [M1 M2]. pose proof (base_sum_pos s l Hl) as Pos. pose proof (neg_sum_pos l Hl) as [NP NE].
  pose proof (count_half s l) as CH. set (n := INR (N.to_nat dim)) in *. assert (Hn1 : (1 <= n)%R) by (apply n_ge; exact Hdim).
  pose proof (alpha_nonneg dim (meff s l) l Hdim Hl M1) as A0. fold n in A0. set (m := meff s l) in *.
  pose proof (c1_range dim m Hdim M1) as C1. pose proof (cmu_range dim m Hdim M1) as C2. fold n in C1, C2.
  assert (W1 : forall i, i < half l -> weight n s l i = (base s l i / Sig (half l) (base s l))%R).
  { intros i Hi. unfold weight. destruct (Nat.ltb_spec i (half l)); [reflexivity|lia]. }
  assert (W2 : forall i, half l <= i -> weight n s l i = (base s l i * alpha n m l / neg_sum l)%R).
  { intros i Hi. unfold weight. destruct (Nat.ltb_spec i (half l)); [lia|reflexivity]. }
  assert (A : a = (match s with WNegative => alpha n m l | _ => 0 end)%R).
  { unfold a, neg_mass, q, rates_of. cbn [q_mu q_cnt q_w]. fold l s m. rewrite Hn. fold n. destruct s eqn:Es; cbn [count].
    - rewrite Nat.sub_diag. cbn. lra.
    - rewrite (Sig_ext _ _ (fun i => (rawR l (half l + i) * (alpha n m l / neg_sum l))%R)).
      + rewrite Sig_mul_r. assert (X : Sig (N.to_nat l - half l) (fun i => rawR l (half l + i)) = (- neg_sum l)%R) by lra. rewrite X. field. lra.
      + intros i _. rewrite W2 by lia. cbn [base]. unfold Rdiv. ring.
    - rewrite Nat.sub_diag. cbn. lra. }
  assert (Bnd : (0 <= a)%R /\ (cmuR n m * a <= c1R n m + cmuR n m)%R /\ (n * (cmuR n m * a) <= 1 - (c1R n m + cmuR n m))%R).
  { assert (Z : (0 <= 0)%R /\ (cmuR n m * 0 <= c1R n m + cmuR n m)%R /\ (n * (cmuR n m * 0) <= 1 - (c1R n m + cmuR n m))%R) by (rewrite !Rmult_0_r; lra).
    rewrite A. destruct s; [exact Z| |exact Z]. split; [exact A0|]. unfold alpha. destruct (Req_EM_T (cmuR n m) 0) as [Q|Q].
    - rewrite Q, !Rmult_0_l, Rmult_0_r. lra.
    - set (x := (1 + c1R n m / cmuR n m)%R). set (z := ((1 - c1R n m - cmuR n m) / (n * cmuR n m))%R). match goal with |- context [Rmin x (Rmin ?e z)] => set (yy := e) end.
      pose proof (Rmin_l x (Rmin yy z)) as L1. pose proof (Rmin_r x (Rmin yy z)) as L2. pose proof (Rmin_r yy z) as L3. set (r := Rmin x (Rmin yy z)) in *.
      assert (X1 : (cmuR n m * x = c1R n m + cmuR n m)%R) by (unfold x; field; exact Q).
      assert (X2 : (n * (cmuR n m * z) = 1 - (c1R n m + cmuR n m))%R) by (unfold z; field; split; [exact Q|lra]).
      assert (P : (0 < cmuR n m)%R) by lra. split; [rewrite <- X1; apply Rmult_le_compat_l; lra|]. rewrite <- X2. apply Rmult_le_compat_l; [lra|]. apply Rmult_le_compat_l; lra. }
  assert (Sp : Sig (half l) (weight n s l) = 1%R).
  { rewrite (Sig_ext _ _ _ W1). unfold Rdiv. rewrite Sig_mul_r. field. lra. }
  unfold q, rates_of. cbn [q_mu q_cnt q_w q_n q_cmu q_c1]. fold l s m. rewrite Hn. fold n.
  split. { intros k Hk. rewrite (W1 k Hk). apply Rdiv_lt_0_compat; [apply base_pos; exact Hk|exact Pos]. }
  split. { intros k H1 H2. rewrite (W2 k H1). assert (B : (base s l k <= 0)%R).
    { destruct s; cbn [count base] in *; try lia. apply rawR_nonpos. exact H1. }
    apply Rmult_le_reg_r with (neg_sum l); [exact NP|]. unfold Rdiv. rewrite Rmult_assoc, Rinv_l, Rmult_0_l by lra. nra. }
  split. { unfold a, neg_mass, q, rates_of. cbn [q_mu q_cnt q_w]. fold l s m. rewrite Hn. fold n. replace (count s l) with (half l + (count s l - half l)) at 1 by lia. rewrite Sig_split, Sp. lra. }
  split; [apply Bnd|]. split; [apply Bnd|]. split; [apply Bnd|]. unfold s. destruct (o_weights o); cbn [count]; intros X; congruence.
Qed.

Section Inv.
  Context {E : Env xreal} {F : Type} (ev : F -> vec xreal -> outcome (xreal * F)).

  (* the random numbers are finite; no vector of them is zero *)
  Definition finite_draws (n : nat) : Prop := forall g k, exists z, fv n (normals n g k) z.
  Definition nonzero_draws (n : nat) : Prop := forall g k, exists z, fv n (normals n g k) z /\ nonzero n z.

  Lemma rounds_incl : forall (acc : N -> vec xreal -> bool) lambda k have cands out y,
    rounds acc lambda k have cands out -> In y out -> In y (concat cands).
  Proof.
    induction 1 as [|k have cand rest out _ _ _ IH]; [intros []|]. intros Hy. cbn [concat]. apply in_or_app. apply in_app_or in Hy.
    destruct Hy as [Hy|Hy]; [left|right; auto]. apply filter_In in Hy. apply Hy.
  Qed.

  (* the ranked points of a generation: steps T z for draws z, points mean + sigma * step *)
  Lemma sample_real : forall n par tk s m (sm : sampler xreal F) inds sm' v,
    sample ev par tk s m sm = Ret (Some inds, sm') -> sfin n s v -> sm_dim sm = n -> finite_draws n ->
    length inds = N.to_nat (sm_population_size sm) /\ sm_function_evals sm' = (sm_function_evals sm + sm_population_size sm)%N /\
    forall p, In p inds -> exists g k z, fv n (normals n g k) z /\ fv n (pt_step p) (fun i => Sig n (fun l => (v_T v i l * z l)%R)) /\
      fv n (pt_point p) (fun i => (v_m v i + v_sg v * Sig n (fun l => (v_T v i l * z l)))%R).
  Proof.
    intros n par tk s m sm inds sm' v H Hs Hd Hf. apply sample_Some in H. destruct H as [ys [g [f [pts [H1 [H2 [H3 [H4 [H5 H6]]]]]]]]].
    subst inds sm'. split; [rewrite sort_by_length, <- (Forall2_len _ _ _ H4); exact H2|]. split; [reflexivity|].
    intros p Hp. apply (Permutation_in _ (Permutation_sym (sort_by_perm _ _))) in Hp.
    assert (G : exists y, In y ys /\ evaluated s y p).
    { clear -H4 Hp. induction H4 as [|y q ys pts Hyq H4 IH]; [destruct Hp|]. destruct Hp as [-> |Hp]; [exists y; split; [left; reflexivity|exact Hyq]|].
      destruct (IH Hp) as [y0 [A B]]. exists y0. split; [right; exact A|exact B]. }
    destruct G as [y [Hy [Ey [Ept _]]]]. apply resample_spec in H1. destruct H1 as [cands [out [R1 [R2 [R3 R4]]]]]. cbn [app] in R2. subst ys.
    apply (rounds_incl _ _ _ _ _ _ _ R1) in Hy. rewrite R3 in Hy. apply in_map_iff in Hy. destruct Hy as [k [Hk _]]. rewrite Hd in Hk.
    destruct (Hf (sm_rng sm) k) as [z Hz]. exists (sm_rng sm), k, z. split; [exact Hz|].
    assert (St : fv n (pt_step p) (fun i => Sig n (fun l => (v_T v i l * z l)%R))).
    { rewrite Ey, <- Hk. unfold step_at. apply (fm_mvmul n _ _ _ _ (sf_T _ _ _ Hs) Hz). }
    split; [exact St|]. unfold to_point in Ept. rewrite (sf_sg _ _ _ Hs) in Ept. rewrite <- Ey in Ept.
    destruct (fv_add n _ _ _ _ (sf_m _ _ _ Hs) (fv_scale n (v_sg v) _ _ St)) as [A B]. rewrite A in Ept. apply (f_equal (fun r => match r with Ret x => x | _ => [] end)) in Ept. rewrite <- Ept. exact B.
  Qed.

  (* the numbers are finite, the decomposition is one of some positive definite matrix *)
  Record decomposed (n : nat) (v : rstate) : Prop := {
    dc_sym : symmetric n (v_C v);
    dc_orth : orthogonal n (v_B v);
    dc_d : forall k, k < n -> (0 < v_d v k)%R;
    dc_S : forall i j, i < n -> j < n -> v_S v i j = compose n (v_B v) (fun k => / v_d v k)%R i j;
    dc_T : forall i j, i < n -> j < n -> v_T v i j = (v_B v i j * v_d v j)%R
  }.
  Definition steps_of (inds : list (point xreal)) (k i : nat) : R :=
    match nth_error inds k with Some p => re (nth i (pt_step p) n0) | None => 0%R end.

  Lemma steps_of_fv : forall n inds k d x, k < length inds -> fv n (pt_step (nth k inds d)) x ->
    fv n (pt_step (nth k inds d)) (steps_of inds k) /\ (forall i, i < n -> steps_of inds k i = x i).
  Proof.
    intros n inds k d x Hk H. assert (X : forall i, i < n -> steps_of inds k i = x i).
    { intros i Hi. unfold steps_of. rewrite (nth_error_nth' inds d Hk). rewrite (proj2 H i Hi). reflexivity. }
    split; [|exact X]. eapply fv_ext; [|exact H]. intros i Hi. symmetry. apply X. exact Hi.
  Qed.

  Section Update.
    Variables (o : options xreal) (seed : N) (v : rstate) (s : state xreal) (inds : list (point xreal)).
    Hypothesis Hv : validate o = None.
    Let q := rates_of o.
    Let n := q_n q.
    Hypothesis Hs : sfin n s v.
    Hypothesis Hdc : decomposed n v.
    Hypothesis Hl : length inds = lamb o.
    Hypothesis Hin : forall p, In p inds -> exists z, fv n (pt_step p) (fun i => Sig n (fun l => (v_T v i l * z l)%R)) /\
      (o_weights o = WNegative -> nonzero n z).
    Hypothesis Hsol : exact_solver n.
    Let y := steps_of inds.

    Lemma step_fv : forall k d, k < lamb o -> fv n (pt_step (nth k inds d)) (y k).
    Proof.
      intros k d Hk. assert (K : k < length inds) by (rewrite Hl; exact Hk). destruct (Hin (nth k inds d) (nth_In _ _ K)) as [z [Z _]].
      apply (steps_of_fv n inds k d _ K Z).
    Qed.
    Lemma step_draw : forall k, k < lamb o -> exists z, (forall i, i < n -> y k i = Sig n (fun l => (v_B v i l * v_d v l * z l)%R)) /\ (o_weights o = WNegative -> nonzero n z).
    Proof.
      intros k Hk. assert (K : k < length inds) by (rewrite Hl; exact Hk). destruct (nth_error inds k) as [d|] eqn:Ed; [|apply nth_error_None in Ed; lia]. clear Ed.
      destruct (Hin (nth k inds d) (nth_In _ _ K)) as [z [Z Nz]]. exists z. split; [|exact Nz]. intros i Hi.
      unfold y. rewrite (proj2 (steps_of_fv n inds k d _ K Z) i Hi). apply Sig_ext. intros l Hl1. rewrite (dc_T _ _ Hdc i l Hi Hl1). reflexivity.
    Qed.
    (* the steps with negative weights can be rescaled *)
    Lemma rescaled : forall k, k < q_cnt q -> (q_w q k < 0)%R -> (0 < dotR n (SyR q v y k) (SyR q v y k))%R.
    Proof.
      intros k Hk Hw. destruct (neg_mass_facts o Hv) as [W1 [W2 [_ [_ [_ [_ W3]]]]]]. fold q in W1, W2, W3. destruct (params_fin o seed Hv) as [_ Hq]. fold q in Hq.
      assert (Neg : o_weights o = WNegative).
      { destruct (o_weights o) eqn:Ew; auto; exfalso; rewrite W3 in Hk by discriminate; pose proof (W1 k Hk); lra. }
      destruct (step_draw k) as [z [Hz Nz]]; [pose proof (ro_cnt _ _ Hq); lia|].
      assert (X : forall i, i < n -> SyR q v y k i = Sig n (fun l => (v_B v i l * z l)%R)).
      { intros i Hi. unfold SyR. fold n. rewrite <- (whiten n (v_B v) (dc_orth _ _ Hdc) (v_d v) z i (dc_d _ _ Hdc) Hi).
        apply Sig_ext. intros j Hj. rewrite (dc_S _ _ Hdc i j Hi Hj). f_equal. apply Hz. exact Hj. }
      unfold dotR. rewrite (Sig_ext _ _ (fun i => (Sig n (fun l => (v_B v i l * z l)) * Sig n (fun l => (v_B v i l * z l)))%R)) by (intros i Hi; rewrite (X i Hi); reflexivity).
      pose proof (orth_norm n (v_B v) (dc_orth _ _ Hdc) z) as O. unfold dotR at 1 in O. rewrite O. apply dotR_pos. apply Nz. exact Neg.
    Qed.

    Lemma update_real : forall tree evals, let p := params_of_options o seed in
      exists ok s' v' h, state_update tree evals p inds s = Ret (ok, s') /\ sfin n s' v' /\ decomposed n v' /\
        (h = 0 \/ h = 1)%R /\ (forall ps, fv n ps (psR q v y) -> calc_hs p (st_generation s) ps = XFin h) /\
        v_m v' = meanR q v y /\ v_sg v' = sgR q v y /\ v_ps v' = psR q v y /\ v_pc v' = pcR q v y h /\ v_C v' = covR q v y h /\
        st_generation s' = (if ok then st_generation s + 1 else st_generation s)%N /\
        if do_eigen_update p s evals then
          (exists V lam, orthogonal n V /\ diagonalizes n (covR q v y h) V lam /\
             if ok then (forall k, k < n -> (0 < lam k)%R) /\ st_last_eigen s' = evals /\ v_B v' = V /\ v_d v' = (fun k => sqrt (lam k))
             else (exists k, k < n /\ (lam k <= 0)%R) /\ st_last_eigen s' = st_last_eigen s /\ v_B v' = v_B v /\ v_d v' = v_d v)
        else ok = true /\ st_last_eigen s' = st_last_eigen s /\ v_B v' = v_B v /\ v_d v' = v_d v.
    Proof.
      intros tree evals p. destruct (params_fin o seed Hv) as [Hp Hq]. fold p q in Hp, Hq.
      assert (Hneg : forall k, k < q_cnt q -> (q_w q k < 0)%R -> (dotR n (SyR q v y k) (SyR q v y k) <> 0)%R).
      { intros k Hk Hw. apply Rgt_not_eq. apply (rescaled k Hk Hw). }
      destruct (update_exact q (lamb o) v y p s inds Hp Hq Hs Hl step_fv Hneg tree evals (dc_sym _ _ Hdc)) as [mean [ps [pc [cov [h [Hh [Hhs [Hm [Hps [Hpc [Hc Hu]]]]]]]]]]].
      assert (Hsym : symmetric n (covR q v y h)) by (apply (cov_symm q v y h (dc_sym _ _ Hdc))).
      assert (Hfill : fm n (fill_lower cov) (covR q v y h)).
      { eapply fm_ext; [|apply (fm_fill_lower n _ _ Hc)]. intros i j Hi Hj. cbn beta. destruct (j <? i); [apply Hsym; auto|reflexivity]. }
      assert (Hhs' : forall ps0, fv n ps0 (psR q v y) -> calc_hs p (st_generation s) ps0 = XFin h).
      { intros ps0 H0. rewrite (fv_eq n ps0 ps (psR q v y) H0 Hps). exact Hhs. }
      unfold set_cov in Hu. cbv zeta in Hu. destruct (do_eigen_update p s evals) eqn:De.
      - destruct (update_eigen_exact n (mkCov (fill_lower cov) (cm_eigenvectors (st_cov s)) (cm_sqrt_eigenvalues (st_cov s)) (cm_sqrt_inv (st_cov s)) (cm_transform (st_cov s)))
          (covR q v y h) (ro_n _ _ Hq) Hsol Hfill Hsym) as [V [lam [O1 [O2 O3]]]].
        destruct (existsb (fun k => if Rle_dec (lam k) 0 then true else false) (seq 0 n)) eqn:Ex.
        + rewrite O3 in Hu. cbn [obind] in Hu. rewrite Hu.
          eexists false, _, (mkRstate (meanR q v y) (sgR q v y) (pcR q v y h) (psR q v y) (covR q v y h) (v_B v) (v_d v) (v_S v) (v_T v)), h.
          split; [reflexivity|]. split; [constructor; cbn; auto; apply Hs|]. split; [constructor; cbn; auto; apply Hdc|].
          cbn [st_generation st_last_eigen v_m v_sg v_ps v_pc v_C v_B v_d]. split; [exact Hh|]. split; [exact Hhs'|]. do 6 (split; [reflexivity|]).
          exists V, lam. split; [exact O1|]. split; [exact O2|]. split; [|auto]. apply existsb_exists in Ex. destruct Ex as [k [K1 K2]]. apply in_seq in K1. exists k. split; [lia|].
          destruct (Rle_dec (lam k) 0); [assumption|discriminate K2].
        + destruct O3 as [c' [U1 [U2 [U3 [U4 [U5 U6]]]]]]. rewrite U1 in Hu. cbn [obind] in Hu. rewrite Hu.
          assert (P : forall k, k < n -> (0 < lam k)%R).
          { intros k Hk. destruct (Rle_dec (lam k) 0) as [Q|Q]; [|lra]. exfalso. assert (X : true = false); [|discriminate X]. rewrite <- Ex. symmetry. apply existsb_exists.
            exists k. split; [apply in_seq; lia|]. destruct (Rle_dec (lam k) 0); [reflexivity|lra]. }
          eexists true, _, (mkRstate (meanR q v y) (sgR q v y) (pcR q v y h) (psR q v y) (covR q v y h) V (fun k => sqrt (lam k)) (compose n V (fun k => / sqrt (lam k))%R) (fun i j => (V i j * sqrt (lam j))%R)), h.
          split; [reflexivity|]. split; [constructor; cbn; auto; rewrite U2; exact Hfill|].
          split; [constructor; cbn; auto; intros k Hk; apply sqrt_lt_R0; apply P; exact Hk|].
          cbn [st_generation st_last_eigen v_m v_sg v_ps v_pc v_C v_B v_d]. split; [exact Hh|]. split; [exact Hhs'|]. do 6 (split; [reflexivity|]). exists V, lam. split; [exact O1|]. split; [exact O2|]. split; [exact P|]. auto.
      - cbn [obind] in Hu. rewrite Hu.
        eexists true, _, (mkRstate (meanR q v y) (sgR q v y) (pcR q v y h) (psR q v y) (covR q v y h) (v_B v) (v_d v) (v_S v) (v_T v)), h.
        split; [reflexivity|]. split; [constructor; cbn; auto; apply Hs|]. split; [constructor; cbn; auto; apply Hdc|].
        cbn [st_generation st_last_eigen v_m v_sg v_ps v_pc v_C v_B v_d]. split; [exact Hh|]. split; [exact Hhs'|]. do 6 (split; [reflexivity|]). auto.
    Qed.
  End Update.

  (* ---- calls of next ---- *)
  (* what is assumed of the solver and of the random numbers *)
  Record world (o : options xreal) : Prop := {
    wd_valid : validate o = None;
    wd_mean : exists m0, fv (dims o) (o_initial_mean o) m0;
    wd_solver : exact_solver (dims o);
    wd_finite : finite_draws (dims o);
    wd_nonzero : o_weights o = WNegative -> nonzero_draws (dims o)
  }.
  Record good (o : options xreal) (c : cmaes xreal F) (v : rstate) : Prop := {
    gd_par : exists seed, c_params c = params_of_options o seed;
    gd_dim : sm_dim (c_sampler c) = dims o;
    gd_pop : sm_population_size (c_sampler c) = o_population_size o;
    gd_fin : sfin (dims o) (c_state c) v;
    gd_dec : decomposed (dims o) v;
    gd_sg : (0 < v_sg v)%R
  }.
  (* a completed generation: c, with the numbers v, became c', with the numbers v'; ok is false for PosDefCov *)
  Record moved (o : options xreal) (c c' : cmaes xreal F) (v v' : rstate) (inds : list (point xreal)) (h : R) (ok : bool) : Prop := {
    mv_len : length inds = lamb o;
    mv_draw : forall p, In p inds -> exists g k z, fv (dims o) (normals (dims o) g k) z /\ (o_weights o = WNegative -> nonzero (dims o) z) /\
      fv (dims o) (pt_step p) (fun i => Sig (dims o) (fun l => (v_T v i l * z l)%R)) /\
      fv (dims o) (pt_point p) (fun i => (v_m v i + v_sg v * Sig (dims o) (fun l => (v_T v i l * z l)))%R);
    mv_evals : function_evals c' = (function_evals c + o_population_size o)%N;
    mv_h : (h = 0 \/ h = 1)%R;
    mv_hs : calc_hs (c_params c) (generation c) (st_path_sigma (c_state c')) = XFin h;
    mv_m : v_m v' = meanR (rates_of o) v (steps_of inds);
    mv_sg : v_sg v' = sgR (rates_of o) v (steps_of inds);
    mv_ps : v_ps v' = psR (rates_of o) v (steps_of inds);
    mv_pc : v_pc v' = pcR (rates_of o) v (steps_of inds) h;
    mv_C : v_C v' = covR (rates_of o) v (steps_of inds) h;
    mv_eig : if do_eigen_update (c_params c) (c_state c) (function_evals c') then
          (exists V lam, orthogonal (dims o) V /\ diagonalizes (dims o) (v_C v') V lam /\
             if ok then (forall k, k < dims o -> (0 < lam k)%R) /\ st_last_eigen (c_state c') = function_evals c' /\ v_B v' = V /\ v_d v' = (fun k => sqrt (lam k))
             else (exists k, k < dims o /\ (lam k <= 0)%R) /\ st_last_eigen (c_state c') = st_last_eigen (c_state c) /\ v_B v' = v_B v /\ v_d v' = v_d v)
        else ok = true /\ st_last_eigen (c_state c') = st_last_eigen (c_state c) /\ v_B v' = v_B v /\ v_d v' = v_d v
  }.

  Lemma next_real : forall o c v par tk r c', world o -> good o c v -> next ev par tk c = Ret (r, c') ->
    (reports InvalidFunctionValue r = true /\ r = Some (get_termination_data c' [InvalidFunctionValue]) /\ c_state c' = c_state c /\
       function_evals c' = function_evals c /\ good o c' v) \/
    (reports InvalidFunctionValue r = false /\ exists v' inds h, good o c' v' /\ moved o c c' v v' inds h (negb (reports PosDefCov r)) /\
       sample ev par tk (c_state c) (p_mode (c_params c)) (c_sampler c) = Ret (Some inds, c_sampler c')).
  Proof.
    intros o c v par tk r c' W G H. pose proof (next_counters ev _ _ _ _ _ H) as [Ev _]. pose proof (next_setup ev _ _ _ _ _ H) as [P1 [_ [_ [P2 [_ [_ P3]]]]]].
    destruct (gd_par _ _ _ G) as [seed Gp]. pose proof (next_outcome ev _ _ _ _ _ H) as [[H1 [H2 [H3 H4]]]|[inds [ok [H1 [H2 [H3 [H4 H5]]]]]]].
    - left. split; [exact H2|]. split; [exact H3|]. split; [rewrite H4; reflexivity|]. rewrite H2 in Ev. rewrite N.add_0_r in Ev. split; [exact Ev|].
      constructor; [exists seed; congruence|rewrite P2; apply (gd_dim _ _ _ G)|rewrite P3; apply (gd_pop _ _ _ G)|rewrite H4; apply (gd_fin _ _ _ G)|apply (gd_dec _ _ _ G)|apply (gd_sg _ _ _ G)].
    - right. split; [exact H2|]. rewrite H2 in Ev. rewrite (gd_pop _ _ _ G) in Ev.
      destruct (sample_real (dims o) par tk (c_state c) _ _ inds _ v H1 (gd_fin _ _ _ G) (gd_dim _ _ _ G) (wd_finite _ W)) as [S1 [S2 S3]].
      rewrite (gd_pop _ _ _ G) in S1.
      assert (D : forall p, In p inds -> exists g k z, fv (dims o) (normals (dims o) g k) z /\ (o_weights o = WNegative -> nonzero (dims o) z) /\
        fv (dims o) (pt_step p) (fun i => Sig (dims o) (fun l => (v_T v i l * z l)%R)) /\
        fv (dims o) (pt_point p) (fun i => (v_m v i + v_sg v * Sig (dims o) (fun l => (v_T v i l * z l)))%R)).
      { intros p Hp. destruct (S3 p Hp) as [g [k [z [Z1 [Z2 Z3]]]]]. exists g, k, z. split; [exact Z1|]. split; [|auto]. intros Hw.
        destruct (wd_nonzero _ W Hw g k) as [z' [Z4 [i [Hi Hz]]]]. exists i. split; [exact Hi|]. rewrite (fv_det _ _ _ _ Z1 Z4 i Hi). exact Hz. }
      assert (D' : forall p, In p inds -> exists z, fv (dims o) (pt_step p) (fun i => Sig (dims o) (fun l => (v_T v i l * z l)%R)) /\ (o_weights o = WNegative -> nonzero (dims o) z)).
      { intros p Hp. destruct (D p Hp) as [g [k [z [_ [Z1 [Z2 _]]]]]]. exists z. auto. }
      destruct (update_real o seed v (c_state c) inds (wd_valid _ W) (gd_fin _ _ _ G) (gd_dec _ _ _ G) S1 D' (wd_solver _ W) (t_tree tk) (function_evals c'))
        as [ok' [s' [v' [h [U1 [U2 [U3 [U4 [U5 [U6 [U7 [U8 [U9 [U10 [U11 U12]]]]]]]]]]]]]]]. rewrite <- Gp in *.
      rewrite H4 in U1. assert (Eo : ok' = ok) by (apply (f_equal (fun x => match x with Ret (b, _) => b | _ => true end)) in U1; cbn in U1; congruence).
      assert (Es : s' = c_state c') by (apply (f_equal (fun x => match x with Ret (_, b) => b | _ => s' end)) in U1; cbn in U1; congruence). subst ok' s'.
      assert (Ro : negb (reports PosDefCov r) = ok) by (destruct H5 as [[-> [-> _]]|[-> [-> _]]]; reflexivity).
      exists v', inds, h. split; [|split; [|exact H1]].
      + constructor; [exists seed; congruence|rewrite P2; apply (gd_dim _ _ _ G)|rewrite P3; apply (gd_pop _ _ _ G)|exact U2|exact U3|]. rewrite U7. apply sg_pos. apply (gd_sg _ _ _ G).
      + rewrite Ro. constructor; auto.
        * apply U5. pose proof (sf_ps _ _ _ U2) as X. rewrite U8 in X. exact X.
        * rewrite U10. exact U12.
  Qed.

  Lemma fresh_good : forall o f c, world o -> built o f c -> exists v, good o c v /\ function_evals c = 0%N /\ st_last_eigen (c_state c) = 0%N /\
    v_C v = delta /\ v_B v = delta /\ v_d v = (fun _ => 1%R) /\ fv (dims o) (o_initial_mean o) (v_m v) /\ o_initial_step_size o = XFin (v_sg v).
  Proof.
    intros o f c W [rs [now H]]. pose proof (cmaes_new_inv _ _ _ _ _ H) as C. cbv zeta in C. destruct C as [C1 [C2 [C3 [C4 _]]]].
    destruct (valid_opts o C1) as [_ [Hd [[sg [Hsg Hpos]] _]]]. destruct (wd_mean _ W) as [m0 Hm].
    exists (mkRstate m0 sg (fun _ => 0%R) (fun _ => 0%R) delta delta (fun _ => 1%R) delta delta). split; [|split; [|split; [|repeat (split; [reflexivity|])]]].
    - constructor; cbn [v_sg]; [eexists; exact C3|rewrite C2; reflexivity|rewrite C2; reflexivity| | |exact Hpos].
      + rewrite C4. unfold state_new, cov_new. fold (dims o).
        constructor; cbn [st_mean st_sigma st_path_c st_path_sigma st_cov cm_cov cm_eigenvectors cm_sqrt_eigenvalues cm_sqrt_inv cm_transform v_m v_sg v_pc v_ps v_C v_B v_d v_S v_T];
          auto using fv_zeros, fm_identity. eapply fm_ext; [|apply fm_identity]. intros. cbn beta. ring.
      + constructor; cbn [v_C v_B v_d v_S v_T]; intros.
        * intros i j _ _. apply delta_sym.
        * apply orth_delta.
        * lra.
        * rewrite <- (compose_one (dims o) delta (orth_delta _) i j) by assumption. unfold compose. apply Sig_ext. intros. rewrite Rinv_1. reflexivity.
        * ring.
    - unfold function_evals. rewrite C2. reflexivity.
    - rewrite C4. reflexivity.
    - cbn [v_m v_sg]. auto.
  Qed.

  Lemma reaches_invariant : forall o (P : cmaes xreal F -> rstate -> Prop), world o ->
    (forall f c v, built o f c -> good o c v -> function_evals c = 0%N -> st_last_eigen (c_state c) = 0%N -> v_C v = delta -> v_B v = delta -> v_d v = (fun _ => 1%R) -> P c v) ->
    (forall c c' v, same_core c' c -> P c v -> P c' v) ->
    (forall c v c', good o c v -> P c v -> c_state c' = c_state c -> function_evals c' = function_evals c -> good o c' v -> P c' v) ->
    (forall c v c' v' inds h ok, good o c v -> P c v -> good o c' v' -> moved o c c' v v' inds h ok -> P c' v') ->
    forall f c, reaches ev o f c -> exists v, good o c v /\ P c v.
  Proof.
    intros o P W H0 H1 H2 H3 f c [c0 [l [Hb Hs]]].
    apply (steps_invariant ev (fun c => exists v, good o c v /\ P c v)) with (l := l) (c := c0); auto.
    - intros a op b [v [G Pv]] Hq Hst. pose proof (quiet_core ev _ _ _ Hq Hst) as Co. exists v. split; [|apply (H1 a b v Co Pv)].
      destruct Co as [A1 [A2 [A3 _]]]. destruct (gd_par _ _ _ G) as [sd X]. constructor; [exists sd; congruence|rewrite A1; apply (gd_dim _ _ _ G)|rewrite A1; apply (gd_pop _ _ _ G)|rewrite A3; apply (gd_fin _ _ _ G)|apply (gd_dec _ _ _ G)|apply (gd_sg _ _ _ G)].
    - intros par tk a r b [v [G Pv]] Hn. destruct (next_real o a v par tk r b W G Hn) as [[_ [_ [X1 [X2 X3]]]]|[_ [v' [inds [h [X1 [X2 _]]]]]]].
      + exists v. split; [exact X3|]. apply (H2 a v b G Pv X1 X2 X3).
      + exists v'. split; [exact X1|]. apply (H3 a v b v' inds h _ G Pv X1 X2).
    - destruct (fresh_good o f c0 W Hb) as [v [G [E1 [E2 [E3 [E4 [E5 _]]]]]]]. exists v. split; [exact G|]. apply (H0 f c0 v Hb G E1 E2 E3 E4 E5).
  Qed.
  Lemma reaches_good : forall o f c, world o -> reaches ev o f c -> exists v, good o c v.
  Proof. intros o f c W H. destruct (reaches_invariant o (fun _ _ => True) W) with (f := f) (c := c) as [v [G _]]; auto. exists v. exact G. Qed.
End Inv.
