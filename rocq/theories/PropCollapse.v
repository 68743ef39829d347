(* C73 and C74: how fast the search distribution can shrink, in exact arithmetic. *)
From Coq Require Import List NArith ZArith Bool Arith Lia Reals Lra.
Require Import Verif.Base Verif.Num Verif.XReal Verif.XLe Verif.LinAlg Verif.Mode Verif.Weights Verif.Options Verif.Params Verif.Env
  Verif.State Verif.Sampling Verif.History Verif.Termination Verif.Plot Verif.Cmaes Verif.Lib Verif.Order
  Verif.NextInv Verif.Spec Verif.LogLemmas Verif.SamplingLemmas Verif.BuildLemmas Verif.TraceLemmas Verif.NextSafe
  Verif.RSum Verif.WeightLemmas Verif.ExactStep Verif.ExactEigen Verif.ExactInv Verif.ExactPos Verif.PropExact Verif.Session Verif.XToy Verif.ExactToy.
Import ListNotations.
Open Scope nat_scope.

(* Vocabulary of PropExact.v: world o, fm, quad, dotR. After k generations (whatever became of the last one) the
   optimiser has made k times the population size evaluations. *)
Definition generations_made {E : Env xreal} {F} (o : options xreal) (c : cmaes xreal F) (k : nat) : Prop :=
  function_evals c = N.of_nat (N.to_nat (o_population_size o) * k).

Section Collapse.
  Context {E : Env xreal} {F : Type} (ev : F -> vec xreal -> outcome (xreal * F)).

  Lemma sigma_drop : forall o c c' v v' inds h ok, world o -> good o c v -> moved (F := F) o c c' v v' inds h ok ->
    (v_sg v' >= v_sg v * exp (- (q_cs (rates_of o) / q_ds (rates_of o))))%R.
  Proof.
    intros o c c' v v' inds h ok W G M. destruct (params_fin o 0 (wd_valid _ W)) as [Hp Hq]. pose proof (chi_pos _ _ Hq) as Cp.
    pose proof (ro_cs _ _ Hq) as Hc. pose proof (ro_ds _ _ Hq) as Hd. pose proof (gd_sg _ _ _ G) as Sg.
    rewrite (mv_sg _ _ _ _ _ _ _ _ M). unfold sgR. set (q := rates_of o) in *. set (a := normR q _). 
    assert (A : (0 <= a / chiR q)%R) by (apply Rmult_le_pos; [apply sqrt_pos|left; apply Rinv_0_lt_compat; exact Cp]).
    assert (R : (0 < q_cs q / q_ds q)%R) by (apply Rdiv_lt_0_compat; lra).
    apply Rmult_ge_compat_l; [lra|]. apply Rle_ge.
    destruct (Rle_lt_or_eq_dec (- (q_cs q / q_ds q)) (q_cs q / q_ds q * (a / chiR q - 1))) as [L|L]; [nra|left; apply exp_increasing; exact L|right; rewrite L; reflexivity].
  Qed.

  Theorem C73_generation : forall o f c par tk r c', world o -> reaches ev o f c -> next ev par tk c = Ret (r, c') ->
    exists s s' cs ds, sigma c = XFin s /\ sigma c' = XFin s' /\ p_cs (c_params c) = XFin cs /\ p_damp_s (c_params c) = XFin ds /\
      (0 < cs < 1)%R /\ (1 < ds)%R /\ (0 < s)%R /\ (s' >= s * exp (- (cs / ds)))%R.
  Proof.
    intros o f c par tk r c' W Hr Hn. destruct (reaches_good ev o f c W Hr) as [v G]. destruct (gd_par _ _ _ G) as [seed Gp].
    destruct (params_fin o seed (wd_valid _ W)) as [Hp Hq]. rewrite <- Gp in Hp.
    pose proof (ro_cs _ _ Hq) as Hc. pose proof (ro_ds _ _ Hq) as Hd. pose proof (gd_sg _ _ _ G) as Sg.
    destruct (next_real ev o c v par tk r c' W G Hn) as [[_ [_ [Es [_ G']]]]|[_ [v' [inds [h [G' [M _]]]]]]].
    - exists (v_sg v), (v_sg v), (q_cs (rates_of o)), (q_ds (rates_of o)).
      split; [apply (sf_sg _ _ _ (gd_fin _ _ _ G))|]. split; [apply (sf_sg _ _ _ (gd_fin _ _ _ G'))|]. split; [apply (pf_cs _ _ Hp)|]. split; [apply (pf_ds _ _ Hp)|].
      repeat (split; [assumption|]). assert (R : (0 < q_cs (rates_of o) / q_ds (rates_of o))%R) by (apply Rdiv_lt_0_compat; lra).
      assert (X : (exp (- (q_cs (rates_of o) / q_ds (rates_of o))) < exp 0)%R) by (apply exp_increasing; lra). rewrite exp_0 in X. nra.
    - exists (v_sg v), (v_sg v'), (q_cs (rates_of o)), (q_ds (rates_of o)).
      split; [apply (sf_sg _ _ _ (gd_fin _ _ _ G))|]. split; [apply (sf_sg _ _ _ (gd_fin _ _ _ G'))|]. split; [apply (pf_cs _ _ Hp)|]. split; [apply (pf_ds _ _ Hp)|].
      repeat (split; [assumption|]). eapply sigma_drop; eassumption.
  Qed.

  Theorem C73_total : forall o f c, world o -> reaches ev o f c ->
    exists s0 s cs ds k, o_initial_step_size o = XFin s0 /\ sigma c = XFin s /\ p_cs (c_params c) = XFin cs /\ p_damp_s (c_params c) = XFin ds /\
      generations_made o c k /\ (0 < s0)%R /\ (s >= s0 * exp (- (cs / ds * INR k)))%R.
  Proof.
    intros o f c W Hr. set (t := (q_cs (rates_of o) / q_ds (rates_of o))%R).
    destruct (reaches_invariant ev o (fun c v => exists s0 k, o_initial_step_size o = XFin s0 /\ generations_made o c k /\ (0 < s0)%R /\ (v_sg v >= s0 * exp (- (t * INR k)))%R) W)
      with (f := f) (c := c) as [v [G [s0 [k [H1 [H2 [H3 H4]]]]]]]; [ | | | |exact Hr|].
    - intros f0 c0 v0 Hb G0 E1 _ _ _ _. destruct Hb as [rs [now Hb]]. pose proof (cmaes_new_inv _ _ _ _ _ Hb) as C. cbv zeta in C. destruct C as [_ [_ [_ [C4 _]]]].
      pose proof (sf_sg _ _ _ (gd_fin _ _ _ G0)) as Sg. rewrite C4 in Sg. cbn [state_new st_sigma] in Sg.
      exists (v_sg v0), 0. split; [exact Sg|]. split; [unfold generations_made; rewrite E1, Nat.mul_0_r; reflexivity|]. split; [apply (gd_sg _ _ _ G0)|].
      cbn [INR]. rewrite Rmult_0_r, Ropp_0, exp_0. lra.
    - intros c0 c1 v0 [A1 _] [s0 [k H]]. exists s0, k. unfold generations_made, function_evals in *. rewrite A1. exact H.
    - intros c0 v0 c1 _ [s0 [k H]] _ Ee _. exists s0, k. unfold generations_made in *. rewrite Ee. exact H.
    - intros c0 v0 c1 v1 inds h ok G0 [s0 [k [H1 [H2 [H3 H4]]]]] G1 M. exists s0, (S k). split; [exact H1|].
      split; [unfold generations_made in *; rewrite (mv_evals _ _ _ _ _ _ _ _ M), H2; lia|]. split; [exact H3|].
      pose proof (sigma_drop o c0 c1 v0 v1 inds h ok W G0 M) as D. fold t in D. rewrite S_INR.
      replace (- (t * (INR k + 1)))%R with (- (t * INR k) + - t)%R by ring. rewrite exp_plus. pose proof (exp_pos (- t)) as Ep.
      assert (v_sg v0 * exp (- t) >= s0 * exp (- (t * INR k)) * exp (- t))%R by (apply Rmult_ge_compat_r; lra). lra.
    - destruct (gd_par _ _ _ G) as [seed Gp]. destruct (params_fin o seed (wd_valid _ W)) as [Hp _]. rewrite <- Gp in Hp.
      exists s0, (v_sg v), (q_cs (rates_of o)), (q_ds (rates_of o)), k. split; [exact H1|]. split; [apply (sf_sg _ _ _ (gd_fin _ _ _ G))|].
      split; [apply (pf_cs _ _ Hp)|]. split; [apply (pf_ds _ _ Hp)|]. auto.
  Qed.

  (* ---- the covariance matrix ---- *)
  Lemma cov_drop : forall o c c' v v' inds h ok x, world o -> o_weights o <> WNegative -> good o c v -> moved (F := F) o c c' v v' inds h ok ->
    (0 <= quad (dims o) (v_C v) x)%R -> (quad (dims o) (v_C v') x >= (1 - speed o) * quad (dims o) (v_C v) x)%R.
  Proof.
    intros o c c' v v' inds h ok x W Hw G M Hx. pose proof (cov_lower o W c c' v v' inds h ok x G M Hx) as C.
    destruct (neg_mass_facts o (wd_valid _ W)) as [_ [_ [_ [_ [_ [_ A]]]]]]. specialize (A Hw).
    assert (Z : neg_mass (rates_of o) = 0%R) by (unfold neg_mass; rewrite A, Nat.sub_diag; cbn; lra).
    rewrite Z, !Rmult_0_r in C. unfold Rdiv in C. rewrite !Rmult_0_l in C. rewrite !Rminus_0_r in C. exact C.
  Qed.
  Lemma speed_range : forall o, world o -> (0 < speed o <= 1)%R.
  Proof. intros o W. destruct (params_fin o 0 (wd_valid _ W)) as [_ Hq]. pose proof (ro_c1 _ _ Hq). pose proof (ro_cmu _ _ Hq). unfold speed. lra. Qed.
  Definition cov_low (o : options xreal) (c : cmaes xreal F) (v : rstate) : Prop := exists k, generations_made o c k /\
    forall x, (quad (dims o) (v_C v) x >= (1 - speed o) ^ k * dotR (dims o) x x)%R.
  Lemma reaches_low : forall o f c, world o -> o_weights o <> WNegative -> reaches ev o f c -> exists v, good o c v /\ cov_low o c v.
  Proof.
    intros o f c W Hw. pose proof (speed_range o W) as Sp. apply (reaches_invariant ev o (cov_low o) W).
    - intros f0 c0 v0 _ _ E1 _ E3 _ _. exists 0. split; [unfold generations_made; rewrite E1, Nat.mul_0_r; reflexivity|]. intros x. cbn [pow]. rewrite Rmult_1_l, E3. right.
      unfold quad, dotR. apply Sig_ext. intros i Hi. rewrite (Sig_ext _ _ (fun j => (delta i j * (x i * x j))%R)) by (intros; ring). rewrite Sig_delta by exact Hi. reflexivity.
    - intros c0 c1 v0 [A1 _] [k H]. exists k. unfold generations_made, function_evals in *. rewrite A1. exact H.
    - intros c0 v0 c1 _ [k H] _ Ee _. exists k. unfold generations_made in *. rewrite Ee. exact H.
    - intros c0 v0 c1 v1 inds h ok G0 [k [H1 H2]] G1 M. exists (S k). split; [unfold generations_made in *; rewrite (mv_evals _ _ _ _ _ _ _ _ M), H1; lia|].
      intros x. specialize (H2 x). assert (P : (0 <= (1 - speed o) ^ k)%R) by (apply pow_le; lra).
      assert (Nx : (0 <= dotR (dims o) x x)%R) by (apply Sig_nonneg; intros; apply Rle_0_sqr).
      assert (Q : (0 <= (1 - speed o) ^ k * dotR (dims o) x x)%R) by (apply Rmult_le_pos; assumption).
      pose proof (cov_drop o c0 c1 v0 v1 inds h ok x W Hw G0 M ltac:(lra)) as D. cbn [pow]. rewrite Rmult_assoc.
      assert ((1 - speed o) * quad (dims o) (v_C v0) x >= (1 - speed o) * ((1 - speed o) ^ k * dotR (dims o) x x))%R by (apply Rmult_ge_compat_l; lra). lra.
  Qed.

  (* without negative weights: every generation keeps at least the part 1 - c1 - cmu of the variance in each direction *)
  Theorem C74_generation : forall o f c par tk r c', world o -> o_weights o <> WNegative -> reaches ev o f c -> next ev par tk c = Ret (r, c') ->
    exists C C' c1 cmu, fm (dims o) (covariance_matrix c) C /\ fm (dims o) (covariance_matrix c') C' /\
      p_c1 (c_params c) = XFin c1 /\ p_cmu (c_params c) = XFin cmu /\ (0 < c1 + cmu <= 1)%R /\
      forall x, (quad (dims o) C' x >= (1 - c1 - cmu) * quad (dims o) C x)%R /\ (0 <= quad (dims o) C x)%R.
  Proof.
    intros o f c par tk r c' W Hw Hr Hn. destruct (reaches_low o f c W Hw Hr) as [v [G [k [_ Lo]]]]. destruct (gd_par _ _ _ G) as [seed Gp].
    destruct (params_fin o seed (wd_valid _ W)) as [Hp _]. rewrite <- Gp in Hp. pose proof (speed_range o W) as Sp.
    assert (Q : forall x, (0 <= quad (dims o) (v_C v) x)%R).
    { intros x. specialize (Lo x). assert (0 <= (1 - speed o) ^ k * dotR (dims o) x x)%R; [|lra]. apply Rmult_le_pos; [apply pow_le; lra|apply Sig_nonneg; intros; apply Rle_0_sqr]. }
    destruct (next_real ev o c v par tk r c' W G Hn) as [[_ [_ [Es [_ G']]]]|[_ [v' [inds [h [G' [M _]]]]]]].
    - exists (v_C v), (v_C v), (q_c1 (rates_of o)), (q_cmu (rates_of o)). split; [apply (sf_C _ _ _ (gd_fin _ _ _ G))|]. split; [apply (sf_C _ _ _ (gd_fin _ _ _ G'))|].
      split; [apply (pf_c1 _ _ Hp)|]. split; [apply (pf_cmu _ _ Hp)|]. split; [exact Sp|]. intros x. split; [|apply Q]. specialize (Q x). unfold speed in Sp. nra.
    - exists (v_C v), (v_C v'), (q_c1 (rates_of o)), (q_cmu (rates_of o)). split; [apply (sf_C _ _ _ (gd_fin _ _ _ G))|]. split; [apply (sf_C _ _ _ (gd_fin _ _ _ G'))|].
      split; [apply (pf_c1 _ _ Hp)|]. split; [apply (pf_cmu _ _ Hp)|]. split; [exact Sp|]. intros x. split; [|apply Q].
      replace (1 - q_c1 (rates_of o) - q_cmu (rates_of o))%R with (1 - speed o)%R by (unfold speed; ring). eapply cov_drop; eauto.
  Qed.
  Theorem C74_total : forall o f c, world o -> o_weights o <> WNegative -> reaches ev o f c ->
    exists C c1 cmu k, fm (dims o) (covariance_matrix c) C /\ p_c1 (c_params c) = XFin c1 /\ p_cmu (c_params c) = XFin cmu /\ generations_made o c k /\
      forall x, (quad (dims o) C x >= (1 - c1 - cmu) ^ k * dotR (dims o) x x)%R.
  Proof.
    intros o f c W Hw Hr. destruct (reaches_low o f c W Hw Hr) as [v [G [k [K Lo]]]]. destruct (gd_par _ _ _ G) as [seed Gp].
    destruct (params_fin o seed (wd_valid _ W)) as [Hp _]. rewrite <- Gp in Hp.
    exists (v_C v), (q_c1 (rates_of o)), (q_cmu (rates_of o)), k. split; [apply (sf_C _ _ _ (gd_fin _ _ _ G))|]. split; [apply (pf_c1 _ _ Hp)|]. split; [apply (pf_cmu _ _ Hp)|].
    split; [exact K|]. replace (1 - q_c1 (rates_of o) - q_cmu (rates_of o))%R with (1 - speed o)%R by (unfold speed; ring). exact Lo.
  Qed.
  (* with every kind of weights: one rate of decay for all sessions with the same options *)
  Theorem C74_all_weights : forall o f0 c0, world o -> reaches ev o f0 c0 -> rates_below_one (c_params c0) ->
    exists rho, (0 < rho < 1)%R /\ forall f c, reaches ev o f c ->
      exists C k, fm (dims o) (covariance_matrix c) C /\ generations_made o c k /\ forall x, (quad (dims o) C x >= rho ^ k * dotR (dims o) x x)%R.
  Proof.
    intros o f0 c0 W H0 Hb. pose proof (speed_params ev o f0 c0 H0 Hb) as Sp. exists (rho o). split; [apply rho_range; assumption|].
    intros f c Hr. destruct (reaches_decays ev o W Sp f c Hr) as [v [G D]]. destruct (decays_bound o W Sp c v G D) as [k [K B]].
    exists (v_C v), k. split; [apply (sf_C _ _ _ (gd_fin _ _ _ G))|]. split; [exact K|exact B].
  Qed.
End Collapse.

(* Concrete cases (as for C62): the plane with every kind of weights, after any number of generations. *)
Local Existing Instance plane_env.
Example C73_case : forall w (k : nat), exists c r c', world (plane_options w false) /\ reaches plane_ev (plane_options w false) (tt, []) c /\
  generation c = N.of_nat k /\ next plane_ev false (xtoy_tick RLeaf) c = Ret (r, c').
Proof. intros w k. destruct (C62_case w k) as [c [r [c' [W [Hr [Hg [_ [Hn _]]]]]]]]. exists c, r, c'. auto. Qed.
Example C74_case : forall w (k : nat), exists c r c', world (plane_options w false) /\ o_weights (plane_options w false) = w /\
  reaches plane_ev (plane_options w false) (tt, []) c /\ generation c = N.of_nat k /\ rates_below_one (c_params c) /\
  next plane_ev false (xtoy_tick RLeaf) c = Ret (r, c').
Proof. intros w k. destruct (C62_case w k) as [c [r [c' [W [Hr [Hg [Hb [Hn _]]]]]]]]. exists c, r, c'. auto 10. Qed.

Print Assumptions C73_generation.
Print Assumptions C73_total.
Print Assumptions C74_generation.
Print Assumptions C74_total.
Print Assumptions C74_all_weights.
