(* C72: in binary64 the reported eigenvalues are positive, the axis ratio at least 1 and the step size not negative. *)
From Coq Require Import List NArith ZArith Bool Reals Lra Lia Arith.
From Flocq Require Import Core.
From Flocq Require Import IEEE754.BinarySingleNaN.
Require Import Verif.Base Verif.Num Verif.F64 Verif.XReal Verif.LinAlg Verif.Mode Verif.Weights Verif.Options Verif.Params Verif.Env
  Verif.State Verif.Sampling Verif.History Verif.Cmaes
  Verif.Termination Verif.Plot Verif.Lib Verif.Order Verif.Sort Verif.F64Lemmas Verif.CeilLemmas Verif.XRound Verif.XLe Verif.NextInv Verif.Spec
  Verif.LogLemmas Verif.TraceLemmas Verif.BuildLemmas Verif.PanicLemmas Verif.TermLemmas Verif.AxisLemmas Verif.Toy Verif.ToyLemmas Verif.PropPlot.
Import ListNotations.
Open Scope R_scope.

(* NaN, or a number that is at least 2^-537, the square root of the smallest positive binary64 number *)
Definition scale_like (d : f64) : Prop := nis_nan d = true \/ xle (XFin (bpow radix2 (-537))) (f2x d).

Lemma f64_pos_min : forall x : f64, is_finite x = true -> 0 < B2R x -> bpow radix2 (-1074) <= B2R x.
Proof.
  intros [s|s| |s m e He] Hf Hp; cbn [B2R] in *; try lra; try discriminate.
  destruct s; [exfalso; apply (Rlt_irrefl 0); apply Rlt_trans with (1 := Hp); apply F2R_lt_0; reflexivity|].
  assert (Ee : (-1074 <= e)%Z).
  { pose proof He as K. unfold SpecFloat.bounded in K. apply andb_prop in K. destruct K as [K _]. unfold SpecFloat.canonical_mantissa in K.
    apply Zeq_bool_eq in K. unfold SpecFloat.fexp, SpecFloat.emin in K. lia. }
  unfold F2R; cbn [Fnum Fexp cond_Zopp]. apply Rle_trans with (bpow radix2 e); [apply bpow_le; exact Ee|].
  rewrite <- (Rmult_1_l (bpow radix2 e)) at 1. apply Rmult_le_compat_r; [apply bpow_ge_0|]. apply (IZR_le 1). lia.
Qed.

Lemma sqrt_scale_like : forall v : f64, nleb v n0 = false -> scale_like (nsqrt v).
Proof.
  intros v H. destruct v as [s|[]| |s m e He].
  - destruct s; discriminate H.
  - discriminate H.
  - right. exact I.
  - left. reflexivity.
  - right. set (v := B754_finite s m e He : f64) in *.
    assert (Pv : 0 < B2R v).
    { change (n0 : f64) with (B754_zero false : f64) in H. change (Bleb v (B754_zero false : f64) = false) in H. rewrite Bleb_correct in H by reflexivity.
      cbn [B2R] in H. destruct (Rle_bool_spec (B2R v) 0); [discriminate|assumption]. }
    pose proof (f64_pos_min v eq_refl Pv) as Hm.
    pose proof (Bsqrt_correct 53 1024 f64_prec f64_emax mode_NE v) as [S1 [S2 _]].
    change (Bsqrt mode_NE v) with (nsqrt v : f64) in S1, S2. rewrite f2x_finite.
    + rewrite S1. cbn [xle]. change (round radix2 (SpecFloat.fexp 53 1024) (round_mode mode_NE) (sqrt (B2R v))) with (rnd64 (sqrt (B2R v))).
      rewrite <- (rnd64_id (bpow radix2 (-537))) by (apply generic_format_bpow; unfold SpecFloat.fexp, SpecFloat.emin; lia).
      apply rnd64_le. rewrite <- (sqrt_square (bpow radix2 (-537))) by apply bpow_ge_0. apply sqrt_le_1_alt.
      rewrite <- bpow_plus. exact Hm.
    + rewrite S2. unfold v in Pv |- *. cbn [B2R] in Pv. destruct s; [|reflexivity].
      exfalso; apply (Rlt_irrefl 0); apply Rlt_trans with (1 := Pv); apply F2R_lt_0; reflexivity.
Qed.

Lemma square_scale_like : forall d : f64, scale_like d -> nleb (powi d 2) n0 = false.
Proof.
  intros d H. change (powi d 2) with (nmul n1 (nmul d d)). rewrite f64_mul_1_l. rewrite f2x_leb, f2x_mul.
  change (f2x n0) with (XFin 0). destruct H as [H|H].
  - rewrite f2x_nan in H. destruct (f2x d); try discriminate H. reflexivity.
  - assert (K : xle (XFin (bpow radix2 (-1074))) (xround (x_mul (f2x d) (f2x d)))).
    { rewrite <- (xround_bpow (-1074)) by lia. apply xround_le. pose proof (bpow_gt_0 radix2 (-537)) as Hp.
      replace (bpow radix2 (-1074)) with (bpow radix2 (-537) * bpow radix2 (-537)) by (rewrite <- bpow_plus; reflexivity).
      destruct (f2x d) as [|[]|r]; cbn [xle] in H; try contradiction; cbn [x_mul xorb xle]; [exact I|]. apply Rmult_le_compat; lra. }
    pose proof (bpow_gt_0 radix2 (-1074)) as Hp. destruct (xround _) as [|[]|r]; cbn [xle] in K; try contradiction; [reflexivity|].
    destruct (x_leb (XFin r) (XFin 0)) eqn:El; [|reflexivity]. apply xle_leb in El. cbn in El. exfalso. lra.
Qed.

(* the two folds of axis_ratio start again at every NaN, at the same places *)
Lemma fold_max_min : forall (l : list f64) a b, scale_like a -> scale_like b -> Forall scale_like l ->
  (nis_nan a = true /\ nis_nan b = true \/ xle (f2x a) (f2x b)) ->
  let a' := fold_left (fun x y => if nleb x y then x else y) l a in
  let b' := fold_left (fun x y => if ngeb x y then x else y) l b in
  scale_like a' /\ scale_like b' /\ (nis_nan a' = true /\ nis_nan b' = true \/ xle (f2x a') (f2x b')).
Proof.
  induction l as [|y l IH]; intros a b Ha Hb Hl H; cbn [fold_left]; [auto|]. inversion Hl as [|? ? Hy Hl']; subst.
  apply IH; auto.
  - destruct (nleb a y); assumption.
  - destruct (ngeb b y); assumption.
  - unfold ngeb. destruct (nis_nan y) eqn:Ny.
    + left. rewrite !f2x_leb. rewrite f2x_nan in Ny. destruct (f2x y) eqn:Ey; try discriminate Ny.
      assert (E1 : x_leb (f2x a) XNaN = false) by (destruct (f2x a) as [|[]|]; reflexivity).
      assert (E2 : x_leb XNaN (f2x b) = false) by reflexivity. rewrite E1, E2, f2x_nan, Ey. auto.
    + assert (Yr : xle (f2x y) (f2x y)).
      { rewrite f2x_nan in Ny. destruct (f2x y) as [|[]|]; try discriminate Ny; cbn; try exact I; lra. }
      destruct H as [[Na Nb]|H].
      * right. rewrite !f2x_leb. rewrite f2x_nan in Na, Nb.
        destruct (f2x a); try discriminate Na. destruct (f2x b); try discriminate Nb.
        assert (E1 : x_leb XNaN (f2x y) = false) by reflexivity.
        assert (E2 : x_leb (f2x y) XNaN = false) by (destruct (f2x y) as [|[]|]; reflexivity). rewrite E1, E2. exact Yr.
      * right. destruct (nleb a y) eqn:E1, (nleb y b) eqn:E2; auto.
        -- apply f64_xle. exact E1.
        -- apply f64_xle. exact E2.
Qed.

Lemma ratio_ge_1 : forall a b : f64, scale_like a -> scale_like b ->
  (nis_nan a = true /\ nis_nan b = true \/ xle (f2x a) (f2x b)) -> nltb (ndiv b a) n1 = false.
Proof.
  intros a b Ha Hb [[Na Nb]|H].
  - destruct a; try discriminate Na. destruct b; try discriminate Nb. reflexivity.
  - assert (Hfin : forall x : f64, scale_like x -> nis_nan x = false -> is_finite x = false -> x = B754_infinity false).
    { intros [s|s| |s m e He] [K|K] Nx Fx; try discriminate; destruct s; auto; contradiction K. }
    assert (Na : nis_nan a = false) by (rewrite f2x_nan; destruct (f2x a); [contradiction H|reflexivity|reflexivity]).
    assert (Nb : nis_nan b = false) by (rewrite f2x_nan; destruct (f2x a) as [|[]|], (f2x b) as [|[]|]; try contradiction H; reflexivity).
    destruct Ha as [Ha|Ha]; [congruence|]. destruct Hb as [Hb|Hb]; [congruence|]. pose proof (bpow_gt_0 radix2 (-537)) as Hp.
    destruct (is_finite a) eqn:Fa.
    + destruct (is_finite b) eqn:Fb.
      * assert (G : nleb n1 (ndiv b a) = true).
        { rewrite (f2x_finite _ Fa) in Ha, H. rewrite (f2x_finite _ Fb) in H. cbn in Ha, H. apply div_ge_1; auto.
          - rewrite f2x_ltb, (f2x_finite _ Fa). change (f2x n0) with (XFin 0). cbn. apply Rltb_true. lra.
          - rewrite f2x_ltb, (f2x_finite _ Fa), (f2x_finite _ Fb). cbn. apply Rltb_false. lra. }
        rewrite f2x_leb in G. rewrite f2x_ltb. unfold x_leb in G. destruct (f2x (ndiv b a)) as [|[]|r], (f2x n1) as [|[]|q]; cbn in *; try discriminate; try reflexivity.
        apply Rltb_false. apply orb_prop in G. destruct G as [G|G]; [apply Rltb_true in G; lra|apply Reqb_true in G; lra].
      * rewrite (Hfin b (or_intror Hb) Nb Fb). rewrite (f2x_finite _ Fa) in Ha. cbn in Ha.
        destruct a as [s|s| |s m e He]; try discriminate Fa; [cbn in Ha; lra|].
        destruct s; [|reflexivity]. exfalso. cbn [B2R] in Ha. assert (K : F2R (Float radix2 (cond_Zopp true (Zpos m)) e) < 0) by (apply F2R_lt_0; reflexivity). lra.
    + rewrite (Hfin a (or_intror Ha) Na Fa) in *. destruct (is_finite b) eqn:Fb.
      * rewrite (f2x_finite _ Fb) in H. contradiction H.
      * rewrite (Hfin b (or_intror Hb) Nb Fb). reflexivity.
Qed.

Lemma mul_not_neg : forall a b : f64, nltb a n0 = false -> nltb b n0 = false -> nltb (nmul a b) n0 = false.
Proof.
  intros a b Ha Hb. rewrite f2x_ltb in *. change (f2x n0) with (XFin 0) in *. rewrite f2x_mul.
  assert (R0 : xround (XFin 0) = XFin 0) by (apply xround_id; [apply generic_format_0|rewrite Rabs_R0; apply bpow_gt_0]).
  assert (K : x_mul (f2x a) (f2x b) = XNaN \/ xle (XFin 0) (x_mul (f2x a) (f2x b))).
  { destruct (f2x a) as [|[]|r], (f2x b) as [|[]|q]; cbn in Ha, Hb; try discriminate; cbn [x_mul xorb]; auto; try (right; exact I).
    - apply Rltb_false in Hb. unfold x_signed_inf. destruct (Rltb 0 q) eqn:E1; [right; exact I|].
      rewrite (proj2 (Rltb_false q 0)) by lra. left. reflexivity.
    - apply Rltb_false in Ha. unfold x_signed_inf. destruct (Rltb 0 r) eqn:E1; [right; exact I|].
      rewrite (proj2 (Rltb_false r 0)) by lra. left. reflexivity.
    - right. apply Rltb_false in Ha, Hb. cbn. nra. }
  destruct K as [K|K]; [rewrite K; reflexivity|]. apply xround_le in K. rewrite R0 in K.
  destruct (xround (x_mul _ _)) as [|[]|r]; try contradiction K; [reflexivity|]. cbn in *. apply Rltb_false. lra.
Qed.

Lemma diagonal_build : forall n (f : nat -> nat -> f64), diagonal (mbuild n n f) = map (fun i => f i i) (seq 0 n).
Proof.
  intros n f. unfold diagonal. rewrite mbuild_length. apply map_ext_in. intros i Hi. apply in_seq in Hi. unfold mnth, mbuild.
  rewrite (nth_indep _ [] (map (fun j => f O j) (seq 0 n))) by (rewrite map_length, seq_length; lia).
  rewrite (map_nth (fun i => map (fun j => f i j) (seq 0 n))), seq_nth by lia. cbn [Nat.add].
  rewrite (nth_indep _ n0 (f i O)) by (rewrite map_length, seq_length; lia).
  rewrite (map_nth (fun j => f i j)), seq_nth by lia. reflexivity.
Qed.
Lemma from_diagonal_scale : forall d, Forall scale_like d -> Forall scale_like (diagonal (from_diagonal d)).
Proof.
  intros d H. unfold from_diagonal. rewrite diagonal_build. apply Forall_forall. intros v Hv. apply in_map_iff in Hv.
  destruct Hv as [i [<- Hi]]. rewrite Nat.eqb_refl. apply in_seq in Hi. rewrite Forall_forall in H. apply H. apply nth_In. lia.
Qed.

Section Shape.
  Context {LT : Libm f64} {E : Env f64} {F : Type} (ev : F -> vec f64 -> outcome (f64 * F)).

  Definition scaled (s : state f64) : Prop := Forall scale_like (diagonal (cm_sqrt_eigenvalues (st_cov s))).

  Lemma state_update_scaled : forall tree evals p inds s ok s', state_update tree evals p inds s = Ret (ok, s') -> scaled s -> scaled s'.
  Proof.
    intros tree evals p inds s ok s' H H2. unfold scaled in *. unfold state_update in H. oinv H. oinv H. oinv H. oinv H. oinv H. oinv H. oinv H.
    destruct a5 as [ok' cm].
    assert (Hc : Forall scale_like (diagonal (cm_sqrt_eigenvalues cm))).
    { unfold set_cov in Ho5. destruct (do_eigen_update p s evals).
      - unfold update_eigendecomposition in Ho5. destruct (eigen _) as [[vecs vals]|].
        + destruct (existsb _ _) eqn:Ex.
          * apply Ret_inj in Ho5. apply (f_equal snd) in Ho5. cbn [snd] in Ho5. subst cm. exact H2.
          * oinv Ho5. oinv Ho5. oinv Ho5. apply Ret_inj in Ho5. apply (f_equal snd) in Ho5. cbn [snd] in Ho5. subst cm.
            cbn [cm_sqrt_eigenvalues]. apply from_diagonal_scale. apply Forall_forall. intros v Hv. apply in_map_iff in Hv.
            destruct Hv as [w [<- Hw]]. apply sqrt_scale_like. destruct (nleb w n0) eqn:Ew; [|reflexivity].
            rewrite <- Ex. symmetry. apply existsb_exists. eauto.
        + apply Ret_inj in Ho5. apply (f_equal snd) in Ho5. cbn [snd] in Ho5. subst cm. exact H2.
      - apply Ret_inj in Ho5. apply (f_equal snd) in Ho5. cbn [snd] in Ho5. subst cm. exact H2. }
    destruct ok'; apply Ret_inj in H; apply (f_equal snd) in H; cbn [snd] in H; subst s'; exact Hc.
  Qed.

  Lemma reaches_scaled : forall o f c, reaches ev o f c -> scaled (c_state c).
  Proof.
    intros o f c [c0 [l [[rs [now Hb]] H]]]. revert H. apply (steps_invariant ev (fun c => scaled (c_state c))).
    - clear. intros c op c' Hc Hq H. destruct (quiet_core _ _ _ _ Hq H) as [_ [_ [K3 _]]]. rewrite K3. exact Hc.
    - clear. intros par tk c r c' Hc H. apply next_outcome in H.
      destruct H as [[_ [_ [_ X]]]|[inds [ok [_ [_ [_ [X _]]]]]]]; [rewrite X; exact Hc|].
      eapply state_update_scaled; eauto.
    - apply cmaes_new_inv in Hb. cbv zeta in Hb. destruct Hb as [Hv [_ [_ [S1 _]]]]. rewrite S1. unfold scaled. cbn [st_cov state_new].
      unfold cov_new. cbn [cm_sqrt_eigenvalues]. unfold identity. rewrite diagonal_build. apply Forall_forall. intros v Hv'.
      apply in_map_iff in Hv'. destruct Hv' as [i [<- _]]. rewrite Nat.eqb_refl. right.
      change (n1 : f64) with (f64_ofZ 1). destruct (f64_ofZ_exact 1) as [F1 E1]; [simpl; lia|]. rewrite (f2x_finite _ F1), E1.
      cbn [xle]. change 1 with (bpow radix2 0). apply bpow_le. lia.
  Qed.

  (* no eigenvalue that is reported is 0 or negative *)
  Theorem C72_eigenvalues : forall o f c, reaches ev o f c -> Forall (fun x => nleb x n0 = false) (eigenvalues c).
  Proof.
    intros o f c H. apply reaches_scaled in H. unfold eigenvalues. apply Forall_forall. intros x Hx. apply in_map_iff in Hx.
    destruct Hx as [d [<- Hd]]. apply square_scale_like. unfold scaled in H. rewrite Forall_forall in H. apply H. exact Hd.
  Qed.

  (* the axis ratio that is reported is not below 1 *)
  Theorem C72_axis_ratio : forall o f c, reaches ev o f c -> nltb (cmaes_axis_ratio c) n1 = false.
  Proof.
    intros o f c H. apply reaches_scaled in H. unfold cmaes_axis_ratio, axis_ratio. unfold scaled in H.
    destruct (diagonal (cm_sqrt_eigenvalues (st_cov (c_state c)))) as [|x d]; [reflexivity|]. inversion H as [|? ? Hx Hd]; subst.
    cbn [vmax vmin]. destruct (fold_max_min d x x Hx Hx Hd) as [H1 [H2 H3]].
    { destruct (nis_nan x) eqn:Nx; [left; auto|right]. rewrite f2x_nan in Nx. destruct (f2x x) as [|[]|]; try discriminate Nx; cbn; try exact I; lra. }
    apply ratio_ge_1; assumption.
  Qed.

  (* with an exponential function that is never negative, the step size is never negative *)
  Theorem C72_sigma : (forall x : f64, nltb (lm_exp x) n0 = false) -> forall o f c, reaches ev o f c -> nltb (sigma c) n0 = false.
  Proof.
    intros Hexp o f c [c0 [l [[rs [now Hb]] H]]]. revert H. apply (steps_invariant ev (fun c => nltb (sigma c) n0 = false)).
    - clear. intros c op c' Hc Hq H. unfold sigma in *. destruct (quiet_core _ _ _ _ Hq H) as [_ [_ [K3 _]]]. rewrite K3. exact Hc.
    - clear - Hexp. intros par tk c r c' Hc H. unfold sigma in *. apply next_outcome in H.
      destruct H as [[_ [_ [_ X]]]|[inds [ok [_ [_ [_ [X _]]]]]]]; [rewrite X; exact Hc|].
      unfold state_update in X. oinv X. oinv X. oinv X. oinv X. oinv X. oinv X. oinv X. destruct a5 as [ok' cm].
      assert (Hs : nltb (calc_sigma (c_params c) (c_state c) a1) n0 = false) by (unfold calc_sigma; apply mul_not_neg; auto).
      destruct ok'; apply Ret_inj in X; apply (f_equal snd) in X; cbn [snd] in X; rewrite <- X; exact Hs.
    - apply cmaes_new_inv in Hb. cbv zeta in Hb. destruct Hb as [Hv [_ [_ [S1 _]]]]. unfold sigma. rewrite S1. cbn [st_sigma state_new].
      unfold validate in Hv. destruct (length (o_initial_mean o) =? 0)%nat; [discriminate Hv|].
      destruct (o_population_size o <? 2)%N; [discriminate Hv|].
      destruct (is_initial_step_size_valid (o_initial_step_size o)) eqn:Es; [|discriminate Hv].
      unfold is_initial_step_size_valid in Es. apply andb_true_iff in Es. apply lt_asym. apply Es.
  Qed.
End Shape.

Print Assumptions C72_eigenvalues.
Print Assumptions C72_axis_ratio.
Print Assumptions C72_sigma.

(* three generations on a sphere, with an exponential function that is not negative: the axes differ *)
Definition c72_libm : Libm f64 := {| lm_ln := toy_ln; lm_exp := fun x => nabs (toy_exp x); lm_powf := toy_powf |}.
Example C72_case : (forall x : f64, nltb (lm_exp (Libm := c72_libm) x) n0 = false) /\
  exists c : cmaes f64 unit, reaches (LT := c72_libm) toy_sphere (toy_options 2) tt c /\
    generation c = 3%N /\ nltb n1 (cmaes_axis_ratio c) = true /\ nltb n0 (sigma c) = true.
Proof.
  split.
  - intros x. cbn [lm_exp c72_libm]. destruct (toy_exp x) as [s|s| |s m e He]; cbn; try reflexivity.
  - destruct (holds_ex (after (LT := c72_libm) toy_sphere tt (toy_options 2) [ONext false toy_tick; ONext false toy_tick; ONext false toy_tick])
      (fun c => (generation c =? 3)%N && nltb n1 (cmaes_axis_ratio c) && nltb n0 (sigma c))) as [c [H1 H2]].
    { vm_compute. reflexivity. }
    apply after_reaches in H1. destruct H1 as [c0 [H0 H1]]. apply andb_prop in H2. destruct H2 as [H2 H3]. apply andb_prop in H2. destruct H2 as [H2 H4].
    apply N.eqb_eq in H2. exists c. split; [exists c0, [ONext false toy_tick; ONext false toy_tick; ONext false toy_tick]; auto|]. auto.
Qed.
