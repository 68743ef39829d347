(* C77: the new mean as computed in binary64. *)
From Coq Require Import List NArith ZArith Bool Reals Lra Lia Arith Psatz Permutation Sorted.
From Flocq Require Import Core.
From Flocq Require Import IEEE754.BinarySingleNaN.
Require Import Verif.Lib Verif.Base Verif.Num Verif.F64 Verif.XReal Verif.LinAlg Verif.Mode Verif.Weights Verif.Options
  Verif.Params Verif.Env Verif.State Verif.Sampling Verif.History Verif.Termination Verif.Plot Verif.Cmaes
  Verif.Spec Verif.Order Verif.Sort Verif.F64Lemmas Verif.BuildLemmas Verif.TraceLemmas Verif.CeilLemmas Verif.XRound Verif.XLe
  Verif.NextInv Verif.LogLemmas Verif.SamplingLemmas Verif.PanicLemmas Verif.NextSafe Verif.RSum
  Verif.F64Acc Verif.F64Weights Verif.F64Rates Verif.F64Final Verif.F64Raw Verif.Toy Verif.TermLemmas Verif.PropRun Verif.PropPlot
  Verif.F64Mean Verif.DrawFloat Verif.PropFloatParams.
Import ListNotations.
Open Scope R_scope.

(* ---- specification ---- *)
(* the real value of a component *)
Definition comp (v : vec f64) (i : nat) : R := B2R (nth i v n0).
Definition fin_comp (v : vec f64) (i : nat) : Prop := is_finite (nth i v n0 : f64) = true.
(* a is at least as good as b *)
Definition as_good (m : mode) (a b : f64) : Prop := match m with Minimize => xle (f2x a) (f2x b) | Maximize => xle (f2x b) (f2x a) end.
(* where the new mean should be, given the points in the order of their ranks *)
Definition target (cm m : R) (w x : nat -> R) (mu : nat) : R := m + cm * Sig mu (fun k => w k * (x k - m)).
(* the tolerance: some ulps of the largest coordinate involved, and the least positive numbers lost to underflow *)
Definition slack (mu : nat) (X s : R) : R := (5 * INR mu + 12) / 2 ^ 53 * X + (5 * INR mu * s + 12) * bpow radix2 (-1074).

(* ---- how the components are computed ---- *)
Section Comp.
  Context {T : Type} {NT : Num T}.
  Lemma vadd_nth : forall (a b r : vec T) i, vadd_c a b = Ret r -> (i < length a)%nat -> nth i r n0 = nadd (nth i a n0) (nth i b n0) /\ length r = length a.
  Proof.
    intros a b r i H Hi. unfold vadd_c in H. apply check_Ret in H. destruct H as [H ->]. apply Nat.eqb_eq in H. unfold vadd. split; [apply nth_map2; lia|].
    rewrite map2_length. lia.
  Qed.
  Lemma vscale_nth : forall s (v : vec T) i, (i < length v)%nat -> nth i (vscale s v) n0 = nmul s (nth i v n0).
  Proof. intros s v i H. unfold vscale. rewrite (nth_indep _ n0 (nmul s n0)) by (rewrite map_length; exact H). apply map_nth. Qed.
  Lemma vscale_r_nth : forall s (v : vec T) i, (i < length v)%nat -> nth i (vscale_r v s) n0 = nmul (nth i v n0) s.
  Proof. intros s v i H. unfold vscale_r. rewrite (nth_indep _ n0 ((fun x => nmul x s) n0)) by (rewrite map_length; exact H). apply (map_nth (fun x => nmul x s)). Qed.
  Lemma vsum_nth : forall l (acc r : vec T) i, vsum_from acc l = Ret r -> (i < length acc)%nat ->
    nth i r n0 = fold_left nadd (map (fun v => nth i v n0) l) (nth i acc n0) /\ length r = length acc.
  Proof.
    induction l as [|v l IH]; intros acc r i H Hi; cbn [vsum_from map fold_left] in *; [apply Ret_inj in H; subst; auto|].
    destruct (vadd_c acc v) as [a| |] eqn:Ea; cbn [obind] in H; try discriminate H. destruct (vadd_nth _ _ _ _ Ea Hi) as [A1 A2].
    destruct (IH a r i H) as [B1 B2]; [lia|]. rewrite B1, A1, B2, A2. auto.
  Qed.
  Lemma weighted_nth : forall ws (inds : list (point T)) l d, weighted_steps ws inds = Ret l ->
    length l = length inds /\ forall k, (k < length inds)%nat -> nth k l [] = vscale_r (pt_step (nth k inds d)) (nth k ws n0).
  Proof.
    intros ws inds l d H. unfold weighted_steps in H. apply omap_Ret in H. pose proof (Forall2_len _ _ _ H) as Hl. rewrite combine_length, seq_length, Nat.min_id in Hl.
    split; [auto|]. intros k Hk.
    assert (G : forall (a : list (nat * point T)) (b : list (vec T)), Forall2 (fun ip v => (w <- index ws (fst ip) ;; Ret (vscale_r (pt_step (snd ip)) w)) = Ret v) a b ->
      forall j, (j < length a)%nat -> nth j b [] = vscale_r (pt_step (snd (nth j a (0%nat, d)))) (nth (fst (nth j a (0%nat, d))) ws n0)).
    { clear. intros a b H. induction H as [|ip v a b Hv H IH]; intros j Hj; [cbn in Hj; lia|]. destruct j as [|j]; cbn [nth length] in *; [|apply IH; lia].
      unfold index in Hv. destruct (nth_error ws (fst ip)) as [w|] eqn:Ew; cbn [obind] in Hv; [|discriminate Hv]. apply Ret_inj in Hv. subst v. rewrite (nth_error_nth _ _ _ Ew). reflexivity. }
    specialize (G _ _ H k). rewrite combine_length, seq_length, Nat.min_id in G. rewrite (G Hk). rewrite combine_nth by (apply seq_length). cbn [fst snd]. rewrite seq_nth by exact Hk. reflexivity.
  Qed.
End Comp.

Section FloatMean.
  Context {L : Libm f64} {E : Env f64} {F : Type} (ev : F -> vec f64 -> outcome (f64 * F)).
  Let ev' := log_ev ev.

  Lemma as_good_ranked : forall m (a b : f64), nis_nan a = false -> nis_nan b = false -> is_better m b a = false -> as_good m a b.
  Proof.
    intros m a b Ha Hb. rewrite f2x_nan in Ha, Hb. unfold is_better, as_good, ngtb. destruct m; rewrite f2x_ltb; destruct (f2x a) as [|[]|x], (f2x b) as [|[]|y]; cbn in *; try discriminate; auto; unfold Rltb;
      destruct (Rlt_dec _ _); intros; try discriminate; try exact I; lra.
  Qed.

  Lemma valid_cm : forall o : options f64, validate o = None -> is_finite (o_cm o) = true /\ 0 < B2R (o_cm o) <= 1.
  Proof.
    intros o Hv. unfold validate in Hv. destruct (Nat.eqb _ 0); [discriminate Hv|]. destruct (_ <? _)%N; [discriminate Hv|]. destruct (is_initial_step_size_valid _); cbn [negb] in Hv; [|discriminate Hv].
    destruct (nis_normal (o_cm o)) eqn:B0; cbn [negb orb] in Hv; [|discriminate Hv]. unfold ngtb in Hv. destruct (nleb (o_cm o) n0) eqn:B1; cbn [orb] in Hv; [discriminate Hv|]. destruct (nltb n1 (o_cm o)) eqn:B2; [discriminate Hv|].
    assert (Fcm : is_finite (o_cm o) = true) by (destruct (o_cm o); try discriminate B0; reflexivity). split; [exact Fcm|].
    pose proof (f2x_finite _ Fcm) as Icm. set (cm := B2R (o_cm o)) in *.
    rewrite f2x_leb, Icm, is0 in B1. rewrite f2x_ltb, Icm, is1 in B2. cbn [x_ltb] in B2. unfold Rltb in B2. destruct (Rle_dec cm 0) as [H|H]; [exfalso; assert (K : x_leb (XFin cm) (XFin 0) = true) by (apply xle_leb; exact H); congruence|].
    destruct (Rlt_dec 1 cm) in B2; [discriminate B2|]. lra.
  Qed.
  Lemma update_mean : forall tree fe p inds s (ok : bool) s', state_update tree fe p inds s = Ret (ok, s') ->
    exists yw, calc_yw p inds = Ret yw /\ calc_mean p s yw = Ret (st_mean s').
  Proof.
    intros tree fe p inds s ok s' H. unfold state_update in H. destruct (calc_yw p inds) as [yw| |]; cbn [obind] in H; try discriminate H.
    exists yw. split; [reflexivity|]. destruct (calc_mean p s yw) as [mn| |]; cbn [obind] in H; try discriminate H.
    repeat match type of H with obind ?x _ = _ => let Ex := fresh "Ex" in destruct x as [?a|?|] eqn:Ex; cbn [obind] in H; [|discriminate H|discriminate H] end.
    destruct a3 as [okk cmm]. cbn [obind] in H. destruct okk; apply (f_equal (fun z => match z with Ret (_, st) => st_mean st | _ => [] end)) in H; cbn [st_mean] in H; rewrite H; reflexivity.
  Qed.
  Lemma mean_length : forall o f c, reaches ev' o f c -> length (st_mean (c_state c)) = dims o.
  Proof.
    intros o f c [c0 [l [[rs [now Hb]] Hst]]]. pose proof (cmaes_new_inv _ _ _ _ _ Hb) as C. cbv zeta in C. destruct C as [_ [_ [_ [C4 _]]]].
    apply (steps_invariant ev' (fun a => length (st_mean (c_state a)) = dims o)) with (l := l) (c := c0); auto.
    - intros a op b Ha Hq Hs. pose proof (quiet_core ev' _ _ _ Hq Hs) as [_ [_ [Co _]]]. rewrite Co. exact Ha.
    - intros par tk a r b Ha Hn. pose proof (next_outcome ev' _ _ _ _ _ Hn) as [[_ [_ [_ H2]]]|[inds [ok [_ [_ [_ [H4 _]]]]]]]; [rewrite H2; exact Ha|].
      destruct (update_mean _ _ _ _ _ _ _ H4) as [yw [_ H5]]. unfold calc_mean, vadd_c in H5. apply check_Ret in H5. destruct H5 as [H5 ->]. apply Nat.eqb_eq in H5. unfold vadd. rewrite map2_length. lia.
    - rewrite C4. reflexivity.
  Qed.

  (* Only the population_size/2 best points need to be finite, in this coordinate. *)
  Theorem C77_mean : accurate_ln -> forall o f c par tk r c' i, reaches ev' o (f, []) c -> sizes_fit o ->
    next ev' par tk c = Ret (r, c') -> reports InvalidFunctionValue r = false ->
    (i < dims o)%nat -> bpow radix2 (-1000) <= B2R (o_cm o) * B2R (sigma c) -> fin_comp (mean c') i ->
    let w := p_weights (c_params c) in
    let mu := N.to_nat (o_population_size o / 2) in
    exists new ranking,
      calls c' = calls c ++ new /\ length new = N.to_nat (o_population_size o) /\ Permutation new ranking /\
      StronglySorted (fun a b => as_good (o_mode o) (snd a) (snd b)) ranking /\
      fin_comp (mean c) i /\
      forall X, Rabs (comp (mean c) i) <= X ->
        (forall k d, (k < mu)%nat -> fin_comp (fst (nth k ranking d)) i /\ Rabs (comp (fst (nth k ranking d)) i) <= X) ->
        forall d, Rabs (comp (mean c') i - target (B2R (o_cm o)) (comp (mean c) i) (weight w) (fun k => comp (fst (nth k ranking d)) i) mu)
                  <= slack mu X (B2R (sigma c)).
  Proof.
    intros Hln o f c par tk r c' i Hr Hsz Hn Hi Hd Hcs Hf w mu.
    destruct (C75_weights ev' Hln o _ c Hr Hsz) as [W1 [W2 [W3 [_ [_ W6]]]]]. fold w mu in W1, W3, W6.
    pose proof (mean_length o _ c Hr) as Lm. destruct (reached_params ev' o _ c Hr) as [Hv [seed Hp]].
    assert (Pop : sm_population_size (c_sampler c) = o_population_size o).
    { destruct (reaches_setup ev' o _ c Hr) as [rs [now [c0 [Hc0 [_ [_ [_ [_ [_ [_ Q]]]]]]]]]]. pose proof (cmaes_new_inv _ _ _ _ _ Hc0) as C. cbv zeta in C. destruct C as [_ [C2 _]]. rewrite Q, C2. reflexivity. }
    pose proof (next_outcome ev' _ _ _ _ _ Hn) as [[_ [H2 _]]|[inds [ok [H1 [_ [_ [H4 _]]]]]]]; [congruence|].
    pose proof (sample_ranked ev _ _ _ _ _ _ _ H1) as [pts [new [S1 [S2 [_ [S3 [S4 _]]]]]]].
    pose proof (sample_Some _ _ _ _ _ _ _ _ H1) as [ys [g [f1 [pts' [_ [Y2 [_ [Y4 [Y5 _]]]]]]]]].
    assert (Li : length inds = N.to_nat (o_population_size o)).
    { rewrite Y5, sort_by_length, <- (Forall2_len _ _ _ Y4), Y2, Pop. reflexivity. }
    assert (Pe : forall p, In p inds -> evaluated (c_state c) (pt_step p) p /\ length (pt_step p) = dims o).
    { intros p Hpin. rewrite Y5 in Hpin. apply (Permutation_in _ (Permutation_sym (sort_by_perm _ _))) in Hpin.
      assert (G : exists y, evaluated (c_state c) y p).
      { clear - Y4 Hpin. induction Y4 as [|y q ys qs H0 H IH]; [contradiction|]. destruct Hpin as [->|Hp]; [exists y; exact H0|auto]. }
      destruct G as [y Gy]. assert (Ey : pt_step p = y) by apply Gy. rewrite Ey. split; [exact Gy|]. destruct Gy as [_ [Gp _]]. unfold to_point, vadd_c in Gp. apply check_Ret in Gp. destruct Gp as [Gp _]. apply Nat.eqb_eq in Gp.
      unfold vscale in Gp. rewrite map_length in Gp. congruence. }
    exists new, (map pt_entry inds).
    assert (Pn : Permutation new (map pt_entry inds)) by (rewrite <- S2; apply Permutation_map; exact S3).
    split; [exact S1|]. split; [rewrite (Permutation_length Pn), map_length; exact Li|]. split; [exact Pn|]. split.
    { assert (Md : p_mode (c_params c) = o_mode o) by (rewrite Hp; reflexivity). rewrite Md in S4. clear - S4 Pe. unfold ranked in S4.
      induction S4 as [|a l S IH Fa]; cbn [map]; constructor.
      - apply IH. intros p Hpin. apply Pe. right. exact Hpin.
      - rewrite Forall_map. rewrite Forall_forall in *. intros b Hb. cbn [pt_entry snd]. apply as_good_ranked; [apply (Pe a); left; reflexivity|apply (Pe b); right; exact Hb|]. apply Fa. exact Hb. }
    (* the update *)
    destruct (update_mean _ _ _ _ _ _ _ H4) as [yw [Eyw Emn]]. remember (st_mean (c_state c')) as mn eqn:Em. symmetry in Em.
    clear H4. unfold mean in Hf. rewrite Em in Hf.
    unfold calc_mean in Emn. assert (Ly : length yw = dims o).
    { unfold vadd_c in Emn. apply check_Ret in Emn. destruct Emn as [Emn _]. apply Nat.eqb_eq in Emn. unfold vscale in Emn. rewrite map_length in Emn. congruence. }
    destruct (vadd_nth _ _ _ i Emn) as [M1 _]; [lia|]. rewrite vscale_nth in M1 by lia.
    assert (Ecm : p_cm (c_params c) = o_cm o) by (rewrite Hp; reflexivity). rewrite Ecm in M1.
    unfold calc_yw in Eyw. destruct (weighted_steps _ _) as [l| |] eqn:Ew; cbn [obind] in Eyw; try discriminate Eyw.
    assert (Emu : N.to_nat (p_mu (c_params c)) = mu) by (rewrite Hp; reflexivity). rewrite Emu in Ew.
    assert (M2 : (2 <= N.to_nat (o_population_size o))%nat) by (destruct (sizes o Hv); lia).
    assert (Mu1 : (1 <= mu <= N.to_nat (o_population_size o))%nat).
    { unfold mu. rewrite N2Nat.inj_div. change (N.to_nat 2) with 2%nat. split; [apply Nat.div_le_lower_bound; lia|apply Nat.div_le_upper_bound; lia]. }
    destruct inds as [|p0 inds0] eqn:Einds; [cbn in Li; lia|]. rewrite <- Einds in *.
    destruct (weighted_nth _ _ _ p0 Ew) as [Ll Lk]. rewrite firstn_length, Li, Nat.min_l in Ll, Lk by lia.
    unfold vsum_c in Eyw. destruct l as [|v0 l]; [discriminate Eyw|]. cbn [length] in Ll.
    assert (Lk' : forall k, (k < mu)%nat -> nth k (v0 :: l) [] = vscale_r (pt_step (nth k inds p0)) (nth k w n0)).
    { intros k Hk. rewrite (Lk k Hk). do 2 f_equal. rewrite <- (firstn_skipn mu inds) at 2. rewrite app_nth1 by (rewrite firstn_length; lia). reflexivity. }
    assert (Lv : forall k, (k < mu)%nat -> nth i (nth k (v0 :: l) []) n0 = nmul (nth i (pt_step (nth k inds p0)) n0) (nth k w n0)).
    { intros k Hk. rewrite (Lk' k Hk). apply vscale_r_nth. destruct (Pe (nth k inds p0)) as [_ ->]; [apply nth_In; lia|exact Hd]. }
    destruct (vsum_nth _ _ _ i Eyw) as [V1 _].
    { pose proof (Lk' 0%nat ltac:(lia)) as A. cbn [nth] in A. rewrite A. unfold vscale_r. rewrite map_length. destruct (Pe (nth 0 inds p0)) as [_ ->]; [apply nth_In; lia|exact Hd]. }
    rewrite V1 in M1. clear V1 Lk Lk' Eyw Emn Ew.
    (* as numbers *)
    assert (If : is (nth i mn n0) (B2R (nth i mn n0 : f64))) by (apply f2x_finite; exact Hf). rewrite M1 in If at 1.
    destruct (add_fin _ _ _ If) as [m [V [Im [IV EV]]]]. destruct (mul_fin _ _ _ IV) as [P [Y [IP [IY EPY]]]]. destruct (mul_fin _ _ _ IP) as [cm [s [Icm [Is EP]]]].
    destruct (fold_back _ _ _ IY) as [r0 [rs [Ir0 [Irs EY]]]].
    pose proof (is_B2R _ _ Im) as [Fm Bm]. pose proof (is_B2R _ _ Is) as [_ Bs]. pose proof (is_B2R _ _ Icm) as [_ Bcm].
    split; [exact Fm|]. intros X HX Hx d. unfold sigma in *. rewrite Bs, Bcm in *.
    (* the steps *)
    set (y := fun k => B2R (nth i (pt_step (nth k inds p0)) n0 : f64)).
    assert (Irk : forall k, (k < mu)%nat -> is (nth i (nth k (v0 :: l) []) n0) (nth k (r0 :: rs) 0)).
    { assert (G : Forall2 is (map (fun v : vec f64 => nth i v n0) (v0 :: l)) (r0 :: rs)) by (cbn [map]; constructor; assumption).
      intros k Hk. assert (Hk' : (k < length (v0 :: l))%nat) by (cbn [length]; lia). clear - G Hk'. revert k Hk' G. generalize (v0 :: l) (r0 :: rs). clear. intros a. induction a as [|x a IH]; intros b k Hk G; [cbn in Hk; lia|].
      inversion G; subst. destruct k as [|k]; cbn [nth length] in *; [assumption|]. apply IH; [lia|assumption]. }
    assert (Yk : forall k, (k < mu)%nat -> is (nth i (pt_step (nth k inds p0)) n0) (y k) /\ nth k (r0 :: rs) 0 = rnd64 (y k * weight w k)).
    { intros k Hk. specialize (Irk k Hk). rewrite (Lv k Hk) in Irk. destruct (mul_fin _ _ _ Irk) as [a [b [Ia [Ib Eab]]]]. unfold y, weight.
      destruct (is_B2R _ _ Ia) as [_ ->]. destruct (is_B2R _ _ Ib) as [_ ->]. auto. }
    assert (Xk : forall k d', (k < mu)%nat -> comp (fst (nth k (map pt_entry inds) d')) i = rnd64 (m + rnd64 (s * y k))).
    { intros k d' Hk. destruct (Hx k d' Hk) as [Fx _]. rewrite (nth_indep _ d' (pt_entry p0)) in * by (rewrite map_length; lia). rewrite map_nth in *. cbn [pt_entry fst] in *.
      assert (Kin : In (nth k inds p0) inds) by (apply nth_In; lia). destruct (Pe _ Kin) as [[_ [Tp _]] Lp]. unfold to_point in Tp. destruct (vadd_nth _ _ _ i Tp) as [T1 _]; [lia|]. rewrite vscale_nth in T1 by lia.
      unfold fin_comp in Fx. unfold comp. assert (Ix : is (nth i (pt_point (nth k inds p0)) n0) (B2R (nth i (pt_point (nth k inds p0)) n0 : f64))) by (apply f2x_finite; exact Fx).
      rewrite T1 in Ix at 1. destruct (add_fin _ _ _ Ix) as [m1 [t1 [J1 [J2 ->]]]]. destruct (mul_fin _ _ _ J2) as [s1 [y1 [J3 [J4 ->]]]].
      destruct (Yk k Hk) as [J5 _]. unfold is in *. congruence. }
    assert (Bmu : (Z.of_nat mu <= 1099511627776)%Z) by (destruct Hsz as [Hsz _]; unfold mu; pose proof (N.div_le_upper_bound (o_population_size o) 2 1099511627776 ltac:(lia) ltac:(lia)); lia).
    clearbody mu. destruct mu as [|n]; [lia|].
    assert (Ers : fsum (map (fun k => rnd64 (y k * weight w k)) (seq 1 n)) (rnd64 (y 0%nat * weight w 0%nat)) = Y).
    { rewrite EY. assert (E0 : r0 = rnd64 (y 0%nat * weight w 0%nat)) by apply (Yk 0%nat ltac:(lia)). rewrite <- E0. f_equal. pose proof (Forall2_len _ _ _ Irs) as Lr. rewrite map_length in Lr.
      apply (nth_ext _ _ 0 0); [rewrite map_length, seq_length; exact (eq_trans (eq_sym (eq_add_S _ _ Ll)) Lr)|]. intros k Hk. rewrite map_length, seq_length in Hk.
      rewrite (nth_indep _ 0 ((fun k => rnd64 (y k * weight w k)) 0%nat)) by (rewrite map_length, seq_length; exact Hk). rewrite (map_nth (fun k => rnd64 (y k * weight w k))), seq_nth by exact Hk.
      destruct (Yk (S k) ltac:(lia)) as [_ B]. cbn [nth] in B. rewrite B. reflexivity. }
    assert (Cm : 0 < cm <= 1) by (destruct (valid_cm o Hv) as [_ K]; rewrite Bcm in K; exact K).
    assert (Sp : 0 < s). { pose proof (bpow_gt_0 radix2 (-1000)) as Hb. set (b := bpow radix2 (-1000)) in *. clearbody b. clear - Cm Hcs Hb. destruct (Rle_dec s 0); [exfalso; nra|lra]. }
    assert (Nm : INR (S n) <= 1099511627776).
    { apply IZR_le in Bmu. rewrite <- INR_IZR_INZ in Bmu. exact Bmu. }
    assert (Es : sum_to w (S n) = Sig (S n) (weight w)) by (unfold sum_to; change (fold_right Rplus 0) with tot; rewrite tot_Sig; reflexivity).
    assert (Ws : Sig (S n) (weight w) <= 101 / 100).
    { rewrite <- Es. apply Rabs_le_inv in W6. replace (2 ^ 52) with 4503599627370496 in W6 by lra. rewrite Nat.add_1_r, (S_INR (S n)) in W6. lra. }
    pose proof (mean_err n (weight w) y s m cm X Nm (fun k Hk => Rlt_le _ _ (W3 k ltac:(lia))) Ws Sp Cm Hcs) as ME.
    assert (HX' : Rabs m <= X) by (unfold comp, mean in HX; rewrite Bm in HX; exact HX). specialize (ME HX').
    assert (Hx' : forall k, (k <= n)%nat -> Rabs (rnd64 (m + rnd64 (s * y k))) <= X).
    { intros k Hk. rewrite <- (Xk k d) by lia. apply Hx. lia. }
    specialize (ME Hx'). rewrite Ers in ME. unfold comp at 1 2, mean. rewrite Em, Bm, EV, EPY, EP. unfold target, slack.
    rewrite (Sig_ext (S n) (fun k => weight w k * (comp (fst (nth k (map pt_entry inds) d)) i - m)) (fun k => weight w k * (rnd64 (m + rnd64 (s * y k)) - m)))
      by (intros k Hk; rewrite (Xk k d Hk); reflexivity).
    replace (2 ^ 53) with 9007199254740992 by lra. exact ME.
  Qed.

  (* Hence the mean leaves a box that contains the old mean and the evaluated points by no more than the tolerance. *)
  Theorem C77_box : accurate_ln -> forall o f c par tk r c' new i lo hi X, reaches ev' o (f, []) c -> sizes_fit o ->
    next ev' par tk c = Ret (r, c') -> reports InvalidFunctionValue r = false -> calls c' = calls c ++ new ->
    (i < dims o)%nat -> bpow radix2 (-1000) <= B2R (o_cm o) * B2R (sigma c) -> fin_comp (mean c') i ->
    Rabs lo <= X -> Rabs hi <= X -> lo <= comp (mean c) i <= hi ->
    (forall p, In p new -> fin_comp (fst p) i /\ lo <= comp (fst p) i <= hi) ->
    let mu := N.to_nat (o_population_size o / 2) in
    let e := slack mu X (B2R (sigma c)) + 4 * INR (mu + 1) / 2 ^ 53 * X in
    lo - e <= comp (mean c') i <= hi + e.
  Proof.
    intros Hln o f c par tk r c' new i lo hi X Hr Hsz Hn Hi Hc Hd Hcs Hf Hlo Hhi Hm Hp mu e.
    destruct (C77_mean Hln o f c par tk r c' i Hr Hsz Hn Hi Hd Hcs Hf) as [new' [rk [A1 [A2 [A3 [_ [_ A6]]]]]]]. fold mu in A6.
    assert (new' = new) by (rewrite A1 in Hc; apply app_inv_head in Hc; exact Hc). subst new'.
    destruct (C75_weights ev' Hln o _ c Hr Hsz) as [_ [_ [W3 [_ [_ W6]]]]]. fold mu in W3, W6. destruct (reached_params ev' o _ c Hr) as [Hv _].
    assert (Pop : (2 <= o_population_size o)%N) by apply (sizes o Hv).
    assert (Mu1 : (mu <= N.to_nat (o_population_size o))%nat).
    { unfold mu. rewrite N2Nat.inj_div. change (N.to_nat 2) with 2%nat. apply Nat.div_le_upper_bound; lia. }
    assert (Lr : length rk = N.to_nat (o_population_size o)) by (rewrite <- (Permutation_length A3); exact A2).
    destruct rk as [|d rk0] eqn:Erk; [cbn [length] in Lr; lia|]. rewrite <- Erk in *.
    assert (Hk : forall k d', (k < mu)%nat -> fin_comp (fst (nth k rk d')) i /\ lo <= comp (fst (nth k rk d')) i <= hi).
    { intros k d' Hk. apply Hp. apply (Permutation_in _ (Permutation_sym A3)). apply nth_In. lia. }
    apply Rabs_le_inv in Hlo. apply Rabs_le_inv in Hhi.
    assert (A7 := A6 X ltac:(apply Rabs_le; lra) ltac:(intros k d' Hk'; destruct (Hk k d' Hk') as [B1 B2]; split; [exact B1|apply Rabs_le; lra]) d). clear A6.
    set (w := weight (p_weights (c_params c))) in *. set (x := fun k => comp (fst (nth k rk d)) i) in *.
    assert (Es : sum_to (p_weights (c_params c)) mu = Sig mu w) by (unfold sum_to; change (fold_right Rplus 0) with tot; rewrite tot_Sig; reflexivity). rewrite Es in W6.
    pose proof (valid_cm o Hv) as [_ Cm].
    set (cm := B2R (o_cm o)) in *. set (m := comp (mean c) i) in *.
    assert (U1 : Sig mu (fun k => w k * (x k - m)) <= Sig mu w * (hi - m)).
    { rewrite <- Sig_mul_r. apply Sig_le. intros k Hk'. apply Rmult_le_compat_l; [left; apply W3; exact Hk'|]. destruct (Hk k d Hk') as [_ B]. unfold x. lra. }
    assert (U2 : Sig mu w * (lo - m) <= Sig mu (fun k => w k * (x k - m))).
    { rewrite <- Sig_mul_r. apply Sig_le. intros k Hk'. apply Rmult_le_compat_l; [left; apply W3; exact Hk'|]. destruct (Hk k d Hk') as [_ B]. unfold x. lra. }
    assert (W0 : 0 <= Sig mu w) by (apply Sig_nonneg; intros k Hk'; left; apply W3; exact Hk').
    apply Rabs_le_inv in W6. replace (2 ^ 52) with 4503599627370496 in W6 by lra. apply Rabs_le_inv in A7. unfold target in A7. unfold e. replace (2 ^ 53) with 9007199254740992 by lra.
    set (W := Sig mu w) in *. set (D := Sig mu (fun k => w k * (x k - m))) in *. set (sl := slack mu X (B2R (sigma c))) in *. set (Q := INR (mu + 1)) in *. set (m' := comp (mean c') i) in *. clearbody W D sl m' cm.
    assert (Q0 : 0 <= Q) by apply pos_INR. clearbody Q m. clear - W6 A7 U1 U2 W0 Cm Hm Hlo Hhi Q0. set (q := Q / 4503599627370496) in *.
    assert (q0 : 0 <= q) by (unfold q; lra). replace (4 * Q / 9007199254740992 * X) with (q * (2 * X)) by (unfold q; field). clearbody q.
    assert (K1 : cm * D <= cm * (W * (hi - m))) by (apply Rmult_le_compat_l; lra). assert (K2 : cm * (W * (lo - m)) <= cm * D) by (apply Rmult_le_compat_l; lra).
    assert (CW : cm * W <= 1 + q) by nra.
    assert (CW0 : 0 <= cm * W) by (apply Rmult_le_pos; lra).
    assert (K3 : cm * W * (hi - m) <= (1 + q) * (hi - m)) by (apply Rmult_le_compat_r; lra).
    assert (K4 : cm * W * (m - lo) <= (1 + q) * (m - lo)) by (apply Rmult_le_compat_r; lra).
    assert (K5 : q * (hi - m) <= q * (2 * X)) by (apply Rmult_le_compat_l; lra).
    assert (K6 : q * (m - lo) <= q * (2 * X)) by (apply Rmult_le_compat_l; lra). lra.
  Qed.
End FloatMean.
Print Assumptions C77_mean.
Print Assumptions C77_box.

(* The tolerance is needed: ten points, all at 0.1 and so within the bounds [0, 0.1], as is the old mean 0. Nevertheless the new
   mean is above 0.1. *)
Definition c77_env : Env f64 := {|
  rng_t := N;
  rng_seed := fun s => s;
  rng_normal := fun g => (lit 1 10, g);
  eigen := fun m => Some (identity (length m), diagonal m);
  nan_median := fun _ => Some nnan
|}.
Definition c77_options : options f64 := apply_setters (options_new (LT := toy_libm) [n0] n1) [SPopulationSize 10; SWeights WUniform; SBounds [n0] [lit 1 10]; SMaxResamples None].
Theorem C77_tolerance_needed : accurate_ln (L := rounded_libm) /\
  exists (c c' : cmaes (E := c77_env) f64 (unit * list (entry f64))) r,
    reaches (LT := rounded_libm) (log_ev toy_sphere) c77_options (tt, []) c /\ next (LT := rounded_libm) (log_ev toy_sphere) false toy_tick c = Ret (r, c') /\
    o_constraints c77_options = Some (bounds_meets [n0] [lit 1 10]) /\ o_max_resamples c77_options = None /\
    bounds_meets [n0] [lit 1 10] (o_initial_mean c77_options) = Ret true /\
    calls c' <> [] /\ (forall p, In p (calls c') -> bounds_meets [n0] [lit 1 10] (fst p) = Ret true) /\
    bounds_meets [n0] [lit 1 10] (mean c) = Ret true /\ bounds_meets [n0] [lit 1 10] (mean c') = Ret false.
Proof.
  split; [exact rounded_accurate|].
  destruct (holds_ex (after (LT := rounded_libm) (E := c77_env) (log_ev toy_sphere) (tt, []) c77_options [])
    (fun c => holds (bounds_meets [n0] [lit 1 10] (mean c)) (fun b => b) &&
      holds (next (LT := rounded_libm) (E := c77_env) (log_ev toy_sphere) false toy_tick c)
        (fun rc => match calls (snd rc) with [] => false | _ => true end && forallb (fun p => holds (bounds_meets [n0] [lit 1 10] (fst p)) (fun b => b)) (calls (snd rc)) &&
                   holds (bounds_meets [n0] [lit 1 10] (mean (snd rc))) negb))) as [c [H1 H2]].
  { vm_compute. reflexivity. }
  apply after_reaches in H1. destruct H1 as [c0 [H0 H1]]. apply andb_prop in H2. destruct H2 as [H2 H3]. apply holds_ex in H3. destruct H3 as [[r c'] [H3 H4]]. cbn [snd] in H4.
  apply andb_prop in H4. destruct H4 as [H4 H6]. apply andb_prop in H4. destruct H4 as [H4 H5]. rewrite forallb_forall in H5.
  exists c, c', r. split; [exists c0, []; auto|]. split; [exact H3|]. split; [reflexivity|]. split; [reflexivity|]. split; [vm_compute; reflexivity|].
  split; [destruct (calls c'); [discriminate H4|congruence]|].
  assert (G : forall x, holds (bounds_meets [n0] [lit 1 10] x) (fun b => b) = true -> bounds_meets [n0] [lit 1 10] x = Ret true).
  { intros x. generalize (bounds_meets [n0] [lit 1 10] x). intros [[]| |] K; try discriminate K; reflexivity. }
  split; [intros p Hp; apply G, H5, Hp|]. split; [apply G; exact H2|].
  revert H6. generalize (bounds_meets [n0] [lit 1 10] (mean c')). intros [[]| |] K; try discriminate K; reflexivity.
Qed.
Print Assumptions C77_tolerance_needed.

(* A case that meets the hypotheses of C77_mean and C77_box, in both coordinates: four points, not all equal. *)
Example C77_case : accurate_ln (L := rounded_libm) /\
  exists (c c' : cmaes (E := toy_env) f64 (unit * list (entry f64))) r,
    reaches (LT := rounded_libm) (log_ev toy_sphere) (c75_options 2 WUniform 4) (tt, []) c /\ sizes_fit (c75_options 2 WUniform 4) /\
    next (LT := rounded_libm) (log_ev toy_sphere) false toy_tick c = Ret (r, c') /\ reports InvalidFunctionValue r = false /\
    (forall i, (i < 2)%nat -> fin_comp (mean c') i /\ -9 <= comp (mean c) i <= 9 /\
      (forall p, In p (calls c') -> fin_comp (fst p) i /\ -9 <= comp (fst p) i <= 9)) /\
    bpow radix2 (-1000) <= B2R (o_cm (c75_options 2 WUniform 4)) * B2R (sigma c).
Proof.
  split; [exact rounded_accurate|].
  set (small := fun (v : vec f64) i => is_finite (nth i v n0 : f64) && nleb (nofZ (-9)) (nth i v n0) && nleb (nth i v n0) (nofZ 9)).
  destruct (holds_ex (after (LT := rounded_libm) (E := toy_env) (log_ev toy_sphere) (tt, []) (c75_options 2 WUniform 4) [])
    (fun c => small (mean c) 0%nat && small (mean c) 1%nat && (is_finite (o_cm (c75_options 2 WUniform 4)) && nleb n1 (o_cm (c75_options 2 WUniform 4)) && is_finite (sigma c : f64) && nleb (nlit 4 10) (sigma c)) &&
      holds (next (LT := rounded_libm) (E := toy_env) (log_ev toy_sphere) false toy_tick c)
        (fun rc => negb (reports InvalidFunctionValue (fst rc)) && small (mean (snd rc)) 0%nat && small (mean (snd rc)) 1%nat && forallb (fun p => small (fst p) 0%nat && small (fst p) 1%nat) (calls (snd rc))))) as [c [H1 H2]].
  { vm_compute. reflexivity. }
  apply after_reaches in H1. destruct H1 as [c0 [H0 H1]].
  assert (G : forall v i, small v i = true -> fin_comp v i /\ -9 <= comp v i <= 9).
  { intros v i H. unfold small in H. apply andb_prop in H. destruct H as [H K3]. apply andb_prop in H. destruct H as [K1 K2]. unfold fin_comp, comp. split; [exact K1|].
    rewrite f2x_leb in K2, K3. rewrite (f2x_finite _ K1) in K2, K3. apply xle_leb in K2. apply xle_leb in K3.
    assert (E1 : f2x (nofZ (-9) : f64) = XFin (-9)) by (apply is_ofZ; lia). assert (E2 : f2x (nofZ 9 : f64) = XFin 9) by (apply is_ofZ; lia).
    rewrite E1 in K2. rewrite E2 in K3. cbn [xle] in K2, K3. lra. }
  apply andb_prop in H2. destruct H2 as [H2 H3]. apply andb_prop in H2. destruct H2 as [H2 H4]. apply andb_prop in H2. destruct H2 as [A0 A1].
  apply holds_ex in H3. destruct H3 as [[r c'] [H3 H5]]. cbn [fst snd] in H5. apply andb_prop in H5. destruct H5 as [H5 H6]. apply andb_prop in H5. destruct H5 as [H5 B1]. apply andb_prop in H5. destruct H5 as [H5 B0].
  rewrite forallb_forall in H6. apply negb_true_iff in H5. clearbody small.
  exists c, c', r. split; [exists c0, []; auto|]. split.
  { split; [vm_compute; reflexivity|vm_compute; discriminate]. }
  split; [exact H3|]. split; [exact H5|]. split.
  { intros [|[|i]] Hi; [| |lia]; (split; [apply G; assumption|]; split; [apply G; assumption|]; intros p Hp; apply G; specialize (H6 p Hp); apply andb_prop in H6; tauto). }
  revert H4. generalize (o_cm (c75_options 2 WUniform 4)) (sigma c). clear. intros a b H. apply andb_prop in H. destruct H as [H K4]. apply andb_prop in H. destruct H as [H K3]. apply andb_prop in H. destruct H as [K1 K2].
  destruct margin as [q [Hq Hq']]. rewrite f2x_leb in K2, K4. rewrite (f2x_finite _ K1), is1 in K2. rewrite (f2x_finite _ K3), Hq in K4. apply xle_leb in K2. apply xle_leb in K4. cbn [xle] in K2, K4.
  apply Rle_trans with (bpow radix2 (-2)); [apply bpow_le; lia|]. change (bpow radix2 (-2)) with (/ 4). set (x := B2R a) in *. set (y := B2R b) in *. clearbody x y. nra.
Qed.
