(* C83: the evolution path of the covariance matrix as computed in binary64. *)
From Coq Require Import List NArith ZArith Bool Reals Lra Lia Arith Psatz Permutation Sorted.
From Flocq Require Import Core.
From Flocq Require Import IEEE754.BinarySingleNaN.
Require Import Verif.Lib Verif.Base Verif.Num Verif.F64 Verif.XReal Verif.LinAlg Verif.Mode Verif.Weights Verif.Options
  Verif.Params Verif.Env Verif.State Verif.Sampling Verif.History Verif.Termination Verif.Plot Verif.Cmaes
  Verif.Spec Verif.Order Verif.Sort Verif.F64Lemmas Verif.BuildLemmas Verif.TraceLemmas Verif.CeilLemmas Verif.XRound Verif.XLe
  Verif.NextInv Verif.LogLemmas Verif.SamplingLemmas Verif.PanicLemmas Verif.NextSafe Verif.RSum
  Verif.F64Acc Verif.F64Weights Verif.F64Rates Verif.F64Final Verif.F64Raw Verif.Toy Verif.ToyLemmas Verif.StateLemmas Verif.TermLemmas Verif.PropRun Verif.PropPlot
  Verif.F64Mean Verif.F64Sigma Verif.F64Cov Verif.F64CovErr Verif.F64Path Verif.PropFloatParams Verif.PropFloatMean Verif.PropFloatCov Verif.PropFloatCovErr.
Import ListNotations.
Open Scope R_scope.

(* ---- specification ---- *)
(* what a component of the path should become (Hansen's tutorial, equation 45): p is the component, w the weights, y the components of the steps *)
Definition new_path (cc mu_eff h p : R) (mu : nat) (w y : nat -> R) : R :=
  (1 - cc) * p + h * sqrt (cc * (2 - cc) * mu_eff) * Sig mu (fun k => w k * y k).
Definition path_tolerance (cc mu_eff h p : R) (mu : nat) (w y : nat -> R) : R :=
  (3 * INR mu + 8) / 2 ^ 53 * ((1 - cc) * Rabs p + h * sqrt (cc * (2 - cc) * mu_eff) * Sig mu (fun k => w k * Rabs (y k)))
  + (5 * INR mu * sqrt (cc * (2 - cc) * mu_eff) + 3) * bpow radix2 (-1074).

Section FloatPath.
  Context {L : Libm f64} {E : Env f64} {F : Type} (ev : F -> vec f64 -> outcome (f64 * F)).
  Let ev' := log_ev ev.

  (* the parameters of the path *)
  Lemma path_rates : accurate_ln -> forall o f c, reaches ev' o (f, []) c -> sizes_fit o ->
    exists cc M, is (p_cc (c_params c)) cc /\ is (p_mu_eff (c_params c)) M /\ / 1000000000000000000000 <= cc <= 1 /\ 999 / 1000 <= M <= 1200000000000.
  Proof.
    intros Hln o f c Hr Hf. destruct (setup ev' Hln o _ c Hr Hf) as [seed [rs [Hp [Hd [Hraw Hlen]]]]].
    destruct (mu_eff_acc _ _ _ (o_weights o) Hraw) as [M [HM [M1 [M2 M3]]]].
    change (mkIW (iw_weights (iw_new (o_population_size o) (o_weights o))) (o_weights o) (o_population_size o / 2)) with (iw_new (T := f64) (o_population_size o) (o_weights o)) in HM.
    assert (Hk : IZR (Z.of_N (o_population_size o / 2)) <= 1099511627776).
    { apply IZR_le. destruct Hf as [Hf _]. pose proof (N.div_le_upper_bound (o_population_size o) 2 1099511627776 ltac:(lia) ltac:(lia)). lia. }
    assert (M4 : M <= 1200000000000) by lra.
    rewrite Hp. unfold params_of_options. cbn [p_mu_eff p_cc].
    set (dim := N.of_nat (length (o_initial_mean o))) in *. set (me := iw_mu_eff (iw_new (o_population_size o) (o_weights o))) in *.
    destruct (cc_range dim me M Hd HM M1 M4) as [cc [Icc Hcc]]. exists cc, M. repeat (split; [assumption|]). lra.
  Qed.

  (* a component of the weighted mean of the best steps *)
  Lemma mean_step : accurate_ln -> forall o f c inds yw, reaches ev' o (f, []) c -> sizes_fit o -> calc_yw (c_params c) inds = Ret yw ->
    length inds = N.to_nat (o_population_size o) -> (forall p, In p inds -> length (pt_step p) = dims o) -> forall d,
    let w := p_weights (c_params c) in let mu := N.to_nat (o_population_size o / 2) in
    length yw = dims o /\ forall i Y, (i < dims o)%nat -> is (nth i yw n0) Y ->
      (forall k, (k < mu)%nat -> fin_comp (pt_step (nth k inds d)) i) /\
      Rabs (Y - Sig mu (fun k => weight w k * comp (pt_step (nth k inds d)) i)) <= 2 * INR mu * uu * Sig mu (fun k => weight w k * Rabs (comp (pt_step (nth k inds d)) i)) + 4 * INR mu * eta.
  Proof.
    intros Hln o f c inds yw Hr Hsz Eyw Li Pe d w mu. destruct (C75_weights ev' Hln o _ c Hr Hsz) as [_ [_ [W3 _]]]. fold w mu in W3.
    destruct (reached_params ev' o _ c Hr) as [Hv [seed Hp]].
    unfold calc_yw in Eyw. destruct (weighted_steps _ _) as [l| |] eqn:Ew; cbn [obind] in Eyw; try discriminate Eyw.
    assert (Emu : N.to_nat (p_mu (c_params c)) = mu) by (rewrite Hp; reflexivity). rewrite Emu in Ew.
    assert (M2 : (2 <= N.to_nat (o_population_size o))%nat) by (destruct (PropFloatParams.sizes o Hv); lia).
    assert (Mu1 : (1 <= mu <= N.to_nat (o_population_size o))%nat).
    { unfold mu. rewrite N2Nat.inj_div. change (N.to_nat 2) with 2%nat. split; [apply Nat.div_le_lower_bound; lia|apply Nat.div_le_upper_bound; lia]. }
    destruct (weighted_nth _ _ _ d Ew) as [Ll Lk]. rewrite firstn_length, Li, Nat.min_l in Ll, Lk by lia.
    unfold vsum_c in Eyw. destruct l as [|v0 l]; [discriminate Eyw|]. cbn [length] in Ll.
    assert (Lk' : forall k, (k < mu)%nat -> nth k (v0 :: l) [] = vscale_r (pt_step (nth k inds d)) (nth k w n0)).
    { intros k Hk. rewrite (Lk k Hk). do 2 f_equal. rewrite <- (firstn_skipn mu inds) at 2. rewrite app_nth1 by (rewrite firstn_length; lia). reflexivity. }
    assert (Lp : forall k, (k < mu)%nat -> length (pt_step (nth k inds d)) = dims o) by (intros k Hk; apply Pe, nth_In; lia).
    assert (L0 : length v0 = dims o).
    { pose proof (Lk' 0%nat ltac:(lia)) as A. cbn [nth] in A. rewrite A. unfold vscale_r. rewrite map_length. apply (Lp 0%nat). lia. }
    assert (Hd : (0 < dims o)%nat) by (destruct (PropFloatParams.sizes o Hv); unfold dims; lia).
    split; [destruct (vsum_nth _ _ _ 0 Eyw) as [_ V]; [lia|]; rewrite V; exact L0|]. intros i Y Hi IY.
    destruct (vsum_nth _ _ _ i Eyw) as [V1 _]; [lia|]. rewrite V1 in IY. clear V1 Lk Eyw Ew.
    assert (Lv : forall k, (k < mu)%nat -> nth i (nth k (v0 :: l) []) n0 = nmul (nth i (pt_step (nth k inds d)) n0) (nth k w n0)).
    { intros k Hk. rewrite (Lk' k Hk). apply vscale_r_nth. rewrite (Lp k Hk). exact Hi. }
    destruct (fold_back _ _ _ IY) as [r0 [rs [Ir0 [Irs EY]]]].
    set (y := fun k => comp (pt_step (nth k inds d)) i).
    assert (Irk : forall k, (k < mu)%nat -> is (nth i (nth k (v0 :: l) []) n0) (nth k (r0 :: rs) 0)).
    { assert (G : Forall2 is (map (fun v : vec f64 => nth i v n0) (v0 :: l)) (r0 :: rs)) by (cbn [map]; constructor; assumption).
      intros k Hk. assert (Hk' : (k < length (v0 :: l))%nat) by (cbn [length]; lia). clear - G Hk'. revert k Hk' G. generalize (v0 :: l) (r0 :: rs). clear. intros a. induction a as [|x a IH]; intros b k Hk G; [cbn in Hk; lia|].
      inversion G; subst. destruct k as [|k]; cbn [nth length] in *; [assumption|]. apply IH; [lia|assumption]. }
    assert (Yk : forall k, (k < mu)%nat -> fin_comp (pt_step (nth k inds d)) i /\ nth k (r0 :: rs) 0 = rnd64 (y k * weight w k)).
    { intros k Hk. specialize (Irk k Hk). rewrite (Lv k Hk) in Irk. destruct (mul_fin _ _ _ Irk) as [a [b [Ia [Ib Eab]]]]. unfold y, weight, comp, fin_comp.
      destruct (is_B2R _ _ Ia) as [Q ->]. destruct (is_B2R _ _ Ib) as [_ ->]. auto. }
    split; [intros k Hk; apply (Yk k Hk)|]. fold y.
    assert (Bmu : INR mu <= 1099511627776).
    { rewrite INR_IZR_INZ. apply IZR_le. destruct Hsz as [Hsz _]. unfold mu. pose proof (N.div_le_upper_bound (o_population_size o) 2 1099511627776 ltac:(lia) ltac:(lia)). lia. }
    clearbody mu. destruct mu as [|n]; [lia|].
    assert (Ers : fsum (map (fun k => rnd64 (y k * weight w k)) (seq 1 n)) (rnd64 (y 0%nat * weight w 0%nat)) = Y).
    { rewrite EY. assert (E0 : r0 = rnd64 (y 0%nat * weight w 0%nat)) by apply (Yk 0%nat ltac:(lia)). rewrite <- E0. f_equal. pose proof (Forall2_len _ _ _ Irs) as Lr. rewrite map_length in Lr.
      apply (nth_ext _ _ 0 0); [rewrite map_length, seq_length; exact (eq_trans (eq_sym (eq_add_S _ _ Ll)) Lr)|]. intros k Hk. rewrite map_length, seq_length in Hk.
      rewrite (nth_indep _ 0 ((fun k => rnd64 (y k * weight w k)) 0%nat)) by (rewrite map_length, seq_length; exact Hk). rewrite (map_nth (fun k => rnd64 (y k * weight w k))), seq_nth by exact Hk.
      destruct (Yk (S k) ltac:(lia)) as [_ B]. cbn [nth] in B. rewrite B. reflexivity. }
    pose proof (weighted_err n (weight w) y (fun k Hk => Rlt_le _ _ (W3 k ltac:(lia)))) as We.
    rewrite S_INR in *. assert (Hn : 2 * (INR n * uu) <= 1) by lra. specialize (We Hn). cbv beta in We. rewrite Ers in We. unfold y in We. apply Rle_trans with (1 := We). right. ring.
  Qed.

  (* the rule, with the value of h that the code uses *)
  Lemma path_rule : accurate_ln -> forall o f c par tk r c', reaches ev' o (f, []) c -> sizes_fit o ->
    next ev' par tk c = Ret (r, c') -> reports InvalidFunctionValue r = false ->
    let w := p_weights (c_params c) in let m := length w in let mu := N.to_nat (o_population_size o / 2) in
    exists new ranking (y : nat -> vec f64) c1 cmu cc mu_eff h,
      calls c' = calls c ++ new /\ length new = N.to_nat (o_population_size o) /\ Permutation new ranking /\
      StronglySorted (fun a b => as_good (o_mode o) (snd a) (snd b)) ranking /\
      (* y k is the step leading to the point of rank k *)
      (forall k i d, (k < N.to_nat (o_population_size o))%nat -> (i < dims o)%nat -> nth i (fst (nth k ranking d)) n0 = nadd (nth i (mean c) n0) (nmul (sigma c) (nth i (y k) n0))) /\
      f2x (p_c1 (c_params c)) = XFin c1 /\ f2x (p_cmu (c_params c)) = XFin cmu /\ f2x (p_cc (c_params c)) = XFin cc /\ f2x (p_mu_eff (c_params c)) = XFin mu_eff /\ 0 < cc <= 1 /\ 0 < mu_eff /\ h = B2R (calc_hs (c_params c) (st_generation (c_state c)) (st_path_sigma (c_state c')) : f64) /\ (h = 0 \/ h = 1) /\
      length (path c') = dims o /\
      (forall i, (i < dims o)%nat -> fin_comp (path c') i ->
        fin_comp (path c) i /\ (forall k, (k < mu)%nat -> fin_comp (y k) i) /\
        Rabs (comp (path c') i - new_path cc mu_eff h (comp (path c) i) mu (weight w) (fun k => comp (y k) i))
        <= path_tolerance cc mu_eff h (comp (path c) i) mu (weight w) (fun k => comp (y k) i)) /\
      let b k := B2R (step_weight (dims o) (whitening c) (nth k w n0) (y k)) in
      forall i j Y, (i < dims o)%nat -> (j < dims o)%nat -> is_finite (entry c' i j) = true ->
        Rabs (comp (path c') i) <= Y -> Rabs (comp (path c') j) <= Y -> (forall k, (k < m)%nat -> Rabs (comp (y k) i) <= Y /\ Rabs (comp (y k) j) <= Y) ->
          Rabs (B2R (entry c' i j) - new_entry c1 cmu cc h (B2R (entry c i j)) (comp (path c') i) (comp (path c') j) m (weight w) b (fun k => comp (y k) i) (fun k => comp (y k) j))
          <= tolerance c1 cmu (B2R (entry c i j)) (comp (path c') i) (comp (path c') j) m (weight w) b (fun k => comp (y k) i) (fun k => comp (y k) j) Y.
  Proof.
    intros Hln o f c par tk r c' Hr Hf Hn Hi w m mu. destruct (sampled ev o f c par tk r c' Hr Hn Hi) as [inds [ok [new [_ [X [S1 [S2 [S3 [S4 [S5 S6]]]]]]]]]]. set (d := mkPoint [] [] n0 : point f64).
    destruct (entries ev Hln o f c _ _ inds ok _ Hr Hf X (fun p Hp => proj2 (S6 p Hp)) d) as [c1 [cmu [cc [I1 [Im [Ic [H1 [Hm [Hc [Hh H]]]]]]]]]].
    destruct (path_rates Hln o f c Hr Hf) as [cc' [M [Ic' [IM [Hc' HM]]]]]. assert (cc' = cc) by (eapply is_fun; eassumption). subst cc'.
    exists new, (map pt_entry inds), (fun k => pt_step (nth k inds d)), c1, cmu, cc, M, (B2R (calc_hs (c_params c) (st_generation (c_state c)) (st_path_sigma (c_state c')) : f64)).
    repeat (split; [assumption|]). split.
    { intros k i e Hk Hi'. rewrite (nth_indep _ e (pt_entry d)) by (rewrite map_length, S5; exact Hk). rewrite map_nth. cbn [pt_entry fst]. destruct (S6 (nth k inds d)) as [P1 P2]; [apply nth_In; rewrite S5; exact Hk|]. apply (point_of ev o f); assumption. }
    repeat (split; [assumption || lra || reflexivity|]). pose proof X as U. apply state_update_inv in U. destruct U as [yw [rm [cov U]]].
    pose proof (up_yw _ _ _ _ _ _ _ _ _ _ U) as Eyw. pose proof (up_pc _ _ _ _ _ _ _ _ _ _ U) as Epc. clear U X.
    destruct (mean_step Hln o f c inds yw Hr Hf Eyw S5 (fun p Hp => proj2 (S6 p Hp)) d) as [Ly Hy]. fold w mu in Hy.
    unfold calc_path_c in Epc. set (hs := calc_hs _ _ _) in *. assert (Vh : hs = n0 \/ hs = n1) by apply hs_values. clearbody hs.
    assert (Lp : length (st_path_c (c_state c)) = dims o).
    { unfold vadd_c in Epc. apply check_Ret in Epc. destruct Epc as [Epc _]. apply Nat.eqb_eq in Epc. unfold vscale in Epc. rewrite !map_length in Epc. congruence. }
    destruct (reached_params ev' o _ c Hr) as [Hv _]. assert (Hd : (0 < dims o)%nat) by (destruct (PropFloatParams.sizes o Hv); unfold dims; lia).
    split; [destruct (vadd_nth _ _ _ 0 Epc) as [_ Q]; unfold vscale in *; rewrite map_length in *; [lia|unfold path; congruence]|].
    split.
    - intros i Hi' Fi. destruct (vadd_nth _ _ _ i Epc) as [Q _]; [unfold vscale; rewrite map_length; lia|]. rewrite !vscale_nth in Q by lia. unfold path in *.
      assert (If : is (nth i (st_path_c (c_state c')) n0) (comp (st_path_c (c_state c')) i)) by (apply f2x_finite; exact Fi). rewrite Q in If at 1.
      destruct (add_fin _ _ _ If) as [a [b [Ia [Ib Eab]]]]. destruct (mul_fin _ _ _ Ia) as [x [p [Ix [Ip Ea]]]]. destruct (mul_fin _ _ _ Ib) as [g [Yi [Ig [IY Eb]]]].
      destruct (Hy i Yi Hi' IY) as [Fy By].
      destruct (root_err _ _ _ _ Ic IM Hc' HM) as [g0 [Ig0 Eg0]].
      assert (Ih : is hs (B2R (hs : f64))) by (destruct Vh as [-> | ->]; apply f2x_finite; reflexivity).
      assert (Ex : x = rnd64 (1 - cc)) by (eapply is_fun; [exact Ix|apply is_sub; [exact is1|exact Ic|apply bigp; lra]]).
      destruct (mul_fin _ _ _ Ig) as [h' [g1 [Ih' [Ig1 Eg]]]]. assert (h' = B2R (hs : f64)) by (eapply is_fun; eassumption). assert (g1 = g0) by (eapply is_fun; eassumption). subst h' g1.
      pose proof (is_B2R _ _ Ip) as [Fp Bp]. split; [exact Fp|]. split; [exact Fy|]. change (comp (st_path_c (c_state c)) i) with (B2R (nth i (st_path_c (c_state c)) n0 : f64)). rewrite Bp.
      rewrite Eab, Ea, Eb, Ex, Eg. unfold new_path, path_tolerance. replace ((3 * INR mu + 8) / 2 ^ 53) with ((3 * INR mu + 8) * uu) by field. change (bpow radix2 (-1074)) with eta.
      destruct (C75_weights ev' Hln o _ c Hr Hf) as [_ [_ [W3 _]]]. fold w mu in W3.
      apply path_err with (1 := conj (Rlt_le _ _ (proj1 Hc)) (proj2 Hc)) (2 := is_format _ _ Ic) (3 := Hh) (4 := sqrt_pos _) (5 := is_format _ _ Ig0) (6 := Eg0).
      + split; [apply pos_INR|]. rewrite INR_IZR_INZ. apply IZR_le. destruct Hf as [Hf _]. unfold mu. pose proof (N.div_le_upper_bound (o_population_size o) 2 1099511627776 ltac:(lia) ltac:(lia)). lia.
      + apply Rle_trans with (1 := Sig_abs _ _). right. apply Sig_ext. intros k Hk. rewrite Rabs_mult, (Rabs_pos_eq (weight w k)) by (apply Rlt_le, W3; exact Hk). reflexivity.
      + exact By.
    - intros b i j Y Hi' Hj' Fe Y1 Y2 Y3. destruct (H i j Hi' Hj' Fe) as [_ [_ [_ [_ K]]]]. apply K; assumption.
  Qed.

  (* One call of next that evaluates all its points: a component of the path, and with the same h and the same steps the entries of the matrix. *)
  Theorem C83_path : accurate_ln -> forall o f c par tk r c', reaches ev' o (f, []) c -> sizes_fit o ->
    next ev' par tk c = Ret (r, c') -> reports InvalidFunctionValue r = false ->
    let w := p_weights (c_params c) in let m := length w in let mu := N.to_nat (o_population_size o / 2) in
    exists new ranking (y : nat -> vec f64) c1 cmu cc mu_eff h,
      calls c' = calls c ++ new /\ length new = N.to_nat (o_population_size o) /\ Permutation new ranking /\
      StronglySorted (fun a b => as_good (o_mode o) (snd a) (snd b)) ranking /\
      (* y k is the step leading to the point of rank k *)
      (forall k i d, (k < N.to_nat (o_population_size o))%nat -> (i < dims o)%nat -> nth i (fst (nth k ranking d)) n0 = nadd (nth i (mean c) n0) (nmul (sigma c) (nth i (y k) n0))) /\
      f2x (p_c1 (c_params c)) = XFin c1 /\ f2x (p_cmu (c_params c)) = XFin cmu /\ f2x (p_cc (c_params c)) = XFin cc /\ f2x (p_mu_eff (c_params c)) = XFin mu_eff /\ 0 < cc <= 1 /\ 0 < mu_eff /\ (h = 0 \/ h = 1) /\
      length (path c') = dims o /\
      (forall i, (i < dims o)%nat -> fin_comp (path c') i ->
        fin_comp (path c) i /\ (forall k, (k < mu)%nat -> fin_comp (y k) i) /\
        Rabs (comp (path c') i - new_path cc mu_eff h (comp (path c) i) mu (weight w) (fun k => comp (y k) i))
        <= path_tolerance cc mu_eff h (comp (path c) i) mu (weight w) (fun k => comp (y k) i)) /\
      let b k := B2R (step_weight (dims o) (whitening c) (nth k w n0) (y k)) in
      forall i j Y, (i < dims o)%nat -> (j < dims o)%nat -> is_finite (entry c' i j) = true ->
        Rabs (comp (path c') i) <= Y -> Rabs (comp (path c') j) <= Y -> (forall k, (k < m)%nat -> Rabs (comp (y k) i) <= Y /\ Rabs (comp (y k) j) <= Y) ->
          Rabs (B2R (entry c' i j) - new_entry c1 cmu cc h (B2R (entry c i j)) (comp (path c') i) (comp (path c') j) m (weight w) b (fun k => comp (y k) i) (fun k => comp (y k) j))
          <= tolerance c1 cmu (B2R (entry c i j)) (comp (path c') i) (comp (path c') j) m (weight w) b (fun k => comp (y k) i) (fun k => comp (y k) j) Y.
  Proof.
    intros Hln o f c par tk r c' Hr Hf Hn Hi w m mu. destruct (path_rule Hln o f c par tk r c' Hr Hf Hn Hi) as [new [ranking [y [c1 [cmu [cc [M [h H]]]]]]]]. exists new, ranking, y, c1, cmu, cc, M, h.
    destruct H as [A1 [A2 [A3 [A4 [A5 [A6 [A7 [A8 [A9 [A10 [A11 [_ A]]]]]]]]]]]]. repeat (split; [assumption|]). exact A.
  Qed.

  (* The path starts at zero. *)
  Theorem C83_start : forall o (f : F) (c : cmaes f64 F), built o f c -> length (path c) = dims o /\ forall i, fin_comp (path c) i /\ comp (path c) i = 0.
  Proof.
    intros o f c [rs [now Hb]]. apply cmaes_new_inv in Hb. destruct Hb as [_ [_ [_ [Hb _]]]]. unfold path. rewrite Hb. cbn [state_new st_path_c]. unfold fin_comp, comp, dims.
    split; [apply repeat_length|]. intros i. unfold vzeros, vec. assert (Q : nth i (repeat (n0 : f64) (length (o_initial_mean o))) n0 = n0) by (generalize (length (o_initial_mean o)); intros k; revert i; induction k as [|k IH]; intros [|i]; cbn [repeat nth]; auto). rewrite Q. split; reflexivity.
  Qed.
End FloatPath.
Print Assumptions C83_path.
Print Assumptions C83_start.

(* A session with a threaded update, after a first call of next: the path has moved, and the next call gives finite components and entries. *)
Example C83_case : accurate_ln (L := rounded_libm) /\ sizes_fit c82_options /\
  exists (c a : cmaes (E := toy_env) f64 (unit * list (Spec.entry f64))) r,
    reaches (LT := rounded_libm) (log_ev toy_sphere) c82_options (tt, []) c /\ (0 < st_generation (c_state c))%N /\ comp (path c) 0 <> 0 /\
    next (LT := rounded_libm) (log_ev toy_sphere) false (c82_tick (RNode 1 RLeaf RLeaf)) c = Ret (r, a) /\ reports InvalidFunctionValue r = false /\
    (forall i, (i < 2)%nat -> fin_comp (path a) i) /\ is_finite (entry (L := rounded_libm) a 0 1) = true.
Proof.
  split; [exact rounded_accurate|]. split; [split; [vm_compute; reflexivity|vm_compute; discriminate]|].
  destruct (holds_ex (after (LT := rounded_libm) (E := toy_env) (log_ev toy_sphere) (tt, []) c82_options [ONext false (c82_tick RLeaf)])
    (fun c => (0 <? st_generation (c_state c))%N && negb (neqb (nth 0 (path c) n0) n0) && is_finite (nth 0 (path c) n0) &&
      holds (next (LT := rounded_libm) (E := toy_env) (log_ev toy_sphere) false (c82_tick (RNode 1 RLeaf RLeaf)) c) (fun rc => negb (reports InvalidFunctionValue (fst rc)) && (is_finite (nth 0 (path (snd rc)) n0) && is_finite (nth 1 (path (snd rc)) n0)) && is_finite (entry (L := rounded_libm) (snd rc) 0 1)))) as [c [H1 H2]].
  { vm_compute. reflexivity. }
  apply after_reaches in H1. destruct H1 as [c0 [H0 H1]]. apply andb_prop in H2. destruct H2 as [H2 H3]. apply andb_prop in H2. destruct H2 as [H2 H4]. apply andb_prop in H2. destruct H2 as [H2 H5].
  apply holds_ex in H3. destruct H3 as [[r a] [H3 K]]. cbn [fst snd] in K. apply andb_prop in K. destruct K as [K K3]. apply andb_prop in K. destruct K as [K1 K2]. apply andb_prop in K2. destruct K2 as [K2 K4].
  exists c, a, r. split; [exists c0; eexists; split; [exact H0|exact H1]|]. split; [apply N.ltb_lt; exact H2|]. split.
  { apply negb_true_iff in H5. unfold comp. revert H4 H5. generalize (nth 0 (path c) n0 : f64). intros x Fx Nx Zx. destruct x as [s|s| |s m e Hb]; [destruct s; discriminate Nx|discriminate Fx|discriminate Fx|].
    apply (eq_0_F2R radix2) in Zx. destruct s; discriminate Zx. }
  split; [exact H3|]. split; [apply negb_true_iff; exact K1|]. split; [|exact K3]. intros i Hi. destruct i as [|[|i]]; [exact K2|exact K4|lia].
Qed.
