(* C82: the covariance matrix as computed in binary64, entry by entry, for every split of the parallel update. *)
From Coq Require Import List NArith ZArith Bool Reals Lra Lia Arith Psatz Permutation Sorted.
From Flocq Require Import Core.
From Flocq Require Import IEEE754.BinarySingleNaN.
Require Import Verif.Lib Verif.Base Verif.Num Verif.F64 Verif.XReal Verif.LinAlg Verif.Mode Verif.Weights Verif.Options
  Verif.Params Verif.Env Verif.State Verif.Sampling Verif.History Verif.Termination Verif.Plot Verif.Cmaes
  Verif.Spec Verif.Order Verif.Sort Verif.F64Lemmas Verif.BuildLemmas Verif.TraceLemmas Verif.CeilLemmas Verif.XRound Verif.XLe
  Verif.NextInv Verif.LogLemmas Verif.SamplingLemmas Verif.PanicLemmas Verif.NextSafe Verif.RSum
  Verif.F64Acc Verif.F64Weights Verif.F64Rates Verif.F64Final Verif.F64Raw Verif.Toy Verif.ToyLemmas Verif.StateLemmas Verif.TermLemmas Verif.PropRun Verif.PropPlot
  Verif.F64Mean Verif.F64Sigma Verif.F64Cov Verif.F64CovErr Verif.PropFloatParams Verif.PropFloatMean Verif.PropFloatCov.
Import ListNotations.
Open Scope R_scope.

(* ---- specification ---- *)
(* the weight of a step in the covariance update: negative weights are rescaled by n over the squared length of the whitened step *)
Definition step_weight (n : nat) (whiten : mat f64) (w : f64) (y : vec f64) : f64 :=
  if nltb w n0 then nmul w (ndiv (nofN (N.of_nat n)) (powi (magnitude (mvmul whiten y)) 2)) else w.
(* what an entry should become (Hansen's tutorial, equation 47): old is the entry, w the weights, b the weights of the steps, p and q the components of the evolution path, y and z those of the steps *)
Definition new_entry (c1 cmu cc h old p q : R) (m : nat) (w b y z : nat -> R) : R :=
  (1 + c1 * ((1 - h) * cc * (2 - cc)) - c1 - cmu * Sig m w) * old + c1 * p * q + cmu * Sig m (fun k => b k * y k * z k).
(* the tolerance: some ulps of the sizes of the summands, and the least positive numbers lost to underflow *)
Definition tolerance (c1 cmu old p q : R) (m : nat) (w b y z : nat -> R) (Y : R) : R :=
  (INR m + 8) / 2 ^ 52 * ((1 + cmu * Sig m (fun k => Rabs (w k))) * Rabs old + Rabs (c1 * p * q) + cmu * Sig m (fun k => Rabs (b k * y k * z k)))
  + (2 * INR m + 5) * (1 + Y) * bpow radix2 (-1074).
(* the evolution path of the covariance matrix, the whitening matrix *)
Definition path {E : Env f64} {F : Type} (c : cmaes f64 F) : vec f64 := st_path_c (c_state c).
Definition whitening {E : Env f64} {F : Type} (c : cmaes f64 F) : mat f64 := cm_sqrt_inv (st_cov (c_state c)).

Section FloatCovErr.
  Context {L : Libm f64} {E : Env f64} {F : Type} (ev : F -> vec f64 -> outcome (f64 * F)).
  Let ev' := log_ev ev.

  Lemma cov_sym : forall o f c, reaches ev' o f c -> symmetric_mat (dims o) (cm_cov (st_cov (c_state c))).
  Proof.
    intros o f c Hr. pose proof (cov_square ev' o f c Hr) as [Hl _]. destruct Hr as [c0 [l [[rs [now Hb]] Hst]]].
    assert (Hs : symmetric_mat (length (covariance_matrix c)) (covariance_matrix c)).
    { apply (steps_invariant ev' (fun c => symmetric_mat (length (covariance_matrix c)) (covariance_matrix c))) with (l := l) (c := c0); auto.
      - intros a op b Ha Hq Hs. apply quiet_core in Hs; auto. destruct Hs as [_ [_ [Hs _]]]. unfold covariance_matrix in *. rewrite Hs. exact Ha.
      - intros par tk a r b Ha Hn. apply next_outcome in Hn. destruct Hn as [[_ [_ [_ ->]]]|[inds [ok [_ [_ [_ [Hs _]]]]]]]; [exact Ha|eapply state_update_symmetric; eauto].
      - apply cmaes_new_inv in Hb. destruct Hb as [_ [_ [_ [Hb _]]]]. unfold covariance_matrix. rewrite Hb. cbn [c_state state_new st_cov cov_new cm_cov]. unfold identity at 1, mbuild. rewrite map_length, seq_length. apply identity_symmetric. }
    unfold covariance_matrix in *. unfold dims. rewrite <- Hl. exact Hs.
  Qed.

  (* what a call of next gives: the sampled points, and the update of the state *)
  Lemma sampled : forall o f c par tk r c', reaches ev' o (f, []) c -> next ev' par tk c = Ret (r, c') -> reports InvalidFunctionValue r = false ->
    exists inds ok new, sample ev' par tk (c_state c) (p_mode (c_params c)) (c_sampler c) = Ret (Some inds, c_sampler c') /\ state_update (t_tree tk) (function_evals c') (c_params c) inds (c_state c) = Ret (ok, c_state c') /\
      calls c' = calls c ++ new /\ length new = N.to_nat (o_population_size o) /\ Permutation new (map pt_entry inds) /\
      StronglySorted (fun a b => as_good (o_mode o) (snd a) (snd b)) (map pt_entry inds) /\ length inds = N.to_nat (o_population_size o) /\
      (forall p, In p inds -> evaluated (c_state c) (pt_step p) p /\ length (pt_step p) = dims o).
  Proof.
    intros o f c par tk r c' Hr Hn Hi. pose proof (mean_length ev o _ c Hr) as Lm. destruct (reached_params ev' o _ c Hr) as [Hv [seed Hp]].
    assert (Pop : sm_population_size (c_sampler c) = o_population_size o).
    { destruct (reaches_setup ev' o _ c Hr) as [rs [now [c0 [Hc0 [_ [_ [_ [_ [_ [_ Q]]]]]]]]]]. pose proof (cmaes_new_inv _ _ _ _ _ Hc0) as C. cbv zeta in C. destruct C as [_ [C2 _]]. rewrite Q, C2. reflexivity. }
    pose proof (next_outcome ev' _ _ _ _ _ Hn) as [[_ [H2 _]]|[inds [ok [H1 [_ [_ [H4 _]]]]]]]; [congruence|].
    pose proof (sample_ranked ev _ _ _ _ _ _ _ H1) as [pts [new [S1 [S2 [_ [S3 [S4 _]]]]]]].
    pose proof (sample_Some _ _ _ _ _ _ _ _ H1) as [ys [g [f1 [pts' [_ [Y2 [_ [Y4 [Y5 _]]]]]]]]].
    assert (Li : length inds = N.to_nat (o_population_size o)) by (rewrite Y5, sort_by_length, <- (Forall2_len _ _ _ Y4), Y2, Pop; reflexivity).
    assert (Pe : forall p, In p inds -> evaluated (c_state c) (pt_step p) p /\ length (pt_step p) = dims o).
    { intros p Hpin. rewrite Y5 in Hpin. apply (Permutation_in _ (Permutation_sym (sort_by_perm _ _))) in Hpin.
      assert (G : exists y, evaluated (c_state c) y p).
      { clear - Y4 Hpin. induction Y4 as [|y q ys qs H0 H IH]; [contradiction|]. destruct Hpin as [->|Hp]; [exists y; exact H0|auto]. }
      destruct G as [y Gy]. assert (Ey : pt_step p = y) by apply Gy. rewrite Ey. split; [exact Gy|]. destruct Gy as [_ [Gp _]]. unfold to_point, vadd_c in Gp. apply check_Ret in Gp. destruct Gp as [Gp _]. apply Nat.eqb_eq in Gp.
      unfold vscale in Gp. rewrite map_length in Gp. congruence. }
    assert (Pn : Permutation new (map pt_entry inds)) by (rewrite <- S2; apply Permutation_map; exact S3).
    exists inds, ok, new. split; [exact H1|]. split; [exact H4|]. split; [exact S1|]. split; [rewrite (Permutation_length Pn), map_length; exact Li|]. split; [exact Pn|]. split; [|split; [exact Li|exact Pe]].
    assert (Md : p_mode (c_params c) = o_mode o) by (rewrite Hp; reflexivity). rewrite Md in S4. clear - S4 Pe. unfold ranked in S4.
    induction S4 as [|a l S IH Fa]; cbn [map]; constructor.
    - apply IH. intros p Hpin. apply Pe. right. exact Hpin.
    - rewrite Forall_map. rewrite Forall_forall in *. intros b Hb. cbn [pt_entry snd]. apply as_good_ranked; [apply (Pe a); left; reflexivity|apply (Pe b); right; exact Hb|]. apply Fa. exact Hb.
  Qed.

  Lemma point_of : forall o f c p i, reaches ev' o (f, []) c -> evaluated (c_state c) (pt_step p) p -> length (pt_step p) = dims o -> (i < dims o)%nat ->
    nth i (pt_point p) n0 = nadd (nth i (mean c) n0) (nmul (sigma c) (nth i (pt_step p) n0)).
  Proof.
    intros o f c p i Hr [_ [Hp _]] Hl Hi. pose proof (mean_length ev o _ c Hr) as Lm. unfold to_point in Hp. destruct (vadd_nth _ _ _ i Hp) as [V _]; [lia|]. rewrite V, vscale_nth by lia. reflexivity.
  Qed.


  Lemma entries : accurate_ln -> forall o f c tree evals inds ok s', reaches ev' o (f, []) c -> sizes_fit o -> state_update tree evals (c_params c) inds (c_state c) = Ret (ok, s') ->
    (forall p, In p inds -> length (pt_step p) = dims o) -> forall d,
    let w := p_weights (c_params c) in let m := length w in
    let y k i := comp (pt_step (nth k inds d)) i in
    let b k := B2R (step_weight (dims o) (whitening c) (nth k w n0) (pt_step (nth k inds d))) in
    exists c1 cmu cc, f2x (p_c1 (c_params c)) = XFin c1 /\ f2x (p_cmu (c_params c)) = XFin cmu /\ f2x (p_cc (c_params c)) = XFin cc /\ 0 < c1 <= 1 / 2 /\ 0 <= cmu <= 1 /\ 0 < cc <= 1 /\
      let h := B2R (calc_hs (c_params c) (st_generation (c_state c)) (st_path_sigma s') : f64) in (h = 0 \/ h = 1) /\
      forall i j, (i < dims o)%nat -> (j < dims o)%nat -> is_finite (mnth (cm_cov (st_cov s')) i j : f64) = true ->
        is_finite (entry c i j) = true /\ fin_comp (st_path_c s') i /\ fin_comp (st_path_c s') j /\
        (forall k, (k < m)%nat -> fin_comp (pt_step (nth k inds d)) i /\ fin_comp (pt_step (nth k inds d)) j /\ is_finite (step_weight (dims o) (whitening c) (nth k w n0) (pt_step (nth k inds d))) = true) /\
        forall Y, Rabs (comp (st_path_c s') i) <= Y -> Rabs (comp (st_path_c s') j) <= Y -> (forall k, (k < m)%nat -> Rabs (y k i) <= Y /\ Rabs (y k j) <= Y) ->
          Rabs (B2R (mnth (cm_cov (st_cov s')) i j : f64) - new_entry c1 cmu cc h (B2R (entry c i j)) (comp (st_path_c s') i) (comp (st_path_c s') j) m (weight w) b (fun k => y k i) (fun k => y k j))
          <= tolerance c1 cmu (B2R (entry c i j)) (comp (st_path_c s') i) (comp (st_path_c s') j) m (weight w) b (fun k => y k i) (fun k => y k j) Y.
  Proof.
    intros Hln o f c tree evals inds ok s' Hr Hf X Hst d w m y b. destruct (C75_rates ev' Hln o _ c Hr Hf) as [me [c1 [cmu [cc [cs [ds H]]]]]]. destruct H as [_ [I1 [Im [Ic [_ [_ [_ [H1 [Hm [Hc _]]]]]]]]]].
    destruct (C75_weights ev' Hln o _ c Hr Hf) as [W1 _]. fold w m in W1. destruct (reached_params ev' o _ c Hr) as [Hv [seed Hp]]. destruct (sizes o Hv) as [_ Hd0]. assert (Hd : (1 <= dims o)%nat) by (unfold dims; lia).
    assert (Hm2 : INR m <= 2199023255552).
    { destruct Hf as [Hf _]. rewrite INR_IZR_INZ. apply IZR_le. pose proof (N.div_le_upper_bound (o_population_size o) 2 1099511627776 ltac:(lia) ltac:(lia)). rewrite W1. destruct (o_weights o); lia. }
    assert (Pd : p_dim (c_params c) = N.of_nat (dims o)) by (rewrite Hp; reflexivity).
    exists c1, cmu, cc. repeat (split; [assumption|]).
    destruct (update_entry tree evals (c_params c) inds (c_state c) ok s' (dims o) d c1 cmu cc X Hd Pd (cov_square ev' o _ c Hr) (cov_sym o _ c Hr) Hst Hm2 I1 Im Ic ltac:(lra) Hm ltac:(lra)) as [_ [U1 U2]].
    split; [exact U1|]. intros i j Hi Hj Hfin. destruct (U2 i j Hi Hj Hfin) as [V1 [V2 [V3 [V4 V5]]]].
    assert (Eb : forall k, coef (p_dim (c_params c)) (cm_sqrt_inv (st_cov (c_state c))) (nth k (p_weights (c_params c)) n0) (pt_step (nth k inds d)) = step_weight (dims o) (whitening c) (nth k w n0) (pt_step (nth k inds d))) by (intros k; unfold coef, step_weight; rewrite Pd; reflexivity).
    split; [exact V1|]. split; [exact V2|]. split; [exact V3|]. split; [intros k Hk; destruct (V4 k Hk) as [Z1 [Z2 Z3]]; rewrite Eb in Z3; auto|].
    intros Y Y1 Y2 Y3. specialize (V5 Y Y1 Y2 Y3).
    rewrite Pd in V5.
    unfold new_entry, tolerance. change (bpow radix2 (-1074)) with eta. replace ((INR m + 8) / 2 ^ 52) with ((2 * INR m + 16) * uu) by field. exact V5.
  Qed.

  (* One call of next that evaluates all its points. *)
  Theorem C82_update : accurate_ln -> forall o f c par tk r c', reaches ev' o (f, []) c -> sizes_fit o ->
    next ev' par tk c = Ret (r, c') -> reports InvalidFunctionValue r = false ->
    let w := p_weights (c_params c) in let m := length w in
    exists new ranking (y : nat -> vec f64) c1 cmu cc h,
      calls c' = calls c ++ new /\ length new = N.to_nat (o_population_size o) /\ Permutation new ranking /\
      StronglySorted (fun a b => as_good (o_mode o) (snd a) (snd b)) ranking /\
      (* y k is the step leading to the point of rank k *)
      (forall k i d, (k < N.to_nat (o_population_size o))%nat -> (i < dims o)%nat -> nth i (fst (nth k ranking d)) n0 = nadd (nth i (mean c) n0) (nmul (sigma c) (nth i (y k) n0))) /\
      f2x (p_c1 (c_params c)) = XFin c1 /\ f2x (p_cmu (c_params c)) = XFin cmu /\ f2x (p_cc (c_params c)) = XFin cc /\ 0 < c1 <= 1 / 2 /\ 0 <= cmu <= 1 /\ 0 < cc <= 1 /\ (h = 0 \/ h = 1) /\
      let b k := B2R (step_weight (dims o) (whitening c) (nth k w n0) (y k)) in
      forall i j, (i < dims o)%nat -> (j < dims o)%nat -> is_finite (entry c' i j) = true ->
        is_finite (entry c i j) = true /\ fin_comp (path c') i /\ fin_comp (path c') j /\
        (forall k, (k < m)%nat -> fin_comp (y k) i /\ fin_comp (y k) j /\ is_finite (step_weight (dims o) (whitening c) (nth k w n0) (y k)) = true) /\
        forall Y, Rabs (comp (path c') i) <= Y -> Rabs (comp (path c') j) <= Y -> (forall k, (k < m)%nat -> Rabs (comp (y k) i) <= Y /\ Rabs (comp (y k) j) <= Y) ->
          Rabs (B2R (entry c' i j) - new_entry c1 cmu cc h (B2R (entry c i j)) (comp (path c') i) (comp (path c') j) m (weight w) b (fun k => comp (y k) i) (fun k => comp (y k) j))
          <= tolerance c1 cmu (B2R (entry c i j)) (comp (path c') i) (comp (path c') j) m (weight w) b (fun k => comp (y k) i) (fun k => comp (y k) j) Y.
  Proof.
    intros Hln o f c par tk r c' Hr Hf Hn Hi w m. destruct (sampled o f c par tk r c' Hr Hn Hi) as [inds [ok [new [_ [X [S1 [S2 [S3 [S4 [S5 S6]]]]]]]]]]. set (d := mkPoint [] [] n0 : point f64).
    destruct (entries Hln o f c _ _ inds ok _ Hr Hf X (fun p Hp => proj2 (S6 p Hp)) d) as [c1 [cmu [cc [I1 [Im [Ic [H1 [Hm [Hc [Hh H]]]]]]]]]].
    exists new, (map pt_entry inds), (fun k => pt_step (nth k inds d)), c1, cmu, cc, (B2R (calc_hs (c_params c) (st_generation (c_state c)) (st_path_sigma (c_state c')) : f64)).
    repeat (split; [assumption|]). split.
    { intros k i e Hk Hi'. rewrite (nth_indep _ e (pt_entry d)) by (rewrite map_length, S5; exact Hk). rewrite map_nth. cbn [pt_entry fst]. destruct (S6 (nth k inds d)) as [P1 P2]; [apply nth_In; rewrite S5; exact Hk|]. apply (point_of o f); assumption. }
    repeat (split; [assumption|]). exact H.
  Qed.

  (* Two calls from the same state that differ in how the work of the update was split: the same points, and matrices that agree up to twice the tolerance. *)
  Theorem C82_split : accurate_ln -> forall o f c par tk1 tk2 r1 r2 a b, reaches ev' o (f, []) c -> sizes_fit o ->
    t_sched tk1 = t_sched tk2 -> t_fuel tk1 = t_fuel tk2 -> next ev' par tk1 c = Ret (r1, a) -> next ev' par tk2 c = Ret (r2, b) -> reports InvalidFunctionValue r1 = false ->
    let w := p_weights (c_params c) in let m := length w in
    calls a = calls b /\ mean a = mean b /\ sigma a = sigma b /\ path a = path b /\
    exists (y : nat -> vec f64) c1 cmu,
      (forall k, (k < N.to_nat (o_population_size o))%nat -> exists p, In p (calls a) /\ forall i, (i < dims o)%nat -> nth i (fst p) n0 = nadd (nth i (mean c) n0) (nmul (sigma c) (nth i (y k) n0))) /\
      f2x (p_c1 (c_params c)) = XFin c1 /\ f2x (p_cmu (c_params c)) = XFin cmu /\
      let v k := B2R (step_weight (dims o) (whitening c) (nth k w n0) (y k)) in
      forall i j, (i < dims o)%nat -> (j < dims o)%nat -> is_finite (entry a i j) = true -> is_finite (entry b i j) = true ->
        forall Y, Rabs (comp (path a) i) <= Y -> Rabs (comp (path a) j) <= Y -> (forall k, (k < m)%nat -> Rabs (comp (y k) i) <= Y /\ Rabs (comp (y k) j) <= Y) ->
          Rabs (B2R (entry a i j) - B2R (entry b i j))
          <= 2 * tolerance c1 cmu (B2R (entry c i j)) (comp (path a) i) (comp (path a) j) m (weight w) v (fun k => comp (y k) i) (fun k => comp (y k) j) Y.
  Proof.
    intros Hln o f c par tk1 tk2 r1 r2 a b Hr Hf Es Ef Ha Hb Hi w m. destruct (sampled o f c par tk1 r1 a Hr Ha Hi) as [inds [ok [new [Sa [Xa [S1 [S2 [S3 [S4 [S5 S6]]]]]]]]]].
    assert (Sb : sample ev' par tk2 (c_state c) (p_mode (c_params c)) (c_sampler c) = Ret (Some inds, c_sampler a)) by (rewrite <- Sa; unfold sample; rewrite Es, Ef; reflexivity).
    pose proof (next_outcome ev' _ _ _ _ _ Hb) as [[Q _]|[inds2 [ok2 [Q [_ [_ [Xb _]]]]]]]; [rewrite Sb in Q; discriminate Q|]. rewrite Sb in Q. apply Ret_inj in Q.
    assert (Ei : inds2 = inds) by (apply (f_equal fst) in Q; cbn [fst] in Q; congruence). assert (Esm : c_sampler b = c_sampler a) by (apply (f_equal snd) in Q; cbn [snd] in Q; congruence). subst inds2. clear Q.
    assert (Ec : calls a = calls b) by (unfold calls, into_objective_function; rewrite Esm; reflexivity). 
    pose proof Xa as Ua. pose proof Xb as Ub. apply state_update_inv in Ua. destruct Ua as [yw1 [rm1 [cov1 U1]]]. apply state_update_inv in Ub. destruct Ub as [yw2 [rm2 [cov2 U2]]].
    assert (Ey : yw1 = yw2) by (apply Ret_inj; rewrite <- (up_yw _ _ _ _ _ _ _ _ _ _ U1), <- (up_yw _ _ _ _ _ _ _ _ _ _ U2); reflexivity). subst yw2.
    assert (Em : st_mean (c_state a) = st_mean (c_state b)) by (apply Ret_inj; rewrite <- (up_mean _ _ _ _ _ _ _ _ _ _ U1), <- (up_mean _ _ _ _ _ _ _ _ _ _ U2); reflexivity).
    assert (Ep : st_path_sigma (c_state a) = st_path_sigma (c_state b)) by (apply Ret_inj; rewrite <- (up_ps _ _ _ _ _ _ _ _ _ _ U1), <- (up_ps _ _ _ _ _ _ _ _ _ _ U2); reflexivity).
    assert (Epc : st_path_c (c_state a) = st_path_c (c_state b)) by (apply Ret_inj; rewrite <- (up_pc _ _ _ _ _ _ _ _ _ _ U1), <- (up_pc _ _ _ _ _ _ _ _ _ _ U2), Ep; reflexivity).
    assert (Esg : st_sigma (c_state a) = st_sigma (c_state b)) by (rewrite (up_sigma _ _ _ _ _ _ _ _ _ _ U1), (up_sigma _ _ _ _ _ _ _ _ _ _ U2), Ep; reflexivity). clear U1 U2.
    split; [exact Ec|]. split; [exact Em|]. split; [exact Esg|]. split; [exact Epc|]. set (d := mkPoint [] [] n0 : point f64).
    destruct (entries Hln o f c _ _ inds ok _ Hr Hf Xa (fun p Hp => proj2 (S6 p Hp)) d) as [c1 [cmu [cc [I1 [Im [Ic [_ [_ [_ [_ H]]]]]]]]]].
    destruct (entries Hln o f c _ _ inds ok2 _ Hr Hf Xb (fun p Hp => proj2 (S6 p Hp)) d) as [c1' [cmu' [cc' [I1' [Im' [Ic' [_ [_ [_ [_ K]]]]]]]]]].
    assert (c1' = c1) by (eapply is_fun; eassumption). assert (cmu' = cmu) by (eapply is_fun; eassumption). assert (cc' = cc) by (eapply is_fun; eassumption). subst c1' cmu' cc'. rewrite <- Ep, <- Epc in K.
    exists (fun k => pt_step (nth k inds d)), c1, cmu. split.
    { intros k Hk. exists (pt_entry (nth k inds d)). split.
      - rewrite S1. apply in_or_app. right. apply (Permutation_in _ (Permutation_sym S3)). apply in_map, nth_In. rewrite S5. exact Hk.
      - intros i Hi'. cbn [pt_entry fst]. destruct (S6 (nth k inds d)) as [P1 P2]; [apply nth_In; rewrite S5; exact Hk|]. apply (point_of o f); assumption. }
    repeat (split; [assumption|]). intros v i j Hi' Hj' Fa Fb Y Y1 Y2 Y3.
    destruct (H i j Hi' Hj' Fa) as [_ [_ [_ [_ H']]]]. destruct (K i j Hi' Hj' Fb) as [_ [_ [_ [_ K']]]]. specialize (H' Y Y1 Y2 Y3). specialize (K' Y Y1 Y2 Y3). fold w m in H', K'.
    change (fun k => B2R (step_weight (dims o) (whitening c) (nth k w n0) (pt_step (nth k inds d)))) with v in H', K'. unfold path.
    set (z := new_entry _ _ _ _ _ _ _ _ _ _ _ _) in *. set (t := tolerance _ _ _ _ _ _ _ _ _ _ _) in *. change (mnth (cm_cov (st_cov (c_state a))) i j) with (entry a i j) in H'. change (mnth (cm_cov (st_cov (c_state b))) i j) with (entry b i j) in K'. clearbody z t.
    apply Rabs_le_inv in H'. apply Rabs_le_inv in K'. apply Rabs_le. lra.
  Qed.
End FloatCovErr.
Print Assumptions C82_update.
Print Assumptions C82_split.

(* A platform and a session with a threaded update: two splits of the work, all entries finite, four points of which two count. *)
Definition c82_options : options f64 := apply_setters (c75_options 2 WUniform 4) [SParallelUpdate true].
Definition c82_tick (t : rtree) : tick := mkTick 0 t [] 50.
Example C82_case : accurate_ln (L := rounded_libm) /\ sizes_fit c82_options /\
  exists (c a b : cmaes (E := toy_env) f64 (unit * list (Spec.entry f64))) r1 r2,
    reaches (LT := rounded_libm) (log_ev toy_sphere) c82_options (tt, []) c /\ length (p_weights (c_params c)) = 2%nat /\ p_parallel_update (c_params c) = true /\
    next (LT := rounded_libm) (log_ev toy_sphere) false (c82_tick RLeaf) c = Ret (r1, a) /\ next (LT := rounded_libm) (log_ev toy_sphere) false (c82_tick (RNode 1 RLeaf RLeaf)) c = Ret (r2, b) /\
    reports InvalidFunctionValue r1 = false /\ reports InvalidFunctionValue r2 = false /\
    forall i j, (i < 2)%nat -> (j < 2)%nat -> is_finite (entry (L := rounded_libm) a i j) = true /\ is_finite (entry (L := rounded_libm) b i j) = true.
Proof.
  split; [exact rounded_accurate|]. split; [split; [vm_compute; reflexivity|vm_compute; discriminate]|].
  set (fin4 := fun c : cmaes (E := toy_env) f64 (unit * list (Spec.entry f64)) => is_finite (entry (L := rounded_libm) c 0 0) && is_finite (entry (L := rounded_libm) c 0 1) && is_finite (entry (L := rounded_libm) c 1 0) && is_finite (entry (L := rounded_libm) c 1 1)).
  destruct (holds_ex (after (LT := rounded_libm) (E := toy_env) (log_ev toy_sphere) (tt, []) c82_options [])
    (fun c => Nat.eqb (length (p_weights (c_params c))) 2 && p_parallel_update (c_params c) &&
      holds (next (LT := rounded_libm) (E := toy_env) (log_ev toy_sphere) false (c82_tick RLeaf) c) (fun rc => negb (reports InvalidFunctionValue (fst rc)) && fin4 (snd rc)) &&
      holds (next (LT := rounded_libm) (E := toy_env) (log_ev toy_sphere) false (c82_tick (RNode 1 RLeaf RLeaf)) c) (fun rc => negb (reports InvalidFunctionValue (fst rc)) && fin4 (snd rc)))) as [c [H1 H2]].
  { vm_compute. reflexivity. }
  apply after_reaches in H1. destruct H1 as [c0 [H0 H1]]. apply andb_prop in H2. destruct H2 as [H2 H3]. apply andb_prop in H2. destruct H2 as [H2 H4]. apply andb_prop in H2. destruct H2 as [H2 H5].
  apply holds_ex in H3. destruct H3 as [[r2 b] [H3 K3]]. apply holds_ex in H4. destruct H4 as [[r1 a] [H4 K4]]. cbn [fst snd] in K3, K4. apply andb_prop in K3. destruct K3 as [K3 F3]. apply andb_prop in K4. destruct K4 as [K4 F4].
  exists c, a, b, r1, r2. split; [exists c0, []; auto|]. split; [apply Nat.eqb_eq; exact H2|]. split; [exact H5|]. split; [exact H4|]. split; [exact H3|]. split; [apply negb_true_iff; exact K4|]. split; [apply negb_true_iff; exact K3|].
  assert (G : forall c1, fin4 c1 = true -> forall i j, (i < 2)%nat -> (j < 2)%nat -> is_finite (entry (L := rounded_libm) c1 i j) = true).
  { intros c1 H i j Hi Hj. unfold fin4 in H. apply andb_prop in H. destruct H as [H Q1]. apply andb_prop in H. destruct H as [H Q2]. apply andb_prop in H. destruct H as [Q3 Q4].
    destruct i as [|[|i]]; [| |lia]; (destruct j as [|[|j]]; [| |lia]); assumption. }
  intros i j Hi Hj. split; apply G; assumption.
Qed.
