(* C35 and C36: recombination weights and learning rates, in exact arithmetic. *)
From Coq Require Import List NArith ZArith Bool Arith Lia Reals Lra.
Require Import Verif.Base Verif.Num Verif.XReal Verif.LinAlg Verif.Mode Verif.Weights Verif.Options Verif.Params Verif.Env
  Verif.State Verif.Sampling Verif.History Verif.Termination Verif.Plot Verif.Cmaes Verif.Lib
  Verif.Spec Verif.BuildLemmas Verif.TraceLemmas Verif.NextSafe Verif.XToy Verif.PropRun Verif.RSum Verif.WeightLemmas.
Import ListNotations.
Open Scope nat_scope.

(* ---- specification ---- *)
Definition total (l : list R) : R := fold_right Rplus 0%R l.
(* the number of weights that count fully: (sum of weights)^2 / (sum of squares) *)
Definition selection_mass (l : list R) : R := (total l * total l / total (map (fun w => w * w) l))%R.
(* the preference of the point of rank i (the best has rank 1) among lambda points *)
Definition preference (lambda i : nat) : R := (ln ((INR lambda + 1) / 2) - ln (INR i))%R.
Definition least3 (a b c : R) : R := Rmin a (Rmin b c).

(* ---- lists and sums ---- *)
Lemma total_app : forall a b, total (a ++ b) = (total a + total b)%R.
Proof. unfold total. intros a b. induction a as [|x a IH]; cbn [app fold_right]; [lra|]. rewrite IH. lra. Qed.
Lemma total_seq : forall n f, total (map f (seq 0 n)) = Sig n f.
Proof. induction n; intros f; [reflexivity|]. rewrite seq_S, map_app, total_app, IHn. cbn [Sig map total fold_right]. rewrite Nat.add_0_l. lra. Qed.
Lemma total_seq_from : forall n a f, total (map f (seq a n)) = Sig n (fun i => f (a + i)).
Proof. intros n a f. rewrite <- total_seq. f_equal. revert a. induction n; intros a; [reflexivity|]. cbn [seq map]. f_equal; [f_equal; lia|]. rewrite IHn, <- seq_shift, map_map. apply map_ext. intros. f_equal. lia. Qed.
Lemma firstn_seq : forall k n f, k <= n -> firstn k (map f (seq 0 n)) = (map f (seq 0 k) : list R).
Proof. intros k n f H. rewrite firstn_map. f_equal. replace n with (k + (n - k)) by lia. rewrite seq_app, firstn_app, seq_length, Nat.sub_diag, firstn_O, app_nil_r. apply firstn_all2. rewrite seq_length. lia. Qed.
Lemma skipn_seq : forall k n f, k <= n -> skipn k (map f (seq 0 n)) = (map f (seq k (n - k)) : list R).
Proof. intros k n f H. rewrite skipn_map. f_equal. replace n with (k + (n - k)) at 1 by lia. rewrite seq_app, skipn_app, seq_length, Nat.sub_diag. rewrite skipn_all2 by (rewrite seq_length; lia). reflexivity. Qed.
Lemma nth_seq : forall n f i, i < n -> nth i (map f (seq 0 n)) 0%R = f i.
Proof. intros n f i H. rewrite (nth_indep _ 0%R (f 0)) by (rewrite map_length, seq_length; exact H). rewrite map_nth, seq_nth by exact H. reflexivity. Qed.
Lemma fv_list : forall n (v : vec xreal) x, fv n v x -> v = map XFin (map x (seq 0 n)).
Proof.
  intros n v x [L H]. apply (nth_ext _ _ n0 n0); [rewrite !map_length, seq_length; exact L|]. intros i Hi. rewrite H by (rewrite <- L; exact Hi).
  rewrite map_map. rewrite (nth_indep _ n0 (XFin (x 0))) by (rewrite map_length, seq_length; rewrite <- L; exact Hi).
  rewrite (map_nth (fun i => XFin (x i))), seq_nth by (rewrite <- L; exact Hi). reflexivity.
Qed.
Lemma Sig_div : forall n f c, Sig n (fun i => (f i / c)%R) = (Sig n f / c)%R.
Proof. intros. unfold Rdiv. apply Sig_mul_r. Qed.

Section Weights.
  Context {E : Env xreal} {F : Type} (ev : F -> vec xreal -> outcome (xreal * F)).

  Definition lam (o : options xreal) : nat := N.to_nat (o_population_size o).

  Lemma reaches_params : forall o f c, reaches ev o f c ->
    validate o = None /\ exists seed, c_params c = params_of_options o seed.
  Proof.
    intros o f c H. apply reaches_setup in H. destruct H as [rs [now [c0 [H1 H2]]]]. pose proof (cmaes_new_inv _ _ _ _ _ H1) as C. cbv zeta in C.
    destruct C as [C1 [_ [C2 _]]]. split; [exact C1|]. destruct H2 as [H2 _]. rewrite H2. eexists. exact C2.
  Qed.
  Lemma valid_sizes : forall o : options xreal, validate o = None -> (2 <= o_population_size o)%N /\ (1 <= N.of_nat (length (o_initial_mean o)))%N.
  Proof.
    intros o H. unfold validate in H. destruct (o_initial_mean o); cbn [length Nat.eqb] in H; [discriminate H|]. cbn [length]. split; [|lia].
    destruct (N.ltb_spec (o_population_size o) 2); [discriminate H|lia].
  Qed.
  Lemma half_div : forall l, half l = N.to_nat l / 2.
  Proof. intros l. unfold half. rewrite N2Nat.inj_div. reflexivity. Qed.

  (* The weights of a strategy in a list of reals. *)
  Theorem C35_weights : forall o f c, reaches ev o f c ->
    let lambda := lam o in let mu := lambda / 2 in let n := INR (length (o_initial_mean o)) in
    exists ws mu_eff c1 cmu,
      p_weights (c_params c) = map XFin ws /\ p_mu_eff (c_params c) = XFin mu_eff /\
      p_c1 (c_params c) = XFin c1 /\ p_cmu (c_params c) = XFin cmu /\ N.to_nat (p_mu (c_params c)) = mu /\
      let positive := firstn mu ws in let rest := skipn mu ws in
      length ws = (match o_weights o with WNegative => lambda | _ => mu end) /\
      Forall (fun w => 0 < w)%R positive /\ total positive = 1%R /\
      (forall i j, i <= j < length ws -> (nth j ws 0 <= nth i ws 0)%R) /\
      (* within each of the two groups the weights are proportional to the preferences, or equal *)
      (forall i, i < mu -> nth i ws 0%R =
         match o_weights o with
         | WUniform => (1 / INR mu)%R
         | _ => (preference lambda (i + 1) / total (map (preference lambda) (seq 1 mu)))%R
         end) /\
      Forall (fun w => w <= 0)%R rest /\
      (o_weights o = WNegative ->
         let prefs := map (preference lambda) (seq (mu + 1) (lambda - mu)) in
         let bound := (1 + 2 * selection_mass prefs / (mu_eff + 2))%R in
         total rest = (- (if Req_EM_T cmu 0 then bound else least3 (1 + c1 / cmu) bound ((1 - c1 - cmu) / (n * cmu))))%R /\
         forall i, i < lambda - mu -> nth i rest 0%R = (total rest * (nth i prefs 0 / total prefs))%R) /\
      mu_eff = selection_mass positive /\ (1 <= mu_eff <= INR mu)%R.
  Proof.
    intros o f c Hr lambda mu n. destruct (reaches_params o f c Hr) as [Hv [seed Hp]]. destruct (valid_sizes o Hv) as [Hl Hd].
    set (l := o_population_size o) in *. set (s := o_weights o). set (dim := N.of_nat (length (o_initial_mean o))) in *.
    assert (Hn : n = INR (N.to_nat dim)) by (unfold n, dim; rewrite Nat2N.id; reflexivity).
    assert (Hmu : mu = half l) by (symmetry; apply half_div).
    destruct (half_bounds l Hl) as [Hh Hb]. pose proof (meff_bounds s l Hl) as [M1 M2].
    set (m := meff s l) in *. pose proof (c1_fin dim m Hd M1) as C1. pose proof (cmu_fin dim m Hd M1) as C2.
    pose proof (mu_eff_fin s l Hl) as ME. pose proof (finalize_fin s l dim Hl Hd) as FW. cbv zeta in FW. fold m in FW, ME. rewrite <- Hn in FW, C1, C2.
    assert (Hc : half l <= count s l) by apply count_half.
    assert (Pos : (0 < Sig (half l) (base s l))%R) by (apply base_sum_pos; exact Hl).
    exists (map (weight n s l) (seq 0 (count s l))), m, (c1R n m), (cmuR n m). rewrite Hp. unfold params_of_options.
    cbn [p_weights p_mu_eff p_c1 p_cmu p_mu]. fold l s dim. rewrite ME, C1, C2.
    split; [apply fv_list; exact FW|]. split; [reflexivity|]. split; [reflexivity|]. split; [reflexivity|].
    split; [rewrite Hmu; reflexivity|]. cbv zeta. rewrite Hmu, map_length, seq_length.
    rewrite (firstn_seq _ _ _ Hc), (skipn_seq _ _ _ Hc).
    assert (W1 : forall i, i < half l -> weight n s l i = (base s l i / Sig (half l) (base s l))%R).
    { intros i Hi. unfold weight. destruct (Nat.ltb_spec i (half l)); [reflexivity|lia]. }
    assert (W2 : forall i, half l <= i -> weight n s l i = (base s l i * alpha n m l / neg_sum l)%R).
    { intros i Hi. unfold weight. destruct (Nat.ltb_spec i (half l)); [lia|reflexivity]. }
    assert (A : (0 <= alpha n m l)%R) by (rewrite Hn; apply alpha_nonneg; auto).
    pose proof (neg_sum_pos l Hl) as [NP _].
    assert (Rest : forall i, half l <= i -> i < count s l -> s = WNegative /\ base s l i = rawR l i /\ (base s l i <= 0)%R).
    { intros i H1 H2. destruct s; cbn [count] in H2; try lia. split; [reflexivity|]. split; [reflexivity|]. apply rawR_nonpos; exact H1. }
    assert (WN : forall i, half l <= i -> i < count s l -> (weight n s l i <= 0)%R).
    { intros i H1 H2. rewrite (W2 i H1). destruct (Rest i H1 H2) as [_ [_ B]]. apply Rmult_le_reg_r with (neg_sum l); [exact NP|].
      unfold Rdiv. rewrite Rmult_assoc, Rinv_l, Rmult_0_l by lra. nra. }
    assert (WP : forall i, i < half l -> (0 < weight n s l i)%R).
    { intros i Hi. rewrite (W1 i Hi). apply Rdiv_lt_0_compat; [apply base_pos; exact Hi|exact Pos]. }
    assert (S1 : Sig (half l) (weight n s l) = 1%R).
    { rewrite (Sig_ext _ _ _ W1), Sig_div. field. lra. }
    assert (Raw : forall i, rawR l i = preference lambda (i + 1)) by reflexivity.
    split. { unfold s. destruct (o_weights o); try (symmetry; exact Hmu); reflexivity. }
    split. { rewrite Forall_map. apply Forall_forall. intros i Hi. apply in_seq in Hi. apply WP. lia. }
    split. { rewrite total_seq. exact S1. }
    split.
    { intros i j [Hij Hj]. rewrite !nth_seq by lia. destruct (Nat.lt_ge_cases j (half l)) as [J|J].
      - rewrite (W1 i), (W1 j) by lia. apply Rmult_le_compat_r; [left; apply Rinv_0_lt_compat; exact Pos|]. apply base_decreasing. exact Hij.
      - destruct (Nat.lt_ge_cases i (half l)) as [I|I].
        + pose proof (WP i I). pose proof (WN j J Hj). lra.
        + rewrite (W2 i), (W2 j) by lia. apply Rmult_le_compat_r; [left; apply Rinv_0_lt_compat; exact NP|]. apply Rmult_le_compat_r; [exact A|]. apply base_decreasing. exact Hij. }
    split.
    { intros i Hi. rewrite nth_seq by lia. rewrite (W1 i Hi). fold s. rewrite total_seq_from.
      rewrite (Sig_ext (half l) (fun i0 => preference lambda (1 + i0)) (rawR l)) by (intros; rewrite Raw; f_equal; lia).
      destruct s; cbn [base]; try (rewrite Raw; reflexivity). rewrite (Sig_ext _ (base WUniform l) (fun _ => 1%R)) by reflexivity. rewrite Sig_const, Rmult_1_r. reflexivity. }
    split. { rewrite Forall_map. apply Forall_forall. intros i Hi. apply in_seq in Hi. apply WN; lia. }
    split.
    { intros Hs. fold s in Hs.
      assert (Hcount : count s l - half l = lambda - half l) by (rewrite Hs; reflexivity).
      rewrite Hcount. rewrite !total_seq_from.
      set (N0 := Sig (lambda - half l) (fun i => rawR l (half l + i))).
      assert (EN : Sig (lambda - half l) (fun i => preference lambda (half l + 1 + i)) = N0).
      { apply Sig_ext. intros i _. rewrite Raw. f_equal. lia. }
      assert (NL : (N0 < 0)%R) by (apply rest_sum_neg; exact Hl).
      assert (NS : neg_sum l = (- N0)%R) by (unfold neg_sum; fold lambda; fold N0; apply Rabs_left; exact NL).
      assert (TR : Sig (lambda - half l) (fun i => weight n s l (half l + i)) = (- alpha n m l)%R).
      { rewrite (Sig_ext _ _ (fun i => (rawR l (half l + i) * (alpha n m l / neg_sum l))%R)).
        - rewrite Sig_mul_r. fold N0. rewrite NS. field. lra.
        - intros i Hi. rewrite W2 by lia. rewrite Hs. cbn [base]. unfold Rdiv. ring. }
      rewrite TR, EN. split.
      - f_equal. unfold alpha, least3. cbv zeta.
        assert (SM : selection_mass (map (preference lambda) (seq (half l + 1) (lambda - half l))) = meff_minus l).
        { unfold selection_mass, meff_minus, mass. fold lambda. rewrite map_map, !total_seq_from, EN. fold N0. apply (f_equal (fun z => (N0 * N0 / z)%R)).
          apply Sig_ext. intros i _. rewrite Raw. replace (half l + 1 + i) with (half l + i + 1) by lia. reflexivity. }
        rewrite SM. destruct (Req_EM_T (cmuR n m) 0); reflexivity.
      - intros i Hi. rewrite (nth_indep _ 0%R (weight n s l 0)) by (rewrite map_length, seq_length; exact Hi).
        rewrite map_nth, seq_nth by exact Hi. rewrite (nth_indep _ 0%R (preference lambda 0)) by (rewrite map_length, seq_length; exact Hi).
        rewrite map_nth, seq_nth by exact Hi. rewrite W2 by lia. rewrite Hs. cbn [base]. rewrite Raw, NS. replace (half l + i + 1) with (half l + 1 + i) by lia. field. lra. }
    split; [|split; [exact M1|exact M2]].
    unfold selection_mass. rewrite map_map, !total_seq, S1. unfold m, meff, mass.
    rewrite (Sig_ext (half l) (fun x => (weight n s l x * weight n s l x)%R)
       (fun i => (base s l i * base s l i * (/ (Sig (half l) (base s l) * Sig (half l) (base s l))))%R)).
    - rewrite Sig_mul_r. field. split; [lra|]. apply Rgt_not_eq. apply (Sig_pos _ _ 0); [intros; apply Rle_0_sqr|lia|]. pose proof (base_pos s l 0 ltac:(lia)). nra.
    - intros i Hi. rewrite (W1 i Hi). field. lra.
  Qed.

  Theorem C36_rates : forall o f c, reaches ev o f c ->
    let n := INR (length (o_initial_mean o)) in
    exists mu_eff cc cs c1 cmu damp_s,
      p_mu_eff (c_params c) = XFin mu_eff /\ p_cc (c_params c) = XFin cc /\ p_cs (c_params c) = XFin cs /\ p_c1 (c_params c) = XFin c1 /\
      p_cmu (c_params c) = XFin cmu /\ p_damp_s (c_params c) = XFin damp_s /\
      (0 < cc <= 1)%R /\ (0 < cs < 1)%R /\ (0 < c1 < 1)%R /\ (0 <= cmu <= 1 - c1)%R /\ (1 < damp_s)%R /\
      ((mu_eff <= (n + 2) * (n + 2) - 2)%R -> (cmu < 1 - c1)%R) /\
      ((INR (lam o) <= 2 * ((n + 2) * (n + 2)) - 4)%R -> (cmu < 1 - c1)%R).
  Proof.
    intros o f c Hr n. destruct (reaches_params o f c Hr) as [Hv [seed Hp]]. destruct (valid_sizes o Hv) as [Hl Hd].
    set (l := o_population_size o) in *. set (s := o_weights o). set (dim := N.of_nat (length (o_initial_mean o))) in *.
    assert (Hn : n = INR (N.to_nat dim)) by (unfold n, dim; rewrite Nat2N.id; reflexivity).
    destruct (half_bounds l Hl) as [Hh Hb]. pose proof (meff_bounds s l Hl) as [M1 M2]. pose proof (mu_eff_fin s l Hl) as ME.
    set (m := meff s l) in *. exists m, (ccR n m), (csR n m), (c1R n m), (cmuR n m), (dampR n m).
    rewrite Hp. unfold params_of_options. cbn [p_mu_eff p_cc p_cs p_c1 p_cmu p_damp_s]. fold l s dim. rewrite ME, Hn.
    rewrite (c1_fin dim m Hd M1), (cmu_fin dim m Hd M1), (cc_fin dim m Hd M1), (cs_fin dim m Hd M1), (damp_fin dim m Hd M1).
    split; [reflexivity|]. split; [reflexivity|]. split; [reflexivity|]. split; [reflexivity|]. split; [reflexivity|]. split; [reflexivity|].
    split; [apply cc_range; auto|]. split; [apply cs_range; auto|]. split; [apply c1_range; auto|]. split; [apply cmu_range; auto|].
    split; [apply damp_range; auto|]. split; [apply cmu_small; auto|].
    intros B. apply cmu_small; auto.
    assert (INR (2 * half l) <= INR (lam o))%R by (apply le_INR; unfold lam; fold l; lia). rewrite mult_INR in H. cbn [INR] in H. lra.
  Qed.

  (* The published default settings (Hansen, The CMA Evolution Strategy: A Tutorial, table 1), written out. *)
  Theorem C61_defaults : forall o f c, reaches ev o f c ->
    let n := INR (length (o_initial_mean o)) in
    exists mu_eff, p_mu_eff (c_params c) = XFin mu_eff /\ (1 <= mu_eff)%R /\ 
      let c1 := (2 / (Rsqr (n + 1.3) + mu_eff))%R in
      let cs := ((mu_eff + 2) / (n + mu_eff + 5))%R in
      p_cs (c_params c) = XFin cs /\ 
      p_damp_s (c_params c) = XFin (1 + 2 * Rmax 0 (sqrt ((mu_eff - 1) / (n + 1)) - 1) + cs) /\ 
      p_cc (c_params c) = XFin ((4 + mu_eff / n) / (n + 4 + 2 * mu_eff / n)) /\ 
      p_c1 (c_params c) = XFin c1 /\ 
      p_cmu (c_params c) = XFin (Rmin (1 - c1) (2 * ((mu_eff - 2 + 1 / mu_eff) / (Rsqr (n + 2) + 2 * mu_eff / 2)))) /\ 
      p_cm (c_params c) = o_cm o.
  Proof.
    intros o f c Hr n. destruct (reaches_params o f c Hr) as [Hv [seed Hp]]. destruct (valid_sizes o Hv) as [Hl Hd].
    set (l := o_population_size o) in *. set (s := o_weights o). set (dim := N.of_nat (length (o_initial_mean o))) in *.
    assert (Hn : n = INR (N.to_nat dim)) by (unfold n, dim; rewrite Nat2N.id; reflexivity).
    pose proof (meff_bounds s l Hl) as [M1 M2]. pose proof (mu_eff_fin s l Hl) as ME. set (m := meff s l) in *. pose proof (n_ge dim Hd) as N1.
    exists m. rewrite Hp. unfold params_of_options. cbn [p_mu_eff p_cc p_cs p_c1 p_cmu p_damp_s p_cm]. fold l s dim. rewrite ME, Hn.
    rewrite (c1_fin dim m Hd M1), (cmu_fin dim m Hd M1), (cc_fin dim m Hd M1), (cs_fin dim m Hd M1), (damp_fin dim m Hd M1).
    unfold ccR, csR, cmuR, c1R, cmu0R, dampR, csR, Rsqr. set (k := INR (N.to_nat dim)) in *.
    assert (Q : (0 < (k + 2) * (k + 2) + 2 * m / 2)%R) by nra. replace (13 / 10)%R with 1.3%R by lra.
    split; [reflexivity|]. split; [exact M1|]. cbv zeta. split; [reflexivity|].
    split; [rewrite (Rmax_comm 0); f_equal; ring|]. split; [reflexivity|]. split; [reflexivity|]. split; [|reflexivity].
    f_equal. f_equal. field. split; lra.
  Qed.
End Weights.
Print Assumptions C35_weights.
Print Assumptions C36_rates.
Print Assumptions C61_defaults.

(* Concrete cases: an odd population with negative weights (mu = 3, seven weights), and one larger than twice
   the square of n + 2 (dimension one), where cmu reaches its cap. *)
Definition c35_options (m : vec xreal) (w : weights_setting) (l : N) : options xreal :=
  apply_setters (xtoy_options m) [SWeights w; SPopulationSize l].
Lemma c35_built : forall m w l, m <> [] -> (2 <= l)%N -> exists c, reaches xtoy_sphere (c35_options m w l) tt c.
Proof.
  intros m w l Hm Hl. assert (V : validate (c35_options m w l) = None).
  { pose proof (xtoy_valid m Hm) as V. unfold validate in *.
    cbn [c35_options xtoy_options apply_setters fold_left apply_setter options_new o_initial_mean o_population_size o_initial_step_size o_cm] in *.
    destruct (length m =? 0); [discriminate V|]. destruct (N.ltb_spec l 2); [lia|]. exact V. }
  pose proof (cmaes_new_outcome 0%N 0%N tt (c35_options m w l)) as Hn. rewrite V in Hn. destruct Hn as [c Hn].
  exists c, c, []. split; [exists 0%N, 0%N; exact Hn|reflexivity].
Qed.
Example C35_case :
  (exists c, reaches xtoy_sphere (c35_options [XFin 1; XFin 2] WNegative 7) tt c) /\ 
  (exists c, reaches xtoy_sphere (c35_options [XFin 1; XFin 2] WUniform 2) tt c) /\ 
  (exists c, reaches xtoy_sphere (c35_options [XFin 1] WPositive 1000) tt c).
Proof. split; [|split]; apply c35_built; try discriminate; intros X; discriminate X. Qed.
