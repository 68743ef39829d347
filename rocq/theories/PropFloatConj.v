(* C85: the path from which the step size is computed, and its length, in binary64. *)
From Coq Require Import List NArith ZArith Bool Reals Lra Lia Arith Psatz Permutation Sorted.
From Flocq Require Import Core.
From Flocq Require Import IEEE754.BinarySingleNaN.
Require Import Verif.Lib Verif.Base Verif.Num Verif.F64 Verif.XReal Verif.LinAlg Verif.Mode Verif.Weights Verif.Options
  Verif.Params Verif.Env Verif.State Verif.Sampling Verif.History Verif.Termination Verif.Plot Verif.Cmaes
  Verif.Spec Verif.Order Verif.Sort Verif.F64Lemmas Verif.BuildLemmas Verif.TraceLemmas Verif.CeilLemmas Verif.XRound Verif.XLe
  Verif.NextInv Verif.LogLemmas Verif.SamplingLemmas Verif.PanicLemmas Verif.NextSafe Verif.RSum
  Verif.F64Acc Verif.F64Weights Verif.F64Rates Verif.F64Final Verif.F64Raw Verif.Toy Verif.ToyLemmas Verif.StateLemmas Verif.TermLemmas Verif.PropRun Verif.PropPlot
  Verif.F64Mean Verif.F64Sigma Verif.F64Cov Verif.F64CovErr Verif.F64Path Verif.F64Conj Verif.PropFloatParams Verif.PropFloatMean Verif.PropFloatCov Verif.PropFloatCovErr Verif.PropFloatPath Verif.PropFloatStep.
Import ListNotations.
Open Scope R_scope.

(* ---- specification ---- *)
(* what a component of the path should become (Hansen's tutorial, equation 43): p is the component, b the row of the inverse
   square root of the covariance matrix, w the weights, y k j the component j of the step of rank k *)
Definition new_conj (cs mu_eff p : R) (n mu : nat) (b w : nat -> R) (y : nat -> nat -> R) : R :=
  (1 - cs) * p + sqrt (cs * (2 - cs) * mu_eff) * Sig n (fun j => b j * Sig mu (fun k => w k * y k j)).
Definition conj_tolerance (cs mu_eff p : R) (n mu : nat) (b w : nat -> R) (y : nat -> nat -> R) : R :=
  let size j := Sig mu (fun k => w k * Rabs (y k j)) in
  (3 * INR mu + 2 * INR n + 9) / 2 ^ 53 * ((1 - cs) * Rabs p + sqrt (cs * (2 - cs) * mu_eff) * Sig n (fun j => Rabs (b j) * size j))
  + (5 * (INR mu * (sqrt (cs * (2 - cs) * mu_eff) * Sig n (fun j => Rabs (b j)))) + 2 * Sig n (fun j => 1 + size j) + 2) * bpow radix2 (-1074).
(* the Euclidean length *)
Definition euclid (n : nat) (x : nat -> R) : R := sqrt (Sig n (fun i => x i * x i)).
Definition length_tolerance (n : nat) (x : nat -> R) : R := (2 * INR n + 3) / 2 ^ 53 * euclid n x + bpow radix2 (-515).

(* the path of the step size *)
Definition conj_path {E : Env f64} {F : Type} (c : cmaes f64 F) : vec f64 := st_path_sigma (c_state c).
(* the dimension is at most 2^40 *)
Definition dims_fit (o : options f64) : Prop := (N.of_nat (dims o) <= 1099511627776)%N.

Lemma Forall2_nth : forall (l : list f64) rs j, Forall2 is l rs -> (j < length l)%nat -> is (nth j l n0) (nth j rs 0).
Proof. induction l as [|x l IH]; intros rs j H Hj; [cbn in Hj; lia|]. inversion H; subst. destruct j as [|j]; cbn [nth length] in *; [assumption|]. apply IH; [assumption|lia]. Qed.
Lemma list_seq : forall (l : list R) f n, length l = n -> (forall j, (j < n)%nat -> nth j l 0 = f j) -> l = map f (seq 0 n).
Proof.
  intros l f n Hl H. apply (nth_ext _ _ 0 0); [rewrite map_length, seq_length; exact Hl|]. intros k Hk. rewrite Hl in Hk.
  rewrite (nth_indep (map f _) 0 (f 0%nat)) by (rewrite map_length, seq_length; exact Hk). rewrite map_nth, seq_nth by exact Hk. apply H. exact Hk.
Qed.

Lemma sqrt_fin : forall (x : f64) l, is (nsqrt x) l -> exists q, is x q /\ 0 <= q /\ l = rnd64 (sqrt q).
Proof.
  intros x l H. pose proof (Bsqrt_correct 53 1024 f64_prec f64_emax mode_NE x) as [_ [S2 _]]. change (Bsqrt mode_NE x) with (nsqrt x : f64) in S2.
  destruct (is_B2R _ _ H) as [Fl _]. rewrite Fl in S2.
  assert (Q : is_finite x = true /\ 0 <= B2R x). { destruct x as [s|s| |[|] m e Hb]; try discriminate S2; (split; [reflexivity|]); [apply Rle_refl|]. cbn [B2R SpecFloat.cond_Zopp]. apply (F2R_ge_0 radix2). cbn. lia. }
  destruct Q as [Fx Px]. exists (B2R x). assert (Ix : is x (B2R x)) by (apply f2x_finite; exact Fx). split; [exact Ix|]. split; [exact Px|]. eapply is_fun; [exact H|]. apply is_sqrt; assumption.
Qed.

Section FloatConj.
  Context {L : Libm f64} {E : Env f64} {F : Type} (ev : F -> vec f64 -> outcome (f64 * F)).
  Let ev' := log_ev ev.

  Lemma mu_bound : forall o, sizes_fit o -> 0 <= INR (N.to_nat (o_population_size o / 2)) <= 1099511627776.
  Proof.
    intros o [Hf _]. split; [apply pos_INR|]. rewrite INR_IZR_INZ. apply IZR_le. pose proof (N.div_le_upper_bound (o_population_size o) 2 1099511627776 ltac:(lia) ltac:(lia)). lia.
  Qed.
  Lemma dims_bound : forall o, dims_fit o -> INR (dims o) <= 1099511627776.
  Proof. intros o H. unfold dims_fit in H. rewrite INR_IZR_INZ. apply IZR_le. lia. Qed.

  Lemma conj_length : forall o f c, reaches ev' o f c -> length (conj_path c) = dims o.
  Proof.
    unfold conj_path. intros o f c [c0 [l [[rs [now Hb]] Hst]]]. pose proof (cmaes_new_inv _ _ _ _ _ Hb) as C. cbv zeta in C. destruct C as [_ [_ [_ [C4 _]]]].
    apply (steps_invariant ev' (fun a => length (st_path_sigma (c_state a)) = dims o)) with (l := l) (c := c0); auto.
    - intros a op b Ha Hq Hs. pose proof (quiet_core ev' _ _ _ Hq Hs) as [_ [_ [Co _]]]. rewrite Co. exact Ha.
    - intros par tk a r b Ha Hn. pose proof (next_outcome ev' _ _ _ _ _ Hn) as [[_ [_ [_ H2]]]|[inds [ok [_ [_ [_ [H4 _]]]]]]]; [rewrite H2; exact Ha|].
      apply state_update_inv in H4. destruct H4 as [yw [rm [cov U]]]. pose proof (up_ps _ _ _ _ _ _ _ _ _ _ U) as H5. unfold calc_path_sigma in H5. destruct (mvmul_c _ _) as [v| |] eqn:Ev; cbn [obind] in H5; try discriminate H5.
      unfold vadd_c in H5. apply check_Ret in H5. destruct H5 as [H5 ->]. apply Nat.eqb_eq in H5. unfold vadd, vscale in *. rewrite map2_length, map_length in *. lia.
    - rewrite C4. cbn [state_new st_path_sigma]. unfold vzeros. apply repeat_length.
  Qed.

  (* a component of a matrix times a vector *)
  Lemma product_row : forall s (m : mat f64) v r i n, mvmul_c (mscale s m) v = Ret r -> length v = n -> (i < length r)%nat ->
    length r = length m /\ nth i r n0 = fold_left nadd (map2 nmul (nth i (mscale s m) []) v) n0 /\ length (nth i (mscale s m) []) = n /\
    forall j, (j < n)%nat -> nth j (nth i (mscale s m) []) n0 = nmul s (mnth m i j).
  Proof.
    intros s m v r i n H Hv Hi. unfold mvmul_c in H. apply check_Ret in H. destruct H as [H1 H2]. subst r. unfold mvmul in *. rewrite map_length in *.
    assert (Lm : length (mscale s m) = length m) by (unfold mscale, mmap; apply map_length). split; [exact Lm|]. split.
    { rewrite (nth_indep _ n0 ((fun row => dot row v) [])) by (rewrite map_length; exact Hi). rewrite (map_nth (fun row => dot row v)). reflexivity. }
    assert (Ln : length (nth i (mscale s m) []) = n). { unfold rows_have in H1. rewrite forallb_forall in H1. rewrite <- Hv. apply Nat.eqb_eq, H1, nth_In. exact Hi. }
    split; [exact Ln|]. intros j Hj. unfold mnth. unfold mscale, mmap in *. assert (Q : nth i (map (map (nmul s)) m) [] = map (nmul s) (nth i m [])) by (change (@nil f64) with (map (nmul s) (@nil f64)) at 1; apply map_nth).
    rewrite Q in *. rewrite map_length in Ln. rewrite (nth_indep _ n0 (nmul s n0)) by (rewrite map_length; lia). apply map_nth.
  Qed.

  (* One call of next that evaluates all its points: every component of the path of the step size that is a number is within
     conj_tolerance of what the published rule gives, and so are the length of the path and its components. *)
  Theorem C85_path : accurate_ln -> forall o f c par tk r c', reaches ev' o (f, []) c -> sizes_fit o -> dims_fit o ->
    next ev' par tk c = Ret (r, c') -> reports InvalidFunctionValue r = false ->
    let w := p_weights (c_params c) in let mu := N.to_nat (o_population_size o / 2) in
    exists new ranking (y : nat -> vec f64) cs mu_eff,
      calls c' = calls c ++ new /\ length new = N.to_nat (o_population_size o) /\ Permutation new ranking /\
      StronglySorted (fun a b => as_good (o_mode o) (snd a) (snd b)) ranking /\
      (* y k is the step leading to the point of rank k *)
      (forall k i d, (k < N.to_nat (o_population_size o))%nat -> (i < dims o)%nat -> nth i (fst (nth k ranking d)) n0 = nadd (nth i (mean c) n0) (nmul (sigma c) (nth i (y k) n0))) /\
      f2x (p_cs (c_params c)) = XFin cs /\ f2x (p_mu_eff (c_params c)) = XFin mu_eff /\ 0 < cs < 1 /\ 0 < mu_eff /\
      length (conj_path c') = dims o /\
      forall i, (i < dims o)%nat -> fin_comp (conj_path c') i ->
        fin_comp (conj_path c) i /\ (forall j, (j < dims o)%nat -> is_finite (mnth (whitening c) i j) = true /\ forall k, (k < mu)%nat -> fin_comp (y k) j) /\
        let b j := B2R (mnth (whitening c) i j) in let x k j := comp (y k) j in
        Rabs (comp (conj_path c') i - new_conj cs mu_eff (comp (conj_path c) i) (dims o) mu b (weight w) x)
        <= conj_tolerance cs mu_eff (comp (conj_path c) i) (dims o) mu b (weight w) x.
  Proof.
    intros Hln o f c par tk r c' Hr Hf Hdf Hn Hi w mu. destruct (sampled ev o f c par tk r c' Hr Hn Hi) as [inds [ok [new [_ [X [S1 [S2 [S3 [S4 [S5 S6]]]]]]]]]]. set (d := mkPoint [] [] n0 : point f64).
    destruct (path_rates ev Hln o f c Hr Hf) as [_ [M [_ [IM [_ HM]]]]]. destruct (step_rates ev' Hln o _ c Hr Hf) as [cs [_ [_ [Ic [_ [Hc _]]]]]].
    exists new, (map pt_entry inds), (fun k => pt_step (nth k inds d)), cs, M.
    repeat (split; [assumption|]). split.
    { intros k i e Hk Hi'. rewrite (nth_indep _ e (pt_entry d)) by (rewrite map_length, S5; exact Hk). rewrite map_nth. cbn [pt_entry fst]. destruct (S6 (nth k inds d)) as [P1 P2]; [apply nth_In; rewrite S5; exact Hk|]. apply (point_of ev o f); assumption. }
    repeat (split; [assumption || lra|]). apply state_update_inv in X. destruct X as [yw [rm [cov U]]].
    pose proof (up_yw _ _ _ _ _ _ _ _ _ _ U) as Eyw. pose proof (up_ps _ _ _ _ _ _ _ _ _ _ U) as Eps. clear U.
    destruct (mean_step ev Hln o f c inds yw Hr Hf Eyw S5 (fun p Hp => proj2 (S6 p Hp)) d) as [Ly Hy]. fold w mu in Hy.
    unfold calc_path_sigma in Eps. destruct (mvmul_c _ _) as [v| |] eqn:Ev; cbn [obind] in Eps; try discriminate Eps.
    pose proof (conj_length _ _ _ Hr) as Lp. unfold conj_path in Lp.
    assert (Lv : length v = dims o). { unfold vadd_c in Eps. apply check_Ret in Eps. destruct Eps as [Eps _]. apply Nat.eqb_eq in Eps. unfold vscale in Eps. rewrite !map_length in Eps. congruence. }
    destruct (reached_params ev' o _ c Hr) as [Hv _]. assert (Hd : (0 < dims o)%nat) by (destruct (PropFloatParams.sizes o Hv); unfold dims; lia).
    unfold conj_path. split; [destruct (vadd_nth _ _ _ 0 Eps) as [_ Q]; unfold vscale in *; rewrite map_length in *; [lia|congruence]|].
    intros i Hi' Fi. destruct (vadd_nth _ _ _ i Eps) as [Q _]; [unfold vscale; rewrite map_length; lia|]. rewrite vscale_nth in Q by lia.
    assert (If : is (nth i (st_path_sigma (c_state c')) n0) (comp (st_path_sigma (c_state c')) i)) by (apply f2x_finite; exact Fi). rewrite Q in If at 1.
    destruct (add_fin _ _ _ If) as [a [t [Ia [It Eat]]]]. destruct (mul_fin _ _ _ Ia) as [x [p [Ix [Ip Ea]]]].
    destruct (product_row _ _ _ _ i (dims o) Ev Ly ltac:(lia)) as [_ [T1 [T2 T3]]]. rewrite T1 in It.
    destruct (fold_back _ _ _ It) as [s0 [rs [I0 [Irs Et]]]]. assert (s0 = 0) by (eapply is_fun; [exact I0|exact is0]). subst s0.
    destruct (root_err _ _ _ _ Ic IM ltac:(lra) HM) as [g [Ig Eg]].
    set (row := nth i (mscale _ _) []) in *. set (b := fun j => B2R (mnth (whitening c) i j)). set (yv := fun j => B2R (nth j yw n0 : f64)).
    assert (Lr : length (map2 nmul row yw) = dims o) by (rewrite map2_length, T2, Ly; lia).
    assert (K : forall j, (j < dims o)%nat -> is_finite (mnth (whitening c) i j) = true /\ is (nth j yw n0) (yv j) /\ nth j rs 0 = rnd64 (rnd64 (g * b j) * yv j)).
    { intros j Hj. pose proof (Forall2_nth _ _ j Irs ltac:(lia)) as J. rewrite (Lib.nth_map2 _ _ _ n0 n0 n0) in J by lia. rewrite (T3 j Hj) in J.
      destruct (mul_fin _ _ _ J) as [u [z [Iu [Iz Ej]]]]. destruct (mul_fin _ _ _ Iu) as [g' [b' [Ig' [Ib' Eu]]]]. assert (g' = g) by (eapply is_fun; eassumption). subst g'.
      unfold yv, b. destruct (is_B2R _ _ Iz) as [_ ->]. destruct (is_B2R _ _ Ib') as [Fb Bb]. unfold whitening. rewrite Bb. split; [exact Fb|]. split; [exact Iz|]. rewrite Ej, Eu. reflexivity. }
    assert (Ers : rs = map (fun j => rnd64 (rnd64 (g * b j) * yv j)) (seq 0 (dims o))) by (apply list_seq; [rewrite <- (Forall2_len _ _ _ Irs); exact Lr|intros j Hj; apply (K j Hj)]).
    pose proof (is_B2R _ _ Ip) as [Fp Bp]. split; [exact Fp|]. split.
    { intros j Hj. destruct (K j Hj) as [K1 [K2 _]]. split; [exact K1|]. apply (Hy j _ Hj K2). }
    set (xx := fun k j => comp (pt_step (nth k inds d)) j). cbv zeta. change (fun j => B2R (mnth (whitening c) i j)) with b. change (fun k j : nat => comp (pt_step (nth k inds d)) j) with xx. change (comp (st_path_sigma (c_state c)) i) with (B2R (nth i (st_path_sigma (c_state c)) n0 : f64)). rewrite Bp.
    assert (Ex : x = rnd64 (1 - cs)) by (eapply is_fun; [exact Ix|apply is_sub; [exact is1|exact Ic|apply bigp; lra]]).
    destruct (C75_weights ev' Hln o _ c Hr Hf) as [_ [_ [W3 _]]]. fold w mu in W3. pose proof (mu_bound o Hf) as Bm. fold mu in Bm. pose proof (dims_bound o Hdf) as Bd.
    set (Y := fun j => Sig mu (fun k => weight w k * xx k j)). set (S := fun j => Sig mu (fun k => weight w k * Rabs (xx k j))).
    assert (HY : forall j, (j < dims o)%nat -> Rabs (Y j) <= S j).
    { intros j Hj. apply Rle_trans with (1 := Sig_abs _ _). right. apply Sig_ext. intros k Hk. rewrite Rabs_mult, (Rabs_pos_eq (weight w k)) by (apply Rlt_le, W3; exact Hk). reflexivity. }
    assert (HV : forall j, (j < dims o)%nat -> Rabs (yv j - Y j) <= 2 * INR mu * uu * S j + 4 * INR mu * eta) by (intros j Hj; apply (Hy j (yv j) Hj); apply (K j Hj)).
    pose proof (sqrt_pos (cs * (2 - cs) * M)) as PG.
    pose proof (row_err (dims o) g _ (INR mu) b yv Y S PG Eg Bm Bd HY HV) as RE. rewrite <- Ers in RE. rewrite <- Et in RE.
    unfold new_conj, conj_tolerance. cbv zeta. fold S. change (Sig (dims o) (fun j => b j * Sig mu (fun k => weight w k * xx k j))) with (Sig (dims o) (fun j => b j * Y j)).
    change (Sig (dims o) (fun j => Rabs (b j) * Sig mu (fun k => weight w k * Rabs (xx k j)))) with (Sig (dims o) (fun j => Rabs (b j) * S j)). change (Sig (dims o) (fun j => 1 + Sig mu (fun k => weight w k * Rabs (xx k j)))) with (Sig (dims o) (fun j => 1 + S j)).
    set (G := sqrt (cs * (2 - cs) * M)) in *. change (bpow radix2 (-1074)) with eta. replace ((3 * INR mu + 2 * INR (dims o) + 9) / 2 ^ 53) with ((3 * INR mu + 2 * INR (dims o) + 9) * uu) by field.
    assert (UT : Rabs (G * Sig (dims o) (fun j => b j * Y j)) <= G * Sig (dims o) (fun j => Rabs (b j) * S j)).
    { rewrite Rabs_mult, (Rabs_pos_eq G) by exact PG. apply Rmult_le_compat_l; [exact PG|]. apply Rle_trans with (1 := Sig_abs _ _). apply Sig_le. intros j Hj. rewrite Rabs_mult. apply Rmult_le_compat_l; [apply Rabs_pos|apply HY; exact Hj]. }
    assert (PS : forall j, (j < dims o)%nat -> 0 <= S j) by (intros j Hj; apply Rle_trans with (2 := HY j Hj); apply Rabs_pos).
    assert (PZ : 0 <= Sig (dims o) (fun j => 1 + S j)) by (apply Sig_nonneg; intros j Hj; specialize (PS j Hj); lra).
    assert (PQ : 0 <= INR mu * (G * Sig (dims o) (fun j => Rabs (b j)))) by (apply Rmult_le_pos; [apply Bm|]; apply Rmult_le_pos; [exact PG|]; apply Sig_nonneg; intros; apply Rabs_pos).
    pose proof eta_tiny as Ee. pose proof (pos_INR (dims o)) as Pn.
    pose proof (conj_err cs p t _ _ _ ltac:(lra) (is_format _ _ Ic) (is_format _ _ (eq_ind_r (fun z => is z t) It (eq_refl _))) UT (Rle_trans _ _ _ (Rabs_pos _) RE) RE) as CE.
    rewrite Eat, Ea, Ex. apply Rle_trans with (1 := CE).
    assert (PA : 0 <= (1 - cs) * Rabs p) by (apply Rmult_le_pos; [lra|apply Rabs_pos]).
    set (A := (1 - cs) * Rabs p) in *. set (P := G * Sig (dims o) (fun j => Rabs (b j) * S j)) in *. set (QQ := INR mu * (G * Sig (dims o) (fun j => Rabs (b j)))) in *. set (ZZ := Sig (dims o) (fun j => 1 + S j)) in *. set (m := INR mu) in *. set (n := INR (dims o)) in *.
    assert (PP : 0 <= P) by (apply Rle_trans with (2 := UT); apply Rabs_pos).
    clearbody A P QQ ZZ m n. set (e := eta) in *. clearbody e. clear - PA PP PQ PZ Ee Pn Bm.
    assert (H1 : 0 <= m * uu * P) by (apply Rmult_le_pos; [lra|exact PP]). assert (H2 : 0 <= n * uu * P) by (apply Rmult_le_pos; [lra|exact PP]). assert (H3 : 0 <= m * uu * A) by (apply Rmult_le_pos; [lra|exact PA]). assert (H4 : 0 <= n * uu * A) by (apply Rmult_le_pos; [lra|exact PA]).
    assert (H5 : 0 <= QQ * e) by (apply Rmult_le_pos; lra). assert (H6 : 0 <= ZZ * e) by (apply Rmult_le_pos; lra).
    replace ((202 / 100 * m + 101 / 100 * n + 712 / 100) * uu * P + (43 / 10 * QQ + 103 / 100 * ZZ) * e) with (202 / 100 * (m * uu * P) + 101 / 100 * (n * uu * P) + 712 / 100 * uu * P + 43 / 10 * (QQ * e) + 103 / 100 * (ZZ * e)) by ring.
    replace ((3 * m + 2 * n + 9) * uu * (A + P) + (5 * QQ + 2 * ZZ + 2) * e) with (3 * (m * uu * A) + 2 * (n * uu * A) + 9 * uu * A + 3 * (m * uu * P) + 2 * (n * uu * P) + 9 * uu * P + 5 * (QQ * e) + 2 * (ZZ * e) + 2 * e) by ring.
    set (a1 := m * uu * P) in *. set (a2 := n * uu * P) in *. set (a3 := m * uu * A) in *. set (a4 := n * uu * A) in *. set (a5 := QQ * e) in *. set (a6 := ZZ * e) in *. clearbody a1 a2 a3 a4 a5 a6. lra.
  Qed.

  (* The length of the path as the step size sees it (C84): if it is a number then so are the components, and it is within
     length_tolerance of their Euclidean length. *)
  Theorem C85_length : forall o f c l, reaches ev' o (f, []) c -> dims_fit o -> f2x (LinAlg.magnitude (conj_path c)) = XFin l ->
    (forall i, (i < dims o)%nat -> fin_comp (conj_path c) i) /\
    Rabs (l - euclid (dims o) (comp (conj_path c))) <= length_tolerance (dims o) (comp (conj_path c)).
  Proof.
    intros o f c l Hr Hdf Hl. pose proof (conj_length _ _ _ Hr) as Lp. set (v := conj_path c) in *. clearbody v.
    unfold LinAlg.magnitude in Hl. destruct (sqrt_fin _ _ Hl) as [q [Iq [Hq ->]]]. unfold norm2, nsum in Iq.
    destruct (fold_back _ _ _ Iq) as [s0 [rs [I0 [Irs Eq]]]]. assert (s0 = 0) by (eapply is_fun; [exact I0|exact is0]). subst s0.
    assert (K : forall i, (i < dims o)%nat -> fin_comp v i /\ nth i rs 0 = rnd64 (comp v i * comp v i)).
    { intros i Hi. pose proof (Forall2_nth _ _ i Irs ltac:(rewrite map_length; lia)) as J. rewrite (nth_indep _ n0 ((fun x : f64 => nmul x x) n0)) in J by (rewrite map_length; lia). rewrite (map_nth (fun x : f64 => nmul x x)) in J.
      destruct (mul_fin _ _ _ J) as [a [b [Ia [Ib Ej]]]]. assert (b = a) by (eapply is_fun; eassumption). subst b. unfold fin_comp, comp. destruct (is_B2R _ _ Ia) as [Fa ->]. split; [exact Fa|exact Ej]. }
    split; [intros i Hi; apply (K i Hi)|].
    assert (Ers : rs = map (fun i => rnd64 (comp v i * comp v i)) (seq 0 (dims o))) by (apply list_seq; [rewrite <- (Forall2_len _ _ _ Irs), map_length; exact Lp|intros j Hj; apply (K j Hj)]).
    rewrite Ers in Eq. pose proof (length_err (dims o) (comp v) (dims_bound o Hdf)) as H. cbv zeta in H. rewrite <- Eq in H. specialize (H Hq). apply Rle_trans with (1 := H). unfold length_tolerance, euclid.
    apply Rplus_le_compat_r. apply Rmult_le_compat_r; [apply sqrt_pos|]. pose proof (pos_INR (dims o)). lra.
  Qed.

  (* The path starts at zero. *)
  Theorem C85_start : forall o (f : F) (c : cmaes f64 F), built o f c -> length (conj_path c) = dims o /\ forall i, fin_comp (conj_path c) i /\ comp (conj_path c) i = 0.
  Proof.
    intros o f c [rs [now Hb]]. apply cmaes_new_inv in Hb. destruct Hb as [_ [_ [_ [Hb _]]]]. unfold conj_path. rewrite Hb. cbn [state_new st_path_sigma]. unfold fin_comp, comp, dims.
    split; [apply repeat_length|]. intros i. unfold vzeros, vec. assert (Q : nth i (repeat (n0 : f64) (length (o_initial_mean o))) n0 = n0) by (generalize (length (o_initial_mean o)); intros k; revert i; induction k as [|k IH]; intros [|i]; cbn [repeat nth]; auto). rewrite Q. split; reflexivity.
  Qed.
End FloatConj.
Print Assumptions C85_path.
Print Assumptions C85_length.
Print Assumptions C85_start.

(* A session after a first call of next: the path has moved, and the next call gives finite components and a finite length. *)
Example C85_case : accurate_ln (L := rounded_libm) /\ sizes_fit c82_options /\ dims_fit c82_options /\
  exists (c a : cmaes (E := toy_env) f64 (unit * list (Spec.entry f64))) r,
    reaches (LT := rounded_libm) (log_ev toy_sphere) c82_options (tt, []) c /\ (0 < st_generation (c_state c))%N /\ comp (conj_path c) 0 <> 0 /\
    next (LT := rounded_libm) (log_ev toy_sphere) false (c82_tick (RNode 1 RLeaf RLeaf)) c = Ret (r, a) /\ reports InvalidFunctionValue r = false /\
    (forall i, (i < 2)%nat -> fin_comp (conj_path a) i) /\ exists l, f2x (LinAlg.magnitude (conj_path a)) = XFin l.
Proof.
  split; [exact rounded_accurate|]. split; [split; [vm_compute; reflexivity|vm_compute; discriminate]|]. split; [vm_compute; discriminate|].
  destruct (holds_ex (after (LT := rounded_libm) (E := toy_env) (log_ev toy_sphere) (tt, []) c82_options [ONext false (c82_tick RLeaf)])
    (fun c => (0 <? st_generation (c_state c))%N && negb (neqb (nth 0 (conj_path c) n0) n0) && is_finite (nth 0 (conj_path c) n0) &&
      holds (next (LT := rounded_libm) (E := toy_env) (log_ev toy_sphere) false (c82_tick (RNode 1 RLeaf RLeaf)) c) (fun rc => negb (reports InvalidFunctionValue (fst rc)) && (is_finite (nth 0 (conj_path (snd rc)) n0) && is_finite (nth 1 (conj_path (snd rc)) n0)) && is_finite (LinAlg.magnitude (conj_path (snd rc)))))) as [c [H1 H2]].
  { vm_compute. reflexivity. }
  apply after_reaches in H1. destruct H1 as [c0 [H0 H1]]. apply andb_prop in H2. destruct H2 as [H2 H3]. apply andb_prop in H2. destruct H2 as [H2 H4]. apply andb_prop in H2. destruct H2 as [H2 H5].
  apply holds_ex in H3. destruct H3 as [[r a] [H3 K]]. cbn [fst snd] in K. apply andb_prop in K. destruct K as [K K3]. apply andb_prop in K. destruct K as [K1 K2]. apply andb_prop in K2. destruct K2 as [K2 K4].
  exists c, a, r. split; [exists c0; eexists; split; [exact H0|exact H1]|]. split; [apply N.ltb_lt; exact H2|]. split.
  { apply negb_true_iff in H5. unfold comp. revert H4 H5. generalize (nth 0 (conj_path c) n0 : f64). intros x Fx Nx Zx. destruct x as [s|s| |s m e Hb]; [destruct s; discriminate Nx|discriminate Fx|discriminate Fx|].
    apply (eq_0_F2R radix2) in Zx. destruct s; discriminate Zx. }
  split; [exact H3|]. split; [apply negb_true_iff; exact K1|]. split; [intros i Hi; destruct i as [|[|i]]; [exact K2|exact K4|lia]|].
  eexists. apply f2x_finite. exact K3.
Qed.
