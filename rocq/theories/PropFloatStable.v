(* C91: when the covariance matrix computed in binary64 stays finite. *)
From Coq Require Import List NArith ZArith Bool Reals Lra Lia Arith Psatz Permutation Sorted.
From Flocq Require Import Core.
From Flocq Require Import IEEE754.BinarySingleNaN.
Require Import Verif.Lib Verif.Base Verif.Num Verif.F64 Verif.XReal Verif.LinAlg Verif.Mode Verif.Weights Verif.Options
  Verif.Params Verif.Env Verif.State Verif.Sampling Verif.History Verif.Termination Verif.Plot Verif.Cmaes
  Verif.Spec Verif.Order Verif.Sort Verif.F64Lemmas Verif.BuildLemmas Verif.TraceLemmas Verif.CeilLemmas Verif.XRound Verif.XLe
  Verif.NextInv Verif.LogLemmas Verif.SamplingLemmas Verif.PanicLemmas Verif.NextSafe Verif.PlotLemmas Verif.RSum
  Verif.F64Acc Verif.F64Weights Verif.F64Rates Verif.F64Final Verif.F64Raw Verif.Toy Verif.ToyLemmas Verif.StateLemmas
  Verif.F64Rel Verif.F64Mean Verif.F64Cov Verif.F64CovErr Verif.F64Path Verif.F64Conj Verif.F64Axes Verif.TermLemmas Verif.PropRun Verif.PropPlot Verif.PropPanic Verif.PropSampling
  Verif.PropFloatParams Verif.PropFloatMean Verif.PropFloatCov Verif.PropFloatCovErr Verif.PropFloatConj Verif.PropFloatAxes Verif.PropFloatSample Verif.PropFloatFinite.
Import ListNotations.
Open Scope R_scope.

(* ---- sums in any order: at most k times 2^e, without growth by rounding ---- *)
Definition within (k : nat) (e : Z) (x : f64) : Prop := is_finite x = true /\ Rabs (B2R x) <= INR k * bpow radix2 e.
Lemma format_multiple : forall k e, (Z.of_nat k <= 9007199254740992)%Z -> (-1074 <= e)%Z -> generic_format radix2 fexp64 (INR k * bpow radix2 e).
Proof.
  intros k e Hk He. rewrite INR_IZR_INZ. change (IZR (Z.of_nat k) * bpow radix2 e) with (F2R (Float radix2 (Z.of_nat k) e)).
  destruct (Z.eq_dec (Z.of_nat k) 9007199254740992) as [E|E].
  - rewrite E. change 9007199254740992%Z with (Zpower radix2 53). unfold F2R. cbn [Fnum Fexp]. rewrite IZR_Zpower by lia. rewrite <- bpow_plus. apply generic_format_bpow. unfold SpecFloat.fexp, SpecFloat.emin. lia.
  - apply generic_format_FLT. exists (Float radix2 (Z.of_nat k) e); [reflexivity| |]; cbn [Fnum Fexp].
    + rewrite Z.abs_eq by lia. change (Zpower radix2 53) with 9007199254740992%Z. lia.
    + unfold SpecFloat.emin. lia.
Qed.
Lemma within_add : forall a b e x y, (Z.of_nat (a + b) <= 1099511627777)%Z -> (0 <= e <= 950)%Z -> within a e x -> within b e y -> within (a + b) e (nadd x y).
Proof.
  intros a b e x y Hk He [Fx Bx] [Fy By]. pose proof (bpow_gt_0 radix2 e) as Pe.
  assert (P : Rabs (B2R x + B2R y) <= INR (a + b) * bpow radix2 e) by (rewrite plus_INR, Rmult_plus_distr_r; apply Rle_trans with (1 := Rabs_triang _ _); apply Rplus_le_compat; assumption).
  assert (Q : Rabs (B2R x + B2R y) <= bpow radix2 1000). { apply Rle_trans with (1 := P). apply Rle_trans with (bpow radix2 41 * bpow radix2 e); [apply Rmult_le_compat_r; [lra|]; rewrite INR_IZR_INZ; change (bpow radix2 41) with 2199023255552; apply IZR_le; lia|]. rewrite <- bpow_plus. apply bpow_le. lia. }
  pose proof (is_add x y _ _ (f2x_finite _ Fx) (f2x_finite _ Fy) Q) as I. destruct (is_B2R _ _ I) as [I1 I2]. split; [exact I1|]. rewrite I2. apply abs_round_le_generic; [apply valid_fexp64|apply valid_rnd_N|apply format_multiple; lia|exact P].
Qed.
Lemma within_one : forall e x, moderate e x -> within 1 e x.
Proof. intros e x [H1 H2]. split; [exact H1|]. cbn [INR]. rewrite Rmult_1_l. exact H2. Qed.
Lemma within_zero : forall k e, within k e (n0 : f64).
Proof. intros k e. destruct (is_B2R _ _ is0) as [Z1 Z2]. split; [exact Z1|]. rewrite Z2, Rabs_R0. apply Rmult_le_pos; [apply pos_INR|left; apply bpow_gt_0]. Qed.
Lemma within_moderate : forall k e x, (Z.of_nat k <= 1099511627777)%Z -> within k e x -> moderate (e + 41) x.
Proof.
  intros k e x Hk [H1 H2]. split; [exact H1|]. apply Rle_trans with (1 := H2). rewrite Z.add_comm, bpow_plus. apply Rmult_le_compat_r; [left; apply bpow_gt_0|]. rewrite INR_IZR_INZ. change (bpow radix2 41) with 2199023255552. apply IZR_le. lia.
Qed.

Definition all_within (k : nat) (e : Z) (m : mat f64) : Prop := forall i j, within k e (mnth m i j).
Lemma madd_within : forall a b e (x y m : mat f64), (Z.of_nat (a + b) <= 1099511627777)%Z -> (0 <= e <= 950)%Z -> madd_c x y = Ret m -> all_within a e x -> all_within b e y -> all_within (a + b) e m.
Proof.
  intros a b e x y m Hk He H Hx Hy i j. rewrite (madd_c_inv _ _ _ H). destruct (mnth_madd x y i j) as [K|[K _]]; rewrite K; [apply within_add; auto|apply within_zero].
Qed.
Lemma msum_within : forall e (He : (0 <= e <= 950)%Z) l k (acc m : mat f64), (Z.of_nat (k + length l) <= 1099511627777)%Z -> msum_from acc l = Ret m -> all_within k e acc -> Forall (all_within 1 e) l -> all_within (k + length l) e m.
Proof.
  intros e He. induction l as [|x l IH]; intros k acc m Hk H Ha Hl; cbn [msum_from length] in *; [apply Ret_inj in H; rewrite <- H, Nat.add_0_r; exact Ha|].
  oinv H. inversion Hl; subst. replace (k + S (length l))%nat with (k + 1 + length l)%nat by lia. eapply IH; [lia|exact H| |assumption]. eapply madd_within; [lia|exact He|eassumption|exact Ha|assumption].
Qed.
Lemma mzeros_within : forall n e, all_within 0 e (mzeros n).
Proof.
  intros n e i j. assert (Z : mnth (mzeros n) i j = (n0 : f64)); [|rewrite Z; apply within_zero]. unfold mzeros. destruct (Nat.lt_ge_cases i n) as [Hi|Hi]; [destruct (Nat.lt_ge_cases j n) as [Hj|Hj]|].
  - rewrite mnth_mbuild by assumption. reflexivity.
  - unfold mnth, mbuild. apply nth_overflow. rewrite (nth_indep _ [] ((fun i => map (fun j => n0) (seq 0 n)) 0%nat)) by (rewrite map_length, seq_length; exact Hi). rewrite (map_nth (fun i => map (fun j => n0) (seq 0 n)) _ 0%nat), map_length, seq_length. exact Hj.
  - unfold mnth, mbuild. rewrite (nth_overflow (map _ _)) by (rewrite map_length, seq_length; exact Hi). destruct j; reflexivity.
Qed.
Lemma tree_within : forall e (He : (0 <= e <= 950)%Z) dim t (l : list (mat f64)) m, (Z.of_nat (length l) <= 1099511627777)%Z -> rank_mu_update_parallel dim t l = Ret m -> Forall (all_within 1 e) l -> all_within (length l) e m.
Proof.
  intros e He dim t. induction t as [|k a IHa b IHb]; intros l m Hk H Hl; cbn [rank_mu_update_parallel] in H.
  - apply (msum_within e He l 0 (mzeros dim) m Hk H (mzeros_within dim e) Hl).
  - oinv H. oinv H. assert (El : (length (firstn k l) + length (skipn k l))%nat = length l) by (rewrite <- app_length, firstn_skipn; reflexivity). rewrite <- El in Hk |- *. eapply madd_within; [exact Hk|exact He|exact H| |].
    + eapply IHa; [lia|eassumption|]. apply Forall_forall. intros x Hx. rewrite Forall_forall in Hl. apply Hl. rewrite <- (firstn_skipn k l). apply in_or_app. left. exact Hx.
    + eapply IHb; [lia|eassumption|]. apply Forall_forall. intros x Hx. rewrite Forall_forall in Hl. apply Hl. rewrite <- (firstn_skipn k l). apply in_or_app. right. exact Hx.
Qed.
Definition plain_weight (w : f64) : Prop := nltb w n0 = false /\ moderate 1 w.
Lemma nth_anywhere : forall e n (v : vec f64), length v = n -> (forall i, (i < n)%nat -> moderate e (nth i v n0)) -> forall i, moderate e (nth i v n0).
Proof. intros e n v L H i. destruct (Nat.lt_ge_cases i n) as [Hi|Hi]; [apply H; exact Hi|]. rewrite nth_overflow by (rewrite L; exact Hi). apply moderate_zero. Qed.
Lemma outer_moderate : forall a b e (s : f64) (x y : vec f64), (0 <= a)%Z -> (0 <= e)%Z -> (0 <= b)%Z -> (a + e + b <= 1000)%Z -> moderate a s -> (forall i, moderate e (nth i x n0)) -> (forall i, moderate b (nth i y n0)) -> forall i j, moderate (a + e + b) (mnth (outer (vscale s x) y) i j).
Proof.
  intros a b e s x y Ha He Hb H Hs Hx Hy i j. destruct (mnth_outer (vscale s x) y i j) as [K|K]; rewrite K; [|apply moderate_zero]. apply moderate_mul; [lia| |apply Hy].
  destruct (Nat.lt_ge_cases i (length x)) as [Hi|Hi]; [rewrite nth_vscale by exact Hi; apply moderate_mul; [lia|exact Hs|apply Hx]|]. rewrite nth_overflow by (unfold vscale; rewrite map_length; exact Hi). apply moderate_zero.
Qed.
Section Update.
  Context {L : Libm f64} {E : Env f64}.
  Lemma contributions_within : forall (p : params f64) si inds l e, (0 <= e <= 400)%Z -> Forall plain_weight (p_weights p) -> (forall q, In q inds -> forall j, moderate e (nth j (pt_step q) n0)) -> contributions p si inds = Ret l ->
    Forall (all_within 1 (1 + e + e)) l /\ length l = length (p_weights p).
  Proof.
    intros p si inds l e He Hw Hq H. split.
    - revert H. unfold contributions. set (k := combine _ _). assert (Hk : Forall (fun iw => plain_weight (snd iw)) k).
      { apply Forall_forall. intros [i w] Hx. unfold k in Hx. apply in_combine_r in Hx. rewrite Forall_forall in Hw. apply Hw. exact Hx. }
      clearbody k. revert l. induction Hk as [|[i w] k Hx Hk IH]; intros l H; cbn [omap] in H; [apply Ret_inj in H; rewrite <- H; constructor|].
      oinv H. oinv H. apply Ret_inj in H. rewrite <- H. constructor; [|apply IH; assumption]. cbn [fst snd] in *.
      unfold map_weights in *. rewrite (proj1 Hx) in *. cbn [obind] in *. match goal with X : _ = Ret a |- _ => oinv X; apply Ret_inj in X; rewrite <- X end.
      assert (Hin : In a1 inds). { match goal with X : index inds _ = Ret a1 |- _ => unfold index in X; destruct (nth_error inds i) as [q|] eqn:En; [|discriminate X]; apply Ret_inj in X; subst q; exact (nth_error_In _ _ En) end. }
      intros i' j'. apply within_one, outer_moderate; try lia; [apply Hx|apply Hq; exact Hin|apply Hq; exact Hin].
    - unfold contributions in H. apply omap_Ret in H. rewrite <- (Forall2_len _ _ _ H), combine_length, seq_length. apply Nat.min_id.
  Qed.
  Lemma rank_mu_moderate : forall (p : params f64) tree s inds m e, (0 <= e <= 400)%Z -> Forall plain_weight (p_weights p) -> (Z.of_nat (length (p_weights p)) <= 1099511627776)%Z -> (forall q, In q inds -> forall j, moderate e (nth j (pt_step q) n0)) ->
    calc_rank_mu p tree s inds = Ret m -> forall i j, moderate (1 + e + e + 41) (mnth m i j).
  Proof.
    intros p tree s inds m e He Hw Hl Hq H i j. unfold calc_rank_mu in H. oinv H. match goal with X : contributions _ _ _ = _ |- _ => apply (contributions_within _ _ _ _ e He Hw Hq) in X; destruct X as [C1 C2] end.
    apply (within_moderate (length a)); [rewrite C2; lia|]. destruct (p_parallel_update p); [eapply tree_within; [lia|rewrite C2; lia|exact H|exact C1]|].
    unfold rank_mu_update, msum_c in H. destruct a as [|x l]; [discriminate H|]. inversion C1; subst. change (length (x :: l)) with (1 + length l)%nat. cbn [length] in C2. eapply msum_within; [lia|lia|exact H|assumption|assumption].
  Qed.
End Update.

(* ---- the new path and the new matrix ---- *)
Lemma moderate_sub : forall a b x y, (0 <= a <= 998)%Z -> (b <= a)%Z -> moderate a x -> moderate b y -> moderate (a + 1) (nsub x y).
Proof.
  intros a b x y H Hb Hx Hy. destruct (moderate_is _ _ Hx) as [Ix Bx]. destruct (moderate_is _ _ (moderate_le b a y Hb Hy)) as [Iy By].
  assert (P : Rabs (B2R x - B2R y) <= bpow radix2 (a + 1)). { unfold Rminus. apply Rle_trans with (1 := Rabs_triang _ _). rewrite Rabs_Ropp, bpow_plus_1. change (IZR radix2) with 2. lra. }
  eapply moderate_intro; [apply is_sub; [exact Ix|exact Iy|apply Rle_trans with (1 := P); apply bpow_le; lia]|]. apply rnd_abs; [lia|exact P].
Qed.
Lemma rate_moderate : forall (x : f64) r, is x r -> 0 <= r <= 1 -> moderate 0 x.
Proof. intros x r I H. apply (moderate_intro 0 _ r I). rewrite Rabs_pos_eq by lra. change (bpow radix2 0) with 1. lra. Qed.
Lemma one_moderate : moderate 0 (n1 : f64).
Proof. apply (rate_moderate _ 1 is1). lra. Qed.
Lemma two_moderate : moderate 1 (n2 : f64).
Proof. apply (moderate_intro 1 _ 2 is2). rewrite Rabs_pos_eq by lra. change (bpow radix2 1) with 2. lra. Qed.
Lemma rnd_nonneg : forall x, 0 <= x -> 0 <= rnd64 x.
Proof. intros x H. rewrite <- (round_0 radix2 fexp64 ZnearestE). apply round_le; [apply valid_fexp64|apply valid_rnd_N|exact H]. Qed.
Lemma coefficient_moderate : forall (cc mu_eff hs : f64) rc rm, is cc rc -> is mu_eff rm -> 0 < rc <= 1 -> 0 <= rm <= bpow radix2 41 -> moderate 0 hs -> moderate 43 (nmul hs (nsqrt (nmul (nmul cc (nsub n2 cc)) mu_eff))).
Proof.
  intros cc mu_eff hs rc rm Ic Im Hc Hm Hh. apply (moderate_mul 0 43); [lia|exact Hh|].
  assert (M1 : moderate 2 (nsub n2 cc)) by (apply (moderate_sub 1 0); [lia|lia|exact two_moderate|apply (rate_moderate _ rc Ic); lra]).
  assert (M2 : moderate 41 mu_eff) by (apply (moderate_intro 41 _ rm Im); rewrite Rabs_pos_eq by lra; lra).
  assert (M3 : moderate (0 + 2 + 41) (nmul (nmul cc (nsub n2 cc)) mu_eff)) by (apply moderate_mul; [lia|apply moderate_mul; [lia|apply (rate_moderate _ rc Ic); lra|exact M1]|exact M2]).
  assert (B0 : 1 <= bpow radix2 1000) by (apply (bpow_le radix2 0 1000); lia).
  assert (I1 : is (nsub n2 cc) (rnd64 (2 - rc))) by (apply is_sub; [exact is2|exact Ic|rewrite Rabs_pos_eq by lra; apply Rle_trans with (bpow radix2 1); [change (bpow radix2 1) with 2; lra|apply bpow_le; lia]]).
  assert (P1 : 0 <= B2R (nmul (nmul cc (nsub n2 cc)) mu_eff)).
  { pose proof (rnd_nonneg (2 - rc) ltac:(lra)) as Q1. destruct (is_B2R _ _ I1) as [_ E1]. destruct (is_B2R _ _ Ic) as [_ Ec]. destruct (is_B2R _ _ Im) as [_ Em].
    assert (A1 : moderate 2 (nmul cc (nsub n2 cc))) by (apply (moderate_mul 0 2); [lia|apply (rate_moderate _ rc Ic); lra|exact M1]).
    assert (I2 : is (nmul cc (nsub n2 cc)) (rnd64 (rc * rnd64 (2 - rc)))). { apply is_mul; [exact Ic|exact I1|]. rewrite <- E1, <- Ec, Rabs_mult. destruct M1 as [_ M1]. destruct (rate_moderate _ rc Ic ltac:(lra)) as [_ M0]. apply Rle_trans with (bpow radix2 0 * bpow radix2 2); [apply Rmult_le_compat; try assumption; apply Rabs_pos|]. rewrite <- bpow_plus. apply bpow_le. lia. }
    pose proof (rnd_nonneg (rc * rnd64 (2 - rc)) ltac:(apply Rmult_le_pos; lra)) as Q2. destruct (is_B2R _ _ I2) as [_ E2].
    assert (I3 : is (nmul (nmul cc (nsub n2 cc)) mu_eff) (rnd64 (rnd64 (rc * rnd64 (2 - rc)) * rm))). { apply is_mul; [exact I2|exact Im|]. rewrite <- E2, <- Em, Rabs_mult. destruct A1 as [_ A1]. destruct M2 as [_ M2]. apply Rle_trans with (bpow radix2 2 * bpow radix2 41); [apply Rmult_le_compat; try assumption; apply Rabs_pos|]. rewrite <- bpow_plus. apply bpow_le. lia. }
    destruct (is_B2R _ _ I3) as [_ E3]. rewrite E3. apply rnd_nonneg, Rmult_le_pos; lra. }
  destruct (moderate_is _ _ M3) as [I3 B3]. eapply moderate_intro; [apply is_sqrt; [exact I3|exact P1]|]. apply rnd_abs; [lia|]. rewrite Rabs_pos_eq by apply sqrt_pos. rewrite Rabs_pos_eq in B3 by exact P1. change (0 + 2 + 41)%Z with 43%Z in B3.
  rewrite <- (sqrt_square (bpow radix2 43)) by (left; apply bpow_gt_0). apply sqrt_le_1; [exact P1|apply Rmult_le_pos; left; apply bpow_gt_0|]. apply Rle_trans with (1 := B3). rewrite <- bpow_plus. apply bpow_le. lia.
Qed.
Section Matrix.
  Context {L : Libm f64} {E : Env f64}.
  Lemma factor_moderate : forall (p : params f64) hs c1 cmu cc, is (p_c1 p) c1 -> is (p_cmu p) cmu -> is (p_cc p) cc -> 0 <= c1 <= 1 -> 0 <= cmu <= 1 -> 0 <= cc <= 1 -> moderate 0 hs -> Forall plain_weight (p_weights p) -> (Z.of_nat (length (p_weights p)) <= 1099511627776)%Z -> moderate 43 (cov_factor p hs).
  Proof.
    intros p hs c1 cmu cc I1 Im Ic H1 Hm Hc Hh Hw Hl. unfold cov_factor. pose proof (rate_moderate _ _ I1 H1) as M1. pose proof (rate_moderate _ _ Im Hm) as Mm. pose proof (rate_moderate _ _ Ic Hc) as Mc.
    assert (D : moderate (1 + 0 + 2) (nmul (nmul (nsub n1 hs) (p_cc p)) (nsub n2 (p_cc p)))).
    { apply moderate_mul; [lia|apply moderate_mul; [lia|apply (moderate_sub 0 0); [lia|lia|exact one_moderate|exact Hh]|exact Mc]|apply (moderate_sub 1 0); [lia|lia|exact two_moderate|exact Mc]]. }
    assert (Sw : moderate (1 + 41) (nsum (p_weights p))). { unfold nsum. apply moderate_sum; [lia| | |apply moderate_zero]; [rewrite INR_IZR_INZ; apply IZR_le; exact Hl|]. apply Forall_impl with (2 := Hw). intros w X. apply X. }
    apply (moderate_sub 42 (0 + 42)); [lia|lia| |apply moderate_mul; [lia|exact Mm|exact Sw]]. apply (moderate_le 5); [lia|]. apply (moderate_sub 4 0); [lia|lia| |exact M1]. apply (moderate_add 3 (0 + 3)); [lia|lia|apply (moderate_le 0); [lia|exact one_moderate]|apply moderate_mul; [lia|exact M1|exact D]].
  Qed.
  Lemma madd_moderate : forall a b (x y m : mat f64), (0 <= a <= 998)%Z -> (b <= a)%Z -> madd_c x y = Ret m -> (forall i j, moderate a (mnth x i j)) -> (forall i j, moderate b (mnth y i j)) -> forall i j, moderate (a + 1) (mnth m i j).
  Proof. intros a b x y m Ha Hb H Hx Hy i j. rewrite (madd_c_inv _ _ _ H). destruct (mnth_madd x y i j) as [K|[K _]]; rewrite K; [apply (moderate_add a b); auto|apply moderate_zero]. Qed.
  Lemma mscale_moderate : forall a b s (m : mat f64), (0 <= a + b <= 1000)%Z -> moderate a s -> (forall i j, moderate b (mnth m i j)) -> forall i j, moderate (a + b) (mnth (mscale s m) i j).
  Proof. intros a b s m H Hs Hm i j. unfold mscale. destruct (mnth_mmap (nmul s) m i j) as [K|[K _]]; rewrite K; [apply moderate_mul; auto|apply moderate_zero]. Qed.
  Lemma fill_lower_moderate : forall e (m : mat f64), (forall i j, moderate e (mnth m i j)) -> forall i j, (i < length m)%nat -> (j < length m)%nat -> moderate e (mnth (fill_lower m) i j).
  Proof. intros e m H i j Hi Hj. unfold fill_lower. rewrite mnth_mbuild by assumption. destruct (Nat.ltb _ _); apply H. Qed.
  Lemma shape_outside : forall n (m : mat f64) e, shape n n m -> (forall i j, (i < n)%nat -> (j < n)%nat -> moderate e (mnth m i j)) -> forall i j, moderate e (mnth m i j).
  Proof.
    intros n m e S H i j. destruct (Nat.lt_ge_cases i n) as [Hi|Hi]; [destruct (Nat.lt_ge_cases j n) as [Hj|Hj]; [apply H; assumption|]|]; unfold mnth.
    - rewrite nth_overflow by (rewrite (shape_row _ _ _ S Hi); exact Hj). apply moderate_zero.
    - destruct S as [S _]. rewrite (nth_overflow m) by (unfold mat, vec in *; lia). destruct j; apply moderate_zero.
  Qed.
End Matrix.

Section FloatStable.
  Context {L : Libm f64} {E : Env f64} {F : Type} (ev : F -> vec f64 -> outcome (f64 * F)).
  Let ev' := log_ev ev.
  Notation session := (cmaes f64 (F * list (Spec.entry f64))).
  Lemma plain_weights : accurate_ln -> forall o f (c : session), reaches ev' o (f, []) c -> sizes_fit o -> o_weights o <> WNegative ->
    Forall plain_weight (p_weights (c_params c)) /\ length (p_weights (c_params c)) = N.to_nat (o_population_size o / 2).
  Proof.
    intros Hln o f c Hr Hsz Hw. destruct (C75_weights ev' Hln o _ c Hr Hsz) as [W1 [W2 [W3 _]]]. pose proof (weights_moderate ev Hln o f c Hr Hsz) as Wm. set (w := p_weights (c_params c)) in *. set (mu := N.to_nat (o_population_size o / 2)) in *.
    assert (Lw : length w = mu) by (rewrite W1; destruct (o_weights o); congruence). split; [|exact Lw].
    apply Forall_forall. intros x Hx. destruct (In_nth _ _ n0 Hx) as [k [Hk <-]]. assert (Hk' : (k < mu)%nat) by (rewrite <- Lw; exact Hk). pose proof (Wm k Hk') as M. split; [|exact M].
    destruct (moderate_is _ _ M) as [I _]. specialize (W3 k Hk'). unfold weight in W3. rewrite f2x_ltb. rewrite I, is0. cbn. apply Rltb_false. left. exact W3.
  Qed.

  (* With weights that are not negative: as long as the entries of the covariance matrix of the last refresh, those of the present one and the coordinates of the
     evolution path are finite and far from overflow, a call of next leaves a covariance matrix and an evolution path of finite numbers. *)
  Theorem C91_finite_matrix : eigen_shape (T := f64) -> tame_generator -> accurate_ln -> forall eps o f seed h c, used ev o f seed h c -> dims_fit o -> sizes_fit o -> 0 <= eps <= 1 -> accurate_solver (dims o) eps -> o_weights o <> WNegative ->
    exists (b : session) ops, reaches ev' o (f, []) b /\ steps ev' b ops = Ret c /\
    function_evals b = last_refresh (o_population_size o) (evals_per_eigen_update (params_of_options o seed)) 0 0 h /\
    ((forall i j, (i < dims o)%nat -> (j < dims o)%nat -> moderate 200 (entry b i j)) ->
     (forall i j, (i < dims o)%nat -> (j < dims o)%nat -> moderate 900 (entry c i j)) ->
     (forall i, (i < dims o)%nat -> moderate 400 (nth i (path c) n0)) ->
     forall par tk r c', next ev' par tk c = Ret (r, c') ->
       (forall i j, (i < dims o)%nat -> (j < dims o)%nat -> is_finite (entry c' i j) = true) /\
       (forall i, (i < dims o)%nat -> fin_comp (path c') i)).
  Proof.
    intros He Ht Hln eps o f seed h c Hu Hdf Hsz Heps Hs Hnw. pose proof (used_reaches ev o f seed h c Hu) as Hr. destruct (root_kept ev He eps o f c Hr (proj1 Heps) Hs) as [b [ops [v [vals [D1 [D2 [D3 [X K]]]]]]]].
    exists b, ops. split; [exact D1|]. split; [exact D2|]. split; [rewrite D3; exact (used_last_refresh ev _ _ _ _ _ Hu)|]. intros Hb Hcov Hpath par tk r c' Hn.
    destruct (K (fun i j Hi Hj => proj1 (Hb i j Hi Hj))) as [K1 [K2 K3]]. pose proof (dims_bound o Hdf) as Dn. pose proof (bpow_gt_0 radix2 200) as P4.
    assert (Vp : forall k, (k < dims o)%nat -> 0 < comp vals k <= bpow radix2 (121 + 121)).
    { intros k Hk. split; [apply K2; exact Hk|]. apply Rle_trans with (2199023255552 * bpow radix2 200).
      - apply (values_bounded (dims o) v vals (fun i j => B2R (entry b i j)) (bpow radix2 200) eps K1 K2 Dn Heps (Rlt_le _ _ P4)); [intros i Hi; apply (Hb i i Hi Hi)| |exact Hk]. intros i Hi. apply (K3 (bpow radix2 200)); [intros i' j' Hi' Hj'; apply (Hb i' j' Hi' Hj')|exact Hi|exact Hi].
      - change 2199023255552 with (bpow radix2 41). rewrite <- bpow_plus. apply bpow_le. lia. }
    pose proof (reaches_wf He ev' o (f, []) c Hr) as W. pose proof (wf_st _ _ W) as Ws. pose proof (ws_cov _ _ Ws) as Sc. pose proof (ws_path_c _ _ Ws) as Lp. pose proof (wf_dim _ _ W) as Hn1.
    assert (Rx : refreshed_axes 121 o c v vals) by (split; [lia|split; [exact X|split; [exact K1|exact Vp]]]).
    pose proof (next_outcome ev' _ _ _ _ _ Hn) as [[_ [_ [_ H2]]]|[inds [ok [H1 [_ [_ [H4 _]]]]]]].
    { split; [intros i j Hi Hj; unfold entry; rewrite H2; apply (Hcov i j Hi Hj)|intros i Hi; unfold fin_comp, path; rewrite H2; apply (Hpath i Hi)]. }
    pose proof (inds_moderate ev He Ht 121 o f c v vals par tk inds _ Hr Hdf Rx H1) as Ps. change (121 + 191)%Z with 312%Z in Ps.
    apply state_update_inv in H4. destruct H4 as [yw [rm [cov U]]]. pose proof (yw_moderate ev Hln 312 o f c inds yw Hr Hsz ltac:(lia) Ps (up_yw _ _ _ _ _ _ _ _ _ _ U)) as Ym.
    destruct (C75_rates ev' Hln o _ c Hr Hsz) as [rmu [c1 [cmu [cc [cs [dm [R1 [R2 [R3 [R4 [_ [_ [B1 [B2 [B3 [B4 _]]]]]]]]]]]]]]]]. destruct (plain_weights Hln o f c Hr Hsz Hnw) as [Pw Lw].
    pose proof (half_bound o Hsz) as Bmu. set (mu := N.to_nat (o_population_size o / 2)) in *. rewrite plus_INR in Bmu. cbn [INR] in Bmu. pose proof (pos_INR mu) as Pmu.
    assert (Lz : (Z.of_nat (length (p_weights (c_params c))) <= 1099511627776)%Z) by (rewrite Lw; apply le_IZR; rewrite <- INR_IZR_INZ; lra).
    pose proof (up_pc _ _ _ _ _ _ _ _ _ _ U) as Hpc. pose proof (up_cov _ _ _ _ _ _ _ _ _ _ U) as Hcv. set (hs := calc_hs _ _ _) in Hpc, Hcv.
    assert (Hh : moderate 0 hs) by (destruct (hs_values (c_params c) (st_generation (c_state c)) (st_path_sigma (c_state c'))) as [Q|Q]; unfold hs; rewrite Q; [apply moderate_zero|exact one_moderate]). clearbody hs.
    assert (Lpc : length (st_path_c (c_state c')) = dims o /\ forall i, (i < dims o)%nat -> moderate 402 (nth i (st_path_c (c_state c')) n0)).
    { unfold calc_path_c in Hpc. assert (Ly : length yw = dims o). { pose proof Hpc as Q. unfold vadd_c in Q. apply check_Ret in Q. destruct Q as [Q _]. apply Nat.eqb_eq in Q. unfold vscale in Q. rewrite !map_length in Q. congruence. }
      assert (Lq : forall q, length (vscale q (st_path_c (c_state c))) = dims o) by (intros q; unfold vscale; rewrite map_length; exact Lp).
      split; [destruct (vadd_nth _ _ _ 0%nat Hpc) as [_ Q]; [rewrite Lq; exact Hn1|rewrite Q; apply Lq]|]. intros i Hi. destruct (vadd_nth _ _ _ i Hpc) as [Q _]; [rewrite Lq; exact Hi|]. rewrite Q, !vscale_nth by (unfold vec in *; lia).
      apply (moderate_add 401 (43 + 354)); [lia|lia|apply (moderate_mul 1 400); [lia|apply (moderate_sub 0 0); [lia|lia|exact one_moderate|apply (rate_moderate _ cc R4); lra]|apply Hpath; exact Hi]|].
      apply moderate_mul; [lia|apply (coefficient_moderate _ _ _ cc rmu R4 R1 B4); [|exact Hh]|apply Ym; exact Hi]. change (bpow radix2 41) with 2199023255552. lra. }
    destruct Lpc as [Lpc Mpc]. split; [|intros i Hi; apply (Mpc i Hi)].
    pose proof (set_cov_cov _ _ _ _ _ (up_set _ _ _ _ _ _ _ _ _ _ U)) as Ec. unfold calc_cov in Hcv. oinv Hcv. match goal with X : madd_c _ _ = Ret a |- _ => rename X into Ha end.
    pose proof (madd_c_shape _ _ _ _ Hn1 (shape_mscale _ _ _ _ Sc) Ha) as Sa. pose proof (madd_c_shape _ _ _ _ Hn1 Sa Hcv) as [Lc _].
    pose proof (nth_anywhere 402 _ _ Lpc Mpc) as Mpc'.
    assert (M1 : forall i j, moderate (943 + 1) (mnth a i j)).
    { apply (madd_moderate 943 (0 + 402 + 402) _ _ _ ltac:(lia) ltac:(lia) Ha).
      - apply (mscale_moderate 43 900); [lia|apply (factor_moderate _ _ c1 cmu cc R2 R3 R4); try assumption; lra|]. apply (shape_outside _ _ _ Sc). exact Hcov.
      - apply outer_moderate; try lia; [apply (rate_moderate _ c1 R2); lra|exact Mpc'|exact Mpc']. }
    assert (M2 : forall i j, moderate (944 + 1) (mnth cov i j)).
    { apply (madd_moderate 944 (0 + (1 + 312 + 312 + 41)) _ _ _ ltac:(lia) ltac:(lia) Hcv); [exact M1|]. apply mscale_moderate; [lia|apply (rate_moderate _ cmu R3); lra|].
      eapply (rank_mu_moderate (c_params c) _ (c_state c) inds rm 312); [lia|exact Pw|exact Lz| |exact (up_rank _ _ _ _ _ _ _ _ _ _ U)]. intros q Hq. destruct (Ps q Hq) as [Q1 Q2]. exact (nth_anywhere 312 _ _ Q1 Q2). }
    intros i j Hi Hj. change (entry c' i j) with (mnth (cm_cov (st_cov (c_state c'))) i j). rewrite Ec. apply (fill_lower_moderate (944 + 1) cov M2); unfold mat, vec in *; lia.
  Qed.
End FloatStable.
Print Assumptions C91_finite_matrix.

(* The session of C90_case: its covariance matrix has just been refreshed, all numbers are small, and the next call changes the matrix and the path. *)
Example C91_case : eigen_shape (T := f64) (E := flat_env) /\ tame_generator (E := flat_env) /\ accurate_ln (L := rounded_libm) /\ dims_fit c82_options /\ sizes_fit c82_options /\
  (forall n, accurate_solver (L := rounded_libm) (E := flat_env) n 0) /\ o_weights c82_options <> WNegative /\
  exists (c c' : cmaes (E := flat_env) f64 (unit * list (Spec.entry f64))) seed h r,
    used (LT := rounded_libm) (E := flat_env) toy_sphere c82_options tt seed h c /\ next (LT := rounded_libm) (E := flat_env) (log_ev toy_sphere) false (c82_tick (RNode 1 RLeaf RLeaf)) c = Ret (r, c') /\
    st_last_eigen (c_state c) = function_evals c /\ function_evals c = 8%N /\
    (forall i j, (i < 2)%nat -> (j < 2)%nat -> moderate 200 (entry (L := rounded_libm) c i j)) /\ (forall i, (i < 2)%nat -> moderate 400 (nth i (path c) n0)) /\
    neqb (entry (L := rounded_libm) c 1 1) (entry (L := rounded_libm) c' 1 1) = false /\ neqb (nth 1 (path c) n0) (nth 1 (path c') n0) = false.
Proof.
  split; [exact flat_shape|]. split; [exact flat_tame|]. split; [exact rounded_accurate|]. split; [vm_compute; discriminate|]. split; [split; [vm_compute; reflexivity|vm_compute; discriminate]|]. split; [apply flat_accurate|]. split; [discriminate|].
  set (two := seq 0 2).
  destruct (holds_ex (after (LT := rounded_libm) (E := flat_env) (log_ev toy_sphere) (tt, []) c82_options [ONext false (c82_tick RLeaf); ONext false (c82_tick RLeaf)])
    (fun c => (st_last_eigen (c_state c) =? function_evals c)%N && (function_evals c =? 8)%N && forallb (fun i => small_number (nth i (path c) n0)) two &&
      forallb (fun i => forallb (fun j => small_number (entry (L := rounded_libm) c i j)) two) two &&
      holds (next (LT := rounded_libm) (E := flat_env) (log_ev toy_sphere) false (c82_tick (RNode 1 RLeaf RLeaf)) c)
        (fun rc => negb (neqb (entry (L := rounded_libm) c 1 1) (entry (L := rounded_libm) (snd rc) 1 1)) && negb (neqb (nth 1 (path c) n0) (nth 1 (path (snd rc)) n0))))) as [c [H1 H2]].
  { vm_compute. reflexivity. }
  unfold after in H1. destruct (cmaes_new _ _ _ _) as [[c0|e]| |] eqn:H0 in H1; cbn [obind] in H1; [|discriminate H1|discriminate H1|discriminate H1].
  destruct (steps_used toy_sphere _ _ _ _ _ _ _ H0 H1) as [h Hu].
  apply andb_prop in H2. destruct H2 as [H2 H3]. apply andb_prop in H2. destruct H2 as [H2 H4]. apply andb_prop in H2. destruct H2 as [H2 H6]. apply andb_prop in H2. destruct H2 as [H2 H7].
  apply holds_ex in H3. destruct H3 as [[r c'] [H3 K]]. cbn [snd] in K. apply andb_prop in K. destruct K as [K1 K2].
  assert (In2 : forall i, (i < 2)%nat -> In i two) by (intros i Hi; apply in_seq; lia).
  exists c, c', (match o_seed c82_options with Some s => s | None => 0%N end), h, r. split; [exact Hu|]. split; [exact H3|]. split; [apply N.eqb_eq; exact H2|]. split; [apply N.eqb_eq; exact H7|]. split.
  { intros i j Hi Hj. apply small_moderate; [lia|]. rewrite forallb_forall in H4. specialize (H4 _ (In2 i Hi)). rewrite forallb_forall in H4. exact (H4 _ (In2 j Hj)). }
  split. { intros i Hi. apply small_moderate; [lia|]. rewrite forallb_forall in H6. exact (H6 _ (In2 i Hi)). }
  split; [destruct (neqb (entry _ _ _) _); [discriminate K1|reflexivity]|]. destruct (neqb (nth _ _ _) _); [discriminate K2|reflexivity].
Qed.

(* ---- a point drawn at the mean ---- *)
Definition nothing (x : f64) : Prop := match x with B754_zero _ | B754_nan => True | _ => False end.
Lemma nothing_mul : forall x y : f64, nothing y -> nothing (nmul x y).
Proof. intros [s|s| |s m e H] [t|t| |t m' e' H']; cbn; intros Q; try contradiction; exact I. Qed.
Lemma nothing_add : forall x y : f64, nothing x -> nothing y -> nothing (nadd x y).
Proof. intros [s|s| |s m e H] [t|t| |t m' e' H']; cbn; intros P Q; try contradiction; try exact I. destruct (Bool.eqb s t); exact I. Qed.
Lemma nothing_sum : forall l, Forall nothing l -> nothing (nsum l).
Proof.
  intros l H. unfold nsum. assert (Z : nothing (n0 : f64)) by exact I. revert Z. generalize (n0 : f64). induction H as [|x l Hx H IH]; intros acc Z; [exact Z|]. cbn [fold_left]. apply IH, nothing_add; assumption.
Qed.
Lemma nothing_whitened : forall (m : mat f64) y, Forall nothing y -> Forall nothing (mvmul m y).
Proof.
  intros m y Hy. unfold mvmul. apply Forall_map, Forall_forall. intros row _. unfold dot. apply nothing_sum. revert y Hy. induction row as [|x row IH]; intros y Hy; [constructor|]. destruct Hy as [|z y Hz Hy]; constructor; [apply nothing_mul; exact Hz|apply IH; exact Hy].
Qed.
Lemma nothing_length : forall v, Forall nothing v -> nothing (powi (magnitude v) 2).
Proof.
  intros v Hv. cbn [powi powi_loop]. apply nothing_mul, nothing_mul. unfold magnitude. assert (N : nothing (norm2 v)). { unfold norm2. apply nothing_sum, Forall_map. apply Forall_impl with (2 := Hv). intros x Hx. apply nothing_mul. exact Hx. }
  destruct (norm2 v); cbn in N |- *; try contradiction; exact I.
Qed.
Lemma unusable_weight : forall (w a b : f64), nothing b -> is_finite (nmul w (ndiv a b)) = true -> neqb a n0 = true.
Proof. intros [s|s| |s m e H] [t|t| |t m' e' H'] [u|u| |u m'' e'' H'']; cbn; intros Q G; try contradiction; try discriminate G; reflexivity. Qed.

Section Centre.
  Context {L : Libm f64} {E : Env f64} {F : Type} (ev : F -> vec f64 -> outcome (f64 * F)).
  Let ev' := log_ev ev.
  (* an entry can be finite only if every step has got a finite weight *)
  Lemma update_finite : forall tree evals (p : params f64) inds s ok s' n d, state_update tree evals p inds s = Ret (ok, s') -> (1 <= n)%nat -> p_dim p = N.of_nat n -> shape n n (cm_cov (st_cov s)) ->
    (forall q, In q inds -> length (pt_step q) = n) -> forall i j, (i < n)%nat -> (j < n)%nat -> is_finite (mnth (cm_cov (st_cov s')) i j : f64) = true ->
    forall k, (k < length (p_weights p))%nat -> is_finite (step_weight n (cm_sqrt_inv (st_cov s)) (nth k (p_weights p) n0) (pt_step (nth k inds d))) = true.
  Proof.
    intros tree evals p inds s ok s' n d X Hn Hd Hs Hst i j Hi Hj Hf k Hk. apply state_update_inv in X. destruct X as [yw [rm [cov U]]]. pose proof (up_set _ _ _ _ _ _ _ _ _ _ U) as Hset. apply set_cov_cov in Hset. rewrite Hset in Hf. pose proof (up_cov _ _ _ _ _ _ _ _ _ _ U) as Hcov.
    pose proof (up_rank _ _ _ _ _ _ _ _ _ _ U) as Hrm. set (hs := calc_hs _ _ _) in *. clearbody hs. clear U Hset. unfold calc_rank_mu in Hrm. oinv Hrm. match goal with Q : contributions _ _ _ = Ret ?x |- _ => rename Q into Hcon; rename x into l end.
    destruct (contributions_nth _ _ _ _ d Hcon) as [Ll Ln]. set (m := length (p_weights p)) in *.
    assert (Hy : forall k, (k < m)%nat -> length (pt_step (nth k inds d)) = n) by (intros k' Hk'; apply Hst, nth_In; apply Ln; exact Hk').
    set (bf k := coef (p_dim p) (cm_sqrt_inv (st_cov s)) (nth k (p_weights p) n0) (pt_step (nth k inds d))).
    assert (Sl : Forall (shape n n) l).
    { apply Forall_forall. intros x Hx. apply (In_nth _ _ []) in Hx. destruct Hx as [k' [Hk0 Ex]]. assert (Hk' : (k' < m)%nat) by (clear - Hk0 Ll; unfold mat, vec in *; lia). destruct (Ln k' Hk') as [_ Q]. rewrite <- Ex. assert (Q' : nth k' l ([] : mat f64) = _) by exact Q. clear Q. unfold mat, vec in *. rewrite Q'. pose proof (shape_outer (vscale (bf k') (pt_step (nth k' inds d))) (pt_step (nth k' inds d))) as Z.
      unfold vscale in Z at 1. rewrite map_length, (Hy k' Hk') in Z. exact Z. }
    unfold calc_cov in Hcov. oinv Hcov. match goal with Q : madd_c _ _ = Ret a |- _ => rename Q into Ha end.
    pose proof (shape_mscale _ _ (cov_factor p hs) _ Hs) as Sk. pose proof (madd_c_shape n _ _ _ Hn Sk Ha) as Sa. pose proof (madd_c_shape n _ _ _ Hn Sa Hcov) as Sc. assert (Lc : length cov = n) by apply Sc.
    assert (Srm : shape n n rm).
    { unfold madd_c, same_shape in Hcov. apply check_Ret in Hcov. destruct Hcov as [Q _]. apply andb_prop in Q. destruct Q as [Q _]. apply shape_is_shape in Q. rewrite (shape_ncols _ _ _ Sa) in Q by lia. assert (La : length a = n) by apply Sa. unfold mat, vec in *. rewrite La in Q.
      destruct Q as [Q1 Q2]. unfold mscale, mmap in Q1, Q2. rewrite map_length in Q1. split; [exact Q1|]. apply Forall_map in Q2. eapply Forall_impl; [|exact Q2]. cbn beta. intros r Hr. rewrite map_length in Hr. exact Hr. }
    assert (Main : forall i j, (i < n)%nat -> (j < n)%nat -> is_finite (mnth cov i j : f64) = true -> is_finite (bf k) = true).
    { clear i j Hi Hj Hf. intros i j Hi Hj Hf. pose proof (f2x_finite _ Hf) as If. destruct (ent_madd n i j Hi Hj _ _ _ Sa Hcov) as [Q1 _]. rewrite (mnth_scale_in _ n _ i j Srm Hi Hj) in Q1. rewrite Q1 in If. destruct (add_fin _ _ _ If) as [s1 [q3 [_ [J2 _]]]]. destruct (mul_fin _ _ _ J2) as [cm [r [_ [Ir _]]]].
      assert (Sm : summed i j l r).
      { destruct (p_parallel_update p); [rewrite Hd, Nat2N.id in Hrm; exact (proj2 (tree_err n i j Hi Hj tree l rm r Sl Hrm Ir))|exact (seq_err n i j Hi Hj l rm r Sl Hrm Ir)]. }
      destruct Sm as [ts [T1 _]]. assert (Lt : length ts = m) by (rewrite <- (Forall2_len _ _ _ T1), map_length; exact Ll).
      assert (Q : is (nth k (map (fun x : mat f64 => mnth x i j) l) n0) (nth k ts 0)).
      { clear - T1 Hk Lt. rewrite <- Lt in Hk. clear Lt. revert k Hk. induction T1 as [|x t a0 b0 Ht T IH]; intros k Hk; [cbn in Hk; lia|]. destruct k; cbn [nth length] in *; [exact Ht|apply IH; lia]. }
      rewrite (nth_indep _ n0 (mnth (T := f64) [] i j)) in Q by (rewrite map_length, Ll; exact Hk). rewrite (map_nth (fun x : mat f64 => mnth x i j)) in Q. destruct (Ln k Hk) as [_ Z]. rewrite Z in Q. clear Z.
      rewrite mnth_outer_in in Q by (unfold vscale; rewrite ?map_length, Hy; assumption). rewrite nth_vscale in Q by (rewrite Hy; assumption). destruct (mul_fin _ _ _ Q) as [u1 [u2 [V1 _]]]. destruct (mul_fin _ _ _ V1) as [u3 [u4 [V4 _]]]. exact (proj1 (is_B2R _ _ V4)). }
    unfold fill_lower in Hf. rewrite mnth_mbuild in Hf by (unfold mat, vec in *; lia). unfold bf, coef in Main. rewrite Hd in Main. destruct (Nat.ltb j i); [exact (Main j i Hj Hi Hf)|exact (Main i j Hi Hj Hf)].
  Qed.

  (* The restriction in C91_finite_matrix is needed. One call of next that evaluates all its points: if the point of rank k has a negative weight and was drawn exactly at
     the mean, then no entry of the covariance matrix is finite afterwards, whatever the other points are. *)
  Theorem C91_centre : forall o f c par tk r c', reaches ev' o (f, []) c -> dims_fit o -> next ev' par tk c = Ret (r, c') -> reports InvalidFunctionValue r = false ->
    exists new ranking (y : nat -> vec f64),
      calls c' = calls c ++ new /\ length new = N.to_nat (o_population_size o) /\ Permutation new ranking /\ StronglySorted (fun a b => as_good (o_mode o) (snd a) (snd b)) ranking /\
      (forall k i d, (k < N.to_nat (o_population_size o))%nat -> (i < dims o)%nat -> nth i (fst (nth k ranking d)) n0 = nadd (nth i (mean c) n0) (nmul (sigma c) (nth i (y k) n0))) /\
      forall k, (k < length (p_weights (c_params c)))%nat -> nltb (nth k (p_weights (c_params c)) n0) n0 = true -> (forall i, (i < dims o)%nat -> neqb (nth i (y k) n0) n0 = true) ->
        forall i j, (i < dims o)%nat -> (j < dims o)%nat -> is_finite (entry c' i j) = false.
  Proof.
    intros o f c par tk r c' Hr Hdf Hn Hi. destruct (sampled ev o f c par tk r c' Hr Hn Hi) as [inds [ok [new [_ [X [S1 [S2 [S3 [S4 [S5 S6]]]]]]]]]]. set (d := mkPoint [] [] n0 : point f64). destruct (reached_params ev' o _ c Hr) as [Hv [seed Hp]]. destruct (sizes o Hv) as [_ Hd0].
    exists new, (map pt_entry inds), (fun k => pt_step (nth k inds d)). repeat (split; [assumption|]). split.
    { intros k i e Hk Hi'. rewrite (nth_indep _ e (pt_entry d)) by (rewrite map_length, S5; exact Hk). rewrite map_nth. cbn [pt_entry fst]. destruct (S6 (nth k inds d)) as [P1 P2]; [apply nth_In; rewrite S5; exact Hk|]. apply (point_of ev o f); assumption. }
    intros k Hk Hw Hz i j Hi' Hj. destruct (is_finite (entry c' i j)) eqn:Ef; [exfalso|reflexivity]. assert (Hd : (1 <= dims o)%nat) by (unfold dims; lia). assert (Pd : p_dim (c_params c) = N.of_nat (dims o)) by (rewrite Hp; reflexivity).
    pose proof (update_finite _ _ _ inds _ ok _ (dims o) d X Hd Pd (cov_square ev' o _ c Hr) (fun p Hp => proj2 (S6 p Hp)) i j Hi' Hj Ef k Hk) as G. unfold step_weight in G. rewrite Hw in G. apply unusable_weight in G.
    - rewrite f2x_eqb, (is_ofN (N.of_nat (dims o))), is0 in G by (unfold dims_fit, dims in *; lia). cbn in G. unfold Reqb in G. destruct (Req_EM_T _ 0) as [Q|Q]; [|discriminate G]. apply eq_IZR in Q. lia.
    - apply nothing_length, nothing_whitened. destruct (Nat.lt_ge_cases k (length inds)) as [Hk'|Hk'].
      + pose proof (proj2 (S6 _ (nth_In inds d Hk'))) as Ls. apply Forall_forall. intros q Hq. destruct (In_nth _ _ n0 Hq) as [i' [Hi'' Eq]]. specialize (Hz i' ltac:(unfold vec in *; lia)). cbv beta in Hz. rewrite Eq in Hz. destruct q as [[]|[]| |[] mq eq Hb]; cbn in Hz |- *; try discriminate Hz; exact I.
      + rewrite nth_overflow by exact Hk'. constructor.
  Qed.
End Centre.
Print Assumptions C91_centre.

(* A generator that gives zero twice in a row for the last of the four points: the point is drawn at the mean, and is the worst one. *)
Definition centre_env : Env f64 := {|
  rng_t := N;
  rng_seed := fun s => s;
  rng_normal := fun g => (if (g mod 8 <? 6)%N then nofZ (-1) else n0, (g + 1)%N);
  eigen := fun m => if off_diagonal m then None else Some (identity (length m), diagonal m);
  nan_median := fun _ => Some nnan
|}.
Lemma centre_tame : tame_generator (E := centre_env).
Proof. intros g. apply (small_moderate 100); [lia|]. cbn [rng_normal centre_env fst]. destruct (_ <? _)%N; vm_compute; reflexivity. Qed.
Definition c91_options : options f64 := apply_setters (c75_options 2 WNegative 4) [SSeed 0].
(* Three points towards the minimum of the sphere, and the fourth one at the mean: it is the worst one, and has a negative weight. Every number of the session
   is small, and after one call no entry of the matrix is finite. *)
Example C91_centre_case : tame_generator (E := centre_env) /\ dims_fit c91_options /\ o_weights c91_options = WNegative /\
  exists (c c' : cmaes (E := centre_env) f64 (unit * list (Spec.entry f64))) r,
    reaches (E := centre_env) (LT := toy_libm) (log_ev toy_sphere) c91_options (tt, []) c /\ next (LT := toy_libm) (E := centre_env) (log_ev toy_sphere) false (c82_tick RLeaf) c = Ret (r, c') /\ reports InvalidFunctionValue r = false /\
    (forall i j, (i < 2)%nat -> (j < 2)%nat -> moderate 200 (entry (L := toy_libm) c i j)) /\ (forall i, (i < 2)%nat -> moderate 400 (nth i (path c) n0)) /\
    nltb (nth 3 (p_weights (c_params c)) n0) n0 = true /\ (exists x y, In (x, y) (calls c') /\ forall i, (i < 2)%nat -> neqb (nth i x n0) (nth i (mean c) n0) = true) /\
    (forall i j, (i < 2)%nat -> (j < 2)%nat -> is_finite (entry (L := toy_libm) c' i j) = false).
Proof.
  split; [exact centre_tame|]. split; [vm_compute; discriminate|]. split; [reflexivity|]. set (two := seq 0 2).
  destruct (holds_ex (after (LT := toy_libm) (E := centre_env) (log_ev toy_sphere) (tt, []) c91_options [])
    (fun c => forallb (fun i => small_number (nth i (path c) n0)) two && forallb (fun i => forallb (fun j => small_number (entry (L := toy_libm) c i j)) two) two && nltb (nth 3 (p_weights (c_params c)) n0) n0 &&
      holds (next (LT := toy_libm) (E := centre_env) (log_ev toy_sphere) false (c82_tick RLeaf) c)
        (fun rc => negb (reports InvalidFunctionValue (fst rc)) && forallb (fun i => forallb (fun j => negb (is_finite (entry (L := toy_libm) (snd rc) i j))) two) two && existsb (fun x => forallb (fun i => neqb (nth i (fst x) n0) (nth i (mean c) n0)) two) (calls (snd rc))))) as [c [H1 H2]].
  { vm_compute. reflexivity. }
  apply andb_prop in H2. destruct H2 as [H2 H3]. apply andb_prop in H2. destruct H2 as [H2 H4]. apply andb_prop in H2. destruct H2 as [H2 H5].
  apply holds_ex in H3. destruct H3 as [[r c'] [H3 K]]. cbn [fst snd] in K. apply andb_prop in K. destruct K as [K K3]. apply andb_prop in K. destruct K as [K1 K2].
  assert (In2 : forall i, (i < 2)%nat -> In i two) by (intros i Hi; apply in_seq; lia).
  exists c, c', r. split. { destruct (after_reaches _ _ _ _ _ H1) as [c0 [Q1 Q2]]. exists c0, []. split; assumption. }
  split; [exact H3|]. split; [destruct (reports _ _); [discriminate K1|reflexivity]|]. split.
  { intros i j Hi Hj. apply small_moderate; [lia|]. rewrite forallb_forall in H5. specialize (H5 _ (In2 i Hi)). rewrite forallb_forall in H5. exact (H5 _ (In2 j Hj)). }
  split. { intros i Hi. apply small_moderate; [lia|]. rewrite forallb_forall in H2. exact (H2 _ (In2 i Hi)). }
  split; [exact H4|]. split.
  { apply existsb_exists in K3. destruct K3 as [[x y] [X1 X2]]. cbn [fst] in X2. exists x, y. split; [exact X1|]. intros i Hi. rewrite forallb_forall in X2. exact (X2 _ (In2 i Hi)). }
  intros i j Hi Hj. rewrite forallb_forall in K2. specialize (K2 _ (In2 i Hi)). rewrite forallb_forall in K2. specialize (K2 _ (In2 j Hj)). destruct (is_finite _); [discriminate K2|reflexivity].
Qed.
