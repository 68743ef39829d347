(* C90: when the points and the mean computed in binary64 are finite numbers. *)
From Coq Require Import List NArith ZArith Bool Reals Lra Lia Arith Psatz Permutation Sorted.
From Flocq Require Import Core.
From Flocq Require Import IEEE754.BinarySingleNaN.
Require Import Verif.Lib Verif.Base Verif.Num Verif.F64 Verif.XReal Verif.LinAlg Verif.Mode Verif.Weights Verif.Options
  Verif.Params Verif.Env Verif.State Verif.Sampling Verif.History Verif.Termination Verif.Plot Verif.Cmaes
  Verif.Spec Verif.Order Verif.Sort Verif.F64Lemmas Verif.BuildLemmas Verif.TraceLemmas Verif.CeilLemmas Verif.XRound Verif.XLe
  Verif.NextInv Verif.LogLemmas Verif.SamplingLemmas Verif.PanicLemmas Verif.NextSafe Verif.PlotLemmas Verif.RSum
  Verif.F64Acc Verif.F64Weights Verif.F64Rates Verif.F64Final Verif.F64Raw Verif.Toy Verif.ToyLemmas Verif.StateLemmas
  Verif.F64Rel Verif.F64Mean Verif.F64Cov Verif.F64CovErr Verif.F64Path Verif.F64Conj Verif.F64Axes Verif.TermLemmas Verif.PropRun Verif.PropPlot Verif.PropPanic Verif.PropSampling
  Verif.PropFloatParams Verif.PropFloatMean Verif.PropFloatCov Verif.PropFloatCovErr Verif.PropFloatConj Verif.PropFloatAxes Verif.PropFloatSample.
Import ListNotations.
Open Scope R_scope.

(* ---- specification ---- *)
(* every normal number the generator can deliver is finite and at most 2^100 in magnitude *)
Definition tame_generator {E : Env f64} : Prop :=
  forall g, is_finite (fst (rng_normal g)) = true /\ Rabs (B2R (fst (rng_normal g))) <= bpow radix2 100.
(* finite and at most 2^e in magnitude *)
Definition moderate (e : Z) (x : f64) : Prop := is_finite x = true /\ Rabs (B2R x) <= bpow radix2 e.

(* ---- operations on moderate numbers ---- *)
Lemma moderate_is : forall e x, moderate e x -> is x (B2R x) /\ Rabs (B2R x) <= bpow radix2 e.
Proof. intros e x [H1 H2]. split; [apply f2x_finite; exact H1|exact H2]. Qed.
Lemma moderate_intro : forall e x r, is x r -> Rabs r <= bpow radix2 e -> moderate e x.
Proof. intros e x r H1 H2. destruct (is_B2R _ _ H1) as [A B]. split; [exact A|]. rewrite B. exact H2. Qed.
Lemma moderate_le : forall e e' x, (e <= e')%Z -> moderate e x -> moderate e' x.
Proof. intros e e' x H [H1 H2]. split; [exact H1|]. apply Rle_trans with (1 := H2). apply bpow_le. exact H. Qed.
Lemma moderate_mul : forall a b x y, (0 <= a + b <= 1000)%Z -> moderate a x -> moderate b y -> moderate (a + b) (nmul x y).
Proof.
  intros a b x y H Hx Hy. destruct (moderate_is _ _ Hx) as [Ix Bx]. destruct (moderate_is _ _ Hy) as [Iy By].
  assert (P : Rabs (B2R x * B2R y) <= bpow radix2 (a + b)) by (rewrite Rabs_mult, bpow_plus; apply Rmult_le_compat; try assumption; apply Rabs_pos).
  eapply moderate_intro; [apply is_mul; [exact Ix|exact Iy|apply Rle_trans with (1 := P); apply bpow_le; lia]|]. apply rnd_abs; [lia|exact P].
Qed.
Lemma moderate_add : forall a b x y, (0 <= a <= 998)%Z -> (b <= a)%Z -> moderate a x -> moderate b y -> moderate (a + 1) (nadd x y).
Proof.
  intros a b x y H Hb Hx Hy. destruct (moderate_is _ _ Hx) as [Ix Bx]. destruct (moderate_is _ _ (moderate_le b a y Hb Hy)) as [Iy By].
  assert (P : Rabs (B2R x + B2R y) <= bpow radix2 (a + 1)). { apply Rle_trans with (1 := Rabs_triang _ _). rewrite bpow_plus_1. change (IZR radix2) with 2. lra. }
  eapply moderate_intro; [apply is_add; [exact Ix|exact Iy|apply Rle_trans with (1 := P); apply bpow_le; lia]|]. apply rnd_abs; [lia|exact P].
Qed.
Lemma tot_const_le : forall e rs, Forall (fun r => Rabs r <= bpow radix2 e) rs -> tot (map Rabs rs) <= INR (length rs) * bpow radix2 e.
Proof. intros e rs H. rewrite <- (map_length Rabs rs). apply tot_le. apply Forall_map. exact H. Qed.
(* a sum of at most 2^40 such numbers *)
Lemma moderate_sum : forall e (l : list f64) acc, (0 <= e <= 950)%Z -> INR (length l) <= 1099511627776 -> Forall (moderate e) l -> moderate e acc -> moderate (e + 41) (fold_left nadd l acc).
Proof.
  intros e l acc He Hn Hl Ha. destruct (moderate_is _ _ Ha) as [Ia Ba].
  assert (F : Forall2 is l (map B2R l)). { clear - Hl. induction Hl as [|x l H Hl IH]; constructor; [apply (moderate_is _ _ H)|exact IH]. }
  assert (B : Forall (fun r => Rabs r <= bpow radix2 e) (map B2R l)) by (apply Forall_map; rewrite Forall_forall in *; intros x Hx; apply (Hl x Hx)).
  assert (Lr : length (map B2R l) = length l) by apply map_length. pose proof (tot_const_le e _ B) as T. rewrite Lr in T. pose proof (bpow_gt_0 radix2 e) as Pe.
  pose proof (grow_small (length l) ltac:(lra)) as G. pose proof (grow_1 (length l)) as G1. pose proof (pos_INR (length l)) as P0.
  assert (T1 : INR (length l) * bpow radix2 e <= 1099511627776 * bpow radix2 e) by (apply Rmult_le_compat_r; lra).
  assert (T2 : Rabs (B2R acc) + tot (map Rabs (map B2R l)) <= 1099511627777 * bpow radix2 e) by lra.
  pose proof (tot_abs_nonneg (map B2R l)) as T0. pose proof (Rabs_pos (B2R acc)) as A0.
  assert (E41 : bpow radix2 (e + 41) = 2 * (1099511627776 * bpow radix2 e)) by (rewrite bpow_plus; change (bpow radix2 41) with 2199023255552; ring).
  assert (T3 : (Rabs (B2R acc) + tot (map Rabs (map B2R l))) * grow (length (map B2R l)) <= bpow radix2 (e + 41)).
  { rewrite Lr, E41. apply Rle_trans with (1099511627777 * bpow radix2 e * (3 / 2)); [apply Rmult_le_compat; [apply Rplus_le_le_0_compat; assumption|clear - G1; lra|exact T2|clear - G Hn; set (n := INR (length l)) in *; clearbody n; lra]|clear - Pe; lra]. }
  eapply moderate_intro; [apply fold_forward; [exact Ia|exact F|apply Rle_trans with (1 := T3); apply bpow_le; lia]|].
  clear - T3 F Ia. assert (X : forall rs s, generic_format radix2 fexp64 s -> Forall (generic_format radix2 fexp64) rs -> Rabs (fsum rs s) <= (Rabs s + tot (map Rabs rs)) * grow (length rs)).
  { clear. induction rs as [|r rs IH]; intros s Hs Hr; unfold fsum; cbn [fold_left map length]; [unfold grow; cbn [pow]; change (tot []) with 0; lra|]. fold (fsum rs (rnd64 (s + r))).
    inversion Hr; subst. apply Rle_trans with (1 := IH _ (rnd_format _) ltac:(assumption)). change (tot (Rabs r :: map Rabs rs)) with (Rabs r + tot (map Rabs rs)). rewrite grow_S.
    pose proof (add_err s r Hs ltac:(assumption)) as A. apply near_abs in A. pose proof (Rabs_triang s r) as T. pose proof (tot_abs_nonneg rs) as Q. pose proof (grow_1 (length rs)) as G.
    replace ((Rabs s + (Rabs r + tot (map Rabs rs))) * ((1 + uu) * grow (length rs))) with ((1 + uu) * (Rabs s + Rabs r + tot (map Rabs rs)) * grow (length rs)) by ring. apply Rmult_le_compat_r; [lra|].
    assert (uu * Rabs (s + r) <= uu * (Rabs s + Rabs r)) by (apply Rmult_le_compat_l; lra). assert (0 <= uu * tot (map Rabs rs)) by (apply Rmult_le_pos; lra). lra. }
  apply Rle_trans with (2 := T3). apply X; [exact (is_format _ _ Ia)|]. clear - F. induction F; constructor; [eapply is_format; eassumption|assumption].
Qed.
Lemma moderate_zero : forall e, moderate e (n0 : f64).
Proof. intros e. apply (moderate_intro e n0 0 is0). rewrite Rabs_R0. left. apply bpow_gt_0. Qed.
Lemma Forall_map2_intro : forall {A B C} (f : A -> B -> C) (P : C -> Prop) a b da db, length a = length b -> (forall i, (i < length a)%nat -> P (f (nth i a da) (nth i b db))) -> Forall P (map2 f a b).
Proof.
  intros A B C f P a. induction a as [|x a IH]; intros [|y b] da db Hl H; try discriminate Hl; cbn [map2]; constructor.
  - apply (H 0%nat). cbn. lia.
  - apply (IH b da db); [cbn in Hl; lia|]. intros i Hi. apply (H (S i)). cbn. lia.
Qed.
Lemma moderate_dot : forall n a b (x y : vec f64), (0 <= a + b <= 950)%Z -> INR n <= 1099511627776 -> length x = n -> length y = n -> (forall k, (k < n)%nat -> moderate a (nth k x n0)) -> (forall k, (k < n)%nat -> moderate b (nth k y n0)) -> moderate (a + b + 41) (dot x y).
Proof.
  intros n a b x y H Hn Lx Ly Hx Hy. unfold dot, nsum. apply moderate_sum; [exact H|rewrite map2_length, Lx, Ly, Nat.min_id; exact Hn| |apply moderate_zero].
  apply Forall_map2_intro with (da := n0) (db := n0); [congruence|]. rewrite Lx. intros i Hi. apply moderate_mul; [lia|apply Hx; exact Hi|apply Hy; exact Hi].
Qed.

Section Transform.
  Context {L : Libm f64} {E : Env f64}.
  Variable n : nat.
  Hypothesis Hn1 : (1 <= n)%nat.
  Hypothesis Hn : INR n <= 1099511627776.
  Variables (cm : cov_matrix f64) (v : mat f64) (vals : vec f64).
  Hypothesis Hd : from_solver n cm v vals \/ from_start n cm v vals.
  Hypothesis Hc : sound_columns n v.
  Variable d : Z.
  Hypothesis Hd0 : (0 <= d <= 250)%Z.
  Hypothesis Hp : forall k, (k < n)%nat -> 0 < comp vals k <= bpow radix2 (d + d).

  Lemma deviation_moderate : forall j, (j < n)%nat -> 0 <= deviation vals j <= bpow radix2 d.
  Proof.
    intros j Hj. unfold deviation. split; [apply sqrt_pos|]. rewrite <- (sqrt_square (bpow radix2 d)) by (left; apply bpow_gt_0). rewrite <- bpow_plus. apply sqrt_le_1; [left; apply Hp; exact Hj|left; apply bpow_gt_0|]. apply Hp. exact Hj.
  Qed.
  Lemma root_moderate : forall j, (j < n)%nat -> length vals = n -> moderate (d + 1) (nth j (map nsqrt vals) n0).
  Proof.
    intros j Hj Lv. rewrite (nth_indep _ n0 (nsqrt n0)) by (rewrite map_length; lia). rewrite map_nth.
    assert (F : is_finite (nth j vals n0) = true). { destruct (Hp j Hj) as [P _]. unfold comp in P. destruct (nth j vals n0); cbn [B2R] in P; try lra; reflexivity. }
    eapply moderate_intro; [apply is_sqrt; [apply f2x_finite; exact F|left; apply Hp; exact Hj]|]. apply rnd_abs; [lia|]. destruct (deviation_moderate j Hj) as [D0 D1]. unfold deviation, comp in D0, D1. rewrite Rabs_pos_eq by exact D0. apply Rle_trans with (1 := D1). apply bpow_le. lia.
  Qed.
  Lemma transform_moderate : forall i j, (i < n)%nat -> (j < n)%nat -> moderate (d + 50) (mnth (cm_transform cm) i j).
  Proof.
    intros i j Hi Hj. destruct Hd as [Hs|Hs].
    - pose proof Hs as [Sv [Lv [_ [_ [t0 [_ [_ Ht]]]]]]]. pose proof (shape_normalized n Hn1 v Sv) as Sn. assert (Ld : length (map nsqrt vals) = n) by (rewrite map_length; exact Lv).
      rewrite (mmul_entry n Hn1 _ _ _ i j Sn (shape_diagonal n _ Ld) Ht Hi Hj). rewrite <- (mmap_id (from_diagonal _)), (column_diagonal n (fun x => x)) by (auto; reflexivity).
      apply (moderate_le (1 + (d + 1) + 41)); [lia|]. apply (moderate_dot n); [lia|exact Hn|apply shape_row; assumption|rewrite map_length; apply seq_length| |].
      + intros k Hk. rewrite <- mnth_in. destruct (unit_entry n Hn1 Hn v i k Sv Hc Hi Hk) as [[q [Iq Aq]] B]. apply (moderate_intro 1 _ q Iq). apply approx_abs in Aq. change (bpow radix2 1) with 2. pose proof (nu_small n Hn) as NU. pose proof eta_ok as ET.
        set (r := 103 / 100 * (INR n * uu) + 32 / 10 * uu) in *. assert (0 <= r <= / 2) by (unfold r; lra). assert ((1 + r) * Rabs (axis n v i k) <= (1 + / 2) * 1) by (apply Rmult_le_compat; try lra; apply Rabs_pos). lra.
      + intros k Hk. rewrite (nth_indep _ n0 ((fun k => if Nat.eqb k j then nth j (map nsqrt vals) n0 else n0) 0%nat)) by (rewrite map_length, seq_length; exact Hk). rewrite (map_nth (fun k => if Nat.eqb k j then nth j (map nsqrt vals) n0 else n0)), seq_nth by exact Hk.
        destruct (Nat.eqb _ _); [apply root_moderate; assumption|apply moderate_zero].
    - destruct Hs as [_ [_ [_ [_ ->]]]]. destruct (identity_B2R n i j Hi Hj) as [B1 B2]. split; [exact B2|]. rewrite B1. apply Rle_trans with 1; [unfold delta; destruct (Nat.eqb _ _); rewrite ?Rabs_R1, ?Rabs_R0; lra|]. apply (bpow_le radix2 0 (d + 50)). lia.
  Qed.

  (* a step, and the point it leads to *)
  Lemma step_moderate : forall z, length z = n -> shape n n (cm_transform cm) -> (forall k, (k < n)%nat -> moderate 100 (nth k z n0)) -> forall i, (i < n)%nat -> moderate (d + 191) (dot (nth i (cm_transform cm) []) z).
  Proof.
    intros z Lz St Hz i Hi. replace (d + 191)%Z with (d + 50 + 100 + 41)%Z by lia. apply (moderate_dot n (d + 50) 100); [lia|exact Hn|apply shape_row; assumption|exact Lz| |exact Hz]. intros k Hk. rewrite <- mnth_in. apply transform_moderate; assumption.
  Qed.
End Transform.

Section FloatFinite.
  Context {L : Libm f64} {E : Env f64} {F : Type} (ev : F -> vec f64 -> outcome (f64 * F)).
  Let ev' := log_ev ev.
  Notation session := (cmaes f64 (F * list (Spec.entry f64))).

  (* the vectors the steps are made from *)
  Definition from_generator (n : nat) (z : vec f64) : Prop := length z = n /\ Forall (fun x => exists g, x = fst (rng_normal g)) z.
  Lemma draw_vec_from : forall n g, from_generator n (fst (draw_vec n g)).
  Proof.
    induction n as [|n IH]; intros g; [split; [reflexivity|constructor]|]. cbn [draw_vec]. destruct (rng_normal g) as [z g1] eqn:Eg. specialize (IH g1). destruct (draw_vec n g1) as [v g2]. cbn [fst] in *. destruct IH as [L1 L2]. split; [cbn [length]; congruence|]. constructor; [exists g; rewrite Eg; reflexivity|exact L2].
  Qed.
  Lemma draw_vecs_from : forall k n g, Forall (from_generator n) (fst (draw_vecs k n g)).
  Proof.
    induction k as [|k IH]; intros n g; [constructor|]. cbn [draw_vecs]. pose proof (draw_vec_from n g) as H. destruct (draw_vec n g) as [v g1]. specialize (IH n g1). destruct (draw_vecs k n g1) as [l g2]. constructor; assumption.
  Qed.
  Lemma filter_combine_in : forall {A} (l : list A) bs x, In x (map fst (filter snd (combine l bs))) -> In x l.
  Proof. intros A l bs x H. apply in_map_iff in H. destruct H as [[a b] [Ha H]]. cbn in Ha. subst a. apply filter_In in H. destruct H as [H _]. exact (in_combine_l _ _ _ _ H). Qed.
  Lemma resample_from : forall n fuel lambda cs mx (s : state f64) i y g ys g', resample fuel n lambda cs mx s i y g = Ret (ys, g') ->
    (forall q, In q y -> exists z, from_generator n z /\ q = mvmul (cm_transform (st_cov s)) z) -> forall q, In q ys -> exists z, from_generator n z /\ q = mvmul (cm_transform (st_cov s)) z.
  Proof.
    intros n. induction fuel as [|fuel IH]; intros lambda cs mx s i y g ys g' H Hy; cbn [resample] in H; destruct (lambda <? length y)%nat; try discriminate H; destruct (lambda - length y =? 0)%nat; try discriminate H;
      try (apply Ret_inj in H; apply (f_equal fst) in H; cbn [fst] in H; rewrite <- H; exact Hy).
    oinv H. destruct a as [new g1]. eapply IH; [exact H|]. intros q Hq. apply in_app_or in Hq. destruct Hq as [Hq|Hq]; [apply Hy; exact Hq|].
    unfold sample_steps in Ho. pose proof (draw_vecs_from (lambda - length y) n g) as Dv. destruct (draw_vecs _ _ _) as [zs g2]. cbn [fst] in Dv. oinv Ho. oinv Ho. apply Ret_inj in Ho. apply (f_equal fst) in Ho. cbn [fst] in Ho. rewrite <- Ho in Hq.
    apply ofilter_Ret in Ho1. destruct Ho1 as [bs [_ Hf]]. rewrite Hf in Hq. apply filter_combine_in in Hq. apply omap_Ret in Ho0. clear - Ho0 Hq Dv. induction Ho0 as [|z q0 zs qs Hz Hr IH]; [contradiction|]. inversion Dv; subst. destruct Hq as [->|Hq]; [|apply IH; assumption].
    exists z. split; [assumption|]. unfold mvmul_c in Hz. apply check_Ret in Hz. destruct Hz as [_ Hz]. exact Hz.
  Qed.
  Lemma generated_moderate : tame_generator -> forall n z, from_generator n z -> forall k, (k < n)%nat -> moderate 100 (nth k z n0).
  Proof. intros Ht n z [Lz Fz] k Hk. rewrite Forall_forall in Fz. destruct (Fz (nth k z n0)) as [g Hg]; [apply nth_In; unfold vec in *; lia|]. rewrite Hg. exact (Ht g). Qed.

  (* the eigenvalues are bounded by the entries of the matrix *)
  Lemma values_bounded : forall n v (vals : vec f64) (e : nat -> nat -> R) S eps, sound_columns n v -> (forall k, (k < n)%nat -> 0 < comp vals k) -> INR n <= 1099511627776 -> 0 <= eps <= 1 -> 0 <= S ->
    (forall i, (i < n)%nat -> Rabs (e i i) <= S) -> (forall i, (i < n)%nat -> Rabs (Sig n (fun k => axis n v i k * comp vals k * axis n v i k) - e i i) <= eps * S) ->
    forall k, (k < n)%nat -> comp vals k <= 2199023255552 * S.
  Proof.
    intros n v vals e S eps Hc Hp Hn He HS H1 H2 k Hk.
    assert (A : comp vals k = Sig n (fun i => axis n v i k * comp vals k * axis n v i k)). { rewrite (Sig_ext _ _ (fun i => axis n v i k * axis n v i k * comp vals k)) by (intros; ring). rewrite Sig_mul_r, (axis_unit n v Hc k Hk). ring. }
    rewrite A. apply Rle_trans with (Sig n (fun _ => 2 * S)).
    - apply Sig_le. intros i Hi. apply Rle_trans with (Sig n (fun k => axis n v i k * comp vals k * axis n v i k)).
      + apply (Sig_pos_term n (fun k => axis n v i k * comp vals k * axis n v i k) k); [|exact Hk]. intros j Hj. pose proof (Hp j Hj). nra.
      + specialize (H1 i Hi). specialize (H2 i Hi). apply Rabs_le_inv in H1, H2. assert (eps * S <= 1 * S) by (apply Rmult_le_compat_r; lra). lra.
    - rewrite Sig_const. assert (INR n * (2 * S) <= 1099511627776 * (2 * S)) by (apply Rmult_le_compat_r; lra). lra.
  Qed.

  Definition refreshed_axes (d : Z) (o : options f64) (c : session) (v : mat f64) (vals : vec f64) : Prop :=
    (0 <= d <= 250)%Z /\ used_axes o c v vals /\ sound_columns (dims o) v /\ forall k, (k < dims o)%nat -> 0 < comp vals k <= bpow radix2 (d + d).
  Lemma drawn_moderate : eigen_shape (T := f64) -> tame_generator -> forall d o f c v vals, reaches ev' o (f, []) c -> dims_fit o -> refreshed_axes d o c v vals ->
    forall z, from_generator (dims o) z -> forall i, (i < dims o)%nat -> moderate (d + 191) (dot (nth i (cm_transform (st_cov (c_state c))) []) z).
  Proof.
    intros He Ht d o f c v vals Hr Hdf [Hd [X [K1 Vp]]] z Hz. pose proof (reaches_wf He ev' o (f, []) c Hr) as W. pose proof (ws_transform _ _ (wf_st _ _ W)) as St.
    apply (step_moderate (dims o) (wf_dim _ _ W) (dims_bound o Hdf) _ v vals X K1 d Hd Vp); [apply Hz|exact St|apply generated_moderate; assumption].
  Qed.
  Lemma inds_moderate : eigen_shape (T := f64) -> tame_generator -> forall d o f c v vals par tk inds sm, reaches ev' o (f, []) c -> dims_fit o -> refreshed_axes d o c v vals ->
    sample ev' par tk (c_state c) (p_mode (c_params c)) (c_sampler c) = Ret (Some inds, sm) ->
    forall p, In p inds -> length (pt_step p) = dims o /\ forall j, (j < dims o)%nat -> moderate (d + 191) (nth j (pt_step p) n0).
  Proof.
    intros He Ht d o f c v vals par tk inds sm Hr Hdf Hx H1 p Hpin. pose proof (sample_Some _ _ _ _ _ _ _ _ H1) as [ys [g [f1 [pts [Y1 [Y2 [_ [Y4 [Y5 _]]]]]]]]].
    assert (Dm : sm_dim (c_sampler c) = dims o). { destruct (reaches_setup ev' o _ c Hr) as [rs [now [c0 [Hc0 [_ [_ [_ [Q _]]]]]]]]. pose proof (cmaes_new_inv _ _ _ _ _ Hc0) as C. cbv zeta in C. destruct C as [_ [C2 _]]. rewrite C2 in Q. exact Q. } rewrite Dm in Y1.
    rewrite Y5 in Hpin. apply (Permutation_in _ (Permutation_sym (sort_by_perm _ _))) in Hpin.
    assert (G : exists y, In y ys /\ pt_step p = y). { clear - Y4 Hpin. induction Y4 as [|y q ys qs H0 H IH]; [contradiction|]. destruct Hpin as [->|Hp]; [exists y; split; [left; reflexivity|apply H0]|destruct (IH Hp) as [y' [Q1 Q2]]; exists y'; split; [right; exact Q1|exact Q2]]. }
    destruct G as [y [Gy ->]]. destruct (resample_from _ _ _ _ _ _ _ _ _ _ _ Y1 (fun q (Hq : In q []) => False_ind _ Hq) y Gy) as [z [Hz ->]].
    pose proof (ws_transform _ _ (wf_st _ _ (reaches_wf He ev' o (f, []) c Hr))) as [LT _]. unfold mvmul. split; [rewrite map_length; exact LT|]. intros j Hj.
    rewrite (nth_indep _ n0 ((fun row => dot row z) [])) by (rewrite map_length; unfold mat, vec in *; lia). rewrite (map_nth (fun row => dot row z)). apply (drawn_moderate He Ht d o f c v vals Hr Hdf Hx); assumption.
  Qed.
  Lemma half_bound : forall o : options f64, sizes_fit o -> INR (N.to_nat (o_population_size o / 2) + 1) <= 1099511627776.
  Proof. intros o [Hsz _]. pose proof (N.div_le_upper_bound (o_population_size o) 2 549755813888 ltac:(lia) ltac:(lia)) as B. rewrite INR_IZR_INZ. apply IZR_le. lia. Qed.
  Lemma weights_moderate : accurate_ln -> forall o f c, reaches ev' o (f, []) c -> sizes_fit o -> forall k, (k < N.to_nat (o_population_size o / 2))%nat -> moderate 1 (nth k (p_weights (c_params c)) n0).
  Proof.
    intros Hln o f c Hr Hsz k Hk. set (mu := N.to_nat (o_population_size o / 2)) in *. destruct (C75_weights ev' Hln o _ c Hr Hsz) as [W1 [W2 [W3 [_ [_ W6]]]]]. fold mu in W1, W3, W6. set (w := p_weights (c_params c)) in *.
    assert (Kw : (k < length w)%nat). { rewrite W1. destruct (o_weights o); try exact Hk. unfold mu in Hk. pose proof (N.div_le_upper_bound (o_population_size o) 2 (o_population_size o) ltac:(lia) ltac:(lia)). lia. }
    split; [rewrite Forall_forall in W2; apply W2, nth_In; exact Kw|]. change (bpow radix2 1) with 2.
    assert (Es : sum_to w mu = Sig mu (weight w)) by (unfold sum_to; change (fold_right Rplus 0) with tot; rewrite tot_Sig; reflexivity).
    pose proof (half_bound o Hsz) as Bmu. fold mu in Bmu.
    pose proof (Sig_pos_term mu (weight w) k (fun j Hj => Rlt_le _ _ (W3 j Hj)) Hk) as T1. cbv beta in T1. rewrite <- Es in T1. apply Rabs_le_inv in W6. replace (2 ^ 52) with 4503599627370496 in W6 by lra.
    fold (weight w k). rewrite Rabs_pos_eq by (left; apply W3; exact Hk). lra.
  Qed.
  Lemma yw_moderate : accurate_ln -> forall e o f c inds yw, reaches ev' o (f, []) c -> sizes_fit o -> (0 <= e <= 900)%Z -> (forall p, In p inds -> length (pt_step p) = dims o /\ forall j, (j < dims o)%nat -> moderate e (nth j (pt_step p) n0)) ->
    calc_yw (c_params c) inds = Ret yw -> forall i, (i < dims o)%nat -> moderate (e + 1 + 41) (nth i yw n0).
  Proof.
    intros Hln e o f c inds yw Hr Hsz He Ps Eyw i Hi. set (mu := N.to_nat (o_population_size o / 2)) in *. pose proof (weights_moderate Hln o f c Hr Hsz) as Wm. fold mu in Wm. set (w := p_weights (c_params c)) in *. destruct (reached_params ev' o _ c Hr) as [Hv [seed' Hp]].
      unfold calc_yw in Eyw. destruct (weighted_steps _ _) as [l| |] eqn:Ew; cbn [obind] in Eyw; try discriminate Eyw. assert (Emu : N.to_nat (p_mu (c_params c)) = mu) by (rewrite Hp; reflexivity). rewrite Emu in Ew.
      unfold vsum_c in Eyw. destruct l as [|v0 l]; [discriminate Eyw|].
      destruct inds as [|p0 inds0] eqn:Einds; [cbn [firstn] in Ew; rewrite firstn_nil in Ew; discriminate Ew|]. rewrite <- Einds in *. destruct (weighted_nth _ _ _ p0 Ew) as [Ll Lk].
      assert (Lf : (length (firstn mu inds) <= mu)%nat) by (rewrite firstn_length; lia).
      assert (Lv : forall k, (k < length (firstn mu inds))%nat -> (length (nth k (v0 :: l) []) = dims o /\ moderate (e + 1) (nth i (nth k (v0 :: l) []) n0))).
      { intros k Hk. rewrite (Lk k Hk). assert (Hin : In (nth k (firstn mu inds) p0) inds). { pose proof (nth_In (firstn mu inds) p0 Hk) as Q. revert Q. generalize (nth k (firstn mu inds) p0). intros q Q. rewrite <- (firstn_skipn mu inds). apply in_or_app. left. exact Q. }
        destruct (Ps _ Hin) as [Q1 Q2]. split; [unfold vscale_r; rewrite map_length; exact Q1|]. rewrite vscale_r_nth by (unfold vec in *; lia). apply (moderate_mul e 1); [lia|apply Q2; exact Hi|apply Wm; lia]. }
      assert (L0 : (0 < length (firstn mu inds))%nat) by (rewrite <- Ll; cbn [length]; lia).
      destruct (vsum_nth _ _ _ i Eyw) as [V1 _]; [pose proof (proj1 (Lv 0%nat L0)) as Q; cbn [nth] in Q; rewrite Q; exact Hi|]. rewrite V1. apply moderate_sum; [lia| | |apply (Lv 0%nat L0)].
      + rewrite map_length. assert (Ll' : (length l < mu)%nat) by (apply Nat.lt_le_trans with (2 := Lf); rewrite <- Ll; apply Nat.lt_succ_diag_r). apply Rle_trans with (INR mu); [apply le_INR, Nat.lt_le_incl; exact Ll'|]. pose proof (half_bound o Hsz) as B. fold mu in B. rewrite plus_INR in B. cbn [INR] in B. lra.
      + apply Forall_map, Forall_forall. intros q Hq. destruct (In_nth _ _ [] Hq) as [k [Hk <-]]. apply (Lv (S k)). rewrite <- Ll. cbn [length]. apply (proj1 (Nat.succ_lt_mono _ _)). exact Hk.
  Qed.

  (* Take the covariance matrix of the last refresh. As long as its entries, the mean and the step size are finite and far from overflow, a call of
     next evaluates only points all of whose coordinates are finite, and leaves a finite mean. *)
  Theorem C90_finite : eigen_shape (T := f64) -> tame_generator -> forall eps o f seed h c, used ev o f seed h c -> dims_fit o -> 0 <= eps <= 1 -> accurate_solver (dims o) eps ->
    exists (b : session) ops, reaches ev' o (f, []) b /\ steps ev' b ops = Ret c /\
    function_evals b = last_refresh (o_population_size o) (evals_per_eigen_update (params_of_options o seed)) 0 0 h /\
    ((forall i j, (i < dims o)%nat -> (j < dims o)%nat -> moderate 400 (entry b i j)) ->
     (forall i, (i < dims o)%nat -> moderate 900 (nth i (mean c) n0)) -> moderate 400 (sigma c) ->
     forall par tk r c', next ev' par tk c = Ret (r, c') ->
       (exists new, calls c' = calls c ++ new /\ forall x y, In (x, y) new -> length x = dims o /\ forall i, (i < dims o)%nat -> fin_comp x i) /\
       (accurate_ln -> sizes_fit o -> forall i, (i < dims o)%nat -> fin_comp (mean c') i)).
  Proof.
    intros He Ht eps o f seed h c Hu Hdf Heps Hs. pose proof (used_reaches ev o f seed h c Hu) as Hr. destruct (root_kept ev He eps o f c Hr (proj1 Heps) Hs) as [b [ops [v [vals [D1 [D2 [D3 [X K]]]]]]]].
    exists b, ops. split; [exact D1|]. split; [exact D2|]. split; [rewrite D3; exact (used_last_refresh ev _ _ _ _ _ Hu)|]. intros Hb Hm Hsg par tk r c' Hn.
    destruct (K (fun i j Hi Hj => proj1 (Hb i j Hi Hj))) as [K1 [K2 K3]]. pose proof (dims_bound o Hdf) as Dn. pose proof (bpow_gt_0 radix2 400) as P4.
    assert (Vp : forall k, (k < dims o)%nat -> 0 < comp vals k <= bpow radix2 (250 + 250)).
    { intros k Hk. split; [apply K2; exact Hk|]. apply Rle_trans with (2199023255552 * bpow radix2 400).
      - apply (values_bounded (dims o) v vals (fun i j => B2R (entry b i j)) (bpow radix2 400) eps K1 K2 Dn Heps (Rlt_le _ _ P4)); [intros i Hi; apply (Hb i i Hi Hi)| |exact Hk]. intros i Hi. apply (K3 (bpow radix2 400)); [intros i' j' Hi' Hj'; apply (Hb i' j' Hi' Hj')|exact Hi|exact Hi].
      - change 2199023255552 with (bpow radix2 41). rewrite <- bpow_plus. apply bpow_le. lia. }
    pose proof (reaches_wf He ev' o (f, []) c Hr) as W. pose proof (wf_st _ _ W) as Ws. pose proof (ws_mean _ _ Ws) as Lm. pose proof (ws_transform _ _ Ws) as St. pose proof (wf_dim _ _ W) as Hn1.
    assert (Rx : refreshed_axes 250 o c v vals) by (split; [lia|split; [exact X|split; [exact K1|exact Vp]]]). pose proof (drawn_moderate He Ht 250 o f c v vals Hr Hdf Rx) as Sm. cbn [Z.add Pos.add Pos.succ Pos.add_carry] in Sm.
    split.
    - destruct (C04_points f64 _ _ _ _ ev o f seed h c Hu) as [d [_ H4]]. destruct (H4 par tk r c' Hn) as [d' [ks [new [_ [Hnew [_ [_ [_ H5]]]]]]]]. cbv zeta in H5. exists new. split; [exact Hnew|]. intros x y Hin.
      assert (Hx : In x (map (fun k => transformed (c_state c) (normals (length (o_initial_mean o)) (rng_seed seed) k)) ks)).
      { destruct (reports InvalidFunctionValue r).
        - destruct H5 as [rest [all [P1 [_ P2]]]]. apply (Permutation_in _ P1). rewrite P2. apply in_or_app. left. apply (in_map fst) in Hin. exact Hin.
        - destruct H5 as [P1 _]. apply (Permutation_in _ (Permutation_sym P1)). apply (in_map fst) in Hin. exact Hin. }
      apply in_map_iff in Hx. destruct Hx as [k [Hx _]]. fold (dims o) in Hx. set (z := normals (dims o) (rng_seed seed) k) in *.
      assert (Hz : from_generator (dims o) z). { split; [apply normals_length|]. unfold z, normals. apply Forall_map, Forall_forall. intros q _. eexists. reflexivity. }
      assert (Lx : length x = dims o). { rewrite <- Hx. unfold transformed. rewrite map2_length, !map_length. rewrite Lm. destruct St as [St _]. unfold mat, vec in *. rewrite St. apply Nat.min_id. }
      split; [exact Lx|]. intros i Hi. set (T := cm_transform (st_cov (c_state c))) in *. pose proof St as [LT _].
      assert (Ex : nth i (transformed (c_state c) z) n0 = nadd (nth i (st_mean (c_state c)) n0) (nmul (st_sigma (c_state c)) (dot (nth i T []) z))).
      { unfold transformed. fold T. rewrite (Lib.nth_map2 nadd _ _ n0 (nmul (st_sigma (c_state c)) (dot [] z)) n0) by (rewrite ?map_length; unfold mat, vec in *; lia). rewrite (map_nth (nmul (st_sigma (c_state c)))), (map_nth (fun row => dot row z)). reflexivity. }
      unfold fin_comp. rewrite <- Hx, Ex. apply (moderate_add 900 (400 + 441)); [lia|lia|exact (Hm i Hi)|]. apply moderate_mul; [lia|exact Hsg|]. apply Sm; assumption.
    - intros Hln Hsz i Hi. pose proof (next_outcome ev' _ _ _ _ _ Hn) as [[_ [_ [_ H2]]]|[inds [ok [H1 [_ [_ [H4 _]]]]]]]; [unfold fin_comp, mean; rewrite H2; apply (Hm i Hi)|].
      destruct (reached_params ev' o _ c Hr) as [Hv [seed' Hp]]. pose proof (inds_moderate He Ht 250 o f c v vals par tk inds _ Hr Hdf Rx H1) as Ps.
      destruct (update_mean _ _ _ _ _ _ _ H4) as [yw [Eyw Emn]]. unfold fin_comp, mean. unfold calc_mean in Emn. assert (Ly : length yw = dims o).
      { unfold vadd_c in Emn. apply check_Ret in Emn. destruct Emn as [Emn _]. apply Nat.eqb_eq in Emn. unfold vscale in Emn. rewrite map_length in Emn. congruence. }
      destruct (vadd_nth _ _ _ i Emn) as [M1 _]; [unfold vec in *; lia|]. rewrite vscale_nth in M1 by (unfold vec in *; lia). rewrite M1.
      assert (Ecm : p_cm (c_params c) = o_cm o) by (rewrite Hp; reflexivity). rewrite Ecm.
      assert (Cm : moderate 0 (o_cm o)). { destruct (valid_cm o Hv) as [Q1 Q2]. split; [exact Q1|]. rewrite Rabs_pos_eq by lra. change (bpow radix2 0) with 1. lra. }
      apply (moderate_add 900 ((0 + 400) + (442 + 41))); [lia|lia|exact (Hm i Hi)|]. apply moderate_mul; [lia|apply moderate_mul; [lia|exact Cm|exact Hsg]|]. apply (yw_moderate Hln 441 o f c inds yw Hr Hsz ltac:(lia) Ps Eyw i Hi).
  Qed.
End FloatFinite.
Print Assumptions C90_finite.

(* The environment of C89_case, with small normal numbers. *)
Definition small_number (x : f64) : bool := is_finite x && nleb x (nofN 1024) && nleb (nofZ (-1024)) x.
Lemma small_moderate : forall e x, (10 <= e)%Z -> small_number x = true -> moderate e x.
Proof.
  intros e x He H. unfold small_number in H. apply andb_prop in H. destruct H as [H H3]. apply andb_prop in H. destruct H as [H1 H2]. pose proof (f2x_finite _ H1) as Ix.
  rewrite f2x_leb, Ix, (is_ofN 1024 ltac:(lia)) in H2. rewrite f2x_leb, Ix, (is_ofZ (-1024) ltac:(lia)) in H3. apply xle_leb in H2, H3. cbn in H2, H3. split; [exact H1|]. apply Rle_trans with (bpow radix2 10); [|apply bpow_le; exact He]. change (bpow radix2 10) with 1024. apply Rabs_le. lra.
Qed.
Lemma flat_tame : tame_generator (E := flat_env).
Proof.
  intros g. apply (small_moderate 100); [lia|]. cbn [rng_normal flat_env fst]. destruct (N.even g); [|vm_compute; reflexivity].
  assert (H : forallb small_number (map (fun k => nth k toy_normals n0) (seq 0 11)) = true) by (vm_compute; reflexivity). rewrite forallb_forall in H. apply H. apply in_map_iff. exists (N.to_nat (g mod 11)). split; [reflexivity|]. apply in_seq. pose proof (N.mod_lt g 11 ltac:(lia)) as Q. set (q := (g mod 11)%N) in *. clearbody q. lia.
Qed.
(* The session of C89_case: its covariance matrix has just been refreshed, and everything is small; the next call evaluates four points. *)
Example C90_case : eigen_shape (T := f64) (E := flat_env) /\ tame_generator (E := flat_env) /\ (forall n, accurate_solver (L := rounded_libm) (E := flat_env) n 0) /\ dims_fit c82_options /\
  accurate_ln (L := rounded_libm) /\ sizes_fit c82_options /\
  exists (c c' : cmaes (E := flat_env) f64 (unit * list (Spec.entry f64))) seed h r,
    used (LT := rounded_libm) (E := flat_env) toy_sphere c82_options tt seed h c /\ next (LT := rounded_libm) (E := flat_env) (log_ev toy_sphere) false (c82_tick RLeaf) c = Ret (r, c') /\
    st_last_eigen (c_state c) = function_evals c /\ function_evals c = 8%N /\
    (forall i j, (i < 2)%nat -> (j < 2)%nat -> moderate 400 (entry (L := rounded_libm) c i j)) /\ (forall i, (i < 2)%nat -> moderate 900 (nth i (mean c) n0)) /\ moderate 400 (sigma c) /\
    (length (calls c') = length (calls c) + 4)%nat /\ neqb (nth 1 (mean c) n0) (nth 1 (mean c') n0) = false.
Proof.
  split; [exact flat_shape|]. split; [exact flat_tame|]. split; [apply flat_accurate|]. split; [vm_compute; discriminate|]. split; [exact rounded_accurate|]. split; [split; [vm_compute; reflexivity|vm_compute; discriminate]|].
  set (two := seq 0 2).
  destruct (holds_ex (after (LT := rounded_libm) (E := flat_env) (log_ev toy_sphere) (tt, []) c82_options [ONext false (c82_tick RLeaf); ONext false (c82_tick RLeaf)])
    (fun c => (st_last_eigen (c_state c) =? function_evals c)%N && (function_evals c =? 8)%N && forallb (fun i => small_number (nth i (mean c) n0)) two && small_number (sigma c) &&
      forallb (fun i => forallb (fun j => small_number (entry (L := rounded_libm) c i j)) two) two &&
      holds (next (LT := rounded_libm) (E := flat_env) (log_ev toy_sphere) false (c82_tick RLeaf) c) (fun rc => Nat.eqb (length (calls (snd rc))) (length (calls c) + 4) && negb (neqb (nth 1 (mean c) n0) (nth 1 (mean (snd rc)) n0))))) as [c [H1 H2]].
  { vm_compute. reflexivity. }
  unfold after in H1. destruct (cmaes_new _ _ _ _) as [[c0|e]| |] eqn:H0 in H1; cbn [obind] in H1; [|discriminate H1|discriminate H1|discriminate H1].
  destruct (steps_used toy_sphere _ _ _ _ _ _ _ H0 H1) as [h Hu].
  apply andb_prop in H2. destruct H2 as [H2 H3]. apply andb_prop in H2. destruct H2 as [H2 H4]. apply andb_prop in H2. destruct H2 as [H2 H5]. apply andb_prop in H2. destruct H2 as [H2 H6]. apply andb_prop in H2. destruct H2 as [H2 H7].
  apply holds_ex in H3. destruct H3 as [[r c'] [H3 K]]. cbn [snd] in K. apply andb_prop in K. destruct K as [K1 K2].
  assert (In2 : forall i, (i < 2)%nat -> In i two) by (intros i Hi; apply in_seq; lia).
  exists c, c', (match o_seed c82_options with Some s => s | None => 0%N end), h, r. split; [exact Hu|]. split; [exact H3|]. split; [apply N.eqb_eq; exact H2|]. split; [apply N.eqb_eq; exact H7|]. split.
  { intros i j Hi Hj. apply small_moderate; [lia|]. rewrite forallb_forall in H4. specialize (H4 _ (In2 i Hi)). rewrite forallb_forall in H4. exact (H4 _ (In2 j Hj)). }
  split. { intros i Hi. apply small_moderate; [lia|]. rewrite forallb_forall in H6. exact (H6 _ (In2 i Hi)). }
  split; [apply small_moderate; [lia|exact H5]|]. split; [apply Nat.eqb_eq; exact K1|]. destruct (neqb _ _); [discriminate K2|reflexivity].
Qed.
