(* C37, C39, C40, C42 and C62: the search distribution in exact arithmetic. *)
From Coq Require Import List NArith ZArith Bool Arith Lia Reals Lra Permutation Sorted.
From Flocq Require Import Core.
Require Import Verif.Base Verif.Num Verif.XReal Verif.XLe Verif.LinAlg Verif.Mode Verif.Weights Verif.Options Verif.Params Verif.Env
  Verif.State Verif.Sampling Verif.History Verif.Termination Verif.Plot Verif.Cmaes Verif.Lib Verif.Order Verif.Sort
  Verif.NextInv Verif.Spec Verif.LogLemmas Verif.SamplingLemmas Verif.BuildLemmas Verif.TraceLemmas Verif.NextSafe Verif.PlotLemmas Verif.PropRun
  Verif.RSum Verif.WeightLemmas Verif.PropWeights Verif.ExactStep Verif.ExactEigen Verif.ExactInv Verif.ExactPos Verif.Session Verif.XToy Verif.ExactToy.
Import ListNotations.
Open Scope nat_scope.

(* ---- specification ----
   Vocabulary defined with the lemmas, none of it about the model:
   fv n v x (RSum): the vector v consists of the n finite numbers x 0, ..., x (n-1); fm n m A: likewise for matrices;
   Sig n f: f 0 + ... + f (n-1); dotR, quad: scalar product and quadratic form;
   orthogonal, symmetric, posdef, diagonalizes (ExactEigen): the usual notions;
   exact_solver n: the eigen solver returns orthonormal eigenvectors and the eigenvalues of every symmetric matrix;
   finite_draws, nonzero_draws (ExactInv): the random vectors are finite, and not the zero vector;
   world o (ExactInv): the options o are accepted and the initial mean is finite, the solver is exact, the random vectors
   are finite, and not zero if the Negative weights are used. *)

(* a no worse than b *)
Definition no_worse (m : mode) (a b : xreal) : Prop := match m with Minimize => xle a b | Maximize => xle b a end.
(* convex sets of vectors with n components *)
Definition convex (n : nat) (K : (nat -> R) -> Prop) : Prop :=
  (forall x y, (forall i, i < n -> x i = y i) -> K x -> K y) /\
  (forall x y t, (0 <= t <= 1)%R -> K x -> K y -> K (fun i => ((1 - t) * x i + t * y i)%R)).
Definition transform {F} {E : Env xreal} (c : cmaes xreal F) : mat xreal := cm_transform (st_cov (c_state c)).
(* the decomposition kept beside the covariance matrix is one of that matrix *)
Definition represents (n : nat) (cm : cov_matrix xreal) (C : nat -> nat -> R) (e : nat -> R) : Prop :=
  exists T S V, fm n (cm_cov cm) C /\ fm n (cm_transform cm) T /\ fm n (cm_sqrt_inv cm) S /\ fm n (cm_eigenvectors cm) V /\
    (* transform * transform^T = C *)
    (forall i j, i < n -> j < n -> Sig n (fun k => T i k * T j k)%R = C i j) /\
    (* inverse square root, twice, times C = 1 *)
    (forall i j, i < n -> j < n -> Sig n (fun k => Sig n (fun l => S i l * S l k) * C k j)%R = delta i j) /\
    (* C V = V diag(e), V orthogonal *)
    diagonalizes n C V e /\ orthogonal n V /\ (forall k, k < n -> (0 < e k)%R).

(* ---- one generation as published ----
   N. Hansen, The CMA Evolution Strategy: A Tutorial (arXiv:1604.00772), equations (41)-(47), with the inverse square
   root of the covariance matrix as of the last refresh. `rates` (ExactStep) is a record of real numbers: dimension,
   mu, number of weights, weights, mu_eff, cc, c1, cs, cmu, cm, damp; par_fin p q: the parameters p are these. *)
Record dist := mkDist { d_mean : nat -> R; d_sigma : R; d_pc : nat -> R; d_ps : nat -> R; d_cov : nat -> nat -> R; d_inv : nat -> nat -> R }.
Definition observed {F} {E : Env xreal} (n : nat) (c : cmaes xreal F) (d : dist) : Prop :=
  fv n (mean c) (d_mean d) /\ sigma c = XFin (d_sigma d) /\ fv n (st_path_c (c_state c)) (d_pc d) /\ fv n (st_path_sigma (c_state c)) (d_ps d) /\
  fm n (covariance_matrix c) (d_cov d) /\ fm n (cm_sqrt_inv (st_cov (c_state c))) (d_inv d).
Definition norm (n : nat) (x : nat -> R) : R := sqrt (Sig n (fun i => x i * x i)%R).
Definition apply_matrix (n : nat) (A : nat -> nat -> R) (x : nat -> R) (i : nat) : R := Sig n (fun j => A i j * x j)%R.
(* the expected length of a normally distributed vector, as approximated in the tutorial *)
Definition expected_norm (n : nat) : R := (sqrt (INR n) * (1 - 1 / (4 * INR n) + 1 / (21 * INR n ^ 2)))%R.
Record published (q : rates) (g : N) (y : nat -> nat -> R) (h : R) (b a : dist) : Prop := {
  pu_h : (h = 0 \/ h = 1)%R;
  pu_mean : forall i, i < q_n q -> d_mean a i = (d_mean b i + q_cm q * d_sigma b * Sig (q_mu q) (fun k => q_w q k * y k i))%R;
  pu_ps : forall i, i < q_n q -> d_ps a i = ((1 - q_cs q) * d_ps b i +
            sqrt (q_cs q * (2 - q_cs q) * q_meff q) * apply_matrix (q_n q) (d_inv b) (fun j => Sig (q_mu q) (fun k => q_w q k * y k j)) i)%R;
  pu_sigma : d_sigma a = (d_sigma b * exp (q_cs q / q_ds q * (norm (q_n q) (d_ps a) / expected_norm (q_n q) - 1)))%R;
  pu_hs : (g < 1073741823)%N ->
    (h = 1%R <-> (norm (q_n q) (d_ps a) / sqrt (1 - (1 - q_cs q) ^ (2 * (N.to_nat g + 1))) < (14 / 10 + 2 / (INR (q_n q) + 1)) * expected_norm (q_n q))%R);
  pu_pc : forall i, i < q_n q -> d_pc a i = ((1 - q_cc q) * d_pc b i + h * sqrt (q_cc q * (2 - q_cc q) * q_meff q) * Sig (q_mu q) (fun k => q_w q k * y k i))%R;
  pu_cov : forall i j, i < q_n q -> j < q_n q -> d_cov a i j =
    ((1 + q_c1 q * ((1 - h) * q_cc q * (2 - q_cc q)) - q_c1 q - q_cmu q * Sig (q_cnt q) (q_w q)) * d_cov b i j +
     q_c1 q * d_pc a i * d_pc a j +
     q_cmu q * Sig (q_cnt q) (fun k => (if Rle_dec 0 (q_w q k) then q_w q k else q_w q k * (INR (q_n q) / norm (q_n q) (apply_matrix (q_n q) (d_inv b) (y k)) ^ 2)) * y k i * y k j))%R
}.

Lemma convex_sum : forall n K (w : nat -> R) (x : nat -> nat -> R) m, convex n K -> (forall k, k < S m -> (0 < w k)%R) -> (forall k, k < S m -> K (x k)) ->
  K (fun i => (Sig (S m) (fun k => w k * x k i) / Sig (S m) w)%R).
Proof.
  intros n K w x m [K1 K2]. induction m as [|m IH]; intros Hw Hx.
  - eapply K1; [|apply (Hx 0); lia]. intros i _. cbn [Sig]. pose proof (Hw 0 ltac:(lia)). field. lra.
  - assert (IH' := IH ltac:(intros; apply Hw; lia) ltac:(intros; apply Hx; lia)). pose proof (Hw (S m) ltac:(lia)) as Wm.
    assert (Wp : (0 < Sig (S m) w)%R) by (apply (Sig_pos _ _ 0); [intros; left; apply Hw; lia|lia|apply Hw; lia]).
    remember (S m) as p. set (a := Sig p w) in *. eapply K1; [|apply (K2 (fun i => (Sig p (fun k => w k * x k i) / a)%R) (x p) (w p / (a + w p))%R)]; [| |exact IH'|apply Hx; lia].
    + intros i _. cbn [Sig]. fold a. field. lra.
    + split; [apply Rmult_le_pos; [lra|left; apply Rinv_0_lt_compat; lra]|]. apply frac_le; lra.
Qed.
Lemma between_lo : forall a x y t, (0 <= t <= 1)%R -> (a <= x)%R -> (a <= y)%R -> (a <= (1 - t) * x + t * y)%R.
Proof. intros. assert (0 <= (1 - t) * (x - a))%R by (apply Rmult_le_pos; lra). assert (0 <= t * (y - a))%R by (apply Rmult_le_pos; lra). lra. Qed.
Lemma between_hi : forall a x y t, (0 <= t <= 1)%R -> (x <= a)%R -> (y <= a)%R -> ((1 - t) * x + t * y <= a)%R.
Proof. intros. assert (0 <= (1 - t) * (a - x))%R by (apply Rmult_le_pos; lra). assert (0 <= t * (a - y))%R by (apply Rmult_le_pos; lra). lra. Qed.
Lemma no_worse_ranked : forall m (a b : xreal), nis_nan a = false -> nis_nan b = false -> is_better m b a = false -> no_worse m a b.
Proof.
  intros m a b. destruct m; cbn [is_better no_worse]; unfold ngtb; destruct a as [|[]|a], b as [|[]|b]; cbn; try discriminate; auto; unfold Rltb;
    destruct (Rlt_dec _ _); intros; try discriminate; lra.
Qed.
Lemma sorted_impl : forall {A B} (f : A -> B) (P : A -> A -> Prop) (Q : B -> B -> Prop) l, (forall a b, In a l -> In b l -> P a b -> Q (f a) (f b)) ->
  StronglySorted P l -> StronglySorted Q (map f l).
Proof.
  intros A B f P Q l H S. induction S as [|a l S IH Fa]; cbn [map]; constructor.
  - apply IH. intros. apply H; [right|right|]; auto.
  - rewrite Forall_map. rewrite Forall_forall in *. intros b Hb. apply H; [left; reflexivity|right; exact Hb|]. apply Fa. exact Hb.
Qed.

Section Exact.
  Context {E : Env xreal} {F : Type}.

  Section Points.
    Context (ev : F -> vec xreal -> outcome (xreal * F)).
    Let ev' := log_ev ev.

    (* ---- C37 ---- *)
    Lemma sample_points : forall n par tk s m (sm : sampler xreal (F * list (entry xreal))) inds sm' mn sg T,
      sample ev' par tk s m sm = Ret (Some inds, sm') -> fv n (st_mean s) mn -> st_sigma s = XFin sg -> fm n (cm_transform (st_cov s)) T ->
      sm_dim sm = n -> finite_draws n ->
      length inds = N.to_nat (sm_population_size sm) /\
      forall p, In p inds -> nis_nan (pt_value p) = false /\ exists y, fv n (pt_step p) y /\ fv n (pt_point p) (fun i => (mn i + sg * y i)%R).
    Proof.
      intros n par tk s m sm inds sm' mn sg T H Hm Hs HT Hd Hf. apply sample_Some in H. destruct H as [ys [g [f [pts [H1 [H2 [H3 [H4 [H5 H6]]]]]]]]].
      subst inds sm'. split; [rewrite sort_by_length, <- (Forall2_len _ _ _ H4); exact H2|].
      intros p Hp. apply (Permutation_in _ (Permutation_sym (sort_by_perm _ _))) in Hp.
      assert (G : exists y, In y ys /\ evaluated s y p).
      { clear -H4 Hp. induction H4 as [|y q ys pts Hyq H4 IH]; [destruct Hp|]. destruct Hp as [-> |Hp]; [exists y; split; [left; reflexivity|exact Hyq]|].
        destruct (IH Hp) as [y0 [A B]]. exists y0. split; [right; exact A|exact B]. }
      destruct G as [y [Hy [Ey [Ept Env]]]]. split; [apply Env|]. apply resample_spec in H1. destruct H1 as [cands [out [R1 [R2 [R3 R4]]]]]. cbn [app] in R2. subst ys.
      apply (rounds_incl _ _ _ _ _ _ _ R1) in Hy. rewrite R3 in Hy. apply in_map_iff in Hy. destruct Hy as [k [Hk _]]. rewrite Hd in Hk.
      destruct (Hf (sm_rng sm) k) as [z Hz]. exists (fun i => Sig n (fun l => (T i l * z l)%R)).
      assert (St : fv n (pt_step p) (fun i => Sig n (fun l => (T i l * z l)%R))).
      { rewrite Ey, <- Hk. unfold step_at. apply (fm_mvmul n _ _ _ _ HT Hz). }
      split; [exact St|]. unfold to_point in Ept. rewrite Hs in Ept. rewrite <- Ey in Ept.
      destruct (fv_add n _ _ _ _ Hm (fv_scale n sg _ _ St)) as [A B]. rewrite A in Ept. apply (f_equal (fun r => match r with Ret x => x | _ => [] end)) in Ept. rewrite <- Ept. exact B.
    Qed.

    (* The new mean lies between the old one and the weighted average of the best points: whatever the history, as
       long as mean, sigma and transformation are finite. *)
    Theorem C37_mean : forall o f c par tk r c' m s T, reaches ev' o (f, []) c -> finite_draws (dims o) ->
      fv (dims o) (mean c) m -> sigma c = XFin s -> fm (dims o) (transform c) T ->
      next ev' par tk c = Ret (r, c') -> reports InvalidFunctionValue r = false ->
      exists new ranking (x : nat -> nat -> R) ws cm,
        calls c' = calls c ++ new /\ length new = lam o /\ Permutation new ranking /\
        StronglySorted (fun a b => no_worse (o_mode o) (snd a) (snd b)) ranking /\
        (forall k d, k < lam o -> fv (dims o) (fst (nth k ranking d)) (x k)) /\
        firstn (lam o / 2) (p_weights (c_params c)) = map XFin ws /\ length ws = lam o / 2 /\ Forall (fun w => 0 < w)%R ws /\ total ws = 1%R /\
        o_cm o = XFin cm /\ (0 < cm <= 1)%R /\
        fv (dims o) (mean c') (fun i => ((1 - cm) * m i + cm * total (map (fun kw => snd kw * x (fst kw) i) (combine (seq 0 (lam o / 2)) ws)))%R).
    Proof.
      intros o f c par tk r c' m s T Hr Hf Hm Hs HT Hn Hi.
      pose proof (next_outcome ev' _ _ _ _ _ Hn) as [[_ [H2 _]]|[inds [ok [H1 [_ [_ [H4 _]]]]]]]; [congruence|].
      pose proof (sample_ranked ev _ _ _ _ _ _ _ H1) as [pts [new [S1 [S2 [_ [S3 [S4 _]]]]]]].
      destruct (reaches_setup ev' o _ c Hr) as [rs [now [c0 [Hc0 Hss]]]]. pose proof (cmaes_new_inv _ _ _ _ _ Hc0) as C. cbv zeta in C. destruct C as [Hv [C2 [C3 _]]].
      destruct (C35_weights ev' o _ c Hr) as [ws0 [meff0 [c10 [cmu0 [W1 [_ [_ [_ [_ [W2 [W3 [W4 _]]]]]]]]]]]]. fold (lam o) in W2, W3, W4.
      destruct (params_fin o (match o_seed o with Some s => s | None => rs end) Hv) as [Hp Hq]. destruct Hss as [Q1 [_ [_ [Q2 [_ [_ Q3]]]]]].
      destruct (valid_opts o Hv) as [Hl [Hd [_ [cm [Hcm Hcm1]]]]].
      assert (Md : p_mode (c_params c) = o_mode o) by (rewrite Q1, C3; reflexivity).
      assert (Dm : sm_dim (c_sampler c) = dims o) by (rewrite Q2, C2; reflexivity). assert (Pp : sm_population_size (c_sampler c) = o_population_size o) by (rewrite Q3, C2; reflexivity).
      destruct (sample_points (dims o) par tk _ _ _ inds _ m s T H1 Hm Hs HT Dm Hf) as [L P]. rewrite Pp in L. fold (lam o) in L.
      set (q := rates_of o) in *. rewrite <- C3, <- Q1 in Hp.
      assert (Hmu : lam o / 2 = q_mu q) by (symmetry; apply half_div).
      assert (Hy : forall k d, k < lam o -> fv (dims o) (pt_step (nth k inds d)) (steps_of inds k) /\
        fv (dims o) (pt_point (nth k inds d)) (fun i => (m i + s * steps_of inds k i)%R)).
      { intros k d Hk. assert (K : k < length inds) by (rewrite L; exact Hk). destruct (P (nth k inds d) (nth_In _ _ K)) as [_ [y [Y1 Y2]]].
        destruct (steps_of_fv (dims o) inds k d y K Y1) as [Z1 Z2]. split; [exact Z1|]. eapply fv_ext; [|exact Y2]. intros i0 Hi0. cbn beta. rewrite (Z2 i0 Hi0). reflexivity. }
      exists new, (map pt_entry inds), (fun k i => (m i + s * steps_of inds k i)%R), (firstn (lam o / 2) ws0), cm.
      assert (Pn : Permutation new (map pt_entry inds)) by (rewrite <- S2; apply Permutation_map; exact S3).
      assert (Lw : length (firstn (lam o / 2) ws0) = lam o / 2).
      { rewrite firstn_length, W2. destruct (o_weights o); try lia. unfold lam. pose proof (Nat.div_le_upper_bound (N.to_nat (o_population_size o)) 2 (N.to_nat (o_population_size o))). lia. }
      split; [exact S1|]. split; [rewrite (Permutation_length Pn), map_length; exact L|]. split; [exact Pn|]. split.
      { apply (sorted_impl pt_entry _ _ inds) with (2 := S4). intros a b Ha Hb Hab. cbn [pt_entry snd]. rewrite Md in Hab. apply no_worse_ranked; [apply (P a Ha)|apply (P b Hb)|exact Hab]. }
      split. { intros k d Hk. destruct (nth_error inds k) as [p0|] eqn:Ep; [|apply nth_error_None in Ep; rewrite L in Ep; lia].
        rewrite (nth_indep _ d (pt_entry p0)) by (rewrite map_length, L; exact Hk). rewrite map_nth. cbn [pt_entry fst]. apply Hy. exact Hk. }
      split; [rewrite W1; apply firstn_map|]. split; [exact Lw|]. split; [exact W3|]. split; [exact W4|]. split; [exact Hcm|]. split; [exact Hcm1|].
      (* the update *)
      assert (Yq : forall k d, k < lam o -> fv (q_n q) (pt_step (nth k inds d)) (steps_of inds k)) by (intros; apply Hy; assumption).
      destruct (yw_exact q (lam o) (steps_of inds) (c_params c) inds Hp Hq L Yq) as [yw [Y1 Y2]].
      unfold state_update in H4. rewrite Y1 in H4. cbn [obind] in H4. unfold calc_mean in H4. unfold mean, sigma in Hm, Hs. rewrite (pf_cm _ _ Hp), Hs in H4. cbn [nmul Num_xreal x_mul] in H4.
      destruct (fv_add (dims o) _ _ _ _ Hm (fv_scale (dims o) (q_cm q * s) _ _ Y2)) as [A B]. rewrite A in H4. cbn [obind] in H4.
      assert (Em : st_mean (c_state c') = vadd (st_mean (c_state c)) (vscale (XFin (q_cm q * s)) yw)).
      { repeat match type of H4 with obind ?x _ = _ => let Ex := fresh "Ex" in destruct x as [?a|?|] eqn:Ex; cbn [obind] in H4; [|discriminate H4|discriminate H4] end.
        destruct a3 as [okk cmm]. cbn [obind] in H4. destruct okk; apply (f_equal (fun z => match z with Ret (_, st) => st_mean st | _ => [] end)) in H4; cbn [st_mean] in H4; symmetry; exact H4. }
      unfold mean. rewrite Em. eapply fv_ext; [|exact B]. intros i Hi0. cbn beta.
      assert (Ecm : q_cm q = cm) by (unfold q, rates_of; cbn [q_cm]; rewrite Hcm; reflexivity). rewrite Ecm.
      assert (Wn : forall k, k < lam o / 2 -> nth k (firstn (lam o / 2) ws0) 0%R = q_w q k).
      { intros k Hk. assert (X : nth k (p_weights (c_params c)) n0 = XFin (q_w q k)) by (apply (pf_w _ _ Hp); pose proof (ro_mu _ _ Hq); lia).
        assert (Kl : k < length ws0) by (rewrite firstn_length in Lw; lia). rewrite W1 in X. rewrite (nth_indep _ n0 (XFin 0)) in X by (rewrite map_length; exact Kl). rewrite map_nth in X.
        apply (f_equal re) in X. cbn [re] in X. etransitivity; [|exact X]. rewrite <- (firstn_skipn (lam o / 2) ws0) at 2. rewrite app_nth1 by (rewrite Lw; exact Hk). reflexivity. }
      assert (Es : total (map (fun kw => snd kw * (m i + s * steps_of inds (fst kw) i))%R (combine (seq 0 (lam o / 2)) (firstn (lam o / 2) ws0))) =
        Sig (lam o / 2) (fun k => q_w q k * (m i + s * steps_of inds k i))%R).
      { assert (Ec : combine (seq 0 (lam o / 2)) (firstn (lam o / 2) ws0) = map (fun k => (k, q_w q k)) (seq 0 (lam o / 2))).
        { apply (nth_ext _ _ (0, 0%R) (0, q_w q 0)); [rewrite combine_length, map_length, seq_length, Lw; lia|]. intros k Hk. rewrite combine_length, seq_length, Lw, Nat.min_id in Hk.
          rewrite combine_nth by (rewrite seq_length; symmetry; exact Lw). rewrite seq_nth by exact Hk. rewrite (map_nth (fun k => (k, q_w q k))). rewrite seq_nth by exact Hk. cbn [Nat.add]. f_equal. apply (Wn k Hk). }
        rewrite Ec, map_map, total_seq. reflexivity. }
      rewrite Es. assert (S1' : Sig (lam o / 2) (q_w q) = 1%R).
      { rewrite <- W4. transitivity (Sig (lam o / 2) (fun k => nth k (firstn (lam o / 2) ws0) 0%R)); [apply Sig_ext; intros k Hk; symmetry; apply (Wn k Hk)|]. rewrite <- total_seq. f_equal. symmetry. apply (nth_ext _ _ 0%R 0%R); [rewrite map_length, seq_length; exact Lw|].
        intros k Hk. rewrite Lw in Hk. rewrite nth_seq by exact Hk. reflexivity. }
      rewrite (Sig_ext _ _ (fun k => (q_w q k * m i + s * (steps_of inds k i * q_w q k))%R)) by (intros; ring). rewrite Sig_plus, Sig_mul_r, Sig_mul_l, S1'. unfold ywR. rewrite Hmu. ring.
    Qed.

    (* Hence it stays in every convex set containing the old mean and the points. *)
    Theorem C37_convex : forall o f c par tk r c' m s T new K, reaches ev' o (f, []) c -> finite_draws (dims o) ->
      fv (dims o) (mean c) m -> sigma c = XFin s -> fm (dims o) (transform c) T ->
      next ev' par tk c = Ret (r, c') -> calls c' = calls c ++ new ->
      convex (dims o) K -> K m -> (forall p y, In p new -> fv (dims o) (fst p) y -> K y) ->
      exists m', fv (dims o) (mean c') m' /\ K m'.
    Proof.
      intros o f c par tk r c' m s T new K Hr Hf Hm Hs HT Hn Hc HK Km Kx. destruct (reports InvalidFunctionValue r) eqn:Hi.
      - pose proof (next_outcome ev' _ _ _ _ _ Hn) as [[_ [_ [_ H2]]]|[inds [ok [_ [H2 _]]]]]; [|congruence]. exists m. split; [|exact Km]. rewrite H2. exact Hm.
      - destruct (C37_mean o f c par tk r c' m s T Hr Hf Hm Hs HT Hn Hi) as [new' [rk [x [ws [cm [A1 [A2 [A3 [_ [A5 [_ [A7 [A8 [A9 [_ [A11 A12]]]]]]]]]]]]]]]].
        assert (new' = new) by (rewrite A1 in Hc; apply app_inv_head in Hc; exact Hc). subst new'. eexists. split; [exact A12|].
        destruct HK as [K1 K2]. apply (K2 m (fun i => total (map (fun kw => (snd kw * x (fst kw) i)%R) (combine (seq 0 (lam o / 2)) ws))) cm); [lra|exact Km|].
        destruct (reaches_params ev' o _ c Hr) as [Hv _]. destruct (valid_opts o Hv) as [Hl _].
        assert (M2 : 1 <= lam o / 2) by (unfold lam; apply (Nat.div_le_lower_bound (N.to_nat (o_population_size o)) 2 1); lia).
        assert (M3 : lam o / 2 <= lam o) by (apply Nat.div_le_upper_bound; lia).
        destruct (lam o / 2) as [|mm] eqn:Emu; [lia|].
        assert (Wp : forall k, k < S mm -> (0 < nth k ws 0)%R) by (intros k Hk; rewrite Forall_forall in A8; apply A8; apply nth_In; rewrite A7; exact Hk).
        assert (Tw : Sig (S mm) (fun k => nth k ws 0%R) = 1%R).
        { rewrite <- total_seq, <- A9. f_equal. apply (nth_ext _ _ 0%R 0%R); [rewrite map_length, seq_length; symmetry; exact A7|]. intros k Hk. rewrite map_length, seq_length in Hk. apply nth_seq. exact Hk. }
        eapply K1; [|apply (convex_sum (dims o) K (fun k => nth k ws 0%R) x mm (conj K1 K2) Wp)].
        + intros i Hi0. rewrite Tw. unfold Rdiv. rewrite Rinv_1, Rmult_1_r. rewrite <- total_seq. apply (f_equal total).
          apply (nth_ext _ _ 0%R 0%R); [rewrite !map_length, combine_length, seq_length, A7, Nat.min_id; reflexivity|]. intros k Hk0. assert (Hk : k < S mm) by (rewrite map_length, seq_length in Hk0; exact Hk0). rewrite nth_seq by exact Hk.
          rewrite (nth_indep (map (fun kw => (snd kw * x (fst kw) i)%R) (combine (seq 0 (S mm)) ws)) 0%R ((fun kw => (snd kw * x (fst kw) i)%R) (0, 0%R))) by (rewrite map_length, combine_length, seq_length, A7, Nat.min_id; exact Hk).
          rewrite (map_nth (fun kw => (snd kw * x (fst kw) i)%R)), combine_nth by (rewrite seq_length; symmetry; exact A7). rewrite seq_nth by exact Hk. reflexivity.
        + intros k Hk. assert (Kl : k < length rk) by (rewrite <- (Permutation_length A3), A2; lia). destruct (nth_error rk k) as [d|] eqn:Ed; [|apply nth_error_None in Ed; lia].
          apply (Kx (nth k rk d)); [apply (Permutation_in _ (Permutation_sym A3)); apply nth_In; exact Kl|]. apply A5. lia.
    Qed.

    (* In particular: with Bounds, unlimited resampling and an initial mean within the bounds, the mean never leaves them. *)
    Theorem C37_bounds : forall o f c lower upper, world o -> reaches ev' o (f, []) c ->
      o_constraints o = Some (bounds_meets lower upper) -> o_max_resamples o = None ->
      bounds_meets lower upper (o_initial_mean o) = Ret true ->
      bounds_meets lower upper (mean c) = Ret true.
    Proof.
      intros o f c lower upper W Hr Hc Hm H0.
      assert (Rn : forall par tk a r b, reaches ev' o (f, []) a -> next ev' par tk a = Ret (r, b) -> reaches ev' o (f, []) b).
      { intros par tk a r b Ha Hn. apply (reaches_step ev' o _ a (ONext par tk) b Ha). cbn [step]. rewrite Hn. reflexivity. }
      set (K := fun x : nat -> R => bounds_meets lower upper (map XFin (map x (seq 0 (dims o)))) = Ret true).
      assert (HK : forall v x, fv (dims o) v x -> K x <-> bounds_meets lower upper v = Ret true).
      { intros v x Hx. unfold K. rewrite <- (fv_list _ _ _ Hx). tauto. }
      assert (CK : convex (dims o) K).
      { split.
        - intros x y Hxy. unfold K. intros H. rewrite <- H. do 2 f_equal. apply map_ext_in. intros i Hi. apply in_seq in Hi. symmetry. apply Hxy. lia.
        - intros x y t Ht. unfold K. rewrite !bounds_true. rewrite !map_length, seq_length. intros Hx Hy i Hi. specialize (Hx i Hi). specialize (Hy i Hi).
          unfold in_box_at in *. destruct Hx as [xi [l [u [X1 [X2 [X3 [X4 X5]]]]]]], Hy as [yi [l' [u' [Y1 [Y2 [Y3 [Y4 Y5]]]]]]].
          rewrite X2 in Y2. rewrite X3 in Y3. injection Y2 as <-. injection Y3 as <-.
          assert (N : forall g, nth_error (map XFin (map g (seq 0 (dims o)))) i = Some (XFin (g i))).
          { intros g. rewrite map_map. rewrite (nth_error_nth' _ (XFin (g 0))) by (rewrite map_length, seq_length; exact Hi). rewrite (map_nth (fun j => XFin (g j))), seq_nth by exact Hi. reflexivity. }
          rewrite N in X1, Y1. injection X1 as <-. injection Y1 as <-. eexists _, l, u. split; [apply N|]. split; [exact X2|]. split; [exact X3|].
          change (@nleb xreal _) with x_leb in *. rewrite !xle_leb in *. destruct l as [|[]|l], u as [|[]|u]; cbn [xle] in *; try contradiction; (split; [try exact I; try (apply between_lo; lra)|try exact I; try (apply between_hi; lra)]). }
      destruct Hr as [c0 [l [Hb Hst]]].
      assert (R0 : reaches ev' o (f, []) c0) by (exists c0, []; split; [exact Hb|reflexivity]).
      apply (steps_invariant ev' (fun a => reaches ev' o (f, []) a /\ bounds_meets lower upper (mean a) = Ret true)) with (l := l) (c := c0); auto.
      - intros a op b [Ra Ba] Hq Hs. split; [apply (reaches_step ev' o _ a op b Ra Hs)|]. pose proof (quiet_core ev' _ _ _ Hq Hs) as [_ [_ [Co _]]]. unfold mean. rewrite Co. exact Ba.
      - intros par tk a r b [Ra Ba] Hn. pose proof (Rn _ _ _ _ _ Ra Hn) as Rb. split; [exact Rb|].
        destruct (reaches_good ev' o _ a W Ra) as [v G]. pose proof (gd_fin _ _ _ G) as Sf.
        destruct (next_log ev par tk a b r Hn) as [cands [out [new [_ [_ [_ [Hnew _]]]]]]].
        destruct (C37_convex o f a par tk r b (v_m v) (v_sg v) (v_T v) new K Ra (wd_finite _ W) (sf_m _ _ _ Sf) (sf_sg _ _ _ Sf) (sf_T _ _ _ Sf) Hn Hnew CK) as [m' [M1 M2]].
        + apply (HK _ _ (sf_m _ _ _ Sf)). exact Ba.
        + intros p y Hp Hy. apply (HK _ _ Hy). destruct Rb as [cb [lb [[rs [now Hcb]] Hlb]]]. destruct (steps_used ev _ _ _ _ _ _ _ Hcb Hlb) as [h Hu].
          pose proof (constraints_hold ev o f _ h b _ Hc Hm Hu) as Ca. rewrite Hnew in Ca. apply Forall_app in Ca. destruct Ca as [_ Ca]. rewrite Forall_forall in Ca. apply (Ca p Hp).
        + apply (HK _ _ M1). exact M2.
      - split; [exact R0|]. destruct Hb as [rs [now Hb]]. pose proof (cmaes_new_inv _ _ _ _ _ Hb) as C. cbv zeta in C. destruct C as [_ [_ [_ [C4 _]]]]. unfold mean. rewrite C4. exact H0.
    Qed.
  End Points.

  (* ---- C62 ---- *)
  Lemma powi_loop_fin : forall p a acc, powi_loop (XFin acc) (XFin a) p = XFin (acc * a ^ Pos.to_nat p).
  Proof.
    induction p as [p IH|p IH|]; intros a acc; cbn [powi_loop].
    - change (nmul (XFin acc) (XFin a)) with (XFin (acc * a)). change (nmul (XFin a) (XFin a)) with (XFin (a * a)). rewrite IH. f_equal. rewrite Pos2Nat.inj_xI. cbn [pow]. rewrite pow_mult. cbn [pow]. rewrite Rmult_1_r. ring.
    - change (nmul (XFin a) (XFin a)) with (XFin (a * a)). rewrite IH. f_equal. rewrite Pos2Nat.inj_xO. rewrite pow_mult. cbn [pow]. rewrite Rmult_1_r. ring.
    - change (nmul (XFin acc) (XFin a)) with (XFin (acc * a)). change (Pos.to_nat 1) with 1. rewrite pow_1. reflexivity.
  Qed.
  Lemma powi_fin : forall a k, powi (XFin a) (Z.of_nat k) = XFin (a ^ k).
  Proof.
    intros a k. destruct k as [|k]; [reflexivity|]. unfold powi. cbn [Z.of_nat]. unfold n1. cbn [nofZ Num_xreal]. rewrite powi_loop_fin. rewrite SuccNat2Pos.id_succ, Rmult_1_l. reflexivity.
  Qed.
  Lemma small_exponent : forall g, (g < 1073741823)%N -> hs_exponent g = Z.of_nat (2 * (N.to_nat g + 1)).
  Proof.
    intros g H. unfold hs_exponent, i32_wrap. assert (Z.of_nat (2 * (N.to_nat g + 1)) = 2 * (Z.of_N g + 1))%Z as -> by lia.
    rewrite (Z.mod_small (Z.of_N g + _)) by lia. rewrite (Z.mod_small (Z.of_N g + _ - _ + 1 + _)) by lia. rewrite Z.mod_small by lia. lia.
  Qed.

  Context (ev : F -> vec xreal -> outcome (xreal * F)).

  Theorem C62_generation : forall o f c par tk r c', world o -> reaches (log_ev ev) o (f, []) c ->
    next (log_ev ev) par tk c = Ret (r, c') -> reports InvalidFunctionValue r = false ->
    exists q b a h (y : nat -> nat -> R) ranking, par_fin (c_params c) q /\ q_n q = dims o /\ observed (dims o) c b /\ observed (dims o) c' a /\
      (* y k is the step leading to the point of rank k *)
      (exists new, calls c' = calls c ++ new /\ Permutation new ranking) /\ length ranking = lam o /\
      StronglySorted (fun p1 p2 => no_worse (o_mode o) (snd p1) (snd p2)) ranking /\
      (forall k p, k < lam o -> fv (dims o) (fst (nth k ranking p)) (fun i => (d_mean b i + d_sigma b * y k i)%R)) /\
      published q (generation c) y h b a.
  Proof.
    intros o f c par tk r c' W Hr Hn Hi. destruct (reaches_good (log_ev ev) o _ c W Hr) as [v G]. pose proof (gd_fin _ _ _ G) as Sf.
    destruct (next_real (log_ev ev) o c v par tk r c' W G Hn) as [[X _]|[_ [v' [inds [h [G' [M Hs]]]]]]]; [congruence|]. pose proof (gd_fin _ _ _ G') as Sf'.
    destruct (gd_par _ _ _ G) as [seed Gp]. destruct (params_fin o seed (wd_valid _ W)) as [Hp Hq]. rewrite <- Gp in Hp. set (q := rates_of o) in *.
    pose proof (sample_ranked ev _ _ _ _ _ _ _ Hs) as [pts [new [S1 [S2 [_ [S3 [S4 _]]]]]]].
    destruct (sample_points ev (dims o) par tk _ _ _ inds _ (v_m v) (v_sg v) (v_T v) Hs (sf_m _ _ _ Sf) (sf_sg _ _ _ Sf) (sf_T _ _ _ Sf) (gd_dim _ _ _ G) (wd_finite _ W)) as [L P].
    rewrite (gd_pop _ _ _ G) in L. fold (lam o) in L. assert (Md : p_mode (c_params c) = o_mode o) by (rewrite Gp; reflexivity).
    exists q, (mkDist (v_m v) (v_sg v) (v_pc v) (v_ps v) (v_C v) (v_S v)), (mkDist (v_m v') (v_sg v') (v_pc v') (v_ps v') (v_C v') (v_S v')), h, (steps_of inds), (map pt_entry inds).
    split; [exact Hp|]. split; [reflexivity|]. split; [unfold observed; cbn [d_mean d_sigma d_pc d_ps d_cov d_inv]; destruct Sf; auto 10|]. split; [unfold observed; cbn [d_mean d_sigma d_pc d_ps d_cov d_inv]; destruct Sf'; auto 10|].
    split; [exists new; split; [exact S1|]; rewrite <- S2; apply Permutation_map; exact S3|]. split; [rewrite map_length; exact L|]. split.
    { apply (sorted_impl pt_entry _ _ inds) with (2 := S4). intros a b Ha Hb Hab. cbn [pt_entry snd]. rewrite Md in Hab. apply no_worse_ranked; [apply (P a Ha)|apply (P b Hb)|exact Hab]. }
    split.
    { intros k d Hk. cbn [d_mean d_sigma]. destruct (nth_error inds k) as [p0|] eqn:Ep; [|apply nth_error_None in Ep; rewrite L in Ep; lia].
      rewrite (nth_indep _ d (pt_entry p0)) by (rewrite map_length, L; exact Hk). rewrite map_nth. cbn [pt_entry fst]. assert (K : k < length inds) by (rewrite L; exact Hk).
      destruct (P (nth k inds p0) (nth_In _ _ K)) as [_ [y [Y1 Y2]]]. destruct (steps_of_fv (dims o) inds k p0 y K Y1) as [Z1 Z2].
      eapply fv_ext; [|exact Y2]. intros i0 Hi0. cbn beta. rewrite (Z2 i0 Hi0). reflexivity. }
    assert (En : forall x, norm (q_n q) x = normR q x) by reflexivity.
    assert (Ec : expected_norm (q_n q) = chiR q) by (unfold expected_norm, chiR; rewrite <- Rsqr_pow2; reflexivity).
    assert (Ey : forall i, Sig (q_mu q) (fun k => (q_w q k * steps_of inds k i)%R) = ywR q (steps_of inds) i) by (intros i; unfold ywR; apply Sig_ext; intros; ring).
    constructor; cbn [d_mean d_sigma d_pc d_ps d_cov d_inv].
    - apply (mv_h _ _ _ _ _ _ _ _ M).
    - intros i _. rewrite (mv_m _ _ _ _ _ _ _ _ M), Ey. reflexivity.
    - intros i _. rewrite (mv_ps _ _ _ _ _ _ _ _ M). unfold psR, apply_matrix. apply Rplus_eq_compat_l. rewrite <- Sig_mul_l. apply Sig_ext. intros j _. cbn beta. rewrite Ey. fold q. ring.
    - rewrite En, Ec, (mv_ps _ _ _ _ _ _ _ _ M), (mv_sg _ _ _ _ _ _ _ _ M). reflexivity.
    - intros Hg. pose proof (mv_hs _ _ _ _ _ _ _ _ M) as Hh. unfold calc_hs in Hh. rewrite (fv_magnitude _ _ _ (sf_ps _ _ _ Sf')) in Hh. rewrite (small_exponent _ Hg) in Hh.
      rewrite (chi_exact q (lamb o) (c_params c) Hp Hq) in Hh. rewrite (pf_cs _ _ Hp), (pf_dim _ _ Hp), fin_N, Nat2N.id in Hh. rewrite fin_lit in Hh by discriminate.
      pose proof (ro_cs _ _ Hq) as Cs. set (k := 2 * (N.to_nat (generation c) + 1)) in *. unfold n1, n2 in Hh. cbn [nofZ nsub Num_xreal x_sub x_add x_neg] in Hh. rewrite powi_fin in Hh. cbn [nsub nadd nsqrt Num_xreal x_sub x_add x_neg x_sqrt] in Hh.
      replace (1 + - q_cs q)%R with (1 - q_cs q)%R in Hh by ring.
      assert (Pk : (0 < 1 - (1 - q_cs q) ^ k)%R).
      { assert ((1 - q_cs q) ^ k < 1)%R; [|lra]. apply pow_lt_1_compat; [lra|unfold k; lia]. }
      replace (1 + - (1 - q_cs q) ^ k)%R with (1 - (1 - q_cs q) ^ k)%R in Hh by ring. rewrite (Rltb_false _ 0) in Hh by lra. pose proof (sqrt_lt_R0 _ Pk) as Sk.
      rewrite fin_div in Hh by lra. pose proof (pos_INR (q_n q)) as Np. rewrite fin_div in Hh by lra. cbn [nadd nmul nltb Num_xreal x_add x_mul x_ltb] in Hh. rewrite Ec.
      change (sqrt (Sig (dims o) (fun i => (v_ps v' i * v_ps v' i)%R))) with (norm (q_n q) (v_ps v')) in Hh. unfold Rltb in Hh. destruct (Rlt_dec _ _) as [Q|Q]; cbn in Hh; injection Hh as <-; split; intros; auto; try lra; contradiction.
    - intros i _. rewrite (mv_pc _ _ _ _ _ _ _ _ M), Ey. reflexivity.
    - intros i j _ _. rewrite (mv_pc _ _ _ _ _ _ _ _ M), (mv_C _ _ _ _ _ _ _ _ M). unfold covR, kR. fold q. apply Rplus_eq_compat_l. apply (f_equal (fun z => (q_cmu q * z)%R)). apply Sig_ext. intros k _.
      do 2 apply (f_equal (fun z => (z * _)%R)). unfold wcR. destruct (Rlt_dec (q_w q k) 0), (Rle_dec 0 (q_w q k)); try lra. apply (f_equal (fun z => (q_w q k * (INR (q_n q) / z))%R)).
      unfold norm. rewrite <- Rsqr_pow2. unfold Rsqr. rewrite sqrt_sqrt by (apply Sig_nonneg; intros; apply Rle_0_sqr). reflexivity.
  Qed.

  (* ---- C40 ---- *)
  Theorem C40_sigma : forall o f c, world o -> reaches ev o f c -> exists r, sigma c = XFin r /\ (0 < r)%R.
  Proof.
    intros o f c W Hr. destruct (reaches_good ev o f c W Hr) as [v G]. exists (v_sg v). split; [apply (sf_sg _ _ _ (gd_fin _ _ _ G))|apply (gd_sg _ _ _ G)].
  Qed.

  (* ---- C39 ---- *)
  Definition rates_below_one (p : params xreal) : Prop := exists c1 cmu, p_c1 p = XFin c1 /\ p_cmu p = XFin cmu /\ (c1 + cmu < 1)%R.
  Lemma speed_params : forall o f c, reaches ev o f c -> rates_below_one (c_params c) -> (speed o < 1)%R.
  Proof.
    intros o f c Hr [c1 [cmu [H1 [H2 H3]]]]. destruct (reaches_params ev o f c Hr) as [Hv [seed Hp]]. destruct (params_fin o seed Hv) as [P _]. rewrite <- Hp in P.
    rewrite (pf_c1 _ _ P) in H1. rewrite (pf_cmu _ _ P) in H2. injection H1 as <-. injection H2 as <-. exact H3.
  Qed.
  Theorem C39_positive_definite : forall o f c, world o -> reaches ev o f c -> rates_below_one (c_params c) ->
    (exists C, fm (dims o) (covariance_matrix c) C /\ symmetric (dims o) C /\ posdef (dims o) C) /\
    (forall par tk r c', next ev par tk c = Ret (r, c') -> reports PosDefCov r = false).
  Proof.
    intros o f c W Hr Hb. pose proof (speed_params o f c Hr Hb) as Sp. destruct (reaches_left ev o W Sp f c Hr) as [v [G Lo]]. split.
    - exists (v_C v). split; [apply (sf_C _ _ _ (gd_fin _ _ _ G))|]. split; [apply (dc_sym _ _ (gd_dec _ _ _ G))|]. apply (left_posdef o W Sp c v G Lo).
    - intros par tk r c' Hn. destruct (next_real ev o c v par tk r c' W G Hn) as [[_ [X _]]|[_ [v' [inds [h [G' [M _]]]]]]].
      + rewrite X. reflexivity.
      + destruct (moved_posdef o W Sp c c' v v' inds h _ G Lo M) as [PD _]. destruct (reports PosDefCov r); [|reflexivity]. exfalso. pose proof (mv_eig _ _ _ _ _ _ _ _ M) as Me.
        cbn [negb] in Me. destruct (do_eigen_update _ _ _); [|destruct Me; discriminate]. destruct Me as [V [lam [O1 [O2 [[k [Hk Hl]] _]]]]].
        pose proof (proj1 (posdef_eigenvalues _ V O1 _ lam O2) PD k Hk). lra.
  Qed.
  Theorem C39_population : forall o f c, reaches ev o f c -> lam o <= 2 * (dims o + 2) * (dims o + 2) - 4 -> rates_below_one (c_params c).
  Proof.
    intros o f c Hr Hb. pose proof (C36_rates ev o f c Hr) as X. cbv zeta in X.
    destruct (reaches_params ev o f c Hr) as [Hv [seed Hp]]. destruct (params_fin o seed Hv) as [P Hq]. rewrite <- Hp in P.
    exists (q_c1 (rates_of o)), (q_cmu (rates_of o)). split; [apply (pf_c1 _ _ P)|]. split; [apply (pf_cmu _ _ P)|].
    destruct (valid_opts o Hv) as [Hl [Hd _]]. unfold rates_of. cbn [q_c1 q_cmu]. set (n := INR (length (o_initial_mean o))). set (m := meff (o_weights o) (o_population_size o)).
    destruct (half_bounds _ Hl) as [Hh Hhb]. pose proof (meff_bounds (o_weights o) _ Hl) as [M1 M2]. fold m in M1, M2.
    assert (Q : (cmuR n m < 1 - c1R n m)%R); [|lra].
    assert (Hn : n = INR (N.to_nat (N.of_nat (length (o_initial_mean o))))) by (rewrite Nat2N.id; reflexivity). rewrite Hn.
    apply cmu_small; [lia|exact M1|]. rewrite <- Hn. apply Rle_trans with (1 := M2).
    assert (B2 : 2 * half (o_population_size o) <= 2 * ((dims o + 2) * (dims o + 2)) - 4) by (unfold lam in Hb; lia).
    assert (B3 : half (o_population_size o) + 2 <= (dims o + 2) * (dims o + 2)) by (assert (4 <= 2 * ((dims o + 2) * (dims o + 2))) by nia; lia).
    apply le_INR in B3. rewrite plus_INR, mult_INR, plus_INR in B3. change (INR (dims o)) with n in B3. cbn [INR] in B3. lra.
  Qed.

  (* ---- C42 ---- *)
  Lemma represents_of : forall n (cm : cov_matrix xreal) C V e, fm n (cm_cov cm) C -> symmetric n C -> orthogonal n V -> diagonalizes n C V e -> (forall k, k < n -> (0 < e k)%R) ->
    fm n (cm_eigenvectors cm) V -> fm n (cm_sqrt_inv cm) (compose n V (fun k => / sqrt (e k))%R) -> fm n (cm_transform cm) (fun i j => (V i j * sqrt (e j))%R) ->
    represents n cm C e.
  Proof.
    intros n cm C V e H1 Hsy H2 H3 H4 H5 H6 H7. exists (fun i j => (V i j * sqrt (e j))%R), (compose n V (fun k => / sqrt (e k))%R), V.
    assert (Sq : forall k, k < n -> (sqrt (e k) * sqrt (e k) = e k)%R) by (intros; apply sqrt_sqrt; left; apply H4; assumption).
    assert (Sp : forall k, k < n -> (0 < sqrt (e k))%R) by (intros; apply sqrt_lt_R0; apply H4; assumption).
    do 4 (split; [assumption|]). split; [|split; [|split; [exact H3|split; [exact H2|exact H4]]]].
    - intros i j Hi Hj. rewrite (spectral n V H2 C e H3 i j Hi Hj). unfold compose. apply Sig_ext. intros k Hk. rewrite <- (Sq k Hk) at 3. ring.
    - intros i j Hi Hj. rewrite (Sig_ext _ _ (fun k => (compose n V (fun l => / sqrt (e l) * / sqrt (e l)) i k * compose n V e k j)%R)).
      + rewrite (compose_mul n V H2 _ _ i j Hi Hj). rewrite <- (compose_one n V H2 i j Hi Hj). unfold compose. apply Sig_ext. intros k Hk. rewrite <- (Sq k Hk) at 3. pose proof (Sp k Hk). field. lra.
      + intros k Hk. rewrite (compose_mul n V H2 _ _ i k Hi Hk). rewrite <- (spectral n V H2 C e H3 k j Hk Hj). reflexivity.
  Qed.
  (* Every symmetric matrix: positive definite ones are decomposed; for others an error is returned and nothing changed. *)
  Theorem C42_matrix : forall n (cm : cov_matrix xreal) C, 1 <= n -> exact_solver n -> fm n (cm_cov cm) C -> symmetric n C ->
    (posdef n C -> exists cm' e, update_eigendecomposition cm = Ret (true, cm') /\ represents n cm' C e /\ fm n (cm_sqrt_eigenvalues cm') (fun i j => (delta i j * sqrt (e i))%R)) /\
    (~ posdef n C -> update_eigendecomposition cm = Ret (false, cm)).
  Proof.
    intros n cm C Hn Hs HC Hsy. destruct (update_eigen_exact n cm C Hn Hs HC Hsy) as [V [e [O1 [O2 O3]]]]. pose proof (posdef_eigenvalues n V O1 C e O2) as PE.
    destruct (existsb (fun k => if Rle_dec (e k) 0 then true else false) (seq 0 n)) eqn:Ex.
    - split; [|intros _; exact O3]. intros PD. exfalso. apply existsb_exists in Ex. destruct Ex as [k [K1 K2]]. apply in_seq in K1. pose proof (proj1 PE PD k ltac:(lia)).
      destruct (Rle_dec (e k) 0); [lra|discriminate K2].
    - assert (P : forall k, k < n -> (0 < e k)%R).
      { intros k Hk. destruct (Rle_dec (e k) 0) as [Q|Q]; [|lra]. exfalso. assert (X : true = false); [|discriminate X]. rewrite <- Ex. symmetry. apply existsb_exists.
        exists k. split; [apply in_seq; lia|]. destruct (Rle_dec (e k) 0); [reflexivity|lra]. }
      split; [|intros N; exfalso; apply N; apply PE; exact P]. intros _. destruct O3 as [cm' [U1 [U2 [U3 [U4 [U5 U6]]]]]]. exists cm', e. split; [exact U1|]. split; [|exact U4].
      apply (represents_of n cm' C V e); auto. rewrite U2. exact HC.
  Qed.
  (* At any time right after a refresh (the refresh is the most recent thing that happened: no evaluation since). *)
  Definition fresh (n : nat) (c : cmaes xreal F) (v : rstate) : Prop := (st_last_eigen (c_state c) <= function_evals c)%N /\
    (st_last_eigen (c_state c) = function_evals c -> forall i j, i < n -> j < n -> v_C v i j = compose n (v_B v) (fun k => (v_d v k * v_d v k)%R) i j).
  Lemma reaches_fresh : forall o f c, world o -> reaches ev o f c -> exists v, good o c v /\ fresh (dims o) c v.
  Proof.
    intros o f c W. revert f c. apply (reaches_invariant ev o (fresh (dims o)) W).
    - intros f c v Hb G E1 E2 E3 E4 E5. split; [rewrite E2; lia|]. intros _ i j Hi Hj. rewrite E3, E4, E5. rewrite <- (compose_one (dims o) delta (orth_delta _) i j Hi Hj). unfold compose. apply Sig_ext. intros. ring.
    - intros c c' v [A1 [A2 [A3 _]]] Hf. unfold fresh, function_evals in *. rewrite A1, A3. exact Hf.
    - intros c v c' G Hf E1 E2 _. unfold fresh in *. rewrite E1, E2. exact Hf.
    - intros c v c' v' inds h ok G [F1 F2] G' M. pose proof (mv_eig _ _ _ _ _ _ _ _ M) as Me. pose proof (mv_evals _ _ _ _ _ _ _ _ M) as Ev. destruct (valid_opts o (wd_valid _ W)) as [Hl _].
      destruct (do_eigen_update _ _ _).
      + destruct Me as [V [e [O1 [O2 O3]]]]. destruct ok.
        * destruct O3 as [O3 [O4 [O5 O6]]]. split; [lia|]. intros _ i j Hi Hj. rewrite O5, O6. rewrite (spectral _ V O1 (v_C v') e O2 i j Hi Hj). unfold compose. apply Sig_ext. intros k Hk.
          rewrite sqrt_sqrt by (left; apply O3; exact Hk). reflexivity.
        * destruct O3 as [_ [O4 _]]. split; [lia|]. intros X. lia.
      + destruct Me as [_ [O4 _]]. split; [lia|]. intros X. lia.
  Qed.
  Theorem C42_refreshed : forall o f c, world o -> reaches ev o f c -> st_last_eigen (c_state c) = function_evals c ->
    exists C e, fm (dims o) (covariance_matrix c) C /\ fv (dims o) (eigenvalues c) e /\ represents (dims o) (st_cov (c_state c)) C e.
  Proof.
    intros o f c W Hr He. destruct (reaches_fresh o f c W Hr) as [v [G [_ Hf]]]. specialize (Hf He). pose proof (gd_fin _ _ _ G) as Sf. pose proof (gd_dec _ _ _ G) as Dc. set (n := dims o) in *.
    exists (v_C v), (fun k => (v_d v k * v_d v k)%R). split; [apply (sf_C _ _ _ Sf)|]. split.
    - unfold eigenvalues. eapply fv_map; [apply (fm_diagonal n _ _ (sf_D _ _ _ Sf))|]. intros i Hi. cbn beta. rewrite delta_eq, Rmult_1_l. apply powi_2.
    - assert (Sd : forall k, k < n -> sqrt (v_d v k * v_d v k) = v_d v k) by (intros k Hk; apply sqrt_square; left; apply (dc_d _ _ Dc k Hk)).
      apply (represents_of n (st_cov (c_state c)) (v_C v) (v_B v)); [apply (sf_C _ _ _ Sf)|apply (dc_sym _ _ Dc)|apply (dc_orth _ _ Dc)| | |apply (sf_B _ _ _ Sf)| |].
      + intros i j Hi Hj. rewrite (Sig_ext _ _ (fun k => (compose n (v_B v) (fun k => v_d v k * v_d v k) i k * v_B v k j)%R)) by (intros k Hk; rewrite (Hf i k Hi Hk); reflexivity).
        unfold compose. rewrite (Sig_ext _ _ (fun k => Sig n (fun l => (v_B v i l * (v_d v l * v_d v l) * (v_B v k l * v_B v k j))%R))) by (intros k Hk; rewrite <- Sig_mul_r; apply Sig_ext; intros; ring).
        rewrite Sig_swap. rewrite (Sig_ext _ _ (fun l => (delta j l * (v_B v i l * (v_d v l * v_d v l)))%R)).
        * apply (Sig_delta n (fun l => (v_B v i l * (v_d v l * v_d v l))%R) j Hj).
        * intros l Hl. rewrite Sig_mul_l. rewrite (proj1 (dc_orth _ _ Dc) l j Hl Hj), (delta_sym l j). ring.
      + intros k Hk. pose proof (dc_d _ _ Dc k Hk). nra.
      + eapply fm_ext; [|apply (sf_S _ _ _ Sf)]. intros i j Hi Hj. rewrite (dc_S _ _ Dc i j Hi Hj). unfold compose. apply Sig_ext. intros k Hk. rewrite (Sd k Hk). reflexivity.
      + eapply fm_ext; [|apply (sf_T _ _ _ Sf)]. intros i j Hi Hj. cbn beta. rewrite (dc_T _ _ Dc i j Hi Hj), (Sd j Hj). reflexivity.
  Qed.
  (* ---- when the decomposition is refreshed ---- *)
  Theorem C42_schedule : forall o f c par tk r c', world o -> reaches ev o f c -> next ev par tk c = Ret (r, c') ->
    reports InvalidFunctionValue r = false -> reports PosDefCov r = false ->
    exists c1 cmu (period : N), p_c1 (c_params c) = XFin c1 /\ p_cmu (c_params c) = XFin cmu /\
      (let x := (INR (lam o) / (2 * INR (dims o) * (c1 + cmu)))%R in
       (x <= IZR 18446744073709551615 -> IZR (Z.of_N period) - 1 < x <= IZR (Z.of_N period))%R) /\
      st_last_eigen (c_state c') = (if st_last_eigen (c_state c) + period <=? function_evals c' then function_evals c' else st_last_eigen (c_state c))%N.
  Proof.
    intros o f c par tk r c' W Hr Hn H1 H2. destruct (reaches_good ev o f c W Hr) as [v G]. destruct (gd_par _ _ _ G) as [seed Gp].
    destruct (params_fin o seed (wd_valid _ W)) as [Hp Hq]. rewrite <- Gp in Hp.
    destruct (next_real ev o c v par tk r c' W G Hn) as [[X _]|[_ [v' [inds [h [G' [M _]]]]]]]; [congruence|].
    exists (q_c1 (rates_of o)), (q_cmu (rates_of o)), (evals_per_eigen_update (c_params c)). split; [apply (pf_c1 _ _ Hp)|]. split; [apply (pf_cmu _ _ Hp)|]. split.
    - cbv zeta. intros Hx. pose proof (ro_c1 _ _ Hq) as C1. pose proof (ro_cmu _ _ Hq) as C2. pose proof (ro_n _ _ Hq) as Hn1.
      unfold evals_per_eigen_update. rewrite (pf_c1 _ _ Hp), (pf_cmu _ _ Hp), (pf_dim _ _ Hp). rewrite fin_lit by discriminate. rewrite !fin_N.
      rewrite N2Nat.inj_mul, !Nat2N.id, mult_INR. change (q_n (rates_of o)) with (dims o) in *. assert (El : p_lambda (c_params c) = o_population_size o) by (rewrite Gp; reflexivity). rewrite El. fold (lam o).
      fold (speed o) in *. assert (Sp : (0 < speed o)%R) by (unfold speed; lra).
      assert (N1 : (1 <= INR (dims o))%R) by (change 1%R with (INR 1); apply le_INR; exact Hn1). set (n := INR (dims o)) in *. set (l := INR (lam o)) in *.
      cbn [nmul nadd Num_xreal x_mul x_add]. change (q_c1 (rates_of o) + q_cmu (rates_of o))%R with (speed o). set (s := speed o) in *.
      rewrite fin_div by (apply Rgt_not_eq; apply Rmult_lt_0_compat; nra). cbn [nceil Num_xreal x_ceil nto_usize x_to_usize]. rewrite Ztrunc_IZR.
      assert (Ex : (1 / 2 * n * l / (s * (n * n)) = l / (2 * n * s))%R) by (field; split; lra). rewrite Ex. set (x := (l / (2 * n * s))%R) in *.
      assert (X0 : (0 <= x)%R) by (unfold x; apply Rmult_le_pos; [apply pos_INR|left; apply Rinv_0_lt_compat; nra]).
      assert (Zx : (0 <= Zceil x <= 18446744073709551615)%Z). { split; [apply le_IZR; pose proof (Zceil_ub x); lra|]. apply Zceil_glb. exact Hx. }
      pose proof (Zceil_ub x) as U1. pose proof (Zceil_lb x) as U2. set (z := Zceil x) in *. clearbody z. rewrite Z.min_l by lia. rewrite Z.max_r by lia. rewrite Z2N.id by lia. lra.
    - pose proof (mv_eig _ _ _ _ _ _ _ _ M) as Me. rewrite H2 in Me. cbn [negb] in Me. unfold do_eigen_update in Me. destruct (_ <=? _)%N; [|apply Me]. destruct Me as [V [e [_ [_ [_ [X _]]]]]]. exact X.
  Qed.

End Exact.
Print Assumptions C37_mean.
Print Assumptions C37_convex.
Print Assumptions C37_bounds.
Print Assumptions C40_sigma.
Print Assumptions C39_positive_definite.
Print Assumptions C39_population.
Print Assumptions C42_matrix.
Print Assumptions C42_refreshed.
Print Assumptions C42_schedule.
Print Assumptions C62_generation.

(* Concrete cases (ExactToy): dimension two, x |-> |x|^2, draws 1, 2, 3, 1, ..., and a solver that is exact for all
   symmetric 2 x 2 matrices. Generation after generation passes without a failure, for each kind of weights. *)
Local Existing Instance plane_env.
Example C62_case : forall w (k : nat), exists c r c', world (plane_options w false) /\ reaches plane_ev (plane_options w false) (tt, []) c /\
  generation c = N.of_nat k /\ rates_below_one (c_params c) /\
  next plane_ev false (xtoy_tick RLeaf) c = Ret (r, c') /\ reports InvalidFunctionValue r = false /\ reports PosDefCov r = false.
Proof.
  intros w k. pose proof (plane_world w false) as W.
  assert (Rb : forall c, reaches plane_ev (plane_options w false) (tt, []) c -> rates_below_one (c_params c)).
  { intros c Hr. apply (C39_population plane_ev _ _ _ Hr). change (6 <= 28). lia. }
  assert (Nx : forall c, reaches plane_ev (plane_options w false) (tt, []) c -> exists r c', next plane_ev false (xtoy_tick RLeaf) c = Ret (r, c') /\ reports InvalidFunctionValue r = false /\ reports PosDefCov r = false).
  { intros c Hr. destruct (plane_next w c (xtoy_tick RLeaf) Hr ltac:(cbn; lia)) as [r [c' [H1 H2]]]. exists r, c'. split; [exact H1|]. split; [exact H2|].
    apply (proj2 (C39_positive_definite plane_ev _ _ _ W Hr (Rb c Hr)) _ _ _ _ H1). }
  assert (Rk : exists c, reaches plane_ev (plane_options w false) (tt, []) c /\ generation c = N.of_nat k).
  { induction k as [|k [c [Hr Hg]]].
    - pose proof (cmaes_new_outcome 0%N 0%N (tt, [] : list (entry xreal)) (plane_options w false)) as Hn. rewrite plane_valid in Hn. destruct Hn as [c Hn]. exists c. split.
      + exists c, []. split; [exists 0%N, 0%N; exact Hn|reflexivity].
      + pose proof (cmaes_new_inv _ _ _ _ _ Hn) as C. cbv zeta in C. destruct C as [_ [_ [_ [C4 _]]]]. unfold generation. rewrite C4. reflexivity.
    - destruct (Nx c Hr) as [r [c' [H1 [H2 H3]]]]. exists c'. split.
      + apply (reaches_step plane_ev _ _ c (ONext false (xtoy_tick RLeaf)) c' Hr). cbn [step]. rewrite H1. reflexivity.
      + pose proof (next_counters plane_ev _ _ _ _ _ H1) as [_ X]. rewrite H2, H3 in X. cbn [orb] in X. lia. }
  destruct Rk as [c [Hr Hg]]. destruct (Nx c Hr) as [r [c' [H1 [H2 H3]]]]. exists c, r, c'. auto 10.
Qed.
(* the hypotheses of C37_mean, and those of C37_convex that do not concern K *)
Example C37_case : forall w (k : nat), exists c r c' m s T, reaches plane_ev (plane_options w false) (tt, []) c /\ generation c = N.of_nat k /\
  finite_draws 2 /\ fv 2 (mean c) m /\ sigma c = XFin s /\ fm 2 (transform c) T /\
  next plane_ev false (xtoy_tick RLeaf) c = Ret (r, c') /\ reports InvalidFunctionValue r = false.
Proof.
  intros w k. destruct (C62_case w k) as [c [r [c' [W [Hr [Hg [_ [Hn [Hi _]]]]]]]]]. destruct (reaches_good plane_ev _ _ c W Hr) as [v G]. pose proof (gd_fin _ _ _ G) as Sf.
  exists c, r, c', (v_m v), (v_sg v), (v_T v). destruct Sf. pose proof (wd_finite _ W). auto 10.
Qed.
(* a half plane is convex *)
Example C37_half_plane : forall a b t, convex 2 (fun x => (a * x 0%nat + b * x 1%nat <= t)%R).
Proof. intros a b t. split; [intros x y H; rewrite (H 0), (H 1) by lia; auto|]. intros x y u Hu Hx Hy. cbn beta. nra. Qed.
(* a box, bounded below and on one side above, after one generation *)
Example C37_bounds_case : forall w, exists c r c', world (plane_options w true) /\ reaches plane_ev (plane_options w true) (tt, []) c /\
  next plane_ev false (xtoy_tick RLeaf) c = Ret (r, c') /\ reaches plane_ev (plane_options w true) (tt, []) c' /\
  o_constraints (plane_options w true) = Some (bounds_meets [XFin 0; XFin 0] [XFin 10; XInf false]) /\ o_max_resamples (plane_options w true) = None /\
  bounds_meets [XFin 0; XFin 0] [XFin 10; XInf false] (o_initial_mean (plane_options w true)) = Ret true.
Proof.
  intros w. pose proof (cmaes_new_outcome 0%N 0%N (tt, [] : list (entry xreal)) (plane_options w true)) as Hn. rewrite plane_valid in Hn. destruct Hn as [c Hn].
  assert (Hb : built (plane_options w true) (tt, []) c) by (exists 0%N, 0%N; exact Hn).
  assert (Hr : reaches plane_ev (plane_options w true) (tt, []) c) by (exists c, []; split; [exact Hb|reflexivity]).
  destruct (plane_box w c Hb) as [r [c' H]]. exists c, r, c'. split; [apply plane_world|]. split; [exact Hr|]. split; [exact H|]. split.
  { apply (reaches_step plane_ev _ _ c (ONext false (xtoy_tick RLeaf)) c' Hr). cbn [step]. rewrite H. reflexivity. }
  split; [reflexivity|]. split; [reflexivity|]. apply bounds_true.
  intros [|[|i]] Hi; cbn [plane_options plane_setters app apply_setters fold_left apply_setter options_new o_initial_mean length] in *; [| |lia]; eexists _, _, _; cbn [nth_error]; split; try reflexivity; split; try reflexivity; split; try reflexivity; split; try reflexivity; apply box_leb; lra.
Qed.
(* a matrix whose axes are not the coordinate axes *)
Example C42_case : forall w, exists c C, reaches plane_ev (plane_options w false) (tt, []) c /\ exact_solver 2 /\
  fm 2 [[XFin 2; XFin 1]; [XFin 1; XFin 3]] C /\ symmetric 2 C /\ posdef 2 C.
Proof.
  intros w. destruct (C62_case w 0) as [c [_ [_ [_ [Hr _]]]]]. exists c, (fun i j => match i, j with O, O => 2%R | S _, S _ => 3%R | _, _ => 1%R end).
  split; [exact Hr|]. split; [exact plane_solver|]. split.
  - split; [reflexivity|]. intros [|[|i]] Hi; [| |lia]; (split; [reflexivity|]); intros [|[|j]] Hj; try lia; reflexivity.
  - split; [intros [|i] [|j] _ _; reflexivity|]. intros x [i [Hi Hx]]. unfold quad. cbn [Sig].
    assert (P : (0 < x 0%nat * x 0%nat + x 1%nat * x 1%nat)%R).
    { assert (Q : forall z, z <> 0%R -> (0 < z * z)%R) by (intros z Hz; apply Rsqr_pos_lt in Hz; exact Hz). assert (S : forall z, (0 <= z * z)%R) by (intros; apply Rle_0_sqr).
      destruct i as [|[|i]]; [| |lia]; pose proof (Q _ Hx); pose proof (S (x 0)); pose proof (S (x 1)); lra. }
    pose proof (Rle_0_sqr (x 0 + x 1)) as Y. unfold Rsqr in Y. pose proof (Rle_0_sqr (x 1)) as Y1. unfold Rsqr in Y1. lra.
Qed.
(* with equal weights, the decomposition is refreshed in every generation *)
Example C42_refreshed_case : forall k : nat, exists c, world (plane_options WUniform false) /\ reaches plane_ev (plane_options WUniform false) (tt, []) c /\
  generation c = N.of_nat k /\ st_last_eigen (c_state c) = function_evals c.
Proof.
  intros [|k].
  - pose proof (cmaes_new_outcome 0%N 0%N (tt, [] : list (entry xreal)) (plane_options WUniform false)) as Hn. rewrite plane_valid in Hn. destruct Hn as [c Hn]. exists c. split; [apply plane_world|]. split.
    + exists c, []. split; [exists 0%N, 0%N; exact Hn|reflexivity].
    + pose proof (cmaes_new_inv _ _ _ _ _ Hn) as C. cbv zeta in C. destruct C as [_ [C1 [_ [C4 _]]]]. unfold generation, function_evals. rewrite C1, C4. split; reflexivity.
  - destruct (C62_case WUniform k) as [c [r [c' [W [Hr [Hg [_ [Hn [Hi Hp]]]]]]]]]. exists c'. split; [exact W|].
    assert (Hr' : reaches plane_ev (plane_options WUniform false) (tt, []) c') by (apply (reaches_step plane_ev _ _ c (ONext false (xtoy_tick RLeaf)) c' Hr); cbn [step]; rewrite Hn; reflexivity).
    split; [exact Hr'|]. pose proof (next_counters plane_ev _ _ _ _ _ Hn) as [X1 X2]. rewrite Hi, Hp in X2. cbn [orb] in X2. split; [lia|]. rewrite Hi in X1.
    destruct (C42_schedule plane_ev _ _ _ _ _ _ _ W Hr Hn Hi Hp) as [c1 [cmu [period [P1 [P2 [P3 P4]]]]]]. cbv zeta in P3. rewrite P4.
    destruct (reaches_params plane_ev _ _ c Hr) as [Hv [seed Hq]]. destruct (params_fin _ seed Hv) as [Hf _]. rewrite <- Hq in Hf. rewrite (pf_c1 _ _ Hf) in P1. rewrite (pf_cmu _ _ Hf) in P2.
    injection P1 as <-. injection P2 as <-. unfold rates_of in P3. cbn [q_c1 q_cmu] in P3.
    destruct (reaches_fresh plane_ev _ _ c W Hr) as [_ [_ [L _]]]. 
    assert (Pp : sm_population_size (c_sampler c) = 6%N) by (destruct (reaches_good plane_ev _ _ c W Hr) as [v G]; exact (gd_pop _ _ _ G)). rewrite Pp in X1.
    assert (Q : (period <= 6)%N).
    { change (o_weights (plane_options WUniform false)) with WUniform in P3. change (o_population_size (plane_options WUniform false)) with 6%N in P3.
      change (length (o_initial_mean (plane_options WUniform false))) with 2 in P3. change (dims (plane_options WUniform false)) with 2 in P3. change (lam (plane_options WUniform false)) with 6 in P3.
      assert (M : meff WUniform 6 = 3%R). { unfold meff, mass. change (half 6) with 3. cbn [Sig base]. field. }
      rewrite M in P3. assert (A : c1R (INR 2) 3 = (200 / 1389)%R) by (unfold c1R; cbn [INR]; field). assert (B : cmuR (INR 2) 3 = (8 / 57)%R).
      { unfold cmuR. rewrite A. assert (cmu0R (INR 2) 3 = (8 / 57)%R) as -> by (unfold cmu0R; cbn [INR]; field). apply Rmin_right. lra. }
      cbn [INR] in A, B, P3. rewrite A, B in P3. replace ((1 + 1 + 1 + 1 + 1 + 1) / (2 * (1 + 1) * (200 / 1389 + 8 / 57)))%R with (79173 / 15008)%R in P3 by field.
      specialize (P3 ltac:(lra)). apply N2Z.inj_le. apply Z.lt_succ_r. apply lt_IZR. rewrite succ_IZR. change (Z.of_N 6) with 6%Z. lra. }
    destruct (N.leb_spec (st_last_eigen (c_state c) + period) (function_evals c')); [reflexivity|lia].
Qed.
