(* Exact arithmetic: scaling the search space by one positive factor and shifting it scales and shifts the search. *)
From Coq Require Import List NArith ZArith Bool Arith Lia Reals Lra.
Require Import Verif.Base Verif.Num Verif.XReal Verif.LinAlg Verif.Mode Verif.Weights Verif.Options Verif.Params Verif.Env
  Verif.State Verif.Sampling Verif.History Verif.Termination Verif.Plot Verif.Cmaes Verif.Lib Verif.Order
  Verif.NextInv Verif.Spec Verif.LogLemmas Verif.TraceLemmas Verif.BuildLemmas Verif.Sort Verif.PanicLemmas Verif.NextSafe Verif.CastLemmas
  Verif.RelLemmas Verif.TermLemmas Verif.Session Verif.TransLemmas.
Import ListNotations.
Open Scope nat_scope.

(* a * alpha, for a positive alpha *)
Definition grow (alpha : R) (a : xreal) : xreal := match a with XFin r => XFin (alpha * r) | _ => a end.
(* alpha * x + t and its inverse *)
Definition resize (alpha : R) (t : list R) (x : vec xreal) : vec xreal := map2 (fun a r => x_add (grow alpha a) (XFin r)) x t.
Definition unsize (alpha : R) (t : list R) (x : vec xreal) : vec xreal := map2 (fun a r => grow (/ alpha) (x_sub a (XFin r))) x t.

Ltac rcases :=
  repeat match goal with
  | |- context [Rlt_dec ?a ?b] => destruct (Rlt_dec a b)
  | |- context [Req_EM_T ?a ?b] => destruct (Req_EM_T a b)
  end.

Section Grow.
  Context (alpha : R) (Hpos : (0 < alpha)%R).
  Lemma grow_is_mul : forall a, grow alpha a = x_mul (XFin alpha) a.
  Proof. intros [|[]|r]; cbn; auto; unfold x_signed_inf, Rltb; rcases; auto; lra. Qed.
  Lemma grow_add : forall a b, x_add (grow alpha a) (grow alpha b) = grow alpha (x_add a b).
  Proof. intros [|[]|r] [|[]|s]; cbn; auto. f_equal. ring. Qed.
  Lemma grow_sign : forall s r, x_signed_inf s (alpha * r) = x_signed_inf s r.
  Proof.
    intros s r. unfold x_signed_inf, Rltb.
    assert (A : (0 < alpha * r <-> 0 < r)%R).
    { split; intros H; [|nra]. destruct (Rle_or_lt r 0); [nra|auto]. }
    assert (B : (alpha * r < 0 <-> r < 0)%R).
    { split; intros H; [|nra]. destruct (Rle_or_lt 0 r); [nra|auto]. }
    rcases; tauto.
  Qed.
  Lemma grow_mul_l : forall a b, x_mul (grow alpha a) b = grow alpha (x_mul a b).
  Proof.
    intros [|s|r] [|s'|r']; cbn; auto.
    - unfold x_signed_inf, Rltb. rcases; reflexivity.
    - rewrite grow_sign. unfold x_signed_inf, Rltb. rcases; reflexivity.
    - f_equal. ring.
  Qed.
  Lemma grow_mul_r : forall a b, x_mul a (grow alpha b) = grow alpha (x_mul a b).
  Proof.
    intros [|s|r] [|s'|r']; cbn; auto.
    - rewrite grow_sign. unfold x_signed_inf, Rltb. rcases; reflexivity.
    - unfold x_signed_inf, Rltb. rcases; reflexivity.
    - f_equal. ring.
  Qed.
  Lemma grow_ltb : forall a b, x_ltb (grow alpha a) (grow alpha b) = x_ltb a b.
  Proof.
    intros [|s|r] [|s'|r']; cbn; auto. unfold Rltb.
    assert (A : (alpha * r < alpha * r' <-> r < r')%R).
    { split; intros H; [|nra]. destruct (Rle_or_lt r' r); [nra|auto]. }
    rcases; tauto.
  Qed.
  Lemma grow_zero : forall r, (alpha * r = 0 <-> r = 0)%R.
  Proof. intros r. split; intros H; [|subst; ring]. apply Rmult_integral in H. destruct H; lra. Qed.
  Lemma grow_abs : forall a, x_abs (grow alpha a) = grow alpha (x_abs a).
  Proof. intros [|s|r]; cbn; auto. f_equal. rewrite Rabs_mult, (Rabs_pos_eq alpha) by lra. reflexivity. Qed.
  Lemma grow_div : forall a b, x_div (grow alpha a) (grow alpha b) = x_div a b.
  Proof.
    intros [|s|r] [|s'|r']; cbn; auto.
    - unfold Rltb. assert (B : (alpha * r' < 0 <-> r' < 0)%R).
      { split; intros H; [|nra]. destruct (Rle_or_lt 0 r'); [nra|auto]. }
      rcases; tauto.
    - rewrite grow_sign. unfold Reqb. pose proof (grow_zero r') as Z. destruct (Req_EM_T (alpha * r') 0), (Req_EM_T r' 0); try tauto.
      f_equal. field. split; lra.
  Qed.
  Lemma grow_valid : forall s, is_initial_step_size_valid (T := xreal) (grow alpha s) = is_initial_step_size_valid s.
  Proof.
    intros [|s|r]; auto. unfold is_initial_step_size_valid. cbn. unfold Reqb, Rltb. pose proof (grow_zero r) as Z.
    assert (A : (0 < alpha * r <-> 0 < r)%R).
    { split; intros H; [|nra]. destruct (Rle_or_lt r 0); [nra|auto]. }
    rcases; tauto.
  Qed.
  Lemma grow_inv : forall a, grow (/ alpha) (grow alpha a) = a.
  Proof. intros [|s|r]; cbn; auto. f_equal. field. lra. Qed.

  Lemma resize_eqb1 : forall a b r, x_eqb (x_add (grow alpha a) (XFin r)) (x_add (grow alpha b) (XFin r)) = x_eqb a b.
  Proof.
    intros [|s|q] [|s'|p] r; cbn; auto. unfold Reqb.
    assert (A : (alpha * q + r = alpha * p + r <-> q = p)%R).
    { split; intros H; [|subst; reflexivity]. apply (Rmult_eq_reg_l alpha); lra. }
    rcases; tauto.
  Qed.
  Lemma resize_length : forall t x, length x = length t -> length (resize alpha t x) = length x.
  Proof. unfold resize. intros t x. revert t. induction x as [|a x IH]; intros [|r t] H; cbn in *; auto; try discriminate. Qed.
  Lemma unsize_resize : forall t x, length x = length t -> unsize alpha t (resize alpha t x) = x.
  Proof.
    unfold resize, unsize. intros t x. revert t. induction x as [|a x IH]; intros [|r t] H; cbn in *; auto; try discriminate.
    rewrite IH by lia. f_equal. rewrite <- (grow_inv a) at 2. f_equal. destruct a as [|[]|q]; cbn; auto. f_equal. ring.
  Qed.
  Lemma resize_add : forall t x d, vadd (resize alpha t x) (map (grow alpha) d) = resize alpha t (vadd x d).
  Proof.
    unfold resize, vadd. intros t x. revert t. induction x as [|a x IH]; intros [|r t] [|b d]; cbn; auto.
    rewrite IH. f_equal. rewrite <- grow_add. rewrite !xadd_assoc. f_equal. apply xadd_comm.
  Qed.
  Lemma resize_add_c : forall t x d, length x = length t ->
    vadd_c (resize alpha t x) (map (grow alpha) d) = (y <- vadd_c x d ;; Ret (resize alpha t y)).
  Proof.
    intros t x d H. unfold vadd_c. rewrite resize_length by exact H. rewrite map_length.
    destruct (length x =? length d); cbn; auto. rewrite resize_add. reflexivity.
  Qed.
  Lemma resize_eqb : forall t x y, length x = length t -> length y = length x ->
    veqb (T := xreal) (resize alpha t x) (resize alpha t y) = veqb x y.
  Proof.
    unfold resize. intros t x. revert t. induction x as [|a x IH]; intros [|r t] [|b d] H1 H2; cbn [map2 veqb] in *; auto; try discriminate.
    cbn in H1, H2. rewrite (IH t d) by lia. f_equal. apply resize_eqb1.
  Qed.
  Lemma resize_nth_error : forall t x i, length x = length t -> forall a r, nth_error x i = Some a -> nth_error t i = Some r ->
    nth_error (resize alpha t x) i = Some (x_add (grow alpha a) (XFin r)).
  Proof.
    unfold resize. intros t x i. revert t x. induction i as [|i IH]; intros [|r0 t] [|a0 x] H a r Ha Hr; cbn in *; try discriminate.
    - congruence.
    - apply IH; auto.
  Qed.
  Lemma vscale_grow : forall s (y : vec xreal), vscale (grow alpha s) y = map (grow alpha) (vscale s y).
  Proof. intros s y. unfold vscale. rewrite map_map. apply map_ext. intros a. apply grow_mul_l. Qed.
End Grow.

Section Scale.
  Context {E : Env xreal}.
  Hypothesis Heig : eigen_shape (T := xreal).
  Context {F1 F2 : Type} (ev1 : F1 -> vec xreal -> outcome (xreal * F1)) (ev2 : F2 -> vec xreal -> outcome (xreal * F2)).
  Context (Rf : F1 -> F2 -> Prop) (alpha : R) (t : list R).
  Hypothesis Hpos : (0 < alpha)%R.
  Hypothesis Hev : forall x f1 f2, length x = length t -> Rf f1 f2 ->
    out_rel (fun a b => fst a = fst b /\ Rf (snd a) (snd b)) (ev1 f1 x) (ev2 f2 (resize alpha t x)).

  Definition scale_term (p : term_params xreal) : term_params xreal :=
    mkTermParams (tp_max_function_evals p) (tp_max_generations p) (tp_max_time p) (tp_fun_target p) (tp_tol_fun p) (tp_tol_fun_rel p)
      (tp_tol_fun_hist p) (grow alpha (tp_tol_x p)) (tp_tol_stagnation p) (tp_tol_x_up p) (tp_tol_condition_cov p).
  Definition scale_params (p : params xreal) : params xreal :=
    mkParams (p_mode p) (p_dim p) (p_lambda p) (p_mu p) (grow alpha (p_initial_sigma p)) (p_mu_eff p) (p_weights p) (p_weights_setting p)
      (p_cc p) (p_c1 p) (p_cs p) (p_cmu p) (p_cm p) (p_damp_s p) (scale_term (p_term p)) (p_seed p) (p_parallel_update p).
  Definition scale_state (s : state xreal) : state xreal :=
    mkState (st_generation s) (resize alpha t (st_mean s)) (st_cov s) (grow alpha (st_sigma s)) (st_path_c s) (st_path_sigma s) (st_last_eigen s).
  Definition scale_point (p : point xreal) : point xreal := mkPoint (resize alpha t (pt_point p)) (pt_step p) (pt_value p).
  Definition scale_ind (i : individual xreal) : individual xreal := mkIndividual (resize alpha t (i_point i)) (i_value i).
  Definition scale_history (h : history xreal) : history xreal :=
    mkHistory (h_best_values h) (h_median_values h) (option_map scale_ind (h_current_best h))
      (option_map scale_ind (h_overall_best h)) (h_first_median h) (h_best_median h).
  Definition scale_con (c : option (constraints xreal)) : option (constraints xreal) :=
    option_map (fun meets x => meets (unsize alpha t x)) c.
  Definition scale_data (d : term_data xreal) : term_data xreal :=
    mkTermData (option_map scale_ind (td_current_best d)) (option_map scale_ind (td_overall_best d))
      (resize alpha t (td_final_mean d)) (td_reasons d).

  Lemma update_scale : forall tree evals p inds s, length (st_mean s) = length t ->
    state_update tree evals (scale_params p) inds (scale_state s)
    = (r <- state_update tree evals p inds s ;; Ret (fst r, scale_state (snd r))).
  Proof.
    intros tree evals p inds s Hl. unfold state_update, calc_mean, calc_sigma.
    change (calc_yw (scale_params p)) with (calc_yw p).
    change (calc_path_sigma (scale_params p) (scale_state s)) with (calc_path_sigma p s).
    change (calc_path_c (scale_params p) (scale_state s)) with (calc_path_c p s).
    change (calc_rank_mu (scale_params p) tree (scale_state s)) with (calc_rank_mu p tree s).
    change (calc_cov (scale_params p) (scale_state s)) with (calc_cov p s).
    change (calc_hs (scale_params p)) with (calc_hs p).
    change (do_eigen_update (scale_params p) (scale_state s)) with (do_eigen_update p s).
    change (p_cm (scale_params p)) with (p_cm p). change (p_cs (scale_params p)) with (p_cs p).
    change (p_damp_s (scale_params p)) with (p_damp_s p). change (p_dim (scale_params p)) with (p_dim p).
    change (st_sigma (scale_state s)) with (grow alpha (st_sigma s)). change (st_cov (scale_state s)) with (st_cov s).
    change (st_generation (scale_state s)) with (st_generation s). change (st_last_eigen (scale_state s)) with (st_last_eigen s).
    change (st_mean (scale_state s)) with (resize alpha t (st_mean s)).
    change (nmul (p_cm p) (grow alpha (st_sigma s))) with (x_mul (p_cm p) (grow alpha (st_sigma s))). rewrite grow_mul_r by exact Hpos.
    destruct (calc_yw p inds) as [yw| |]; cbn [obind]; auto. rewrite vscale_grow by exact Hpos. rewrite resize_add_c by auto.
    change (x_mul (p_cm p) (st_sigma s)) with (nmul (p_cm p) (st_sigma s)).
    destruct (vadd_c (st_mean s) _) as [m| |]; cbn [obind]; auto.
    destruct (calc_path_sigma p s yw) as [ps| |]; cbn [obind]; auto.
    match goal with |- context [nmul (grow alpha (st_sigma s)) ?e] =>
      assert (Hs : nmul (grow alpha (st_sigma s)) e = grow alpha (nmul (st_sigma s) e)) by (apply grow_mul_l; exact Hpos); rewrite Hs; clear Hs end.
    destruct (calc_path_c p s _ yw) as [pc| |]; cbn [obind]; auto.
    destruct (calc_rank_mu p tree s inds) as [rm| |]; cbn [obind]; auto.
    destruct (calc_cov p s _ pc rm) as [cv| |]; cbn [obind]; auto.
    destruct (set_cov _ _ _) as [[[] cm]| |]; cbn [obind]; auto.
  Qed.

  Lemma to_point_scale : forall s y, length (st_mean s) = length t ->
    to_point y (resize alpha t (st_mean s)) (grow alpha (st_sigma s)) = (x <- to_point y (st_mean s) (st_sigma s) ;; Ret (resize alpha t x)).
  Proof. intros s y Hl. unfold to_point. rewrite vscale_grow by exact Hpos. apply resize_add_c; auto. Qed.
  Lemma to_point_length : forall (s : state xreal) y x, length (st_mean s) = length t -> to_point y (st_mean s) (st_sigma s) = Ret x -> length x = length t.
  Proof.
    intros s y x Hl H. unfold to_point, vadd_c in H. destruct (length (st_mean s) =? length (vscale (st_sigma s) y)) eqn:El; [|discriminate].
    apply Nat.eqb_eq in El. cbn in H. apply Ret_inj in H. subst x. rewrite <- Hl. unfold vadd. clear -El. revert El.
    generalize (vscale (st_sigma s) y). induction (st_mean s) as [|a m IH]; intros [|b d] H; cbn in *; auto; try discriminate.
  Qed.

  Definition scale_pt (a b : point xreal) : Prop := b = scale_point a.
  Lemma point_scale : forall s y f1 f2, length (st_mean s) = length t -> Rf f1 f2 ->
    out_rel (pair_rel Rf (opt_rel scale_pt)) (evaluate_point ev1 s y f1) (evaluate_point ev2 (scale_state s) y f2).
  Proof.
    intros s y f1 f2 Hl Hf. unfold evaluate_point. change (st_mean (scale_state s)) with (resize alpha t (st_mean s)).
    change (st_sigma (scale_state s)) with (grow alpha (st_sigma s)). rewrite to_point_scale by exact Hl.
    destruct (to_point y (st_mean s) (st_sigma s)) as [x| |] eqn:Ex; cbn [obind out_rel]; auto.
    pose proof (to_point_length s y x Hl Ex) as Hx.
    eapply out_rel_bind; [apply Hev; [exact Hx|exact Hf]|]. intros [v1 g1] [v2 g2] [Hv Hg]. cbn [fst snd] in *. subst v2.
    cbn. split; cbn; auto. destruct (x_is_nan v1); cbn; auto. reflexivity.
  Qed.

  Lemma con_scale : forall c s y, length (st_mean s) = length t -> ok_constraints (scale_con c) (scale_state s) y = ok_constraints c s y.
  Proof.
    intros [meets|] s y Hl; cbn; auto. rewrite to_point_scale by exact Hl.
    destruct (to_point y (st_mean s) (st_sigma s)) as [x| |] eqn:Ex; cbn [obind]; auto.
    rewrite unsize_resize; auto. apply (to_point_length s y x Hl Ex).
  Qed.

  Lemma history_scale : forall m inds h,
    history_update m (map scale_point inds) (scale_history h) = (r <- history_update m inds h ;; Ret (scale_history r)).
  Proof.
    intros m inds h. unfold history_update.
    assert (Hi : forall i, index (map scale_point inds) i = (p <- index inds i ;; Ret (scale_point p))).
    { intros i. unfold index. rewrite nth_error_map. destruct (nth_error inds i); reflexivity. }
    assert (Hm : get_median_value (map scale_point inds) = get_median_value inds).
    { unfold get_median_value. rewrite map_length. destruct (Nat.even _).
      - destruct (length inds / 2); auto. rewrite !Hi. destruct (index inds n) as [a| |]; cbn; auto. destruct (index inds (S n)) as [b| |]; cbn; auto.
      - rewrite !Hi. destruct (index inds _) as [a| |]; cbn; auto. }
    rewrite Hi, Hm. destruct (index inds 0) as [a| |]; cbn [obind]; auto.
    destruct (get_median_value inds) as [v| |]; cbn [obind]; auto. f_equal. unfold scale_history. cbn. f_equal.
    destruct (h_overall_best h) as [b|]; cbn; auto. destruct (is_better m (pt_value a) (i_value b)); reflexivity.
  Qed.

  Lemma check_scale : forall p evals created now s h inds, length (st_mean s) = length t ->
    N.to_nat (p_dim p) = length t -> shape (length t) (length t) (cm_eigenvectors (st_cov s)) ->
    check_termination (scale_params p) evals created now (scale_state s) (scale_history h) (map scale_point inds)
    = check_termination p evals created now s h inds.
  Proof.
    intros p evals created now s h inds Hl Hd Hv.
    assert (A1 : check_fun_target (scale_params p) (map scale_point inds) = check_fun_target p inds).
    { unfold check_fun_target. cbn [scale_params p_term scale_term tp_fun_target p_mode].
      destruct (tp_fun_target _); auto. induction inds as [|a inds IH]; cbn [map existsb]; auto. rewrite IH. reflexivity. }
    assert (A2 : check_tol_fun (scale_params p) (scale_history h) (map scale_point inds) = check_tol_fun p h inds).
    { unfold check_tol_fun. change (past_generations (scale_params p)) with (past_generations p).
      cbn [scale_history h_best_values h_first_median h_best_median scale_params p_term scale_term tp_tol_fun_hist tp_tol_fun tp_tol_fun_rel].
      rewrite map_map. reflexivity. }
    assert (Hn : forall a b, nmul (T := xreal) (grow alpha a) b = grow alpha (nmul a b)) by (intros; apply grow_mul_l; exact Hpos).
    assert (Hn2 : forall a b, nmul (T := xreal) a (grow alpha b) = grow alpha (nmul a b)) by (intros; apply grow_mul_r; exact Hpos).
    assert (Hab : forall a b, nltb (T := xreal) (nabs (nmul (grow alpha a) b)) (grow alpha (tp_tol_x (p_term p))) = nltb (nabs (nmul a b)) (tp_tol_x (p_term p))).
    { intros a b. rewrite Hn. change (nabs (grow alpha (nmul a b))) with (x_abs (grow alpha (nmul a b))). rewrite grow_abs by exact Hpos.
      apply grow_ltb. exact Hpos. }
    assert (A6 : check_tol_x (scale_params p) (scale_state s) = check_tol_x p s).
    { unfold check_tol_x. cbn [scale_params p_term scale_term tp_tol_x p_dim scale_state st_cov st_sigma st_path_c].
      assert (G : forall l, oall (fun i => c <- mget_c (cm_cov (st_cov s)) i i ;; Ret (nltb (nabs (nmul (grow alpha (st_sigma s)) c)) (grow alpha (tp_tol_x (p_term p))))) l
                          = oall (fun i => c <- mget_c (cm_cov (st_cov s)) i i ;; Ret (nltb (nabs (nmul (st_sigma s) c)) (tp_tol_x (p_term p)))) l).
      { induction l as [|i l IH]; cbn [oall]; auto. rewrite IH. destruct (mget_c _ i i) as [c| |]; cbn [obind]; auto. rewrite Hab. reflexivity. }
      rewrite G. destruct (oall _ _) as [b| |]; cbn [obind]; auto. do 2 f_equal.
      induction (st_path_c s) as [|x l IH]; cbn [forallb]; auto. rewrite IH, Hab. reflexivity. }
    assert (A3 : check_no_effect_axis (scale_params p) (scale_state s) = check_no_effect_axis p s).
    { unfold check_no_effect_axis. cbn [scale_params p_dim]. destruct (p_dim p =? 0)%N; auto. cbn [scale_state st_cov st_generation st_sigma st_mean].
      destruct (mget_c _ _ _) as [d| |]; cbn [obind]; auto. destruct (ncols _ <=? _); auto.
      rewrite Hn2, Hn, vscale_grow, resize_add_c by auto.
      unfold vadd_c. match goal with |- context [vscale ?a (column ?m ?i)] => set (dd := vscale a (column m i)) end.
      assert (Hdd : length dd = length (st_mean s)).
      { unfold dd, vscale, column. rewrite !map_length. rewrite (proj1 Hv). auto. }
      rewrite Hdd, Nat.eqb_refl. cbn [check obind]. f_equal. apply resize_eqb; auto.
      unfold vadd. clear -Hdd. revert Hdd. generalize dd. induction (st_mean s) as [|a m IH]; intros [|b d0] H; cbn in *; auto; try discriminate. }
    assert (A4 : check_no_effect_coord (scale_params p) (scale_state s) = check_no_effect_coord p s).
    { unfold check_no_effect_coord. cbn [scale_params p_dim]. rewrite Hd. cbn [scale_state st_cov st_sigma st_mean].
      assert (G : forall l, (forall i, In i l -> i < length t) ->
        oany (fun i => m <- index (resize alpha t (st_mean s)) i ;; c <- mget_c (cm_cov (st_cov s)) i i ;;
                       Ret (neqb m (nadd m (nmul (nmul (nlit 2 10) (grow alpha (st_sigma s))) c)))) l
        = oany (fun i => m <- index (st_mean s) i ;; c <- mget_c (cm_cov (st_cov s)) i i ;;
                       Ret (neqb m (nadd m (nmul (nmul (nlit 2 10) (st_sigma s)) c)))) l).
      { induction l as [|i l IH]; intros Hi; cbn [oany]; auto. rewrite IH by (intros j Hj; apply Hi; right; exact Hj).
        assert (Hit : i < length t) by (apply Hi; left; auto).
        destruct (nth_error (st_mean s) i) as [a|] eqn:Ea; [|apply nth_error_None in Ea; lia].
        destruct (nth_error t i) as [r|] eqn:Er; [|apply nth_error_None in Er; lia].
        unfold index at 1 3. rewrite (resize_nth_error alpha t (st_mean s) i Hl a r Ea Er), Ea. cbn [obind].
        destruct (mget_c _ i i) as [c| |]; cbn [obind]; auto. rewrite Hn2, Hn.
        generalize (nmul (nmul (nlit 2 10) (st_sigma s)) c). intros z.
        assert (Hz : nadd (x_add (grow alpha a) (XFin r)) (grow alpha z) = x_add (grow alpha (nadd a z)) (XFin r)).
        { change (x_add (x_add (grow alpha a) (XFin r)) (grow alpha z) = x_add (grow alpha (x_add a z)) (XFin r)).
          rewrite <- grow_add. rewrite !xadd_assoc. f_equal. apply xadd_comm. }
        rewrite Hz. change (neqb (x_add (grow alpha a) (XFin r)) (x_add (grow alpha (nadd a z)) (XFin r)))
          with (x_eqb (x_add (grow alpha a) (XFin r)) (x_add (grow alpha (nadd a z)) (XFin r))).
        rewrite resize_eqb1 by exact Hpos. reflexivity. }
      apply G. intros i Hi. apply in_seq in Hi. lia. }
    assert (A5 : check_tol_x_up (scale_params p) (scale_state s) = check_tol_x_up p s).
    { unfold check_tol_x_up. cbn [scale_params p_initial_sigma p_term scale_term tp_tol_x_up scale_state st_cov st_sigma].
      destruct (unwrap _) as [d| |]; cbn [obind]; auto. rewrite Hn.
      match goal with |- Ret (ngtb ?a _) = Ret (ngtb ?b _) => assert (Hq : a = b) by (apply grow_div; exact Hpos); rewrite Hq end. reflexivity. }
    unfold check_termination. rewrite A1, A2, A3, A4, A5, A6. reflexivity.
  Qed.

  Record scaled (c1 : cmaes xreal F1) (c2 : cmaes xreal F2) : Prop := {
    sc_sm : sampler_rel Rf (c_sampler c1) (c_sampler c2);
    sc_con : sm_constraints (c_sampler c2) = scale_con (sm_constraints (c_sampler c1));
    sc_params : c_params c2 = scale_params (c_params c1);
    sc_state : c_state c2 = scale_state (c_state c1);
    sc_hist : c_history c2 = scale_history (c_history c1);
    sc_created : c_created c2 = c_created c1
  }.

  Lemma sample_scale : forall par tk c1 c2, scaled c1 c2 -> length (st_mean (c_state c1)) = length t ->
    out_rel (fun r1 r2 => fst r2 = option_map (map scale_point) (fst r1) /\ scaled (snd r1) (snd r2))
      (cmaes_sample ev1 par tk c1) (cmaes_sample ev2 par tk c2).
  Proof.
    intros par tk c1 c2 [A1 A2 A3 A4 A5 A6] Hl. unfold cmaes_sample. rewrite A3, A4. cbn [scale_params p_mode].
    eapply out_rel_bind.
    { apply (sample_rel ev1 ev2 Rf scale_pt (c_state c1) (scale_state (c_state c1))
               (fun y f1 f2 => point_scale (c_state c1) y f1 f2 Hl) par tk (p_mode (c_params c1)) (p_mode (c_params c1))); auto.
      - intros y. rewrite A2. symmetry. apply con_scale. exact Hl.
      - intros a1 a2 b1 b2 -> ->. reflexivity. }
    intros [[l1|] sm1] [[l2|] sm2] [Hx [Hs [Hc1 Hc2]]]; cbn [fst snd opt_rel] in *; try contradiction.
    - assert (El : l2 = map scale_point l1). { clear -Hx. induction Hx as [|a b l1 l2 Hab Hx IH]; cbn; auto. rewrite <- IH, <- Hab. reflexivity. }
      rewrite El, A5, history_scale. destruct (history_update _ l1 _) as [h| |]; cbn [obind out_rel fst snd]; auto.
      split; auto. constructor; cbn; auto. rewrite Hc2, Hc1. exact A2.
    - cbn. split; auto. constructor; cbn; auto. rewrite Hc2, Hc1. exact A2.
  Qed.

  Lemma next_scale : forall o1 o2 par tk c1 c2, scaled c1 c2 -> wf o1 c1 -> wf o2 c2 -> dims o1 = length t ->
    out_rel (fun a b => fst b = option_map scale_data (fst a) /\ (scaled (snd a) (snd b) /\ wf o1 (snd a) /\ wf o2 (snd b)))
      (next ev1 par tk c1) (next ev2 par tk c2).
  Proof.
    intros o1 o2 par tk c1 c2 Hs Hw1 Hw2 Hd.
    assert (Hm : length (st_mean (c_state c1)) = length t) by (rewrite <- Hd; apply (ws_mean _ _ (wf_st _ _ Hw1))).
    pose proof (sample_scale par tk c1 c2 Hs Hm) as G.
    unfold next. destruct (cmaes_sample ev1 par tk c1) as [[r1 d1]| |] eqn:E1, (cmaes_sample ev2 par tk c2) as [[r2 d2]| |] eqn:E2;
      cbn [out_rel obind] in *; try contradiction; auto.
    destruct G as [G1 G2]. cbn [fst snd] in *.
    destruct (sampled_wf ev1 o1 par tk c1 r1 d1 Hw1 E1) as [W1 I1]. destruct (sampled_wf ev2 o2 par tk c2 r2 d2 Hw2 E2) as [W2 I2].
    destruct r1 as [i1|]; cbn [option_map] in G1; subst r2.
    - destruct (next_internal_core Heig o1 d1 tk i1 W1 I1) as [e1 [ok1 [N1 [V1 D1]]]].
      destruct (next_internal_core Heig o2 d2 tk _ W2 I2) as [e2 [ok2 [N2 [V2 D2]]]].
      rewrite N1, N2. clear N1 N2. destruct D1, D2. destruct G2 as [B1 B2 B3 B4 B5 B6].
      assert (Fe : function_evals d1 = function_evals d2) by apply B1.
      rewrite B3, B4, <- Fe in cd_state0. rewrite update_scale in cd_state0 by (rewrite <- Hd; apply (ws_mean _ _ (wf_st _ _ W1))).
      assert (Hup : state_update (t_tree tk) (function_evals d1) (c_params d1) (map scale_point i1) (c_state d1)
                    = state_update (t_tree tk) (function_evals d1) (c_params d1) i1 (c_state d1)).
      { apply state_update_rel. clear. induction i1; cbn; constructor; auto. reflexivity. }
      rewrite Hup, cd_state in cd_state0. cbn [obind fst snd] in cd_state0. apply Ret_inj in cd_state0. injection cd_state0 as Hok Hst.
      subst ok2.
      assert (Hr : core_check tk (map scale_point i1) d2 e2 ok1 = core_check tk i1 d1 e1 ok1).
      { unfold core_check. destruct ok1; [|reflexivity]. rewrite <- Fe, B3, B5, B6, <- Hst. apply check_scale.
        - rewrite <- Hd. apply (ws_mean _ _ (wf_st _ _ V1)).
        - destruct (wf_par _ _ W1) as [seed Hp]. rewrite Hp. cbn. rewrite Nat2N.id. exact Hd.
        - rewrite <- Hd. apply (ws_vecs _ _ (wf_st _ _ V1)). }
      assert (Hsim : scaled e1 e2) by (constructor; congruence).
      rewrite Hr. destruct (core_check tk i1 d1 e1 ok1) as [rs1| |]; cbn [obind out_rel fst snd]; auto.
      split; [|auto].
      unfold reply. destruct rs1 as [|x1 l1]; cbn [option_map]; auto. f_equal.
      unfold get_termination_data, current_best_individual, overall_best_individual, mean, scale_data. cbn.
      destruct Hsim as [_ _ _ S4 S5 _]. rewrite S4, S5. reflexivity.
    - cbn. split; [|auto]. destruct G2 as [_ _ _ S4 S5 _]. f_equal. unfold get_termination_data, current_best_individual, overall_best_individual, mean, scale_data.
      rewrite S4, S5. reflexivity.
  Qed.

  Lemma scaled_trans_l : forall a b c, same_core a b -> scaled b c -> scaled a c.
  Proof. intros a b c [A1 [A2 [A3 [A4 [A5 _]]]]] []. constructor; congruence. Qed.
  Lemma scaled_trans_r : forall a b c, scaled a b -> same_core c b -> scaled a c.
  Proof. intros a b c [] [A1 [A2 [A3 [A4 [A5 _]]]]]. constructor; congruence. Qed.
End Scale.
