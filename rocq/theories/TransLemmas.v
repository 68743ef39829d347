(* Exact arithmetic: sums do not depend on the reduction tree, and shifting the search space shifts the search. *)
From Coq Require Import List NArith ZArith Bool Arith Lia Reals Lra.
Require Import Verif.Base Verif.Num Verif.XReal Verif.LinAlg Verif.Mode Verif.Weights Verif.Options Verif.Params Verif.Env
  Verif.State Verif.Sampling Verif.History Verif.Termination Verif.Plot Verif.Cmaes Verif.Lib Verif.Order
  Verif.NextInv Verif.Spec Verif.LogLemmas Verif.TraceLemmas Verif.BuildLemmas Verif.Sort Verif.PanicLemmas Verif.NextSafe Verif.CastLemmas
  Verif.RelLemmas Verif.TermLemmas Verif.Session.
Import ListNotations.
Open Scope nat_scope.

Lemma xadd_comm : forall a b, x_add a b = x_add b a.
Proof. intros [|[]|r] [|[]|s]; cbn; auto. rewrite Rplus_comm. reflexivity. Qed.
Lemma xadd_assoc : forall a b c, x_add (x_add a b) c = x_add a (x_add b c).
Proof. intros [|[]|r] [|[]|s] [|[]|t]; cbn; auto. rewrite Rplus_assoc. reflexivity. Qed.
Lemma xadd_0_l : forall a, x_add (XFin 0) a = a.
Proof. intros [|[]|r]; cbn; auto. rewrite Rplus_0_l. reflexivity. Qed.

(* ---- reduction trees ---- *)
Lemma vadd_assoc : forall a b c : vec xreal, vadd (vadd a b) c = vadd a (vadd b c).
Proof. unfold vadd. induction a as [|x a IH]; intros [|y b] [|z c]; cbn; auto. rewrite IH. f_equal. apply xadd_assoc. Qed.
Lemma madd_assoc : forall a b c : mat xreal, madd (madd a b) c = madd a (madd b c).
Proof. unfold madd. induction a as [|x a IH]; intros [|y b] [|z c]; cbn; auto. rewrite IH. f_equal. apply vadd_assoc. Qed.
Lemma zeros_row : forall n (r : vec xreal), length r = n -> vadd (map (fun _ : nat => n0 (T := xreal)) (seq 0 n)) r = r.
Proof.
  intros n r. unfold vadd. generalize 0 as k. revert r. induction n as [|n IH]; intros [|x r] k H; cbn [seq map map2]; try discriminate; auto.
  rewrite (IH r (S k)) by (cbn in H; lia). f_equal. apply xadd_0_l.
Qed.
Lemma madd_const : forall (z : vec xreal) (m : mat xreal) k, Forall (fun r => vadd z r = r) m -> map2 vadd (map (fun _ : nat => z) (seq k (length m))) m = m.
Proof. intros z m k H. revert k. induction H as [|r m Hr H IH]; intros k; cbn [length seq map map2]; auto. rewrite IH, Hr. reflexivity. Qed.
Lemma madd_zeros : forall n (m : mat xreal), shape n n m -> madd (mzeros n) m = m.
Proof.
  intros n m [Hl Hr]. unfold mzeros, mbuild, madd.
  transitivity (map2 vadd (map (fun _ : nat => map (fun _ : nat => n0 (T := xreal)) (seq 0 n)) (seq 0 (length m))) m).
  - rewrite Hl. reflexivity.
  - apply madd_const. eapply Forall_impl; [|exact Hr]. intros r H. apply zeros_row. exact H.
Qed.
Lemma vadd_comm : forall a b : vec xreal, vadd a b = vadd b a.
Proof. unfold vadd. induction a as [|x a IH]; intros [|y b]; cbn [map2]; auto. rewrite IH. f_equal. apply xadd_comm. Qed.
Lemma madd_comm : forall a b : mat xreal, madd a b = madd b a.
Proof. unfold madd. induction a as [|x a IH]; intros [|y b]; cbn [map2]; auto. rewrite IH. f_equal. apply vadd_comm. Qed.
Lemma shape_zeros : forall {T} {NT : Num T} n, shape n n (mzeros (T := T) n).
Proof. intros T NT n. apply shape_mbuild. Qed.

(* the plain sum of a list of matrices *)
Definition total (n : nat) (l : list (mat xreal)) : mat xreal := fold_left madd l (mzeros n).
Lemma same_shape_ok : forall n (a b : mat xreal), 1 <= n -> shape n n a -> shape n n b -> same_shape a b = true.
Proof.
  intros n a b Hn Ha Hb. unfold same_shape. rewrite (shape_ncols n n a Ha Hn). pose proof Ha as [-> _].
  rewrite (proj1 (shape_is_shape n n b) Hb), (proj1 (shape_is_shape n n a) Ha). reflexivity.
Qed.
Lemma msum_from_fold : forall n, 1 <= n -> forall (l : list (mat xreal)) acc, Forall (shape n n) l -> shape n n acc ->
  msum_from (T := xreal) acc l = Ret (fold_left madd l acc).
Proof.
  intros n Hn. induction l as [|m l IH]; intros acc H Ha; cbn [fold_left msum_from]; auto. apply Forall_inv in H as Hm. apply Forall_inv_tail in H.
  unfold madd_c. rewrite (same_shape_ok n) by auto. cbn [check obind]. apply IH; auto. apply shape_madd; auto.
Qed.
Lemma fold_madd_out : forall n (l : list (mat xreal)) (acc : mat xreal), Forall (shape n n) l -> shape n n acc ->
  fold_left madd l acc = madd acc (total n l) /\ shape n n (total n l).
Proof.
  intros n l. unfold total.
  assert (G : forall (l : list (mat xreal)) a b, fold_left madd l (madd a b) = madd a (fold_left madd l b)).
  { clear. induction l as [|m l IH]; intros a b; cbn [fold_left]; auto. rewrite madd_assoc. apply IH. }
  assert (Z : forall (l : list (mat xreal)) acc, Forall (shape n n) l -> shape n n acc -> shape n n (fold_left madd l acc)).
  { clear. induction l as [|m l IH]; intros acc H Ha; cbn [fold_left msum_from]; auto. apply IH; [apply Forall_inv_tail in H; auto|].
    apply Forall_inv in H. apply shape_madd; auto. }
  intros acc H Ha. split; [|apply Z; auto; apply shape_zeros]. rewrite <- G. f_equal.
  rewrite madd_comm. symmetry. apply madd_zeros. exact Ha.
Qed.

Lemma reduce_total : forall n, 1 <= n -> forall t l, Forall (shape n n) l -> rank_mu_update_parallel (T := xreal) n t l = Ret (total n l).
Proof.
  intros n Hn. induction t as [|k a IHa b IHb]; intros l H; cbn [rank_mu_update_parallel].
  - apply (msum_from_fold n); auto. apply shape_zeros.
  - assert (H1 : Forall (shape n n) (firstn k l)). { rewrite <- (firstn_skipn k l) in H. apply Forall_app in H. apply H. }
    assert (H2 : Forall (shape n n) (skipn k l)). { rewrite <- (firstn_skipn k l) in H. apply Forall_app in H. apply H. }
    rewrite (IHa _ H1), (IHb _ H2). cbn [obind].
    pose proof (fold_madd_out n (firstn k l) (mzeros n) H1 (shape_zeros n)) as [_ S1].
    pose proof (fold_madd_out n (skipn k l) (total n (firstn k l)) H2 S1) as [E1 S2].
    unfold madd_c. rewrite (same_shape_ok n) by auto. cbn [check obind]. f_equal. rewrite <- E1. unfold total at 2.
    rewrite <- (firstn_skipn k l) at 3. rewrite fold_left_app. reflexivity.
Qed.
Lemma sum_total : forall n, 1 <= n -> forall l, Forall (shape n n) l -> l <> [] -> rank_mu_update (T := xreal) l = Ret (total n l).
Proof.
  intros n Hn [|m l] H Hl; [congruence|]. unfold rank_mu_update, msum_c. apply Forall_inv in H as Hm. apply Forall_inv_tail in H.
  rewrite (msum_from_fold n) by auto. unfold total. cbn [fold_left]. rewrite madd_zeros by auto. reflexivity.
Qed.

(* ---- shifting ---- *)
Definition shift (t : list R) (x : vec xreal) : vec xreal := map2 (fun a r => x_add a (XFin r)) x t.
Definition unshift (t : list R) (x : vec xreal) : vec xreal := map2 (fun a r => x_sub a (XFin r)) x t.
Lemma shift_length : forall t x, length x = length t -> length (shift t x) = length x.
Proof. unfold shift. intros t x. revert t. induction x as [|a x IH]; intros [|r t] H; cbn in *; auto; try discriminate. Qed.
Lemma unshift_shift : forall t x, length x = length t -> unshift t (shift t x) = x.
Proof.
  unfold shift, unshift. intros t x. revert t. induction x as [|a x IH]; intros [|r t] H; cbn in *; auto; try discriminate.
  rewrite IH by lia. f_equal. destruct a as [|[]|q]; cbn; auto. f_equal. ring.
Qed.
Lemma shift_add : forall t x d, vadd (shift t x) d = shift t (vadd x d).
Proof.
  unfold shift, vadd. intros t x. revert t. induction x as [|a x IH]; intros [|r t] [|b d]; cbn; auto.
  rewrite IH. f_equal. rewrite !xadd_assoc. f_equal. apply xadd_comm.
Qed.
Lemma shift_add_c : forall t x d, length x = length t -> vadd_c (shift t x) d = (y <- vadd_c x d ;; Ret (shift t y)).
Proof.
  intros t x d H. unfold vadd_c. rewrite shift_length by exact H. destruct (length x =? length d); cbn; auto. rewrite shift_add. reflexivity.
Qed.
Lemma shift_eqb : forall t x d, length x = length t -> length d = length x ->
  veqb (T := xreal) (shift t x) (shift t (vadd x d)) = veqb x (vadd x d).
Proof.
  unfold shift, vadd. intros t x. revert t. induction x as [|a x IH]; intros [|r t] [|b d] H1 H2; cbn in *; auto; try discriminate.
  rewrite (IH t d) by lia. f_equal. destruct a as [|[]|q], b as [|[]|p]; cbn; auto.
  unfold Reqb. destruct (Req_EM_T _ _), (Req_EM_T _ _); auto; lra.
Qed.
Lemma shift_eqb1 : forall a r b, x_eqb (x_add a (XFin r)) (x_add (x_add a (XFin r)) b) = x_eqb a (x_add a b).
Proof.
  intros [|[]|q] r [|[]|p]; cbn; auto. unfold Reqb. destruct (Req_EM_T _ _), (Req_EM_T _ _); auto; lra.
Qed.
Lemma shift_nth_error : forall t x i, length x = length t -> forall a r, nth_error x i = Some a -> nth_error t i = Some r ->
  nth_error (shift t x) i = Some (x_add a (XFin r)).
Proof.
  unfold shift. intros t x i. revert t x. induction i as [|i IH]; intros [|r0 t] [|a0 x] H a r Ha Hr; cbn in *; try discriminate.
  - congruence.
  - apply IH; auto.
Qed.

Section Shift.
  Context {E : Env xreal}.
  Hypothesis Heig : eigen_shape (T := xreal).
  Context {F1 F2 : Type} (ev1 : F1 -> vec xreal -> outcome (xreal * F1)) (ev2 : F2 -> vec xreal -> outcome (xreal * F2)).
  Context (Rf : F1 -> F2 -> Prop) (t : list R).
  Hypothesis Hev : forall x f1 f2, length x = length t -> Rf f1 f2 ->
    out_rel (fun a b => fst a = fst b /\ Rf (snd a) (snd b)) (ev1 f1 x) (ev2 f2 (shift t x)).

  Definition with_mean (m : vec xreal) (s : state xreal) : state xreal :=
    mkState (st_generation s) m (st_cov s) (st_sigma s) (st_path_c s) (st_path_sigma s) (st_last_eigen s).
  Definition shift_state (s : state xreal) : state xreal := with_mean (shift t (st_mean s)) s.
  Definition shift_point (p : point xreal) : point xreal := mkPoint (shift t (pt_point p)) (pt_step p) (pt_value p).
  Definition shift_ind (i : individual xreal) : individual xreal := mkIndividual (shift t (i_point i)) (i_value i).
  Definition shift_history (h : history xreal) : history xreal :=
    mkHistory (h_best_values h) (h_median_values h) (option_map shift_ind (h_current_best h))
      (option_map shift_ind (h_overall_best h)) (h_first_median h) (h_best_median h).
  Definition shift_con (c : option (constraints xreal)) : option (constraints xreal) :=
    option_map (fun meets x => meets (unshift t x)) c.
  Definition shift_data (d : term_data xreal) : term_data xreal :=
    mkTermData (option_map shift_ind (td_current_best d)) (option_map shift_ind (td_overall_best d))
      (shift t (td_final_mean d)) (td_reasons d).

  Lemma update_shift : forall tree evals p inds s, length (st_mean s) = length t ->
    state_update tree evals p inds (shift_state s)
    = (r <- state_update tree evals p inds s ;; Ret (fst r, shift_state (snd r))).
  Proof.
    intros tree evals p inds s Hl. unfold state_update, calc_mean.
    change (calc_path_sigma p (shift_state s)) with (calc_path_sigma p s).
    change (calc_path_c p (shift_state s)) with (calc_path_c p s).
    change (calc_sigma p (shift_state s)) with (calc_sigma p s).
    change (calc_rank_mu p tree (shift_state s)) with (calc_rank_mu p tree s).
    change (calc_cov p (shift_state s)) with (calc_cov p s).
    change (do_eigen_update p (shift_state s)) with (do_eigen_update p s).
    change (st_sigma (shift_state s)) with (st_sigma s). change (st_cov (shift_state s)) with (st_cov s).
    change (st_generation (shift_state s)) with (st_generation s). change (st_last_eigen (shift_state s)) with (st_last_eigen s).
    change (st_mean (shift_state s)) with (shift t (st_mean s)).
    destruct (calc_yw p inds) as [yw| |]; cbn [obind]; auto. rewrite shift_add_c by exact Hl.
    destruct (vadd_c (st_mean s) _) as [m| |]; cbn [obind]; auto.
    destruct (calc_path_sigma p s yw) as [ps| |]; cbn [obind]; auto.
    destruct (calc_path_c p s _ yw) as [pc| |]; cbn [obind]; auto.
    destruct (calc_rank_mu p tree s inds) as [rm| |]; cbn [obind]; auto.
    destruct (calc_cov p s _ pc rm) as [cv| |]; cbn [obind]; auto.
    destruct (set_cov _ _ _) as [[[] cm]| |]; cbn [obind]; auto.
  Qed.

  Definition trans_pt (a b : point xreal) : Prop := b = shift_point a.
  Lemma point_shift : forall s y f1 f2, length (st_mean s) = length t -> Rf f1 f2 ->
    out_rel (pair_rel Rf (opt_rel trans_pt)) (evaluate_point ev1 s y f1) (evaluate_point ev2 (shift_state s) y f2).
  Proof.
    intros s y f1 f2 Hl Hf. unfold evaluate_point, to_point. change (st_mean (shift_state s)) with (shift t (st_mean s)).
    change (st_sigma (shift_state s)) with (st_sigma s). rewrite shift_add_c by exact Hl.
    unfold vadd_c. destruct (length (st_mean s) =? length (vscale (st_sigma s) y)) eqn:El; cbn [check obind out_rel]; auto.
    apply Nat.eqb_eq in El. assert (Hx : length (vadd (st_mean s) (vscale (st_sigma s) y)) = length t).
    { rewrite <- Hl. unfold vadd. clear -El. revert El. generalize (vscale (st_sigma s) y). induction (st_mean s) as [|a m IH]; intros [|b d] H; cbn in *; auto; try discriminate. }
    eapply out_rel_bind; [apply Hev; [exact Hx|exact Hf]|]. intros [v1 g1] [v2 g2] [Hv Hg]. cbn [fst snd] in *. subst v2.
    cbn. split; cbn; auto. destruct (x_is_nan v1); cbn; auto. reflexivity.
  Qed.

  Lemma con_shift : forall c s y, length (st_mean s) = length t -> ok_constraints (shift_con c) (shift_state s) y = ok_constraints c s y.
  Proof.
    intros [meets|] s y Hl; cbn; auto. unfold to_point. rewrite shift_add_c by exact Hl.
    unfold vadd_c. destruct (length (st_mean s) =? length (vscale (st_sigma s) y)) eqn:El; cbn; auto.
    rewrite unshift_shift; auto. apply Nat.eqb_eq in El. rewrite <- Hl. unfold vadd. clear -El. revert El.
    generalize (vscale (st_sigma s) y). induction (st_mean s) as [|a m IH]; intros [|b d] H; cbn in *; auto; try discriminate.
  Qed.

  Lemma history_shift : forall m inds h,
    history_update m (map shift_point inds) (shift_history h) = (r <- history_update m inds h ;; Ret (shift_history r)).
  Proof.
    intros m inds h. unfold history_update.
    assert (Hi : forall i, index (map shift_point inds) i = (p <- index inds i ;; Ret (shift_point p))).
    { intros i. unfold index. rewrite nth_error_map. destruct (nth_error inds i); reflexivity. }
    assert (Hm : get_median_value (map shift_point inds) = get_median_value inds).
    { unfold get_median_value. rewrite map_length. destruct (Nat.even _).
      - destruct (length inds / 2); auto. rewrite !Hi. destruct (index inds n) as [a| |]; cbn; auto. destruct (index inds (S n)) as [b| |]; cbn; auto.
      - rewrite !Hi. destruct (index inds _) as [a| |]; cbn; auto. }
    rewrite Hi, Hm. destruct (index inds 0) as [a| |]; cbn [obind]; auto.
    destruct (get_median_value inds) as [v| |]; cbn [obind]; auto. f_equal. unfold shift_history. cbn. f_equal.
    destruct (h_overall_best h) as [b|]; cbn; auto. destruct (is_better m (pt_value a) (i_value b)); reflexivity.
  Qed.

  Lemma check_shift : forall p evals created now s h inds, length (st_mean s) = length t ->
    N.to_nat (p_dim p) = length t -> shape (length t) (length t) (cm_eigenvectors (st_cov s)) ->
    check_termination p evals created now (shift_state s) (shift_history h) (map shift_point inds)
    = check_termination p evals created now s h inds.
  Proof.
    intros p evals created now s h inds Hl Hd Hv.
    assert (A1 : check_fun_target p (map shift_point inds) = check_fun_target p inds).
    { unfold check_fun_target. destruct (tp_fun_target _); auto. induction inds as [|a inds IH]; cbn; auto. rewrite IH. reflexivity. }
    assert (A2 : check_tol_fun p (shift_history h) (map shift_point inds) = check_tol_fun p h inds).
    { unfold check_tol_fun. cbn [shift_history h_best_values h_first_median h_best_median]. rewrite map_map. reflexivity. }
    assert (A3 : check_no_effect_axis p (shift_state s) = check_no_effect_axis p s).
    { unfold check_no_effect_axis. destruct (p_dim p =? 0)%N; auto. cbn [shift_state with_mean st_cov st_generation st_sigma st_mean].
      destruct (mget_c _ _ _) as [d| |]; cbn [obind]; auto. destruct (ncols _ <=? _); auto. rewrite shift_add_c by exact Hl.
      unfold vadd_c. match goal with |- context [vscale ?a (column ?m ?i)] => set (dd := vscale a (column m i)) end.
      assert (Hdd : length dd = length (st_mean s)).
      { unfold dd, vscale, column. rewrite !map_length. rewrite (proj1 Hv). auto. }
      rewrite Hdd, Nat.eqb_refl. cbn. rewrite shift_eqb; auto. }
    assert (A4 : check_no_effect_coord p (shift_state s) = check_no_effect_coord p s).
    { unfold check_no_effect_coord. rewrite Hd. cbn [shift_state with_mean st_cov st_sigma st_mean].
      assert (G : forall l, (forall i, In i l -> i < length t) ->
        oany (fun i => m <- index (shift t (st_mean s)) i ;; c <- mget_c (cm_cov (st_cov s)) i i ;;
                       Ret (neqb m (nadd m (nmul (nmul (nlit 2 10) (st_sigma s)) c)))) l
        = oany (fun i => m <- index (st_mean s) i ;; c <- mget_c (cm_cov (st_cov s)) i i ;;
                       Ret (neqb m (nadd m (nmul (nmul (nlit 2 10) (st_sigma s)) c)))) l).
      { induction l as [|i l IH]; intros Hi; cbn [oany]; auto. rewrite IH by (intros j Hj; apply Hi; right; exact Hj).
        assert (Hit : i < length t) by (apply Hi; left; auto).
        destruct (nth_error (st_mean s) i) as [a|] eqn:Ea; [|apply nth_error_None in Ea; lia].
        destruct (nth_error t i) as [r|] eqn:Er; [|apply nth_error_None in Er; lia].
        unfold index at 1 3. rewrite (shift_nth_error t (st_mean s) i Hl a r Ea Er), Ea. cbn [obind].
        destruct (mget_c _ i i) as [c| |]; cbn [obind]; auto.
        change (neqb (x_add a (XFin r)) (nadd (x_add a (XFin r)) (nmul (nmul (nlit 2 10) (st_sigma s)) c)))
          with (x_eqb (x_add a (XFin r)) (x_add (x_add a (XFin r)) (nmul (nmul (nlit 2 10) (st_sigma s)) c))).
        rewrite shift_eqb1. reflexivity. }
      apply G. intros i Hi. apply in_seq in Hi. lia. }
    unfold check_termination. rewrite A1, A2, A3, A4. reflexivity.
  Qed.

  Record shifted (c1 : cmaes xreal F1) (c2 : cmaes xreal F2) : Prop := {
    sh_sm : sampler_rel Rf (c_sampler c1) (c_sampler c2);
    sh_con : sm_constraints (c_sampler c2) = shift_con (sm_constraints (c_sampler c1));
    sh_params : c_params c2 = c_params c1;
    sh_state : c_state c2 = shift_state (c_state c1);
    sh_hist : c_history c2 = shift_history (c_history c1);
    sh_created : c_created c2 = c_created c1
  }.

  Lemma sample_shift : forall par tk c1 c2, shifted c1 c2 -> length (st_mean (c_state c1)) = length t ->
    out_rel (fun r1 r2 => fst r2 = option_map (map shift_point) (fst r1) /\ shifted (snd r1) (snd r2))
      (cmaes_sample ev1 par tk c1) (cmaes_sample ev2 par tk c2).
  Proof.
    intros par tk c1 c2 [A1 A2 A3 A4 A5 A6] Hl. unfold cmaes_sample. rewrite A3, A4.
    eapply out_rel_bind.
    { apply (sample_rel ev1 ev2 Rf trans_pt (c_state c1) (shift_state (c_state c1))
               (fun y f1 f2 => point_shift (c_state c1) y f1 f2 Hl) par tk (p_mode (c_params c1)) (p_mode (c_params c1))); auto.
      - intros y. rewrite A2. symmetry. apply con_shift. exact Hl.
      - intros a1 a2 b1 b2 -> ->. reflexivity. }
    intros [[l1|] sm1] [[l2|] sm2] [Hx [Hs [Hc1 Hc2]]]; cbn [fst snd opt_rel] in *; try contradiction.
    - assert (El : l2 = map shift_point l1). { clear -Hx. induction Hx as [|a b l1 l2 Hab Hx IH]; cbn; auto. rewrite <- IH, <- Hab. reflexivity. }
      rewrite El, A5, history_shift. destruct (history_update _ l1 _) as [h| |]; cbn [obind out_rel fst snd]; auto.
      split; auto. constructor; cbn; auto. rewrite Hc2, Hc1. exact A2.
    - cbn. split; auto. constructor; cbn; auto. rewrite Hc2, Hc1. exact A2.
  Qed.

  Lemma next_shift : forall o1 o2 par tk c1 c2, shifted c1 c2 -> wf o1 c1 -> wf o2 c2 -> dims o1 = length t ->
    out_rel (fun a b => fst b = option_map shift_data (fst a) /\ (shifted (snd a) (snd b) /\ wf o1 (snd a) /\ wf o2 (snd b)))
      (next ev1 par tk c1) (next ev2 par tk c2).
  Proof.
    intros o1 o2 par tk c1 c2 Hs Hw1 Hw2 Hd.
    assert (Hm : length (st_mean (c_state c1)) = length t) by (rewrite <- Hd; apply (ws_mean _ _ (wf_st _ _ Hw1))).
    pose proof (sample_shift par tk c1 c2 Hs Hm) as G.
    unfold next. destruct (cmaes_sample ev1 par tk c1) as [[r1 d1]| |] eqn:E1, (cmaes_sample ev2 par tk c2) as [[r2 d2]| |] eqn:E2;
      cbn [out_rel obind] in *; try contradiction; auto.
    destruct G as [G1 G2]. cbn [fst snd] in *.
    destruct (sampled_wf ev1 o1 par tk c1 r1 d1 Hw1 E1) as [W1 I1]. destruct (sampled_wf ev2 o2 par tk c2 r2 d2 Hw2 E2) as [W2 I2].
    destruct r1 as [i1|]; cbn [option_map] in G1; subst r2.
    - destruct (next_internal_core Heig o1 d1 tk i1 W1 I1) as [e1 [ok1 [N1 [V1 D1]]]].
      destruct (next_internal_core Heig o2 d2 tk _ W2 I2) as [e2 [ok2 [N2 [V2 D2]]]].
      rewrite N1, N2. clear N1 N2. destruct D1, D2. destruct G2 as [B1 B2 B3 B4 B5 B6].
      assert (Fe : function_evals d1 = function_evals d2) by apply B1.
      rewrite B3, B4, <- Fe in cd_state0. rewrite update_shift in cd_state0 by (rewrite <- Hd; apply (ws_mean _ _ (wf_st _ _ W1))).
      assert (Hup : state_update (t_tree tk) (function_evals d1) (c_params d1) (map shift_point i1) (c_state d1)
                    = state_update (t_tree tk) (function_evals d1) (c_params d1) i1 (c_state d1)).
      { apply state_update_rel. clear. induction i1; cbn; constructor; auto. reflexivity. }
      rewrite Hup, cd_state in cd_state0. cbn [obind fst snd] in cd_state0. apply Ret_inj in cd_state0. injection cd_state0 as Hok Hst.
      subst ok2.
      assert (Hr : core_check tk (map shift_point i1) d2 e2 ok1 = core_check tk i1 d1 e1 ok1).
      { unfold core_check. destruct ok1; [|reflexivity]. rewrite <- Fe, B3, B5, B6, <- Hst. apply check_shift.
        - rewrite <- Hd. apply (ws_mean _ _ (wf_st _ _ V1)).
        - destruct (wf_par _ _ W1) as [seed Hp]. rewrite Hp. cbn. rewrite Nat2N.id. exact Hd.
        - rewrite <- Hd. apply (ws_vecs _ _ (wf_st _ _ V1)). }
      assert (Hsim : shifted e1 e2) by (constructor; congruence).
      rewrite Hr. destruct (core_check tk i1 d1 e1 ok1) as [rs1| |]; cbn [obind out_rel fst snd]; auto.
      split; [|auto].
      unfold reply. destruct rs1 as [|x1 l1]; cbn [option_map]; auto. f_equal.
      unfold get_termination_data, current_best_individual, overall_best_individual, mean, shift_data. cbn.
      destruct Hsim as [_ _ _ S4 S5 _]. rewrite S4, S5. reflexivity.
    - cbn. split; [|auto]. destruct G2 as [_ _ _ S4 S5 _]. f_equal. unfold get_termination_data, current_best_individual, overall_best_individual, mean, shift_data.
      rewrite S4, S5. reflexivity.
  Qed.

  Lemma shifted_trans_l : forall a b c, same_core a b -> shifted b c -> shifted a c.
  Proof. intros a b c [A1 [A2 [A3 [A4 [A5 _]]]]] []. constructor; congruence. Qed.
  Lemma shifted_trans_r : forall a b c, shifted a b -> same_core c b -> shifted a c.
  Proof. intros a b c [] [A1 [A2 [A3 [A4 [A5 _]]]]]. constructor; congruence. Qed.
End Shift.
