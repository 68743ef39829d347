(* One update of the state in exact arithmetic, written with real numbers: if all numbers are finite, so are the
   updated ones, and these are their values. Lemmas only. *)
From Coq Require Import List NArith ZArith Bool Arith Lia Reals Lra.
Require Import Verif.Base Verif.Num Verif.XReal Verif.LinAlg Verif.Mode Verif.Weights Verif.Options Verif.Params Verif.Env
  Verif.State Verif.Lib Verif.PanicLemmas Verif.TransLemmas Verif.RSum Verif.WeightLemmas.
Import ListNotations.
Open Scope nat_scope.

(* parameters as real numbers *)
Record rates := mkRates {
  q_n : nat; q_mu : nat; q_cnt : nat; q_w : nat -> R;
  q_meff : R; q_cc : R; q_c1 : R; q_cs : R; q_cmu : R; q_cm : R; q_ds : R
}.
Record par_fin (p : params xreal) (q : rates) : Prop := {
  pf_dim : p_dim p = N.of_nat (q_n q);
  pf_mu : N.to_nat (p_mu p) = q_mu q;
  pf_w : fv (q_cnt q) (p_weights p) (q_w q);
  pf_meff : p_mu_eff p = XFin (q_meff q);
  pf_cc : p_cc p = XFin (q_cc q);
  pf_c1 : p_c1 p = XFin (q_c1 q);
  pf_cs : p_cs p = XFin (q_cs q);
  pf_cmu : p_cmu p = XFin (q_cmu q);
  pf_cm : p_cm p = XFin (q_cm q);
  pf_ds : p_damp_s p = XFin (q_ds q)
}.
Record rates_ok (q : rates) (lam : nat) : Prop := {
  ro_n : 1 <= q_n q;
  ro_mu : 1 <= q_mu q <= q_cnt q;
  ro_cnt : q_cnt q <= lam;
  ro_cs : (0 < q_cs q < 1)%R;
  ro_cc : (0 < q_cc q <= 1)%R;
  ro_c1 : (0 < q_c1 q < 1)%R;
  ro_cmu : (0 <= q_cmu q <= 1 - q_c1 q)%R;
  ro_meff : (1 <= q_meff q)%R;
  ro_ds : (1 < q_ds q)%R
}.

(* the state as real numbers; v_d are the square roots of the eigenvalues *)
Record rstate := mkRstate {
  v_m : nat -> R; v_sg : R; v_pc : nat -> R; v_ps : nat -> R; v_C : nat -> nat -> R;
  v_B : nat -> nat -> R; v_d : nat -> R; v_S : nat -> nat -> R; v_T : nat -> nat -> R
}.
Record sfin (n : nat) (s : state xreal) (v : rstate) : Prop := {
  sf_m : fv n (st_mean s) (v_m v);
  sf_sg : st_sigma s = XFin (v_sg v);
  sf_pc : fv n (st_path_c s) (v_pc v);
  sf_ps : fv n (st_path_sigma s) (v_ps v);
  sf_C : fm n (cm_cov (st_cov s)) (v_C v);
  sf_B : fm n (cm_eigenvectors (st_cov s)) (v_B v);
  sf_D : fm n (cm_sqrt_eigenvalues (st_cov s)) (fun i j => (delta i j * v_d v i)%R);
  sf_S : fm n (cm_sqrt_inv (st_cov s)) (v_S v);
  sf_T : fm n (cm_transform (st_cov s)) (v_T v)
}.

(* ---- the update over the reals ---- *)
Section Formulas.
  Variable (q : rates) (v : rstate) (y : nat -> nat -> R).   (* y k: the step of rank k *)
  Let n := q_n q.
  Definition ywR (i : nat) : R := Sig (q_mu q) (fun k => (y k i * q_w q k)%R).
  Definition meanR (i : nat) : R := (v_m v i + q_cm q * v_sg v * ywR i)%R.
  Definition psR (i : nat) : R :=
    ((1 - q_cs q) * v_ps v i + Sig n (fun j => sqrt (q_cs q * (2 - q_cs q) * q_meff q) * v_S v i j * ywR j))%R.
  Definition normR (x : nat -> R) : R := sqrt (dotR n x x).
  Definition chiR : R := (sqrt (INR n) * (1 - 1 / (4 * INR n) + 1 / (21 * (INR n * INR n))))%R.
  Definition pcR (h : R) (i : nat) : R :=
    ((1 - q_cc q) * v_pc v i + h * sqrt (q_cc q * (2 - q_cc q) * q_meff q) * ywR i)%R.
  Definition sgR : R := (v_sg v * exp (q_cs q / q_ds q * (normR psR / chiR - 1)))%R.
  Definition SyR (k i : nat) : R := Sig n (fun j => (v_S v i j * y k j)%R).
  Definition wcR (k : nat) : R := if Rlt_dec (q_w q k) 0 then (q_w q k * (INR n / dotR n (SyR k) (SyR k)))%R else q_w q k.
  Definition kR (h : R) : R := (1 + q_c1 q * ((1 - h) * q_cc q * (2 - q_cc q)) - q_c1 q - q_cmu q * Sig (q_cnt q) (q_w q))%R.
  Definition covR (h : R) (i j : nat) : R :=
    (kR h * v_C v i j + q_c1 q * pcR h i * pcR h j + q_cmu q * Sig (q_cnt q) (fun k => wcR k * y k i * y k j))%R.
End Formulas.

(* ---- lists ---- *)
Lemma omap_seq : forall {A B} (f : A -> outcome B) (g : nat -> B) l d,
  (forall i, i < length l -> f (nth i l d) = Ret (g i)) -> omap f l = Ret (map g (seq 0 (length l))).
Proof.
  intros A B f g l d. revert g. induction l as [|a l IH]; intros g H; [reflexivity|]. cbn [omap length seq map].
  rewrite (H 0 ltac:(cbn; lia) : f a = Ret (g 0)). cbn [obind]. rewrite (IH (fun i => g (S i))).
  - cbn [obind]. rewrite <- seq_shift, map_map. reflexivity.
  - intros i Hi. apply (H (S i)). cbn. lia.
Qed.
Lemma nth_combine_seq : forall {A} (l : list A) d i, i < length l -> nth i (combine (seq 0 (length l)) l) (0, d) = (i, nth i l d).
Proof. intros A l d i H. rewrite combine_nth by apply seq_length. rewrite seq_nth by exact H. reflexivity. Qed.
Lemma combine_seq_length : forall {A} (l : list A), length (combine (seq 0 (length l)) l) = length l.
Proof. intros. rewrite combine_length, seq_length. apply Nat.min_id. Qed.
Lemma index_nth : forall {A} (l : list A) i d, i < length l -> index l i = Ret (nth i l d).
Proof. intros A l i d H. unfold index. rewrite (nth_error_nth' l d H). reflexivity. Qed.

Lemma vsum_exact : forall n m (vs : nat -> vec xreal) xs, 1 <= m -> (forall k, k < m -> fv n (vs k) (xs k)) ->
  exists v, vsum_c (map vs (seq 0 m)) = Ret v /\ fv n v (fun i => Sig m (fun k => xs k i)).
Proof.
  intros n m vs xs Hm H. destruct m as [|m]; [lia|]. cbn [seq map vsum_c].
  assert (L : length (map vs (seq 1 m)) = m) by (rewrite map_length; apply seq_length).
  destruct (fv_vsum_from n (map vs (seq 1 m)) (map xs (seq 1 m)) (vs 0) (xs 0) (H 0 ltac:(lia))) as [v [E V]].
  - rewrite !map_length. reflexivity.
  - intros k Hk0. assert (Hk : k < m) by (rewrite <- L; exact Hk0). rewrite <- !seq_shift, !map_map. rewrite nth_map_seq by exact Hk. rewrite nth_map_seq by exact Hk. apply H. lia.
  - rewrite map_length, seq_length in V. exists v. split; [exact E|]. eapply fv_ext; [|exact V]. intros i Hi. cbn beta.
    replace (S m) with (1 + m) by lia. rewrite Sig_split. cbn [Sig]. rewrite Rplus_0_l. apply Rplus_eq_compat_l. apply Sig_ext. intros k Hk.
    rewrite <- seq_shift, map_map. rewrite nth_map_seq by exact Hk. reflexivity.
Qed.
Lemma msum_exact : forall n m (vs : nat -> mat xreal) xs, 1 <= n -> 1 <= m -> (forall k, k < m -> fm n (vs k) (xs k)) ->
  exists v, msum_c (map vs (seq 0 m)) = Ret v /\ fm n v (fun i j => Sig m (fun k => xs k i j)).
Proof.
  intros n m vs xs Hn Hm H. destruct m as [|m]; [lia|]. cbn [seq map msum_c].
  assert (L : length (map vs (seq 1 m)) = m) by (rewrite map_length; apply seq_length).
  destruct (fm_msum_from n (map vs (seq 1 m)) (map xs (seq 1 m)) (vs 0) (xs 0) Hn (H 0 ltac:(lia))) as [v [E V]].
  - rewrite !map_length. reflexivity.
  - intros k Hk0. assert (Hk : k < m) by (rewrite <- L; exact Hk0). rewrite <- !seq_shift, !map_map. rewrite nth_map_seq by exact Hk. rewrite nth_map_seq by exact Hk. apply H. lia.
  - rewrite map_length, seq_length in V. exists v. split; [exact E|]. eapply fm_ext; [|exact V]. intros i j Hi Hj. cbn beta.
    replace (S m) with (1 + m) by lia. rewrite Sig_split. cbn [Sig]. rewrite Rplus_0_l. apply Rplus_eq_compat_l. apply Sig_ext. intros k Hk.
    rewrite <- seq_shift, map_map. rewrite nth_map_seq by exact Hk. reflexivity.
Qed.
Lemma fm_shape : forall n (m : mat xreal) A, fm n m A -> shape n n m.
Proof.
  intros n m A [L H]. split; [exact L|]. apply Forall_forall. intros r Hr. apply (In_nth _ _ []) in Hr. destruct Hr as [i [Hi <-]].
  apply H. rewrite <- L. exact Hi.
Qed.

Section Step.
  Context {E : Env xreal}.
  Variable (q : rates) (lam : nat) (v : rstate) (y : nat -> nat -> R).
  Variable (p : params xreal) (s : state xreal) (inds : list (point xreal)).
  Hypothesis Hp : par_fin p q.
  Hypothesis Hq : rates_ok q lam.
  Hypothesis Hs : sfin (q_n q) s v.
  Hypothesis Hl : length inds = lam.
  Hypothesis Hy : forall k d, k < lam -> fv (q_n q) (pt_step (nth k inds d)) (y k).
  Let n := q_n q.

  Lemma n_pos : (1 <= INR n)%R.
  Proof. change 1%R with (INR 1). apply le_INR. apply Hq. Qed.
  Lemma dim_fin : nofN (p_dim p) = XFin (INR n).
  Proof. rewrite (pf_dim _ _ Hp), fin_N, Nat2N.id. reflexivity. Qed.
  Lemma some_point : exists d, In d inds.
  Proof. destruct inds as [|a l]; [|exists a; left; reflexivity]. pose proof (ro_mu _ _ Hq). pose proof (ro_cnt _ _ Hq). cbn in Hl. lia. Qed.

  Lemma yw_exact : exists yw, calc_yw p inds = Ret yw /\ fv n yw (ywR q y).
  Proof.
    destruct some_point as [d _]. pose proof (ro_mu _ _ Hq) as M. pose proof (ro_cnt _ _ Hq) as Cn. destruct (pf_w _ _ Hp) as [WL WN].
    unfold calc_yw. rewrite (pf_mu _ _ Hp). set (sel := firstn (q_mu q) inds).
    assert (Ls : length sel = q_mu q) by (unfold sel; rewrite firstn_length; lia).
    unfold weighted_steps. rewrite (omap_seq _ (fun k => vscale_r (pt_step (nth k inds d)) (XFin (q_w q k))) _ (0, d)).
    - cbn [obind]. rewrite combine_seq_length, Ls. apply (vsum_exact n (q_mu q) _ (fun k i => (y k i * q_w q k)%R)); [lia|].
      intros k Hk. apply fv_scale_r. apply Hy. lia.
    - intros i Hi. rewrite combine_seq_length in Hi. rewrite nth_combine_seq by exact Hi. cbn [fst snd].
      rewrite (index_nth _ i n0) by (rewrite WL; lia). cbn [obind]. rewrite WN by lia. f_equal. f_equal. f_equal.
      unfold sel. rewrite <- (firstn_skipn (q_mu q) inds) at 2. rewrite app_nth1 by (rewrite firstn_length; lia). reflexivity.
  Qed.
  Lemma mean_exact : forall yw, fv n yw (ywR q y) -> exists m, calc_mean p s yw = Ret m /\ fv n m (meanR q v y).
  Proof.
    intros yw H. unfold calc_mean. rewrite (pf_cm _ _ Hp), (sf_sg _ _ _ Hs). cbn [nmul Num_xreal x_mul].
    destruct (fv_add n _ _ _ _ (sf_m _ _ _ Hs) (fv_scale n (q_cm q * v_sg v) _ _ H)) as [A B]. eauto.
  Qed.
  Lemma ps_exact : forall yw, fv n yw (ywR q y) -> exists ps, calc_path_sigma p s yw = Ret ps /\ fv n ps (psR q v y).
  Proof.
    intros yw H. unfold calc_path_sigma. rewrite (pf_cs _ _ Hp), (pf_meff _ _ Hp). pose proof (ro_cs _ _ Hq). pose proof (ro_meff _ _ Hq).
    unfold n1, n2. cbn [nsub nmul nsqrt nofZ Num_xreal x_sub x_add x_neg x_mul x_sqrt]. rewrite (Rltb_false _ 0) by (apply Rmult_le_pos; nra).
    destruct (fm_mvmul n _ _ _ _ (fm_scale n (sqrt (q_cs q * (2 + - q_cs q) * q_meff q)) _ _ (sf_S _ _ _ Hs)) H) as [A B]. rewrite A. cbn [obind].
    destruct (fv_add n _ _ _ _ (fv_scale n (1 + - q_cs q) _ _ (sf_ps _ _ _ Hs)) B) as [A2 B2]. rewrite A2. eauto.
  Qed.
  Lemma chi_exact : chi_n (p_dim p) = XFin (chiR q).
  Proof.
    pose proof n_pos as N1. unfold chi_n. rewrite dim_fin. rewrite (pf_dim _ _ Hp), fin_N, N2Nat.inj_mul, Nat2N.id, mult_INR. fold n.
    unfold n1. cbn [nsub nadd nmul ndiv nsqrt nofZ Num_xreal x_sub x_add x_neg x_mul x_sqrt x_div]. rewrite Rltb_false by lra.
    assert (0 < INR n * INR n)%R by nra. rewrite (Reqb_false (4 * INR n)) by lra. rewrite (Reqb_false (21 * (INR n * INR n))) by lra. reflexivity.
  Qed.
  Lemma chi_pos : (0 < chiR q)%R.
  Proof.
    pose proof n_pos as N1. unfold chiR. fold n. apply Rmult_lt_0_compat; [apply sqrt_lt_R0; lra|].
    assert (0 < 1 / (21 * (INR n * INR n)))%R by (apply Rdiv_lt_0_compat; nra). assert (1 / (4 * INR n) < 1)%R; [|lra].
    apply frac_lt; lra.
  Qed.
  Lemma hs_exact : forall g ps, exists h, calc_hs p g ps = XFin h /\ (h = 0 \/ h = 1)%R.
  Proof. intros g ps. unfold calc_hs. destruct (nltb _ _); [exists 1%R|exists 0%R]; split; auto. Qed.
  Lemma pc_exact : forall h yw, fv n yw (ywR q y) -> exists pc, calc_path_c p s (XFin h) yw = Ret pc /\ fv n pc (pcR q v y h).
  Proof.
    intros h yw H. unfold calc_path_c. rewrite (pf_cc _ _ Hp), (pf_meff _ _ Hp). pose proof (ro_cc _ _ Hq). pose proof (ro_meff _ _ Hq).
    unfold n1, n2. cbn [nsub nmul nsqrt nofZ Num_xreal x_sub x_add x_neg x_mul x_sqrt]. rewrite (Rltb_false _ 0) by (apply Rmult_le_pos; nra). cbn [x_mul].
    destruct (fv_add n _ _ _ _ (fv_scale n (1 + - q_cc q) _ _ (sf_pc _ _ _ Hs)) (fv_scale n (h * sqrt (q_cc q * (2 + - q_cc q) * q_meff q)) _ _ H)) as [A B].
    rewrite A. eauto.
  Qed.
  Lemma sg_exact : forall ps, fv n ps (psR q v y) -> calc_sigma p s ps = XFin (sgR q v y).
  Proof.
    intros ps H. unfold calc_sigma. rewrite (fv_magnitude n _ _ H), chi_exact, (pf_cs _ _ Hp), (pf_ds _ _ Hp), (sf_sg _ _ _ Hs).
    pose proof chi_pos. pose proof (ro_ds _ _ Hq). unfold n1. cbn [nsub nmul ndiv nofZ Num_xreal x_sub x_add x_neg x_mul x_div lm_exp Libm_xreal].
    rewrite !Reqb_false by lra. cbn [x_mul x_add x_neg x_exp]. reflexivity.
  Qed.
  Lemma sg_pos : (0 < v_sg v)%R -> (0 < sgR q v y)%R.
  Proof. intros H. unfold sgR. apply Rmult_lt_0_compat; [exact H|apply exp_pos]. Qed.

  (* negative weights: the steps concerned must not vanish *)
  Hypothesis Hneg : forall k, k < q_cnt q -> (q_w q k < 0)%R -> (dotR n (SyR q v y k) (SyR q v y k) <> 0)%R.

  Lemma contribution_exact : forall k, k < q_cnt q -> exists m, map_weights p (cm_sqrt_inv (st_cov s)) inds k (XFin (q_w q k)) = Ret m /\
    fm n m (fun i j => (wcR q v y k * y k i * y k j)%R).
  Proof.
    intros k Hk. destruct some_point as [d _]. pose proof (ro_cnt _ _ Hq) as Cn. unfold map_weights.
    assert (Y : fv n (pt_step (nth k inds d)) (y k)) by (apply Hy; lia).
    rewrite (index_nth inds k d) by lia. cbn [obind]. unfold n0. cbn [nltb Num_xreal x_ltb nofZ].
    assert (Fin : forall r, fm n (outer (vscale (XFin r) (pt_step (nth k inds d))) (pt_step (nth k inds d))) (fun i j => (r * y k i * y k j)%R)).
    { intros r. apply fm_outer; [|exact Y]. apply fv_scale. exact Y. }
    unfold wcR, Rltb. destruct (Rlt_dec (q_w q k) 0) as [W|W].
    - destruct (fm_mvmul n _ _ _ _ (sf_S _ _ _ Hs) Y) as [A B]. rewrite A. cbn [obind]. rewrite (fv_magnitude n _ _ B), powi_2, dim_fin.
      change (Sig n (fun i => (Sig n (fun j => v_S v i j * y k j) * Sig n (fun j => v_S v i j * y k j))%R)) with (dotR n (SyR q v y k) (SyR q v y k)).
      rewrite sqrt_sqrt by apply dotR_nonneg. rewrite fin_div by (apply Hneg; auto). cbn [nmul Num_xreal x_mul obind]. eexists. split; [reflexivity|]. apply Fin.
    - cbn [obind]. eexists. split; [reflexivity|]. apply Fin.
  Qed.
  Lemma rank_mu_exact : forall tree, exists m, calc_rank_mu p tree s inds = Ret m /\
    fm n m (fun i j => Sig (q_cnt q) (fun k => wcR q v y k * y k i * y k j)%R).
  Proof.
    intros tree. destruct some_point as [d _]. pose proof (ro_mu _ _ Hq) as M. pose proof (ro_cnt _ _ Hq) as Cn. destruct (pf_w _ _ Hp) as [WL WN].
    pose (mk := fun k => match map_weights p (cm_sqrt_inv (st_cov s)) inds k (XFin (q_w q k)) with Ret m => m | _ => [] end).
    assert (MK : forall k, k < q_cnt q -> map_weights p (cm_sqrt_inv (st_cov s)) inds k (XFin (q_w q k)) = Ret (mk k) /\ fm n (mk k) (fun i j => (wcR q v y k * y k i * y k j)%R)).
    { intros k Hk. destruct (contribution_exact k Hk) as [m [A B]]. unfold mk. rewrite A. auto. }
    assert (Cs : contributions p (cm_sqrt_inv (st_cov s)) inds = Ret (map mk (seq 0 (q_cnt q)))).
    { unfold contributions. rewrite (omap_seq _ mk _ (0, n0)).
      - rewrite combine_seq_length, WL. reflexivity.
      - intros i Hi. rewrite combine_seq_length in Hi. rewrite nth_combine_seq by exact Hi. cbn [fst snd]. rewrite WL in Hi. rewrite WN by exact Hi. apply MK. exact Hi. }
    unfold calc_rank_mu. rewrite Cs. cbn [obind].
    destruct (msum_exact n (q_cnt q) mk _ (ro_n _ _ Hq) ltac:(lia) (fun k Hk => proj2 (MK k Hk))) as [m [A B]].
    assert (Sh : Forall (shape n n) (map mk (seq 0 (q_cnt q)))).
    { rewrite Forall_map. apply Forall_forall. intros k Hk. apply in_seq in Hk. eapply fm_shape. apply MK. lia. }
    assert (Ne : map mk (seq 0 (q_cnt q)) <> []) by (intros X; apply (f_equal (@length _)) in X; rewrite map_length, seq_length in X; cbn in X; lia).
    exists m. split; [|exact B]. destruct (p_parallel_update p); [|exact A].
    rewrite (pf_dim _ _ Hp), Nat2N.id. fold n. rewrite (reduce_total n (ro_n _ _ Hq) tree _ Sh), <- (sum_total n (ro_n _ _ Hq) _ Sh Ne). exact A.
  Qed.
  Lemma factor_exact : forall h, cov_factor p (XFin h) = XFin (kR q h).
  Proof.
    intros h. unfold cov_factor. rewrite (nsum_fv _ _ _ (pf_w _ _ Hp)), (pf_cc _ _ Hp), (pf_c1 _ _ Hp), (pf_cmu _ _ Hp). reflexivity.
  Qed.
  Lemma cov_exact : forall h pc rm, fv n pc (pcR q v y h) -> fm n rm (fun i j => Sig (q_cnt q) (fun k => wcR q v y k * y k i * y k j)%R) ->
    exists m, calc_cov p s (XFin h) pc rm = Ret m /\ fm n m (covR q v y h).
  Proof.
    intros h pc rm P M. unfold calc_cov. rewrite factor_exact, (pf_c1 _ _ Hp), (pf_cmu _ _ Hp).
    destruct (fm_add n _ _ _ _ (ro_n _ _ Hq) (fm_scale n (kR q h) _ _ (sf_C _ _ _ Hs)) (fm_outer n _ _ _ _ (fv_scale n (q_c1 q) _ _ P) P)) as [A B]. rewrite A. cbn [obind].
    destruct (fm_add n _ _ _ _ (ro_n _ _ Hq) B (fm_scale n (q_cmu q) _ _ M)) as [A2 B2]. rewrite A2. eauto.
  Qed.

  Definition symm (A : nat -> nat -> R) : Prop := forall i j, i < n -> j < n -> A i j = A j i.
  Lemma cov_symm : forall h, symm (v_C v) -> symm (covR q v y h).
  Proof.
    intros h H i j Hi Hj. unfold covR. rewrite (H i j Hi Hj). f_equal; [|f_equal; apply Sig_ext; intros; ring]. ring.
  Qed.

  (* everything up to the eigendecomposition *)
  Lemma update_exact : forall tree evals, symm (v_C v) -> exists mean ps pc cov h,
    (h = 0 \/ h = 1)%R /\ calc_hs p (st_generation s) ps = XFin h /\
    fv n mean (meanR q v y) /\ fv n ps (psR q v y) /\ fv n pc (pcR q v y h) /\ fm n cov (covR q v y h) /\
    state_update tree evals p inds s =
      (' (ok, cm) <- set_cov (st_cov s) cov (do_eigen_update p s evals) ;;
       if ok : bool then
         Ret (true, mkState (st_generation s + 1) mean cm (XFin (sgR q v y)) pc ps
                            (if do_eigen_update p s evals then evals else st_last_eigen s))
       else Ret (false, mkState (st_generation s) mean cm (XFin (sgR q v y)) pc ps (st_last_eigen s))).
  Proof.
    intros tree evals Sy. destruct yw_exact as [yw [A1 B1]]. destruct (mean_exact yw B1) as [mean [A2 B2]]. destruct (ps_exact yw B1) as [ps [A3 B3]].
    destruct (hs_exact (st_generation s) ps) as [h [A4 B4]]. destruct (pc_exact h yw B1) as [pc [A5 B5]]. destruct (rank_mu_exact tree) as [rm [A6 B6]].
    destruct (cov_exact h pc rm B5 B6) as [cov [A7 B7]]. pose proof (sg_exact ps B3) as A8.
    exists mean, ps, pc, cov, h. split; [exact B4|]. split; [exact A4|]. split; [exact B2|]. split; [exact B3|]. split; [exact B5|]. split; [exact B7|].
    unfold state_update. rewrite A1. cbn [obind]. rewrite A2. cbn [obind]. rewrite A3. cbn [obind]. rewrite A4, A5. cbn [obind]. rewrite A6. cbn [obind]. rewrite A7. cbn [obind].
    rewrite A8. reflexivity.
  Qed.
End Step.
