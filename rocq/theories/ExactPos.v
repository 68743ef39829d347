(* The covariance matrix stays positive definite in exact arithmetic. Lemmas only. *)
From Coq Require Import List NArith ZArith Bool Arith Lia Reals Lra.
From Flocq Require Import Core.
Require Import Verif.Base Verif.Num Verif.XReal Verif.LinAlg Verif.Mode Verif.Weights Verif.Options Verif.Params Verif.Env
  Verif.State Verif.Sampling Verif.History Verif.Termination Verif.Plot Verif.Cmaes Verif.Lib
  Verif.NextInv Verif.Spec Verif.TraceLemmas Verif.NextSafe Verif.RSum Verif.WeightLemmas Verif.ExactStep Verif.ExactEigen Verif.ExactInv.
Import ListNotations.
Open Scope nat_scope.

Definition speed (o : options xreal) : R := (q_c1 (rates_of o) + q_cmu (rates_of o))%R.

(* how often the decomposition is refreshed *)
Lemma evals_per_bound : forall o seed k, validate o = None -> (N.of_nat k < evals_per_eigen_update (params_of_options o seed))%N ->
  (INR k * (2 * speed o * INR (dims o)) < INR (lamb o))%R.
Proof.
  intros o seed k Hv H. destruct (params_fin o seed Hv) as [Hp Hq]. pose proof (ro_c1 _ _ Hq) as C1. pose proof (ro_cmu _ _ Hq) as C2. pose proof (ro_n _ _ Hq) as Hn.
  unfold evals_per_eigen_update in H. rewrite (pf_c1 _ _ Hp), (pf_cmu _ _ Hp), (pf_dim _ _ Hp) in H. rewrite fin_lit in H by discriminate. rewrite !fin_N in H.
  rewrite N2Nat.inj_mul, !Nat2N.id, mult_INR in H. change (q_n (rates_of o)) with (dims o) in *. change (p_lambda (params_of_options o seed)) with (o_population_size o) in H. fold (lamb o) in H.
  fold (speed o) in *. assert (Sp : (0 < speed o)%R) by (unfold speed; lra).
  assert (N1 : (1 <= INR (dims o))%R) by (change 1%R with (INR 1); apply le_INR; exact Hn). set (n := INR (dims o)) in *. set (l := INR (lamb o)) in *. set (s := speed o) in *.
  cbn [nmul nadd Num_xreal x_mul x_add] in H. change (q_c1 (rates_of o) + q_cmu (rates_of o))%R with s in H.
  rewrite fin_div in H by (apply Rgt_not_eq; apply Rmult_lt_0_compat; nra). cbn [nceil Num_xreal x_ceil nto_usize x_to_usize] in H. rewrite Ztrunc_IZR in H.
  set (x := (1 / 2 * n * l / (s * (n * n)))%R) in *.
  assert (Z : (Z.of_nat k < Zceil x)%Z).
  { apply N2Z.inj_lt in H. rewrite nat_N_Z in H. set (z := Zceil x) in *. clearbody z. rewrite Z2N.id in H by lia. lia. }
  assert (R1 : (INR k < x)%R).
  { rewrite INR_IZR_INZ. destruct (Rlt_dec (IZR (Z.of_nat k)) x) as [R|R]; [exact R|]. exfalso. apply Rnot_lt_le in R. apply Zceil_glb in R. lia. }
  apply Rmult_lt_compat_r with (r := (2 * s * n)%R) in R1; [|nra]. replace (x * (2 * s * n))%R with l in R1; [exact R1|]. unfold x. field. split; nra.
Qed.

Section Contract.
  Variables (n s d : R).
  Hypothesis Hn : (1 <= n)%R.
  Hypothesis Hs : (0 < s < 1)%R.
  Hypothesis Hd0 : (0 <= d)%R.
  Hypothesis Hd1 : (d <= 1 - s)%R.
  Hypothesis Hd2 : (d <= n * s)%R.
  Let e := (s - d / n)%R.
  Lemma e_range : (0 <= e <= s)%R.
  Proof using Hn Hs Hd0 Hd1 Hd2.
    unfold e. assert (0 <= d / n)%R by (apply Rmult_le_pos; [lra|left; apply Rinv_0_lt_compat; lra]). assert (d / n <= s)%R by (apply frac_le; lra). lra.
  Qed.
  Lemma loss_one : (e + d < 1)%R.
  Proof using Hn Hs Hd0 Hd1 Hd2.
    unfold e. assert (D : (d = n * (d / n))%R) by (field; lra). set (u := (d / n)%R) in *. rewrite D in *. clear D. clearbody u. subst.
    assert (s - u + n * u <= 1 - (1 - s) / n)%R; [|assert (0 < (1 - s) / n)%R by (apply Rdiv_lt_0_compat; lra); lra].
    assert (u <= (1 - s) / n)%R. { apply Rmult_le_reg_l with n; [lra|]. replace (n * ((1 - s) / n))%R with (1 - s)%R by (field; lra). lra. }
    assert (X : (n * ((1 - s) / n) = 1 - s)%R) by (field; lra). nra.
  Qed.
  Lemma loss_ns : (e + d <= n * s)%R.
  Proof using Hn Hs Hd0 Hd1 Hd2.
    unfold e. assert (D : (d = n * (d / n))%R) by (field; lra). set (u := (d / n)%R) in *. assert (u <= s)%R by (apply Rmult_le_reg_l with n; lra). rewrite D. nra.
  Qed.
  (* after L generations without refresh, one more *)
  Lemma still_positive : forall L : nat, L = 0 \/ (INR L * (2 * s * n) < 1)%R -> (0 < 1 - INR (S L) * (e + d))%R.
  Proof using Hn Hs Hd0 Hd1 Hd2.
    intros L H. destruct (Nat.eq_dec L 0) as [-> |N]; [cbn; pose proof loss_one; lra|]. destruct H as [H|H]; [congruence|].
    assert (1 <= INR L)%R by (change 1%R with (INR 1); apply le_INR; lia). rewrite S_INR. pose proof loss_ns. pose proof e_range.
    assert (0 < s * n)%R by nra. assert (2 * s * n < 1)%R by nra. nra.
  Qed.
  Lemma decay : forall L : nat, ((1 - e) * (1 - INR L * (e + d)) - d >= 1 - INR (S L) * (e + d))%R.
  Proof using Hn Hs Hd0 Hd1 Hd2. intros L. rewrite S_INR. pose proof e_range. pose proof (pos_INR L). assert (0 <= e * (INR L * (e + d)))%R by (repeat apply Rmult_le_pos; lra). lra. Qed.
End Contract.

Section Pos.
  Context {E : Env xreal} {F : Type} (ev : F -> vec xreal -> outcome (xreal * F)).
  Variable o : options xreal.
  Hypothesis W : world o.
  Hypothesis Hslow : (speed o < 1)%R.
  Let q := rates_of o.
  Let n := dims o.
  Let a := neg_mass q.
  Let d := (INR n * (q_cmu q * a))%R.
  Let e := (speed o - d / INR n)%R.
  Definition ceig (v : rstate) : nat -> nat -> R := compose n (v_B v) (fun k => (v_d v k * v_d v k)%R).

  Lemma n_real : (1 <= INR n)%R.
  Proof. destruct (params_fin o 0 (wd_valid _ W)) as [_ Hq]. change 1%R with (INR 1). apply le_INR. apply (ro_n _ _ Hq). Qed.
  Lemma speed_pos : (0 < speed o < 1)%R.
  Proof. destruct (params_fin o 0 (wd_valid _ W)) as [_ Hq]. pose proof (ro_c1 _ _ Hq). pose proof (ro_cmu _ _ Hq). split; [unfold speed; lra|exact Hslow]. Qed.
  Lemma d_range : (0 <= d)%R /\ (d <= 1 - speed o)%R /\ (d <= INR n * speed o)%R.
  Proof.
    destruct (params_fin o 0 (wd_valid _ W)) as [_ Hq]. pose proof (ro_cmu _ _ Hq) as Hcmu. destruct (neg_mass_facts o (wd_valid _ W)) as [_ [_ [_ [A1 [A2 [A3 _]]]]]].
    fold q a in A1, A2, A3, Hcmu. pose proof n_real. unfold d, speed. fold q. split; [|split].
    - apply Rmult_le_pos; [lra|]. apply Rmult_le_pos; lra.
    - exact A3.
    - apply Rmult_le_compat_l; lra.
  Qed.

  (* quadratic form of the new matrix *)
  Lemma cov_lower : forall (c c' : cmaes xreal F) v v' inds h ok x, good o c v -> moved o c c' v v' inds h ok -> (0 <= quad n (v_C v) x)%R ->
    (quad n (v_C v') x >= (1 - e) * quad n (v_C v) x - d * quad n (ceig v) x)%R.
  Proof.
    intros c c' v v' inds h ok x G M Hx. rewrite (mv_C _ _ _ _ _ _ _ _ M). set (y := steps_of inds). fold q.
    destruct (params_fin o 0 (wd_valid _ W)) as [_ Hq]. fold q in Hq. pose proof (ro_cmu _ _ Hq) as Hcmu. pose proof (ro_c1 _ _ Hq) as Hc1. pose proof (ro_cc _ _ Hq) as Hcc.
    destruct (neg_mass_facts o (wd_valid _ W)) as [W1 [W2 [W3 [A1 [A2 [A3 _]]]]]]. fold q in W1, W2, W3, A1, A2, A3. fold a in W3, A1, A2, A3.
    set (Q := quad n (ceig v) x). set (QC := quad n (v_C v) x) in *.
    assert (HQ : (0 <= Q)%R).
    { unfold Q, ceig. rewrite (quad_compose n (v_B v) (dc_orth _ _ (gd_dec _ _ _ G))). apply Sig_nonneg. intros. apply Rmult_le_pos; apply Rle_0_sqr. }
    assert (EQ : quad n (covR q v y h) x = (kR q h * QC + q_c1 q * (dotR n x (pcR q v y h) * dotR n x (pcR q v y h)) + q_cmu q * Sig (q_cnt q) (fun k => wcR q v y k * (dotR n x (y k) * dotR n x (y k))))%R).
    { unfold covR, QC. rewrite !quad_plus, !quad_scale, quad_Sig, quad_outer. apply Rplus_eq_compat_l. apply (f_equal (fun z => (q_cmu q * z)%R)). apply Sig_ext. intros k _. apply quad_outer. }
    rewrite EQ. clear EQ.
    assert (K : (kR q h >= 1 - e)%R).
    { unfold kR. rewrite W3. unfold e, d, speed. fold q. replace (INR n * (q_cmu q * a) / INR n)%R with (q_cmu q * a)%R by (field; pose proof n_real; lra).
      assert (0 <= q_c1 q * ((1 - h) * q_cc q * (2 - q_cc q)))%R; [|nra]. apply Rmult_le_pos; [lra|]. apply Rmult_le_pos; [|lra]. apply Rmult_le_pos; [|lra].
      destruct (mv_h _ _ _ _ _ _ _ _ M) as [-> | ->]; lra. }
    assert (D : forall p, In p inds -> exists z, fv n (pt_step p) (fun i => Sig n (fun l => (v_T v i l * z l)%R)) /\ (o_weights o = WNegative -> nonzero n z)).
    { intros p Hp. destruct (mv_draw _ _ _ _ _ _ _ _ M p Hp) as [g [k [z [_ [Z1 [Z2 _]]]]]]. exists z. auto. }
    assert (Low : (Sig (q_cnt q) (fun k => wcR q v y k * (dotR n x (y k) * dotR n x (y k))) >= - (INR n * a * Q))%R).
    { replace (q_cnt q) with (q_mu q + (q_cnt q - q_mu q)) by (pose proof (ro_mu _ _ Hq); lia). rewrite Sig_split.
      assert (P1 : (0 <= Sig (q_mu q) (fun k => wcR q v y k * (dotR n x (y k) * dotR n x (y k))))%R).
      { apply Sig_nonneg. intros k Hk. apply Rmult_le_pos; [|apply Rle_0_sqr]. unfold wcR. pose proof (W1 k Hk). destruct (Rlt_dec (q_w q k) 0); lra. }
      assert (P2 : (Sig (q_cnt q - q_mu q) (fun i => INR n * Q * q_w q (q_mu q + i)%nat) <= Sig (q_cnt q - q_mu q) (fun i => wcR q v y (q_mu q + i)%nat * (dotR n x (y (q_mu q + i)%nat) * dotR n x (y (q_mu q + i)%nat))))%R).
      { apply Sig_le. intros i Hi. set (k := q_mu q + i). assert (Kc : k < q_cnt q) by (unfold k; lia). pose proof (W2 k ltac:(unfold k; lia) Kc) as Wk. unfold wcR.
        destruct (Rlt_dec (q_w q k) 0) as [Wn|Wn].
        - pose proof (rescaled o 0 v inds (wd_valid _ W) (gd_dec _ _ _ G) (mv_len _ _ _ _ _ _ _ _ M) D k Kc Wn) as Sp. fold q y in Sp.
          pose proof (weighted_cauchy n (v_B v) (dc_orth _ _ (gd_dec _ _ _ G)) (v_d v) x (y k) (dc_d _ _ (gd_dec _ _ _ G))) as C. cbv zeta in C. fold (ceig v) in C. fold Q in C.
          set (u := (dotR n x (y k) * dotR n x (y k))%R) in *.
          assert (ES : dotR n (fun i => Sig n (fun j => (compose n (v_B v) (fun k => / v_d v k)%R i j * y k j)%R)) (fun i => Sig n (fun j => (compose n (v_B v) (fun k => / v_d v k)%R i j * y k j)%R)) = dotR n (SyR q v y k) (SyR q v y k)).
          { apply Sig_ext. intros i0 Hi0. unfold SyR. change (q_n q) with n. f_equal; apply Sig_ext; intros j Hj; rewrite (dc_S _ _ (gd_dec _ _ _ G) i0 j Hi0 Hj); reflexivity. }
          rewrite ES in C. change (q_n q) with n in Sp. change (q_n q) with n. set (t := dotR n (SyR q v y k) (SyR q v y k)) in *.
          assert (R : (u / t <= Q)%R) by (apply frac_le; [exact Sp|rewrite Rmult_comm; exact C]).
          clearbody t u. assert (Et : (q_w q k * (INR n / t) * u = q_w q k * INR n * (u / t))%R) by (field; apply Rgt_not_eq; exact Sp). rewrite Et.
          pose proof n_real. assert (q_w q k * INR n <= 0)%R by nra. nra.
        - assert (Z : q_w q k = 0%R) by lra. rewrite Z. lra. }
      rewrite Sig_mul_l in P2. assert (EA : Sig (q_cnt q - q_mu q) (fun i => q_w q (q_mu q + i)%nat) = (- a)%R) by (unfold a, neg_mass; lra). rewrite EA in P2. lra. }
    assert (T1 : (0 <= q_c1 q * (dotR n x (pcR q v y h) * dotR n x (pcR q v y h)))%R) by (apply Rmult_le_pos; [lra|apply Rle_0_sqr]).
    assert (T2 : (q_cmu q * Sig (q_cnt q) (fun k => wcR q v y k * (dotR n x (y k) * dotR n x (y k))) >= - (d * Q))%R).
    { unfold d. apply Rle_ge. apply Rle_trans with (q_cmu q * (- (INR n * a * Q)))%R; [right; ring|]. apply Rmult_le_compat_l; lra. }
    assert (T3 : (kR q h * QC >= (1 - e) * QC)%R) by (apply Rmult_ge_compat_r; lra). lra.
  Qed.

  (* the invariant: how much of the matrix at the last refresh is left *)
  Definition left_over (c : cmaes xreal F) (v : rstate) : Prop := exists L : nat,
    (st_last_eigen (c_state c) + N.of_nat (lamb o * L) <= function_evals c)%N /\
    (L = 0 \/ (N.of_nat (lamb o * L) < evals_per_eigen_update (c_params c))%N) /\
    forall x, (quad n (v_C v) x >= (1 - INR L * (e + d)) * quad n (ceig v) x)%R.

  Lemma ceig_posdef : forall (c : cmaes xreal F) v, good o c v -> posdef n (ceig v).
  Proof.
    intros c v G. apply posdef_compose; [apply (dc_orth _ _ (gd_dec _ _ _ G))|]. intros k Hk. pose proof (dc_d _ _ (gd_dec _ _ _ G) k Hk). nra.
  Qed.
  Lemma left_next : forall (c : cmaes xreal F) v L, good o c v -> (L = 0 \/ (N.of_nat (lamb o * L) < evals_per_eigen_update (c_params c))%N) -> (0 < 1 - INR (S L) * (e + d))%R.
  Proof.
    intros c v L G H. destruct d_range as [D1 [D2 D3]]. apply (still_positive (INR n) (speed o) d n_real speed_pos D1 D2 D3).
    destruct H as [H|H]; [left; exact H|right]. destruct (gd_par _ _ _ G) as [seed Gp]. rewrite Gp in H. apply (evals_per_bound o seed _ (wd_valid _ W)) in H.
    rewrite mult_INR in H. destruct (valid_opts o (wd_valid _ W)) as [Hl _]. assert (Lp : (0 < INR (lamb o))%R) by (apply lt_0_INR; unfold lamb; lia).
    fold n in H. apply Rmult_lt_reg_l with (INR (lamb o)); [exact Lp|]. lra.
  Qed.
  Lemma left_posdef : forall c v, good o c v -> left_over c v -> posdef n (v_C v).
  Proof.
    intros c v G [L [_ [H2 H3]]] x Hx. pose proof (ceig_posdef c v G x Hx) as P. pose proof (left_next c v L G H2) as N. specialize (H3 x).
    destruct d_range as [D1 [D2 D3]]. pose proof (e_range (INR n) (speed o) d n_real speed_pos D1 D2 D3) as Er. fold e in Er. rewrite S_INR in N. pose proof (pos_INR L).
    assert (0 < 1 - INR L * (e + d))%R by nra. nra.
  Qed.
  Lemma moved_posdef : forall (c c' : cmaes xreal F) v v' inds h ok, good o c v -> left_over c v -> moved o c c' v v' inds h ok ->
    posdef n (v_C v') /\ exists L, (st_last_eigen (c_state c) + N.of_nat (lamb o * S L) <= function_evals c')%N /\
      forall x, (quad n (v_C v') x >= (1 - INR (S L) * (e + d)) * quad n (ceig v) x)%R.
  Proof.
    intros c c' v v' inds h ok G Lo M. pose proof (left_posdef c v G Lo) as PD. destruct Lo as [L [H1 [H2 H3]]].
    pose proof (left_next c v L G H2) as Np. destruct d_range as [D1 [D2 D3]]. pose proof (e_range (INR n) (speed o) d n_real speed_pos D1 D2 D3) as Er. fold e in Er.
    pose proof (decay (INR n) (speed o) d n_real speed_pos D1 D2 D3 L) as De. fold e in De.
    assert (Q0 : forall A x, posdef n A -> (0 <= quad n A x)%R).
    { intros A x HA. destruct (Classical_Prop.classic (nonzero n x)) as [Nz|Nz]; [left; apply HA; exact Nz|]. right. symmetry. apply quad_zero_vec. intros i Hi.
      destruct (Req_EM_T (x i) 0) as [Z|Z]; [exact Z|]. exfalso. apply Nz. exists i. auto. }
    assert (B : forall x, (quad n (v_C v') x >= (1 - INR (S L) * (e + d)) * quad n (ceig v) x)%R).
    { intros x. pose proof (cov_lower c c' v v' inds h ok x G M (Q0 _ x PD)) as C. pose proof (Q0 _ x (ceig_posdef c v G)) as Cp. specialize (H3 x).
      assert ((1 - e) * quad n (v_C v) x >= (1 - e) * ((1 - INR L * (e + d)) * quad n (ceig v) x))%R by (apply Rmult_ge_compat_l; pose proof speed_pos; lra). nra. }
    split.
    - intros x Hx. pose proof (ceig_posdef c v G x Hx). specialize (B x). nra.
    - exists L. split; [|exact B]. rewrite (mv_evals _ _ _ _ _ _ _ _ M). unfold lamb in *. lia.
  Qed.

  Lemma reaches_left : forall f c, reaches ev o f c -> exists v, good o c v /\ left_over c v.
  Proof.
    apply (reaches_invariant ev o left_over W).
    - intros f c v Hb G E1 E2 E3 E4 E5. exists 0. rewrite E1, E2. split; [rewrite Nat.mul_0_r; cbn; lia|]. split; [left; reflexivity|].
      intros x. cbn [INR]. rewrite Rmult_0_l, Rminus_0_r, Rmult_1_l. right. unfold ceig. rewrite E3, E4, E5. apply quad_ext. intros i j Hi Hj.
      rewrite <- (compose_one n delta (orth_delta n) i j Hi Hj). unfold compose. apply Sig_ext. intros. ring.
    - intros c c' v [A1 [A2 [A3 _]]] [L [H1 [H2 H3]]]. exists L. unfold function_evals in *. rewrite A1, A2, A3. auto.
    - intros c v c' G [L [H1 [H2 H3]]] Es Ee G'. exists L. rewrite Es, Ee. destruct (gd_par _ _ _ G) as [s1 P1], (gd_par _ _ _ G') as [s2 P2]. rewrite P1 in H2. rewrite P2. auto.
    - intros c v c' v' inds h ok G Lo G' M. destruct (moved_posdef c c' v v' inds h ok G Lo M) as [PD [L [H1 H2]]]. pose proof (mv_eig _ _ _ _ _ _ _ _ M) as Me.
      destruct (gd_par _ _ _ G) as [s1 P1], (gd_par _ _ _ G') as [s2 P2].
      assert (Ep : evals_per_eigen_update (c_params c') = evals_per_eigen_update (c_params c)) by (rewrite P1, P2; reflexivity).
      destruct (do_eigen_update (c_params c) (c_state c) (function_evals c')) eqn:De.
      + destruct Me as [V [lam [O1 [O2 O3]]]]. fold n in O1, O2, O3. pose proof (posdef_eigenvalues n V O1 (v_C v') lam O2) as PE. destruct ok.
        * destruct O3 as [O3 [O4 [O5 O6]]]. exists 0. rewrite O4. split; [rewrite Nat.mul_0_r; cbn; lia|]. split; [left; reflexivity|].
          intros x. cbn [INR]. rewrite Rmult_0_l, Rminus_0_r, Rmult_1_l. right. unfold ceig. rewrite O5, O6. apply quad_ext. intros i j Hi Hj.
          rewrite (spectral n V O1 (v_C v') lam O2 i j Hi Hj). unfold compose. apply Sig_ext. intros k Hk. rewrite sqrt_sqrt by (left; apply O3; exact Hk). reflexivity.
        * exfalso. destruct O3 as [[k [Hk Hl]] _]. pose proof (proj1 PE PD k Hk). lra.
      + destruct Me as [-> [O4 [O5 O6]]]. exists (S L). rewrite O4, Ep. split; [exact H1|]. split; [right|].
        * unfold do_eigen_update in De. apply N.leb_gt in De. lia.
        * unfold ceig in *. rewrite O5, O6. exact H2.
  Qed.

  (* how much can be lost between two refreshes *)
  Definition lmax : nat := N.to_nat ((evals_per_eigen_update (params_of_options o 0) - 1) / o_population_size o).
  Definition rho : R := (1 - INR (S lmax) * (e + d))%R.
  Lemma ed_range : (0 < e + d)%R.
  Proof.
    destruct d_range as [D1 [D2 D3]]. pose proof speed_pos. pose proof n_real as N1. unfold e.
    assert (d / INR n <= d)%R; [|lra]. apply Rmult_le_reg_r with (INR n); [lra|]. unfold Rdiv. rewrite Rmult_assoc, Rinv_l by lra. nra.
  Qed.
  Lemma rho_range : (0 < rho < 1)%R.
  Proof.
    pose proof ed_range as Ed. split.
    - destruct d_range as [D1 [D2 D3]]. unfold rho. apply (still_positive (INR n) (speed o) d n_real speed_pos D1 D2 D3).
      destruct (Nat.eq_dec lmax 0) as [Z|Z]; [left; exact Z|right]. destruct (valid_opts o (wd_valid _ W)) as [Hl _].
      assert (H : (N.of_nat (lamb o * lmax) < evals_per_eigen_update (params_of_options o 0))%N).
      { unfold lmax in *. set (x := evals_per_eigen_update _) in *. clearbody x. unfold lamb. rewrite Nat2N.inj_mul, !N2Nat.id.
        pose proof (N.mul_div_le (x - 1) (o_population_size o) ltac:(lia)). set (y := ((x - 1) / o_population_size o)%N) in *. 
        assert (y <> 0%N) by lia. assert (1 <= o_population_size o * y)%N by nia. lia. }
      apply (evals_per_bound o 0 _ (wd_valid _ W)) in H. rewrite mult_INR in H. assert (Lp : (0 < INR (lamb o))%R) by (apply lt_0_INR; unfold lamb; lia).
      fold n in H. apply Rmult_lt_reg_l with (INR (lamb o)); [exact Lp|]. lra.
    - unfold rho. rewrite S_INR. pose proof (pos_INR lmax). nra.
  Qed.
  Lemma admissible : forall L, L = 0 \/ (N.of_nat (lamb o * L) < evals_per_eigen_update (params_of_options o 0))%N -> (rho <= 1 - INR (S L) * (e + d))%R.
  Proof.
    intros L H. assert (Le : L <= lmax).
    { destruct H as [-> |H]; [lia|]. destruct (valid_opts o (wd_valid _ W)) as [Hl _]. unfold lmax. set (x := evals_per_eigen_update _) in *. clearbody x. unfold lamb in H.
      assert (Y : (N.of_nat L <= (x - 1) / o_population_size o)%N) by (apply N.div_le_lower_bound; lia). lia. }
    apply le_n_S in Le. apply le_INR in Le. pose proof ed_range. unfold rho. nra.
  Qed.
  Lemma pow_le1 : forall r k, (0 < r < 1)%R -> (0 < r ^ k <= 1)%R.
  Proof. intros r k H. induction k as [|k IH]; cbn; [lra|]. nra. Qed.
  (* with the generations before the last refresh and those since *)
  Definition decays (c : cmaes xreal F) (v : rstate) : Prop := exists L K : nat,
    st_last_eigen (c_state c) = N.of_nat (lamb o * K) /\ function_evals c = N.of_nat (lamb o * (K + L)) /\
    (L = 0 \/ (N.of_nat (lamb o * L) < evals_per_eigen_update (params_of_options o 0))%N) /\
    (forall x, (quad n (v_C v) x >= (1 - INR L * (e + d)) * quad n (ceig v) x)%R) /\
    (forall x, (quad n (ceig v) x >= rho ^ K * dotR n x x)%R).
  Lemma reaches_decays : forall f c, reaches ev o f c -> exists v, good o c v /\ decays c v.
  Proof.
    apply (reaches_invariant ev o decays W).
    - intros f c v Hb G E1 E2 E3 E4 E5. exists 0, 0. rewrite E1, E2, Nat.add_0_r, Nat.mul_0_r. split; [reflexivity|]. split; [reflexivity|]. split; [left; reflexivity|]. 
      assert (C1 : forall i j, i < n -> j < n -> ceig v i j = delta i j).
      { intros i j Hi Hj. unfold ceig. rewrite E4, E5. rewrite <- (compose_one n delta (orth_delta n) i j Hi Hj). unfold compose. apply Sig_ext. intros. ring. }
      assert (C2 : forall x, quad n (ceig v) x = dotR n x x).
      { intros x. rewrite (quad_ext n _ delta) by (intros; apply C1; assumption). unfold quad, dotR. apply Sig_ext. intros i Hi.
        rewrite (Sig_ext n _ (fun j => (delta i j * (x i * x j))%R)) by (intros; ring). rewrite Sig_delta by exact Hi. reflexivity. }
      split; intros x.
      + cbn [INR]. rewrite Rmult_0_l, Rminus_0_r, Rmult_1_l. right. rewrite E3. apply quad_ext. intros. symmetry. apply C1; assumption.
      + cbn [pow]. rewrite Rmult_1_l. right. apply C2.
    - intros c c' v [A1 [A2 [A3 _]]] [L [K H]]. exists L, K. unfold function_evals in *. rewrite A1, A3. auto.
    - intros c v c' G [L [K H]] Es Ee G'. exists L, K. rewrite Es, Ee. auto.
    - intros c v c' v' inds h ok G [L [K [H1 [H2 [H3 [H4 H5]]]]]] G' M.
      destruct (gd_par _ _ _ G) as [s1 P1].
      assert (Lo : left_over c v).
      { exists L. rewrite H1, H2. split; [lia|]. split; [rewrite P1; exact H3|exact H4]. }
      pose proof (left_posdef c v G Lo) as PD. destruct (moved_posdef c c' v v' inds h ok G Lo M) as [PD' _].
      assert (Q0 : forall A x, posdef n A -> (0 <= quad n A x)%R).
      { intros A x HA. destruct (Classical_Prop.classic (nonzero n x)) as [Nz|Nz]; [left; apply HA; exact Nz|]. right. symmetry. apply quad_zero_vec. intros i Hi.
        destruct (Req_EM_T (x i) 0) as [Z|Z]; [exact Z|]. exfalso. apply Nz. exists i. auto. }
      destruct d_range as [D1 [D2 D3]]. pose proof (e_range (INR n) (speed o) d n_real speed_pos D1 D2 D3) as Er. fold e in Er.
      pose proof (decay (INR n) (speed o) d n_real speed_pos D1 D2 D3 L) as De. fold e in De.
      assert (B : forall x, (quad n (v_C v') x >= (1 - INR (S L) * (e + d)) * quad n (ceig v) x)%R).
      { intros x. pose proof (cov_lower c c' v v' inds h ok x G M (Q0 _ x PD)) as C. pose proof (Q0 _ x (ceig_posdef c v G)) as Cp. specialize (H4 x).
        assert ((1 - e) * quad n (v_C v) x >= (1 - e) * ((1 - INR L * (e + d)) * quad n (ceig v) x))%R by (apply Rmult_ge_compat_l; pose proof speed_pos; lra). nra. }
      pose proof (mv_eig _ _ _ _ _ _ _ _ M) as Me. pose proof (mv_evals _ _ _ _ _ _ _ _ M) as Mv. rewrite H2 in Mv. 
      assert (Lp : o_population_size o = N.of_nat (lamb o)) by (unfold lamb; lia). rewrite Lp in Mv.
      destruct (do_eigen_update (c_params c) (c_state c) (function_evals c')) eqn:Du.
      + destruct Me as [V [lam [O1 [O2 O3]]]]. fold n in O1, O2, O3. pose proof (posdef_eigenvalues n V O1 (v_C v') lam O2) as PE. destruct ok.
        * destruct O3 as [O3 [O4 [O5 O6]]]. exists 0, (K + L + 1). rewrite O4, Mv.
          split; [lia|]. split; [lia|]. split; [left; reflexivity|].
          assert (EQ : forall x, quad n (v_C v') x = quad n (ceig v') x).
          { intros x. unfold ceig. rewrite O5, O6. apply quad_ext. intros i j Hi Hj.
            rewrite (spectral n V O1 (v_C v') lam O2 i j Hi Hj). unfold compose. apply Sig_ext. intros k Hk. rewrite sqrt_sqrt by (left; apply O3; exact Hk). reflexivity. }
          split; intros x.
          -- cbn [INR]. rewrite Rmult_0_l, Rminus_0_r, Rmult_1_l. right. apply EQ.
          -- rewrite <- EQ. specialize (B x). specialize (H5 x). pose proof (admissible L H3) as Ad. pose proof rho_range as Rr.
             assert (Nx : (0 <= dotR n x x)%R) by (apply Sig_nonneg; intros; apply Rle_0_sqr).
             pose proof (pow_le1 rho K Rr) as P2. pose proof (pow_le1 rho L Rr) as P3. pose proof (Q0 _ x (ceig_posdef c v G)) as Cp.
             replace (K + L + 1)%nat with (S (K + L)) by lia. cbn [pow]. rewrite pow_add.
             assert (T1 : (quad n (v_C v') x >= rho * quad n (ceig v) x)%R) by nra.
             assert (T2 : (rho * quad n (ceig v) x >= rho * (rho ^ K * dotR n x x))%R) by (apply Rmult_ge_compat_l; lra).
             assert (T3 : (0 <= rho * (rho ^ K * dotR n x x))%R) by (apply Rmult_le_pos; [lra|apply Rmult_le_pos; lra]).
             replace (rho * (rho ^ K * rho ^ L) * dotR n x x)%R with (rho ^ L * (rho * (rho ^ K * dotR n x x)))%R by ring.
             assert (T4 : (rho ^ L * (rho * (rho ^ K * dotR n x x)) <= 1 * (rho * (rho ^ K * dotR n x x)))%R) by (apply Rmult_le_compat_r; lra). lra.
        * exfalso. destruct O3 as [[k [Hk Hl]] _]. pose proof (proj1 PE PD' k Hk). lra.
      + destruct Me as [-> [O4 [O5 O6]]]. exists (S L), K. rewrite O4, Mv. split; [exact H1|]. split; [lia|]. split; [right|split].
        * unfold do_eigen_update in Du. apply N.leb_gt in Du. rewrite P1 in Du. rewrite H1, Mv in Du.
          change (evals_per_eigen_update (params_of_options o s1)) with (evals_per_eigen_update (params_of_options o 0)) in Du. lia.
        * unfold ceig in *. rewrite O5, O6. exact B.
        * unfold ceig in *. rewrite O5, O6. exact H5.
  Qed.
  Lemma decays_bound : forall c v, good o c v -> decays c v -> exists k, function_evals c = N.of_nat (lamb o * k) /\
    forall x, (quad n (v_C v) x >= rho ^ k * dotR n x x)%R.
  Proof.
    intros c v G [L [K [_ [H2 [H3 [H4 H5]]]]]]. exists (K + L). split; [exact H2|]. intros x. specialize (H4 x). specialize (H5 x).
    pose proof rho_range as Rr. pose proof (pow_le1 rho K Rr) as P2. pose proof (admissible L H3) as Ad. pose proof ed_range.
    assert (Nx : (0 <= dotR n x x)%R) by (apply Sig_nonneg; intros; apply Rle_0_sqr). rewrite pow_add. 
    assert (P3 : (rho ^ L <= 1 - INR L * (e + d))%R).
    { destruct L as [|L']; [cbn; lra|]. apply Rle_trans with rho; [|rewrite (S_INR (S L')) in Ad; lra].
      cbn [pow]. pose proof (pow_le1 rho L' Rr). nra. }
    assert (0 <= rho ^ K * dotR n x x)%R by (apply Rmult_le_pos; lra).
    pose proof (pow_le1 rho L Rr). replace (rho ^ K * rho ^ L * dotR n x x)%R with (rho ^ L * (rho ^ K * dotR n x x))%R by ring. 
    assert (rho ^ L * (rho ^ K * dotR n x x) <= (1 - INR L * (e + d)) * (rho ^ K * dotR n x x))%R by (apply Rmult_le_compat_r; lra).
    assert ((1 - INR L * (e + d)) * quad n (ceig v) x >= (1 - INR L * (e + d)) * (rho ^ K * dotR n x x))%R by (apply Rmult_ge_compat_l; lra). lra.
  Qed.
End Pos.
