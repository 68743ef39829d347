(* C89: the points of a generation and the covariance matrix they are drawn with, as computed in binary64. *)
From Coq Require Import List NArith ZArith Bool Reals Lra Lia Arith Psatz Permutation Sorted.
From Flocq Require Import Core.
From Flocq Require Import IEEE754.BinarySingleNaN.
Require Import Verif.Lib Verif.Base Verif.Num Verif.F64 Verif.XReal Verif.LinAlg Verif.Mode Verif.Weights Verif.Options
  Verif.Params Verif.Env Verif.State Verif.Sampling Verif.History Verif.Termination Verif.Plot Verif.Cmaes
  Verif.Spec Verif.Order Verif.F64Lemmas Verif.BuildLemmas Verif.TraceLemmas Verif.CeilLemmas Verif.XRound Verif.XLe
  Verif.NextInv Verif.SamplingLemmas Verif.PanicLemmas Verif.NextSafe Verif.PlotLemmas Verif.RSum
  Verif.F64Acc Verif.F64Weights Verif.F64Rates Verif.Toy Verif.ToyLemmas Verif.StateLemmas
  Verif.F64Rel Verif.F64Mean Verif.F64Cov Verif.F64CovErr Verif.F64Path Verif.F64Conj Verif.F64Axes Verif.TermLemmas Verif.PropPlot Verif.PropPanic Verif.PropSampling
  Verif.PropFloatParams Verif.PropFloatMean Verif.PropFloatCov Verif.PropFloatCovErr Verif.PropFloatConj Verif.PropFloatAxes.
Import ListNotations.
Open Scope R_scope.

(* ---- specification ---- *)
(* what the solver returns for a finite symmetric matrix are finite numbers, columns that are nearly unit vectors, and together they
   give back every entry up to eps times the largest entry *)
Definition accurate_solver {L : Libm f64} {E : Env f64} (n : nat) (eps : R) : Prop :=
  forall m v vals, shape n n m -> symmetric_mat n m -> (forall i j, (i < n)%nat -> (j < n)%nat -> is_finite (mnth m i j) = true) -> eigen m = Some (v, vals) ->
  sound_columns n v /\ (forall k, (k < n)%nat -> fin_comp vals k) /\
  forall S, (forall i j, (i < n)%nat -> (j < n)%nat -> Rabs (B2R (mnth m i j)) <= S) ->
  forall i j, (i < n)%nat -> (j < n)%nat -> Rabs (Sig n (fun k => axis n v i k * comp vals k * axis n v j k) - B2R (mnth m i j)) <= eps * S.
(* coordinate i of m + s * A * z *)
Definition normal_point (n : nat) (A : nat -> nat -> R) (m s : R) (z : nat -> R) (i : nat) : R := m + s * Sig n (fun j => A i j * z j).
Definition normal_tolerance (n : nat) (A : nat -> nat -> R) (m s : R) (z : nat -> R) (i : nat) : R :=
  (3 * INR n + 9) / 2 ^ 53 * (Rabs m + Rabs s * Sig n (fun j => Rabs (A i j) * Rabs (z j)))
  + (2 * Rabs s * Sig n (fun j => (euclid n (fun k => A k j) + 1) * Rabs (z j) + 1) + 2) * bpow radix2 (-1074).

Section Factor.
  Variable n : nat.
  Variables (v : mat f64) (vals : vec f64).
  Hypothesis Hc : sound_columns n v.
  Hypothesis Hp : forall k, (k < n)%nat -> 0 < comp vals k.
  Definition factor (i j : nat) : R := axis n v i j * deviation vals j.

  Lemma axis_unit : forall j, (j < n)%nat -> Sig n (fun i => axis n v i j * axis n v i j) = 1.
  Proof.
    intros j Hj. destruct (Hc j Hj) as [_ [H1 _]]. unfold axis. set (l := euclid n (fun k => B2R (mnth v k j))) in *.
    rewrite (Sig_ext _ _ (fun i => B2R (mnth v i j) * B2R (mnth v i j) * / (l * l))) by (intros; field; lra). rewrite Sig_mul_r.
    assert (El : l * l = Sig n (fun i => B2R (mnth v i j) * B2R (mnth v i j))). { unfold l, euclid. apply sqrt_def. apply Sig_nonneg. intros i _. nra. }
    rewrite <- El. field. lra.
  Qed.
  Lemma factor_column : forall j, (j < n)%nat -> euclid n (fun k => factor k j) = deviation vals j.
  Proof.
    intros j Hj. unfold euclid, factor. rewrite (Sig_ext _ _ (fun i => axis n v i j * axis n v i j * (deviation vals j * deviation vals j))) by (intros; ring). rewrite Sig_mul_r, (axis_unit j Hj), Rmult_1_l.
    apply sqrt_square. apply sqrt_pos.
  Qed.
  Lemma factor_product : forall i j, Sig n (fun k => factor i k * factor j k) = Sig n (fun k => axis n v i k * comp vals k * axis n v j k).
  Proof.
    intros i j. apply Sig_ext. intros k Hk. unfold factor, deviation. assert (S : sqrt (comp vals k) * sqrt (comp vals k) = comp vals k) by (apply sqrt_def; left; apply Hp; exact Hk).
    transitivity (axis n v i k * axis n v j k * (sqrt (comp vals k) * sqrt (comp vals k))); [ring|]. rewrite S. ring.
  Qed.
  Lemma drawn_normal : forall m s z i, drawn_point n v vals m s z i = normal_point n factor m s z i.
  Proof. intros. unfold drawn_point, normal_point. f_equal. Qed.
  Lemma tolerance_normal : forall m s z i, point_tolerance n v vals m s z i = normal_tolerance n factor m s z i.
  Proof.
    intros m s z i. unfold point_tolerance, normal_tolerance.
    rewrite (Sig_ext _ (fun j => Rabs (factor i j) * Rabs (z j)) (fun j => Rabs (axis n v i j) * deviation vals j * Rabs (z j))).
    2:{ intros j Hj. unfold factor. rewrite Rabs_mult, (Rabs_pos_eq (deviation vals j)) by apply sqrt_pos. reflexivity. }
    rewrite (Sig_ext _ (fun j => (euclid n (fun k => factor k j) + 1) * Rabs (z j) + 1) (fun j => (deviation vals j + 1) * Rabs (z j) + 1)); [reflexivity|].
    intros j Hj. rewrite (factor_column j Hj). reflexivity.
  Qed.
End Factor.

Lemma Forall2_weaken : forall {A B} (P Q : A -> B -> Prop) l m, (forall a b, P a b -> Q a b) -> Forall2 P l m -> Forall2 Q l m.
Proof. intros A B P Q l m H F. induction F; constructor; auto. Qed.
Lemma NoDup_front : forall {A} (l m : list A), NoDup (l ++ m) -> NoDup l.
Proof. intros A l m H. induction l as [|x l IH]; constructor; cbn [app] in H; inversion H as [|y k H1 H2]; subst; [intros Hin; apply H1; apply in_or_app; left; exact Hin|apply IH; exact H2]. Qed.

Section FloatSample.
  Context {L : Libm f64} {E : Env f64} {F : Type} (ev : F -> vec f64 -> outcome (f64 * F)).
  Let ev' := log_ev ev.
  Notation session := (cmaes f64 (F * list (Spec.entry f64))).

  (* the points evaluated by a call of next, each with its own block of normal numbers *)
  Lemma points_blocks : eigen_shape (T := f64) -> forall o f seed h c v vals, used ev o f seed h c -> dims_fit o -> used_axes o c v vals ->
    forall par tk r c', next ev' par tk c = Ret (r, c') -> sound_columns (dims o) v ->
    exists new ks, calls c' = calls c ++ new /\ NoDup ks /\
    Forall2 (fun p k => let x := fst p in let z := normals (dims o) (rng_seed seed) k in
      length x = dims o /\ forall i, (i < dims o)%nat -> fin_comp x i ->
        fin_comp (mean c) i /\ is_finite (sigma c) = true /\ (forall j, (j < dims o)%nat -> fin_comp z j /\ positive_value vals j) /\
        Rabs (comp x i - drawn_point (dims o) v vals (comp (mean c) i) (B2R (sigma c)) (comp z) i) <= point_tolerance (dims o) v vals (comp (mean c) i) (B2R (sigma c)) (comp z) i) new ks.
  Proof.
    intros He o f seed h c v vals Hu Hdf X. pose proof (used_reaches ev o f seed h c Hu) as Hr. intros par tk r c' Hn Hc.
    destruct (C04_points f64 _ _ _ _ ev o f seed h c Hu) as [d [_ H4]]. destruct (H4 par tk r c' Hn) as [d' [ks [new [_ [Hnew [Hso [_ [_ H5]]]]]]]]. cbv zeta in H5.
    pose proof (reaches_wf He ev' o (f, []) c Hr) as W. pose proof (wf_st _ _ W) as Ws. pose proof (ws_mean _ _ Ws) as Lm. pose proof (ws_transform _ _ Ws) as St.
    assert (Nd : NoDup ks). { clear -Hso. induction Hso as [|k ks Hso IH Hk]; constructor; [|exact IH]. intros Hin. rewrite Forall_forall in Hk. specialize (Hk _ Hin). lia. }
    fold (dims o) in H5. set (g := fun k => transformed (c_state c) (normals (dims o) (rng_seed seed) k)) in *.
    assert (P : exists ks', map fst new = map g ks' /\ NoDup ks').
    { destruct (reports InvalidFunctionValue r).
      - destruct H5 as [rest [all [P1 [_ P2]]]]. apply Permutation_map_inv in P1. destruct P1 as [l3 [E3 P3]]. rewrite P2 in E3. symmetry in E3. apply map_eq_app in E3. destruct E3 as [k1 [k2 [E1 [E2 _]]]].
        exists k1. split; [symmetry; exact E2|]. apply (Permutation_NoDup P3) in Nd. rewrite E1 in Nd. exact (NoDup_front _ _ Nd).
      - destruct H5 as [P1 _]. apply Permutation_sym in P1. apply Permutation_map_inv in P1. destruct P1 as [l3 [E3 P3]]. exists l3. split; [exact E3|]. exact (Permutation_NoDup P3 Nd). }
    destruct P as [ks' [P1 P2]]. exists new, ks'. split; [exact Hnew|]. split; [exact P2|].
    assert (Q : forall x k, x = g k -> let z := normals (dims o) (rng_seed seed) k in length x = dims o /\ forall i, (i < dims o)%nat -> fin_comp x i ->
        fin_comp (mean c) i /\ is_finite (sigma c) = true /\ (forall j, (j < dims o)%nat -> fin_comp z j /\ positive_value vals j) /\
        Rabs (comp x i - drawn_point (dims o) v vals (comp (mean c) i) (B2R (sigma c)) (comp z) i) <= point_tolerance (dims o) v vals (comp (mean c) i) (B2R (sigma c)) (comp z) i).
    { intros x k Hx. cbv zeta. unfold g in Hx. set (z := normals (dims o) (rng_seed seed) k) in *. assert (Lz : length z = dims o) by apply normals_length.
      assert (Lx : length x = dims o). { rewrite Hx. unfold transformed. rewrite map2_length, !map_length. rewrite Lm. destruct St as [St _]. unfold mat, vec in *. rewrite St. apply Nat.min_id. }
      split; [exact Lx|]. intros i Hi Fi. rewrite Hx in *. apply coordinate; try assumption; [exact (wf_dim _ _ W)|exact (dims_bound o Hdf)]. }
    clear Hnew H5. revert ks' P1 P2. induction new as [|p new IH]; intros [|k ks'] P1 P2; try discriminate P1; constructor.
    - apply Q. cbn [map] in P1. injection P1 as P1 _. exact P1.
    - apply IH; [cbn [map] in P1; injection P1 as _ P1; exact P1|inversion P2; assumption].
  Qed.

  (* the decomposition in use is one of the covariance matrix of the last refresh *)
  Lemma root_kept : eigen_shape (T := f64) -> forall eps o f c, reaches ev' o (f, []) c -> 0 <= eps -> accurate_solver (dims o) eps ->
    exists (b : session) ops v vals, reaches ev' o (f, []) b /\ steps ev' b ops = Ret c /\ function_evals b = st_last_eigen (c_state c) /\ used_axes o c v vals /\
    ((forall i j, (i < dims o)%nat -> (j < dims o)%nat -> is_finite (entry b i j) = true) ->
      sound_columns (dims o) v /\ (forall k, (k < dims o)%nat -> 0 < comp vals k) /\
      forall S, (forall i j, (i < dims o)%nat -> (j < dims o)%nat -> Rabs (B2R (entry b i j)) <= S) ->
         forall i j, (i < dims o)%nat -> (j < dims o)%nat -> Rabs (Sig (dims o) (fun k => axis (dims o) v i k * comp vals k * axis (dims o) v j k) - B2R (entry b i j)) <= eps * S).
  Proof.
    intros He eps o f c Hr Heps Hs. destruct (axes_kept ev He o f c Hr) as [v [vals [[b [ops [D1 [D2 [D3 D4]]]]] X]]].
    exists b, ops, v, vals. split; [exact D1|]. split; [exact D2|]. split; [exact D3|]. split; [exact X|]. intros Hfin.
    pose proof (ws_cov _ _ (wf_st _ _ (reaches_wf He ev' o (f, []) b D1))) as Sc. pose proof (C38_symmetric _ _ _ ev' o (f, []) b He D1) as [_ [_ Sy]].
    assert (Ee : forall i j, entry b i j = mnth (covariance_matrix b) i j) by reflexivity. destruct D4 as [D4|[D4 [D5 D6]]].
      - assert (Sy' : symmetric_mat (dims o) (covariance_matrix b)). { intros i j Hi Hj. specialize (Sy i j Hi Hj). destruct Sc as [Sl Sr]. rewrite Forall_forall in Sr. unfold mnth.
          assert (Hrow : forall k, (k < dims o)%nat -> length (nth k (covariance_matrix b) []) = dims o) by (intros k Hk; apply Sr; apply nth_In; rewrite Sl; exact Hk).
          rewrite (@nth_indep f64 (nth i (covariance_matrix b) []) j B754_nan n0) in Sy by (rewrite (Hrow i Hi); exact Hj).
          rewrite (@nth_indep f64 (nth j (covariance_matrix b) []) i B754_nan n0) in Sy by (rewrite (Hrow j Hj); exact Hi). exact Sy. }
        destruct (Hs (covariance_matrix b) v vals Sc Sy' Hfin D4) as [A1 [A2 A3]]. split; [exact A1|]. split; [|exact A3].
        intros k Hk. destruct X as [[_ [Lv [Ex _]]]|[_ [-> _]]]; [|apply (ones_deviation (dims o) k Hk)].
        specialize (A2 k Hk). unfold fin_comp in A2. pose proof (f2x_finite _ A2) as Ik. fold (comp vals k) in Ik. destruct (Rle_lt_dec (comp vals k) 0) as [Q|Q]; [|exact Q]. exfalso.
        assert (Y : existsb (fun x : f64 => nleb x n0) vals = true); [|congruence]. apply existsb_exists. exists (nth k vals n0). split; [apply nth_In; unfold vec in *; lia|]. rewrite f2x_leb, Ik, is0. apply xle_leb. exact Q.
      - rewrite D5, D6. split; [apply identity_sound|]. split; [intros k Hk; apply (ones_deviation (dims o) k Hk)|]. intros S HS i j Hi Hj. rewrite Ee, D4.
        rewrite (Sig_ext _ _ (fun k => delta i k * delta j k)). 2:{ intros k Hk. rewrite !identity_axis by assumption. destruct (ones_deviation (dims o) k Hk) as [Q1 [_ Q2]]. unfold deviation in Q1. assert (Q3 : comp (repeat n1 (dims o)) k = 1) by (rewrite <- (sqrt_def (comp (repeat n1 (dims o)) k)) by lra; rewrite Q1; ring). rewrite Q3. ring. }
        rewrite Sig_delta by exact Hi. rewrite (proj1 (identity_B2R (dims o) i j Hi Hj)), (delta_sym j i), Rminus_diag_eq, Rabs_R0 by reflexivity.
        apply Rmult_le_pos; [exact Heps|]. eapply Rle_trans; [apply Rabs_pos|exact (HS i j Hi Hj)].
  Qed.

  (* Take the covariance matrix that the session had at the last refresh. There is a factorisation A * A^T of it, up to the solver's accuracy,
     such that every point of the next call of next is mean + sigma * A * z up to rounding, each with its own block z of normal numbers. *)
  Theorem C89_normal : eigen_shape (T := f64) -> forall eps o f seed h c, used ev o f seed h c -> dims_fit o -> 0 <= eps -> accurate_solver (dims o) eps ->
    exists (b : session) ops, reaches ev' o (f, []) b /\ steps ev' b ops = Ret c /\
    function_evals b = last_refresh (o_population_size o) (evals_per_eigen_update (params_of_options o seed)) 0 0 h /\
    ((forall i j, (i < dims o)%nat -> (j < dims o)%nat -> is_finite (entry b i j) = true) ->
     exists A : nat -> nat -> R,
       (forall S, (forall i j, (i < dims o)%nat -> (j < dims o)%nat -> Rabs (B2R (entry b i j)) <= S) ->
         forall i j, (i < dims o)%nat -> (j < dims o)%nat -> Rabs (Sig (dims o) (fun k => A i k * A j k) - B2R (entry b i j)) <= eps * S) /\
       forall par tk r c', next ev' par tk c = Ret (r, c') ->
       exists new ks, calls c' = calls c ++ new /\ NoDup ks /\
       Forall2 (fun p k => let x := fst p in let z := normals (dims o) (rng_seed seed) k in
         length x = dims o /\ forall i, (i < dims o)%nat -> fin_comp x i ->
           fin_comp (mean c) i /\ is_finite (sigma c) = true /\ (forall j, (j < dims o)%nat -> fin_comp z j) /\
           Rabs (comp x i - normal_point (dims o) A (comp (mean c) i) (B2R (sigma c)) (comp z) i) <= normal_tolerance (dims o) A (comp (mean c) i) (B2R (sigma c)) (comp z) i) new ks).
  Proof.
    intros He eps o f seed h c Hu Hdf Heps Hs. pose proof (used_reaches ev o f seed h c Hu) as Hr. destruct (root_kept He eps o f c Hr Heps Hs) as [b [ops [v [vals [D1 [D2 [D3 [X K]]]]]]]].
    exists b, ops. split; [exact D1|]. split; [exact D2|]. split; [rewrite D3; exact (used_last_refresh ev _ _ _ _ _ Hu)|]. intros Hfin.
    specialize (K Hfin). destruct K as [K1 [K2 K3]]. exists (factor (dims o) v vals). split.
    { intros S HS i j Hi Hj. rewrite (factor_product (dims o) v vals K2). apply K3; assumption. }
    intros par tk r c' Hn. destruct (points_blocks He o f seed h c v vals Hu Hdf X par tk r c' Hn K1) as [new [ks [N1 [N2 N3]]]]. exists new, ks. split; [exact N1|]. split; [exact N2|].
    eapply Forall2_weaken; [|exact N3]. cbv zeta. intros p k [Lx Hx]. split; [exact Lx|]. intros i Hi Fi. destruct (Hx i Hi Fi) as [Q1 [Q2 [Q3 Q4]]]. split; [exact Q1|]. split; [exact Q2|]. split; [intros j Hj; apply (Q3 j Hj)|].
    rewrite <- drawn_normal. rewrite <- (tolerance_normal (dims o) v vals K1). exact Q4.
  Qed.
End FloatSample.
Print Assumptions C89_normal.

(* An environment for the example: every other normal number is zero, and the solver is exact on diagonal matrices and refuses others. *)
Definition off_diagonal (m : mat f64) : bool :=
  existsb (fun i => existsb (fun j => negb (Nat.eqb i j) && negb (is_finite (mnth m i j) && neqb (mnth m i j) n0)) (seq 0 (length m))) (seq 0 (length m)).
Definition flat_env : Env f64 := {|
  rng_t := N;
  rng_seed := fun s => s;
  rng_normal := fun g => (if N.even g then nth (N.to_nat (g mod 11)) toy_normals n0 else n0, (g + 1)%N);
  eigen := fun m => if off_diagonal m then None else Some (identity (length m), diagonal m);
  nan_median := fun _ => Some nnan
|}.
Lemma flat_shape : eigen_shape (T := f64) (E := flat_env).
Proof.
  intros n m v vals Hm H. cbn [eigen flat_env] in H. destruct (off_diagonal m); [discriminate H|]. apply (toy_eigen_shape n m v vals Hm). exact H.
Qed.
Lemma flat_accurate : forall (L : Libm f64) n, accurate_solver (E := flat_env) n 0.
Proof.
  intros L n m v vals Hm Hsy Hf H. pose proof Hm as [Lm _]. cbn [eigen flat_env] in H. destruct (off_diagonal m) eqn:Eo; [discriminate H|].
  assert (Ev : v = identity n). { apply (f_equal (fun q => match q with Some p => fst p | None => v end)) in H. cbn [fst] in H. rewrite <- H. exact (f_equal identity Lm). }
  assert (Ed : vals = diagonal m). { apply (f_equal (fun q => match q with Some p => snd p | None => vals end)) in H. cbn [snd] in H. rewrite <- H. reflexivity. } clear H.
  assert (Dg : forall k, (k < n)%nat -> nth k vals n0 = mnth m k k).
  { intros k Hk. rewrite Ed. unfold diagonal. rewrite (nth_indep _ n0 ((fun i => mnth m i i) 0%nat)) by (rewrite map_length, seq_length; unfold mat, vec in *; lia). rewrite (map_nth (fun i => mnth m i i)), seq_nth by (unfold mat, vec in *; lia). reflexivity. }
  split; [rewrite Ev; apply identity_sound|]. split; [intros k Hk; pose proof (Hf k k Hk Hk) as Q; rewrite <- (Dg k Hk) in Q; exact Q|].
  intros S HS i j Hi Hj. rewrite Rmult_0_l, Ev. rewrite (Sig_ext _ _ (fun k => delta i k * (comp vals k * delta j k))) by (intros k Hk; rewrite !identity_axis by assumption; ring). rewrite Sig_delta by exact Hi.
  apply Req_le. unfold delta. destruct (Nat.eqb_spec j i) as [->|Hij].
  - assert (Q : comp vals i = B2R (mnth m i i)) by (exact (f_equal B2R (Dg i Hi))). rewrite Q, Rmult_1_r, Rminus_diag_eq, Rabs_R0 by reflexivity. reflexivity.
  - assert (Z : B2R (mnth m i j) = 0); [|rewrite Z, Rmult_0_r, Rminus_0_r, Rabs_R0; reflexivity].
    destruct (is_finite (mnth m i j) && neqb (mnth m i j) n0)%bool eqn:Ez.
    + apply andb_prop in Ez. destruct Ez as [Z1 Z2]. rewrite f2x_eqb, (f2x_finite _ Z1), is0 in Z2. cbn in Z2. unfold Reqb in Z2. destruct (Req_EM_T (B2R (mnth m i j)) 0) as [Q|Q]; [exact Q|discriminate Z2].
    + exfalso. assert (Y : off_diagonal m = true); [|congruence]. unfold off_diagonal. apply existsb_exists. exists i. split; [apply in_seq; split; [apply Nat.le_0_l|exact (eq_ind_r (fun q => (i < q)%nat) Hi Lm)]|]. apply existsb_exists. exists j. split; [apply in_seq; split; [apply Nat.le_0_l|exact (eq_ind_r (fun q => (j < q)%nat) Hj Lm)]|].
      assert (Y : forall b1 b2, b1 = true -> b2 = false -> (b1 && negb b2)%bool = true) by (intros; subst; reflexivity). apply Y; [|exact Ez]. destruct (Nat.eqb_spec i j) as [Q|Q]; [congruence|reflexivity].
Qed.

(* A session in that environment after two calls of next, the second of which asked the solver: the variances have become different,
   and the next call evaluates four points with finite coordinates. *)
Example C89_case : eigen_shape (T := f64) (E := flat_env) /\ (forall n, accurate_solver (L := rounded_libm) (E := flat_env) n 0) /\ dims_fit c82_options /\
  exists (c c' : cmaes (E := flat_env) f64 (unit * list (Spec.entry f64))) seed h r,
    used (LT := rounded_libm) (E := flat_env) toy_sphere c82_options tt seed h c /\ next (LT := rounded_libm) (E := flat_env) (log_ev toy_sphere) false (c82_tick RLeaf) c = Ret (r, c') /\
    st_last_eigen (c_state c) = function_evals c /\ function_evals c = 8%N /\ nltb (entry (L := rounded_libm) c 0 0) (entry (L := rounded_libm) c 1 1) = true /\
    (forall i j, (i < 2)%nat -> (j < 2)%nat -> is_finite (entry (L := rounded_libm) c i j) = true) /\
    (length (calls c') = length (calls c) + 4)%nat /\ (forall x y, In (x, y) (calls c') -> forall i, (i < 2)%nat -> fin_comp x i).
Proof.
  split; [exact flat_shape|]. split; [apply flat_accurate|]. split; [vm_compute; discriminate|].
  set (two := seq 0 2).
  destruct (holds_ex (after (LT := rounded_libm) (E := flat_env) (log_ev toy_sphere) (tt, []) c82_options [ONext false (c82_tick RLeaf); ONext false (c82_tick RLeaf)])
    (fun c => (st_last_eigen (c_state c) =? function_evals c)%N && (function_evals c =? 8)%N && nltb (entry (L := rounded_libm) c 0 0) (entry (L := rounded_libm) c 1 1) &&
      forallb (fun i => forallb (fun j => is_finite (entry (L := rounded_libm) c i j)) two) two &&
      holds (next (LT := rounded_libm) (E := flat_env) (log_ev toy_sphere) false (c82_tick RLeaf) c) (fun rc => Nat.eqb (length (calls (snd rc))) (length (calls c) + 4) && forallb (fun e => forallb (fun i => is_finite (nth i (fst e) n0)) two) (calls (snd rc))))) as [c [H1 H2]].
  { vm_compute. reflexivity. }
  unfold after in H1. destruct (cmaes_new _ _ _ _) as [[c0|e]| |] eqn:H0 in H1; cbn [obind] in H1; [|discriminate H1|discriminate H1|discriminate H1].
  destruct (steps_used toy_sphere _ _ _ _ _ _ _ H0 H1) as [h Hu].
  apply andb_prop in H2. destruct H2 as [H2 H3]. apply andb_prop in H2. destruct H2 as [H2 H4]. apply andb_prop in H2. destruct H2 as [H2 H5]. apply andb_prop in H2. destruct H2 as [H2 H6].
  apply holds_ex in H3. destruct H3 as [[r c'] [H3 K]]. cbn [snd] in K. apply andb_prop in K. destruct K as [K1 K2].
  assert (In2 : forall i, (i < 2)%nat -> In i two) by (intros i Hi; apply in_seq; lia).
  exists c, c', (match o_seed c82_options with Some s => s | None => 0%N end), h, r. split; [exact Hu|]. split; [exact H3|]. split; [apply N.eqb_eq; exact H2|]. split; [apply N.eqb_eq; exact H6|]. split; [exact H5|]. split.
  { intros i j Hi Hj. rewrite forallb_forall in H4. specialize (H4 _ (In2 i Hi)). rewrite forallb_forall in H4. exact (H4 _ (In2 j Hj)). }
  split; [apply Nat.eqb_eq; exact K1|]. intros x y Hin i Hi. rewrite forallb_forall in K2. specialize (K2 _ Hin). rewrite forallb_forall in K2. exact (K2 _ (In2 i Hi)).
Qed.
