(* C92: the update of the covariance matrix, from the random numbers to the entries. *)
From Coq Require Import List NArith ZArith Bool Reals Lra Lia Arith Psatz Permutation Sorted.
From Flocq Require Import Core.
From Flocq Require Import IEEE754.BinarySingleNaN.
Require Import Verif.Lib Verif.Base Verif.Num Verif.F64 Verif.XReal Verif.LinAlg Verif.Mode Verif.Weights Verif.Options
  Verif.Params Verif.Env Verif.State Verif.Sampling Verif.History Verif.Termination Verif.Plot Verif.Cmaes
  Verif.Spec Verif.Order Verif.Sort Verif.F64Lemmas Verif.BuildLemmas Verif.TraceLemmas Verif.CeilLemmas Verif.XRound Verif.XLe
  Verif.NextInv Verif.LogLemmas Verif.SamplingLemmas Verif.PanicLemmas Verif.NextSafe Verif.PlotLemmas Verif.RSum
  Verif.F64Acc Verif.F64Weights Verif.F64Rates Verif.F64Final Verif.F64Raw Verif.Toy Verif.ToyLemmas Verif.StateLemmas
  Verif.F64Rel Verif.F64Mean Verif.F64Cov Verif.F64CovErr Verif.F64Path Verif.F64Conj Verif.F64Axes Verif.TermLemmas Verif.PropRun Verif.PropPlot Verif.PropPanic Verif.PropSampling
  Verif.PropFloatParams Verif.PropFloatMean Verif.PropFloatCov Verif.PropFloatCovErr Verif.PropFloatConj Verif.PropFloatAxes Verif.PropFloatSample.
Import ListNotations.
Open Scope R_scope.

Lemma xround_self : forall x : f64, is_finite x = true -> xround (XFin (B2R x)) = XFin (B2R x).
Proof. intros x H. cbn [xround]. rewrite rnd64_id by apply generic_format_B2R. rewrite Rlt_bool_true; [reflexivity|]. apply abs_B2R_lt_emax. Qed.

(* a step, with the tolerance of a point of a distribution with mean 0 and step size 1 *)
Section Steps.
  Context {L : Libm f64} {E : Env f64}.
  Lemma step_coordinate : forall n (s : state f64) v vals z i, (1 <= n)%nat -> INR n <= 1099511627776 -> from_solver n (st_cov s) v vals \/ from_start n (st_cov s) v vals -> sound_columns n v ->
    shape n n (cm_transform (st_cov s)) -> length z = n -> (i < n)%nat -> fin_comp (map (fun row => dot row z) (cm_transform (st_cov s))) i ->
    (forall j, (j < n)%nat -> fin_comp z j) /\
    Rabs (comp (map (fun row => dot row z) (cm_transform (st_cov s))) i - drawn_point n v vals 0 1 (comp z) i) <= point_tolerance n v vals 0 1 (comp z) i.
  Proof.
    intros n s v vals z i Hn1 Hn Hd Hc St Lz Hi Fi. set (s0 := mkState 0 (vzeros n) (st_cov s) n1 (vzeros n) (vzeros n) 0). set (y := map (fun row => dot row z) (cm_transform (st_cov s))) in *.
    assert (Ly : length y = n) by (unfold y; rewrite map_length; apply St). assert (L0 : length (vzeros n : vec f64) = n) by apply repeat_length.
    assert (Z0 : nth i (vzeros n) n0 = (n0 : f64)) by apply nth_repeat.
    assert (Ex : nth i (transformed s0 z) n0 = nadd n0 (nmul n1 (nth i y n0))).
    { unfold transformed. cbn [st_cov st_mean st_sigma s0]. fold y. rewrite (Lib.nth_map2 nadd _ _ n0 (nmul n1 n0) n0) by (rewrite ?map_length; unfold vec in *; lia). rewrite Z0, (map_nth (nmul n1)). reflexivity. }
    pose proof (f2x_finite _ Fi) as Iy. fold (comp y i) in Iy. pose proof (is_format _ _ Iy) as Fy.
    assert (I1 : is (nmul n1 (nth i y n0)) (comp y i)). { unfold is. rewrite f2x_mul, is1, Iy. cbn [x_mul]. rewrite Rmult_1_l. exact (xround_self (nth i y n0) Fi). }
    assert (I2 : is (nth i (transformed s0 z) n0) (comp y i)). { rewrite Ex. unfold is. rewrite f2x_add, is0, I1. cbn [x_add]. rewrite Rplus_0_l. exact (xround_self (nth i y n0) Fi). }
    destruct (is_B2R _ _ I2) as [F2 E2].
    destruct (coordinate n s0 v vals z i Hn1 Hn Hd Hc L0 St Lz Hi F2) as [_ [_ [C3 C4]]]. split; [intros j Hj; apply (C3 j Hj)|].
    cbn [st_mean st_sigma s0] in C4. unfold comp at 2 4 in C4. change (comp (transformed s0 z) i) with (B2R (nth i (transformed s0 z) n0)) in C4. rewrite E2 in C4. rewrite Z0 in C4. rewrite (proj2 (is_B2R _ _ is0)), (proj2 (is_B2R _ _ is1)) in C4. exact C4.
  Qed.
End Steps.

Section FloatDrawn.
  Context {L : Libm f64} {E : Env f64} {F : Type} (ev : F -> vec f64 -> outcome (f64 * F)).
  Let ev' := log_ev ev.
  Notation session := (cmaes f64 (F * list (Spec.entry f64))).

  (* the steps of the ranked points are made from different blocks of the random numbers that come next *)
  Lemma inds_drawn : forall o f seed h c d par tk inds sm, used ev o f seed h c -> drawn o seed d c ->
    sample ev' par tk (c_state c) (p_mode (c_params c)) (c_sampler c) = Ret (Some inds, sm) ->
    exists d' ks, sm_rng sm = rng_after (d' * dims o) (rng_seed seed) /\ NoDup ks /\ Forall (fun k => (d <= k < d')%nat) ks /\ length ks = length inds /\
      map (fun p => pt_step p) inds = map (step_at (c_state c) (dims o) (rng_seed seed)) ks.
  Proof.
    intros o f seed h c d par tk inds sm Hu Hd H1. destruct (used_setup ev _ _ _ _ _ Hu) as [_ [_ [Hdim [_ [_ Hp]]]]]. fold (dims o) in Hdim. unfold drawn in Hd. fold (dims o) in Hd.
    pose proof (sample_Some _ _ _ _ _ _ _ _ H1) as [ys [g [f1 [pts [Y1 [Y2 [_ [Y4 [Y5 Y6]]]]]]]]]. apply resample_spec in Y1. destruct Y1 as [cands [out [R1 [R2 [R3 R4]]]]]. cbn [app length] in R1, R2. subst ys.
    destruct (rounds_stream _ _ _ _ _ _ _ _ R1 R3) as [ks [K1 [K2 K3]]].
    assert (Nd : NoDup ks). { clear -K2. induction K2 as [|k ks Hso IH Hk]; constructor; [|exact IH]. intros Hin. rewrite Forall_forall in Hk. specialize (Hk _ Hin). lia. }
    set (ks1 := map (fun k => (d + k)%nat) ks).
    assert (Eo : map (fun p => pt_step p) pts = map (step_at (c_state c) (dims o) (rng_seed seed)) ks1).
    { assert (Q : map (fun p => pt_step p) pts = out). { clear - Y4. induction Y4 as [|y q ys qs H0 H IH]; [reflexivity|]. cbn [map]. rewrite IH. f_equal. apply H0. }
      rewrite Q, K1. unfold ks1. rewrite map_map. apply map_ext. intros k. rewrite Hdim, Hd. apply step_at_shift. }
    assert (Pm : Permutation (map (fun p => pt_step p) inds) (map (step_at (c_state c) (dims o) (rng_seed seed)) ks1)). { rewrite <- Eo. apply Permutation_map. rewrite Y5. apply Permutation_sym, sort_by_perm. }
    apply Permutation_map_inv in Pm. destruct Pm as [l3 [E3 P3]]. exists (d + length (concat cands))%nat, l3. split; [|split; [|split; [|split]]].
    - rewrite Y6. cbn [sm_rng upd_sampler]. rewrite R4, Hdim, Hd, <- rng_after_add. f_equal. lia.
    - apply (Permutation_NoDup P3). unfold ks1. apply FinFun.Injective_map_NoDup; [intros a b Hab; lia|exact Nd].
    - apply (Permutation_Forall P3). unfold ks1. apply Forall_map. eapply Forall_impl; [|exact K3]. cbv beta. intros k Hk. lia.
    - apply (f_equal (fun l : list (vec f64) => length l)) in E3. rewrite !map_length in E3. symmetry. exact E3.
    - exact E3.
  Qed.

  (* One call of next that evaluates all its points. With A a square root, up to eps, of the covariance matrix of the last refresh: the steps y of the ranked points are, up to rounding, A z
     for different new blocks z of the random stream, the points are mean + sigma y, and the new covariance matrix is, up to rounding, what the published formula makes of these same steps. *)
  Theorem C92_from_draws : eigen_shape (T := f64) -> accurate_ln -> forall eps o f seed h c, used ev o f seed h c -> dims_fit o -> sizes_fit o -> 0 <= eps -> accurate_solver (dims o) eps ->
    exists (b : session) ops d, reaches ev' o (f, []) b /\ steps ev' b ops = Ret c /\ drawn o seed d c /\
    function_evals b = last_refresh (o_population_size o) (evals_per_eigen_update (params_of_options o seed)) 0 0 h /\
    ((forall i j, (i < dims o)%nat -> (j < dims o)%nat -> is_finite (entry b i j) = true) ->
     exists A : nat -> nat -> R,
       (forall S, (forall i j, (i < dims o)%nat -> (j < dims o)%nat -> Rabs (B2R (entry b i j)) <= S) ->
         forall i j, (i < dims o)%nat -> (j < dims o)%nat -> Rabs (Sig (dims o) (fun k => A i k * A j k) - B2R (entry b i j)) <= eps * S) /\
       forall par tk r c', next ev' par tk c = Ret (r, c') -> reports InvalidFunctionValue r = false ->
       let lambda := N.to_nat (o_population_size o) in let w := p_weights (c_params c) in let m := length w in
       exists new ranking ks d' (y : nat -> vec f64) c1 cmu cc hs,
         calls c' = calls c ++ new /\ length new = lambda /\ Permutation new ranking /\ StronglySorted (fun a b => as_good (o_mode o) (snd a) (snd b)) ranking /\
         drawn o seed d' c' /\ NoDup ks /\ length ks = lambda /\ Forall (fun k => (d <= k < d')%nat) ks /\
         (forall k i, (k < lambda)%nat -> (i < dims o)%nat ->
           (forall e, nth i (fst (nth k ranking e)) n0 = nadd (nth i (mean c) n0) (nmul (sigma c) (nth i (y k) n0))) /\
           let z := normals (dims o) (rng_seed seed) (nth k ks 0%nat) in
           (fin_comp (y k) i -> (forall j, (j < dims o)%nat -> fin_comp z j) /\
             Rabs (comp (y k) i - Sig (dims o) (fun j => A i j * comp z j)) <= normal_tolerance (dims o) A 0 1 (comp z) i)) /\
         f2x (p_c1 (c_params c)) = XFin c1 /\ f2x (p_cmu (c_params c)) = XFin cmu /\ f2x (p_cc (c_params c)) = XFin cc /\ 0 < c1 <= 1 / 2 /\ 0 <= cmu <= 1 /\ 0 < cc <= 1 /\ (hs = 0 \/ hs = 1) /\
         let b k := B2R (step_weight (dims o) (whitening c) (nth k w n0) (y k)) in
         forall i j, (i < dims o)%nat -> (j < dims o)%nat -> is_finite (entry c' i j) = true ->
           (forall k, (k < m)%nat -> fin_comp (y k) i /\ fin_comp (y k) j) /\
           forall Y, Rabs (comp (path c') i) <= Y -> Rabs (comp (path c') j) <= Y -> (forall k, (k < m)%nat -> Rabs (comp (y k) i) <= Y /\ Rabs (comp (y k) j) <= Y) ->
             Rabs (B2R (entry c' i j) - new_entry c1 cmu cc hs (B2R (entry c i j)) (comp (path c') i) (comp (path c') j) m (weight w) b (fun k => comp (y k) i) (fun k => comp (y k) j))
             <= tolerance c1 cmu (B2R (entry c i j)) (comp (path c') i) (comp (path c') j) m (weight w) b (fun k => comp (y k) i) (fun k => comp (y k) j) Y).
  Proof.
    intros He Hln eps o f seed h c Hu Hdf Hsz Heps Hs. pose proof (used_reaches ev o f seed h c Hu) as Hr. destruct (root_kept ev He eps o f c Hr Heps Hs) as [b [ops [v [vals [D1 [D2 [D3 [X K]]]]]]]].
    destruct (used_drawn ev o f seed h c Hu) as [d Hd].
    exists b, ops, d. split; [exact D1|]. split; [exact D2|]. split; [exact Hd|]. split; [rewrite D3; exact (used_last_refresh ev _ _ _ _ _ Hu)|]. intros Hfin.
    destruct (K Hfin) as [K1 [K2 K3]]. exists (factor (dims o) v vals). split.
    { intros S HS i j Hi Hj. rewrite (factor_product (dims o) v vals K2). apply K3; assumption. }
    intros par tk r c' Hn Hi lambda w m. destruct (sampled ev o f c par tk r c' Hr Hn Hi) as [inds [ok [new [H1 [U [S1 [S2 [S3 [S4 [S5 S6]]]]]]]]]]. set (e0 := mkPoint [] [] n0 : point f64).
    destruct (inds_drawn o f seed h c d par tk inds _ Hu Hd H1) as [d' [ks [Q1 [Q2 [Q3 [Q4 Q5]]]]]].
    destruct (entries ev Hln o f c _ _ inds ok _ Hr Hsz U (fun p Hp => proj2 (S6 p Hp)) e0) as [c1 [cmu [cc [I1 [Im [Ic [B1 [Bm [Bc [Hh H]]]]]]]]]].
    exists new, (map pt_entry inds), ks, d', (fun k => pt_step (nth k inds e0)), c1, cmu, cc, (B2R (calc_hs (c_params c) (st_generation (c_state c)) (st_path_sigma (c_state c')) : f64)).
    repeat (split; [assumption|]). split; [rewrite Q4; exact S5|]. split; [exact Q3|]. split.
    { intros k i Hk Hi'. assert (Hk' : (k < length inds)%nat) by (rewrite S5; exact Hk). destruct (S6 (nth k inds e0) (nth_In _ _ Hk')) as [P1 P2]. split.
      - intros e. rewrite (nth_indep _ e (pt_entry e0)) by (rewrite map_length; exact Hk'). rewrite map_nth. cbn [pt_entry fst]. apply (point_of ev o f); assumption.
      - cbv zeta. intros Fi. assert (Ey : pt_step (nth k inds e0) = step_at (c_state c) (dims o) (rng_seed seed) (nth k ks 0%nat)).
        { rewrite <- (map_nth (fun p => pt_step p) inds e0 k). rewrite Q5. rewrite (nth_indep _ (pt_step e0) (step_at (c_state c) (dims o) (rng_seed seed) 0%nat)) by (rewrite map_length, Q4; exact Hk'). apply map_nth. }
        rewrite Ey in *. unfold step_at in *. pose proof (reaches_wf He ev' o (f, []) c Hr) as W. pose proof (ws_transform _ _ (wf_st _ _ W)) as St.
        destruct (step_coordinate (dims o) (c_state c) v vals _ i (wf_dim _ _ W) (dims_bound o Hdf) X K1 St (normals_length _ _ _) Hi' Fi) as [G1 G2]. split; [exact G1|].
        rewrite (drawn_normal (dims o) v vals), (tolerance_normal (dims o) v vals K1) in G2. unfold normal_point in G2. rewrite Rplus_0_l, Rmult_1_l in G2. exact G2. }
    repeat (split; [assumption|]). cbv zeta. intros i j Hi' Hj Hf. destruct (H i j Hi' Hj Hf) as [_ [_ [_ [H4 H5]]]]. split; [intros k Hk; destruct (H4 k Hk) as [? [? _]]; auto|exact H5].
  Qed.
End FloatDrawn.
Print Assumptions C92_from_draws.

(* The session of C89_case: its covariance matrix, with finite entries, has just been refreshed; the next call evaluates four points and changes an entry. *)
Example C92_case : eigen_shape (T := f64) (E := flat_env) /\ accurate_ln (L := rounded_libm) /\ dims_fit c82_options /\ sizes_fit c82_options /\ (forall n, accurate_solver (L := rounded_libm) (E := flat_env) n 0) /\
  exists (c c' : cmaes (E := flat_env) f64 (unit * list (Spec.entry f64))) seed h r,
    used (LT := rounded_libm) (E := flat_env) toy_sphere c82_options tt seed h c /\ next (LT := rounded_libm) (E := flat_env) (log_ev toy_sphere) false (c82_tick (RNode 1 RLeaf RLeaf)) c = Ret (r, c') /\
    reports InvalidFunctionValue r = false /\ st_last_eigen (c_state c) = function_evals c /\ function_evals c = 8%N /\
    (forall i j, (i < 2)%nat -> (j < 2)%nat -> is_finite (entry (L := rounded_libm) c i j) = true /\ is_finite (entry (L := rounded_libm) c' i j) = true) /\
    (length (calls c') = length (calls c) + 4)%nat /\ neqb (entry (L := rounded_libm) c 1 1) (entry (L := rounded_libm) c' 1 1) = false.
Proof.
  split; [exact flat_shape|]. split; [exact rounded_accurate|]. split; [vm_compute; discriminate|]. split; [split; [vm_compute; reflexivity|vm_compute; discriminate]|]. split; [apply flat_accurate|].
  set (two := seq 0 2).
  destruct (holds_ex (after (LT := rounded_libm) (E := flat_env) (log_ev toy_sphere) (tt, []) c82_options [ONext false (c82_tick RLeaf); ONext false (c82_tick RLeaf)])
    (fun c => (st_last_eigen (c_state c) =? function_evals c)%N && (function_evals c =? 8)%N &&
      holds (next (LT := rounded_libm) (E := flat_env) (log_ev toy_sphere) false (c82_tick (RNode 1 RLeaf RLeaf)) c)
        (fun rc => negb (reports InvalidFunctionValue (fst rc)) && forallb (fun i => forallb (fun j => is_finite (entry (L := rounded_libm) c i j) && is_finite (entry (L := rounded_libm) (snd rc) i j)) two) two &&
          Nat.eqb (length (calls (snd rc))) (length (calls c) + 4) && negb (neqb (entry (L := rounded_libm) c 1 1) (entry (L := rounded_libm) (snd rc) 1 1))))) as [c [H1 H2]].
  { vm_compute. reflexivity. }
  unfold after in H1. destruct (cmaes_new _ _ _ _) as [[c0|e]| |] eqn:H0 in H1; cbn [obind] in H1; [|discriminate H1|discriminate H1|discriminate H1].
  destruct (steps_used toy_sphere _ _ _ _ _ _ _ H0 H1) as [h Hu].
  apply andb_prop in H2. destruct H2 as [H2 H3]. apply andb_prop in H2. destruct H2 as [H2 H4].
  apply holds_ex in H3. destruct H3 as [[r c'] [H3 K]]. cbn [fst snd] in K. apply andb_prop in K. destruct K as [K K4]. apply andb_prop in K. destruct K as [K K3]. apply andb_prop in K. destruct K as [K1 K2].
  assert (In2 : forall i, (i < 2)%nat -> In i two) by (intros i Hi; apply in_seq; lia).
  exists c, c', (match o_seed c82_options with Some s => s | None => 0%N end), h, r. split; [exact Hu|]. split; [exact H3|]. split; [destruct (reports _ _); [discriminate K1|reflexivity]|]. split; [apply N.eqb_eq; exact H2|]. split; [apply N.eqb_eq; exact H4|]. split.
  { intros i j Hi Hj. rewrite forallb_forall in K2. specialize (K2 _ (In2 i Hi)). rewrite forallb_forall in K2. specialize (K2 _ (In2 j Hj)). apply andb_prop in K2. exact K2. }
  split; [apply Nat.eqb_eq; exact K3|]. destruct (neqb _ _); [discriminate K4|reflexivity].
Qed.
