(* C28, C09, C38, C41: no panics, endless resampling, symmetry, cadence of the eigendecomposition. *)
From Coq Require Import List NArith ZArith Bool Arith Lia Reals.
From Flocq Require Import IEEE754.BinarySingleNaN.
Require Import Verif.Base Verif.Num Verif.F64 Verif.XReal Verif.LinAlg Verif.Mode Verif.Weights Verif.Options
  Verif.Params Verif.Env Verif.State Verif.Sampling Verif.History Verif.Termination Verif.Plot Verif.Cmaes
  Verif.NextInv Verif.Spec Verif.LogLemmas Verif.TraceLemmas Verif.BuildLemmas Verif.SamplingLemmas
  Verif.PanicLemmas Verif.NextSafe Verif.CastLemmas Verif.CeilLemmas Verif.StateLemmas Verif.Toy Verif.ToyLemmas Verif.CalmLemmas.
Import ListNotations.
Open Scope nat_scope.

(* ---- C28 ---- *)
(* eigen_shape: the eigen solver returns n eigenvectors and n eigenvalues for an n x n matrix (given by the
   types in nalgebra). Every public call, in every reachable state, does not panic when the objective and the
   constraints do not; integer arithmetic wraps around or is unbounded, as in
   release builds (C88 says when builds with overflow checks panic).
   Partial: medians_known excludes one case. If an objective returns both infinities and the population is even, a
   generation can have a NaN median; TolStagnation later passes such medians to the median function of the statistics
   library, and nothing is known about that function on NaN (C28_nan_median_refuted). *)
Theorem C28_next_no_panic_partial : forall (LT : Libm f64) (E : Env f64) (F : Type) (ev : F -> vec f64 -> outcome (f64 * F))
    o f c par tk p,
  eigen_shape (T := f64) -> medians_known ev (o_population_size o) -> reaches ev o f c ->
  (forall g x, length x = length (o_initial_mean o) -> forall q, ev g x <> Panic q) ->
  (forall meets x, o_constraints o = Some meets -> length x = length (o_initial_mean o) -> forall q, meets x <> Panic q) ->
  next ev par tk c <> Panic p.
Proof. intros LT E F ev o f c par tk p He Hk. apply (next_no_panic He). apply medians_known_ok. exact Hk. Qed.
Print Assumptions C28_next_no_panic_partial.

Theorem C28_use_no_panic_partial : forall (LT : Libm f64) (E : Env f64) (F : Type) (ev : F -> vec f64 -> outcome (f64 * F))
    o f c l p,
  eigen_shape (T := f64) -> medians_known ev (o_population_size o) -> reaches ev o f c ->
  (forall g x, length x = length (o_initial_mean o) -> forall q, ev g x <> Panic q) ->
  (forall meets x, o_constraints o = Some meets -> length x = length (o_initial_mean o) -> forall q, meets x <> Panic q) ->
  steps ev c l <> Panic p.
Proof. intros LT E F ev o f c l p He Hk. apply (steps_no_panic He). apply medians_known_ok. exact Hk. Qed.
Print Assumptions C28_use_no_panic_partial.

(* and a call does return: it is not that the model gets stuck *)
Theorem C28_next_returns_partial : forall (LT : Libm f64) (E : Env f64) (F : Type) (ev : F -> vec f64 -> outcome (f64 * F))
    o f c par tk,
  eigen_shape (T := f64) -> medians_known ev (o_population_size o) -> reaches ev o f c ->
  (forall g x, length x = length (o_initial_mean o) -> exists r, ev g x = Ret r) ->
  o_constraints o = None -> 1 <= t_fuel tk ->
  (par = true -> Permutation.Permutation (t_sched tk) (seq 0 (N.to_nat (o_population_size o)))) ->
  exists r c', next ev par tk c = Ret (r, c').
Proof.
  intros LT E F ev o f c par tk He Hk Hr H1 Hc Hf Hs. apply (next_returns He ev o f c par tk (medians_known_ok ev o Hk) Hr H1).
  - intros meets x H. rewrite Hc in H. discriminate.
  - split; [|exact Hs]. unfold fuel_ok. rewrite Hc. exact Hf.
Qed.
Print Assumptions C28_next_returns_partial.

(* the box constraints provided by the crate do not panic when the bounds have the dimension of the problem *)
Theorem C28_bounds_partial : forall (LT : Libm f64) (E : Env f64) (F : Type) (ev : F -> vec f64 -> outcome (f64 * F))
    o f c par tk p lower upper,
  eigen_shape (T := f64) -> medians_known ev (o_population_size o) -> reaches ev o f c ->
  (forall g x, length x = length (o_initial_mean o) -> forall q, ev g x <> Panic q) ->
  o_constraints o = Some (bounds_meets lower upper) ->
  length (o_initial_mean o) <= length lower -> length (o_initial_mean o) <= length upper ->
  next ev par tk c <> Panic p.
Proof.
  intros LT E F ev o f c par tk p lower upper He Hk Hr H1 Hc Hl Hu. apply (next_no_panic He ev o f c par tk p (medians_known_ok ev o Hk) Hr H1).
  intros meets x Hm Hx q. rewrite Hc in Hm. inversion Hm; subst.
  destruct (bounds_total lower upper x) as [b ->]; try (unfold dims in Hx; rewrite Hx; assumption). discriminate.
Qed.
Print Assumptions C28_bounds_partial.

(* The case that medians_known excludes. Suppose that the median function of the statistics library panics on some
   lists of three or more values that include NaN. Then next panics for an objective that never does: it returns both
   infinities in every generation of two points and later the value 1, which is worse. *)
Definition nan_median_panics (l : list f64) : option f64 := if (length l <? 3) then Some nnan else None.
Definition stuck_env : Env f64 := {|
  rng_t := N;
  rng_seed := fun s => s;
  rng_normal := fun g => (nth (N.to_nat (g mod 11)) toy_normals n0, (g + 1)%N);
  eigen := fun m => Some (identity (length m), diagonal m);
  nan_median := nan_median_panics
|}.
Definition both_infinities (k : N) (_ : vec f64) : outcome (f64 * N) :=
  Ret (if (88 <=? k)%N then n1 else B754_infinity (N.even k), (k + 1)%N).
Definition stuck_options : options f64 :=
  apply_setters (options_new [lit 3 2] (lit 1 2)) [SPopulationSize 2; SSeed 7; STolStagnation 10].
Definition stuck_test {E : Env f64} {F} (ev : F -> vec f64 -> outcome (f64 * F)) (f : F) (o : options f64) (l : list op) : bool :=
  match cmaes_new 0 0 f o with
  | Ret (inl c0) =>
      match steps ev c0 l with
      | Ret c => match next ev false toy_tick c with Panic PIndex => true | _ => false end
      | _ => false
      end
  | _ => false
  end.
Lemma stuck_test_ex : forall {E : Env f64} {F} (ev : F -> vec f64 -> outcome (f64 * F)) f o l, stuck_test ev f o l = true ->
  exists c, reaches ev o f c /\ next ev false toy_tick c = Panic PIndex.
Proof.
  intros E F ev f o l H. unfold stuck_test in H. destruct (cmaes_new 0 0 f o) as [[c0|]| |] eqn:Hb; try discriminate H.
  destruct (steps ev c0 l) as [c| |] eqn:Hs; try discriminate H. exists c. split.
  - exists c0, l. split; [exists 0%N, 0%N; exact Hb|exact Hs].
  - destruct (next ev false toy_tick c) as [r|[]|]; try discriminate H. reflexivity.
Qed.
Lemma stuck_run : @stuck_test stuck_env _ both_infinities 0%N stuck_options (repeat (ONext false toy_tick) 49) = true.
Proof. vm_cast_no_check (eq_refl true). Qed.
Theorem C28_nan_median_refuted : exists (E : Env f64) (F : Type) (ev : F -> vec f64 -> outcome (f64 * F)) o f c,
  eigen_shape (T := f64) /\ reaches ev o f c /\ o_constraints o = None /\
  (forall g x q, ev g x <> Panic q) /\ (forall l : list f64, length l < 3 -> nan_median l <> None) /\
  next ev false toy_tick c = Panic PIndex.
Proof.
  destruct (@stuck_test_ex stuck_env _ _ _ _ _ stuck_run) as [c [Hr Hn]].
  exists stuck_env, N, both_infinities, stuck_options, 0%N, c. split.
  { intros n m vecs vals Hm He. cbn [eigen stuck_env] in He. injection He as <- <-. destruct Hm as [Hm _]. split.
    - rewrite Hm. apply shape_mbuild.
    - unfold diagonal. rewrite map_length, seq_length. exact Hm. }
  split; [exact Hr|]. split; [reflexivity|]. split; [intros; discriminate|]. split; [|exact Hn].
  { intros l Hl. cbn [nan_median stuck_env]. unfold nan_median_panics. apply Nat.ltb_lt in Hl. rewrite Hl. discriminate. }
Qed.
Print Assumptions C28_nan_median_refuted.

(* medians_known holds in each of its three ways, in two of them although the median of values with NaN panics *)
Example C28_case : eigen_shape (T := f64) /\ medians_known toy_sphere (o_population_size (toy_options 2)) /\
  @medians_known stuck_env _ both_infinities 5 /\ @medians_known stuck_env _ (pure_ev (fun x => nabs (hd n0 x))) 4 /\
  (forall (g : unit) (x : vec f64), length x = 2 -> forall q, toy_sphere g x <> Panic q) /\
  exists (rs : list (option (term_data f64))) c, reaches toy_sphere (toy_options 2) tt c /\ length rs = 3 /\ N.eqb (generation c) 3 = true.
Proof.
  split; [exact toy_eigen_shape|]. split; [left; intros l; discriminate|]. split; [right; left; reflexivity|]. split.
  { right. right. exists true. intros g x v g' H. apply (f_equal (fun r => match r with Ret p => fst p | _ => n0 end)) in H. cbn [pure_ev fst] in H. rewrite <- H.
    destruct (hd n0 x) as [s|s| |s m e b]; discriminate. }
  split; [discriminate|].
  apply (toy_reaches toy_sphere (toy_options 2) 3 (fun rs c => N.eqb (generation c) 3)). vm_compute. reflexivity.
Qed.

(* ---- C09 ---- *)
(* whatever number of resampling rounds is granted, they do not suffice (and this for every objective: the
   objective is not called) *)
Theorem C09_never_returns : forall (LT : Libm f64) (E : Env f64) (F : Type) (ev : F -> vec f64 -> outcome (f64 * F))
    o f c meets,
  eigen_shape (T := f64) -> reaches ev o f c ->
  o_constraints o = Some meets -> o_max_resamples o = None ->
  (forall x, length x = length (o_initial_mean o) -> meets x = Ret false) ->
  forall par tk, next ev par tk c = NoFuel.
Proof. intros LT E F ev o f c meets He Hr Hc Hm Hf par tk. eapply (next_forever He); eauto. Qed.
Print Assumptions C09_never_returns.
Theorem C09_objective_not_called : forall (LT : Libm f64) (E : Env f64) (F : Type) (ev ev' : F -> vec f64 -> outcome (f64 * F))
    o f c meets,
  eigen_shape (T := f64) -> reaches ev o f c ->
  o_constraints o = Some meets -> o_max_resamples o = None ->
  (forall x, length x = length (o_initial_mean o) -> meets x = Ret false) ->
  forall par tk, next ev' par tk c = NoFuel.
Proof.
  intros LT E F ev ev' o f c meets He Hr Hc Hm Hf par tk. apply (reaches_wf He) in Hr. eapply (next_forever_wf ev'); eauto.
Qed.
Print Assumptions C09_objective_not_called.

Definition impossible : options f64 :=
  apply_setters (toy_options 2) [SConstraints (fun _ => Ret false); SMaxResamples None].
Example C09_case : exists c, reaches toy_sphere impossible tt c /\
  o_constraints impossible = Some (fun _ => Ret false) /\ o_max_resamples impossible = None.
Proof.
  destruct (toy_reaches toy_sphere impossible 0 (fun rs c => true)) as [rs [c [H _]]].
  - vm_compute. reflexivity.
  - exists c. split; [exact H|]. split; reflexivity.
Qed.

(* ---- C38 ---- *)
Definition square_symmetric (n : nat) (m : list (list f64)) : Prop :=
  length m = n /\ Forall (fun row => length row = n) m /\
  forall i j, i < n -> j < n -> nth j (nth i m []) B754_nan = nth i (nth j m []) B754_nan.
Theorem C38_symmetric : forall (LT : Libm f64) (E : Env f64) (F : Type) (ev : F -> vec f64 -> outcome (f64 * F)) o f c,
  eigen_shape (T := f64) -> reaches ev o f c ->
  square_symmetric (length (o_initial_mean o)) (covariance_matrix c).
Proof.
  intros LT E F ev o f c He Hr. pose proof (reaches_wf He ev o f c Hr) as Hw. destruct (ws_cov _ _ (wf_st _ _ Hw)) as [H1 H2].
  assert (Hs : symmetric_mat (length (covariance_matrix c)) (covariance_matrix c)).
  { destruct Hr as [c0 [l [[rs [now Hb]] Hst]]].
    apply (steps_invariant ev (fun c => symmetric_mat (length (covariance_matrix c)) (covariance_matrix c))) with (l := l) (c := c0); auto.
    - intros a op b Ha Hq Hs. apply quiet_core in Hs; auto. destruct Hs as [_ [_ [Hs _]]].
      unfold covariance_matrix in *. rewrite Hs. exact Ha.
    - intros par tk a r b Ha Hn. apply next_outcome in Hn. destruct Hn as [[_ [_ [_ ->]]]|[inds [ok [_ [_ [_ [Hs _]]]]]]].
      + exact Ha.
      + eapply state_update_symmetric; eauto.
    - apply cmaes_new_inv in Hb. destruct Hb as [_ [_ [_ [Hb _]]]]. unfold covariance_matrix. rewrite Hb.
      cbn [c_state state_new st_cov cov_new cm_cov]. unfold identity at 1, mbuild. rewrite map_length, seq_length.
      apply identity_symmetric. }
  split; [exact H1|]. split; [exact H2|]. intros i j Hi Hj.
  assert (Hl : length (covariance_matrix c) = length (o_initial_mean o)) by exact H1.
  assert (Hi' : i < length (covariance_matrix c)) by (rewrite Hl; exact Hi).
  assert (Hj' : j < length (covariance_matrix c)) by (rewrite Hl; exact Hj).
  specialize (Hs i j Hi' Hj'). unfold mnth in Hs.
  assert (Hrow : forall k, k < length (o_initial_mean o) -> length (nth k (covariance_matrix c) []) = length (o_initial_mean o)).
  { intros k Hk. unfold shape in H2. rewrite Forall_forall in H2. apply H2. apply nth_In. unfold covariance_matrix in Hl. rewrite Hl. exact Hk. }
  rewrite (@nth_indep f64 (nth i (covariance_matrix c) []) j B754_nan n0) by (rewrite (Hrow i Hi); exact Hj).
  rewrite (@nth_indep f64 (nth j (covariance_matrix c) []) i B754_nan n0) by (rewrite (Hrow j Hj); exact Hi).
  exact Hs.
Qed.
Print Assumptions C38_symmetric.
(* a case with non-zero entries off the diagonal *)
Example C38_case : exists (rs : list (option (term_data f64))) c, reaches toy_sphere (toy_options 2) tt c /\ length rs = 2 /\
  negb (neqb (mnth (covariance_matrix c) 0 1) n0) = true.
Proof.
  apply (toy_reaches toy_sphere (toy_options 2) 2 (fun rs c => negb (neqb (mnth (covariance_matrix c) 0 1) n0))).
  vm_compute. reflexivity.
Qed.

(* ---- C41 ---- *)
(* fresh_decomposition: computed from the covariance matrix now held; same_decomposition: the eigenvectors,
   eigenvalues, transform and inverse square root are those held before. last_refresh computes, from the
   results of the calls alone, the evaluation count at which the decomposition was last refreshed. *)
Theorem C41_cadence : forall (LT : Libm f64) (E : Env f64) (F : Type) (ev : F -> vec f64 -> outcome (f64 * F))
    o f seed h c par tk r c',
  used ev o f seed h c -> next (log_ev ev) par tk c = Ret (r, c') ->
  let k := evals_per_eigen_update (params_of_options o seed) in
  let due := (last_refresh (o_population_size o) k 0 0 h + k <=? function_evals c')%N in
  if reports InvalidFunctionValue r then c_state c' = c_state c
  else if reports PosDefCov r then due = true /\ same_decomposition (c_state c') (c_state c)
  else if due then fresh_decomposition (c_state c') else same_decomposition (c_state c') (c_state c).
Proof. intros LT E F ev o f seed h c par tk r c'. apply next_refresh. Qed.
Print Assumptions C41_cadence.

Lemma used_pop : forall (T : Type) (NT : Num T) (LT : Libm T) (E : Env T) (F : Type) (ev : F -> vec T -> outcome (T * F))
    o f seed h c, used ev o f seed h c -> (2 <= o_population_size o)%N.
Proof.
  intros T NT LT E F ev o f seed h c [rs [now [c0 [H _]]]]. apply cmaes_new_inv in H. destruct H as [H _].
  unfold validate in H. destruct (_ =? 0); [discriminate|]. destruct (o_population_size o <? 2)%N eqn:Ep; [discriminate|].
  apply N.ltb_ge in Ep. exact Ep.
Qed.

(* After a refresh (or from the start) the next completed generations keep the decomposition, until the
   generation number max(1, generations_per_eigen_update()) refreshes it. *)
Theorem C41_period : forall (LT : Libm f64) (E : Env f64) (F : Type) (ev : F -> vec f64 -> outcome (f64 * F))
    o f seed h1 c1 h2 c2,
  let k := evals_per_eigen_update (params_of_options o seed) in
  let lambda := o_population_size o in
  (k < 2 ^ 53)%N -> (lambda < 2 ^ 53)%N ->
  used ev o f seed h1 c1 -> last_refresh lambda k 0 0 h1 = function_evals c1 ->
  traced ev c1 h2 c2 -> Forall (fun x => completed x = true) h2 ->
  let period := N.max 1 (generations_per_eigen_update c1) in
  ((N.of_nat (length h2) < period)%N -> same_decomposition (c_state c2) (c_state c1)) /\
  ((N.of_nat (length h2) + 1 = period)%N ->
   forall par tk r c', next (log_ev ev) par tk c2 = Ret (r, c') ->
     reports InvalidFunctionValue r = false -> reports PosDefCov r = false ->
     fresh_decomposition (c_state c') /\ function_evals c' = (function_evals c1 + lambda * period)%N).
Proof.
  intros LT E F ev o f seed h1 c1 h2 c2 k lambda Hk Hl Hu Hr Ht Hc period.
  pose proof (used_pop _ _ _ _ _ _ _ _ _ _ _ Hu) as Hp. fold lambda in Hp.
  assert (Hper : period = refresh_period lambda k).
  { unfold period, refresh_period, generations_per_eigen_update. pose proof (used_setup _ _ _ _ _ _ Hu) as [-> _].
    fold k. change (p_lambda (params_of_options o seed)) with lambda. rewrite f64_ceil_div; [reflexivity|exact Hk|].
    split; [lia|exact Hl]. }
  rewrite Hper. split.
  - intros Hn. eapply no_refresh_yet; eauto. fold lambda. lia.
  - intros Hn par tk r c' Hx X1 X2. eapply refresh_now; eauto. fold lambda. lia.
Qed.
Print Assumptions C41_period.
(* dimension 3, population 4: refreshed every second generation, so after 3 generations at 8 evaluations *)
Example C41_case : exists h c, used toy_sphere (toy_options 3) tt 7%N h c /\ length h = 3 /\
  Forall (fun x => completed x = true) h /\ N.max 1 (generations_per_eigen_update c) = 2%N /\
  last_refresh 4 (evals_per_eigen_update (params_of_options (toy_options 3) 7)) 0 0 h = 8%N /\
  evals_per_eigen_update (params_of_options (toy_options 3) 7) = 6%N.
Proof.
  destruct (toy_test_ex toy_sphere (toy_options 3) 3
    (fun rs c => forallb (fun r => negb (reports InvalidFunctionValue r) && negb (reports PosDefCov r)) rs &&
       N.eqb (generations_per_eigen_update c) 2 && N.eqb (st_last_eigen (c_state c)) 8)) as [h [c [H1 [H2 H3]]]].
  - vm_compute. reflexivity.
  - apply andb_true_iff in H3. destruct H3 as [H3 H4]. apply andb_true_iff in H3. destruct H3 as [H3 H5].
    apply N.eqb_eq in H4, H5. exists h, c. split; [exact H1|]. split; [exact H2|]. split.
    { apply Forall_forall. intros x Hx. rewrite forallb_forall in H3. apply (H3 (k_result x)). apply in_map. exact Hx. }
    rewrite H5. split; [reflexivity|]. split; [|vm_compute; reflexivity].
    pose proof (used_last_refresh _ _ _ _ _ _ H1) as H. rewrite <- H4. symmetry. exact H.
Qed.
