(* C01, C02, C03: building an optimiser. The specification (options_valid, first_violation, last_mean ...) is at the
   top of BuildLemmas.v. *)
From Coq Require Import List NArith ZArith Bool Arith Reals Lra.
From Flocq Require Import Core IEEE754.BinarySingleNaN.
Require Import Verif.Base Verif.Num Verif.F64 Verif.XReal Verif.LinAlg Verif.Mode Verif.Weights Verif.Options
  Verif.Params Verif.Env Verif.State Verif.Sampling Verif.History Verif.Termination Verif.Plot Verif.Cmaes
  Verif.Spec Verif.F64Lemmas Verif.BuildLemmas Verif.Toy.
Import ListNotations.
Local Open Scope nat_scope.

(* C01: build succeeds exactly on valid options ... *)
Theorem C01_build_valid : forall (LT : Libm f64) (E : Env f64) (F : Type) random_seed now (f : F) (o : options f64),
  (exists c, cmaes_new random_seed now f o = Ret (inl c)) <-> options_valid o.
Proof. intros. apply build_valid_iff. Qed.
Print Assumptions C01_build_valid.

(* ... and otherwise returns the error of the first violated condition. *)
Theorem C01_build_error : forall (LT : Libm f64) (E : Env f64) (F : Type) random_seed now (f : F) (o : options f64) e,
  cmaes_new random_seed now f o = Ret (inr e) <-> first_violation o e.
Proof. intros. apply build_error_iff. Qed.
Print Assumptions C01_build_error.

(* it never panics *)
Theorem C01_build_total : forall (LT : Libm f64) (E : Env f64) (F : Type) random_seed now (f : F) (o : options f64),
  exists r, cmaes_new random_seed now f o = Ret r.
Proof.
  intros. pose proof (cmaes_new_outcome random_seed now f o) as H.
  destruct (validate o); [eauto|destruct H; eauto].
Qed.
Print Assumptions C01_build_total.

Example C01_valid_case : options_valid (toy_options 2).
Proof. refine (proj1 (C01_build_valid toy_libm toy_env unit 0%N 0%N tt _) _). apply is_built_ex. vm_compute. reflexivity. Qed.
(* a NaN step size, a subnormal step size, and two violations at once *)
Example C01_error_nan : first_violation (apply_setters (toy_options 2) [SInitialStepSize B754_nan]) EInitialStepSize.
Proof. refine (proj1 (C01_build_error toy_libm toy_env unit 0%N 0%N tt _ _) _). apply error_of_eq. vm_compute. reflexivity. Qed.
Example C01_error_subnormal :
  first_violation (apply_setters (toy_options 2)
    [SInitialStepSize (ndiv (nofZ 1) (nofZ (2 ^ 1023)%Z))]) EInitialStepSize.
Proof. refine (proj1 (C01_build_error toy_libm toy_env unit 0%N 0%N tt _ _) _). apply error_of_eq. vm_compute. reflexivity. Qed.
Example C01_error_order :
  first_violation (apply_setters (toy_options 2) [SCm n2; SPopulationSize 1]) EPopulationSize.
Proof. refine (proj1 (C01_build_error toy_libm toy_env unit 0%N 0%N tt _ _) _). apply error_of_eq. vm_compute. reflexivity. Qed.

(* C02: the default options build whenever mean and step size are valid. *)
Theorem C02_default_builds : forall (LT : Libm f64) (E : Env f64) (F : Type) random_seed now (f : F)
    (mean : vec f64) (s : f64),
  mean <> [] -> positive_normal s ->
  (4 <= o_population_size (options_new mean s))%N /\
  exists c, cmaes_new random_seed now f (options_new mean s) = Ret (inl c).
Proof. intros. apply default_builds; assumption. Qed.
Print Assumptions C02_default_builds.

(* After any sequence of setter calls success depends only on the four last values ... *)
Theorem C02_setters_valid : forall (LT : Libm f64) (E : Env f64) (F : Type) random_seed now (f : F)
    (mean : vec f64) (s : f64) (l : list (setter f64)),
  (exists c, cmaes_new random_seed now f (apply_setters (options_new mean s) l) = Ret (inl c)) <->
  last_mean l mean <> [] /\
  (2 <= last_population l (o_population_size (options_new mean s)))%N /\
  positive_normal (last_step_size l s) /\ cm_valid (last_cm l n1).
Proof. intros. apply build_by_setters. Qed.
Print Assumptions C02_setters_valid.

(* ... and so does the error. *)
Theorem C02_setters_error : forall (LT : Libm f64) (E : Env f64) (F : Type) random_seed now random_seed' now' (f f' : F)
    (mean : vec f64) (s : f64) (l l' : list (setter f64)) e,
  last_mean l mean = last_mean l' mean -> last_step_size l s = last_step_size l' s ->
  last_population l (o_population_size (options_new mean s))
    = last_population l' (o_population_size (options_new mean s)) ->
  last_cm l n1 = last_cm l' n1 ->
  cmaes_new random_seed now f (apply_setters (options_new mean s) l) = Ret (inr e) ->
  cmaes_new random_seed' now' f' (apply_setters (options_new mean s) l') = Ret (inr e).
Proof. intros until e. apply setters_error. Qed.
Print Assumptions C02_setters_error.

Example C02_default_case : positive_normal (lit 1 2).
Proof. refine (proj1 (step_size_valid _) _). vm_compute. reflexivity. Qed.
Example C02_setters_case :
  let l := [SPopulationSize 1; SInitialStepSize B754_nan; SPopulationSize 9; SMaxTime 3; SInitialStepSize (lit 1 4)] in
  last_population l 4%N = 9%N /\ last_step_size l n0 = lit 1 4 /\
  exists c, cmaes_new 0%N 0%N tt (apply_setters (options_new [n0 : f64] n0) l) = Ret (inl c).
Proof. split; [reflexivity|split; [reflexivity|]]. apply is_built_ex. vm_compute. reflexivity. Qed.

(* C03: a freshly built optimiser, in any arithmetic. The objective state is returned untouched: the objective
   has not been called. *)
Theorem C03_fresh : forall (T : Type) (NT : Num T) (LT : Libm T) (E : Env T) (F : Type) random_seed now (f : F)
    (o : options T) c,
  cmaes_new random_seed now f o = Ret (inl c) ->
  generation c = 0%N /\ function_evals c = 0%N /\ mean c = o_initial_mean o /\
  sigma c = o_initial_step_size o /\
  covariance_matrix c = map (fun i => map (fun j => if Nat.eqb i j then n1 else n0)
                                          (seq 0 (length (o_initial_mean o))))
                            (seq 0 (length (o_initial_mean o))) /\
  current_best_individual c = None /\ overall_best_individual c = None /\
  into_objective_function c = f.
Proof. intros until c. apply fresh_state. Qed.
Print Assumptions C03_fresh.

Example C03_case : exists c, cmaes_new 0%N 0%N tt (toy_options 3) = Ret (inl c).
Proof. apply is_built_ex. vm_compute. reflexivity. Qed.
