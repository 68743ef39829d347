(* C65: the builders. Each option has the value given in the last call that sets it, otherwise the documented
   default, and the order of calls that set different options does not matter. *)
From Coq Require Import List NArith ZArith Bool Arith Lia Permutation.
Require Import Verif.Lib Verif.Base Verif.Num Verif.F64 Verif.LinAlg Verif.Mode Verif.Weights Verif.Options
  Verif.Params Verif.Env Verif.State Verif.Sampling Verif.History Verif.Termination Verif.Plot Verif.Cmaes Verif.Restart
  Verif.RestartSetters Verif.Session Verif.Toy Verif.ToyLemmas Verif.PropParallel.
Import ListNotations.
Open Scope nat_scope.

(* the value in the last element that has one *)
Fixpoint last_set {S A : Type} (pick : S -> option A) (default : A) (l : list S) : A :=
  match l with
  | [] => default
  | s :: l' => last_set pick (match pick s with Some a => a | None => default end) l'
  end.
(* what it means: *)
Lemma last_set_none : forall {S A} (pick : S -> option A) d l, Forall (fun s => pick s = None) l -> last_set pick d l = d.
Proof. intros S A pick d l H. revert d. induction H as [|s l Hs H IH]; intros d; cbn; auto. rewrite Hs. auto. Qed.
Lemma last_set_some : forall {S A} (pick : S -> option A) d l1 s l2 a, pick s = Some a -> Forall (fun s => pick s = None) l2 ->
  last_set pick d (l1 ++ s :: l2) = a.
Proof.
  intros S A pick d l1 s l2 a Hs H. revert d. induction l1 as [|t l1 IH]; intros d; cbn; auto. rewrite Hs. apply last_set_none. exact H.
Qed.

(* every builder that changes one thing at a time *)
Lemma last_set_fold : forall {O S A : Type} (apply : O -> S -> O) (get : O -> A) (pick : S -> option A),
  (forall o s, get (apply o s) = match pick s with Some a => a | None => get o end) ->
  forall l o, get (fold_left apply l o) = last_set pick (get o) l.
Proof. intros O S A apply get pick H l. induction l as [|s l IH]; intros o; cbn; auto. rewrite IH, H. reflexivity. Qed.

(* setters that set different options can be exchanged *)
Lemma fold_permutation : forall {O S : Type} (apply : O -> S -> O) (key : S -> nat),
  (forall o s t, key s <> key t -> apply (apply o s) t = apply (apply o t) s) ->
  forall l1 l2, Permutation l1 l2 -> NoDup (map key l1) -> forall o, fold_left apply l1 o = fold_left apply l2 o.
Proof.
  intros O S apply key Hc l1 l2 H. induction H as [|s l1 l2 H IH|s t l|l1 l2 l3 H1 IH1 H2 IH2]; intros Hd o.
  - reflexivity.
  - cbn. apply IH. inversion Hd; auto.
  - cbn. f_equal. apply Hc. inversion Hd as [|x l' Hn Hd']. subst. intros He. apply Hn. left. auto.
  - rewrite IH1 by exact Hd. apply IH2. eapply Permutation_NoDup; [apply Permutation_map; exact H1|exact Hd].
Qed.

Section Setters.
  Context {T : Type} {NT : Num T} {LT : Libm T} {E : Env T}.

  (* which option a call sets, and to what *)
  Definition sets_mode (x : setter T) := match x with SMode v => Some (v) | _ => None end.
  Definition sets_initial_mean (x : setter T) := match x with SInitialMean v => Some (v) | _ => None end.
  Definition sets_initial_step_size (x : setter T) := match x with SInitialStepSize v => Some (v) | _ => None end.
  Definition sets_population_size (x : setter T) := match x with SPopulationSize v => Some (v) | _ => None end.
  Definition sets_constraints (x : setter T) : option (option (constraints T)) :=
    match x with SBounds lo up => Some (Some (bounds_meets lo up)) | SConstraints v => Some (Some v) | _ => None end.
  Definition sets_max_resamples (x : setter T) := match x with SMaxResamples v => Some (v) | _ => None end.
  Definition sets_weights (x : setter T) := match x with SWeights v => Some (v) | _ => None end.
  Definition sets_parallel_update (x : setter T) := match x with SParallelUpdate v => Some (v) | _ => None end.
  Definition sets_cm (x : setter T) := match x with SCm v => Some (v) | _ => None end.
  Definition sets_max_function_evals (x : setter T) := match x with SMaxFunctionEvals v => Some (Some v) | _ => None end.
  Definition sets_max_generations (x : setter T) := match x with SMaxGenerations v => Some (Some v) | _ => None end.
  Definition sets_max_time (x : setter T) := match x with SMaxTime v => Some (Some v) | _ => None end.
  Definition sets_fun_target (x : setter T) := match x with SFunTarget v => Some (Some v) | _ => None end.
  Definition sets_tol_fun (x : setter T) := match x with STolFun v => Some (v) | _ => None end.
  Definition sets_tol_fun_rel (x : setter T) := match x with STolFunRel v => Some (v) | _ => None end.
  Definition sets_tol_fun_hist (x : setter T) := match x with STolFunHist v => Some (v) | _ => None end.
  Definition sets_tol_x (x : setter T) := match x with STolX v => Some (Some v) | _ => None end.
  Definition sets_tol_stagnation (x : setter T) := match x with STolStagnation v => Some (Some v) | _ => None end.
  Definition sets_tol_x_up (x : setter T) := match x with STolXUp v => Some (v) | _ => None end.
  Definition sets_tol_condition_cov (x : setter T) := match x with STolConditionCov v => Some (v) | _ => None end.
  Definition sets_seed (x : setter T) := match x with SSeed v => Some (Some v) | _ => None end.
  Definition sets_plot_options (x : setter T) := match x with SEnablePlot v => Some (Some v) | _ => None end.
  Definition sets_print_gap_evals (x : setter T) := match x with SEnablePrinting v => Some (Some v) | _ => None end.

  Theorem C65_options : forall (m : vec T) (s : T) (l : list (setter T)),
    let o := apply_setters (options_new m s) l in
    o_mode o = last_set sets_mode (Minimize)%N l /\
    o_initial_mean o = last_set sets_initial_mean (m)%N l /\
    o_initial_step_size o = last_set sets_initial_step_size (s)%N l /\
    o_population_size o = last_set sets_population_size (4 + nto_usize (nfloor (nmul (nofZ 3) (lm_ln (nofN (N.of_nat (length m)))))))%N l /\
    o_constraints o = last_set sets_constraints (None)%N l /\
    o_max_resamples o = last_set sets_max_resamples (Some 10)%N l /\
    o_weights o = last_set sets_weights (WNegative)%N l /\
    o_parallel_update o = last_set sets_parallel_update (false)%N l /\
    o_cm o = last_set sets_cm (n1)%N l /\
    o_max_function_evals o = last_set sets_max_function_evals (None)%N l /\
    o_max_generations o = last_set sets_max_generations (None)%N l /\
    o_max_time o = last_set sets_max_time (None)%N l /\
    o_fun_target o = last_set sets_fun_target (None)%N l /\
    o_tol_fun o = last_set sets_tol_fun (nlit 1 1000000000000)%N l /\
    o_tol_fun_rel o = last_set sets_tol_fun_rel (n0)%N l /\
    o_tol_fun_hist o = last_set sets_tol_fun_hist (nlit 1 1000000000000)%N l /\
    o_tol_x o = last_set sets_tol_x (None)%N l /\
    o_tol_stagnation o = last_set sets_tol_stagnation (None)%N l /\
    o_tol_x_up o = last_set sets_tol_x_up (nofZ 100000000)%N l /\
    o_tol_condition_cov o = last_set sets_tol_condition_cov (nofZ 100000000000000)%N l /\
    o_seed o = last_set sets_seed (None)%N l /\
    o_plot_options o = last_set sets_plot_options (None)%N l /\
    o_print_gap_evals o = last_set sets_print_gap_evals (None)%N l.
  Proof.
    intros m s l. cbv zeta. unfold apply_setters.
    repeat split; match goal with |- ?g (fold_left _ _ _) = last_set ?p _ _ => rewrite (last_set_fold apply_setter g p) end;
      try reflexivity; intros o x; destruct o, x; reflexivity.
  Qed.

  (* the option a call sets, as a number; bounds and constraints set the same one *)
  Definition option_of (x : setter T) : nat :=
    match x with
    | SMode _ => 0
    | SInitialMean _ => 1
    | SInitialStepSize _ => 2
    | SPopulationSize _ => 3
    | SBounds _ _ | SConstraints _ => 4
    | SMaxResamples _ => 5
    | SWeights _ => 6
    | SParallelUpdate _ => 7
    | SCm _ => 8
    | SMaxFunctionEvals _ => 9
    | SMaxGenerations _ => 10
    | SMaxTime _ => 11
    | SFunTarget _ => 12
    | STolFun _ => 13
    | STolFunRel _ => 14
    | STolFunHist _ => 15
    | STolX _ => 16
    | STolStagnation _ => 17
    | STolXUp _ => 18
    | STolConditionCov _ => 19
    | SSeed _ => 20
    | SEnablePlot _ => 21
    | SEnablePrinting _ => 22
    end.

  Theorem C65_order : forall (o : options T) l1 l2, Permutation l1 l2 -> NoDup (map option_of l1) ->
    apply_setters o l1 = apply_setters o l2.
  Proof.
    intros o l1 l2 Hp Hd. unfold apply_setters. apply (fold_permutation apply_setter option_of); auto.
    intros o' s t Hk. destruct o', s, t; cbn in Hk; try contradiction; reflexivity.
  Qed.

  (* therefore nothing an optimiser does depends on that order *)
  Theorem C65_order_sessions : forall {F} (ev : F -> vec T -> outcome (T * F)) rs now f (o : options T) l1 l2 calls,
    Permutation l1 l2 -> NoDup (map option_of l1) ->
    session ev rs now f (apply_setters o l1) calls = session ev rs now f (apply_setters o l2) calls.
  Proof. intros F ev rs now f o l1 l2 calls Hp Hd. rewrite (C65_order o l1 l2 Hp Hd). reflexivity. Qed.

  (* ---- restart options ---- *)
  Definition rsets_mode (x : restart_setter T) := match x with RMode v => Some (v) | _ => None end.
  Definition rsets_parallel_update (x : restart_setter T) := match x with RParallelUpdate v => Some (v) | _ => None end.
  Definition rsets_default_options (x : restart_setter T) := match x with RDefaultOptions v => Some (v) | _ => None end.
  Definition rsets_fun_target (x : restart_setter T) := match x with RSFunTarget v => Some (Some v) | _ => None end.
  Definition rsets_max_function_evals (x : restart_setter T) := match x with RSMaxFunctionEvals v => Some (Some v) | _ => None end.
  Definition rsets_max_time (x : restart_setter T) := match x with RSMaxTime v => Some (Some v) | _ => None end.
  Definition rsets_max_function_evals_per_run (x : restart_setter T) := match x with RMaxFunctionEvalsPerRun v => Some (Some v) | _ => None end.
  Definition rsets_max_generations_per_run (x : restart_setter T) := match x with RMaxGenerationsPerRun v => Some (Some v) | _ => None end.
  Definition rsets_enable_printing (x : restart_setter T) := match x with REnablePrinting v => Some (v) | _ => None end.
  Definition rsets_seed (x : restart_setter T) := match x with RSeed v => Some (Some v) | _ => None end.

  Theorem C65_restart_options : forall (dimensions : nat) (lo hi : T) (s : strategy T) (l : list (restart_setter T)),
    let o := apply_restart_setters (restart_options_new dimensions lo hi s) l in
    ro_strategy o = s /\ ro_dimensions o = dimensions /\
    (ro_lo o, ro_hi o) = (if nleb lo hi then (lo, hi) else (hi, lo)) /\
    ro_mode o = last_set rsets_mode (Minimize) l /\
    ro_parallel_update o = last_set rsets_parallel_update (false) l /\
    ro_default_options o = last_set rsets_default_options (options_new (repeat n0 dimensions) (nlit 1 2)) l /\
    ro_fun_target o = last_set rsets_fun_target (None) l /\
    ro_max_function_evals o = last_set rsets_max_function_evals (None) l /\
    ro_max_time o = last_set rsets_max_time (None) l /\
    ro_max_function_evals_per_run o = last_set rsets_max_function_evals_per_run (None) l /\
    ro_max_generations_per_run o = last_set rsets_max_generations_per_run (None) l /\
    ro_enable_printing o = last_set rsets_enable_printing (false) l /\
    ro_seed o = last_set rsets_seed (None) l.
  Proof.
    intros dimensions lo hi s l. cbv zeta. unfold apply_restart_setters.
    assert (G : forall {A} (get : restart_options T -> A), (forall o x, get (apply_restart_setter o x) = get o) ->
      forall o, get (fold_left apply_restart_setter l o) = get o).
    { intros A get Hg. induction l as [|x l IH]; intros o; cbn; auto. rewrite IH. apply Hg. }
    split; [rewrite (G _ ro_strategy); [unfold restart_options_new; destruct (nleb lo hi); reflexivity|intros o x; destruct o, x; reflexivity]|].
    split; [rewrite (G _ ro_dimensions); [unfold restart_options_new; destruct (nleb lo hi); reflexivity|intros o x; destruct o, x; reflexivity]|].
    split; [rewrite (G _ ro_lo), (G _ ro_hi); [unfold restart_options_new; destruct (nleb lo hi); reflexivity| |]; intros o x; destruct o, x; reflexivity|].
    clear G.
    repeat split; match goal with |- ?g (fold_left _ _ _) = last_set ?p _ _ => rewrite (last_set_fold apply_restart_setter g p) end;
      try (unfold restart_options_new; destruct (nleb lo hi); reflexivity); intros o x; destruct o, x; reflexivity.
  Qed.

  Definition restart_option_of (x : restart_setter T) : nat :=
    match x with
    | RMode _ => 0
    | RParallelUpdate _ => 1
    | RDefaultOptions _ => 2
    | RSFunTarget _ => 3
    | RSMaxFunctionEvals _ => 4
    | RSMaxTime _ => 5
    | RMaxFunctionEvalsPerRun _ => 6
    | RMaxGenerationsPerRun _ => 7
    | REnablePrinting _ => 8
    | RSeed _ => 9
    end.
  Theorem C65_restart_order : forall (o : restart_options T) l1 l2, Permutation l1 l2 -> NoDup (map restart_option_of l1) ->
    apply_restart_setters o l1 = apply_restart_setters o l2.
  Proof.
    intros o l1 l2 Hp Hd. unfold apply_restart_setters. apply (fold_permutation apply_restart_setter restart_option_of); auto.
    intros o' s t Hk. destruct o', s, t; cbn in Hk; try contradiction; reflexivity.
  Qed.
End Setters.

Print Assumptions C65_options.
Print Assumptions C65_order.
Print Assumptions C65_order_sessions.
Print Assumptions C65_restart_options.
Print Assumptions C65_restart_order.

(* five calls, population_size twice: the last one counts *)
Example C65_options_case : let l := [SPopulationSize 4; SSeed 7; SCm (lit 1 2); SMaxResamples None; SPopulationSize 9] in
  let o := apply_setters (options_new [lit 1 1; lit 2 1] (lit 1 2)) l in
  o_population_size o = 9%N /\ o_seed o = Some 7%N /\ o_max_resamples o = None /\ o_max_generations o = None.
Proof. cbv zeta. repeat split; reflexivity. Qed.
Example C65_order_case :
  let l1 := [SPopulationSize 4; SSeed 7; SMaxGenerations 3] in let l2 := [SMaxGenerations 3; SPopulationSize 4; SSeed 7] in
  Permutation l1 l2 /\ NoDup (map option_of l1) /\
  exists rs c, session toy_sphere 0 0 tt (apply_setters (options_new [lit 1 1; lit 2 1] (lit 1 2)) l1) [ORun false 5 toy_env_of] = Ret (inl (rs, c)) /\ generation c = 3%N.
Proof.
  cbv zeta. split; [|split].
  - apply perm_trans with [SPopulationSize 4; SMaxGenerations 3; SSeed 7]; [apply perm_skip, perm_swap|apply perm_swap].
  - cbn. repeat constructor; cbn; intuition discriminate.
  - destruct (session_test_ex (session toy_sphere 0 0 tt (apply_setters (options_new [lit 1 1; lit 2 1] (lit 1 2)) [SPopulationSize 4; SSeed 7; SMaxGenerations 3]) [ORun false 5 toy_env_of])
      (fun _ c => (generation c =? 3)%N)) as [rs [c [H1 H2]]].
    { vm_compute. reflexivity. }
    exists rs, c. split; auto. apply N.eqb_eq. auto.
Qed.
Example C65_restart_case :
  let l1 := [RSeed 3; RSMaxTime 100; RMode Maximize] : list (restart_setter f64) in let l2 := [RSMaxTime 100; RSeed 3; RMode Maximize] in
  Permutation l1 l2 /\ NoDup (map restart_option_of l1) /\
  ro_seed (apply_restart_setters (restart_options_new 2 (lit 3 1) (lit (-2) 1) (SIpop (mkIpop 0 1 2))) l1) = Some 3%N.
Proof.
  cbv zeta. split; [apply perm_swap|]. split; [|reflexivity]. cbn. repeat constructor; cbn; intuition discriminate.
Qed.
