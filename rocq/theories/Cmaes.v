(* Model of /repo/src/lib.rs: the CMAES type (with the `plotters` feature enabled; without it, the
   behaviour is that of plot_options = None). *)
From Coq Require Import List NArith ZArith Bool.
Require Import Verif.Base Verif.Num Verif.LinAlg Verif.Mode Verif.Weights Verif.Options Verif.Params Verif.Env
  Verif.State Verif.Sampling Verif.History Verif.Termination Verif.Plot.
Import ListNotations.

(* What is printed. Only which block is printed and the counters in it are modelled. *)
Inductive line :=
| LInitial                                       (* lib.rs lines 499-520 *)
| LInfo (generation evals : N)                   (* lib.rs lines 532-551 *)
| LFinal (reasons : list reason).                (* lib.rs lines 569-584 *)

Section Cmaes.
  Context {T : Type} {NT : Num T} {LT : Libm T} {E : Env T}.
  Context {F : Type} (ev : F -> vec T -> outcome (T * F)).

  (* lib.rs lines 171-180 *)
  Record term_data := mkTermData {
    td_current_best : option (individual T);
    td_overall_best : option (individual T);
    td_final_mean : vec T;
    td_reasons : list reason
  }.

  (* lib.rs lines 205-224; c_out is the output printed so far (newest line first) *)
  Record cmaes := mkCmaes {
    c_sampler : sampler T F;
    c_params : params T;
    c_state : state T;
    c_history : history T;
    c_plot : option (plot T);
    c_print_gap : option N;
    c_last_print : N;
    c_created : N;
    c_out : list line
  }.

  (* accessors, lib.rs lines 371-469 *)
  Definition into_objective_function (c : cmaes) : F := sm_objective (c_sampler c).
  Definition generation (c : cmaes) : N := st_generation (c_state c).
  Definition function_evals (c : cmaes) : N := sm_function_evals (c_sampler c).
  Definition mean (c : cmaes) : vec T := st_mean (c_state c).
  Definition covariance_matrix (c : cmaes) : mat T := cm_cov (st_cov (c_state c)).
  Definition eigenvalues (c : cmaes) : vec T :=
    map (fun x => powi x 2) (diagonal (cm_sqrt_eigenvalues (st_cov (c_state c)))).
  Definition sigma (c : cmaes) : T := st_sigma (c_state c).
  Definition cmaes_axis_ratio (c : cmaes) : T := axis_ratio (c_state c).
  Definition current_best_individual (c : cmaes) : option (individual T) := h_current_best (c_history c).
  Definition overall_best_individual (c : cmaes) : option (individual T) := h_overall_best (c_history c).

  (* lib.rs lines 464-469 *)
  Definition generations_per_eigen_update (c : cmaes) : N :=
    nto_usize (nceil (ndiv (nofN (evals_per_eigen_update (c_params c))) (nofN (p_lambda (c_params c))))).

  (* lib.rs lines 484-488 *)
  Definition add_plot_point (c : cmaes) : outcome cmaes :=
    match c_plot c with
    | None => Ret c
    | Some p =>
        p' <- plot_add_point (function_evals c) (c_state c) (c_history c) p ;;
        Ret (mkCmaes (c_sampler c) (c_params c) (c_state c) (c_history c) (Some p') (c_print_gap c)
                     (c_last_print c) (c_created c) (c_out c))
    end.

  (* Plot::clear through get_mut_plot, lib.rs lines 453-456 *)
  Definition clear_plot (c : cmaes) : outcome cmaes :=
    match c_plot c with
    | None => Ret c
    | Some p =>
        p' <- plot_clear p ;;
        Ret (mkCmaes (c_sampler c) (c_params c) (c_state c) (c_history c) (Some p') (c_print_gap c)
                     (c_last_print c) (c_created c) (c_out c))
    end.

  Definition emit (l : line) (c : cmaes) : cmaes :=
    mkCmaes (c_sampler c) (c_params c) (c_state c) (c_history c) (c_plot c) (c_print_gap c)
            (c_last_print c) (c_created c) (l :: c_out c).
  Definition set_last_print (n : N) (c : cmaes) : cmaes :=
    mkCmaes (c_sampler c) (c_params c) (c_state c) (c_history c) (c_plot c) (c_print_gap c)
            n (c_created c) (c_out c).

  (* lib.rs lines 499-520 *)
  Definition print_initial_info (c : cmaes) : cmaes := emit LInitial c.
  (* lib.rs lines 532-551 *)
  Definition print_info (c : cmaes) : cmaes := emit (LInfo (generation c) (function_evals c)) c.
  (* lib.rs lines 564-585 *)
  Definition print_final_info (reasons : list reason) (c : cmaes) : cmaes :=
    let c := if (function_evals c =? c_last_print c)%N then c else print_info c in
    emit (LFinal reasons) c.

  (* lib.rs lines 231-248: the order of the checks *)
  Definition validate (o : options T) : option invalid_options :=
    if (length (o_initial_mean o) =? 0)%nat then Some EDimensions
    else if (o_population_size o <? 2)%N then Some EPopulationSize
    else if negb (is_initial_step_size_valid (o_initial_step_size o)) then Some EInitialStepSize
    else if negb (nis_normal (o_cm o)) || nleb (o_cm o) n0 || ngtb (o_cm o) n1 then Some ECm
    else None.

  (* lib.rs lines 229-299 (and options.rs 339-341). random_seed is what rand::random returns when no seed
     is set, now is the clock. *)
  Definition cmaes_new (random_seed now : N) (f : F) (o : options T) : outcome (cmaes + invalid_options) :=
    match validate o with
    | Some e => Ret (inr e)
    | None =>
        let dimensions := length (o_initial_mean o) in
        let seed := match o_seed o with Some s => s | None => random_seed end in
        let c := {| c_sampler := sampler_new dimensions (o_constraints o) (o_max_resamples o)
                                             (o_population_size o) f seed;
                    c_params := params_of_options o seed;
                    c_state := state_new (o_initial_mean o) (o_initial_step_size o);
                    c_history := history_new;
                    c_plot := match o_plot_options o with
                              | Some po => Some (plot_new dimensions po (o_mode o))
                              | None => None
                              end;
                    c_print_gap := o_print_gap_evals o;
                    c_last_print := 0;
                    c_created := now;
                    c_out := [] |} in
        c <- add_plot_point c ;;
        Ret (inl (match c_print_gap c with Some _ => print_initial_info c | None => c end))
    end.

  (* lib.rs lines 472-479 *)
  Definition get_termination_data (c : cmaes) (reasons : list reason) : term_data :=
    mkTermData (current_best_individual c) (overall_best_individual c) (mean c) reasons.

  (* lib.rs lines 319-369; last_print_evals + gap_evals (line 342) wraps as in a release build *)
  Definition next_internal (tk : tick) (individuals : list (point T)) (c : cmaes)
    : outcome (option term_data * cmaes) :=
    ' (ok, st) <- state_update (t_tree tk) (function_evals c) (c_params c) individuals (c_state c) ;;
    let c := mkCmaes (c_sampler c) (c_params c) st (c_history c) (c_plot c) (c_print_gap c)
                     (c_last_print c) (c_created c) (c_out c) in
    if negb ok then Ret (Some (get_termination_data c [PosDefCov]), c)
    else
      c <- match c_plot c with
           | Some p =>
               if (generation c <=? 1)%N || (next_data_point_evals p <=? function_evals c)%N
               then add_plot_point c else Ret c
           | None => Ret c
           end ;;
      let c := match c_print_gap c with
               | Some gap =>
                   if (wrapping_add (c_last_print c) gap <=? function_evals c)%N
                   then set_last_print (function_evals c) (print_info c)
                   else if (generation c <? 4)%N then print_info c else c
               | None => c
               end in
      reasons <- check_termination (c_params c) (function_evals c) (c_created c) (t_now tk) (c_state c)
                                   (c_history c) individuals ;;
      match reasons with
      | [] => Ret (None, c)
      | _ => Ret (Some (get_termination_data c reasons), c)
      end.

  (* lib.rs lines 609-620 (par = false) and 665-675 (par = true), with sample_internal 313-316 *)
  Definition cmaes_sample (par : bool) (tk : tick) (c : cmaes)
    : outcome (option (list (point T)) * cmaes) :=
    ' (r, sm) <- sample ev par tk (c_state c) (p_mode (c_params c)) (c_sampler c) ;;
    match r with
    | None =>
        Ret (None, mkCmaes sm (c_params c) (c_state c) (c_history c) (c_plot c) (c_print_gap c)
                           (c_last_print c) (c_created c) (c_out c))
    | Some individuals =>
        h <- history_update (p_mode (c_params c)) individuals (c_history c) ;;
        Ret (Some individuals,
             mkCmaes sm (c_params c) (c_state c) h (c_plot c) (c_print_gap c)
                     (c_last_print c) (c_created c) (c_out c))
    end.

  (* lib.rs lines 628-640 (next, par = false) and 677-691 (next_parallel, par = true) *)
  Definition next (par : bool) (tk : tick) (c : cmaes) : outcome (option term_data * cmaes) :=
    ' (r, c) <- cmaes_sample par tk c ;;
    match r with
    | None => Ret (Some (get_termination_data c [InvalidFunctionValue]), c)
    | Some individuals => next_internal tk individuals c
    end.

  (* lib.rs lines 302-310 *)
  Definition run_internal (d : term_data) (c : cmaes) : outcome cmaes :=
    c <- add_plot_point c ;;
    Ret (match c_print_gap c with Some _ => print_final_info (td_reasons d) c | None => c end).

  (* the loop of run/run_parallel, lib.rs lines 593-597 and 650-654; env k is the behaviour of the
     environment during the k-th call *)
  Fixpoint run_loop (par : bool) (fuel : nat) (env : nat -> tick) (c : cmaes) : outcome (term_data * cmaes) :=
    match fuel with
    | O => NoFuel
    | S fuel' =>
        ' (r, c) <- next par (env O) c ;;
        match r with
        | Some d => Ret (d, c)
        | None => run_loop par fuel' (fun k => env (S k)) c
        end
    end.

  (* lib.rs lines 592-602 and 649-659 *)
  Definition run (par : bool) (fuel : nat) (env : nat -> tick) (c : cmaes) : outcome (term_data * cmaes) :=
    ' (d, c) <- run_loop par fuel env c ;;
    c <- run_internal d c ;;
    Ret (d, c).
End Cmaes.
Arguments term_data : clear implicits.
Arguments cmaes T {E} F.
Arguments mkCmaes {T E F}.

(* The public operations that change an optimiser, for statements about all histories of use. *)
Section Api.
  Context {T : Type} {NT : Num T} {LT : Libm T} {E : Env T}.
  Context {F : Type} (ev : F -> vec T -> outcome (T * F)).

  Inductive op :=
  | ONext (par : bool) (tk : tick)                          (* next, next_parallel *)
  | ORun (par : bool) (fuel : nat) (env : nat -> tick)      (* run, run_parallel *)
  | OAddPlotPoint                                           (* add_plot_point *)
  | OClearPlot                                              (* get_mut_plot().unwrap().clear() *)
  | OPrintInitial | OPrintInfo | OPrintFinal (l : list reason).

  Definition step (c : cmaes T F) (o : op) : outcome (cmaes T F) :=
    match o with
    | ONext par tk => ' (_, c) <- next ev par tk c ;; Ret c
    | ORun par fuel env => ' (_, c) <- run ev par fuel env c ;; Ret c
    | OAddPlotPoint => add_plot_point c
    | OClearPlot => clear_plot c
    | OPrintInitial => Ret (print_initial_info c)
    | OPrintInfo => Ret (print_info c)
    | OPrintFinal l => Ret (print_final_info l c)
    end.

  Fixpoint steps (c : cmaes T F) (l : list op) : outcome (cmaes T F) :=
    match l with
    | [] => Ret c
    | o :: l' => c' <- step c o ;; steps c' l'
    end.

  (* c is reached from a successful build by some sequence of public calls *)
  Definition reachable (c : cmaes T F) : Prop :=
    exists random_seed now f o c0 l,
      cmaes_new random_seed now f o = Ret (inl c0) /\ steps c0 l = Ret c.
End Api.
