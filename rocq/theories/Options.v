(* Model of /repo/src/options.rs and /repo/src/plotting/options.rs. *)
From Coq Require Import List NArith ZArith Bool.
Require Import Verif.Base Verif.Num Verif.LinAlg Verif.Mode Verif.Weights.
Import ListNotations.

(* plotting/options.rs lines 5-11 *)
Record plot_options := mkPlotOptions {
  po_min_gap_evals : N;
  po_scientific_notation : bool
}.

(* options.rs lines 346-355 *)
Inductive invalid_options := EDimensions | EPopulationSize | EInitialStepSize | ECm.

Section Options.
  Context {T : Type} {NT : Num T} {LT : Libm T}.

  (* sampling.rs lines 14-17: a user-supplied predicate, which may panic *)
  Definition constraints := vec T -> outcome bool.

  (* options.rs lines 34-134. Durations are numbers of nanoseconds. *)
  Record options := mkOptions {
    o_mode : mode;
    o_initial_mean : vec T;
    o_initial_step_size : T;
    o_population_size : N;
    o_constraints : option constraints;
    o_max_resamples : option N;
    o_weights : weights_setting;
    o_parallel_update : bool;
    o_cm : T;
    o_max_function_evals : option N;
    o_max_generations : option N;
    o_max_time : option N;
    o_fun_target : option T;
    o_tol_fun : T;
    o_tol_fun_rel : T;
    o_tol_fun_hist : T;
    o_tol_x : option T;
    o_tol_stagnation : option N;
    o_tol_x_up : T;
    o_tol_condition_cov : T;
    o_seed : option N;
    o_plot_options : option plot_options;
    o_print_gap_evals : option N
  }.

  (* options.rs line 152 *)
  Definition default_population_size (dimensions : N) : N :=
    (4 + nto_usize (nfloor (nmul (nofZ 3) (lm_ln (nofN dimensions)))))%N.

  (* options.rs lines 145-174 *)
  Definition options_new (initial_mean : vec T) (initial_step_size : T) : options :=
    let dimensions := N.of_nat (length initial_mean) in
    {| o_mode := Minimize;
       o_initial_mean := initial_mean;
       o_initial_step_size := initial_step_size;
       o_population_size := default_population_size dimensions;
       o_constraints := None;
       o_max_resamples := Some 10%N;
       o_weights := WNegative;
       o_parallel_update := false;
       o_cm := n1;
       o_max_function_evals := None;
       o_max_generations := None;
       o_max_time := None;
       o_fun_target := None;
       o_tol_fun := nlit 1 1000000000000;
       o_tol_fun_rel := n0;
       o_tol_fun_hist := nlit 1 1000000000000;
       o_tol_x := None;
       o_tol_stagnation := None;
       o_tol_x_up := nofZ 100000000;
       o_tol_condition_cov := nofZ 100000000000000;
       o_seed := None;
       o_plot_options := None;
       o_print_gap_evals := None |}.

  (* sampling.rs lines 31-34: Bounds::meets_constraints (`all` and `&&` short-circuit) *)
  Definition bounds_meets (lower upper : vec T) : constraints :=
    fun x => oall (fun i =>
      xi <- index x i ;;
      lo <- index lower i ;;
      if ngeb xi lo then (hi <- index upper i ;; Ret (nleb xi hi)) else Ret false)
      (seq 0 (length x)).

  (* The setters, options.rs lines 177-336, one constructor per method *)
  Inductive setter :=
  | SMode (m : mode)                          (* 177-180 *)
  | SInitialMean (v : vec T)                  (* 183-186 *)
  | SInitialStepSize (s : T)                  (* 189-192 *)
  | SPopulationSize (n : N)                   (* 195-198 *)
  | SBounds (lower upper : vec T)             (* 202-205 *)
  | SConstraints (c : constraints)            (* 208-211 *)
  | SMaxResamples (n : option N)              (* 214-217 *)
  | SWeights (w : weights_setting)            (* 221-224 *)
  | SParallelUpdate (b : bool)                (* 227-230 *)
  | SCm (c : T)                               (* 234-237 *)
  | SMaxFunctionEvals (n : N)                 (* 241-244 *)
  | SMaxGenerations (n : N)                   (* 248-251 *)
  | SMaxTime (n : N)                          (* 255-258 *)
  | SFunTarget (t : T)                        (* 262-265 *)
  | STolFun (t : T)                           (* 269-272 *)
  | STolFunRel (t : T)                        (* 276-279 *)
  | STolFunHist (t : T)                       (* 283-286 *)
  | STolX (t : T)                             (* 290-293 *)
  | STolStagnation (n : N)                    (* 297-300 *)
  | STolXUp (t : T)                           (* 304-307 *)
  | STolConditionCov (t : T)                  (* 311-314 *)
  | SSeed (n : N)                             (* 317-320 *)
  | SEnablePlot (p : plot_options)            (* 325-328 *)
  | SEnablePrinting (n : N).                  (* 333-336 *)

  (* options.rs lines 177-336 *)
  Definition apply_setter (o : options) (s : setter) : options :=
    let '(mkOptions md im iss ps cs mr w pu cm mfe mg mt ft tf tfr tfh tx ts txu tcc sd po pg) := o in
    match s with
    | SMode v => mkOptions v im iss ps cs mr w pu cm mfe mg mt ft tf tfr tfh tx ts txu tcc sd po pg
    | SInitialMean v => mkOptions md v iss ps cs mr w pu cm mfe mg mt ft tf tfr tfh tx ts txu tcc sd po pg
    | SInitialStepSize v => mkOptions md im v ps cs mr w pu cm mfe mg mt ft tf tfr tfh tx ts txu tcc sd po pg
    | SPopulationSize v => mkOptions md im iss v cs mr w pu cm mfe mg mt ft tf tfr tfh tx ts txu tcc sd po pg
    | SBounds lo up => mkOptions md im iss ps (Some (bounds_meets lo up)) mr w pu cm mfe mg mt ft tf tfr tfh tx ts txu tcc sd po pg
    | SConstraints v => mkOptions md im iss ps (Some v) mr w pu cm mfe mg mt ft tf tfr tfh tx ts txu tcc sd po pg
    | SMaxResamples v => mkOptions md im iss ps cs v w pu cm mfe mg mt ft tf tfr tfh tx ts txu tcc sd po pg
    | SWeights v => mkOptions md im iss ps cs mr v pu cm mfe mg mt ft tf tfr tfh tx ts txu tcc sd po pg
    | SParallelUpdate v => mkOptions md im iss ps cs mr w v cm mfe mg mt ft tf tfr tfh tx ts txu tcc sd po pg
    | SCm v => mkOptions md im iss ps cs mr w pu v mfe mg mt ft tf tfr tfh tx ts txu tcc sd po pg
    | SMaxFunctionEvals v => mkOptions md im iss ps cs mr w pu cm (Some v) mg mt ft tf tfr tfh tx ts txu tcc sd po pg
    | SMaxGenerations v => mkOptions md im iss ps cs mr w pu cm mfe (Some v) mt ft tf tfr tfh tx ts txu tcc sd po pg
    | SMaxTime v => mkOptions md im iss ps cs mr w pu cm mfe mg (Some v) ft tf tfr tfh tx ts txu tcc sd po pg
    | SFunTarget v => mkOptions md im iss ps cs mr w pu cm mfe mg mt (Some v) tf tfr tfh tx ts txu tcc sd po pg
    | STolFun v => mkOptions md im iss ps cs mr w pu cm mfe mg mt ft v tfr tfh tx ts txu tcc sd po pg
    | STolFunRel v => mkOptions md im iss ps cs mr w pu cm mfe mg mt ft tf v tfh tx ts txu tcc sd po pg
    | STolFunHist v => mkOptions md im iss ps cs mr w pu cm mfe mg mt ft tf tfr v tx ts txu tcc sd po pg
    | STolX v => mkOptions md im iss ps cs mr w pu cm mfe mg mt ft tf tfr tfh (Some v) ts txu tcc sd po pg
    | STolStagnation v => mkOptions md im iss ps cs mr w pu cm mfe mg mt ft tf tfr tfh tx (Some v) txu tcc sd po pg
    | STolXUp v => mkOptions md im iss ps cs mr w pu cm mfe mg mt ft tf tfr tfh tx ts v tcc sd po pg
    | STolConditionCov v => mkOptions md im iss ps cs mr w pu cm mfe mg mt ft tf tfr tfh tx ts txu v sd po pg
    | SSeed v => mkOptions md im iss ps cs mr w pu cm mfe mg mt ft tf tfr tfh tx ts txu tcc (Some v) po pg
    | SEnablePlot v => mkOptions md im iss ps cs mr w pu cm mfe mg mt ft tf tfr tfh tx ts txu tcc sd (Some v) pg
    | SEnablePrinting v => mkOptions md im iss ps cs mr w pu cm mfe mg mt ft tf tfr tfh tx ts txu tcc sd po (Some v)
    end.
  Definition apply_setters (o : options) (l : list setter) : options := fold_left apply_setter l o.

  (* direct field assignments (the fields are pub) used by restart/mod.rs lines 327-329 and the strategies *)
  Definition with_limits (o : options) (mfe mg : option N) (ft : option T) : options :=
    let '(mkOptions md im iss ps cs mr w pu cm _ _ mt _ tf tfr tfh tx ts txu tcc sd po pg) := o in
    mkOptions md im iss ps cs mr w pu cm mfe mg mt ft tf tfr tfh tx ts txu tcc sd po pg.
  Definition with_max_function_evals (o : options) (mfe : option N) : options :=
    with_limits o mfe (o_max_generations o) (o_fun_target o).

  (* options.rs lines 358-360 *)
  Definition is_initial_step_size_valid (s : T) : bool := nis_normal s && ngtb s n0.
End Options.
Arguments constraints : clear implicits.
Arguments options : clear implicits.
Arguments setter : clear implicits.
