(* Model of /repo/src/parameters/mod.rs and of the default of tol_stagnation in
   /repo/src/termination.rs. *)
From Coq Require Import List NArith ZArith Bool.
Require Import Verif.Base Verif.Num Verif.LinAlg Verif.Mode Verif.Weights Verif.Options.
Import ListNotations.

Section Params.
  Context {T : Type} {NT : Num T} {LT : Libm T}.

  (* parameters/mod.rs lines 17-40 *)
  Record term_params := mkTermParams {
    tp_max_function_evals : option N;
    tp_max_generations : option N;
    tp_max_time : option N;
    tp_fun_target : option T;
    tp_tol_fun : T;
    tp_tol_fun_rel : T;
    tp_tol_fun_hist : T;
    tp_tol_x : T;
    tp_tol_stagnation : N;
    tp_tol_x_up : T;
    tp_tol_condition_cov : T
  }.

  (* termination.rs lines 278-280 *)
  Definition default_tol_stagnation (dim lambda : N) : N :=
    (100 + nto_usize (nceil (ndiv (nmul (nofZ 100) (lm_powf (nofN dim) (nlit 3 2))) (nofN lambda))))%N.

  (* parameters/mod.rs lines 44-64 *)
  Definition term_params_of_options (o : options T) : term_params :=
    let dimensions := N.of_nat (length (o_initial_mean o)) in
    {| tp_max_function_evals := o_max_function_evals o;
       tp_max_generations := o_max_generations o;
       tp_max_time := o_max_time o;
       tp_fun_target := o_fun_target o;
       tp_tol_fun := o_tol_fun o;
       tp_tol_fun_rel := o_tol_fun_rel o;
       tp_tol_fun_hist := o_tol_fun_hist o;
       tp_tol_x := match o_tol_x o with
                   | Some x => x
                   | None => nmul (nlit 1 1000000000000) (o_initial_step_size o)
                   end;
       tp_tol_stagnation := match o_tol_stagnation o with
                            | Some n => n
                            | None => default_tol_stagnation dimensions (o_population_size o)
                            end;
       tp_tol_x_up := o_tol_x_up o;
       tp_tol_condition_cov := o_tol_condition_cov o |}.

  (* parameters/mod.rs lines 70-103 *)
  Record params := mkParams {
    p_mode : mode;
    p_dim : N;
    p_lambda : N;
    p_mu : N;
    p_initial_sigma : T;
    p_mu_eff : T;
    p_weights : list T;
    p_weights_setting : weights_setting;
    p_cc : T;
    p_c1 : T;
    p_cs : T;
    p_cmu : T;
    p_cm : T;
    p_damp_s : T;
    p_term : term_params;
    p_seed : N;
    p_parallel_update : bool
  }.

  (* parameters/mod.rs line 119 *)
  Definition calc_cc (dim : N) (mu_eff : T) : T :=
    ndiv (nadd (nofZ 4) (ndiv mu_eff (nofN dim)))
         (nadd (nadd (nofN dim) (nofZ 4)) (ndiv (nmul n2 mu_eff) (nofN dim))).
  (* parameters/mod.rs lines 118, 120 (a_cov = 2.0) *)
  Definition calc_c1 (dim : N) (mu_eff : T) : T :=
    ndiv n2 (nadd (powi (nadd (nofN dim) (nlit 13 10)) 2) mu_eff).
  (* parameters/mod.rs lines 121-124 *)
  Definition calc_cmu (dim : N) (mu_eff c1 : T) : T :=
    nmin (nsub n1 c1)
         (ndiv (nmul n2 (nadd (nsub mu_eff n2) (ndiv n1 mu_eff)))
               (nadd (powi (nadd (nofN dim) n2) 2) (ndiv (nmul n2 mu_eff) n2))).
  (* parameters/mod.rs line 129 *)
  Definition calc_cs (dim : N) (mu_eff : T) : T :=
    ndiv (nadd mu_eff n2) (nadd (nadd (nofN dim) mu_eff) (nofZ 5)).
  (* parameters/mod.rs line 130 *)
  Definition calc_damp_s (dim : N) (mu_eff cs : T) : T :=
    nadd (nadd n1 cs)
         (nmul n2 (nmax (nsub (nsqrt (ndiv (nsub mu_eff n1) (nadd (nofN dim) n1))) n1) n0)).

  (* parameters/mod.rs lines 107-155 *)
  Definition params_of_options (o : options T) (seed : N) : params :=
    let dim := N.of_nat (length (o_initial_mean o)) in
    let iw := iw_new (o_population_size o) (o_weights o) in
    let mu_eff := iw_mu_eff iw in
    let c1 := calc_c1 dim mu_eff in
    let cmu := calc_cmu dim mu_eff c1 in
    let cs := calc_cs dim mu_eff in
    {| p_mode := o_mode o;
       p_dim := dim;
       p_lambda := o_population_size o;
       p_mu := iw_mu iw;
       p_initial_sigma := o_initial_step_size o;
       p_mu_eff := mu_eff;
       p_weights := iw_finalize iw dim c1 cmu;
       p_weights_setting := o_weights o;
       p_cc := calc_cc dim mu_eff;
       p_c1 := c1;
       p_cs := cs;
       p_cmu := cmu;
       p_cm := o_cm o;
       p_damp_s := calc_damp_s dim mu_eff cs;
       p_term := term_params_of_options o;
       p_seed := seed;
       p_parallel_update := o_parallel_update o |}.
End Params.
Arguments term_params : clear implicits.
Arguments params : clear implicits.
