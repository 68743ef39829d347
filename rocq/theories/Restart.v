(* Model of /repo/src/restart/{mod,options,strategy,ipop,local,bipop}.rs. *)
From Coq Require Import List NArith ZArith Bool.
Require Import Verif.Base Verif.Num Verif.LinAlg Verif.Mode Verif.Weights Verif.Options Verif.Params Verif.Env
  Verif.State Verif.Sampling Verif.History Verif.Termination Verif.Plot Verif.Cmaes.
Import ListNotations.

(* restart/mod.rs lines 46-58 *)
Inductive restart_reason := RMaxRuns | RFunTarget | RMaxFunctionEvals | RMaxTime | RInvalidFunctionValue.
(* restart/options.rs lines 10-18, 21-27 *)
Inductive invalid_restart_options := REDimensions | RESearchRange.
Inductive invalid_strategy_options := SEInitialStepSize | SEPopulationSize.
(* restart/strategy.rs lines 10-15 *)
Inductive restart_control := RContinue | RMaxRunsReached.

(* The random generator of the restarter (rand_chacha::ChaChaRng), an arbitrary state machine. *)
Class REnv (T : Type) := {
  rr_t : Type;
  rr_seed : N -> rr_t;
  rr_f64 : rr_t -> T * rr_t;                 (* gen::<f64>() *)
  rr_u64 : rr_t -> N * rr_t;                 (* gen::<u64>() *)
  rr_range : T -> T -> rr_t -> T * rr_t      (* gen_range(lo..=hi) when it does not panic *)
}.

(* What the environment does during one iteration of the restart loop. *)
Record rtick := mkRtick {
  rt_check : N;             (* clock at the MaxTime check *)
  rt_random : N;            (* value of rand::random (only used if a run had no seed) *)
  rt_created : N;           (* clock when the run is created *)
  rt_fuel : nat;            (* bound on the generations of the run followed by the model *)
  rt_env : nat -> tick      (* environment of the calls of next within the run *)
}.

(* usize multiplication: panics with overflow checks (debug), wraps without (release) *)
Definition usize_mul (checks : bool) (a b : N) : outcome N :=
  if (a * b <? 18446744073709551616)%N then Ret (a * b)%N
  else if checks then Panic POverflow else Ret ((a * b) mod 18446744073709551616)%N.

Section Restart.
  Context {T : Type} {NT : Num T} {LT : Libm T} {E : Env T} {RE : REnv T}.
  Context {F : Type} (ev : F -> vec T -> outcome (T * F)).
  (* whether the crate is compiled with overflow checks *)
  Context (checks : bool).

  (* ipop.rs lines 22-29 *)
  Record ipop := mkIpop { ip_runs : N; ip_multiplier : N; ip_factor : N }.
  (* local.rs lines 20-28 *)
  Record local := mkLocal { lo_runs : N; lo_factor : T; lo_max_runs : N }.
  (* bipop.rs lines 25-43 *)
  Record bipop := mkBipop {
    bi_ipop_runs : N;
    bi_ipop_evals : N;
    bi_multiplier : N;
    bi_increase : N;
    bi_last_ipop_evals : N;
    bi_last_multiplier : N;
    bi_lr_factor : T;
    bi_lr_evals : N
  }.
  (* strategy.rs lines 28-32 *)
  Inductive strategy := SLocal (s : local) | SIpop (s : ipop) | SBipop (s : bipop).

  (* ipop.rs lines 37-47 *)
  Definition ipop_new (factor : N) : ipop + invalid_strategy_options :=
    if (factor =? 0)%N then inr SEPopulationSize else inl (mkIpop 0 1 factor).
  (* local.rs lines 35-51 *)
  Definition local_new (max_runs : N) (factor : option T) : local + invalid_strategy_options :=
    match factor with
    | Some f => if negb (is_initial_step_size_valid f) then inr SEInitialStepSize
                else inl (mkLocal 0 f max_runs)
    | None => inl (mkLocal 0 (nlit 1 2) max_runs)
    end.
  (* bipop.rs lines 54-84 *)
  Definition bipop_new (lr_factor : option T) (increase : option N) : bipop + invalid_strategy_options :=
    if match lr_factor with Some f => negb (is_initial_step_size_valid f) | None => false end
    then inr SEInitialStepSize
    else if match increase with Some f => (f =? 0)%N | None => false end
    then inr SEPopulationSize
    else inl (mkBipop 0 0 1 (match increase with Some f => f | None => 2%N end) 0 1
                      (match lr_factor with Some f => f | None => nlit 2 10 end) 0).

  (* strategy.rs lines 73-79 with ipop.rs 62-64, local.rs 60-62, bipop.rs 174-176 *)
  Definition has_zero_max_runs (s : strategy) : bool :=
    match s with
    | SLocal l => (lo_max_runs l =? 0)%N
    | _ => false
    end.

  (* one direct assignment of a pub field *)
  Definition set_step_size (o : options T) (x : T) : options T := apply_setter o (SInitialStepSize x).
  Definition set_population (o : options T) (n : N) : options T := apply_setter o (SPopulationSize n).

  (* options.build(objective_function).unwrap() *)
  Definition build_unwrap (rt : rtick) (f : F) (o : options T) : outcome (cmaes T F) :=
    b <- cmaes_new (rt_random rt) (rt_created rt) f o ;;
    match b with inl c => Ret c | inr _ => Panic PUnwrap end.

  (* Observation of one run: the kind of run, the objective and the options it was built with, what it returned,
     its final state and the decision of the strategy (the code returns the last three, and only the reasons of
     the data). *)
  Record run_record := mkRun {
    ru_local : bool;
    ru_objective : F;
    ru_options : options T;
    ru_data : term_data T;
    ru_final : cmaes T F;
    ru_control : restart_control
  }.
  Definition ru_reasons (r : run_record) : list reason := td_reasons (ru_data r).

  Definition exec (par : bool) (rt : rtick) (f : F) (o : options T) : outcome (term_data T * cmaes T F) :=
    c <- build_unwrap rt f o ;;
    run ev par (rt_fuel rt) (rt_env rt) c.

  (* ipop.rs lines 50-52, 66-93 *)
  Definition ipop_next_run (par : bool) (rt : rtick) (s : ipop) (o : options T) (range : T) (f : F)
    : outcome (ipop * run_record) :=
    let o := set_step_size o (ndiv range n2) in
    n <- usize_mul checks (o_population_size o) (ip_multiplier s) ;;
    let o := set_population o n in
    ' (d, c) <- exec par rt f o ;;
    let runs := (ip_runs s + 1)%N in
    mult <- usize_mul checks (ip_multiplier s) (ip_factor s) ;;
    let control := if (10 <=? runs)%N then RMaxRunsReached else RContinue in
    Ret (mkIpop runs mult (ip_factor s), mkRun false f o d c control).

  (* local.rs lines 54-56, 64-89 *)
  Definition local_next_run (par : bool) (rt : rtick) (s : local) (o : options T) (range : T) (f : F)
    : outcome (local * run_record) :=
    let o := set_step_size o (nmul (nmul range (lo_factor s)) (nlit 1 100)) in
    ' (d, c) <- exec par rt f o ;;
    let runs := (lo_runs s + 1)%N in
    let control := if (lo_max_runs s <=? runs)%N then RMaxRunsReached else RContinue in
    Ret (mkLocal runs (lo_factor s) (lo_max_runs s), mkRun true f o d c control).

  (* bipop.rs lines 87-89 *)
  Definition lr_step_size (s : bipop) (range : T) (g : rr_t) : T * rr_t :=
    let (u, g) := rr_f64 g in
    (nmul (nmul range (bi_lr_factor s)) (lm_powf (nofZ 10) (nmul (nofZ (-2)) u)), g).
  (* bipop.rs lines 92-99 *)
  Definition lr_population (s : bipop) (default : N) (g : rr_t) : N * rr_t :=
    let (u, g) := rr_f64 g in
    let multiplier := nmax (lm_powf (ndiv (nofN (bi_last_multiplier s)) n2) (powi u 2)) n1 in
    (nto_usize (nfloor (nmul (nofN default) multiplier)), g).

  (* bipop.rs lines 107-132 *)
  Definition bipop_next_run_lr (par : bool) (rt : rtick) (s : bipop) (o : options T) (range : T) (f : F)
    (g : rr_t) : outcome (bipop * run_record * rr_t) :=
    let (step, g) := lr_step_size s range g in
    let o := set_step_size o step in
    let (n, g) := lr_population s (o_population_size o) g in
    let o := set_population o n in
    let o := with_max_function_evals o
               (match o_max_function_evals o with
                | Some m => Some (N.min m (bi_last_ipop_evals s / 2))
                | None => None
                end) in
    ' (d, c) <- exec par rt f o ;;
    Ret (mkBipop (bi_ipop_runs s) (bi_ipop_evals s) (bi_multiplier s) (bi_increase s)
                 (bi_last_ipop_evals s) (bi_last_multiplier s) (bi_lr_factor s)
                 (bi_lr_evals s + function_evals c),
         mkRun true f o d c RContinue, g).

  (* bipop.rs lines 102-104, 135-164 *)
  Definition bipop_next_run_ipop (par : bool) (rt : rtick) (s : bipop) (o : options T) (range : T) (f : F)
    : outcome (bipop * run_record) :=
    let o := set_step_size o (ndiv range (nofZ 5)) in
    n <- usize_mul checks (o_population_size o) (bi_multiplier s) ;;
    let o := set_population o n in
    ' (d, c) <- exec par rt f o ;;
    let runs := (bi_ipop_runs s + 1)%N in
    mult <- usize_mul checks (bi_multiplier s) (bi_increase s) ;;
    let control := if (10 <=? runs)%N then RMaxRunsReached else RContinue in
    Ret (mkBipop runs (bi_ipop_evals s + function_evals c) mult (bi_increase s)
                 (function_evals c) (bi_multiplier s) (bi_lr_factor s) (bi_lr_evals s),
         mkRun false f o d c control).

  (* bipop.rs lines 178-193 *)
  Definition bipop_next_run (par : bool) (rt : rtick) (s : bipop) (o : options T) (range : T) (f : F)
    (g : rr_t) : outcome (bipop * run_record * rr_t) :=
    if negb (bi_ipop_runs s =? 0)%N && (bi_lr_evals s <? bi_ipop_evals s)%N
    then bipop_next_run_lr par rt s o range f g
    else ' (s, r) <- bipop_next_run_ipop par rt s o range f ;; Ret (s, r, g).

  (* strategy.rs lines 81-112 *)
  Definition strategy_next_run (par : bool) (rt : rtick) (s : strategy) (o : options T) (range : T) (f : F)
    (g : rr_t) : outcome (strategy * run_record * rr_t) :=
    match s with
    | SLocal l => ' (l, r) <- local_next_run par rt l o range f ;; Ret (SLocal l, r, g)
    | SIpop i => ' (i, r) <- ipop_next_run par rt i o range f ;; Ret (SIpop i, r, g)
    | SBipop b => ' (b, r, g) <- bipop_next_run par rt b o range f g ;; Ret (SBipop b, r, g)
    end.

  (* restart/options.rs lines 30-84. The search range is lo..=hi. *)
  Record restart_options := mkRestartOptions {
    ro_strategy : strategy;
    ro_dimensions : nat;
    ro_mode : mode;
    ro_parallel_update : bool;
    ro_default_options : options T;
    ro_lo : T;
    ro_hi : T;
    ro_fun_target : option T;
    ro_max_function_evals : option N;
    ro_max_time : option N;
    ro_max_function_evals_per_run : option N;
    ro_max_generations_per_run : option N;
    ro_enable_printing : bool;
    ro_seed : option N
  }.

  (* restart/options.rs lines 87-112; RangeInclusive::is_empty is !(start <= end) *)
  Definition restart_options_new (dimensions : nat) (lo hi : T) (s : strategy) : restart_options :=
    let (lo, hi) := if nleb lo hi then (lo, hi) else (hi, lo) in
    {| ro_strategy := s;
       ro_dimensions := dimensions;
       ro_mode := Minimize;
       ro_parallel_update := false;
       ro_default_options := options_new (repeat n0 dimensions) (nlit 1 2);
       ro_lo := lo;
       ro_hi := hi;
       ro_fun_target := None;
       ro_max_function_evals := None;
       ro_max_time := None;
       ro_max_function_evals_per_run := None;
       ro_max_generations_per_run := None;
       ro_enable_printing := false;
       ro_seed := None |}.

  (* restart/mod.rs lines 127-159 *)
  Record restarter := mkRestarter {
    rs_strategy : strategy;
    rs_dimensions : nat;
    rs_mode : mode;
    rs_parallel_update : bool;
    rs_default_options : options T;
    rs_lo : T;
    rs_hi : T;
    rs_fun_target : option T;
    rs_max_function_evals : option N;
    rs_max_time : option N;
    rs_max_function_evals_per_run : option N;
    rs_max_generations_per_run : option N;
    rs_print_info : bool;
    rs_seed : N;
    rs_rng : rr_t;
    rs_overall_best : option (individual T)
  }.

  (* restart/mod.rs lines 164-190 *)
  Definition restarter_new (random_seed : N) (o : restart_options) : restarter + invalid_restart_options :=
    let seed := match ro_seed o with Some s => s | None => random_seed end in
    if (ro_dimensions o =? 0)%nat then inr REDimensions
    else if neqb (nsub (ro_hi o) (ro_lo o)) n0 then inr RESearchRange
    else inl {| rs_strategy := ro_strategy o;
                rs_dimensions := ro_dimensions o;
                rs_mode := ro_mode o;
                rs_parallel_update := ro_parallel_update o;
                rs_default_options := ro_default_options o;
                rs_lo := ro_lo o;
                rs_hi := ro_hi o;
                rs_fun_target := ro_fun_target o;
                rs_max_function_evals := ro_max_function_evals o;
                rs_max_time := ro_max_time o;
                rs_max_function_evals_per_run := ro_max_function_evals_per_run o;
                rs_max_generations_per_run := ro_max_generations_per_run o;
                rs_print_info := ro_enable_printing o;
                rs_seed := seed;
                rs_rng := rr_seed seed;
                rs_overall_best := None |}.

  (* rand 0.8.5 gen_range(lo..=hi) for f64: panics when the range is empty (or has a NaN end) and when
     the scale (hi - lo) / (1 - 2^-52) is not finite *)
  Definition is_finite (x : T) : bool := neqb (nsub x x) n0.
  Definition gen_range (lo hi : T) (g : rr_t) : outcome (T * rr_t) :=
    if negb (nleb lo hi) then Panic PRange
    else if negb (is_finite (ndiv (nsub hi lo) (nlit 4503599627370495 4503599627370496))) then Panic PRange
    else Ret (rr_range lo hi g).

  (* restart/mod.rs lines 460-465 *)
  Fixpoint generate_initial_mean (dim : nat) (lo hi : T) (g : rr_t) : outcome (vec T * rr_t) :=
    match dim with
    | O => Ret ([], g)
    | S d =>
        ' (x, g) <- gen_range lo hi g ;;
        ' (v, g) <- generate_initial_mean d lo hi g ;;
        Ret (x :: v, g)
    end.

  (* restart/mod.rs lines 68-80 *)
  Record restart_results := mkResults {
    rr_best : option (individual T);
    rr_reason : restart_reason;
    rr_function_evals : N;
    rr_runs : N
  }.

  (* restart/mod.rs lines 426-435 *)
  Definition update_best_individual (m : mode) (best : option (individual T)) (i : individual T)
    : option (individual T) :=
    match best with
    | Some b => if is_better m (i_value i) (i_value b) then Some i else Some b
    | None => Some i
    end.

  (* restart/mod.rs lines 320-329 *)
  Definition run_options (r : restarter) (initial_mean : vec T) (seed : N) : options T :=
    with_limits
      (apply_setters (rs_default_options r)
                     [SInitialMean initial_mean; SMode (rs_mode r);
                      SParallelUpdate (rs_parallel_update r); SSeed seed])
      (rs_max_function_evals_per_run r) (rs_max_generations_per_run r) (rs_fun_target r).

  (* the closure get_objective_function: FnMut() -> F, an arbitrary state machine *)
  Context {G : Type} (get : G -> outcome (F * G)).

  (* local variables of run_internal *)
  Record loop_state := mkLoop {
    l_strategy : strategy;
    l_rng : rr_t;
    l_best : option (individual T);
    l_function_evals : N;
    l_runs : N;
    l_objective : option F;
    l_factory : G;
    l_log : list run_record        (* observation only: the runs so far, newest first *)
  }.

  Definition has_reason (r : reason) (l : list reason) : bool :=
    existsb (fun x => match x, r with
                      | InvalidFunctionValue, InvalidFunctionValue => true
                      | FunTarget, FunTarget => true
                      | _, _ => false
                      end) l.

  (* One iteration of the loop, restart/mod.rs lines 292-404; inr = break. started is time_started. *)
  Definition restart_step (par reuse : bool) (started : N) (rt : rtick) (r : restarter) (l : loop_state)
    : outcome (loop_state * option restart_reason) :=
    if has_zero_max_runs (l_strategy l) then Ret (l, Some RMaxRuns)
    else if match rs_max_function_evals r with Some m => (m <=? l_function_evals l)%N | None => false end
    then Ret (l, Some RMaxFunctionEvals)
    else if match rs_max_time r with Some m => (m <=? rt_check rt - started)%N | None => false end
    then Ret (l, Some RMaxTime)
    else
      ' (initial_mean, g) <- generate_initial_mean (rs_dimensions r) (rs_lo r) (rs_hi r) (l_rng l) ;;
      let (seed, g) := rr_u64 g in
      let o := run_options r initial_mean seed in
      let range := nabs (nsub (rs_hi r) (rs_lo r)) in
      ' (f, fac) <- match l_objective l with
                    | Some f => Ret (f, l_factory l)
                    | None => get (l_factory l)
                    end ;;
      ' (s, rec, g) <- strategy_next_run par rt (l_strategy l) o range f g ;;
      let evals := (l_function_evals l + function_evals (ru_final rec))%N in
      let runs := (l_runs l + 1)%N in
      let log := rec :: l_log l in
      if has_reason InvalidFunctionValue (ru_reasons rec) then
        Ret (mkLoop s g (l_best l) evals runs None fac log, Some RInvalidFunctionValue)
      else
        let best := match overall_best_individual (ru_final rec) with
                    | Some b => update_best_individual (rs_mode r) (l_best l) b
                    | None => l_best l
                    end in
        if has_reason FunTarget (ru_reasons rec) then
          Ret (mkLoop s g best evals runs None fac log, Some RFunTarget)
        else
          match ru_control rec with
          | RMaxRunsReached => Ret (mkLoop s g best evals runs None fac log, Some RMaxRuns)
          | RContinue =>
              Ret (mkLoop s g best evals runs
                          (if reuse then Some (into_objective_function (ru_final rec)) else None) fac log,
                   None)
          end.

  (* the loop, with fuel *)
  Fixpoint restart_loop (par reuse : bool) (started : N) (fuel : nat) (env : nat -> rtick) (r : restarter)
    (l : loop_state) : outcome (loop_state * restart_reason) :=
    match fuel with
    | O => NoFuel
    | S fuel' =>
        ' (l, res) <- restart_step par reuse started (env O) r l ;;
        match res with
        | Some reason => Ret (l, reason)
        | None => restart_loop par reuse started fuel' (fun k => env (S k)) r l
        end
    end.

  Definition loop_init (r : restarter) (g : G) : loop_state :=
    mkLoop (rs_strategy r) (rs_rng r) (rs_overall_best r) 0 0 None g [].

  (* restart/mod.rs lines 267-423; also returns the final loop state (observations) *)
  Definition restart_run_internal (par reuse : bool) (started : N) (fuel : nat) (env : nat -> rtick)
    (g : G) (r : restarter) : outcome (restart_results * loop_state) :=
    ' (l, reason) <- restart_loop par reuse started fuel env r (loop_init r g) ;;
    Ret (mkResults (l_best l) reason (l_function_evals l) (l_runs l), l).
End Restart.
Arguments strategy : clear implicits.
Arguments local : clear implicits.
Arguments bipop : clear implicits.
Arguments restart_options : clear implicits.
Arguments restarter T {RE}.
Arguments restart_results : clear implicits.
Arguments run_record T {E} F.
Arguments loop_state T {E RE} F G.

Section RestartApi.
  Context {T : Type} {NT : Num T} {LT : Libm T} {E : Env T} {RE : REnv T}.
  Context {F : Type} (ev : F -> vec T -> outcome (T * F)) (checks : bool).

  (* restart/mod.rs lines 201-207 (par = false) and 244-250 (par = true) *)
  Definition restart_run {G} (get : G -> outcome (F * G)) (par : bool) (started : N) (fuel : nat)
    (env : nat -> rtick) (g : G) (r : restarter T) : outcome (restart_results T * loop_state T F G) :=
    restart_run_internal ev checks get par false started fuel env g r.

  (* the closure || function.take().unwrap() of lines 235-236 and 258-260 *)
  Definition take_once (o : option F) : outcome (F * option F) :=
    match o with Some f => Ret (f, None) | None => Panic PUnwrap end.

  (* restart/mod.rs lines 234-237 (par = false) and 254-264 (par = true) *)
  Definition restart_run_with_reuse (par : bool) (started : N) (fuel : nat)
    (env : nat -> rtick) (f : F) (r : restarter T)
    : outcome (restart_results T * loop_state T F (option F)) :=
    restart_run_internal ev checks take_once par true started fuel env (Some f) r.
End RestartApi.
