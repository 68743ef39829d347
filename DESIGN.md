# Formal model of pengowen123/cmaes in Rocq

The model covers the optimiser (`CMAES`), its options, parameters, sampling, state update, histories,
termination criteria, plot data, the contents of saved plots, printing decisions, the helper functions `fmin`/`fmax`, the `Scale`
wrapper and the restart strategies.

## Architecture

* **One model, two arithmetics.** The code is written once, generic over a record of numeric operations
  (`Num`) and of mathematical-library functions (`Libm`). It is instantiated at
  * `f64`: IEEE-754 binary64 as formalised by Flocq (`binary_float 53 1024`), with NaN, infinities,
    signed zeros, subnormals and round-to-nearest-even. `ln`, `exp` and `powf` are arbitrary
    functions here (universally quantified), so nothing is assumed about the platform's libm.
  * `xreal`: exact real arithmetic extended with the IEEE special values (NaN, +-inf; zero is unsigned).
    Used for the facts which are true of the algorithm but not of rounded arithmetic (weights sum to
    1, positive definiteness, invariances). Every theorem using it says "in exact arithmetic".
* **Panics are data.** Fallible operations return `outcome A = Ret a | Panic p | NoFuel`.
  `Panic` is a Rust panic (index, unwrap, dimension mismatch, empty sum, overflow where modelled).
  `NoFuel` is "the loop did not finish within the given number of rounds"; it is used only for the
  resampling loop, `run` and the restart loop, and theorems exclude it explicitly or prove it is not reached.
* **Oracles** are universally quantified parameters, never axioms (see the table below).
* **Objective-call log.** Properties about "points evaluated" are stated by instantiating the objective
  with a wrapper that records its calls; the optimiser model itself carries no ghost state. The model of the
  restart loop keeps a list of run records (`run_record`), which the code does not have; nothing reads it.

## Model files

| File in rocq/theories | Code in /repo/src |
|---|---|
| Base, Num, F64, XReal, LinAlg | outcomes; f64 operations; nalgebra vectors and matrices on lists |
| Mode | mode.rs, `partial_cmp` and `range` of utils.rs |
| Weights, Params | parameters/weights.rs, parameters/mod.rs |
| Options | options.rs, plotting/options.rs |
| Env | what the environment supplies: generator, eigen solver, clock, schedule, library median on NaN |
| State | state.rs, matrix.rs |
| Sampling | sampling.rs (with `Constraints` and `Bounds`) |
| History | history.rs |
| Termination | termination.rs |
| Plot | plotting/mod.rs, plotting/data.rs, plotting/utils.rs (recording of data) |
| Draw | plotting/draw.rs, build_plot of plotting/mod.rs (axes, points and markers handed to the drawing library) |
| Cmaes | lib.rs |
| Format | `format_num` of utils.rs, the text of print_initial_info and print_info of lib.rs, the parts of core::fmt they use |
| Report | the text of print_final_info of lib.rs and of the lines a Restarter prints (restart/mod.rs, algorithm names and settings of the strategies); `{}` and `{:e}` of an f64 and `{}` of a vector are arbitrary functions |
| Functions | functions.rs, `Scale` of objective_function.rs |
| Restart, RestartSetters, PropStrategy (`default()` only) | restart/mod.rs, options.rs, strategy.rs, local.rs, ipop.rs, bipop.rs |

Spec, TermSpec and FormatSpec hold the vocabulary of the statements. Files called Prop... hold the property theorems, each
followed by `Print Assumptions` and by an Example showing a case that meets the hypotheses. Toy, XToy and ExactToy
are concrete environments for those examples. The remaining files are lemmas.

## Oracles and what is assumed of them

| Oracle | Stands for | Assumed |
|---|---|---|
| `rng_seed`, `rng_normal` | ChaCha12 seeded from the options, statrs' normal sampler | nothing: any state machine |
| `eigen` | nalgebra's (or lapack's) symmetric eigen solver | `eigen_shape` (n vectors and n values for an n x n matrix, given by the types in Rust) where panics or shapes matter; `exact_solver` (orthonormal eigenvectors, A v = l v) in C39, C40, C42, C62, C73, C74 and C67_axes_world_partial, in exact arithmetic |
| `nan_median` | statrs `Data::median` on values that include NaN | nothing: any value, or a panic. Where it matters the theorem says so (`medians_known`, see C28) |
| `tick` | one call's clock reading, reduction tree, thread schedule, number of resampling rounds followed | a schedule is a permutation of the points; otherwise nothing |
| objective, constraints | user code | any state machine / predicate, possibly panicking |
| `Libm` (`ln`, `exp`, `powf`) | the platform's libm | nothing for f64, except C75, C77, C78, C80, C81, C82, C83, C84, C85, C86 and C88 (`ln` has a relative error of at most 2^-50 on [1, 2^40]), C78 (from -1 upwards `exp` is infinite or below the true value by a relative error of at most 2^-50, and NaN of NaN), C84 (the same from both sides), C72_sigma (`exp` is never negative), C57 and C59_ordinary (for BIPOP `powf(10, y)` is in [0.01, 1] for y in [-2, 0]); the real functions in exact arithmetic |
| `DrawLib` (`log10`, `round`) | the platform's functions, used for drawing only | nothing for f64, except C67_axes_float_partial (`rough_log`: log10 right to within 0.05 and powf(10, .) to within a factor of 10^0.05 unless it overflows); the real functions in exact arithmetic |
| `REnv` (restart generator, clocks) | ChaCha12 of the restarter, `gen_range`, `gen::<f64>` | nothing, except where stated: draws lie in [0, 1) (`unit_draws`), means lie in the range (`rr_range`) |


## Plan per property

| Id | Property | What is modelled and how it is proved |
|---|---|---|
| C01 | build accepts exactly the valid options | F64. build is modelled as a function of the options record; spec `valid_options` is stated on IEEE classes through Flocq's real-number view. Case analysis. |
| C02 | default options always build | F64. Setter sequences as lists of setter operations; induction; saturating cast gives population >= 4 whatever `ln` returns. |
| C03 | a freshly built optimiser starts in the requested state | Any arithmetic. By computation of the constructor model; spec written with independent definitions (identity by entries). |
| C04 | each generation evaluates exactly population_size points of the current distribution | Any arithmetic. The objective is wrapped by a call logger (instantiating the objective state by state x log); induction over the sampling loop. |
| C05 | the evaluation counter advances by population_size | Any arithmetic. Invariant by induction over lists of API calls. |
| C06 | function_evals is the number of objective calls | Logger objective. Proved for NaN-free histories; refuted in general by an executed F64 witness. |
| C07 | with unlimited resampling every evaluated point satisfies the constraints | Logger objective; induction over the resampling rounds. |
| C08 | limited resampling always finishes and keeps the valid points | Induction over rounds with fuel m+1. |
| C09 | unlimited resampling of unsatisfiable constraints never returns | For every fuel the loop returns the out-of-fuel value; induction on fuel. |
| C10 | Bounds accepts exactly the box | F64; induction on the vector; `Panic` outcome for a missing bound. |
| C11 | a generation is ranked best first | Order laws (proved for F64 from Flocq) => stable insertion sort sorted/permutation/stability. |
| C12 | a NaN objective value terminates with InvalidFunctionValue and leaves the optimiser state unchanged | F64/any arithmetic; equality of every component except RNG and objective state. |
| C13 | current_best_individual is the best of the latest generation | Logger objective, order laws. |
| C14 | overall_best_individual is the best point ever evaluated | Invariant over API call lists with the logger objective. |
| C15 | best individuals are present in termination data unless the first generation was invalid | Invariant over API call lists. |
| C16 | value histories hold the most recent MAX_HISTORY_LENGTH generations | Refinement to the unbounded list of generation summaries, truncated at 20000. |
| C17 | first and best median | Refinement to the list of generation summaries; F64 median facts with Flocq. |
| C18 | termination data is non-empty, exclusive and duplicate free | Case analysis of `next`; NoDup of reasons for all inputs. |
| C19 | max_generations bounds the run | Termination of run with explicit bound, induction on remaining generations. |
| C20 | max_function_evals bounds the run | Same, on remaining evaluations. |
| C21 | max_time stops the run at the first generation that ends after the limit | Clock reading is an input of each call. |
| C22 | fun_target | Order laws, invariant over histories; equality refuted by witness. |
| C23 | value tolerance criteria | Independent spec of range as max-min over the list; order laws. |
| C24 | TolX | Exact characterisation; documented claim refuted by an F64 witness in both directions. |
| C25 | NoEffectAxis and NoEffectCoord | Exact characterisation; doc claim refuted for NoEffectCoord. |
| C26 | TolConditionCov and TolXUp | Exact characterisation + axis ratio >= 1 from Flocq rounding monotonicity. |
| C27 | TolStagnation | Exact characterisation with independently specified windows; flat histories never reported. |
| C28 | the optimiser never panics | Shape invariant over all reachable states; every partial operation returns `Panic` in the model, shown unreachable (the library median on NaN excepted: conditional, with a witness). |
| C29 | run is iterated next | Induction on iteration count in both directions. |
| C30 | maximising f is minimising -f | Bisimulation between the two optimisers in F64. |
| C31 | the search depends only on the ranking of values | Bisimulation on (state, RNG) for order-preserving value maps. |
| C32 | parallel evaluation gives the same results | For every valid schedule the collected list equals the sequential one; induction. |
| C33 | parallel_update computes the same update up to rounding | Exact arithmetic: reduction trees = sequential sum, structural induction; F64 witness for inequality. |
| C34 | printing and plotting do not influence the optimisation | Simulation relation ignoring plot, print state and log. |
| C35 | recombination weights | Exact arithmetic instance. |
| C36 | learning rates are in range | Exact arithmetic instance; nonlinear real arithmetic. |
| C37 | the mean moves to the weighted average of the selected points | Exact arithmetic instance; convexity of weighted sums. |
| C38 | covariance_matrix is always symmetric | Any arithmetic: entrywise. |
| C39 | the covariance update preserves positive definiteness | Exact arithmetic instance; quadratic forms, Cauchy-Schwarz, invariant C_g >= (k^j - d*sum) C_eig over a lag of j generations. |
| C40 | sigma stays positive | Exact arithmetic instance; invariant. |
| C41 | eigendecomposition cadence | Any arithmetic; invariant on last update. |
| C42 | a refreshed decomposition represents the covariance matrix | Exact arithmetic instance, eigen solver specified by A v_i = l_i v_i with orthonormal v. |
| C43 | translation invariance | Exact arithmetic instance; bisimulation up to translation. |
| C44 | plot data is consistent | Invariant over API call lists. |
| C45 | plot points respect min_gap_evals | Case analysis of `next` against a spec on the recorded evaluation counts. |
| C46 | Plot::clear keeps exactly the latest point and never panics | Invariant (non-empty series) + list lemma. |
| C47 | run plots the final state | Proved for runs not ending with PosDefCov; refuted by an executed witness. |
| C48 | automatic printing | Printed lines are modelled as an output trace; spec predicate; duplicate line refuted by witness. |
| C49 | Scale | Logger objective; panic on length mismatch is explicit. |
| C50 | fmin and fmax | From C14/C29. |
| C51 | RestartOptions::build validation | F64, Flocq. |
| C52 | restart totals | Invariant of the restart loop with an instrumented run log. |
| C53 | restart termination reasons | Loop invariant and case analysis of the exit. |
| C54 | restart result is the best over all runs | Loop invariant; refuted for the NaN run by witness. |
| C55 | run limits of the strategies | Termination measure of the restart loop. |
| C56 | per-run configuration of restarts | Run log invariant. |
| C57 | BIPOP local runs | Exact arithmetic for the ranges; refutation of the half-evals limit. |
| C58 | objective reuse across restarts | Loop invariant on the factory call count. |
| C59 | a restarter that was built does not panic | F64 / usize arithmetic witnesses; sufficient condition proved. |
| C60 | range helper | F64; list induction; witnesses. |
| C61 | strategy parameters are the published defaults | Exact arithmetic instance; sums over lists. |
| C62 | a generation performs the published CMA-ES update | Exact arithmetic instance; the update equations entry by entry. |
| C63 | seeded runs are reproducible | Any arithmetic. Two sessions (two restart loops) with different clocks and OS entropy, compared call by call. |
| C64 | scale invariance | Exact arithmetic instance; bisimulation up to scaling and translation. |
| C65 | builder methods | Any arithmetic. Setter sequences as lists; last setting wins and different settings commute. |
| C66 | saving a plot never panics | binary64. From the plot contents (C44) and the invariant that a best value or the initial step size is a number. |
| C67 | the axes of a saved plot contain its data | Exact arithmetic and binary64 for all charts; refuted for equal negative means. |
| C68 | what a saved plot shows | Any arithmetic. Refinement of the drawing code to a list of recorded moments. |
| C69 | a progress line says what the accessors say | Binary64. The printed text is parsed again by a small independent reader; correctly rounded decimal conversion proved from the integer arithmetic of the formatter. |
| C70 | the progress table lines up | Binary64. Lengths and bar positions of the pieces of a line. |
| C71 | parameters() shows the settings in use, and the seed it shows reproduces the session | Any arithmetic. Inversion of the constructor and invariance of the parameters over all calls; the constructor uses the seed only through the generator and the parameters. |
| C72 | the reported shape of the distribution makes sense in floating point | Binary64 with arbitrary libm and solver. Invariant: each square root of an eigenvalue is NaN or at least 2^-537; both folds of axis_ratio start again at the same NaN. |
| C73 | the step size cannot collapse | Exact arithmetic instance; the norm of the path is not negative; induction over generations. |
| C74 | the sampling distribution cannot become degenerate in a bounded number of generations | Exact arithmetic instance; quadratic forms; for negative weights a count of generations since the last decomposition. |
| C75 | weights and learning rates are sound as computed | Interval bounds on every intermediate rounding (relation `is x r`, F64Acc), the raw weights from an accurate logarithm (F64Raw), mu_eff with its gap around 1 (F64Weights), the rates (F64Rates) and the final weights, where infinite or NaN candidates of the minimum are harmless (F64Final). |
| C76 | The printed reports are complete and accurate | A reader (ReportSpec: pieces between separators, what stands between backquotes, names of reasons) is run on the text of Report; induction over the list of reasons and over the list of runs; the printed numbers contain no separator (format_num_chars). |
| C77 | the computed mean follows the best points up to rounding | Backwards from the finite result to the finite operands of every addition and product, so that each is a rounding of the exact operation; error of a rounded sum by induction on its length; steps compared with the differences of points and mean (F64Mean). The points and ranking come from the logged calls as in C37. The excursion outside the bounds is a computed session. |
| C78 | the step size as computed cannot collapse | A lower bound that may be NaN (relation `low`, F64Sigma) pushed through the square root, the quotient, the product with cs/damps, exp and the product with sigma; rounding is monotone, so no error analysis of the paths is needed. Induction over the calls. |
| C79 | the lines printed first describe the optimiser | The text is read back by splitting at the equals signs and bars (ReportSpec, FormatSpec). |
| C80 | The parameters in use are the published ones to within a small relative error, as computed in binary64 | Relative errors are measured as distances of logarithms, which add up along the code (F64Rel); the published formulas are defined over the reals in the property file. |
| C81 | The variance along a coordinate cannot collapse, as computed | A lower bound survives the addition of anything that is not negative without loss, since rounding is monotone (F64Cov); only the factor of the old matrix loses, and it is bounded below by its learning rates. |
| C82 | The covariance matrix follows the published update up to rounding, however the work is split | Additions of binary64 numbers have a purely relative error, so a sum over any tree of n summands has a relative error of (1+u)^n - 1 in the sum of the sizes, by induction over the tree (F64CovErr); backwards from a finite entry every operand is finite. |
| C83 | The direction that enters the covariance matrix is the published evolution path, up to rounding | The factor of the weighted step has four roundings and a square root, which halves relative errors; the learning rate is bounded away from zero so that nothing underflows there (F64Rates.cc_range, F64Path.root_err); the weighted sum has the error of C77; the two summands of the path are then added (F64Path.path_err). |
| C84 | The step size follows the published rule, up to rounding | The expected length is well conditioned: the subtraction stays above 3/4 (F64Step.chi_rel). The quotient cs / d is bounded away from zero (F64Rates.cs_range, damp_range), so the exponent has an absolute error of 22 * 2^-52 times (cs / d) (l / X + 1) (F64Step.exponent_err); the exponential function turns it into a factor, and the last product is rounded once. A finite result forces every intermediate value to be finite. |
| C85 | The path behind the step size, and its length, follow the published rule, up to rounding | The factor g has a relative error of 5 * 2^-53 (F64Path.root_err); each product of the row carries it and the error of the mean step (PropFloatPath.mean_step, F64Conj.product_err); the sum adds at most n * 2^-53 relative to the sum of absolute values (F64CovErr.fsum_grow, F64Conj.row_err), whatever the order of the additions (F64Conj.any_sum_err); then conj_err. The length: the sum of squares has a relative error plus an underflow part, whose square root gives 2^-515 (F64Conj.length_err). A finite result forces every intermediate value to be finite. |
| C86 | When the evolution path of the covariance matrix is stopped | powi is binary exponentiation, so a power with exponent e has a relative error of about e * 2^-53 (F64Stall.powi_close); since (1 - cs)^e decays, e (1 - cs)^e <= 1 / cs (F64Stall.geometric, decay_rel) and the error of 1 - (1 - cs)^e is at most 4 / cs * 2^-53 relative whatever the exponent; the square root, the product and the division add a constant (limit_rel, stall_decision). For an exponent <= 0 the power is at least 1, the square root is NaN or zero, and the comparison fails (powi_unit, stall_wrapped). The exponent depends on the generation modulo 2^31 (exponent_period). |
| C87 | Points are drawn along the axes the eigenvalue solver returned, with its variances, up to rounding | Invariant: the three stored matrices are the results of normalising, inverting and multiplying one answer of the solver, or the identity (PropFloatAxes.axes_kept, by induction over the calls). From that, forward error bounds for each entry: length and division (unit_entry), square root (value_is), a matrix product with a diagonal matrix, whose other terms are zeros and exact (dot_single, mmul_entry), the full product for the inverse square root (whitening_entry), and the sum, scaling and shift of a sampled point (coordinate). A finite result forces all the numbers on the way to be finite (fold_back, add_fin, mul_fin), so there is no hypothesis about overflow. |
| C88 | In a build with overflow checks next() panics at generation 2^30, and up to there it does what a release build does | A second model of next with the checks (Checked.v), which panics where a sum or product does not fit. Part (4): each counter is at most the number of evaluations (behind_kept, by induction over the calls), the interval between two decompositions and the window of the stagnation test are bounded through the lower bound of c1 in binary64 (c1_low, interval_bound, window_bound), so every check passes and the two models agree step by step (internal_checked_same). Part (1) by induction over checked sessions; (2) and (3) by computing the one sum that does not fit. |
| C89 | Points are drawn with a square root of the covariance matrix of the last refresh, up to rounding and the solver's accuracy | From the invariant of C87 (axes_kept), which also says at which point of the session the decomposition was made. The factor A has the entries u_ij sqrt(d_j) (PropFloatSample.factor); A A^T is then the matrix that the decomposition stands for (factor_product), and the bound of C87 is one in terms of A (tolerance_normal). That different points belong to different blocks is C04 carried along (points_blocks). |
| C90 | Far from overflow, the objective is only called with finite coordinates and the mean stays finite | Forward bounds instead of the backward ones of C87: sums and products of numbers of bounded magnitude are finite and bounded (moderate_sum, moderate_mul, moderate_dot). The eigenvalues are bounded by the trace (values_bounded), hence the entries of the transformation (transform_moderate) and the steps (step_moderate); that every step comes from numbers of the generator is an induction over the resampling loop (resample_from). For the mean the weights of C75 are used. |
| C91 | Far from overflow the covariance matrix stays finite, unless a point with a negative weight falls on the mean | The forward bounds of C90 for the steps, then through the update: a sum of k numbers of at most 2^e is at most k 2^e in every order, because k 2^e is representable (within_add, tree_within); the factor of the old matrix (factor_moderate) and the coefficient of the path (coefficient_moderate) are bounded with the rates of C75. For the second part an entry can only be finite if every weight of a step is (update_finite, from the sums of C82), and the weight of a zero step is not (unusable_weight). C91_centre_case is a session in which this happens at the first call. |
| C92 | The covariance matrix after a call follows from the random numbers drawn during it, up to rounding | Joins C82 and C89 over one list of ranked points: inds_drawn gives the block of random numbers behind every step of the ranked list, step_coordinate its rounding error against the factor of the last refresh (root_kept), and entries (C82) the update with the same steps. C92_case is the session of C89_case with the call after it. |
| C93 | The constructors of the restart strategies accept exactly the documented arguments, and the arguments govern every run | The validity test of the constructors is compared with the condition on the value of the number (step_size_valid). The runs follow from the invariants of C55, C56 and C57, with the fields of the strategy replaced by the arguments of the constructor; the default factors are given by their real values (lit_value). Added because an edit of the default factor of BIPOP left every theorem provable. |
| C94 | The budget of a restarted optimisation, and how BIPOP divides it | Induction on the prefix of the runs with the rule for the next kind of run (C55), the per-run limits (C56) and the bound of one run (C20). |
| C95 | Parallel evaluation does not change a restarted optimisation | One-way simulation: if the parallel call returns, the sequential one returns a related result; the step is C32 for one generation, carried through run, the three strategies and the restart loop; C95_complete is the simulation in the other direction, under schedules that evaluate each point once. |

## What is not modelled

* The bits produced by ChaCha12 and statrs' normal sampler (arbitrary generator instead).
* The algorithm of nalgebra's symmetric eigen solver and of the lapack variants (arbitrary function instead).
* Whether the eigen solver returns at all (the code calls it without an iteration limit), and whether the
  objective function and the constraints do: they are total functions in the model, so the theorems about
  `run` returning (C19 to C21) assume that they return.
* statrs' selection algorithm for the median: the median by sorting for lists without NaN, an oracle otherwise.
* Summation order inside nalgebra products and norms: left to right in the model; nalgebra's kernels may
  associate differently. No F64 theorem relies on the order; the bounds of C85, C87 and C89 are proved for the order of the
  model, and `F64Conj.any_sum_err` shows that the same bound holds for every other order.
* usize overflow of counters (unbounded `N`), except where the code adds to a user-supplied `usize`: the
  population multipliers of the restart strategies (64-bit wrap-around, with overflow checks as an explicit
  switch) and the plot and print intervals (wrap-around as in a release build), and the i32 exponent of the
  evolution path (wrap-around, C86). `Checked.v` is a second model of `next` for builds with overflow checks; C88
  compares the two. It leaves out the counter of resampling rounds and the additions at build time
  (options.rs line 152, termination.rs line 279), and index arithmetic inside the dependencies.
* Memory, allocation, the drawing library and the image files written, how standard output interleaves, the
  shortest decimal text of an f64 and the layout of a vector (`{}`, `{:e}`, arbitrary functions in Report), the examples and the test functions in /repo.

## Trusted base

* Coq 8.16.1's kernel (and `coqchk`).
* The correspondence of the model with the Rust text, checked by reading; every definition cites its lines.
* The axioms `Print Assumptions` lists, all from Coq's standard library. They come from the real
  numbers, used by Flocq's definition of binary64 operations and by the `xreal` instance. Per theorem:

* No axioms (closed under the global context): C03_fresh, C04_points, C04_count, C05_counters, C05_monotone, C06_exact, C06_without_nan, C07_constraints_hold, C08_limited_resampling, C08_zero_switches_off, C15_termination_data, C18_reasons, C19_exact, C19_bound, C20_exact, C20_bound, C21_exact, C21_bound, C29_run_is_iterated_next, C29_first, C31_ranking, C31_outcome, C32_next_parallel, C32_any_schedule, C32_sessions, C34_printing_and_plotting, C44_plot, C45_records_partial, C46_clear, C47_final_plotted, C48_output, C48_covers, C48_run, C49_value, C49_panics, C49_panics_first, C49_once, C49_nested, C52_totals, C52_calls, C52_counter, C53_invalid, C53_target, C53_runs, C53_limits, C53_no_run_after, C53_zero, C54_best_of_counted_runs, C54_best_of_all_runs, C54_best_evaluation, C55_local, C55_ipop, C55_bipop, C55_bipop_kind, C55_other_kinds, C55_bipop_local_runs, C55_loop_ends, C56_options, C56_mean, C56_draws, C57_limit, C58_factory, C58_reuse, C58_never_taken_twice, C63_sessions, C63_restarts, C65_options, C65_order, C65_order_sessions, C65_restart_options, C65_restart_order, C68_content, C71_settings, C71_seed, C88_limit, C88_overflow, C88_plot_gap, C94_run, C94_total, C94_balance, C95_restarts, C95_complete.
* `ClassicalDedekindReals.sig_forall_dec`, `ClassicalDedekindReals.sig_not_dec`, `FunctionalExtensionality.functional_extensionality_dep`: C33_reduction, C49_nested_exact.
* `ClassicalDedekindReals.sig_forall_dec`, `ClassicalDedekindReals.sig_not_dec`, `Classical_Prop.classic`, `FunctionalExtensionality.functional_extensionality_dep`: C01_build_valid, C01_build_error, C01_build_total, C02_default_builds, C02_setters_valid, C02_setters_error, C06_refuted, C08_finishes, C09_never_returns, C09_objective_not_called, C09_too_few, C09_enough, C10_bounds, C10_nan_rejected, C10_total, C10_panics, C11_ranked, C11_better, C12_nan, C13_current_best, C14_overall_best, C14_never_worse, C15_present, C16_histories, C17_medians, C17_median_halves_partial, C17_median_overflow_refuted, C18_exact, C18_none, C19_returns, C20_returns, C21_returns, C22_fun_target, C22_overall_best, C22_not_reported, C22_equal_not_reached, C23_value_tolerances, C23_same_infinity, C24_tol_x, C24_refuted_missed, C24_refuted_spurious, C25_no_effect_axis, C25_no_effect_coord, C26_condition_cov, C26_axis_ratio, C26_tol_x_up, C27_tol_stagnation, C27_disabled, C27_flat, C28_next_no_panic_partial, C28_use_no_panic_partial, C28_next_returns_partial, C28_bounds_partial, C28_nan_median_refuted, C29_returns, C30_maximize_partial, C30_path_partial, C33_rounding, C33_sessions, C35_weights, C36_rates, C37_mean, C37_convex, C37_bounds, C38_symmetric, C39_positive_definite, C39_population, C40_sigma, C41_cadence, C41_period, C42_matrix, C42_refreshed, C42_schedule, C43_translation, C45_refuted, C47_refuted, C48_refuted, C50_logged, C50_best, C50_panics_partial, C51_build, C51_flip, C54_refuted, C57_population, C57_step_size, C57_step_size_exact, C57_refuted, C59_no_panic_partial, C59_ordinary_partial, C59_refuted, C60_none, C60_none_iff, C60_difference, C60_refuted, C60_refuted_infinity, C61_defaults, C62_generation, C64_scaling, C66_saves, C67_axes_exact_partial, C67_mean_chart_partial, C67_refuted, C67_axes_world_partial, C67_axes_float_partial, C69_row, C70_aligned, C70_widths, C72_eigenvalues, C72_axis_ratio, C72_sigma, C73_generation, C73_total, C74_generation, C74_total, C74_all_weights, C75_weights, C75_rates, C76_final, C76_silent, C76_restart, C76_opening, C77_mean, C77_box, C77_tolerance_needed, C78_generation, C78_total, C78_positive, C79_opening, C80_published, C81_generation, C81_total, C81_positive, C82_update, C82_split, C83_path, C83_start, C84_step, C85_path, C85_length, C85_start, C86_rule, C86_wrapped, C87_axes, C88_no_overflow, C89_normal, C90_finite, C91_finite_matrix, C91_centre, C92_from_draws, C93_accepts, C93_local, C93_ipop, C93_bipop.
