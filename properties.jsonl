{"id": "C01", "title": "build accepts exactly the valid options", "statement": "CMAESOptions::build returns Ok exactly when the initial mean has at least one component, population_size >= 2, initial_step_size is a normal positive f64 and cm is a normal f64 in (0, 1]. Otherwise it returns the error of the first violated condition in the order Dimensions, PopulationSize, InitialStepSize, Cm. No other option can make it fail.", "quantifier": "every CMAESOptions value: every mean, every f64 step size and cm (NaN, infinities, subnormals, zeros included), every setting of the other options", "why_tests_cant": "The option space is infinite and the f64 corner cases (subnormal, NaN, -0) are only sampled by tests.", "anchors": ["src/lib.rs: CMAES::new", "src/options.rs: is_initial_step_size_valid, CMAESOptions::build"]}
{"id": "C02", "title": "default options always build", "statement": "CMAESOptions::new(mean, s).build(f) succeeds for every non-empty mean and every normal positive s, and its population size is at least 4. After any sequence of setter calls the outcome of build depends only on the last value given to each of initial_mean, initial_step_size, population_size and cm.", "quantifier": "every mean, step size and every finite sequence of setter calls", "why_tests_cant": "Setter sequences are unbounded.", "anchors": ["src/options.rs: CMAESOptions::new, setters"]}
{"id": "C03", "title": "a freshly built optimiser starts in the requested state", "statement": "Right after a successful build: generation() = 0, function_evals() = 0, mean() = initial mean, sigma() = initial step size, covariance_matrix() = identity, current and overall best are None, and the objective function has not been called.", "quantifier": "every valid CMAESOptions and objective function", "why_tests_cant": "Ranges over all option values and all stateful objective functions.", "anchors": ["src/lib.rs: CMAES::new", "src/state.rs: State::new", "src/matrix.rs: CovarianceMatrix::new"]}
{"id": "C04", "title": "each generation evaluates exactly population_size points of the current distribution", "statement": "A call of next() that is not cut short by a NaN calls the objective exactly population_size times. Each point passed is mean + sigma * (transform * z) for the mean, sigma and transform held before the call and a standard normal vector z drawn from the seeded generator. No point is evaluated twice.", "quantifier": "every reachable optimiser state, every stateful objective function, every random stream, every constraint", "why_tests_cant": "Depends on every state of an unbounded execution and on the random stream.", "anchors": ["src/sampling.rs: Sampler::sample_internal, Sampler::sample, EvaluatedPoint::new, to_point"]}
{"id": "C05", "title": "the evaluation counter advances by population_size", "statement": "Along any sequence of next() calls, function_evals() equals population_size times the number of calls that did not report InvalidFunctionValue, and generation() equals the number of calls that reported neither InvalidFunctionValue nor PosDefCov. Both counters never decrease.", "quantifier": "every finite sequence of next()/next_parallel() calls, including calls made after termination was reported", "why_tests_cant": "Histories are unbounded.", "anchors": ["src/sampling.rs: Sampler::sample_internal", "src/state.rs: State::update", "src/lib.rs: CMAES::next, next_internal"]}
{"id": "C06", "title": "function_evals is the number of objective calls", "statement": "function_evals() (documented as the number of times the objective function has been evaluated) equals the number of calls the objective received. (Holds for histories without NaN; fails for the generation in which a NaN appears, whose evaluations are never counted.)", "quantifier": "every objective function and every history of calls", "why_tests_cant": "A test would have to guess the NaN position; the property is over all histories.", "anchors": ["src/sampling.rs: Sampler::sample_internal lines 146-148", "src/lib.rs: CMAES::function_evals"]}
{"id": "C07", "title": "with unlimited resampling every evaluated point satisfies the constraints", "statement": "If constraints are set and max_resamples is None then every point passed to the objective function satisfies the constraints.", "quantifier": "every constraint predicate, state, random stream and history", "why_tests_cant": "Constraints and random streams are arbitrary.", "anchors": ["src/sampling.rs: Sampler::sample_internal"]}
{"id": "C08", "title": "limited resampling always finishes and keeps the valid points", "statement": "If max_resamples is Some(m), sampling a generation performs at most m + 1 rounds and so always finishes; every point accepted in the first m rounds satisfies the constraints and is kept, only the last round may contribute violating points; Some(0) switches constraints off. No point already accepted is dropped or resampled.", "quantifier": "every constraint predicate (also unsatisfiable ones), every m, every random stream", "why_tests_cant": "Termination for all predicates and streams is not testable.", "anchors": ["src/sampling.rs: Sampler::sample_internal lines 124-144"]}
{"id": "C09", "title": "unlimited resampling of unsatisfiable constraints never returns", "statement": "With max_resamples None and constraints that no sampled point satisfies, next() performs resampling rounds forever: no number of rounds suffices, and the objective is never called.", "quantifier": "every number of rounds", "why_tests_cant": "Non-termination cannot be observed by a test.", "anchors": ["src/sampling.rs: Sampler::sample_internal"]}
{"id": "C10", "title": "Bounds accepts exactly the box", "statement": "Bounds::meets_constraints(x) is true exactly when lower[i] <= x[i] <= upper[i] for every coordinate (so a NaN coordinate is rejected); it does not panic when both vectors have at least as many entries as x, and panics when a bound is missing for a coordinate it reaches.", "quantifier": "all f64 vectors and bounds of any lengths", "why_tests_cant": "All dimensions and f64 values including NaN and infinities.", "anchors": ["src/sampling.rs: Bounds::meets_constraints"]}
{"id": "C11", "title": "a generation is ranked best first", "statement": "The individuals of a generation are a permutation of the evaluated points, ordered best first for the chosen mode, and equal values keep their evaluation order.", "quantifier": "every population size and every multiset of non-NaN values, both modes", "why_tests_cant": "All lists of values; ties and infinities.", "anchors": ["src/sampling.rs: Sampler::sample_internal line 150", "src/mode.rs: Mode::sort_cmp", "src/utils.rs: partial_cmp"]}
{"id": "C12", "title": "a NaN objective value terminates with InvalidFunctionValue and leaves the optimiser state unchanged", "statement": "If some evaluation of a generation yields NaN then next() returns Some with exactly the reason InvalidFunctionValue, and generation, mean, sigma, covariance, both best individuals, the histories, plot and print state are unchanged; conversely the reason is returned only in that case. Sequential evaluation stops at the first NaN.", "quantifier": "every reachable state and objective function, every position of the NaN", "why_tests_cant": "All positions and histories.", "anchors": ["src/sampling.rs: EvaluatedPoint::new, Sampler::sample", "src/lib.rs: CMAES::next"]}
{"id": "C13", "title": "current_best_individual is the best of the latest generation", "statement": "After a generation without NaN, current_best_individual() is the first best evaluated point of that generation together with the value the objective returned for it.", "quantifier": "every reachable state, objective and random stream", "why_tests_cant": "All histories.", "anchors": ["src/history.rs: History::update, update_best_individuals"]}
{"id": "C14", "title": "overall_best_individual is the best point ever evaluated", "statement": "overall_best_individual() is a point evaluated in some generation without NaN with the value returned for it; no point of any such generation is strictly better, and among equally good points it is the earliest generation's. It never gets worse.", "quantifier": "every finite history of next() calls and every objective function", "why_tests_cant": "An invariant over unbounded histories.", "anchors": ["src/history.rs: History::update_best_individuals"]}
{"id": "C15", "title": "best individuals are present in termination data unless the first generation was invalid", "statement": "In returned TerminationData, current_best and overall_best are Some unless the very first generation hit NaN, agree with the accessors, and final_mean equals mean().", "quantifier": "every run of every optimiser", "why_tests_cant": "All executions.", "anchors": ["src/lib.rs: TerminationData, get_termination_data"]}
{"id": "C16", "title": "value histories hold the most recent MAX_HISTORY_LENGTH generations", "statement": "The recorded best and median value histories contain exactly the values of the last min(g, 20000) successful generations, most recent first; they never exceed 20000 entries.", "quantifier": "every number of generations", "why_tests_cant": "Unbounded histories; tests stop just above the limit.", "anchors": ["src/history.rs: History::update, MAX_HISTORY_LENGTH"]}
{"id": "C17", "title": "first and best median", "statement": "The first median is the median value of the first generation for ever; the best median is the best (by mode) of all generations' medians that are not NaN. The median of a sorted generation has at least half of the values on either side (and lies between the two middle values when that sum does not overflow).", "quantifier": "every history, every population size", "why_tests_cant": "Unbounded histories and sizes.", "anchors": ["src/history.rs: History::update, get_median_value"]}
{"id": "C18", "title": "termination data is non-empty, exclusive and duplicate free", "statement": "next() returns None or Some(data) with a non-empty, duplicate-free list of reasons; InvalidFunctionValue and PosDefCov only occur alone; all other reasons whose condition holds after the generation are all reported and no others.", "quantifier": "every reachable state", "why_tests_cant": "All states.", "anchors": ["src/lib.rs: next_internal", "src/termination.rs: check_termination_criteria"]}
{"id": "C19", "title": "max_generations bounds the run", "statement": "If max_generations = Some(m), run() performs at most max(m, 1) generations from a fresh optimiser and always returns (when sampling terminates), and MaxGenerations is reported exactly when generation() >= m.", "quantifier": "every m, objective and random stream", "why_tests_cant": "Termination proof over all objectives.", "anchors": ["src/termination.rs: lines 119-124", "src/lib.rs: CMAES::run"]}
{"id": "C20", "title": "max_function_evals bounds the run", "statement": "If max_function_evals = Some(m), a run from a fresh optimiser ends with function_evals() < max(m,1) + population_size, stops in the first generation that reaches m, and always returns.", "quantifier": "every m, population size, objective", "why_tests_cant": "All m and population sizes.", "anchors": ["src/termination.rs: lines 112-117"]}
{"id": "C21", "title": "max_time stops the run at the first generation that ends after the limit", "statement": "MaxTime is reported by next() exactly when the time elapsed since creation, read after the generation, is at least max_time; run() does not continue past the first such generation.", "quantifier": "every clock behaviour", "why_tests_cant": "All clock readings.", "anchors": ["src/termination.rs: lines 126-131"]}
{"id": "C22", "title": "fun_target", "statement": "FunTarget is reported exactly when some individual of the generation is strictly better than the target; then overall_best is strictly better than the target; a run that did not report it never evaluated (in its valid generations) a value strictly better than the target. A value exactly equal to the target is not 'reached'.", "quantifier": "every target (f64), objective, history, both modes", "why_tests_cant": "All values.", "anchors": ["src/termination.rs: lines 133-142"]}
{"id": "C23", "title": "value tolerance criteria", "statement": "TolFun, TolFunHist and TolFunRel are reported exactly when at least 10 + ceil(30 * dim / population_size) generations are recorded and the max-min range of that many latest best values (and, for TolFun and TolFunRel, of the current generation's values) is below the respective tolerance. The check never panics. A history whose values are all the same infinity has no finite range, and none of the three is then reported.", "quantifier": "every history and generation of non-NaN values", "why_tests_cant": "All histories; infinities.", "anchors": ["src/termination.rs: lines 144-178", "src/utils.rs: range"]}
{"id": "C24", "title": "TolX", "statement": "TolX is documented as: the standard deviation is smaller than tol_x in every coordinate and the mean has not moved much. (The code compares sigma * C[i,i] rather than sigma * sqrt(C[i,i]): the documented equivalence fails in both directions; the code's actual criterion is characterised exactly.)", "quantifier": "every state", "why_tests_cant": "All covariance matrices.", "anchors": ["src/termination.rs: lines 180-185"]}
{"id": "C25", "title": "NoEffectAxis and NoEffectCoord", "statement": "NoEffectAxis is reported exactly when adding 0.1 * sigma * sqrt(eigenvalue) * eigenvector of the axis generation mod dim leaves the mean unchanged in f64; NoEffectCoord exactly when adding 0.2 * sigma * C[i,i] leaves some coordinate unchanged (C[i,i] is the variance, the documentation says standard deviation). The axis index is always in range.", "quantifier": "every state", "why_tests_cant": "All states and f64 values.", "anchors": ["src/termination.rs: lines 194-210"]}
{"id": "C26", "title": "TolConditionCov and TolXUp", "statement": "TolConditionCov is reported exactly when the square of the axis ratio is not a normal f64 or exceeds the tolerance; TolXUp exactly when sigma * (largest sqrt eigenvalue) / initial sigma exceeds tol_x_up. The axis ratio is never below 1 for positive eigenvalues.", "quantifier": "every state", "why_tests_cant": "All states.", "anchors": ["src/termination.rs: lines 187-192, 260-270", "src/state.rs: axis_ratio"]}
{"id": "C27", "title": "TolStagnation", "statement": "TolStagnation is reported exactly when the window w = min(generation/5, 20000) is at least tol_stagnation and, for both the best and the median histories, the median of the oldest 30% of the window is strictly better than the median of the newest 30%. Setting tol_stagnation above MAX_HISTORY_LENGTH, or a window below 4, disables it. (Documentation: 'have not improved'; a perfectly flat history is not reported.)", "quantifier": "every history", "why_tests_cant": "Unbounded histories.", "anchors": ["src/termination.rs: lines 212-258, 278-300"]}
{"id": "C28", "title": "the optimiser never panics", "statement": "next() on a built optimiser never panics: no index out of bounds, no failed unwrap, no underflow, no empty sum, no dimension mismatch, provided the objective and constraints do not panic.", "quantifier": "every valid options value, objective, random stream, eigen solver result of the right shape, and history", "why_tests_cant": "Absence of panics over all executions.", "anchors": ["src/lib.rs", "src/state.rs", "src/termination.rs", "src/sampling.rs", "src/history.rs"]}
{"id": "C29", "title": "run is iterated next", "statement": "run() returns exactly the first Some produced by iterating next(), leaves the optimiser in the state after that call (up to the final plot point and output), and returns if and only if some iterate is Some.", "quantifier": "every optimiser state", "why_tests_cant": "Unbounded iteration.", "anchors": ["src/lib.rs: CMAES::run, run_internal"]}
{"id": "C30", "title": "maximising f is minimising -f", "statement": "Running with Mode::Maximize on f and with Mode::Minimize on -f from the same options otherwise (fun_target negated) gives the same points, means, step sizes, covariance matrices, counters and termination reasons at every step, and negated best values.", "quantifier": "every objective, options, random stream and number of steps", "why_tests_cant": "A bisimulation over unbounded executions.", "anchors": ["src/mode.rs", "src/termination.rs", "src/history.rs"]}
{"id": "C31", "title": "the search depends only on the ranking of values", "statement": "Replacing f by g(f) with g strictly increasing on the values and NaN-preserving leaves sampled points, mean, sigma and covariance of every generation unchanged.", "quantifier": "every strictly increasing g, every objective, history", "why_tests_cant": "All monotone transformations.", "anchors": ["src/sampling.rs: sample_internal", "src/state.rs: State::update"]}
{"id": "C32", "title": "parallel evaluation gives the same results", "statement": "For an objective without observable state, next_parallel() gives the same optimiser state and result as next(), whatever order (schedule) the threads evaluate the points in.", "quantifier": "every schedule, objective and state", "why_tests_cant": "All thread schedules.", "anchors": ["src/sampling.rs: sample_parallel", "src/lib.rs: next_parallel, run_parallel"]}
{"id": "C33", "title": "parallel_update computes the same update up to rounding", "statement": "In exact arithmetic the threaded rank-mu update equals the sequential one for every reduction tree and every number of inserted identities; in f64 it may differ in the last bits (documented).", "quantifier": "every reduction tree, weights and matrices", "why_tests_cant": "All reduction trees.", "anchors": ["src/state.rs: rank_mu_update, rank_mu_update_parallel"]}
{"id": "C34", "title": "printing and plotting do not influence the optimisation", "statement": "Two optimisers that differ only in print_gap_evals, plot_options, or manual calls of add_plot_point/print_info/clear go through the same states and return the same data.", "quantifier": "every history of calls", "why_tests_cant": "Non-interference over all executions.", "anchors": ["src/lib.rs: next_internal, run_internal"]}
{"id": "C35", "title": "recombination weights", "statement": "In exact arithmetic: there are mu = population_size/2 positive weights, they are non-increasing and sum to 1; with Weights::Negative all population_size weights exist and the rest are <= 0 and sum to -min(1 + c1/cmu, 1 + 2 mu_eff^-/(mu_eff + 2), (1 - c1 - cmu)/(n cmu)); with Positive/Uniform there are exactly mu weights; mu_eff lies in [1, mu].", "quantifier": "every population size >= 2, dimension >= 1 and weights setting", "why_tests_cant": "All population sizes and dimensions.", "anchors": ["src/parameters/weights.rs: InitialWeights"]}
{"id": "C36", "title": "learning rates are in range", "statement": "In exact arithmetic 0 < cc <= 1, 0 < cs < 1, 0 < c1 < 1, 0 <= cmu <= 1 - c1, damp_s > 1, and cmu < 1 - c1 whenever mu_eff is not huge compared to the dimension.", "quantifier": "every population size >= 2, dimension >= 1 and weights setting", "why_tests_cant": "All sizes and dimensions.", "anchors": ["src/parameters/mod.rs: Parameters::new"]}
{"id": "C37", "title": "the mean moves to the weighted average of the selected points", "statement": "In exact arithmetic the new mean is (1 - cm) * old mean + cm * (weighted average of the mu best points); hence it stays in every box (convex set) that contains the old mean and the evaluated points, in particular in the Bounds when resampling is unlimited.", "quantifier": "every state, generation and cm in (0,1]", "why_tests_cant": "All samples and dimensions.", "anchors": ["src/state.rs: lines 66-74"]}
{"id": "C38", "title": "covariance_matrix is always symmetric", "statement": "covariance_matrix() is a dim x dim matrix equal to its transpose, bit for bit, after any history.", "quantifier": "every history, with f64 rounding", "why_tests_cant": "All executions.", "anchors": ["src/matrix.rs: CovarianceMatrix::set_cov"]}
{"id": "C39", "title": "the covariance update preserves positive definiteness", "statement": "In exact arithmetic, with an exact eigen solver and non-degenerate samples, covariance_matrix() stays positive definite for every weights setting, also while the eigendecomposition is out of date, and PosDefCov is never reported, whenever c1 + cmu < 1 (true for population sizes up to 2(n+2)^2 - 4). For Positive/Uniform weights this needs no assumption on the samples.", "quantifier": "every dimension, population size in the stated range, weights setting, objective, random stream and number of generations", "why_tests_cant": "An invariant of an unbounded process over real matrices.", "anchors": ["src/state.rs: lines 100-135", "src/parameters/weights.rs: finalize", "src/matrix.rs", "src/termination.rs: PosDefCov documentation"]}
{"id": "C40", "title": "sigma stays positive", "statement": "In exact arithmetic sigma() is positive and finite after any history.", "quantifier": "every history", "why_tests_cant": "All executions.", "anchors": ["src/state.rs: line 98"]}
{"id": "C41", "title": "eigendecomposition cadence", "statement": "The eigendecomposition is refreshed exactly in the generations where at least evals_per_eigen_update evaluations passed since the last refresh; between refreshes sampling uses the old transform; generations_per_eigen_update() next calls pass between refreshes.", "quantifier": "every history", "why_tests_cant": "All executions.", "anchors": ["src/state.rs: lines 129-139, evals_per_eigen_update", "src/lib.rs: generations_per_eigen_update"]}
{"id": "C42", "title": "a refreshed decomposition represents the covariance matrix", "statement": "In exact arithmetic with an exact eigen solver, right after a refresh transform * transform^T equals covariance_matrix(), the inverse square root applied twice to it gives the identity, eigenvalues() are the eigenvalues, all positive.", "quantifier": "every positive definite matrix of any dimension", "why_tests_cant": "All matrices.", "anchors": ["src/matrix.rs: update_eigendecomposition", "src/lib.rs: eigenvalues"]}
{"id": "C43", "title": "translation invariance", "statement": "In exact arithmetic, optimising f(x - t) from mean m + t visits exactly the translated points of optimising f from m, with the same sigma, covariance and values.", "quantifier": "every t, f, history", "why_tests_cant": "All executions.", "anchors": ["src/state.rs", "src/sampling.rs"]}
{"id": "C44", "title": "plot data is consistent", "statement": "All series of the plot always have the same length, evaluation counts in it never decrease, no generation is recorded twice in a row, and a plot enabled through the options is never empty.", "quantifier": "every history of next/run/add_plot_point/clear calls", "why_tests_cant": "All call sequences.", "anchors": ["src/plotting/data.rs", "src/plotting/mod.rs: Plot::add_data_point", "src/lib.rs: add_plot_point"]}
{"id": "C45", "title": "plot points respect min_gap_evals", "statement": "next() records a point exactly when the generation is the first or at least min_gap_evals evaluations passed since the last recorded point (and the generation is not already recorded).", "quantifier": "every history and gap", "why_tests_cant": "All histories.", "anchors": ["src/plotting/mod.rs: get_next_data_point_evals", "src/lib.rs: lines 329-338"]}
{"id": "C46", "title": "Plot::clear keeps exactly the latest point and never panics", "statement": "After clear() every series holds exactly its most recent entry; clear() never panics on a plot obtained from an optimiser.", "quantifier": "every reachable plot", "why_tests_cant": "All histories.", "anchors": ["src/plotting/data.rs: PlotData::clear"]}
{"id": "C47", "title": "run plots the final state", "statement": "After run() the last plot point describes the final state. (Fails when the run ends with PosDefCov: the mean and sigma were already updated but the generation was not, so the point is skipped.)", "quantifier": "every run", "why_tests_cant": "Needs a specific failure history.", "anchors": ["src/lib.rs: run_internal, next_internal", "src/plotting/mod.rs: add_data_point"]}
{"id": "C48", "title": "automatic printing", "statement": "With printing enabled, the first three generations are always printed, afterwards a line is printed exactly when at least the gap of evaluations passed since the last gap-aligned line; print_final_info is documented to print the state only if not already printed this generation. (Fails in the first three generations: the line is printed twice.)", "quantifier": "every history and gap", "why_tests_cant": "All histories.", "anchors": ["src/lib.rs: lines 340-351, 564-585"]}
{"id": "C49", "title": "Scale", "statement": "Scale::new(f, s) evaluates f at the componentwise product of the argument and s, exactly once per evaluation; nesting multiplies; it panics exactly when the lengths differ.", "quantifier": "every objective, scale vector and argument", "why_tests_cant": "All vectors.", "anchors": ["src/objective_function.rs: Scale"]}
{"id": "C50", "title": "fmin and fmax", "statement": "fmin/fmax return the overall best individual of a default run in the corresponding mode: a point actually evaluated, with its value, and no point evaluated in a valid generation is strictly better; they panic exactly when the options are invalid or the first generation contains NaN.", "quantifier": "every objective, initial mean and step size", "why_tests_cant": "All objectives.", "anchors": ["src/functions.rs: fmin, fmax, fmin_parallel, fmax_parallel"]}
{"id": "C51", "title": "RestartOptions::build validation", "statement": "build returns Err(Dimensions) exactly when dimensions = 0, Err(SearchRange) exactly when the range size is zero, otherwise Ok; ranges given in reverse order are flipped so that start <= end (for non-NaN ends).", "quantifier": "every f64 range, dimension and options", "why_tests_cant": "f64 corner cases.", "anchors": ["src/restart/mod.rs: Restarter::new", "src/restart/options.rs: RestartOptions::new"]}
{"id": "C52", "title": "restart totals", "statement": "RestartResults.runs is the number of optimiser runs performed and function_evals is the sum over the runs of their function_evals().", "quantifier": "every strategy, objective, options, clock", "why_tests_cant": "Unbounded restarts.", "anchors": ["src/restart/mod.rs: run_internal"]}
{"id": "C53", "title": "restart termination reasons", "statement": "The reason is InvalidFunctionValue iff the last run reported it, else FunTarget iff the last run reported it, else MaxRuns iff the strategy stopped, else MaxFunctionEvals or MaxTime found before a new run; zero limits give zero runs. No run is started once the total evaluations reached max_function_evals or the time limit passed.", "quantifier": "every execution", "why_tests_cant": "All executions.", "anchors": ["src/restart/mod.rs: lines 290-408"]}
{"id": "C54", "title": "restart result is the best over all runs", "statement": "RestartResults.best is the best of the runs' overall best individuals. (Fails to include the final run when it ends with InvalidFunctionValue: a better point found by that run before the NaN is lost.)", "quantifier": "every execution", "why_tests_cant": "All executions.", "anchors": ["src/restart/mod.rs: lines 376-387, update_best_individual"]}
{"id": "C55", "title": "run limits of the strategies", "statement": "Local performs at most max_runs runs, IPOP at most 10, BIPOP at most 10 IPOP runs; in BIPOP the first run is IPOP, an LR run happens only while LR has used fewer evaluations than IPOP, so the restart loop always terminates if every run does.", "quantifier": "every execution, every objective", "why_tests_cant": "Termination measure over all executions.", "anchors": ["src/restart/local.rs", "src/restart/ipop.rs", "src/restart/bipop.rs: next_run"]}
{"id": "C56", "title": "per-run configuration of restarts", "statement": "Every run is built with the restarter's mode, parallel_update, fun_target and per-run limits (overriding default_options), a fresh seed, an initial mean inside the search range; all other default_options fields are unchanged except those the strategy sets; Local keeps the population size, the k-th IPOP run multiplies it by factor^k.", "quantifier": "every execution", "why_tests_cant": "All executions.", "anchors": ["src/restart/mod.rs: lines 315-329, generate_initial_mean", "src/restart/ipop.rs: next_run"]}
{"id": "C57", "title": "BIPOP local runs", "statement": "An LR run has a population size between the default and max(default, default * last IPOP multiplier / 2) and a step size in (range*factor/100, range*factor]; its evaluations are limited to half of the last IPOP run's. (The limit is not applied when max_function_evals_per_run is None.)", "quantifier": "every random stream and state", "why_tests_cant": "All states and streams.", "anchors": ["src/restart/bipop.rs: get_population_size_lr, get_initial_step_size_lr, next_run_lr"]}
{"id": "C58", "title": "objective reuse across restarts", "statement": "run_with_reuse uses one objective instance for all runs in order and never panics on the stored function; run calls the factory exactly once per run.", "quantifier": "every execution", "why_tests_cant": "All executions.", "anchors": ["src/restart/mod.rs: run_with_reuse, run_internal"]}
{"id": "C59", "title": "a restarter that was built does not panic", "statement": "If RestartOptions::build and the strategy constructor succeed then running it does not panic because of invalid per-run options. (Fails: invalid default_options, NaN or infinite or tiny search ranges, tiny step factors, overflowing population multipliers. A sufficient condition is proved.)", "quantifier": "every accepted configuration", "why_tests_cant": "f64 and usize corner cases.", "anchors": ["src/restart/ipop.rs", "src/restart/local.rs", "src/restart/bipop.rs: FIXME line 59", "src/restart/mod.rs: generate_initial_mean"]}
{"id": "C60", "title": "range helper", "statement": "range returns None exactly when the iterator is empty or contains a NaN, and otherwise the non-negative difference of the largest and smallest element. (Fails when only the first element is NaN and when the extremes are the same infinity.)", "quantifier": "every list of f64", "why_tests_cant": "All lists.", "anchors": ["src/utils.rs: range"]}
{"id": "C61", "title": "strategy parameters are the published defaults", "statement": "In exact arithmetic the values shown by parameters() are those of table 1 of Hansen's tutorial: cs = (mu_eff+2)/(n+mu_eff+5), damp_s = 1 + 2 max(0, sqrt((mu_eff-1)/(n+1)) - 1) + cs, cc = (4+mu_eff/n)/(n+4+2 mu_eff/n), c1 = 2/((n+1.3)^2+mu_eff), cmu = min(1-c1, 2 (mu_eff-2+1/mu_eff)/((n+2)^2+2 mu_eff/2)), cm as given; they never change during a run.", "quantifier": "every accepted configuration and history", "why_tests_cant": "All sizes, dimensions, settings and executions.", "anchors": ["src/parameters/mod.rs: lines 107-155"]}
{"id": "C62", "title": "a generation performs the published CMA-ES update", "statement": "In exact arithmetic with an exact eigen solver, every call of next() that evaluates all its points changes mean, step size, evolution paths and covariance matrix exactly as the published CMA-ES equations (Hansen's tutorial, equations 41-47, with c_sigma/d_sigma step-size control, the h_sigma stall test and the active covariance update with rescaled negative weights) prescribe for the ranked points of that generation, using the decomposition of the last refresh.", "quantifier": "every accepted configuration, objective, random stream and history", "why_tests_cant": "The equations must hold for all states and samples; a test checks one trajectory against recorded numbers.", "anchors": ["src/state.rs: lines 50-150", "README.md: CMA-ES implementation", "src/parameters/mod.rs:119"]}
{"id": "C63", "title": "seeded runs are reproducible", "statement": "Two optimisers built from the same CMAESOptions with a seed set, from the same objective, and used with the same sequence of calls give the same results, the same output and the same plot data, and the objective is called in the same way, whatever the clock shows, whenever they are created and whatever entropy the system provides. If max_time is set this holds as long as the limit has passed at the same calls. If parallel_update is off, the number of threads and the way the work is split do not matter. The same holds for a Restarter whose RestartOptions has a seed: the same results and the same runs.", "quantifier": "all options, objectives (with state), sequences of calls, clock readings, creation times and entropy; all restart strategies", "why_tests_cant": "tests compare two runs on one machine a moment apart; dependence on time, entropy or scheduling shows up only elsewhere", "anchors": ["src/lib.rs:229-299", "src/lib.rs:319-369", "src/sampling.rs:81-152", "src/restart/mod.rs:164-190", "src/restart/mod.rs:267-423"]}
{"id": "C64", "title": "scale invariance", "statement": "Multiplying the whole search space by a positive factor (and moving it by an offset) changes nothing but the scale: if a second optimiser minimises f((x - t)/a), starts at the mean a*m + t with initial step size a*s, has its constraints transformed in the same way and, if tol_x was set, tol_x multiplied by a, then every evaluated point, mean and best individual is a*x + t, the step size is multiplied by a, and the objective values, covariance matrix, generation and evaluation counters and the termination reasons of every call are the same. In particular the default tol_x and the TolXUp, NoEffectAxis and NoEffectCoord criteria are relative to the scale of the problem.", "quantifier": "for all objectives (stateful and panicking ones included), constraints, options, factors a > 0, offsets t, seeds, numbers of calls, schedules and eigen solvers, in exact arithmetic", "why_tests_cant": "a test compares finitely many runs of one scale, and rounding hides small deviations; the claim is about every scale and every later generation", "anchors": ["src/options.rs:1-336", "src/parameters/mod.rs:44-64", "src/state.rs:50-144", "src/sampling.rs:81-247", "src/termination.rs:90-273"]}
{"id": "C65", "title": "builder methods", "statement": "For every sequence of calls of the builder methods of CMAESOptions, each option has the value given in the last call that sets it (bounds and constraints set the same option), and otherwise its documented default; a call changes no other option. Calls that set different options may be made in any order: the optimiser built behaves the same. The same holds for RestartOptions, whose search range is put in order when it is created.", "quantifier": "all sequences of builder calls, all values", "why_tests_cant": "the number of sequences of calls is unbounded; tests set a few options", "anchors": ["src/options.rs:145-341", "src/restart/options.rs:87-177"]}
{"id": "C66", "title": "saving a plot never panics", "statement": "Whenever an optimiser has a plot, preparing its image in save_to_file (selecting the points, choosing the axes) never panics: not before the first generation, when there is no best value yet, not when the recorded numbers include NaN or infinite values, and not after clear_plot.", "quantifier": "all optimisers that can be obtained through the API with plotting enabled, all objectives and options, at any time; failures of the file system and of the drawing library excluded", "why_tests_cant": "tests save the plot of a few well-behaved runs; the unwraps on minima and maxima of the filtered data depend on the whole history of recorded values", "anchors": ["src/plotting/draw.rs:61-475", "src/plotting/mod.rs:125-164"]}
{"id": "C67", "title": "the axes of a saved plot contain its data", "statement": "In every chart of a saved plot the value axis runs upwards, and every plotted point and marker lies inside both the evaluation range and the value range of its chart.", "quantifier": "all optimisers that can be obtained through the API with plotting enabled, all objectives and options, at any time", "why_tests_cant": "the ranges are computed from the recorded data; a test sees the image of one run, if it looks at the image at all", "anchors": ["src/plotting/draw.rs:61-475", "src/plotting/mod.rs:125-164"]}
{"id": "C68", "title": "what a saved plot shows", "statement": "The image saved for a plot shows exactly the recorded moments: the first chart has one line each for the best value, the median value (both as absolute values), the step size and the axis ratio, the distance of each best value to the best of all recorded best values, interrupted at the first moment that has this overall best value (unless the value occurs again later), and a marker at that moment, with the mode of the optimiser deciding what is best; the other charts have one line per dimension for the mean, the square roots of the eigenvalues and the standard deviations. Every line has, in order, a point (function evaluations, value) for each recorded moment at which the value is a number, and no other points. The mean chart has a linear axis with the notation chosen in PlotOptions, the others are logarithmic, and the legend of the mean and standard deviation charts is shown for up to 18 dimensions.", "quantifier": "all optimisers that can be obtained through the API with plotting enabled, all objectives and options, at any time", "why_tests_cant": "tests do not look at the contents of the image; which point is marked and where the distance line is interrupted depends on the whole history", "anchors": ["src/plotting/draw.rs:61-475", "src/plotting/mod.rs:125-164"]}
{"id": "C69", "title": "a progress line says what the accessors say", "statement": "The line print_info() prints has seven cells separated by bars: the generation and the number of function evaluations exactly; the best function value of the last generation rounded to 13 significant digits (blank before the first generation); and, rounded to 5 significant digits, axis_ratio(), sigma() and sigma() times the square roots of the smallest and the largest diagonal entry of covariance_matrix(). Infinities and NaN are named as such. Printing it never panics.", "quantifier": "every optimiser that can be obtained through the API at any time, every finite, infinite or NaN value in any column", "why_tests_cant": "Rounding to decimal has to be right for all 2^64 values of each column, including carries into the next power of ten, subnormal numbers and three-digit exponents; tests check a handful of literals.", "anchors": ["src/utils.rs:10-25", "src/lib.rs:532-551"]}
{"id": "C70", "title": "the progress table lines up", "statement": "While the counters have at most seven digits and every number shown is zero, not finite, or of a magnitude from 1e-99 up to 9.999e99, the separators of each printed line are exactly below those of the title line and both lines have the same length. In every case a line is at least as long as the title, and each number is at most one character wider than its column.", "quantifier": "every state of the optimiser", "why_tests_cant": "The width of a formatted number depends on its value; tests check a few values.", "anchors": ["src/utils.rs:10-25", "src/lib.rs:513-516", "src/lib.rs:532-551"]}
{"id": "C71", "title": "parameters() shows the settings in use, and the seed it shows reproduces the session", "statement": "At every point of a session, parameters() reports exactly what the options asked for: mode, dimension, population size, half of it as mu, initial step size, weights setting, cm, every termination limit and tolerance (with the documented defaults for tol_x and tol_stagnation), the parallel_update flag and the seed if one was given. No call changes them. If no seed was given, building again with the reported seed set explicitly, at the same time and with the same calls, gives the same results and the same optimiser.", "quantifier": "every set of options, objective function and sequence of calls", "why_tests_cant": "A dropped or swapped setting shows only for the option concerned, and reproduction must hold for every session.", "anchors": ["src/parameters/mod.rs:103-155", "src/parameters/mod.rs:157-307", "src/lib.rs:248-262", "src/lib.rs:378-380", "src/options.rs:317-320"]}
{"id": "C72", "title": "the reported shape of the distribution makes sense in floating point", "statement": "At every point of every session, whatever the objective function returns and whatever the eigenvalue solver delivers, no entry of eigenvalues() is zero or negative and axis_ratio() is not below 1; a value may be NaN after overflow. If the exponential function is never negative, sigma() is never negative.", "quantifier": "every session in binary64 arithmetic, every eigenvalue solver, every libm", "why_tests_cant": "Rounding, underflow, infinities and NaNs in the decomposition depend on the whole history of the search.", "anchors": ["src/matrix.rs:63-100", "src/state.rs:98", "src/state.rs:160-175", "src/lib.rs:402-418"]}
{"id": "C73", "title": "the step size cannot collapse", "statement": "In exact arithmetic one generation multiplies sigma() by at least exp(-cs/damp_s), where cs and damp_s are the values parameters() reports; after k generations sigma() is at least the initial step size times exp(-k cs/damp_s), whatever the objective function.", "quantifier": "every session in exact arithmetic with a correct eigenvalue solver", "why_tests_cant": "The bound is over all objective functions and any number of generations.", "anchors": ["src/state.rs:79-98", "src/parameters/mod.rs:129-130"]}
{"id": "C74", "title": "the sampling distribution cannot become degenerate in a bounded number of generations", "statement": "In exact arithmetic, with weights that are not negative, one generation multiplies the variance in any direction by at least 1 - c1 - cmu, so after k generations it is at least (1 - c1 - cmu)^k of that of the initial distribution. With negative weights too, when c1 plus cmu is below one, there is a factor between 0 and 1, determined by the options alone, such that after k generations the variance in every direction is at least the k-th power of this factor.", "quantifier": "every session in exact arithmetic with a correct eigenvalue solver; every direction", "why_tests_cant": "The bound is over all objective functions, all directions and any number of generations.", "anchors": ["src/state.rs:100-140", "src/parameters/mod.rs:120-128", "src/matrix.rs:44-58"]}
{"id": "C75", "title": "weights and learning rates are sound as computed", "statement": "In binary64, on any platform whose natural logarithm of a number from 1 to 2^40 has a relative error of at most 2^-50: every recombination weight shown by parameters() is finite; there are population_size/2 positive ones, followed (with Weights::Negative only) by non-positive ones up to population_size in all; they never increase; the positive ones sum to 1 within (population_size/2 + 1) * 2^-52. mu_eff is finite and between 0.999 and 1.001 * population_size/2; 0 < c1 <= 1/2, 0 <= cmu <= 1, 0 < cc <= 1, 0 < cs < 1, damp_s >= 1, all finite; and 1 - c1 - cmu, computed in binary64, is never negative. No rounding, overflow or division by zero (cmu is 0 when mu_eff is 1) makes any of these a NaN.", "quantifier": "every accepted configuration with a population below 2^40 and a dimension of at most 2^53, every weights setting, and every state reached", "why_tests_cant": "The formulas divide by quantities that can vanish and are evaluated with rounding; tests see a few sizes, the ranges must hold for all of them.", "anchors": ["src/parameters/weights.rs: InitialWeights::new, mu_eff, mu_eff_minus, finalize", "src/parameters/mod.rs: Parameters::new"]}
{"id": "C76", "title": "The printed reports are complete and accurate", "statement": "The final report of an optimiser (CMAES::print_final_info) never panics and names exactly the termination reasons it is given, in order; it is preceded by the progress row if that was not printed at this number of evaluations, and followed by the current and overall best value when there are any and by the mean. A Restarter prints nothing unless printing is enabled. With printing enabled it prints an opening line with the algorithm, dimension, search range, settings of the strategy and seed, then for every run, in order and numbered from 1, one line with the population size, initial step size and seed the run was built with and one line with the best value it found (or None), exactly the reasons it returned and its number of function evaluations, and last a line with the number of function evaluations of all runs and the reason of RestartResults, followed by the best value and point if there is one. A reader that splits the lines at their separators recovers the whole numbers and reasons exactly, the step size to 6 and the best value to 13 significant digits.", "quantifier": "all optimiser states and lists of reasons; all restart strategies, options, objective functions, random streams, clock readings and numbers of runs; all binary64 values including NaN and infinities", "why_tests_cant": "Tests look at one printed line by eye; a wrong run number, a dropped or duplicated reason, a total that misses a run or a separator inside a value shows up only for particular histories and values.", "anchors": ["src/lib.rs:553-586", "src/restart/mod.rs:82-93", "src/restart/mod.rs:437-498", "src/restart/mod.rs:267-423", "src/termination.rs:69-73"]}
{"id": "C77", "title": "the computed mean follows the best points up to rounding", "statement": "In binary64, on any platform whose natural logarithm of a number from 1 to 2^40 has a relative error of at most 2^-50: after a generation without invalid values, every finite coordinate of the new mean differs from m + cm * sum over the mu = population_size/2 best points of weight * (coordinate of the point - m), computed without rounding from the old mean m, the weights shown by parameters() and the points as they were passed to the objective function, by at most (5 mu + 12) * 2^-53 * X + (5 mu sigma + 12) * 2^-1074, where X bounds the absolute values of the old coordinate and of those coordinates of the mu best points. Hence a coordinate of the mean leaves an interval that contains its old value and the values at all points of the generation (such as the bounds) by at most that and 4 (mu + 1) * 2^-53 * X. It can leave it: there is a search with bounds and unlimited resampling whose mean ends up outside the bounds although every point evaluated is inside.", "quantifier": "every accepted configuration with a population below 2^40 and a dimension of at most 2^53, every objective function, every reachable state with cm * sigma >= 2^-1000, every generation (sequential or parallel), every coordinate", "why_tests_cant": "The points and the mean are rounded separately, through different operations; only a rounding analysis bounds the difference for all inputs.", "anchors": ["src/state.rs: State::update (mean)", "src/sampling.rs: to_point", "src/parameters/weights.rs"]}
{"id": "C78", "title": "the step size as computed cannot collapse", "statement": "In binary64, with every rounding of the code, one generation multiplies sigma() by no less than exp(-cs/damps) * (1 - 2^-49), up to one unit of the smallest spacing of binary64 (2^-1074) when the result underflows; the only other outcomes are an infinite or NaN step size after an overflow. After k evaluated generations sigma() is therefore at least initial_step_size * (exp(-cs/damps) * (1 - 2^-49))^k - k * 2^-1074, and it is not zero or negative as long as initial_step_size > k * 4^k * 2^-1074. This holds for all sequences of calls, including generations that end with an invalid function value or a covariance matrix that is not positive definite. Assumed of the platform: ln has a relative error of at most 2^-50 on [1, 2^40]; exp of NaN is NaN, and from -1 upwards exp is infinite or not below the true value by more than a relative 2^-50. Populations are below 2^40 and dimensions at most 2^53.", "quantifier": "all options that build, all objective functions, random streams, eigen solvers, schedules and sequences of calls", "why_tests_cant": "A step size that falls to zero depends on the lengths of the evolution paths of long runs and on rounding at the bottom of the range of binary64; tests run a few short searches.", "anchors": ["src/state.rs:79-98", "src/parameters/mod.rs:129-130"]}
{"id": "C79", "title": "the lines printed first describe the optimiser", "statement": "CMAES::print_initial_info prints three lines. The first names the variant (aCMA-ES with negative weights, CMA-ES otherwise) and gives the dimension, the population size and the seed; a reader that splits it at the equals signs recovers the three numbers exactly, and the seed is the one set in the options if one was set, and the one of parameters() in any case. The second has the titles of the seven columns of the progress lines in the order of the cells of print_info. The third is a rule of dashes of the same length.", "quantifier": "all options that build and all optimisers that can be obtained through the API at any time", "why_tests_cant": "Tests look at one printed table by eye; a swapped number or title would show only for some options.", "anchors": ["src/lib.rs:499-520"]}
{"id": "C80", "title": "The parameters in use are the published ones to within a small relative error, as computed in binary64", "statement": "When the platform's logarithm is accurate to a few units in the last place, the effective number of parents, the positive recombination weights, c1, cc and cs that an optimiser reports through its parameters differ from the published formulas (evaluated exactly on the population size, the dimension and the weights setting) by a relative error of at most (lambda + 1) / 2^38, and cmu and the damping of the step size by at most 128 times that; cm is the configured value unchanged. When there is a single parent, cmu is exactly zero as published.", "quantifier": "for every objective function, source of randomness and eigendecomposition, every build and every history of calls, every weights setting, every population size up to 2^26, every dimension up to 2^53, and every logarithm accurate to 8 units in the last place", "why_tests_cant": "Rounding errors depend on the population size and the dimension; a test compares a few configurations with literals computed by the same formula.", "anchors": ["src/parameters/mod.rs:107-155", "src/parameters/weights.rs:37-134"]}
{"id": "C81", "title": "The variance along a coordinate cannot collapse, as computed", "statement": "Without negative weights, no diagonal entry of covariance_matrix() can collapse faster than the learning rates allow, as computed in binary64 with all rounding errors and for every way of splitting the parallel update. If an entry is at least v >= 0 before a call of next, it is at least v * q - 2^-1074 after it, where q = 1 - c1 - cmu - (2 lambda + 8)/2^52 with the c1 and cmu that parameters() shows, whenever q is positive. After k evaluated generations every diagonal entry is at least q^k - k * 2^-1074; so it is not zero or negative as long as k * 2^-1074 < q^k. The only alternatives are NaN and positive infinity, which an overflow can cause.", "quantifier": "for every objective function, random stream, option set without negative weights with a population below 2^40 and a dimension up to 2^53, every history of calls, every index of a coordinate, every decomposition the eigenvalue routine returns, and every platform whose logarithm is accurate to 2^-50 relative", "why_tests_cant": "Rounding errors accumulate over generations and depend on the sampled steps; a collapse to zero or to a negative variance by cancellation would need a rare history to show, and tests see only a few histories", "anchors": ["src/state.rs:100-136", "src/matrix.rs:44-58", "src/parameters/mod.rs:107-151"]}
{"id": "C82", "title": "The covariance matrix follows the published update up to rounding, however the work is split", "statement": "After a call of next() that evaluates all its points, every finite entry (i, j) of covariance_matrix() equals the published value (1 + c1 (1-h) cc (2-cc) - c1 - cmu * sum of the weights) * C_ij + c1 * p_i * p_j + cmu * sum over k of b_k y_ki y_kj, up to (m + 8) * 2^-52 times the sum of the sizes of these summands plus (2m + 5)(1 + Y) * 2^-1074 for underflow. Here m is the number of weights, C the matrix before the call, p the evolution path after it, h is 0 or 1 (the same for all entries), y_k the step leading to the point of rank k, b_k the k-th weight (rescaled by n over the squared length of the whitened step if negative) and Y bounds the components of p and of the steps. This holds for the sequential update and for every way of splitting the parallel update; so two calls from the same state that differ only in the split call the objective function at the same points, give the same mean, step size and path, and matrices whose entries differ by at most twice that tolerance.", "quantifier": "for every objective function, random stream, option set with a population below 2^40 and a dimension up to 2^53, every history of calls, every schedule and split, every pair of indices, and every platform whose logarithm is accurate to 2^-50 relative", "why_tests_cant": "The order of the additions depends on the thread scheduler; rounding errors and cancellation depend on the sampled steps; tests see a few schedules and compare with an arbitrary tolerance", "anchors": ["src/state.rs:100-136", "src/state.rs:215-234", "src/matrix.rs:44-58"]}
{"id": "C83", "title": "The direction that enters the covariance matrix is the published evolution path, up to rounding", "statement": "The vector p of C82 obeys the published recursion: after a call of next() that evaluates all its points, every finite component p_i equals (1 - cc) * q_i + h * sqrt(cc (2 - cc) mu_eff) * sum over the best half of the points of w_k y_ki, where q is the vector before the call (zero at the start), h is 0 or 1, and y_k is the step leading to the point of rank k, up to (3 mu + 8) * 2^-53 times the sum of the sizes of these summands plus (5 mu sqrt(cc (2 - cc) mu_eff) + 3) * 2^-1074 for underflow. The same h, the same steps and the same p give the entries of covariance_matrix() as in C82. A finite component was finite before the call, and so were the components of the steps.", "quantifier": "for every objective function, random stream, option set with a population below 2^40 and a dimension up to 2^53, every history of calls, every schedule and split, every component, and every platform whose logarithm is accurate to 2^-50 relative", "why_tests_cant": "The path accumulates over the whole history and is only visible through the covariance matrix; a wrong factor, a wrong number of steps or a stale path gives runs that still converge on test functions", "anchors": ["src/state.rs:66-73", "src/state.rs:86-95", "src/parameters/mod.rs:119"]}
{"id": "C84", "title": "The step size follows the published rule, up to rounding", "statement": "After a call of next() that evaluates all its points, if sigma() is finite and above 2^-1000, it is the sigma() before the call times exp((cs / d) * (l / X - 1)), up to a factor between exp(-t) and exp(t) with t = (22 (cs / d) (l / X + 1) + 9) * 2^-52. Here cs and d are the parameters cs and damp_s, l is the length of the conjugate evolution path as the code computes it, n is the dimension, and X = sqrt(n) (1 - 1/(4n) + 1/(21 n^2)) is the expected length of a standard normal vector in the published algorithm. The sigma() before the call was then a positive finite number.", "quantifier": "for every objective function, random stream, option set with a population below 2^40 and a dimension up to 2^53, every history of calls, every schedule and split, and every platform whose logarithm and exponential function are accurate to 2^-50 relative (the exponential function may overflow)", "why_tests_cant": "The rule divides by an expected length and exponentiates a difference, so errors could be amplified; tests compare a few updates with loose tolerances, and a wrong damping or expected length still converges on test functions", "anchors": ["src/state.rs:83-85", "src/state.rs:97-98", "src/parameters/mod.rs"]}
{"id": "C85", "title": "The path behind the step size, and its length, follow the published rule, up to rounding", "statement": "After a call of next() that evaluates all its points, every component i of the conjugate evolution path that is a finite number is within (3 mu + 2 n + 9) * 2^-53 * ((1 - cs) |p| + g sum_j |B_ij| S_j) + (5 mu g sum_j |B_ij| + 2 sum_j (1 + S_j) + 2) * 2^-1074 of (1 - cs) p + g sum_j B_ij sum_k w_k y_kj. Here p is the component before the call, mu is half the population, n the dimension, g = sqrt(cs (2 - cs) mu_eff), B the inverse square root matrix in use, w_k the weights, y_k the steps that lead to the points of rank k, and S_j = sum_k w_k |y_kj|; all of these numbers were then finite. If the length that goes into the step size is finite, its distance from the Euclidean length of the path is at most (2 n + 3) * 2^-53 times that Euclidean length plus 2^-515. The path starts at zero.", "quantifier": "for every objective function, random stream, option set with a population below 2^40 and a dimension up to 2^40, every history of calls, every schedule and split, and every platform whose logarithm is accurate to 2^-50 relative", "why_tests_cant": "The path accumulates over all generations and is multiplied by a matrix whose entries can be large, so a wrong factor, a wrong matrix or lost digits show up only after many generations and only as slower adaptation of the step size", "anchors": ["src/state.rs:66-80", "src/state.rs:97-98"]}
{"id": "C86", "title": "When the evolution path of the covariance matrix is stopped", "statement": "A call of next() that evaluates all its points updates the evolution path and the matrix by the rules of C83 with h = 1 or h = 0. Let n be the dimension, cs the rate of the conjugate path, l its length after the call, and g the number of completed generations before the call. The limit is sqrt(1 - (1 - cs)^(2 (g + 1))) * (1.4 + 2 / (n + 1)) * E, with E the approximation of the expected length of a normal vector that the crate documents. While g modulo 2^31 is below 2^30 - 1, with g replaced by g modulo 2^31 in the limit: h = 1 if l times exp((4 / cs + 30) * 2^-53) is below the limit, h = 0 if l is above the limit times that factor, and h = 0 if the length is infinite or NaN. For the other values of g the 32-bit exponent has wrapped around and h = 0 whatever the length (in a build without overflow checks).", "quantifier": "for every objective function, random stream, option set with a population below 2^40 and a dimension up to 2^40, every history of calls of any length, every schedule and split, and every platform whose logarithm is accurate to 2^-50 relative", "why_tests_cant": "The decision is a comparison of a power with an exponent that grows with the generation; a test sees a few generations, while the bound must hold for exponents up to 2^31 and for rates down to 10^-12, and the wrapping only shows after 10^9 generations", "anchors": ["src/state.rs:82-95"]}
{"id": "C87", "title": "Points are drawn along the axes the eigenvalue solver returned, with its variances, up to rounding", "statement": "At every point of every session there is one pair (v, d), where d are eigenvalues and the columns of v are eigenvectors that the eigenvalue solver returned for the covariance matrix at the last refresh, whose time is the one that C41 gives for the history of calls (the unit vectors and ones before the first refresh), such that the following holds. Write u_j for column j of v divided by its Euclidean length, and n for the dimension. (1) Every entry of eigenvalues() that is a finite number differs from d_j by at most 4 * 2^-53 * d_j + 2^-1074, and d_j is positive. Now let the columns of v be finite with lengths between 1/2 and 2. (2) Every point x evaluated by the next call of next() has a block z of the seeded normal numbers such that each finite coordinate x_i is within (3 n + 9) * 2^-53 * (|m_i| + |s| sum_j |u_ij| sqrt(d_j) |z_j|) + (2 |s| sum_j ((sqrt(d_j) + 1) |z_j| + 1) + 2) * 2^-1074 of m_i + s sum_j u_ij sqrt(d_j) z_j, with m = mean() and s = sigma() before the call; all these numbers are finite and all d_j positive. (3) If all d_j are finite, every finite entry of the inverse square root matrix used by C85 is within (4 n + 12) * 2^-53 * sum_k |u_ik u_jk| / sqrt(d_k) + 3 sum_k (1 / sqrt(d_k) + 1) * 2^-1074 of sum_k u_ik u_jk / sqrt(d_k), and all d_k are positive.", "quantifier": "for every objective function, constraint, random stream, eigenvalue solver that returns arrays of the right shape, option set with a dimension up to 2^40, every history of calls, every schedule and split", "why_tests_cant": "The rounding errors of a normalisation, a square root, two matrix products and the scaling accumulate with the dimension and depend on the scales of eigenvalues, mean and step size; transposed axes, a missing square root or exchanged eigenvalues change a run only statistically, and with the axis-parallel matrices of small tests not at all", "anchors": ["src/matrix.rs:63-100", "src/sampling.rs:96-125", "src/lib.rs:403-408"]}
{"id": "C88", "title": "In a build with overflow checks next() panics at generation 2^30, and up to there it does what a release build does", "statement": "Compare a build of the library with integer overflow checks (the default of debug builds) with one without, on a 64-bit target. (1) No session of the checked build gets past generation() = 2^30 - 1. (2) With generation() = 2^30 - 1, a call of next() that completes in the unchecked build, other than one that reports an invalid function value, panics in the checked build with an overflow. (3) The same holds, from the second generation on, for a call that does not report PosDefCov when plotting is enabled and the number of evaluations at the last recorded generation plus the minimum gap of the plot is above 2^64 - 1; so a gap of 2^64 - 1 makes the second call panic. (4) With a population up to 2^32, a dimension up to 2^26 and print and plot gaps up to 2^63, a call of next() made with generation() < 2^30 - 1 and function_evals() <= 2^62 does exactly the same in both builds: same result, same state, same output and same calls of the objective function.", "quantifier": "for every objective function, constraint, random stream, eigenvalue solver, option set (in (4) within the stated sizes, with a natural logarithm accurate to 2^-50), every history of calls, every schedule and split", "why_tests_cant": "Reaching 2^30 generations takes days, so no test meets the panic of (1) and (2); that no counter, interval or window overflows before is a statement about all option values and all sums kept by a session", "anchors": ["src/state.rs:82-95", "src/state.rs:129-141", "src/state.rs:183-195", "src/sampling.rs:148", "src/lib.rs:328-350", "src/plotting/mod.rs:99-104", "src/termination.rs:145"]}
{"id": "C89", "title": "Points are drawn with a square root of the covariance matrix of the last refresh, up to rounding and the solver's accuracy", "statement": "Let the eigenvalue solver be accurate to eps: for a finite symmetric matrix M, when it returns a decomposition, the numbers are finite, the columns have lengths between 1/2 and 2, and with the columns scaled to unit length u_k and the values d_k every entry of M is within eps times the largest absolute entry of M of sum_k d_k u_ik u_jk. Let C be the covariance_matrix() that the session had at its last refresh (right after it was built, if there was none), at the number of evaluations that the refresh rule of C41 gives for the history of calls. If C is finite, there is a matrix A such that every entry of A A^T is within eps times the largest absolute entry of C of that of C, and such that the next call of next() evaluates points x that belong to different blocks z of the seeded normal numbers, with each finite coordinate x_i within (3 n + 9) * 2^-53 * (|m_i| + |s| sum_j |A_ij z_j|) + (2 |s| sum_j ((a_j + 1) |z_j| + 1) + 2) * 2^-1074 of m_i + s sum_j A_ij z_j. Here n is the dimension, m = mean() and s = sigma() before the call, and a_j the length of column j of A.", "quantifier": "for every objective function, constraint, random stream, option set with a dimension up to 2^40, every history of calls, every schedule and split, every eps and every eigenvalue solver accurate to eps that returns arrays of the right shape", "why_tests_cant": "A test can compare empirical covariances only statistically and for a few matrices; a point drawn with a stale or transposed factor, or two points drawn from one block of random numbers, look random too", "anchors": ["src/matrix.rs:38-100", "src/sampling.rs:96-125", "src/state.rs:125-144"]}
{"id": "C90", "title": "Far from overflow, the objective is only called with finite coordinates and the mean stays finite", "statement": "Let the normal numbers of the seeded generator be finite and at most 2^100 in magnitude, and let the eigenvalue solver be accurate to some eps of at most 1 in the sense of C89. Let C be the covariance_matrix() that the session had at its last refresh, as in C89. If the entries of C are finite and at most 2^400 in magnitude, mean() is finite with coordinates up to 2^900 and sigma() is finite and at most 2^400 in magnitude, then the next call of next() evaluates the objective only at points of the right length all of whose coordinates are finite numbers. If moreover the logarithm is accurate as in C75, mean() is finite after the call, too.", "quantifier": "for every objective function, constraint, random stream within the bound, option set with a dimension up to 2^40 (and, for the mean, a population below 2^40), every history of calls, every schedule and split, every eps and every eigenvalue solver accurate to eps that returns arrays of the right shape", "why_tests_cant": "A test sees finite points for the few distributions it tries; that no intermediate sum, product, normalisation or division on the way to a point overflows or becomes NaN has to hold for every matrix, every step size and every dimension", "anchors": ["src/matrix.rs:38-100", "src/sampling.rs:96-147", "src/sampling.rs:228-247", "src/state.rs:58-76"]}
{"id": "C91", "title": "Far from overflow the covariance matrix stays finite, unless a point with a negative weight falls on the mean", "statement": "Let the generator, the eigenvalue solver and ln be as in C90, and let C be the covariance_matrix() that the session had at its last refresh, as in C89. With Weights::Positive or Weights::Uniform: if the entries of C are finite and at most 2^200 in magnitude, those of the present covariance_matrix() finite and at most 2^900, and the coordinates of the evolution path of the matrix finite and at most 2^400, then after the next call of next() every entry of covariance_matrix() and every coordinate of the evolution path is a finite number, however the update was split among threads. With Weights::Negative this can fail: on any platform, if a call evaluates all its points and one of them has a negative weight at its rank and was drawn with a step of exactly zero, then no entry of covariance_matrix() is a finite number after the call, whatever the other points are.", "quantifier": "for every objective function, constraint, random stream within the bound, option set with a dimension up to 2^40 and a population below 2^40, every history of calls, every schedule and every split of the update, every eps and every eigenvalue solver accurate to eps that returns arrays of the right shape; the second part for every generator, solver, ln and population", "why_tests_cant": "The intermediate sums can be formed in any order and over any number of points, and a division by the squared length of a step is harmless in every test whose random stream never gives a zero vector", "anchors": ["src/state.rs:78-144", "src/state.rs:146-183", "src/matrix.rs:38-100"]}
{"id": "C92", "title": "The covariance matrix after a call follows from the random numbers drawn during it, up to rounding", "statement": "Let the eigenvalue solver be accurate to eps and C the covariance_matrix() of the last refresh, both as in C89, with C finite. Then there is one matrix A, with every entry of A A^T within eps times the largest absolute entry of C of that of C, such that for every next call of next() that evaluates all its points the following holds with one list of steps y_1, y_2, ... Ranked from best to worst, the evaluated points are m + s y_k, computed in binary64 with m = mean() and s = sigma() before the call. Every finite coordinate i of y_k is within (3 n + 9) * 2^-53 * sum_j |A_ij z_j| + (2 sum_j ((a_j + 1) |z_j| + 1) + 2) * 2^-1074 of sum_j A_ij z_j, where z is a block of the seeded normal numbers that no earlier point and no other point of the call has used, and a_j is the length of column j of A. And every finite entry of covariance_matrix() after the call satisfies the bound of C82 with these same steps, where every step that enters the entry has finite coordinates there.", "quantifier": "for every objective function, constraint, random stream, option set with a dimension up to 2^40 and a population below 2^40, every history of calls, every schedule and split, every eps, every eigenvalue solver accurate to eps that returns arrays of the right shape, and every platform whose logarithm is accurate to 2^-50 relative", "why_tests_cant": "Drawing and updating are far apart in the code and linked only by the steps stored with the points; a test that checks each half separately cannot see a step that no longer belongs to its point after the ranking, and a test of both can only compare one run with recorded numbers", "anchors": ["src/sampling.rs:96-125", "src/sampling.rs:150-230", "src/state.rs:78-144", "src/matrix.rs:38-100"]}
{"id": "C93", "title": "The constructors of the restart strategies accept exactly the documented arguments, and the arguments govern every run", "statement": "Local::new(m, f) and BIPOP::new(f, k) return the error InitialStepSize exactly when a factor f is given that is not a finite number of at least 2^-1022 (zero, negative, subnormal, infinite and NaN factors), BIPOP::new(f, k) returns PopulationSize exactly when f is acceptable and k is Some(0), and IPOP::new(k) returns PopulationSize exactly when k is 0; IPOP::default() and BIPOP::default() do not panic and equal IPOP::new(2) and BIPOP::new(None, Some(2)). In every completed restart with Local::new(m, f) there are at most m runs, each with the default population size and an initial step size of size * f * 0.01, where size is the size of the search range, f is 0.5 if not given, and every product is rounded to binary64. With IPOP::new(k) there are at most 10 runs, and run number j, counted from 0, has the population size default * k^j, which in a build with overflow checks never exceeds usize, and the step size size / 2. With BIPOP::new(f, k) the same holds for the IPOP runs, with k = 2 if not given, j the number of earlier IPOP runs, and step size size / 5; the LR runs have the step size size * f * 10^(-2u) with f = 0.2 (rounded) if not given and u a drawn number, and a population between the default and the larger of the default and half of that of the last IPOP run.", "quantifier": "for every argument of the constructors, every search range, objective, random stream, history of runs and termination of the loop; the upper bound on the population of LR runs for populations up to 2^53 and a powf that does not exceed the larger of its base and 1 for exponents between 0 and 1", "why_tests_cant": "The arguments have to reach every run of every execution; tests try a few factors, and a wrong default value only shows in runs that no test compares with a formula", "anchors": ["src/restart/local.rs:35-56", "src/restart/ipop.rs:37-59", "src/restart/bipop.rs:54-104", "src/restart/bipop.rs:167-171"]}
{"id": "C94", "title": "The budget of a restarted optimisation, and how BIPOP divides it", "statement": "With max_function_evals_per_run = Some(p), every run of a restarted optimisation uses fewer than max(p, 1) + (its population size) evaluations, and an LR run of BIPOP fewer than max(min(p, h / 2), 1) + (its population size), where h is the number of evaluations of the latest IPOP run. With max_function_evals = Some(m), RestartResults.function_evals is 0 or less than m plus the evaluations of the last run, so with both limits less than m + max(p, 1) + (the population size of the last run). With BIPOP, whatever the limits, at every point between two runs the LR runs so far have used fewer evaluations than the IPOP runs so far plus the latest LR run, and whenever a further IPOP run starts the LR runs have used at least as many evaluations as the IPOP runs.", "quantifier": "for every strategy and option set, objective function, random stream and schedule, every sequence of runs, every point of the sequence, and builds with and without overflow checks", "why_tests_cant": "How many runs of which kind happen, and how long each is, depends on the objective and the random numbers; a bound on the total has to hold for all sequences", "anchors": ["src/restart/mod.rs:290-408", "src/restart/bipop.rs:107-193"]}
{"id": "C95", "title": "Parallel evaluation does not change a restarted optimisation", "statement": "With an objective function whose value depends only on the point, whenever Restarter::run_parallel or run_parallel_with_reuse returns, whatever the order in which the threads evaluated the points of each generation, Restarter::run or run_with_reuse with the same seed and the same clock readings returns too, with equal RestartResults, and with the same runs in between: the same number, kind and options of runs, the same termination data of each, and the same final state of each apart from the state of the objective function. Conversely, whenever run or run_with_reuse returns, so does the parallel call in which every generation evaluates each of its points exactly once, in any order, with equal results.", "quantifier": "for every strategy and option set, stateless objective function, objective factory, random stream and evaluation order of every generation, every number of runs and generations, and builds with and without overflow checks", "why_tests_cant": "The order of evaluation is chosen by the thread scheduler, anew in each generation of each run, and a difference in one run would move the random numbers, sizes and budgets of all the later ones; tests see a few orders on one machine", "anchors": ["src/restart/mod.rs:201-408", "src/restart/local.rs:64-89", "src/restart/ipop.rs:66-93", "src/restart/bipop.rs:107-193", "src/sampling.rs:81-211"]}
