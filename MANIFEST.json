{"claims": [
{"property": "C01", "status": "proved", "theorems": ["C01_build_valid", "C01_build_error", "C01_build_total"], "note": "At binary64 for every implementation of ln/exp/powf and every environment."},
{"property": "C02", "status": "proved", "theorems": ["C02_default_builds", "C02_setters_valid", "C02_setters_error"], "note": "At binary64, for every ln (the population size floor of the default is from the saturating cast)."},
{"property": "C03", "status": "proved", "theorems": ["C03_fresh"], "note": "In any arithmetic."},
{"property": "C04", "status": "proved", "theorems": ["C04_points", "C04_count"], "note": ""},
{"property": "C05", "status": "proved", "theorems": ["C05_counters", "C05_monotone"], "note": ""},
{"property": "C06", "status": "proved", "theorems": ["C06_exact", "C06_without_nan", "C06_refuted"], "note": "The literal claim is refuted for generations in which a NaN appears (C06_refuted); C06_exact states what the counter does count, C06_without_nan that it is the number of calls when no NaN was returned."},
{"property": "C07", "status": "proved", "theorems": ["C07_constraints_hold"], "note": ""},
{"property": "C08", "status": "proved", "theorems": ["C08_limited_resampling", "C08_finishes", "C08_zero_switches_off"], "note": "C08_finishes: m + 1 rounds always suffice; the call as a whole returns under medians_known (see C28)."},
{"property": "C09", "status": "proved", "theorems": ["C09_never_returns", "C09_objective_not_called", "C09_too_few", "C09_enough"], "note": "C09_too_few is the general form: it is enough that fewer than population_size of all the points to come satisfy the constraints, which covers constraints that no sampled point satisfies; C09_enough is its converse: once population_size of the next m points satisfy them, m rounds suffice. The theorems hold for every objective, also one that panics when called."},
{"property": "C10", "status": "proved", "theorems": ["C10_bounds", "C10_nan_rejected", "C10_total", "C10_panics"], "note": ""},
{"property": "C11", "status": "proved", "theorems": ["C11_ranked", "C11_better"], "note": ""},
{"property": "C12", "status": "proved", "theorems": ["C12_nan"], "note": ""},
{"property": "C13", "status": "proved", "theorems": ["C13_current_best"], "note": ""},
{"property": "C14", "status": "proved", "theorems": ["C14_overall_best", "C14_never_worse"], "note": ""},
{"property": "C15", "status": "proved", "theorems": ["C15_termination_data", "C15_present"], "note": ""},
{"property": "C16", "status": "proved", "theorems": ["C16_histories"], "note": ""},
{"property": "C17", "status": "partial", "theorems": ["C17_medians", "C17_median_halves_partial", "C17_median_overflow_refuted"], "note": "Everything is proved but one case: that half of the values lie on either side of the median holds for every odd number of values, and for an even number when the sum of the two middle values does not overflow; with overflow it is false (C17_median_overflow_refuted)."},
{"property": "C18", "status": "proved", "theorems": ["C18_reasons", "C18_exact", "C18_none"], "note": ""},
{"property": "C19", "status": "proved", "theorems": ["C19_exact", "C19_bound", "C19_returns"], "note": ""},
{"property": "C20", "status": "proved", "theorems": ["C20_exact", "C20_bound", "C20_returns"], "note": ""},
{"property": "C21", "status": "proved", "theorems": ["C21_exact", "C21_bound", "C21_returns"], "note": ""},
{"property": "C22", "status": "proved", "theorems": ["C22_fun_target", "C22_overall_best", "C22_not_reported", "C22_equal_not_reached"], "note": "Exact condition proved; a generation that ends with PosDefCov does not look at the target, so the converse is stated for the other generations. A value equal to the target is proved not to be reported."},
{"property": "C23", "status": "proved", "theorems": ["C23_value_tolerances", "C23_same_infinity"], "note": ""},
{"property": "C24", "status": "proved", "theorems": ["C24_tol_x", "C24_refuted_missed", "C24_refuted_spurious"], "note": "The documented equivalence (standard deviation) is refuted in both directions; the condition of the code (variance) is proved exactly."},
{"property": "C25", "status": "proved", "theorems": ["C25_no_effect_axis", "C25_no_effect_coord"], "note": ""},
{"property": "C26", "status": "proved", "theorems": ["C26_condition_cov", "C26_axis_ratio", "C26_tol_x_up"], "note": ""},
{"property": "C27", "status": "proved", "theorems": ["C27_tol_stagnation", "C27_disabled", "C27_flat"], "note": "Exact condition proved; the documented reading (not improved) is refuted by flat histories, proved never to be reported."},
{"property": "C28", "status": "partial", "theorems": ["C28_next_no_panic_partial", "C28_use_no_panic_partial", "C28_next_returns_partial", "C28_bounds_partial", "C28_nan_median_refuted"], "note": "Full statement kept as written. Proved for every reachable state, objective, options value and eigensolver result of the right shape, under medians_known: the library's median of values that include NaN returns, or the population is odd, or the objective never returns one of the two infinities. Missing: an even population with an objective that returns both infinities, whose generation medians can be NaN and are later passed to the statistics library (statrs), whose source is not in the repository; C28_nan_median_refuted shows that next panics if that function panics on NaN."},
{"property": "C29", "status": "proved", "theorems": ["C29_run_is_iterated_next", "C29_first", "C29_returns"], "note": ""},
{"property": "C30", "status": "partial", "theorems": ["C30_maximize_partial", "C30_path_partial"], "note": "Full statement kept as written; not proved for every objective. C30_maximize_partial: all points, means, step sizes, covariances, counters, reasons, data and runs, for odd populations, for objectives that never return one of the two infinities, and for every objective and population when the library's median of a list with NaN values returns and changes sign with the values. C30_path_partial: every objective and population, sequences of next calls, the same path and every reason except TolStagnation. Missing: TolStagnation (and therefore where run stops) for even populations when the objective returns both infinities, whose average is a NaN median, if the library's median does not treat NaN lists symmetrically."},
{"property": "C31", "status": "proved", "theorems": ["C31_ranking", "C31_outcome"], "note": "g strictly increasing and NaN-preserving on the values the objective returns; sessions made of next calls, since where run stops depends on the values themselves. C31_ranking holds whenever both sessions return; C31_outcome adds that one returns if and only if the other does, unless the library's median of NaN values panics (see C28)."},
{"property": "C32", "status": "proved", "theorems": ["C32_next_parallel", "C32_any_schedule", "C32_sessions"], "note": ""},
{"property": "C33", "status": "proved", "theorems": ["C33_reduction", "C33_rounding", "C33_sessions"], "note": "Exact arithmetic: any reduction tree gives the sequential sum, and whole sessions with and without parallel_update agree. C33_rounding is the binary64 witness that the results may differ."},
{"property": "C34", "status": "proved", "theorems": ["C34_printing_and_plotting"], "note": ""},
{"property": "C35", "status": "proved", "theorems": ["C35_weights"], "note": "For every reachable optimiser over the reals; mu_eff also equals the selection mass of the positive weights, and weights are proportional to the log preferences within each group. When cmu = 0 (population 2 or 3) the two terms with cmu in the denominator are infinite and drop out of the minimum."},
{"property": "C36", "status": "proved", "theorems": ["C36_rates"], "note": "For every reachable optimiser over the reals; 'not huge' is mu_eff <= (n+2)^2 - 2, in particular population_size <= 2(n+2)^2 - 4."},
{"property": "C37", "status": "proved", "theorems": ["C37_mean", "C37_convex", "C37_bounds"], "note": "Exact arithmetic (the model run over the reals with infinities and NaN). C37_mean gives the formula for the ranked points of the generation, C37_convex its consequence for any convex set, C37_bounds the box with unlimited resampling for every reachable state (under world: options accepted, finite initial mean and draws, exact solver, draws not the zero vector for Negative)."},
{"property": "C38", "status": "proved", "theorems": ["C38_symmetric"], "note": ""},
{"property": "C39", "status": "proved", "theorems": ["C39_positive_definite", "C39_population"], "note": "Under world (accepted options, finite initial mean, exact eigen solver, finite draws; draws not the zero vector only when the weights are Negative). C39_population gives the population bound."},
{"property": "C40", "status": "proved", "theorems": ["C40_sigma"], "note": "Under world (see C39): exact arithmetic includes an exact eigen solver."},
{"property": "C41", "status": "proved", "theorems": ["C41_cadence", "C41_period"], "note": ""},
{"property": "C42", "status": "proved", "theorems": ["C42_matrix", "C42_refreshed", "C42_schedule"], "note": "C42_matrix is about one refresh of any symmetric matrix of any dimension, C42_refreshed about the accessors of any reachable optimiser right after a refresh, C42_schedule about when refreshes happen."},
{"property": "C43", "status": "proved", "theorems": ["C43_translation"], "note": "Exact arithmetic (extended reals), finite translations, constraints moved along; whole sessions."},
{"property": "C44", "status": "proved", "theorems": ["C44_plot"], "note": ""},
{"property": "C45", "status": "partial", "theorems": ["C45_records_partial", "C45_refuted"], "note": "Proved for every gap with last recorded count + min_gap_evals < 2^64; for larger gaps the release build's usize addition wraps and the claim is false (C45_refuted); a build with overflow checks panics there."},
{"property": "C46", "status": "proved", "theorems": ["C46_clear"], "note": "Case: C44_case."},
{"property": "C47", "status": "proved", "theorems": ["C47_final_plotted", "C47_refuted"], "note": "Holds unless a call reported PosDefCov (C47_final_plotted); C47_refuted is the run ending with PosDefCov named in the statement."},
{"property": "C48", "status": "proved", "theorems": ["C48_output", "C48_covers", "C48_run", "C48_refuted"], "note": "C48_output gives the complete output for every history (usize gap, fewer than 2^63 evaluations); C48_covers: every history is covered; C48_refuted is the duplicate line named in the statement."},
{"property": "C49", "status": "proved", "theorems": ["C49_value", "C49_panics", "C49_panics_first", "C49_once", "C49_nested", "C49_nested_exact"], "note": "Any number type, any inner objective. C49_value: the value is the inner value at the scaled point; C49_panics/_first: panics exactly on a length mismatch or an inner panic; nesting composes (exactly in real arithmetic)."},
{"property": "C50", "status": "partial", "theorems": ["C50_logged", "C50_best", "C50_panics_partial"], "note": "fmin/fmax are one default run of an optimiser; the result is one of the logged evaluations and none is better; the panic conditions are characterised exactly, under medians_known (see C28). Missing: objectives returning both infinities with an even population."},
{"property": "C51", "status": "proved", "theorems": ["C51_build", "C51_flip"], "note": "Full statement, for every pair of f64 ends (a range has size zero iff both ends are finite and equal)."},
{"property": "C52", "status": "proved", "theorems": ["C52_totals", "C52_calls", "C52_counter"], "note": ""},
{"property": "C53", "status": "proved", "theorems": ["C53_invalid", "C53_target", "C53_runs", "C53_limits", "C53_no_run_after", "C53_zero"], "note": ""},
{"property": "C54", "status": "proved", "theorems": ["C54_best_of_counted_runs", "C54_best_of_all_runs", "C54_best_evaluation", "C54_refuted"], "note": "The claim as documented (best over all runs) fails when the last run ends with InvalidFunctionValue: C54_refuted. Proved: best of all runs that were counted, and of all runs when the last one is not invalid."},
{"property": "C55", "status": "proved", "theorems": ["C55_local", "C55_ipop", "C55_bipop", "C55_bipop_kind", "C55_other_kinds", "C55_bipop_local_runs", "C55_loop_ends"], "note": "Run limits, the kind of each BIPOP run and termination of the restart loop (if every run returns) are proved for every execution."},
{"property": "C56", "status": "proved", "theorems": ["C56_options", "C56_mean", "C56_draws"], "note": "Full statement. C56_mean assumes the documented contract of gen_range (result inside the range); population sizes are modulo 2^64 in builds without overflow checks, exact with them."},
{"property": "C57", "status": "proved", "theorems": ["C57_limit", "C57_population", "C57_step_size", "C57_step_size_exact", "C57_refuted"], "note": "C57_limit: per-run limit given. C57_refuted: without it the half limit is not applied. C57_population: default population size at most 2^53 (exact in f64); the upper bound assumes powf x y <= max x 1 for exponents in [0,1] and draws in [0,1). C57_step_size: f64, both ends included, assumes 1/100 <= 10^y <= 1 for y in [-2,0]; C57_step_size_exact: exact arithmetic, lower end excluded, no assumption on powf."},
{"property": "C58", "status": "proved", "theorems": ["C58_factory", "C58_reuse", "C58_never_taken_twice"], "note": ""},
{"property": "C59", "status": "partial", "theorems": ["C59_no_panic_partial", "C59_ordinary_partial", "C59_refuted"], "note": "The full statement fails: C59_refuted runs accepted configurations that panic (population of one, overflowing multiplier, reversed, NaN, too wide or too narrow range, tiny factor). C59_no_panic_partial gives a sufficient condition in terms of the options each run will get; C59_ordinary_partial gives one in terms of the numbers a user chooses. Both assume that the eigensolver returns matrices of the right size and that the library's median of NaN values returns or the objective never returns one of the infinities; for BIPOP that the generator draws from [0,1) and that powf(10,y) is within [0.01,1] for y in [-2,0]."},
{"property": "C60", "status": "proved", "theorems": ["C60_none", "C60_none_iff", "C60_difference", "C60_refuted", "C60_refuted_infinity"], "note": "None exactly when no non-NaN element; otherwise the difference of the largest and smallest elements. C60_refuted and C60_refuted_infinity witness the exceptions named in the property."},
{"property": "C61", "status": "proved", "theorems": ["C61_defaults"], "note": "Formulas written out with real arithmetic, for every reachable optimiser."},
{"property": "C62", "status": "proved", "theorems": ["C62_generation"], "note": "Under world (see C39). The published equations are the record published in PropExact.v."},
{"property": "C63", "status": "proved", "theorems": ["C63_sessions", "C63_restarts"], "note": "Full statement. The environment's other behaviour (random generator as a function of its seed, eigen solver, library median) is a function of its inputs. C63_sessions: optimiser; C63_restarts: restarter, all strategies."},
{"property": "C64", "status": "proved", "theorems": ["C64_scaling"], "note": "Exact arithmetic (reals with the IEEE special values): two whole sessions of calls, of which printing and plotting calls may differ, are compared call by call; f may be stateful and may panic. Scaling by a > 0 and moving by t at once; C43 is the special case a = 1 except that it needs no tol_x adjustment."},
{"property": "C65", "status": "proved", "theorems": ["C65_options", "C65_order", "C65_order_sessions", "C65_restart_options", "C65_restart_order"], "note": "Full statement. Model of the restart builder in RestartSetters.v."},
{"property": "C66", "status": "proved", "theorems": ["C66_saves"], "note": "C66_saves: binary64, any math library. build_plot models everything done before the drawing library takes over; errors of the file system and of the drawing library are not modelled."},
{"property": "C67", "status": "partial", "theorems": ["C67_axes_exact_partial", "C67_mean_chart_partial", "C67_refuted", "C67_axes_world_partial", "C67_axes_float_partial"], "note": "False in general: C67_refuted (all recorded means equal to one negative number give a mean axis that runs downwards and does not contain the data). In binary64: C67_axes_float_partial (all four charts, on any platform whose exp is never negative and whose log10 and powf are right to within a factor of 10^0.05, when the recorded means are finite and not all one negative or tiny number, the eigenvalues and scales are not NaN, and each of the other charts has a finite number; best values, medians, step sizes and axis ratios may be NaN or infinite). C67_mean_chart_partial needs no hypothesis on the mathematical functions: the evaluation range of every chart and the value range of the mean chart. In exact arithmetic: C67_axes_exact_partial, and C67_axes_world_partial (the conditions on the recorded numbers hold whenever the eigen solver is exact, the draws are finite, c1 + cmu < 1 and the objective returns no infinity; only the refuted case is left out). Missing: recorded means, eigenvalues or scales that are NaN or infinite."},
{"property": "C68", "status": "proved", "theorems": ["C68_content"], "note": "C68_content: any arithmetic; l is the list of recorded moments of C44."},
{"property": "C69", "status": "proved", "theorems": ["C69_row"], "note": "The number formatting (fmt's {:.n} and {:e}) is modelled exactly on binary64; the reader in FormatSpec.v is written independently of the formatter."},
{"property": "C70", "status": "proved", "theorems": ["C70_aligned", "C70_widths"], "note": "Column positions and widths of the header and of every row; ASCII text, so characters are columns."},
{"property": "C71", "status": "proved", "theorems": ["C71_settings", "C71_seed"], "note": ""},
{"property": "C72", "status": "proved", "theorems": ["C72_eigenvalues", "C72_axis_ratio", "C72_sigma"], "note": ""},
{"property": "C73", "status": "proved", "theorems": ["C73_generation", "C73_total"], "note": ""},
{"property": "C74", "status": "proved", "theorems": ["C74_generation", "C74_total", "C74_all_weights"], "note": ""},
{"property": "C75", "status": "proved", "theorems": ["C75_weights", "C75_rates"], "note": ""},
{"property": "C76", "status": "proved", "theorems": ["C76_final", "C76_silent", "C76_restart", "C76_opening"], "note": "Report text in binary64. The text of numbers printed with {} or {:e} and of vectors is an arbitrary function; the theorem says which value it is applied to. The rest is read back from the characters."},
{"property": "C77", "status": "proved", "theorems": ["C77_mean", "C77_box", "C77_tolerance_needed"], "note": "C77_mean (distance from the exact weighted average), C77_box (consequence for intervals), C77_tolerance_needed (computed session whose mean leaves its bounds by rounding). The coordinate of the new mean is assumed finite: the sum of steps can overflow when sigma is tiny compared with the distances. cm * sigma >= 2^-1000 excludes underflow of that product."},
{"property": "C78", "status": "proved", "theorems": ["C78_generation", "C78_total", "C78_positive"], "note": "Proved in binary64 for every use of the optimiser, under the stated accuracy of ln and exp; the platform of C78_case has both."},
{"property": "C79", "status": "proved", "theorems": ["C79_opening"], "note": "Proved for every optimiser reachable through the API."},
{"property": "C80", "status": "proved", "theorems": ["C80_published"], "note": "Positive weights, mu_eff and all learning rates in binary64 against the published formulas over the reals; negative weights are not compared."},
{"property": "C81", "status": "proved", "theorems": ["C81_generation", "C81_total", "C81_positive"], "note": "All weights without negative ones, any way of splitting the parallel update. C81_case gives sessions of every length whose kept part is at least 1/4."},
{"property": "C82", "status": "proved", "theorems": ["C82_update", "C82_split"], "note": "C82_update: every finite entry against the published value, for the sequential update and every reduction tree; C82_split: two splits from the same state. The evolution path enters as computed; C83 bounds its own error. Assumes an accurate logarithm."},
{"property": "C83", "status": "proved", "theorems": ["C83_path", "C83_start"], "note": "C83_path: every finite component of the path, with the entries of the matrix for the same h and the same steps. h is shown to be 0 or 1; when it is which is settled in exact arithmetic only (C62). Assumes an accurate logarithm."},
{"property": "C84", "status": "proved", "theorems": ["C84_step"], "note": "One call of next in binary64; lm_exp and lm_ln are arbitrary functions of the stated accuracy. The length of the path is the one the code computes, so the order of summation inside the norm does not matter. C78 covers the case where the step size becomes tiny (it cannot collapse)."},
{"property": "C85", "status": "proved", "theorems": ["C85_path", "C85_length", "C85_start"], "note": "C85_path: the components; C85_length: the length; C85_start: the path starts at zero. Accurate logarithm, population below 2^40, dimension up to 2^40."},
{"property": "C86", "status": "proved", "theorems": ["C86_rule", "C86_wrapped"], "note": "Proved for every generation count (C86_rule, C86_wrapped; the exponent depends on the count modulo 2^31). C86_wrapped_case shows that every generation count is reached by some session."},
{"property": "C87", "status": "proved", "theorems": ["C87_axes"], "note": "Binary64, forward error analysis; the statement is per coordinate and needs no hypothesis about overflow (a finite result implies finite inputs). The solver is arbitrary; (2) and (3) ask only that its columns are finite and have lengths between 1/2 and 2. When the refresh happens is C41."},
{"property": "C88", "status": "proved", "theorems": ["C88_limit", "C88_overflow", "C88_plot_gap", "C88_no_overflow"], "note": "Theorems C88_limit (1), C88_overflow (2), C88_plot_gap (3) and C88_no_overflow (4), over the model with overflow checks (Checked.v). Not in that model: the counter of resampling rounds (2^64 rounds), additions made when the object is built, and index arithmetic inside the dependencies. Examples C88_case (all dimensions up to 1000 and populations up to 10^6) and C88_plot_gap_case."},
{"property": "C89", "status": "proved", "theorems": ["C89_normal"], "note": "Theorem C89_normal. The accuracy of the solver is a hypothesis (accurate_solver); nalgebra's solver is an oracle in the model. Example C89_case: an environment whose solver is exact (eps = 0) on the matrices of the session."},
{"property": "C90", "status": "proved", "theorems": ["C90_finite"], "note": "The eigenvalue solver's accuracy and the bound on the normal numbers are hypotheses (nalgebra and rand_distr are not modelled)."},
{"property": "C91", "status": "proved", "theorems": ["C91_finite_matrix", "C91_centre"], "note": "C91_finite_matrix is the first part, C91_centre the second (for any environment and any math library). The bound on the normal numbers and the accuracy of the solver are hypotheses about parts that are not modelled; C91_case and C91_centre_case meet the hypotheses."},
{"property": "C92", "status": "proved", "theorems": ["C92_from_draws"], "note": "C82 and C89 joined over the same steps: from the blocks of random numbers to the entries of the new matrix. The eigenvalue solver is an oracle assumed accurate to eps, ln is assumed accurate to 2^-50."},
{"property": "C93", "status": "proved", "theorems": ["C93_accepts", "C93_local", "C93_ipop", "C93_bipop"], "note": "All constructors and all runs. The random draws and powf are oracles; the upper bound on LR populations assumes the stated property of powf."},
{"property": "C94", "status": "proved", "theorems": ["C94_run", "C94_total", "C94_balance"], "note": "Complete. Function evaluations are counted in N; the modelled counters do not wrap (usize overflow of the number of evaluations is out of reach)."},
{"property": "C95", "status": "proved", "theorems": ["C95_restarts", "C95_complete"], "note": "For the whole restart loop and all three strategies, with the same clock readings on both sides: C95_restarts for any schedule under which the parallel call returns, C95_complete from a sequential call that returns and schedules that evaluate every point once. The objective depends only on the point (stateless), as in C32."}
]}
