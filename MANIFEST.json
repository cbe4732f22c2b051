{"claims": [
 {"property": "C01", "status": "proved", "theorems": ["C01_dense_conversion", "C01_dense_conversion_entries"], "note": "all shapes, generic arithmetic; entry form over the reals"},
 {"property": "C02", "status": "proved", "theorems": ["C02_orderings_agree"], "note": ""},
 {"property": "C03", "status": "proved", "theorems": ["C03_transpose", "C03_transpose_entries"], "note": ""},
 {"property": "C04", "status": "proved", "theorems": ["C04_kkt_assembly", "C04_missing_diagonal", "C04_kkt_entries", "C04_kkt_assembly_refuted"], "note": "the claim for problems whose inequality rows are all nonempty; the unrestricted claim is refuted by a witness"},
 {"property": "C05", "status": "proved", "theorems": ["C05_kkt_update", "C05_constant_part", "C05_update_any_sz", "C05_neighbour_overwritten", "C05_empty_writes_before_array", "C05_kkt_update_refuted"], "note": "same restriction as C04; without it refuted"},
 {"property": "C06", "status": "proved", "theorems": ["C06_symbolic", "C06_numeric"], "note": "any arithmetic with defined division by a regularised pivot (binary64 and reals)"},
 {"property": "C07", "status": "proved", "theorems": ["C07_factorisation"], "note": "exact arithmetic"},
 {"property": "C08", "status": "proved", "theorems": ["C08_pivots_exact", "C08_pivots_regularised", "C08_pivots_binary64"], "note": ""},
 {"property": "C09", "status": "proved", "theorems": ["C09_linear_solve", "C09_kkt_solve"], "note": "exact arithmetic"},
 {"property": "C10", "status": "proved", "theorems": ["C10_no_factorisation_failure"], "note": "every handle obtained from setup, every call list, any arithmetic"},
 {"property": "C11", "status": "proved", "theorems": ["C11_start_interior", "C11_binary64_refuted"], "note": "Exact arithmetic: proved. IEEE doubles: the property states it is false; C11_binary64_refuted gives the witness."},
 {"property": "C12", "status": "proved", "theorems": ["C12_always_interior"], "note": "Any sequence of calls that returns, any options."},
 {"property": "C13", "status": "proved", "theorems": ["exact_trace", "C13_step_lengths", "C13_reported"], "note": "For every iteration of every solve of every session; exact_trace gives the trace the other theorems talk about."},
 {"property": "C14", "status": "proved", "theorems": ["C14_C17_optimal", "C14_optimal_exact", "C14_no_nan", "C14_any_solve"], "note": "C14_any_solve (P40_Exact.v): any solve of any session whose 0 is not left over; case C14_any_case."},
 {"property": "C15", "status": "proved", "theorems": ["C15_near_optimal", "C15_any_solve"], "note": "first solve in exact arithmetic. C15_any_solve (P40_Exact.v): any solve of any session whose 0 is not left over; case C14_any_case."},
 {"property": "C16", "status": "proved", "theorems": ["C16_near_feasible", "C16_any_solve"], "note": "first solve in exact arithmetic. C16_any_solve (P40_Exact.v): any solve of any session whose 0 is not left over; case C14_any_case."},
 {"property": "C17", "status": "proved", "theorems": ["C14_C17_optimal", "C17_optimal_exact", "C17_limit_previous", "C17_limit_refuted"], "note": "Exit code 0: proved. Exit code 2: the numbers are those of the previous iterate (C17_limit_previous), with a witness that they differ."},
 {"property": "C18", "status": "proved", "theorems": ["C18_C19_first_solve", "C18_C19_first_solve_exact", "C18_C19_first_solve_binary64"], "note": ""},
 {"property": "C19", "status": "proved", "theorems": ["C18_C19_first_solve", "C18_C19_first_solve_exact", "C18_C19_first_solve_binary64"], "note": ""},
 {"property": "C20", "status": "proved", "theorems": ["C20_any_solve", "C20_stale_optimal_refuted", "C20_false_limit_refuted"], "note": "What a later call really returns is characterised by C20_any_solve; the naive reading is refuted twice."},
 {"property": "C21", "status": "proved", "theorems": ["exact_trace", "C21_primal_residuals", "C21_norms", "C21_regularised", "C21_whole_solve"], "note": "C21_regularised bounds the deviation when pivots are regularised; C21_whole_solve multiplies the factors over a whole solve."},
 {"property": "C22", "status": "proved", "theorems": ["C22_dual_residual", "C22_equal_steps", "C22_growth"], "note": "identity for every iteration without regularisation; growth shown by a run of the model"},
 {"property": "C23", "status": "proved", "theorems": ["exact_trace", "C23_complementarity"], "note": ""},
 {"property": "C24", "status": "proved", "theorems": ["C24_user_data_unchanged", "C24_user_data_unchanged_dense"], "note": ""},
 {"property": "C25", "status": "proved", "theorems": ["C25_sparse", "C25_dense", "C25_amd", "C25_leak", "C25_frees_caller"], "note": "gives_back quantifies over every allocator, every initial heap and arguments; C25_amd covers every exit of AMD_order. The crossed pairs: C25_leak (6 or 9 blocks stay), C25_frees_caller (free is called on the caller's Ppr). Cases: C25_sparse_case, C25_crossed_case, bump_ok, starving_ok."},
 {"property": "C26", "status": "proved", "theorems": ["C26_memory_safe_binary64", "C26_memory_safe_total", "C26_memory_safe_exact"], "note": "sparse interface; total arithmetic includes IEEE doubles"},
 {"property": "C27", "status": "proved", "theorems": ["C27_verbose_uninitialised", "C27_verbose_defined_refuted", "C27_verbose_with_equalities"], "note": "the uninitialised read happens exactly for p = 0; shown in general and by a witness"},
 {"property": "C28", "status": "proved", "theorems": ["exact_trace", "C28_sigma_range", "C28_sigma_value", "C28_stays", "C28_stored"], "note": ""},
 {"property": "C29", "status": "proved", "theorems": ["C29_residuals"], "note": "for the handle after any sequence of calls"},
 {"property": "C30", "status": "proved", "theorems": ["C30_same_answer"], "note": "also independent of the storage of the matrices; assumes no pivot is regularised in either run"},
 {"property": "C31", "status": "proved", "theorems": ["C31_valid_perm"], "note": ""},
 {"property": "C32", "status": "proved", "theorems": ["C32_valid_matrix"], "note": ""},
 {"property": "C33", "status": "proved", "theorems": ["C33_equalities_ignored", "C33_equalities_used", "C33_dense_ignored", "C33_dense_used"], "note": "Both entry points. If equality constraints are ignored and the ordering package is used, it must not fail (otherwise C36)."},
 {"property": "C34", "status": "proved", "theorems": ["C34_same_handle", "C34_dense_is_sparse", "C34_same_problem"], "note": "Same handle and same sessions; C34_same_problem says which quadratic program that is."},
 {"property": "C35", "status": "proved", "theorems": ["C35_elimination_order", "C35_ordering_ok", "AMD_order_ok", "C35_dense", "C26_C35_own_order", "C26_C35_own_order_exact"], "note": "Full model of AMD_order and everything it calls (MAmd.v).  For every KKT pattern, allocator behaviour, dense-row threshold and aggressive flag the package returns a permutation or reports out of memory, and then the natural order is used; hypothesis order_defined excludes only the case refuted in C36 (p nonzero but A or b missing, and the package out of memory).  Pointer overlap of the blocks of S and the floating-point statistics in Info are not modelled."},
 {"property": "C36", "status": "proved", "theorems": ["C36_fallback_inside", "C36_fallback_refuted"], "note": "The unrestricted claim is refuted by a witness; it holds when p agrees with the equality data."},
 {"property": "C37", "status": "proved", "theorems": ["C37_valid", "C37_case", "C37_checks_before_reading_refuted"], "note": "For every pattern whose pointers, and indices the columns refer to, can be read. The last theorem shows that hypothesis is needed: the indices are read before later pointers are checked."},
 {"property": "C38", "status": "proved", "theorems": ["C38_preprocess", "C38_case"], "note": "Every well-formed pattern, workspaces of the sizes AMD_order allocates."},
 {"property": "C39", "status": "proved", "theorems": ["C39_difference", "C39_exact", "C39_nonnegative"], "note": "POSIX branch of toc; readings with 0 <= sec < 2^63 and 0 <= nsec < 1e9. Exact difference in nanoseconds, its value in seconds in exact arithmetic, finite and nonnegative in binary64."},
 {"property": "C40", "status": "proved", "theorems": ["C40_options", "C40_shapes", "C40_raises", "C40_runs", "C40_python_binary64", "C40_verbose", "C40_verbose_defined_refuted", "C40_zero_dimensional"], "note": "Options accepted exactly if in range, with the literal defaults; shapes accepted exactly if documented; otherwise an exception and no solve; otherwise the call is one dense session and the exit code is 0 or 2. Two reachable defects are shown: VERBOSE >= 1 without equality constraints uses an uninitialised number, and zero-dimensional c dereferences a null pointer."},
 {"property": "C41", "status": "proved", "theorems": ["C41_workspace_irrelevant"], "note": ""},
 {"property": "C42", "status": "proved", "theorems": ["C42_verbosity_irrelevant"], "note": ""},
 {"property": "C43", "status": "proved", "theorems": ["C43_one_pass", "C43_one_iteration"], "note": ""},
 {"property": "C44", "status": "proved", "theorems": ["C44_inequality_required", "C44_inequality_required_dense"], "note": ""},
 {"property": "C45", "status": "proved", "theorems": ["C45_certificates", "C45_any_solve"], "note": "first solve in exact arithmetic. C45_any_solve (P40_Exact.v): any solve of any session whose 0 is not left over; case C14_any_case."},
 {"property": "C46", "status": "proved", "theorems": ["C46_unbounded", "C46_any_solve"], "note": "first solve in exact arithmetic. C46_any_solve (P40_Exact.v): any solve of any session whose 0 is not left over; case C14_any_case."},
 {"property": "C47", "status": "proved", "theorems": ["C47_start_point"], "note": "requires a stored coefficient in every inequality row and symmetric P"},
 {"property": "C48", "status": "proved", "theorems": ["C48_start_optimal"], "note": ""},
 {"property": "C49", "status": "proved", "theorems": ["C49_shapes", "C49_errors", "C49_help"], "note": "cases C49_case, C51_case"},
 {"property": "C50", "status": "proved", "theorems": ["C50_settings", "C50_out_of_range", "C50_errors", "C50_maxiter_binary64", "C50_tolerance_range_refuted", "C50_maxiter_defined_refuted"], "note": "the refuted theorems are witnesses for the NaN part of the statement"},
 {"property": "C51", "status": "proved", "theorems": ["C51_runs", "C51_fval_uninitialised", "C51_fval_defined_refuted"], "note": "case C51_case"},
 {"property": "C52", "status": "proved", "theorems": ["C52_errors", "C52_integers", "C52_other_fields", "C52_integers_only_refuted", "C52_documented_name_refuted"], "note": ""},
 {"property": "C53", "status": "proved", "theorems": ["C53_block_e", "C53_block", "C53_too_few_e", "C53_too_few", "C53_few_variables_refuted"], "note": "case C53_case"},
 {"property": "C54", "status": "proved", "theorems": ["C54_optimal_binary64", "C54_near_optimal", "C54_case"], "note": "Rounding-error analysis of the tested residuals in Flocq binary64; no assumption on the size of the data. The rounding of the iterates themselves is irrelevant to the claim."},
 {"property": "C55", "status": "proved", "theorems": ["C55_safe_binary64", "C55_safe_exact", "C55_extends_sessions", "C55_any_solve", "C55_optimal_exact", "C55_kkt_kept", "C55_method", "C55_stale_matrix_refuted", "C55_case"], "note": "sessions with writes to the shared arrays; C55_stale_matrix_refuted: after a write to G a solve reaches its iteration limit although a handle set up with the new G solves the problem"},
 {"property": "C56", "status": "proved", "theorems": ["quasidefinite", "quasidefinite_regular", "C56_start", "C56_start_regular", "C56_step", "C56_step_regular", "C56_residuals", "C56_regular", "C56_start_optimal", "C56_same_answer", "C56_convex_refuted", "C56_case"], "note": "C56_convex_refuted: the last sentence, a linear program whose first pivot is replaced by -1e-7"},
 {"property": "C57", "status": "proved", "theorems": ["C57_renamed", "C57_convex", "C57_case"], "note": "Exact arithmetic. C57_renamed assumes that no pivot of either session is regularised; C57_convex derives that for strongly convex problems without equalities from the ratio of slacks to multipliers. C57_case: two problems that differ by swapping both variables and both constraints, one iteration."},
 {"property": "C58", "status": "proved", "theorems": ["C58_returns", "C58_wrong_arrays", "C58_wrong_option", "C58_null", "C58_balanced_refuted", "C58_no_pending_refuted", "C58_case"], "note": "Creating an object is assumed to succeed. The stronger claims 'every reference taken is given back' and 'no exception is pending beside a result' are false of the code: C58_balanced_refuted (a rejected option keeps a reference), C58_no_pending_refuted (OUTPUT = 2^63)."},
 {"property": "C59", "status": "proved", "theorems": ["C59_factorisation", "C59_linear_solve", "C59_case"], "note": "Round to nearest even, no fused multiply-add or extended precision. Overflow is excluded by the hypotheses that the stored L, D and x are finite."},
 {"property": "C60", "status": "proved", "theorems": ["C60_step", "C60_every_iteration", "C60_unregularised", "C60_case"], "note": "Round to nearest even, no fused multiply-add or extended precision. Overflow is excluded by the hypotheses that the stored factor, direction and new point are finite."},
 {"property": "C61", "status": "proved", "theorems": ["C61_single_steps", "C61_loop", "C61_case"], "note": ""},
 {"property": "C62", "status": "proved", "theorems": ["C62_any_solve", "C62_near_optimal", "C62_certificates", "C62_unbounded", "C62_case"], "note": "Round to nearest even, no fused multiply-add or extended precision. The condition that the preceding call did not return 0 is needed, see C20."},
 {"property": "C63", "status": "proved", "theorems": ["C63_moved", "C63_convex", "C63_case"], "note": "Exact arithmetic; regularised pivots depend on the coordinates and are excluded by hypothesis (C63_moved) or by strong convexity (C63_convex)."},
 {"property": "C64", "status": "proved", "theorems": ["C64_start", "C64_step", "C64_iterations", "C64_solve", "C64_near_optimal", "C64_tiny_length", "C64_case"], "note": "Iterates are observed through single-step solves (C61). C64_tiny_length shows that the bound on the step lengths is needed."},
 {"property": "C65", "status": "proved", "theorems": ["C65_in_bounds", "C65_refactor", "C66_case"], "note": "Function present in ldl.c but not called by the solver. The source comment says Y is undefined on input; the theorem needs Y zero at unmarked indices. C66_case is a concrete instance."},
 {"property": "C66", "status": "proved", "theorems": ["C66_marks", "C66_second_root", "C66_cover", "C66_update_and_refactor", "C66_case", "C66_in_bounds_refuted"], "note": "Function present in Auxilary.c, its call is commented out. C66_in_bounds_refuted: with a forest of two roots UPattern[-1] is read."},
 {"property": "C67", "status": "proved", "theorems": ["C67_upper_triangle", "C67_entries", "C67_case"], "note": "Function present in Auxilary.c but not called by the solver. C67_case: n=2, m=2, empty second row of G."},
 {"property": "C68", "status": "proved", "theorems": ["C68_in_bounds", "C68_refactor", "C68_update_and_refactor", "C68_case", "C68_in_bounds_refuted", "C68_repeats_refuted"], "note": "Function present in ldl.c but not called by the solver. C68_in_bounds_refuted: two uncoupled one-variable problems, Li[Lp[n]] is read. C68_repeats_refuted: entries stored twice are overwritten instead of added."},
 {"property": "C69", "status": "proved", "theorems": ["C69_symbolic", "C69_numeric", "C69_monotone", "C69_no_fill", "C69_handle", "C69_case"], "note": "The fill-path theorem of Rose, Tarjan and Lueker for the pattern that the elimination-tree walks of LDL_symbolic and LDL_numeric produce. Entries are structural: a stored value may be zero by cancellation."},
 {"property": "C70", "status": "proved", "theorems": ["C70_windows_exact", "C70_windows", "C70_macos", "C70_macos_overflow_refuted", "C70_posix", "C70_case"], "note": "C70_macos_overflow_refuted: the time base 1000000000/33333335 overflows the 64-bit product after nine minutes."},
 {"property": "C71", "status": "proved", "theorems": ["C71_determined", "C71_limit", "C71_looser", "C71_exact_monotone", "C71_double_monotone", "C71_case"], "note": "C71_looser is for any arithmetic with a monotone test; C71_exact_monotone and C71_double_monotone show that the reals and binary64 have one."},
 {"property": "C72", "status": "proved", "theorems": ["C72_start", "C72_step", "C72_stop", "C72_exists", "C72_agree", "C72_run", "C72_case", "C72_stop_refuted", "C72_step_refuted"], "note": "Exact arithmetic. C72_case meets the hypotheses of C72_exists and C72_agree with j = 1 on a whole session; the two _refuted theorems show that agreement fails without the boundary condition and that the prototype's stopping test is strictly weaker."},
 {"property": "C73", "status": "proved", "theorems": ["C73_same", "C73_verdict", "C73_quiet", "C73_lines", "C73_exact", "C73_found_refuted", "C73_case_text", "C73_case"], "note": "Text is a list of lines with their arguments; formats and the lines with times are left out. Without equality constraints a positive verbosity reads an uninitialised residual norm (C27), so that case is excluded. The closing line of a later solve can announce an optimum that fails the test: C73_found_refuted."},
 {"property": "C74", "status": "proved", "theorems": ["C74_fresh", "C74_binary64", "C74_first_solve", "C74_first_solve_exact", "C74_case"], "note": "Written after a mutation of the default options went unnoticed."},
 {"property": "C75", "status": "proved", "theorems": ["C75_start", "C75_solve", "C75_session", "C75_iterates", "C75_feasible", "C75_full_step", "C75_infeasible", "C75_rate", "C75_optimal", "C75_dual_start", "C75_dual_solve", "C75_dual_session", "C75_case"], "note": "For sessions without regularised pivots."},
 {"property": "C76", "status": "proved", "theorems": ["C76_orderly", "C76_live", "C76_nothing_left", "C76_balanced", "C76_null", "C76_stale", "C76_twice"], "note": "In the memory model of MHeap.v; QP_SOLVE neither allocates nor releases. Case: C76_case."},
 {"property": "C77", "status": "proved", "theorems": ["C77_ranges", "C77_type", "C77_index_fixed", "C77_index_fixed_dense"], "note": "Stored integers only: intermediate expressions and loop counters are not covered. The model computes in Z, so the ranges are those of the mathematical values; by C77_type they are representable. Case: C77_case."},
 {"property": "C78", "status": "proved", "theorems": ["C78_exact", "C78_distance", "C78_binary64", "C78_is_solution", "C78_any_solve"], "note": "binary64: any solve that returns 0 when the call before did not, with s and z nonnegative (see C64). Case: C78_case. C78_any_solve (P40_Exact.v): any solve of any session whose 0 is not left over; case C14_any_case."},
 {"property": "C79", "status": "proved", "theorems": ["C79_never_zero", "C79_useless_options", "C79_limit", "C79_finite_answer", "C79_dense"], "note": "No assumption on size or rounding. Cases: C79_case, C79_case_answer, C79_case_dense."},
 {"property": "C80", "status": "proved", "theorems": ["C80_value_exact", "C80_exact", "C80_value_binary64", "C80_binary64", "C80_finite_value_refuted"], "note": "C80_finite_value_refuted: code 0 with fval NaN (x*x overflows). Cases: C80_case, C80_case_binary64."},
 {"property": "C81", "status": "proved", "theorems": ["C81_immediate", "C81_again", "C81_after_zero"], "note": "For any arithmetic satisfying Safe (both instances do). Case: C81_case."},
 {"property": "C82", "status": "proved", "theorems": ["C82_dense", "C82_python"], "note": "IEEE doubles. The sign of the returned slacks and multipliers is a hypothesis of the last part (C54 and C64 discuss it); residual part has none. Case: C82_case runs the Python call."},
 {"property": "C83", "status": "proved", "theorems": ["C83_exact", "C83_curvature", "C83_binary64", "C83_curvature_binary64", "C83_convex_refuted", "C83_symmetric_refuted"], "note": "The two refutations are runs of the model in doubles: optimality does not follow without convexity (code 0 at the worst feasible point) or without symmetry of P. Case for the exact theorems: C83_case; the refutations are cases of the binary64 theorems."},
 {"property": "C84", "status": "proved", "theorems": ["C84_mex", "C84_block", "C84_block_e"], "note": "Cases: C84_case (MATLAB, one variable) and C84_block_case (three variables, default tolerances), both runs of the model in doubles."},
 {"property": "C85", "status": "proved", "theorems": ["C85_minimum", "C85_progress", "C85_first", "C85_whole", "C85_order", "C85_setup"], "note": "Cases: C85_case (a path with a triangle), with the first two pivots of the model run in C85_picks; C85_setup_case (the library's example; C35_demo_order shows the run). The recorded degree after an update is an estimate; that it bounds the true degree is not claimed."},
 {"property": "C86", "status": "proved", "theorems": ["C86_threshold", "C86_control", "C86_rows", "C86_small", "C86_setup", "C86_sharp", "C86_other", "C86_negative"], "note": "Cases: C86_case (a star of any size) for C86_rows, C86_small and C86_negative, C86_sharp (102 nodes), C86_negative_case (18 nodes), C86_setup_case (the library's example). Orders of 2^41 and more are outside the statement on the default parameter."},
 {"property": "C87", "status": "proved", "theorems": ["C87_pattern", "C87_order", "C87_symbolic", "C87_factor", "C87_rows"], "note": "Case: C87_case (the library's example in doubles and in real numbers). C87_factor is about any two calls of LDL_numeric on one pattern; C87_rows is about the handle after setup."}
]}
