# Design

Formal model and proofs for qpSWIFT (C sources in /repo), in Coq 8.16.1 under `rocq/theories`. `properties.jsonl` states
the claims, `MANIFEST.json` names the theorems that establish them, `seeded/LOG.jsonl` records mutation tests.

## Modelling decisions

* **Arithmetic is a parameter.** The model is written once over a record `Arith` (carrier, +, -, *, /, sqrt,
  comparisons, constants). Two instances: `RA`, the real numbers (exact arithmetic; division by zero and the square
  root of a negative number are *undefined behaviour outcomes*, not totalised), and `FA`, IEEE-754 binary64 as
  formalised by Flocq (division and square root always defined). Theorems that do not mention an instance hold for
  every arithmetic, hence bit for bit for doubles.
* **Undefined behaviour is an outcome.** Every model function returns `res T`: `Ok v`, `Ub reason` (out-of-bounds read
  or write, read of a cell never written, NULL dereference, undefined operation) or `NoFuel`. Arrays are
  `list (option A)`; `None` is a cell that malloc returned and nobody has written. "No undefined behaviour" and
  "terminates" are therefore theorems of the form "the result is `Ok ...`".
* **Loops.** `for (i = lo; i < hi; i++)` is a structural loop over `hi - lo` steps. `while` loops and walks (elimination
  tree path, all loops of the ordering package with a data-dependent bound) have fuel and an explicit `NoFuel` outcome,
  which is proved unreachable.
* **Integers** are unbounded `Z`. Overflow of 64-bit `long` is not modelled, except where the code itself tests for it:
  the `size_t` computations of AMD_order are done modulo 2^64. C77 bounds every integer the handle stores
  by the dimensions, so overflow is impossible there for N up to 2^32; intermediate expressions are not covered.
* **malloc** always succeeds in the numerical model, as the code assumes (it never tests the result). In AMD_order,
  which does test, every allocation may fail. Ownership of blocks is modelled separately (`MHeap.v`): setup and cleanup
  as sequences of allocations and frees on an arbitrary heap with an arbitrary allocator; double or foreign frees are
  undefined behaviour.
* **Pointers.** The C code never writes through a user pointer and never aliases two of its own arrays, so arrays are
  values threaded through the functions. A possibly-NULL pointer is an `option`.
* `MAX`/`MIN` in qpSWIFT.c are those of amd_internal.h (that header #undef's the ones of GlobalOptions.h and is
  included later); it matters for NaN.

## What is modelled

| code | model | left out |
|------|-------|----------|
| src/qpSWIFT.c: QP_SETUP, QP_SETUP_dense, QP_SOLVE | `MSolver.v`; `MPrint.v` (the same with the printed lines) | formats and order of characters, times |
| src/qpSWIFT.c: QP_CLEANUP, QP_CLEANUP_dense and the allocations of setup | `MHeap.v` | contents of the blocks |
| src/Auxilary.c, active functions | `MSparse.v`, `MSolver.v` | testing helpers (not called) |
| src/Auxilary.c: formkktmatrix_U, test_reach; src/ldl.c: LDL_row_cache_numeric, LDL_cache_numeric (compiled, not called by the solver) | `MInactive.v` | |
| src/ldl.c: LDL_symbolic, numeric, lsolve, dsolve, ltsolve, perm, permt, valid_perm, valid_matrix | `MLdl.v` | |
| src/amd_order.c, amd_1.c, amd_2.c, amd_aat.c, amd_post_tree.c, amd_postorder.c, amd_preprocess.c, amd_valid.c | `MAmd.v` | the statistics in Info[], debug dumps; the dense-row threshold (Int)(alpha sqrt n) is an arbitrary integer here; `P48_Dense.v` models src/amd_defaults.c and src/amd_2.c:585-604 in doubles |
| src/timer.c, all three platforms | `MIface.v` | the clocks themselves |
| python/pyqpSWIFT.c | `MIface.v`, `MPyRefs.v` (reference counts) | failing allocations of objects, warning texts, times, module initialisation |
| matlab/qpSWIFT_mex.c, simulink/*.c | `MMatlab.v` | texts, times |
| matlab/prototype code: qpSWIFT_matlab.m, qpSWIFT_init.m, qpSWIFT_checkinputs.m, findsteplength.m | `MProto.v`, relationally over R | printing, histories, rounding; `\` is defined for nonsingular matrices only |

Not modelled: amd_control.c, amd_info.c, amd_dump.c (print only), the older prototypes customQP_PredCorr_full*.m (a different
method with one step length), the test scripts, the C++ demo.

## Layers

1. `Res.v` result monad, arrays, loops, weakest preconditions; `Partial.v` the same for "if it returns". `Arith.v`
   arithmetic record and instances. `Lists.v` sums, ranges, counting.
2. Model: `MSparse.v`, `MLdl.v`, `MSolver.v`, `MAmd.v`, `MHeap.v`, `MIface.v`, `MMatlab.v`,
   `MPyRefs.v`, `MInactive.v`, `MProto.v`, `MPrint.v`.
3. Independent specifications. `Spec.v`: compressed-column arrays, stored entries, permutations. `QpSpec.v`: quadratic
   programs over the reals, objective, residuals, convexity. `StepSpec.v`: one step of Mehrotra's predictor-corrector method
   on dense vectors. `Api.v`: what a caller passes (`user`), when it is valid (`valid_user`), sessions. The property
   theorems mention these and the entry points only.
4. Functional proofs: `Csc.v`, `SemVec.v`, `Flat.v`, `DenseProofs.v`, `TransposeProofs.v`, `KktProofs.v` (matrices);
   `LdlSpec.v` ... `LdlUniq.v` (factorisation); `VecOps.v`, `Iter.v`, `Setup.v`, `Session.v`, `SafeInst.v` (the solver computes the
   pure functions `initF`, `iterF`, `solveF`, `callsF`); `SpecLink.v`, `NewtonR.v`, `PermIndep.v`, `PointR.v`, `StepFacts.v`,
   `StepUniq.v`, `StepLink.v`, `QpFacts.v`, `QuasiDef.v`, `Relabel.v` (those functions meet the specifications); `Motion.v` (rigid motions);
   `Round.v`, `RoundLdl.v`, `RoundStep.v`, `RoundInt.v` (rounding errors); `Cache.v`, `Left.v` (partial refactorisation).
5. The ordering package: `AmdBase.v`, `AmdPre.v` (validity, preprocessing), `AmdWalk.v`, `AmdGraph.v` (the graph of A + A'),
   `AmdView.v`, `AmdLists.v`, `AmdInv.v` (invariant of the quotient graph), `AmdGc.v` (garbage collection), `AmdBuild.v`,
   `AmdAsm.v`, `AmdScan1.v`, `AmdScan2.v`, `AmdDetect.v`, `AmdRestore.v`, `AmdPivot.v` (one elimination, phase by phase, and the
   main loop), `AmdInit.v`, `AmdTree.v` ... `AmdPost.v` (assembly tree, postorder, output), `AmdOrder.v` (the whole call).
6. Property theorems: `P1_Sparse.v` ... `P50_Rows.v`, each followed by `Print Assumptions` and by an example meeting its
   hypotheses. `Demo.v`, `P8_Cases.v`: concrete problems (the one of /repo/demo/Matrices.h among them).

A plausibility check of the model of the ordering package: on the KKT matrix of the repository's demo it computes 5 2 3 1 4 0,
the permutation that demo/Matrices.h passes in (`C35_demo_order`).

## Per property

| id | modelled as | proof |
|----|-------------|-------|
| C01 C02 | `densetosparse*` over dense buffers | loop invariants to the list-of-columns specification; equality of both results |
| C03 | `SparseMatrixTranspose` | counting invariant, result represents the row lists |
| C04 C05 | `formkktmatrix_full`, `updatekktmatrix` | invariants; refutation witness for an empty row |
| C06 C41 | `LDL_symbolic`, `LDL_numeric` | elimination-forest invariants; numeric walk equals symbolic walk |
| C07 C08 | `LDL_numeric` over R and binary64 | sparse triangular solve invariant over topological order |
| C09 | solve chain over R | forward/back substitution invariants + C07 |
| C10 C18 C19 C20 C42 | `QP_SOLVE` control flow | induction on iterations; refutation witnesses by computation in binary64 |
| C11 C12 C13 | exact arithmetic | invariant over iterations; binary64 witness against C11 |
| C14 C15 C16 C17 C29 C45 C46 | residual functions over R / any arithmetic | functional correctness + weak duality |
| C21 C22 C23 C28 C30 C43 C47 C48 | one iteration, start point over R | algebra from C09 |
| C24 C33 C34 | setup/solve | functional |
| C25 | `MHeap.v` | simulation by symbolic execution on an arbitrary heap |
| C26 C27 C36 C44 | safety | composition of all `Ok` theorems; witnesses |
| C31 C32 C37 | validators | iff by induction |
| C35 C38 | AMD | invariant of the quotient graph, see layer 5 |
| C39 C40 | timer, Python options | arithmetic / case analysis |
| C54 | stopping test in binary64 | running error analysis of the residual, norm and gap sums; weak duality |
| C55 | `live`: sessions with writes to the shared arrays (`P15_Data.v`) | problem data and KKT values kept apart in the solver invariant |
| C56 | factorisation rule `regularised` in `StepSpec.v` | induction over the elimination with the signed quadratic form |
| C57 | `relabelled`, `renamed` in `Relabel.v` | every part of the step specification commutes with permutations; uniqueness of the step |
| C58 | `untouched`, `created`, `result_objects` in `P18_PyRefs.v` | symbolic execution with a list of owned objects |
| C59 C60 C62 C64 | the factorisation, the step, the exit test and the step to the boundary in binary64 | backward error analysis along the same invariants as the exact proofs; relative error bounds of Flocq |
| C61 | sessions of one-iteration solves (`P21_Single.v`) | one loop iteration equals one solve from the stored state |
| C63 | `moved` in `Motion.v` | the step specification commutes with orthogonal maps and shifts; uniqueness of the step |
| C65 C66 C68 | `LDL_row_cache_numeric`, `test_reach`, `LDL_cache_numeric` with marks | unmarked rows or columns have the pattern and values of the cached factor; elimination-tree reachability |
| C67 | `formkktmatrix_U` | counting invariant; entry-wise comparison with `formkktmatrix_full` |
| C69 | `linked`, `joined`, `fill_path` in `P29_Fill.v` | elimination-forest invariants; walks split at their largest inner node |
| C70 | three versions of `toc` | relative error bounds; integer arithmetic modulo 2^64 |
| C71 | sessions with different options | the loop is a fixed walk cut at the first accepted point; monotone rounding of the test |
| C72 | `MProto.v` against the step specification | the two Newton systems have the same solution; determinism of both programs |
| C73 | `QP_SOLVE_text` in `MPrint.v` | erasing the text gives `QP_SOLVE`; the text follows the points of the run |
| C74 | `obtained` handles | what setup assigns; first-solve case analysis |
| C75 | `relaxed_by` in `P35_Path.v` | invariant of the step specification along sessions |
| C76 | clients of `MHeap.v` (`P36_Handles.v`) | the heap splits into the blocks of the handles and the client's; releasing does not depend on heap order |
| C77 | `MLdl.v`, setup and solve (`P37_Range.v`) | ranges of the index arrays as invariants of every routine that writes them |
| C78 | `QpSpec.v` (`P38_Locate.v`) | an identity between a point and a solution; Cauchy-Schwarz; the stopping test bounds the rest |
| C79 | binary64 (`P39_Nonfinite.v`) | a successful comparison has finite operands; every number of the problem enters a residual; induction over calls |
| C80 | `QpSpec.v` (`P41_Value.v`) | rounding error of the two sums that make the reported value, added to C54/C78 |
| C81 | handles after a stopping solve (`P42_Again.v`) | the stopping test is a function of the point; induction over repetitions |
| C82 | `dense_data`, `near_optimal` in `P43_EndToEnd.v` | C34/C40 reduce the call to a sparse session; dropped entries are zeros; the bounds grow with the number of operations |
| C83 | `slope`, `curvature` in `P44_Stationary.v` | second-order expansion; Cauchy-Schwarz; two runs in doubles as witnesses |
| C84 | `near_optimal` of `P43_EndToEnd.v`, `listed`, `block_says` in `P45_MatlabEnd.v` | C51/C53 for the calls, C62/C82 for the numbers; a comparison with NaN is false |
| C85 | `given`, `pending`, `degree_is`, `reached` in `P46_MinDegree.v`, `couples` in `P47_Ordering.v` | the loop invariant of C35 (degree lists hold exactly the pending variables of each degree) and the search from the smallest list; the graph from C38 and the walk of AMD_1 |
| C86 | `dense_cast`, `amd_defaults`, `amd_control` in `P48_Dense.v`; `pending` of C85 | 10 sqrt n is either an integer, computed exactly, or at least 1/(2k+2) away from one, more than two roundings can move it |
| C87 | `same_pattern` in `P49_Pattern.v` | the KKT columns of the two problems have the same rows (C04); the order and the symbolic analysis read only integers; two runs of LDL_numeric are followed side by side (`P50_Rows.v`) |
| C49 ... C53 | MATLAB and Simulink interfaces, see properties.jsonl | case analysis on top of the session theorems |

## Trusted base

Coq's kernel (and coqchk); that the model says what the C code does, as cited line by line in the model files; the IEEE-754
formalisation of Flocq for statements about doubles, and the assumption that the compiler evaluates doubles in binary64
without contraction. No axiom is declared in this development.

### Print Assumptions

Every theorem named in MANIFEST.json, as reported by Coq:

* Closed under the global context: `C01_dense_conversion`, `C02_orderings_agree`, `C03_transpose`, `C04_kkt_assembly`, `C04_missing_diagonal`, `C05_kkt_update`, `C05_constant_part`, `C05_update_any_sz`, `C05_neighbour_overwritten`, `C05_empty_writes_before_array`, `C06_numeric`, `C08_pivots_regularised`, `C10_no_factorisation_failure`, `C14_C17_optimal`, `C17_limit_previous`, `C18_C19_first_solve`, `C20_any_solve`, `C24_user_data_unchanged`, `C24_user_data_unchanged_dense`, `C25_sparse`, `C25_dense`, `C25_amd`, `C25_leak`, `C25_frees_caller`, `C26_memory_safe_total`, `C27_verbose_uninitialised`, `C31_valid_perm`, `C32_valid_matrix`, `C33_equalities_ignored`, `C33_equalities_used`, `C33_dense_ignored`, `C33_dense_used`, `C34_same_handle`, `C34_dense_is_sparse`, `C35_elimination_order`, `C35_ordering_ok`, `AMD_order_ok`, `C35_dense`, `C26_C35_own_order`, `C36_fallback_inside`, `C37_valid`, `C37_case`, `C37_checks_before_reading_refuted`, `C38_preprocess`, `C38_case`, `C39_difference`, `C40_options`, `C40_shapes`, `C40_raises`, `C40_runs`, `C40_verbose`, `C40_zero_dimensional`, `C41_workspace_irrelevant`, `C42_verbosity_irrelevant`, `C43_one_pass`, `C43_one_iteration`, `C44_inequality_required`, `C44_inequality_required_dense`, `C49_shapes`, `C49_errors`, `C49_help`, `C50_settings`, `C50_out_of_range`, `C50_errors`, `C51_runs`, `C51_fval_uninitialised`, `C52_errors`, `C52_other_fields`, `C53_block_e`, `C53_block`, `C53_too_few_e`, `C53_too_few`, `C55_extends_sessions`, `C55_any_solve`, `C55_kkt_kept`, `C58_returns`, `C58_wrong_arrays`, `C58_wrong_option`, `C58_null`, `C61_single_steps`, `C61_loop`, `C65_in_bounds`, `C66_marks`, `C66_second_root`, `C66_cover`, `C66_in_bounds_refuted`, `C67_upper_triangle`, `C67_case`, `C68_in_bounds`, `C68_in_bounds_refuted`, `C69_numeric`, `C69_no_fill`, `C69_handle`, `C69_case`, `C70_macos_overflow_refuted`, `C71_determined`, `C71_limit`, `C71_looser`, `C73_same`, `C73_verdict`, `C73_quiet`, `C73_lines`, `C74_fresh`, `C74_first_solve`, `C76_orderly`, `C76_live`, `C76_nothing_left`, `C76_balanced`, `C76_null`, `C76_stale`, `C76_twice`, `C77_ranges`, `C77_type`, `C77_index_fixed`, `C77_index_fixed_dense`, `C81_immediate`, `C81_again`, `C81_after_zero`, `C85_minimum`, `C85_progress`, `C85_first`, `C85_whole`, `C85_order`, `C85_setup`, `C86_negative`, `C87_pattern`, `C87_order`, `C87_symbolic`, `C87_factor`, `C87_rows`.
* `ClassicalDedekindReals.sig_forall_dec`, `ClassicalDedekindReals.sig_not_dec`, `FunctionalExtensionality.functional_extensionality_dep` (the axioms of Coq's real numbers): `C01_dense_conversion_entries`, `C03_transpose_entries`, `C04_kkt_entries`, `C04_kkt_assembly_refuted`, `C05_kkt_update_refuted`, `C06_symbolic`, `C07_factorisation`, `C08_pivots_exact`, `C09_linear_solve`, `C09_kkt_solve`, `C11_start_interior`, `C12_always_interior`, `exact_trace`, `C13_step_lengths`, `C13_reported`, `C14_optimal_exact`, `C14_any_solve`, `C15_near_optimal`, `C15_any_solve`, `C16_near_feasible`, `C16_any_solve`, `C17_optimal_exact`, `C18_C19_first_solve_exact`, `C21_primal_residuals`, `C21_norms`, `C21_regularised`, `C21_whole_solve`, `C22_dual_residual`, `C22_equal_steps`, `C22_growth`, `C23_complementarity`, `C26_memory_safe_exact`, `C28_sigma_range`, `C28_sigma_value`, `C28_stays`, `C28_stored`, `C29_residuals`, `C30_same_answer`, `C34_same_problem`, `C26_C35_own_order_exact`, `C39_exact`, `C45_certificates`, `C45_any_solve`, `C46_unbounded`, `C46_any_solve`, `C47_start_point`, `C48_start_optimal`, `C55_safe_exact`, `C55_optimal_exact`, `C55_method`, `C55_case`, `C56_start`, `C56_start_regular`, `C56_step`, `C56_step_regular`, `C56_residuals`, `C56_regular`, `C56_start_optimal`, `C56_same_answer`, `C56_convex_refuted`, `C56_case`, `C57_renamed`, `C57_convex`, `C57_case`, `C63_moved`, `C63_convex`, `C63_case`, `C65_refactor`, `C66_case`, `C66_update_and_refactor`, `C67_entries`, `C68_refactor`, `C68_update_and_refactor`, `C68_case`, `C68_repeats_refuted`, `C69_symbolic`, `C69_monotone`, `C70_windows_exact`, `C70_case`, `C71_exact_monotone`, `C72_step`, `C72_stop`, `C72_exists`, `C72_agree`, `C72_run`, `C72_case`, `C72_stop_refuted`, `C72_step_refuted`, `C73_exact`, `C73_case`, `C74_first_solve_exact`, `C74_case`, `C75_start`, `C75_solve`, `C75_session`, `C75_iterates`, `C75_feasible`, `C75_full_step`, `C75_infeasible`, `C75_rate`, `C75_optimal`, `C75_dual_start`, `C75_dual_solve`, `C75_dual_session`, `C75_case`, `C78_exact`, `C78_distance`, `C78_any_solve`, `C80_value_exact`, `C80_exact`, `C83_exact`, `C83_curvature`.
* The same and `Classical_Prop.classic` (used by Flocq's IEEE-754 formalisation): `C08_pivots_binary64`, `C11_binary64_refuted`, `C14_no_nan`, `C17_limit_refuted`, `C18_C19_first_solve_binary64`, `C20_stale_optimal_refuted`, `C20_false_limit_refuted`, `C26_memory_safe_binary64`, `C27_verbose_defined_refuted`, `C27_verbose_with_equalities`, `C36_fallback_refuted`, `C39_nonnegative`, `C40_python_binary64`, `C40_verbose_defined_refuted`, `C50_maxiter_binary64`, `C50_tolerance_range_refuted`, `C50_maxiter_defined_refuted`, `C51_fval_defined_refuted`, `C52_integers`, `C52_integers_only_refuted`, `C52_documented_name_refuted`, `C53_few_variables_refuted`, `C54_optimal_binary64`, `C54_near_optimal`, `C54_case`, `C55_safe_binary64`, `C55_stale_matrix_refuted`, `C58_balanced_refuted`, `C58_no_pending_refuted`, `C58_case`, `C59_factorisation`, `C59_linear_solve`, `C59_case`, `C60_step`, `C60_every_iteration`, `C60_unregularised`, `C60_case`, `C61_case`, `C62_any_solve`, `C62_near_optimal`, `C62_certificates`, `C62_unbounded`, `C62_case`, `C64_start`, `C64_step`, `C64_iterations`, `C64_solve`, `C64_near_optimal`, `C64_tiny_length`, `C64_case`, `C70_windows`, `C70_macos`, `C70_posix`, `C71_double_monotone`, `C71_case`, `C73_found_refuted`, `C73_case_text`, `C74_binary64`, `C78_binary64`, `C79_never_zero`, `C79_useless_options`, `C79_limit`, `C79_finite_answer`, `C79_dense`, `C80_value_binary64`, `C80_binary64`, `C80_finite_value_refuted`, `C82_dense`, `C82_python`, `C83_binary64`, `C83_curvature_binary64`, `C83_convex_refuted`, `C83_symmetric_refuted`, `C84_mex`, `C84_block`, `C84_block_e`, `C86_threshold`, `C86_control`, `C86_rows`, `C86_small`, `C86_setup`, `C86_sharp`, `C86_other`.
* Only `ClassicalDedekindReals.sig_forall_dec` and `FunctionalExtensionality.functional_extensionality_dep`: `quasidefinite`, `quasidefinite_regular`, `C72_start`, `C78_is_solution`.

