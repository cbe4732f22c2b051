{"id": "C01", "title": "Dense column-major input is converted without changing the matrix", "statement": "For a dense m x n buffer in column-major order, the sparse matrix that QP_SETUP_dense works on is a valid compressed-column matrix (column pointers start at 0 and are monotone, row indices strictly increase inside a column and lie in [0,m)), stores exactly the entries that compare unequal to 0.0 with their values unchanged, and therefore denotes the same matrix entry by entry. The conversion never reads outside the m*n cells and never writes outside what it allocated.", "quantifier": "every m, n >= 0, every buffer of m*n values (any arithmetic, including NaN and signed zeros)", "why_tests_cant": "the claim ranges over all sizes and all sparsity patterns; a test fixes one", "anchors": ["src/Auxilary.c:densetosparse"]}
{"id": "C02", "title": "Row-major and column-major input give the same problem", "statement": "Passing a matrix in row-major order with ROW_MAJOR_ORDERING yields bit-for-bit the same compressed-column matrix as passing its column-major copy with COLUMN_MAJOR_ORDERING.", "quantifier": "every m, n, every buffer, every pattern of zeros", "why_tests_cant": "needs equality of two different algorithms on all inputs", "anchors": ["src/Auxilary.c:densetosparse", "src/Auxilary.c:densetosparse_ROWMAJOR", "src/qpSWIFT.c:QP_SETUP_dense"]}
{"id": "C03", "title": "The transposes built at setup are the transposes", "statement": "For a valid compressed-column matrix (duplicates and unsorted rows allowed) the computed transpose is a valid compressed-column matrix whose column k lists, in increasing original column order and with the same values, exactly the stored entries of row k; nothing is lost, added or reordered within a column, and no access is out of bounds.", "quantifier": "every valid compressed-column matrix of any shape", "why_tests_cant": "counting-sort style index arithmetic over arbitrary patterns", "anchors": ["src/Auxilary.c:SparseMatrixTranspose", "src/Auxilary.c:Transpose_Row_Count"]}
{"id": "C04", "title": "The KKT matrix handed to the factorisation is the KKT matrix of the user's problem", "statement": "After setup the system matrix is [P A' G'; A 0 0; G 0 -I] (without the A blocks when there are no equality constraints) in a valid compressed-column layout that exactly fills the allocated arrays, for every problem in which each inequality row has at least one stored coefficient. If some inequality row has no stored coefficient the statement is false: the -1 of that row is missing, and later updates hit an entry of a neighbouring column or memory before the array.", "quantifier": "every P, G, A in valid compressed-column form, with and without equality constraints", "why_tests_cant": "tests use a handful of matrices; the failing case needs an empty row of G", "anchors": ["src/Auxilary.c:formkktmatrix_full", "src/qpSWIFT.c:QP_SETUP"]}
{"id": "C05", "title": "The per-iteration KKT update touches only the scaling block", "statement": "Each interior-point iteration replaces the lower-right diagonal block by -S Z^{-1} and leaves every other stored entry, every index and every pointer of the system matrix unchanged, provided every inequality row has a stored coefficient.", "quantifier": "every assembled KKT matrix, every s and z", "why_tests_cant": "a wrong offset corrupts the matrix only for particular patterns", "anchors": ["src/Auxilary.c:updatekktmatrix"]}
{"id": "C06", "title": "Symbolic analysis reserves exactly the storage the factorisation fills", "statement": "For every valid square pattern and every valid permutation, the symbolic phase terminates and computes the inverse permutation, an elimination forest (parents strictly larger than children) and column pointers such that every later numeric factorisation terminates, stays inside the arrays allocated from them, and fills every reserved cell, with row indices strictly increasing in each column.", "quantifier": "every n, pattern, permutation, every sequence of numeric values and stale workspace content", "why_tests_cant": "agreement of two graph traversals over all patterns and orders", "anchors": ["src/ldl.c:LDL_symbolic", "src/ldl.c:LDL_numeric", "src/Auxilary.c:ldlinitialsolve"]}
{"id": "C07", "title": "The factorisation is exact up to the documented pivot regularisation", "statement": "In exact arithmetic the computed unit lower triangular L and diagonal D satisfy L D L' = P K P' + E, where K is the symmetric matrix described by the entries at or above the permuted diagonal (duplicates summed) and E is diagonal, zero at every pivot whose magnitude exceeds 1e-14 and bounded by 1e-7 + 1e-14 at the others.", "quantifier": "every symmetric pattern, values, permutation", "why_tests_cant": "numerical identity over all matrices; tests compare a few solutions to a tolerance", "anchors": ["src/ldl.c:LDL_numeric"]}
{"id": "C08", "title": "No zero pivot ever reaches a division", "statement": "After a factorisation every diagonal pivot is either larger than 1e-14 in magnitude or equal to +-1e-7, in exact arithmetic; in IEEE double arithmetic it is additionally allowed to be NaN, but it is never a zero.", "quantifier": "every matrix, including singular ones and ones with infinities and NaNs", "why_tests_cant": "covers all doubles", "anchors": ["src/ldl.c:LDL_numeric"]}
{"id": "C09", "title": "The linear solve solves the linear system", "statement": "In exact arithmetic the chain permute, forward, diagonal, backward, un-permute returns the vector d with (K + E) d = b, with K the assembled KKT matrix (P symmetric) and E the regularisation of C07; without regularisation K d = b.", "quantifier": "every assembled KKT system, right-hand side, permutation", "why_tests_cant": "numerical identity over all inputs", "anchors": ["src/ldl.c:LDL_perm", "src/ldl.c:LDL_lsolve", "src/ldl.c:LDL_dsolve", "src/ldl.c:LDL_ltsolve", "src/ldl.c:LDL_permt", "src/Auxilary.c:kktsolve_1", "src/Auxilary.c:kktsolve_2"]}
{"id": "C10", "title": "Exit code 1 (factorisation failure)", "statement": "A documented exit code says that the LDL' factorisation failed. No run can produce it: setup and solve never set the flag to QP_KKTFAIL, whatever the data, because a bad pivot is replaced instead of reported.", "quantifier": "every input, every arithmetic, every number of solves", "why_tests_cant": "absence of an outcome over all runs", "anchors": ["src/qpSWIFT.c:QP_SOLVE", "src/ldl.c:LDL_numeric", "src/Auxilary.c:kktsolve_1", "src/Auxilary.c:kkt_initialize"]}
{"id": "C11", "title": "The starting point is strictly interior", "statement": "After setup s > 0 and z > 0 componentwise in exact arithmetic. In IEEE doubles this is false: with large data the shift is absorbed and a slack is exactly 0.", "quantifier": "every problem with at least one inequality", "why_tests_cant": "positivity for all data; the double-precision failure needs specific magnitudes", "anchors": ["src/Auxilary.c:kkt_initialize", "src/Auxilary.c:findminmax"]}
{"id": "C12", "title": "Every iterate stays strictly interior", "statement": "In exact arithmetic s > 0 and z > 0 hold before and after every iteration of every solve, hence for every returned point, whatever the exit code.", "quantifier": "every problem, every number of iterations, every option value, repeated solves", "why_tests_cant": "an invariant over unbounded iteration histories", "anchors": ["src/Auxilary.c:findsteplength", "src/Auxilary.c:updatevariables", "src/qpSWIFT.c:QP_SOLVE"]}
{"id": "C13", "title": "Step lengths", "statement": "The primal and dual step lengths of each iteration are min(1, 0.99 a) where a is the largest step keeping the slacks nonnegative (or 1 if none blocks below 1e10); in exact arithmetic they lie in (0,1].", "quantifier": "every s, z > 0 and every direction", "why_tests_cant": "all real vectors of all lengths", "anchors": ["src/Auxilary.c:findsteplength", "src/qpSWIFT.c:QP_SOLVE"]}
{"id": "C14", "title": "Exit code 0 means the stopping test holds at the returned point", "statement": "If the first QP_SOLVE on a handle returns QP_OPTIMAL then the residual norms and the complementarity measure of the returned x, y, z, s, recomputed from the user's data, satisfy the documented tolerances (below reltol/sqrt 3 and abstol). In particular NaN residuals are never reported as optimal.", "quantifier": "every problem, arithmetic (IEEE double included), options, iteration count", "why_tests_cant": "covers all executions, including those with NaN or overflow", "anchors": ["src/qpSWIFT.c:QP_SOLVE", "src/Auxilary.c:computeresiduals"]}
{"id": "C15", "title": "Exit code 0 means near-optimal objective", "statement": "For convex problems (P symmetric positive semidefinite), in exact arithmetic, exit code 0 implies that for every feasible point x', f(x) - f(x') < (reltol/sqrt 3)(|x'-x| + |y| + |z|) + m*abstol.", "quantifier": "every convex QP, every feasible comparison point, all tolerances", "why_tests_cant": "quantifies over all feasible points", "anchors": ["src/qpSWIFT.c:QP_SOLVE"]}
{"id": "C16", "title": "Exit code 0 means near-feasible", "statement": "In exact arithmetic exit code 0 implies (Gx-h)_i < reltol/sqrt 3 for every inequality row and |(Ax-b)_i| < reltol/sqrt 3 for every equality row.", "quantifier": "every QP", "why_tests_cant": "all runs and rows", "anchors": ["src/qpSWIFT.c:QP_SOLVE"]}
{"id": "C17", "title": "The reported objective and residual norms belong to the returned point", "statement": "With exit code 0, fval equals 0.5 x'Px + c'x at the returned x and n_rx, n_ry, n_rz, n_mu are those of the returned point. With exit code 2 this is false: they belong to the iterate before the last step.", "quantifier": "every run", "why_tests_cant": "temporal relation between two fields over all runs", "anchors": ["src/Auxilary.c:obj_value", "src/qpSWIFT.c:QP_SOLVE"]}
{"id": "C18", "title": "Exit codes of the first solve", "statement": "On a fresh handle QP_SOLVE returns 0 exactly if one of the first maxit iterates passes the stopping test, 2 exactly if maxit >= 0 and none does, 3 exactly if maxit < 0. No other value is returned.", "quantifier": "every problem, every maxit (negative included)", "why_tests_cant": "exhaustive over runs", "anchors": ["src/qpSWIFT.c:QP_SOLVE"]}
{"id": "C19", "title": "Iteration limit", "statement": "QP_SOLVE always terminates, performs at most max(0,maxit) steps, and on a fresh handle the reported iteration count equals the number of steps and is at most maxit.", "quantifier": "every problem and maxit", "why_tests_cant": "termination", "anchors": ["src/qpSWIFT.c:QP_SOLVE"]}
{"id": "C20", "title": "Solving again on the same handle", "statement": "The exit code of every call describes the point returned by that call. This is false for a second call: the iteration counter and the flag are not reset, so a second call that does not converge can return the earlier QP_OPTIMAL, and a second call that passes the stopping test can return QP_MAXIT.", "quantifier": "every sequence of solves with data or options changed in between", "why_tests_cant": "needs histories of calls", "anchors": ["src/qpSWIFT.c:QP_SOLVE"]}
{"id": "C21", "title": "Primal residuals contract by (1 - alpha_p)", "statement": "In exact arithmetic and without pivot regularisation one iteration maps the equality residual b-Ax and the inequality residual h-Gx-s to exactly (1-alpha_p) times themselves; so their norms never increase and, once zero, stay zero.", "quantifier": "every problem, every iterate", "why_tests_cant": "identity over all data", "anchors": ["src/qpSWIFT.c:QP_SOLVE", "src/Auxilary.c:kktsolve_2", "src/Auxilary.c:updatekktmatrix_b"]}
{"id": "C22", "title": "Dual residual after a step", "statement": "In exact arithmetic without regularisation the new dual residual equals (1-alpha_d) rx + (alpha_d-alpha_p) P dx; it contracts when both step lengths agree but may grow when they differ.", "quantifier": "every problem, every iterate", "why_tests_cant": "identity over all data", "anchors": ["src/qpSWIFT.c:QP_SOLVE"]}
{"id": "C23", "title": "Complementarity linearisation", "statement": "In exact arithmetic the computed direction satisfies z_i ds_i + s_i dz_i = r_i for the right-hand side r of the step type (-s_i z_i for the predictor; -s_i z_i - ds_i dz_i (predictor) + sigma mu for the corrector; -s_i z_i + sigma mu for the centering step).", "quantifier": "every iterate", "why_tests_cant": "identity over all data", "anchors": ["src/Auxilary.c:form_ds", "src/Auxilary.c:formlambda", "src/Auxilary.c:kktsolve_1", "src/Auxilary.c:kktsolve_2"]}
{"id": "C24", "title": "User data is read-only", "statement": "Setup and solve never change P, A, G, c, h, b or the permutation vector supplied by the user.", "quantifier": "every input, every number of solves", "why_tests_cant": "absence of writes over all executions", "anchors": ["src/qpSWIFT.c:QP_SETUP", "src/qpSWIFT.c:QP_SOLVE"]}
{"id": "C25", "title": "Setup and cleanup balance", "statement": "QP_CLEANUP after QP_SETUP and QP_CLEANUP_dense after QP_SETUP_dense release every block that setup allocated exactly once, release nothing owned by the caller (the permutation included), and leave the heap as it was before setup; crossing the pairs leaks the matrices or frees caller memory.", "quantifier": "every control path of setup (equality constraints or not, permutation or AMD, any AMD outcome) and every initial heap", "why_tests_cant": "all paths and heaps", "anchors": ["src/qpSWIFT.c:QP_SETUP", "src/qpSWIFT.c:QP_SETUP_dense", "src/qpSWIFT.c:QP_CLEANUP", "src/qpSWIFT.c:QP_CLEANUP_dense", "src/Auxilary.c:ldlinitialsolve"]}
{"id": "C26", "title": "Memory safety on valid data", "statement": "For every valid problem (sizes n >= 0, m >= 1, valid compressed-column matrices, an inequality coefficient in each row, valid permutation) setup and any number of solves perform no out-of-bounds access and no read of an uninitialised cell, in any arithmetic (IEEE double with NaN/Inf included).", "quantifier": "every valid problem and option setting with verbose off or equality constraints present", "why_tests_cant": "all index computations over all patterns", "anchors": ["src/qpSWIFT.c:QP_SETUP", "src/qpSWIFT.c:QP_SOLVE", "src/Auxilary.c:kkt_initialize", "src/ldl.c:LDL_numeric"]}
{"id": "C27", "title": "Verbose output reads only defined values", "statement": "False as stated: with verbose > 0 and no equality constraints the first progress line prints n_ry, which was never assigned. It holds when there are equality constraints.", "quantifier": "every problem and verbosity", "why_tests_cant": "indeterminate values do not show up reliably in tests", "anchors": ["src/qpSWIFT.c:QP_SOLVE", "src/Auxilary.c:computeresiduals"]}
{"id": "C28", "title": "Centering parameter", "statement": "After every predictor-corrector iteration in exact arithmetic the centering parameter stored in the options lies in [sigma_d, max(sigma_d, 1)] and equals max(sigma_d, min(1,rho)^3); once it equals sigma_d every later iteration is a pure centering step with sigma_d. The user's initial value is overwritten.", "quantifier": "every problem, every history", "why_tests_cant": "invariant over histories", "anchors": ["src/qpSWIFT.c:QP_SOLVE", "src/Auxilary.c:formrho"]}
{"id": "C29", "title": "Residuals are the residuals", "statement": "In exact arithmetic the residual vectors used for the stopping test and the right-hand sides are rx = -Px - G'z - A'y - c, ry = b - Ax, rz = h - s - Gx and mu = s'z/m, with Euclidean norms, for all matrices including duplicates.", "quantifier": "every problem and point", "why_tests_cant": "identity over all data", "anchors": ["src/Auxilary.c:computeresiduals", "src/Auxilary.c:SparseMatrixMultiply", "src/Auxilary.c:SparseMatrixTransMultiply", "src/Auxilary.c:norm", "src/Auxilary.c:innerproduct"]}
{"id": "C30", "title": "The elimination order does not change the answer", "statement": "In exact arithmetic, as long as no pivot is regularised, the search direction and hence every iterate and the exit code are the same for every valid permutation.", "quantifier": "every problem, every pair of permutations", "why_tests_cant": "hyperproperty over two executions", "anchors": ["src/qpSWIFT.c:QP_SETUP", "src/ldl.c:LDL_numeric"]}
{"id": "C31", "title": "Permutation check", "statement": "The permutation check used by the MATLAB interface returns 1 exactly for bijections of {0..n-1}, for any workspace content, without out-of-bounds access.", "quantifier": "every n and integer vector", "why_tests_cant": "all vectors", "anchors": ["src/ldl.c:LDL_valid_perm", "matlab/qpSWIFT_mex.c:mexFunction"]}
{"id": "C32", "title": "Matrix check", "statement": "LDL_valid_matrix returns 1 exactly for column pointers that start at 0 and never decrease together with row indices in [0,n), for square matrices.", "quantifier": "every n, pointers, indices", "why_tests_cant": "all inputs", "anchors": ["src/ldl.c:LDL_valid_matrix"]}
{"id": "C33", "title": "When equality constraints are used", "statement": "Equality constraints take part in the problem exactly if p != 0 and none of the pointers of A and b is NULL; otherwise the run is identical to one without them.", "quantifier": "every combination of arguments", "why_tests_cant": "all inputs", "anchors": ["src/qpSWIFT.c:QP_SETUP", "src/qpSWIFT.c:QP_SETUP_dense"]}
{"id": "C34", "title": "Dense and sparse entry points agree", "statement": "QP_SETUP_dense on a dense problem produces the same handle, hence the same iterates and exit code, as QP_SETUP on the compressed-column form of its nonzeros with sigma_d = 0.", "quantifier": "every dense problem, either ordering", "why_tests_cant": "two programs on all inputs", "anchors": ["src/qpSWIFT.c:QP_SETUP", "src/qpSWIFT.c:QP_SETUP_dense"]}
{"id": "C35", "title": "Without a user permutation the elimination order is still a permutation", "statement": "If no permutation is supplied the ordering used is a permutation of the KKT indices whether the ordering package succeeds or not.", "quantifier": "every KKT pattern", "why_tests_cant": "all patterns", "anchors": ["src/qpSWIFT.c:QP_SETUP", "src/amd_order.c:AMD_order", "src/amd_2.c:AMD_2"]}
{"id": "C36", "title": "Fallback ordering stays inside its array", "statement": "False as stated: when the ordering package fails, the fallback writes n+m+p entries with the caller's p, although only n+m were allocated if A or b is NULL and p != 0. It holds when p agrees with the equality data.", "quantifier": "every argument combination and ordering outcome", "why_tests_cant": "needs an ordering failure", "anchors": ["src/qpSWIFT.c:QP_SETUP", "src/qpSWIFT.c:QP_SETUP_dense"]}
{"id": "C37", "title": "Input validation of the ordering package", "statement": "The validity check of the ordering package returns INVALID exactly for malformed patterns, OK exactly for well-formed patterns with strictly increasing columns, and OK_BUT_JUMBLED otherwise.", "quantifier": "every pattern", "why_tests_cant": "all inputs", "anchors": ["src/amd_valid.c:AMD_valid"]}
{"id": "C38", "title": "Preprocessing of jumbled patterns", "statement": "For patterns with unsorted or duplicate rows the preprocessing step produces the transposed pattern with sorted, duplicate-free columns and the same set of positions.", "quantifier": "every well-formed pattern", "why_tests_cant": "all inputs", "anchors": ["src/amd_preprocess.c:AMD_preprocess"]}
{"id": "C39", "title": "Reported times", "statement": "For a monotone clock the elapsed time computed by the timer is the exact nanosecond difference, split in seconds and nanoseconds with 0 <= nanoseconds < 1e9, and is never negative.", "quantifier": "every pair of clock readings", "why_tests_cant": "borrow across the second boundary", "anchors": ["src/timer.c:toc"]}
{"id": "C40", "title": "Python option validation", "statement": "The Python interface accepts an option value exactly if it is of the right kind and in range (0 < MAXITER < 200 integer; 0 < ABSTOL, RELTOL < 1; SIGMA > 0; VERBOSE >= 0), otherwise it raises and does not solve; hence exit code 3 cannot occur through Python.", "quantifier": "every option dictionary", "why_tests_cant": "all dictionaries", "anchors": ["python/pyqpSWIFT.c:method_qpSWIFT"]}
{"id": "C41", "title": "Stale workspace cannot influence a factorisation", "statement": "The factors computed by a numeric factorisation depend only on the matrix and the symbolic analysis, not on what earlier factorisations left in the work arrays or in the factor arrays.", "quantifier": "every content of the work arrays", "why_tests_cant": "all stale states", "anchors": ["src/ldl.c:LDL_numeric", "src/Auxilary.c:kktsolve_1", "src/Auxilary.c:kktsolve_2"]}
{"id": "C42", "title": "Verbosity does not change results", "statement": "Two solves from the same handle that differ only in the verbosity level return the same point, statistics and exit code.", "quantifier": "every handle and verbosity level", "why_tests_cant": "hyperproperty", "anchors": ["src/qpSWIFT.c:QP_SOLVE"]}
{"id": "C43", "title": "Solution blocks", "statement": "x and s move with the primal step length and y and z with the dual step length, each by exactly step length times the computed direction, and nothing else in the returned point changes.", "quantifier": "every iteration", "why_tests_cant": "all data", "anchors": ["src/qpSWIFT.c:QP_SOLVE", "src/Auxilary.c:updatevariables"]}
{"id": "C44", "title": "At least one inequality is required", "statement": "With m = 0 setup reads the first element of an empty array; the documented precondition m != 0 is necessary.", "quantifier": "every problem with m = 0", "why_tests_cant": "undefined behaviour is not observable reliably", "anchors": ["src/Auxilary.c:kkt_initialize", "src/Auxilary.c:findminmax"]}
{"id": "C45", "title": "An infeasible problem is not reported optimal", "statement": "In exact arithmetic, if exit code 0 is returned then every certificate of infeasibility (z >= 0, G'z + A'y = 0) satisfies -(h'z + b'y) <= (reltol/sqrt 3)(|z| + |y|); hence a problem with a certificate beyond that bound never gets exit code 0.", "quantifier": "every problem, every certificate, all tolerances", "why_tests_cant": "no finite set of runs covers all infeasible problems", "anchors": ["src/qpSWIFT.c:QP_SOLVE"]}
{"id": "C46", "title": "An unbounded problem is not reported optimal", "statement": "In exact arithmetic, if exit code 0 is returned then every direction d with Pd = 0, Ad = 0, Gd <= 0 satisfies -c'd <= (reltol/sqrt 3)|d|.", "quantifier": "every problem, every direction, all tolerances", "why_tests_cant": "no finite set of runs covers all unbounded problems", "anchors": ["src/qpSWIFT.c:QP_SOLVE"]}
{"id": "C47", "title": "The starting point", "statement": "In exact arithmetic setup leaves the documented starting point: x and y solve the KKT system with unit scaling and right-hand side (-c, b, h) up to the regularised diagonal, s is h - Gx and z its negative, each shifted by a constant so that all components are positive; the options are the defaults and no iteration is counted.", "quantifier": "every valid problem, permutation and ordering outcome", "why_tests_cant": "identity over all data", "anchors": ["src/qpSWIFT.c:QP_SETUP", "src/Auxilary.c:kkt_initialize"]}
{"id": "C48", "title": "The starting point is optimal for a relaxed problem", "statement": "In exact arithmetic, for convex problems and when setup regularises no pivot, the starting x satisfies Ax = b and minimises f(x) + |h - Gx|^2/2 over all such x; s, z > 0, and s is the slack itself or at least 1.", "quantifier": "every convex problem, every comparison point", "why_tests_cant": "quantifies over all points with Ax = b", "anchors": ["src/Auxilary.c:kkt_initialize"]}
{"id": "C49", "title": "MATLAB call: arguments are checked before anything is solved", "statement": "The MATLAB function accepts exactly the four documented argument lists with sparse real matrices and dense real vectors of matching sizes and one to three outputs; anything else with outputs ends in an error message without a memory error; without outputs a help text is printed.", "quantifier": "every list of arguments and every number of outputs", "why_tests_cant": "quantifies over all argument lists", "anchors": ["matlab/qpSWIFT_mex.c:mexFunction"]}
{"id": "C50", "title": "MATLAB call: options and ranges", "statement": "The settings used are the defaults overridden by exactly the options given under the upper or lower case name; an option outside its range (iterations 0..200, tolerances 0..1, sigma and verbose not negative) ends in an error; in binary64 an iteration limit in range becomes its integer part. NaN passes the range checks, and a NaN iteration limit is converted to an integer with undefined behaviour.", "quantifier": "every option struct", "why_tests_cant": "quantifies over all structs and all doubles", "anchors": ["matlab/qpSWIFT_mex.c:mexFunction"]}
{"id": "C51", "title": "MATLAB call: outputs", "statement": "An accepted call is one setup, one change of options and one solve on the data of the arguments, without memory error; the outputs are the solution, the code and iteration count, and the objective and multipliers of that session. With three outputs and an iteration limit of zero an uninitialised objective is read.", "quantifier": "every accepted call with valid data", "why_tests_cant": "all problems and options", "anchors": ["matlab/qpSWIFT_mex.c:mexFunction"]}
{"id": "C52", "title": "MATLAB call: permutation option", "statement": "A vector of integers under PERMUT or permut is accepted exactly if it lists 1..n+m+p in some order, and setup then gets the permutation counted from 0; otherwise the call ends in an error. No other field has an effect, not even the documented name Permut; non-integers are truncated and may be accepted.", "quantifier": "every option struct and dimension", "why_tests_cant": "quantifies over all vectors and structs", "anchors": ["matlab/qpSWIFT_mex.c:mexFunction"]}
{"id": "C53", "title": "Simulink blocks", "statement": "For valid data with at least three variables both blocks output the first three components, the code and the iteration count of one solve of the dense problem stored column by column with default settings; with fewer variables they read outside the solution.", "quantifier": "every valid input to the ports", "why_tests_cant": "all sizes and data", "anchors": ["simulink/qpSWIFT_sfunc_e.c:mdlOutputs", "simulink/qpSWIFT_sfunc.c:mdlOutputs"]}
{"id": "C54", "title": "Exit code 0 in double precision", "statement": "If a first solve in binary64 returns 0 (finite tolerances, at most 2^51 stored entries and variables), then every number of the problem is finite, and for the problem the doubles denote exactly, the returned point's dual, inequality and equality residuals have norm at most (reltol/sqrt 3 + 2^-508)/(1-g)^3 plus g times the norm of the summed magnitudes, g = (number of operations) * 2^-52; the mean of s_i z_i is below abstol up to the same relative error. Hence, with s, z >= 0 and P positive semidefinite, the point violates each constraint by at most those bounds and its objective exceeds that of any feasible point by at most the corresponding duality bound.", "quantifier": "all valid problems, data and options in IEEE doubles, overflow and underflow included", "why_tests_cant": "rounding errors depend on data and size; a test compares with another floating-point computation", "anchors": ["src/Auxilary.c:computeresiduals", "src/qpSWIFT.c:QP_SOLVE"]}
{"id": "C55", "title": "Overwriting the data between solves", "statement": "The handle keeps pointers to the caller's c, h, b and to the values of P, A, G. If the caller overwrites any of them with arrays of the same size between calls, no later call reads or writes out of bounds; a solve that returns 0 (after one that did not) returns a point that passes the documented test, with its objective value, for the data as they are at that moment; after new c, h, b every solve is the documented method for the new vectors. New values of P, A, G do not reach the KKT matrix, which keeps pattern and values of setup except for the scaling entries, so such a solve need not converge where a new setup would.", "quantifier": "all valid problems and all sequences of option changes, solves and writes", "why_tests_cant": "unbounded sequences; data arbitrary", "anchors": ["src/qpSWIFT.c:QP_SETUP", "src/qpSWIFT.c:QP_SOLVE", "src/Auxilary.c:SparseMatrixSetup", "src/Auxilary.c:computeresiduals", "src/Auxilary.c:updatekktmatrix"]}
{"id": "C56", "title": "Strongly convex problems: which pivots are regularised", "statement": "In exact arithmetic, for a problem whose quadratic form is at least lam |x|^2 with lam > 1e-14, setup and every iteration from a point with s_i > 1e-14 z_i change the diagonal of the KKT matrix in equality rows only, and there by 0 or by -1e-7 up to 1e-14, whatever the elimination order; so inequality residuals contract by exactly 1 - alpha_p and the dual residual law is exact. Without equality constraints no pivot is ever regularised: the starting point minimises the relaxed objective and the answers do not depend on order or storage. For a convex problem that is not strongly convex this fails: a zero pivot of a variable is replaced by -1e-7, which makes the system nonconvex.", "quantifier": "all strongly convex problems, all elimination orders, all sessions", "why_tests_cant": "all orders and iterates; a test cannot see that no pivot could have been small", "anchors": ["src/ldl.c:LDL_numeric", "src/Auxilary.c:kktsolve_1", "src/Auxilary.c:kkt_initialize"]}
{"id": "C57", "title": "Renaming variables and constraints renames the answer", "statement": "Let two callers pass problems that differ only in the order in which variables, equality rows and inequality rows are listed (with the matching permutation of P, A, G, c, b, h), with the same centering parameter, and make the same sequence of option changes and solves. In exact arithmetic, when no pivot is regularised, every solve returns the same code and the same iteration count, residual norms, objective value and step lengths, and x, y, z, s of one caller are those of the other under the renaming. For strongly convex problems without equality constraints it is enough that slacks are not tiny relative to multipliers.", "quantifier": "all pairs of valid problems of any dimensions, all permutations of variables, equalities and inequalities, all orderings used for elimination, all call sequences", "why_tests_cant": "tests compare a few hand-permuted problems up to rounding; the claim covers all permutations, all problems and all iterations", "anchors": ["src/qpSWIFT.c: QP_SETUP", "src/qpSWIFT.c: QP_SOLVE", "src/Auxilary.c: kkt_initialize", "src/Auxilary.c: findsteplength"]}
{"id": "C58", "title": "The Python binding gives back what it takes", "statement": "A call of qpSWIFT.run from Python never touches a dead object. If its arguments are accepted it returns a new dictionary; every object that existed before has exactly the references it had, every temporary array is freed, and the new objects left are exactly those reachable from the result, each with one reference. If an array is rejected nothing changes except that an exception is set. If an option is rejected an exception is set and the first rejected value has one reference too many (a leak); all other counts are as before. An exception is left pending beside a result exactly when OUTPUT does not fit a C long, or is a bad value and warnings are errors.", "quantifier": "all argument objects and aliasing between them, contiguous or not, all option dictionaries, all output levels, with and without equality constraints", "why_tests_cant": "a leaked reference or a dangling one does not show in the returned numbers; tests do not look at reference counts and exercise few combinations of output level, layout and rejected option", "anchors": ["python/pyqpSWIFT.c: method_qpSWIFT", "python/pyqpSWIFT.c: getptr"]}
{"id": "C59", "title": "Rounding errors of the factorisation and of the linear solve are bounded", "statement": "In IEEE double arithmetic, with n at most 2^50, no row stored twice in a column, and a factorisation whose stored L and D are finite, L D L' differs from the permuted upper triangle plus a diagonal E by at most (n+1) 2^-52 (|L||D||L|') entrywise plus an underflow term. No pivot is zero. E_k is zero with a pivot larger than about 1e-14, or the computed pivot was at most about 1e-14 and was replaced by about 1e-7 with its sign (zero counts as negative). For a symmetric matrix the solution x returned by factor and solve, if finite, has residual |b - (K+E)x| at most (3n+2) 2^-52 |L||D||L|'|x| plus an underflow term.", "quantifier": "all dimensions up to 2^50, all sparse patterns without repeated rows, all permutations, all double values for which the stored results are finite, all right-hand sides", "why_tests_cant": "a test compares one result with a reference up to a tolerance chosen by hand; it does not show that the error stays within a bound for every matrix, ordering and pivot sequence", "anchors": ["src/ldl.c: LDL_numeric", "src/ldl.c: LDL_lsolve", "src/ldl.c: LDL_dsolve", "src/ldl.c: LDL_ltsolve", "src/ldl.c: LDL_perm", "src/ldl.c: LDL_permt"]}
{"id": "C60", "title": "In double precision one interior-point step satisfies the Newton equations, and shrinks the residuals, up to stated rounding errors", "statement": "Take a solve with maxit = 1 that performs a step, in IEEE double arithmetic, on a valid problem with symmetric P, no row stored twice in a column and every row of G non-empty. If the factor, the direction and the new point are finite, then the stored direction (delta_x, delta_y, delta_z, delta_s) satisfies each Newton equation of the caller's problem, with the diagonal E added by pivot replacement, up to the error of the linear solve plus the error of the residual; z dS + s dz equals the complementarity right-hand side up to 2^-51 relative; x, s move by alpha_p and y, z by alpha_d along the direction up to rounding; and each equality, inequality and dual residual after the step equals (1 - step length) times the one before (the dual one plus (alpha_d - alpha_p) P dx), up to the same errors. If no pivot was replaced, E is zero.", "quantifier": "all valid problems with at most 2^50 unknowns, all call sequences before the step, all options and points reached, all double values for which the stored results are finite", "why_tests_cant": "a test sees that residuals get small on some problem; it cannot show that every step, from every state, reduces them by the step length within a bound computed from the stored factor", "anchors": ["src/qpSWIFT.c: QP_SOLVE", "src/Auxilary.c: kktsolve_1", "src/Auxilary.c: kktsolve_2", "src/Auxilary.c: computeresiduals", "src/Auxilary.c: updatevariables"]}
{"id": "C61", "title": "A solve of k iterations is k solves of one iteration", "statement": "From any state reached by a sequence of option changes and solves, one QP_SOLVE with iteration limit k and a caller's loop that k times sets maxit to 1 and calls QP_SOLVE both return, and leave identical x, y, z, s, sigma, tolerances and statistics (iteration count, residual norms, step lengths, objective value); only the exit code and maxit itself differ. This holds whether or not the convergence test passes within k iterations.", "quantifier": "all valid problems, all call sequences before, all options and limits, every arithmetic (exact or floating point)", "why_tests_cant": "tests compare two runs on a few problems; hidden state carried between calls (factor reuse, predictor results, counters) could matter only on some problem or after some call history", "anchors": ["src/qpSWIFT.c: QP_SOLVE"]}
{"id": "C62", "title": "What exit code 0 means in double precision, after any call history", "statement": "In any sequence of option changes and solves, when QP_SOLVE returns 0 and the preceding call did not, the exact dual, inequality and equality residuals of the caller's problem at the returned doubles are bounded by reltol/sqrt(3) up to explicit rounding terms, and with nonnegative s and z the point is nearly feasible and nearly optimal by explicit bounds. An infeasible problem can then be reported solved only if the value of each of its infeasibility certificates is below an explicit multiple of the tolerance and the rounding terms, and an unbounded problem only if each of its descent directions is that slow.", "quantifier": "all valid problems of at most 2^51 operations per residual, all call sequences, all finite tolerances, all IEEE binary64 inputs including subnormal, infinite and NaN", "why_tests_cant": "tests look at a few problems after one solve; the rounding of the residuals and the state left by earlier solves vary over all inputs and histories", "anchors": ["src/qpSWIFT.c: QP_SOLVE", "src/Auxilary.c: computeresiduals"]}
{"id": "C63", "title": "Turning and shifting the coordinates turns and shifts the answer", "statement": "In exact arithmetic, when no pivot is regularised, stating the same problem in coordinates x' = T'(x - x0) with an orthogonal T, with the equality constraints combined by an orthogonal matrix and the inequalities reordered, changes nothing but the coordinates: any sequence of option changes and solves gives the same exit codes, iteration counts, step lengths and residual norms, x' = T'(x - x0), correspondingly mixed y and reordered z and s, and objective values that differ by the objective at x0. For strongly convex problems without equalities the condition on pivots follows from bounds on s/z along the run.", "quantifier": "all valid symmetric problems, all orthogonal T and shifts x0, all elimination orders on either side, all call sequences", "why_tests_cant": "a relation between two runs for a continuum of coordinate changes; tests can only compare rounded runs for a few", "anchors": ["src/qpSWIFT.c: QP_SETUP", "src/qpSWIFT.c: QP_SOLVE", "src/Auxilary.c: kkt_initialize"]}
{"id": "C64", "title": "Slacks and multipliers stay nonnegative in double precision", "statement": "In binary64 arithmetic the slacks s and inequality multipliers z after setup are nonnegative whenever they are finite. A step taken from nonnegative s and z leaves them nonnegative if they stay finite and the reported step lengths alpha_p, alpha_d are each 0 or at least 2^-1000; every entry of at least 2^-1000 keeps more than 1/128 of its value. Hence they are nonnegative after any number of such iterations and at the end of any such solve, and the meaning of exit code 0 in double precision (C54, C62) needs no sign assumption. The bound on the lengths cannot be dropped: findsteplength and updatevariables can move s = 3*2^-53 to a negative number.", "quantifier": "all valid problems, all sessions, all iterations; all binary64 data including those that produce NaN or infinity elsewhere", "why_tests_cant": "the claim is about the worst case of several rounding errors in the ratio test and the update over all binary64 values; the failing corner needs a subnormal ratio that random tests do not produce", "anchors": ["src/Auxilary.c: findsteplength", "src/Auxilary.c: updatevariables", "src/Auxilary.c: findminmax", "src/Auxilary.c: kkt_initialize", "src/qpSWIFT.c: QP_SOLVE"]}
{"id": "C65", "title": "LDL_row_cache_numeric recomputes the factor from the marked rows alone", "statement": "LDL_row_cache_numeric, called with the arrays of an earlier factorisation, a set of marked elimination steps closed under the parent relation that contains every step whose matrix entries changed, and a work vector Y that is zero at the unmarked steps, stays within its arrays, terminates and returns n with Y zero again. In exact arithmetic Lx and D are then those that LDL_numeric computes from scratch for the new values, and Li is unchanged. The memory claim holds in any arithmetic whose pivots can be divided by.", "quantifier": "all sizes, patterns, orderings, old and new values, sets of marked steps", "why_tests_cant": "the function is compiled but never called, and the claim needs the closure of the marks under the elimination tree, which a sample of matrices does not establish", "anchors": ["src/ldl.c: LDL_row_cache_numeric", "src/ldl.c: LDL_numeric"]}
{"id": "C66", "title": "test_reach marks the steps that a change of the scaling block touches", "statement": "If the elimination forest is a tree, test_reach marks exactly the last step and the ancestors of the steps that eliminate the rows n+p..N-1; the marks are closed under the parent relation and cover every change of values confined to the columns n+p..N-1, so that LDL_row_cache_numeric called with them reproduces the full factorisation in exact arithmetic. If a marked path ends in a root other than N-1 no execution completes: UPattern[-1] is read. Two uncoupled one-variable problems are such a case.", "quantifier": "all sizes, forests, orderings and values", "why_tests_cant": "the out-of-bounds read depends on the shape of the elimination forest and hits a readable address in practice; agreement of the partial and the full factorisation has to hold for all matrices", "anchors": ["src/Auxilary.c: test_reach", "src/ldl.c: LDL_row_cache_numeric", "src/ldl.c: LDL_symbolic"]}
{"id": "C67", "title": "formkktmatrix_U builds the upper triangle of the matrix that formkktmatrix_full builds", "statement": "For a problem without equality constraints, formkktmatrix_U, given room for nnz(P)+nnz(G)+m entries, stays within its arrays and returns valid compressed columns whose column c lists, in the same order, the entries of column c of formkktmatrix_full that lie in rows at or above c. In exact arithmetic its matrix is the upper triangle of the full one. It therefore shares the defect of the full builder: when a row of G is empty the diagonal entry -1 of that row is missing.", "quantifier": "all sizes, all valid P and G, any arithmetic; entries in exact arithmetic", "why_tests_cant": "the function is compiled but never called, and agreement of two builders must hold for every sparsity pattern", "anchors": ["src/Auxilary.c: formkktmatrix_U", "src/Auxilary.c: formkktmatrix_full"]}
{"id": "C68", "title": "LDL_cache_numeric (left-looking) recomputes the factor from the marked columns alone", "statement": "LDL_cache_numeric, called with the arrays of an earlier factorisation of a matrix with symmetric pattern, marks closed under the parent relation and a zero work vector, stays within its arrays, terminates and returns n with the work vector zero again, provided every unmarked step has a marked parent or is followed by a further entry of the factor. In exact arithmetic, for symmetric matrices without repeated entries whose unmarked columns did not change below the diagonal, Lx and D are then those LDL_numeric computes from scratch. With the marks of test_reach and a change confined to the inequality columns the conditions hold when the last two steps are connected. Without the provision Li is read one past its end; with repeated entries the last value replaces the sum.", "quantifier": "all sizes, symmetric patterns, orderings, old and new values, closed sets of marks", "why_tests_cant": "the function is compiled but never called; the out-of-bounds read depends on the shape of the elimination forest, and agreement with the full factorisation has to hold for every matrix", "anchors": ["src/ldl.c: LDL_cache_numeric", "src/ldl.c: LDL_numeric", "src/Auxilary.c: test_reach"]}
{"id": "C69", "title": "The factor has exactly the fill that elimination graph theory predicts", "statement": "Call two elimination steps linked if the matrix has an entry at their position (in the triangle LDL reads). LDL_numeric stores row k in column i of the factor exactly if there is a walk along links from i to k > i whose inner nodes are all before i. The count LDL_symbolic gives for a column is the number of such k, the parent is the smallest such k or -1, and the total is at most n(n-1)/2. Adding entries to the matrix never shortens a column, and in an order where the later neighbours of every step are linked to each other nothing fills in. After setup and any number of calls the handle's column pointers and elimination tree describe the handle's KKT matrix in this sense.", "quantifier": "all sizes, compressed-column patterns (unsorted, with repetitions, unsymmetric), orderings, arithmetics, call sequences", "why_tests_cant": "a characterisation of the pattern for every graph; tests compare a few patterns with another factorisation code", "anchors": ["src/ldl.c: LDL_symbolic", "src/ldl.c: LDL_numeric", "src/Auxilary.c: ldlinitialsolve"]}
{"id": "C70", "title": "Reported times on every platform", "statement": "On POSIX and Windows the time returned by toc is a finite nonnegative double within a relative 3 (POSIX) or 4 (Windows) units of 2^-53 of the elapsed time, and it does not decrease when the second reading is later (POSIX: up to 2^53 seconds). On macOS, also across a wrap-around of the tick counter, it is the elapsed time in whole nanoseconds, rounded down, divided by 10^9 with a relative error of at most 3 * 2^-53, provided ticks * numer < 2^64; beyond that the product wraps around and 553 s can be reported as 8 ns.", "quantifier": "all pairs of clock readings, counter frequencies and time bases", "why_tests_cant": "one machine has one time base and no test waits for a wrap-around; the error bound is over all readings", "anchors": ["src/timer.c: toc", "include/timer.h: qp_timer"]}
{"id": "C71", "title": "Tolerances, iteration limit and verbosity only decide when a solve stops", "statement": "From any state of a handle, two solves that start with the same sigma and make the same number of iterations end at the same x, y, z, s and centering parameter bit for bit, whatever reltol, abstol, maxit and verbose are. A first solve that returns 0 after k iterations returns 0 with the same result for every limit above k, and returns MAXIT after exactly K iterations for every limit 0 <= K <= k. With larger (or equal) tolerances and limit it still returns 0, after at most k iterations, at the point the stricter run passes after that many iterations; this includes infinite tolerances in binary64.", "quantifier": "all valid problems, call sequences, option values; exact arithmetic and binary64", "why_tests_cant": "relates pairs of executions for all pairs of options; needs monotonicity of the rounded comparison for every tolerance", "anchors": ["src/qpSWIFT.c: QP_SOLVE", "include/Auxilary.h: settings"]}
{"id": "C72", "title": "The C solver and the MATLAB prototype make the same iterations while steps are blocked", "statement": "In exact arithmetic, the first solve of a handle with default options and the prototype qpSWIFT_matlab.m on the same problem and sigma_d start at the same x, y, s, z. As long as no pivot is regularised and the predictor and combined directions leave the positive orthant (before step 1000 and 1e10), both make the same iterations: same points, step lengths and centering parameters. Where the C solver's stopping test passes, the prototype stops, so if a solve returns 0 after k such iterations, every run of the prototype stops after k' <= k passes at the k'-th point of the C solver. Neither condition can be dropped: when nothing blocks the step the C solver takes 0.99 and the prototype 1, and the prototype's stopping test accepts points that the C solver's rejects.", "quantifier": "all valid problems with symmetric P, all runs of the prototype, any elimination order", "why_tests_cant": "equivalence of two programs for all problems; the difference only appears when a direction is unblocked", "anchors": ["matlab/prototype code/qpSWIFT_matlab.m", "matlab/prototype code/qpSWIFT_init.m", "matlab/prototype code/findsteplength.m", "matlab/prototype code/qpSWIFT_checkinputs.m", "src/qpSWIFT.c: QP_SOLVE", "src/Auxilary.c: findsteplength"]}
{"id": "C73", "title": "What a solve prints", "statement": "Printing does not change a solve: exit code and handle are the same with and without it. With verbose <= 0 nothing is printed. With verbose > 0 and equality constraints the text of every solve is: the header; for each pass a line with the running iteration count, objective value, the three residual norms and the complementarity gap of the point the pass starts from, followed by the two step lengths it takes, which are the numbers a caller would read in the statistics after limiting the same solve to that pass; one more such line for the point that passes the test; and a closing line that is determined by the exit code and the iteration count in the handle. In exact arithmetic the printed numbers are the objective, Euclidean residual norms and gap of the iterates of the method. The closing line 'Optimal Solution Found' of a later solve does not imply that its point passes the test.", "quantifier": "every valid problem with equality constraints, every session, every number of iterations, any arithmetic; printing and closing line: every handle", "why_tests_cant": "Tests never inspect the printed text, and they cannot compare each of an unbounded number of lines with the state of the pass that printed it.", "anchors": ["src/qpSWIFT.c:484-488", "src/qpSWIFT.c:513-516", "src/qpSWIFT.c:598-601", "src/qpSWIFT.c:613-641"]}
{"id": "C74", "title": "A fresh handle and a first solve with default options", "statement": "Every handle that either setup returns holds the documented defaults (100 iterations, both tolerances 10^-6, sigma 100, no output), iteration count 0, step lengths 0, exit code 3 and no residuals; in binary64 the tolerances are 10^-6 rounded to nearest and sigma is exactly 100. A first solve without setting options returns, makes at most 100 iterations and gives code 0 with fewer than 100 iterations or code 2 with exactly 100; in exact arithmetic 0 means that the three residual norms of the returned point are below 10^-6/sqrt 3 and its complementarity gap is below 10^-6.", "quantifier": "defaults: every handle from QP_SETUP or QP_SETUP_dense, any arithmetic; first solve: every valid problem", "why_tests_cant": "A test observes the defaults on its own problems only and cannot show that the bound on iterations and the meaning of the exit code hold for every problem.", "anchors": ["src/qpSWIFT.c:70-83", "src/qpSWIFT.c:270-283", "include/GlobalOptions.h:46-50", "src/qpSWIFT.c:473-644"]}
{"id": "C75", "title": "All iterates satisfy the equalities and relax every inequality by the same amount", "statement": "In exact arithmetic and as long as no pivot is regularised: after setup, in every iteration and after every call, Ax = b holds exactly and there is one number t >= 0 with s = h + t - Gx in every row. t never grows: each iteration multiplies it by 1 - alpha_p, so with primal steps of at least a it is at most (1-a)^k times its value at the start of the solve. The inequality residual has norm t sqrt(m), so after a solve that stops before the iteration limit every inequality is violated by less than reltol/sqrt(3m) and every equality holds. If the starting x is strictly feasible then so is every iterate; a full primal step makes x strictly feasible for good; if no strictly feasible point exists, no iteration of any solve takes a full primal step. For linear programs (P = 0) the dual side is the same: some r >= 0, the same for all rows and multiplied by 1 - alpha_d in every iteration, can be subtracted from the multipliers to make c + A'y + G'z vanish exactly.", "quantifier": "every valid problem with a coefficient in every inequality row and symmetric P, every session without regularised pivots, every solve and iteration in it", "why_tests_cant": "A test sees residuals in floating point on particular problems; that the residual vector keeps one direction along every trajectory of every problem is a statement about all of them.", "anchors": ["src/qpSWIFT.c:225-233", "src/qpSWIFT.c:473-644", "src/Auxilary.c:471-573", "src/Auxilary.c:992-1100"]}
{"id": "C76", "title": "Any number of handles can be set up and cleaned up in any order", "statement": "A client holds any number of handles at once, made by QP_SETUP or QP_SETUP_dense, possibly over the same arrays, and cleans each up with the matching function in any order, calling malloc and free itself in between, even on the problem data before the cleanup. As long as it cleans up only handles it has and frees only its own blocks, no block is released twice and no dead block is touched; the client's blocks keep their contents; every live handle owns at most a fixed number of blocks (sparse 40, dense 46, plus 8 or 11 with equality constraints, plus 1 without a permutation), exactly that many if malloc never fails; when all handles are gone, only the client's blocks remain. Cleaning up NULL, a dead pointer, or a handle a second time is undefined behaviour.", "quantifier": "every sequence of calls of every length, every allocator behaviour, every outcome of AMD_order, every initial heap", "why_tests_cant": "interleavings of any number of handles and allocator behaviours cannot be enumerated", "anchors": ["src/qpSWIFT.c:60-234", "src/qpSWIFT.c:260-456", "src/qpSWIFT.c:661-737", "src/qpSWIFT.c:754-839"]}
{"id": "C77", "title": "The integers kept in a handle stay in range", "statement": "After setup and any sequence of QP_SOLVE and option changes on documented arguments, every index the handle stores is within bounds given by the dimensions: with N = n + p + m, column starts of the KKT matrix lie between 0 and nnz(P) + 2 nnz(A) + 2 nnz(G) + m, row indices, both permutations, factor rows, marks and stacks between 0 and N - 1, tree parents between -1 and N - 1, factor column starts between 0 and C and column counts between 0 and C + 1, where C is the stored size of the factor and 2 C <= N (N - 1). So any signed integer type that holds N, the entry count and N (N - 1) / 2 + 1 holds them all; a 64-bit long does for N up to 2^32. Solves never write the index arrays made by setup, for arguments of any kind with dimensions that are not negative, sparse or dense.", "quantifier": "every problem, every sequence of calls, every arithmetic with a total division, every ordering routine", "why_tests_cant": "overflow needs problems too large to run, and the bound must hold for every elimination order and every sequence of solves", "anchors": ["include/GlobalOptions.h:39-43", "src/ldl.c:187-390", "src/Auxilary.c:455-640", "src/qpSWIFT.c:60-234"]}
{"id": "C78", "title": "Exit code 0 locates the solution", "statement": "For every point x*, y*, z* satisfying the optimality conditions of a convex problem, exit code 0 implies (x-x*)'P(x-x*) <= T, and for every inequality s_i z*_i <= T and z_i (h - Gx*)_i <= T, where T = r(|x-x*| + |y-y*| + |z-z*|) + m*abstol and r = reltol/sqrt 3; so an inequality with a positive multiplier has slack at most T/z*_i and one that is not tight has multiplier at most T/(h-Gx*)_i. If x'Px >= lam|x|^2 with lam > 0 then |x-x*| <= r/lam + sqrt((r(|y-y*| + |z-z*|) + m*abstol)/lam). In binary64 the same holds, after any call history, for the problem the doubles denote exactly, with r and m*abstol enlarged by explicit rounding terms.", "quantifier": "every problem, every solution of it, every sequence of calls", "why_tests_cant": "the true solution is not available to a test, and the bound must hold for every problem and every elimination order", "anchors": ["src/qpSWIFT.c:QP_SOLVE", "src/Auxilary.c:computeresiduals"]}
{"id": "C79", "title": "Data that are not finite are never reported as solved", "statement": "In binary64: if a number of the problem (an entry of P, G, c, h, or of A, b when they take part; for dense input any number in the buffers) is NaN or infinite, no solve of any sequence of calls returns 0. The same when reltol is not a positive number or abstol is NaN. In both cases a first solve with maxit >= 0 returns 2 after exactly maxit iterations. When a solve returns 0 and the call before did not, the slacks, and the variables and multipliers of every column and row with a stored coefficient, are finite.", "quantifier": "every problem of any size, every sequence of calls, every option value", "why_tests_cant": "a NaN can be placed in any entry of problems of any size, and the claim must survive every path the NaN takes through ordering, factorisation and steps", "anchors": ["src/qpSWIFT.c:QP_SOLVE", "src/qpSWIFT.c:QP_SETUP_dense", "src/Auxilary.c:computeresiduals"]}
{"id": "C80", "title": "The reported objective value is close to the optimal value", "statement": "When a solve returns 0 and the code is not left over from an earlier call, the reported fval is the objective at the returned x: exactly in exact arithmetic, and in binary64 up to an explicit relative error of the terms added up plus underflow, provided fval is finite. For a convex problem with a point satisfying the optimality conditions, fval lies between explicit bounds below and above the optimal value: below, the tolerances times the multipliers of the solution; above, the tolerances times the returned multipliers and the distance in x, plus m times abstol. fval need not be finite: with finite data and a finite answer it can be NaN.", "quantifier": "every problem of any size, every sequence of calls, every option value", "why_tests_cant": "the bounds relate the reported number to the unknown optimal value of every convex problem", "anchors": ["src/Auxilary.c:obj_value", "src/qpSWIFT.c:QP_SOLVE"]}
{"id": "C81", "title": "Solving again after success does nothing", "statement": "Whenever the point in a handle passes the stopping test with the options in the handle and maxit >= 1, a solve makes no iteration: point, options, step lengths and iteration count stay, the statistics are those of the point, and the code is 0, or 2 if the running count happens to equal maxit. After a solve that stopped before making maxit iterations, in particular after a code 0 that is not left over, any number of further solves return the same code and leave point, options and statistics unchanged.", "quantifier": "every valid problem, every sequence of calls before, every number of further solves, any arithmetic (exact and binary64)", "why_tests_cant": "unbounded repetition on every reachable handle; a re-solve runs the whole loop on a handle whose workspace was left by earlier iterations", "anchors": ["src/qpSWIFT.c:QP_SOLVE", "src/Auxilary.c:computeresiduals"]}
{"id": "C82", "title": "What exit code 0 means to a Python or dense caller, in doubles", "statement": "If a Python call with accepted shapes and options returns exit code 0 together with the multipliers and slacks, or a dense session ends in a code 0 that is not left over, then every number in the caller's matrices and vectors is finite, and the returned lists nearly satisfy the optimality conditions of the real problem those matrices describe: each residual is at most the tolerance plus a relative error, bounded in terms of the dimensions only, of the magnitudes that enter it. If the returned slacks and multipliers are nonnegative, the returned point violates no constraint by more than that and its objective exceeds the one of any feasible point by at most an explicit amount.", "quantifier": "every Python call or dense session with valid buffers, every ordering package, every option accepted, every dimension with n*n+m*n+p*n+n+m+p+4 <= 2^51", "why_tests_cant": "a statement about real numbers for every matrix of doubles and every rounding in the run; tests compare with another rounded solver", "anchors": ["python/pyqpSWIFT.c:method_qpSWIFT", "src/qpSWIFT.c:QP_SETUP_dense", "src/qpSWIFT.c:QP_SOLVE", "src/Auxilary.c:densetosparse"]}
{"id": "C83", "title": "Exit code 0 without convexity or symmetry means stationarity, nothing more", "statement": "For an arbitrary square P, an exit code 0 that is not left over bounds how fast the objective can fall to first order: (Px+c)'(x'-x) is at least minus an explicit amount made of the tolerances, for every feasible x'. If P is symmetric, the objective of any feasible x' is at least that of x minus the same amount plus half the curvature (x'-x)'P(x'-x). In doubles the same holds with the rounding terms of C54 and nonnegative slacks and multipliers. Neither hypothesis of the optimality statement C15/C54 can be dropped: on -x^2/2 over [-1,1] the solver returns 0 at the worst feasible point, and on a strictly convex problem given with an upper triangular P it returns 0 at a point that another feasible point beats by more than 9/100 although the tolerances are 1/1000.", "quantifier": "every valid problem with any P, every call history, every feasible point; witnesses for the two refutations", "why_tests_cant": "the bound is over all matrices and all feasible points; tests only use symmetric positive semidefinite P", "anchors": ["src/qpSWIFT.c:QP_SOLVE", "src/Auxilary.c:computeresiduals", "src/Auxilary.c:formkktmatrix_full"]}
{"id": "C84", "title": "What exit code 0 means in MATLAB and in Simulink, in doubles", "statement": "A MATLAB call with three outputs whose ExitFlag is 0: the tolerances used are finite numbers between 0 and 1 (a NaN tolerance is accepted but never met), all numbers of the problem are finite, and the returned x, y, z, s satisfy the optimality conditions of the problem in the workspace up to the tolerance and the rounding error of at most as many operations as the problem has numbers; if the returned s and z are nonnegative then x is feasible and its objective is within an explicit bound of that of every feasible point (P symmetric positive semidefinite). A Simulink block with exit port 0 says the same of the problem on its input ports, with the default tolerances, about the x whose first three components are on its output port.", "quantifier": "every documented call and block input with valid shapes, every accepted option, every elimination ordering", "why_tests_cant": "rounding in every operation for all inputs, and all option values including NaN", "anchors": ["matlab/qpSWIFT_mex.c:mexFunction", "simulink/qpSWIFT_sfunc.c:mdlOutputs", "simulink/qpSWIFT_sfunc_e.c:mdlOutputs", "src/qpSWIFT.c:QP_SOLVE"]}
{"id": "C85", "title": "The fill-reducing ordering is a minimum degree ordering", "statement": "A setup without a user permutation whose ordering does not run out of memory keeps an elimination order that AMD_2 computed on the graph whose nodes are the variables, equalities and inequalities and whose edges are the off-diagonal entries the caller stored in P, A and G (every inequality row having an entry). In general, when AMD_order returns without running out of memory, its permutation comes from AMD_2 run on exactly the graph of A + A' without the diagonal (the same neighbours whether or not the columns were sorted). In every state the main loop of AMD_2 reaches with something left to eliminate, a pivot is found, it is a variable still to be eliminated, and its recorded degree is the smallest recorded degree of all variables still to be eliminated. Before the first pivot the recorded degrees are the true numbers of neighbours and the variables to be eliminated are exactly those with at least one and at most 'dense' neighbours, so the first pivot has the fewest neighbours among them. Every pivot succeeds and eliminates at least one variable; the sizes of the remaining variables always add up to n minus the number eliminated; the loop ends with everything eliminated.", "quantifier": "every well-formed square pattern, every dense limit, with and without aggressive absorption, every reachable state of the loop", "why_tests_cant": "reachable states of the quotient graph are unbounded in number; a test would only see the final permutation, which does not show that a smaller degree was passed over", "anchors": ["src/amd_2.c:AMD_2", "src/amd_1.c:AMD_1", "src/amd_aat.c:AMD_aat", "src/amd_order.c:AMD_order", "src/qpSWIFT.c:QP_SETUP"]}
{"id": "C86", "title": "Which rows the ordering sets aside as dense", "statement": "AMD_defaults followed by AMD_2 works with a well-defined dense-row threshold: the conversion of 10.0*sqrt((double) n) to an integer is defined and gives exactly the integer part of the real number 10 sqrt n, in spite of the two roundings; aggressive absorption is on. The same holds when no Control array is passed. As a result the nodes AMD_2 will eliminate are exactly those with a neighbour that have at most 16 neighbours or at most 10 sqrt n of them; every other row with neighbours is set aside. With at most 101 rows none is set aside, and 101 is the largest such number: in a star with 102 nodes the centre is. QP_SETUP without a permutation applies this rule to the graph of the user's problem. For other callers of the package: with a negative parameter only rows joined to every other row are set aside, and only beyond 17 rows; a NaN or an infinite parameter makes the conversion undefined.", "quantifier": "every n below 2^41, every graph, every content of the Control array before AMD_defaults, every user problem without a permutation", "why_tests_cant": "a rounding that crosses an integer would show only at particular n out of 2^41; no call exposes which rows were set aside", "anchors": ["src/amd_defaults.c:AMD_defaults", "src/amd_2.c:AMD_2", "src/qpSWIFT.c:QP_SETUP", "include/amd.h:AMD_DEFAULT_DENSE"]}
{"id": "C87", "title": "The elimination order and the fill depend only on where the entries are", "statement": "Two problems of the same sizes whose matrices P, A and G have the same column pointers and row indices, and that come with the same user permutation or both without one, get from setup the same column pointers and row indices of the KKT matrix, the same verdict of the ordering package, the same elimination order and its inverse, the same elimination tree, the same column pointers, column counts and row indices of the factor and the same index arrays of its transpose. The values stored in P, A and G, the vectors c, b and h and the parameter sigma_d have no influence, also when the package fails and the fallback order is used. The same holds between a run in doubles and a run in real numbers, so statements about exact arithmetic and about doubles speak of the same order.", "quantifier": "every pair of valid problems with the same pattern in which every inequality has a stored entry; every ordering package", "why_tests_cant": "quantifies over all pairs of value arrays, including NaN and infinities, and over a run in exact arithmetic that cannot be executed", "anchors": ["src/qpSWIFT.c:QP_SETUP", "src/Auxilary.c:formkktmatrix_full", "src/Auxilary.c:ldlinitialsolve", "src/ldl.c:LDL_symbolic", "src/ldl.c:LDL_numeric"]}
