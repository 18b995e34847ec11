{"id": "C01", "title": "Active set: the two views always agree", "statement": "After any sequence of construct/resize/reset/activate/deactivate calls that respects the documented preconditions, the list of active indices read through operator[] contains exactly the indices whose activationStatus is not INACTIVE, each exactly once, and every status is of the kind (general constraint / bound) of its index.", "quantifier": "every history of ActiveSet operations, every number of constraints and bounds", "why_tests_cant": "a test exercises a few short histories; the claim is an invariant of all histories", "anchors": ["include/jrl-qp/internal/ActiveSet.h", "src/internal/ActiveSet.cpp", "ActiveSet::activate", "ActiveSet::deactivate", "ActiveSet::reset", "ActiveSet::resize"]}
{"id": "C02", "title": "Active set: every counter is the true count", "statement": "After any legal history each of nbActiveCstr, nbActiveEquality, nbActiveInequality, nbActiveLowerInequality, nbActiveUpperInequality, nbActiveBound, nbActiveLowerBound, nbActiveUpperBound, nbFixedVariable equals the number of entries of the status vector having the corresponding status, and nbActiveCstr never exceeds nbAll.", "quantifier": "every history of ActiveSet operations", "why_tests_cant": "counters are updated incrementally: only an inductive invariant covers all histories", "anchors": ["include/jrl-qp/internal/ActiveSet.h", "src/internal/ActiveSet.cpp", "ActiveSet::nbActiveCstr", "ActiveSet::nbActiveBound"]}
{"id": "C03", "title": "Active set: activate appends, deactivate(k) erases the k-th, nothing else moves", "statement": "activate(i,s) changes the status of i only and appends i at the end of the active list; deactivate(k) changes the status of the k-th active constraint only, and the other active constraints keep their relative order; out-of-precondition calls are flagged (assert) rather than silently accepted.", "quantifier": "every state reachable by a legal history, every index", "why_tests_cant": "frame conditions quantify over all untouched entries in all states", "anchors": ["include/jrl-qp/internal/ActiveSet.h", "src/internal/ActiveSet.cpp", "ActiveSet::activate", "ActiveSet::deactivate"]}
{"id": "C04", "title": "Active set: construction from a status vector round-trips", "statement": "Building an ActiveSet from any kind-correct status vector gives back that same vector from activationStatus(), with active indices in increasing order; and rebuilding from the status vector of any reachable set preserves all statuses and counters.", "quantifier": "every status vector, every split between constraints and bounds", "why_tests_cant": "unbounded family of vectors", "anchors": ["include/jrl-qp/internal/ActiveSet.h", "src/internal/ActiveSet.cpp", "ActiveSet::ActiveSet(const std::vector<ActivationStatus>&,int)"]}
{"id": "C05", "title": "Workspace: changeLd preserves the viewed matrix", "statement": "asMatrix(rows,cols,newLd) after changeLd(rows,cols,oldLd,newLd) shows the same matrix as asMatrix(rows,cols,oldLd) before, for both growing and shrinking leading dimensions, despite the overlapping in-place moves; no access falls outside the buffer; growing requires cols*newLd strictly below the buffer size (an exact fit trips an assertion).", "quantifier": "every buffer content, every rows, cols, oldLd, newLd with rows<=min(oldLd,newLd) and cols*max(oldLd,newLd) within the buffer", "why_tests_cant": "in-place overlapping moves: order-of-copy errors appear only for some (ld,cols) pairs", "anchors": ["include/jrl-qp/internal/Workspace.h", "Workspace::changeLd", "Workspace::asMatrix"]}
{"id": "C06", "title": "Workspace/resize: views requested by the solver always fit", "statement": "After any history of public calls on a solver, the buffers are large enough for every view the solver takes for the current problem size; Workspace::resize(size) guarantees size() >= size, only ever grows without fit, and is exact with fit.", "quantifier": "every sequence of resize calls with arbitrary sizes", "why_tests_cant": "depends on conditional resizing logic over histories of sizes", "anchors": ["include/jrl-qp/internal/Workspace.h", "src/DualSolver.cpp", "DualSolver::resize_p", "GoldfarbIdnaniSolver::resize_"]}
{"id": "C07", "title": "Iteration limit is respected", "statement": "solve() always returns; iterations() never exceeds maxIter; MAX_ITER_REACHED is returned only with iterations()==maxIter, SUCCESS and INFEASIBLE only with iterations()<maxIter, NON_POS_HESSIAN only with iterations()==0.", "quantifier": "every problem, every option value, every prior solver history", "why_tests_cant": "needs every trajectory of the active-set loop", "anchors": ["include/jrl-qp/DualSolver.h", "src/DualSolver.cpp", "DualSolver::solve", "DualSolver::iterations"]}
{"id": "C08", "title": "Which statuses solve() can return", "statement": "For the dense solver, solve() only returns SUCCESS, NON_POS_HESSIAN, INFEASIBLE or MAX_ITER_REACHED (plus OVERCONSTRAINED_PROBLEM for the warm-startable one); LINEAR_DEPENDENCY_DETECTED, INCONSISTENT_INPUT and UNKNOWN are never returned.", "quantifier": "every problem and history", "why_tests_cant": "absence of an outcome over all executions", "anchors": ["include/jrl-qp/DualSolver.h", "src/DualSolver.cpp", "src/GoldfarbIdnaniSolver.cpp", "TerminationStatus", "DualSolver::terminate"]}
{"id": "C09", "title": "SUCCESS means primal feasible", "statement": "If solve() returns SUCCESS then solution() satisfies bl <= C^T x <= bu and xl <= x <= xu (exact arithmetic), provided bl<=bu, xl<=xu and the equality constraints are linearly independent (above the 1e-14 tolerance); without either proviso SUCCESS can be returned at an infeasible point.", "quantifier": "every problem (any G, any C, bounds possibly infinite), every option value, every history of the object", "why_tests_cant": "inputs are real matrices of any size; iterations unbounded", "anchors": ["include/jrl-qp/DualSolver.h", "src/DualSolver.cpp", "src/GoldfarbIdnaniSolver.cpp", "DualSolver::solve", "GoldfarbIdnaniSolver::selectViolatedConstraint_"]}
{"id": "C10", "title": "SUCCESS means optimal", "statement": "If solve() returns SUCCESS then solution() with multipliers() satisfies the KKT conditions (stationarity, sign of multipliers, complementarity), hence solution() is the unique global minimiser of 1/2 x^T G x + a^T x over the feasible set.", "quantifier": "every problem whose equality constraints are numbered first (or absent) and linearly independent, and every run in which the two absolute tolerances (1e-14, bigBnd) do not misfire", "why_tests_cant": "optimality quantifies over all feasible points of all problems", "anchors": ["include/jrl-qp/DualSolver.h", "src/DualSolver.cpp", "src/GoldfarbIdnaniSolver.cpp", "DualSolver::solve", "DualSolver::multipliers", "DualSolver::solution"]}
{"id": "C11", "title": "objectiveValue() is the objective at solution()", "statement": "When solve() returns SUCCESS (or stops by MAX_ITER_REACHED), objectiveValue() = 1/2 x^T G x + a^T x at x = solution().", "quantifier": "every problem with independent equalities, every number of iterations, every run in which the absolute tolerances do not misfire", "why_tests_cant": "the value is updated incrementally along every trajectory", "anchors": ["include/jrl-qp/DualSolver.h", "src/DualSolver.cpp", "DualSolver::objectiveValue"]}
{"id": "C12", "title": "Equality constraints are never dropped", "statement": "When the equality constraints (bl==bu, xl==xu) are numbered before the inequalities, each of them is still active with status EQUALITY (FIXED) when solve() returns; with another numbering an equality can be dropped.", "quantifier": "every problem, iteration budget and history, in exact arithmetic and in doubles", "why_tests_cant": "needs every trajectory; depends on the relation between two index spaces", "anchors": ["include/jrl-qp/DualSolver.h", "src/DualSolver.cpp", "src/GoldfarbIdnaniSolver.cpp", "GoldfarbIdnaniSolver::computeStepLength_"]}
{"id": "C13", "title": "INFEASIBLE is never a false alarm", "statement": "If solve() returns INFEASIBLE then no point satisfies all the constraints (equalities numbered first and independent, tolerances not misfiring); with an equality numbered after an inequality the answer can be a false alarm.", "quantifier": "every problem", "why_tests_cant": "non-existence over all points", "anchors": ["include/jrl-qp/DualSolver.h", "src/DualSolver.cpp", "src/GoldfarbIdnaniSolver.cpp", "DualSolver::solve", "GoldfarbIdnaniSolver::computeStepLength_"]}
{"id": "C14", "title": "multipliers() convention", "statement": "After solve(), multipliers() has one entry per constraint then per bound, is 0 for every INACTIVE entry, is >= 0 for UPPER/UPPER_BOUND and <= 0 for LOWER/LOWER_BOUND entries; calling it again returns the same vector.", "quantifier": "every solver state reached by solve(), any number of calls (signs: equalities first, tolerances not misfiring)", "why_tests_cant": "lazy, mutating accessor: history-dependent", "anchors": ["include/jrl-qp/DualSolver.h", "src/DualSolver.cpp", "DualSolver::multipliers"]}
{"id": "C15", "title": "NON_POS_HESSIAN iff the Hessian is not positive definite", "statement": "solve() returns NON_POS_HESSIAN exactly when the symmetric matrix defined by the lower triangle of G is not positive definite (exact arithmetic).", "quantifier": "every square matrix of every size", "why_tests_cant": "universal over matrices; both directions", "anchors": ["src/GoldfarbIdnaniSolver.cpp", "GoldfarbIdnaniSolver::init_"]}
{"id": "C16", "title": "Re-using a solver does not change results", "statement": "With warm start off, the status, solution, multipliers, active set, objective value and iteration count of solve(problem) depend only on the problem and the options, not on what the solver object solved before (any sizes, any stale buffer contents). Exception: after NON_POS_HESSIAN the data accessors still show stale data.", "quantifier": "every pair of prior histories, every problem", "why_tests_cant": "2-safety property over all histories", "anchors": ["include/jrl-qp/DualSolver.h", "src/DualSolver.cpp", "src/GoldfarbIdnaniSolver.cpp", "DualSolver::init", "DualSolver::resize_p"]}
{"id": "C17", "title": "Warm start: processing of the initial active set", "statement": "For any warm-start vector of the right size, every true equality is activated (as EQUALITY/FIXED), at most nbVar constraints end up active, OVERCONSTRAINED_PROBLEM is returned iff there are more constraints to keep as equalities than variables, every other active constraint has the status the caller gave, on a finite side; a status of the wrong kind trips an assert; FIXED on a bound that is not an equality is ignored, whereas EQUALITY on a general constraint that is not one is not ignored.", "quantifier": "every warm-start vector and every problem", "why_tests_cant": "backward scanning loop over arbitrary mixes of statuses", "anchors": ["src/experimental/GoldfarbIdnaniSolver.cpp", "experimental::GoldfarbIdnaniSolver::processInitialActiveSet"]}
{"id": "C18", "title": "Warm start from the optimal active set terminates immediately", "statement": "Solving again from an active set of the optimum (linearly independent, multipliers of the right sign) returns the same minimiser, the same multipliers and the same active set with zero iterations; in particular restarting from the active set returned by a successful call of the dense or of the warm-startable solver, given explicitly or reused from the object, any number of times, whether or not the multipliers are read in between.", "quantifier": "every problem solved to optimality, every history of the object", "why_tests_cant": "universal over problems", "anchors": ["src/experimental/GoldfarbIdnaniSolver.cpp", "initializeComputationData", "initializePrimalDualPoints"]}
{"id": "C19", "title": "triBlockDiagLLT computes a Cholesky factor", "statement": "For every positive definite block-tridiagonal matrix, triBlockDiagLLT returns true and leaves in the lower triangles of the diagonal blocks and in the sub-diagonal blocks the lower triangular L with positive diagonal such that L L^T is the input; sizes and the strict upper triangles of the diagonal blocks are unchanged and the latter not read; with consistent sizes no access is out of range.", "quantifier": "every number and size of blocks, every matrix", "why_tests_cant": "all block structures", "anchors": ["src/decomposition/triBlockDiagLLT.cpp", "triBlockDiagLLT"]}
{"id": "C20", "title": "triBlockDiagLSolve / LTransposeSolve solve the triangular systems", "statement": "The result X satisfies L X = V (resp. L^T X = V); with start/end hints describing the zero rows of V the result is the same as without hints; factorisation followed by the two solves solves A X = V.", "quantifier": "every block structure, right-hand side and valid start/end", "why_tests_cant": "all block structures and hint positions", "anchors": ["src/decomposition/triBlockDiagLLT.cpp", "triBlockDiagLSolve", "triBlockDiagLTransposeSolve"]}
{"id": "C21", "title": "blockArrowLLT and its solves are correct in both orientations", "statement": "For positive definite arrow matrices blockArrowLLT returns true and the blocks hold the Cholesky factor of the (permuted) matrix; blockArrowLSolve / LTransposeSolve solve P L X = V / L^T P^T X = V with it whatever valid hints are given, for down arrows and, for LSolve, for up arrows whose first and last blocks have the same size; otherwise LSolve on an up arrow is undefined behaviour.", "quantifier": "every number and size of blocks, both orientations", "why_tests_cant": "all block structures; tests use equal block sizes", "anchors": ["src/decomposition/blockArrowLLT.cpp", "blockArrowLLT", "blockArrowLSolve", "blockArrowLTransposeSolve"]}
{"id": "C22", "title": "Block Cholesky reports non positive definite input", "statement": "triBlockDiagLLT / blockArrowLLT return false only if the matrix is not positive definite; the matrix is positive definite exactly if they return true and every diagonal block of the result starts with a positive pivot. (They can return true on a matrix that is not positive definite.)", "quantifier": "every matrix", "why_tests_cant": "failure positions range over all pivots of all blocks", "anchors": ["src/decomposition/triBlockDiagLLT.cpp", "src/decomposition/blockArrowLLT.cpp"]}
{"id": "C23", "title": "OrthonormalSequence is the product of the transformations added to it", "statement": "For any accepted sequence of prepare / add calls with Givens rotations and Householder reflectors, applyToTheLeft computes the product of the corresponding dense matrices, in the order of the calls, times the vector, and applyTransposeToTheLeft its transpose times the vector; the two are adjoint, and when the transformations are orthogonal they are mutually inverse and preserve dot products; the single-nonzero-segment variants return the same vector as the dense ones and are defined whenever they are. (Permutation elements assert 'not implemented', add(HouseholderSequence) is an empty function: neither is covered.)", "quantifier": "every sequence of calls, every vector and every segment", "why_tests_cant": "all sequences, all sparsity segments", "anchors": ["src/internal/OrthonormalSequence.cpp", "src/internal/OrthonormalSequence.cpp"]}
{"id": "C24", "title": "StructuredC behaves as the dense block-diagonal matrix", "statement": "nbVar(), nbCstr(), col(i) (its expansion and its dot products) and transposeMult coincide with those of the dense block-diagonal matrix of the blocks, whatever their number and sizes (empty blocks included); they are undefined exactly for a column index or vector size that does not fit.", "quantifier": "every list of blocks, index and vector", "why_tests_cant": "index arithmetic over arbitrary blocks", "anchors": ["src/structured/StructuredC.cpp", "include/jrl-qp/structured/StructuredC.h"]}
{"id": "C25", "title": "QR update/downdate keeps the factorisation exact", "statement": "After adding or removing any active constraint, J^T N = [R;0] with R upper triangular and J J^T = G^-1 still hold; the diagonal of R stays non-zero.", "quantifier": "every factorisation state and every constraint position", "why_tests_cant": "sequences of Givens updates of any length", "anchors": ["src/GoldfarbIdnaniSolver.cpp", "addConstraint_", "removeConstraint_"]}
{"id": "C26", "title": "testKKT is sound", "statement": "If testKKT(...) accepts (bl<=bu), stationarity, feasibility and complementarity hold within the announced tolerances; accepted with zero tolerance, the point is the global minimiser of the (symmetric positive definite) QP; every exact KKT point is accepted for any tolerance. Without bl<=bu an infeasible point can be accepted.", "quantifier": "every problem, point and multipliers", "why_tests_cant": "universal over reals", "anchors": ["include/jrl-qp/test/kkt.h", "src/test/kkt.cpp"]}
{"id": "C27", "title": "Least-squares to QP conversion keeps the objective", "statement": "Converting an LSProblem to a QPProblem gives for every x the same objective up to the documented constant, and the same constraints.", "quantifier": "every problem and every x", "why_tests_cant": "universal", "anchors": ["include/jrl-qp/test/problems.h", "src/test/problems.cpp"]}
{"id": "C28", "title": "Separated to joint constraint conversion keeps the feasible set", "statement": "FeasibilityConstraints built from SeparatedFeasibilityConstraints has exactly the same feasible points, and is well formed when the source is.", "quantifier": "every constraint set and every x", "why_tests_cant": "universal", "anchors": ["src/test/problems.cpp", "FeasibilityConstraints::FeasibilityConstraints"]}
{"id": "C29", "title": "Joint to separated constraint conversion", "statement": "SeparatedFeasibilityConstraints built from well-formed FeasibilityConstraints has exactly the same feasible points when there is no general constraint, and performs an out-of-range access as soon as there is one (it reads its own empty members).", "quantifier": "every constraint set", "why_tests_cant": "universal; the constructor reads its own empty members", "anchors": ["src/test/problems.cpp", "SeparatedFeasibilityConstraints::SeparatedFeasibilityConstraints"]}
{"id": "C30", "title": "Log flags", "statement": "A message is emitted iff one of its flags was enabled by one of the options(o) calls made on the solver so far (flags are or-ed into the logger and never cleared); with a single options(o) call it is emitted iff o enables it. On the options object, addLogFlag and removeLogFlag change exactly the given bits.", "quantifier": "every history of option changes and every flag word", "why_tests_cant": "bit-level and history-dependent", "anchors": ["src/utils/Logger.cpp", "include/jrl-qp/utils/Logger.h", "DualSolver::options"]}
{"id": "C31", "title": "BoxAndSingleConstraintSolver", "statement": "Its initial point is the projection of the target on the box with correct multipliers; on SUCCESS the solution is the projection of the target on box intersected with the half-space. With non-negligible entries of c, data bounded by K and bigBnd at least K (n+3) 1e56, a call answers SUCCESS when the set is not empty and INFEASIBLE when it is, and needs at most 2n+1 complete iterations (so the default options suffice up to n = 249 and K = 1e41).", "quantifier": "every dimension, box and constraint", "why_tests_cant": "universal", "anchors": ["src/experimental/BoxAndSingleConstraintSolver.cpp"]}
{"id": "C32", "title": "Most violated constraint is selected", "statement": "Each iteration works on an inactive constraint with the largest violation; it stops with SUCCESS exactly when no inactive constraint is violated.", "quantifier": "every state and problem", "why_tests_cant": "argmax over all constraints of all sizes", "anchors": ["src/GoldfarbIdnaniSolver.cpp", "selectViolatedConstraint_"]}
{"id": "C33", "title": "Dual feasibility is kept along the iterations", "statement": "At every iteration the multipliers of the active inequality constraints are non-negative (internal convention), i.e. steps never overshoot.", "quantifier": "every iteration count of every problem (no equality, or equalities first; tolerances not misfiring)", "why_tests_cant": "ratio test over all trajectories", "anchors": ["src/GoldfarbIdnaniSolver.cpp", "computeStepLength_"]}
{"id": "C34", "title": "Sparse constraint normals equal their dense meaning", "statement": "For every status the operations used with a constraint (dot product, multiplication by J^T) equal the dense products with +/- the column of C or +/- the unit vector.", "quantifier": "every matrix, index and status", "why_tests_cant": "all sizes and statuses", "anchors": ["include/jrl-qp/internal/ConstraintNormal.h"]}
{"id": "C35", "title": "SingleNZSegmentVector is its dense expansion", "statement": "A single-non-zero-segment vector can be built exactly when its segment lies within the vector; toFullVector and dot then equal the expansion and the dot product of the dense vector.", "quantifier": "every segment position and length and every vector", "why_tests_cant": "index arithmetic", "anchors": ["include/jrl-qp/internal/SingleNZSegmentVector.h"]}
{"id": "C36", "title": "Objective is monotone and solve terminates", "statement": "Along the iterations the objective never decreases, it strictly increases at each iteration that adds a constraint; and there is an iteration budget depending only on the number m of constraints and bounds (m + 2*3^m) for which MAX_ITER_REACHED is never returned.", "quantifier": "every problem", "why_tests_cant": "termination is not testable", "anchors": ["include/jrl-qp/DualSolver.h", "src/DualSolver.cpp", "DualSolver::solve"]}
{"id": "C37", "title": "Memory safety of the dense solver", "statement": "solve() performs an out-of-range access or violates an assertion if and only if the sizes of the inputs are inconsistent, or there are more equality constraints than variables (and the Hessian passes the Cholesky test); the accessors never do.", "quantifier": "every problem and history, in exact arithmetic and in IEEE doubles", "why_tests_cant": "all index computations on all trajectories", "anchors": ["include/jrl-qp/DualSolver.h", "src/DualSolver.cpp", "src/GoldfarbIdnaniSolver.cpp"]}
{"id": "C38", "title": "QPProblem conversions", "statement": "Converting a separated QPProblem to a joint one keeps the feasible set, and changes the objective by exactly the constant term, which is dropped (so the objective is kept iff the constant is 0).", "quantifier": "every problem", "why_tests_cant": "universal", "anchors": ["include/jrl-qp/test/problems.h"]}
{"id": "C39", "title": "Output enum names are distinct", "statement": "The printed names of two different termination statuses / activation statuses differ and every value has a name.", "quantifier": "every enumerator", "why_tests_cant": "finite but exhaustive", "anchors": ["src/utils/enumsIO.cpp"]}
{"id": "C40", "title": "Random problem generator keeps its promises", "statement": "randomProblem returns a well-formed problem of the dimensions asked for, and the returned point and multipliers satisfy its KKT conditions (so the point is a minimiser and testKKT accepts it), whenever the drawn matrices have the announced rank and there are at least as many objective and strongly active rows as variables. Outside that case it does not hold: with fewer independent rows the announced multipliers are wrong or the program asserts, and double-sided weakly active constraints can be violated at the announced point.", "quantifier": "every random draw", "why_tests_cant": "universal over draws", "anchors": ["src/test/randomProblems.cpp", "include/jrl-qp/test/randomProblems.h"]}
{"id": "C41", "title": "resetActiveSet and multipliers", "statement": "multipliers() called after solve() and resetActiveSet() returns zeros if it had not been called between the two, and the multipliers of that solve() otherwise: the result depends on the history of accessor calls.", "quantifier": "every problem and history of calls", "why_tests_cant": "history dependence through a mutable cache", "anchors": ["include/jrl-qp/DualSolver.h", "src/DualSolver.cpp", "DualSolver::resetActiveSet", "DualSolver::multipliers"]}
{"id": "C42", "title": "The input Hessian is consumed in place", "statement": "solve() overwrites only the lower triangle (and diagonal) of the caller's G with its Cholesky factor; the strict upper triangle and all other inputs are unchanged and do not influence the result.", "quantifier": "every problem", "why_tests_cant": "frame + non-interference", "anchors": ["src/GoldfarbIdnaniSolver.cpp", "GoldfarbIdnaniSolver::init_"]}
{"id": "C43", "title": "The objective value is a lower bound of the optimum at every stop", "statement": "Whenever solve() stops with SUCCESS or MAX_ITER_REACHED, objectiveValue() is <= the objective of every feasible point.", "quantifier": "every problem (equalities first, tolerances not misfiring), every iteration budget, every feasible point", "why_tests_cant": "quantifies over all feasible points and all trajectories", "anchors": ["include/jrl-qp/DualSolver.h", "src/DualSolver.cpp", "src/GoldfarbIdnaniSolver.cpp"]}
{"id": "C44", "title": "Total correctness on data", "statement": "For every problem given by data satisfying size consistency, positive definite G, bl<=bu, xl<=xu, independent equalities numbered first, and no non-zero projected normal shorter than 1e-14, solve() with maxIter >= m + 2*3^m (m constraints and bounds) and bigBnd larger than every step the method can take on these data returns either SUCCESS with the unique minimiser, KKT multipliers and the optimal value, or INFEASIBLE and the problem is infeasible.", "quantifier": "every such problem, every history of the object, every memory content", "why_tests_cant": "quantifies over all problems", "anchors": ["include/jrl-qp/DualSolver.h", "src/DualSolver.cpp", "src/GoldfarbIdnaniSolver.cpp"]}
{"id": "C45", "title": "wellFormed()", "statement": "FeasibilityConstraints::wellFormed() answers true exactly for consistent sizes and ordered bounds (strictly ordered with no equality allowed) and trips an assertion instead of answering when l,u or xl,xu have different sizes; QPProblem::wellFormed() is exact for non-transposed problems and rejects every transposed problem whose numbers of constraints and variables differ.", "quantifier": "every constraint set and problem", "why_tests_cant": "universal; one of the conditions ignores a flag", "anchors": ["src/test/problems.cpp", "include/jrl-qp/test/problems.h", "QPProblem::wellFormed"]}
{"id": "C46", "title": "Calls of the warm-startable solver are memory safe", "statement": "For any history of calls, any problem of consistent sizes and any statuses of the right size, solve() of the warm-startable solver reads and writes only inside its buffers and ends with a documented status, except that it trips an assert exactly when a given status has the wrong kind or, in a debug build, when there are more equalities than variables; the number of iterations is at most max(maxIter, nbVar).", "quantifier": "every call history, arithmetic, problem, warm-start vector", "why_tests_cant": "all histories and data, including NaN", "anchors": ["src/experimental/GoldfarbIdnaniSolver.cpp", "experimental::GoldfarbIdnaniSolver::solve", "init_", "processInitialActiveSet"]}
{"id": "C47", "title": "Answers of the warm-startable solver", "statement": "From a linearly independent warm-start set, SUCCESS means that the point is feasible and is the unique minimiser with the returned multipliers satisfying the KKT conditions, and INFEASIBLE means that no point is feasible, provided equalities are numbered first and no bound is given together with a general equality; these provisos cannot be dropped.", "quantifier": "every problem, warm-start vector and history", "why_tests_cant": "all problems and starting sets", "anchors": ["src/experimental/GoldfarbIdnaniSolver.cpp", "initializePrimalDualPoints", "initializeComputationData"]}
{"id": "C48", "title": "The answer does not depend on the starting set nor on the solver", "statement": "Two successful calls on the same problem, of the warm-startable solver with any two starting sets, options and histories, or of the warm-startable and the dense solver, return the same point.", "quantifier": "every problem, pair of warm-start vectors, options and histories", "why_tests_cant": "quantifies over pairs of executions", "anchors": ["src/experimental/GoldfarbIdnaniSolver.cpp", "src/GoldfarbIdnaniSolver.cpp"]}
{"id": "C49", "title": "Total correctness of the warm-started solve", "statement": "For a positive definite problem with ordered bounds and equalities first, an independent starting set and data separated from the tolerances, with bigBnd larger than every step the method can take on these data and maxIter >= m + 2*3^m + n (m constraints and bounds, n variables) the call ends with SUCCESS at the unique minimiser, or with INFEASIBLE and the problem has no feasible point.", "quantifier": "every problem, starting set and history", "why_tests_cant": "termination and correctness over all data", "anchors": ["src/experimental/GoldfarbIdnaniSolver.cpp"]}
{"id": "C50", "title": "The block solver agrees with the dense solver", "statement": "On a problem without equality constraints whose Hessian and constraint blocks represent dense matrices, with a positive definite Hessian and no constraint announced active, a call of BlockGISolver returns the status of GoldfarbIdnaniSolver on the dense problem, and solution, multipliers, objectiveValue, iterations and activeSet of the two solvers are equal; it ends with SUCCESS at the unique minimiser or with INFEASIBLE and then there is no feasible point. With an equality constraint, or a usable warm-start status, no call succeeds: it stops on an assertion.", "quantifier": "every block structure, problem, options, pair of call histories", "why_tests_cant": "relates two implementations on all inputs and histories", "anchors": ["src/experimental/BlockGISolver.cpp", "src/structured/StructuredQR.cpp", "src/structured/StructuredJ.cpp", "src/structured/StructuredG.cpp"]}
{"id": "C51", "title": "Which matrices a call of the block solver reads and writes", "statement": "solve takes a const StructuredG, which only refers to the caller's blocks. The first call of an object overwrites the caller's blocks with the Cholesky factor and touches nothing else. Every later call with as many blocks first copies the new blocks into the matrices of the FIRST call and works there: with equal sizes and live matrices the answer is the right one and the new caller's matrices are untouched; if a matrix of the first call no longer exists or has another size the behaviour is undefined. Calling twice with the same StructuredG solves the second time the problem whose Hessian is the factor.", "quantifier": "every sequence of calls, block counts and sizes, heap of matrices", "why_tests_cant": "aliasing depends on the whole history of the object and on lifetimes", "anchors": ["src/experimental/BlockGISolver.cpp", "include/jrl-qp/structured/StructuredG.h", "src/structured/StructuredG.cpp"]}
{"id": "C52", "title": "Generated box-and-single-constraint problems", "statement": "generateBoxAndSingleConstraintProblem returns an ordered box, a feasible problem of the dimension asked for, and: with act the constraint is active at the solution, without act it holds on the whole box and the solution is x0 clamped to the box. The box-and-single-constraint solver solves it. actLevel must be strictly between 0 and 1 when act is set.", "quantifier": "every random draw, dimension and actLevel", "why_tests_cant": "universal over draws; optimality statement", "anchors": ["src/experimental/BoxAndSingleConstraintSolver.cpp: generateBoxAndSingleConstraintProblem", "include/jrl-qp/experimental/BoxAndSingleConstraintSolver.h"]}
{"id": "C53", "title": "Random orthogonal matrices", "statement": "randOrtho returns an orthogonal matrix of the size asked for, of determinant 1 or -1, and of determinant 1 if special is set.", "quantifier": "every size and random draw", "why_tests_cant": "universal over draws and sizes", "anchors": ["include/jrl-qp/test/randomMatrices.h: randOrtho, randUnitVec"]}
{"id": "C54", "title": "Random matrices of given rank", "statement": "randn(rows, cols, rank) is defined exactly when rank is at most both sizes (a negative one meaning the smallest size) and returns a matrix of rank at most rank, exactly rank when no drawn singular value is zero (or, at full rank, when the matrix of normal numbers has full rank).", "quantifier": "every size, rank and random draw", "why_tests_cant": "universal over draws and sizes", "anchors": ["include/jrl-qp/test/randomMatrices.h: randn"]}
{"id": "C55", "title": "Random dependent matrices", "statement": "randDependent returns A and B of rank at most rankA and rankB such that [A;B] has rank at most rankAB, exactly rankAB for ordinary random numbers; fed with it, the problem generator announces a true solution when no bound is strongly active.", "quantifier": "every size, ranks and random draw", "why_tests_cant": "universal over draws and sizes", "anchors": ["include/jrl-qp/test/randomMatrices.h: randDependent", "src/test/randomProblems.cpp"]}
{"id": "C56", "title": "Conversions to the conventions of other solvers", "statement": "The conversions of a separated problem for eigen-quadprog, eiquadprog, LSSOL and QLD assert on problems that are not well formed; on every well-formed one they succeed, hand over the same objective and describe exactly the same feasible points in the convention of the solver (for LSSOL without bounds: those within +-1e30).", "quantifier": "every problem, sizes, infinite bounds, both orientations, all points", "why_tests_cant": "universal over problems and points", "anchors": ["benchmarks/problemAdaptors.cpp: EigenQuadprogPb, EiQuadprogPb, LssolPb, QLDPb"]}
{"id": "C57", "title": "Solving a separated problem through GIPb", "statement": "GIPb converts a well-formed separated problem to arguments of GoldfarbIdnaniSolver::solve with the same feasible points and objective (up to objCst), ordered bounds and the equalities first; the solve then returns the unique minimiser of the original problem, or INFEASIBLE when it has no feasible point.", "quantifier": "every separated problem, solver object, option", "why_tests_cant": "universal over problems and histories", "anchors": ["benchmarks/problemAdaptors.cpp: GIPb", "benchmarks/Solvers.cpp", "include/jrl-qp/test/problems.h"]}
{"id": "C58", "title": "Reading a QPS file gives the problem it describes", "statement": "For every well-formed file (comments, headers in any case, one or two values per line, any blanks) whose sections come in order, names are declared once and used consistently, QPSReader::read returns without exception the problem the format describes: number of variables and rows, C, l, u with right-hand sides and ranges, variable bounds, linear and quadratic cost, constant, and the properties. The same object cannot read a file twice; MI/PL bounds without a value are refused.", "quantifier": "every file of the grammar, notation of numbers, hash map order, fullObjMat", "why_tests_cant": "universal over texts", "anchors": ["tests/QPSReader.cpp: QPSReader::read, processLine, readRow, readColumn, readRHS, readRanges, readBounds, readQuadObj"]}
{"id": "C59", "title": "Reading an arbitrary file is safe and refuses inconsistent ones", "statement": "For every content of the file QPSReader::read either returns or throws, except that a line of blanks met after line 10 in a section COLUMNS, RHS, RANGES or QUADOBJ reads outside a table of names (undefined). Duplicate row names, a second free row, undeclared rows or columns, and a second set name are refused by an exception, and so is a line without the format of its section (NAME without a name, unknown row or bound type, missing name or number).", "quantifier": "every text (any characters, any order of sections), number parser, hash map order", "why_tests_cant": "universal over texts", "anchors": ["tests/QPSReader.cpp: QPSReader::read, parseValueLine, addValueToColumn, addValueToRHS, addValueToRanges"]}
{"id": "C60", "title": "Matrices written for Matlab are read back unchanged", "statement": "The text written by `os << (toMatlab)M` is a Matlab matrix literal with the rows, columns and elements of M, for every M with at least one element (row, column or full matrix, whatever the widths of the printed numbers); all matrices without element are written []; the text of an active set is the row of the active constraints and that of a selected constraint is the pair {index, status}.", "quantifier": "all sizes and all matrices whose printed numbers contain no separator; all reachable active sets", "why_tests_cant": "shapes and widths of the printed numbers are unbounded", "anchors": ["include/jrl-qp/utils/toMatlab.h: operator<<", "src/internal/ActiveSet.cpp: operator<<", "include/jrl-qp/internal/SelectedConstraint.h: operator<<"]}
{"id": "C61", "title": "The log is a Matlab script that records exactly what was logged", "statement": "At any point of any sequence of calls on any number of loggers and sub-loggers sharing streams: log() appends to the stream of the logger exactly one assignment per (name, value) pair (none for an empty std::vector), to name(i+1).field where i is the argument of the last startIter, or to nameData.field with NO_ITER, whose right-hand side denotes the value; nothing if the flags do not match; comments add no statement; startIter records `it`; a sub-logger records under the current element of its parent. Reading the script back gives the last value logged for each iteration and field.", "quantifier": "all sessions (sequences of setFlag, setOutputStream, startIter, log, comment, subLog) with names and printed values free of special characters", "why_tests_cant": "sessions, nesting and values are unbounded; the interleaving of several loggers on one stream matters", "anchors": ["include/jrl-qp/utils/Logger.h: Logger::log, comment, logVal_, logIter", "src/utils/Logger.cpp: startIter, subLog, setFlag, setOutputStream"]}
{"id": "C62", "title": "A re-used warm-startable solver answers like a new one", "statement": "With statuses given to solve (or without the warm start option), the status, number of iterations, active set, solution, objective value and multipliers returned by the experimental dense solver are the same whatever calls were made on the object before, whatever fresh memory contains and whatever is stored above the diagonal of G, also in floating point; whether the call is defined does not depend on the object either. With the warm start option and no statuses, the call behaves exactly as if the active set the object holds had been given explicitly to any other object (everything inactive when the number of constraints or bounds differs from the previous problem).", "quantifier": "all problems, options and given statuses, all pairs of object histories, all contents of uninitialised memory, all arithmetics satisfying the ordering laws (doubles, reals)", "why_tests_cant": "A test re-uses an object after a few particular problems; the statement compares all pairs of histories and all stale contents of the work areas.", "anchors": ["include/jrl-qp/experimental/GoldfarbIdnaniSolver.h: GoldfarbIdnaniSolver::solve", "src/experimental/GoldfarbIdnaniSolver.cpp: init_, processInitialActiveSet, initializeComputationData, initializePrimalDualPoints, resize_", "src/DualSolver.cpp: resize_p"]}
{"id": "C63", "title": "The block solver never does anything undefined, in any arithmetic", "statement": "For a structured Hessian and constraint matrix whose blocks have consistent sizes, vectors of the right sizes, no equality and a start with no active constraint, solve on a BlockGISolver always returns - no access out of range and no failed assertion - even with rounding errors, infinities or NaN, whatever calls were made on the object before (also calls that ended on inconsistent matrices). The status is SUCCESS, INFEASIBLE, MAX_ITER_REACHED (exactly when the iteration count reaches maxIter) or NON_POS_HESSIAN (exactly when lltInPlace fails on the Hessian); the solution, the multipliers and the active set can then be read and have the right sizes, and at most as many constraints as variables are active. In general, a call is undefined exactly when the sizes do not fit, a warm start is given with the wrong length or without the option, a given status does not suit its constraint, there are more equalities than variables in debug mode, or some constraint starts active (an equality, or a given status whose bound is not beyond bigBnd) while the Hessian factorises.", "quantifier": "all block structures and sizes, all data of any arithmetic satisfying two ordering laws (reals, IEEE doubles with NaN and infinities), all options, given statuses, object histories and contents of fresh memory", "why_tests_cant": "Rounding can steer the loop into any combination of branches; the bounds of the work areas of the structured QR (which grow on demand), of the orthogonal sequence and of the active set must hold on all of them and after all histories.", "anchors": ["include/jrl-qp/experimental/BlockGISolver.h: BlockGISolver::solve", "src/experimental/BlockGISolver.cpp: init_, selectViolatedConstraint_, computeStep_, computeStepLength_, addConstraint_, removeConstraint_", "src/structured/StructuredQR.cpp: add, remove, adjustLdR", "src/internal/OrthonormalSequence.cpp", "src/structured/StructuredG.cpp", "src/structured/StructuredC.cpp"]}
{"id": "C64", "title": "What SUCCESS guarantees in double arithmetic", "statement": "When a solver (dense, warm-startable, block or box), run on IEEE-754 doubles with rounding to nearest, returns SUCCESS: every bound that is INACTIVE in activeSet() is satisfied exactly by the returned component when it is finite, and every INACTIVE general constraint is satisfied up to the rounding of one dot product, (n+2) 2^-53 sum_i |C(i,j) x_i| + n 2^-1074, when its coefficients and x are finite and do not overflow. Whatever the status, and in any arithmetic, the multiplier of an inactive constraint is exactly zero. Nothing is guaranteed for active constraints (they are not evaluated again), nor if NaN is returned.", "quantifier": "all problems with fewer than 2^26 variables and data of type double (including infinities and NaN), all options, given statuses, histories of the object, contents of fresh memory and orders in which the sums are evaluated", "why_tests_cant": "The rounding errors met depend on all the data; a test sees a few of them.", "anchors": ["src/GoldfarbIdnaniSolver.cpp: selectViolatedConstraint_", "src/experimental/GoldfarbIdnaniSolver.cpp: selectViolatedConstraint_", "src/experimental/BlockGISolver.cpp: selectViolatedConstraint_", "src/experimental/BoxAndSingleConstraintSolver.cpp: solve", "src/DualSolver.cpp: solve, multipliers"]}
{"id": "C65", "title": "The Hessian test in double arithmetic", "statement": "In doubles, when solve does not return NON_POS_HESSIAN and the factor F it leaves in G is finite, F has a positive diagonal and F F^T is a positive definite matrix that differs from G, entry by entry, by at most (n+4) 2^-53 sum_t |F(i,t) F(j,t)| (plus a term for underflow). When it returns NON_POS_HESSIAN, some matrix within the same distance of G is not positive definite: the verdict is never wrong by more than rounding errors. The same holds of the experimental solver whenever it does not end with OVERCONSTRAINED_PROBLEM (it then has not looked at G), for every starting set, and in any arithmetic the two solvers give the same verdict and leave the same factor. A Hessian holding a NaN is not refused.", "quantifier": "all Hessians of doubles with fewer than 2^26 - 2 rows whose (partial) factor is finite, all other data, options, histories and orders of summation", "why_tests_cant": "The rounding errors met depend on all the data; a test sees a few of them.", "anchors": ["src/GoldfarbIdnaniSolver.cpp: init_", "src/experimental/GoldfarbIdnaniSolver.cpp: init_", "Eigen/src/Cholesky/LLT.h: llt_inplace::unblocked (as called)"]}
{"id": "C66", "title": "A re-used block solver answers like a new one", "statement": "Two calls of BlockGISolver::solve on the same problem with the same options and the same statuses (or without warm start) are indistinguishable whatever the two objects did before, whatever fresh memory contains and whatever the diagonal blocks of the Hessian hold above their diagonals: both are undefined, or both return the same status, iteration count and active set and - unless the Hessian was rejected or there are too many equalities - the same solution, objective and multipliers, bit for bit.", "quantifier": "all arithmetics (C66_reuse needs no law of arithmetic at all), all block problems of the three Hessian structures, options and statuses, all pairs of call histories and memory contents", "why_tests_cant": "Stale state only shows on particular sequences of calls and particular memory contents.", "anchors": ["src/experimental/BlockGISolver.cpp: solve, init_, resize_", "src/structured/StructuredQR.cpp: reset, resize, add, remove", "src/internal/OrthonormalSequence.cpp: prepare, clear", "src/DualSolver.cpp: multipliers"]}
{"id": "C67", "title": "Solving repeatedly with one Hessian matrix", "statement": "solve overwrites the matrix G it is given with its Cholesky factor. In a sequence of calls that pass the same matrix object each time, the k-th call therefore answers exactly what a new object would answer for the matrix obtained from G by k successive in-place factorisations: its status, iteration count, solution, objective, active set and multipliers are those of another problem (for 128 x^2 - 256 x, whose minimiser is 1, three successive calls in doubles all return SUCCESS with 1, 16 and 64). When G is the identity, its own factor, every call answers the problem that was meant.", "quantifier": "all sequences of linear costs, all problems, options, object histories and memory contents", "why_tests_cant": "A test that passes the matrix once, or an identity, never sees it.", "anchors": ["src/GoldfarbIdnaniSolver.cpp: solve, init_", "benchmarks/SolversWarmStart.cpp: BENCH_GI"]}
{"id": "C68", "title": "The warm-start benchmark solves the projections it means to", "statement": "The problems generated by the warm-start benchmark are well formed, contain the unit ball, and each of the mi general constraints touches the sphere at the drawn unit vector. The linear cost of the k-th step runs on the great circle of radius 2 sqrt n from the first drawn direction to the second one, at constant angular speed, exactly when the two draws are not collinear; otherwise (always when n = 1) it is not a number. The getters cycle through the 50 problems and geta uses the one that was got last; geta before any getter indexes the array with -1. In exact arithmetic every call of the benchmark loop succeeds and returns the point of the polytope nearest to the opposite of the linear cost (tolerance and iteration limit permitting), although all the calls share one Hessian. The assertion of decomposedRotation has no absolute value: it lets a longer second vector through, for which the angle is not a number.", "quantifier": "all dimensions, numbers of constraints, one- or double-sided, all random draws, all steps, all previous uses of the solver", "why_tests_cant": "The draws are random and the results of the benchmark are not checked by anything.", "anchors": ["benchmarks/SolversWarmStart.cpp: generateWSProblem, ProblemCollection::generate, decomposedRotation, getGIPb, geta, idx, BENCH_GI"]}
{"id": "C69", "title": "The unconstrained minimiser in double arithmetic", "statement": "When solve returns SUCCESS at its first pass (0 iterations) with no active constraint, the returned x, computed in doubles, nearly annihilates the gradient: component i of G x + a is at most (3n+13) 2^-53 (|F| |F|^T |x|)_i in absolute value (plus a term for underflow), F being the factor left in G. So, when G is positive definite, no point z has a cost lower than that of x by more than this bound times |z - x|; and objectiveValue() is half of a^T x up to a relative error (n+3) 2^-53.", "quantifier": "all problems over doubles with fewer than 2^26 - 4 variables for which the factor and the answer are finite, all options, histories and orders of summation, all compared points z", "why_tests_cant": "The rounding errors met depend on all the data; a test compares a few answers to a tolerance chosen by hand.", "anchors": ["src/GoldfarbIdnaniSolver.cpp: init_", "src/DualSolver.cpp: solve", "Eigen triangular solves (as called)"]}
{"id": "C70", "title": "Multipliers are prices; the answer is stable under changes of the cost", "statement": "Let a call of solve succeed with value f, solution x and multipliers lambda. If the bounds of constraints move, every point that satisfies the new constraints costs at least f minus sum_i lambda_i times the move of the priced side (the upper side where lambda_i > 0, the lower where lambda_i < 0); two optimal values differ by at most the two prices. If the linear cost changes by da, the new optimal value lies between f + da.x' and f + da.x (x' the new solution), and |x' - x| <= |da| / m for any m > 0 below the curvature of the Hessian.", "quantifier": "all pairs of problems that meet the hypotheses of C44 and differ as said, all points, options with a large enough infinity and iteration limit, and histories", "why_tests_cant": "Relates the answers to infinitely many neighbouring problems.", "anchors": ["src/GoldfarbIdnaniSolver.cpp: solve", "src/DualSolver.cpp: multipliers, solution, objectiveValue"]}
{"id": "C71", "title": "One problem, two descriptions: one answer", "statement": "Describing a problem differently - general constraints in another order, some written with the opposite sign, bounds given as general constraints, double-sided constraints split in two, constraints or the cost multiplied by positive numbers - changes neither the status nor, on SUCCESS, the solution and the objective value (multiplied by k when the cost is), whatever the two solver objects did before.", "quantifier": "all problems that meet the hypotheses of C44, all such re-descriptions (any map between constraints, signs and kept sides with the stated coverage; equalities still first), options and histories. For scalings the scaled problem must meet the hypotheses too, because the code's tolerance 1e-14 is absolute.", "why_tests_cant": "Metamorphic: relates two calls for every problem and every re-description.", "anchors": ["src/GoldfarbIdnaniSolver.cpp: solve", "src/DualSolver.cpp: solution, objectiveValue"]}
{"id": "C72", "title": "The stable and the experimental dense solvers take the same steps", "statement": "Called without warm start on the same problem, the stable Goldfarb-Idnani solver (which adds the equality constraints one by one) and the experimental warm-startable one (which factorises them at once) return the same status and give the same solution, multipliers, objective value, active set and iteration count; this for every iteration limit, so they go through the same iterates. It fails when the problem has both general equalities and fixed variables.", "quantifier": "all problems with a positive definite Hessian, separated equality normals, equalities of one kind only (general or fixed bounds) whose Householder factorisation meets no squared norm in (0, DBL_MIN]; none of these last conditions without equalities; all options without warm start, all histories of the two objects. Exact arithmetic.", "why_tests_cant": "Relates the whole runs of two implementations for every problem.", "anchors": ["src/GoldfarbIdnaniSolver.cpp: init_, initActiveSet", "src/experimental/GoldfarbIdnaniSolver.cpp: init_, processInitialActiveSet, initializeComputationData, initializePrimalDualPoints"]}
{"id": "C73", "title": "On matrices with few digits the tolerances are exact", "statement": "When the entries of the Hessian and of the constraint matrix are multiples of 1/D (integers for D = 1, decimals for D a power of ten) that become integers of absolute value at most M when multiplied by D, and (2n)! M^(2n) < 1e14 (for instance M = 1000 for 2 variables, 14 for 4, 5 for 5), the absolute tolerance 1e-14 of the code never mistakes a non-zero step for zero: with bigBnd >= D * K * 1e43, where K bounds the linear cost and the finite sides, and maxIter >= m + 2*3^m for m constraints and bounds (with the default options: D * K <= 1e57, m <= 5), the stable solver returns SUCCESS with the unique minimiser and its multipliers, or INFEASIBLE exactly when no point is feasible. If the linear cost and the bounds are multiples of 1/D too and D^2 (2n)! M^(2n) < 1e14, the same holds of the warm-startable solver from any acceptable starting set, since a multiplier of the wrong sign is never smaller than the tolerance.", "quantifier": "all problems with such matrices (any real linear cost and bounds for the stable solver), positive definite Hessian, ordered bounds, equalities first and independent; all histories. Exact arithmetic.", "why_tests_cant": "Quantifies over an infinite class of problems; tests cannot show that no problem of the class falls under the tolerance.", "anchors": ["src/GoldfarbIdnaniSolver.cpp: computeStepLength_", "src/experimental/GoldfarbIdnaniSolver.cpp: initializePrimalDualPoints"]}
{"id": "C74", "title": "The random-problem tests pass for every draw", "statement": "For every problem drawn by randomProblem under the conditions of C40 whose objective matrix has full column rank and whose constraints saturated at the announced solution have independent normals, the sequence of tests/GoldfarbIdnaniSolverTest.cpp (QPProblem(pb), solver.solve(G, a, C.transpose(), l, u, xl, xu), on a new solver or after any previous calls) returns SUCCESS, testKKT accepts the result at every non-negative tolerance, and the solution and the three blocks of multipliers are the announced ones; the same for the experimental solver without warm start; and, as in the test Warm-start, every call of the experimental solver given the active set of the stable one, or nothing after such a call, answers SUCCESS in zero iterations with the same checks (exact arithmetic; bigBnd and maxIter large enough, tolerance_gap).", "quantifier": "every draw, every dimension, every previous use of the solver", "why_tests_cant": "the test runs five random problems with given sizes", "anchors": ["tests/GoldfarbIdnaniSolverTest.cpp: Random problems, Multiple uses", "src/test/randomProblems.cpp: randomProblem", "include/jrl-qp/test/problems.h: QPProblem", "GoldfarbIdnaniSolver::solve", "src/test/kkt.cpp: testKKT"]}
{"id": "C75", "title": "Sizes computed in int are exact up to 46340 variables, and overflow beyond", "statement": "For every sequence of resize requests (explicit or made by solve) with nbVar*nbVar < 2^31 and nbCstr plus the bounds < 2^31, the 32-bit computations of the buffer sizes and of the assertions of the matrix views give the mathematical values; a request overflows (undefined behaviour) exactly when the number of variables changes to 46341 or more or the number of constraints reaches 2^31; on a build that wraps around, the square buffers then stay too small and the overflowing assertion of the view accepts it, so elements outside the buffer are reachable.", "quantifier": "every object state, every sequence of sizes", "why_tests_cant": "needs problems with tens of thousands of variables (17 GB per matrix)", "anchors": ["include/jrl-qp/internal/Workspace.h: resize, asMatrix", "src/DualSolver.cpp: resize, resize_p", "src/GoldfarbIdnaniSolver.cpp: resize_"]}
{"id": "C76", "title": "Reading a matrix or inverse-kinematics file gives its contents, and truncated files are refused", "statement": "For every file written to the format (titles, the three sizes, one row per line, one line for an empty matrix, any notation of the numbers), readIKPbFile returns exactly the matrices and vectors it holds and ignores what follows; every proper prefix of its lines is refused by an exception; for any text at all, a returned problem has the announced sizes (non negative, at least one variable) and complete rows, and appending lines does not change it; a title is accepted exactly when the name follows the fifth character. readMat(filename) returns the rows of the file, is undefined exactly when two lines hold different numbers of numbers, and never throws on an open file.", "quantifier": "every text, every notation of numbers", "why_tests_cant": "universal over texts", "anchors": ["tests/IKmatReader.cpp: readVecLine, readIntLine, isDataName, readDataNameLine, readMat, readIKPbFile"]}
{"id": "C77", "title": "The tests of the block decompositions and of the block solver check what they claim, for every block sizes and every draw", "statement": "For every non-empty list of block sizes and every draw, the generators return a matrix whose Gram matrix has the declared block structure (tridiagonal, or arrow pointing up or down) and is positive definite exactly when the drawn matrix is nonsingular, and every matrix with that structure can be drawn. For a nonsingular draw every check of the tests holds in exact arithmetic: the block decompositions succeed, the matrix holding the blocks ends up entry by entry equal to the dense decomposition (for an arrow pointing up, the three corners compared are those of the dense decomposition of P^T H P), the block solves return, for every block of non-zero rows given as a hint, the solutions of the dense systems, and the dense and the block solvers return the same status and answer on the problems built. The loop of the last test that guesses the number of constraints of each block finds it when no column is zero and every block has a constraint, and otherwise may read past a column or return wrong numbers.", "quantifier": "every list of block sizes, every draw, every right-hand side and hint, every list of constraint blocks", "why_tests_cant": "universal over sizes and random draws; the tests use one list of sizes and a few draws", "anchors": ["tests/BlockGISolverTest.in.cpp: biBlockDiagRandom, blockDiagAndOneColDiagRandom, the test cases", "tests/triBlockDiagLLTTest.cpp", "tests/blockArrowLLTTest.cpp"]}
{"id": "C78", "title": "Solvers allocate memory for their members only for problems larger than all previous ones (real-time use)", "statement": "A dense solver object allocates memory for its own buffers and active set exactly when it is given a problem with more variables, or more constraints counting the bounds, than every problem given to it before (constructor sizes and resize calls included). So an object constructed for some sizes then solves any sequence of problems that are not larger without allocating for its members, whatever the constraints activated, deactivated and reset, the options and the outcomes; the buffers always have exactly the sizes of the largest problem met (one number per variable or per constraint, two square matrices).", "quantifier": "every sequence of problem sizes, solves, resets, options and outcomes, every growth policy of std::vector, every arithmetic", "why_tests_cant": "universal over histories; the test \"Multiple uses\" forbids allocation during three problems of the same size", "anchors": ["src/DualSolver.cpp: resize", "src/GoldfarbIdnaniSolver.cpp: resize_", "src/experimental/GoldfarbIdnaniSolver.cpp: resize_", "include/jrl-qp/internal/Workspace.h: resize", "src/internal/ActiveSet.cpp: resize, activate, deactivate, reset", "tests/GoldfarbIdnaniSolverTest.cpp: Multiple uses"]}
{"id": "C79", "title": "An iteration is one constraint entering or leaving the active set, and the block solver pays for each until the next call", "statement": "For the three solvers, iterations() counts the changes of the active set: every call that got past its initialisation started with e active constraints (the equalities; with a warm start at most one per variable; none for the block solver), and after a additions and d removals it reports a+d iterations and e+a-d active constraints; so the two numbers bound each other and agree in parity with e. One more allowed iteration changes a call stopped by the limit in exactly one constraint (or it ends there with the same active set). In the block solver each iteration, removals included, adds one elementary factor (of at most 2n numbers) to the orthogonal factor, none is dropped before the next call: after it iterations it is a product of it factors, however few constraints are active.", "quantifier": "every history of the object, problem, options, outcome and arithmetic (rounding and NaN included)", "why_tests_cant": "universal over problems and run lengths; tests look at final results of a few problems", "anchors": ["src/DualSolver.cpp: solve, addConstraint_, removeConstraint_, iterations", "src/GoldfarbIdnaniSolver.cpp: initActiveSet", "src/experimental/GoldfarbIdnaniSolver.cpp: init_, processInitialActiveSet, initializePrimalDualPoints", "src/experimental/BlockGISolver.cpp", "src/structured/StructuredQR.cpp: add, remove, reset", "src/internal/OrthonormalSequence.cpp: prepare, add, clear"]}
