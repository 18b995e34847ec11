# jrl-qp in Rocq: design

## Technique
The code is modelled function by function as total Gallina functions.  Everything numeric is written **once**, generic
over a record `ops` of scalar operations (0, 1, +, -, *, /, sqrt, <, ==, abs).  Instances:
* `Rops` (Coq's real numbers): the theorems about optimality, feasibility, exactness (exact arithmetic);
* `Fops` (Coq's primitive IEEE-754 binary64 floats, `RunFloat.v`): used to *run* the model (`vm_compute`) as a sanity
  test, and in the counterexample theorems `*_needed`, `C37_overflow`, `C41_history_dependent`, `C16_nonpos_stale`,
  which are runs of the model on doubles, i.e. on the arithmetic the C++ program uses;
* `Dw wo` (`DoubleOps.v`; `Dops` when `wo` is left to right): IEEE-754 binary64 as formalised by Flocq over Z (no axiom of its own), rounding to nearest even, with
  infinities and one NaN: the theorems that bound rounding errors (C64, C65, C69);
* theorems that are **generic in `ops`** (C06, C07, C08, C12, C14 shape, C16, C37 safety...) hold for every arithmetic,
  in particular for doubles (`C37_double`).
Undefined behaviour (out-of-range access) / failed `assert` (jrl-qp's or Eigen's) is a distinct outcome (`UB`), never a default value.
Infinite bounds are `None` (`option`).  The content of freshly allocated memory is a parameter (`junk`) quantified universally.

## Trusted base
* Coq 8.16.1's kernel, including its `vm_compute` machine and primitive floats/63-bit integers.
* `Print Assumptions`, theorem by theorem (list in `ASSUMPTIONS.md`, generated by `tools/assumptions.sh`).  Only axioms of
  the standard library occur: for theorems over `R` `ClassicalDedekindReals.sig_forall_dec`,
  `ClassicalDedekindReals.sig_not_dec`, `FunctionalExtensionality.functional_extensionality_dep`
  (and `Classical_Prop.classic` where `ring`/`field`/`lra` use it); for theorems about doubles the primitive float and
  int63 types and operations and the `FloatAxioms` that specify them.  ActiveSet, logger and workspace theorems are axiom free.
* The reading of the C++ code, i.e. that each definition models the lines its comment cites.

## Modelled / not modelled
See the header of each file.  Modelled: ActiveSet, ConstraintNormal (dense), Workspace, logger flags, DualSolver,
GoldfarbIdnaniSolver (stable, dense), experimental::GoldfarbIdnaniSolver (warm start, `Warm*.v`), Eigen's Householder QR, Eigen's LLT / triangular solves / Givens rotations as used, test/kkt, test/problems, test/randomProblems, test/randomMatrices, tests/QPSReader, tests/IKmatReader, the problem builders of tests/BlockGISolverTest, triBlockDiagLLTTest and blockArrowLLTTest (`BlockTest.v`), the allocations of the members of the dense solvers (`Alloc.v`), generateBoxAndSingleConstraintProblem, decomposition/triBlockDiagLLT and blockArrowLLT (`Block.v`), OrthonormalSequence and SingleNZSegmentVector (`Ortho.v`), StructuredC (`StructC.v`), StructuredG/J/QR and experimental::BlockGISolver (`StructG.v`, `BlockGI.v`), the aliasing of the blocks referenced by a StructuredG (`BlockAlias.v`), experimental::BoxAndSingleConstraintSolver (`Box.v`);
further files are listed in the table below.
Rounding: the optimality and exactness theorems are over R; memory safety, statuses and iteration counts are proved for every arithmetic; C64, C65 and C69 bound rounding errors in doubles. Every sum of the model (dot products, matrix products, triangular solves, Cholesky updates, Householder products) carries a key (place in the code, row), and the arithmetic has a parameter `order` that gives, for each key and length, the tree in which the terms are added and the partial sums that are subtracted (`Num.v`). Only `Rops` and the runnable instances fix it (left to right); the theorems for any arithmetic and those for doubles (`Dw wo`) hold for every order, so whichever kernel and vectorisation Eigen picks, provided the order is a function of the place and the sizes, not of alignment. `SumOrders.v`: over R every order gives the same sum. Fused multiply-add (`-mfma`) and x87 extended precision are not covered.
Not modelled: C++ `int` overflow other than in the buffer sizes of the dense solvers (C75), extended precision or fused multiply-add, allocation failure, Eigen's internal blocking (the unblocked, mathematically equal algorithms are modelled),
Eigen aliasing subtleties, the JSON/CSV writers, benchmark drivers other than the GI loop of SolversWarmStart.cpp (`Bench.v`), third-party solvers.
Infinite values other than infinite bounds are not modelled over R; `maxIter` is a `nat`.

## Findings (defects of the code met while modelling; theorem names in parentheses)
1. `computeStepLength_` tests `A_.activationStatus(k)` with `k` a position in the active list instead of a constraint index
   (src/GoldfarbIdnaniSolver.cpp:160-171, also the experimental and block solvers).  Equalities are only protected when they are
   numbered first; otherwise an equality can be dropped and a feasible problem can be declared INFEASIBLE
   (`C12_ordering_needed`, `C13_ordering_needed`, `C09_order_needed`), and, conversely, an inequality is not dropped when it
   should be, so that SUCCESS is returned at a feasible point that is not a minimum, with a multiplier of the wrong sign
   (`C10_ordering_needed`, `C14_ordering_needed`, `C47_ordering_needed` for the experimental solver: three variables, identity Hessian, small integers, no rounding involved;
   random problems of this kind fail about once in 400).
2. The absolute thresholds 1e-14 and bigBnd make the answer wrong on badly scaled data (hypothesis `exact_tests` of C09-C13).
3. `DualSolver::terminate` has no case for OVERCONSTRAINED_PROBLEM (assert(false) in debug).
4. The number of equalities is never compared to the number of variables in the stable solver (UB, `C37_overflow`);
   LINEAR_DEPENDENCY_DETECTED is never returned; inconsistent or dependent equalities can end in SUCCESS (`C09_independence_needed`).
5. The block Cholesky routines test Eigen's return code with the wrong sign convention (-1 success, k >= 0 failing pivot):
   a failure at the first pivot of a block is reported as success (`C22_first_pivot_undetected`, exact criterion in `C22_*_status`).
6. `blockArrowLSolve_` uses the size of the last block for the first one when `up` (`C21_up_solve_undefined`).
7. The warm start tests `FIXED` instead of `EQUALITY` for general constraints (`C17_equality_not_ignored`).
8. `SeparatedFeasibilityConstraints(FeasibilityConstraints)` reads its own empty members (`C29_undefined_with_constraints`).
9. `QPProblem` conversions drop `objCst` (`C38_conversion_drops_constant`); `wellFormed` ignores `transposedMat` in one test
   (`C45_transposed_rejected`) and asserts instead of answering on size mismatch (`C45_wellFormed_iff`).
10. Log flags are or-ed and never cleared (`C30_flags_never_cleared`); `startIter` logs with all bits (`C30_startIter`).
11. BlockGISolver only supports problems without equality and without warm start: any constraint active at initialisation trips an
    assertion (`C50_equality_never_solved`, `C50_warm_start_never_solved`, `C50_equality_asserts`); `StructuredQR::remove` always returns
    false, the caller ignores it.
12. multipliers() after resetActiveSet() depends on earlier accessor calls (`C41_*`).
13. `changeLd` asserts on an exact fit when growing (`C05_grow_exact_fit_asserts`).
14. `testKKT` can accept an infeasible point if bl > bu (`C26_order_needed`).
15. After NON_POS_HESSIAN, accessors show values of the previous problem (`C16_nonpos_stale`).
16. `randomProblems.cpp`: wrong block of Q in the branch `colsTot <= nVar`, mismatched product in the strictly feasible branch,
    sign flip of a double-sided weakly active constraint that leaves `l` unchanged.  Whenever [A; strongly active rows] has no more
    rows than there are variables and they are independent, the announced multipliers are wrong (`C40_independent_rows_wrong`), with
    even fewer rows the program asserts (`C40_too_few_rows_undefined`); overwriting the bound rows by the identity after
    `randDependent` changes the rank the QR step relies on; `check()` does not require nSharedRank <= number of strongly active
    constraints (`C40_shared_rank_undefined`); `strictlyFeasible` asserts unless there is exactly one strongly active constraint
    (`C40_strict_needs_one`); the double-sided flip makes the announced point infeasible (`C40_double_sided_wrong`).
    `RandomLeastSquare::computeKKTValues`, `checkKKT`, `testKKT` and `dispKKT` are declared without definition.
17. The warm-startable solver counts the constraints dropped at initialisation as iterations without testing `maxIter`
    (bound `max(maxIter, nbVar)` in `C46_warm_memory_safe`); with no argument it reuses the statuses left by the previous problem.
18. Warm start with a bound and a general equality in the given set: list positions and constraint indices no longer agree
    (same cause as 1), a feasible problem is declared INFEASIBLE (`C47_bounds_later_needed`); linearly dependent statuses end in
    SUCCESS with NaN values (`C47_independence_needed`).
19. `ElemOrthonormalSequence::add(HouseholderSequence)` has an empty body (OrthonormalSequence.h:143-146): the transformation is
    silently dropped.
20. `BlockGISolver::solve(const StructuredG & G, ...)`: `pb_.G = G` (BlockGISolver.cpp:46) copies a `vector<MatrixRef>`; the first call
    factorises the caller's matrices in place although the argument is const (and the caller's `decomposed()` stays false); later
    calls with as many blocks assign through the old references, i.e. overwrite the matrices of the *first* caller, which must still
    be alive and of the same sizes; calling twice with the same object factorises the factor (`C51_*`).
21. `generateBoxAndSingleConstraintProblem` stores the constraint as a column (`pb.C = c`) and leaves `transposedMat` false: the
    returned object is not well formed unless nbVar = 1 (`C52_not_well_formed`), and `testKKT` on it asserts.
22. `GIPb` transposes C in place and leaves `transposedMat` false (`C57_flag_not_updated`): the object is not well formed unless it
    has as many constraints as variables.
23. `parseValueLine` builds its error message with `lineName[c.line]` (the line number) instead of the section: a line of blanks after
    line 10 in COLUMNS, RHS, RANGES or QUADOBJ reads past the 11 entries of the table (`C59_blank_line_undefined`, `C59_undefined_exactly`).
24. `QPSReader::reset` is declared but neither defined nor called: a second `read` of a file throws "Duplicate row name"
    (`C58_second_read_fails`).
25. MI and PL bounds need a value although the format gives them none (`C58_infinite_bound_refused`).
26. With `fullObjMat`, coefficients given in the upper triangle are overwritten by zeros (`C58_upper_triangle_lost`).
27. An E row with a range is an inequality but is counted in `nbEq` (`C58_ranged_equality_counted`).
28. Data logged for the current iteration before the first `startIter`, or after the reset `startIter(-1)` of every `solve()`, goes to
    element 0, which is not a valid Matlab index; `BoxAndSingleConstraintSolver::init_` does so (`C61_before_first_iteration`).
29. `StructuredG` and `StructuredC` print nothing, so the log of the block solver's inputs is `logData.G = ;`, a syntax error
    (`C61_structured_input`).
30. `toMatlab` writes every matrix without element as `[]` (`C60_empty`); a comment with a newline puts its second line in the script
    (`C61_comment_line_needed`); the record `it` of `startIter` is general data, not data of the iteration (`C61_startIter`).
31. NaN in the data: comparisons with NaN are false, so a Hessian or a gradient holding a NaN ends in SUCCESS with a NaN solution
    (`C64_nan_succeeds`, `C65_nan_hessian_accepted`); active constraints are never evaluated again, in doubles they can be violated
    at SUCCESS (`C64_active_not_covered`: lower bound 1/8, returned 0).
32. `solve` leaves the factor in the caller's G; a loop that passes the same matrix object again silently solves another problem (C67_hessian_consumed). benchmarks/SolversWarmStart.cpp does so and is saved by G = I (C67_identity_harmless).
33. benchmarks/SolversWarmStart.cpp: `assert((p1.norm() - p2.norm() < 1e-14))` lacks an absolute value (C68_assert_one_sided); collinear draws - all draws when n = 1 - give NaN costs (C68_rotation, C68_path).
34. `Workspace::resize(rows, cols)` and the assertion of `asMatrix` multiply in `int`: from 46341 variables on the product overflows, the
    square buffers are not enlarged and the assertion passes (`C75_overflow_iff`, `C75_wraps_out_of_bounds`).
35. tests/IKmatReader.cpp: titles are compared as prefixes, so `dim_eq` is accepted where `d` is expected (`C76_title_prefix`); rows of
    different lengths trip an Eigen assertion instead of an exception (`C76_matrix_file_undefined`); the vector `c` is read without
    `forceVec`, so a file with no variable trips one too (`C76_sizes`: at least one variable); the number of columns is never compared with the sizes.
36. tests/blockArrowLLTTest.cpp, "Block down arrow LLT": `blockArrowLTransposeSolve(D, S, false, B2, j)` passes `j`, meant as `end`, as `start`, a hint the
    right-hand side does not satisfy; the check holds only because `start` is ignored once the tip block has been solved (`C77_start_ignored`).
37. tests/BlockGISolverTest.in.cpp: the loop guessing the number of constraints of each block miscounts when a block has none and reads
    past the matrix on a zero column (`C77_scan_gaps`); it is right otherwise (`C77_scan`).
38. The orthogonal factor of the block solver is a list with one more elementary factor at each iteration, removals included, that is
    only emptied by the next call: products with Q cost O(iterations), not O(active constraints) (`C79_block`).

## Plan per property
| id | what is modelled | how it is proved |
|---|---|---|
| C01-C04 | ActiveSet as record of status list, active list, counters; all ops with UB outcome | invariant by induction over op histories; frame lemmas |
| C05 | Workspace buffer, changeLd as loops of memmove | loop invariant for both directions, UB excluded |
| C06 | Workspace.resize, resize_p, resize_ | invariant over histories of sizes |
| C07, C08 | DualSolver::solve loop as recursion on maxIter | induction on the loop |
| C09-C15, C25, C32-C34, C36, C37, C42-C44 | dense GI solver: llt, triangular solves, Givens, add/remove, step, step length, selection, init, main loop | invariants J J^T = G^-1, J^T N = [R;0], stationarity, tightness, dual feasibility; lexicographic measure for termination; the limit on bigBnd exists because a face determines the point, its multipliers and the directions, and there are finitely many faces (`LimitsEx.v`) |
| C16 | whole solver state with stale buffers | relational (two-run) invariant |
| C17, C18, C46-C49 | warm-startable solver (`Warm.v`): initial active set, triangular solves, Householder QR, primal-dual start, dropping loop | loop invariants (`WarmAS`, `WarmSafe`), exactness of the QR (`WarmQR`, `WarmInit`), the main loop's invariants of C09-C15 re-established at the warm-start point (`WarmOpt`), optimality of the warm-start point (`WarmHot`), termination (`WarmTotal`) |
| C19-C22 | block factorisations over lists of blocks (`Block.v`) | dense meaning by positions (`BlockDense.v`); induction on the blocks, block elimination step (`BlockElim.v`), truncated substitutions for the hints (`BlockSolve.v`) |
| C23, C35 | OrthonormalSequence elements and sequences, single-segment vectors (`Ortho.v`) | call histories; each call multiplies the represented operator by one dense factor (`OrthoProofs`), the zero-segment hints skip only identity actions |
| C24 | StructuredC: tables built by the constructor, col, transposeMult (`StructC.v`) | positional specification of the block-diagonal matrix; induction on the blocks |
| C26-C29, C38, C45 | test utilities (kkt, problem conversions) | algebra |
| C40 | randomProblem (`Random.v`): all six steps, the random numbers being inputs; ColPivHouseholderQR is a parameter constrained by `is_cpqr` | null-space argument for the multipliers (`RandomRank`, `RandomMain`), signs and bounds entry by entry, invariance under the shuffles (`RandomProofs`) |
| C30, C39 | bit-level flags, enum names | bit lemmas; finite case analysis |
| C31 | BoxAndSingleConstraintSolver: its own init_ (clamping loop), then the loop of the dense solver (`Box.v`) | loop invariant of the initialisation (`BoxSafe`), the initial state satisfies the invariants of the dense solver for min 1/2|x-x0|^2 (`BoxProofs`), tolerance from the entries of c (`BoxGap`), two-run relation (`BoxSame`), at most 2n+1 complete iterations (`BoxSteps`: x moves along c on the free variables, a potential over the phases of the bounds increases at every iteration), explicit limit for bigBnd (`BoxLimit`), optimality (`BoxFinal`) |
| C52 | generateBoxAndSingleConstraintProblem (`BoxGen.v`), the random vectors being inputs | convexity argument towards the clamped point, composition with C31 |
| C53-C55 | randOrtho, randn, randDependent (`RandMat.v`), the random numbers being inputs | loop invariant (orthogonal, identity outside the block, determinant); a determinant theory by expansion (`Det.v`); U diag(s) V has the rank of s; transposition of ranks |
| C56-C57 | conversions of benchmarks/problemAdaptors (`Adapt.v`) | row by row comparison with the documented conventions; with C28 and C44 for the dense solver |
| C58-C59 | QPSReader on strings (`Qps.v`): getline, stream extraction, all sections, filling of the problem; hash maps as association lists walked in any order | independent grammar of files and meaning (`QpsSpec.v`); words of a line (`QpsText`), the state of the reader as a function of the items read (`QpsProofs`, `QpsRead`), index invariant for arbitrary texts (`QpsSafe`) |
| C60-C61 | Eigen's print_matrix, toMatlab, the logger's text and sessions of calls on several loggers and streams (`LogText.v`) | a reader of Matlab scripts written independently (`MatlabSpec.v`); every call appends a text that is read as whole statements (`LogProofs`), invariant over sessions |
| C62 | the warm-startable solver (`Warm.v`) run twice, on two objects with different histories and memory contents | non-interference: relations between the two states kept by every step of the initialisation (`WarmSame.v`), then the relation of C16 for the loop (`GISame.v`) |
| C63 | the block solver (`BlockGI.v` and everything below it) over any scalar operations | size invariants of every routine for an abstract arithmetic (`BlockGen.v`, `BlockGenQR.v`, `BlockGenGI.v`); the only facts used about numbers are `a < b -> a == a` and that computations started from zeros stay in a set closed under +, -, *, / whose square roots are not > 1e-14 (0 for reals; 0, -0, NaN for doubles: `FloatNull.v`) |
| C64 | the dense, block and box solvers over `Dw wo` (`PropDouble.v`, `PropDoubleBlock.v`) | `FloatStd.v`: the standard error model (relative error u per operation, absolute error eta on underflow) as a predicate on `ops`, error of sums and dot products by induction; `DoubleOps.v`: binary64 satisfies it (u = 2^-53, eta = 2^-1075), from Flocq's correctness theorems; `FloatSolve.v`: in any arithmetic the loop answers SUCCESS only when no test of selectViolatedConstraint_ succeeded |
| C65 | Cholesky of `Num.v` over `Dw wo` | `FloatChol.v`: the equations satisfied by the computed factor, error of each entry, then the exact real theorems (`llt_success_posdef`, `llt_failure_witness`) applied to the perturbed matrix; `XFactor.v`, `PropDoubleWarm.v`: what both dense solvers leave in G, by the call analyses of C33/C46 |
| C66 | the block solver (`BlockGI.v`) run twice, on two objects with different histories and memory contents and two Hessians equal on the lower triangles | relation between the two states (factor, QR factor: only the entries that are read, sequence of orthonormal transforms up to their unused storage) kept by every operation: `BlockSame.v`, `BlockSameGI.v`, `BlockSameRun.v`, `BlockSameSolve.v`; definedness from C63 |
| C67 | the loop of BENCH_GI (`Bench.v`), where the matrix G left by a call is passed to the next one | induction on the calls, C42 (what is left in G) and C16 (history independence); the Cholesky factor of I is I |
| C68 | generateWSProblem, decomposedRotation, the path, the index arithmetic (`Bench.v`) | geometry of the sphere, composition with C57 (conversion) and C44 (total correctness) |
| C69 | init_, the triangular solves and the first pass of the loop over `Dw wo` | `FloatTri.v`: the equations satisfied by the computed triangular solutions, residuals by induction on the rows; `FloatStart.v`: what a call that stops at its first pass returns (any arithmetic); composition with the factor bound of C65 |
| C70 | the dense solver over R, two problems (`PropSens.v`) | Lagrangian bound from the KKT conditions that C44 establishes; monotonicity of the gradient for the Lipschitz bound |
| C71 | the dense solver over R, two descriptions (`PropSens.v`) | same feasible set and cost give the same minimiser; the hypotheses of C44 (independence, tolerance gap) are carried along any signed relabelling of constraints |
| C72 | both dense solvers over R (`Twins.v`, `TwinStart.v`, `PropTwins.v`) | lock-step simulation: a step is determined by active set and point (uniqueness of the equality-constrained minimiser), whatever factorisation is held; the two initialisations reach the same set and point. `C72_both_kinds_differ`: a feasible problem with a general equality and a fixed variable on which, in doubles, one answers INFEASIBLE and the other solves it |
| C73 | both dense solvers over R, matrices of multiples of 1/D (`IntGap.v`, `IntMult.v`, `Limits.v`, `IntLimit.v`, `IntScale.v`, `PropInt.v`) | Cramer's rule on a nonsingular KKT matrix of a basis of the face (bordering induction): components are integers over a determinant of size at most (2n)! M^(2n); the same bound limits every step (`steps_below`), so bigBnd is explicit; multiples of 1/D by passing to the problem in the variable D x |
| C74 | the sequence of tests/GoldfarbIdnaniSolverTest.cpp:75-127 and "Warm-start" (127-214) on the model of the generator, the conversion and both dense solvers over R (`PropRandSolve.v`) | AᵀA positive definite from full column rank; total correctness (C44) gives SUCCESS or INFEASIBLE, the announced solution (C40, C26) excludes the latter and equals the minimiser; the difference of two multiplier vectors is a vanishing combination of saturated normals; the experimental solver by C72, the warm starts by C18_for_ever |
| C75 | the `int` arithmetic of Workspace, resize, resize_p, resize_ (`IntSize.v`), overflow undefined or wrapping | equal to the nat model in range; exact overflow criterion; counterexample for every size beyond |
| C76 | tests/IKmatReader.cpp on lists of lines (`IkMat.v`), extraction of numbers as parameters | every reader takes a fixed list of lines and throws on a proper prefix of it (closed under sequencing) |
| C77 | builders of the block tests (`BlockTest.v`): random block matrices as any draw, references as blocks written back | block position lemmas, uniqueness of the Cholesky factor, C19-C21 and C50 |
| C78 | capacities and allocations of the members (`Alloc.v`), refined by every history of public calls of the stable solver (`AllocSolve.v`) | invariant: the buffers have the sizes of the largest problem so far; frame lemma for each function of `Solver.v` |
| C79 | the loops of the three solvers (`Changes.v`), the factor list of StructuredQR | a relation "a activations and r deactivations lead from A to B" preserved by each function; runs with limits k and k+1 share their first k iterations |
| C41 | lazy multiplier expansion | exact characterisation and a witness run |
| C50 | BlockGISolver with StructuredG, StructuredC, StructuredJ, StructuredQR (`StructG.v`, `BlockGI.v`) | each block operation shown equal to the dense one (`StructGProofs`, `StructQRProofs`), then a simulation between the two loops (`BlockGIProofs`, `BlockGIInit`) and C44 |
| C51 | the references held by StructuredG, vector assignment, solve on a heap of matrices (`BlockAlias.v`) | lemmas on element-wise assignment and on the frame of the call, invariant over call histories (`AliasProofs`) |
