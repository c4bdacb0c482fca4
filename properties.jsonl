{"id": "C01", "title": "UpdateOptions clamps every option", "statement": "After UpdateOptions(o), every numeric option held by the solver lies in its admissible interval (e.g. alpha in [0.001,0.999], sigma0 in [sigma_min,sigma_max], tolerances >= 1e-14, iteration limits >= 1), provided no field of o is NaN.", "quantifier": "every option struct whose floating fields are arbitrary non-NaN doubles (including infinities and subnormals) and whose int fields are arbitrary ints", "why_tests_cant": "the option space is 2^1000-ish; clamping order matters (sigma0 is clamped against already-clamped bounds)", "anchors": ["fbstab/fbstab_algorithm-impl.h:AlgorithmParameters::ValidateOptions", "fbstab/fbstab_algorithm-impl.h:FBstabAlgorithm::UpdateParameters", "tools/utilities.h:saturate"]}
{"id": "C02", "title": "UpdateOptions preserves admissible options", "statement": "If every field of o is already admissible, the solver's options after UpdateOptions(o) equal o field by field; applying UpdateOptions twice is the same as once; DefaultOptions() and ReliableOptions() are installed verbatim; the result does not depend on previously installed options.", "quantifier": "every option struct (non-NaN doubles) and every previous option state", "why_tests_cant": "21 independent fields each copied by hand; a forgotten or crossed field shows only for particular values", "anchors": ["fbstab/fbstab_algorithm-impl.h:FBstabAlgorithm::UpdateParameters", "fbstab/fbstab_algorithm-impl.h:AlgorithmParameters::DefaultParameters", "fbstab/fbstab_algorithm-impl.h:AlgorithmParameters::ReliableParameters"]}
{"id": "C03", "title": "UpdateOptions never throws", "statement": "UpdateOptions completes without throwing for every option struct, including NaN and infinite values, although it calls a clamping routine that throws when its bounds are reversed.", "quantifier": "every option struct over all doubles including NaN and infinities", "why_tests_cant": "reversed bounds could only come from particular combinations of fields", "anchors": ["tools/utilities.h:saturate", "fbstab/fbstab_algorithm-impl.h:AlgorithmParameters::ValidateOptions"]}
{"id": "C04", "title": "NaN options are rejected or clamped", "statement": "After UpdateOptions(o) no floating option held by the solver is NaN. (Expected by users of a validating setter; the code is checked against it.)", "quantifier": "every option struct over all doubles", "why_tests_cant": "NaN defeats every comparison used in the clamp; no test passes NaN", "anchors": ["tools/utilities.h:saturate", "fbstab/fbstab_algorithm-impl.h:AlgorithmParameters::ValidateOptions"]}
{"id": "C05", "title": "Accepted tolerances do not make Solve throw", "statement": "For options accepted by UpdateOptions, Solve raises the clamp-range runtime_error exactly when inner_tol_min > inner_tol_max or when some outer residual exceeds the convergence tolerance but is below inner_tol_min; in particular it never does when inner_tol_min <= inner_tol_max and inner_tol_min <= abs_tol, while the unguarded claim 'accepted options never make Solve throw' is checked against the code.", "quantifier": "every option struct, problem, initial guess and solver history", "why_tests_cant": "the failure depends on the residual value reached during the run", "anchors": ["fbstab/fbstab_algorithm-impl.h:FBstabAlgorithm::Solve", "tools/utilities.h:saturate"]}
{"id": "C06", "title": "Iteration limits are respected and Solve terminates", "statement": "Every Solve call ends (normally or by exception) and the reported counts satisfy 0 <= newton_iters <= max_newton_iters and 0 <= prox_iters <= max_prox_iters; the number of linear systems solved equals newton_iters and the number of merit evaluations is at most newton_iters*max_linesearch_iters.", "quantifier": "every problem, guess, option setting, solver history and every behaviour of the arithmetic (including NaN/Inf)", "why_tests_cant": "needs an argument over every path through three nested loops", "anchors": ["fbstab/fbstab_algorithm-impl.h:FBstabAlgorithm::Solve", "fbstab/fbstab_algorithm-impl.h:FBstabAlgorithm::SolveProximalSubproblem"]}
{"id": "C07", "title": "Exit flags mean what they say", "statement": "DIVERGENCE is never returned; PRIMAL_INFEASIBLE, DUAL_INFEASIBLE and PRIMAL_DUAL_INFEASIBLE are returned only when check_feasibility is on; MAXITERATIONS is returned only when newton_iters reached max_newton_iters or prox_iters reached max_prox_iters.", "quantifier": "every Solve call", "why_tests_cant": "absence of a return value along all paths cannot be sampled", "anchors": ["fbstab/fbstab_algorithm-impl.h:FBstabAlgorithm::Solve", "fbstab/fbstab_algorithm.h:ExitFlag"]}
{"id": "C08", "title": "SUCCESS reports the residual of the returned point", "statement": "When Solve returns SUCCESS the reported residual is, bit for bit, the penalised natural residual of the (z,l,v,y) written back to the caller, and either residual <= abs_tol + rel_tol*(1+||(f,h,b)||) or the last proximal step had norm <= stall_tol.", "quantifier": "every Solve call returning SUCCESS, for any arithmetic", "why_tests_cant": "the residual object is also scratch space of the inner loop; staleness appears only on particular paths", "anchors": ["fbstab/fbstab_algorithm-impl.h:FBstabAlgorithm::Solve", "fbstab/components/full_residual.cc:FullResidual::PenalizedNaturalResidual"]}
{"id": "C09", "title": "SUCCESS implies the tolerance was met", "statement": "If Solve returns SUCCESS then residual <= abs_tol + rel_tol*(1+||(f,h,b)||). (Documented exit criterion; the code is checked against it, the stall test being the escape.)", "quantifier": "every Solve call returning SUCCESS", "why_tests_cant": "the stall branch is reached only for particular problems and options", "anchors": ["fbstab/fbstab_algorithm.h:FBstabAlgorithm", "fbstab/fbstab_algorithm-impl.h:FBstabAlgorithm::Solve"]}
{"id": "C10", "title": "MAXITERATIONS reports the residual of the returned point", "statement": "When Solve returns MAXITERATIONS the reported residual equals the residual of the returned point. Holds on the Newton-limit exit; on the proximal-limit exit the code is checked against it.", "quantifier": "every Solve call returning MAXITERATIONS", "why_tests_cant": "only the order of scratch-object writes decides which point the residual belongs to", "anchors": ["fbstab/fbstab_algorithm-impl.h:FBstabAlgorithm::Solve"]}
{"id": "C11", "title": "Infeasibility exits return the certificate", "statement": "When Solve returns an infeasibility flag, the (z,l,v,y) written back is the difference of the last two proximal iterates and that difference is the vector which passed the corresponding primal and/or dual infeasibility test with tolerance infeas_tol; the flag is the one the test names.", "quantifier": "every Solve call returning an infeasibility flag", "why_tests_cant": "relates the output to internal iterates over whole runs", "anchors": ["fbstab/fbstab_algorithm-impl.h:FBstabAlgorithm::Solve", "fbstab/fbstab_algorithm-impl.h:FBstabAlgorithm::CheckForInfeasibility", "fbstab/components/full_feasibility.cc:FullFeasibility::CheckFeasibility"]}
{"id": "C12", "title": "Exceptions leave the caller's variables untouched", "statement": "If Solve throws (bad sizes, failed factorisation, clamp error) the caller's z, l, v, y are exactly what they were before the call.", "quantifier": "every call that throws, at whichever point of the run", "why_tests_cant": "the throw point depends on data; every prefix of the run must be write-free", "anchors": ["fbstab/fbstab_algorithm-impl.h:FBstabAlgorithm::Solve", "fbstab/fbstab_algorithm-impl.h:FBstabAlgorithm::WriteVariable", "fbstab/fbstab_dense.h:FBstabDense::Solve", "fbstab/fbstab_mpc.h:FBstabMpc::Solve"]}
{"id": "C13", "title": "Solve does not depend on the solver's history", "statement": "The result of Solve (flag, residuals, counters, returned point) on a given problem, guess and options is the same whatever sequence of UpdateOptions/Solve calls, including ones that threw, was made on the same solver object before, up to the most recent options. MPC solver: for any arithmetic. Dense solver: in exact arithmetic.", "quantifier": "every finite history of API calls on one solver object, and every initial content of uninitialised workspace", "why_tests_cant": "histories are unbounded and workspace is shared between calls", "anchors": ["fbstab/fbstab_algorithm-impl.h:FBstabAlgorithm::Solve", "fbstab/components/riccati_linear_solver.cc", "fbstab/components/dense_cholesky_solver.cc", "fbstab/components/full_feasibility.cc"]}
{"id": "C14", "title": "Dense solver history independence on doubles", "statement": "The dense solver's result does not depend on the previous content of its workspace when run on IEEE doubles. (The feasibility check multiplies uninitialised or stale workspace by 0.0; the code is checked against the claim.)", "quantifier": "every workspace content, IEEE binary64 arithmetic", "why_tests_cant": "0.0*NaN and 0.0*Inf from uninitialised memory do not show up deterministically in tests", "anchors": ["fbstab/components/dense_data.cc:DenseData::gemvA", "fbstab/components/full_feasibility.cc:FullFeasibility::CheckFeasibility"]}
{"id": "C15", "title": "Constraint margin output", "statement": "The input value of y is ignored. In exact arithmetic the returned y equals b - A*z for the returned z on every normal exit (for infeasibility exits, z is the certificate).", "quantifier": "every Solve call that returns normally", "why_tests_cant": "y is updated incrementally by a recurrence through every step of the run", "anchors": ["fbstab/components/full_variable.cc:FullVariable::axpy", "fbstab/components/full_variable.cc:FullVariable::InitializeConstraintMargin", "fbstab/fbstab_algorithm-impl.h:FBstabAlgorithm::CopyIntoVariable"]}
{"id": "C16", "title": "Display level never changes the answer; exactly which lines are printed", "statement": "The numerical result is the same for all display levels; OFF prints nothing; FINAL prints exactly one summary on every normal return and nothing else; ITER prints one header, one line per proximal iteration examined and one summary; ITER_DETAILED prints, for every proximal iterate whose subproblem is attempted, a heading with the iteration numbers and the residual, then one line per tested inner iterate (its number within the subproblem, the last step length and the three residual components there) and a footer exactly when the inner test succeeds; the numbers shown are the true counters, residuals and tolerances of the run.", "quantifier": "every Solve call and every display level", "why_tests_cant": "printing is interleaved with the algorithm on every path", "anchors": ["fbstab/fbstab_algorithm-impl.h:PrintFinal", "fbstab/fbstab_algorithm-impl.h:PrintIterLine", "fbstab/fbstab_algorithm-impl.h:PrintIterHeader", "fbstab/fbstab_algorithm-impl.h:PrintDetailedHeader", "fbstab/fbstab_algorithm-impl.h:PrintDetailedLine", "fbstab/fbstab_algorithm-impl.h:PrintDetailedFooter"]}
{"id": "C17", "title": "Dense size validation", "statement": "FBstabDense(nz,nl,nv) throws iff nz<=0 or nv<=0 or nl<0. Solve throws, leaving everything unchanged, iff the problem matrices are not mutually consistent, or do not match (nz,nl,nv), or z, l, v do not match.", "quantifier": "all constructor arguments and all shapes of the six data arrays and the guess", "why_tests_cant": "combinations of shapes are unbounded", "anchors": ["fbstab/fbstab_dense.cc:FBstabDense::FBstabDense", "fbstab/fbstab_dense.h:FBstabDense::ValidateInputs", "fbstab/components/dense_data.h:DenseData::DenseData"]}
{"id": "C18", "title": "Dense Solve rejects a wrongly sized y", "statement": "Solve throws when the caller's y has the wrong length. (MPC does; dense is checked against it: with a VariableRef the write-back is an out-of-bounds write.)", "quantifier": "all shapes of the caller's variable", "why_tests_cant": "tests always allocate y correctly", "anchors": ["fbstab/fbstab_dense.h:FBstabDense::ValidateInputs", "fbstab/fbstab_algorithm-impl.h:FBstabAlgorithm::WriteVariable"]}
{"id": "C19", "title": "MPC size validation", "statement": "FBstabMpc(N,nx,nu,nc) throws iff some size is < 1. Solve throws, leaving everything unchanged, whenever sequence lengths or row/column counts of Q,R,S,A,B,E,L, row counts of q,r,c,d, x0, or the guess disagree with (N,nx,nu,nc). The column counts of q,r,c,d are checked against the same expectation.", "quantifier": "all shapes of the eleven sequences, x0 and the guess", "why_tests_cant": "combinations of shapes are unbounded", "anchors": ["fbstab/components/mpc_data.cc:MpcData::ValidateInputs", "fbstab/fbstab_mpc.h:FBstabMpc::ValidateInputSizes", "fbstab/fbstab_mpc.cc:FBstabMpc::FBstabMpc"]}
{"id": "C20", "title": "No undefined behaviour through the public API", "statement": "No sequence of constructor, UpdateOptions and Solve calls with correctly sized y (and single-column q,r,c,d) performs a size-mismatched vector operation, dereferences a null data pointer, or uses the data of an earlier Solve call, whose temporaries are dead.", "quantifier": "every finite history of API calls with arbitrary problems, options and guesses", "why_tests_cant": "dangling data pointers remain stored in eight component objects between calls; only an argument over all orders excludes their use", "anchors": ["fbstab/fbstab_algorithm-impl.h:FBstabAlgorithm::Solve", "fbstab/fbstab_dense.h:FBstabDense::Solve", "fbstab/components/full_variable.h:FullVariable::LinkData"]}
{"id": "C21", "title": "Matrix sequence addressing", "statement": "Entry (i,j) of the k-th matrix of a sequence is data[k*nrows*ncols + j*nrows + i]; valid indices give distinct in-bounds addresses, an index k outside [0,len) throws, and writing matrix k changes no other matrix.", "quantifier": "all lengths, row and column counts and indices", "why_tests_cant": "index arithmetic over unbounded sizes", "anchors": ["tools/matrix_sequence.h:MatrixSequence", "tools/matrix_sequence.h:MapMatrixSequence"]}
{"id": "C22", "title": "Owned and mapped MPC data are interchangeable", "statement": "Solve gives the same result for ProblemData and for a ProblemDataRef viewing the same memory.", "quantifier": "all problem data", "why_tests_cant": "two template instantiations, compared over all inputs", "anchors": ["tools/matrix_sequence.h:MapMatrixSequence", "fbstab/fbstab_mpc.cc:FBstabMpc::ProblemDataRef"]}
{"id": "C23", "title": "Implicit MPC products equal the explicit QP matrices", "statement": "For the H, G, A, f, h, b documented for MPC problems, gemvH, gemvA, gemvG, gemvAT compute a*M*x+b*y for all a, b, x, y and axpyf, axpyh, axpyb compute a*w+y (exact arithmetic); gemvGT does so for a in {1,-1,0}.", "quantifier": "all horizons, dimensions, data, scalars and vectors", "why_tests_cant": "block index arithmetic over unbounded horizon and dimensions", "anchors": ["fbstab/components/mpc_data.cc"]}
{"id": "C24", "title": "gemvGT for arbitrary scaling", "statement": "gemvGT(x,a,b,y) computes a*G'*x+b*y for every scalar a. (The branch for a not in {1,-1} is checked against this documented contract.)", "quantifier": "all scalars a", "why_tests_cant": "the solver itself only uses a=1, and the unit test too", "anchors": ["fbstab/components/mpc_data.cc:MpcData::gemvGT"]}
{"id": "C25", "title": "The MPC QP is the optimal control problem", "statement": "z satisfies Gz=h and Az<=b exactly when the stacked states/controls satisfy x(0)=x0, the dynamics and the stage constraints, and 1/2 z'Hz+f'z is the documented sum of stage costs.", "quantifier": "all horizons, dimensions, data and trajectories", "why_tests_cant": "unbounded horizon and dimensions", "anchors": ["fbstab/fbstab_mpc.h:FBstabMpc", "fbstab/components/mpc_data.h:MpcData"]}
{"id": "C26", "title": "Forcing norm", "statement": "ForcingNorm() equals the Euclidean norm of the concatenation (f,h,b) for both data classes (exact arithmetic), hence both convergence tolerances are abs_tol+rel_tol*(1+||(f,h,b)||).", "quantifier": "all data", "why_tests_cant": "the MPC version accumulates per stage with a special case at stage 0", "anchors": ["fbstab/components/mpc_data.h:MpcData::MpcData", "fbstab/components/dense_data.h:DenseData::DenseData"]}
{"id": "C27", "title": "Zero residual iff KKT", "statement": "For a variable whose margin is y=b-Az, the natural residual and the penalised natural residual are zero iff (z,l,v) satisfies the KKT conditions of the QP; likewise the penalised Fischer-Burmeister function vanishes iff both arguments are nonnegative with zero product.", "quantifier": "all problems, points and alpha in (0,1)", "why_tests_cant": "equivalence over real vectors", "anchors": ["fbstab/components/full_residual.cc:FullResidual::NaturalResidual", "fbstab/components/full_residual.cc:FullResidual::PenalizedNaturalResidual", "fbstab/components/full_residual.cc:FullResidual::pfb"]}
{"id": "C28", "title": "KKT points are global optima", "statement": "If H is symmetric positive semidefinite, a point with zero residual minimises the objective over the feasible set, so a SUCCESS with residual 0 is a global optimum.", "quantifier": "all convex problems and points", "why_tests_cant": "optimality quantifies over all feasible points", "anchors": ["fbstab/fbstab_dense.h:FBstabDense", "fbstab/components/full_residual.cc"]}
{"id": "C29", "title": "SUCCESS gives an approximate KKT point with explicit bounds", "statement": "If the residual of the returned point is <= eps then ||Hz+f+G'l+A'v|| <= eps, ||Gz-h|| <= eps, each constraint violation is <= eps/alpha, each v_i >= -eps/alpha, and when y_i,v_i>0 both min(y_i,v_i) <= eps/alpha and y_i*v_i <= eps/(1-alpha); the objective is within an explicit multiple of eps of optimal against any feasible point.", "quantifier": "all convex problems, tolerances and points (exact arithmetic)", "why_tests_cant": "universally quantified error bound", "anchors": ["fbstab/components/full_residual.cc:FullResidual::PenalizedNaturalResidual", "fbstab/fbstab_algorithm-impl.h:FBstabAlgorithm::Solve"]}
{"id": "C30", "title": "Subproblem residual characterises the proximal point", "statement": "InnerResidual(x,xbar,sigma) is zero iff x is the proximal point of xbar, i.e. solves the sigma-regularised KKT system, and for convex problems and sigma>0 there is at most one such (z,l,v).", "quantifier": "all convex problems, points and sigma>0", "why_tests_cant": "iff and uniqueness over real vectors", "anchors": ["fbstab/components/full_residual.cc:FullResidual::InnerResidual"]}
{"id": "C31", "title": "Primal infeasibility certificates are sound", "statement": "If CheckFeasibility reports primal infeasibility for a candidate with v>=0, every feasible z has 1-norm at least -(b'v+h'l)/(tol*max(|v|,|l|)), in particular none exists when tol=0. Without v>=0 (which the code does not test) the claim is checked against the code.", "quantifier": "all problems, candidates, tolerances and feasible points", "why_tests_cant": "certificate soundness quantifies over every feasible point", "anchors": ["fbstab/components/full_feasibility.cc:FullFeasibility::CheckFeasibility"]}
{"id": "C32", "title": "Dual infeasibility certificates are sound", "statement": "If CheckFeasibility reports dual infeasibility for a candidate z, then with tol=0 moving from any feasible point along z stays feasible and drives the objective to -infinity; with tol>0 there is a quantitative version (violation and curvature at most tol*|z| per unit step).", "quantifier": "all problems, candidates, feasible points and step lengths", "why_tests_cant": "quantifies over all feasible points and steps", "anchors": ["fbstab/components/full_feasibility.cc:FullFeasibility::CheckFeasibility"]}
{"id": "C33", "title": "Newton weights are well defined", "statement": "For sigma>0 and alpha in (0,1) every weight pair used to build the Newton system satisfies gamma>=0, mu>=0 and mu+sigma*gamma>0, so the solver never divides by zero (exact arithmetic).", "quantifier": "all points, sigma>0, alpha in (0,1)", "why_tests_cant": "case analysis over the real plane", "anchors": ["fbstab/components/dense_cholesky_solver.cc:DenseCholeskySolver::PFBGradient", "fbstab/components/riccati_linear_solver.cc:RiccatiLinearSolver::PFBGradient"]}
{"id": "C34", "title": "Dense Newton step solves the documented system", "statement": "After Initialize succeeds, DenseCholeskySolver::Solve returns dx with [H+sI, G', A'; -G, sI, 0; -CA, 0, D] dx = r and dy=b-A*dz; for symmetric PSD H the system is uniquely solvable and Initialize succeeds.", "quantifier": "all convex problems, points, sigma>0, right-hand sides (exact arithmetic, exact LDL')", "why_tests_cant": "linear algebra over all dimensions", "anchors": ["fbstab/components/dense_cholesky_solver.cc"]}
{"id": "C35", "title": "Riccati Newton step solves the documented system", "statement": "After Initialize succeeds, RiccatiLinearSolver::Solve returns dx solving the same documented system for the MPC matrices, with dy=b-A*dz; for PSD stage costs and sigma>0 no Cholesky step fails.", "quantifier": "all horizons, dimensions, convex data, points, sigma>0, right-hand sides (exact arithmetic, exact Cholesky)", "why_tests_cant": "induction over an unbounded horizon of matrix identities", "anchors": ["fbstab/components/riccati_linear_solver.cc"]}
{"id": "C36", "title": "Convex problems never make Solve throw", "statement": "For convex data of the right size and options with inner_tol_min <= inner_tol_max and inner_tol_min <= abs_tol, Solve returns normally (exact arithmetic), for both solvers.", "quantifier": "all convex problems, guesses and such options", "why_tests_cant": "composition over the whole run", "anchors": ["fbstab/fbstab_algorithm-impl.h:FBstabAlgorithm::SolveProximalSubproblem", "fbstab/components/dense_cholesky_solver.cc", "fbstab/components/riccati_linear_solver.cc"]}
{"id": "C37", "title": "Line search contract", "statement": "Every Newton update is x+t*dx with t=beta^j, 0<=j<=max_linesearch_iters; if j<max_linesearch_iters the new merit is <= m0-2*t*eta*merit where m0 is the current merit (monotone mode) or the maximum of the up to five most recent merits of the current subproblem (nonmonotone mode); if j=max_linesearch_iters no decrease was verified.", "quantifier": "every inner iteration of every run, any arithmetic", "why_tests_cant": "loop invariant over every trial", "anchors": ["fbstab/fbstab_algorithm-impl.h:FBstabAlgorithm::SolveProximalSubproblem", "fbstab/fbstab_algorithm-impl.h:InsertMerit", "fbstab/fbstab_algorithm.h:MaxMerit"]}
{"id": "C38", "title": "Returned inequality duals are nonnegative", "statement": "On SUCCESS or MAXITERATIONS, the returned v is componentwise >= 0 whenever at least one proximal iteration was completed or the initial guess had v>=0.", "quantifier": "every such Solve call (exact arithmetic; and doubles without NaN)", "why_tests_cant": "projection must be applied on every path to a write-back", "anchors": ["fbstab/components/full_variable.cc:FullVariable::ProjectDuals", "fbstab/fbstab_algorithm-impl.h:FBstabAlgorithm::SolveProximalSubproblem"]}
{"id": "C39", "title": "Warm start at a solution returns immediately", "statement": "If the guess (z,l,v) is a KKT point, Solve returns SUCCESS with zero iterations, residual 0 and z,l,v unchanged (exact arithmetic).", "quantifier": "all problems and KKT points", "why_tests_cant": "all problems", "anchors": ["fbstab/fbstab_algorithm-impl.h:FBstabAlgorithm::Solve"]}
{"id": "C40", "title": "MPC solver and dense solver agree", "statement": "In exact arithmetic FBstabMpc::Solve on OCP data returns the same flag, counters, residuals and point as FBstabDense::Solve on the explicitly assembled QP, with the same options and guess.", "quantifier": "all convex OCPs, guesses and options", "why_tests_cant": "whole-run equivalence of two implementations", "anchors": ["fbstab/fbstab_mpc.h", "fbstab/fbstab_dense.h", "fbstab/components/mpc_data.cc"]}
{"id": "C41", "title": "Subproblem tolerance schedule", "statement": "The tolerance handed to each subproblem lies between inner_tol_min and the current outer residual, and never exceeds max(inner_tol_min, delta * previous tolerance).", "quantifier": "every proximal iteration of every run (ordered scalars)", "why_tests_cant": "loop invariant", "anchors": ["fbstab/fbstab_algorithm-impl.h:FBstabAlgorithm::Solve"]}
{"id": "C42", "title": "Large finite bounds do not fake success", "statement": "With default options, SUCCESS at the initial guess means the guess is near-optimal even for large finite data. (With b=1e200 as 'no bound' the squared norm overflows and the convergence tolerance becomes infinite; the code is checked.)", "quantifier": "all finite double data", "why_tests_cant": "overflow needs specific magnitudes", "anchors": ["fbstab/components/dense_data.h:DenseData::DenseData", "fbstab/fbstab_algorithm-impl.h:FBstabAlgorithm::Solve"]}
{"id": "C43", "title": "Feasible problems are not declared primal infeasible", "statement": "Solve never returns PRIMAL_INFEASIBLE for a problem with a feasible point of moderate size. (The certificate test omits v>=0; a warm-started run on a feasible QP is checked.)", "quantifier": "all feasible problems and guesses", "why_tests_cant": "depends on the warm start; tests start from zero", "anchors": ["fbstab/components/full_feasibility.cc:FullFeasibility::CheckFeasibility", "fbstab/fbstab_algorithm-impl.h:FBstabAlgorithm::Solve"]}
{"id": "C44", "title": "Reported initial residual", "statement": "On every normal return initial_residual is the penalised natural residual at the caller's guess (with y recomputed).", "quantifier": "every Solve call that returns", "why_tests_cant": "must hold on all exits", "anchors": ["fbstab/fbstab_algorithm-impl.h:FBstabAlgorithm::PrepareOutput", "fbstab/fbstab_algorithm-impl.h:FBstabAlgorithm::Solve"]}
{"id": "C45", "title": "Newton-limit exit returns the better point", "statement": "On the Newton-limit exit Solve returns the last proximal iterate or the last inner iterate, and the returned point's residual is no larger than that of the last proximal iterate. (The inner residual is measured before the duals are projected; the code is checked.)", "quantifier": "every Solve call that hits the Newton limit", "why_tests_cant": "depends on where projection and the last step fall relative to the measurement", "anchors": ["fbstab/fbstab_algorithm-impl.h:FBstabAlgorithm::Solve", "fbstab/fbstab_algorithm-impl.h:FBstabAlgorithm::SolveProximalSubproblem"]}
{"id": "C46", "title": "Documented component preconditions are enforced", "statement": "Component methods throw in the situations their documentation lists: using a variable, residual or feasibility object before LinkData, InnerResidual with nonpositive sigma or mismatched sizes, DenseCholeskySolver::Solve before LinkData, CheckFeasibility on a wrongly sized variable. (Each is checked against the code; several are not enforced.)", "quantifier": "all component states and arguments", "why_tests_cant": "documented error paths are not exercised by any test", "anchors": ["fbstab/components/full_variable.h", "fbstab/components/full_residual.h", "fbstab/components/dense_cholesky_solver.h", "fbstab/components/full_feasibility.h"]}
{"id": "C47", "title": "Convergence tolerance is as documented at the interface", "statement": "The convergence tolerance used by Solve and printed in the summary is abs_tol+rel_tol*(1+||(f,h,b)||).", "quantifier": "every Solve call", "why_tests_cant": "all data and options", "anchors": ["fbstab/fbstab_algorithm-impl.h:FBstabAlgorithm::Solve", "fbstab/fbstab_algorithm-impl.h:PrintFinal"]}
{"id": "C48", "title": "An accepted Solve throws only two exceptions", "statement": "A Solve call whose inputs have the right sizes either returns normally or throws one of two runtime_errors: the clamp-range error of an option conflict, or the failed-factorisation error. In particular it never throws the 'sigma must be positive', 'no data' or size errors of the components.", "quantifier": "all accepted Solve calls of both solvers, any arithmetic, after any history", "why_tests_cant": "The components contain a dozen throw statements; that ten of them are unreachable is a statement about all histories and inputs.", "anchors": ["fbstab/fbstab_algorithm-impl.h:Solve", "fbstab/components/dense_cholesky_solver.cc:Initialize", "fbstab/components/riccati_linear_solver.cc:Initialize"]}
{"id": "C49", "title": "Default-constructed options are a third preset", "statement": "A default-constructed option struct differs from DefaultOptions() and is not admissible: installing it changes sigma_max to 1e-6.", "quantifier": "every solver state", "why_tests_cant": "The tests never install a default-constructed struct; the effect is on the clamped value for every solver state.", "anchors": ["fbstab/fbstab_algorithm.h:AlgorithmParameters", "fbstab/fbstab_algorithm-impl.h:UpdateParameters"]}
{"id": "C50", "title": "On a convex problem the Newton step is a descent direction and the line search works", "statement": "In exact arithmetic, on a convex problem, every Newton step goes along a direction in which the merit function (half the squared residual of the proximal subproblem) has derivative -2*merit, so there is a positive threshold below which every step length passes the sufficient-decrease test; every step length the line search rejects is above that threshold, hence it fails only if max_linesearch_iters is exhausted above it.", "quantifier": "all convex problems, both solvers, all options, guesses and histories, every Newton step of every run whose complementarity pairs avoid the 1e-13 ball in which the code substitutes the derivative", "why_tests_cant": "A statement about derivatives and about all step lengths at every iterate of every run.", "anchors": ["fbstab/fbstab_algorithm-impl.h:SolveProximalSubproblem", "fbstab/components/full_residual.cc:InnerResidual", "fbstab/components/dense_cholesky_solver.cc:PFBGradient", "fbstab/components/riccati_linear_solver.cc:Solve"]}
{"id": "C51", "title": "A run is a chain of proximal subproblems", "statement": "Solve processes a sequence of proximal subproblems. The first is centred at the caller's guess, each later one at the dual-projected result of the one before it. A run that returns ends between subproblems, or right after a projection if and only if the flag is MAXITERATIONS by the Newton limit; only a run that throws ends inside a subproblem. Inside a subproblem every Newton step starts where the one before it ended and uses the subproblem's centre, and the reported number of Newton iterations is the number of Newton steps taken.", "quantifier": "all problems, both solvers, all scalar types, options, guesses and histories; every run", "why_tests_cant": "The order of events of every run, of unbounded length, including runs that throw.", "anchors": ["fbstab/fbstab_algorithm-impl.h:Solve", "fbstab/fbstab_algorithm-impl.h:SolveProximalSubproblem", "fbstab/components/full_variable.cc:ProjectDuals"]}
{"id": "C52", "title": "Each proximal step approaches every solution, up to the residual left in the subproblem", "statement": "In exact arithmetic, on a convex problem with a solution s: the new proximal iterate is at distance at most dist(previous, s) + (kappa+mu)*E from s, where E is the residual at which the inner loop left the subproblem and kappa, mu depend only on alpha, sigma0 and the norm of A; the squared distances decrease by the squared step up to an O(E) term. Unless an iteration limit stopped it, E is at most the subproblem tolerance, and these tolerances sum to at most inner_tol_max*delta/(1-delta) + n*inner_tol_min over n subproblems. So all iterates and the point returned with SUCCESS or MAXITERATIONS stay within an explicit distance of the solution.", "quantifier": "all convex problems with a KKT point, both solvers, all options, guesses and histories; every proximal step of every run and every KKT point", "why_tests_cant": "A statement about all solutions of all problems and all iterates.", "anchors": ["fbstab/fbstab_algorithm-impl.h:Solve", "fbstab/fbstab_algorithm-impl.h:SolveProximalSubproblem", "fbstab/components/full_variable.cc:ProjectDuals", "fbstab/components/full_residual.cc:InnerResidual"]}
{"id": "C53", "title": "The proximal iteration limit is only reached if it is small", "statement": "In exact arithmetic, on a convex problem with a solution s, the squared lengths of the proximal steps of a run sum to at most an explicit bound B in dist(guess, s) and the summed subproblem residuals; hence stall_tol^2*(prox_iters-1) <= B: a run whose max_prox_iters exceeds 1 + B/stall_tol^2 never ends by the proximal limit.", "quantifier": "all convex problems with a KKT point, both solvers, all options, guesses and histories", "why_tests_cant": "A termination bound over all problems and runs.", "anchors": ["fbstab/fbstab_algorithm-impl.h:Solve", "fbstab/fbstab_algorithm-impl.h:SolveProximalSubproblem", "fbstab/components/full_variable.cc:ProjectDuals"]}
{"id": "C54", "title": "SUCCESS by a small step still means a small residual", "statement": "In exact arithmetic, if Solve returns SUCCESS although the residual exceeds the tolerance, after at least one proximal step, then the returned point is the result of the last proximal step and every entry of its natural residual (stationarity, equality, min(margin, dual)) is at most (1+mu*(|A|+2+sigma0))*E + sigma0*stall_tol, where E is the residual at which the last subproblem was left.", "quantifier": "all problems (convexity not needed), both solvers, all options, guesses and histories", "why_tests_cant": "A bound over every problem, every run and every exit by stalling.", "anchors": ["fbstab/fbstab_algorithm-impl.h:Solve", "fbstab/fbstab_algorithm-impl.h:SolveProximalSubproblem", "fbstab/components/full_variable.cc:ProjectDuals"]}
{"id": "C55", "title": "The inner iteration makes progress as long as its line searches succeed", "statement": "In exact arithmetic, within one proximal subproblem whose line searches all succeeded: the residual of the subproblem never exceeds its value at the centre, which is at most four times the reported outer residual there; with the monotone line search its square shrinks by the factor 1 - 2*eta*beta^(max_linesearch_iters-1) at least in every step; with either line search k steps are only possible if 2*eta*beta^(max_linesearch_iters-1) * inner_tol_min^2 * ceil(k/5) is at most the squared initial residual.", "quantifier": "all problems, both solvers, all options, guesses and histories; every subproblem of every run and every point reached inside it", "why_tests_cant": "A bound over all runs of all problems.", "anchors": ["fbstab/fbstab_algorithm-impl.h:SolveProximalSubproblem", "fbstab/components/full_residual.cc:InnerResidual", "fbstab/fbstab_algorithm-impl.h:InsertMerit"]}
{"id": "C56", "title": "Explicit bound on the number of proximal subproblems", "statement": "In exact arithmetic, on a convex problem with a KKT point s whose margins and multipliers are at most bs, the number of proximal subproblems Solve starts is at most an explicit function of the distance of the guess to s, bs, the size of the data, the tolerance and the summed residuals of the subproblems; each proximal step leaves an outer residual of at most (1+B)*sqrt(nz+nl+nv)*(c*E + sigma0*|step|), where E is the residual at which the subproblem was left and B bounds the margins and multipliers.", "quantifier": "all convex problems with a KKT point, both solvers, all options, guesses and histories", "why_tests_cant": "A complexity bound over all problems and runs.", "anchors": ["fbstab/fbstab_algorithm-impl.h: Solve, SolveProximalSubproblem", "fbstab/components/full_residual.cc: PenalizedNaturalResidual"]}
{"id": "C57", "title": "Convergence when the line searches succeed and the limits leave room", "statement": "In exact arithmetic, if the problem is convex with a KKT point, the line searches of the run succeed, and max_inner_iters, max_prox_iters and max_newton_iters exceed explicit bounds in the data, the options and the guess, then Solve never reports MAXITERATIONS; with check_feasibility off it reports SUCCESS, and the returned point lies within an explicit distance of the solution.", "quantifier": "all convex problems with a KKT point, both solvers, all options, guesses and histories meeting the stated bounds", "why_tests_cant": "Termination and convergence for all problems and option values.", "anchors": ["fbstab/fbstab_algorithm-impl.h: Solve, SolveProximalSubproblem"]}
{"id": "C58", "title": "The line searches succeed, so convex problems are solved", "statement": "In exact arithmetic, on a convex problem with a KKT point whose margins and multipliers are at most bs: if max_linesearch_iters is large enough that the line search tries a step below an explicit bound, inner_tol_min is above an explicit multiple of 1e-13, and max_inner_iters, max_prox_iters and max_newton_iters exceed the explicit bounds of C57, then every line search of the run succeeds, Solve never throws and never reports MAXITERATIONS, and with check_feasibility off it reports SUCCESS at a point within an explicit distance of the solution.", "quantifier": "all convex problems with a KKT point, both solvers, all options, guesses and histories meeting the stated bounds", "why_tests_cant": "Termination and convergence for all problems, guesses and option values.", "anchors": ["fbstab/fbstab_algorithm-impl.h: Solve, SolveProximalSubproblem", "fbstab/components/dense_cholesky_solver.cc: PFBGradient", "fbstab/components/riccati_linear_solver.cc: PFBGradient"]}
{"id": "C59", "title": "The example generator makes valid, convex, feasible problems for every horizon", "statement": "OcpGenerator's four creators throw for a horizon below 1 and leave the generator unchanged; before the first creator the accessors throw. For every N >= 1 whose sequences fit an int (any larger N overflows int), whatever the generator held before, the created problem repeats the same stage over 0..N with the state constraints switched off at stage 0, the owned and the referenced form describe the same data, the reported sizes and simulation model match it, an FBstabMpc of the reported sizes can be made and accepts it without size error or undefined behaviour. In exact arithmetic the optimal control problem is convex and feasible, is the documented double integrator, servo motor, spacecraft or copolymerization problem with the documented simulation outputs, and Solve with default options (or any compatible options, guess and history) returns normally.", "quantifier": "all four examples, all horizons, all generator histories, all guesses, all solver histories", "why_tests_cant": "Tests use one horizon per example; validity, convexity and feasibility must hold for every horizon.", "anchors": ["fbstab/test/ocp_generator.cc: CopyOverHorizon, DoubleIntegrator, ServoMotor, SpacecraftRelativeMotion, CopolymerizationReactor, GetFBstabInput, GetFBstabInputRef, GetSimulationInputs", "fbstab/test/ocp_generator.h"]}
{"id": "C60", "title": "Printed lines are never cut off and the iteration table lines up", "statement": "Every line Solve prints on doubles, at every display level, passes complete through the 100-byte buffer it is formatted in: for every value of the printed residuals, step lengths and tolerances (huge, subnormal, infinite, NaN), every int counter and every solve time below 10^39 ms, the text that reaches the output stream is exactly what the format strings say; the heading and the lines of the ITER table always have the same width (97 characters), so its columns line up.", "quantifier": "every Solve call with iteration limits of type int, every display level, every double printed", "why_tests_cant": "the length of a formatted double depends on its magnitude and sign; tests only print well-behaved numbers", "anchors": ["fbstab/fbstab_algorithm-impl.h:PrintIterLine", "fbstab/fbstab_algorithm-impl.h:PrintDetailedHeader", "fbstab/fbstab_algorithm-impl.h:PrintDetailedLine", "fbstab/fbstab_algorithm-impl.h:PrintDetailedFooter", "fbstab/fbstab_algorithm-impl.h:PrintFinal", "tools/output_stream.h:OutputStream"]}
{"id": "C61", "title": "Solving in place: views of caller memory, overlapping or not", "statement": "When problem data (ProblemDataRef) and solution vectors (VariableRef) are views of the caller's memory, Solve behaves as if it had worked on private copies of everything it was given: it throws the same exceptions, and then no byte of that memory has changed; on a normal return the exit flag, counts, initial residual and time are the same and the memory differs only inside the four vectors, which receive z, l, v, y in this order (the last write to a shared address stays). This holds even when the vectors overlap the problem data or each other. If the vectors do not overlap the data then the reported residual and the printed lines are the same too, the data is unchanged, and non-overlapping vectors hold exactly the solution. If they do overlap, residual and printed lines are still the same on every exit except the Newton-iteration limit: there the solution is written before the closing residual is evaluated, so the reported residual is that of the returned point for the problem that is in memory after the call, which need not be the problem posed. VariableRef::fill sets every entry of the four vectors and nothing else.", "quantifier": "every solver history, every memory content, every placement of the views (overlapping or not), every option set, every arithmetic", "why_tests_cant": "tests never overlap data and solution vectors, and which exit is taken depends on the data", "anchors": ["fbstab/fbstab_dense.h:ProblemDataRef", "fbstab/fbstab_dense.h:VariableRef", "fbstab/fbstab_mpc.h:ProblemDataRef", "fbstab/fbstab_mpc.h:VariableRef", "fbstab/fbstab_algorithm-impl.h:Solve", "fbstab/fbstab_algorithm-impl.h:WriteVariable", "fbstab/fbstab_algorithm-impl.h:CopyIntoVariable"]}
{"id": "C62", "title": "Structs built by their constructors are accepted; unset data is refused; sizes given as doubles are truncated", "statement": "The dense constructors ProblemData(nz,nl,nv) and Variable(nz,nl,nv) produce objects that every FBstabDense constructed with the same sizes accepts, whatever entries are assigned afterwards and whatever the solver did before: Solve then throws no size error and has no undefined behaviour; the Variable starts as the origin. The same holds for FBstabMpc with matrix sequences of the documented lengths and shapes, an x0 of nx entries, and Variable(N,nx,nu,nc), which is the origin when its sizes are ints and signed overflow otherwise. A default-constructed FBstabMpc ProblemData or ProblemDataRef, also after SetX0 alone, and any data whose x0 was never set, are refused by an exception from every solver and nothing changes. A ProblemDataRef made from the twelve parts is the problem that owns them and SetX0 replaces x0 only. The constructors taking an Eigen::Vector4d use the entries rounded towards zero (so integral entries exactly); an entry that is NaN, infinite or outside int after rounding is undefined behaviour.", "quantifier": "all sizes, all entries, all solver histories, every arithmetic; all doubles for the Vector4d constructors", "why_tests_cant": "tests construct a handful of sizes once; acceptance must hold after any history and for any entries", "anchors": ["fbstab/fbstab_dense.cc:ProblemData", "fbstab/fbstab_dense.cc:Variable", "fbstab/fbstab_mpc.h:ProblemDataRef", "fbstab/fbstab_mpc.h:SetX0", "fbstab/fbstab_mpc.cc:Variable", "fbstab/fbstab_mpc.cc:FBstabMpc", "tools/matrix_sequence.h:MatrixSequence"]}
{"id": "C63", "title": "What SUCCESS certifies in floating point", "statement": "On IEEE doubles, if Solve returns SUCCESS and the reported residual is a finite number then every entry of the returned z, l, v, y is finite, and with the exact (real) values of the data and of the returned numbers: each entry of the Lagrangian gradient f+Hz+G'l+A'v, each entry of h-Gz and each min(y,v) (times alpha) is bounded by the reported residual, up to a relative factor 1+10g and an additional g times the sum of the absolute values of the terms of that entry, where g = K 2^-50 and K is nz+nl+nv+4 for the dense solver and 3(N+1)(nx+nu+nc+4) for the MPC solver, plus a bounded number of underflow thresholds. If SUCCESS came from a residual not above a finite tolerance then the residual is finite, so the overflow that fakes success (C42) is impossible. A MAXITERATIONS from the limit on Newton steps with a finite residual certifies the same bounds. The same holds in any arithmetic whose operations round with relative error u and underflow threshold eta.", "quantifier": "all problems of any size, all doubles, all options, all solver histories; for the general form every rounding arithmetic and every summation order", "why_tests_cant": "rounding error bounds quantify over all data; a test sees one rounding pattern", "anchors": ["fbstab/fbstab_algorithm-impl.h:Solve", "fbstab/components/full_residual.cc:PenalizedNaturalResidual", "fbstab/components/dense_data.h", "fbstab/components/mpc_data.cc"]}
{"id": "C64", "title": "The returned slack and the constraint violation in floating point", "statement": "The solver carries y along with z and never recomputes b-Az, so with rounding y drifts. When Solve returns SUCCESS or MAXITERATIONS with finite z and y, |y-(b-Az)| in row k is at most g times the sizes |b_k|+sum_j|A_kj z_j| of the initial guess plus 4g times the sum, over the Newton steps taken, of |y_k|+sum_j|A_kj z_j|+|t|(|b_k|+sum_j|A_kj dz_j|) (plus underflow terms), g = K 2^-50 on doubles. So with sizes at most M at every Newton step the sum is at most the reported number of Newton iterations times M: no step is longer than its direction, on doubles either. On SUCCESS the violation (Az)_k-b_k is at most the reported residual divided by alpha, with the factors of C63, plus this drift. It is not bounded by the tolerance alone: minimise -1e9 z subject to z <= 0.1 with tolerance 1e-6 returns SUCCESS on doubles with z = 0.15.", "quantifier": "all problems of any size, all guesses, all options, all solver histories, all doubles and every rounding arithmetic", "why_tests_cant": "drift accumulates over data-dependent Newton steps; the bound must hold for every run", "anchors": ["fbstab/components/full_variable.cc:axpy", "fbstab/components/full_variable.cc:InitializeConstraintMargin", "fbstab/components/dense_cholesky_solver.cc:Solve", "fbstab/components/riccati_linear_solver.cc:Solve", "fbstab/fbstab_algorithm-impl.h:Solve"]}
{"id": "C65", "title": "The printed numbers can be read back", "statement": "Whatever a Solve call prints on doubles, reading the output word by word gives back the values: every counter exactly, every residual, tolerance and step length with relative error at most half a unit of the last of its printed digits (5e-5 or 5e-7), the elapsed milliseconds within 5e-7, inf and nan as such. Unless display is OFF, the output ends with a summary whose words are the exit flag, the elapsed time, the returned iteration counts and their limits, and three residual components whose root sum of squares is the returned residual.", "quantifier": "all problems, options, display levels, guesses, solver histories and finite or non-finite doubles; limits that are ints, elapsed times below 1e39 ms", "why_tests_cant": "a test compares a few captured lines; the claim is about every double that can be printed, including the extremes that round up to a new power of ten, subnormals and three-digit exponents", "anchors": ["fbstab/fbstab_algorithm-impl.h:PrintFinal", "fbstab/fbstab_algorithm-impl.h:PrintIterLine", "fbstab/fbstab_algorithm-impl.h:PrintDetailedLine", "fbstab/fbstab_algorithm-impl.h:PrintDetailedHeader", "fbstab/fbstab_algorithm-impl.h:PrintDetailedFooter"]}
{"id": "C66", "title": "An output stream that throws", "statement": "A caller may pass its own output stream to Solve. A stream that takes every message gives exactly the result of the same call with the standard stream. If it throws at a message, the exception reaches the caller, only the messages before it were printed, and the caller's z, l, v, y (or the caller's memory, when the variables refer to it) are as before the call, except when the refused message is the closing summary of a call that ran out of Newton steps: the variables then hold the full answer, because that exit alone writes before it prints. The throw may come at any single Print call, also between two lines of one heading or summary. The options are kept, and the solver can be used again: every property of later calls holds after such a call.", "quantifier": "all streams (whether a message is taken may depend on everything printed so far), all reachable solvers, all data of right or wrong sizes, owned, mapped or shared variables, all starting points", "why_tests_cant": "a throw can happen at any of unboundedly many messages of any run, and the state it leaves inside the solver matters for all later calls", "anchors": ["fbstab/fbstab_dense.h:Solve", "fbstab/fbstab_mpc.h:Solve", "fbstab/fbstab_algorithm-impl.h:PrepareOutput", "fbstab/fbstab_algorithm-impl.h:Solve", "tools/output_stream.h:Print"]}
{"id": "C67", "title": "Copying, moving and viewing matrix sequences", "statement": "Whatever a program does with MatrixSequence and MapMatrixSequence objects (constructing, copying, assigning, moving, writing entries, destroying, in any order), owning sequences behave as values: a copy or copy-assignment has the entries and sizes of its source, and afterwards no statement about any other object changes what a sequence shows. A move hands the entries over; the moved-from object keeps its sizes, and asking it for a matrix it claims to have is undefined. A view made of a sequence shows that sequence as it is now, later writes included, also after the sequence was moved into another one, until the sequence is assigned or destroyed, after which indexing the view may read (after destruction: reads) freed memory. No memory is leaked.", "quantifier": "all programs over any number of sequence and view objects, all sizes and contents, both choices std::vector has when assigning", "why_tests_cant": "aliasing bugs show only for particular orders of statements; the claim is about every program", "anchors": ["tools/matrix_sequence.h:MatrixSequence", "tools/matrix_sequence.h:MapMatrixSequence", "tools/copyable_macros.h:FBSTAB_DEFAULT_COPY_AND_MOVE_AND_ASSIGN"]}
{"id": "C68", "title": "How far a SUCCESS on doubles is from optimal", "statement": "When a solve carried out in double precision returns SUCCESS, or is stopped by the limit on Newton steps, with a finite residual on a convex problem, the objective value of the returned z exceeds that of every feasible point w by no more than an explicit bound, and the squared distance (in the norm of H) of z to any exact solution is no more than an explicit bound; both bounds are formulas in the answer itself: the reported residual, the sizes of the data and answer times the unit roundoff, alpha, and the drift of the slack y from b - A z.", "quantifier": "all convex problems in finite doubles (dense and MPC), all options, starting points, all feasible comparison points and all exact solutions, all run histories", "why_tests_cant": "the bound is claimed for every input and every accumulation of rounding errors, against every feasible point", "anchors": ["fbstab/fbstab_algorithm-impl.h:Solve", "fbstab/components/full_residual.cc:InnerResidual", "fbstab/components/full_residual.cc:PenalizedNaturalResidual", "fbstab/components/full_variable.cc:InitializeConstraintMargin", "fbstab/components/dense_data.cc", "fbstab/components/mpc_data.cc"]}
{"id": "C69", "title": "What an infeasibility verdict on doubles certifies", "statement": "When a solve carried out in double precision on finite data returns PRIMAL_INFEASIBLE (or PRIMAL_DUAL_INFEASIBLE), the returned l, v are, for the exact problem those doubles describe, Farkas multipliers up to an explicit rounding error: |G'l + A'v| is at most infeas_tol*max(|l|,|v|) plus K*2^-50 times the size of the summed terms, and h'l + b'v is below the rounding error of its evaluation; hence every feasible point pays an explicit amount. When the MPC solver returns DUAL_INFEASIBLE (or both) - or the dense solver does and the work vectors of its feasibility test held finite numbers, which is so in every history whose earlier tests stayed finite - the returned z is a descent ray in the same sense (Az, Gz, Hz, f'z), and moving along it from any feasible point changes constraints and objective by no more than explicit bounds. No sum in the test may come near the overflow threshold.", "quantifier": "all finite data (dense and MPC), options, starting points, run histories, and all feasible comparison points", "why_tests_cant": "claimed for every input, every accumulation of rounding errors and against every feasible point; a false infeasibility verdict shows only on special inputs", "anchors": ["fbstab/components/full_feasibility.cc:CheckFeasibility", "fbstab/fbstab_algorithm-impl.h:CheckForInfeasibility", "fbstab/components/dense_data.cc", "fbstab/components/mpc_data.cc"]}
{"id": "C70", "title": "A problem without a solution is not reported as solved with a small residual", "statement": "If the constraints contradict each other (exact multipliers l, v >= 0 with G'l + A'v = 0 and h'l + b'v < 0 exist), then whenever Solve returns SUCCESS, or is stopped by the limit on Newton steps, the residual it reports is at least -(h'l + b'v) / (|l|_1 + |v|_1/alpha); if the objective decreases forever along some d (Hd = 0, Gd = 0, Ad <= 0, f'd < 0), it is at least -f'd / (|d|_1 + |Ad|_1/alpha). So with tolerances below that threshold SUCCESS can only come from the stall test. In double precision the same holds up to an explicit rounding error.", "quantifier": "all problems (dense and MPC), all contradictions and descent rays, all options, starting points, histories; real arithmetic, any rounding arithmetic, IEEE doubles", "why_tests_cant": "claimed for every unsolvable problem and every run; tests try a few infeasible problems", "anchors": ["fbstab/fbstab_algorithm-impl.h:Solve", "fbstab/components/full_residual.cc:PenalizedNaturalResidual", "fbstab/fbstab_dense.cc:Solve", "fbstab/fbstab_mpc.cc:Solve"]}
{"id": "C71", "title": "QdldlWrapper: memory, solution and history independence", "statement": "Constructing QdldlWrapper(n, Ap, Ai) with n in range and a pattern that has an entry in every column and none below the diagonal (n <= 65536) succeeds; any other pattern, and any negative n, ends in std::length_error, and n above 715827882 overflows int. After that, whatever matrices of that pattern are factored and whatever vectors of at least n entries are solved for, in any order and number, QDLDL stays within the arrays the wrapper gives it, nothing is thrown, and Solve changes the first n entries of its argument only. After Factor(A), for A compressed, without repeated entries, and quasi-definite (or with invertible leading blocks), each Solve(&x) replaces b by the solution of A x = b, whatever was factored or solved before; if QDLDL can factor A, the result does not depend on the history. Neither Factor nor Solve reports anything: Solve before Factor returns zero, and a matrix that cannot be factored or is not compressed gives a vector that is no solution.", "quantifier": "all n, patterns, matrices, right-hand sides and call sequences; every QDLDL library that keeps its documented contract; any arithmetic for memory and history, real arithmetic for solutions", "why_tests_cant": "the unit test factors one 10x10 matrix once; the claim is for all patterns and all call sequences", "anchors": ["tools/qdldl/qdldl_wrapper.h:QdldlWrapper", "tools/qdldl/qdldl_wrapper.h:Factor", "tools/qdldl/qdldl_wrapper.h:Solve"]}
{"id": "C72", "title": "Limits, tolerances and the infeasibility check decide only where a run stops", "statement": "max_newton_iters, max_prox_iters, abs_tol, rel_tol, stall_tol and check_feasibility/infeas_tol decide only where Solve stops, and display_level, gamma, sigma_max and sigma_min do not change its answer at all. With options that stop no earlier (limits at least as large, tolerances at least as strict, the same or no infeasibility check, everything else equal) Solve on the same problem and guess passes through every step it took before: either both calls give the same answer (same output record or exception, same point), or the first call stopped earlier, for a reason its own options give: it returned MAXITERATIONS at one of its own limits, SUCCESS by a looser tolerance, or an infeasible flag with a check the second call does not make; the second call then does at least as many Newton and proximal iterations. In particular a call that did not end in MAXITERATIONS gives the same answer with larger limits, and a call that stayed below smaller limits gives the same answer with those.", "quantifier": "all problems, sizes, guesses, pairs of options and object histories, any arithmetic; two FBstabDense objects with different histories in real arithmetic or without the check; strictness of tolerances in real arithmetic and on doubles", "why_tests_cant": "the tests solve with the default options only; the claim relates two whole runs for all pairs of options", "anchors": ["fbstab/fbstab_algorithm.h:FBstabAlgorithm::Solve", "fbstab/fbstab_algorithm.h:SolveProximalSubproblem", "fbstab/fbstab_algorithm.h:UpdateParameters"]}
{"id": "C73", "title": "The order and sign conventions of a problem do not matter", "statement": "In exact arithmetic, for a convex problem, reordering the variables, the equalities and the inequalities, negating any of the variables and writing any of the equalities with the opposite sign, with the guess changed accordingly, changes nothing but the labels: Solve returns the same output record (flag, residual, initial residual, iteration counts) or the same exception, and the returned z, l, v and y are the same point in the new labels. This holds for either solver, whatever exact linear algebra it uses and whatever calls were made on the objects before.", "quantifier": "all convex problems, reorderings, signs, options, guesses, pairs of solvers, linear algebras and histories; real arithmetic", "why_tests_cant": "a statement about pairs of runs over all problems and permutations; the tests fix one ordering", "anchors": ["fbstab/fbstab_algorithm-impl.h:Solve", "fbstab/fbstab_dense.h:FBstabDense::Solve", "fbstab/fbstab_mpc.h:FBstabMpc::Solve", "fbstab/components/full_feasibility.cc:CheckFeasibility"]}
{"id": "C74", "title": "What the option presets promise", "statement": "A solver whose options were never touched, and one given DefaultOptions(), takes at most 200 Newton and 30 proximal steps per Solve, at most 50 Newton steps per subproblem and 20 candidates per line search, tests SUCCESS with 1e-6 + 1e-12*(1+|(f,h,b)|) (or a proximal step of at most 1e-10) and infeasibility with 1e-8, tightens the subproblem tolerance by 0.2 from at most 1e-2 down to no less than 1e-12, backs off by 0.75 and prints the closing summary and nothing else; ReliableOptions() allow 500, 100, 50 and 40 with 1e-4 + 1e-6*(...), a stabilisation of 1e-4, back-off by 0.9 and a line search that never accepts more than the current merit; an untouched option struct gives 500, 100, 100 and 20, back-off by 0.7 and a first tolerance of up to 0.1. This holds whatever was done with the solver before the options were installed.", "quantifier": "all sizes, data (accepted or refused), guesses, prior histories; the three option structs; doubles", "why_tests_cant": "the numbers bound every run on every problem; a test sees only the runs it makes, which hardly ever touch a limit", "anchors": ["fbstab/fbstab_algorithm.h:AlgorithmParameters", "fbstab/fbstab_algorithm-impl.h:DefaultParameters", "fbstab/fbstab_algorithm-impl.h:ReliableParameters", "fbstab/fbstab_dense.cc:UpdateOptions", "fbstab/fbstab_mpc.cc:UpdateOptions"]}
