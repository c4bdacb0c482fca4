# Formal model of fbstab in Rocq (Coq 8.16.1): design

The code is read as text from `/repo`; nothing is built or run.  Everything is in `rocq/theories/`,
listed in `rocq/_CoqProject`; `coq_makefile -f _CoqProject -o Makefile && make -j4` in `rocq/` builds
it in about twenty minutes.  `properties.jsonl` lists the properties, `MANIFEST.json` the theorems for each,
`seeded/LOG.jsonl` the wrong programs the theorems were tested on.

## 1. The model

| file | models |
|---|---|
| `Scalar.v` | `double` as a record of operations `Ops T` (never a functor): add, sub, mul, div, neg, sqrt, abs, the comparisons, decimal literals, Eigen's `dot` and `maxCoeff` |
| `Outcome.v` | `res A = Ok a / Throw e / UB u`: normal return, C++ exception, undefined behaviour (null or dangling data pointer, Eigen size mismatch, signed overflow, write outside a Map); `int` range arithmetic; dangling pointers `dptr` |
| `Vec.v` | `VectorXd` = list, `MatrixXd` = rows, cols, column-major list; the Eigen operations the code uses, with their size assertions as UB |
| `Params.v` | `tools/utilities.h` `saturate`; `AlgorithmParameters`, `DefaultParameters`, `ReliableParameters`, `ValidateOptions`, `UpdateParameters` |
| `Components.v` | `components/full_variable`, `full_residual`, `full_feasibility`: every method, with its null checks, size checks and UB conditions, over an abstract data class |
| `LinAlg.v` | Eigen's `LLT`, `LDLT` and triangular solves as an oracle record `LinAlg T` of deterministic functions (reading the lower triangle only) |
| `LinAlgInst.v` | textbook Cholesky, LDL' and substitution, generic in `Ops T`: an implementation of the oracle |
| `Algorithm.v` | `fbstab_algorithm.h`, `fbstab_algorithm-impl.h`: Solve, SolveProximalSubproblem, line search, merit window, infeasibility check, exits, copy-back, printing as a list of events carrying the printed values; a *ghost* trace of what happened (read by theorems, never by the model) |
| `DenseModel.v` | `components/dense_data`, `components/dense_cholesky_solver`, `fbstab_dense.{h,cc}` (constructor, UpdateOptions, both Solve entry points, ValidateInputs) |
| `MatSeq.v` | `tools/matrix_sequence.h`: `MatrixSequence`, `MapMatrixSequence` over byte-addressed memory |
| `SeqHeap.v` | copying, moving, assigning and destroying the objects of `tools/matrix_sequence.h` over a heap of buffers |
| `MpcModel.v` | `components/mpc_data.{h,cc}`: the gemv family on the implicit block matrices, axpyf/h/b, ForcingNorm, validation |
| `Riccati.v` | `components/riccati_linear_solver.{h,cc}`, `fbstab_mpc.{h,cc}` |
| `Text.v` | the format strings and the 100-byte buffer of the Print routines; `%d`, `%e`, `%f` of `snprintf` on binary64 |
| `Shared.v` | Solve with `ProblemDataRef`/`VariableRef` as windows into one memory (overlap allowed); `VariableRef::fill` |
| `Stream.v`, `StreamSpec.v` | Solve with the caller's own output stream, whose `Print` may throw at any message |
| `Storage.v` | the constructors of `ProblemData`, `ProblemDataRef`, `Variable`, `VariableRef` (dense and MPC), `SetX0`, the `Vector4d` constructors with the double-to-int conversion |
| `OcpGen.v` | `test/ocp_generator.{h,cc}` (the source of the example problems) |

Four readings of `double`:

* *any* `T` and *any* `Ops T`.  These theorems hold for IEEE doubles whatever the summation order, FMA
  contraction or vectorisation Eigen picks, because `dot` is an arbitrary deterministic function.  Where
  comparisons must behave, the needed order laws are an explicit hypothesis (`OrdLaws`), proved for both instances.
* `Rops`, exact reals (stdlib `Reals`): the mathematics.
* `Fops`, IEEE binary64 as the stdlib's `spec_float` (axiom-free, runs under `vm_compute`): refutations involving
  NaN, overflow, and executable runs.
* any *rounding* arithmetic (`Rounded` in `Rounding.v`), with IEEE binary64 (Flocq) as the instance `Bops`: what the
  solver guarantees about its answers in spite of rounding (C63, C64).

The solver's `DenseData`/`MpcData` is a local of `Solve`, so afterwards the components hold *dangling*
pointers; the model says so (`PDangling`), and C20 shows they are never followed.

Solver objects are machines over arbitrary call sequences (`Api.v`: `dense_reach`, `mpc_reach`): a
theorem about "every Solve call" quantifies over every history of constructor, UpdateOptions and Solve
calls (`solve_call`), including ones that threw.

## 2. Proof layers (nothing here is trusted)

| file | role |
|---|---|
| `Pure.v` | pointer-free reading of Solve (`psolve`) |
| `Refine.v`, `DenseOk.v`, `MpcOk.v`, `RiccatiOk.v`, `RefineShared.v`, `RefineStream.v`, `Api.v` | the modelled Solve, on every reachable object, never reaches UB and computes exactly `psolve`, whatever its workspaces hold |
| `Loops.v`, `Sim.v`, `Trace.v`, `CallFacts.v`, `Shape.v` | induction principles for runs: inductive run relations, simulation of two runs, meaning of each event of a trace, order of events |
| `RSum.v`, `RComp.v`, `DenseR.v`, `MpcR.v`, `MpcExplicit.v`, `OCPFacts.v`, `RunR.v` | what the components compute over the reals, in terms of explicit matrices |
| `LALaws.v`, `LAInstOk.v` | the laws assumed of Eigen's factorisations over the reals, and the proof that the textbook algorithms satisfy them (`inst_laws`) |
| `RicAlg.v`, `RiccatiR.v`, `RiccatiVec.v` | the Riccati recursion |
| `FbSmooth.v`, `NewtonSize.v`, `ProxSpec.v` | analysis of the Fischer-Burmeister merit and of inexact proximal steps |
| `Rounding.v`, `BinOps.v` | what a rounding arithmetic obeys (`Rounded`: relative error u, underflow eta, any summation order); IEEE binary64 as Flocq's `binary_float 53 1024` is one (`Brounded`) |
| `BinEq.v` | the operations of `Bops` are those of `Fops` (`Bops_Fops`) |
| `FloatRes.v`, `DenseFloat.v`, `MpcFloat.v`, `MpcFloat2.v`, `FloatRun.v` | rounding errors of the data products and residuals of both solvers, against the explicit QP with the exact values of the data |
| `Qdldl.v`, `QdldlSpec.v`, `QdldlInst.v` | `tools/qdldl/qdldl_wrapper.h` over an abstract QDLDL; its contract; a library that meets it |
| `ParamsProofs.v`, `OcpGenOk.v` | options; the generator |

Specifications, independent of the model: `QPSpec.v` (quadratic programs, KKT, optimality, proximal
points, certificates), `OCPSpec.v` (the documented control problem and its explicit QP), `NewtonSpec.v`
(Newton system, derivatives), the first part of `ProxSpec.v`, `Spec.v` (residual, tolerance, starting
point: the public component methods applied to fresh objects), and the "specification" sections at the
top of the `Props*.v` files.

Non-vacuity: `Examples.v` (binary64 runs of both solvers through the public API, evaluated by the
kernel), `Witness.v` and `WitnessConverge.v` (calls over the reals meeting the hypotheses of the
exact-arithmetic theorems, taking proximal and Newton steps), `C01_witness`, `C59_default_run`, and the
examples beside the theorems.

## 3. Plan per property

"any" = any arithmetic with 0 == 0 (order laws where stated); "R" = exact reals; "F" = a binary64 run.
No property in the list is inexpressible in the model.

| id | property | model files | arithmetic | theorem files | method |
|---|---|---|---|---|---|
| C01 | UpdateOptions clamps every option | Params, DenseModel, Riccati | any+order laws; R and F instances | PropsOptions | case analysis on the comparisons of saturate, field by field |
| C02 | UpdateOptions preserves admissible options | Params, DenseModel, Riccati | any+order laws; R and F instances | PropsOptions | case analysis on the comparisons of saturate, field by field |
| C03 | UpdateOptions never throws | Params, DenseModel, Riccati | any+order laws; R and F instances | PropsOptions | case analysis on the comparisons of saturate, field by field |
| C04 | NaN options are rejected or clamped | Params | F | PropsOptions | the value of an update on NaN by evaluation |
| C05 | Accepted tolerances do not make Solve throw | Algorithm | any | PropsRun, Refuted | every saturate call located in every run; exact guard; refutation of the unguarded claim by runs |
| C06 | Iteration limits are respected and Solve terminates | Algorithm | any | PropsRun | induction on the loops, counters against the trace |
| C07 | Exit flags mean what they say | Algorithm | any | PropsRun | exit relation of the run (Loops), each flag characterised by the condition that caused it |
| C08 | SUCCESS reports the residual of the returned point | Algorithm, Components | any (refutations F) | PropsRun | exit relation + Trace master lemma; refutations by runs |
| C09 | SUCCESS implies the tolerance was met | Algorithm, Components | any (refutations F) | Refuted, PropsRun, PropsRunR, PropsProx | exit relation + Trace master lemma; refutations by runs |
| C10 | MAXITERATIONS reports the residual of the returned point | Algorithm, Components | any (refutations F) | PropsRun, Refuted | exit relation + Trace master lemma; refutations by runs |
| C11 | Infeasibility exits return the certificate | Algorithm, Components | any (refutations F) | PropsRun | exit relation + Trace master lemma; refutations by runs |
| C12 | Exceptions leave the caller's variables untouched | Algorithm, DenseModel, Riccati | any | PropsApi | the caller's vectors change only in the copy-back, which nothing can follow by throwing |
| C13 | Solve does not depend on the solver's history | all | any (dense: gemv with b=0 must ignore y); C14 F | PropsSim | simulation of two runs (Sim) from the refinement; C14: refuted by runs, proved for finite work vectors (only the sign of a zero can differ) |
| C14 | Dense solver history independence on doubles | all | any (dense: gemv with b=0 must ignore y); C14 F | Refuted, PropsStale, PropsWork, PropsSim | simulation of two runs (Sim) from the refinement; C14: refuted by runs, proved for finite work vectors (only the sign of a zero can differ) |
| C15 | Constraint margin output | Algorithm, Components | R | PropsRunR, PropsSim | invariant y = b - A z through start, Newton step, line search, projection |
| C16 | Display level never changes the answer; exactly which lines are printed | Algorithm | any | PropsSim, PropsDetail | log of each loop computed along the run; induction (PropsSim, PropsDetail) |
| C17 | Dense size validation | DenseModel, MpcModel, Riccati | any | PropsApi | case analysis of ValidateInputs and constructors |
| C18 | Dense Solve rejects a wrongly sized y | DenseModel, MpcModel, Riccati | any | Refuted, PropsApi | case analysis of ValidateInputs and constructors |
| C19 | MPC size validation | DenseModel, MpcModel, Riccati | any | PropsApi, Refuted | case analysis of ValidateInputs and constructors |
| C20 | No undefined behaviour through the public API | all | any | PropsApi | invariant over all call sequences; guard: sizes fit in int for MPC |
| C21 | Matrix sequence addressing | MatSeq, MpcModel | any | PropsSeq | address arithmetic; simulation owned/mapped |
| C22 | Owned and mapped MPC data are interchangeable | MatSeq, MpcModel | any | PropsSeq | address arithmetic; simulation owned/mapped |
| C23 | Implicit MPC products equal the explicit QP matrices | MpcModel | R | PropsMpcData | block index arithmetic against the explicit matrices of OCPSpec |
| C24 | gemvGT for arbitrary scaling | MpcModel | R | PropsMpcData | block index arithmetic against the explicit matrices of OCPSpec |
| C25 | The MPC QP is the optimal control problem | MpcModel, OCPSpec | R | PropsMpcData | trajectories and vectors z in bijection; objective and constraints stage by stage; convexity iff |
| C26 | Forcing norm | DenseModel, MpcModel | R | PropsMpcData | sums of squares |
| C27 | Zero residual iff KKT | Components | R | PropsKKT | algebra of the Fischer-Burmeister function; convexity; explicit error bounds |
| C28 | KKT points are global optima | Components | R | PropsKKT, PropsRunR | algebra of the Fischer-Burmeister function; convexity; explicit error bounds |
| C29 | SUCCESS gives an approximate KKT point with explicit bounds | Components | R | PropsKKT, PropsRunR | algebra of the Fischer-Burmeister function; convexity; explicit error bounds |
| C30 | Subproblem residual characterises the proximal point | Components | R | PropsKKT | algebra of the Fischer-Burmeister function; convexity; explicit error bounds |
| C31 | Primal infeasibility certificates are sound | Components, Algorithm | R | PropsCert, PropsRunR | Farkas-type inequality with the tested tolerances |
| C32 | Dual infeasibility certificates are sound | Components, Algorithm | R | PropsCert, PropsRunR | Farkas-type inequality with the tested tolerances |
| C33 | Newton weights are well defined | LinAlg | R | PropsWeights | algebra and differentiability of the penalised Fischer-Burmeister function |
| C34 | Dense Newton step solves the documented system | DenseModel | R, LALaws | PropsDenseNewton, NewtonSpec | Schur complement; uniqueness by positive definiteness |
| C35 | Riccati Newton step solves the documented system | Riccati | R, LALaws | PropsRiccati | induction over stages: factorisation equations, forward and backward pass |
| C36 | Convex problems never make Solve throw | all | R, LALaws | PropsConvex | convexity makes every factorisation succeed; guard on tolerances excludes the saturate exception |
| C37 | Line search contract | Algorithm | any | PropsRun | Trace: every step event with its merit tests |
| C38 | Returned inequality duals are nonnegative | Algorithm | any+order laws | PropsRun | ProjectDuals precedes every exit that returns a point |
| C39 | Warm start at a solution returns immediately | Algorithm | R | PropsRunR | first test of the proximal loop; initial residual zero at a KKT point |
| C40 | MPC solver and dense solver agree | all | R, LALaws | PropsEquiv | residual functions of the two data classes agree, Newton step unique, simulation of runs |
| C41 | Subproblem tolerance schedule | Algorithm | any | PropsRun | Trace: tolerance of each subproblem from the previous one |
| C42 | Large finite bounds do not fake success | all | F | Refuted, PropsFloat, PropsRunR | runs of the model |
| C43 | Feasible problems are not declared primal infeasible | all | F | Refuted, PropsRunR, PropsCert | runs of the model |
| C44 | Reported initial residual | Algorithm | any | PropsRun | start of the run |
| C45 | Newton-limit exit returns the better point | Algorithm | any; F | PropsRun, Refuted | exit relation; refutation by a run |
| C46 | Documented component preconditions are enforced | Components, DenseModel, MpcModel, Riccati | any | PropsComponents | case analysis of each method; unenforced preconditions exhibited |
| C47 | Convergence tolerance is as documented at the interface | Algorithm | any | PropsSim, PropsRun | log of the exit |
| C48 | An accepted Solve throws only two exceptions | all | any | PropsOptions | case analysis of every throw reachable from an accepted call |
| C49 | Default-constructed options are a third preset | Params | any | PropsOptions | evaluation |
| C50 | On a convex problem the Newton step is a descent direction and the line search works | all | R, LALaws | PropsDescent | directional derivative of the merit along the Newton step; quadratic upper bound |
| C51 | A run is a chain of proximal subproblems | Algorithm | any | Shape | grammar of traces by induction on the loops |
| C52 | Each proximal step approaches every solution, up to the residual left in the subproblem | all | R, LALaws | PropsProx | inexact proximal-point inequality per subproblem; telescoping sums over the trace |
| C53 | The proximal iteration limit is only reached if it is small | all | R, LALaws | PropsProx | inexact proximal-point inequality per subproblem; telescoping sums over the trace |
| C54 | SUCCESS by a small step still means a small residual | all | R, LALaws | PropsProx | inexact proximal-point inequality per subproblem; telescoping sums over the trace |
| C55 | The inner iteration makes progress as long as its line searches succeed | all | R, LALaws | PropsProgress | Armijo decrease with the non-monotone window, geometric bound |
| C56 | Explicit bound on the number of proximal subproblems | all | R, LALaws | PropsConverge | explicit iteration bounds from C52-C55; line-search success from smoothness of the merit and a bound on the Newton step |
| C57 | Convergence when the line searches succeed and the limits leave room | all | R, LALaws | PropsConverge | explicit iteration bounds from C52-C55; line-search success from smoothness of the merit and a bound on the Newton step |
| C58 | The line searches succeed, so convex problems are solved | all | R, LALaws | PropsLineSearch | explicit iteration bounds from C52-C55; line-search success from smoothness of the merit and a bound on the Newton step |
| C59 | The example generator makes valid, convex, feasible problems for every horizon | OcpGen, MatSeq, MpcModel, Riccati | any; R for convexity and feasibility | PropsGen, PropsGenR | contents of the generated buffers by induction over the copies; explicit trajectories as feasible points |
| C60 | Printed lines are never cut off and the iteration table lines up | Text, Algorithm | F values, any operations | PropsText | lengths of formatted fields; counters bounded along the printed run |
| C61 | Solving in place: views of caller memory, overlapping or not | Shared, RefineShared, Algorithm | any | PropsShared, PropsWindows, WitnessShared | Solve over one memory refines the pure run with a reloaded closing residual; the pure runs are related; frame lemmas for stores |
| C62 | Structs built by their constructors are accepted; unset data is refused; sizes given as doubles are truncated | Storage, DenseModel, MatSeq, MpcModel | any; F for Vector4d | PropsStorage | constructors computed; C17/C19/C20 applied to what they make; truncation characterised on spec_float |
| C63 | What SUCCESS certifies in floating point | Components, DenseModel, MpcModel, Algorithm | any rounding arithmetic; IEEE binary64 | PropsFloat | forward error analysis of the residual, entry by entry, on top of the run refinement; Flocq for the rounding laws of binary64 |
| C64 | The returned slack and the constraint violation in floating point | Components, DenseModel, Riccati, Algorithm | any rounding arithmetic; IEEE binary64 | PropsSlack, PropsDrift, WitnessFloat | error of one step x + t dx, summed along the trace; concrete run for the refutation |
| C65 | The printed numbers can be read back | Text, Algorithm | IEEE binary64 (spec_float) | PropsRead | decimal rounding error of %e and %f in Q, digit strings read back by induction, words of a line; summary from C16_printed_lines and C60 |
| C66 | An output stream that throws | Stream, StreamSpec, Algorithm, Shared | any | PropsStream, PropsMessages, WitnessStream | the streamed monadic run refines the prefix of the pure run up to the first refused event; the Newton-limit summary is shown to be last |
| C67 | Copying, moving and viewing matrix sequences | SeqHeap, MatSeq | any | PropsHeap, WitnessHeap | buffers with owners simulate a pointer-free value machine (ownership invariant: live buffers have exactly one owner); consequences read off the value machine |
| C68 | How far a SUCCESS on doubles is from optimal | Components, DenseModel, MpcModel, Algorithm | any rounding arithmetic; IEEE binary64 | PropsGap | C63 and C64 (certificate and slack drift) combined with the convexity identity behind C28/C29 |
| C69 | What an infeasibility verdict on doubles certifies | Components (FullFeasibility), DenseModel, MpcModel, Algorithm | any rounding arithmetic with an overflow threshold; IEEE binary64 | PropsInfeas, PropsWork | forward error analysis of every step of the test (FwdFloat, MpcFwd, MpcFwd2, FeasFloat), instantiated in BinFwd; Farkas argument over R |
| C70 | A problem without a solution is not reported as solved with a small residual | Algorithm, Components, DenseModel, MpcModel | real arithmetic; any rounding arithmetic; IEEE binary64 | PropsUnsolvable | pair the exact Farkas multipliers (or the ray) with the approximate KKT conditions that the reported residual gives (C29; reported_almost of C68) |
| C71 | QdldlWrapper: memory, solution and history independence | Qdldl (parameters: the three QDLDL functions) | any arithmetic; real arithmetic for solutions | PropsQdldl | invariant on the members (sizes, analysis of the pattern, well-formed factor) kept by every call; leading blocks of a quasi-definite matrix are invertible |
| C72 | Limits, tolerances and the infeasibility check decide only where a run stops | Algorithm + DenseModel + MpcModel | any arithmetic; real and double for comparing tolerances | PropsBudget, PropsBudgetB | simulation of the two runs, inner and outer loop, up to the place the first one stops |
| C73 | The order and sign conventions of a problem do not matter | Algorithm + DenseModel + MpcModel over R | R | PropsRelabel | simulation of the two runs up to a relation between points; sums and maxima over a reordering; uniqueness of the Newton step |
| C74 | What the option presets promise | Params + Algorithm + DenseModel + MpcModel | doubles | PropsPresets | the installed options by computation; C06, C08, C11, C16, C37, C41 at those options |

A property the unchanged code violates keeps its full statement, gets a theorem `..._refuted` (a concrete
run or a counterexample) together with the strongest restricted theorem that does hold, and status `partial`
with a note starting `REFUTED:` in the manifest.

## 4. Conventions

* Every definition of the model cites the file and lines it models; line numbers refer to the pinned commit.
  Simplifications are stated in the same comment.
* Theorem files state theorems over sections whose hypotheses are visible with `Check`; there are no axioms,
  no section-less variables, no functors or module types, no `Admitted`.
* After each growth step the model is mutated in a scratch copy (several hundred realistic edits so
  far, `seeded/LOG.jsonl`); a surviving mutant that falsifies a claim leads to a stronger theorem.

## 5. Trusted base

* Coq 8.16.1's kernel, including `vm_compute`.
* The reading of `/repo` recorded in the model's comments, and Eigen's semantics as stated there.
* Over the reals, theorems about Newton steps (C34-C36, C40, C50-C59 where solving is involved) assume `LALaws LA`:
  a factorisation that succeeds on positive definite matrices and whose factors and solves satisfy their defining
  equations.  This is a hypothesis of the theorems, not an axiom; `inst_laws` shows it is satisfiable.  Nothing is
  claimed about rounding errors of Eigen's factorisations.
* C71 assumes of the QDLDL library what `QdldlOk` and `QdldlExact` (`QdldlSpec.v`) say; hypotheses of the theorems, met by
  `full_ldl` (`full_ldl_ok`, `full_ldl_exact`).
* Print Assumptions: the standard library's real-number axioms (`sig_forall_dec`, `sig_not_dec`), functional
  extensionality and, for the theorems about binary64 that go through Flocq, the standard library's
  `Classical_Prop.classic`; section 7 lists them per theorem.  No other library's axioms are used.

## 6. Not modelled

* User-defined output streams (`tools/output_stream.h`) are modelled only through what a caller can observe of `Solve`: `Print` returns or throws (`Stream.v`, per printed event; per `Print` call with its text in `PropsMessages.v`); a stream that modifies the caller's data while printing is not.  `tools/copyable_macros.h` is modelled for the matrix sequences (`SeqHeap.v`); the solver and component classes cannot be copied; copies of the `ProblemData`/`Variable` structs are not modelled as such (member by member they are vectors and matrix sequences).
  `components/abstract_components.h` (interfaces only).  Build files, and the `tools/{eigen,blas,...}` build wrappers.  QDLDL itself (`tools/qdldl/qdldl` is a submodule that is not in `/repo`): `Qdldl.v` models `qdldl_wrapper.h` over any library with QDLDL's documented contract (`QdldlSpec.v`).
* Wall-clock time: the elapsed time is an input of the model.  Memory exhaustion (`std::bad_alloc`).
* Destruction and allocation of the owned buffers; the unit tests; concurrency (the library has none).
* In `Shared.v`: the caller's memory is one array of numbers, every window is assumed to lie in it, and windows are
  double-aligned (two windows overlap on whole doubles or not at all).
* In `OcpGen.v`: `std::sin` is an arbitrary function and `pow(a,3)` is `a*a*a`.

## 7. Print Assumptions of every theorem in the manifest

### Closed under the global context (151 theorems)

`C01_update_clamps`, `C02_update_preserves`, `C02_update_idempotent`, `C02_presets_verbatim`, `C03_update_never_throws`, `C04_nan_survives`, `C04_nan_rejected_refuted`, `C05_clamp_exception`, `C05_no_clamp_exception`, `C05_accepted_options_throw_refuted`, `C05_ordered_tolerances_throw_refuted`, `C06_iteration_limits`, `C06_budget_before_each_step`, `C07_exit_flags`, `C08_success_residual`, `C09_success_tolerance_refuted`, `C10_maxiter_residual`, `C10_maxiter_residual_refuted`, `C11_certificate`, `C12_dense_exception_safety`, `C12_mpc_exception_safety`, `C13_mpc_history_independence`, `C13_dense_history_no_check`, `C14_uninitialised_memory_refuted`, `C14_history_refuted`, `C14_finite_history`, `C14_finite_memory`, `C14_doubles_finite_history`, `C14_doubles_finite_memory`, `C16_off_silent`, `C16_final_summary`, `C16_iter_lines`, `C16_printed_lines`, `C17_dense_ctor`, `C17_dense_size_validation`, `C18_wrong_y_rejected_refuted`, `C18_dense_mapped_y`, `C18_dense_y_ignored`, `C20_dense_no_ub`, `C19_mpc_ctor`, `C19_mpc_size_validation`, `C19_columns_rejected_refuted`, `C20_mpc_no_ub`, `C21_addresses_distinct`, `C21_owned_entry`, `C21_view_entry`, `C21_index_check`, `C21_write`, `C21_owned_ctor`, `C21_view_ctor`, `C22_view_entries`, `C22_owned_mapped`, `C25_every_z_is_a_trajectory`, `C39_converged_guess`, `C37_line_search`, `C38_duals_nonnegative`, `C41_tolerance_schedule`, `C41_previous_tolerance`, `C42_large_bounds_refuted`, `C43_false_infeasibility_refuted`, `C44_initial_residual`, `C45_newton_limit_choice`, `C45_better_point_partial`, `C45_better_point_refuted`, `C46_component_ctors`, `C46_new_objects`, `C46_unlinked_throws`, `C46_dense_initialize`, `C46_dense_solve_sizes`, `C46_riccati_initialize`, `C46_riccati_solve`, `C46_mpc_products_check_sizes`, `C46_copy`, `C46_inner_residual_sigma_refuted`, `C46_residual_sizes_refuted`, `C46_feasibility_sizes_refuted`, `C46_dense_solve_unlinked_refuted`, `C46_null_arguments_refuted`, `C47_printed_tolerance`, `C48_solve_exceptions`, `C49_struct_defaults`, `C51_run_shape`, `C51_run_grammar`, `C51_newton_steps`, `C59_bad_horizon`, `C59_no_problem`, `C59_generated`, `C59_simulation`, `C59_accepted`, `C59_constructible`, `C60_event_complete`, `C60_iter_table`, `C60_text_complete`, `C60_table_aligned`, `C61_dense_memory`, `C61_mpc_memory`, `C61_dense_apart`, `C61_mpc_apart`, `C61_dense_written`, `C61_mpc_written`, `C61_fill`, `C61_guess_windows`, `C61_dense_windows`, `C61_mpc_windows`, `C61_windows_valid`, `C61_posed_residual_refuted`, `C62_dense_variable`, `C62_dense_ready`, `C62_mpc_variable`, `C62_mpc_ready`, `C62_unset_data`, `C62_ref_of_parts`, `C62_dense_ref_parts`, `C62_vector_sizes`, `C62_vector_integers`, `C62_vector_undefined`, `C62_default_view`, `C65_text`, `C65_summary`, `C66_dense_stream`, `C66_mpc_stream`, `C66_dense_stream_memory`, `C66_mpc_stream_memory`, `C66_dense_messages`, `C66_mpc_messages`, `C66_dense_messages_memory`, `C66_mpc_messages_memory`, `C66_unchanged_refuted`, `C67_value_semantics`, `C67_no_leak`, `C67_independent`, `C67_copy`, `C67_move`, `C67_view`, `C67_dangling`, `C67_index_defined_refuted`, `C71_constructor`, `C71_constructed`, `C71_memory`, `C71_solve_argument`, `C71_history`, `C71_never_throws`, `C72_mpc`, `C72_dense`, `C72_dense_no_check`, `C72_mpc_limits`, `C72_dense_limits`, `C74_dense_untouched`, `C74_mpc_untouched`, `C74_dense_stock`, `C74_mpc_stock`

### `ClassicalDedekindReals.sig_forall_dec`, `ClassicalDedekindReals.sig_not_dec`, `FunctionalExtensionality.functional_extensionality_dep` (84 theorems)

`C29_success_tolerance`, `C54_stalled_success`, `C13_dense_history_exact`, `C14_work_vectors_finite`, `C15_output_margin`, `C23_mpc_products`, `C24_gemvGT_exact`, `C24_gemvGT_any_scaling_refuted`, `C26_dense_forcing_norm`, `C26_mpc_forcing_norm`, `C27_pfb_zero_iff`, `C27_zero_residual_iff_kkt`, `C27_zero_natural_residual_iff_kkt`, `C28_zero_residual_optimal`, `C28_zero_residual_global_optimum`, `C29_approximate_kkt`, `C29_objective_gap`, `C29_solve_bounds`, `C29_solve_objective`, `C30_zero_sub_residual_iff_proximal`, `C31_C32_test_exact`, `C31_solve_primal_infeasible`, `C32_solve_dual_infeasible`, `C39_warm_start`, `C39_reversed_tolerances`, `C33_weight_pair`, `C33_weights`, `C33_gradient`, `C34_dense_newton_step`, `C34_convex_init`, `C34_convex_step`, `C35_ready`, `C35_riccati_newton_step`, `C35_convex_init`, `C35_convex_step`, `C36_convex_never_throws`, `C36_by_options`, `C36_presets`, `C40_same_result`, `C40_mpc_is_dense`, `C50_newton_descent`, `C52_proximal_step`, `C52_iterates_bounded`, `C52_error_budget`, `C53_square_summable`, `C53_prox_limit`, `C55_inner_progress`, `C56_step_residual`, `C56_subproblems`, `C57_convergence`, `C58_line_searches_succeed`, `C58_convergence`, `C59_convex_feasible`, `C59_double_integrator`, `C59_servo_motor`, `C59_spacecraft`, `C59_copolymerization`, `C59_outputs`, `C59_solve_returns`, `C59_default_run`, `C63_success_certificate`, `C63_maxiter_certificate`, `C63_finite_tolerance`, `C64_slack_drift`, `C64_violation`, `C68_objective`, `C68_distance`, `C69_primal_certificate`, `C69_dual_certificate`, `C69_dense_dual_certificate`, `C70_infeasible_residual`, `C70_unbounded_residual`, `C70_infeasible_no_success`, `C70_unbounded_no_success`, `C70_rounded_infeasible`, `C70_rounded_unbounded`, `C71_solves`, `C71_quasidefinite`, `C71_solve_before_factor`, `C71_failure_is_silent`, `C71_uncompressed_matrix`, `C72_dense_exact`, `C72_smaller_tolerances`, `C73_relabelled`

### `ClassicalDedekindReals.sig_forall_dec`, `ClassicalDedekindReals.sig_not_dec`, `Classical_Prop.classic`, `FunctionalExtensionality.functional_extensionality_dep` (18 theorems)

`C14_calm_finite`, `C14_calm_history`, `C63_doubles_tolerance`, `C63_doubles_certificate`, `C63_doubles_maxiter`, `C64_doubles_drift`, `C64_doubles_violation`, `C64_success_feasible_refuted`, `C68_doubles_objective`, `C68_doubles_distance`, `C69_doubles_primal`, `C69_doubles_dual`, `C69_doubles_dense_dual`, `C70_doubles_infeasible`, `C70_doubles_unbounded`, `C72_smaller_tolerances_doubles`, `C64_doubles_step_length`, `C64_doubles_drift_iters`

### `ClassicalDedekindReals.sig_forall_dec`, `FunctionalExtensionality.functional_extensionality_dep` (20 theorems)

`C25_feasible_iff_trajectory`, `C25_objective_is_cost`, `C25_convex`, `C25_convex_iff`, `C25_minimiser_iff_optimal`, `C28_kkt_minimiser`, `C30_proximal_unique`, `C31_certificate_bound`, `C31_certificate_sound`, `C31_exact_certificate`, `C31_sign_needed_refuted`, `C32_certificate_sound`, `C32_ray_descent`, `C32_exact_ray`, `C34_newton_unique`, `C69_primal_meaning`, `C69_no_feasible_point`, `C69_dual_meaning`, `C70_contradiction_infeasible`, `C70_ray_unbounded`


