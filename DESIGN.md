# Formal model of altro-cpp: design and trusted base

Target: the C++ sources in /repo at the pinned commit (read as text, never built).
Prover: Coq 8.16.1 with its standard library. Coquelicot is used for derivative statements, Flocq for theorems about rounding of
IEEE doubles (`FloatBridge.v`, `TaskFloat.v`, `RegFloat.v`); neither adds an axiom beyond those of the standard library listed below.

## Trusted base

* The Coq 8.16.1 kernel (including `vm_compute`).
* The axioms that `Print Assumptions` reports, all from the standard library: the two axioms of the classical Dedekind reals
  (`ClassicalDedekindReals.sig_forall_dec`, `sig_not_dec`), `FunctionalExtensionality.functional_extensionality_dep`, and
  `Classical_Prop.classic` (through Flocq and Coquelicot). No axiom, parameter or hypothesis is added by this development. The list for
  each theorem is at the end of this file.
* The faithfulness of the definitions in the `*Model.v` files (each cites the modelled lines) and the statements of the theorems.

## How the model is built

* **Scalars.** All numeric code is written once, over a record `Scalar` of *operations only*
  (no laws): constants, + - * /, sqrt, abs, comparisons as booleans, rounding to C++ `float`.
  It is instantiated three times:
  `RS` (Coq reals: exact arithmetic, for algebraic and calculus theorems),
  `QS` (reduced rationals: for executable examples and counterexamples),
  `FS` (IEEE binary64 with NaN/inf/signed zero, from the standard library's `SpecFloat`, so it
  computes and carries no axiom).
  Control-flow theorems (loops, statuses, line search, trajectories) are proved for **every**
  `Scalar`, hence for IEEE doubles with NaN; algebraic theorems are proved for `RS`; rounding
  findings are proved for `FS` by computation, and the task assignment for all inputs in `FS` through Flocq.
  `float` values are doubles rounded by `tof32` (binary32 with round to nearest even). `std::pow(a, 2)` is `a * a`.
* **Vectors and matrices** are functions from indices with explicit dimensions; assignment into
  Eigen storage is `vstore`/`mstore` (entries outside the dimensions do not survive).
  State and control dimensions are uniform over the horizon (in the C++ they may vary when
  `Eigen::Dynamic`); dimension mismatches (Eigen assertions) are outside the model.
* **In-out buffers.** User callbacks that fill an Eigen reference take the old buffer and return the
  new one, so "entry not written" is visible in the model.
* **Outcomes.** `Ok | Abort | UB | Throw | Deadlock/Hang` where the code can do that. `ALTRO_ASSERT` is
  modelled by a flag (`debug = true`: abort; `false`: no effect, as under NDEBUG).
* **Loops** are structural recursion on the bound; the one unbounded loop (backward-pass retry)
  takes fuel and has an explicit out-of-fuel outcome, and termination is a theorem.
* **Concurrency** (queue, thread pool, parallel expansions) is a small-step interleaving semantics
  with one step per lock operation / memory access, any number of threads, any schedule
  (sequential consistency; the code uses locks and seq_cst atomics). A blocked thread stutters; locking a mutex the thread already
  owns blocks; `notify_one` has no effect of its own (spurious wake-ups are allowed, waiting is polling). The pool has one user thread, tasks are
  arbitrary state changes that may throw; the system may refuse to create more than `W` threads. Moving a pool is a separate model (PoolMoveModel, C81).
* **Eigen** is modelled, not assumed: LLT is the unblocked left-looking Cholesky loop of
  `Eigen/src/Cholesky/LLT.h`, reading only the lower triangle, plus the two triangular solves; sums are left folds
  (Eigen's vectorised summation order is not modelled; no theorem for `FS` depends on the order). The blocked LLT that Eigen uses
  from dimension 32 on is not modelled. The LDLT that the debug checks of the example cost use is a parameter of the model.
* **Timer**: clock readings are inputs; a program is a tree of scopes; objects returned by value are not copied (elision).

## Layout

`rocq/theories/<Area>Model.v` definitions with file/line citations, `<Area>Proofs.v` lemmas,
`<Area>Spec.v` independent specifications where a statement needs one, `P_<Area>.v` property theorems
(closed by `exact`), each with an `Example` showing satisfiable hypotheses and `Print Assumptions`.

## Properties: what is modelled and how it is proved

| id | model | proof method |
|---|---|---|
| C01 | cone projections | direct, vector induction, over R |
| C02 | constraint-values object as a state machine | invariant over all operation sequences, for `FS` (and RS) |
| C03 | UpdateDuals | case analysis per component, R |
| C04 | AugLag | algebra, R; spec = PHR formula |
| C05 | AugLag, AugLagGradient | derivative of each component term (C1 function min(0,.)^2), chain rule, R |
| C06 | AugLagHessian | quadratic form = sum of squares, R |
| C07 | constraint-values state machine | invariant: projection-Jacobian buffer is diagonal; result is function of inputs |
| C08 | MaxViolation chain CV -> ALCost -> solver | max-fold characterisation, R |
| C09 | penalties state machine | induction over operation sequences |
| C10 | SetPenalty, AugLag over FS | refutation by computation + positive theorem for rho>0 |
| C11 | ALCost Evaluate/Gradient/Hessian | fold induction, any Scalar / R |
| C12 | Problem + BuildAugLagProblem | induction over knot points |
| C13, C14 | AL Solve loop on top of the full iLQR model | invariant over loop, any Scalar |
| C15 | same | refutation by a computed run over QS; positive theorem when last line search accepted |
| C16 | GetConstraintInfo | permutation + sortedness of stable sort |
| C17-C21, C32 | iLQR Solve, Rollout, ForwardPass, IsDone, stats | invariants, any Scalar; C18 over R for the chain |
| C33 | two solves of the same task from different solver histories (`ResolveSpec`: `same_task`, `same_result`) | simulation through begin, expansions, backward pass, line search, statistics and the loop, any Scalar; three refutations by computation show the conditions are needed |
| C22, C23 | regularisation updates, backward-pass loop | R; geometric growth argument for termination |
| C24, C25 | BackwardPass/Solve | refutation by computed runs over QS; positive parts |
| C26-C30 | KnotPointFunctions, LLT | linear algebra over R, completing the square, induction over horizon |
| C31 | whole iteration | from C27, exact expected decrease, and C26 |
| C34 | UpdateExpansionsBlock tasks on the pool, interleavings | commutation of disjoint updates; progress; refutation after a time-out |
| C35 | DefaultTaskAssignment over FS and over R | partition theorem (exact arithmetic); error analysis with Flocq (FS): exact extent of the failure; refutation by computation |
| C36 | SetTaskAssignment / LaunchThreads state machine | invariants over all histories; refutations |
| C37 | NumThreads | cases |
| C38-C40 | two-lock queue with node heap | refinement invariant; refutation runs |
| C41 | thread pool on top of the queue | invariant over all interleavings |
| C42 | SolverStats | refinement to a list-of-iterations spec |
| C43 | SolverLogger | induction over prints; f = 0 is UB |
| C44 | Timer/Stopwatch | induction over nesting trees |
| C45 | profile entries, PrintSummary | loop invariant and a lemma about the byte order of paths; refutation witnesses |
| C46 | CalcStats, whole programs to printed rows | nested scopes have nested times; refutation witnesses |
| C47 | Trajectory | R: theorem; FS (binary32): refutation |
| C48, C49 | Problem state machine | invariant; refutation witnesses (null dereference, indeterminate N) |
| C50, C51 | integrators | algebra / curve-wise differentiability, R; refutation for time-varying dynamics |
| C52-C55 | examples | algebra and derivatives, R |
| C56 | derivative checker | algebra, R |
| C57 | benchmark statistics | sorted-list lemmas |
| C58 | DiscretizedModel::Hessian | refutation witness |
| C59 | line search of ForwardPass | induction over rejected steps, any Scalar |
| C60 | iLQR Solve | totality of every step plus the termination bound of C23, R |
| C61, C63 | problem builders of examples/problems run on the Problem state machine | C48's characterisation of the contents, then values of costs and constraints, R |
| C62 | uninitialised reference control as a parameter | refutation; NaN propagation, FS |
| C64, C66 | InitialTrajectory, MakeSolver, MakeALSolver | C47, rollout characterisation; refutation witnesses |
| C65 | builder + InitializeFromProblem + Solve | C31 and C60 on the contents given by C61 |
| C67, C68 | AL Solve on equality-constrained linear-quadratic problems | C31 for every inner solve (the augmented cost is again quadratic), dual update = first-order condition, Fejer-type decrease of the multiplier distance as invariant of the outer loop, R |
| C69 | AL Solve | C60 for every inner solve, totality of the outer-loop steps |
| C70 | AL Solve | C67-C69 plus the iteration count of C71 |
| C71 | iLQR Solve | C31, the second iteration at the optimum has zero gradient and zero cost change |
| C72 | console table: `SolverLogger`, `LogEntry`, `SolverStats::SetTolerances/Reset` | invariant over all histories of statistics and logger operations; a cell is value, width and colour (fmt not modelled) |
| C73 | `KnotPoint`, `StateControlSized` (KnotModel.v: run-time and template sizes) | case analysis per operation, induction over setter sequences |
| C74 | `UpdateExpansions`, serial | induction over the knot points; for augmented-Lagrangian costs on top of C07 (no dependence on history) |
| C75 | finite differences and the three derivative checks | mean value theorem along a coordinate (Coquelicot), twice for the Hessian |
| C76 | output side of `Timer`, `ProfilerOutputToFile`, its call sites in the solvers (TimerIoModel.v) | invariant over all call sequences; the log of opens, pages and closes is the observable |
| C77 | several `SolverStats` objects with implicit copy and move (StatsMoveModel.v) | memory of objects with ownership of vectors and map nodes; invariant over all programs |
| C78 | calls of `Solve` on the statistics and console (IlqrModel.v, AlModel.v, StatsModel.v) | list of calls per iteration proved equal to the run; rows counted with C72 |
| C79 | solver objects and the problems they were built from: constructors, `CopyFromProblem`, `InitializeFromProblem`, move constructors, the violation callback (SolverObjModel.v) | heap of initial states, world of problems and solvers; invariant over all programs |
| C80 | whole solves with the pool: `Solve`, `UpdateExpansions`, `LaunchThreads` of both solvers over every schedule (ParSolveModel.v, on IlqrModel, AlModel, PoolModel, TaskModel) | relation over schedules; invariant of pool and task data gives equality with the serial solve; existence by progress of the pool; partial divisions characterised |
| C81 | several pools, move construction, move assignment, calls on pools moved from (PoolMoveModel.v, on PoolModel and QueueModel) | every live object is a reachable pool of C41 with its own history; invariant of idle pools; blocked assignment from the queue model |
| C82 | expansions, backward pass, line of closed-loop simulations and line search on nonlinear problems (IlqrModel; NlSpec.v; reals, Coquelicot derivatives) | differentiable curves pushed through the dynamics (derivatives are given as a chain rule along every differentiable curve, `slopes`, which Frechet differentiability implies: C82_frechet); the sweep evaluates the linear part of the cost along its own policy; variations of controls realised by open-loop simulation; uniqueness of simulations |
| C83 | the same with augmented-Lagrangian cost objects (AlModel, ConModel; NlAlSpec.v; reals, Coquelicot derivatives) | the value of an object minus the Lagrangian with updated multipliers is flat at the evaluated point, componentwise through the dual projection; summed over the knot points along any variation; fixed points of UpdateDuals are complementarity (C03) |
| C84 | library components (DynModel, ExampleModel, ConModel), UnicycleProblem (ExProbModel) and the whole augmented-Lagrangian solve (AlModel, IlqrModel; reals, exact sin and cos) | component derivatives from C51, C53, C54; invariant of solver objects: every operation of a solve keeps smoothness, positive penalties (penalty times positive scaling), costs and constraints; the trajectory obeys the dynamics after each inner solve, the scratch trajectory keeps its time grid; termination from C69 |
| C85 | same as C83, convex problems (NlConvexSpec; reals) | the mixtures of two trajectories are a variation (affine dynamics), the Lagrangian with signed multipliers is convex along it, slope 0 gives the minimum; projection inequality per constraint component summed over the horizon |
| C86 | scalar-function interface on memory: matrix references with offset and column stride (FuncModel) | cell-by-cell computation, any Scalar; the exact class of references that work; refutations for all functions |
| C87 | work launcher (LaunchModel) on the thread pool (PoolModel), rounds of CreateTasks and Wait | interleavings of loads and stores on disjoint counters; float analysis of the accumulated boundaries (TaskFloat) |
| C88 | exceptions of user functions in the update of the expansions (ThrowModel) on the pool | truncated blocks; the interleaving theorem for arbitrary per-task descriptors on disjoint cells |
| C89 | members of the integrators as shared memory, statement by statement (ShareModel), on the pool | general frame lemma: a relation the own actions respect and the others do not disturb; footprints |
| C90 | the regularisation, backward pass and solves of IlqrModel/AlModel at the IEEE double instance FS | rate grows by a factor > 1 even after rounding until it overflows, then the regularisation is its maximum (RegFloat); completion of solves for any scalars from an invariant (RegTotal) |

## Which code is modelled

| source | model | not modelled |
|---|---|---|
| altro/augmented_lagrangian/al_cost.hpp | ConModel, CostInst, ProblemModel | |
| al_problem.hpp, al_solver.hpp | AlModel, ProblemModel, ConModel, SolverObjModel | GetOptions plumbing |
| altro/common/functionbase.{hpp,cpp} | UtilModel (derivative tests), FuncModel (memory of matrix references) | printing |
| knotpoint.hpp, trajectory.hpp | TrajModel, KnotModel | printing |
| log_entry.*, solver_logger.*, solver_stats.*, solver_options.* | LogModel, StatsModel, StatsMoveModel | fmt layout |
| threadsafe_queue.hpp, threadpool.* | QueueModel, PoolModel, PoolMoveModel | weak memory, pools shared by several calling threads |
| timer.*, profile_entry.* | TimerModel, TimerIoModel | layout of the printed text, contents of the output file (fopen truncation, buffering), streams closed by the caller |
| state_control_sized.hpp, eigentypes.hpp, utils.hpp | KnotModel (sizes) | |
| altro/constraints/*.hpp | ConModel | |
| altro/ilqr/*.hpp | IlqrModel, Lin, TaskModel, ParModel, ParSolveModel, SolverObjModel, ThrowModel, ShareModel | the thread pool during a move |
| altro/problem/*.{hpp,cpp} | ProblemModel, DynModel, CostInst | |
| altro/utils/assert.*, benchmarking.hpp, derivative_checker.hpp | Base, UtilModel | |
| examples/*.{hpp,cpp} | ExampleModel | |
| examples/problems/* | ExProbModel (builders, trajectories, solver factories) | |
| perf/task_launcher.hpp | LaunchModel | PrintCounts, CreateTasks without a pool, usleep |
| rest of perf/, test/ | | everything |

C34 assumes what problem.hpp:171-183 asks of the user: knot points that are expanded in parallel share no cost or dynamics objects.

Nowhere modelled: printing and formatting details, file I/O, memory allocation failure, C++ object lifetime beyond the null and
indeterminate values named in the model files, weak memory effects, dimension mismatches. Theorems over `RS` are about exact arithmetic; there is no
rounding-error analysis except for the task assignment (C35, C36), the projections and penalties of C02, C10, the time steps of C47, and the
regularisation and completion of solves of C90.

## What Print Assumptions lists

<!-- assumptions -->

**Closed under the global context (no axioms)** (312):

C13_status, C13_solved_converged, C13_never_unsolved, C13_no_outer_iteration, C13_example, C14_limits, C14_inner_limit, C14_outer_count,
C14_example, C15_solved_infeasible_refuted, C17_al_solve, C17_al_example, C02_al_solve_float, C02_al_example, C09_al_solve,
C09_updates_frame, C09_al_example, C69_needs_trajectory, C02_duals_nonpositive_float, C02_example, C06_full_newton_throws,
C07_expansions_history_independent, C08_evaluate_stores_values, C08_example, C09_set_penalty_uniform, C09_negative_penalty_rejected,
C09_penalty_vector_uniform, C10_zero_penalty_refuted, C10_empty_constraint_refuted, C10_defined, C10_empty_example,
C11_alcost_value_any_arithmetic, C11_unconstrained, C11_example, C16_num_constraints, C16_example, C55_example, C62_nan_everywhere,
C62_nan_example, C64_scenario, C52_rows, C52_unbounded, C52_dblmax_refuted, C52_example, C53_setters, C53_example, C54_example,
C74_expansions, C74_al_expansions, C74_constraint_expansion, C74_example, C74_al_example, C86_evaluate, C86_row, C86_jacobian,
C86_jacobian_refuted, C86_checked, C86_sizes_refuted, C86_example, C17_rollout, C17_solve, C17_iterations, C17_no_buffer, C17_example,
C18_iteration, C18_solve, C18_costs, C18_nan, C18_example, C19_forward_pass, C19_example, C20_status, C20_statuses, C20_new_solver,
C20_example, C21_solved, C21_recorded_decrease_partial, C21_recorded_decrease_refuted, C21_example, C22_regularise,
C23_empty_horizon_refuted, C23_example, C24_never_reported_refuted, C24_reported_solved_refuted, C25_no_restart_partial,
C25_restart_refuted, C25_example, C32_solve, C32_rejected, C32_completed, C32_example, C33_second_solve_refuted, C73_default, C73_construct,
C73_construct_refuses, C73_sized, C73_copy, C73_convert, C73_assign, C73_move, C73_moved_from_refuted, C73_move_assign_refuted,
C73_move_assign, C73_setters, C73_terminal, C73_small_step_refuted, C73_run, C73_state_control, C73_state_control_refuted,
C73_release_sizes_refuted, C73_example, C87_serial, C87_example, C87_float_refuted, C87_empty_refuted, C72_columns, C72_print,
C72_tolerances, C72_bounds, C72_add_position, C72_add_position_refuted, C72_late_registration_refuted, C72_stale_colour_refuted, C72_reset,
C72_reset_ok, C72_new, C72_setters, C72_example, C72_example_hyp, C30_lower_triangle, C59_backtracking, C59_example, C80_program,
C80_program_runs, C80_solve, C80_al, C80_al_runs, C80_division_refuted, C41_once, C41_wait, C41_stop, C41_num_tasks, C41_destroyed,
C41_defined, C41_progress, C41_wait_stopped, C41_example, C41_example_stop, C41_example_destroy, C41_second_wait_refuted,
C41_failed_launch_refuted, C81_pools, C81_once, C81_wait, C81_move_keeps, C81_stopped, C81_running, C81_left, C81_assign_refuted,
C81_assign_blocks, C81_example, C81_running_refuted, C48_decides, C48_example, C48_no_crash_refuted, C48_zero_segments_refuted,
C49_copy_contents_partial, C49_copy_segments_refuted, C49_assign_refuted, C49_example, C12_conversion, C12_solver, C12_num_constraints,
C12_example, C12_no_elision_refuted, C38_linearizable, C38_order, C38_progress, C39_quiescent, C39_size_refuted, C40_clear_never_returns,
C40_clear_blocks, C40_clear_refuted, C38_example, C40_example, C90_zero_minimum_nan_refuted, C90_zero_minimum_solve_refuted,
C33_same_result, C33_solve_again, C33_example, C33_stale_cost_refuted, C33_stale_gains_refuted, C89_serial, C89_parallel, C89_value,
C89_own_objects, C89_euler, C89_shared_refuted, C89_example, C78_inner, C78_outer, C78_inner_rows, C78_outer_rows, C78_example, C79_built,
C79_ranges, C79_follows, C79_example, C79_second_problem_refuted, C79_assign_refuted, C79_al_built, C79_al_second_problem_refuted, C79_move,
C79_moved, C79_al_move_refuted, C79_move_tasks_refuted, C79_make_trajectory_refuted, C79_example_al, C37_num_threads, C37_example,
C42_series, C42_only_the_eight_series, C42_unregistered_log_partial, C42_unregistered_log_refuted, C42_example, C43_silent, C43_columns,
C43_header_frequency, C43_clear_restarts, C43_explicit_header_refuted, C43_zero_frequency_refuted, C43_zero_frequency_option_refuted,
C43_example, C77_independent, C77_never_records, C77_copy_log, C77_copy_dangles, C77_move_log, C77_move_reset, C77_copy_refuted,
C77_moved_solver_refuted, C77_example, C77_example_calls, C77_example_own, C77_example_reset, C34_parallel, C34_completes, C34_example,
C34_timeout_refuted, C35_example, C35_float_refuted, C35_empty_refuted, C36_kept, C36_used, C36_increasing, C36_accepts, C36_example,
C36_unused_refuted, C36_validation_refuted, C36_fresh_refuted, C36_rejected_refuted, C36_relaunch_refuted, C88_serial, C88_parallel,
C88_none, C88_lost_refuted, C88_example, C44_accumulates, C44_paths, C44_inactive, C44_new, C44_copied_stopwatch, C44_slash_name,
C44_example, C45_total, C45_parents, C45_program, C45_solver_names, C45_example, C45_order_refuted, C45_open_refuted, C46_exact,
C46_program, C46_example, C46_overflow_refuted, C46_truncation_refuted, C76_closes, C76_last, C76_clean_iff, C76_summary, C76_defined,
C76_failed_open, C76_ownership_refuted, C76_summary_refuted, C76_solves, C76_stdout_refuted, C76_ilqr_ignores_file, C76_example,
C76_example_clean, C76_example_leak, C47_uniform_step, C47_set_zero, C47_example, C47_float_refuted, C47_float_short, C47_nan_refuted,
C47_no_segments_refuted, C56_columns, C56_no_variables, C56_example, C57_empty, C57_example.

**Axioms `sig_forall_dec`, `sig_not_dec`, `functional_extensionality_dep`** (167):

C15_certified_if_moved_partial, C02_al_solve_real, C67_stationary, C67_cost, C67_optimal, C68_violation, C68_max_outer, C68_multipliers,
C68_max_penalty, C68_cost_rate, C69_solve_completes, C70_solved, C67_C68_C70_example, C68_example, C67_example, C69_example, C01_projection,
C01_members_fixed, C01_dual_cone, C01_jacobian, C01_example, C02_duals_nonpositive_real, C03_dual_fixed_point_iff_kkt, C03_example,
C04_auglag_value, C04_example, C05_example, C06_hessian_gauss_newton, C06_hessian_symmetric, C06_hessian_psd, C06_example, C07_example,
C08_max_violation, C08_max_violation_decides, C09_penalties_geometric, C09_penalties_monotone, C09_max_penalty, C09_example,
C11_alcost_value, C11_alcost_gradient, C11_alcost_hessian, C16_info_complete, C16_info_sorted, C50_euler, C50_rk4, C50_linear, C50_example,
C51_euler, C51_rk4_partial, C51_expansion, C51_time_varying_refuted, C51_example, C55_unicycle_jacobian, C55_unicycle_hessian, C55_triple,
C58_discretised_hessian_refuted, C61_contents, C61_default, C61_example, C62_memory_partial, C62_uninitialised_refuted, C65_optimal,
C65_trajectory, C65_example, C63_contents, C63_reuse, C63_example, C63_start_goal, C63_unconstrained_refuted, C64_trajectory, C64_example,
C64_before_make_refuted, C64_defaults, C64_switch_back_refuted, C66_solvers, C66_example, C52_feasible, C52_jacobian, C53_goal, C53_circle,
C53_circle_jacobian_partial, C53_circle_jacobian_refuted, C54_value, C54_derivatives, C54_lqr, C54_joint_hessian_refuted,
C54_joint_hessian_partial, C54_validate, C86_jacobian_iff, C86_hessian, C86_hessian_refuted, C86_check, C86_check_hessian, C18_orders,
C18_real, C20_defaults, C22_range, C22_increase, C22_decrease, C22_example, C23_terminates, C32_accepted_real, C73_is_terminal,
C73_step_terminal, C87_exact, C87_negative_refuted, C26_minimiser, C26_exists, C26_horizon, C26_example, C27_cost_to_go, C27_step_length,
C27_example, C28_descent, C28_example, C29_symmetric, C29_convex, C29_example, C30_accepts, C30_solves, C30_example, C31_first_iteration,
C31_iterations, C31_solve, C31_lqr_rk4, C31_example, C31_lqr_example, C60_completes, C60_example, C71_solved, C71_example, C82_frechet,
C82_slope, C82_line, C82_descent, C82_stationary, C82_accept, C82_regularised_refuted, C82_example, C85_optimal, C85_saddle, C84_euler,
C84_rk4, C84_cost, C84_goal, C84_bound, C84_object, C84_solve_keeps, C84_unicycle, C84_example, C80_exact, C80_al_exact,
C90_zero_minimum_endless_refuted, C35_exact, C36_history, C47_check_exact, C47_exact_consistent, C47_from_times, C47_example_times,
C56_affine, C56_quadratic, C56_hessian, C56_check_jacobian, C56_check_gradient, C56_check_hessian, C57_statistics, C57_order.

**Axioms `sig_forall_dec`, `functional_extensionality_dep`** (3):

C70_enough, C04_slack_form, C04_feasible_values.

**Axioms `sig_forall_dec`, `sig_not_dec`, `classic`, `functional_extensionality_dep`** (43):

C05_gradient_true, C50_rk4_quadrature, C50_triple_exact, C50_triple_solvable, C54_nearly_symmetric_refuted, C75_jacobian, C75_hessian,
C75_check_jacobian, C75_check_gradient, C75_check_hessian, C75_mixed_rejected, C75_example_accepts, C75_hessian_check_refuted, C87_float,
C87_dyadic, C87_zero_refuted, C83_smooth, C83_setting, C83_multipliers, C83_kkt, C83_example, C85_fixed, C85_bound, C85_closer, C85_example,
C84_after_solves, C84_unicycle_solve, C80_float_debug, C80_float_release, C80_example, C90_range, C90_increase, C90_decrease, C90_backward,
C90_sweeps, C90_solve, C90_al_solve, C90_default_sweeps, C90_example, C35_float, C35_dyadic, C35_zero_tasks_refuted, C36_history_float.

<!-- end assumptions -->
