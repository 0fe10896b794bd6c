{
 "claims": [
  {
   "property": "C01",
   "status": "proved",
   "theorems": [
    "C01_projection",
    "C01_members_fixed",
    "C01_dual_cone",
    "C01_jacobian"
   ],
   "note": "Exact arithmetic. The Jacobian theorem excludes x_i = 0 for the negative orthant, where the projection is not differentiable."
  },
  {
   "property": "C02",
   "status": "proved",
   "theorems": [
    "C02_al_solve_real",
    "C02_al_solve_float",
    "C02_duals_nonpositive_real",
    "C02_duals_nonpositive_float"
   ],
   "note": "Any history of public operations, proved in exact arithmetic and in IEEE binary64 with NaN and infinities."
  },
  {
   "property": "C03",
   "status": "proved",
   "theorems": [
    "C03_dual_fixed_point_iff_kkt"
   ],
   "note": ""
  },
  {
   "property": "C04",
   "status": "proved",
   "theorems": [
    "C04_auglag_value",
    "C04_slack_form",
    "C04_feasible_values"
   ],
   "note": ""
  },
  {
   "property": "C05",
   "status": "proved",
   "theorems": [
    "C05_gradient_true"
   ],
   "note": "Exact arithmetic; includes points where an inequality switches activity."
  },
  {
   "property": "C06",
   "status": "proved",
   "theorems": [
    "C06_hessian_gauss_newton",
    "C06_hessian_symmetric",
    "C06_hessian_psd",
    "C06_full_newton_throws"
   ],
   "note": ""
  },
  {
   "property": "C07",
   "status": "proved",
   "theorems": [
    "C07_expansions_history_independent"
   ],
   "note": ""
  },
  {
   "property": "C08",
   "status": "proved",
   "theorems": [
    "C08_max_violation",
    "C08_max_violation_decides",
    "C08_evaluate_stores_values"
   ],
   "note": ""
  },
  {
   "property": "C09",
   "status": "proved",
   "theorems": [
    "C09_al_solve",
    "C09_updates_frame",
    "C09_set_penalty_uniform",
    "C09_negative_penalty_rejected",
    "C09_penalties_geometric",
    "C09_penalties_monotone",
    "C09_penalty_vector_uniform",
    "C09_max_penalty"
   ],
   "note": ""
  },
  {
   "property": "C10",
   "status": "partial",
   "theorems": [
    "C10_zero_penalty_refuted",
    "C10_empty_constraint_refuted",
    "C10_defined"
   ],
   "note": "False of the code as stated: SetPenalty(0) is accepted and the value is 0/0 = NaN in binary64 (finding). The positive case (nonzero penalty) is C04_auglag_value. A zero-dimensional constraint reads an empty vector."
  },
  {
   "property": "C11",
   "status": "proved",
   "theorems": [
    "C11_alcost_value",
    "C11_alcost_value_any_arithmetic",
    "C11_alcost_gradient",
    "C11_alcost_hessian",
    "C11_unconstrained"
   ],
   "note": ""
  },
  {
   "property": "C12",
   "status": "partial",
   "theorems": [
    "C12_conversion",
    "C12_solver",
    "C12_num_constraints",
    "C12_no_elision_refuted"
   ],
   "note": "Proved for every fully defined problem with at least one segment, assuming the compiler elides the returned copy. Without elision the number of segments is lost (finding, from C49)."
  },
  {
   "property": "C13",
   "status": "proved",
   "theorems": [
    "C13_status",
    "C13_solved_converged",
    "C13_never_unsolved",
    "C13_no_outer_iteration"
   ],
   "note": "Every arithmetic with irreflexive asymmetric transitive < (proved for exact and IEEE arithmetic)."
  },
  {
   "property": "C14",
   "status": "proved",
   "theorems": [
    "C14_limits",
    "C14_inner_limit",
    "C14_outer_count"
   ],
   "note": ""
  },
  {
   "property": "C15",
   "status": "partial",
   "theorems": [
    "C15_certified_if_moved_partial",
    "C15_solved_infeasible_refuted"
   ],
   "note": "False of the code: when the last line search fails the stored constraint values are those of the rejected candidate (finding, witness with exact derivatives). Proved when the last inner iteration accepted a new trajectory."
  },
  {
   "property": "C16",
   "status": "proved",
   "theorems": [
    "C16_info_complete",
    "C16_info_sorted",
    "C16_num_constraints"
   ],
   "note": "Stable insertion sort stands for std::sort (order of ties unspecified in C++)."
  },
  {
   "property": "C17",
   "status": "proved",
   "theorems": [
    "C17_al_solve",
    "C17_rollout",
    "C17_solve",
    "C17_iterations",
    "C17_no_buffer"
   ],
   "note": ""
  },
  {
   "property": "C18",
   "status": "proved",
   "theorems": [
    "C18_iteration",
    "C18_solve",
    "C18_orders",
    "C18_costs",
    "C18_nan",
    "C18_real"
   ],
   "note": "Every scalar type whose < is irreflexive, asymmetric and transitive (proved for exact and IEEE arithmetic); costs proved faithful for user costs and for the augmented Lagrangian."
  },
  {
   "property": "C19",
   "status": "proved",
   "theorems": [
    "C19_forward_pass"
   ],
   "note": ""
  },
  {
   "property": "C20",
   "status": "proved",
   "theorems": [
    "C20_status",
    "C20_statuses",
    "C20_new_solver",
    "C20_defaults"
   ],
   "note": ""
  },
  {
   "property": "C21",
   "status": "partial",
   "theorems": [
    "C21_solved",
    "C21_recorded_decrease_partial",
    "C21_recorded_decrease_refuted"
   ],
   "note": "The recorded-decrease clause is false of the code after a failed first line search (finding, witness); proved when the iteration is the first one or an earlier step was accepted."
  },
  {
   "property": "C22",
   "status": "proved",
   "theorems": [
    "C22_range",
    "C22_increase",
    "C22_decrease",
    "C22_regularise"
   ],
   "note": "Exact arithmetic."
  },
  {
   "property": "C23",
   "status": "partial",
   "theorems": [
    "C23_terminates",
    "C23_empty_horizon_refuted"
   ],
   "note": "Exact arithmetic, at least one segment (in IEEE doubles: C90). With no segments the loop never ends (finding)."
  },
  {
   "property": "C24",
   "status": "partial",
   "theorems": [
    "C24_never_reported_refuted",
    "C24_reported_solved_refuted"
   ],
   "note": "False of the code: the line-search rollout overwrites the status; proved that it is never reported once one line-search step is allowed, with a witness that is reported as solved (finding)."
  },
  {
   "property": "C25",
   "status": "partial",
   "theorems": [
    "C25_no_restart_partial",
    "C25_restart_refuted"
   ],
   "note": "False of the code after a restart of the backward pass (finding, witness); proved without restart."
  },
  {
   "property": "C26",
   "status": "proved",
   "theorems": [
    "C26_minimiser",
    "C26_exists",
    "C26_horizon"
   ],
   "note": "Exact arithmetic. C26_minimiser per knot point (unique minimiser), C26_exists when gains exist, C26_horizon for the whole horizon."
  },
  {
   "property": "C27",
   "status": "proved",
   "theorems": [
    "C27_cost_to_go",
    "C27_step_length"
   ],
   "note": "Exact arithmetic, full step; C27_step_length gives every step length without regularisation (with regularisation the expected change is exact only for the full step)."
  },
  {
   "property": "C28",
   "status": "proved",
   "theorems": [
    "C28_descent"
   ],
   "note": "Exact arithmetic."
  },
  {
   "property": "C29",
   "status": "proved",
   "theorems": [
    "C29_symmetric",
    "C29_convex"
   ],
   "note": "Exact arithmetic. The symmetry theorem also covers passes that give up."
  },
  {
   "property": "C30",
   "status": "proved",
   "theorems": [
    "C30_accepts",
    "C30_solves",
    "C30_lower_triangle"
   ],
   "note": "Exact arithmetic; C30_lower_triangle in any arithmetic. Unblocked factorisation (Eigen blocks from dimension 32 on)."
  },
  {
   "property": "C31",
   "status": "proved",
   "theorems": [
    "C31_first_iteration",
    "C31_iterations",
    "C31_solve",
    "C31_lqr_rk4"
   ],
   "note": "Exact arithmetic, iLQR solver. C31_first_iteration: one iteration (either the full step is accepted or the rollout is already optimal); C31_solve: the whole solve; C31_lqr_rk4: LQR costs with Runge-Kutta steps of linear systems."
  },
  {
   "property": "C32",
   "status": "proved",
   "theorems": [
    "C32_solve",
    "C32_accepted_real",
    "C32_rejected",
    "C32_completed"
   ],
   "note": "C32_solve, C32_completed and C19_forward_pass for accepted trajectories; C32_rejected for rejected ones. Limits are only tested when check_forwardpass_bounds is on; the initial rollout is not tested."
  },
  {
   "property": "C33",
   "status": "partial",
   "theorems": [
    "C33_second_solve_refuted",
    "C33_same_result",
    "C33_solve_again",
    "C33_stale_cost_refuted",
    "C33_stale_gains_refuted"
   ],
   "note": "False in general (three findings with witnesses: the total iteration count is not reset by Solve, the decrease tested in the first iteration uses the cost recorded by the previous solve when the first line search accepts no step, and the gains of the previous solve are used when the first backward pass gives up). Proved for every Scalar, cost and dynamics outside these cases: whatever earlier solves left behind, the solve of the same task gives the same trajectory, status, gains, cost-to-go and the same recorded cost, decrease, gradient and regularisation in every iteration."
  },
  {
   "property": "C34",
   "status": "partial",
   "theorems": [
    "C34_parallel",
    "C34_completes",
    "C34_timeout_refuted"
   ],
   "note": "Every number of workers, every interleaving, every earlier use of pool and solver. Assumes, as problem.hpp asks, that knot points share no cost or dynamics objects, and that no wait times out; after a time-out the solver goes on with stale expansions (C34_timeout_refuted, finding)."
  },
  {
   "property": "C35",
   "status": "partial",
   "theorems": [
    "C35_exact",
    "C35_float",
    "C35_dyadic",
    "C35_float_refuted",
    "C35_zero_tasks_refuted",
    "C35_empty_refuted"
   ],
   "note": "Exact arithmetic: always a partition. IEEE doubles (up to 2^18 tasks): C35_float gives the exact extent of the failure (a prefix of the knot points is partitioned, at most the last block is lost), C35_dyadic the pairs without rounding. Findings: 100 segments on six threads lose the last 17 knot points; no tasks at all for tasks_per_thread 0; endless loop for zero segments."
  },
  {
   "property": "C36",
   "status": "partial",
   "theorems": [
    "C36_kept",
    "C36_used",
    "C36_increasing",
    "C36_accepts",
    "C36_history",
    "C36_history_float",
    "C36_unused_refuted",
    "C36_validation_refuted",
    "C36_fresh_refuted",
    "C36_rejected_refuted",
    "C36_relaunch_refuted"
   ],
   "note": "A custom vector is kept in all histories and used by the next launch that changes the thread count; every history of valid vectors works on partitions. Findings: not used while the pool keeps its size, checks look at the previous vector (non-covering vectors accepted, valid ones rejected), undefined on a fresh solver in debug, pool restarted at every launch for some sizes."
  },
  {
   "property": "C37",
   "status": "proved",
   "theorems": [
    "C37_num_threads"
   ],
   "note": ""
  },
  {
   "property": "C38",
   "status": "proved",
   "theorems": [
    "C38_linearizable",
    "C38_order",
    "C38_progress"
   ],
   "note": "Every number of threads and every interleaving (sequentially consistent). Programs containing Clear or move assignment: linearizable too, but see C40."
  },
  {
   "property": "C39",
   "status": "partial",
   "theorems": [
    "C39_quiescent",
    "C39_size_refuted"
   ],
   "note": "Exact whenever no call is in progress and off by at most one per thread otherwise; false of the code during concurrent calls: Size returns 2^64-1 while a pop overtakes the count of the push (finding, witness)."
  },
  {
   "property": "C40",
   "status": "partial",
   "theorems": [
    "C40_clear_never_returns",
    "C40_clear_blocks",
    "C40_clear_refuted"
   ],
   "note": "False of the code: Clear and move assignment never return, on any content and schedule, and block every later pop (finding)."
  },
  {
   "property": "C41",
   "status": "partial",
   "theorems": [
    "C41_once",
    "C41_wait",
    "C41_stop",
    "C41_num_tasks",
    "C41_destroyed",
    "C41_defined",
    "C41_progress",
    "C41_wait_stopped",
    "C41_second_wait_refuted",
    "C41_failed_launch_refuted"
   ],
   "note": "Every number of workers, tasks and interleavings; one user thread; tasks may throw. C41_wait is per task. Findings: after a Wait has given up on a task, a later Wait returns at once while it is unfinished (C41_second_wait_refuted); destroying a pool after LaunchThreads threw terminates the program (C41_failed_launch_refuted). StopThreads leaves queued tasks unexecuted (C41_example_stop)."
  },
  {
   "property": "C42",
   "status": "partial",
   "theorems": [
    "C42_series",
    "C42_only_the_eight_series",
    "C42_unregistered_log_partial",
    "C42_unregistered_log_refuted"
   ],
   "note": "All clauses proved except one that is false of the code: logging an unregistered title on an empty record opens a first iteration (finding)."
  },
  {
   "property": "C43",
   "status": "partial",
   "theorems": [
    "C43_silent",
    "C43_columns",
    "C43_header_frequency",
    "C43_clear_restarts",
    "C43_explicit_header_refuted",
    "C43_zero_frequency_refuted",
    "C43_zero_frequency_option_refuted"
   ],
   "note": "Column, silence and frequency clauses proved; counting starts at construction or Clear. False of the code: an explicitly printed header does not restart the count, and frequency 0 is accepted and divides by zero (findings)."
  },
  {
   "property": "C44",
   "status": "proved",
   "theorems": [
    "C44_accumulates",
    "C44_paths",
    "C44_inactive",
    "C44_new",
    "C44_copied_stopwatch",
    "C44_slash_name"
   ],
   "note": "Every program of scoped stopwatches from every timer state. Copying a stopwatch (its copy constructor is public) breaks it (C44_copied_stopwatch)."
  },
  {
   "property": "C45",
   "status": "partial",
   "theorems": [
    "C45_total",
    "C45_parents",
    "C45_program",
    "C45_order_refuted",
    "C45_open_refuted"
   ],
   "note": "Proved for all tables of paths of plain names (bytes above '/') with their parents, and for all programs with plain names, such as all names used by the solvers. False of the code for other names (a name with '-' steals children) and for summaries printed while a stopwatch is open (findings, witnesses)."
  },
  {
   "property": "C46",
   "status": "partial",
   "theorems": [
    "C46_exact",
    "C46_program",
    "C46_overflow_refuted",
    "C46_truncation_refuted"
   ],
   "note": "Proved for all programs with plain names that run less than 21474.837 ms, the best bound: 21.474837 s overflows int; totals are also truncated to int (findings, witnesses)."
  },
  {
   "property": "C47",
   "status": "partial",
   "theorems": [
    "C47_uniform_step",
    "C47_set_zero",
    "C47_check_exact",
    "C47_exact_consistent",
    "C47_from_times",
    "C47_float_refuted",
    "C47_nan_refuted",
    "C47_no_segments_refuted"
   ],
   "note": "Exact arithmetic. In IEEE arithmetic the single-precision steps make the default-tolerance time check fail on a trajectory built by SetUniformStep (h = 0.1, N = 170); a NaN time is accepted; the no-segment constructor reads out of range (findings, witnesses)."
  },
  {
   "property": "C48",
   "status": "partial",
   "theorems": [
    "C48_decides",
    "C48_no_crash_refuted",
    "C48_zero_segments_refuted"
   ],
   "note": "Decides completeness exactly, for every history of accepted setter calls, except that it dereferences null when the initial state is set before the first model, and always for zero segments (findings, witnesses)."
  },
  {
   "property": "C49",
   "status": "partial",
   "theorems": [
    "C49_copy_contents_partial",
    "C49_copy_segments_refuted",
    "C49_assign_refuted"
   ],
   "note": "Contents proved; the number of segments is never initialised by the copy and move constructors and not changed by assignment (findings, witnesses)."
  },
  {
   "property": "C50",
   "status": "proved",
   "theorems": [
    "C50_euler",
    "C50_rk4",
    "C50_rk4_quadrature",
    "C50_triple_exact",
    "C50_triple_solvable",
    "C50_linear"
   ],
   "note": "Exact arithmetic. Triple integrator under constant control is integrated exactly by RK4."
  },
  {
   "property": "C51",
   "status": "partial",
   "theorems": [
    "C51_euler",
    "C51_rk4_partial",
    "C51_expansion",
    "C51_time_varying_refuted"
   ],
   "note": "Euler for all dynamics; RK4 for dynamics whose Jacobian does not depend on time. False of the code for time-varying dynamics: RK4 Jacobian evaluates the third and fourth stages at the wrong time (finding, witness)."
  },
  {
   "property": "C52",
   "status": "partial",
   "theorems": [
    "C52_rows",
    "C52_unbounded",
    "C52_feasible",
    "C52_jacobian",
    "C52_dblmax_refuted"
   ],
   "note": "Any arithmetic for the rows; exact arithmetic for the feasible set. A bound of +-DBL_MAX is treated as infinite, so the feasible set differs there (finding, witness)."
  },
  {
   "property": "C53",
   "status": "partial",
   "theorems": [
    "C53_goal",
    "C53_circle",
    "C53_setters",
    "C53_circle_jacobian_partial",
    "C53_circle_jacobian_refuted"
   ],
   "note": "Jacobian proved for the default indices; false of the code after SetXYIndices, which Jacobian ignores (finding, witness)."
  },
  {
   "property": "C54",
   "status": "partial",
   "theorems": [
    "C54_value",
    "C54_derivatives",
    "C54_lqr",
    "C54_joint_hessian_refuted",
    "C54_joint_hessian_partial",
    "C54_validate",
    "C54_nearly_symmetric_refuted"
   ],
   "note": "Exact arithmetic. The joint Hessian leaves the bottom-left block unwritten (finding, witness); right when H = 0. Weights that are symmetric only to 1e-12 are accepted and the gradient is then not the derivative (finding, witness)."
  },
  {
   "property": "C55",
   "status": "proved",
   "theorems": [
    "C55_unicycle_jacobian",
    "C55_unicycle_hessian",
    "C55_triple"
   ],
   "note": "Exact arithmetic."
  },
  {
   "property": "C56",
   "status": "proved",
   "theorems": [
    "C56_columns",
    "C56_no_variables",
    "C56_affine",
    "C56_quadratic",
    "C56_hessian",
    "C56_check_jacobian",
    "C56_check_gradient",
    "C56_check_hessian"
   ],
   "note": "Column structure in any arithmetic; exactness in exact arithmetic. Exact acceptance criteria of CheckJacobian (affine constraints), CheckGradient and CheckHessian (quadratic costs); the last two reject correct derivatives of some costs (findings)."
  },
  {
   "property": "C57",
   "status": "proved",
   "theorems": [
    "C57_statistics",
    "C57_order",
    "C57_empty"
   ],
   "note": "Exact arithmetic. An empty sample vector is read out of range (finding)."
  },
  {
   "property": "C58",
   "status": "partial",
   "theorems": [
    "C58_discretised_hessian_refuted"
   ],
   "note": "False of the code: Hessian is a no-op although HasHessian forwards the answer of the continuous model (finding, witness)."
  },
  {
   "property": "C59",
   "status": "proved",
   "theorems": [
    "C59_backtracking"
   ],
   "note": "Any arithmetic, for costs that are functions of their arguments."
  },
  {
   "property": "C60",
   "status": "proved",
   "theorems": [
    "C60_completes"
   ],
   "note": "Exact arithmetic (in IEEE doubles: C90), at least one segment, logging frequency nonzero (frequency 0 divides by zero, C43)."
  },
  {
   "property": "C61",
   "status": "proved",
   "theorems": [
    "C61_contents",
    "C61_default"
   ],
   "note": "All settings with 1 <= N, symmetric Q, Qf (accepted by the LDLT check), symmetric positive definite R, non-negative finite bounds; C61_default: the object as constructed qualifies for every dof."
  },
  {
   "property": "C62",
   "status": "partial",
   "theorems": [
    "C62_memory_partial",
    "C62_uninitialised_refuted",
    "C62_nan_everywhere"
   ],
   "note": "False of the code: uref is an Eigen vector that is never initialised (triple_integrator.hpp:51) and enters every running cost (C62_uninitialised_refuted, finding); with NaN in it every cost, the terminal one included, is NaN (C62_nan_everywhere). Everything but the costs is independent of it, and in exact arithmetic the terminal cost is too (C62_memory_partial)."
  },
  {
   "property": "C63",
   "status": "partial",
   "theorems": [
    "C63_contents",
    "C63_reuse",
    "C63_start_goal",
    "C63_unconstrained_refuted"
   ],
   "note": "All of it except the last clause is proved for all objects and reuse histories. False: without constraints the obstacle scenario keeps its discs (C63_unconstrained_refuted, finding)."
  },
  {
   "property": "C64",
   "status": "partial",
   "theorems": [
    "C64_trajectory",
    "C64_before_make_refuted",
    "C64_defaults",
    "C64_scenario",
    "C64_switch_back_refuted"
   ],
   "note": "Proved for trajectories taken after MakeProblem. False before it (the obstacle scenario then ends at 3 s instead of 5 s) and the turn scenario keeps start, goal and initial control of an obstacle scenario made earlier (findings)."
  },
  {
   "property": "C65",
   "status": "proved",
   "theorems": [
    "C65_optimal",
    "C65_trajectory"
   ],
   "note": "The solved trajectory is the minimiser over all trajectories of the explicit constant-jerk motion; no reference to the solver model in the specification. Bound checks switched off (they may reject the optimal step)."
  },
  {
   "property": "C66",
   "status": "proved",
   "theorems": [
    "C66_solvers"
   ],
   "note": "MakeALSolver is proved for the case where the compiler elides the move of the local problem in BuildAugLagProblem; otherwise the number of segments is lost (finding of C12)."
  },
  {
   "property": "C67",
   "status": "proved",
   "theorems": [
    "C67_stationary",
    "C67_cost",
    "C67_optimal"
   ],
   "note": "Real arithmetic. Equality constraints affine in state and control (stages) or state only (end point), costs convex quadratic with positive definite control weight. If bound checking is on, the minimisers of the inner problems must be inside the limits (they may be rejected otherwise)."
  },
  {
   "property": "C68",
   "status": "proved",
   "theorems": [
    "C68_violation",
    "C68_max_outer",
    "C68_multipliers",
    "C68_max_penalty",
    "C68_cost_rate"
   ],
   "note": "Same setting as C67; uniform = every constraint uses the same penalty scaling."
  },
  {
   "property": "C69",
   "status": "proved",
   "theorems": [
    "C69_solve_completes",
    "C69_needs_trajectory"
   ],
   "note": "Exact arithmetic (in IEEE doubles: C90). Any costs, dynamics and constraints (arbitrary real functions). No fuel bound: for some fuel and all larger amounts the result is the same state."
  },
  {
   "property": "C70",
   "status": "proved",
   "theorems": [
    "C70_solved",
    "C70_enough"
   ],
   "note": "Same setting as C67 plus positive tolerances; total correctness, including completion. C70_enough: a suitable J exists whenever the scaling exceeds 1."
  },
  {
   "property": "C71",
   "status": "proved",
   "theorems": [
    "C71_solved"
   ],
   "note": "Adds status and iteration count to C31 (optimality) and C60 (completion)."
  },
  {
   "property": "C72",
   "status": "partial",
   "theorems": [
    "C72_columns",
    "C72_print",
    "C72_tolerances",
    "C72_bounds",
    "C72_add_position",
    "C72_add_position_refuted",
    "C72_late_registration_refuted",
    "C72_stale_colour_refuted",
    "C72_reset",
    "C72_reset_ok",
    "C72_new",
    "C72_setters"
   ],
   "note": "Findings (refuted): a column added after a print leaves an empty heading; AddEntry checks its position against the number of entries, not of columns, so a mistyped log name makes a position valid that has no column (debug build accepts, insertion past the end); a colour survives Clear when the bounds have changed. Observation: no solver calls SetTolerances, so the colours of the solver columns never change in use. The formatting of a number into characters (fmt) is not modelled: a cell is value, width and colour."
  },
  {
   "property": "C73",
   "status": "partial",
   "theorems": [
    "C73_default",
    "C73_construct",
    "C73_construct_refuses",
    "C73_sized",
    "C73_copy",
    "C73_convert",
    "C73_assign",
    "C73_move",
    "C73_moved_from_refuted",
    "C73_move_assign_refuted",
    "C73_move_assign",
    "C73_setters",
    "C73_terminal",
    "C73_is_terminal",
    "C73_step_terminal",
    "C73_small_step_refuted",
    "C73_run",
    "C73_state_control",
    "C73_state_control_refuted",
    "C73_release_sizes_refuted"
   ],
   "note": "Findings (refuted): a moved-from run-time sized point reports its old sizes with empty vectors; after a move assignment the moved-from run-time sized point has the old vectors of the target but its own sizes; a positive step below single precision makes a point terminal; GetStateControl does not work for run-time sized points (aborts or is undefined); in release builds sizes that contradict the template are accepted."
  },
  {
   "property": "C74",
   "status": "proved",
   "theorems": [
    "C74_expansions",
    "C74_al_expansions",
    "C74_constraint_expansion"
   ],
   "note": "Holds for every arithmetic; buffers of the previous expansion only matter where a user cost leaves part of its output unwritten, which is visible in the statement (the functions get the old buffer)."
  },
  {
   "property": "C75",
   "status": "partial",
   "theorems": [
    "C75_jacobian",
    "C75_hessian",
    "C75_check_jacobian",
    "C75_check_gradient",
    "C75_check_hessian",
    "C75_mixed_rejected",
    "C75_hessian_check_refuted"
   ],
   "note": "Exact arithmetic. False of the code for CheckHessian as a test of correct Hessians: it rejects every cost with a mixed control-state derivative of at least eps, whatever blocks are supplied, because the bottom-left block is never written (finding, witness with exact derivatives)."
  },
  {
   "property": "C76",
   "status": "partial",
   "theorems": [
    "C76_closes",
    "C76_last",
    "C76_clean_iff",
    "C76_summary",
    "C76_defined",
    "C76_failed_open",
    "C76_ownership_refuted",
    "C76_summary_refuted",
    "C76_solves",
    "C76_stdout_refuted",
    "C76_ilqr_ignores_file"
   ],
   "note": "False of the code (findings, witnesses): SetOutput(filename) followed by SetOutput(FILE*) makes the destructor close the caller's stream and leak the file; a second SetOutput(filename) leaks the first; every augmented-Lagrangian solve with profiler_output_to_file opens the file again; a later solve without it closes standard output; times of a deactivated timer, or recorded after a first PrintSummary, are never printed; iLQR alone ignores profiler_output_to_file. Proved: the exact condition under which it is clean (C76_clean_iff) and what is printed where (C76_summary). File contents and streams closed by the caller are not modelled."
  },
  {
   "property": "C77",
   "status": "partial",
   "theorems": [
    "C77_independent",
    "C77_never_records",
    "C77_copy_log",
    "C77_copy_dangles",
    "C77_move_log",
    "C77_move_reset",
    "C77_copy_refuted",
    "C77_moved_solver_refuted"
   ],
   "note": "False of the code for copied and moved objects (findings, witnesses): floats_ keeps pointing to the vectors of the object that registered them, so a copy logs into the original, and a moved-to solver logs into the moved-from one; reading its own series back, or logging after the original is gone, is undefined. Proved: independence of objects that are neither copied nor moved (C77_independent). A moved-from map or vector is taken to be empty, as in libstdc++."
  },
  {
   "property": "C78",
   "status": "proved",
   "theorems": [
    "C78_inner",
    "C78_outer",
    "C78_inner_rows",
    "C78_outer_rows"
   ],
   "note": "Holds for every arithmetic. Each record is tied to the solver state after its iteration (describes, describes_outer in SolveLogSpec.v); what the calls put on the console is C72. The verbosity of an inner solver used on its own only matters from kInner = 3 on."
  },
  {
   "property": "C79",
   "status": "partial",
   "theorems": [
    "C79_built",
    "C79_ranges",
    "C79_follows",
    "C79_second_problem_refuted",
    "C79_assign_refuted",
    "C79_al_built",
    "C79_al_second_problem_refuted",
    "C79_move",
    "C79_moved",
    "C79_al_move_refuted",
    "C79_move_tasks_refuted",
    "C79_make_trajectory_refuted"
   ],
   "note": "False of the code in its last sentence (findings, witnesses): a second InitializeFromProblem on an iLQR solver is accepted and mixes the initial state of the new problem with the knot points of the old; on an augmented-Lagrangian solver it aborts in debug and half-updates in release; assigning to the problem replaces the initial state of the solver only; a moved augmented-Lagrangian solver reads the moved-from object in its callback (undefined); a move drops a custom task assignment; a trajectory made by MakeTrajectory cannot be solved (Zbar_ is null). Proved: construction, range copies, independence of everything but the initial state, iLQR moves, consistency of the augmented-Lagrangian solver."
  },
  {
   "property": "C80",
   "status": "partial",
   "theorems": [
    "C80_program",
    "C80_program_runs",
    "C80_solve",
    "C80_al",
    "C80_al_runs",
    "C80_exact",
    "C80_al_exact",
    "C80_float_debug",
    "C80_float_release",
    "C80_division_refuted"
   ],
   "note": "False of the code in a release build where the binary64 division of the segments misses the last knot point (finding, witness: 7 segments, 6 threads: the solve reports kSolved, returns the initial guess and has ignored the terminal cost, in every schedule; one thread solves it). Proved for all other divisions. Not in the model of a solve: exceptions out of launches and waits that give up on a task (C34 refuted case). Rests on C34-C36, C41."
  },
  {
   "property": "C81",
   "status": "partial",
   "theorems": [
    "C81_pools",
    "C81_once",
    "C81_wait",
    "C81_move_keeps",
    "C81_stopped",
    "C81_running",
    "C81_left",
    "C81_assign_refuted",
    "C81_assign_blocks"
   ],
   "note": "False of the code in its last sentence (findings, witnesses): pool = std::move(other) never returns, for any two pools in any reachable state (the queue assignment locks its own mutex and then calls Clear, which locks it again; it aborts if the target holds threads and is undefined if the target was moved from); the check against moving a running pool is an assertion, so in a release build the workers go on with the queue moved from (undefined). Add, NumTasks and Launch on a pool moved from are undefined. Rests on C40, C41."
  },
  {
   "property": "C82",
   "status": "partial",
   "theorems": [
    "C82_frechet",
    "C82_slope",
    "C82_line",
    "C82_descent",
    "C82_stationary",
    "C82_accept",
    "C82_regularised_refuted"
   ],
   "note": "The slope and the acceptance of small steps are proved for a backward pass with regularisation 0 and no restart; stationarity for any regularisation and number of restarts; for positive regularisation the slope is at most deltaV[0]+deltaV[1] <= 0 if the stored quadratic model is convex. False otherwise (finding, witness): with regularisation 1 on a non-convex model the recorded expected change is -2 while the true cost rises with slope +1 along the search direction, so no small step can be accepted. Exact reals; the gradient and Jacobian functions of the user are assumed right (C05, C51, C54, C55 prove it for those of the library)."
  },
  {
   "property": "C83",
   "status": "proved",
   "theorems": [
    "C83_smooth",
    "C83_setting",
    "C83_multipliers",
    "C83_kkt"
   ],
   "note": ""
  },
  {
   "property": "C84",
   "status": "proved",
   "theorems": [
    "C84_euler",
    "C84_rk4",
    "C84_cost",
    "C84_goal",
    "C84_bound",
    "C84_object",
    "C84_solve_keeps",
    "C84_after_solves",
    "C84_unicycle",
    "C84_unicycle_solve"
   ],
   "note": "Exact reals, exact sine and cosine. RungeKutta4 needs a Jacobian that does not depend on time (C51) and the circle constraint its default position indices (C53); the unicycle problem has both. Completion needs a valid regularisation range, as in C69."
  },
  {
   "property": "C85",
   "status": "proved",
   "theorems": [
    "C85_optimal",
    "C85_fixed",
    "C85_saddle",
    "C85_bound",
    "C85_closer"
   ],
   "note": "Exact reals. The statements are about exact inner solves (zero feedforward gains), not about tolerances; existence of optimal multipliers is not proved (C67-C70 do so for equality-constrained linear-quadratic problems). Rests on C83."
  },
  {
   "property": "C86",
   "status": "partial",
   "theorems": [
    "C86_evaluate",
    "C86_row",
    "C86_jacobian",
    "C86_jacobian_iff",
    "C86_jacobian_refuted",
    "C86_checked",
    "C86_sizes_refuted",
    "C86_hessian",
    "C86_hessian_refuted",
    "C86_check",
    "C86_check_hessian"
   ],
   "note": "False of the code (findings, witnesses): Jacobian maps jac.data() as contiguous memory, so on a row of a matrix with more than one row (jac.topRows(1)) derivatives land in other rows and entries of the row stay unwritten, in both builds (exactly the references with outer stride 1 or at most one column are right); the release build checks no size (writes out of range) and ignores b in Hessian. Proved: everything else. User functions are assumed to write all entries of the gradient."
  },
  {
   "property": "C87",
   "status": "partial",
   "theorems": [
    "C87_exact",
    "C87_float",
    "C87_dyadic",
    "C87_serial",
    "C87_float_refuted",
    "C87_zero_refuted",
    "C87_empty_refuted",
    "C87_negative_refuted"
   ],
   "note": "False of the code (findings, witnesses): the boundaries are accumulated in doubles, so for some sizes the last block is missing (16 items on nine threads, the benchmark on 18 hardware threads: items 14 and 15 are never done in parallel); no threads give no task (benchmark on one hardware thread); no items, or a negative number of threads, make the constructor loop for ever. Proved: exact arithmetic, all sizes with N / nthreads dyadic (all tests), and for all other sizes in doubles exactly which items are done. Wait is assumed not to time out."
  },
  {
   "property": "C88",
   "status": "partial",
   "theorems": [
    "C88_serial",
    "C88_parallel",
    "C88_none",
    "C88_lost_refuted"
   ],
   "note": "False of the code with several threads (finding, for every such run, with witness): the packaged_task keeps the exception in a future that Wait only waits for, so UpdateExpansions returns normally and the solve goes on; all knot points of the block behind the throwing one keep their old expansions and costs. Proved: the single-threaded part in full, and for several threads exactly what each knot point holds afterwards. Wait is assumed not to time out."
  },
  {
   "property": "C89",
   "status": "partial",
   "theorems": [
    "C89_serial",
    "C89_parallel",
    "C89_value",
    "C89_own_objects",
    "C89_euler",
    "C89_shared_refuted"
   ],
   "note": "Last clause false (finding, witness): two knot points of different tasks that hold the same RungeKutta4 model; one interruption after k1_ gives a wrong Jacobian. problem.hpp warns of it for the vector overload, nothing rejects it. Proved: the single-threaded case for every arrangement; equality with it for every schedule at statement granularity when no RungeKutta4 object is in two tasks; that one object per knot point, or ExplicitEuler, suffices."
  },
  {
   "property": "C90",
   "status": "partial",
   "theorems": [
    "C90_range",
    "C90_increase",
    "C90_decrease",
    "C90_backward",
    "C90_sweeps",
    "C90_solve",
    "C90_al_solve",
    "C90_zero_minimum_endless_refuted",
    "C90_zero_minimum_nan_refuted",
    "C90_zero_minimum_solve_refuted"
   ],
   "note": "False for bp_reg_min = 0 with bp_reg_initial = 0, its default (finding, two witnesses): 0 times the growing rate stays 0, so in exact arithmetic a solve with a control block that cannot be factorised never ends; in doubles the rate overflows, 0 * inf is NaN, the Cholesky factorisation accepts it (x <= 0 is false) and the backward pass ends unnoticed with NaN regularisation and gains. Proved for bp_reg_min > 0: everything stated, for every problem in IEEE doubles."
  }
 ]
}