{"id": "C01", "title": "Cone projections are Euclidean projections", "statement": "The projection a constraint type provides maps any vector to a member of its cone, leaves members unchanged, and no member of the cone is nearer to the input than the returned point. For the dual cone of an inequality constraint the same holds (self-dual), for an equality constraint the dual projection is the identity.", "quantifier": "every dimension, every real vector, every competitor point of the cone", "why_tests_cant": "a test samples vectors; nearest-point is a statement over all competitors", "anchors": [{"file": "altro/constraints/constraint.hpp", "symbols": ["ZeroCone", "IdentityCone", "NegativeOrthant"]}]}
{"id": "C02", "title": "Inequality multipliers never leave the dual cone", "statement": "Starting from a freshly built constraint-values object, after any sequence of cost, gradient, Hessian evaluations, penalty changes, penalty updates, dual resets and dual updates, every stored inequality multiplier is non-positive and is never NaN, in IEEE double arithmetic and whatever the user's constraint function returned (including NaN and infinities).", "quantifier": "every finite history of public operations, every constraint function output, every double", "why_tests_cant": "histories and NaN-producing constraint values are unbounded", "anchors": [{"file": "altro/constraints/constraint_values.hpp", "symbols": ["UpdateDuals", "ResetDualVariables", "AugLag", "AugLagGradient"]}, {"file": "altro/constraints/constraint.hpp", "symbols": ["NegativeOrthant"]}]}
{"id": "C03", "title": "Dual-update fixed points are exactly the KKT points", "statement": "With positive penalties, a dual update leaves the multipliers unchanged if and only if the stored constraint value is feasible, the multiplier is in the dual cone and complementary slackness holds (for equalities: if and only if the constraint value is zero).", "quantifier": "every dimension, constraint value, multiplier and positive penalty vector", "why_tests_cant": "equivalence over a continuum", "anchors": [{"file": "altro/constraints/constraint_values.hpp", "symbols": ["UpdateDuals"]}]}
{"id": "C04", "title": "Augmented Lagrangian value is the textbook formula", "statement": "For a positive uniform penalty rho the value the constraint term adds to the cost is, for equalities, -lambda.c + rho/2 |c|^2, and for inequalities the Powell-Hestenes-Rockafellar term sum over components of (max(0, mu_i + rho c_i)^2 - mu_i^2)/(2 rho) with mu = -lambda. In particular it is zero on feasible equality values, and at a feasible inequality value with admissible multipliers it never exceeds zero.", "quantifier": "every dimension, constraint value, multiplier, rho > 0", "why_tests_cant": "continuum of inputs", "anchors": [{"file": "altro/constraints/constraint_values.hpp", "symbols": ["AugLag"]}]}
{"id": "C05", "title": "Augmented Lagrangian gradient is the true derivative", "statement": "If the user's constraint Jacobian is the derivative of the user's constraint function at a point, then the state and control gradients returned for the constraint term are the exact partial derivatives of the augmented Lagrangian value at that point, including at points where an inequality switches between active and inactive.", "quantifier": "every constraint function, point, multiplier, rho > 0", "why_tests_cant": "tests compare with finite differences at a few smooth points, not at the switching surface", "anchors": [{"file": "altro/constraints/constraint_values.hpp", "symbols": ["AugLagGradient", "AugLag"]}]}
{"id": "C06", "title": "Augmented Lagrangian Hessian blocks are a symmetric positive semidefinite Gauss-Newton matrix", "statement": "The three Hessian blocks returned for a constraint term are the blocks of rho (P J)'(P J) with J the full Jacobian and P the active-set mask: the state and control blocks are symmetric, the whole block matrix is positive semidefinite, and a request for a full Newton Hessian throws.", "quantifier": "every Jacobian, constraint value, multiplier, rho >= 0, direction", "why_tests_cant": "for-all-directions quadratic form", "anchors": [{"file": "altro/constraints/constraint_values.hpp", "symbols": ["AugLagHessian"]}]}
{"id": "C07", "title": "Constraint expansions do not depend on call history", "statement": "The augmented Lagrangian gradient and Hessian at (x,u) depend only on the user's functions, x, u, the multipliers and the penalties. No earlier evaluation, at any other point, can leak through the reused projection-Jacobian storage.", "quantifier": "every finite history of evaluations", "why_tests_cant": "leak would need a particular earlier call", "anchors": [{"file": "altro/constraints/constraint_values.hpp", "symbols": ["AugLagGradient", "AugLagHessian"]}, {"file": "altro/constraints/constraint.hpp", "symbols": ["NegativeOrthant", "Jacobian"]}]}
{"id": "C08", "title": "Maximum violation measures distance to feasibility", "statement": "The maximum violation reported over a trajectory is non-negative, is zero if and only if every stored constraint value is feasible, and is below a tolerance tol > 0 if and only if every equality component lies strictly within (-tol,tol) and every inequality component is below tol.", "quantifier": "every number of knot points, constraints, dimensions and values", "why_tests_cant": "the max is over unbounded families", "anchors": [{"file": "altro/constraints/constraint_values.hpp", "symbols": ["MaxViolation", "GetViolation"]}, {"file": "altro/augmented_lagrangian/al_cost.hpp", "symbols": ["MaxViolation"]}, {"file": "altro/augmented_lagrangian/al_solver.hpp", "symbols": ["GetMaxViolation", "MaxViolation"]}]}
{"id": "C09", "title": "Penalties grow geometrically and uniformly", "statement": "After SetPenalty(rho), SetPenaltyScaling(phi) and any number j of penalty updates interleaved with any evaluations and dual updates, every entry of the penalty vector equals rho*phi^j, so all entries of one constraint agree (the value used by the cost term is the value used by the dual update), penalties never decrease when phi >= 1, and the reported maximum penalty is the largest over the solver.", "quantifier": "every j, rho, phi, interleaving", "why_tests_cant": "unbounded histories", "anchors": [{"file": "altro/constraints/constraint_values.hpp", "symbols": ["SetPenalty", "UpdatePenalties", "MaxPenalty"]}, {"file": "altro/augmented_lagrangian/al_cost.hpp", "symbols": ["UpdatePenalties", "MaxPenalty"]}, {"file": "altro/augmented_lagrangian/al_solver.hpp", "symbols": ["UpdatePenalties", "GetMaxPenalty"]}]}
{"id": "C10", "title": "Accepted penalty values give a defined cost", "statement": "Every penalty value that SetPenalty accepts (its check admits rho = 0) yields a cost term that is a number.", "quantifier": "every accepted penalty", "why_tests_cant": "tests never use the boundary value 0", "anchors": [{"file": "altro/constraints/constraint_values.hpp", "symbols": ["SetPenalty", "AugLag"]}]}
{"id": "C11", "title": "AL cost is the user's cost plus its constraint terms", "statement": "The augmented cost, its gradient and its Hessian at a knot point are the user's cost, gradient and Hessian plus the sum of the corresponding terms of all equality and inequality constraints of that knot point; without constraints they are exactly the user's.", "quantifier": "every number of constraints, every user function, every arithmetic", "why_tests_cant": "list of constraints unbounded", "anchors": [{"file": "altro/augmented_lagrangian/al_cost.hpp", "symbols": ["Evaluate", "Gradient", "Hessian"]}]}
{"id": "C12", "title": "Constraints move from the problem into the AL costs without loss", "statement": "Converting a fully defined problem keeps the number of segments, dynamics, and (shared) initial state; the converted problem has no constraints; cost k wraps user cost k and exactly the constraints attached at k, in order; hence the solver's constraint count equals the problem's.", "quantifier": "every problem", "why_tests_cant": "every N and constraint layout", "anchors": [{"file": "altro/augmented_lagrangian/al_problem.hpp", "symbols": ["BuildAugLagProblem"]}, {"file": "altro/augmented_lagrangian/al_cost.hpp", "symbols": ["ALCost", "NumConstraints"]}, {"file": "altro/augmented_lagrangian/al_solver.hpp", "symbols": ["NumConstraints", "InitializeFromProblem"]}, {"file": "altro/problem/problem.hpp", "symbols": ["NumConstraints", "SetConstraint"]}]}
{"id": "C13", "title": "Meaning of the AL solver's final status", "statement": "When the AL solver returns from a solve that ran at least one outer iteration: status solved means the last inner solve converged and the last recorded violation is below the constraint tolerance; max-penalty, max-outer and max-total statuses mean exactly that the corresponding limit was hit and no earlier test applied; any other status is the inner solver's own. The status is never 'unsolved' when at least one inner iteration is allowed.", "quantifier": "every problem, options, trajectory, arithmetic (including NaN)", "why_tests_cant": "all executions", "anchors": [{"file": "altro/augmented_lagrangian/al_solver.hpp", "symbols": ["Solve", "IsDone", "UpdateConvergenceStatistics"]}]}
{"id": "C14", "title": "AL solver iteration limits are hard limits", "statement": "A solve performs at most max_iterations_outer outer iterations and, when at least one is allowed, at most max_iterations_total inner iterations in total, and no inner solve performs more than max_iterations_inner.", "quantifier": "every problem, options, arithmetic", "why_tests_cant": "all executions", "anchors": [{"file": "altro/augmented_lagrangian/al_solver.hpp", "symbols": ["Solve", "IsDone"]}, {"file": "altro/ilqr/ilqr.hpp", "symbols": ["Solve", "IsDone"]}]}
{"id": "C15", "title": "A solved status certifies the returned trajectory", "statement": "If the AL solver reports solved, the trajectory it returns violates no constraint by the constraint tolerance or more.", "quantifier": "every problem and options", "why_tests_cant": "needs a run whose last line search is rejected, or an inner solve stopped by a limit", "anchors": [{"file": "altro/augmented_lagrangian/al_solver.hpp", "symbols": ["IsDone", "UpdateConvergenceStatistics", "GetMaxViolation"]}, {"file": "altro/ilqr/ilqr.hpp", "symbols": ["ForwardPass"]}]}
{"id": "C16", "title": "Constraint report is complete and sorted", "statement": "GetConstraintInfo returns exactly one record per constraint of every knot point, with the right knot-point index and violation; with sorting requested the same records are returned with non-increasing infinity norm.", "quantifier": "every constraint layout and every stored values", "why_tests_cant": "unbounded layouts", "anchors": [{"file": "altro/augmented_lagrangian/al_solver.hpp", "symbols": ["GetConstraintInfo"]}, {"file": "altro/augmented_lagrangian/al_cost.hpp", "symbols": ["GetConstraintInfo"]}]}
{"id": "C17", "title": "Returned trajectories are dynamically feasible", "statement": "After a rollout or any number of iLQR iterations (accepted or rejected, whatever the options, costs and gains, in any arithmetic) the solver's trajectory starts at the problem's initial state and each state is the discrete dynamics applied to the previous state, control, time and step.", "quantifier": "every problem, options, initial guess, iteration count, arithmetic", "why_tests_cant": "all executions", "anchors": [{"file": "altro/ilqr/ilqr.hpp", "symbols": ["Rollout", "RolloutClosedLoop", "ForwardPass", "Solve", "SolveSetup"]}]}
{"id": "C18", "title": "iLQR never accepts a cost increase", "statement": "Each accepted line-search step strictly decreases the total cost, so the cost of the trajectory after a solve is at most the cost of the initial rollout, and strictly less if any step was accepted; a candidate with NaN cost is never accepted.", "quantifier": "every problem, options, iteration count", "why_tests_cant": "all executions, NaN", "anchors": [{"file": "altro/ilqr/ilqr.hpp", "symbols": ["ForwardPass", "Solve", "Cost"]}]}
{"id": "C19", "title": "A failed line search leaves the trajectory untouched", "statement": "If no candidate step is accepted, the states, controls, times and steps of the trajectory are exactly those before the forward pass, and the recorded cost is not overwritten.", "quantifier": "every problem, options, arithmetic", "why_tests_cant": "all executions", "anchors": [{"file": "altro/ilqr/ilqr.hpp", "symbols": ["ForwardPass"]}]}
{"id": "C20", "title": "iLQR loop bound and final status", "statement": "An iLQR solve runs at most max_iterations_inner iterations and, if at least one is allowed, returns with a status other than 'unsolved'. The cost-increase status is never produced.", "quantifier": "every problem, options, arithmetic", "why_tests_cant": "all executions", "anchors": [{"file": "altro/ilqr/ilqr.hpp", "symbols": ["Solve", "IsDone", "ForwardPass", "RolloutClosedLoop"]}]}
{"id": "C21", "title": "Meaning of the iLQR solved status", "statement": "iLQR reports solved only if in its last iteration the recorded cost decrease was below the cost tolerance and the recorded average normalised feedforward gain was below the gradient tolerance; if the last line search was accepted the recorded decrease is the difference of the two last trajectory costs.", "quantifier": "every problem, options, arithmetic", "why_tests_cant": "all executions", "anchors": [{"file": "altro/ilqr/ilqr.hpp", "symbols": ["IsDone", "UpdateConvergenceStatistics", "NormalizedFeedforwardGain"]}]}
{"id": "C22", "title": "Regularisation stays in its configured range", "statement": "After any sequence of increases and decreases the regularisation lies in [bp_reg_min, bp_reg_max], increases never lower it, and decreases never raise it above max(current, minimum).", "quantifier": "every option values with factor > 1 and min <= max, every finite history", "why_tests_cant": "unbounded histories", "anchors": [{"file": "altro/ilqr/ilqr.hpp", "symbols": ["IncreaseRegularization", "DecreaseRegularization"]}]}
{"id": "C23", "title": "The backward pass terminates", "statement": "For regularisation options with factor > 1, 0 < min <= max and any failure threshold, the backward pass ends after finitely many restarts whatever the expansions are.", "quantifier": "every expansions, every option values", "why_tests_cant": "termination for all inputs; without min > 0 the claim fails", "anchors": [{"file": "altro/ilqr/ilqr.hpp", "symbols": ["BackwardPass", "IncreaseRegularization"]}]}
{"id": "C24", "title": "Regularisation failure is reported", "statement": "If the backward pass gives up because the regularisation limit was reached too often, the solve ends with the backward-pass-failed status.", "quantifier": "every problem and options", "why_tests_cant": "needs an indefinite problem with a benign rollout", "anchors": [{"file": "altro/ilqr/ilqr.hpp", "symbols": ["BackwardPass", "RolloutClosedLoop", "ForwardPass", "Solve"]}]}
{"id": "C25", "title": "Expected decrease used by the line search is that of the computed policy", "statement": "After a successful backward pass the two accumulated expected-change coefficients are the sums over knot points of the per-step terms of the final gains.", "quantifier": "every problem including those that need regularisation restarts", "why_tests_cant": "needs a restart part-way through the horizon", "anchors": [{"file": "altro/ilqr/ilqr.hpp", "symbols": ["BackwardPass"]}, {"file": "altro/ilqr/knot_point_function_type.hpp", "symbols": ["CalcCostToGo", "GetCostToGoDelta"]}]}
{"id": "C26", "title": "Backward-pass gains minimise the quadratic model", "statement": "With zero regularisation and symmetric blocks, the computed gains give for every state deviation the unique minimiser over controls of the action-value model at that knot point.", "quantifier": "every dimension, expansions with positive definite control block, deviations, competing controls", "why_tests_cant": "competitors are a continuum", "anchors": [{"file": "altro/ilqr/knot_point_function_type.hpp", "symbols": ["CalcGains", "CalcActionValueExpansion"]}]}
{"id": "C27", "title": "Cost-to-go is the exact cost of the policy on the quadratic model", "statement": "For any regularisation, the cost-to-go quadratic stored at knot point k equals, for every deviation at k, the model cost of following the computed affine policy from k to the end, up to the accumulated expected change.", "quantifier": "every horizon, dimension, expansions, deviations", "why_tests_cant": "induction over the horizon", "anchors": [{"file": "altro/ilqr/knot_point_function_type.hpp", "symbols": ["CalcCostToGo", "CalcTerminalCostToGo", "CalcActionValueExpansion"]}, {"file": "altro/ilqr/ilqr.hpp", "symbols": ["BackwardPass"]}]}
{"id": "C28", "title": "The computed step is a descent direction", "statement": "Whenever the factorisation succeeds for a symmetric control block with regularisation rho >= 0, the expected decrease at step length 0 < alpha <= 1 is non-negative, and is zero only if every feedforward gain is zero.", "quantifier": "every horizon, expansions, rho >= 0, alpha", "why_tests_cant": "continuum", "anchors": [{"file": "altro/ilqr/knot_point_function_type.hpp", "symbols": ["CalcGains", "CalcCostToGo"]}, {"file": "altro/ilqr/ilqr.hpp", "symbols": ["ForwardPass"]}]}
{"id": "C29", "title": "Symmetry and convexity survive the backward pass", "statement": "If all cost Hessian blocks are symmetric then every cost-to-go Hessian is symmetric; if additionally each stage model is convex with positive definite control block, every factorisation succeeds at the first attempt and every cost-to-go Hessian is positive semidefinite.", "quantifier": "every horizon, dimension, expansions", "why_tests_cant": "induction over the horizon", "anchors": [{"file": "altro/ilqr/knot_point_function_type.hpp", "symbols": ["CalcActionValueExpansion", "CalcGains", "CalcCostToGo"]}, {"file": "altro/ilqr/ilqr.hpp", "symbols": ["BackwardPass"]}]}
{"id": "C30", "title": "Cholesky accepts exactly the positive definite matrices and solves exactly", "statement": "The factorisation used for the gains succeeds on a symmetric matrix if and only if it is positive definite, and then the solve returns the exact solution of the linear system (in exact arithmetic); it never reads the upper triangle.", "quantifier": "every dimension and symmetric matrix", "why_tests_cant": "all matrices", "anchors": [{"file": "altro/ilqr/knot_point_function_type.hpp", "symbols": ["CalcGains"]}]}
{"id": "C31", "title": "Linear-quadratic problems are solved to the global optimum in one iteration", "statement": "For linear dynamics and convex quadratic costs with positive definite control weights and no active limits, one iLQR iteration with zero regularisation accepts the full step and yields a trajectory whose cost is no larger than that of any other dynamically feasible trajectory from the same initial state.", "quantifier": "every horizon, dimension, LQ data, initial guess, competitor", "why_tests_cant": "global optimality over all competitors", "anchors": [{"file": "altro/ilqr/ilqr.hpp", "symbols": ["UpdateExpansions", "BackwardPass", "ForwardPass", "RolloutClosedLoop"]}, {"file": "altro/ilqr/knot_point_function_type.hpp", "symbols": ["CalcGains"]}]}
{"id": "C32", "title": "Accepted trajectories respect the state and control limits", "statement": "Every trajectory accepted by the line search has, at every knot point after the first, state norm at most state_max and, at every segment, control norm at most control_max; candidates violating a limit are rejected with the corresponding status.", "quantifier": "every problem, options, arithmetic without NaN", "why_tests_cant": "all executions", "anchors": [{"file": "altro/ilqr/ilqr.hpp", "symbols": ["RolloutClosedLoop", "ForwardPass"]}]}
{"id": "C33", "title": "Consecutive solves are independent", "statement": "Calling iLQR Solve again with the same trajectory guess and options behaves like the first call.", "quantifier": "every problem and options", "why_tests_cant": "needs the cumulative iteration counter to reach its limit", "anchors": [{"file": "altro/ilqr/ilqr.hpp", "symbols": ["Solve", "SolveSetup", "ResetInternalVariables"]}, {"file": "altro/common/solver_stats.cpp", "symbols": ["Reset"]}]}
{"id": "C34", "title": "Parallel expansions equal serial expansions for every schedule", "statement": "For any task assignment that starts at 0, ends at N+1 and is non-decreasing, and for any interleaving of the tasks by the worker threads, the expansions and costs after an update equal those of the single-threaded update.", "quantifier": "every N, assignment, interleaving, per-knot-point user functions", "why_tests_cant": "schedules are unbounded", "anchors": [{"file": "altro/ilqr/ilqr.hpp", "symbols": ["UpdateExpansions", "UpdateExpansionsBlock", "LaunchThreads"]}]}
{"id": "C35", "title": "Default task assignment partitions the knot points", "statement": "The default assignment produces ntasks+1 non-decreasing boundaries from 0 to N+1, so each knot point is processed exactly once, for every number of knot points and tasks.", "quantifier": "every N >= 1 and ntasks >= 1, IEEE double accumulation", "why_tests_cant": "rounding failures occur only for particular pairs", "anchors": [{"file": "altro/ilqr/ilqr.hpp", "symbols": ["DefaultTaskAssignment"]}]}
{"id": "C36", "title": "Custom task assignments are validated and used", "statement": "SetTaskAssignment accepts only strictly increasing boundaries that cover all knot points, and the next solve uses them.", "quantifier": "every index vector and every earlier solver history", "why_tests_cant": "needs particular histories", "anchors": [{"file": "altro/ilqr/ilqr.hpp", "symbols": ["SetTaskAssignment", "LaunchThreads", "ShouldRedoTaskAssignment", "GetTaskAssignment"]}]}
{"id": "C37", "title": "Thread-count option is normalised", "statement": "NumThreads is at least 1 for every value of nthreads other than the hardware setting, equals nthreads when that is positive, and equals the reported hardware concurrency for the hardware setting.", "quantifier": "every int", "why_tests_cant": "all option values", "anchors": [{"file": "altro/common/solver_options.hpp", "symbols": ["NumThreads"]}]}
{"id": "C38", "title": "Thread-safe queue is a linearizable FIFO", "statement": "Under any number of threads and any interleaving of pushes and non-blocking pops, the successful pops return exactly the pushed elements in the order in which the pushes took effect, each at most once, a pop fails only when the queue was empty at some moment during the call, and no step dereferences an absent node or element.", "quantifier": "every number of threads, every program of pushes and pops, every interleaving", "why_tests_cant": "schedules are unbounded", "anchors": [{"file": "altro/common/threadsafe_queue.hpp", "symbols": ["Push", "TryPop", "PopHead", "TryPopHead", "GetTail"]}]}
{"id": "C39", "title": "Queue size is the number of elements", "statement": "Size() returns the number of elements in the queue.", "quantifier": "every interleaving", "why_tests_cant": "race window is tiny", "anchors": [{"file": "altro/common/threadsafe_queue.hpp", "symbols": ["Push", "TryPop", "Size"]}]}
{"id": "C40", "title": "Clearing a queue empties it", "statement": "Clear() and move-assignment return with the old content removed.", "quantifier": "every queue content", "why_tests_cant": "no test calls Clear or move assignment on a queue", "anchors": [{"file": "altro/common/threadsafe_queue.hpp", "symbols": ["Clear", "IsEmpty", "operator="]}]}
{"id": "C41", "title": "Thread pool runs every task exactly once and Wait waits for all", "statement": "Under every interleaving, each added task is executed at most once and never before it was added; when Wait returns without a timeout every task added before it has finished; when the threads are stopped every task is either finished or still queued.", "quantifier": "every number of threads, tasks, interleavings", "why_tests_cant": "schedules are unbounded", "anchors": [{"file": "altro/common/threadpool.hpp", "symbols": ["AddTask"]}, {"file": "altro/common/threadpool.cpp", "symbols": ["Wait", "LaunchThreads", "StopThreads"]}, {"file": "altro/common/threadpool.hpp", "symbols": ["ThreadPool"]}]}
{"id": "C42", "title": "Solver statistics record the last value of each iteration", "statement": "After any sequence of Log, NewIteration and Reset calls every recorded series has one entry per iteration, and entry i is the last value logged for that series up to the end of iteration i (0 if none since the reset). Logging an unregistered or non-floating series leaves all series unchanged.", "quantifier": "every sequence of operations", "why_tests_cant": "unbounded histories", "anchors": [{"file": "altro/common/solver_stats.hpp", "symbols": ["Log", "SetData"]}, {"file": "altro/common/solver_stats.cpp", "symbols": ["NewIteration", "Reset"]}]}
{"id": "C43", "title": "Log output follows verbosity and header frequency", "statement": "At the silent level nothing is printed; at any level exactly the columns whose level does not exceed the verbosity are active, in registration order; with frequency f > 0 a header precedes prints 0, f, 2f, ... since the last explicit header.", "quantifier": "every sequence of prints, every columns, every f", "why_tests_cant": "unbounded histories; f = 0 is accepted but divides by zero", "anchors": [{"file": "altro/common/solver_logger.cpp", "symbols": ["Print", "PrintHeader", "PrintData"]}, {"file": "altro/common/solver_logger.hpp", "symbols": ["SetLevel", "AddEntry"]}, {"file": "altro/common/solver_logger.hpp", "symbols": ["SetFrequency"]}]}
{"id": "C44", "title": "Timer nesting and accumulation", "statement": "For any well-nested use of stopwatches the path name of each record is the '/'-join of the open names, the recorded time of a path is the sum of the durations measured under that path, and after all stopwatches are destroyed no name is left open. While inactive nothing is recorded.", "quantifier": "every nesting, names, durations", "why_tests_cant": "unbounded programs", "anchors": [{"file": "altro/common/timer.cpp", "symbols": ["Start"]}, {"file": "altro/common/timer.hpp", "symbols": ["Timer", "Stopwatch"]}]}
{"id": "C45", "title": "Profile tree parents are path parents", "statement": "In the printed summary each entry's parent is the entry whose path is obtained by dropping the last component, and the total is the sum of the top-level times.", "quantifier": "every set of recorded paths", "why_tests_cant": "depends on the byte order of arbitrary names", "anchors": [{"file": "altro/common/timer.cpp", "symbols": ["PrintSummary"]}, {"file": "altro/common/profile_entry.cpp", "symbols": ["split"]}]}
{"id": "C46", "title": "Profile percentages are well defined", "statement": "The percentages of total and of parent are computed without integer overflow and lie between 0 and 100 for nested times.", "quantifier": "every times", "why_tests_cant": "overflow needs more than 21 seconds of profiled time", "anchors": [{"file": "altro/common/profile_entry.cpp", "symbols": ["CalcStats"]}]}
{"id": "C47", "title": "Uniform time steps give a consistent trajectory", "statement": "After SetUniformStep(h), the times are k*h, all steps but the last equal h, the last is 0, and CheckTimeConsistency returns true.", "quantifier": "every N and h, exact and IEEE single arithmetic", "why_tests_cant": "rounding needs long horizons", "anchors": [{"file": "altro/common/trajectory.hpp", "symbols": ["SetUniformStep", "CheckTimeConsistency", "Trajectory"]}]}
{"id": "C48", "title": "IsFullyDefined decides completeness", "statement": "IsFullyDefined returns true exactly when every segment has dynamics, every knot point has a cost function, the initial state is set and its dimension matches; it returns false (rather than crashing) otherwise, after any sequence of setter calls.", "quantifier": "every N and sequence of setter calls", "why_tests_cant": "all histories", "anchors": [{"file": "altro/problem/problem.cpp", "symbols": ["IsFullyDefined"]}, {"file": "altro/problem/problem.hpp", "symbols": ["SetDynamics", "SetCostFunction", "SetInitialState"]}]}
{"id": "C49", "title": "Copying a problem preserves it", "statement": "A copy or move of a problem has the same number of segments, costs, dynamics, constraints and initial state as the original.", "quantifier": "every problem", "why_tests_cant": "uninitialised member is usually hidden by stack garbage", "anchors": [{"file": "altro/problem/problem.hpp", "symbols": ["Problem", "operator=", "NumSegments"]}]}
{"id": "C50", "title": "Integrators compute the documented schemes", "statement": "The explicit Euler and RK4 steps equal the documented Butcher schemes; RK4 is exact for right-hand sides that are polynomials of degree at most 3 in time and reproduces the exact flow of the triple integrator; for linear dynamics it equals the degree-4 Taylor polynomial of the exponential.", "quantifier": "every dynamics, state, control, time, step", "why_tests_cant": "continuum", "anchors": [{"file": "altro/problem/integration.hpp", "symbols": ["ExplicitEuler", "RungeKutta4"]}, {"file": "examples/triple_integrator.cpp", "symbols": ["TripleIntegrator"]}]}
{"id": "C51", "title": "Integrator Jacobians are derivatives of the integrator step", "statement": "If the continuous dynamics Jacobian is the derivative of the dynamics then the Jacobian returned by the discretised model is the derivative of the discrete step with respect to state and control.", "quantifier": "every differentiable dynamics including time-varying ones, every state, control, time, step", "why_tests_cant": "time-varying dynamics are not tested", "anchors": [{"file": "altro/problem/integration.hpp", "symbols": ["ExplicitEuler", "Jacobian", "RungeKutta4"]}, {"file": "altro/problem/discretized_model.hpp", "symbols": ["DiscretizedModel"]}]}
{"id": "C52", "title": "Control bound constraint means the bounds hold", "statement": "The control-bound constraint value is feasible if and only if every control is within its finite bounds; components with infinite bounds are unconstrained; its output dimension is the number of finite bounds; its Jacobian is its derivative.", "quantifier": "every bound vectors and controls", "why_tests_cant": "all finite/infinite patterns", "anchors": [{"file": "examples/basic_constraints.hpp", "symbols": ["ControlBound"]}]}
{"id": "C53", "title": "Goal and circle constraints mean what they say", "statement": "The goal constraint is feasible exactly at the goal; the circle constraint is feasible exactly outside all circles, for the chosen position indices; their Jacobians are the derivatives of the values.", "quantifier": "every goal, circles, indices, states", "why_tests_cant": "index choices are not tested with Jacobians", "anchors": [{"file": "examples/basic_constraints.hpp", "symbols": ["GoalConstraint"]}, {"file": "examples/obstacle_constraints.hpp", "symbols": ["Circle", "CircleConstraint"]}]}
{"id": "C54", "title": "Quadratic cost derivatives and LQR form", "statement": "Gradient and Hessian of the quadratic cost are the first and second derivatives of its value (symmetric weights); the LQR constructor gives 1/2 (x-xref)'Q(x-xref) + 1/2 (u-uref)'R(u-uref); the joint Hessian handed to derivative checks is the full symmetric Hessian.", "quantifier": "every dimension, weights, points", "why_tests_cant": "continuum; cross terms are never tested", "anchors": [{"file": "examples/quadratic_cost.hpp", "symbols": ["QuadraticCost"]}, {"file": "examples/quadratic_cost.cpp", "symbols": ["Evaluate", "Gradient", "Hessian"]}, {"file": "altro/problem/costfunction.hpp", "symbols": ["CostFunction", "Hessian"]}]}
{"id": "C55", "title": "Example dynamics Jacobians are derivatives", "statement": "The unicycle and triple integrator Jacobians (and the unicycle Hessian) equal the partial derivatives of the dynamics at every state and control when written into zeroed storage.", "quantifier": "every state, control", "why_tests_cant": "tests sample random points", "anchors": [{"file": "examples/unicycle.cpp", "symbols": ["Unicycle"]}, {"file": "examples/triple_integrator.cpp", "symbols": ["TripleIntegrator"]}]}
{"id": "C56", "title": "Finite differences are exact where they should be", "statement": "The forward-difference Jacobian is exact on affine functions and the central one on quadratics, for every step size; every column perturbs exactly its own coordinate.", "quantifier": "every dimension, function in the class, point, eps <> 0", "why_tests_cant": "for-all functions", "anchors": [{"file": "altro/utils/derivative_checker.hpp", "symbols": ["FiniteDiffJacobian", "FiniteDiffGradient", "FiniteDiffHessian"]}]}
{"id": "C57", "title": "Benchmark statistics", "statement": "For any non-empty list of times the reported minimum and maximum are the least and greatest, the median splits the sorted list, the mean is total over count, and the input order does not matter.", "quantifier": "every non-empty list", "why_tests_cant": "all lists", "anchors": [{"file": "altro/utils/benchmarking.hpp", "symbols": ["Calculate"]}]}
{"id": "C58", "title": "Discretised model Hessian", "statement": "A discretised model that reports HasHessian provides the second-order information of the FunctionBase contract: the derivative of the product of its transposed Jacobian with a vector b.", "quantifier": "every continuous model with a Hessian, every state, control, time, step and b", "why_tests_cant": "the discretised Hessian is never called in the tests", "anchors": [{"file": "altro/problem/discretized_model.hpp", "symbols": ["DiscretizedModel", "Hessian", "HasHessian"]}, {"file": "altro/common/functionbase.hpp", "symbols": ["FunctionBase"]}]}
{"id": "C59", "title": "Line search tries 1, 1/g, 1/g^2, ... and takes the first acceptable step", "statement": "The forward pass tries the steps 1, 1/g, 1/g^2, ... (g the decrease factor) in order, at most line_search_max_iterations of them, and stores the closed-loop simulation u' = u + K(x'-x) + alpha d for the first step whose simulation stays within the limits and whose actual decrease is within the allowed ratio of the expected one; cost, step and ratio are recorded; if every step is turned down the trajectory is unchanged.", "quantifier": "every problem, gains, options and state of the solver", "why_tests_cant": "all data-dependent sequences of rejections", "anchors": [{"file": "altro/ilqr/ilqr.hpp", "symbols": ["ForwardPass", "RolloutClosedLoop"]}]}
{"id": "C60", "title": "A solve always completes", "statement": "Solve on a solver with a full problem, a set initial state and an allocated trajectory of matching length returns: it does not abort, throw, read out of range or run forever, whatever the dynamics, costs and initial guess, for regularisation options with factor > 1 and 0 < minimum <= maximum.", "quantifier": "every problem, options in the stated range, initial guess, solver history", "why_tests_cant": "termination for all inputs", "anchors": [{"file": "altro/ilqr/ilqr.hpp", "symbols": ["Solve", "BackwardPass", "ForwardPass", "IsDone"]}, {"file": "altro/common/solver_stats.hpp", "symbols": ["SolverStats"]}]}
{"id": "C61", "title": "Triple integrator problem holds what its object says", "statement": "MakeProblem of the triple integrator returns, for every number of degrees of freedom and every setting of the object, a fully defined problem with N segments: each step is the exact motion under constant jerk, the running cost is 1/2 (x-xf)'Q(x-xf) + 1/2 (u-uref)'R(u-uref), the terminal cost 1/2 (x-xf)'Qf(x-xf); with constraints, a running point is feasible iff |u_i| <= ubnd_i and the terminal one iff x = xf, and N*2*dof + 3*dof constraint rows are reported.", "quantifier": "every dof >= 1, weights, bounds, goal, initial state, N and step", "why_tests_cant": "parametric in dof and the horizon; tests use dof 1 and 2", "anchors": [{"file": "examples/problems/triple_integrator.hpp", "symbols": ["MakeProblem", "TripleIntegratorProblem"]}, {"file": "examples/quadratic_cost.hpp", "symbols": ["LQRCost"]}]}
{"id": "C62", "title": "Triple integrator problem is a function of its object", "statement": "Two calls of MakeProblem on triple integrator objects with the same settings give problems with the same costs, dynamics and constraints.", "quantifier": "every setting and every content of uninitialised memory", "why_tests_cant": "what uninitialised memory holds cannot be enumerated", "anchors": [{"file": "examples/problems/triple_integrator.hpp", "symbols": ["uref", "MakeProblem"]}]}
{"id": "C63", "title": "Unicycle problem holds what its scenario says", "statement": "MakeProblem of the unicycle returns, for both scenarios and every reuse of the object, a fully defined problem: quadratic costs with weights scaled by the time step, the obstacle scenario requires positions outside three discs at the knot points 1..N-1, control bounds and goal are required iff constraints are asked for, the number of rows is as expected, and the problem without constraints is unconstrained.", "quantifier": "every object state, horizon and sequence of SetScenario and MakeProblem", "why_tests_cant": "all horizons and reuse histories", "anchors": [{"file": "examples/problems/unicycle.cpp", "symbols": ["MakeProblem"]}, {"file": "examples/problems/unicycle.hpp", "symbols": ["UnicycleProblem", "SetScenario"]}]}
{"id": "C64", "title": "Unicycle initial trajectory fits the scenario", "statement": "InitialTrajectory has N+1 points with step tf/N, ends at the final time tf of the chosen scenario, and has the scenario's initial control at all running points; a scenario's settings do not depend on scenarios chosen earlier.", "quantifier": "every object state, horizon and sequence of SetScenario and MakeProblem", "why_tests_cant": "all horizons and reuse histories", "anchors": [{"file": "examples/problems/unicycle.hpp", "symbols": ["InitialTrajectory", "GetTimeStep", "SetScenario"]}, {"file": "examples/problems/unicycle.cpp", "symbols": ["MakeProblem"]}]}
{"id": "C65", "title": "iLQR finds the global optimum of the triple integrator problem", "statement": "Building a solver from the triple integrator problem and solving returns, and the trajectory it leaves obeys the triple integrator motion from the initial state and has the least cost of all such trajectories.", "quantifier": "every dof >= 1, weights (Q, Qf semidefinite, R definite), horizon, goal, start, starting trajectory and options in the stated range", "why_tests_cant": "optimality over all trajectories", "anchors": [{"file": "examples/problems/triple_integrator.hpp", "symbols": ["MakeProblem"]}, {"file": "altro/ilqr/ilqr.hpp", "symbols": ["InitializeFromProblem", "Solve"]}]}
{"id": "C66", "title": "Unicycle solver factories give solvers ready to solve", "statement": "MakeSolver and MakeALSolver return solvers with the problem's horizon, initial state and dynamics whose trajectory is the rollout of the scenario's initial control with step tf/N.", "quantifier": "every object state, horizon and scenario", "why_tests_cant": "all horizons", "anchors": [{"file": "examples/problems/unicycle.hpp", "symbols": ["MakeSolver", "MakeALSolver"]}]}
{"id": "C67", "title": "Multipliers certify the trajectory of an equality-constrained linear-quadratic solve", "statement": "For affine dynamics, convex quadratic costs and affine equality constraints, however an augmented-Lagrangian solve ends, the returned trajectory is dynamically feasible and minimises cost minus stored multipliers times constraint values over all feasible trajectories; so its cost is within that product of the cost of every trajectory meeting the constraints, and it is optimal if it meets them.", "quantifier": "every such problem, horizon, initial guess, solver history and options with a full line search step", "why_tests_cant": "global optimality over all trajectories", "anchors": [{"file": "altro/augmented_lagrangian/al_solver.hpp", "symbols": ["Solve", "UpdateDuals"]}, {"file": "altro/constraints/constraint_values.hpp", "symbols": ["UpdateDuals", "AugLag"]}, {"file": "altro/ilqr/ilqr.hpp", "symbols": ["Solve"]}]}
{"id": "C68", "title": "Constraint violation and cost error shrink with the penalty", "statement": "For such problems with a saddle point at squared multiplier distance D from the starting multipliers, after j outer iterations the summed squared violation is at most D / (initial penalty * scaling^(j-1))^2 and bounds the logged violation; with one scaling for all constraints the multipliers never move away from the saddle multipliers, the cost error has the same rate, and giving up because of the outer-iteration or the penalty limit is impossible if D is below the bound for that limit.", "quantifier": "every such problem and number of outer iterations", "why_tests_cant": "convergence rates need all iterations of all problems", "anchors": [{"file": "altro/augmented_lagrangian/al_solver.hpp", "symbols": ["Solve", "IsDone", "UpdatePenalties"]}, {"file": "altro/constraints/constraint_values.hpp", "symbols": ["UpdatePenalties", "MaxViolation"]}]}
{"id": "C69", "title": "Augmented-Lagrangian solves complete", "statement": "Solve on an initialised augmented-Lagrangian solver with a set initial state and an allocated trajectory of matching length returns, whatever the dynamics, costs and constraints, for regularisation options with factor > 1 and 0 < minimum <= maximum and header frequency >= 1.", "quantifier": "every problem, options in the stated range, initial guess, solver history", "why_tests_cant": "termination for all inputs", "anchors": [{"file": "altro/augmented_lagrangian/al_solver.hpp", "symbols": ["Solve", "Init", "IsDone"]}, {"file": "altro/ilqr/ilqr.hpp", "symbols": ["Solve"]}]}
{"id": "C70", "title": "Equality-constrained linear-quadratic problems are solved", "statement": "If a saddle point exists, its multipliers are closer to the starting ones than tolerance * initial penalty * scaling^J, and the limits leave room for J+1 outer iterations, the solve returns with status solved after at most J+1 outer iterations of at most two inner iterations, and its trajectory meets every constraint to the tolerance with cost bracketed by the optimal cost plus multiplier terms; for scaling > 1 such a J exists.", "quantifier": "every such problem and J", "why_tests_cant": "total correctness over all problems", "anchors": [{"file": "altro/augmented_lagrangian/al_solver.hpp", "symbols": ["Solve", "IsDone"]}, {"file": "altro/ilqr/ilqr.hpp", "symbols": ["Solve", "IsDone"]}]}
{"id": "C71", "title": "Linear-quadratic solves end solved within two iterations", "statement": "An iLQR solve of a problem with affine dynamics and convex quadratic costs returns an optimal trajectory with status solved after at most two iterations, and counts them in the totals.", "quantifier": "every such problem, initial guess and options in the stated range", "why_tests_cant": "all problems and starting points", "anchors": [{"file": "altro/ilqr/ilqr.hpp", "symbols": ["Solve", "IsDone", "UpdateConvergenceStatistics", "BackwardPass", "ForwardPass"]}]}
{"id": "C72", "title": "The solver's console table shows the recorded values in the right columns and colours", "statement": "After any sequence of statistics and logger operations on a fresh solver-statistics object the table has the solver's ten columns in their registration order with their levels and widths; a printed line shows, for each column visible at the current verbosity, the last value logged since the last clear and the colour that the bounds in force at that moment give it; headers come at the frequency of the last reset; setting tolerances changes the colour of the matching column only.", "quantifier": "every finite history of logging, tolerance, verbosity, print and reset operations, every arithmetic", "why_tests_cant": "histories unbounded, console output is not checked by tests", "anchors": [{"file": "altro/common/solver_logger.hpp", "symbols": ["SolverLogger", "AddEntry", "Print", "PrintHeader", "PrintData"]}, {"file": "altro/common/log_entry.hpp", "symbols": ["LogEntry", "SetLowerBound", "SetUpperBound", "GetColor"]}, {"file": "altro/common/solver_stats.hpp", "symbols": ["SolverStats", "SetTolerances", "Reset"]}]}
{"id": "C73", "title": "Knot points keep their sizes and fields through construction, copies, moves and setters", "statement": "Every knot point that can be built in a checking build has vectors of its declared sizes; copies and conversions between fixed-size and run-time-sized points keep all four fields; setters change their field only and refuse vectors of another size; a point is terminal exactly when its step is zero; the stacked state and control is the state followed by the control.", "quantifier": "every size, compile-time or run-time, every vector and every sequence of setters", "why_tests_cant": "all size combinations and histories", "anchors": [{"file": "altro/common/knotpoint.hpp", "symbols": ["KnotPoint", "IsTerminal", "SetStep", "GetStateControl"]}, {"file": "altro/common/state_control_sized.hpp", "symbols": ["StateControlSized"]}]}
{"id": "C74", "title": "UpdateExpansions stores the derivatives at the trajectory's own points", "statement": "After UpdateExpansions, knot point k holds the dynamics Jacobian at its own state, control, time and step and the gradient and Hessian blocks its own cost function returns there, for user costs and for augmented-Lagrangian costs, whatever was stored before; value function, gains, solver parameters and trajectory are unchanged.", "quantifier": "every horizon, cost and dynamics functions, trajectory and earlier state", "why_tests_cant": "all histories and functions", "anchors": [{"file": "altro/ilqr/ilqr.hpp", "symbols": ["UpdateExpansions"]}, {"file": "altro/ilqr/knot_point_function_type.hpp", "symbols": ["CalcCostExpansion", "CalcDynamicsExpansion"]}, {"file": "altro/constraints/constraint_values.hpp", "symbols": ["CalcExpansion"]}]}
{"id": "C75", "title": "Derivative checks of arbitrary differentiable functions measure the true derivatives", "statement": "Every finite-difference Jacobian entry is the true partial derivative at a point within one step along its own coordinate, every central Hessian entry the true second derivative at a point within one step in each direction; so CheckJacobian, CheckGradient and CheckHessian returning true puts every supplied entry within eps of such a derivative, and they return true if the supplied entries are close enough to all of them.", "quantifier": "every differentiable function, point, dimension, tolerance", "why_tests_cant": "all functions and points; needs the mean value theorem", "anchors": [{"file": "altro/utils/derivative_checker.hpp", "symbols": ["FiniteDiffJacobian", "FiniteDiffGradient", "FiniteDiffHessian"]}, {"file": "altro/common/functionbase.cpp", "symbols": ["CheckJacobian", "CheckGradient", "CheckHessian"]}]}
{"id": "C76", "title": "The profiler closes exactly the files it opened and prints its summary once", "statement": "Over the whole life of a Timer, for every sequence of SetOutput, Activate, Deactivate, recordings and PrintSummary calls, every file it opened by name is closed at the end and no other stream is, and the recorded times are printed once to the stream set last.", "quantifier": "every finite sequence of calls, every sequence of solves with any profiler options", "why_tests_cant": "histories unbounded; stream ownership is not observable in a unit test", "anchors": [{"file": "altro/common/timer.hpp", "symbols": ["Timer", "SetOutput"]}, {"file": "altro/common/timer.cpp", "symbols": ["~Timer", "PrintSummary", "SetOutput"]}, {"file": "altro/common/solver_stats.cpp", "symbols": ["Reset", "ProfilerOutputToFile"]}, {"file": "altro/augmented_lagrangian/al_solver.hpp", "symbols": ["Init", "Solve"]}]}
{"id": "C77", "title": "Statistics objects are independent; a copied or moved one never records", "statement": "In any program that constructs, uses and destroys statistics objects each holds exactly what its own calls since construction give, whatever is done to the others. A copied or moved-to object records nothing in its own vectors: it overwrites the newest entry of the original, is undefined once the original is destroyed, and a moved solver's cost.back() is undefined.", "quantifier": "every number of objects, every program of constructions, calls, copies, moves and destructions, every arithmetic", "why_tests_cant": "unbounded programs; no test copies or moves a solver", "anchors": [{"file": "altro/common/solver_stats.hpp", "symbols": ["SolverStats", "SetData", "Log"]}, {"file": "altro/common/solver_stats.cpp", "symbols": ["SetPtr", "NewIteration", "Reset"]}, {"file": "altro/common/solver_logger.hpp", "symbols": ["AddEntry", "order_"]}, {"file": "altro/ilqr/ilqr.hpp", "symbols": ["iLQR"]}]}
{"id": "C78", "title": "A solve logs and prints exactly its own iterations", "statement": "Starting from any history of the statistics object, a solve puts the verbosity of its options in force and makes exactly the calls of its iterations, in order: regularisation of the backward pass, cost, step length and decrease ratio of the accepted candidate (only if there was one), decrease, violation, running iteration count, gradient; the outer solver adds violation, penalty and the outer iteration number 1, 2, .... Rows on the console: from verbosity kInner on one per inner iteration; below it the outer solver prints one per outer iteration (verbosity 1, 2) and the inner solver none; at 0 nothing is printed.", "quantifier": "every cost and dynamics functions, options, earlier history, every arithmetic, both build types", "why_tests_cant": "console output and call order are not checked by tests; histories unbounded", "anchors": [{"file": "altro/ilqr/ilqr.hpp", "symbols": ["Solve", "SolveSetup", "BackwardPass", "ForwardPass", "UpdateConvergenceStatistics"]}, {"file": "altro/augmented_lagrangian/al_solver.hpp", "symbols": ["Init", "Solve", "UpdateConvergenceStatistics"]}, {"file": "altro/common/solver_stats.hpp", "symbols": ["Log", "PrintLast"]}]}
{"id": "C79", "title": "A solver works on exactly the problem it was built from, and follows its initial state", "statement": "A solver constructed from a fully given problem works on the dynamics and costs given to that problem, in order, starting at its initial state, whether copied at once or in consecutive ranges; later changes of the problem reach it only through the initial state, other problems and solvers never do. For the augmented-Lagrangian solver the multipliers updated and the violation reported are those of the same cost objects. Second initialisations, problem assignment and moves either keep this or are refused.", "quantifier": "every problem, every division into ranges, every later program of constructions, setters, assignments, copies, moves and destructions", "why_tests_cant": "programs over several objects are unbounded; no test reuses, moves or reassigns a solver", "anchors": [{"file": "altro/ilqr/ilqr.hpp", "symbols": ["iLQR", "CopyFromProblem", "InitializeFromProblem", "MakeTrajectory", "SetTrajectory", "SetTaskAssignment"]}, {"file": "altro/augmented_lagrangian/al_solver.hpp", "symbols": ["AugmentedLagrangianiLQR", "InitializeFromProblem"]}, {"file": "altro/augmented_lagrangian/al_problem.hpp", "symbols": ["BuildAugLagProblem"]}, {"file": "altro/problem/problem.hpp", "symbols": ["operator=", "GetInitialStatePointer"]}]}
{"id": "C80", "title": "Solving with several threads gives the result of solving with one", "statement": "A program that edits a solver, reads and sets its task assignment and solves with any thread options gives, in every schedule of the solving thread and the pool's workers, exactly the result of computing every expansion serially; the same for the augmented-Lagrangian solver; and a run always exists (no deadlock). The condition is that the tasks divide the knot points: always so in exact arithmetic, in a debug build with binary64 whenever the division does not abort, in a release build whenever it would not have aborted.", "quantifier": "every cost and dynamics functions, horizon, options, thread counts, program of edits and solves, every interleaving of the threads", "why_tests_cant": "schedules cannot be enumerated by tests; programs and horizons are unbounded", "anchors": [{"file": "altro/ilqr/ilqr.hpp", "symbols": ["Solve", "UpdateExpansions", "LaunchThreads", "DefaultTaskAssignment", "SetTaskAssignment", "GetTaskAssignment"]}, {"file": "altro/augmented_lagrangian/al_solver.hpp", "symbols": ["Solve"]}, {"file": "altro/common/threadpool.hpp", "symbols": ["ThreadPool"]}]}
{"id": "C81", "title": "Moving a thread pool keeps its tasks; only stopped pools may be moved and none may be assigned", "statement": "In any program that constructs, uses, moves and destroys pools, under any schedule, every pool is in the state its own history of tasks and threads gives, wherever those were held before: each task runs at most once, actions in order, and is finished when Wait returns. A stopped idle pool can always be moved; a move changes no other pool. A pool moved from can be waited for, stopped, destroyed and nothing else. Moving a running pool is refused in debug only; move assignment must work as documented.", "quantifier": "every program over any number of pools, every interleaving of callers and workers, both build types", "why_tests_cant": "interleavings and programs are unbounded; no test assigns a pool or moves a running one", "anchors": [{"file": "altro/common/threadpool.hpp", "symbols": ["ThreadPool", "operator="]}, {"file": "altro/common/threadpool.cpp", "symbols": ["ThreadPool", "operator=", "StopThreads", "LaunchThreads", "Wait"]}, {"file": "altro/common/threadsafe_queue.hpp", "symbols": ["operator=", "Clear"]}]}
{"id": "C82", "title": "On nonlinear problems the expected decrease is the slope of the true cost, and the gains vanish exactly at stationary points", "statement": "For differentiable dynamics and costs with correct user gradients and Jacobians (Hessians only symmetric), around a trajectory that obeys the dynamics: deltaV[0] of the backward pass is the derivative, at step size 0, of the true cost of the closed-loop simulation; it is never positive and zero only without feedforward gains. The feedforward gains are all zero exactly when every variation of the controls leaves the true cost unchanged to first order. Away from such points the line search accepts every small enough step and lowers the cost. All this holds whatever the regularisation.", "quantifier": "every number of states, controls and knot points, every differentiable problem, every feasible trajectory (exact reals)", "why_tests_cant": "derivatives and all variations cannot be tested; regularised passes on non-convex models are not in the tests", "anchors": [{"file": "altro/ilqr/ilqr.hpp", "symbols": ["UpdateExpansions", "BackwardPass", "ForwardPass", "RolloutClosedLoop"]}, {"file": "altro/ilqr/knot_point_function_type.hpp", "symbols": ["CalcGains", "CalcCostToGo", "RegularizeActionValue"]}]}
{"id": "C83", "title": "On constrained nonlinear problems nothing is left to change exactly at KKT points", "statement": "For differentiable dynamics, costs and constraints with correct user derivatives, any history of the cost objects and positive penalties, around a trajectory that obeys the dynamics: the augmented-Lagrangian cost objects have the returned gradient as true derivative, so the slope, stationarity and acceptance results for nonlinear problems hold for the inner solver. The backward pass, with any regularisation and restarts, has zero feedforward gains exactly when no variation of the controls changes to first order the Lagrangian with the multipliers UpdateDuals would set. Gains zero and multipliers unchanged by UpdateDuals, together, are equivalent to the KKT conditions of the constrained problem.", "quantifier": "every number of states, controls, knot points and constraints, every differentiable problem, history, feasible trajectory (exact reals)", "why_tests_cant": "derivatives, variations and histories cannot be enumerated; tests look at final violations only", "anchors": [{"file": "altro/augmented_lagrangian/al_cost.hpp", "symbols": ["Evaluate", "Gradient", "Hessian", "UpdateDuals"]}, {"file": "altro/constraints/constraint_values.hpp", "symbols": ["AugLag", "AugLagGradient", "AugLagHessian", "UpdateDuals"]}, {"file": "altro/ilqr/ilqr.hpp", "symbols": ["UpdateExpansions", "BackwardPass"]}, {"file": "altro/ilqr/knot_point_function_type.hpp", "symbols": ["CalcCostExpansion", "CalcGains"]}]}
{"id": "C84", "title": "The unicycle problem meets the hypotheses of the nonlinear theory, and solves keep them", "statement": "Discretised models with correct Jacobians, LQR costs with symmetric weights, goal and control-bound constraints and new augmented-Lagrangian cost objects made of such parts are smooth in the sense of the two preceding properties; the augmented-Lagrangian solver made by UnicycleProblem, in both scenarios, is in their setting. A whole solve, whatever its options and status, keeps that setting, the costs, cones, constraints, start and dynamics, so after any number of solves one more backward pass leaves controls and multipliers alone exactly if the trajectory is a KKT point. The solve of the unicycle problem always completes.", "quantifier": "every dimension, horizon and scenario of the library problem, all options with a valid regularisation range, any number of solves (exact reals)", "why_tests_cant": "all options, histories of solves and variations of a trajectory cannot be tested", "anchors": [{"file": "examples/problems/unicycle.hpp", "symbols": ["UnicycleProblem", "MakeProblem"]}, {"file": "altro/augmented_lagrangian/al_solver.hpp", "symbols": ["Solve", "Init", "UpdateDuals", "UpdatePenalties"]}, {"file": "altro/problem/discretized_model.hpp", "symbols": ["DiscretizedModel"]}, {"file": "altro/augmented_lagrangian/al_cost.hpp", "symbols": ["ALCost", "Evaluate", "SetPenalty"]}]}
{"id": "C85", "title": "On convex problems fixed points of the iteration are global solutions and dual updates approach every optimal choice of multipliers", "statement": "For affine dynamics, convex differentiable costs, affine equality constraints and convex inequality constraints, any history of the cost objects and positive penalties, around a trajectory that obeys the dynamics: a KKT point satisfies the constraints and costs no more than any trajectory that obeys dynamics and constraints; so does the trajectory held where neither the backward pass nor UpdateDuals changes anything. Where the backward pass has zero feedforward gains, the Lagrangian with the multipliers set by UpdateDuals is a lower bound of the cost of every feasible trajectory, and UpdateDuals reduces the penalty-weighted squared distance to every optimal choice of multipliers by at least the squared size of the update.", "quantifier": "every number of states, controls, knot points and constraints, every convex differentiable problem, history, feasible competitor and optimal multipliers (exact reals)", "why_tests_cant": "global optimality and distances to unknown multipliers quantify over all trajectories and all solutions; tests look at final violations only", "anchors": [{"file": "altro/augmented_lagrangian/al_solver.hpp", "symbols": ["Solve", "UpdateDuals"]}, {"file": "altro/augmented_lagrangian/al_cost.hpp", "symbols": ["Evaluate", "UpdateDuals"]}, {"file": "altro/constraints/constraint_values.hpp", "symbols": ["AugLag", "UpdateDuals"]}, {"file": "altro/ilqr/ilqr.hpp", "symbols": ["UpdateExpansions", "BackwardPass"]}]}
{"id": "C86", "title": "Scalar functions used through the vector-function interface deliver value, gradient and Hessian", "statement": "For every scalar function: Evaluate(x, u, out) puts the value into out and touches nothing else; Jacobian(x, u, jac) puts the gradient into the row jac and touches nothing else, whatever matrix the row is part of; Hessian(x, u, b, hess) is the derivative of the transposed Jacobian times b; wrong sizes are refused. CheckJacobian on a cost function decides the same as CheckGradient, CheckHessian with b = [1] the same as without b.", "quantifier": "every scalar function, point, memory contents and matrix reference (offset, columns, stride), both builds", "why_tests_cant": "tests call Jacobian on matrices with storage of their own only", "anchors": [{"file": "altro/common/functionbase.hpp", "symbols": ["ScalarFunction", "Evaluate", "Jacobian", "Hessian"]}, {"file": "altro/common/functionbase.cpp", "symbols": ["CheckJacobian", "CheckGradient", "CheckHessian"]}, {"file": "altro/problem/costfunction.hpp", "symbols": ["Gradient", "Hessian"]}]}
{"id": "C87", "title": "The work launcher has every work item done once per round, whatever the schedule", "statement": "For every number of items and threads, Launcher divides the items into one block per thread; after k rounds of CreateTasks and Wait on a pool, launched before or after adding, possibly stopped and relaunched in between, every item has been worked on exactly k times and SumCounts is k N; counts are not lost to races. The constructor always returns.", "quantifier": "every number of items and threads, every number of workers, schedule and number of rounds; exact reals and IEEE doubles", "why_tests_cant": "schedules are unbounded, and the tests use 16 items on 4 threads only", "anchors": [{"file": "perf/task_launcher.hpp", "symbols": ["Launcher", "WorkBlock", "CreateTasks", "SumCounts", "Kernel"]}, {"file": "perf/benchmark_threadpool.cpp", "symbols": ["ThreadPoolTiming"]}, {"file": "altro/common/threadpool.hpp", "symbols": ["AddTask"]}, {"file": "altro/common/threadpool.cpp", "symbols": ["Wait"]}]}
{"id": "C88", "title": "Exceptions thrown by user functions during the expansions reach the caller, with one thread and with several", "statement": "If a cost, constraint or dynamics function throws while the expansions are updated, UpdateExpansions (and so Solve) throws, whatever the number of threads, the assignment and the schedule; knot points before the throwing one in the same block are updated, those behind it are unchanged, other blocks are unaffected; if nothing throws the update is the usual one.", "quantifier": "every set of throwing calls and what they leave behind, every horizon, assignment, number of threads and schedule", "why_tests_cant": "no test has a function that throws; schedules are unbounded", "anchors": [{"file": "altro/ilqr/ilqr.hpp", "symbols": ["UpdateExpansions", "UpdateExpansionsBlock"]}, {"file": "altro/common/threadpool.hpp", "symbols": ["AddTask", "packaged_task"]}, {"file": "altro/common/threadpool.cpp", "symbols": ["Wait", "WorkerThread", "wait_for"]}]}
{"id": "C89", "title": "Sharing dynamics objects between knot points does not change the discrete Jacobians, with one thread and with several", "statement": "With one thread every knot point gets the discrete Jacobian of its model (RungeKutta4 or ExplicitEuler) however the DiscretizedModel objects are shared, although the integrator keeps its stages in members. With several threads, every assignment and schedule, interleaved between any two statements of the integrators, all Jacobians are the single-threaded ones if no RungeKutta4 object is used by two tasks, in particular with one object per knot point or with ExplicitEuler; without this condition they still are.", "quantifier": "every horizon, dimension, continuous dynamics, trajectory, arrangement of objects, assignment, number of threads and schedule", "why_tests_cant": "races depend on the schedule; all tests create one model per knot point", "anchors": [{"file": "altro/problem/integration.hpp", "symbols": ["RungeKutta4", "ExplicitEuler", "Jacobian", "k1_", "dA_"]}, {"file": "altro/problem/discretized_model.hpp", "symbols": ["DiscretizedModel", "integrator_"]}, {"file": "altro/problem/problem.hpp", "symbols": ["SetDynamics"]}, {"file": "altro/ilqr/ilqr.hpp", "symbols": ["UpdateExpansionsBlock"]}]}
{"id": "C90", "title": "In IEEE doubles the regularisation stays a number within its bounds, and the backward pass and whole solves end", "statement": "For finite options with bp_reg_increase_factor > 1 and 0 <= bp_reg_min <= bp_reg_max and a finite starting value >= 0, computed in doubles with rounding, overflow, NaN and infinities: after any sequence of increases and decreases the regularisation is a finite double within [bp_reg_min, bp_reg_max]; an increase never lowers it; the number of sweeps of a backward pass has a bound given by the options alone, whatever the expansions contain; Solve of the iLQR and of the augmented-Lagrangian solver ends without failed assertion, undefined behaviour or endless loop, and leaves a finite regularisation, within its bounds if the solve may make at least one (outer and inner) iteration.", "quantifier": "every dimension and horizon, all costs, dynamics, constraints and trajectories (NaN and infinities included), all such options", "why_tests_cant": "values and rounding errors cannot be enumerated; the tests use the default options on well-behaved problems", "anchors": [{"file": "altro/ilqr/ilqr.hpp", "symbols": ["IncreaseRegularization", "DecreaseRegularization", "BackwardPass", "Solve", "SolveSetup"]}, {"file": "altro/augmented_lagrangian/al_solver.hpp", "symbols": ["Solve", "Init"]}, {"file": "altro/common/solver_options.hpp", "symbols": ["bp_reg_increase_factor", "bp_reg_min", "bp_reg_max", "bp_reg_initial"]}]}
