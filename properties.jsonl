{"id": "C01", "title": "Rollout produces the unique dynamically consistent trajectory", "statement": "ShootingProblem::rollout(us, xs) called with T controls writes T+1 states such that xs[0] is the problem's x0 and, for every node t, xs[t+1] is the next state computed by node t at (xs[t], us[t]). Any other trajectory that satisfies these equations is equal to it, and a solver that stores it reports all dynamic gaps equal to zero.", "quantifier": "every horizon length, every list of action models (arbitrary next-state functions), every x0 and every control sequence", "why_tests_cant": "Tests roll out a handful of small horizons; the claim is an induction over the horizon for arbitrary dynamics.", "anchors": ["include/crocoddyl/core/optctrl/shooting.hxx:rollout", "src/core/solver-base.cpp:computeDynamicFeasibility"]}
{"id": "C02", "title": "Total cost is the sum over nodes, whatever the evaluation order of the parallel loop", "statement": "ShootingProblem::calc(xs, us) returns the sum of the running costs at (xs[t], us[t]) plus the terminal cost at xs[T], and leaves every node data holding the result of evaluating that node; the outcome is the same for every order in which the parallel loop visits the running nodes.", "quantifier": "every horizon, every list of nodes with separate datas, every permutation of the node visits", "why_tests_cant": "A test run observes one thread schedule; independence from the schedule is a statement about all permutations.", "anchors": ["include/crocoddyl/core/optctrl/shooting.hxx:calc", "include/crocoddyl/core/optctrl/shooting.hxx:calcDiff"]}
{"id": "C03", "title": "circularAppend is a receding-horizon shift", "statement": "After k calls of circularAppend that do not throw, the running nodes (models and datas alike) are the last T entries of the initial nodes followed by the appended ones, in order; T, nx, ndx, x0 and the terminal node do not change. In particular T appends replace the whole horizon.", "quantifier": "every initial problem with T >= 1 and every sequence of appended nodes of any length", "why_tests_cant": "Tests append once or twice; the claim ranges over arbitrarily long histories of appends.", "anchors": ["include/crocoddyl/core/optctrl/shooting.hxx:circularAppend"]}
{"id": "C04", "title": "Problem edits keep the horizon consistent or are rejected without effect", "statement": "Start from a successfully built problem and apply any sequence of circularAppend, updateNode, updateModel, set_x0, set_terminalModel. After every call the problem has exactly T running models and T running datas, every node (terminal included) has the problem's nx and ndx and x0 has size nx; a call that throws leaves the problem exactly as it was.", "quantifier": "every finite sequence of edit calls with arbitrary arguments, including invalid ones", "why_tests_cant": "Histories of interleaved valid and invalid edits are unbounded.", "anchors": ["include/crocoddyl/core/optctrl/shooting.hxx:ShootingProblemTpl", "include/crocoddyl/core/optctrl/shooting.hxx:updateNode", "include/crocoddyl/core/optctrl/shooting.hxx:updateModel", "include/crocoddyl/core/optctrl/shooting.hxx:set_terminalModel", "include/crocoddyl/core/optctrl/shooting.hxx:set_x0"]}
{"id": "C05", "title": "set_runningModels replaces the running nodes", "statement": "set_runningModels(models) with models that all have the problem's nx and ndx makes `models` the running models, with fresh datas and T = models.size(), without undefined behaviour; models of other dimensions are rejected.", "quantifier": "every problem and every list of models, of any length", "why_tests_cant": "The failure depends on how the new length compares with the old one and on reading freed storage; a test that happens to run proves nothing about the others.", "anchors": ["include/crocoddyl/core/optctrl/shooting.hxx:set_runningModels"]}
{"id": "C06", "title": "is_updated reports every structural change exactly once", "statement": "A call to is_updated() returns true if and only if the set of nodes was modified (circularAppend, updateNode, updateModel, set_runningModels, set_terminalModel) since construction or the previous call to is_updated().", "quantifier": "every interleaving of edits and queries", "why_tests_cant": "It is a statement about all histories of edits and queries.", "anchors": ["include/crocoddyl/core/optctrl/shooting.hxx:is_updated", "include/crocoddyl/core/optctrl/shooting.hxx:circularAppend", "include/crocoddyl/core/optctrl/shooting.hxx:updateNode", "include/crocoddyl/core/optctrl/shooting.hxx:updateModel", "include/crocoddyl/core/optctrl/shooting.hxx:set_terminalModel"]}
{"id": "C07", "title": "setCandidate installs the guess or rejects it without side effect", "statement": "SolverAbstract::setCandidate(xs, us, feasible) either throws and leaves the solver's trajectory and feasibility flag untouched, or stores exactly the given trajectory (zero states / zero controls when the corresponding list is empty) and the given flag.", "quantifier": "every problem, every previous solver state and every pair of guesses including empty and mis-sized ones", "why_tests_cant": "The failing combination (valid states, invalid controls) is one of many argument shapes and its damage only shows later.", "anchors": ["src/core/solver-base.cpp:setCandidate"]}
{"id": "C08", "title": "Dynamic infeasibility measure is an exact norm of the gaps", "statement": "computeDynamicFeasibility returns the maximum over all gaps of the largest absolute entry (LInf) or the sum of absolute entries over all gaps (L1). It is zero exactly when the trajectory starts at x0 and every state equals the next state of the previous node.", "quantifier": "every trajectory, horizon and both norms", "why_tests_cant": "Tests compare one or two numbers; the equivalence with dynamic consistency ranges over all trajectories.", "anchors": ["src/core/solver-base.cpp:computeDynamicFeasibility"]}
{"id": "C09", "title": "Inequality infeasibility measure is the norm of all bound violations", "statement": "computeInequalityFeasibility returns the maximum (LInf) or the sum (L1) over all running and terminal nodes of the violation of g_lb <= g <= g_ub, consistently with how the equality and dynamic measures are aggregated.", "quantifier": "every horizon, every vector of violations per node and both norms", "why_tests_cant": "The existing tests use problems where a single node dominates, so a mixture of max and sum cannot be seen.", "anchors": ["src/core/solver-base.cpp:computeInequalityFeasibility"]}
{"id": "C10", "title": "Equality infeasibility measure is an exact norm", "statement": "computeEqualityFeasibility returns the maximum (LInf) or the sum (L1) of absolute equality residuals over all running and terminal nodes; it is zero exactly when every residual entry is zero.", "quantifier": "every horizon, every residual vectors and both norms", "why_tests_cant": "All inputs and node counts are quantified.", "anchors": ["src/core/solver-base.cpp:computeEqualityFeasibility"]}
{"id": "C11", "title": "Solver parameters stay in their documented ranges", "statement": "After any history of setter calls on a DDP-type solver every stored parameter lies in the range announced by its error message (th_acceptstep in (0,1], th_stop > 0, th_gaptol >= 0, reg factors > 1, reg_min/reg_max >= 0, preg/dreg >= 0, thresholds, alphas positive and strictly decreasing); a rejected call throws and changes nothing.", "quantifier": "every sequence of setter calls with every floating-point argument, NaN and infinities included", "why_tests_cant": "NaN slips through comparisons; histories and arguments are unbounded.", "anchors": ["src/core/solver-base.cpp:set_th_acceptstep", "src/core/solver-base.cpp:set_th_stop", "src/core/solvers/ddp.cpp:set_reg_incfactor", "src/core/solvers/ddp.cpp:set_alphas", "src/core/solvers/fddp.cpp:set_th_acceptnegstep", "src/core/solvers/box-qp.cpp:set_th_acceptstep"]}
{"id": "C12", "title": "Regularization stays inside its window during solve", "statement": "While solve runs, preg and dreg stay equal to each other after initialisation and inside [reg_min, reg_max] whenever the initial value is inside, and with equal factors an increase followed by a decrease (or conversely) that stays inside the window restores the value.", "quantifier": "every interleaving of backward-pass failures and accepted or rejected steps, every window with reg_min >= 0 and every finite factor > 1", "why_tests_cant": "The sequence of increases and decreases depends on the numerical history, which is unbounded.", "anchors": ["src/core/solvers/ddp.cpp:increaseRegularization", "src/core/solvers/ddp.cpp:decreaseRegularization", "src/core/solvers/ddp.cpp:solve"]}
{"id": "C13", "title": "solve terminates", "statement": "SolverDDP::solve and its relatives perform at most maxiter iterations and, inside one iteration, the retry loop around computeDirection ends after finitely many regularization increases, returning false when the maximum regularization is reached.", "quantifier": "every problem, every pattern of failures of the backward pass, every admissible parameter setting", "why_tests_cant": "Non-termination needs a failing backward pass together with particular regularization values; no finite run can exhibit it.", "anchors": ["src/core/solvers/ddp.cpp:solve", "src/core/solvers/fddp.cpp:solve", "src/core/solvers/intro.cpp:solve", "src/core/solvers/kkt.cpp:solve"]}
{"id": "C14", "title": "Accepted steps on a feasible problem never increase the cost", "statement": "If SolverDDP::solve starts from a feasible candidate, the cost stored after each iteration is at most the cost stored before it.", "quantifier": "every problem, every initial guess, any number of iterations, all line-search outcomes", "why_tests_cant": "Holds or fails depending on the line-search acceptance rule along arbitrary histories.", "anchors": ["src/core/solvers/ddp.cpp:solve"]}
{"id": "C15", "title": "A successful return certifies feasibility and the stopping tolerance", "statement": "SolverDDP::solve returns true only if the candidate it holds was produced from a feasible trajectory and the stopping criterion evaluated in the last iteration is below th_stop; otherwise it returns false, after maxiter iterations or when the regularization reaches its maximum.", "quantifier": "every problem, every guess, every maxiter", "why_tests_cant": "Quantifies over all runs of the algorithm.", "anchors": ["src/core/solvers/ddp.cpp:solve", "src/core/solvers/fddp.cpp:solve", "src/core/solvers/intro.cpp:solve"]}
{"id": "C16", "title": "Callbacks run exactly once per completed iteration", "statement": "During solve the registered callbacks are invoked once per iteration that reaches the regularization update, in iteration order, so the number of invocations never exceeds maxiter and equals the number of iterations minus at most one aborted iteration.", "quantifier": "every run of the solver", "why_tests_cant": "Counts over all executions of the main loop.", "anchors": ["src/core/solvers/ddp.cpp:solve", "src/core/solvers/fddp.cpp:solve"]}
{"id": "C17", "title": "is_feasible is sound: a candidate flagged feasible is a rollout", "statement": "Whenever the solver marks its candidate as feasible after an accepted step, the stored states start at x0 and follow the dynamics under the stored controls.", "quantifier": "every solver of the family (DDP, FDDP, BoxDDP, BoxFDDP, KKT), every step length, every gap vector", "why_tests_cant": "The flag is wrong only for infeasible warm starts combined with partial steps, and tests use feasible or fully-closed gaps.", "anchors": ["src/core/solvers/ddp.cpp:forwardPass", "src/core/solvers/ddp.cpp:solve", "src/core/solvers/fddp.cpp:forwardPass", "src/core/solvers/fddp.cpp:solve", "src/core/solvers/box-ddp.cpp:forwardPass", "src/core/solvers/box-fddp.cpp:forwardPass", "src/core/solvers/kkt.cpp:solve"]}
{"id": "C18", "title": "FDDP contracts every gap by (1 - steplength)", "statement": "A trial trajectory of the feasibility-driven forward pass with step length a has, at every node, a dynamic gap equal to (1 - a) times the gap of the current trajectory; with a = 1 or a feasible candidate all gaps vanish.", "quantifier": "every horizon, dynamics, gains, gaps and step length in [0,1]", "why_tests_cant": "Ranges over all horizons and dynamics; numerics only check a few tolerances.", "anchors": ["src/core/solvers/fddp.cpp:forwardPass", "src/core/solvers/box-fddp.cpp:forwardPass"]}
{"id": "C19", "title": "DDP trial trajectories are rollouts of the trial controls", "statement": "Whatever the gains and step length in [0,1], the trial trajectory of SolverDDP::forwardPass starts at x0, follows the dynamics and its reported cost is the total cost of that trajectory; step length 0 on a feasible trajectory reproduces the current trajectory and cost. Step lengths outside [0,1] are rejected.", "quantifier": "every horizon, dynamics, gains and step length", "why_tests_cant": "All horizons, all dynamics.", "anchors": ["src/core/solvers/ddp.cpp:forwardPass"]}
{"id": "C20", "title": "On linear-quadratic problems one full step is optimal", "statement": "For a problem with linear dynamics and quadratic costs whose control Hessians are positive definite along the backward recursion, the feedforward and feedback terms computed by the backward pass with zero regularization make the full-step forward pass reach the global minimum of the total cost, from any feasible trajectory.", "quantifier": "every horizon, every dimension, every LQ data with positive definite Quu", "why_tests_cant": "Optimality among all control sequences is not observable by running.", "anchors": ["src/core/solvers/ddp.cpp:backwardPass", "src/core/solvers/ddp.cpp:computeGains", "src/core/solvers/ddp.cpp:computeValueFunction", "src/core/solvers/ddp.cpp:forwardPass"]}
{"id": "C21", "title": "Expected improvement is exact for linear-quadratic problems", "statement": "For LQ problems the change of cost of the trial trajectory with step length a equals the prediction: cost decrease = a d0 + a^2/2 d1 where (d0, d1) come from expectedImprovement, for DDP on feasible trajectories and for FDDP also with gaps.", "quantifier": "every horizon, dimension, LQ data, gains from the backward pass and step length in [0,1]", "why_tests_cant": "An identity over all data.", "anchors": ["src/core/solvers/ddp.cpp:expectedImprovement", "src/core/solvers/fddp.cpp:updateExpectedImprovement", "src/core/solvers/fddp.cpp:expectedImprovement"]}
{"id": "C22", "title": "Value-function Hessians stay symmetric (and positive semidefinite for convex data)", "statement": "If every Lxx and Luu is symmetric, all Vxx and Quu of the backward pass are symmetric; if additionally the stage Hessians [Lxx Lxu; Lux Luu] are positive semidefinite and the Cholesky step succeeds, all Vxx are positive semidefinite.", "quantifier": "every horizon, dimension and data", "why_tests_cant": "Induction over the horizon for arbitrary matrices.", "anchors": ["src/core/solvers/ddp.cpp:computeActionValueFunction", "src/core/solvers/ddp.cpp:computeValueFunction", "src/core/solvers/ddp.cpp:computeGains"]}
{"id": "C23", "title": "Expected improvement has the sign the line search relies on", "statement": "With gains from a positive definite regularized Quu, SolverDDP's d0 (the predicted decrease) is non-negative, it is zero exactly when all Qu are zero, and for a feasible candidate stoppingCriteria is zero exactly when the candidate satisfies the first-order optimality condition on the controls.", "quantifier": "every horizon and data with positive definite Quu", "why_tests_cant": "Equivalence over all data.", "anchors": ["src/core/solvers/ddp.cpp:expectedImprovement", "src/core/solvers/ddp.cpp:stoppingCriteria"]}
{"id": "C24", "title": "BoxQP returns a point inside the box", "statement": "BoxQP::solve returns a point with lb <= x <= ub for any initial guess, whenever lb <= ub, regardless of how many iterations and line-search steps are taken.", "quantifier": "every dimension, Hessian, gradient, bounds with lb <= ub, initial guess, iteration limit and step-length list", "why_tests_cant": "All inputs and all internal histories.", "anchors": ["src/core/solvers/box-qp.cpp:solve"]}
{"id": "C25", "title": "BoxQP iterations never increase the objective", "statement": "Every step accepted by BoxQP::solve does not increase the quadratic objective.", "quantifier": "every positive definite Hessian, gradient, box and initial guess", "why_tests_cant": "The Armijo test uses a signed product that only misbehaves on particular geometry.", "anchors": ["src/core/solvers/box-qp.cpp:solve"]}
{"id": "C26", "title": "BoxQP convergence certificate is a KKT point", "statement": "If BoxQP stops because the gradient on the free set is below the tolerance (tolerance zero in exact arithmetic), the returned point satisfies the KKT conditions of the box-constrained QP and is a global minimiser when the Hessian is positive semidefinite.", "quantifier": "every dimension and data", "why_tests_cant": "Global optimality cannot be tested by sampling.", "anchors": ["src/core/solvers/box-qp.cpp:solve"]}
{"id": "C27", "title": "BoxDDP and BoxFDDP only produce controls inside the limits", "statement": "Every control of a trial trajectory of BoxDDP/BoxFDDP lies within [u_lb, u_ub] of its node as soon as the node declares limits with u_lb <= u_ub, one-sided limits included.", "quantifier": "every horizon, gains, step length, bounds (finite or infinite entries)", "why_tests_cant": "All inputs; one-sided limits are a corner that tests do not use.", "anchors": ["src/core/solvers/box-ddp.cpp:forwardPass", "src/core/solvers/box-fddp.cpp:forwardPass", "include/crocoddyl/core/action-base.hxx:update_has_control_limits"]}
{"id": "C28", "title": "The KKT system is the first-order optimality system of the linearised problem", "statement": "The KKT matrix assembled by SolverKKT is symmetric and a solution of the KKT linear system yields a direction that satisfies the linearised dynamics exactly and makes the Lagrangian of the quadratic model stationary; for convex data it is the global minimiser of the quadratic model subject to the linearised dynamics.", "quantifier": "every horizon, dimension and data", "why_tests_cant": "Structural identity and optimality for all data.", "anchors": ["src/core/solvers/kkt.cpp:calcDiff", "src/core/solvers/kkt.cpp:computePrimalDual", "src/core/solvers/kkt.cpp:computeDirection"]}
{"id": "C29", "title": "Intro gains satisfy the linearised equality constraints", "statement": "The feedforward/feedback terms computed by SolverIntro with the nullspace or Schur resolution satisfy Hu k = h and Hu K = Hx, so a full step with these gains zeroes the linearised constraint for every state deviation, and they minimise the quadratic action-value over all controls satisfying it.", "quantifier": "every dimension, full-row-rank Hu and positive definite (projected) Quu", "why_tests_cant": "Identities and optimality for all data.", "anchors": ["src/core/solvers/intro.cpp:computeGains", "src/core/solvers/intro.cpp:calcDiff"]}
{"id": "C30", "title": "Intro's merit weight never decreases and keeps the search direction a descent direction", "statement": "Within one solve of SolverIntro the penalty weight upsilon is non-decreasing over iterations and after each update the predicted merit decrease is at least rho * upsilon * hfeas, for every admissible rho.", "quantifier": "every run and every rho accepted by set_rho", "why_tests_cant": "History property with a singular corner (rho = 1).", "anchors": ["src/core/solvers/intro.cpp:solve", "src/core/solvers/intro.cpp:set_rho"]}
{"id": "C31", "title": "Euler integration and its derivatives agree", "statement": "IntegratedActionModelEuler computes q' = q + dt v + dt^2 a, v' = v + dt a and cost dt*l (acceleration a from the differential model with the control obtained from the parametrization), and its Fx, Fu, Lx, Lu are the exact derivatives of that map whenever those of the differential model and of the control parametrization are exact.", "quantifier": "every differentiable differential model on a Euclidean state, every dt, state and control", "why_tests_cant": "Exact differentiation is a statement about all models; numeric differencing has a tolerance.", "anchors": ["include/crocoddyl/core/integrator/euler.hxx:calc", "include/crocoddyl/core/integrator/euler.hxx:calcDiff"]}
{"id": "C32", "title": "Runge-Kutta derivatives agree with Runge-Kutta integration", "statement": "For RK2, RK3 and RK4 the Fx, Fu, Lx, Lu computed by IntegratedActionModelRK are the exact derivatives of the next state and cost computed by calc, whenever those of the differential model are exact.", "quantifier": "every differentiable differential model on a Euclidean state, every dt, state and control, all three schemes", "why_tests_cant": "A wrong stage coefficient produces an O(dt^3) error that is below finite-difference tolerances.", "anchors": ["include/crocoddyl/core/integrator/rk.hxx:calc", "include/crocoddyl/core/integrator/rk.hxx:calcDiff", "include/crocoddyl/core/integrator/rk.hxx:set_rk_type"]}
{"id": "C33", "title": "Runge-Kutta schemes are consistent", "statement": "The stage nodes and weights used by RK2/RK3/RK4 satisfy the order conditions of order 2, 3 and 4, and integrate constant accelerations exactly.", "quantifier": "every step size, all three schemes", "why_tests_cant": "Order conditions are identities.", "anchors": ["include/crocoddyl/core/integrator/rk.hxx:set_rk_type", "include/crocoddyl/core/integrator/rk.hxx:calc"]}
{"id": "C34", "title": "Control parametrizations interpolate and round-trip", "statement": "For PolyZero, PolyOne and PolyTwoRK (three and four) evaluating the control at the parametrization's nodes returns the corresponding parameters, params(w) followed by calc returns w at every time, and calcDiff / multiplyByJacobian / multiplyJacobianTransposeBy are products with the exact Jacobian dw/du.", "quantifier": "every time in [0,1], every parameter vector, every matrix and assignment mode", "why_tests_cant": "All times and dimensions.", "anchors": ["include/crocoddyl/core/controls/poly-zero.hxx", "include/crocoddyl/core/controls/poly-one.hxx", "include/crocoddyl/core/controls/poly-two-rk.hxx"]}
{"id": "C35", "title": "Converted control bounds imply the original bounds", "statement": "If the control parameters satisfy the bounds returned by convertBounds, then the control w(t) satisfies the original bounds for every t in [0,1].", "quantifier": "every t in [0,1], every parameter vector within the converted bounds, every parametrization", "why_tests_cant": "Violations occur only at times the integrators rarely use.", "anchors": ["include/crocoddyl/core/controls/poly-one.hxx:convertBounds", "include/crocoddyl/core/controls/poly-two-rk.hxx:convertBounds"]}
{"id": "C36", "title": "Activation gradients are exact", "statement": "For every activation model (quadratic, weighted quadratic, quadratic barrier, weighted barrier, smooth-1norm, smooth-2norm, 2-norm barrier, flat-exp, flat-log) calcDiff after calc yields Ar equal to the gradient of the activation value at r, for every r in the domain where the function is differentiable.", "quantifier": "every residual dimension, every r, every admissible parameter", "why_tests_cant": "Pointwise equality with a derivative for all r.", "anchors": ["include/crocoddyl/core/activations/quadratic.hpp", "include/crocoddyl/core/activations/weighted-quadratic.hpp", "include/crocoddyl/core/activations/quadratic-barrier.hpp", "include/crocoddyl/core/activations/weighted-quadratic-barrier.hpp", "include/crocoddyl/core/activations/smooth-1norm.hpp", "include/crocoddyl/core/activations/smooth-2norm.hpp", "include/crocoddyl/core/activations/2norm-barrier.hpp", "include/crocoddyl/core/activations/quadratic-flat-exp.hpp", "include/crocoddyl/core/activations/quadratic-flat-log.hpp"]}
{"id": "C37", "title": "Activation Hessians are the diagonal second derivatives", "statement": "calcDiff after calc yields Arr equal to the diagonal of the second derivative of the activation value at every r where it is twice differentiable.", "quantifier": "every residual dimension, every r, every admissible parameter (smoothing factor, weights, alpha)", "why_tests_cant": "Default parameters hide errors that are proportional to (eps - 1) or (w - 1).", "anchors": ["include/crocoddyl/core/activations/smooth-1norm.hpp:calcDiff", "include/crocoddyl/core/activations/weighted-quadratic-barrier.hpp:calcDiff", "include/crocoddyl/core/activations/2norm-barrier.hpp:calcDiff", "include/crocoddyl/core/activations/quadratic-flat-exp.hpp:calcDiff"]}
{"id": "C38", "title": "Changing activation weights is seen by every data", "statement": "After set_weights(w) on a weighted-quadratic activation, calc followed by calcDiff on any of its datas yields value, Ar and Arr of the new weights.", "quantifier": "every number of datas sharing the model, every order of calls", "why_tests_cant": "Requires several datas and a particular interleaving.", "anchors": ["include/crocoddyl/core/activations/weighted-quadratic.hpp:set_weights", "include/crocoddyl/core/activations/weighted-quadratic.hpp:calcDiff"]}
{"id": "C39", "title": "Activation bounds are ordered and casting preserves them", "statement": "ActivationBounds built from lb, ub, beta satisfies lb' <= ub' with [lb', ub'] inside [lb, ub] whenever lb <= ub and 0 <= beta <= 1 (invalid arguments are rejected), and converting it to the same scalar type keeps the bounds.", "quantifier": "every dimension, bounds (finite or not) and beta in [0,1]", "why_tests_cant": "All inputs.", "anchors": ["include/crocoddyl/core/activations/quadratic-barrier.hpp:ActivationBoundsTpl"]}
{"id": "C40", "title": "Cost, contact and impulse containers keep their dimension counters exact", "statement": "After any history of add/remove/changeStatus calls the advertised dimension (nr, nc) equals the sum of the dimensions of the active items, the total dimension equals the sum over all items, and the active/inactive name sets partition the stored names according to the items' status.", "quantifier": "every finite sequence of add/remove/changeStatus calls with arbitrary names", "why_tests_cant": "Counters wrong only after particular histories; unsigned wrap-around makes them huge.", "anchors": ["include/crocoddyl/core/costs/cost-sum.hxx:addCost", "include/crocoddyl/core/costs/cost-sum.hxx:removeCost", "include/crocoddyl/multibody/contacts/multiple-contacts.hxx:removeContact", "include/crocoddyl/multibody/impulses/multiple-impulses.hxx:removeImpulse"]}
{"id": "C41", "title": "Constraint containers keep their dimension counters exact", "statement": "After any history of addConstraint/removeConstraint/changeConstraintStatus the reported ng, nh, ng_T, nh_T equal the sums over the active (terminal) constraints and the active/inactive sets partition the stored names according to status.", "quantifier": "every finite sequence of calls with arbitrary names", "why_tests_cant": "Unbounded histories.", "anchors": ["include/crocoddyl/core/constraints/constraint-manager.hxx"]}
{"id": "C42", "title": "Cost sum evaluates the weighted sum of the active costs", "statement": "CostModelSum::calc/calcDiff yield cost, Lx, Lu, Lxx, Lxu, Luu equal to the sums over active items of weight times the item's quantities, independent of the insertion order; inactive items have no influence.", "quantifier": "every container content, weights, states and controls, every insertion history", "why_tests_cant": "All containers.", "anchors": ["include/crocoddyl/core/costs/cost-sum.hxx:calc", "include/crocoddyl/core/costs/cost-sum.hxx:calcDiff"]}
{"id": "C43", "title": "Constraint stacking is a partition of the rows", "statement": "ConstraintModelManager::calc writes each active constraint's g/h and bounds into consecutive disjoint segments that exactly cover the ng/nh rows, in name order, and the terminal variant does so for the terminal constraints and ng_T/nh_T.", "quantifier": "every set of constraints and dimensions", "why_tests_cant": "All containers.", "anchors": ["include/crocoddyl/core/constraints/constraint-manager.hxx:calc", "include/crocoddyl/core/constraints/constraint-manager.hxx:calcDiff"]}
{"id": "C44", "title": "Joint forces collect every active contact", "statement": "After updateForce the external force reported for each joint is the sum of the forces of the active contacts attached to it, and inactive contacts carry zero force.", "quantifier": "every set of contacts, attachment map and force vector", "why_tests_cant": "Needs several contacts on the same joint.", "anchors": ["include/crocoddyl/multibody/contacts/multiple-contacts.hxx:updateForce", "include/crocoddyl/multibody/impulses/multiple-impulses.hxx:updateForce"]}
{"id": "C45", "title": "LQR action: derivatives match the current matrices on every data", "statement": "ActionModelLQR::calc computes A x + B u + f and the quadratic cost, and calcDiff on any data yields the exact derivatives for the matrices most recently set with set_LQR.", "quantifier": "every dimension, matrices, states, controls, number of datas and order of set_LQR / calcDiff calls", "why_tests_cant": "Shared model-level caching flags only misbehave with several datas and re-setting.", "anchors": ["include/crocoddyl/core/actions/lqr.hxx:calc", "include/crocoddyl/core/actions/lqr.hxx:calcDiff", "include/crocoddyl/core/actions/lqr.hxx:set_LQR", "include/crocoddyl/core/actions/lqr.hpp:ActionDataLQRTpl"]}
{"id": "C46", "title": "Unicycle action derivatives are exact", "statement": "ActionModelUnicycle::calcDiff yields the exact Jacobians of the next state and the exact gradient and Hessian of the cost of calc.", "quantifier": "every state, control, time step and weights", "why_tests_cant": "Pointwise for all reals.", "anchors": ["include/crocoddyl/core/actions/unicycle.hxx:calc", "include/crocoddyl/core/actions/unicycle.hxx:calcDiff"]}
{"id": "C47", "title": "Finite-difference models are exact on linear-quadratic actions", "statement": "ActionModelNumDiff applied to an affine-dynamics, quadratic-cost action returns exactly its Fx, Fu, Lxx, Luu, Lxu (non Gauss-Newton mode), and its Lx, Lu with an error of exactly half the step times the diagonal curvature.", "quantifier": "every dimension, quadratic data, point and non-zero step sizes", "why_tests_cant": "Identities in exact arithmetic; tests only see rounding-level agreement.", "anchors": ["include/crocoddyl/core/numdiff/action.hxx:calcDiff"]}
{"id": "C48", "title": "Friction cone: inner approximation is sound, outer approximation is complete", "statement": "With inner approximation every force accepted by the linear inequalities A f in [lb, ub] satisfies the Coulomb cone |f_t| <= mu f_n and the normal-force limits; without it every force in the Coulomb cone and the limits is accepted.", "quantifier": "every number of facets, friction coefficient, orientation and force", "why_tests_cant": "Ranges over all forces and facet counts.", "anchors": ["include/crocoddyl/multibody/friction-cone.hxx:update"]}
{"id": "C49", "title": "Friction and wrench cone parameters are sanitised", "statement": "After any sequence of construction and setter calls mu, min_nforce and max_nforce are non-negative: negative values are replaced as announced by the warning.", "quantifier": "every sequence of setter calls", "why_tests_cant": "Histories of setters.", "anchors": ["include/crocoddyl/multibody/friction-cone.hxx:set_mu", "include/crocoddyl/multibody/friction-cone.hxx:set_min_nforce", "include/crocoddyl/multibody/friction-cone.hxx:set_max_nforce", "include/crocoddyl/multibody/wrench-cone.hxx:set_mu"]}
{"id": "C50", "title": "Friction cone built from a surface normal is oriented along that normal", "statement": "After update(normal, mu, ...) the inequality on the normal force constrains the component of the force along `normal`, and get_nsurf returns `normal`.", "quantifier": "every unit normal not opposite to the z axis", "why_tests_cant": "Tests use the vertical normal, for which any confusion between R and its transpose is invisible.", "anchors": ["include/crocoddyl/multibody/friction-cone.hxx:update", "include/crocoddyl/multibody/friction-cone.hxx:get_nsurf", "include/crocoddyl/multibody/friction-cone.hxx:set_nsurf"]}
{"id": "C51", "title": "Wrench cone rows encode CoP and yaw-torque limits", "statement": "A wrench satisfying the CoP rows has its centre of pressure inside the box (for positive normal force), the rows coincide with those of CoPSupport for the same R and box, and wrenches generated by vertex forces in the (outer) friction pyramid satisfy all rows.", "quantifier": "every rotation, box size, friction coefficient and wrench", "why_tests_cant": "All wrenches.", "anchors": ["include/crocoddyl/multibody/wrench-cone.hxx:update", "include/crocoddyl/multibody/cop-support.hxx:update"]}
{"id": "C52", "title": "Ipopt interface: declared sparsity equals the filled sparsity", "statement": "The numbers of non-zeros announced by get_nlp_info equal the numbers of entries filled by eval_jac_g and eval_h; every row/column index is within [0,m)x[0,n), Hessian entries are in the lower triangle, and no position is filled twice; value entries are filled at the positions declared by the structure call.", "quantifier": "every horizon and every node dimensions", "why_tests_cant": "All horizons and dimensions.", "anchors": ["src/core/solvers/ipopt/ipopt-iface.cpp:get_nlp_info", "src/core/solvers/ipopt/ipopt-iface.cpp:eval_jac_g", "src/core/solvers/ipopt/ipopt-iface.cpp:eval_h"]}
{"id": "C53", "title": "Ipopt interface: objective and Hessian values are those of the problem", "statement": "eval_f reports the total cost independently of the previous content of its output argument, and eval_h reports obj_factor times the Hessian of the total cost for running and terminal nodes alike.", "quantifier": "every problem, point, obj_factor and previous output content", "why_tests_cant": "Ipopt happens to pass zero and one most of the time.", "anchors": ["src/core/solvers/ipopt/ipopt-iface.cpp:eval_f", "src/core/solvers/ipopt/ipopt-iface.cpp:eval_h"]}
{"id": "C54", "title": "Ipopt interface: resizing keeps the problem dimensions exact", "statement": "After any number of resizeData calls the announced numbers of variables and constraints equal those of the current problem.", "quantifier": "every problem and any number of resize calls", "why_tests_cant": "Needs repeated resizes.", "anchors": ["src/core/solvers/ipopt/ipopt-iface.cpp:resizeData"]}
{"id": "C55", "title": "Thruster mapping depends only on the last thrusters set", "statement": "After set_thrusters(ps) the matrix from thrusts to body wrench is the one determined by ps, whatever thrusters were set before, and every data used afterwards sees it.", "quantifier": "every history of set_thrusters calls", "why_tests_cant": "Histories.", "anchors": ["include/crocoddyl/multibody/actuations/floating-base-thrusters.hpp:set_thrusters", "include/crocoddyl/multibody/actuations/floating-base-thrusters.hpp:calc"]}
{"id": "C56", "title": "Squashing keeps controls within their limits and is increasing with exact derivative", "statement": "SquashingModelSmoothSat::calc maps every s into [u_lb, u_ub] component-wise, is non-decreasing in s, and calcDiff returns the exact derivative.", "quantifier": "every s, every bounds with u_lb <= u_ub, every smoothness", "why_tests_cant": "All reals.", "anchors": ["include/crocoddyl/core/actuation/squashing/smooth-sat.hpp:calc", "include/crocoddyl/core/actuation/squashing/smooth-sat.hpp:calcDiff"]}
{"id": "C57", "title": "Floating-base actuation: commands invert calc and the base is unactuated", "statement": "For the floating-base actuation the generalized torque of any control is zero on the base coordinates, commands(calc(u)) = u, dtau_du u = tau and Mtau dtau_du = I; unactuated coordinates are exactly those marked as not set.", "quantifier": "every nv, base dimension and control", "why_tests_cant": "All dimensions.", "anchors": ["include/crocoddyl/multibody/actuations/floating-base.hpp:calc", "include/crocoddyl/multibody/actuations/floating-base.hpp:commands", "include/crocoddyl/multibody/actuations/floating-base.hpp:createData", "include/crocoddyl/multibody/actuations/full.hpp"]}
{"id": "C58", "title": "Residual costs produce the Gauss-Newton derivatives on every call", "statement": "CostModelResidual::calcDiff yields Lx = Rx' Ar, Lu = Ru' Ar, Lxx = Rx' Arr Rx, Lxu = Rx' Arr Ru, Luu = Ru' Arr Ru for the current residual Jacobians also when the residual declares that it does not depend on q, v or u, for any sequence of calls on the same data, and the Hessians are symmetric and positive semidefinite when Arr is non-negative.", "quantifier": "every dimension, dependence declaration, sequence of calc/calcDiff calls (running and terminal) on the same data", "why_tests_cant": "Block-wise writes leave stale blocks only along particular call histories.", "anchors": ["include/crocoddyl/core/residual-base.hxx:calcCostDiff", "include/crocoddyl/core/costs/residual.hxx:calcDiff"]}
{"id": "C59", "title": "Euclidean state operations are mutually inverse with exact Jacobians", "statement": "For StateVector: integrate(x, diff(x, y)) = y, diff(x, integrate(x, dx)) = dx, diff(x, x) = 0, and Jdiff / Jintegrate return the derivatives for the three assignment modes; sizes are checked.", "quantifier": "every dimension and vectors, every previous content of the output matrices", "why_tests_cant": "All dimensions and buffers.", "anchors": ["include/crocoddyl/core/states/euclidean.hxx"]}
{"id": "C60", "title": "Control limits are recognised whenever one is finite", "statement": "get_has_control_limits() is true exactly when some entry of u_lb or u_ub is finite, so that a limit set on one side only is honoured by the box solvers.", "quantifier": "every pair of bound vectors with finite or infinite entries and every sequence of set_u_lb/set_u_ub calls", "why_tests_cant": "Depends on which entries are infinite.", "anchors": ["include/crocoddyl/core/action-base.hxx:update_has_control_limits", "include/crocoddyl/core/diff-action-base.hxx"]}
{"id": "C61", "title": "Re-sizing constraint data stays inside its buffers", "statement": "Calling ConstraintDataManager::resize(model, running_node) after the set of active constraints changed gives views g, h, Gx, ... that lie inside the memory owned by the data.", "quantifier": "every history of additions, removals and status changes between the creation of the data and the resize", "why_tests_cant": "Out-of-bounds views often go unnoticed in a test run.", "anchors": ["include/crocoddyl/core/constraints/constraint-manager.hpp:ConstraintDataManagerTpl::resize"]}
{"id": "C62", "title": "Gains of the control-limited solvers respect the limits and the active set", "statement": "Where SolverBoxDDP/SolverBoxFDDP solve the box problem for a node, applying the full feedforward term to the nominal control stays within the control limits; the controls split in clamped ones, which then sit exactly at a limit and receive no feedback gain and no gradient, and free ones, on which the feedback solves the free rows of Quu K = Qux and the gradient is kept.", "quantifier": "every number of controls and states, Hessian, gradient, limits, nominal control and warm start", "why_tests_cant": "The split in clamped and free controls depends on the data; a test sees a few splits.", "anchors": ["src/core/solvers/box-ddp.cpp:SolverBoxDDP::computeGains", "src/core/solvers/box-fddp.cpp:SolverBoxFDDP::computeGains"]}
{"id": "C63", "title": "Integrated costs keep positive semi-definite Hessians", "statement": "If the Hessian blocks Lxx, Lxu, Luu of the differential model are jointly positive semi-definite (and Lxx symmetric) at every evaluation point, then so are the blocks computed by IntegratedActionModelEuler and IntegratedActionModelRK, for every time step accepted by the constructor and set_dt; for RK they are also symmetric.", "quantifier": "every differential model, control parametrization, number of stages, time-step history, state and control", "why_tests_cant": "Positive semi-definiteness quantifies over all directions and all models.", "anchors": ["include/crocoddyl/core/integrator/euler.hxx:calcDiff", "include/crocoddyl/core/integrator/rk.hxx:calcDiff", "include/crocoddyl/core/integ-action-base.hxx:set_dt"]}
{"id": "C64", "title": "A copied action model behaves like the original", "statement": "Copying an action model (copy constructor, as done by the Python copy/deepcopy bindings) gives a model on which calc and calcDiff, with and without a control, have the same outcome as on the original.", "quantifier": "every action model, number of controls, state, control and sequence of calls before the copy", "why_tests_cant": "A test copies one model and calls it in one way; a member missed by the copy shows only through the calls that read it.", "anchors": ["include/crocoddyl/core/action-base.hxx:ActionModelAbstractTpl(const ActionModelAbstractTpl&)", "include/crocoddyl/core/action-base.hxx:calc"]}
{"id": "C65", "title": "Terminal evaluation of integrated actions", "statement": "Calling calc(data,x) and calcDiff(data,x) on an Euler or Runge-Kutta integrated action leaves the state in place (xnext = x), reports the cost of the differential model at x without the time step, its exact derivatives Lx and Lxx, and the derivative Fx = identity of x -> xnext.", "quantifier": "every differential model, time step, state and previous content of the data", "why_tests_cant": "Derivative buffers keep their content between calls, so the result depends on the history of the data.", "anchors": ["include/crocoddyl/core/integrator/euler.hxx:calc", "include/crocoddyl/core/integrator/euler.hxx:calcDiff", "include/crocoddyl/core/integrator/rk.hxx:calc", "include/crocoddyl/core/integrator/rk.hxx:calcDiff"]}
{"id": "C66", "title": "The disturbance of a finite-difference model gives usable step sizes", "statement": "After any sequence of accepted set_disturbance calls the step sizes used by calcDiff are positive, a negative disturbance is rejected, and get_disturbance returns the last accepted value.", "quantifier": "every sequence of set_disturbance calls on a new finite-difference model", "why_tests_cant": "Depends on the whole history and on all values; a zero disturbance silently produces NaNs.", "anchors": ["include/crocoddyl/core/numdiff/action.hxx:set_disturbance", "include/crocoddyl/core/numdiff/action.hxx:calcDiff"]}
{"id": "C67", "title": "Finite-difference activations approximate the derivatives", "statement": "For a smooth activation, the gradient and the Hessian returned by ActivationModelNumDiff::calcDiff tend to the gradient and the Hessian of the wrapped activation as the disturbance tends to zero.", "quantifier": "every activation with the derivatives, every residual vector", "why_tests_cant": "A limit over all functions and points.", "anchors": ["include/crocoddyl/core/numdiff/activation.hxx:calcDiff"]}
{"id": "C68", "title": "Finite-difference states give the exact Jacobians of a Euclidean state", "statement": "On a Euclidean state StateNumDiff::Jdiff returns (-I, I) and Jintegrate assigns, adds or subtracts the identity according to its assignment argument, for any non-zero disturbance.", "quantifier": "every dimension, points, previous content and assignment argument", "why_tests_cant": "All dimensions and points; the assignment argument is usually left at its default in tests.", "anchors": ["include/crocoddyl/core/numdiff/state.hxx:Jdiff", "include/crocoddyl/core/numdiff/state.hxx:Jintegrate"]}
{"id": "C69", "title": "Casting a model keeps its settings", "statement": "The model returned by cast (to the same or another scalar type) computes, up to rounding, the same results as the original, whatever settings were changed before.", "quantifier": "every history of setters of ActionModelUnicycle and ActionModelNumDiff", "why_tests_cant": "Needs every setting combined with cast.", "anchors": ["include/crocoddyl/core/actions/unicycle.hxx:cast", "include/crocoddyl/core/numdiff/action.hxx:cast"]}
{"id": "C70", "title": "A squashed actuation is the composition of the squashing and the actuation", "statement": "ActuationSquashingModel computes the inner actuation at the squashed control: tau = act(x, squash(u)), its dtau_du and dtau_dx are the exact derivatives of that composition, and commands returns, for a torque produced by calc, the control that produced it.", "quantifier": "every inner actuation, squashing, state and control", "why_tests_cant": "Derivatives are compared numerically at a few points and only for inner actuations that do not depend on the state.", "anchors": ["include/crocoddyl/core/actuation/actuation-squashing.hpp:calc", "include/crocoddyl/core/actuation/actuation-squashing.hpp:calcDiff", "include/crocoddyl/core/actuation/actuation-squashing.hpp:commands", "include/crocoddyl/core/actuation-base.hxx:torqueTransform"]}
{"id": "C71", "title": "Ipopt interface: every answer depends only on the point asked about", "statement": "The values returned by eval_f, eval_grad_f, eval_g, eval_jac_g and eval_h at a point do not depend on which calls, at which points, the interface answered before.", "quantifier": "every problem, every history of calls and every point", "why_tests_cant": "The data of the nodes is shared by all the callbacks, and only some histories leave it at another point.", "anchors": ["src/core/solvers/ipopt/ipopt-iface.cpp:eval_f", "src/core/solvers/ipopt/ipopt-iface.cpp:eval_grad_f", "src/core/solvers/ipopt/ipopt-iface.cpp:eval_g", "src/core/solvers/ipopt/ipopt-iface.cpp:eval_jac_g", "src/core/solvers/ipopt/ipopt-iface.cpp:eval_h"]}
{"id": "C72", "title": "Ipopt interface: gradient and Jacobian are the derivatives of objective and constraints", "statement": "eval_grad_f is the gradient of eval_f with respect to the decision variables (state increments and controls), and the triplets of eval_jac_g are the Jacobian of eval_g, for manifold states as well, each value at the row and column declared by the structure call.", "quantifier": "every horizon, node dimensions, smooth models, point and direction", "why_tests_cant": "The chain rule through integrate and diff must hold for all states and dimensions; solvers converge with slightly wrong Jacobians too.", "anchors": ["src/core/solvers/ipopt/ipopt-iface.cpp:eval_grad_f", "src/core/solvers/ipopt/ipopt-iface.cpp:eval_jac_g", "src/core/solvers/ipopt/ipopt-iface.cpp:eval_g"]}
{"id": "C73", "title": "Ipopt interface: starting point, bounds and solution represent the candidate", "statement": "The starting point given to Ipopt represents exactly the stored states and controls; the variable bounds are the control limits of the nodes that have them and infinite elsewhere; the constraint bounds are zero; the solution stored by finalize_solution is the one Ipopt's final point represents, so that a following solve starts from it.", "quantifier": "every problem, stored candidate, final point and previous content of the arrays", "why_tests_cant": "All horizons and dimensions, and histories of solves.", "anchors": ["src/core/solvers/ipopt/ipopt-iface.cpp:get_starting_point", "src/core/solvers/ipopt/ipopt-iface.cpp:get_bounds_info", "src/core/solvers/ipopt/ipopt-iface.cpp:finalize_solution"]}
{"id": "C74", "title": "KKT solver: expected improvement and stopping criterion mean what they say", "statement": "The improvement SolverKKT predicts for a step length is exactly the decrease of the quadratic model along that step, it is non-negative on [0,1] for convex data and a gap-free candidate, and the stopping criterion is the squared norm of the first-order optimality conditions (gradient of the Lagrangian with the returned multipliers, and gaps) at the linearisation point.", "quantifier": "every horizon, dimension, data and direction", "why_tests_cant": "Identities over all dimensions and data.", "anchors": ["src/core/solvers/kkt.cpp:expectedImprovement", "src/core/solvers/kkt.cpp:stoppingCriteria"]}
{"id": "C75", "title": "Reported cost and linearisation belong to the stored candidate", "statement": "During solve, whatever was done with the solver before, each search direction is computed from derivatives and gaps evaluated at the candidate stored at that moment, and the cost visible to callbacks and after the call is the total cost of the stored candidate.", "quantifier": "every solver of the DDP family and SolverKKT, every problem, guess and sequence of accepted and rejected steps", "why_tests_cant": "Caches (recalc flags, data written by rejected trials) are only consistent or inconsistent along whole runs.", "anchors": ["src/core/solvers/ddp.cpp:solve", "src/core/solvers/fddp.cpp:solve", "src/core/solvers/ddp.cpp:calcDiff", "src/core/solvers/kkt.cpp:solve", "src/core/solvers/kkt.cpp:calcDiff"]}
{"id": "C76", "title": "SolverKKT::solve: what a return value certifies", "statement": "SolverKKT::solve runs the callbacks once per completed iteration, in order and at most maxiter times; it returns true only if the stopping criterion of the last assembled system is below th_stop and the trajectory it holds came from a candidate marked feasible; the trajectory is then the linearisation point or one step along its KKT direction.", "quantifier": "every problem, guess, maxiter, and every pattern of exceptions raised by the models", "why_tests_cant": "Runs of arbitrary length with arbitrary exceptions.", "anchors": ["src/core/solvers/kkt.cpp:solve", "src/core/solvers/kkt.cpp:tryStep"]}
{"id": "C77", "title": "SolverIntro: accepted steps decrease the merit function", "statement": "Every step SolverIntro accepts decreases the merit function cost + upsilon * (gap and constraint violation), by at least th_acceptstep times the predicted decrease, or at most by the allowed relative increase; the violation and the weight are the ones reported.", "quantifier": "every problem, guess, parameters and run", "why_tests_cant": "The weight changes during the run and the two acceptance branches depend on the sign of the prediction.", "anchors": ["src/core/solvers/intro.cpp:solve", "src/core/solvers/intro.cpp:tryStep"]}
{"id": "C78", "title": "SolverIntro: value function of the constrained step", "statement": "The value function SolverIntro passes backwards is the minimum of the quadratic action value over the controls that satisfy the linearised constraint, plus the state regularization, shifted by the gap.", "quantifier": "every dimension, number of constraints and data, and every resolution (LU, QR, Schur)", "why_tests_cant": "An algebraic identity for all matrices; wrong cross terms only degrade convergence.", "anchors": ["src/core/solvers/intro.cpp:computeValueFunction", "src/core/solvers/intro.cpp:computeGains"]}
{"id": "C79", "title": "The derivative published by a contact model is the derivative of its acceleration", "statement": "For the 1D, 2D, 3D and 6D contact models, every reference frame type and all gains, the matrix da0_dx written by calcDiff(x) is the derivative of the drift acceleration a0 written by calc(x) along every motion of the configuration and velocity, including the feedback (Baumgarte) terms on position and velocity.", "quantifier": "all robots (through the kinematic quantities Pinocchio provides), configurations, velocities, tangent directions, gains, references and frame types", "why_tests_cant": "Unit tests compare against finite differences at random configurations of a few robots with particular frames; an error confined to frames that are not planar, or to non-zero position gains, is not seen.", "anchors": ["include/crocoddyl/multibody/contacts/contact-1d.hxx:calcDiff", "include/crocoddyl/multibody/contacts/contact-2d.hxx:calcDiff", "include/crocoddyl/multibody/contacts/contact-3d.hxx:calcDiff", "include/crocoddyl/multibody/contacts/contact-6d.hxx:calcDiff"]}
{"id": "C80", "title": "Contact forces act through the transpose of the contact Jacobian and are reported in contact coordinates", "statement": "After updateForce(f), the spatial force fext at the parent joint produces exactly the generalised force Jc^T f, for 1D, 2D, 3D and 6D contacts and impulses and all frame types; dtau_dq is the derivative of that generalised force (with f frozen) that the inverse-dynamics derivatives, which freeze fext, leave out; and the published force f is f in the coordinates of the contact.", "quantifier": "all configurations, frame placements in the parent joint, forces, frame types", "why_tests_cant": "The duality must hold for every placement of the contact frame in its joint; tests use frames aligned with their parent joint or check only the resulting dynamics on one robot.", "anchors": ["include/crocoddyl/multibody/contacts/contact-1d.hxx:updateForce", "include/crocoddyl/multibody/contacts/contact-2d.hxx:updateForce", "include/crocoddyl/multibody/contacts/contact-3d.hxx:updateForce", "include/crocoddyl/multibody/contacts/contact-6d.hxx:updateForce", "include/crocoddyl/multibody/impulses/impulse-3d.hxx:updateForce", "include/crocoddyl/multibody/impulses/impulse-6d.hxx:updateForce"]}
{"id": "C81", "title": "The 1D contact holds its frame at the reference along its axis", "statement": "A 1D contact with a position gain and the world-aligned frame type, at rest, asks for no acceleration exactly when the coordinate of the contact frame along the axis of the contact force equals the reference position.", "quantifier": "all axis rotations, frame placements, references and non-zero gains", "why_tests_cant": "The default axis is the identity rotation, for which an axis and its inverse coincide; tests with other axes compare derivatives only.", "anchors": ["include/crocoddyl/multibody/contacts/contact-1d.hxx:calc", "include/crocoddyl/multibody/contacts/contact-1d.hxx:updateForce"]}
{"id": "C82", "title": "The derivative published by an impulse model is the derivative of the contact velocity", "statement": "For the 3D and 6D impulse models and every reference frame type, the matrix dv0_dq written by calcDiff(x) is the derivative with respect to the configuration of the velocity of the contact (Jacobian times post-impact velocity).", "quantifier": "all robots (through the kinematic quantities Pinocchio provides), configurations, velocities, tangent directions and frame types", "why_tests_cant": "Must hold along every motion; the frame type for which it fails coincides with the others when the frame is at the origin.", "anchors": ["include/crocoddyl/multibody/impulses/impulse-3d.hxx:calcDiff", "include/crocoddyl/multibody/impulses/impulse-6d.hxx:calcDiff"]}
{"id": "C83", "title": "The stacked contact Jacobian, forces and joint forces describe the same contact forces", "statement": "For every set of contacts, statuses and stacked force: the rows of the stacked Jacobian are those of the active contacts in name order (zero rows for inactive ones when all contacts are computed); updateForce gives each active contact its own segment of the force, zero to inactive ones, and rejects a wrong size; and the generalised force produced by the joint forces handed to the rigid-body algorithms is the transposed stacked Jacobian times the stacked force.", "quantifier": "all contact sets, dimensions, statuses, forces and both computation modes", "why_tests_cant": "The segments are cut out by running offsets over sets of any size and any status pattern; a shared joint is rare in tests.", "anchors": ["include/crocoddyl/multibody/contacts/multiple-contacts.hxx:calc", "include/crocoddyl/multibody/contacts/multiple-contacts.hxx:updateForce", "include/crocoddyl/multibody/impulses/multiple-impulses.hxx:updateForce"]}
{"id": "C84", "title": "Free forward dynamics obey the equations of motion and publish their exact derivatives", "statement": "After calc(x, u) of the free forward dynamics, (M + diag(armature)) xout + nle = tau(x, u); after calcDiff(x, u), Fx and Fu are the derivatives of xout with respect to the state and the control, with and without a user armature.", "quantifier": "all robots (through the contracts of the rigid-body algorithms), states, controls, actuations, armatures and tangent directions", "why_tests_cant": "An identity between derivatives along every curve; numerical differentiation samples it within a tolerance.", "anchors": ["include/crocoddyl/multibody/actions/free-fwddyn.hxx:calc", "include/crocoddyl/multibody/actions/free-fwddyn.hxx:calcDiff"]}
{"id": "C85", "title": "Contact forward dynamics obey the constrained equations of motion and publish exact derivatives", "statement": "After calc(x, u) of the contact forward dynamics, the acceleration and contact forces satisfy the equations of motion with the contact forces and the (damped, stabilised) contact constraint; after calcDiff(x, u), Fx, Fu and the derivatives of the contact forces are those of the acceleration and of the forces, for every set of contact models.", "quantifier": "all robots (through the contracts of the rigid-body algorithms), sets of 1D, 2D, 3D and 6D contacts of every frame type and status, gains, dampings, armatures, states, controls and tangent directions", "why_tests_cant": "The derivative passes through every contact, the stacking, the joint forces and the inverse of the contact system; numerical differentiation samples a few robots and contact sets within a tolerance.", "anchors": ["include/crocoddyl/multibody/actions/contact-fwddyn.hxx:calc", "include/crocoddyl/multibody/actions/contact-fwddyn.hxx:calcDiff", "include/crocoddyl/multibody/contacts/multiple-contacts.hxx:updateRneaDiff"]}
{"id": "C86", "title": "Impulse dynamics obey the impact equations and publish exact derivatives", "statement": "After calc(x) of the impulse forward dynamics, the velocity after the impact and the impulse satisfy the impact equations with the given restitution coefficient, damping and armature; after calcDiff(x), Fx and the derivatives of the impulse are those of the next state and of the impulse.", "quantifier": "all robots (through the contracts of the rigid-body algorithms), sets of 3D and 6D impulses, restitution coefficients, dampings, armatures, states and tangent directions", "why_tests_cant": "The shipped tests use zero restitution and no user armature, where the derivative is right.", "anchors": ["include/crocoddyl/multibody/actions/impulse-fwddyn.hxx:calc", "include/crocoddyl/multibody/actions/impulse-fwddyn.hxx:calcDiff"]}
{"id": "C87", "title": "SolverKKT: accepted steps from a feasible candidate decrease the cost", "statement": "Every step SolverKKT::solve accepts from a candidate marked feasible decreases the cost, by more than th_acceptstep times the improvement predicted by the system the step was computed from.", "quantifier": "All problems, guesses, step lists, thresholds, patterns of exceptions and numbers of iterations", "why_tests_cant": "Tests run convex examples; a step towards a saddle point or maximum needs a non-convex problem and the shortcut test on the gradient.", "anchors": ["src/core/solvers/kkt.cpp: SolverKKT::solve, tryStep, expectedImprovement"]}
{"id": "C88", "title": "Inverse dynamics: feasible points are exactly the motions of the robot", "statement": "A control (acceleration and contact forces) of the free or contact inverse dynamics satisfies all its equality constraints at a state if and only if, with the torque of joint.tau, it is a motion of the forward dynamics: equations of motion with the forces of the active contacts and the contact constraints; the forward dynamics under joint.tau then return the same acceleration and forces, and the forces of the inactive contacts are zero.", "quantifier": "all robots (through the contracts of the rigid-body algorithms), states, accelerations, forces, actuations (full, floating base, thrusters), lists of contacts of every kind, frame and status, and contents of the data before the call", "why_tests_cant": "It relates two action models for every robot, contact list and control; tests compare derivatives on a few robots where all contacts are active.", "anchors": ["include/crocoddyl/multibody/actions/free-invdyn.hxx:calc", "include/crocoddyl/multibody/actions/contact-invdyn.hxx:calc", "include/crocoddyl/multibody/actions/contact-invdyn.hpp:ResidualModelActuation", "include/crocoddyl/multibody/actions/contact-invdyn.hpp:ResidualModelContact", "include/crocoddyl/multibody/residuals/contact-force.hxx:calc"]}
{"id": "C89", "title": "Inverse dynamics publish the exact derivatives of their constraints and of joint.tau", "statement": "After calcDiff(x, u) of the free or contact inverse dynamics, the Jacobians of every active equality constraint (torque, contact acceleration, contact force) and of joint.tau are the derivatives of their values with respect to the state and the control.", "quantifier": "all robots (through the contracts of the rigid-body algorithms), states, controls, actuations, lists of contacts of every kind and status, and tangent directions", "why_tests_cant": "An identity between derivatives along every curve; numerical differentiation samples a few robots, with all contacts active, within a tolerance.", "anchors": ["include/crocoddyl/multibody/actions/free-invdyn.hxx:calcDiff", "include/crocoddyl/multibody/actions/contact-invdyn.hxx:calcDiff", "include/crocoddyl/multibody/actions/contact-invdyn.hpp:ResidualModelActuation", "include/crocoddyl/multibody/actions/contact-invdyn.hpp:ResidualModelContact"]}
{"id": "C90", "title": "The constraints of the inverse dynamics follow the statuses of its contacts", "statement": "An inverse dynamics model built from contacts and constraints with any history has a torque constraint of dimension nv - nu and, after every calc(x, u), for each contact an acceleration constraint active exactly when the contact is active and a force constraint active exactly when it is not, both of the contact's dimension and excluded from terminal nodes; the caller's other constraints keep their content and status; get_nh is the total contact dimension plus the other active constraints; and cast reproduces the same set of constraints with the same statuses.", "quantifier": "all contact and constraint managers with any history of calls, and all later histories of status changes, added and removed constraints and calls of calc", "why_tests_cant": "The bookkeeping is spread over three managers keyed by names derived from user names; it must hold after every interleaving of calls.", "anchors": ["include/crocoddyl/multibody/actions/contact-invdyn.hxx:init", "include/crocoddyl/multibody/actions/contact-invdyn.hxx:calc", "include/crocoddyl/multibody/actions/contact-invdyn.hxx:cast", "include/crocoddyl/core/constraints/constraint-manager.hxx"]}
{"id": "C91", "title": "quasiStatic returns a control that keeps the state at rest", "statement": "For a configuration at zero velocity, if some control (with contact forces where the model has contacts) holds the robot there, then quasiStatic returns such a control: calc with it yields zero acceleration for differential models and the same state for integrated models, inverse dynamics receive zero acceleration, zero force at inactive contacts and balancing forces at active ones. The result does not depend on earlier calls on the same data.", "quantifier": "all models (default Newton method with every iteration limit and tolerance; free and contact forward dynamics, contact inverse dynamics, Euler and Runge-Kutta integrators with every control parametrization), states at rest, contact lists and statuses, and contents of the data before the call", "why_tests_cant": "Existence of a balancing control is a hypothesis over all controls, and the result must not depend on earlier calls; tests use robots with full or floating-base actuation, all contacts active and new data.", "anchors": ["include/crocoddyl/core/action-base.hxx:quasiStatic", "include/crocoddyl/core/diff-action-base.hxx:quasiStatic", "include/crocoddyl/core/integrator/euler.hxx:quasiStatic", "include/crocoddyl/core/integrator/rk.hxx:quasiStatic", "include/crocoddyl/multibody/actions/free-fwddyn.hxx:quasiStatic", "include/crocoddyl/multibody/actions/contact-fwddyn.hxx:quasiStatic", "include/crocoddyl/multibody/actions/contact-invdyn.hxx:quasiStatic"]}
{"id": "C92", "title": "A failing derivative evaluation never turns into a success", "statement": "When the calcDiff of a model throws at a candidate, SolverDDP, SolverFDDP, SolverBoxDDP and SolverBoxFDDP do not use derivatives of other points for it: every search direction is computed from derivatives and gaps of the stored candidate, solve does not return true at a candidate whose derivatives could not be evaluated, and a candidate marked feasible is still a rollout.", "quantifier": "all problems, guesses, regularizations, parameters, earlier uses of the solver, and sets of points at which a node's calcDiff throws", "why_tests_cant": "Exceptions inside the loop are swallowed; the effect depends on which node throws, at which candidate, and on what earlier solves left in the data.", "anchors": ["src/core/solvers/ddp.cpp:solve", "src/core/solvers/ddp.cpp:computeDirection", "src/core/solvers/ddp.cpp:calcDiff", "src/core/solvers/fddp.cpp:solve", "include/crocoddyl/core/optctrl/shooting.hxx:calcDiff"]}
{"id": "C93", "title": "Residuals of contact forces follow the current reference and publish its exact derivatives", "statement": "After calc and calcDiff of a contact-force, friction-cone, wrench-cone or centre-of-pressure residual, with forward or inverse dynamics, r is the documented function of the contact's force and of the reference set last, Rx and Ru are its exact derivatives through the force derivatives of the dynamics, and no other data of the same model changes.", "quantifier": "all histories of created datas, set_reference calls and evaluations, all contact types (1D, 2D, 3D, 6D), forces, references and cones", "why_tests_cant": "The model caches whether its Jacobians are current while the Jacobians live in several datas; only some interleavings of set_reference and calcDiff show it.", "anchors": ["include/crocoddyl/multibody/residuals/contact-force.hxx", "include/crocoddyl/multibody/residuals/contact-friction-cone.hxx", "include/crocoddyl/multibody/residuals/contact-wrench-cone.hxx", "include/crocoddyl/multibody/residuals/contact-cop-position.hxx"]}
{"id": "C94", "title": "Gravity-compensation residuals measure the torque beyond static equilibrium", "statement": "After calc and calcDiff the control-gravity residual is the torque minus the gravity torque, and its contact version is the torque minus the torque that balances gravity and the current contact forces; Rx and Ru are the exact derivatives with respect to the state and the control; at terminal nodes the residual is the negated static torque.", "quantifier": "all robots (through the contract of the gravity algorithms), states, torques, contact forces and histories of calls on the data", "why_tests_cant": "The data may hold copies taken at construction; whether they are refreshed shows only when the force at evaluation differs from the one at creation.", "anchors": ["include/crocoddyl/multibody/residuals/control-gravity.hxx", "include/crocoddyl/multibody/residuals/contact-control-gravity.hxx", "include/crocoddyl/multibody/residuals/contact-control-gravity.hpp:ResidualDataContactControlGravTpl"]}
{"id": "C95", "title": "The state of a robot: diff, integrate, their Jacobians and the limits", "statement": "For a robot's state diff and integrate are inverse to each other; Jdiff and Jintegrate fill the requested matrices with the exact derivatives whatever they contained (setto), or add or subtract them (addto, rmfrom), and leave the matrix that was not requested alone; JintegrateTransport multiplies by the Jacobian of integrate; the limits are those of the robot's joints, none for the root joint.", "quantifier": "all robots (through the contract of the Lie-group algorithms), pairs of states, tangent vectors, curves, contents of the matrices before the call, and joint lists", "why_tests_cant": "The content of the matrices before the call is an input; tests always pass zero matrices and robots whose root joint is first.", "anchors": ["include/crocoddyl/multibody/states/multibody.hxx", "include/crocoddyl/core/state-base.hxx"]}
{"id": "C96", "title": "State and control costs publish the gradient and Gauss-Newton Hessian of their value", "statement": "After calc and calcDiff, with or without a control, the cost of a state residual is the activation of diff(xref, x) for the reference set last, Lx is its exact gradient and Lxx the Gauss-Newton Hessian; the cost of a control residual likewise with u - uref in Lu and Luu; all other blocks are zero.", "quantifier": "all state classes, references, states, controls, activations with exact gradients, and histories of calls on the same data", "why_tests_cant": "Both residuals override the general formula and write only some entries; the result depends on what the state's Jacobian looks like and on what earlier calls left in the data.", "anchors": ["include/crocoddyl/multibody/residuals/state.hxx:calcCostDiff", "include/crocoddyl/core/residuals/control.hxx:calcCostDiff", "include/crocoddyl/core/costs/residual.hxx:calcDiff"]}
{"id": "C97", "title": "Kinematic residuals inside an action see the state passed to it", "statement": "After calc(x, u) and calcDiff(x, u) of an action, or calc(x) and calcDiff(x), the value and the Jacobian of a frame, frame velocity, centre-of-mass, centroidal-momentum or collision residual among its costs or constraints are those at x, whatever the data was used for before.", "quantifier": "all robots (through the contract of the kinematics routines), the free, contact and impulse actions, the kinematic residuals, contents of a new data, histories of calls, and states", "why_tests_cant": "The residuals read quantities that only some actions compute; stale values are right as long as the state does not change, which is the case in a test that evaluates one state.", "anchors": ["include/crocoddyl/multibody/actions/free-fwddyn.hxx", "include/crocoddyl/multibody/actions/free-invdyn.hxx", "include/crocoddyl/multibody/actions/contact-fwddyn.hxx", "include/crocoddyl/multibody/actions/contact-invdyn.hxx", "include/crocoddyl/multibody/actions/impulse-fwddyn.hxx", "include/crocoddyl/multibody/residuals/com-position.hxx", "include/crocoddyl/multibody/residuals/centroidal-momentum.hxx", "include/crocoddyl/multibody/residuals/frame-velocity.hxx"]}
{"id": "C98", "title": "Frame and centre-of-mass residuals and their Jacobians", "statement": "After any use of the model (changes of frame, reference or type, evaluations elsewhere), calc gives the position, rotation logarithm, placement logarithm or velocity of the chosen frame relative to the chosen reference, the centre of mass minus its reference, or the jump of the centre-of-mass velocity in an impact; calcDiff gives the derivative of this residual along every motion of the robot.", "quantifier": "all robots (through the kinematics contract), the six residuals, histories of calls on one model and data, references, frames, reference frame types, and motions through states with rotation errors strictly between 0 and pi", "why_tests_cant": "The Jacobians chain a logarithm, a placement inverse cached by the setter and a frame Jacobian; numerical differences sample a few states with tolerances and always a model that was just built.", "anchors": ["include/crocoddyl/multibody/residuals/frame-translation.hxx", "include/crocoddyl/multibody/residuals/frame-rotation.hxx", "include/crocoddyl/multibody/residuals/frame-placement.hxx", "include/crocoddyl/multibody/residuals/frame-velocity.hxx", "include/crocoddyl/multibody/residuals/com-position.hxx", "include/crocoddyl/multibody/residuals/impulse-com.hxx"]}
{"id": "C99", "title": "Profiler statistics", "statement": "For every name, total, number, last, minimum and maximum time reported by the stopwatch are those of the durations measured between start and stop (or start, pause, start, stop) since the last reset; names do not influence each other, and a disabled profiler or stopwatch records nothing.", "quantifier": "all histories of start, stop, pause, reset, enabling, disabling and watcher calls, names, both clocks and clock readings", "why_tests_cant": "The statistics depend on the order of the durations and on resets and pauses in between; a test runs one history and cannot control the clock.", "anchors": ["src/core/utils/stop-watch.cpp", "include/crocoddyl/core/utils/stop-watch.hpp"]}
{"id": "C100", "title": "The walking gait generator", "statement": "createWalkingProblem always returns two double supports and four single-foot steps; every node supports three feet and swings the fourth or supports all four; the centre-of-mass reference is always above the mean of the feet references; swing references rise from the ground to the step height, come down, and end on the ground one step length ahead, where the contact switches.", "quantifier": "all numbers of knots, step lengths and heights, initial positions, and calls on one generator", "why_tests_cant": "Knot counts and repeated calls are unbounded; an example checks one set of parameters by looking at the motion.", "anchors": ["src/multibody/utils/quadruped-gaits.cpp", "include/crocoddyl/multibody/utils/quadruped-gaits.hpp"]}
{"id": "C101", "title": "Finite-difference wrappers of residuals, costs, constraints, contacts, actuations and controls", "statement": "Every Jacobian and gradient column published by a wrapper is the difference quotient of the wrapped value along one tangent direction, with a positive step, evaluated on shared data refreshed at the disturbed point; the columns tend to the derivatives with the disturbance and the Hessians of a wrapped cost to the Gauss-Newton ones. The wrapper publishes the values of the wrapped model, honours set_disturbance in both overloads, and leaves the shared data at the evaluation point.", "quantifier": "all manifolds, wrapped models, shared data and reevaluation functions, points, disturbances and previous contents of the data", "why_tests_cant": "Tests compare with analytical Jacobians at random points within a tolerance, after rebuilding all data.", "anchors": ["include/crocoddyl/core/numdiff/residual.hxx", "include/crocoddyl/core/numdiff/cost.hxx", "include/crocoddyl/core/numdiff/constraint.hxx", "include/crocoddyl/core/numdiff/actuation.hxx", "include/crocoddyl/core/numdiff/control.hxx", "include/crocoddyl/multibody/numdiff/contact.hxx"]}
{"id": "C102", "title": "Constraints built from a residual: bounds, values and Jacobians", "statement": "A constraint built from a residual accepts exactly the bounds that have the size of the residual and leave a value for every component, both when it is created and when its bounds are updated, and keeps them when it is wrapped. Whatever was called before, its value is the value of the residual and its Jacobians are the exact ones, in the inequality part while it has bounds and in the equality part otherwise; removing the bounds and updating them again restores the constraint.", "quantifier": "all residual sizes and dependencies, bounds including infinities and NaN, and sequences of calc, calcDiff, update_bounds and remove_bounds", "why_tests_cant": "Tests create constraints with a few random finite bounds and evaluate them once.", "anchors": ["include/crocoddyl/core/constraint-base.hxx", "include/crocoddyl/core/constraints/residual.hxx", "include/crocoddyl/core/constraint-base.hpp", "include/crocoddyl/core/numdiff/constraint.hxx"]}
{"id": "C103", "title": "Joint-effort and joint-acceleration residuals", "statement": "Inside every forward- and inverse-dynamics action, the joint-effort and joint-acceleration residuals are the current effort or acceleration minus the reference set last, and their Jacobians are the exact derivatives with respect to state and control. At a terminal node the value depends on the terminal state only and the Jacobian is its derivative. References of the wrong size are refused.", "quantifier": "all dynamics that publish exact Jacobians, constructors, references, sequences of calc, calcDiff, their terminal versions and set_reference, and curves of states and controls", "why_tests_cant": "Tests compare with finite differences at random points on fresh data, and not at terminal nodes after running ones.", "anchors": ["include/crocoddyl/core/residuals/joint-effort.hxx", "include/crocoddyl/core/residuals/joint-acceleration.hxx", "include/crocoddyl/core/data/joint.hpp", "include/crocoddyl/multibody/actions/free-fwddyn.hxx", "include/crocoddyl/multibody/actions/free-invdyn.hxx", "include/crocoddyl/multibody/actions/contact-fwddyn.hxx", "include/crocoddyl/multibody/actions/contact-invdyn.hxx"]}
{"id": "C104", "title": "The collision residual and the gradient of the distance", "statement": "For a solid on a link of the robot and another object, the collision residual is the vector between the nearest points, and the gradient that a cost on it computes is the gradient of that cost along every motion of the robot; the published Jacobian is the derivative of the residual.", "quantifier": "all solids, robot motions along which the nearest points do not jump, functions of the distance, and earlier calls on the same data", "why_tests_cant": "Tests compare the cost of one capsule pair with finite differences at random configurations.", "anchors": ["include/crocoddyl/multibody/residuals/pair-collision.hxx", "include/crocoddyl/multibody/residuals/pair-collision.hpp"]}
{"id": "C105", "title": "The table printed by the verbose callback", "statement": "At every verbosity level and accepted precision, the verbose callback prints rows whose columns line up with the header, one column per quantity of that level with its sign and digits; the header is repeated once every ten rows and follows the settings made last; a row does not depend on the formatting in which the output stream was left, and the stream is given back as it was found.", "quantifier": "all levels, precisions, iteration numbers, solver values, histories of settings and stream formats", "why_tests_cant": "Tests do not look at the printed text; alignment depends on every combination of level, precision and value.", "anchors": ["src/core/utils/callbacks.cpp", "include/crocoddyl/core/utils/callbacks.hpp"]}
{"id": "C106", "title": "SolverIpopt reports Ipopt's answer", "statement": "After solve of the Ipopt solver, the states, controls, cost and iteration count are those of Ipopt's final point; the answer true means a candidate whose gaps, initial state and control limits hold to Ipopt's tolerances and whose cost is the reported one; the feasibility flag tells whether the candidate is feasible; the tolerance and iteration bound given to the solver are the ones Ipopt uses; and the problem that is solved is the current one.", "quantifier": "all problems, guesses, behaviours of Ipopt within its documented contract, and histories of solves and settings", "why_tests_cant": "Tests solve a handful of small problems to convergence and compare with other solvers.", "anchors": ["src/core/solvers/ipopt.cpp", "include/crocoddyl/core/solvers/ipopt.hpp", "src/core/solvers/ipopt/ipopt-iface.cpp"]}
{"id": "C107", "title": "Name sets and item maps behave in Python as sets, sequences and dicts", "statement": "The name sets the containers hand to Python answer add, remove, discard, clear, len, in, indexing, slicing, deletion and item assignment as Python's set of the same strings, read in increasing order, would: the same elements, the same answers and exceptions, and never a read past the end. Pickling gives the set back; a Python set of strings is accepted where a name set is expected and becomes the set of its elements; a dict of named items becomes the map with the same entries and back.", "quantifier": "all name sets, all sequences of calls with arbitrary integer indices, slice bounds and objects, all Python sets and dicts", "why_tests_cant": "Tests index a two-element set at a few positions; the sequences of calls and index combinations are unbounded.", "anchors": ["bindings/python/crocoddyl/utils/set_indexing_suite.hpp", "bindings/python/crocoddyl/utils/set-converter.hpp", "bindings/python/crocoddyl/utils/map-converter.hpp", "bindings/python/crocoddyl/crocoddyl.cpp.in"]}
{"id": "C108", "title": "A code-generated action model computes what the wrapped model computes", "statement": "After generating code for an action model, each call of calc, calcDiff and quasiStatic, at running and terminal nodes, fills the data with exactly what the wrapped model computes for the same state, control and for the parameters last set on the data, whatever calls were made on the data before, and leaves the other parts of the data alone; this holds with and without constraints, and arguments of a wrong size are rejected with an exception.", "quantifier": "all action models of any sizes, numbers of parameters and constraints, all histories of calls on the data, all states, controls and parameters", "why_tests_cant": "Tests compare one arm and one legged model without constraints at random points; the sizes, the histories of calls and the constraint layouts are unbounded.", "anchors": ["include/crocoddyl/core/codegen/action.hpp", "include/crocoddyl/core/codegen/action.hxx:ActionModelCodeGenTpl"]}
{"id": "C109", "title": "Automatic derivatives of a code-generated model are the derivatives of its calc", "statement": "In automatic-differentiation mode calcDiff fills the data with the first derivatives of the next state, the cost and the constraints and the second derivatives of the cost, each in its own matrix with the rows and columns of the state and the control, at running and terminal nodes, for every kind of state and for copies of the model as well.", "quantifier": "all action models of any sizes, all histories of calls, all points, given a library that returns the Jacobian and the Hessian of the recorded function", "why_tests_cant": "The positions of the derivatives in the library's flat arrays depend on all the sizes at once; tests use one or two size combinations.", "anchors": ["include/crocoddyl/core/codegen/action.hpp:ActionDataCodeGenTpl::set_D1", "include/crocoddyl/core/codegen/action.hxx:ActionModelCodeGenTpl::calcDiff"]}
{"id": "C110", "title": "Every code-generated model computes its own functions, whatever other models were generated", "statement": "Generating, copying, casting, loading and destroying code-generated models in any order leaves every model computing the functions of the model it wraps, and a copy computes the same as the original.", "quantifier": "all histories of generating, copying, loading and destroying models, all library names, loaders that reuse a loaded library and loaders that do not", "why_tests_cant": "The outcome depends on the history of library files and of loaded libraries; a test exercises one history.", "anchors": ["include/crocoddyl/core/codegen/action.hxx:ActionModelCodeGenTpl::loadLib", "include/crocoddyl/core/codegen/action.hxx:ActionModelCodeGenTpl::compileLib"]}
{"id": "C111", "title": "What the CSV writer writes can be read back", "statement": "A reader of the CSV format recovers, from the file written by any sequence of strings, numbers and row ends, exactly the rows and the fields that were written, also when the strings contain quotes, separators and line ends, and also for the row that is still open.", "quantifier": "all sequences of writes, all strings, all separators", "why_tests_cant": "The escaping has to hold for every string; tests write a few plain ones.", "anchors": ["include/crocoddyl/core/utils/file-io.hpp:CsvStream"]}
{"id": "C112", "title": "The rotation between two vectors turns one into the other", "statement": "rotationMatrixFromTwoVectors returns a rotation matrix for any two vectors; for nonzero vectors it maps the direction of the first to the direction of the second and leaves their common normal where it is.", "quantifier": "all pairs of vectors in space", "why_tests_cant": "The formula has to hold on a continuum of pairs and it has singular cases that random tests never hit.", "anchors": ["bindings/python/crocoddyl/__init__.py:rotationMatrixFromTwoVectors"]}
{"id": "C113", "title": "Playing back a solution shows each state with its own forces", "statement": "displayFromSolver shows the states in the order of the trajectory, each together with the contact forces and thrusts of its own node and no others, for as long as the node lasts, whatever the kinds of nodes of the problem; the time sequence returned has one entry per state, the sum of the durations before it; and with a display rate the play-back still takes the time of the motion.", "quantifier": "all problems mixing contact, impulse, contact-free and other nodes and integrators, all numbers of contacts and thrusters, all display rates", "why_tests_cant": "What is shown at one frame depends on the kinds of all the earlier nodes; tests have no viewer.", "anchors": ["bindings/python/crocoddyl/__init__.py:DisplayAbstract.displayFromSolver", "bindings/python/crocoddyl/__init__.py:DisplayAbstract.display", "bindings/python/crocoddyl/__init__.py:DisplayAbstract.getForceTrajectoryFromSolver", "bindings/python/crocoddyl/__init__.py:DisplayAbstract.getThrustTrajectoryFromSolver"]}
{"id": "C114", "title": "The double pendulum cost returns its own derivatives and the actuation feeds the chosen link", "statement": "For the double pendulum cost of the Python utilities, calc followed by calcDiff returns the gradient and the Hessian of the cost computed, whatever calls the same data has seen before, for every activation and also without one; the actuation applies the control to the link it was built for and to no other, and the commands recovered from a torque are the control.", "quantifier": "all states, all activations of the cost, all earlier calls on the data, both links", "why_tests_cant": "The derivatives are compared on a continuum of states and depend on what earlier calls left in the shared matrices; tests check random states with the one activation of the example.", "anchors": ["bindings/python/crocoddyl/utils/pendulum.py:CostModelDoublePendulum", "bindings/python/crocoddyl/utils/pendulum.py:ActuationModelDoublePendulum"]}
{"id": "C115", "title": "A model written in Python is called with what the solver passed", "statement": "When a class is derived in Python, each call of calc or calcDiff reaches the Python method exactly once, with the state and the control of the caller; a call without a control (terminal node) reaches it without a control; vectors of a wrong size raise and do not reach it; and casting the model to another scalar type keeps its numbers of controls, residuals and constraints.", "quantifier": "all kinds of models that can be derived in Python, all numbers of controls including zero, all states and controls including NaN", "why_tests_cant": "The wrapper decides from the value of the control whether the node is terminal; tests pass random finite controls of a fixed number.", "anchors": ["bindings/python/crocoddyl/core/action-base.hpp:ActionModelAbstractTpl_wrap", "bindings/python/crocoddyl/core/diff-action-base.hpp:DifferentialActionModelAbstractTpl_wrap", "bindings/python/crocoddyl/core/residual-base.hpp", "bindings/python/crocoddyl/core/cost-base.hpp", "bindings/python/crocoddyl/core/constraint-base.hpp", "bindings/python/crocoddyl/core/integ-action-base.hpp", "bindings/python/crocoddyl/core/actuation-base.hpp"]}
{"id": "C116", "title": "A state written in Python gives the solver the values and Jacobians its methods return", "statement": "For a state class derived in Python, diff, integrate and JintegrateTransport return what the Python methods return, Jdiff and Jintegrate put each returned Jacobian in the matrix asked for (set, added or subtracted as asked) and leave the other one alone, the variants that return a list give the Jacobians asked for in order, and arguments of a wrong size raise.", "quantifier": "all Python states of any dimensions, all matrices returned, all three choices of component, all assignment operators, all previous contents of the outputs", "why_tests_cant": "Tests use states whose two Jacobians happen to be read one at a time; the outcome depends on component, operator and both matrices.", "anchors": ["bindings/python/crocoddyl/core/state-base.hpp:StateAbstractTpl_wrap", "include/crocoddyl/core/state-base.hxx:Jdiff_Js", "include/crocoddyl/core/state-base.hxx:Jintegrate_Js"]}
{"id": "C117", "title": "A control parametrization written in Python gives the solver the products its methods return", "statement": "For a parametrization derived in Python, convertBounds returns the two bounds of the Python method, multiplyByJacobian and its transpose set, add or subtract the returned product in the output, and the variants that return the product by value return a matrix that depends on the product only.", "quantifier": "all parametrizations of any sizes, all matrices, all assignment operators, all previous contents of memory", "why_tests_cant": "The variants returning a value are tested with the default operator only, and uninitialised memory is often zero.", "anchors": ["bindings/python/crocoddyl/core/control-base.hpp:ControlParametrizationModelAbstractTpl_wrap", "include/crocoddyl/core/control-base.hxx:multiplyByJacobian_J", "include/crocoddyl/core/control-base.hxx:multiplyJacobianTransposeBy_J"]}
{"id": "C118", "title": "Nodes with parts written in Python are evaluated by one thread", "statement": "Whatever models, datas and problems a program creates, copies and edits, a shooting problem with a running node that has a part written in Python evaluates its nodes with one thread; a program without Python parts gets all threads, and set_nthreads gives the number asked for.", "quantifier": "all histories of building, copying and editing problems with any mixture of C++, Python and code-generated parts, all numbers of threads", "why_tests_cant": "The number of threads depends on a process-wide switch and so on everything the program did before; a test exercises one history, usually in a fresh process.", "anchors": ["include/crocoddyl/core/fwd.hpp:enableMultithreading", "include/crocoddyl/core/optctrl/shooting.hxx:ShootingProblemTpl", "include/crocoddyl/core/optctrl/shooting.hxx:set_nthreads", "include/crocoddyl/core/codegen/action.hxx:createData", "bindings/python/crocoddyl/core/action-base.hpp:createData", "bindings/python/crocoddyl/core/constraint-base.hpp:createData"]}
{"id": "C119", "title": "A gait problem makes each foot take its step while the others stand", "statement": "The walking, trotting, pacing and bounding problems of the quadruped utility and the walking problem of the biped utility consist of support phases and steps in the order of the gait: during a step the swinging feet are tracked along an evenly advancing path that rises to the step height and returns to the ground, all other feet are held, the reference of the centre of mass stays over the middle of the feet, and the feet land on footprints one step ahead (half a step for the first legs of the first problem); the numbers of nodes and the duration follow from the numbers of knots, for any numbers of knots.", "quantifier": "all robots (positions of the feet), step lengths and heights, time steps and numbers of knots, all gaits, first and later problems", "why_tests_cant": "The references follow from arrays updated in place from step to step; tests build one problem with one number of knots and do not look at the references.", "anchors": ["bindings/python/crocoddyl/utils/quadruped.py:SimpleQuadrupedalGaitProblem.createFootstepModels", "bindings/python/crocoddyl/utils/quadruped.py:createWalkingProblem", "bindings/python/crocoddyl/utils/quadruped.py:createTrottingProblem", "bindings/python/crocoddyl/utils/quadruped.py:createPacingProblem", "bindings/python/crocoddyl/utils/quadruped.py:createBoundingProblem", "bindings/python/crocoddyl/utils/biped.py:SimpleBipedGaitProblem.createWalkingProblem"]}
{"id": "C120", "title": "A jump lands its feet and its centre of mass where it was asked to", "statement": "The jumping problems stand, fly up along a straight line to the apex, fly down, land with all feet displaced by the jump asked for and stand with the centre of mass over the landed feet; the arguments of the caller are left as they were, so that building the problem twice gives the same problem; the motions of the centre of mass reach the goals asked for with all feet held.", "quantifier": "all robots, jumps, heights, time steps and numbers of knots, quadrupeds and bipeds", "why_tests_cant": "The jump array is shared with the caller; tests build each problem once, with a fresh array.", "anchors": ["bindings/python/crocoddyl/utils/quadruped.py:createJumpingProblem", "bindings/python/crocoddyl/utils/biped.py:createJumpingProblem", "bindings/python/crocoddyl/utils/quadruped.py:createCoMProblem", "bindings/python/crocoddyl/utils/quadruped.py:createCoMGoalProblem"]}
{"id": "C121", "title": "Observing a solve does not change it", "statement": "Attaching loggers and verbose callbacks to a solver, however many and in whatever order, changes neither the iterates, the regularization, the stopping values nor the result of a solve; a logger makes one record per iteration, numbered by the iteration, of the state, stopping value and gradient the solver itself used in that iteration.", "quantifier": "all problems, starting points, numbers of iterations and lists of callbacks, for the DDP, box DDP, FDDP, Intro and KKT solvers", "why_tests_cant": "The logger recomputes the stopping value and the expected improvement and so writes into the solver; a test would have to compare whole solves with and without it, from infeasible starts and with failing trial steps.", "anchors": ["bindings/python/crocoddyl/__init__.py:CallbackLogger", "src/core/solvers/ddp.cpp:SolverDDP::solve", "src/core/solvers/ddp.cpp:SolverDDP::stoppingCriteria", "src/core/solvers/fddp.cpp:SolverFDDP::expectedImprovement", "src/core/solvers/intro.cpp:SolverIntro::solve", "src/core/solvers/kkt.cpp:SolverKKT::solve", "src/core/utils/callbacks.cpp:CallbackVerbose::print"]}
{"id": "C122", "title": "Linear-quadratic problems are solved in two iterations", "statement": "For a problem with affine dynamics and convex quadratic costs (strictly convex in the controls), solve without regularization and with the full step tried first returns true after at most two iterations, whatever the guess, and its states, controls and cost are those of the only optimal trajectory from the initial state.", "quantifier": "all horizons, state and control dimensions, problem data, guesses (feasible or not), limits of at least two iterations and parameters within their ranges, for the DDP and FDDP solvers", "why_tests_cant": "The optimum and the acceptance of the full step depend on the problem and on the gaps of the guess; tests run a few random problems to convergence and compare with a tolerance.", "anchors": ["src/core/solvers/ddp.cpp:SolverDDP::solve", "src/core/solvers/fddp.cpp:SolverFDDP::solve", "src/core/solvers/ddp.cpp:SolverDDP::calcDiff", "src/core/solver-base.cpp:SolverAbstract::computeDynamicFeasibility", "include/crocoddyl/core/actions/lqr.hxx:ActionModelLQRTpl"]}
{"id": "C123", "title": "Linear-quadratic problems with equality constraints are solved in two iterations", "statement": "For a problem with affine dynamics, convex quadratic costs (strictly convex in the controls) and linear equality constraints whose control Jacobians have full row rank, the solver with constraint resolution, started without regularization and trying the full step first, returns true after at most two iterations; its states and controls follow the dynamics from the initial state, satisfy every constraint and are the only optimal ones among all such trajectories.", "quantifier": "all horizons, dimensions, numbers of constraints per node (also none), problem data, resolutions (null space by LU or QR, Schur), norms of the feasibility measure, guesses, merit weights that are not negative and parameters within their ranges", "why_tests_cant": "Optimality among all admissible trajectories and the decisions of the merit function depend on the problem and the guess; tests compare a few random problems with a tolerance.", "anchors": ["src/core/solvers/intro.cpp:SolverIntro::solve", "src/core/solvers/intro.cpp:SolverIntro::computeGains", "src/core/solvers/intro.cpp:SolverIntro::computeValueFunction", "src/core/solver-base.cpp:SolverAbstract::computeEqualityFeasibility", "include/crocoddyl/core/actions/lqr.hxx:ActionModelLQRTpl"]}
{"id": "C124", "title": "The stopping value vanishes exactly at stationary points", "statement": "From a candidate that follows the dynamics the stopping value of an iteration is zero if and only if the controls are a first-order stationary point of the total cost of the rollout (with control limits: no admissible direction decreases it), and then the candidate left by the iteration is that point.", "quantifier": "all horizons, dimensions, smooth dynamics and costs on any state space, regularizations, symmetric Hessians, limits and thresholds", "why_tests_cant": "Equivalence with the derivative of the total cost is a statement about all smooth problems and all directions; tests look at the stopping value of a few converged runs.", "anchors": ["src/core/solvers/ddp.cpp:SolverDDP::stoppingCriteria", "src/core/solvers/ddp.cpp:SolverDDP::expectedImprovement", "src/core/solvers/ddp.cpp:SolverDDP::backwardPass", "src/core/solvers/ddp.cpp:SolverDDP::solve", "src/core/solvers/box-ddp.cpp:SolverBoxDDP::computeGains", "src/core/solvers/box-ddp.cpp:SolverBoxDDP::forwardPass"]}
{"id": "C125", "title": "The stopping value of Intro vanishes exactly at the KKT points", "statement": "From a candidate that follows the dynamics the stopping value of SolverIntro is zero if and only if the candidate satisfies every equality constraint, running and terminal, and the Karush-Kuhn-Tucker conditions of the constrained problem: no first-order move of the controls that keeps the constraints changes the total cost. The gradients of the value function are then the costates.", "quantifier": "all horizons, dimensions, derivatives, constraint counts per node, regularizations, equality solvers and feasibility norms", "why_tests_cant": "Optimality under constraints ranges over all directions in the kernel of the constraints for every problem; a test sees one value of one converged run.", "anchors": ["src/core/solvers/intro.cpp:SolverIntro::stoppingCriteria", "src/core/solvers/intro.cpp:SolverIntro::computeGains", "src/core/solvers/intro.cpp:SolverIntro::computeValueFunction", "src/core/solvers/intro.cpp:SolverIntro::calcDiff", "src/core/solver-base.cpp:SolverAbstract::computeEqualityFeasibility", "src/core/solvers/fddp.cpp:SolverFDDP::updateExpectedImprovement"]}
{"id": "C126", "title": "KKT solves convex linear-quadratic problems in one step", "statement": "On a linear-quadratic problem with convex costs and positive definite control costs SolverKKT reaches the unique optimal trajectory in its first iteration from any guess, feasible or not provided it is not wrongly declared feasible, and after any earlier use of the solver; with at least two iterations allowed it reports convergence after one iteration or two, and the reported cost is that of the optimum.", "quantifier": "all horizons, dimensions, dynamics, convex costs, guesses, earlier contents of the system, thresholds and step lists starting at one", "why_tests_cant": "The claim compares the returned trajectory with every other trajectory of every convex problem; a test compares one run with one reference.", "anchors": ["src/core/solvers/kkt.cpp:SolverKKT::solve", "src/core/solvers/kkt.cpp:SolverKKT::computeDirection", "src/core/solvers/kkt.cpp:SolverKKT::tryStep", "src/core/solvers/kkt.cpp:SolverKKT::stoppingCriteria", "src/core/solvers/kkt.cpp:SolverKKT::expectedImprovement", "src/core/solvers/kkt.cpp:SolverKKT::calcDiff", "include/crocoddyl/core/actions/lqr.hxx:ActionModelLQRTpl"]}
{"id": "C127", "title": "Casting a container keeps its items and what it reports", "statement": "cast of a cost sum, contact, impulse or constraint container returns a container with the same items under the same names, the same status of every item, the same lists of active and inactive names, the same reported dimensions and the same evaluation mode, whatever was added, removed or switched before.", "quantifier": "every history of additions, removals and status changes, every number and order of names", "why_tests_cant": "The copy is rebuilt item by item, so it agrees with the original only if the bookkeeping of every history is canonical; tests cast fresh containers.", "anchors": ["include/crocoddyl/core/costs/cost-sum.hxx:CostModelSumTpl::cast", "include/crocoddyl/multibody/contacts/multiple-contacts.hxx:ContactModelMultipleTpl::cast", "include/crocoddyl/multibody/impulses/multiple-impulses.hxx:ImpulseModelMultipleTpl::cast", "include/crocoddyl/core/constraints/constraint-manager.hxx:ConstraintModelManagerTpl::cast"]}
{"id": "C128", "title": "Casting a forward-dynamics model keeps its motion", "statement": "The model returned by cast of the free, contact and impulse forward dynamics moves like the original: same acceleration or velocity after impact, same forces, same control limits, whatever armature, damping, restitution or limits were set before.", "quantifier": "every history of setters, all dimensions, robots, torques, contacts and impacts", "why_tests_cant": "Needs every setting combined with cast and every robot; tests cast models with the settings of the constructor.", "anchors": ["include/crocoddyl/multibody/actions/free-fwddyn.hxx:cast", "include/crocoddyl/multibody/actions/contact-fwddyn.hxx:cast", "include/crocoddyl/multibody/actions/impulse-fwddyn.hxx:cast", "include/crocoddyl/multibody/actions/free-fwddyn.hxx:set_armature"]}
{"id": "C129", "title": "Casting keeps the numbers of a model", "statement": "Casting a model between float and double keeps its numbers: a float model cast to double and back is identical, a float copy cast further does not change any more, lower limits stay below upper limits, positive numbers stay positive, finite ones stay finite and close, and an integrated model keeps its time step, scheme, residual flag and control limits.", "quantifier": "all numbers of the two formats, vectors of all sizes, every history of setters of an integrated model", "why_tests_cant": "Needs every float and double, including subnormal and huge ones; tests use random models with moderate numbers.", "anchors": ["include/crocoddyl/core/utils/conversions.hpp:scalar_cast", "include/crocoddyl/core/integrator/euler.hxx:IntegratedActionModelEulerTpl::cast", "include/crocoddyl/core/integrator/rk.hxx:IntegratedActionModelRKTpl::cast", "include/crocoddyl/core/integ-action-base.hxx:init"]}
{"id": "C130", "title": "Casting a shooting problem gives the same problem", "statement": "cast of a shooting problem returns a problem with the cast initial state, the same horizon, the cast of the model at every node and the same number of threads, and the same changes made afterwards to both through any node keep them equal.", "quantifier": "every horizon, every way of sharing models between nodes, every sequence of later changes and of thread requests", "why_tests_cant": "Needs every pattern of shared models with every later change; tests only evaluate the copy once.", "anchors": ["include/crocoddyl/core/optctrl/shooting.hxx:ShootingProblemTpl::cast", "include/crocoddyl/core/optctrl/shooting.hxx:set_nthreads", "include/crocoddyl/core/utils/conversions.hpp:vector_cast"]}
{"id": "C131", "title": "Casting an activation keeps its function", "statement": "The activation returned by cast to the same scalar type gives the same value, gradient and Hessian at every residual as the original, whatever weights, bounds or threshold were set before.", "quantifier": "all nine activations, every history of setters and calls, all dimensions and residuals", "why_tests_cant": "Needs every setting combined with cast and every residual; tests cast freshly built activations.", "anchors": ["include/crocoddyl/core/activations/quadratic-barrier.hpp:cast", "include/crocoddyl/core/activations/weighted-quadratic.hpp:cast", "include/crocoddyl/core/activations/quadratic-flat-exp.hpp:set_alpha", "include/crocoddyl/core/activations/2norm-barrier.hpp:cast"]}
{"id": "C132", "title": "The search direction does not depend on the units", "statement": "Multiplying all costs of a problem by a positive number leaves the feed-forward and feedback gains of the backward pass unchanged and multiplies the value function, the expected improvement and the stopping measure by that number; writing the controls of a node in another basis gives the same feedback law in the original controls, the same value function and the same expected improvement.", "quantifier": "all horizons, dimensions, derivatives, gaps and regularizations, every positive factor and every invertible change of basis per node", "why_tests_cant": "An invariance over all problems, factors and bases; tests solve each problem in one unit.", "anchors": ["src/core/solvers/ddp.cpp:backwardPass", "src/core/solvers/ddp.cpp:computeGains", "src/core/solvers/ddp.cpp:expectedImprovement", "src/core/solvers/fddp.cpp:updateExpectedImprovement"]}
{"id": "C133", "title": "Inequality constraints are compared with their own bounds", "statement": "After any sequence of evaluations of the nodes, in any order, the inequality feasibility the solver computes compares the values of every active constraint of a node with the bounds of that constraint, also when several nodes use the same model, and no evaluation writes outside the vectors of bounds and values.", "quantifier": "all problems, sets of constraints, statuses and dimensions, all assignments of models to nodes and all sequences of evaluations", "why_tests_cant": "The bounds live in the models and the values in the datas; tests check one model with one data.", "anchors": ["include/crocoddyl/core/constraints/constraint-manager.hxx:calc", "include/crocoddyl/core/constraints/constraint-manager.hxx:get_lb", "src/core/solver-base.cpp:computeInequalityFeasibility", "include/crocoddyl/core/optctrl/shooting.hxx:calc"]}
{"id": "C134", "title": "A container of constraints follows changes of their bounds", "statement": "After any history of adding, removing and switching constraints and of update_bounds and remove_bounds on constraints it holds, a container reports as numbers of inequalities and equalities, for running and terminal nodes, the sums over its active constraints, and evaluating it stays inside data of the reported sizes.", "quantifier": "every finite sequence of calls, with arbitrary names, sizes and statuses", "why_tests_cant": "Unbounded histories that mix calls on the container and on the constraints it shares with the caller.", "anchors": ["include/crocoddyl/core/constraint-base.hxx:remove_bounds", "include/crocoddyl/core/constraint-base.hxx:update_bounds", "include/crocoddyl/core/constraints/constraint-manager.hxx:addConstraint", "include/crocoddyl/core/constraints/constraint-manager.hxx:removeConstraint", "include/crocoddyl/core/constraints/constraint-manager.hxx:changeConstraintStatus"]}
{"id": "C135", "title": "The force of a contact acts at the contact's frame", "statement": "Whatever changes of frame and type a contact has seen, the generalised force its contact force produces in the dynamics is the transpose of the contact Jacobian computed by calc times the force.", "quantifier": "all robots, frames, kinematics and forces, the 1D, 2D, 3D and 6D contacts and every history of set_id, set_type and createData", "why_tests_cant": "Mixes settings of the model with what the data remembers, over all histories; tests never change the frame.", "anchors": ["include/crocoddyl/multibody/contact-base.hxx:set_id", "include/crocoddyl/multibody/contact-base.hxx:set_type", "include/crocoddyl/multibody/contacts/contact-3d.hxx:updateForce", "include/crocoddyl/multibody/contacts/multiple-contacts.hxx:updateForce"]}
{"id": "C136", "title": "The search direction does not depend on the coordinates of the state", "statement": "Writing the increments of the state in another basis, with the derivatives and gaps transformed accordingly, changes neither the success of the backward pass nor the feedback law, the value function or the expected improvements of DDP and FDDP, once written in the same coordinates.", "quantifier": "all horizons, problems, gaps, regularizations, feasible or not, and every invertible change of basis", "why_tests_cant": "Relates two runs over all problems, horizons and bases; tests run each problem in one set of coordinates.", "anchors": ["src/core/solvers/ddp.cpp:backwardPass", "src/core/solvers/ddp.cpp:expectedImprovement", "src/core/solvers/fddp.cpp:updateExpectedImprovement", "src/core/solvers/fddp.cpp:expectedImprovement"]}
{"id": "C137", "title": "The limits of a state are those the user set, also in its casts", "statement": "After any history of set_lb, set_ub and casts, get_lb and get_ub return the last bounds of the right size or those of the constructor, a bound of the wrong size changes nothing, and has_limits says whether one of the bounds is a number; a robot's state starts with the limits of the robot.", "quantifier": "all vector, multibody and numerically differentiated states, all robots' limits, all bounds including infinities and NaN, and every history of setters and casts", "why_tests_cant": "Ranges over all histories and sizes; the tests of casts compare the functions of the manifold on states without user limits.", "anchors": ["include/crocoddyl/core/state-base.hxx:set_lb", "include/crocoddyl/core/state-base.hxx:update_has_limits", "include/crocoddyl/core/states/euclidean.hxx:cast", "include/crocoddyl/multibody/states/multibody.hxx:cast", "include/crocoddyl/core/numdiff/state.hxx:StateNumDiffTpl"]}
{"id": "C138", "title": "A model that wraps another one is bound by the limits of the wrapped model", "statement": "An integrated, code-generated or numerically differentiated model reports the bounds of the inequality constraints and (converted) the control limits of the model it wraps, after any setters called on the wrapped model; bounds set on the wrapper are the ones it reports; wrapping never changes the wrapped model; replacing the wrapped model makes the wrapper report the limits of the new one.", "quantifier": "all numbers of controls and inequalities, all bounds including infinities, all conversions of control bounds, and every history of setters on the wrapper and on the wrapped model", "why_tests_cant": "Ranges over all histories of setters on two objects; the tests of the wrappers use models without limits.", "anchors": ["include/crocoddyl/core/action-base.hxx:set_g_lb", "include/crocoddyl/core/integ-action-base.hxx:init", "include/crocoddyl/core/integ-action-base.hxx:get_g_lb", "include/crocoddyl/core/integ-action-base.hxx:set_differential", "include/crocoddyl/core/codegen/action.hxx:ActionModelCodeGenTpl", "include/crocoddyl/core/codegen/action.hxx:get_g_lb", "include/crocoddyl/core/numdiff/action.hxx:ActionModelNumDiffTpl", "include/crocoddyl/core/numdiff/diff-action.hxx:DifferentialActionModelNumDiffTpl"]}
