# Formal model of crocoddyl: design

The target is loco-3d/crocoddyl, a C++ library for optimal control by shooting
(DDP-type solvers).  The sources in `/repo` are read as text; nothing is built
or run.  This document says what is modelled, how each property of
`properties.jsonl` is stated and proved, and what has to be trusted.

## 1. Conventions

* **Layout.**  Each topic `X` has up to three files in `rocq/theories`:
  `X_Model.v` (definitions only, each citing the `/repo` file and lines it
  models), `X_Proofs.v` (lemmas) and `X_Props.v` (the property theorems, each
  closed by `exact lemma`, followed by `Print Assumptions` and by `Example`s
  that exhibit a concrete non-trivial case meeting the hypotheses).
  The specification against which a model is compared is a separate set of
  definitions, kept in `X_Spec.v` or in a clearly marked section of the
  `_Props.v` file, and does not mention the model's helper functions.
* **Outcomes.**  A C++ call that can throw or run into undefined behaviour is a
  total function into `outcome S A` (`Common.v`): `Ok`, `Throw` (with the state
  the object is left in) and `UB`.
* **Naming.**  `..._partial`: the proved statement is weaker than the property,
  the comment says what is missing.  `..._refuted`: the property as stated is
  false of the faithful model, the theorem exhibits a witness.  A refuted
  property also gets the strongest positive theorem that does hold.
* **Scalars.**
  (a) bookkeeping code: lists, `nat`, `Z` with explicit wrap modulo 2^64 for
      `std::size_t` counters that can underflow;
  (b) control flow of the solvers: parametric in an abstract scalar with oracles
      for the numerical sub-steps, or an extended scalar with NaN and infinities
      where comparisons with NaN matter;
  (c) linear algebra: mathcomp matrices over an arbitrary ordered field, i.e.
      exact arithmetic; rounding is not modelled;
  (d) derivatives: Coquelicot's `is_derive` over the reals (axioms of the
      standard library's reals).

## 2. Trusted base

* Coq 8.16.1's kernel and the standard library axioms listed by the
  `Print Assumptions` commands in the `_Props.v` files (summarised in section 5).
* That the `_Model.v` definitions say what the cited C++ lines do.  The
  simplifications are listed beside each definition and in section 4.
* Exact arithmetic stands for floating point everywhere except in the
  NaN-aware models (setters, `raiseIfNaN`, bounds).

## 3. Properties

| id | file | how |
|----|------|-----|
| C01-C06 | `Shooting_*` | nodes are abstract (calc oracle, nx, ndx, data tags); histories are lists of operations folded over the problem; induction |
| C07 | `SolverBase_*` | trajectory as lists of sized vectors; every history of set calls |
| C08-C10 | `Feasibility_*` | norms as folds over an ordered domain, compared with max/sum specifications |
| C61 | `Containers_*` | data buffers and the views taken by resize, out-of-bounds views are UB |
| C11 | `Params_*` | extended floats with NaN; invariant over setter histories |
| C12-C19, C27 | `Solver_*`, `SolverLoop_Proofs`, `SolverReg_Proofs`, `SolverStop_Props`, `SolverWitness_Props` | main loops and forward passes of DDP, FDDP, BoxDDP, BoxFDDP over oracles for the backward pass; fuelled retry loop (out of fuel is a separate outcome); invariant by induction over iterations; counterexamples computed on a scalar instance (`Solver_Scalar`) |
| C20-C23 | `LinAlg*`, `Riccati_*`, `RiccatiLQ_Proofs`, `RiccatiWitness_Props` | mathcomp matrices over any real field, one control dimension per node; the Cholesky test is modelled by its pivots and proved equivalent to positive definiteness; the cost of any control sequence is expanded around the candidate by induction over the horizon (completed squares) |
| C24-C26, C62 | `BoxQP_*`, `BoxQPWitness_Props` | mathcomp column vectors over a real field, bounds may be infinite, free indices as a finite set with gather/scatter; the number of iterations is the structural argument |
| C75 | `SolverSync_*`, `KKTLoop_*` | the point of the last calcDiff is part of the solver state; invariant over the run |
| C13, C17, C75, C76, C87 (SolverKKT) | `KKTLoop_*` | main loop of SolverKKT over oracles for the assembled system and its solution; evaluations may throw; counterexamples on a scalar instance whose direction is proved to solve the system |
| C28, C74 | `KKT_*` | the matrix and vector as functions of indices written block by block, as the code does; spec by stage (quadratic model, linearised dynamics, Lagrangian); the LU solve is replaced by "any solution" |
| C29, C78 | `Intro_*` | mathcomp matrices; the rank-revealing factorisations are contracts for a `Hu` of full row rank |
| C30, C77 (and C12, C13, C15-C17, C75 for SolverIntro) | `IntroLoop_*` | SolverIntro::solve over the step functions of `Solver_Model`; calls, weight updates and accepted steps are logged |
| C31-C33, C63, C65 | `Integrator_*`, `IntegratorTerm_*`, `IntegratorRK_Proofs`, `IntegratorStep_Proofs`, `IntegratorPsd_Proofs` | Coquelicot derivatives along every curve of states and controls; the step compared with a tableau interpreter; Hessian blocks as congruences |
| C34-C35 | `VecMat`, `ControlParam_*` | real vectors and matrices as functions of the indices; Lagrange interpolation as specification; invariant over histories of calls |
| C36-C38 | `Deriv`, `Activation_*` | Coquelicot derivatives along every curve (gradient) and second derivatives per component; histories of one model shared by several datas |
| C39 | `ActBounds_*` | extended floats with infinities and NaN |
| C40-C44 | `Containers_*` | association lists sorted by name, `Z` counters modulo 2^64 |
| C45 | `LQR_*` | sized real matrices; one model shared by several datas, histories of calls; checkPSD as the quadratic-form condition on the lower triangle |
| C46 | `Unicycle_*` | real vectors and matrices, Coquelicot derivatives, histories of calls |
| C47, C66-C69 | `NumDiff_*` | the disturbance vectors are part of the state of the loops; difference quotients by induction over the loops, then evaluated on linear-quadratic data and in the limit |
| C48-C51 | `Cones_*` | real vectors, trigonometric facet directions; histories of setters and update; a force is compared with the Coulomb cone of the frame (nearest-facet argument), a wrench with finite lists of contact forces in the box; exactness for 4 facets by constructing vertex forces |
| C52-C54, C71-C73 | `Ipopt_*` | the interface as a state machine (candidate, offsets, dimensions, node data); arrays as lists of writes or of values, index arithmetic on `nat`; nodes are arbitrary records of functions over reals; the Ipopt library itself is not modelled |
| C55-C57, C70 | `Actuation_*` | real vectors and matrices; histories of calls over one model and its datas; derivatives along every curve |
| C58 | `Residual_*` | block matrices with stale-buffer histories |
| C79-C82 | `Spatial`, `Spatial_Proofs`, `Contact_*` | spatial algebra over real 3-vectors; Pinocchio's kinematic quantities at a frame are a record, and the contract between them along a curve of configurations and velocities (`Contact_Spec.moves`) is a hypothesis shown satisfiable by a turning body; exact derivatives along every such curve |
| C83 | `MultiContact_*` | stacking loops over lists of contacts of any dimension and status; joint forces as spatial vectors, duality with the Jacobian by induction over the list |
| C84-C86 | `Implicit`, `FwdDyn_*` | equations of motion as linear systems; Pinocchio's solvers and RNEA/ABA derivatives are contracts along a curve (`FwdDyn_Spec`), shown satisfiable by a turning body with a contact and by a sliding mass; derivatives by implicit differentiation of the contact system (`Implicit.implicit_derivative`, proved from the definition of the derivative), composed with C79-C83 |
| C88, C89 | `InvDyn_*` | inverse dynamics (free and contact) as the list of its active equality constraints; the control is (a, f) for all contacts, `rnea` a contract (`rnea_value`), the actuation a record with the properties used (`regular`), proved of the full and floating-base models after any calls and of aligned thrusters (`InvDyn_Thrust`); equivalence with `constrained_motion` of C85; derivatives by the lemmas of C85 with `compute_all_contacts`; refuted for inactive contacts, shared frames and tilted thrusters |
| C90 | `InvSet_*` | bookkeeping of the constraints of the inverse dynamics on top of `Containers_Model`: construction, calc, cast; names are strings, sizes are size_t modulo 2^64; invariant over histories of contact status changes, constraint manager calls and calc. Refuted: user constraint named "tau"; cast re-activates "tau" |
| C91 | `QuasiStatic_*` | the default Newton loop, the closed forms of the forward and inverse dynamics and the calls of the integrators. `pseudoInverse` (core/utils/math.hpp:42-63) is an oracle with the contract A P A = A; it cuts singular values below 1e-12 max(rows, cols) sigma_max and reads the first singular value of an empty matrix (not modelled). The debug test on the velocity is left out; RK multiplies the old control by 0 (a NaN would stay, reals do not show it). Refuted: Newton cycles, damping, squashing, stale Jacobian rows |
| C92 | `SolverThrow_*` | the loops of `Solver_Model` with a calcDiff that may throw at any node of any candidate (one thread); equality with `Solver_Model` without exceptions; invariant over the run with exceptions. Exceptions of calc are not modelled (a failing trial is the case f_ok = false). Refuted by a second solve that returns true at its guess |
| C93, C94 | `ForceRes_*` | a residual model (with its flag `update_jacobians_`) and a list of datas; operations create, set_reference, calc, calcDiff in any order; Jacobians are exact relative to the force derivatives the contact publishes. `set_reference` is assumed to keep the number of rows and ContactForce to have as many rows as the contact. Gravity residuals: contract that the gravity-derivative algorithm is the derivative of the gravity torque. Refuted: shared flag, turned planar contact, forces copied at construction, missing dtau_dx |
| C95, C96 | `StateMB_*`, `StateRes_*` | StateMultibody over a configuration space given by Pinocchio's difference, integrate and their derivatives (contract `lie`: exact along curves, block diagonal in the joints, only the blocks of the joints are written); sizes of arguments not modelled. The state and control residuals inside CostModelResidual with their own calcCostDiff. Instance: a robot with a configuration-dependent tangent frame. Refuted: matrices not zero before the call, root joint not first, state classes other than StateMultibody with a Jacobian other than the identity |
| C97 | `Fresh_*` | pinocchio::Data as a map from fields to values; each Pinocchio routine writes the fields its documentation lists (contract, section 4), each action calls the routines of its source in order, each residual reads the fields its accessors read. Proved over any content and history for the combinations of a table; refuted for every other combination on a concrete robot, whatever a new data contains |
| C98 | `Log3`, `KinRes_*` | The six residuals with the matrices kept by their setters; kinematic quantities as snapshots constrained along curves by the kinematics contract; the value and the Jacobian after any history against the frame, reference and type set last. `Log3` proves that the closed formulas of log3/log6 and their Jacobians meet the logarithm contract of C79 and C98 (angles strictly between 0 and pi; the Taylor branches near 0 and the branch near pi are not modelled) |
| C99 | `StopWatch_*` | Records as an association list, both clocks as readings attached to the calls, watchers with their binding. Invariant by induction over histories relating each record to the list of durations computed by a separate specification; counterexamples for the minimum and for pauses |
| C100 | `Walk_*` | A node is its support feet and references; createFootStepModels for any set of swinging feet and createWalkingProblem function by function over the reals; the invariant on the centre of mass by induction over knots and composition of the segments |
| C101 | `FinDiff_*` | The six wrappers over any manifold (integrate as a parameter) with explicit shared data and reevaluation functions; loops by induction against quotients along tangent directions, limits with Coquelicot filters, Gauss-Newton Hessians as limits of products; counterexamples for the uninitialised step, the shared data, and the unpublished values |
| C102 | `ConRes_*` | Bounds as extended scalars with NaN; constructors, update_bounds and remove_bounds as functions with exception and undefined outcomes; matrices carry their number of rows; histories of public calls with an invariant on the kind, the rows and the zero columns; counterexamples by computation |
| C103 | `JointRes_*` | One action with both residuals over any dynamics (acceleration or commands with their published Jacobians); histories of public calls with an invariant on references, flags and the constant blocks of the joint data; curves for the derivatives; counterexamples on a cart with friction |
| C104 | `PairCol_*` | Solids as sets of points, nearest points as an oracle with its minimality, joint Jacobian as the velocity of the body; envelope argument: the half squared distance is squeezed between two curves with the published derivative; counterexamples with a point over a floor and two links |
| C105 | `Verbose_*` | Text of header and rows as strings, layout of scientific and fixed notation, format state of the stream; rounding to digits is an oracle. Cells of equal width by string lemmas for every level; settings by induction; counterexamples computed |
| C106 | `IpoptSolver_*` | SolverIpopt over the interface of C52-C54: what Ipopt did (evaluations, final point, status, statistics) is an argument with a contract; invariants over histories of solves and settings; counterexamples on a one-dimensional problem |
| C107 | `PySet_*` | the Python class of name sets with Boost's index and slice conversion as a step function; refinement of every sequence of calls to membership and rank in the set; pickling, set and dict conversions as functions on lists of objects |
| C108 | `CodeGen_*` | recording, flat buffers and the data as list functions with out-of-range accesses undefined, the library as the recorded function; round trip of the layout and invariant (the input buffers hold the parameters last set) over all histories of calls |
| C109 | `CodeGen_*` | the library's Jacobian and Hessian as functions of row and column stored row by row; index arithmetic of the maps read back, for all sizes |
| C110 | `CodeGen_*` | files, loaded libraries and models alive as a state; invariant over histories of generate, copy, load, destroy |
| C111 | `Csv_*` | the bytes written as a list of characters, the escaping loop with its indices; round trip with an independent reader of the format, by induction over the writes |
| C112 | `TwoVectors_*` | the function over the reals; Rodrigues' formula as polynomial identities |
| C113 | `Display_*` | nodes by what the display looks at, the scene as a map from joints to the force shown; induction over the states with invariant on the position in the lists |
| C114 | `Pendulum_*` | the cost over the reals with the matrices kept between calls; derivatives along every curve of states, with an invariant on the entries never written |
| C115 | `PyBase_*` | the wrappers as functions from calls to the calls the Python object receives, exceptions distinct; the infinity norm of Eigen is a contract (0 for the empty vector, not NaN without NaN, NaN for NaNs only) |
| C116 | `PyBase_*` | Jacobians as matrices with sizes, Python results as a sum of vectors, matrices and lists; conversions raise on a wrong kind |
| C117 | `PyBase_*` | the same; uninitialised memory is an argument of the function |
| C118 | `Threads_*` | the process-wide switch and all problems as a state machine; invariant over all histories |
| C119 | `Gait_*` | problems as lists of node descriptions (held feet, references), arrays changed in place as a memory; refinement to a chain of support phases and steps, for all numbers of knots; over the reals |
| C120 | `Gait_*` | the same; the caller's array is a result of the function |
| C121 | `Observe_*` | the loops of the four solvers with the expected improvement and the stopping value explicit and the rest as oracles; runs with and without callbacks compared for all numbers of iterations; over the reals |
| C122 | `LQSolve_*`, `LQSolveWitness_Props` | the whole loops of DDP and FDDP (calcDiff, regularization, line search, tests) around the passes of `Riccati_Model` for linear-quadratic nodes; optimality among all trajectories of the same models; from C20-C23; over any real field |
| C123 | `IntroLQ_*`, `IntroLQWitness_Props` | the loop of SolverIntro (calcDiff, regularization, weight and merit tests, line search) around a backward pass built from `ibstep` of `Intro_Model`; optimality among all trajectories that satisfy the constraints; completion of the square on the kernel of Hu, from C29 and C78; over any real field |
| C124 | `Stop_*`, `StopWitness_Props` | backward pass, expected improvement, line search and stopping test of DDP and BoxDDP for any action models; the derivative of the rollout's cost along control directions is computed with costates by induction on the horizon, and compared with Qu; LLT and BoxQP by contract |
| C125 | `IntroStop_*`, `IntroStopWitness_Props` | backward pass of SolverIntro with the gains of `Intro_Model` (all three equality solvers), constraint violation and stopping value at a feasible candidate given by its derivatives; the first-order change of the cost along moves that keep the constraints is compared with the value function by induction on the horizon |
| C126 | `KKTLQ_*` | solve, direction, step, expected improvement and stopping test of SolverKKT around the assembly of `KKT_Model`, on problems with affine dynamics and quadratic costs; `LU` is an oracle that solves the non-singular systems of the problem; the first full step is shown to be the unique optimum and always accepted |
| C127 | `ContCast_*` | cast of the four containers of `Containers_Model` as the loop of additions in map order; canonical form of maps and sets, invariants of `Containers_Proofs` |
| C128 | `CastDyn_*` | settings, constructors, setters and cast of the three forward-dynamics models; motion through `FwdDyn_Model` with the contracts of `FwdDyn_Spec` |
| C129 | `FloatCast_*` | IEEE conversion by Flocq's rounding to nearest even with overflow; values of a format stated as m * 2^e; integrated models with their setters |
| C130 | `ProbCast_*` | nodes are handles into a heap of models; the loop of vector_cast by induction; the casts of the action models are a parameter |
| C131 | `ActCast_*` | constructors, setters and cast over `Activation_Model`; values from `Activation_Spec`, invariant of reachable models by induction |
| C132 | `Units_*`, `UnitsWitness_Props` | the passes of `Riccati_Model` on the derivatives in other units; relation between the two runs by induction over the nodes |
| C133 | `SharedBounds_*`, `SharedBoundsWitness_Props` | events on a memory of bounds per model and values per node, over the stacking loops of `ContainersEval_Model`; invariant by induction over the events |
| C134 | `ConBounds_*` | the container of `Containers_Model` with calls on the stored constraints; simulation by a correct container with shifted counters |
| C135 | `ContactFrame_*` | model and data of a contact under set_id, set_type, createData; forces and Jacobians of `Contact_Model`, invariant by induction over the calls |
| C136 | `StateCoord_*` | backward pass of `Riccati_Model` on the derivatives transformed by the chain rule; induction over the nodes relating the stored values of the two passes |
| C137 | `StateLimits_*` | constructors, setters, has_limits and casts of the states over IEEE-like numbers; invariant by induction over the calls; casts to the same scalar type |
| C138 | `WrapBounds_*` | bounds held by a wrapped model and by the base class of its wrapper (integrated, code-generated, differentiated), setters on both, set_differential; histories split into the two sides by induction; conversion of control bounds is any function |
| C59-C60, C64 | `State_*` | vectors; extended floats |

## 4. What is not modelled

The rigid-body algorithms of Pinocchio: they enter as contracts (hypotheses of the
theorems), namely the kinematics of a frame along a curve (`Contact_Spec.moves`), the
affine dependence of frame accelerations on the joint acceleration
(`FwdDyn_Contacts.accelerated`), `log6`/`Jlog6` (`log6_contract`), `aba` and
`computeABADerivatives`, `computeRNEADerivatives` with frozen joint forces
(`rnea_contract`; it also overwrites `data.M` by the mass matrix without armature),
`forwardDynamics` and `impulseDynamics` (solutions of their linear systems) and
`getKKTContactDynamicMatrixInverse` (left inverse of the system matrix of the last solve).
`Fresh_Model` relies on which fields of `pinocchio::Data` a routine writes: `aba` and `rnea`
liMi and v; `updateGlobalPlacements` oMi; `computeAllTerms` liMi, oMi, v, ov, J, com, Jcom
and hg; `computeCentroidalMomentum` hg; `forwardKinematics` liMi, oMi and v;
`computeJointJacobians(model, data)` J; `centerOfMass(q, v)` liMi, oMi, v and com;
`jacobianCenterOfMass(model, data, false)` com and Jcom; `computeABADerivatives` and
`computeForwardKinematicsDerivatives` liMi, oMi, v, ov and J; `computeRNEADerivatives` these and
the derivatives of the centroidal momentum; `computeGeneralizedGravityDerivatives` liMi, oMi
and J; `impulseDynamics` dq_after.

Further components outside the repository enter as contracts: Ipopt (C106: it calls the interface
functions with the sizes, the structure and the start point it was given, and returns some point
within the bounds with a status); the rounding of a number to decimal digits by iostream (C105: an
oracle; the layout of the digits is modelled) and the text a number is printed as (C111: given);
Boost.Python's conversions and indexing suite (C107); CppAD and CppADCodeGen (C108, C109: the library
evaluates the recorded function, its Jacobian and its Hessian) and the dynamic loader (C110: two
kinds, one that reuses a library loaded under the same name and one that does not); Eigen's
decompositions (LLT, LU, `kernel()`, `rank()`: solutions of the linear system on regular matrices,
an error or an arbitrary value otherwise; `SolverKKT`'s LU and the rank-deficient case of
`SolverIntro` are not modelled further); the viewers (C113: displaying a force makes its arrow show
it); Eigen's `lpNorm<Infinity>` (C115: 0 for the empty vector, not NaN for a vector without NaN, NaN
for a vector of NaNs, anything for mixed ones); Boost.Python's `extract` (C115-C117: raises when the
object is of another kind); the positions of the feet and of the
centre of mass the gait generators start from (Pinocchio); Eigen's
LLT and the box-constrained QP solver as exact solvers on positive definite systems (C124) and LU as an
exact solver on nonsingular ones (C126); the conversion of numbers between IEEE formats (C129: rounding
to nearest, from Flocq); the Jacobian of a frame as the Jacobian of its parent joint moved by the
placement of the frame (C135).

SE(3)/SO(3) exponentials inside the state manifolds, CppAD's own algorithms, the remaining Python
bindings, profiling, memory allocation, and floating-point rounding.

In the `Solver_*` model the action models' `calc` functions are deterministic,
overwrite `xnext` and `cost` completely and do not throw; callbacks observe the solver
without changing it; the backward pass is an arbitrary function that may fail.

## 5. Assumptions listed by Coq

`Print Assumptions` lists, for the theorems of the manifest, only axioms of Coq's standard library:

- **D** `ClassicalDedekindReals.sig_forall_dec` and **N** `ClassicalDedekindReals.sig_not_dec`: the
  construction of the real numbers;
- **E** `FunctionalExtensionality.functional_extensionality_dep`: used by the real numbers and Coquelicot;
- **C** `Classical_Prop.classic`: used by some lemmas of Coquelicot and of `Reals`.

`none` means "Closed under the global context".  The opaque module fields that a checker of the whole
environment may report next to these (`Rdefinitions.RbaseSymbolsImpl.*`, `RinvImpl.*`,
`mathcomp.*Def.*`, `Under_rel.*`) are sealed definitions of the libraries, with bodies in
the library files, not axioms.

| File | Axioms: theorems |
|---|---|
| `ActBounds_Props` | none: all |
| `ActCast_Props` | D+E: C131_alpha_refuted, C131_throws; D+E+N+C: C131_barrier_shrinks, C131_bounds_refuted, C131_same_partial, C131_tighter |
| `Activation_Props` | D+E+N+C: all |
| `Actuation_Props` | D: C55_one_data_partial, C57_last; D+E: C55_accumulate_refuted, C55_new_partial, C55_second_data_refuted, C56_accepts, C57_floating_base, C57_floating_base_sets, C57_full; D+E+N: C56_bounds, C56_derivative_away_partial, C56_derivative_partial, C56_equal_bounds_refuted, C56_monotone, C56_smooth0_refuted, C70_commands_refuted, C70_control_partial, C70_inverse_refuted, C70_state_refuted |
| `BoxQPWitness_Props` | none: all |
| `BoxQP_Props` | none: all |
| `CastDyn_Props` | D+E: all |
| `CodeGen_Props` | none: all |
| `ConBounds_Props` | none: all |
| `ConRes_Props` | D: C102_both_refuted, C102_equality, C102_inequality, C102_retype_refuted; D+E: C102_exact; none: C102_create_partial, C102_equal_refuted, C102_nan_refuted, C102_numdiff_refuted, C102_numdiff_terminal_refuted, C102_remove, C102_size_refuted, C102_update_partial, C102_update_refuted |
| `Cones_Props` | D+E+N: C48_facets_refuted, C49_friction_partial, C49_friction_refuted, C49_friction_setters, C49_wrench, C49_wrench_setters, C50_mirror_partial, C50_normal_refuted, C50_nsurf_partial, C51_contacts_partial, C51_cop, C51_coulomb, C51_realisable, C51_six_facets_refuted; D+E+N+C: C48_inner_partial, C48_outer; none: C51_from_wrench_refuted, C51_infinite_box_refuted |
| `ContCast_Props` | none: all |
| `ContactFrame_Props` | D+E: all |
| `ContactPub_Props` | D+E: all |
| `Contact_Props` | D+E: C80_force2_refuted, C80_torque1, C80_torque2, C80_torque3, C80_torque6, C81_reference_partial, C81_reference_refuted; D+E+N: C79_contact1, C79_contact2_partial, C79_contact3, C79_contact6, C80_dtau1, C80_dtau3, C80_dtau6, C82_impulse3, C82_impulse6_partial; D+E+N+C: C79_contact2_refuted, C82_impulse6_refuted |
| `Containers_Props` | none: all |
| `ControlParam_Props` | D+E: C34_at_nodes, C34_interpolates, C34_poly_zero_constant, C34_round_trip, C35_bounds_partial, C35_needs_nonneg_partial, C35_poly_one_refuted, C35_poly_two_refuted, C35_times_partial; D+E+N: C34_jacobian |
| `Csv_Props` | none: all |
| `Display_Props` | none: all |
| `Feasibility_Props` | none: all |
| `FinDiff_Props` | D+E: C101_actuation_terminal, C101_constraint_terminal, C101_contact_partial, C101_contact_refuted, C101_control_refuted, C101_cost_terminal, C101_residual_terminal_partial, C101_residual_uninit_refuted; D+E+N: C101_actuation, C101_constraint, C101_constraint_limit, C101_control_partial, C101_cost, C101_cost_limit, C101_residual, C101_residual_limit, C101_shared_partial, C101_shared_refuted; D+E+N+C: C101_residual_step_refuted |
| `FloatCast_Props` | D+E+N+C: all |
| `ForceRes_Props` | D: C93_terminal; D+E: C94_contact_partial, C94_contact_refuted, C94_terminal; D+E+N: C93_forward_partial, C93_inverse_partial, C93_planar_refuted, C93_shared_refuted, C94_control_partial, C94_state_refuted |
| `Fresh_Props` | none: all |
| `FwdDynShared_Props` | D+E+N+C: all |
| `FwdDyn_Props` | D+E: C84_motion, C85_motion, C86_configuration, C86_impact; D+E+N: C84_derivative, C85_derivative_partial, C86_armature_refuted, C86_derivative_partial, C86_restitution_refuted |
| `Gait_Props` | D+E: all |
| `IntegratorTerm_Props` | D+E: C65_euler, C65_euler_Fx_partial, C65_rk; D+E+N: C65_euler_Fx_refuted, C65_rk_Fx_refuted |
| `Integrator_Props` | D+E: C31_map, C31_step, C33_constant, C33_linear, C33_scheme, C63_euler_psd, C63_rk_psd, C63_rk_symmetric; D+E+N: C31_derivatives, C32_control, C32_derivatives_partial, C32_rk3_refuted |
| `IntroLQWitness_Props` | none: all |
| `IntroLQ_Props` | none: all |
| `IntroLoop_Props` | none: all |
| `IntroStopWitness_Props` | none: all |
| `IntroStop_Props` | none: all |
| `Intro_Props` | none: all |
| `InvDyn_Props` | D+E: C88_complete, C88_floating_base, C88_forward, C88_full, C88_motion; D+E+N: C88_frame_refuted, C88_inactive_refuted, C89_contact, C89_force_refuted, C89_joint, C89_tau |
| `InvDyn_Thrust` | D+E: all |
| `InvSet_Props` | none: all |
| `IpoptSolver_Props` | D: C106_installs, C106_layout_refuted, C106_maxiter_partial, C106_maxiter_refuted, C106_tolerance_partial, C106_tolerance_refuted; D+E: C106_certificate, C106_cost_refuted, C106_flag_refuted, C106_flag_success_refuted |
| `Ipopt_Props` | D: C52_hessian, C52_jacobian, C52_vectors, C54_nconst_refuted, C71_calc_calls, C71_diff_calls_partial, C73_bounds; D+E: C53_hessian_partial, C53_hessian_refuted, C53_objective_partial, C53_objective_refuted, C71_jacobian_refuted, C72_jacobian, C73_start, C73_warm_start; D+E+N: C72_gradient; none: C54_nvar_partial |
| `JointRes_Props` | D: C103_size_refuted, C103_terminal_effort_partial, C103_uninit_refuted; D+E: C103_terminal_accel_refuted, C103_terminal_inverse_refuted; D+E+N: C103_acceleration, C103_effort |
| `KKTLQ_Props` | D+E: all |
| `KKTLoop_Props` | none: all |
| `KKT_Props` | D: C28_history, C28_symmetric; D+E: C28_minimiser, C28_nonsingular, C74_descent, C74_expected, C74_stop; D+E+N: C28_direction |
| `KinRes_Props` | D+E: C98_value; D+E+N: C98_derivative, C98_velocity; D+E+N+C: C79_contact6_log, C98_logarithms |
| `LQR_Props` | D+E+N: all |
| `LQSolveWitness_Props` | none: all |
| `LQSolve_Props` | none: all |
| `MultiContact_Props` | D: C83_forces; D+E: C83_dual_partial, C83_dual_refuted; none: C83_rows |
| `NumDiff_Props` | D+E+N: C47_exact, C47_gradient, C47_quotients, C47_terminal, C66_disturbance_partial, C66_zero_refuted, C67_gradient_partial, C67_hessian_refuted, C67_limit_partial, C68_Jdiff, C68_Jintegrate_partial, C68_Jintegrate_refuted, C69_numdiff_partial, C69_numdiff_refuted, C69_unicycle_partial, C69_unicycle_refuted; D+E+N+C: C47_limit |
| `Observe_Props` | D+E: all |
| `PairCol_Props` | D+E+N: all |
| `Params_Props` | none: all |
| `Pendulum_Props` | D+E: C114_actuation; D+E+N: C114_default_refuted, C114_gradient, C114_hessian_partial; D+E+N+C: C114_hessian_refuted |
| `ProbCast_Props` | none: all |
| `PyBase_Props` | none: all |
| `PySet_Props` | none: all |
| `QuasiStatic_Props` | D+E: C91_actuations, C91_contact_partial, C91_damping_refuted, C91_euler, C91_free, C91_inverse_partial, C91_rk, C91_stale_refuted; D+E+N: C91_affine, C91_sizes, C91_squashing_refuted; D+E+N+C: C91_newton_refuted |
| `Residual_Props` | D+E: all |
| `RiccatiWitness_Props` | none: all |
| `Riccati_Props` | none: all |
| `SharedBoundsWitness_Props` | none: all |
| `SharedBounds_Props` | none: all |
| `Shooting_Props` | none: all |
| `SolverBase_Props` | none: all |
| `SolverStop_Props` | none: all |
| `SolverSync_Props` | none: all |
| `SolverThrow_Props` | none: all |
| `SolverWitness_Props` | none: all |
| `Solver_Props` | none: all |
| `StateCoord_Props` | none: all |
| `StateLimits_Props` | none: all |
| `StateMB_Props` | D+E: C95_addto, C95_back, C95_there, C95_transport; D+E+N: C95_Jdiff_partial, C95_Jintegrate_partial, C95_setto_refuted; none: C95_limits_partial, C95_limits_refuted |
| `StateRes_Props` | D+E+N: all |
| `State_Props` | D: C59_returning, C59_sizes, C64_copy_partial, C64_copy_refuted; D+E: C59_Jintegrate_partial, C59_inverse; D+E+N: C59_Jdiff, C59_Jintegrate_refuted, C59_identity_is_jacobian, C59_wrappers; none: C60_bounds_kept, C60_control_limits_partial, C60_one_sided_refuted, C60_state_limits |
| `StopWatch_Props` | none: all |
| `StopWitness_Props` | D+E+N: all |
| `Stop_Props` | D+E+N: all |
| `Threads_Props` | none: all |
| `TwoVectors_Props` | D+E+N: all |
| `Unicycle_Props` | D+E+N: all |
| `UnitsWitness_Props` | none: all |
| `Units_Props` | none: all |
| `Verbose_Props` | none: all |
| `Walk_Props` | D+E: all |
| `WrapBounds_Props` | none: all |
