{
 "claims": [
  {
   "property": "C01",
   "status": "proved",
   "theorems": [
    "C01_rollout_unique_trajectory",
    "C01_wrong_sizes_rejected",
    "C01_rollout_zero_gaps"
   ],
   "note": ""
  },
  {
   "property": "C02",
   "status": "proved",
   "theorems": [
    "C02_total_cost",
    "C02_wrong_sizes_rejected",
    "C02_any_schedule",
    "C02_any_summation_order"
   ],
   "note": "Every interleaving of the nodes' writes with separate datas; summation order in exact arithmetic."
  },
  {
   "property": "C03",
   "status": "proved",
   "theorems": [
    "C03_receding_horizon",
    "C03_full_turn"
   ],
   "note": ""
  },
  {
   "property": "C04",
   "status": "partial",
   "theorems": [
    "C04_edits_keep_consistency",
    "C04_histories_never_undefined",
    "C04_terminal_dimension_refuted",
    "C04_data_constructor_partial"
   ],
   "note": "Proved for the constructor that creates the datas. The constructor that receives the datas does not check the terminal model (refuted); the rest holds there too."
  },
  {
   "property": "C05",
   "status": "partial",
   "theorems": [
    "C05_never_succeeds",
    "C05_valid_models_refuted",
    "C05_rejection_partial"
   ],
   "note": "False: set_runningModels never returns normally; only the rejection part holds."
  },
  {
   "property": "C06",
   "status": "partial",
   "theorems": [
    "C06_answers_partial",
    "C06_uninitialised_refuted"
   ],
   "note": "Proved for the first constructor; the flag is uninitialised after the two other constructors."
  },
  {
   "property": "C07",
   "status": "partial",
   "theorems": [
    "C07_rejected_call_changes_states_refuted",
    "C07_set_candidate_partial",
    "C07_set_xs_atomic",
    "C07_set_us_atomic",
    "C07_histories_well_sized",
    "C07_flag"
   ],
   "note": "False as stated: setCandidate writes the states before checking the controls. Everything else of the statement is proved."
  },
  {
   "property": "C08",
   "status": "proved",
   "theorems": [
    "C08_dynamic_feasibility_is_the_norm",
    "C08_gaps_entries",
    "C08_zero_iff_consistent"
   ],
   "note": "Exact arithmetic over any ordered integral domain."
  },
  {
   "property": "C09",
   "status": "partial",
   "theorems": [
    "C09_linf_refuted",
    "C09_l1_refuted",
    "C09_entries_are_violations",
    "C09_zero_iff_satisfied_partial",
    "C09_linf_terminal_satisfied_partial",
    "C09_l1_one_node_partial",
    "C09_actual_value"
   ],
   "note": "False as stated (the terminal node is added under LInf, running nodes are maximised under L1). Zero iff satisfied and the actual value are proved."
  },
  {
   "property": "C10",
   "status": "proved",
   "theorems": [
    "C10_equality_feasibility_is_the_norm",
    "C10_zero_iff"
   ],
   "note": ""
  },
  {
   "property": "C100",
   "status": "partial",
   "theorems": [
    "C100_walking",
    "C100_swing",
    "C100_landing_partial",
    "C100_landing_refuted"
   ],
   "note": "All proved but the landing: for an odd number of knots (3 or more) the last reference is on the ground; for every even number and for 1 it is above it, also in the node that switches the contact."
  },
  {
   "property": "C101",
   "status": "partial",
   "theorems": [
    "C101_residual",
    "C101_residual_limit",
    "C101_residual_terminal_partial",
    "C101_cost",
    "C101_cost_limit",
    "C101_cost_terminal",
    "C101_constraint",
    "C101_constraint_limit",
    "C101_constraint_terminal",
    "C101_contact_partial",
    "C101_shared_partial",
    "C101_actuation",
    "C101_actuation_terminal",
    "C101_control_partial",
    "C101_residual_uninit_refuted",
    "C101_residual_step_refuted",
    "C101_shared_refuted",
    "C101_control_refuted",
    "C101_contact_refuted"
   ],
   "note": "Proved: quotients, limits and Gauss-Newton Hessians. Refuted: the residual wrapper without control divides by an uninitialised or old step and ignores set_disturbance; the shared data stays at the last disturbed point, so calc after calcDiff returns another value; the control wrapper does not publish the value in calc; the contact wrapper publishes neither its Jacobian nor the force."
  },
  {
   "property": "C102",
   "status": "partial",
   "theorems": [
    "C102_create_partial",
    "C102_update_partial",
    "C102_remove",
    "C102_inequality",
    "C102_equality",
    "C102_exact",
    "C102_nan_refuted",
    "C102_size_refuted",
    "C102_update_refuted",
    "C102_equal_refuted",
    "C102_both_refuted",
    "C102_numdiff_refuted",
    "C102_numdiff_terminal_refuted",
    "C102_retype_refuted"
   ],
   "note": "Proved: acceptance of bounds without NaN and of the right size, values and masked Jacobians after any history that keeps the kind of the constraint. Refuted: NaN bounds accepted; sizes unchecked on creation; update_bounds checks the old bounds for infinities, so it accepts impossible ones and then refuses every later update; equal bounds accepted on creation and refused on update; an empty update of an equality constraint freezes its value; finite-difference wrapping drops the bounds; removing the bounds after the data was created makes calcDiff write outside of the matrix."
  },
  {
   "property": "C103",
   "status": "partial",
   "theorems": [
    "C103_effort",
    "C103_acceleration",
    "C103_terminal_effort_partial",
    "C103_terminal_accel_refuted",
    "C103_terminal_inverse_refuted",
    "C103_uninit_refuted",
    "C103_size_refuted"
   ],
   "note": "Proved: values and exact Jacobians at running nodes after any history, terminal nodes of residuals declared for forward dynamics. Refuted: the terminal acceleration residual is zero but publishes the Jacobian of the last running node; in inverse dynamics the terminal effort is the one of the last running evaluation; one constructor leaves the flag read by the terminal calls uninitialised; the constructors accept references of any size."
  },
  {
   "property": "C104",
   "status": "partial",
   "theorems": [
    "C104_gradient_partial",
    "C104_jacobian_refuted",
    "C104_links_refuted"
   ],
   "note": "Proved: for an object fixed in the world, the gradient of every function of the distance is exact although the nearest points move on the solids. Refuted: the published Jacobian is not the derivative of the residual; with two links of the robot the gradient of the distance is wrong. The header is compiled only with CROCODDYL_WITH_PAIR_COLLISION."
  },
  {
   "property": "C105",
   "status": "partial",
   "theorems": [
    "C105_lines_up_partial",
    "C105_stream_independent",
    "C105_stream_refuted",
    "C105_settings",
    "C105_header_once",
    "C105_precision_refuted",
    "C105_negative_cost_refuted"
   ],
   "note": "Proved for precisions of at least 3 (1 at level 0), fewer than 10000 iterations, and values that are finite, with two-digit exponents, and not negative where the row has no place for a sign. Refuted: with precision 0 the columns drift apart; a negative cost shifts its row; the format of std::cout is changed."
  },
  {
   "property": "C106",
   "status": "partial",
   "theorems": [
    "C106_installs",
    "C106_certificate",
    "C106_tolerance_partial",
    "C106_tolerance_refuted",
    "C106_maxiter_partial",
    "C106_maxiter_refuted",
    "C106_flag_refuted",
    "C106_flag_success_refuted",
    "C106_cost_refuted",
    "C106_layout_refuted"
   ],
   "note": "Proved: what is installed, what a success certifies (given Ipopt's contract), tolerance and iteration bound for settings made through SolverIpopt and bounds that fit an int. Refuted: the feasibility flag is the one of the guess; the cost is stale when Ipopt gives up without a final point; set_th_stop through the base class does not reach Ipopt; a bound of 2^31 iterations is dropped; solve does not resize after the problem has changed."
  },
  {
   "property": "C107",
   "status": "partial",
   "theorems": [
    "C107_set",
    "C107_pickle",
    "C107_toset",
    "C107_from_python_partial",
    "C107_from_python_refuted",
    "C107_dict",
    "C107_todict"
   ],
   "note": "Proved for all sequences of calls, pickling and dicts. Refuted: a Python set that is not empty is never accepted, since the conversion tests the iterator instead of the element."
  },
  {
   "property": "C108",
   "status": "partial",
   "theorems": [
    "C108_layout",
    "C108_agrees_partial",
    "C108_parameters_checked",
    "C108_fresh",
    "C108_constraints",
    "C108_constraints_refuted",
    "C108_quasi_refuted",
    "C108_residual_refuted",
    "C108_sizes_refuted"
   ],
   "note": "Proved for models without constraints and every history of calls; the layout of running nodes is proved for any constraints. Refuted: generating code for any model with constraints is undefined behaviour, quasiStatic ignores the parameters set, the residual is never filled, and a state of a wrong size is undefined behaviour instead of an exception."
  },
  {
   "property": "C109",
   "status": "partial",
   "theorems": [
    "C109_layout",
    "C109_derivatives_partial",
    "C109_copy_refuted",
    "C109_manifold_refuted"
   ],
   "note": "Proved for states that are vector spaces; refuted on manifolds, where the control's derivatives are read off the state's columns, and for copies, whose Hessian weights are empty."
  },
  {
   "property": "C11",
   "status": "partial",
   "theorems": [
    "C11_defaults",
    "C11_nan_refuted",
    "C11_qp_threshold_refuted",
    "C11_alphas_refuted",
    "C11_rejected_call_changes_nothing",
    "C11_accept_iff_in_range_partial",
    "C11_histories_in_range_partial",
    "C11_in_range_or_nan"
   ],
   "note": "False as stated: NaN passes, the QP threshold test can never fire, alphas[0] is unchecked. Proved for histories avoiding these."
  },
  {
   "property": "C110",
   "status": "partial",
   "theorems": [
    "C110_own_library_partial",
    "C110_own_library_refuted"
   ],
   "note": "Proved when every library has a name of its own, for both kinds of loader; refuted, for both kinds, when a name is used twice, as cast does."
  },
  {
   "property": "C111",
   "status": "partial",
   "theorems": [
    "C111_round_trip_partial",
    "C111_separator_refuted",
    "C111_buffer_refuted"
   ],
   "note": "Proved for every sequence of writes when the separator starts with a character other than a quote or a line end that does not occur in the numbers; refuted for separators that do (the constructor accepts any) and for characters and char* buffers, which are written without escaping."
  },
  {
   "property": "C112",
   "status": "partial",
   "theorems": [
    "C112_rotation",
    "C112_maps_partial",
    "C112_opposite_refuted",
    "C112_zero"
   ],
   "note": "Always a rotation, and the right one unless the vectors are opposite: then the identity is returned."
  },
  {
   "property": "C113",
   "status": "partial",
   "theorems": [
    "C113_frames_partial",
    "C113_rate",
    "C113_times",
    "C113_mixed_refuted",
    "C113_rk_refuted",
    "C113_joint_refuted",
    "C113_thrust_refuted",
    "C113_duration_refuted"
   ],
   "note": "Proved when the display finds the contacts of every node, one per joint, and all or none of the running nodes have thrusters. Refuted otherwise: nodes without contacts or thrusters are left out of the lists, so that the later forces are shown at earlier frames and the play-back ends with an IndexError; with Runge-Kutta integrators no force is shown; of two contacts at a joint one is shown; skipped frames take no time."
  },
  {
   "property": "C114",
   "status": "partial",
   "theorems": [
    "C114_gradient",
    "C114_hessian_partial",
    "C114_hessian_refuted",
    "C114_default_refuted",
    "C114_actuation"
   ],
   "note": "The gradient is right for every activation of six residuals; the Hessian for weighted quadratic activations, not for others (the second-order term uses the residual instead of the gradient of the activation). Without an activation the constructor chooses one of four residuals and calc always raises."
  },
  {
   "property": "C115",
   "status": "partial",
   "theorems": [
    "C115_calls_partial",
    "C115_any_control",
    "C115_sizes",
    "C115_no_control_refuted",
    "C115_nan_refuted",
    "C115_integrated_refuted",
    "C115_cast_action",
    "C115_cast_diff_partial",
    "C115_cast_refuted"
   ],
   "note": "Right for controls without NaN and at least one control. Without controls a terminal call arrives as a call with an empty control, a control of NaNs is dropped, a terminal call of a Python integrated action arrives with the control zero, and casting a Python differential action swaps its numbers of controls and residuals."
  },
  {
   "property": "C116",
   "status": "partial",
   "theorems": [
    "C116_Jdiff",
    "C116_Jintegrate_partial",
    "C116_Jintegrate_refuted",
    "C116_lists",
    "C116_values",
    "C116_sizes"
   ],
   "note": "Jintegrate with both Jacobians updates the second with the first matrix; everything else is right."
  },
  {
   "property": "C117",
   "status": "partial",
   "theorems": [
    "C117_param",
    "C117_product_partial",
    "C117_transpose_partial",
    "C117_product_refuted"
   ],
   "note": "The products returned by value are right for the operator that sets; with the others they add to an uninitialised matrix."
  },
  {
   "property": "C118",
   "status": "partial",
   "theorems": [
    "C118_one_thread_partial",
    "C118_all_threads",
    "C118_set_threads",
    "C118_set_partial",
    "C118_constraint_refuted",
    "C118_codegen_refuted",
    "C118_replaced_refuted",
    "C118_copy_refuted"
   ],
   "note": "True of histories without copies and code-generated nodes in which something Python that has data of its own precedes the problem. Python constraints and squashings do not count, code-generated nodes turn the switch on again, Python nodes put in an existing problem do not change its threads, and a copy has no number of threads."
  },
  {
   "property": "C119",
   "status": "partial",
   "theorems": [
    "C119_quadruped",
    "C119_nodes",
    "C119_footprints",
    "C119_clearance",
    "C119_apex_refuted",
    "C119_landing_refuted",
    "C119_no_support_refuted",
    "C119_biped"
   ],
   "note": "True for at least one knot, except that the step height is not reached with an odd number of step knots, the feet are made to land two step heights over the number of knots above the ground, and problems without support knots raise (after the first step was counted as made). The biped problem ends at the landing of the left foot."
  },
  {
   "property": "C12",
   "status": "proved",
   "theorems": [
    "C12_window",
    "C12_inverse",
    "C12_infinite_factor_refuted",
    "C12_intro_window"
   ],
   "note": "All four DDP-family solvers and SolverIntro, every backward-pass behaviour. The refutation shows why the factor must be finite."
  },
  {
   "property": "C120",
   "status": "partial",
   "theorems": [
    "C120_jump_partial",
    "C120_biped_jump_partial",
    "C120_array_partial",
    "C120_array_refuted",
    "C120_displacement_refuted",
    "C120_com"
   ],
   "note": "Feet whose frames are above the ground land at the height of the jump counted from zero instead of from where they were, and the array of the caller is changed, so that a second jump with it differs."
  },
  {
   "property": "C121",
   "status": "partial",
   "theorems": [
    "C121_ddp",
    "C121_evaluated",
    "C121_verbose",
    "C121_fddp_partial",
    "C121_intro_partial",
    "C121_log",
    "C121_gradient_partial",
    "C121_intro_refuted",
    "C121_fddp_refuted",
    "C121_gradient_refuted"
   ],
   "note": "True for DDP, box DDP and KKT and for the verbose callback. The logger replaces the expected improvement: Intro then decides about its regularization from another number when the candidate is infeasible, FDDP may report convergence after iterations whose trial steps all failed, and the gradient on record is not the one used. Exact arithmetic."
  },
  {
   "property": "C122",
   "status": "partial",
   "theorems": [
    "C122_ddp",
    "C122_fddp_feasible",
    "C122_fddp_infeasible_partial",
    "C122_fddp_refuted",
    "C122_regularized_refuted"
   ],
   "note": "True for DDP from every guess and for FDDP from feasible guesses; after one iteration the candidate already is the optimum. FDDP from an infeasible guess whose cost equals the optimal cost rejects the full step and needs more iterations. With a positive initial regularization (the default is reg_min) solve may return true short of the optimum. Exact arithmetic."
  },
  {
   "property": "C123",
   "status": "partial",
   "theorems": [
    "C123_admissible",
    "C123_any_partial",
    "C123_refuted"
   ],
   "note": "True from every guess that follows the dynamics and satisfies the constraints, and from any other guess whose merit (cost plus weighted violation) differs from the optimal cost. With equal merit the full step, which is the solution, is rejected and more than two iterations are needed. Running constraints only: the solver ignores terminal ones in its direction. Exact arithmetic."
  },
  {
   "property": "C124",
   "status": "partial",
   "theorems": [
    "C124_ddp",
    "C124_ddp_returned",
    "C124_box_zero",
    "C124_box_partial",
    "C124_box_refuted"
   ],
   "note": "True of DDP (and of FDDP from feasible candidates, whose value is the same). With control limits the value is zero at every first-order optimum, but also elsewhere: the gradient of clamped controls is cleared while their steps still count, so the gain of a free control can cancel and BoxDDP returns true at a point that is not optimal; equivalence holds if the controls that move end strictly inside their limits. Exact arithmetic; BoxQP taken to solve its problem exactly."
  },
  {
   "property": "C125",
   "status": "partial",
   "theorems": [
    "C125_stationary",
    "C125_multipliers",
    "C125_zero_partial",
    "C125_kkt_partial",
    "C125_zero_refuted"
   ],
   "note": "A zero value implies the conditions for every problem. The converse holds when the terminal node has no constraint; with one it is false, because the gains never read the terminal constraint: at the only admissible control of a one-node problem the value is 1/2, so the solver cannot recognise the solution. Hu of full row rank, symmetric Luu, exact arithmetic."
  },
  {
   "property": "C126",
   "status": "proved",
   "theorems": [
    "C126_optimum",
    "C126_converges",
    "C126_few"
   ],
   "note": "The factorisation is an oracle assumed to solve the systems of the problem that are not singular; the systems are proved not to be singular. The feasibility flag given at the start must be true only of a trajectory of the problem. Real arithmetic."
  },
  {
   "property": "C127",
   "status": "partial",
   "theorems": [
    "C127_costs",
    "C127_same_partial",
    "C127_contacts_partial",
    "C127_impulses",
    "C127_constraints",
    "C127_dimension_refuted",
    "C127_all_refuted"
   ],
   "note": "True of the constraint manager for every history. The other containers keep items, status and lists; the copy reports the dimensions of its items, which the original does not after the removal of an inactive item (C40), and the copy of a contact container forgets setComputeAllContacts."
  },
  {
   "property": "C128",
   "status": "partial",
   "theorems": [
    "C128_settings_partial",
    "C128_same_partial",
    "C128_free",
    "C128_free_refuted",
    "C128_contact_refuted",
    "C128_impulse_refuted",
    "C128_limits_refuted"
   ],
   "note": "False: the armature and the control limits given by the user are lost. The free copy moves like the original under every torque exactly when the armature is zero; damping, restitution and force flag are kept by every history. Same scalar type on both sides."
  },
  {
   "property": "C129",
   "status": "partial",
   "theorems": [
    "C129_widen",
    "C129_roundtrip",
    "C129_stable",
    "C129_order",
    "C129_accuracy_partial",
    "C129_settings",
    "C129_model_partial",
    "C129_positive_refuted",
    "C129_finite_refuted",
    "C129_limits_refuted"
   ],
   "note": "Widening, the round trip, stability and order hold for every number; the relative error is at most 2^-24 between 2^-126 and 2^127. False below and above: a positive time step may become zero and a finite limit infinite. Control limits set on an integrated model are lost by its cast."
  },
  {
   "property": "C13",
   "status": "partial",
   "theorems": [
    "C13_terminates_partial",
    "C13_zero_regularization_refuted",
    "C13_kkt_terminates",
    "C13_intro_terminates_partial"
   ],
   "note": "False as stated for the DDP family: a zero regularization is never increased. Proved with an explicit bound on the number of attempts for positive reg_min and initial value. The same bound holds for SolverIntro. SolverKKT ends for every pattern of exceptions."
  },
  {
   "property": "C130",
   "status": "partial",
   "theorems": [
    "C130_nodes",
    "C130_threads",
    "C130_private",
    "C130_changes_partial",
    "C130_shared",
    "C130_shared_refuted"
   ],
   "note": "Nodes, initial state and threads are kept. Later changes keep the copy equal exactly when no two nodes share a model: the cast gives every node its own copy, so a change of a repeated model reaches one node only."
  },
  {
   "property": "C131",
   "status": "partial",
   "theorems": [
    "C131_throws",
    "C131_same_partial",
    "C131_tighter",
    "C131_barrier_shrinks",
    "C131_alpha_refuted",
    "C131_bounds_refuted"
   ],
   "note": "True without bounds or with bounds of factor one. False: bounds of a smaller factor are shrunk again, so the copy penalises admissible residuals (it is never more permissive); set_alpha accepts a negative threshold with which the cast throws, the only way it throws. Finite bounds (C39 has the infinite ones)."
  },
  {
   "property": "C132",
   "status": "partial",
   "theorems": [
    "C132_cost_partial",
    "C132_improvement_partial",
    "C132_basis_partial",
    "C132_cost_refuted",
    "C132_basis_refuted"
   ],
   "note": "True of costs when the regularization is scaled too (also failure of the pass is invariant), and of bases without regularization. False with a fixed nonzero regularization: it is an absolute number added to the Hessians, so the direction changes with the unit. Exact arithmetic."
  },
  {
   "property": "C133",
   "status": "partial",
   "theorems": [
    "C133_safe",
    "C133_running_partial",
    "C133_terminal",
    "C133_shared_refuted",
    "C133_missed_refuted"
   ],
   "note": "True of running nodes whose model is not the terminal one or has only constraints that also count at terminal nodes, however models are shared between running nodes; true of the terminal node, which is evaluated last. False when the terminal node uses the model of a running node and a constraint on the control precedes another one: the terminal evaluation overwrites the leading bounds, so the solver reports violations that are not there and misses others. Fixed statuses; threads interleave whole evaluations."
  },
  {
   "property": "C134",
   "status": "partial",
   "theorems": [
    "C134_drift",
    "C134_inactive_partial",
    "C134_active_refuted",
    "C134_underflow_refuted"
   ],
   "note": "True when bounds are changed only while the constraint is inactive in the container. False otherwise: the container is not told, its counters keep the difference for ever (C134_drift says by exactly how much), evaluating it leaves the range of its data, and removing the constraint makes a counter wrap around. Names and statuses are always right."
  },
  {
   "property": "C135",
   "status": "partial",
   "theorems": [
    "C135_force_partial",
    "C135_stale",
    "C135_changed_refuted"
   ],
   "note": "True when the frame is not changed after the data was created; the type may be changed at any time. False otherwise: calc uses the new frame, updateForce and the container the frame and placement the data was created for (C135_stale: the force acts there)."
  },
  {
   "property": "C136",
   "status": "partial",
   "theorems": [
    "C136_coord_partial",
    "C136_coord_refuted"
   ],
   "note": "True without regularization for every invertible change, and with any regularization for orthogonal changes. False otherwise: the regularization added to the Hessian of the value is an absolute number in the coordinates used."
  },
  {
   "property": "C137",
   "status": "partial",
   "theorems": [
    "C137_flag",
    "C137_bounds_partial",
    "C137_cast_partial",
    "C137_robot",
    "C137_cast_refuted",
    "C137_wrapped_refuted"
   ],
   "note": "True without casts, and the flag is right after every history. False for casts: they rebuild the state and lose the user's limits (kept exactly when they are those of the constructor), and a state wrapped for numerical differentiation has no limits."
  },
  {
   "property": "C138",
   "status": "partial",
   "theorems": [
    "C138_integrated",
    "C138_control_partial",
    "C138_inner",
    "C138_replaced",
    "C138_codegen",
    "C138_numdiff_refuted",
    "C138_control_refuted",
    "C138_stale_refuted"
   ],
   "note": "True: inequality bounds of integrated and code-generated models, control limits at the time of wrapping (integrated and differentiated actions), wrapped model untouched, set_differential as good as a new wrapper. False: differentiated models have no inequality bounds, differentiated differential models no control limits either; code-generated models report the inequality bounds but lose the control limits; control limits set later on the wrapped model are not seen; inequality bounds set on an integrated model are accepted and ignored."
  },
  {
   "property": "C14",
   "status": "partial",
   "theorems": [
    "C14_accepted_steps_partial",
    "C14_no_increase_partial",
    "C14_cost_increases_refuted"
   ],
   "note": "False as stated: a step is accepted whatever its cost when the expected improvement is below th_grad. Proved for th_grad = 0, and step by step otherwise."
  },
  {
   "property": "C15",
   "status": "proved",
   "theorems": [
    "C15_success",
    "C15_failure",
    "C15_direction",
    "C15_trial",
    "C15_intro_success",
    "C15_intro_failure"
   ],
   "note": ""
  },
  {
   "property": "C16",
   "status": "proved",
   "theorems": [
    "C16_callbacks",
    "C16_intro_callbacks"
   ],
   "note": ""
  },
  {
   "property": "C17",
   "status": "partial",
   "theorems": [
    "C17_flag_sound_partial",
    "C17_box_ddp_refuted",
    "C17_kkt_flag_refuted",
    "C17_intro_flag"
   ],
   "note": "False for SolverBoxDDP on an infeasible guess and for SolverKKT on nonlinear dynamics. Proved for DDP, FDDP, BoxFDDP, Intro, and for BoxDDP from a feasible guess."
  },
  {
   "property": "C18",
   "status": "proved",
   "theorems": [
    "C18_gaps_contract",
    "C18_full_step_closes_gaps",
    "C18_run_gaps"
   ],
   "note": "For states satisfying the vector-space laws of diff and integrate."
  },
  {
   "property": "C19",
   "status": "proved",
   "theorems": [
    "C19_trial_is_rollout",
    "C19_trial_controls",
    "C19_zero_step",
    "C19_step_rejected"
   ],
   "note": ""
  },
  {
   "property": "C20",
   "status": "proved",
   "theorems": [
    "C20_full_step_optimal",
    "C20_convex_solvable",
    "C20_then_converged"
   ],
   "note": "Also from infeasible guesses, with uniqueness; the next iteration reports zero expected improvement."
  },
  {
   "property": "C21",
   "status": "partial",
   "theorems": [
    "C21_ddp_exact",
    "C21_fddp_feasible",
    "C21_fddp_full_step",
    "C21_fddp_error_partial",
    "C21_fddp_gaps_refuted"
   ],
   "note": "False for FDDP with gaps and 0 < a < 1: the prediction is off by exactly (1-a)^2 dv. Exact for DDP/FDDP on feasible candidates and for FDDP full steps with gaps."
  },
  {
   "property": "C22",
   "status": "proved",
   "theorems": [
    "C22_symmetric",
    "C22_semidefinite",
    "C22_convex_succeeds"
   ],
   "note": ""
  },
  {
   "property": "C23",
   "status": "proved",
   "theorems": [
    "C23_sign",
    "C23_stop_iff_stationary"
   ],
   "note": ""
  },
  {
   "property": "C24",
   "status": "proved",
   "theorems": [
    "C24_in_box",
    "C24_returns"
   ],
   "note": "Infinite bounds included."
  },
  {
   "property": "C25",
   "status": "partial",
   "theorems": [
    "C25_zero_threshold_partial",
    "C25_unclipped_partial",
    "C25_refuted"
   ],
   "note": "False with a positive acceptance threshold: the line search compares with the negated gradient on the free set, so a clipped step may increase the objective. Proved for a zero threshold and for every step that stays inside the box."
  },
  {
   "property": "C26",
   "status": "partial",
   "theorems": [
    "C26_kkt_partial",
    "C26_kkt_global",
    "C26_near_optimal_partial",
    "C26_regularized_refuted"
   ],
   "note": "False with a non-zero regularization. Proved without it (the default), including an optimality gap for a positive tolerance."
  },
  {
   "property": "C27",
   "status": "partial",
   "theorems": [
    "C27_trial_controls_partial",
    "C27_run_controls_partial",
    "C27_one_sided_refuted"
   ],
   "note": "False for one-sided limits (the limits flag needs a finite entry on both sides). Proved for nodes whose flag is set."
  },
  {
   "property": "C28",
   "status": "proved",
   "theorems": [
    "C28_symmetric",
    "C28_history",
    "C28_direction",
    "C28_minimiser",
    "C28_nonsingular"
   ],
   "note": "About any solution of the assembled linear system (the LU solve itself is not modelled), after any history of evaluations. Also: the system is non-singular for convex data with positive definite control Hessians. Without running node the code reads models[0] (no system)."
  },
  {
   "property": "C29",
   "status": "proved",
   "theorems": [
    "C29_constraint",
    "C29_optimal",
    "C29_succeeds",
    "C29_agree"
   ],
   "note": "For Hu of full row rank (null-space resolutions) or any Hu (Schur, which fails on dependent constraints). Eigen's rank-revealing factorisations are contracts."
  },
  {
   "property": "C30",
   "status": "partial",
   "theorems": [
    "C30_weight_monotone",
    "C30_predicted_partial",
    "C30_predicted_refuted",
    "C30_rho",
    "C30_weight_infinite_refuted"
   ],
   "note": "The update of the weight uses the expected improvement with the wrong sign, so the predicted merit decrease may miss rho*upsilon*hfeas; rho = 1 is accepted and makes the weight infinite."
  },
  {
   "property": "C31",
   "status": "proved",
   "theorems": [
    "C31_step",
    "C31_map",
    "C31_derivatives"
   ],
   "note": "Euclidean state; any previous content of the data."
  },
  {
   "property": "C32",
   "status": "partial",
   "theorems": [
    "C32_derivatives_partial",
    "C32_control",
    "C32_rk3_refuted"
   ],
   "note": "Fx and Lx of RK3 are wrong (second-stage block hard-coded to dt/2); exact for RK2 and RK4, and the control derivatives for all three."
  },
  {
   "property": "C33",
   "status": "proved",
   "theorems": [
    "C33_scheme",
    "C33_linear",
    "C33_constant"
   ],
   "note": "calc is one step of the textbook tableau, which satisfies the order conditions."
  },
  {
   "property": "C34",
   "status": "proved",
   "theorems": [
    "C34_interpolates",
    "C34_at_nodes",
    "C34_poly_zero_constant",
    "C34_round_trip",
    "C34_jacobian"
   ],
   "note": "After any calls on the data."
  },
  {
   "property": "C35",
   "status": "partial",
   "theorems": [
    "C35_poly_one_refuted",
    "C35_poly_two_refuted",
    "C35_bounds_partial",
    "C35_needs_nonneg_partial",
    "C35_times_partial"
   ],
   "note": "False for PolyOne after t = 1/2 and for the quadratic parametrizations between nodes; proved exactly at the times where all basis polynomials are non-negative."
  },
  {
   "property": "C36",
   "status": "proved",
   "theorems": [
    "C36_gradient",
    "C36_norm_barrier_kink"
   ],
   "note": "All nine models, from any data content; the 2-norm barrier has no gradient at the origin."
  },
  {
   "property": "C37",
   "status": "partial",
   "theorems": [
    "C37_hessian_partial",
    "C37_smooth1_refuted",
    "C37_smooth2_refuted",
    "C37_weighted_barrier_refuted"
   ],
   "note": "False for the smooth 1-norm (unless the smoothing is 1), the smooth 2-norm and the weighted barrier (unless the weights are 0 or 1). Proved for the others; the Gauss-Newton mode of the 2-norm barrier is a documented approximation."
  },
  {
   "property": "C38",
   "status": "partial",
   "theorems": [
    "C38_single_data_partial",
    "C38_weights_follow",
    "C38_two_datas_refuted"
   ],
   "note": "False when two datas share the model: the first calcDiff clears the new-weights flag. Proved for one data."
  },
  {
   "property": "C39",
   "status": "partial",
   "theorems": [
    "C39_ordered_inside",
    "C39_rejects",
    "C39_cast_unit_partial",
    "C39_cast_refuted"
   ],
   "note": "The order and inclusion hold; converting re-applies beta, so the cast shrinks the bounds unless beta is 1."
  },
  {
   "property": "C40",
   "status": "partial",
   "theorems": [
    "C40_counters_after_removing_inactive_refuted",
    "C40_duplicate_item_refuted",
    "C40_careful_histories_exact_partial",
    "C40_contacts_all_histories",
    "C40_status",
    "C40_impulses_all_histories"
   ],
   "note": "False as stated: removing an inactive item underflows the active dimension, and the CostItem overload double-counts duplicates. Exact for all histories avoiding these; for contacts/impulses the deviation is characterised for every history."
  },
  {
   "property": "C41",
   "status": "proved",
   "theorems": [
    "C41_manager_all_histories",
    "C41_manager_sums"
   ],
   "note": ""
  },
  {
   "property": "C42",
   "status": "proved",
   "theorems": [
    "C42_calc",
    "C42_calcDiff",
    "C42_calcDiff_terminal",
    "C42_inactive_irrelevant",
    "C42_insertion_order",
    "C42_any_order",
    "C42_size_mismatch_rejected"
   ],
   "note": "Arbitrary scalars without algebraic laws; exact-arithmetic sum in any order for commutative addition."
  },
  {
   "property": "C43",
   "status": "proved",
   "theorems": [
    "C43_running_partition",
    "C43_terminal_partition",
    "C43_row_of_item"
   ],
   "note": ""
  },
  {
   "property": "C44",
   "status": "partial",
   "theorems": [
    "C44_shared_joint_refuted",
    "C44_distinct_joints_partial",
    "C44_inactive_zero",
    "C44_last_contact_wins"
   ],
   "note": "False as stated: contacts on the same joint overwrite each other. Holds for joints with at most one active contact."
  },
  {
   "property": "C45",
   "status": "partial",
   "theorems": [
    "C45_set",
    "C45_convex_partial",
    "C45_calc",
    "C45_calc_terminal",
    "C45_gradient_partial",
    "C45_terminal_gradient_partial",
    "C45_new_data_partial",
    "C45_first_user_partial",
    "C45_single_data_partial",
    "C45_two_datas_refuted",
    "C45_terminal_refuted",
    "C45_asymmetric_refuted",
    "C45_columns_refuted",
    "C45_odd_refuted",
    "C45_odd_stays_refuted",
    "C45_copy",
    "C45_default"
   ],
   "note": "calc always follows the matrices last set. False for calcDiff on a second data, after a terminal calcDiff, for non-symmetric Q or R (accepted by set_LQR), for dynamics with the wrong number of columns (accepted) and for an odd number of states. Proved outside these cases, after any history; covers the discrete and the differential model."
  },
  {
   "property": "C46",
   "status": "partial",
   "theorems": [
    "C46_calc",
    "C46_derivatives",
    "C46_terminal",
    "C46_terminal_Fx_refuted",
    "C46_dt"
   ],
   "note": "Exact for calcDiff with a control, after any history of calls and settings. The overload without a control (whose next state is the state itself) never writes Fx, so it is not the identity after a call with a control; the rest of that overload is proved."
  },
  {
   "property": "C47",
   "status": "proved",
   "theorems": [
    "C47_quotients",
    "C47_exact",
    "C47_gradient",
    "C47_terminal",
    "C47_limit"
   ],
   "note": "Euclidean state, release build. For any wrapped model the outputs are the difference quotients; exact on linear-quadratic data (with and without Gauss approximation, with and without control); they tend to the derivatives of a smooth model."
  },
  {
   "property": "C48",
   "status": "partial",
   "theorems": [
    "C48_inner_partial",
    "C48_outer",
    "C48_facets_refuted"
   ],
   "note": "Sound inner and complete outer approximation after any history of setters and update, every orthonormal frame, every even facet count >= 4 (inner) or >= 2 (outer), with the tightness factor cos(pi/nf) in both directions. Refuted for the inner approximation with 0 or 2 facets, which the constructor accepts."
  },
  {
   "property": "C49",
   "status": "partial",
   "theorems": [
    "C49_wrench",
    "C49_wrench_setters",
    "C49_friction_setters",
    "C49_friction_partial",
    "C49_friction_refuted"
   ],
   "note": "Proved for the wrench cone over every history. The friction cone's setters store negative values (missing else), so its part holds only for non-negative arguments."
  },
  {
   "property": "C50",
   "status": "partial",
   "theorems": [
    "C50_nsurf_partial",
    "C50_mirror_partial",
    "C50_normal_refuted"
   ],
   "note": "get_nsurf returns the normalised normal; the inequality constrains the component along its mirror image (transposed rotation), so it is right exactly for vertical normals."
  },
  {
   "property": "C51",
   "status": "partial",
   "theorems": [
    "C51_cop",
    "C51_contacts_partial",
    "C51_coulomb",
    "C51_realisable",
    "C51_six_facets_refuted",
    "C51_infinite_box_refuted",
    "C51_from_wrench_refuted"
   ],
   "note": "CoP rows, agreement with CoPSupport, completeness for Coulomb contact forces (any facet count) and for pyramid forces (facet count divisible by 4), exactness for 4 facets. Refuted: 6 facets, infinite default box gives NaN, CoPSupport from a wrench cone has mismatched sizes."
  },
  {
   "property": "C52",
   "status": "proved",
   "theorems": [
    "C52_jacobian",
    "C52_hessian",
    "C52_vectors",
    "C72_jacobian"
   ],
   "note": "For every interface that exists (constructed or resized, after any calls); with no running node the constructor reads models[0] (undefined), modelled as no interface. That values sit at the declared positions is C72_jacobian and C53_hessian_partial."
  },
  {
   "property": "C53",
   "status": "partial",
   "theorems": [
    "C53_objective_partial",
    "C53_objective_refuted",
    "C53_hessian_partial",
    "C53_hessian_refuted"
   ],
   "note": "eval_f adds to the previous content of its output; eval_h drops obj_factor on the terminal node. The exact values reported are proved."
  },
  {
   "property": "C54",
   "status": "partial",
   "theorems": [
    "C54_nvar_partial",
    "C54_nconst_refuted"
   ],
   "note": "The number of variables is right; the number of constraints accumulates at each resize."
  },
  {
   "property": "C55",
   "status": "partial",
   "theorems": [
    "C55_new_partial",
    "C55_one_data_partial",
    "C55_accumulate_refuted",
    "C55_second_data_refuted"
   ],
   "note": "False: set_thrusters adds to the map instead of replacing it, and only the data used next sees the change. Proved until set_thrusters is called, and for a single data with respect to the map held by the model."
  },
  {
   "property": "C56",
   "status": "partial",
   "theorems": [
    "C56_bounds",
    "C56_monotone",
    "C56_accepts",
    "C56_derivative_partial",
    "C56_derivative_away_partial",
    "C56_equal_bounds_refuted",
    "C56_smooth0_refuted"
   ],
   "note": "Bounds and monotonicity hold for all inputs. The derivative is NaN on a bound when the smoothness is 0 or the bounds are equal; exact otherwise."
  },
  {
   "property": "C57",
   "status": "proved",
   "theorems": [
    "C57_floating_base",
    "C57_floating_base_sets",
    "C57_full",
    "C57_last"
   ],
   "note": "For every history of calls on the data."
  },
  {
   "property": "C58",
   "status": "partial",
   "theorems": [
    "C58_gauss_newton_partial",
    "C58_gradient_partial",
    "C58_psd_partial",
    "C58_terminal_partial",
    "C58_odd_refuted"
   ],
   "note": "Proved after any history of calls on the data, for residuals whose declared dependences are true. False for a residual declared to depend on the configuration only on a state with an odd number of coordinates (StateVector): only nv = floor(ndx/2) columns are used."
  },
  {
   "property": "C59",
   "status": "partial",
   "theorems": [
    "C59_inverse",
    "C59_sizes",
    "C59_Jdiff",
    "C59_Jintegrate_partial",
    "C59_identity_is_jacobian",
    "C59_wrappers",
    "C59_returning",
    "C59_Jintegrate_refuted"
   ],
   "note": "False for Jintegrate in the setto mode: only the diagonal is written. The rest holds as stated."
  },
  {
   "property": "C60",
   "status": "partial",
   "theorems": [
    "C60_state_limits",
    "C60_control_limits_partial",
    "C60_one_sided_refuted",
    "C60_bounds_kept"
   ],
   "note": "False for one-sided limits: the flag needs a finite entry on both sides."
  },
  {
   "property": "C61",
   "status": "partial",
   "theorems": [
    "C61_resize_in_bounds_refuted",
    "C61_resize_in_bounds_partial",
    "C61_stale_view_is_undefined"
   ],
   "note": "False as stated when the active dimension grows after the creation of the data."
  },
  {
   "property": "C62",
   "status": "proved",
   "theorems": [
    "C62_feedforward_in_limits",
    "C62_clamped_free"
   ],
   "note": ""
  },
  {
   "property": "C63",
   "status": "proved",
   "theorems": [
    "C63_euler_psd",
    "C63_rk_psd",
    "C63_rk_symmetric"
   ],
   "note": ""
  },
  {
   "property": "C64",
   "status": "partial",
   "theorems": [
    "C64_copy_partial",
    "C64_copy_refuted"
   ],
   "note": "False: the copy constructor omits the zero control, so the calls without a control throw on a copy. Proved for the calls with a control."
  },
  {
   "property": "C65",
   "status": "partial",
   "theorems": [
    "C65_euler",
    "C65_euler_Fx_partial",
    "C65_euler_Fx_refuted",
    "C65_rk",
    "C65_rk_Fx_refuted"
   ],
   "note": "State, cost, constraints and their derivatives hold after any history. Fx is wrong on Euler data that ran calcDiff with a control, and never written by the Runge-Kutta models."
  },
  {
   "property": "C66",
   "status": "partial",
   "theorems": [
    "C66_disturbance_partial",
    "C66_zero_refuted"
   ],
   "note": "False: set_disturbance(0) is accepted and every step is zero. Proved for the other values."
  },
  {
   "property": "C67",
   "status": "partial",
   "theorems": [
    "C67_gradient_partial",
    "C67_limit_partial",
    "C67_hessian_refuted"
   ],
   "note": "The gradient is right. The Hessian is the squared gradient, wrong for every disturbance."
  },
  {
   "property": "C68",
   "status": "partial",
   "theorems": [
    "C68_Jdiff",
    "C68_Jintegrate_partial",
    "C68_Jintegrate_refuted"
   ],
   "note": "Jdiff is exact. Jintegrate ignores its assignment argument; proved for setto."
  },
  {
   "property": "C69",
   "status": "partial",
   "theorems": [
    "C69_numdiff_partial",
    "C69_numdiff_refuted",
    "C69_unicycle_partial",
    "C69_unicycle_refuted"
   ],
   "note": "False: cast returns a model with default settings. The partial theorems say exactly when the result agrees."
  },
  {
   "property": "C70",
   "status": "partial",
   "theorems": [
    "C70_control_partial",
    "C70_state_refuted",
    "C70_commands_refuted",
    "C70_inverse_refuted"
   ],
   "note": "tau and dtau_du are right. dtau_dx is never written; commands is refused whenever nu differs from nv and otherwise does not invert the squashing."
  },
  {
   "property": "C71",
   "status": "partial",
   "theorems": [
    "C71_calc_calls",
    "C71_diff_calls_partial",
    "C71_jacobian_refuted"
   ],
   "note": "Proved for eval_f, eval_g, eval_grad_f after any history, and for eval_jac_g and eval_h when the last call that evaluates the nodes was at the same point. Refuted in general: these two call calcDiff on the data of the last evaluated point."
  },
  {
   "property": "C72",
   "status": "proved",
   "theorems": [
    "C72_gradient",
    "C72_jacobian"
   ],
   "note": "Along every curve of points, for an abstract tangent relation on the states; the Jacobian asked for at the point where the constraints were evaluated (see C71)."
  },
  {
   "property": "C73",
   "status": "proved",
   "theorems": [
    "C73_start",
    "C73_warm_start",
    "C73_bounds"
   ],
   "note": "For states whose integrate of the zero increment is the identity; 'infinite' is the 2e19 constant, a parameter."
  },
  {
   "property": "C74",
   "status": "proved",
   "theorems": [
    "C74_expected",
    "C74_descent",
    "C74_stop"
   ],
   "note": ""
  },
  {
   "property": "C75",
   "status": "partial",
   "theorems": [
    "C75_linearisation_partial",
    "C75_cost_partial",
    "C75_kkt_partial",
    "C75_kkt_stale_refuted",
    "C75_intro_partial"
   ],
   "note": "Proved when evaluating the derivatives does not throw. After an exception SolverKKT keeps using the old system in all later iterations."
  },
  {
   "property": "C76",
   "status": "partial",
   "theorems": [
    "C76_callbacks",
    "C76_flags",
    "C76_success",
    "C76_success_point_partial",
    "C76_stale_flag_refuted"
   ],
   "note": "was_feasible_ is not reset by solve: the feasibility part is false when every trial throws. The last clause is proved when calcDiff does not throw."
  },
  {
   "property": "C77",
   "status": "partial",
   "theorems": [
    "C77_merit_decrease_partial",
    "C77_merit_refuted"
   ],
   "note": "The branch for a negative prediction looks at the cost only, so the merit function may increase."
  },
  {
   "property": "C78",
   "status": "proved",
   "theorems": [
    "C78_value",
    "C29_optimal"
   ],
   "note": ""
  },
  {
   "property": "C79",
   "status": "partial",
   "theorems": [
    "C79_contact3",
    "C79_contact1",
    "C79_contact6",
    "C79_contact6_log",
    "C79_contact2_partial",
    "C79_contact2_refuted"
   ],
   "note": "Exact for 1D, 3D and 6D contacts of every frame type (6D: given that Jlog6 is the derivative of log6). The 2D contact omits the motion along the frame's y axis in the position-gain term."
  },
  {
   "property": "C80",
   "status": "partial",
   "theorems": [
    "C80_torque1",
    "C80_torque2",
    "C80_torque3",
    "C80_torque6",
    "C80_dtau1",
    "C80_dtau3",
    "C80_dtau6",
    "C80_published1",
    "C80_force2_refuted"
   ],
   "note": "The generalised forces and dtau_dq are right for all contacts and impulses; the published force of the 2D contact is in the coordinates of the parent joint."
  },
  {
   "property": "C81",
   "status": "partial",
   "theorems": [
    "C81_reference_partial",
    "C81_reference_refuted"
   ],
   "note": "The reference is subtracted along R*ez but the force acts along R^T*ez; holds when both agree (for instance for the default axis)."
  },
  {
   "property": "C82",
   "status": "partial",
   "theorems": [
    "C82_impulse3",
    "C82_impulse6_partial",
    "C82_impulse6_refuted"
   ],
   "note": "Exact for 3D and for 6D of types LOCAL and LOCAL_WORLD_ALIGNED; with type WORLD the 6D derivative uses the velocity of another point."
  },
  {
   "property": "C83",
   "status": "partial",
   "theorems": [
    "C83_rows",
    "C83_forces",
    "C83_dual_partial",
    "C83_dual_refuted"
   ],
   "note": "Rows and segments hold for all sets; the duality holds when the active contacts have distinct parent joints (the joint force is overwritten otherwise)."
  },
  {
   "property": "C84",
   "status": "proved",
   "theorems": [
    "C84_motion",
    "C84_derivative"
   ],
   "note": "For every robot described by the contracts of aba, computeABADerivatives, computeRNEADerivatives and the Cholesky inverse."
  },
  {
   "property": "C85",
   "status": "partial",
   "theorems": [
    "C85_motion",
    "C85_derivative_partial",
    "C85_shared_joint_refuted"
   ],
   "note": "End to end for every list of 1D, 3D and 6D contacts (2D under the condition of C79) on distinct joints; false for two contacts on the same joint, whose joint forces overwrite each other (C83): a cart with a turntable held by two equal contacts gets wrong derivatives of the acceleration and the forces."
  },
  {
   "property": "C86",
   "status": "partial",
   "theorems": [
    "C86_impact",
    "C86_configuration",
    "C86_derivative_partial",
    "C86_restitution_refuted",
    "C86_armature_refuted"
   ],
   "note": "The derivatives are exact for zero restitution and no armature; Fx ignores the restitution coefficient and uses the mass matrix without armature."
  },
  {
   "property": "C87",
   "status": "partial",
   "theorems": [
    "C87_accepted",
    "C87_decrease_partial",
    "C87_increase_refuted"
   ],
   "note": "False when d0 is negative or small: d0 < th_grad accepts any trial. Otherwise the decrease is proved."
  },
  {
   "property": "C88",
   "status": "partial",
   "theorems": [
    "C88_motion",
    "C88_forward",
    "C88_complete",
    "C88_floating_base",
    "C88_full",
    "C88_thrusters_partial",
    "C88_inactive_refuted",
    "C88_frame_refuted",
    "C88_thruster_refuted"
   ],
   "note": "Proved for the full and floating-base actuation and for thrusters whose independent wrenches fill a set of coordinates, with one contact per frame and joint. False: forces of inactive contacts are unconstrained, two contacts on one frame share data, tilted thrusters are accepted although they cannot produce the torque."
  },
  {
   "property": "C89",
   "status": "partial",
   "theorems": [
    "C89_tau",
    "C89_joint",
    "C89_contact",
    "C89_force_refuted"
   ],
   "note": "Torque constraint, joint.tau and contact accelerations are exact; the force constraint of an inactive contact is identically zero while its published derivative is the identity."
  },
  {
   "property": "C90",
   "status": "partial",
   "theorems": [
    "C90_status",
    "C90_others",
    "C90_tau",
    "C90_size",
    "C90_cast_partial",
    "C90_tau_refuted",
    "C90_cast_refuted"
   ],
   "note": "Statuses, dimensions and the remaining constraints are proved for every history in which the caller keeps the constraints of the contacts. False: a caller's constraint named tau takes the place of the torque constraint, and cast re-activates tau."
  },
  {
   "property": "C91",
   "status": "partial",
   "theorems": [
    "C91_affine",
    "C91_sizes",
    "C91_free",
    "C91_actuations",
    "C91_contact_partial",
    "C91_inverse_partial",
    "C91_euler",
    "C91_rk",
    "C91_newton_refuted",
    "C91_damping_refuted",
    "C91_stale_refuted",
    "C91_squashing_refuted"
   ],
   "note": "Proved for affine models under the default, for the free and (undamped) contact forward dynamics with actuations linear in the control, for the contact inverse dynamics when the rows behind the active contacts are zero, and for the integrators. False: the Newton default may cycle without any sign of failure; with a contact damping the robot moves; squashed actuations; inverse dynamics with an inactive contact after a calc on the same data use the old rows of the Jacobian."
  },
  {
   "property": "C92",
   "status": "partial",
   "theorems": [
    "C92_no_exception",
    "C92_directions_partial",
    "C92_success_refuted"
   ],
   "note": "Directions of candidates whose derivatives can be evaluated are right and feasibility flags are sound, whatever throws before. False for a candidate where calcDiff throws: the exception switches the evaluation off until the next accepted step, so a second solve returns true at its unchanged guess using the derivatives of the first solution."
  },
  {
   "property": "C93",
   "status": "partial",
   "theorems": [
    "C93_forward_partial",
    "C93_inverse_partial",
    "C93_terminal",
    "C93_shared_refuted",
    "C93_planar_refuted"
   ],
   "note": "Forward dynamics: proved for every history (planar contacts aligned with their joint). Inverse dynamics: proved for plain force residuals, single datas, and references not changed after creation. False: with several datas set_reference is seen by the Jacobians of the first data only; a planar contact turned with respect to its joint publishes the force in joint axes."
  },
  {
   "property": "C94",
   "status": "partial",
   "theorems": [
    "C94_control_partial",
    "C94_terminal",
    "C94_contact_partial",
    "C94_contact_refuted",
    "C94_state_refuted"
   ],
   "note": "Proved for torques that depend on the control only; the contact version is the documented residual exactly when the static torque of the current forces is that of the forces at creation of the data. False otherwise: the contact forces are copied at construction, and Rx ignores the state derivative of the torque."
  },
  {
   "property": "C95",
   "status": "partial",
   "theorems": [
    "C95_there",
    "C95_back",
    "C95_Jdiff_partial",
    "C95_Jintegrate_partial",
    "C95_addto",
    "C95_transport",
    "C95_setto_refuted",
    "C95_limits_partial",
    "C95_limits_refuted"
   ],
   "note": "Proved for matrices created as zero and used in any calls of this interface before, and for robots whose root joint is first. False for other contents: setto and Jdiff clear nothing outside of the diagonal blocks. False for a root_joint that is not the first joint: the first coordinates lose their limits."
  },
  {
   "property": "C96",
   "status": "partial",
   "theorems": [
    "C96_multibody",
    "C96_vector",
    "C96_control",
    "C96_other_refuted"
   ],
   "note": "Proved for robots, vector states and controls, for every history. False for any other state class: the state residual takes the Jacobian of diff to be the identity."
  },
  {
   "property": "C97",
   "status": "partial",
   "theorems": [
    "C97_running_partial",
    "C97_terminal_partial",
    "C97_running_refuted",
    "C97_terminal_refuted"
   ],
   "note": "Proved for all combinations of action and residual that work, and refuted for all others: centre-of-mass residuals in the free forward dynamics without armature and the free inverse dynamics; centroidal-momentum residuals everywhere but in the free forward dynamics with armature and the contact forward dynamics, and at every terminal node; frame-velocity residuals (Jacobian) in the impulse action."
  },
  {
   "property": "C98",
   "status": "proved",
   "theorems": [
    "C98_value",
    "C98_derivative",
    "C98_logarithms",
    "C98_velocity"
   ],
   "note": "The derivative theorem takes any logarithm differentiable at the error; C98_logarithms shows that the formulas of Pinocchio's log3, Jlog3, log6 and Jlog6 are, for angles strictly between 0 and pi."
  },
  {
   "property": "C99",
   "status": "partial",
   "theorems": [
    "C99_statistics_partial",
    "C99_names",
    "C99_unknown",
    "C99_disabled",
    "C99_min_refuted",
    "C99_min_reset_refuted",
    "C99_pause_refuted"
   ],
   "note": "Proved: total, number, last, maximum (of positive durations), independence of names, exceptions, disabling. Refuted: the minimum when the first duration is the shortest (it stays at its initial value), the minimum after a reset (it stays 0), and pauses, which subtract readings of different clocks or units."
  }
 ]
}