{
 "claims": [
  {
   "property": "C01",
   "status": "proved",
   "theorems": [
    "C01_product_exact"
   ],
   "note": ""
  },
  {
   "property": "C02",
   "status": "proved",
   "theorems": [
    "C02_relu_exact"
   ],
   "note": ""
  },
  {
   "property": "C03",
   "status": "proved",
   "theorems": [
    "C03_leaky_exact"
   ],
   "note": "Slope 1 is degenerate: the rows reduce to y = x and do not confine x; stated in the theorem."
  },
  {
   "property": "C04",
   "status": "proved",
   "theorems": [
    "C04_leaky_gradient_exact"
   ],
   "note": ""
  },
  {
   "property": "C05",
   "status": "proved",
   "theorems": [
    "C05_saturation_exact",
    "C05_saturation_relaxed"
   ],
   "note": ""
  },
  {
   "property": "C06",
   "status": "proved",
   "theorems": [
    "C06_absolute_value_exact"
   ],
   "note": ""
  },
  {
   "property": "C07",
   "status": "partial",
   "theorems": [
    "C07_max_exact",
    "C07_max_rejects",
    "C07_max_total_refuted"
   ],
   "note": "Exactness holds whenever a constraint is returned. The code violates the rest: max_as_mixed_integer_constraint raises TypeError when exactly one index can never be maximal (C07_max_total_refuted)."
  },
  {
   "property": "C08",
   "status": "proved",
   "theorems": [
    "C08_l1_gradient",
    "C08_linf_gradient",
    "C08_l1_tolerance_refuted"
   ],
   "note": "Proved at tolerance 0 as stated. Defect for positive tolerance: C08_l1_tolerance_refuted."
  },
  {
   "property": "C09",
   "status": "proved",
   "theorems": [
    "C09_box_boundary_exact"
   ],
   "note": ""
  },
  {
   "property": "C10",
   "status": "proved",
   "theorems": [
    "C10_interval_arithmetic"
   ],
   "note": ""
  },
  {
   "property": "C11",
   "status": "proved",
   "theorems": [
    "C11_propagate_linear",
    "C11_propagate_activation",
    "C11_leaky_interval"
   ],
   "note": ""
  },
  {
   "property": "C12",
   "status": "proved",
   "theorems": [
    "C12_network_bounds",
    "C12_bounds_total"
   ],
   "note": "Solver results enter through the contract solver_ok; the totality theorem also uses solver_total; an ideal solver meeting both is constructed (ideal_ok, ideal_total). Infinite bounds (unbounded programs) are the error value."
  },
  {
   "property": "C13",
   "status": "proved",
   "theorems": [
    "C13_network_encoding_exact",
    "C13_given_bounds_exact"
   ],
   "note": "Networks with a leaky slope of exactly 1 are covered by the first theorem; the second theorem excludes them because their binaries are unconstrained."
  },
  {
   "property": "C14",
   "status": "partial",
   "theorems": [
    "C14_warm_start_refuted",
    "C14_warm_start_exact",
    "C14_warm_pattern_exact"
   ],
   "note": "False of the code as stated (C14_warm_start_refuted: a unit with nonnegative lower bound and input exactly 0). Both warm-start rules are characterised exactly (C14_warm_start_exact, C14_warm_pattern_exact)."
  },
  {
   "property": "C15",
   "status": "proved",
   "theorems": [
    "C15_cut_total",
    "C15_cut_sound",
    "C15_chosen_cut_strongest",
    "C15_given_points",
    "C15_given_points_complete",
    "C15_unit_cuts",
    "C15_network_cuts",
    "C15_network_total",
    "C15_network_complete",
    "C15_program_kept"
   ],
   "note": ""
  },
  {
   "property": "C16",
   "status": "proved",
   "theorems": [
    "C16_linearisation",
    "C16_own_pattern",
    "C16_rejects"
   ],
   "note": ""
  },
  {
   "property": "C17",
   "status": "proved",
   "theorems": [
    "C17_enumeration",
    "C17_binary_to_pattern"
   ],
   "note": ""
  },
  {
   "property": "C18",
   "status": "proved",
   "theorems": [
    "C18_alpha_index"
   ],
   "note": ""
  },
  {
   "property": "C19",
   "status": "proved",
   "theorems": [
    "C19_gradient_times_vector",
    "C19_negative_slope_rejected"
   ],
   "note": ""
  },
  {
   "property": "C20",
   "status": "partial",
   "theorems": [
    "C20_concatenate_exact",
    "C20_concatenate_total",
    "C20_concatenate_total_refuted",
    "C20_concatenate_shape_refuted"
   ],
   "note": "Exact whenever the binary-bound bookkeeping is harmless (bin_bounds_fine). The code violates the property otherwise: line 344 uses cnstr1.num_binary() for cnstr2 (C20_*_refuted)."
  },
  {
   "property": "C21",
   "status": "partial",
   "theorems": [
    "C21_transform_exact",
    "C21_transform_rows",
    "C21_transform_total",
    "C21_transform_bounds_refuted"
   ],
   "note": "Rows and outputs are substituted correctly for every object; with input bounds on the object the property is false of the code, bounds are never transformed (C21_transform_bounds_refuted)."
  },
  {
   "property": "C22",
   "status": "partial",
   "theorems": [
    "C22_torch_sound",
    "C22_torch_exact",
    "C22_add_constraints_is_history",
    "C22_late_bound_refuted",
    "C22_empty_range_refuted"
   ],
   "note": "Gurobi-feasible implies torch-feasible for every history; the converse holds for histories without late bounds on continuous variables / empty ranges and is false of the code otherwise (C22_*_refuted)."
  },
  {
   "property": "C23",
   "status": "proved",
   "theorems": [
    "C23_milp_objective_exact",
    "C23_loop_close",
    "C23_loop_exact",
    "C23_penalty_refuted",
    "C23_miqp_objective_exact",
    "C23_miqp_cross_term_refuted"
   ],
   "note": "Beyond the stated property: a positive penalty biases the result and the MIQP variant ignores Q_rzeta (two _refuted theorems)."
  },
  {
   "property": "C24",
   "status": "proved",
   "theorems": [
    "C24_equilibrium",
    "C24_value",
    "C24_positivity",
    "C24_positive",
    "C24_verdict"
   ],
   "note": "Solver results enter through solver_ok; theorems are about every feasible point of the program that is built."
  },
  {
   "property": "C25",
   "status": "proved",
   "theorems": [
    "C25_decrease",
    "C25_verdict",
    "C25_values"
   ],
   "note": "For every system whose constraints are exact (system_contract), which C31 proves of hybrid linear systems, C36 of learned systems and C37 of closed loops."
  },
  {
   "property": "C26",
   "status": "proved",
   "theorems": [
    "C26_exponential",
    "C26_asymptotic"
   ],
   "note": ""
  },
  {
   "property": "C27",
   "status": "partial",
   "theorems": [
    "C27_leaving_refuted"
   ],
   "note": "False of the code: the derivative MILP confines the successor to the box, so violating states that leave it are not considered (C27_leaving_refuted)."
  },
  {
   "property": "C28",
   "status": "partial",
   "theorems": [
    "C28_invariant_partial",
    "C28_corner_refuted"
   ],
   "note": "Invariance proved for successors that leave through one side (C28_invariant_partial) and for solver runs with a verdict; successors that leave in two coordinates at once escape (C28_corner_refuted)."
  },
  {
   "property": "C29",
   "status": "proved",
   "theorems": [
    "C29_strengthen_binary",
    "C29_strengthen_rounds",
    "C29_relu_loop_rounds",
    "C29_hybrid_loop_rounds",
    "C29_relu_loop_rounds_total",
    "C29_hybrid_loop_rounds_total"
   ],
   "note": ""
  },
  {
   "property": "C30",
   "status": "proved",
   "theorems": [
    "C30_positivity_loss",
    "C30_derivative_loss",
    "C30_positivity_ordered",
    "C30_derivative_ordered",
    "C30_barrier_derivative_loss",
    "C30_barrier_safe_loss",
    "C30_barrier_unsafe_loss",
    "C30_barrier_sample_loss"
   ],
   "note": "Lyapunov positivity and derivative losses for all three reductions and the barrier losses (PropBarrier.v)."
  },
  {
   "property": "C31",
   "status": "proved",
   "theorems": [
    "C31_hybrid_exact",
    "C31_hybrid_total",
    "C31_hybrid_in_model"
   ],
   "note": ""
  },
  {
   "property": "C32",
   "status": "proved",
   "theorems": [
    "C32_mode",
    "C32_step_forward",
    "C32_possible_dx"
   ],
   "note": ""
  },
  {
   "property": "C33",
   "status": "partial",
   "theorems": [
    "C33_cost_to_go_partial",
    "C33_failure",
    "C33_samples",
    "C33_last_state_refuted",
    "C33_skip_refuted"
   ],
   "note": "Suffix sums, lengths and stopping proved. \"States outside every mode are never used\" is false of the code (C33_last_state_refuted, C33_skip_refuted)."
  },
  {
   "property": "C34",
   "status": "proved",
   "theorems": [
    "C34_partition",
    "C34_cells_disjoint"
   ],
   "note": ""
  },
  {
   "property": "C35",
   "status": "proved",
   "theorems": [
    "C35_autonomous",
    "C35_controlled"
   ],
   "note": "Continuous-time classes (derivative zero at the equilibrium) are covered too; second order classes need nq = nv, which the constructors do not check."
  },
  {
   "property": "C36",
   "status": "proved",
   "theorems": [
    "C36_autonomous",
    "C36_autonomous_total",
    "C36_autonomous_contract",
    "C36_next_bounds",
    "C36_controlled",
    "C36_controlled_total"
   ],
   "note": "All nine classes. A residue system confines only the coordinates that enter its network."
  },
  {
   "property": "C37",
   "status": "proved",
   "theorems": [
    "C37_control",
    "C37_closed_loop",
    "C37_closed_loop_total",
    "C37_closed_loop_contract",
    "C37_hybrid_closed_loop_contract",
    "C37_hybrid_closed_loop_total"
   ],
   "note": "Network and linear controllers, ReLU and hybrid forward systems. Observation: states whose saturated control leaves the forward system's own input range are excluded from the program."
  },
  {
   "property": "C38",
   "status": "proved",
   "theorems": [
    "C38_at_star",
    "C38_value",
    "C38_derivative",
    "C38_value_program",
    "C38_derivative_program",
    "C38_value_verdict",
    "C38_derivative_verdict",
    "C38_keeps",
    "C38_safe",
    "C38_leaving_refuted",
    "C38_strict_refuted"
   ],
   "note": "The property restricts to steps that stay in the box; C38_leaving_refuted shows that the documentation's unrestricted promise fails, C38_strict_refuted that an optimum of 0 does not give h < 0."
  },
  {
   "property": "C39",
   "status": "proved",
   "theorems": [
    "C39_spd_rank",
    "C39_spd_norm",
    "C39_spd_roundtrip",
    "C39_svd_rank",
    "C39_svd_norm",
    "C39_svd_roundtrip",
    "C39_free_roundtrip"
   ],
   "note": ""
  },
  {
   "property": "C40",
   "status": "partial",
   "theorems": [
    "C40_both_partial",
    "C40_single_partial",
    "C40_gradient_partial",
    "C40_zero_gradient_refuted",
    "C40_orthogonal_refuted"
   ],
   "note": "Proved for nonzero gradients (C40_both_partial, C40_single_partial, C40_gradient_partial). False of the code for a zero gradient, which divides by zero (C40_zero_gradient_refuted), and orthogonal gradients are projected although the documentation says otherwise (C40_orthogonal_refuted)."
  },
  {
   "property": "C41",
   "status": "proved",
   "theorems": [
    "C41_gd",
    "C41_gd_armijo",
    "C41_adam",
    "C41_terminates",
    "C41_returns",
    "C41_failure_moves_refuted",
    "C41_direction",
    "C41_momentum"
   ],
   "note": "A failed search leaves the parameters at the last trial (C41_failure_moves_refuted)."
  },
  {
   "property": "C42",
   "status": "proved",
   "theorems": [
    "C42_descent"
   ],
   "note": ""
  },
  {
   "property": "C43",
   "status": "partial",
   "theorems": [
    "C43_best_partial",
    "C43_returns",
    "C43_R_refuted"
   ],
   "note": "Proved when R is fixed. With a trained R the property is false of the code: R is neither saved nor restored (C43_R_refuted). max_epochs = 0 raises."
  },
  {
   "property": "C44",
   "status": "proved",
   "theorems": [
    "C44_adversarial",
    "C44_train",
    "C44_adversarial_certificate",
    "C44_train_certificate",
    "C44_threshold",
    "C44_threshold_refuted"
   ],
   "note": "The verdict theorems hold for any solver; the certificate theorems assume that the reports are optima, which the early-termination callback guarantees only for thresholds not below the tolerance (C44_threshold, C44_threshold_refuted)."
  },
  {
   "property": "C45",
   "status": "partial",
   "theorems": [
    "C45_pool",
    "C45_bound",
    "C45_aligned",
    "C45_buffer",
    "C45_buffer_aligned",
    "C45_zero_refuted",
    "C45_buffer_refuted"
   ],
   "note": "Proved for pool sizes >= 1 and for the value buffers with additions not above the limit. False for size 0 (C45_zero_refuted) and for larger additions (C45_buffer_refuted)."
  },
  {
   "property": "C46",
   "status": "partial",
   "theorems": [
    "C46_cluster",
    "C46_counts_partial",
    "C46_two_refuted"
   ],
   "note": "Representatives for every input; counts except for exactly two clusters, where the code returns one count (C46_two_refuted)."
  },
  {
   "property": "C47",
   "status": "partial",
   "theorems": [
    "C47_first_partial",
    "C47_refuted",
    "C47_frozen"
   ],
   "note": "False of the code (C47_refuted, C47_frozen): _set_training_params replaces the tensor that the optimiser holds. Only the first descent trains R (C47_first_partial)."
  },
  {
   "property": "C48",
   "status": "proved",
   "theorems": [
    "C48_setup",
    "C48_update",
    "C48_update_same",
    "C48_rebuild",
    "C48_update_follows",
    "C48_alias_refuted",
    "C48_short_refuted"
   ],
   "note": "Beyond the property: update_relu_params does not copy (C48_update_follows, C48_alias_refuted); a short last bias is accepted (C48_short_refuted)."
  },
  {
   "property": "C49",
   "status": "partial",
   "theorems": [
    "C49_in_box",
    "C49_onto",
    "C49_boundary_partial",
    "C49_boundary_refuted",
    "C49_meshgrid",
    "C49_minkowski"
   ],
   "note": "Boundary sampling proved for random numbers in (0, 1); the value 0, which torch.rand can return, gives an index out of range (C49_boundary_refuted). Everything else in full."
  },
  {
   "property": "C50",
   "status": "proved",
   "theorems": [
    "C50_rotation",
    "C50_torch",
    "C50_gradient"
   ],
   "note": ""
  },
  {
   "property": "C51",
   "status": "proved",
   "theorems": [
    "C51_history",
    "C51_costs",
    "C51_terminates",
    "C51_connect",
    "C51_neighbours",
    "C51_grow",
    "C51_update",
    "C51_update_refuted"
   ],
   "note": "Beyond the property: update_parent on its own does not check for cycles and then never returns (C51_update_refuted); connect_state_extend never calls it so."
  },
  {
   "property": "C52",
   "status": "proved",
   "theorems": [
    "C52_monotone",
    "C52_path",
    "C52_goal",
    "C52_sweeps",
    "C52_residual",
    "C52_terminates",
    "C52_policy"
   ],
   "note": "Also termination, and a bound on the cost of the returned policy."
  },
  {
   "property": "C53",
   "status": "partial",
   "theorems": [
    "C53_touchdown_energy",
    "C53_liftoff_energy",
    "C53_liftoff_undoes_touchdown",
    "C53_touchdown_undoes_liftoff",
    "C53_flight_energy",
    "C53_stance_energy",
    "C53_stance_newton",
    "C53_apex_map_energy",
    "C53_ballistic",
    "C53_time_to_touchdown",
    "C53_can_touch",
    "C53_first_touchdown",
    "C53_jump_refuted",
    "C53_positive_time_refuted",
    "C53_zero_gravity_refuted",
    "C53_stance_gradient",
    "C53_touchdown_gradient",
    "C53_apex_to_touchdown_gradient",
    "C53_liftoff_to_apex_gradient",
    "C53_liftoff_gradient_partial",
    "C53_liftoff_gradient_refuted",
    "C53_apex_to_apex_gradient"
   ],
   "note": "All parts proved except: the liftoff gradient leaves out the derivative by r (C53_liftoff_gradient_refuted; right along the rest length, and the whole apex-to-apex gradient is right, C53_apex_to_apex_gradient); time_to_touchdown misses jumps from below (C53_jump_refuted), may return 0 and has no answer for g = 0."
  },
  {
   "property": "C54",
   "status": "proved",
   "theorems": [
    "C54_exact",
    "C54_certificate",
    "C54_zero_iff",
    "C54_decay",
    "C54_convergence",
    "C54_continuity_raises",
    "C54_continuity_refuted"
   ],
   "note": "Proved for every successful history of calls, incl. decay along trajectories that switch modes on shared faces. Finding: add_continuity_constraint raises on most faces in dimension 3 and above (C54_continuity_raises, C54_continuity_refuted: np.ones of shape[1] instead of shape[0])."
  },
  {
   "property": "C55",
   "status": "partial",
   "theorems": [
    "C55_continuous_program",
    "C55_continuous_verdict",
    "C55_continuous_decay",
    "C55_continuous_certified",
    "C55_continuous_built",
    "C55_boundary_gradient_refuted",
    "C55_hybrid_program",
    "C55_hybrid_programs_agree",
    "C55_hybrid_same_optimum",
    "C55_hybrid_verdict",
    "C55_hybrid_decay",
    "C55_hybrid_certified",
    "C55_hybrid_built",
    "C55_hybrid_built2",
    "C55_hybrid_boundary_refuted"
   ],
   "note": "LyapunovContinuousTimeSystem and both programs of LyapunovContinuousTimeHybridSystem: exactness, the two hybrid programs agree, verdict, decay of V along every solution, convergence together with the positivity program, totality. The completeness half is false of the code on the boundary of the box (C55_boundary_gradient_refuted, C55_hybrid_boundary_refuted); it is proved for flags that are attained in the box, and the decay theorems need no such restriction. The losses and samples of the continuous-time classes are not modelled."
  },
  {
   "property": "C56",
   "status": "partial",
   "theorems": [
    "C56_dynamics",
    "C56_linear",
    "C56_second_order_partial",
    "C56_second_order_refuted",
    "C56_second_order_raises",
    "C56_second_order_dynamics",
    "C56_networks",
    "C56_networks_dynamics",
    "C56_equilibrium",
    "C56_training_rates"
   ],
   "note": "Dynamics, linear systems and the network class in full. The abstract second order construction is right when the output of b does not use the state directly (C56_second_order_partial); otherwise it raises, because the zero block has nq instead of x_dim columns (C56_second_order_refuted, C56_second_order_raises)."
  },
  {
   "property": "C57",
   "status": "proved",
   "theorems": [
    "C57_flat",
    "C57_range",
    "C57_3d"
   ],
   "note": ""
  },
  {
   "property": "C58",
   "status": "proved",
   "theorems": [
    "C58_equilibrium",
    "C58_exact",
    "C58_linear"
   ],
   "note": ""
  },
  {
   "property": "C59",
   "status": "partial",
   "theorems": [
    "C59_ends_partial",
    "C59_start",
    "C59_drivable_refuted"
   ],
   "note": "End points proved; the dynamics part is false of the code: rewiring reverses the inputs without negating them (C59_drivable_refuted)."
  },
  {
   "property": "C60",
   "status": "partial",
   "theorems": [
    "C60_exact",
    "C60_equations_partial",
    "C60_limits_refuted",
    "C60_total",
    "C60_equilibrium",
    "C60_zero_velocity"
   ],
   "note": "All six classes. For the cars whose network does not read the angular velocity the program lacks the limits that step_forward asserts (C60_limits_refuted); there the program is exact for the equations without that assertion (C60_equations_partial)."
  },
  {
   "property": "C61",
   "status": "partial",
   "theorems": [
    "C61_quadrotor",
    "C61_quadrotor_contract",
    "C61_quadrotor_total",
    "C61_others_refuted"
   ],
   "note": "Holds for QuadrotorReLUSystem; every other example model raises in every closed loop (C61_others_refuted)."
  },
  {
   "property": "C62",
   "status": "partial",
   "theorems": [
    "C62_input",
    "C62_origin",
    "C62_exact_partial",
    "C62_total_partial",
    "C62_moves_refuted",
    "C62_linear_refuted"
   ],
   "note": "Proved for network controllers (input, rest at the origin, exact and total program). Refuted: strictly positive velocity near the origin (C62_moves_refuted); constraints of a linear controller (C62_linear_refuted)."
  },
  {
   "property": "C63",
   "status": "proved",
   "theorems": [
    "C63_program",
    "C63_value",
    "C63_built",
    "C63_region",
    "C63_hybrid_region"
   ],
   "note": ""
  },
  {
   "property": "C64",
   "status": "partial",
   "theorems": [
    "C64_unicycle",
    "C64_pendulum",
    "C64_quad2d",
    "C64_rocket",
    "C64_quadrotor",
    "C64_rest",
    "C64_torch_partial",
    "C64_torch_refuted"
   ],
   "note": "Linearizations and equilibria of all plants proved; numpy and torch branches agree for all plants but AccelerationCar, whose torch branch always raises (C64_torch_refuted)."
  },
  {
   "property": "C65",
   "status": "partial",
   "theorems": [
    "C65_pendulum",
    "C65_shaping",
    "C65_rockets",
    "C65_rocket_power",
    "C65_quad2d",
    "C65_rates",
    "C65_quadrotor",
    "C65_unicycle",
    "C65_acceleration_car",
    "C65_pole_defined",
    "C65_pole_height",
    "C65_pole_partial",
    "C65_pole_energy_partial",
    "C65_pole_refuted"
   ],
   "note": "Proved for pendulum, rockets, both quadrotors and both cars. The pole obeys Newton exactly where x*y*xdot*ydot = 0 (C65_pole_partial); elsewhere refuted because one term has the wrong sign (C65_pole_refuted)."
  },
  {
   "property": "C66",
   "status": "partial",
   "theorems": [
    "C66_exact",
    "C66_bounds",
    "C66_total",
    "C66_equilibrium",
    "C66_loop",
    "C66_loop_total",
    "C66_contract",
    "C66_certified",
    "C66_limits_refuted"
   ],
   "note": "Everything but the last clause is proved for both classes; the last clause is false: bounds from outside, such as those of a controller, replace the plant's own input limits (C66_limits_refuted)."
  },
  {
   "property": "C67",
   "status": "proved",
   "theorems": [
    "C67_polytope_valid",
    "C67_polytope_exact",
    "C67_polytope_total",
    "C67_polytope_empty",
    "C67_row_valid",
    "C67_row_exact",
    "C67_range_valid",
    "C67_range_exact",
    "C67_range_is_interval_arithmetic",
    "C67_bounded_sound",
    "C67_bounded_complete",
    "C67_mode_added",
    "C67_hybrid_exact"
   ],
   "note": "Discharges the bounds oracle of C31/C32 and the row oracle of C55. unbounded_ok is the documented meaning of UNBOUNDED (a ray, not feasibility); validity needs solver_ok only."
  },
  {
   "property": "C68",
   "status": "proved",
   "theorems": [
    "C68_sound",
    "C68_tight",
    "C68_found",
    "C68_autonomous_program",
    "C68_autonomous_program_total",
    "C68_loop_program",
    "C68_loop_program_total",
    "C68_autonomous_built",
    "C68_loop_built",
    "C68_autonomous_certified",
    "C68_loop_certified"
   ],
   "note": "Soundness for LP and MIP, attainment for MIP, totality; instances for autonomous systems and closed continuous-time plants, with the derivative certificates of C55/C66 carried through without an oracle. Attainment needs exact separate programs (no_more), which the MIP methods give."
  },
  {
   "property": "C69",
   "status": "partial",
   "theorems": [
    "C69_network_gradients",
    "C69_listed",
    "C69_right_derivative",
    "C69_smooth_one_value",
    "C69_optimum_listed",
    "C69_hybrid_listed",
    "C69_hybrid_right_derivative",
    "C69_hybrid_optimum_listed",
    "C69_hybrid_one_dimension_refuted"
   ],
   "note": "Proved for LyapunovContinuousTimeSystem with R given (R = None raises) and for hybrid systems of two or more dimensions; with one dimension the call raises at every state in a mode (C69_hybrid_one_dimension_refuted). Exact values for tolerance zero; the network part for every tolerance."
  },
  {
   "property": "C70",
   "status": "partial",
   "theorems": [
    "C70_loss_zero",
    "C70_reported_derivative",
    "C70_reported_between",
    "C70_no_false_alarm",
    "C70_kink_violation_refuted",
    "C70_hybrid_loss_zero",
    "C70_hybrid_samples"
   ],
   "note": "Zero iff every sample decays at the rate reported by automatic differentiation, which is the derivative along the motion away from the kinks; no false alarms. At a kink a violation can go unnoticed (C70_kink_violation_refuted). The backward pass of torch is modelled (0 at a zero input of a ReLU, sign 0)."
  },
  {
   "property": "C71",
   "status": "partial",
   "theorems": [
    "C71_violations",
    "C71_no_sample",
    "C71_raises",
    "C71_certified_raises_refuted",
    "C71_losses",
    "C71_losses_early"
   ],
   "note": "Violations, losses and the exact condition for raising are proved. The part \"a system that satisfies the conditions gets an empty answer\" is false: adversarial_samples raises UnboundLocalError exactly when one of the decay conditions holds on the box (C71_raises, C71_certified_raises_refuted)."
  },
  {
   "property": "C72",
   "status": "proved",
   "theorems": [
    "C72_samples",
    "C72_samples_zero",
    "C72_dynamics"
   ],
   "note": ""
  },
  {
   "property": "C73",
   "status": "partial",
   "theorems": [
    "C73_rollout",
    "C73_decay",
    "C73_loss",
    "C73_validation_sum",
    "C73_validation_mean_refuted"
   ],
   "note": "Everything but the documented mean: rollout_validation returns the sum over the rollouts (C73_validation_sum, C73_validation_mean_refuted)."
  },
  {
   "property": "C74",
   "status": "partial",
   "theorems": [
    "C74_weight",
    "C74_divergence",
    "C74_latent_state",
    "C74_cross_entropy",
    "C74_first_image",
    "C74_batch_refuted",
    "C74_target",
    "C74_dynamics",
    "C74_samples"
   ],
   "note": "All parts are proved except for the batch claim with squared errors, which is false: only the first image of the batch enters (C74_first_image, C74_batch_refuted)."
  },
  {
   "property": "C75",
   "status": "partial",
   "theorems": [
    "C75_latent",
    "C75_images",
    "C75_agree",
    "C75_one_dimension",
    "C75_one_dimension_refuted",
    "C75_loss",
    "C75_cross_entropy_refuted"
   ],
   "note": "Rollouts and agreement are proved for latent dimensions other than one; with one dimension every rollout raises (C75_one_dimension, C75_one_dimension_refuted). The claim on the rollout loss holds for squared errors and is false for cross entropy (C75_loss, C75_cross_entropy_refuted)."
  },
  {
   "property": "C76",
   "status": "partial",
   "theorems": [
    "C76_steps",
    "C76_interrupt",
    "C76_total",
    "C76_saves",
    "C76_crash_partial",
    "C76_crash_refuted",
    "C76_no_path",
    "C76_left_on_device_refuted",
    "C76_validation_dynamics",
    "C76_validation_partial",
    "C76_validation_refuted"
   ],
   "note": "Steps, interrupts, periodic saves and loading are proved. False: that the last save survives a crash (C76_crash_partial gives what is left, C76_crash_refuted), that the networks always end on the CPU (C76_left_on_device_refuted), and that the sample losses of the validation are those of the whole set when samples lie outside the stable box (C76_validation_partial, C76_validation_refuted)."
  },
  {
   "property": "C77",
   "status": "partial",
   "theorems": [
    "C77_flatten",
    "C77_view",
    "C77_convolution",
    "C77_pool",
    "C77_upsample",
    "C77_field_encoder1",
    "C77_field_encoder2",
    "C77_field_decoder2",
    "C77_encoder_sizes",
    "C77_encode",
    "C77_linear_encoder",
    "C77_linear_decoder",
    "C77_decode",
    "C77_decoded_size",
    "C77_declared_size_refuted",
    "C77_patches",
    "C77_loop",
    "C77_loop_refuted",
    "C77_fits",
    "C77_cross_entropy"
   ],
   "note": "Codes, pixels, sizes and re-encoding are proved. False: that decoded images have the declared size (C77_declared_size_refuted, exact condition C77_decoded_size) and that decoded images can always be encoded again (C77_loop_refuted, sufficient conditions C77_loop)."
  },
  {
   "property": "C78",
   "status": "partial",
   "theorems": [
    "C78_callback_bounds",
    "C78_callback_total",
    "C78_exact",
    "C78_contract",
    "C78_bounds",
    "C78_total_partial",
    "C78_linear_raises",
    "C78_linear_refuted",
    "C78_mixed_raises",
    "C78_mixed_refuted"
   ],
   "note": "Bounds, attained bounds, exactness, the contract and building for network controllers without IA_MIP are proved. False: that building succeeds for every controller and bound method (C78_linear_refuted, C78_mixed_refuted; the missing hypotheses of C78_total_partial)."
  },
  {
   "property": "C79",
   "status": "partial",
   "theorems": [
    "C79_exact_at_the_point",
    "C79_defined",
    "C79_gradient",
    "C79_constraints",
    "C79_point_is_feasible",
    "C79_backward_leg_refuted"
   ],
   "note": "Exactness at the point, derivatives, constraints, feasibility of the point and existence are proved. False: that an approximation exists only where the apex map has a value (C79_backward_leg_refuted); exactness therefore assumes the leg does not point backwards."
  },
  {
   "property": "C80",
   "status": "partial",
   "theorems": [
    "C80_energy",
    "C80_apex_map",
    "C80_timeout_refuted",
    "C80_time_refuted"
   ],
   "note": "Energy, number of steps and agreement with the apex map are proved. False: that energy is kept when a flight lasts longer than ten seconds (C80_timeout_refuted) and that times increase (C80_time_refuted)."
  },
  {
   "property": "C81",
   "status": "partial",
   "theorems": [
    "C81_buffer",
    "C81_batch",
    "C81_loop_ok",
    "C81_loop",
    "C81_chain",
    "C81_terminal",
    "C81_episode_length",
    "C81_ratio",
    "C81_policy_steps",
    "C81_policy_delay_refuted",
    "C81_terminal_at_horizon_refuted",
    "C81_start_steps_refuted"
   ],
   "note": "Buffer, episodes, schedule and counts are proved. False: exactly start_steps random actions (C81_start_steps_refuted), one policy update every policy_delay updates (C81_policy_delay_refuted), terminal states always stored as such (C81_terminal_at_horizon_refuted)."
  },
  {
   "property": "C82",
   "status": "partial",
   "theorems": [
    "C82_action_limits",
    "C82_action_exact",
    "C82_actor_equilibrium",
    "C82_actor_spread",
    "C82_actor_limits_refuted",
    "C82_target_action",
    "C82_backup_terminal",
    "C82_backup_going",
    "C82_backup_bounded",
    "C82_loss_zero",
    "C82_updates",
    "C82_start",
    "C82_freeze_refuted",
    "C82_targets_bounded",
    "C82_targets_converge"
   ],
   "note": "Everything but the freezing of the critics (C82_freeze_refuted) and limits on the output of the actor itself (C82_actor_limits_refuted) is proved."
  },
  {
   "property": "C83",
   "status": "partial",
   "theorems": [
    "C83_objective_is_written",
    "C83_same_optimum",
    "C83_accepted",
    "C83_unknown_variable_refuted"
   ],
   "note": "Value, optima and acceptance are proved for linear terms in variables of the program. False: that other linear terms are rejected (C83_unknown_variable_refuted)."
  },
  {
   "property": "C84",
   "status": "partial",
   "theorems": [
    "C84_moves",
    "C84_amsgrad",
    "C84_bounded",
    "C84_average",
    "C84_equal_gradients",
    "C84_first_step_descends",
    "C84_descent_refuted",
    "C84_moved_parameters",
    "C84_accepted_decreases",
    "C84_group_options_refuted",
    "C84_decay_slope_refuted"
   ],
   "note": "Moves, bounds, first direction and acceptance are proved (eps > 0). False: that later directions go down (C84_descent_refuted), that each group has its own line search options (C84_group_options_refuted), that the slope is that of the loss with weight decay (C84_decay_slope_refuted)."
  },
  {
   "property": "C85",
   "status": "partial",
   "theorems": [
    "C85_costs",
    "C85_decreasing",
    "C85_stops_at_goal",
    "C85_samples",
    "C85_samples_complete",
    "C85_value_of_state_refuted",
    "C85_start_at_goal_refuted",
    "C85_step_system"
   ],
   "note": "Proved for an exact integrator. False: that a state has one value along a trajectory (C85_value_of_state_refuted), that the simulation stops if it begins at the goal (C85_start_at_goal_refuted)."
  },
  {
   "property": "C86",
   "status": "partial",
   "theorems": [
    "C86_step",
    "C86_penalty",
    "C86_return",
    "C86_hover",
    "C86_hover_allowed",
    "C86_reset",
    "C86_reset_covers",
    "C86_training",
    "C86_observation_space_refuted"
   ],
   "note": "Proved but for one claim that is false: observations do not stay in the declared observation space (C86_observation_space_refuted)."
  },
  {
   "property": "C87",
   "status": "partial",
   "theorems": [
    "C87_points",
    "C87_fixed_state",
    "C87_global_bound",
    "C87_returned",
    "C87_argument_refuted"
   ],
   "note": "Proved but for one claim that is false: the network passed to the call is ignored (C87_argument_refuted)."
  },
  {
   "property": "C88",
   "status": "proved",
   "theorems": [
    "C88_nearest",
    "C88_angle",
    "C88_fixed",
    "C88_twice",
    "C88_nonexpansive"
   ],
   "note": ""
  },
  {
   "property": "C89",
   "status": "partial",
   "theorems": [
    "C89_recorded",
    "C89_ends",
    "C89_quadrotor_lengths",
    "C89_default_ends_refuted",
    "C89_zero_length_refuted"
   ],
   "note": "Proved but for one claim that is false: with the default length the call does not end in the environment of the planar quadrotor (C89_default_ends_refuted, C89_zero_length_refuted)."
  },
  {
   "property": "C90",
   "status": "partial",
   "theorems": [
    "C90_fit_partial",
    "C90_test_unseen",
    "C90_variables",
    "C90_single_refuted",
    "C90_training_loss_refuted"
   ],
   "note": "Proved but for two claims that are false: a data set of one example cannot be fitted (C90_single_refuted) and the printed training loss is not the loss over the training examples (C90_training_loss_refuted)."
  },
  {
   "property": "C91",
   "status": "partial",
   "theorems": [
    "C91_input",
    "C91_same_input",
    "C91_rest_input",
    "C91_rest",
    "C91_simulation_partial",
    "C91_end_refuted"
   ],
   "note": "Proved but for one claim that is false: the end of the time span is missing (C91_end_refuted)."
  },
  {
   "property": "C92",
   "status": "partial",
   "theorems": [
    "C92_complete",
    "C92_duplicate_partial",
    "C92_corners_refuted"
   ],
   "note": "Proved but for one claim that is false: corners lose their own results (C92_corners_refuted); it is harmless for uniform costs (C92_duplicate_partial)."
  },
  {
   "property": "C93",
   "status": "partial",
   "theorems": [
    "C93_program",
    "C93_moved",
    "C93_best_moved",
    "C93_cost_to_go",
    "C93_rows_refuted",
    "C93_label_refuted",
    "C93_minimal_time_refuted"
   ],
   "note": "Proved but for three claims that are false: smallest time (C93_minimal_time_refuted), equal numbers of rows (C93_rows_refuted), and the minimised cost as label (C93_label_refuted)."
  },
  {
   "property": "C94",
   "status": "proved",
   "theorems": [
    "C94_find_nearest",
    "C94_nearest_node",
    "C94_extend_node",
    "C94_sample_state",
    "C94_propose"
   ],
   "note": ""
  }
 ]
}