{"id": "C01", "title": "Binary-times-continuous product encoding is exact", "statement": "For x in [x_lo,x_up] and alpha in {0,1}, the linear inequalities returned for s = x*alpha hold if and only if s equals x*alpha; an interval with x_lo > x_up is rejected.", "quantifier": "all real x_lo <= x_up, all x in the interval, both values of alpha, all real s", "why_tests_cant": "the claim is an equivalence over a continuum of intervals and points; a test samples a few", "anchors": ["neural_network_lyapunov/utils.py:replace_binary_continuous_product"]}
{"id": "C02", "title": "ReLU big-M encoding is exact", "statement": "For lo < 0 < up and x in [lo,up], a pair (y,beta) with beta in {0,1} satisfies the returned inequalities iff y = max(x,0) and beta agrees with the sign of x (either value only at x = 0). Intervals that do not straddle 0 are rejected.", "quantifier": "all real intervals straddling zero, all x in them, all y, both beta", "why_tests_cant": "equivalence over a continuum", "anchors": ["neural_network_lyapunov/utils.py:replace_relu_with_mixed_integer_constraint"]}
{"id": "C03", "title": "Leaky-ReLU big-M encoding is exact for every slope", "statement": "For lo < 0 < up and any slope a other than 1 (including a > 1 and a < 0), the returned inequalities with beta binary hold iff y = x when beta = 1 and x >= 0, or y = a*x when beta = 0 and x <= 0; in every such case y is the leaky ReLU of x.", "quantifier": "all intervals straddling zero, all slopes, all x, y, beta", "why_tests_cant": "equivalence over a continuum including the sign flip at slope 1", "anchors": ["neural_network_lyapunov/utils.py:replace_leaky_relu_mixed_integer_constraint"]}
{"id": "C04", "title": "Leaky-ReLU-gradient-times-x encoding is exact", "statement": "For x in [x_lo,x_up] and alpha binary, the returned inequalities hold iff y = x if alpha = 1 and y = negative_slope*x if alpha = 0, for slopes below and above one.", "quantifier": "all intervals, slopes, x, y, alpha", "why_tests_cant": "equivalence over a continuum", "anchors": ["neural_network_lyapunov/utils.py:leaky_relu_gradient_times_x"]}
{"id": "C05", "title": "Saturation encoding computes clamp in every branch", "statement": "Whatever the position of the input range relative to the saturation limits (six branches), an input value in its range and an output value admit a feasible choice of the auxiliary variables iff the output is min(max(input,lower),upper).", "quantifier": "all limits lower<upper, all input ranges, all inputs and outputs, all branches", "why_tests_cant": "branch structure and continuum of values", "anchors": ["neural_network_lyapunov/utils.py:add_saturation_as_mixed_integer_constraint"]}
{"id": "C06", "title": "Absolute-value encoding is exact in every branch", "statement": "For x in [x_lo,x_up], a value s admits a feasible binary iff s = |x|, in all branches (range positive, negative, straddling, touching zero, with and without the binary-for-zero-input option), and the binary tells the sign of x.", "quantifier": "all ranges, x, s, both option values", "why_tests_cant": "branch structure and continuum", "anchors": ["neural_network_lyapunov/utils.py:absolute_value_as_mixed_integer_constraint"]}
{"id": "C07", "title": "Max encoding is exact", "statement": "For x_i in [lo_i,up_i], y and a binary selection are feasible iff y = max_i x_i and the selected index attains the maximum; ruling out indices that can never be maximal loses no point.", "quantifier": "all dimensions, all intervals, all x", "why_tests_cant": "unbounded dimension", "anchors": ["neural_network_lyapunov/utils.py:max_as_mixed_integer_constraint"]}
{"id": "C08", "title": "Subgradient enumerations of norms are correct", "statement": "l1_gradient and l_infinity_gradient return rows each of which is a (generalised) gradient: every row g satisfies g.x = norm(x) (for zero tolerance 0) and norm(y) >= g.y for all y; l1 returns every sign combination on zero entries exactly once.", "quantifier": "all dimensions and vectors", "why_tests_cant": "unbounded dimension and combinatorial enumeration", "anchors": ["neural_network_lyapunov/utils.py:l1_gradient", "neural_network_lyapunov/utils.py:l_infinity_gradient"]}
{"id": "C09", "title": "Box-boundary constraint describes exactly the boundary", "statement": "A point satisfies the box-boundary mixed-integer constraint for some binary assignment iff it lies in the box and at least one coordinate sits on its lower or upper limit.", "quantifier": "all dimensions, boxes and points", "why_tests_cant": "unbounded dimension", "anchors": ["neural_network_lyapunov/utils.py:box_boundary", "neural_network_lyapunov/lyapunov.py:LyapunovDiscreteTimeHybridSystem._construct_milp_for_roa_boundary"]}
{"id": "C10", "title": "Interval arithmetic range of an affine map is sound and attained", "statement": "compute_range_by_IA(A,b,lo,up) returns, per row, a lower and an upper value such that every point of the box maps inside and both values are attained at box points.", "quantifier": "all matrix sizes, all boxes", "why_tests_cant": "unbounded dimension", "anchors": ["neural_network_lyapunov/mip_utils.py:compute_range_by_IA"]}
{"id": "C11", "title": "Layer bound propagation is sound", "statement": "propagate_bounds through ReLU, LeakyReLU (any slope sign) and Linear layers returns intervals that contain the layer's output for every input in the input intervals, and they are tight per unit.", "quantifier": "all layers, slopes, boxes, inputs", "why_tests_cant": "unbounded dimension, negative slopes", "anchors": ["neural_network_lyapunov/mip_utils.py:propagate_bounds", "neural_network_lyapunov/utils.py:leaky_relu_interval"]}
{"id": "C12", "title": "Network bounds contain every reachable activation", "statement": "For a network of any depth and any propagation method (IA, LP, MIP, IA_MIP), given that the LP/MIP solver returns valid bounds of the problems it is given, the computed pre- and post-activation bounds of every layer and the network output bounds contain the values reached from every input in the box.", "quantifier": "all networks, depths, boxes, inputs, propagation methods", "why_tests_cant": "unbounded depth; induction over layers", "anchors": ["neural_network_lyapunov/relu_to_optimization.py:ReLUFreePattern._compute_layer_bound", "neural_network_lyapunov/relu_to_optimization.py:ReLUFreePattern._compute_network_output_bounds"]}
{"id": "C13", "title": "Network mixed-integer encoding is exact", "statement": "For x in the box, the mixed-integer constraints returned by output_constraint are satisfiable, and in every feasible assignment the linear output expression equals the network output at x; conversely x outside the box is infeasible.", "quantifier": "all networks (any depth/width, ReLU or leaky ReLU, with or without bias), all boxes, all x and assignments", "why_tests_cant": "unbounded depth/width; continuum of inputs", "anchors": ["neural_network_lyapunov/relu_to_optimization.py:ReLUFreePattern.output_constraint", "neural_network_lyapunov/relu_to_optimization.py:ReLUFreePattern._output_constraint_given_bounds", "neural_network_lyapunov/relu_to_optimization_utils.py:_add_constraint_by_neuron", "neural_network_lyapunov/relu_to_optimization_utils.py:_add_constraint_by_layer"]}
{"id": "C14", "title": "Warm-start activations are feasible for the encoding", "statement": "The relu-unit outputs and binaries computed from an input x in the box form a feasible assignment of the encoding returned by output_constraint.", "quantifier": "all networks, boxes and x", "why_tests_cant": "fails only on a measure-zero set (a unit exactly at its kink)", "anchors": ["neural_network_lyapunov/relu_to_optimization.py:ReLUFreePattern.compute_relu_unit_outputs_and_activation", "neural_network_lyapunov/relu_to_optimization.py:set_activation_warmstart"]}
{"id": "C15", "title": "Strengthening cuts never remove a reachable point", "statement": "Every cut added for any index set and any point satisfies: whenever y is the (leaky) ReLU of w.x+b for x in the box with the matching binary, the cut holds. Hence a strengthened MILP keeps the same feasible (input, output) pairs.", "quantifier": "all weights, boxes, slopes, index sets, points", "why_tests_cant": "exponentially many cuts over a continuum", "anchors": ["neural_network_lyapunov/mip_utils.py:strengthen_relu_mip_w_indices", "neural_network_lyapunov/mip_utils.py:strengthen_relu_mip_given_pts", "neural_network_lyapunov/relu_to_optimization.py:ReLUFreePattern.strengthen_mip_at_point"]}
{"id": "C16", "title": "Linearisation at an activation pattern", "statement": "Given a network, an input x and its activation pattern, the returned affine map equals the network on the returned polytope, and x belongs to the polytope; for any pattern, every point of the returned polytope has network output equal to the affine map.", "quantifier": "all networks, patterns, points", "why_tests_cant": "unbounded depth", "anchors": ["neural_network_lyapunov/relu_to_optimization.py:ReLUGivenActivationPattern", "neural_network_lyapunov/relu_to_optimization.py:ComputeReLUActivationPattern"]}
{"id": "C17", "title": "Enumeration of activation patterns is complete", "statement": "compute_all_relu_activation_patterns lists exactly the patterns consistent with the pre-activations (both values at zero), without duplicates, and converting flat binaries to a nested pattern keeps every unit in its layer position.", "quantifier": "all networks and inputs", "why_tests_cant": "combinatorial enumeration over layers", "anchors": ["neural_network_lyapunov/relu_to_optimization.py:compute_all_relu_activation_patterns", "neural_network_lyapunov/relu_to_optimization.py:relu_activation_binary_to_pattern"]}
{"id": "C18", "title": "Product-of-binaries index is a bijection", "statement": "The index assigned to one choice of unit per layer is a mixed-radix number: distinct choices get distinct indices and all indices below the product of the widths are hit.", "quantifier": "all layer counts and widths", "why_tests_cant": "unbounded widths", "anchors": ["neural_network_lyapunov/relu_to_optimization.py:ReLUFreePattern.compute_alpha_index"]}
{"id": "C19", "title": "Gradient-times-vector encoding is exact", "statement": "For binaries that describe an activation pattern and a vector y in its box, the constraints returned by output_gradient_times_vector are feasible and force the linear output to equal (d network/dx at that pattern) . y; the interval bounds used for the products are sound.", "quantifier": "all networks, patterns, boxes, y", "why_tests_cant": "unbounded depth", "anchors": ["neural_network_lyapunov/relu_to_optimization.py:ReLUFreePattern.output_gradient_times_vector", "neural_network_lyapunov/relu_to_optimization.py:ReLUFreePattern._compute_Wz_bounds_IA"]}
{"id": "C20", "title": "Concatenating mixed-integer constraints means conjunction", "statement": "concatenate_mixed_integer_constraints of two constraint sets over the same (or stacked) inputs is feasible for (x, slacks, binaries) iff each part is feasible for its own share, and outputs are stacked; variable bounds of both parts are preserved.", "quantifier": "all pairs of constraint sets of all sizes, both stacking options", "why_tests_cant": "optional fields give many None/non-None combinations", "anchors": ["neural_network_lyapunov/gurobi_torch_mip.py:concatenate_mixed_integer_constraints"]}
{"id": "C21", "title": "transform_input is substitution", "statement": "After transform_input(A,b), a point x is feasible (with outputs) iff A x + b was feasible before.", "quantifier": "all constraint sets, A, b, x", "why_tests_cant": "optional fields; sizes", "anchors": ["neural_network_lyapunov/gurobi_torch_mip.py:MixedIntegerConstraintsReturn.transform_input"]}
{"id": "C22", "title": "The torch copy of the MIP and the Gurobi model describe the same feasible set", "statement": "After any sequence of variable additions and constraint additions, an assignment satisfies the recorded torch matrices iff it satisfies the constraints (and declared variable bounds) of the Gurobi model.", "quantifier": "all operation sequences", "why_tests_cant": "history dependent; every order of calls", "anchors": ["neural_network_lyapunov/gurobi_torch_mip.py:GurobiTorchMIP.addVars", "neural_network_lyapunov/gurobi_torch_mip.py:GurobiTorchMIP.addLConstr", "neural_network_lyapunov/gurobi_torch_mip.py:GurobiTorchMIP.addMConstr", "neural_network_lyapunov/gurobi_torch_mip.py:GurobiTorchMIP.get_inequality_constraints"]}
{"id": "C23", "title": "Objective reconstruction from the active set equals the optimum", "statement": "Given a solution with fixed binaries whose active constraints (as selected) determine the continuous variables, compute_objective_from_mip_data returns the objective value at that solution, whatever the ordering of variables.", "quantifier": "all MIPs, active sets, solutions", "why_tests_cant": "ranges over all problems and index sets", "anchors": ["neural_network_lyapunov/gurobi_torch_mip.py:GurobiTorchMILP.compute_objective_from_mip_data", "neural_network_lyapunov/gurobi_torch_mip.py:GurobiTorchMIP.get_active_constraints"]}
{"id": "C24", "title": "Positivity certificate", "statement": "V(x*) = 0 for all networks, and if the positivity MILP has no feasible point with positive objective then V(x) >= eps*|R(x-x*)|_1 for every x in the box; if R has full column rank and eps > 0 then V(x) > 0 for x != x*. Conversely a feasible point with positive objective is a true violation.", "quantifier": "all networks, R, x*, lambda, eps, boxes, x", "why_tests_cant": "continuum of states", "anchors": ["neural_network_lyapunov/lyapunov.py:LyapunovHybridLinearSystem.lyapunov_value", "neural_network_lyapunov/lyapunov.py:LyapunovHybridLinearSystem.lyapunov_positivity_as_milp"]}
{"id": "C25", "title": "Decrease certificate (discrete time)", "statement": "If the derivative MILP (ExpLower, ExpUpper or Asymp) has no feasible point with positive objective then every x in the box whose successor is in the box satisfies the corresponding decrease inequality; conversely every feasible point's objective equals the true value of dV + eps V at that point.", "quantifier": "all dynamics with an exact encoding, networks, eps types, states", "why_tests_cant": "continuum of states", "anchors": ["neural_network_lyapunov/lyapunov.py:LyapunovDiscreteTimeHybridSystem.lyapunov_derivative_as_milp", "neural_network_lyapunov/lyapunov.py:LyapunovDiscreteTimeHybridSystem.lyapunov_derivative"]}
{"id": "C26", "title": "Certified decrease gives exponential convergence along trajectories", "statement": "If both certificates hold then along every trajectory that stays in the verified box V decreases geometrically: V(x_k) <= (1-eps)^k V(x_0), and for Asymp the accumulated distances are bounded by V(x_0)/eps.", "quantifier": "all trajectories of all lengths", "why_tests_cant": "unbounded horizon", "anchors": ["neural_network_lyapunov/lyapunov.py:LyapunovDiscreteTimeHybridSystem"]}
{"id": "C27", "title": "States leaving the verified box are covered by the certificates", "statement": "A successful derivative certificate rules out every state of the box whose successor violates the decrease condition, including successors outside the box.", "quantifier": "all systems, all states of the box", "why_tests_cant": "the failure needs a system whose successor leaves the box", "anchors": ["neural_network_lyapunov/lyapunov.py:LyapunovDiscreteTimeHybridSystem.lyapunov_derivative_as_milp", "neural_network_lyapunov/barrier.py:DiscreteTimeBarrier.derivative_as_milp"]}
{"id": "C28", "title": "Region of attraction", "statement": "The sub-level set returned by compute_region_of_attraction is invariant: a state of the box below the level never steps outside the box.", "quantifier": "all dynamics, boxes, states", "why_tests_cant": "corner regions and solver statuses are rarely hit by examples", "anchors": ["neural_network_lyapunov/lyapunov.py:LyapunovDiscreteTimeHybridSystem.compute_region_of_attraction", "neural_network_lyapunov/lyapunov.py:LyapunovDiscreteTimeHybridSystem._construct_milp_for_roa"]}
{"id": "C29", "title": "Binary strengthening keeps every violating point", "statement": "strengthen_lyapunov_derivative_milp_binary adds equalities between binaries only when no feasible point with nonnegative objective violates them, so the maximal violation (if nonnegative) is unchanged after any number of added equalities.", "quantifier": "all MILPs, all subsets and orders of strengthened units, any solver answers consistent with its contract", "why_tests_cant": "order and history of additions", "anchors": ["neural_network_lyapunov/lyapunov.py:LyapunovDiscreteTimeHybridSystem.strengthen_lyapunov_derivative_milp_binary"]}
{"id": "C30", "title": "Sample losses vanish exactly on satisfied samples", "statement": "Each sample loss (positivity, derivative, barrier) is nonnegative and is zero iff every sample satisfies its condition with the margin, for mean, max and 4norm reductions; the reductions are ordered max-consistent.", "quantifier": "all batches, margins, reductions", "why_tests_cant": "all batch sizes and values", "anchors": ["neural_network_lyapunov/lyapunov.py:LyapunovHybridLinearSystem.lyapunov_positivity_loss_at_samples", "neural_network_lyapunov/barrier.py:DiscreteTimeBarrier.derivative_loss_at_samples_and_next_states", "neural_network_lyapunov/utils.py:loss_reduction"]}
{"id": "C31", "title": "Hybrid linear system encoding is exact", "statement": "mixed_integer_constraints of a (autonomous) hybrid linear system is feasible for (x,u) and output x_next iff some mode's polytope contains (x,u) and x_next is that mode's affine image.", "quantifier": "all numbers of modes, dimensions, bounds", "why_tests_cant": "unbounded modes; big-M correctness over a continuum", "anchors": ["neural_network_lyapunov/hybrid_linear_system.py:HybridLinearSystem.mixed_integer_constraints", "neural_network_lyapunov/hybrid_linear_system.py:AutonomousHybridLinearSystem.mixed_integer_constraints"]}
{"id": "C32", "title": "Mode selection and step_forward agree with the modes", "statement": "mode returns the smallest index whose polytope contains the state and None iff there is none; step_forward without an explicit mode is the affine map of that mode; possible_dx lists the image for every containing mode.", "quantifier": "all systems and states", "why_tests_cant": "overlap and gap cases", "anchors": ["neural_network_lyapunov/hybrid_linear_system.py:AutonomousHybridLinearSystem.mode", "neural_network_lyapunov/hybrid_linear_system.py:AutonomousHybridLinearSystem.step_forward", "neural_network_lyapunov/hybrid_linear_system.py:AutonomousHybridLinearSystem.possible_dx"]}
{"id": "C33", "title": "Cost-to-go samples are suffix sums", "statement": "For a discrete-time trajectory, the returned cost-to-go at step i is the sum of instantaneous costs from step i to the end of the simulated trajectory, and states/costs have equal length bounded by T+1; states outside every mode are never used.", "quantifier": "all systems, horizons, cost functions", "why_tests_cant": "unbounded horizon", "anchors": ["neural_network_lyapunov/hybrid_linear_system.py:compute_discrete_time_system_cost_to_go", "neural_network_lyapunov/hybrid_linear_system.py:generate_cost_to_go_samples"]}
{"id": "C34", "title": "State-space partition covers the box", "statement": "partition_state_input_space returns cells inside the box whose union is the box, for every cell count and nonnegative overlap.", "quantifier": "all boxes, cell counts, overlaps, points", "why_tests_cant": "unbounded cell counts", "anchors": ["neural_network_lyapunov/hybrid_linear_system.py:partition_state_input_space"]}
{"id": "C35", "title": "Learned dynamics keep the equilibrium", "statement": "For each ReLU-network dynamics with given equilibrium (autonomous, residual, controlled, second order, second-order residue), stepping from the equilibrium (with the equilibrium input) returns the equilibrium.", "quantifier": "all networks, equilibria", "why_tests_cant": "all networks", "anchors": ["neural_network_lyapunov/relu_system.py:AutonomousReLUSystemGivenEquilibrium.step_forward", "neural_network_lyapunov/relu_system.py:ReLUSystemGivenEquilibrium.step_forward", "neural_network_lyapunov/relu_system.py:ReLUSecondOrderSystemGivenEquilibrium.step_forward", "neural_network_lyapunov/relu_system.py:ReLUSecondOrderResidueSystemGivenEquilibrium.step_forward"]}
{"id": "C36", "title": "Encoded dynamics equal simulated dynamics", "statement": "For each ReLU dynamics class, the mixed-integer dynamics constraint is feasible for (x,u,x_next) with (x,u) in bounds iff x_next equals step_forward(x,u).", "quantifier": "all networks, boxes, states, inputs", "why_tests_cant": "continuum; unbounded networks", "anchors": ["neural_network_lyapunov/relu_system.py:AutonomousReLUSystem.mixed_integer_constraints", "neural_network_lyapunov/relu_system.py:ReLUSystem.mixed_integer_constraints", "neural_network_lyapunov/relu_system.py:ReLUSecondOrderSystemGivenEquilibrium.mixed_integer_constraints"]}
{"id": "C37", "title": "Closed loop: control is saturated, consistent and keeps the equilibrium", "statement": "compute_u always lies within the input limits and equals u* at x* when u* is within limits; the closed-loop MIP forces u = compute_u(x) and x_next = step_forward(x).", "quantifier": "all controller networks, limits, states", "why_tests_cant": "continuum; infinite/finite limits mix", "anchors": ["neural_network_lyapunov/feedback_system.py:FeedbackSystem.compute_u", "neural_network_lyapunov/feedback_system.py:FeedbackSystem._add_input_saturation_constraint", "neural_network_lyapunov/feedback_system.py:FeedbackSystem.add_dynamics_mip_constraint"]}
{"id": "C38", "title": "Barrier certificates", "statement": "h(x*) = c > 0; each barrier MILP's objective at a feasible point equals the true value it bounds; if no MILP has positive optimum then h <= 0 on the unsafe region and the super-level set {h >= 0} is kept by every step that stays in the box (0 <= eps <= 1).", "quantifier": "all networks, regions, eps, states and trajectories", "why_tests_cant": "continuum and unbounded horizon", "anchors": ["neural_network_lyapunov/barrier.py:Barrier.value", "neural_network_lyapunov/barrier.py:Barrier.value_as_milp", "neural_network_lyapunov/barrier.py:DiscreteTimeBarrier.derivative_as_milp"]}
{"id": "C39", "title": "R parameterisations have full column rank and round-trip", "statement": "For every value of the free variables SearchRwithSPDOptions and (rows >= cols) SearchRwithSVDOptions produce a matrix R with R x = 0 only for x = 0; setting a value and reading R back returns it (SPD: with the top block symmetrised), given correct Cholesky/SVD factors.", "quantifier": "all sizes and variable values", "why_tests_cant": "all dimensions and training histories", "anchors": ["neural_network_lyapunov/r_options.py:SearchRwithSPDOptions.R", "neural_network_lyapunov/r_options.py:SearchRwithSPDOptions.set_variable_value", "neural_network_lyapunov/r_options.py:SearchRwithSVDOptions.R"]}
{"id": "C40", "title": "Gradient projection never increases either loss to first order", "statement": "With BOTH mode the returned gradient has nonnegative inner product with both loss gradients; with LOSS1/LOSS2 it is orthogonal to the other loss gradient when they conflict and the written-back parameter gradients are the split of the flat one.", "quantifier": "all gradients and parameter shapes", "why_tests_cant": "all vectors", "anchors": ["neural_network_lyapunov/train_utils.py:project_gradient"]}
{"id": "C41", "title": "Line search bookkeeping", "statement": "After any number of backtracking trials the parameters equal start + alpha*t*direction for the last tried alpha, the returned loss is the closure value at those parameters, and an accepted step satisfies the sufficient-decrease test.", "quantifier": "all closures, step sizes, numbers of trials", "why_tests_cant": "history of in-place updates", "anchors": ["neural_network_lyapunov/line_search_gd.py:LineSearchGD.step", "neural_network_lyapunov/line_search_adam.py:LineSearchAdam.step"]}
{"id": "C42", "title": "Descent on samples never makes the total sample loss worse", "statement": "After _batch_descent_on_samples the model's sample loss is at most its initial value, whatever the optimiser does.", "quantifier": "all optimiser behaviours, epochs, batches", "why_tests_cant": "adversarial optimiser histories", "anchors": ["neural_network_lyapunov/train_lyapunov_barrier.py:Trainer._batch_descent_on_samples", "neural_network_lyapunov/train_lyapunov_barrier.py:Trainer._get_current_training_params", "neural_network_lyapunov/train_lyapunov_barrier.py:Trainer._set_training_params"]}
{"id": "C43", "title": "Training on samples restores the best model", "statement": "train_lyapunov_on_samples ends with the model (network, controller, R) that had the smallest test loss.", "quantifier": "all optimiser behaviours, epochs", "why_tests_cant": "needs an adversarial history of R", "anchors": ["neural_network_lyapunov/train_lyapunov_barrier.py:Trainer.train_lyapunov_on_samples"]}
{"id": "C44", "title": "A successful verdict refers to the parameters in place", "statement": "When train or train_adversarial returns True, the MIP objectives of the parameters currently in the model are within tolerance, given that the solver's reported objective is the optimum.", "quantifier": "all optimiser and solver histories", "why_tests_cant": "history of updates; early termination", "anchors": ["neural_network_lyapunov/train_lyapunov_barrier.py:Trainer.train", "neural_network_lyapunov/train_lyapunov_barrier.py:Trainer.train_adversarial", "neural_network_lyapunov/train_lyapunov_barrier.py:Trainer.solve_positivity_mip", "neural_network_lyapunov/utils.py:get_gurobi_terminate_if_callback"]}
{"id": "C45", "title": "The sample pool keeps the most recent samples and never exceeds its size", "statement": "After any number of iterations the adversarial training sets hold at most the configured number of samples, namely the most recent ones, and samples and successors stay aligned.", "quantifier": "all iteration counts, pool sizes, batches", "why_tests_cant": "unbounded histories; slice edge cases", "anchors": ["neural_network_lyapunov/train_lyapunov_barrier.py:Trainer.total_loss", "neural_network_lyapunov/train_lyapunov_barrier.py:Trainer.train_adversarial", "neural_network_lyapunov/train_value.py:AdversarialWithBaseline.train"]}
{"id": "C46", "title": "Clustering of adversarial states", "statement": "The clustered list starts with the most adversarial state, is a subsequence of the input, and the repetition counts have one entry per cluster and add up to the number of input states.", "quantifier": "all lists of states, radii", "why_tests_cant": "the failing case needs exactly two clusters", "anchors": ["neural_network_lyapunov/train_lyapunov_barrier.py:_cluster_adversarial_states"]}
{"id": "C47", "title": "The optimiser keeps training the R used by the Lyapunov function", "statement": "In train_adversarial every optimiser step acts on the variables from which R() is computed.", "quantifier": "all iteration counts", "why_tests_cant": "aliasing after the first restore; loss values hide it", "anchors": ["neural_network_lyapunov/train_lyapunov_barrier.py:Trainer.train_adversarial", "neural_network_lyapunov/train_lyapunov_barrier.py:Trainer._set_training_params"]}
{"id": "C48", "title": "Network parameters round-trip", "statement": "extract_relu_parameters after setup_relu/update_relu_params returns the given flat parameters for every layer structure, and conversely rebuilding from the extracted parameters gives the same network function.", "quantifier": "all layer widths, with/without bias, all parameters", "why_tests_cant": "unbounded structures", "anchors": ["neural_network_lyapunov/utils.py:setup_relu", "neural_network_lyapunov/utils.py:update_relu_params", "neural_network_lyapunov/utils.py:extract_relu_parameters", "neural_network_lyapunov/utils.py:extract_relu_structure"]}
{"id": "C49", "title": "Sampling helpers stay in range", "statement": "uniform_sample_in_box stays in the box for any random numbers in [0,1], uniform_sample_on_box_boundary returns boundary points, get_meshgrid_samples enumerates the full grid once, minkowski_sum enumerates all pairwise sums in order.", "quantifier": "all random draws, dimensions, grids", "why_tests_cant": "all random outcomes including edge draws", "anchors": ["neural_network_lyapunov/utils.py:uniform_sample_in_box", "neural_network_lyapunov/utils.py:uniform_sample_on_box_boundary", "neural_network_lyapunov/utils.py:get_meshgrid_samples", "neural_network_lyapunov/utils.py:minkowski_sum"]}
{"id": "C50", "title": "Rotation matrices", "statement": "rpy2rotmat is orthogonal with determinant one for all angles, numpy and torch versions agree, and the gradient function is the true derivative.", "quantifier": "all angles", "why_tests_cant": "continuum", "anchors": ["neural_network_lyapunov/geometry_transform.py:rpy2rotmat", "neural_network_lyapunov/geometry_transform.py:rpy2rotmat_gradient"]}
{"id": "C51", "title": "RRT* tree stays a tree with exact costs", "statement": "After any sequence of insertions and rewirings with nonnegative edge costs, every node reaches the goal by following parents, children are the inverse of parents, and the stored cost-to-root is the sum of edge costs along the path; rewiring terminates and never increases a cost.", "quantifier": "all insertion/rewiring histories", "why_tests_cant": "history dependent data structure", "anchors": ["neural_network_lyapunov/examples/car/rrt_star.py:RrtStar"]}
{"id": "C52", "title": "Value iteration", "statement": "Starting from zero with nonnegative costs the value function is nondecreasing over sweeps and never exceeds the discounted cost of any path; at termination the Bellman residual is below epsilon.", "quantifier": "all cost tables, numbers of sweeps, paths", "why_tests_cant": "unbounded sweeps and paths", "anchors": ["neural_network_lyapunov/examples/car/value_iteration.py:value_iteration"]}
{"id": "C53", "title": "SLIP transitions", "statement": "Touchdown and liftoff transitions conserve energy and are mutually inverse at the rest length, the closed-form gradients are the true derivatives, and time_to_touchdown returns the positive time at which the foot reaches the stone.", "quantifier": "all states, parameters", "why_tests_cant": "continuum", "anchors": ["neural_network_lyapunov/spring_loaded_inverted_pendulum.py:SLIP"]}
{"id": "C54", "title": "Piecewise-linear Lyapunov conditions at vertices imply them on cells", "statement": "If the vertex constraints hold (zero violation) then V is positive definite and decreasing on the whole convex hull of the vertices, and continuity at shared vertices gives equality on shared faces.", "quantifier": "all cells, vertices, convex combinations", "why_tests_cant": "continuum", "anchors": ["neural_network_lyapunov/simple_pwl_lyapunov.py:SimplePWLLyapunov"]}
{"id": "C55", "title": "Continuous-time derivative certificate", "statement": "In the continuous-time MILPs every feasible point's objective equals dV/dt + eps V for some generalised gradient and some active mode, and every combination of generalised gradient and active mode at every state in the box is represented.", "quantifier": "all networks, systems, states, patterns", "why_tests_cant": "continuum and combinatorial patterns", "anchors": ["neural_network_lyapunov/continuous_time_lyapunov.py:LyapunovContinuousTimeSystem.lyapunov_derivative_as_milp", "neural_network_lyapunov/continuous_time_lyapunov.py:LyapunovContinuousTimeHybridSystem.lyapunov_derivative_as_milp"]}
{"id": "C56", "title": "Control-affine systems", "statement": "dynamics clamps the input and equals f(x)+G(x)u; the second-order construction stacks velocity and acceleration consistently in dynamics, bounds and mixed-integer constraints.", "quantifier": "all states, inputs, networks", "why_tests_cant": "continuum, optional fields", "anchors": ["neural_network_lyapunov/control_affine_system.py:ControlPiecewiseAffineSystem.dynamics", "neural_network_lyapunov/control_affine_system.py:SecondOrderControlAffineSystem"]}
{"id": "C57", "title": "Grid index conversions are inverse", "statement": "flat_to_3d and threeD_to_flat are mutually inverse on the grid for every grid size.", "quantifier": "all grid sizes and indices", "why_tests_cant": "unbounded sizes", "anchors": ["neural_network_lyapunov/examples/car/value_iteration.py:flat_to_3d", "neural_network_lyapunov/examples/car/value_iteration.py:threeD_to_flat"]}
{"id": "C58", "title": "Fixed-control RK4 keeps equilibria", "statement": "rk4_constant_control returns the same state when the dynamics vanish there, and equals the exact flow for dynamics that are constant in the state.", "quantifier": "all dynamics, step sizes, states", "why_tests_cant": "all functions", "anchors": ["neural_network_lyapunov/integrator.py:rk4_constant_control"]}
{"id": "C59", "title": "Stored RRT* paths are trajectories", "statement": "For every node with a parent, the path stored with it starts at the node's state, ends at the parent's state and satisfies the discretised dynamics at every step.", "quantifier": "all histories of insertions and rewirings, all planners that meet their contract", "why_tests_cant": "depends on the history; the unit test only fails when a rewiring happens to occur", "anchors": ["neural_network_lyapunov/examples/car/rrt_star.py:RrtStar.connect_state_extend", "neural_network_lyapunov/examples/car/rrt_star.py:RrtStar.update_parent"]}
{"id": "C60", "title": "Constraints of the example systems are their dynamics", "statement": "For the learned car, quadrotor and pole models of the examples, the constraints that add_dynamics_constraint writes hold exactly for those (state, input, next state) whose network inputs are within the given bounds and whose next state is the one step_forward returns; the constraints can be written whenever the bounds are not empty; the declared equilibrium is a fixed point of step_forward.", "quantifier": "all network weights, bounds, time steps, states, inputs and additional input bounds, all six classes", "why_tests_cant": "the tests compare the program with step_forward at sampled states of one network", "anchors": ["neural_network_lyapunov/examples/car/unicycle.py:UnicycleReLUModel", "neural_network_lyapunov/examples/car/unicycle.py:UnicycleReLUZeroVelModel", "neural_network_lyapunov/examples/car/acceleration_car.py:AccelerationCarReLUModel", "neural_network_lyapunov/examples/quadrotor3d/quadrotor.py:QuadrotorWithPixhawkReLUSystem", "neural_network_lyapunov/examples/quadrotor3d/quadrotor.py:QuadrotorReLUSystem", "neural_network_lyapunov/examples/pole/pole_relu_system.py:PoleReluSystem"]}
{"id": "C61", "title": "The example systems can be closed with a controller", "statement": "A FeedbackSystem around one of the example models writes a program whose feasible points are exactly the steps of the closed loop from states in the box whose control is within the input limits.", "quantifier": "all networks, controllers, bounds, states", "why_tests_cant": "all weights and states", "anchors": ["neural_network_lyapunov/feedback_system.py:FeedbackSystem.add_dynamics_mip_constraint", "neural_network_lyapunov/examples/quadrotor3d/quadrotor.py:QuadrotorReLUSystem.add_dynamics_constraint", "neural_network_lyapunov/examples/car/unicycle.py:UnicycleReLUModel.add_dynamics_constraint"]}
{"id": "C62", "title": "The unicycle controller", "statement": "UnicycleFeedbackSystem.compute_u returns the admissible control nearest to the network's control (shifted to vanish at the origin) plus lambda |R p|_1 on the velocity; the velocity is never negative and the car rests at the origin; the constraints of the closed loop describe exactly that control, also for a linear controller; near the origin the commanded velocity is strictly positive, as documented.", "quantifier": "all networks and linear controllers, R, lambda, limits, states", "why_tests_cant": "all weights and states; the local claim is about every neighbourhood", "anchors": ["neural_network_lyapunov/examples/car/unicycle_feedback_system.py:UnicycleFeedbackSystem"]}
{"id": "C63", "title": "Region of attraction of continuous-time systems", "statement": "The program that minimises the Lyapunov function over the boundary of the box ranges over exactly the boundary points, and every solution of a continuous-time system that passed the positivity and derivative checks and starts in the box below the optimum never leaves the box and converges at the certified rate.", "quantifier": "all networks, boxes, systems, solutions and durations", "why_tests_cant": "the test compares the optimum with sampled boundary points; invariance is about every solution and time", "anchors": ["neural_network_lyapunov/lyapunov.py:LyapunovHybridLinearSystem._construct_milp_for_roa_boundary", "neural_network_lyapunov/continuous_time_lyapunov.py:LyapunovContinuousTimeSystem.lyapunov_derivative_as_milp", "neural_network_lyapunov/continuous_time_lyapunov.py:LyapunovContinuousTimeHybridSystem.lyapunov_derivative_as_milp"]}
{"id": "C64", "title": "Analytic linearizations are derivatives", "statement": "The matrices that dynamics_gradient / linearized_dynamics return are the derivative of dynamics at every state and input where it is defined, the documented hover and rest points are equilibria, and numpy arrays and torch tensors give the same result.", "quantifier": "all states, inputs and physical parameters", "why_tests_cant": "the tests compare with finite differences at a few points", "anchors": ["neural_network_lyapunov/examples/car/unicycle.py:Unicycle.dynamics_gradient", "neural_network_lyapunov/examples/quadrotor3d/quadrotor.py:Quadrotor.dynamics_gradient", "neural_network_lyapunov/examples/quadrotor2d/quadrotor_2d.py:Quadrotor2D.linearized_dynamics", "neural_network_lyapunov/examples/rocket/rocket.py:Rocket.linearized_dynamics", "neural_network_lyapunov/examples/pendulum/pendulum.py:Pendulum.dynamics_gradient", "neural_network_lyapunov/examples/car/acceleration_car.py:AccelerationCar.dynamics"]}
{"id": "C65", "title": "Mechanical consistency of the example dynamics", "statement": "The simulated plants obey the laws of mechanics: the energy changes at the power of inputs and friction (pendulum, rocket, planar quadrotor, quadrotor, pole), the quadrotor turns with its angular velocity and obeys Newton's and Euler's laws, the pole obeys Newton's law with a force along its rod, the two rocket models describe the same body, the cars move along their heading with their speed, and energy shaping drives the pendulum's energy to the desired one.", "quantifier": "all states, inputs and physical parameters", "why_tests_cant": "the laws are identities over all states; the test of the pole checks the energy of one trajectory to one decimal", "anchors": ["neural_network_lyapunov/examples/pendulum/pendulum.py:Pendulum.dynamics", "neural_network_lyapunov/examples/pole/pole.py:Pole.dynamics", "neural_network_lyapunov/examples/rocket/rocket.py:Rocket2.dynamics", "neural_network_lyapunov/examples/pendulum/pendulum.py:Pendulum.energy_shaping_control", "neural_network_lyapunov/examples/quadrotor3d/quadrotor.py:Quadrotor.dynamics", "neural_network_lyapunov/examples/quadrotor2d/quadrotor_2d.py:Quadrotor2D.dynamics", "neural_network_lyapunov/examples/car/unicycle.py:Unicycle.dynamics", "neural_network_lyapunov/examples/car/acceleration_car.py:AccelerationCar.dynamics"]}
{"id": "C66", "title": "Continuous-time plants with a learned acceleration", "statement": "The constraints that the continuous-time pendulum and planar quadrotor models add to a program hold exactly for the states in the box, the inputs within the given limits and the velocities that step_forward returns; the reported velocity bounds are right; the declared equilibrium is at rest; closed with a controller the program is exactly the simulated closed loop, so that a passed positivity and derivative check gives exponential decrease along every solution; and the plant's own input limits are respected.", "quantifier": "all networks, boxes, limits, controllers, programs, solutions and times", "why_tests_cant": "the tests sample states and inputs of one random network", "anchors": ["neural_network_lyapunov/examples/pendulum/pendulum.py:PendulumReluContinuousTime", "neural_network_lyapunov/examples/quadrotor2d/quadrotor_2d.py:QuadrotorReluContinuousTime", "neural_network_lyapunov/relu_system.py:_add_forward_dynamics_mip_constraints", "neural_network_lyapunov/dynamic_system.py:_add_system_constraint"]}
{"id": "C67", "title": "Bounds and boundedness of polytopes by linear programming", "statement": "The bounds that compute_bounds_from_polytope returns for a coordinate hold at every point of {x | P x <= q} and are its smallest and largest value, infinite exactly when the coordinate is unbounded on that side, and (inf, -inf) for an empty polytope; the same holds for the range of a row of A_i on a mode and for the range of A x + b that compute_range_by_lp returns, which on a plain box equals interval arithmetic; is_polyhedron_bounded returns True only if {x | P x <= q} is bounded for every q, and False only if every nonempty one is unbounded; so every mode that is added to a hybrid system with the boundedness check has finite bounds and an exact encoding.", "quantifier": "all matrices, right-hand sides, boxes, dimensions and solver answers that are correct", "why_tests_cant": "the tests compare a handful of fixed or random polytopes; boundedness for every right-hand side is a statement about infinitely many programs", "anchors": ["neural_network_lyapunov/utils.py:compute_bounds_from_polytope", "neural_network_lyapunov/utils.py:is_polyhedron_bounded", "neural_network_lyapunov/mip_utils.py:compute_range_by_lp", "neural_network_lyapunov/hybrid_linear_system.py:AutonomousHybridLinearSystem.__compute_Ai_times_x_bounds", "neural_network_lyapunov/hybrid_linear_system.py:HybridLinearSystem.add_mode"]}
{"id": "C68", "title": "Bounds of the derivative program found by optimisation", "statement": "With the LP or the MIP method, the bounds on every product of a weight row with the masked velocity and on R xdot that lyapunov_derivative_as_milp uses hold at every state of the box, every velocity of the system there and every activation pattern its program allows; with the MIP method each bound is attained by some state, velocity and pattern; they are found whenever the box is not empty (no solve fails for want of an optimum); and with them nonpositive optima of the two programs still mean exponential decrease along every trajectory of the system.", "quantifier": "all networks, boxes, error matrices, autonomous ReLU systems and closed loops of the continuous-time plants, all methods, all correct solver answers", "why_tests_cant": "the tests compare bounds with finitely many sampled states of one network; that no state or pattern escapes and that the relaxations stay bounded are statements about all of them", "anchors": ["neural_network_lyapunov/relu_to_optimization.py:ReLUFreePattern._compute_Wz_bounds_optimization", "neural_network_lyapunov/continuous_time_lyapunov.py:LyapunovContinuousTimeSystem.lyapunov_derivative_as_milp", "neural_network_lyapunov/relu_system.py:_add_dynamics_constraint_autonmous", "neural_network_lyapunov/relu_system.py:_add_forward_dynamics_mip_constraints", "neural_network_lyapunov/feedback_system.py:FeedbackSystem._add_controller_mip_constraint"]}
{"id": "C69", "title": "Every value of the derivative of V at a state is listed", "statement": "lyapunov_derivative of a continuous-time system returns exactly the values dV/dt + epsilon V takes over the generalised gradients of V at the state (and, for a hybrid system, over the modes that contain the state); the derivative of V along any trajectory through the state gives one of them; away from the kinks there is a single value; the optimum of the derivative program is one of the values listed at some state.", "quantifier": "all networks, weights, states, velocities, trajectories and programs", "why_tests_cant": "the tests compare with a gradient at random states, where there is no kink, and with one hand-made kink", "anchors": ["neural_network_lyapunov/continuous_time_lyapunov.py:lyapunov_derivative", "neural_network_lyapunov/lyapunov.py:_lyapunov_gradient", "neural_network_lyapunov/utils.py:relu_network_gradient", "neural_network_lyapunov/utils.py:l1_gradient"]}
{"id": "C70", "title": "Sample losses of continuous-time systems", "statement": "The loss over sampled states and velocities is zero exactly when the decrease condition holds with the margin at every sample: where V is differentiable the derivative used is the derivative of V along the motion; a sample that satisfies the condition for every gradient adds nothing to the loss; a sample that violates it adds something; samples outside every mode are rejected.", "quantifier": "all networks, sample sets, velocities, margins, reductions, weights and tolerances", "why_tests_cant": "random samples never hit a kink, and the loss is a sum over the whole set", "anchors": ["neural_network_lyapunov/continuous_time_lyapunov.py:lyapunov_derivative_loss_at_samples_and_next_states", "neural_network_lyapunov/continuous_time_lyapunov.py:lyapunov_derivative_loss_at_samples", "neural_network_lyapunov/lyapunov.py:_lyapunov_gradient"]}
{"id": "C71", "title": "Adversarial samples and worst-case losses of the dynamics learner", "statement": "Every adversarial sample reported while learning dynamics lies in the state box and violates the condition it is reported for (positivity, lower decay rate, upper decay rate; for the decay rates the next state lies in the box as well); if no sample is reported for a condition, the condition holds everywhere in the box, and a system that satisfies the conditions gets an empty answer. The worst-case losses are the weights times the largest violations (within the objective tolerance), or, with early termination, at least the given threshold.", "quantifier": "all learned autonomous systems with an equilibrium, Lyapunov networks, rates, weights, bound methods, solver answers and solution pools", "why_tests_cant": "the claims range over all states of the box and all solutions a solver may return; the tests use systems that violate every condition", "anchors": ["neural_network_lyapunov/dynamics_learning.py:DynamicsLearning.adversarial_samples", "neural_network_lyapunov/dynamics_learning.py:DynamicsLearning.lyapunov_loss"]}
{"id": "C72", "title": "Sample losses and dynamics loss of the dynamics learner", "statement": "The losses at samples are the weights times the average violation over the samples inside the stable box (zero when there are none) and vanish exactly when the three conditions hold at all these samples; the dynamics loss is the mean squared error of the predicted next states and vanishes exactly when all predictions are right.", "quantifier": "all systems, networks, weights, boxes and finite sample sets", "why_tests_cant": "the equivalences range over all sample sets, including empty and partly excluded ones", "anchors": ["neural_network_lyapunov/dynamics_learning.py:DynamicsLearning.lyapunov_loss_at_samples", "neural_network_lyapunov/dynamics_learning.py:StateSpaceDynamicsLearning.lyapunov_loss_at_samples", "neural_network_lyapunov/dynamics_learning.py:StateSpaceDynamicsLearning.dynamics_loss"]}
{"id": "C73", "title": "Rollouts of learned dynamics and their validation loss", "statement": "A rollout of N steps lists the states after 0..N steps of the learned system together with their Lyapunov values, which decay at the certified rate while the rollout stays in the box; the rollout loss lists the mean squared errors, starting with 0, and the validation loss is the mean of these losses over the given rollouts.", "quantifier": "all systems, initial states, lengths and lists of rollouts", "why_tests_cant": "N and the number of rollouts are unbounded; the tests only check shapes", "anchors": ["neural_network_lyapunov/dynamics_learning.py:StateSpaceDynamicsLearning.rollout", "neural_network_lyapunov/dynamics_learning.py:StateSpaceDynamicsLearning.rollout_loss", "neural_network_lyapunov/dynamics_learning.py:DynamicsLearning.rollout_validation"]}
{"id": "C74", "title": "Losses of dynamics learned in a latent space", "statement": "The weight of the divergence loss grows with the iteration from its lower to its upper bound and is their mean at the center step; the divergence is never negative and vanishes exactly for standard normal codes; the reconstruction loss of a batch is smallest exactly when every image of the batch is reconstructed; the dynamics loss adds the reconstruction of the images and of their successors (the frames shifted by one), the divergence and the weighted reconstruction of the equilibrium; the Lyapunov losses are those of the latent states of the images that lie in the latent box.", "quantifier": "all encoders, decoders, systems, batches of images, noise and iteration counts", "why_tests_cant": "the encoders are learned networks and the claims range over all images; the tests evaluate single random batches", "anchors": ["neural_network_lyapunov/dynamics_learning.py:LatentSpaceDynamicsLearning.kl_loss", "neural_network_lyapunov/dynamics_learning.py:LatentSpaceDynamicsLearning.reconstruction_loss", "neural_network_lyapunov/dynamics_learning.py:LatentSpaceDynamicsLearning.dynamics_loss", "neural_network_lyapunov/dynamics_learning.py:LatentSpaceDynamicsLearning.reparam", "neural_network_lyapunov/utils.py:SigmoidAnneal"]}
{"id": "C75", "title": "Rollouts in latent space", "statement": "A rollout of N steps from a pair of frames succeeds whenever the frames fit the encoder and the decoder; it returns the two frames followed by one decoded frame per step, with the latent states and Lyapunov values of the steps 0..N, either stepping in latent space or through the images, and the two agree when the encoder recovers the latent states from the decoded frames; the rollout loss is smallest for a rollout equal to the expected one.", "quantifier": "all encoders, decoders, systems, initial frames and numbers of steps", "why_tests_cant": "N is unbounded and encoder and decoder are arbitrary; tests check shapes for one network", "anchors": ["neural_network_lyapunov/dynamics_learning.py:LatentSpaceDynamicsLearning.rollout", "neural_network_lyapunov/dynamics_learning.py:LatentSpaceDynamicsLearning.rollout_loss", "neural_network_lyapunov/dynamics_learning.py:LatentSpaceDynamicsLearning.vae_forward"]}
{"id": "C76", "title": "Training loop of the dynamics learner: steps, interrupts, crashes and saved files", "statement": "Training makes one optimizer step per batch along the gradient of that batch's losses and one more along the Lyapunov losses exactly at the iterations that are multiples of lyap_loss_freq (counted across calls); a KeyboardInterrupt at any point ends training with all networks on the CPU and the parameters reached so far saved under save_path; networks are saved after the epochs that are multiples of save_rate and at the end; loading returns what was saved; after a crash the last saved networks can be loaded; the validation losses are those of the whole validation set.", "quantifier": "all losses, optimizers, data loaders, numbers of epochs, frequencies, interrupt points and crash points", "why_tests_cant": "the number of interleavings of interrupts and crashes with the operations of the loop is unbounded; the tests train for one epoch without interrupts", "anchors": ["neural_network_lyapunov/dynamics_learning.py:DynamicsLearning.train", "neural_network_lyapunov/dynamics_learning.py:StateSpaceDynamicsLearning.save", "neural_network_lyapunov/dynamics_learning.py:StateSpaceDynamicsLearning.load", "neural_network_lyapunov/dynamics_learning.py:LatentSpaceDynamicsLearning.save", "neural_network_lyapunov/dynamics_learning.py:LatentSpaceDynamicsLearning.load"]}
{"id": "C77", "title": "Encoders and decoders of images: sizes, pixels and codes", "statement": "Every encoder (linear and convolutional) accepts images of the declared number of channels, width and height and returns a mean and a log variance of the latent dimension; every decoder returns images of the declared number of channels, width and height whose pixels lie strictly between zero and one, so that the cross entropy never raises; decoded images can be encoded again; constructors reject the sizes that do not work.", "quantifier": "all parameters of the layers, image sizes, latent dimensions, images and latent states", "why_tests_cant": "the tests use one image size; the sizes after strides, pooling and transposed convolutions depend on divisibility", "anchors": ["neural_network_lyapunov/encoders.py:LinearEncoder1", "neural_network_lyapunov/encoders.py:LinearDecoder1", "neural_network_lyapunov/encoders.py:CNNEncoder1", "neural_network_lyapunov/encoders.py:CNNDecoder1", "neural_network_lyapunov/encoders.py:CNNEncoder2", "neural_network_lyapunov/encoders.py:CNNDecoder2"]}
{"id": "C78", "title": "The quadrotor closed with its controller inside the bound computation", "statement": "Bounds of a network computed with a program handed over by the caller hold at every input that is part of a feasible point of that program and, for mixed-integer bounds, are attained by such an input. The quadrotor's closed loop uses this with the controller as that program: its constraints are feasible exactly at the transitions of the closed loop from states in the box whose input is within the limits, the returned bounds hold at all these states and are attained when both methods are mixed-integer, and building succeeds whenever there is such a state.", "quantifier": "all programs handed over, networks, controllers, boxes, limits, bound methods, solvers that meet their contract, and histories of the enclosing program", "why_tests_cant": "the bounds are intersections over a continuum of states; a bound that cuts off one transition makes the certificate vacuous there and no sampled state need show it", "anchors": ["neural_network_lyapunov/examples/quadrotor3d/quadrotor_feedback_system.py:QuadrotorFeedbackSystem.add_dynamics_mip_constraint", "neural_network_lyapunov/relu_to_optimization.py:ReLUFreePattern._compute_layer_bound", "neural_network_lyapunov/examples/quadrotor3d/quadrotor.py:QuadrotorReLUSystem.add_dynamics_constraint"]}
{"id": "C79", "title": "The linear approximation of a running step on stepping stones", "statement": "For an apex state, a stepping stone and a leg angle, the approximation of the step is exact at that apex and angle: next apex and duration are those of the step onto the stone. Its matrices are the derivatives of the next apex and the duration, and its inequalities are the linearised conditions of the step: foot above the stone at the apex, upward velocity after liftoff, foot between the ends of the stone. The apex and angle themselves satisfy the inequalities. There is an approximation whenever the step lands on the stone and reaches the next apex.", "quantifier": "all masses, springs and gravities, apex states, stones with finite or infinite ends, leg angles and stance solvers with their sensitivity", "why_tests_cant": "a derivative compares the step with all steps near it; finite differences at chosen points cannot show a missing term that is small there", "anchors": ["neural_network_lyapunov/slip_hybrid_linear_system.py:SlipHybridLinearSystem.apex_map_linear_approximation", "neural_network_lyapunov/spring_loaded_inverted_pendulum.py:SLIP.apex_to_apex_gradient", "neural_network_lyapunov/spring_loaded_inverted_pendulum.py:SLIP.apex_map"]}
{"id": "C80", "title": "The simulation of a run of the spring-mass runner", "statement": "A simulated run has at least one step and at most one per leg angle. With exact solvers, as long as the steps complete, every flight and stance phase ends with the energy of the initial state. Started at an apex, the run passes through the apexes that the apex map gives one after the other, at their times, if they are high enough for the next leg angle and low enough to come down within ten seconds. Times increase along the run.", "quantifier": "all masses, springs and gravities, initial states, sequences of leg angles of any length and exact solvers of the two phases", "why_tests_cant": "the claims are about every step of runs of any length; drift of energy, a cut-off flight or a liftoff with downward velocity appear only for some histories", "anchors": ["neural_network_lyapunov/spring_loaded_inverted_pendulum.py:SLIP.simulate", "neural_network_lyapunov/spring_loaded_inverted_pendulum.py:SLIP.apex_map"]}
{"id": "C81", "title": "What the reinforcement learner collects and when it learns", "statement": "After any history the replay buffer holds exactly the most recent transitions that fit, and a batch consists of whole transitions among them. The training loop stores the experience of plain episodes that end with a terminal state or after the longest allowed time; the next observation of a step is the observation of the following one unless an episode ends. A time limit is not stored as a terminal state. After the initial waiting time there is one update per step of the environment, up to one round. The first start_steps actions are random.", "quantifier": "all environments, policies, sequences of transitions, buffer sizes, numbers of steps and settings of the loop", "why_tests_cant": "wrap-around of the buffer, episode ends and update rounds interact over arbitrarily long histories", "anchors": ["neural_network_lyapunov/examples/rl/td3.py:ReplayBuffer.store", "neural_network_lyapunov/examples/rl/td3.py:ReplayBuffer.sample_batch", "neural_network_lyapunov/examples/rl/td3.py:td3"]}
{"id": "C82", "title": "Actions, targets and updates of the reinforcement learner", "statement": "Actions taken are within the limits of the action space; the policy gives the equilibrium action at the equilibrium. The target of a terminal transition is its reward; other targets use the smaller of two target critics at an action within the limits, and stay within what bounded rewards can add up to. The loss is zero exactly if both critics agree with the targets. Over any sequence of updates networks, target networks and optimizers are those of the textbook algorithm, with the critics fixed while the policy is moved. Target parameters stay within the range of the parameters they follow and converge to them.", "quantifier": "all networks, parameters, batches, noises, optimizers and sequences of updates", "why_tests_cant": "claims about all parameters and all sequences of updates; a leftover gradient or a wrong minimum shows only in the course of training", "anchors": ["neural_network_lyapunov/examples/rl/td3.py:MLPActor.forward", "neural_network_lyapunov/examples/rl/td3.py:td3"]}
{"id": "C83", "title": "A quadratic objective means what was written", "statement": "After a quadratic objective is set from any blocks of quadratic and linear terms, the stored matrices and vectors and the objective Gurobi is given both have, at every assignment, the value of the sum that was written down, with the same sense; so the optima over every feasible set are the same. The objective is accepted exactly if the shapes fit, all variables belong to the program and no term is given twice, where a product of a continuous and a binary variable is the same term in both orders.", "quantifier": "all lists of variables, blocks of coefficients, orders of variables and assignments", "why_tests_cant": "the order of variables, the split into continuous and binary ones and the overlap of blocks are arbitrary", "anchors": ["neural_network_lyapunov/gurobi_torch_mip.py:GurobiTorchMIQP.setObjective"]}
{"id": "C84", "title": "The search direction of Adam with line search", "statement": "After any number of steps, whatever the line search left of the earlier ones, the full move of every coordinate is Adam's: minus the learning rate times the fading average of the gradients (with weight decay), over the root of the fading average of their squares plus eps; with AMSGrad the largest average of squares so far is used. A move is at most lr / sqrt(1 - beta2) and lr times the root of the number of steps, however large the gradients. The first direction goes down. Parameters without gradient are left alone. An accepted step decreases the loss by more than the improvement asked for.", "quantifier": "all histories of gradients and values, parameters, groups, options and losses", "why_tests_cant": "averages and bias corrections depend on the whole history of the optimizer", "anchors": ["neural_network_lyapunov/line_search_adam.py:LineSearchAdam.step_direction", "neural_network_lyapunov/line_search_adam.py:LineSearchAdam.step"]}
{"id": "C85", "title": "Cost-to-go of a continuous-time system", "statement": "With an exact integrator, the returned states are those of a trajectory of the system from x0, and the returned cost of a state is the cost accumulated from that moment to the end of the trajectory. The first is the total, the last is zero, and they never increase if no cost is negative. A trajectory that begins outside of the goal ends where it first comes within a thousandth of it, or at the horizon. Samples generated from a list of initial states are exactly such pairs; a state from which the trajectory leaves the domain is skipped without stopping the others.", "quantifier": "all piecewise affine systems, costs, horizons, goals, pruners, initial states and sampling times of the integrator", "why_tests_cant": "a claim about integrals along all trajectories and all systems", "anchors": ["neural_network_lyapunov/hybrid_linear_system.py:compute_continuous_time_system_cost_to_go", "neural_network_lyapunov/hybrid_linear_system.py:generate_cost_to_go_samples", "neural_network_lyapunov/utils.py:step_system"]}
{"id": "C86", "title": "The planar quadrotor environment of reinforcement learning", "statement": "A step gives the state a hundredth of a second later and minus a penalty that is never negative and vanishes only for hovering at the origin. No episode has a return above zero, and hovering at the origin is the only way to reach zero. The hover thrusts are allowed actions. A reset gives a state of the observation space, and each of its states can be drawn. No step ends an episode: training stores no terminal transition and resets exactly after every max_ep_len steps. Observations stay in the declared observation space.", "quantifier": "all states, actions, integrators, random draws, policies, update rules, episode lengths and numbers of steps", "why_tests_cant": "a claim about returns of all episodes of any length and about the transitions stored by any training run", "anchors": ["neural_network_lyapunov/examples/quadrotor2d/quadrotor2d_env.py:Quadrotor2DEnv.step", "neural_network_lyapunov/examples/quadrotor2d/quadrotor2d_env.py:Quadrotor2DEnv.reset", "neural_network_lyapunov/examples/quadrotor2d/quadrotor_2d.py:Quadrotor2D.next_pose"]}
{"id": "C87", "title": "Bounding a network by the optimal cost-to-go", "statement": "The program built to compare a value function with a network has as its feasible points the plans of the optimal control problem from the states of the box, at their cost minus the output of the network. So with the state fixed its minimum is the optimal cost-to-go minus the output, and with the state free it is the largest constant by which the network stays below the cost-to-go on the box. It is returned exactly for nonempty boxes and networks with one output. The network compared is the one passed to the call.", "quantifier": "all mixed-integer optimal control problems with a quadratic cost, networks with leaky ReLUs, boxes and states", "why_tests_cant": "an equality of optimal values over all states, plans and networks", "anchors": ["neural_network_lyapunov/model_bounds.py:ModelBounds.epsilon_opt", "neural_network_lyapunov/relu_to_optimization.py:ReLUFreePattern.output_constraint"]}
{"id": "C88", "title": "Projection to a polyhedron", "statement": "project_to_polyhedron returns the nearest point of the polyhedron, which is unique, and raises exactly for an empty polyhedron. Points inside are returned as they are, a second projection changes nothing, and projections never move two points apart.", "quantifier": "all polyhedra in any dimension, all points, every solver that solves the problems it is given", "why_tests_cant": "optimality over infinitely many points and for all polyhedra", "anchors": ["neural_network_lyapunov/utils.py:project_to_polyhedron"]}
{"id": "C89", "title": "Evaluating a trained policy", "statement": "run_policy records as many episodes as asked for. Each is the policy followed from a reset of the environment up to the step at which the environment ends it or the given length is reached, and each printed line has the return and the length of its episode. With a positive length the call ends within that many steps for each episode. With the default, no length, it ends as well.", "quantifier": "all environments, policies, lengths and numbers of episodes", "why_tests_cant": "a claim about all histories of interaction and about termination", "anchors": ["neural_network_lyapunov/examples/rl/test_policy.py:run_policy"]}
{"id": "C90", "title": "Fitting a network to a data set", "statement": "train_approximator divides the data set into four fifths for training and a non-empty rest for the test. Each epoch presents every training example once, in batches of the given size of which only the last may be smaller, and the result is that of the optimiser on these batches. The test examples have no influence on the result, and variables that are not given are not changed. The printed losses are the loss over the training examples and the loss on the test examples. Any data set with an example can be fitted.", "quantifier": "all data sets, models, optimisers, batch sizes, numbers of epochs and random orders", "why_tests_cant": "a claim about all random orders, sizes and optimisers; non-interference relates two runs", "anchors": ["neural_network_lyapunov/utils.py:train_approximator"]}
{"id": "C91", "title": "Simulation of a plant with a network as its controller", "statement": "simulate_plant_with_controller applies inputs within the limits only, and the same ones as the feedback system that is verified. At the equilibrium it applies the equilibrium input, so that staying there is a solution. The states returned belong to a trajectory of the closed loop, at every hundredth of a second of the time span including its end.", "quantifier": "all plants, controllers, limits, time spans and initial states, every integrator of a given accuracy", "why_tests_cant": "a claim about all states and times, in continuous time", "anchors": ["neural_network_lyapunov/utils.py:simulate_plant_with_controller"]}
{"id": "C92", "title": "The table of costs on the grid of the car", "statement": "The complete table has, for every pair of different states within reach of each other, the cost and the input of their own trajectory optimisation, and no entry elsewhere. The table that is computed from the four corners only is the same one when the optimisation does not depend on the place in the plane. The corners keep the results that were computed for them.", "quantifier": "all grid sizes, reaches, optimisations and pairs of states", "why_tests_cant": "the repository only has a comparison of some saved rows, commented out; the claim is about all sizes and offsets", "anchors": ["neural_network_lyapunov/examples/car/value_iteration.py:calculate_r_complete", "neural_network_lyapunov/examples/car/value_iteration.py:calculate_r_duplicate"]}
{"id": "C93", "title": "Trajectory optimisation of the car", "statement": "The solutions of the program of construct_traj_opt are exactly the trajectories from the start to the goal within the limits that follow the dynamics by the trapezoidal rule. Moving start and goal in the plane moves the solutions and keeps the best cost. An optimum has the smallest time. In the training set, states, inputs and costs have as many rows, and the cost of a state is the cost from it on along its trajectory.", "quantifier": "all numbers of knots, limits, starts, goals and lists of solutions", "why_tests_cant": "an equivalence over all trajectories; optimality and translation quantify over infinitely many", "anchors": ["neural_network_lyapunov/examples/car/unicycle_traj_opt.py:construct_traj_opt", "neural_network_lyapunov/examples/car/unicycle_traj_opt.py:construct_training_set"]}
{"id": "C94", "title": "Choosing the nearest", "statement": "find_nearest returns an entry of the array that no other entry is nearer to the value than; nearest_node the index of the first node nearest to a pose in the weighted distance; extend_node a state that an input within the limits reaches from the node, such that no other drawn input gets nearer to the target. Samples are exactly the poses of the search region, and a pass of the search extends the node nearest to its sample.", "quantifier": "all arrays, trees, poses, random draws and simulators", "why_tests_cant": "the tests extend a few nodes towards a few targets; minimality is a claim about every entry of every array", "anchors": ["neural_network_lyapunov/utils.py:find_nearest", "neural_network_lyapunov/examples/car/rrt_star.py:RrtStar.nearest_node", "neural_network_lyapunov/examples/car/rrt_star.py:RrtStar.extend_node", "neural_network_lyapunov/examples/car/rrt_star.py:RrtStar.sample_state"]}
