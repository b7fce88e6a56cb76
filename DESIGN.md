# Design of the formal model of neural-network-lyapunov

The code under study is `/repo` (python, torch + Gurobi). It learns a Lyapunov
(or barrier) function given by a ReLU network and proves its conditions by
solving mixed-integer linear programs (MILPs) whose feasible points are meant
to be exactly the graph of the network / of the dynamics. Most of the semantic
content is therefore:

1. *encodings* – matrices and right hand sides built by python code, whose
   meaning is a set of feasible points;
2. *bookkeeping* – the torch copy of the Gurobi model, training loops, sample
   pools, trees, parameter (un)flattening;
3. *certificates* – what an optimum `<= 0` of the MILPs implies about the
   dynamical system.

## 1. Conventions of the model

* **Numbers.** Torch float64 tensors and Gurobi variables are idealised as the
  real numbers `R` of Coq's standard library, with exact arithmetic. Comparisons
  are `Rle_dec`/`Rlt_dec`. Consequence: rounding, NaN/inf and solver tolerances
  are outside the model. Divisions are only used under a hypothesis that the
  divisor is non-zero (or the guard is part of the model and the failing branch
  is explicit), so Coq's `x / 0` never makes a theorem true.
* **Tensors.** Vectors are `list R`, matrices are `list (list R)` (rows).
  Python raises on shape mismatches; the theorems state the shapes they need.
* **None / exceptions.** `None` is `option`; a failed `assert`, a raised
  exception or a crash is an explicit error value of the model function
  (`option`, or the `res` type with an exception tag).
* **Mutation.** In-place updates become functions from old to new state.
  Where aliasing is the subject (optimizer vs. `R_options`), references are
  explicit heap locations.
* **Solvers.** Gurobi, cvxpy, scipy, cholesky, svd and the torch optimisers
  are oracles. They appear as universally quantified functions/relations in the
  theorem statements with their contract as hypothesis (e.g. "the reported
  bound is an upper bound of the objective on the feasible set"). Nothing about
  them is an axiom.
* **`Spec*.v`** files hold the small independent vocabulary (max, clamp, network
  evaluation as function composition, box membership, ...) used in the
  statements; the **`Model*.v`** files mirror `/repo` function by function with
  file:line citations; the **`Proof*.v`** files hold lemmas; the
  **`Prop*.v`** files hold only the property theorems (`exact lemma.`,
  `Print Assumptions`) and, next to them, `Example`s that meet the hypotheses.

## 2. Trusted base

* Coq 8.16.1's kernel and `coqchk`.
* The standard library axioms reported by `Print Assumptions` (collected in
  section 5 at the end of this file). No axiom of our own, no `Admitted`.
* The reading of `/repo` embodied in the `Model*.v` files (cited per
  definition).
* The contracts of the oracles listed above, which are hypotheses of the
  theorems that use them.

Not modelled: floating point rounding and Gurobi's feasibility tolerance,
autograd (gradients are not claimed to be computed by torch correctly),
plotting, wandb/tensorboard logging, pybullet simulation, file I/O,
multiprocessing, random number generators (draws are universally quantified).

## 3. Plan per property
* **C01** Model returns the four coefficient vectors; feasibility = row-wise inequality; prove iff by case split on alpha and linear arithmetic.
* **C02** Same, rows of replace_relu...; spec `Rmax x 0`.
* **C03** Same, with the sign flip branch for slope > 1; degenerate slope 1 treated separately.
* **C04** Same.
* **C05** Six-branch model of the function adding rows/bounds; spec `clamp`.
* **C06** Branch-by-branch model; spec `Rabs`.
* **C07** Model over lists; the python `squeeze().tolist()` crash for one non-maximal index is an explicit error; exactness otherwise, refutation of totality.
* **C08** Model of sign enumeration; subgradient inequality by induction on the dimension.
* **C09** Model of both boundary encodings; iff by induction on the dimension.
* **C10** List induction over the row (positive/negative part split).
* **C11** Per-unit models; induction over units for Linear.
* **C12** Induction over layers; optimisation-based methods take a solver oracle returning valid bounds.
* **C13** Model builds the global constraint matrices layer by layer as the code does; exactness by induction over layers.
* **C14** Model of the activation computation; refuted at kinks with witness; proved away from the kink.
* **C15** Cut validity by splitting the index set; proved for arbitrary index sets.
* **C16** Model of the forward accumulation of affine maps; induction over layers.
* **C17** Model of the list-of-lists enumeration; completeness/soundness by induction.
* **C18** Mixed-radix arithmetic on nat lists.
* **C19** Model of the layer recursion; induction over layers using C04.
* **C20** Model with option fields; case analysis on the options; refutation for binary bounds when counts differ.
* **C21** Model with option fields; refutation for input bounds.
* **C22** State machine: `init`, ops, invariants over op lists; refinement between torch rows and Gurobi rows.
* **C23** Linear-algebra statement with an oracle for the linear solve.
* **C24** Composition of C06, C10, C13; oracle-free: quantifies over feasible points.
* **C25** Composition with an abstract exact encoding of the dynamics, instantiated by C31/C36.
* **C26** Induction over the trajectory.
* **C27** Refuted with a one-dimensional witness.
* **C28** Model of both MILPs; corner witness refutes; positive part proved for successors leaving through a face.
* **C29** State machine adding equalities; invariant over the list of processed units.
* **C30** Lists; induction.
* **C31** Model of matrices for N modes; exactness by the one-hot argument.
* **C32** Model of the mode search; list induction.
* **C33** Model of the simulation loop; telescoping sum.
* **C34** Model of linspace cells; existence of the covering cell.
* **C35** Direct from the step definitions.
* **C36** Composition of C13 with the output transformations.
* **C37** Composition of C05 and C13.
* **C38** Composition of C13 with trajectory induction.
* **C39** Quadratic form argument on lists; pack/unpack of the lower triangle by induction.
* **C40** Inner-product algebra, Cauchy-Schwarz on lists.
* **C41** Loop model with fuel = number of trials determined by the step sizes; telescoping invariant.
* **C42** Loop over epochs with arbitrary optimiser; best-so-far invariant.
* **C43** Same loop model with R outside the saved state; refuted by witness.
* **C44** Loop invariant; early termination refutation.
* **C45** List suffix arithmetic; loop invariant.
* **C46** List model; refuted for two clusters; remaining clauses proved.
* **C47** Heap model with references; refuted.
* **C48** Pack/unpack by induction over layers.
* **C49** List models; random draws universally quantified.
* **C50** Trigonometric identities; derivatives with the standard library's derivable_pt_lim.
* **C51** Tree state machine; rank-function invariant for acyclicity.
* **C52** Gauss-Seidel sweep model; monotonicity and upper bound by induction.
* **C53** Trigonometric identities, derivatives, quadratic formula.
* **C54** Convex combinations on lists.
* **C55** Composition of C01, C04, C19, C31.
* **C56** Direct; the shape crash is an explicit error value.
* **C57** Integer division arithmetic.
* **C58** Direct algebra.
* **C59** State machine of C51 with the stored paths; end points by invariant over histories, the dynamics refuted by a witness.
* **C60** One record for the six forward classes with a kind; each `add_dynamics_constraint` as a program transformer; exactness by `step` composition, totality from the network encoding, equilibria by computation.
* **C61** The forward classes as forward systems of `FeedbackSystem` (keyword arguments that a signature lacks raise); the quadrotor by the closed-loop theorem of C37, the others refuted.
* **C62** `UnicycleFeedbackSystem`: constructor, `compute_u`, the network branch of the constraints (absolute values of R p by binaries) and the inherited linear branch; exactness by composing the network program, the absolute-value rows and the saturation; the documented local claim refuted.
* **C63** `_construct_milp_for_roa_boundary`: the program is the boundary of the box (reusing C09), its optimum the smallest value there; invariance of the sublevel set by induction along the time axis (supremum of the good times), continuity of V and the decay theorem of C55.
* **C64** the analytic plants of the examples, entry by entry; a linearization is a derivative along every pair of curves of states and inputs (so a total, not only a partial derivative); both branches (numpy, torch) where they differ.
* **C65** the same plants; energies, momenta and rods are defined in the specification only, the dynamics must make them change as mechanics demands; np.linalg.solve is an oracle with its contract.
* **C66** both classes with the constraint record they modify, the input transform and the appended rows; exactness by the network encoding theorem of C07 through the modified output map; the closed loop through the contract of C55, so that its certificate theorem applies to the simulated plant.
* **C67** the linear programs as Gurobi programs over the same `mip` record, statuses read branch by branch; validity and exactness from the solver contract; boundedness by homogenising the polytope (variables y = x/x_i, s = 1/x_i) and attainment of the minimum of s (Fourier-Motzkin, ProofAttain); discharges the oracles of C31 and C55.
* **C68** the sequence of solves of `_compute_Wz_bounds_optimization` and of R xdot over the separate program of the system; soundness from `covers` (every motion is a point of that program), tightness for MIP from `no_more`, totality from boundedness of the relaxed encodings; instances for the autonomous systems and the closed continuous-time plants; replaces the oracle of C55.
* **C69** the lists of gradients mirror the loops over units and zero entries; membership by induction over the layers against the tangents of C22, counting of the members, the right derivative of V along a curve from the one of C25 (in a small box around the state), and the verdicts of the derivative programs; one-dimensional hybrid systems make the call raise (refuted).
* **C70** the backward pass of automatic differentiation as a function, shown equal to the tangent for the flags `input > 0` and the signs of torch.sign; the loss is zero iff all samples decay at that rate; equality with the right derivative where V is differentiable, between two listed values elsewhere; a missed violation at a kink (refuted).
* **C71** the programs of C24/C25 for the learned system (exact by C36), a solution pool as an oracle (all members feasible; the search ends at an optimum or above the threshold); optima exist because V is bounded on the box and the equilibrium is feasible. The unassigned result variables are an error value: the function raises exactly when a decay condition holds (refuted).
* **C72** the losses of C30 over the filtered samples, stated through an inductive description of the samples kept; squared errors by induction over the batch.
* **C73** rollouts by induction over the steps; the validation is proved to be the sum over the rollouts, the documented mean is refuted.
* **C74** images as lists of channels, encoder and decoder as arbitrary functions, noise as an argument. Weight and divergence by real analysis (exp v >= 1 + v), cross entropy by Gibbs' inequality with the clamped logarithms of torch; that a batch of squared errors counts only its first image is proved and the batch claim refuted.
* **C75** rollouts by induction over the steps in both modes, agreement by induction over the frames; one-dimensional latent spaces always raise (refuted), and the cross entropy of rollouts is taken with swapped arguments (refuted).
* **C76** the loop as a list of operations over abstract parameters, gradients and devices, with an interrupt or a crash before any operation; induction over batches and epochs. The steps are stated by an inductive relation on parameters alone. Crashes during a save lose the file (refuted, the exact disjunction proved as partial); validation averages by additivity of the sums.
* **C77** tensors with their sizes, the four kinds of layers with their arithmetic and their exceptions, flattening and views; sizes by arithmetic of divisions, values of the linear coders as ReLU networks, the patches of the first convolutional decoder. The declared size of decoded images is refuted, with the exact condition.
* **C78** the create_prog_callback argument of the bound computation, the callback of the quadrotor loop and its three branches; the invariant of the bound loop over the feasible points of the callback program, completeness of the network encoding on these points only, equality of the controller program for [0,1] and relaxed binaries. Building with a linear controller or IA_MIP is refuted.
* **C79** apex_map_linear_approximation on top of the gradient functions of C53; the apex map by the gradient functions agrees with apex_map for legs that do not point backwards; derivatives by shifting curves by the height of the stone; the rows by algebra. For legs pointing backwards the agreement is refuted.
* **C80** the loop of SLIP.simulate with the two calls of the solver as oracles (parabola; solution of the stance dynamics until an event or ten seconds); induction over the leg angles with the energy of the current apex as invariant; agreement with iterated apex_map. That energy is kept when a flight is cut off after ten seconds, and that times increase, is refuted.
* **C81** the five arrays of the buffer with pointer and size; invariant: the arrays rotated by the pointer are the most recent transitions. The body of the main loop with environment, policy and update as arguments; invariant over the number of steps that compares with plainly defined episodes. That exactly start_steps actions are random, that the policy is moved once every policy_delay updates and that every terminal state is stored as one is refuted.
* **C82** actor, clipping, targets and losses over real vectors; update with autograd and Adam as arguments, with the accumulated gradients, the requires_grad flags and what is left of the iterator q_params; equality with the textbook update over every sequence. That the critics are frozen during the step on the policy is refuted.
* **C83** the loops of setObjective with an entry and its used flag as one cell; the written sum as an invariant of the loops; a written cell stays written. That a linear term in an unknown variable is rejected is refuted.
* **C84** the state of a parameter with step counter, averages and the in-place change of the gradient; invariant: the averages are the fading sums of the history. Jensen and monotonicity of fading sums for the bound. That later directions go down, that every group has its own options in the line search, and that the slope is that of the loss with weight decay is refuted.
* **C85** the augmented right hand side, the event and the arithmetic on the result; solve_ivp is an argument with the contract that it samples a solution in integral form (Riemann integrals of the standard library) and ends at the event. That a state has one value and that a trajectory beginning at the goal is stopped is refuted.
* **C86** the constants, step and reset as written; next_pose and torch.rand are arguments. The training run is the loop of C81 modelled in ModelTd3. Staying in the observation space is refuted with an explicit free fall whose derivative is that of the plant.
* **C87** the assembly of all fifteen matrices, on top of the model of the network encoding. What the value function returns is an argument, as its module is missing. Proved with the exactness of the encoding (C13). That the argument of the call is the network compared is refuted.
* **C88** the test and the call of the solver; the contract of the solver is asked for at the point projected only.
* **C89** the loop with its lists and counters, for an arbitrary environment, run for a number of iterations; an invariant relates them to a history of complete episodes. That it ends with the default length is refuted for the environment of C86.
* **C90** the split, the loader and the loop over the epochs, for an arbitrary optimiser; batches by induction. That one example suffices and that the printed training loss is the loss over the training examples are refuted.
* **C91** the input and the time grid; the integrator is an oracle with its contract asked for the right-hand side of this call only. That the end of the span is among the times is refuted.
* **C92** both loops with their assignments, for an arbitrary optimisation; the block of offsets by an invariant, and each offset is reached from one of the corners. That corners keep their own results is refuted.
* **C93** the constraints and the cost as functions of a trajectory, and the rows of the training set; smallest time, equal numbers of rows and the cost as label are refuted.
* **C94** argmin over the distances; solve_ivp is an oracle that returns a pose, the random numbers are arguments.

## 4. Where the theorems are, deviations from the plan, findings

The manifest (`MANIFEST.json`) lists every theorem per property. File groups:

| properties | statements | model | specification |
|---|---|---|---|
| C01–C11 | `PropEncodings.v` | `ModelUtils.v`, `ModelGrad.v` | `SpecCore.v`, `SpecUtils.v` |
| C20–C23 | `PropMip.v` | `ModelMip.v`, `ModelMilp.v` | `SpecMip.v`, `SpecMilp.v` |
| C11–C14 | `PropNetwork.v` | `ModelNet.v` | `SpecNet.v` |
| C15–C19 | `PropPattern.v` | `ModelPattern.v`, `ModelStrengthen.v` | `SpecPattern.v`, `SpecStrengthen.v` |
| C24–C30 | `PropLyapunov.v` | `ModelLyapunov.v` | `SpecLyapunov.v`, `SpecStep.v`, `SpecRoa.v` |
| C31–C34 | `PropSystems.v` | `ModelHybrid.v` | `SpecHybrid.v` |
| C35–C37 | `PropDynamics.v` | `ModelSystems.v` | `SpecSystems.v` |
| C38, C30 | `PropBarrier.v` | `ModelBarrier.v` | `SpecBarrier.v` |
| C39 | `PropROptions.v` | `ModelROptions.v` | `SpecROptions.v` |
| C40, C41 | `PropOptim.v` | `ModelOptim.v` | `SpecOptim.v` |
| C42–C47 | `PropTrain.v` | `ModelTrain.v` | `SpecTrain.v`, `SpecTrainCert.v` |
| C48 | `PropParams.v` | `ModelParams.v` | `SpecParams.v` |
| C49 | `PropSampling.v` | `ModelSampling.v` | `SpecSampling.v` |
| C50, C57, C58 | `PropMisc.v` | `ModelMisc.v` | `SpecMisc.v` |
| C51, C59 | `PropRrt.v` | `ModelRrt.v` | `SpecRrt.v`, `SpecExt.v` |
| C52 | `PropValueIter.v` | `ModelValueIter.v` | `SpecValueIter.v` |
| C53 | `PropSlip.v` | `ModelSlip.v` | `SpecSlip.v` |
| C54 | `PropPwl.v` | `ModelPwl.v` | `SpecPwl.v` |
| C55 | `PropContinuous.v`, `PropContHybrid.v` | `ModelContinuous.v`, `ModelContHybrid.v` | `SpecContinuous.v`, `SpecContHybrid.v` |
| C56 | `PropAffine.v` | `ModelAffine.v` | `SpecAffine.v` |
| C60, C61 | `PropExSystems.v` | `ModelExSystems.v` | `SpecExSystems.v` |
| C62 | `PropUniFeedback.v` | `ModelUniFeedback.v` | `SpecUniFeedback.v` |
| C63 | `PropRoaFlow.v` | `ModelLyapunov.v`, `ModelContinuous.v`, `ModelContHybrid.v` | `SpecRoaFlow.v` |
| C64, C65 | `PropPlants.v` | `ModelPlants.v`, `ModelMisc.v` | `SpecPlants.v`, `SpecSlip.v`, `SpecMisc.v` |
| C66 | `PropContSys.v` | `ModelContSys.v` | `SpecContSys.v`, `SpecContinuous.v` |
| C67 | `PropPoly.v` | `ModelPoly.v` | `SpecPoly.v`, `SpecHybrid.v` |
| C68 | `PropOptBounds.v` | `ModelOptBounds.v` | `SpecOptBounds.v`, `SpecContinuous.v` |
| C69, C70 | `PropDerivList.v` | `ModelDerivList.v` | `SpecDerivList.v`, `SpecContinuous.v`, `SpecContHybrid.v` |

`ModelExamples.v`, `ModelContExamples.v` and `ModelExamplesEx.v` hold only concrete objects for the
`Example`s that meet the hypotheses.

### How programs are modelled

A `GurobiTorchMIP` is a record (`mip`) of variables, rows, torch matrices and an
objective. Each python function that takes a program becomes a function from
programs to programs. `gfeas m sigma` says that the assignment `sigma` is feasible
for the Gurobi side. Program level proofs use `step` (SpecStep.v): a call appends
variables and rows, so that the feasible assignments of the new program are those
of the old one that also satisfy a known condition on the new variables.

### Findings: statements that are false of the code

Each has a theorem whose name ends in `_refuted` with a concrete witness.

* C07 `max_as_mixed_integer_constraint` raises when exactly one index can never be maximal (utils.py:71-120).
* C08 `l1_gradient` with a positive tolerance returns too few rows: the count uses `<`, the search uses `<=`.
* C14 A unit whose lower bound is nonnegative gets binary 1 in the encoding, but the warm start at pre-activation 0 gives 0.
* C20 `concatenate_mixed_integer_constraints` sizes the second block of binary bounds by the first one's count (gurobi_torch_mip.py:344).
* C21 `transform_input` leaves `input_lo`, `input_up` of the old coordinates in place.
* C22 Bounds set after creation (`set_var_bound`) and empty ranges exist only on the Gurobi side.
* C23 A positive penalty biases the reconstructed objective; the MIQP variant drops `Q_rzeta`.
* C27 The derivative program confines the successor to the box, so states that leave it are never checked.
* C28 A successor that leaves the box in two coordinates at once escapes both region-of-attraction programs.
* C33 The last simulated state may lie in no mode; a state without mode aborts the whole sample generation.
* C38 Steps that leave the box are not checked; an optimum of 0 allows `h = 0` in the unsafe region.
* C40 Division by zero for a zero gradient; orthogonal gradients are projected against the documentation.
* C41 A failed line search leaves the parameters at the last trial point.
* C43 `train_lyapunov_on_samples` neither saves nor restores R.
* C44 With the early-termination callback a threshold below the tolerance gives verdicts about non-optimal values.
* C45 Pool size 0 keeps everything (`l[-0:]`); a buffer addition above the limit overflows.
* C46 Exactly two clusters give a single repetition count.
* C47 `_set_training_params` replaces the tensor that the optimiser holds: R is frozen after the first descent.
* C48 `update_relu_params` stores views of the caller's tensor; a short last bias is accepted.
* C49 The random number 0 gives a face index out of range.
* C51 `update_parent` onto a descendant builds a cycle and never returns (the tree's own calls never do this).
* C53 The liftoff gradient lacks the derivative with respect to r; jumps from below are missed; time 0 is returned; g = 0 divides by zero.
* C54 `add_continuity_constraint` raises on most faces in dimension 3 and above.
* C55 Generalised gradients that only exist on the boundary of the box are not represented.
* C56 The second order construction raises when the output of b uses the state directly.
* C59 Rewired paths are reversed in time without negating the inputs.
* C60 Car models whose network does not read the angular velocity (`thetadot_as_input=False`) leave its limits out of the program, while `step_forward` asserts them (unicycle.py:142-146, 203-291).
* C61 `add_dynamics_constraint` of all example models except `QuadrotorReLUSystem` lacks the keyword `u_input_prog` that `FeedbackSystem` passes (feedback_system.py:368-376), so every closed loop around them raises a TypeError. `UnicycleReLUZeroVelModel` also returns a tuple instead of the documented return object.
* C62 With a linear controller `UnicycleFeedbackSystem` falls back to the constraints of the base class, which leave out the term lambda |R p|_1 that `compute_u` adds, so the verified loop is not the simulated one. The documented "strictly positive velocity around the origin" fails: the network term can cancel the additional term at states arbitrarily close to the origin.
* C64 `AccelerationCar.dynamics` concatenates 0-dimensional tensors with `torch.cat` (acceleration_car.py:33), which raises for every torch input.
* C65 `Pole.dynamics` has the wrong sign at `2 * x_AB * y_AB * xd_AB * yd_AB / z_AB**3` (pole.py:66, 97): Newton's law for the two masses fails at every state where this term does not vanish. The repository's test compares energies to one decimal.
* C66 `PendulumReluContinuousTime` and `QuadrotorReluContinuousTime` replace their own input limits by the additional bounds instead of intersecting them (pendulum.py:169-172, quadrotor_2d.py:230-233), so closed loops are verified, and simulated, with inputs outside the plant's limits.
* C71 `adversarial_samples` assigns two of its three results only inside the loop over reported solutions (dynamics_learning.py:151-192), so it raises UnboundLocalError exactly when one of the decay conditions holds on the whole box.
* C73 `rollout_validation`, documented as the mean loss, returns the sum over the rollouts (dynamics_learning.py:367-384).
* C74 Without cross entropy `reconstruction_loss` averages over channels and pixels and then takes entry 0 of the batch, so only the first image of a batch is trained on (dynamics_learning.py:771-782).
* C75 `rollout` calls `lyapunov_value` on `z.squeeze()`, which for a one-dimensional latent space has no dimension left: every rollout raises (dynamics_learning.py:814-871). It returns N+2 frames where the docstring promises N+1.
* C75 `rollout_loss` with cross entropy passes the expected frames as the prediction and the prediction as the target (dynamics_learning.py:873-893): a rollout equal to the expected one does not have the least loss, although `reconstruction_loss` has the arguments in the right order.
* C76 `save` opens the only file for writing before dumping, so a crash during a save (also the periodic ones of `train`) destroys the previous save (dynamics_learning.py:538-547, 669-682).
* C76 `train(save_rate=r, save_path=None)` fails its assertion only after the first epoch, and then leaves the networks on the training device, because the move to the CPU is not in a finally block (dynamics_learning.py:503-511).
* C76 The validation weights the sample losses of a batch by its size although they are averages over the samples inside the stable box only, so they are not the losses of the validation set when some samples lie outside (dynamics_learning.py:473-503).
* C77 The convolutional decoders return images of 4*(width//4) by 4*(height//4) pixels, not of the declared size, unless both are multiples of four (encoders.py:156-290); the losses then raise, and CNNEncoder2 may reject the decoded image (33 x 33: 32 x 32 is too small).
* C78 The quadrotor's closed loop raises for a linear controller unless one of the two methods is IA, and for IA_MIP unless the other method is IA, although the base class builds the same loops (quadrotor_feedback_system.py:47-54, 65-70).
* C79 apex_map has no value for a leg pointing against the direction of motion, but apex_map_linear_approximation returns an approximation for it (spring_loaded_inverted_pendulum.py:160-170, slip_hybrid_linear_system.py:52-64).
* C79 The documented order of the returned values (A, B, c, P, q, a_t, b_t, c_t) is not the order returned (A, B, c, a_t, b_t, c_t, P, q) (slip_hybrid_linear_system.py:36, 107).
* C80 simulate enters the stance phase when a flight is still in the air after ten seconds; the energy of the foot's height is lost (spring_loaded_inverted_pendulum.py:240-248).
* C80 simulate does not test the vertical velocity after liftoff as apex_map does: with a downward velocity the next flight starts at an apex before the liftoff, and the next touchdown can come before it (spring_loaded_inverted_pendulum.py:275-285).
* C81 `t > start_steps` makes start_steps + 1 actions random (td3.py:343).
* C81 the timer of the delayed policy update is the index within a round, so with policy_delay not dividing update_every the policy is moved too often (td3.py:380, 283).
* C81 a terminal state reached with the last allowed step is stored as not terminal, so its target includes a value that no episode can collect (td3.py:356).
* C82 q_params is an itertools.chain that the optimizer's constructor uses up; the loops that freeze and unfreeze the critics have nothing to run over (td3.py:218, 272, 287, 299). The results are not affected, as the leftover gradients are cleared before the next step.
* C82 the actor's own output, which the policy loss uses, can be outside of the limits of the action space (td3.py:47-51).
* C83 a linear term in a variable that is not in the program is dropped silently, while a quadratic one raises a KeyError (gurobi_torch_mip.py:1213-1232).
* C84 the direction called a descent direction in the documentation of Armijo's rule can go up; then the bound on the loss is above the old loss and only min_improvement rules out an increase (line_search_adam.py:9, 86-106).
* C84 weight decay is added to p.grad in place, so the line search compares the loss, which has no penalty, with a slope that has one (line_search_adam.py:156-157, 88).
* C84 the line search uses the options of the last parameter group for all groups (line_search_adam.py:80-84).
* C85 the cost of a state within a trajectory has the remaining horizon only, so the samples can give one state several values (hybrid_linear_system.py:776).
* C85 a trajectory that begins within 1e-3 of the goal is not stopped, as the event function does not change its sign; the discrete-time version stops at once (hybrid_linear_system.py:765-769, compare 691).
* C86 the environment declares an observation space but neither clips nor ends an episode that leaves it: a free fall of one step from a state that reset can give is outside (quadrotor2d_env.py:33-47).
* C87 epsilon_opt ignores its argument model and compares the network given to the constructor (model_bounds.py:26, 57).
* C89 run_policy with its default max_ep_len=None never returns in Quadrotor2DEnv, which never reports done; a length of zero has the same effect (test_policy.py:31, 45). The observation after a reset is not recorded (43).
* C90 train_approximator cannot be used with one example (the training part is empty: division by zero, or an error of the loader), and the training loss it prints gives a smaller last batch the same weight as the others (utils.py:1285, 1311, 1319). The parameters it collects after each epoch are dropped (1298, 1321).
* C91 The result of simulate_plant_with_controller never contains the end of the time span (utils.py:1263-1265); value_iteration.py:566 prints its last column as the final state.
* C45 train_value.py cannot be imported: it needs neural_network_lyapunov/adversarial_sample.py, which is not in the repository (train_value.py:1).
* C92 calculate_r_duplicate tests for the corners in the wrong list (value_iteration.py:181 has i01, not i01s), so that the test always holds and the results of the corners are overwritten by those of another corner. This is harmless for the costs of the car, which do not depend on the place.
* C93 construct_traj_opt is documented to find the minimal time, but its cost does not contain the time steps (unicycle_traj_opt.py:20-41).
* C93 construct_training_set keeps nT costs but nT - 1 states and inputs of each trajectory, so that rows do not match from the second trajectory on, and the costs leave out the part of the cost for changes of the input (unicycle_traj_opt.py:95-100).

### Observations recorded as hypotheses or notes, not as refutations

* The forward system's own input range silently excludes states whose saturated control lies outside it (C37).
* The second order classes do not check `nq == nv`; the autonomous classes do not check `in_features` against `x_dim` (C35, C36).
* `HybridLinearSystem.add_dynamics_constraint` ignores the additional input bounds (C37).
* The residue class confines only the coordinates that enter its network (C36).
* `compute_u` exceeds the upper limit when the limits are crossed; mixed finite/infinite limits raise in the program (C37).
* With a single unit `squeeze()` gives a 0-dimensional tensor that raises in `setObjective` (hypothesis `la_units`).
* The network data that `QuadrotorReluContinuousTime` returns name 8 input variables for a network with 3 inputs (relu_system.py:1054-1055), so cuts built from them do not fit (C66).
* Without `u_input_prog` the separate program of a continuous-time plant is a `GurobiTorchMIP` (relu_system.py:1036-1041), a class without `setObjective`; only closed loops can have their bounds found by optimisation (C68).
* `lyapunov_derivative` of a hybrid system of one dimension raises at every state in a mode: squeeze() leaves tensors without dimension and `@` needs one (continuous_time_lyapunov.py:385-397; `C69_hybrid_one_dimension_refuted`). `LyapunovContinuousTimeSystem.lyapunov_derivative` raises for R = None (lyapunov.py:502).
* The sample loss of `LyapunovContinuousTimeSystem` checks `zero_tol` and then ignores it: at a kink it uses the one gradient of automatic differentiation, so a violated one-sided derivative can go unnoticed (`C70_kink_violation_refuted`). The loss of hybrid systems ignores its argument `weight` (continuous_time_lyapunov.py:1187-1264).
* `linear_program_cost` (utils.py:842-895, used by no other code) indexes the tuple returned by np.nonzero instead of its array, so it raises unless at most one inequality is active; `compute_range_by_lp` leaves dual reductions on, so an infeasible or unbounded program may end in its exception instead of an infinite bound (C67 states its totality for bounded nonempty sets only).
* `extract_params` of the SPD option and `train_value.py`, `model_bounds.py` cannot run as they are (missing attributes, missing modules).

## 5. Axioms (output of `Print Assumptions`)

Only axioms of Coq's standard library occur. Beneath every property theorem the
source has the `Print Assumptions` command.

* no axiom at all ("Closed under the global context"): C18_alpha_index, C39_free_roundtrip, C45_bound, C45_aligned, C45_buffer, C45_buffer_aligned, C45_buffer_refuted, C47_first_partial, C48_update, C48_update_same, C48_update_follows, C57_flat, C57_range, C57_3d, C74_target, C76_steps, C76_interrupt, C76_total, C76_saves, C76_crash_partial, C76_crash_refuted, C76_no_path, C76_left_on_device_refuted, C81_chain, C81_terminal, C81_episode_length, C81_ratio, C81_policy_steps, C81_policy_delay_refuted, C85_step_system, C90_variables, C92_complete, C92_duplicate_partial, C92_corners_refuted.
* `ClassicalDedekindReals.sig_forall_dec`: C21_transform_total, C48_alias_refuted, C54_continuity_raises, C56_second_order_raises, C67_polytope_total, C77_flatten, C77_view, C81_buffer, C81_batch, C82_start, C89_ends, C89_zero_length_refuted, C93_rows_refuted.
* `ClassicalDedekindReals.sig_forall_dec`, `Classical_Prop.classic`, `FunctionalExtensionality.functional_extensionality_dep`: C67_bounded_sound, C67_bounded_complete, C67_mode_added, C71_no_sample, C71_raises, C71_losses, C71_losses_early.
* `ClassicalDedekindReals.sig_forall_dec`, `ClassicalEpsilon.constructive_indefinite_description`, `Classical_Prop.classic`, `FunctionalExtensionality.functional_extensionality_dep`: C27_leaving_refuted, C28_corner_refuted, C38_leaving_refuted, C38_strict_refuted, C60_limits_refuted, C62_linear_refuted, C71_certified_raises_refuted, C78_linear_refuted, C78_mixed_refuted.
* `ClassicalDedekindReals.sig_forall_dec`, `ClassicalDedekindReals.sig_not_dec`, `Classical_Prop.classic`, `FunctionalExtensionality.functional_extensionality_dep`: C53_flight_energy, C53_stance_energy, C53_apex_map_energy, C54_decay, C54_convergence, C58_exact, C63_region, C63_hybrid_region, C74_weight, C74_divergence, C74_cross_entropy, C74_first_image, C74_batch_refuted, C74_dynamics, C75_loss, C75_cross_entropy_refuted, C76_validation_dynamics, C77_cross_entropy, C80_energy, C82_actor_limits_refuted, C85_costs, C85_decreasing, C85_stops_at_goal, C85_samples, C85_samples_complete, C85_value_of_state_refuted, C85_start_at_goal_refuted.
* `ClassicalDedekindReals.sig_forall_dec`, `FunctionalExtensionality.functional_extensionality_dep`: all other theorems (313).
* `ClassicalDedekindReals.sig_forall_dec`, `ClassicalDedekindReals.sig_not_dec`, `FunctionalExtensionality.functional_extensionality_dep`: C26_asymptotic, C30_positivity_loss, C30_derivative_loss, C30_positivity_ordered, C30_derivative_ordered, C30_barrier_derivative_loss, C30_barrier_safe_loss, C30_barrier_unsafe_loss, C30_barrier_sample_loss, C39_svd_rank, C39_svd_norm, C39_svd_roundtrip, C50_rotation, C50_torch, C50_gradient, C53_touchdown_energy, C53_liftoff_energy, C53_liftoff_undoes_touchdown, C53_touchdown_undoes_liftoff, C53_stance_newton, C53_time_to_touchdown, C53_can_touch, C53_first_touchdown, C53_jump_refuted, C53_positive_time_refuted, C53_zero_gravity_refuted, C53_stance_gradient, C53_touchdown_gradient, C53_apex_to_touchdown_gradient, C53_liftoff_gradient_partial, C53_liftoff_gradient_refuted, C53_apex_to_apex_gradient, C55_continuous_decay, C55_continuous_certified, C55_hybrid_decay, C55_hybrid_certified, C59_ends_partial, C59_drivable_refuted, C64_unicycle, C64_pendulum, C64_quad2d, C64_rocket, C64_quadrotor, C64_rest, C64_torch_partial, C64_torch_refuted, C65_pendulum, C65_shaping, C65_rockets, C65_rocket_power, C65_quad2d, C65_rates, C65_quadrotor, C65_unicycle, C65_acceleration_car, C65_pole_defined, C65_pole_height, C65_pole_partial, C65_pole_energy_partial, C65_pole_refuted, C66_exact, C66_bounds, C66_total, C66_equilibrium, C66_loop, C66_loop_total, C66_contract, C66_certified, C66_limits_refuted, C68_loop_program, C68_loop_program_total, C68_loop_built, C68_autonomous_certified, C68_loop_certified, C70_loss_zero, C70_no_false_alarm, C70_kink_violation_refuted, C70_hybrid_loss_zero, C70_hybrid_samples, C72_samples, C72_samples_zero, C74_latent_state, C74_samples, C75_latent, C75_images, C75_agree, C75_one_dimension, C75_one_dimension_refuted, C76_validation_partial, C76_validation_refuted, C77_linear_decoder, C77_decode, C77_decoded_size, C77_declared_size_refuted, C77_patches, C77_loop, C77_loop_refuted, C77_fits, C79_exact_at_the_point, C79_defined, C79_gradient, C79_constraints, C79_point_is_feasible, C79_backward_leg_refuted, C80_apex_map, C80_timeout_refuted, C80_time_refuted, C82_actor_spread, C84_moves, C84_amsgrad, C84_bounded, C84_equal_gradients, C84_first_step_descends, C84_descent_refuted, C84_moved_parameters, C84_accepted_decreases, C84_group_options_refuted, C84_decay_slope_refuted, C86_step, C86_penalty, C86_return, C86_hover, C86_reset, C86_reset_covers, C86_training, C86_observation_space_refuted, C89_quadrotor_lengths, C89_default_ends_refuted, C93_program, C93_moved, C93_best_moved, C93_minimal_time_refuted, C94_sample_state, C94_propose.

They enter through the construction of the real numbers (`sig_forall_dec`,
`sig_not_dec`), through `functional_extensionality_dep` (also used by the real
numbers), through classical lemmas of real analysis (`classic`), and through the
ideal solver of the refutations, which picks an optimum of a program by
`constructive_indefinite_description`.

## 6. What is modelled and what is not

Paths are relative to `/repo/neural_network_lyapunov`. "–" means nothing is left
out but dtype/device handling, names and logging.

| file | modelled | left out |
|---|---|---|
| utils.py | 27-600 encodings, 898-934, 951-1032, 1057-1106, 1163-1185, 1325-1353, 716-746, 780-839, 1411-1575 | numerical gradients 604-651, linear_program_cost 842-895, project_to_polyhedron, extract_relu_parameters_grad, SigmoidAnneal, simulation and replay helpers, plotting |
| mip_utils.py | 11-329 cuts, 332-410 range by linear programs, 413-498 bounds | – |
| gurobi_torch_mip.py | 1-957 constraints and the class, 958-1343 objective reconstruction | autograd through the objective, solution pools |
| relu_to_optimization.py, relu_to_optimization_utils.py | encoding, bounds, patterns, gradient-times-vector, strengthening | 1210-1328 (output_gradient as products of binaries, gradient bounds) |
| lyapunov.py | – | – |
| continuous_time_lyapunov.py | – | – |
| hybrid_linear_system.py | – | continuous-time cost to go 713-779; the order of the meshgrid |
| relu_system.py, feedback_system.py | all nine systems, closed loops, the cuts added to closed loops, the bound programs of the autonomous systems and of the continuous-time loops | bound programs of discrete-time loops (not used) |
| barrier.py | – | – |
| r_options.py | – | extract_params |
| train_utils.py, line_search_gd.py, line_search_adam.py | – | the Adam moments (the direction is universally quantified) |
| train_lyapunov_barrier.py | loops, pools, clustering, losses, verdicts | options parsing, logging, checkpoint files, wandb |
| train_value.py | sample buffers | the rest (imports a missing module) |
| control_affine_system.py | – | the optimiser run of train_control_affine_forward_model |
| simple_pwl_lyapunov.py | – | the cvxpy solver (oracle) |
| spring_loaded_inverted_pendulum.py | – | scipy's integrator (oracle), simulate |
| geometry_transform.py, integrator.py | – | variable step integrators |
| examples/car | rrt_star.py, value_iteration.py (the iteration and grid indices), unicycle and acceleration car | saving and loading of trees, depth images, plotting |
| examples/pendulum, quadrotor2d, quadrotor3d, rocket, pole | dynamics, gradients, energies, learned models | visualizers, training scripts, LQR (scipy), scipy's integrator |
| dynamics_learning.py | all: losses, samples, rollouts, training loop, saving and loading | the options object, the tensorboard writer |
| encoders.py | all: shapes and values of the layers, encoders and decoders | initial values of the parameters |
| worlds.py, pybullet_data_generation.py, model_bounds.py, slip_hybrid_linear_system.py, other examples | nothing | training of dynamics networks, simulators, demos |
