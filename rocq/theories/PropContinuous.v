(** C55: the continuous-time derivative program (LyapunovContinuousTimeSystem). *)

Require Import Reals List Lra.
Require Import Verif.Vec Verif.ModelMip Verif.SpecMip Verif.SpecCore Verif.ModelUtils Verif.ModelNet Verif.SpecNet
  Verif.SpecStep Verif.ModelPattern Verif.SpecPattern Verif.ModelLyapunov Verif.SpecLyapunov
  Verif.ModelContinuous Verif.SpecContinuous Verif.ModelExamples Verif.ModelContExamples
  Verif.ProofExamples Verif.ProofContinuous4 Verif.ProofContinuous6 Verif.ProofContExamples.
Import ListNotations.
Open Scope R_scope.

(** Every feasible point is a state of the box, a velocity of the system there and one of the generalised
    gradients of V there, and its objective is dV/dt + eps V; every such triple whose flags are signs that the
    unit takes somewhere in the box is a feasible point. *)
Theorem C55_continuous_program : forall solve, solver_ok solve ->
  forall meth N n x_lo x_up R0 xeq, lyap_args n N x_lo x_up R0 xeq ->
  forall lam eps st add_system (T : vec -> vec -> Prop), flow_contract n st add_system x_lo x_up T ->
  forall opt_bounds,
  (meth = LP \/ meth = MIP -> forall B r, opt_bounds (R_of n R0) = Some (B, r) ->
     product_bounds_ok x_lo x_up N (R_of n R0) T (encodable solve meth N x_lo x_up) B r) ->
  forall lower upper, no_slope_one (hidden N) ->
  forall et d,
  continuous_milp solve meth N n x_lo x_up add_system opt_bounds xeq lam eps et R0 lower upper = Some d ->
  et = ExpLower /\ obj_max (cd_mip d) = true /\ length (cd_x d) = n /\ length (cd_xdot d) = n /\
  (forall sg, gfeas (cd_mip d) sg ->
     in_box x_lo x_up (map sg (cd_x d)) /\ T (map sg (cd_x d)) (map sg (cd_xdot d)) /\
     within lower upper (V N (R_of n R0) lam xeq (map sg (cd_x d))) /\
     exists pats sgs, selects N (R_of n R0) xeq (map sg (cd_x d)) pats sgs /\
       map sg (ret_beta (cd_relu d)) = flat pats /\
       map sg (cd_l1 d) = map (fun f : bool => if f then 1 else 0) sgs /\
       objective (cd_mip d) sg
       = Vdot N (R_of n R0) lam pats sgs (map sg (cd_xdot d)) + eps * V N (R_of n R0) lam xeq (map sg (cd_x d))) /\
  (forall x v pats sgs, in_box x_lo x_up x -> T x v -> length v = n ->
     within lower upper (V N (R_of n R0) lam xeq x) ->
     selects N (R_of n R0) xeq x pats sgs -> selection_attained x_lo x_up N (R_of n R0) xeq pats sgs ->
     exists sg, gfeas (cd_mip d) sg /\ map sg (cd_x d) = x /\ map sg (cd_xdot d) = v /\
       map sg (ret_beta (cd_relu d)) = flat pats /\
       map sg (cd_l1 d) = map (fun f : bool => if f then 1 else 0) sgs /\
       objective (cd_mip d) sg = Vdot N (R_of n R0) lam pats sgs v + eps * V N (R_of n R0) lam xeq x).
Proof. exact continuous_program. Qed.
Print Assumptions C55_continuous_program.

(** The optimum is the derivative at some state, velocity and gradient; an optimum of at most zero gives the
    decrease condition; an infeasible program means that no state is within the bounds on V. *)
Theorem C55_continuous_verdict : forall solve, solver_ok solve ->
  forall meth N n x_lo x_up R0 xeq, lyap_args n N x_lo x_up R0 xeq ->
  forall lam eps st add_system (T : vec -> vec -> Prop), flow_contract n st add_system x_lo x_up T ->
  forall opt_bounds, no_slope_one (hidden N) ->
  (meth = LP \/ meth = MIP -> forall B r, opt_bounds (R_of n R0) = Some (B, r) ->
     product_bounds_ok x_lo x_up N (R_of n R0) T (encodable solve meth N x_lo x_up) B r) ->
  forall et lower upper d,
  continuous_milp solve meth N n x_lo x_up add_system opt_bounds xeq lam eps et R0 lower upper = Some d ->
  (forall v, solve (cd_mip d) = GOptimal v -> v <= 0 ->
     forall x w pats sgs, in_box x_lo x_up x -> T x w -> length w = n ->
       within lower upper (V N (R_of n R0) lam xeq x) -> selects N (R_of n R0) xeq x pats sgs ->
       selection_attained x_lo x_up N (R_of n R0) xeq pats sgs ->
       Vdot N (R_of n R0) lam pats sgs w + eps * V N (R_of n R0) lam xeq x <= 0) /\
  (forall v, solve (cd_mip d) = GOptimal v ->
     exists x w pats sgs, in_box x_lo x_up x /\ T x w /\ within lower upper (V N (R_of n R0) lam xeq x) /\
       selects N (R_of n R0) xeq x pats sgs /\
       v = Vdot N (R_of n R0) lam pats sgs w + eps * V N (R_of n R0) lam xeq x) /\
  (solve (cd_mip d) = GInfeasible ->
     forall x w, in_box x_lo x_up x -> T x w -> length w = n ->
       ~ within lower upper (V N (R_of n R0) lam xeq x)).
Proof. exact continuous_verdict. Qed.
Print Assumptions C55_continuous_verdict.

(** What the certificate is for: with an optimum of at most zero, V decays along every solution in the box. *)
Theorem C55_continuous_decay : forall solve, solver_ok solve ->
  forall meth N n x_lo x_up R0 xeq, lyap_args n N x_lo x_up R0 xeq ->
  forall lam eps st add_system (T : vec -> vec -> Prop), flow_contract n st add_system x_lo x_up T ->
  forall opt_bounds, no_slope_one (hidden N) ->
  (meth = LP \/ meth = MIP -> forall B r, opt_bounds (R_of n R0) = Some (B, r) ->
     product_bounds_ok x_lo x_up N (R_of n R0) T (encodable solve meth N x_lo x_up) B r) ->
  forall et lower upper d v,
  continuous_milp solve meth N n x_lo x_up add_system opt_bounds xeq lam eps et R0 lower upper = Some d ->
  solve (cd_mip d) = GOptimal v -> v <= 0 ->
  forall b x, flow x_lo x_up T b x ->
    (forall t, 0 <= t < b -> within lower upper (V N (R_of n R0) lam xeq (x t))) ->
    forall t, 0 <= t <= b ->
      V N (R_of n R0) lam xeq (x t) <= exp (- eps * t) * V N (R_of n R0) lam xeq (x 0).
Proof. exact continuous_decay. Qed.
Print Assumptions C55_continuous_decay.

(** Together with the positivity program: exponential convergence to the equilibrium. *)
Theorem C55_continuous_certified : forall solve, solver_ok solve ->
  forall meth N n x_lo x_up R0 xeq, lyap_args n N x_lo x_up R0 xeq ->
  forall lam eps st add_system (T : vec -> vec -> Prop), flow_contract n st add_system x_lo x_up T ->
  forall opt_bounds, no_slope_one (hidden N) ->
  (meth = LP \/ meth = MIP -> forall B r, opt_bounds (R_of n R0) = Some (B, r) ->
     product_bounds_ok x_lo x_up N (R_of n R0) T (encodable solve meth N x_lo x_up) B r) ->
  forall et d v eps1 mp xp vp,
  positivity_milp solve meth N n x_lo x_up xeq lam eps1 R0 = Some (mp, xp) ->
  solve mp = GOptimal vp -> vp <= 0 ->
  continuous_milp solve meth N n x_lo x_up add_system opt_bounds xeq lam eps et R0 None None = Some d ->
  solve (cd_mip d) = GOptimal v -> v <= 0 ->
  forall b x, flow x_lo x_up T b x ->
    forall t, 0 <= t <= b ->
      eps1 * error1 (R_of n R0) xeq (x t) <= V N (R_of n R0) lam xeq (x t)
      <= exp (- eps * t) * V N (R_of n R0) lam xeq (x 0).
Proof. exact continuous_certified. Qed.
Print Assumptions C55_continuous_certified.

(** By interval arithmetic the program is always built. *)
Theorem C55_continuous_built : forall solve, solver_ok solve ->
  forall meth N n x_lo x_up R0 xeq, lyap_args n N x_lo x_up R0 xeq ->
  forall lam eps st add_system (T : vec -> vec -> Prop), flow_contract n st add_system x_lo x_up T ->
  forall opt_bounds, no_slope_one (hidden N) ->
  forall lower upper, meth = IA -> slopes_nonneg (hidden N) ->
  (forall m xv xn, history st m -> below (nvars m) xv -> below (nvars m) xn ->
     length xv = n -> length xn = n -> NoDup (xv ++ xn) ->
     exists m' a b, add_system xv xn VBin m = Some (m', Some (a, b))) ->
  (exists c B out, output_constraint solve meth N x_lo x_up = Some (c, B, out)) ->
  exists d, continuous_milp solve meth N n x_lo x_up add_system opt_bounds xeq lam eps ExpLower R0
              lower upper = Some d.
Proof. exact continuous_total. Qed.
Print Assumptions C55_continuous_built.

(** The hypotheses are met by xdot = - x or - 2 x on [-1, 1] and V = 3/2 |x|; the optimum is 0. *)
Example C55_args_case : lyap_args 1 net_abs [-1] [1] None [0].
Proof. exact abs_args. Qed.
Example C55_contract_case : flow_contract 1 true addf [-1] [1] Tf.
Proof. exact sysf_contract. Qed.
Example C55_slope_case : no_slope_one (hidden net_abs) /\ slopes_nonneg (hidden net_abs).
Proof. exact (conj abs_ns abs_slopes). Qed.
Example C55_program_case : exists d,
  continuous_milp ideal_solve IA net_abs 1 [-1] [1] addf no_opt [0] (1/2) 1 ExpLower None None None
    = Some d /\
  ideal_solve (cd_mip d) = GOptimal 0.
Proof. exact flow_case. Qed.
Example C55_positivity_case : exists m xv,
  positivity_milp ideal_solve IA net_abs 1 [-1] [1] [0] (1/2) (1/2) None = Some (m, xv) /\
  ideal_solve m = GOptimal 0.
Proof. exact positivity_case. Qed.
Example C55_flow_case : forall b, flow [-1] [1] Tf b flow_ex.
Proof. exact flow_ex_ok. Qed.

(** "Every generalised gradient at every state in the box" is false on the boundary of the box: xdot = -1 on
    [0, 1], V = |x|.  At x = 0 the gradient -1 makes dV/dt + eps V = 1, but no feasible point has a positive
    objective: the unit is known to be nonnegative on the box, so its flag is fixed. *)
Theorem C55_boundary_gradient_refuted : forall solve, solver_ok solve -> exists d,
  continuous_milp solve IA net_flat 1 [0] [1] addd no_opt [0] 1 1 ExpLower None None None = Some d /\
  (forall sg, gfeas (cd_mip d) sg -> objective (cd_mip d) sg <= 0) /\
  exists x w pats sgs, in_box [0] [1] x /\ Td x w /\
    selects net_flat (R_of 1 None) [0] x pats sgs /\
    0 < Vdot net_flat (R_of 1 None) 1 pats sgs w + 1 * V net_flat (R_of 1 None) 1 [0] x.
Proof. exact boundary_gradient_missing. Qed.
Print Assumptions C55_boundary_gradient_refuted.
