(** The smallest value on the boundary and the region of attraction of
    continuous-time systems (C63). *)

Require Import Reals List Lra.
Require Import Verif.Vec Verif.ModelMip Verif.SpecMip Verif.SpecCore Verif.SpecUtils Verif.ModelUtils
  Verif.ModelNet Verif.SpecNet Verif.SpecStep Verif.ModelGrad Verif.ModelPattern Verif.SpecPattern
  Verif.ModelLyapunov Verif.SpecLyapunov
  Verif.ModelContinuous Verif.SpecContinuous Verif.ModelHybrid Verif.SpecHybrid
  Verif.ModelContHybrid Verif.SpecContHybrid Verif.SpecRoaFlow
  Verif.ModelExamples Verif.ModelContExamples
  Verif.ProofExamples Verif.ProofContExamples Verif.ProofRoaBoundary Verif.ProofRoaFlow2.
Import ListNotations.
Open Scope R_scope.

(** C63.  The feasible points of the program are the points of the boundary, its
    objective is V, to be minimised. *)
Theorem C63_program : forall solve, solver_ok solve -> forall meth N n x_lo x_up R0 xeq,
  lyap_args n N x_lo x_up R0 xeq -> forall lam m xv,
  roa_boundary_milp solve meth N n x_lo x_up xeq lam R0 = Some (m, xv) ->
  obj_max m = false /\ length xv = n /\
  (forall sg, gfeas m sg -> on_boundary x_lo x_up (map sg xv) /\
     objective m sg = V N (R_of n R0) lam xeq (map sg xv)) /\
  (forall x, on_boundary x_lo x_up x -> exists sg, gfeas m sg /\ map sg xv = x).
Proof. exact roa_boundary_program. Qed.
Print Assumptions C63_program.
Theorem C63_value : forall solve, solver_ok solve -> forall meth N n x_lo x_up R0 xeq,
  lyap_args n N x_lo x_up R0 xeq -> forall lam m xv v,
  roa_boundary_milp solve meth N n x_lo x_up xeq lam R0 = Some (m, xv) -> solve m = GOptimal v ->
  (exists x, on_boundary x_lo x_up x /\ V N (R_of n R0) lam xeq x = v) /\
  forall x, on_boundary x_lo x_up x -> v <= V N (R_of n R0) lam xeq x.
Proof. exact roa_boundary_value. Qed.
Print Assumptions C63_value.
Theorem C63_built : forall solve, solver_ok solve -> forall meth N n x_lo x_up R0 xeq,
  lyap_args n N x_lo x_up R0 xeq -> forall lam,
  (exists c B out, output_constraint solve meth N x_lo x_up = Some (c, B, out)) ->
  exists m xv, roa_boundary_milp solve meth N n x_lo x_up xeq lam R0 = Some (m, xv).
Proof. exact roa_boundary_total. Qed.
Print Assumptions C63_built.

(** What it is for: a solution of a certified system that starts in the box below
    this value (and below the bound on V used in the derivative program) never
    leaves the box and converges. *)
Theorem C63_region : forall solve, solver_ok solve -> forall meth, forall N n x_lo x_up R0 xeq, lyap_args n N x_lo x_up R0 xeq ->
  forall lam eps st add_system (T : vec -> vec -> Prop), flow_contract n st add_system x_lo x_up T ->
  forall opt_bounds, no_slope_one (hidden N) ->
  (meth = LP \/ meth = MIP -> forall B r, opt_bounds (R_of n R0) = Some (B, r) ->
     product_bounds_ok x_lo x_up N (R_of n R0) T (encodable solve meth N x_lo x_up) B r) ->
  forall et upper d v eps1 mp xp vp mb xb rho, 0 <= eps -> 0 <= eps1 ->
  positivity_milp solve meth N n x_lo x_up xeq lam eps1 R0 = Some (mp, xp) ->
  solve mp = GOptimal vp -> vp <= 0 ->
  continuous_milp solve meth N n x_lo x_up add_system opt_bounds xeq lam eps et R0 None upper = Some d ->
  solve (cd_mip d) = GOptimal v -> v <= 0 ->
  roa_boundary_milp solve meth N n x_lo x_up xeq lam R0 = Some (mb, xb) -> solve mb = GOptimal rho ->
  forall b x, motion n x_lo x_up T b x -> in_box x_lo x_up (x 0) ->
  V N (R_of n R0) lam xeq (x 0) < rho ->
  (forall u, upper = Some u -> V N (R_of n R0) lam xeq (x 0) < u) ->
  forall t, 0 <= t <= b -> in_box x_lo x_up (x t) /\
    eps1 * error1 (R_of n R0) xeq (x t) <= V N (R_of n R0) lam xeq (x t)
    <= exp (- eps * t) * V N (R_of n R0) lam xeq (x 0).
Proof. exact continuous_region. Qed.
Print Assumptions C63_region.
Theorem C63_hybrid_region : forall solve, solver_ok solve -> forall meth, forall N h x_lo x_up xeq axb, hybrid_args N h x_lo x_up xeq axb ->
  forall lam eps et R0 upper d v eps1 mp xp vp mb xb rho, 0 <= eps -> 0 <= eps1 ->
  positivity_milp solve meth N (h_nx h) x_lo x_up xeq lam eps1 None = Some (mp, xp) ->
  solve mp = GOptimal vp -> vp <= 0 ->
  hybrid_derivative solve axb meth N h x_lo x_up xeq lam eps et R0 None upper d ->
  solve (hd_mip d) = GOptimal v -> v <= 0 ->
  roa_boundary_milp solve meth N (h_nx h) x_lo x_up xeq lam None = Some (mb, xb) -> solve mb = GOptimal rho ->
  forall b x, motion (h_nx h) x_lo x_up (fun y w => exists k, moves h k y w) b x -> in_box x_lo x_up (x 0) ->
  V N (eye (h_nx h)) lam xeq (x 0) < rho ->
  (forall u, upper = Some u -> V N (eye (h_nx h)) lam xeq (x 0) < u) ->
  forall t, 0 <= t <= b -> in_box x_lo x_up (x t) /\
    eps1 * error1 (eye (h_nx h)) xeq (x t) <= V N (eye (h_nx h)) lam xeq (x t)
    <= exp (- eps * t) * V N (eye (h_nx h)) lam xeq (x 0).
Proof. exact hybrid_region. Qed.
Print Assumptions C63_hybrid_region.

(** V = 3/2 |x| on [-1, 1] has the value 3/2 at the boundary; with the cases of C55 a
    solution that starts below. *)
Example C63_case : exists m xv,
  roa_boundary_milp ideal_solve IA net_abs 1 [-1] [1] [0] (1/2) None = Some (m, xv) /\
  ideal_solve m = GOptimal (3/2).
Proof. exact boundary_case. Qed.
Example C63_motion_case : forall b, motion 1 [-1] [1] Tf b (fun t => flow_ex (t + 1)) /\
  V net_abs (R_of 1 None) (1/2) [0] (flow_ex (0 + 1)) < 3/2.
Proof. exact motion_below. Qed.
