(** C55: the derivative programs of continuous-time hybrid linear systems
    (LyapunovContinuousTimeHybridSystem). *)

Require Import Reals List Lra.
Require Import Verif.Vec Verif.ModelMip Verif.SpecMip Verif.SpecCore Verif.ModelUtils Verif.ModelNet Verif.SpecNet
  Verif.SpecStep Verif.ModelPattern Verif.SpecPattern Verif.ModelLyapunov Verif.SpecLyapunov
  Verif.ModelHybrid Verif.SpecHybrid Verif.ModelContinuous Verif.SpecContinuous
  Verif.ModelContHybrid Verif.SpecContHybrid Verif.ModelExamples Verif.ModelContExamples
  Verif.ProofContHybrid6 Verif.ProofContHybrid7 Verif.ProofContHybrid8.
Import ListNotations.
Open Scope R_scope.

(** Both programs: the feasible points are the states, modes and selected gradients of V; the objective is
    dV/dt + eps V.  Only the exponential-lower type of epsilon is accepted. *)
Theorem C55_hybrid_program : forall solve, solver_ok solve ->
  forall meth N h x_lo x_up xeq axb, hybrid_args N h x_lo x_up xeq axb ->
  forall lam eps et R0 lower upper d,
  hybrid_derivative solve axb meth N h x_lo x_up xeq lam eps et R0 lower upper d ->
  et = ExpLower /\ derivative_program_exact N h x_lo x_up xeq lam eps lower upper d.
Proof. exact hybrid_exact. Qed.
Print Assumptions C55_hybrid_program.

(** The two programs describe the same states, modes, gradients and values, so they have the same optimum. *)
Theorem C55_hybrid_programs_agree : forall solve, solver_ok solve ->
  forall meth N h x_lo x_up xeq axb, hybrid_args N h x_lo x_up xeq axb ->
  forall lam eps et1 et2 R1 R2 lower upper d1 d2,
  hybrid_derivative solve axb meth N h x_lo x_up xeq lam eps et1 R1 lower upper d1 ->
  hybrid_derivative solve axb meth N h x_lo x_up xeq lam eps et2 R2 lower upper d2 ->
  same_points d1 d2.
Proof. exact hybrid_agree. Qed.
Print Assumptions C55_hybrid_programs_agree.
Theorem C55_hybrid_same_optimum : forall solve, solver_ok solve ->
  forall meth N h x_lo x_up xeq axb, hybrid_args N h x_lo x_up xeq axb ->
  forall lam eps et1 et2 R1 R2 lower upper d1 d2 v1 v2,
  hybrid_derivative solve axb meth N h x_lo x_up xeq lam eps et1 R1 lower upper d1 ->
  hybrid_derivative solve axb meth N h x_lo x_up xeq lam eps et2 R2 lower upper d2 ->
  solve (hd_mip d1) = GOptimal v1 -> solve (hd_mip d2) = GOptimal v2 -> v1 = v2.
Proof. exact hybrid_same_optimum. Qed.
Print Assumptions C55_hybrid_same_optimum.

(** An optimum of at most zero gives the decrease condition; the optimum is attained at a state; an infeasible
    program means that no state is within the bounds on V. *)
Theorem C55_hybrid_verdict : forall solve, solver_ok solve ->
  forall meth N h x_lo x_up xeq axb, hybrid_args N h x_lo x_up xeq axb ->
  forall lam eps et R0 lower upper d,
  hybrid_derivative solve axb meth N h x_lo x_up xeq lam eps et R0 lower upper d ->
  (forall v, solve (hd_mip d) = GOptimal v -> v <= 0 ->
     forall x k w pats sgs, length x = h_nx h -> moves h k x w ->
       within lower upper (V N (eye (h_nx h)) lam xeq x) -> selects N (eye (h_nx h)) xeq x pats sgs ->
       selection_attained x_lo x_up N (eye (h_nx h)) xeq pats sgs ->
       Vdot N (eye (h_nx h)) lam pats sgs w + eps * V N (eye (h_nx h)) lam xeq x <= 0) /\
  (forall v, solve (hd_mip d) = GOptimal v ->
     exists x k w pats sgs, length x = h_nx h /\ moves h k x w /\
       within lower upper (V N (eye (h_nx h)) lam xeq x) /\ selects N (eye (h_nx h)) xeq x pats sgs /\
       v = Vdot N (eye (h_nx h)) lam pats sgs w + eps * V N (eye (h_nx h)) lam xeq x) /\
  (solve (hd_mip d) = GInfeasible ->
     forall x k w, length x = h_nx h -> moves h k x w ->
       ~ within lower upper (V N (eye (h_nx h)) lam xeq x)).
Proof. exact hybrid_verdict. Qed.
Print Assumptions C55_hybrid_verdict.

(** With an optimum of at most zero, V decays along every solution of the hybrid system. *)
Theorem C55_hybrid_decay : forall solve, solver_ok solve ->
  forall meth N h x_lo x_up xeq axb, hybrid_args N h x_lo x_up xeq axb ->
  forall lam eps et R0 lower upper d v,
  hybrid_derivative solve axb meth N h x_lo x_up xeq lam eps et R0 lower upper d ->
  solve (hd_mip d) = GOptimal v -> v <= 0 ->
  forall b x, flow x_lo x_up (fun y w => exists k, moves h k y w) b x ->
    (forall t, 0 <= t < b -> within lower upper (V N (eye (h_nx h)) lam xeq (x t))) ->
    forall t, 0 <= t <= b ->
      V N (eye (h_nx h)) lam xeq (x t) <= exp (- eps * t) * V N (eye (h_nx h)) lam xeq (x 0).
Proof. exact hybrid_decay. Qed.
Print Assumptions C55_hybrid_decay.

(** Together with the positivity program: exponential convergence to the equilibrium. *)
Theorem C55_hybrid_certified : forall solve, solver_ok solve ->
  forall meth N h x_lo x_up xeq axb, hybrid_args N h x_lo x_up xeq axb ->
  forall lam eps et R0 d v eps1 mp xp vp,
  positivity_milp solve meth N (h_nx h) x_lo x_up xeq lam eps1 None = Some (mp, xp) ->
  solve mp = GOptimal vp -> vp <= 0 ->
  hybrid_derivative solve axb meth N h x_lo x_up xeq lam eps et R0 None None d ->
  solve (hd_mip d) = GOptimal v -> v <= 0 ->
  forall b x, flow x_lo x_up (fun y w => exists k, moves h k y w) b x ->
    forall t, 0 <= t <= b ->
      eps1 * error1 (eye (h_nx h)) xeq (x t) <= V N (eye (h_nx h)) lam xeq (x t)
      <= exp (- eps * t) * V N (eye (h_nx h)) lam xeq (x 0).
Proof. exact hybrid_certified. Qed.
Print Assumptions C55_hybrid_certified.

(** Both programs are always built, for a system of bounded modes of which one is not empty. *)
Theorem C55_hybrid_built : forall solve, solver_ok solve ->
  forall meth N h x_lo x_up xeq axb, hybrid_args N h x_lo x_up xeq axb ->
  forall lam eps lower upper, finite_modes h -> finite_rows axb h -> slopes_nonneg (hidden N) ->
  (exists k x v, length x = h_nx h /\ moves h k x v) ->
  (exists c B out, output_constraint solve meth N x_lo x_up = Some (c, B, out)) ->
  forall R0, R_identity (h_nx h) R0 = true ->
  exists d, hybrid_ct_milp solve axb meth N h x_lo x_up xeq lam eps ExpLower R0 lower upper = Some d.
Proof. exact program1_total. Qed.
Print Assumptions C55_hybrid_built.
Theorem C55_hybrid_built2 : forall solve, solver_ok solve ->
  forall meth N h x_lo x_up xeq axb, hybrid_args N h x_lo x_up xeq axb ->
  forall lam eps lower upper, finite_modes h -> finite_rows axb h -> slopes_nonneg (hidden N) ->
  (exists k x v, length x = h_nx h /\ moves h k x v) ->
  (exists c B out, output_constraint solve meth N x_lo x_up = Some (c, B, out)) ->
  forall R0, R_identity (h_nx h) R0 = true ->
  exists d, hybrid_ct_milp2 solve axb meth N h x_lo x_up xeq lam eps ExpLower R0 lower upper = Some d.
Proof. exact program2_total. Qed.
Print Assumptions C55_hybrid_built2.

(** The hypotheses are met by xdot = - x on [-1, 0], - 2 x on [0, 1] and V = 3/2 |x|; both optima are 0. *)
Example C55_hybrid_args_case : hybrid_args net_abs sysf [-1] [1] [0] line_bounds.
Proof. exact sysf_args. Qed.
Example C55_hybrid_rows_case : finite_modes sysf /\ finite_rows line_bounds sysf /\ moves sysf 0 [0] [- 0].
Proof. exact (conj ProofContExamples.sysf_finite (conj sysf_rows sysf_move)). Qed.
Example C55_hybrid_program_case : exists d,
  hybrid_ct_milp ideal_solve line_bounds IA net_abs sysf [-1] [1] [0] (1/2) 1 ExpLower None None None = Some d /\
  ideal_solve (hd_mip d) = GOptimal 0.
Proof. exact hybrid_case1. Qed.
Example C55_hybrid_program2_case : exists d,
  hybrid_ct_milp2 ideal_solve line_bounds IA net_abs sysf [-1] [1] [0] (1/2) 1 ExpLower None None None = Some d /\
  ideal_solve (hd_mip d) = GOptimal 0.
Proof. exact hybrid_case2. Qed.
Example C55_hybrid_flow_case : forall b, flow [-1] [1] (fun y w => exists k, moves sysf k y w) b flow_ex.
Proof. exact hybrid_flow_case. Qed.

(** On the boundary of the box some generalised gradients are missing here as well. *)
Theorem C55_hybrid_boundary_refuted : forall solve, solver_ok solve -> exists d1 d2,
  hybrid_ct_milp solve line_bounds IA net_flat sysd [0] [1] [0] 1 1 ExpLower None None None = Some d1 /\
  hybrid_ct_milp2 solve line_bounds IA net_flat sysd [0] [1] [0] 1 1 ExpLower None None None = Some d2 /\
  (forall sg, gfeas (hd_mip d1) sg -> objective (hd_mip d1) sg <= 0) /\
  (forall sg, gfeas (hd_mip d2) sg -> objective (hd_mip d2) sg <= 0) /\
  exists x k w pats sgs, moves sysd k x w /\
    selects net_flat (eye 1) [0] x pats sgs /\
    0 < Vdot net_flat (eye 1) 1 pats sgs w + 1 * V net_flat (eye 1) 1 [0] x.
Proof. exact hybrid_boundary_missing. Qed.
Print Assumptions C55_hybrid_boundary_refuted.
