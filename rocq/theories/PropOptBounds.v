(** The bounds of the derivative program found by optimisation (C68). *)

Require Import Reals List.
Require Import Verif.Vec Verif.ModelMip Verif.SpecMip Verif.SpecCore Verif.ModelNet Verif.SpecNet
  Verif.SpecStep Verif.ModelPattern Verif.SpecPattern Verif.ModelLyapunov Verif.SpecLyapunov
  Verif.ModelSystems Verif.SpecSystems Verif.ModelContinuous Verif.SpecContinuous
  Verif.ModelContSys Verif.SpecContSys Verif.ModelOptBounds Verif.SpecOptBounds
  Verif.ModelExamples Verif.ModelContExamples Verif.ModelContSysEx Verif.ModelOptBoundsEx
  Verif.ProofExamples Verif.ProofContExamples Verif.ProofContSys3
  Verif.ProofOptBounds2 Verif.ProofOptBounds3 Verif.ProofOptBounds4 Verif.ProofOptBounds5 Verif.ProofOptBounds6.
Import ListNotations.
Open Scope R_scope.

(** C68.  With the LP or the MIP method the bounds hold at every state of the box,
    velocity there and consistent activation pattern that the encoding of the
    network allows. *)
Theorem C68_sound : forall solve, solver_ok solve ->
  forall meth N n x_lo x_up, net_wf n N -> length x_lo = n -> length x_up = n ->
  forall M p T, covers n p x_lo x_up T ->
  forall B r, optimisation_bounds solve meth N x_lo x_up (Some p) M = Some (B, r) ->
  product_bounds_ok x_lo x_up N M T (encodable solve meth N x_lo x_up) B r.
Proof. exact optimisation_ok. Qed.
Print Assumptions C68_sound.

(** With the MIP method each bound is attained, when the separate program has no
    points besides the motions of the system. *)
Theorem C68_tight : forall solve, solver_ok solve ->
  forall N n x_lo x_up, net_wf n N -> length x_lo = n -> length x_up = n -> no_slope_one (hidden N) ->
  forall M p T, covers n p x_lo x_up T -> no_more p x_lo x_up T ->
  forall B r, optimisation_bounds solve MIP N x_lo x_up (Some p) M = Some (B, r) ->
  (forall i j, (i < length (hidden N))%nat -> (j < nth i (widths_of (hidden N)) 0)%nat ->
     (exists x d pats, in_box x_lo x_up x /\ T x d /\ consistent pats (pre_acts (hidden N) x) /\
        nth j (nth i (pre_tangents (hidden N) pats d) []) 0 = nth j (nth i (w_lo B) []) 0) /\
     (exists x d pats, in_box x_lo x_up x /\ T x d /\ consistent pats (pre_acts (hidden N) x) /\
        nth j (nth i (pre_tangents (hidden N) pats d) []) 0 = nth j (nth i (w_up B) []) 0)) /\
  (forall j, (j < length M)%nat ->
     (exists x d, in_box x_lo x_up x /\ T x d /\ nth j (mv M d) 0 = nth j (fst r) 0) /\
     (exists x d, in_box x_lo x_up x /\ T x d /\ nth j (mv M d) 0 = nth j (snd r) 0)).
Proof. exact optimisation_tight. Qed.
Print Assumptions C68_tight.

(** The bounds are always found: no solve in the sequence ends without an optimum. *)
Theorem C68_found : forall solve, solver_ok solve -> solver_total solve ->
  forall meth N n x_lo x_up, net_wf n N -> length x_lo = n -> length x_up = n ->
  forall M p T, covers n p x_lo x_up T -> bounded_velocity p ->
  (exists x d, in_box x_lo x_up x /\ T x d) ->
  (exists c B out, output_constraint solve meth N x_lo x_up = Some (c, B, out)) ->
  exists B r, optimisation_bounds solve meth N x_lo x_up (Some p) M = Some (B, r).
Proof. exact optimisation_total. Qed.
Print Assumptions C68_found.

(** The separate program of an autonomous system, *)
Theorem C68_autonomous_program : forall solve, solver_ok solve -> forall n A p, auto_built n A ->
  auto_bound_prog solve A = Some p ->
  covers n p (au_lo A) (au_up A) (auto_next A) /\ bounded_velocity p /\
  (au_meth A = MIP \/ au_meth A = IA_MIP -> no_more p (au_lo A) (au_up A) (auto_next A)).
Proof. exact auto_prog_facts. Qed.
Print Assumptions C68_autonomous_program.
Theorem C68_autonomous_program_total : forall solve, solver_ok solve -> solver_total solve ->
  forall n A, auto_built n A -> au_meth A <> IA -> exists p, auto_bound_prog solve A = Some p.
Proof. exact auto_bound_prog_total. Qed.
Print Assumptions C68_autonomous_program_total.
(** and of a continuous-time plant closed with a controller. *)
Theorem C68_loop_program : forall solve, solver_ok solve -> forall S F, cp_built S ->
  fb_fwd F = cp_fwd solve S -> feedback_built F -> vle (cp_xlo S) (cp_xup S) ->
  forall p, loop_bound_prog solve S F = Some p ->
  covers (cp_nx (cp_kind_ S)) p (cp_xlo S) (cp_xup S) (fb_next F (cp_moves S)) /\ bounded_velocity p /\
  ((cp_meth S = MIP \/ cp_meth S = IA_MIP) -> (fb_meth F = MIP \/ fb_meth F = IA_MIP) ->
   no_more p (cp_xlo S) (cp_xup S) (fb_next F (cp_moves S))).
Proof. exact loop_prog_facts. Qed.
Print Assumptions C68_loop_program.
Theorem C68_loop_program_total : forall solve, solver_ok solve -> forall S F, cp_built S ->
  fb_fwd F = cp_fwd solve S -> feedback_built F -> vle (cp_xlo S) (cp_xup S) ->
  solver_total solve -> cp_meth S <> IA -> exists p, loop_bound_prog solve S F = Some p.
Proof. exact loop_bound_prog_total. Qed.
Print Assumptions C68_loop_program_total.

(** So the derivative program is built with either method, *)
Theorem C68_autonomous_built : forall solve, solver_ok solve -> solver_total solve ->
  forall n A, auto_built n A -> au_meth A <> IA ->
  forall N R0 xeq, lyap_args n N (au_lo A) (au_up A) R0 xeq -> no_slope_one (hidden N) ->
  forall meth, meth = LP \/ meth = MIP -> forall lam eps lower upper,
  exists d, continuous_milp solve meth N n (au_lo A) (au_up A) (auto_flow solve A)
    (optimisation_bounds solve meth N (au_lo A) (au_up A) (auto_bound_prog solve A))
    xeq lam eps ExpLower R0 lower upper = Some d.
Proof. exact auto_program_built. Qed.
Print Assumptions C68_autonomous_built.
Theorem C68_loop_built : forall solve, solver_ok solve -> solver_total solve -> forall S F, cp_built S ->
  fb_fwd F = cp_fwd solve S -> feedback_built F -> vle (cp_xlo S) (cp_xup S) -> cp_meth S <> IA ->
  forall N R0 xeq, lyap_args (cp_nx (cp_kind_ S)) N (cp_xlo S) (cp_xup S) R0 xeq ->
  no_slope_one (hidden N) ->
  forall meth, meth = LP \/ meth = MIP -> forall lam eps lower upper,
  exists d, continuous_milp solve meth N (cp_nx (cp_kind_ S)) (cp_xlo S) (cp_xup S)
    (cp_loop_add solve S F)
    (optimisation_bounds solve meth N (cp_xlo S) (cp_xup S) (loop_bound_prog solve S F))
    xeq lam eps ExpLower R0 lower upper = Some d.
Proof. exact loop_program_built. Qed.
Print Assumptions C68_loop_built.

(** and two solver answers give exponential decrease along every solution of the
    simulated system that stays in the box, whatever the method. *)
Theorem C68_autonomous_certified : forall solve, solver_ok solve -> forall n A, auto_built n A ->
  forall N R0 xeq, lyap_args n N (au_lo A) (au_up A) R0 xeq -> no_slope_one (hidden N) ->
  forall meth lam eps et d v eps1 mp xp vp,
  positivity_milp solve meth N n (au_lo A) (au_up A) xeq lam eps1 R0 = Some (mp, xp) ->
  solve mp = GOptimal vp -> vp <= 0 ->
  continuous_milp solve meth N n (au_lo A) (au_up A) (auto_flow solve A)
    (optimisation_bounds solve meth N (au_lo A) (au_up A) (auto_bound_prog solve A))
    xeq lam eps et R0 None None = Some d ->
  solve (cd_mip d) = GOptimal v -> v <= 0 ->
  forall b x, flow (au_lo A) (au_up A) (fun y w => w = auto_step A y) b x ->
  forall t, 0 <= t <= b ->
    eps1 * error1 (R_of n R0) xeq (x t) <= V N (R_of n R0) lam xeq (x t) /\
    V N (R_of n R0) lam xeq (x t) <= exp (- eps * t) * V N (R_of n R0) lam xeq (x 0).
Proof. exact auto_certified. Qed.
Print Assumptions C68_autonomous_certified.
Theorem C68_loop_certified : forall solve, solver_ok solve -> forall S F, cp_built S ->
  fb_fwd F = cp_fwd solve S -> feedback_built F -> vle (cp_xlo S) (cp_xup S) ->
  forall N R0 xeq, lyap_args (cp_nx (cp_kind_ S)) N (cp_xlo S) (cp_xup S) R0 xeq ->
  no_slope_one (hidden N) ->
  forall meth lam eps et d v eps1 mp xp vp,
  positivity_milp solve meth N (cp_nx (cp_kind_ S)) (cp_xlo S) (cp_xup S) xeq lam eps1 R0
    = Some (mp, xp) ->
  solve mp = GOptimal vp -> vp <= 0 ->
  continuous_milp solve meth N (cp_nx (cp_kind_ S)) (cp_xlo S) (cp_xup S) (cp_loop_add solve S F)
    (optimisation_bounds solve meth N (cp_xlo S) (cp_xup S) (loop_bound_prog solve S F))
    xeq lam eps et R0 None None = Some d ->
  solve (cd_mip d) = GOptimal v -> v <= 0 ->
  forall b x, flow (cp_xlo S) (cp_xup S) (fun y w => fb_step F y = Some w) b x ->
  forall t, 0 <= t <= b ->
    eps1 * error1 (R_of (cp_nx (cp_kind_ S)) R0) xeq (x t)
      <= V N (R_of (cp_nx (cp_kind_ S)) R0) lam xeq (x t) /\
    V N (R_of (cp_nx (cp_kind_ S)) R0) lam xeq (x t)
      <= exp (- eps * t) * V N (R_of (cp_nx (cp_kind_ S)) R0) lam xeq (x 0).
Proof. exact loop_certified. Qed.
Print Assumptions C68_loop_certified.

(** xdot = - x or - 2 x with the LP method and V = 3/2 |x|; the pendulum of C66 with
    the MIP method.  All four optima are 0. *)
Example C68_autonomous_case : auto_built 1 decay_ex /\ au_meth decay_ex = LP /\
  lyap_args 1 net_abs (au_lo decay_ex) (au_up decay_ex) None [0] /\ no_slope_one (hidden net_abs).
Proof. exact (conj decay_built (conj eq_refl (conj abs_args abs_ns))). Qed.
Example C68_autonomous_positivity_case : exists m xv,
  positivity_milp ideal_solve LP net_abs 1 [-1] [1] [0] (1/2) (1/2) None = Some (m, xv) /\
  ideal_solve m = GOptimal 0.
Proof. exact decay_positive_case. Qed.
Example C68_autonomous_decrease_case : exists d,
  continuous_milp ideal_solve LP net_abs 1 [-1] [1] (auto_flow ideal_solve decay_ex)
    (optimisation_bounds ideal_solve LP net_abs [-1] [1] (auto_bound_prog ideal_solve decay_ex))
    [0] (1/2) 1 ExpLower None None None = Some d /\
  ideal_solve (cd_mip d) = GOptimal 0.
Proof. exact decay_decrease_case. Qed.
Example C68_autonomous_flow_case : forall b,
  flow [-1] [1] (fun y w => w = auto_step decay_ex y) b flow_ex.
Proof. exact decay_flow. Qed.
Example C68_loop_case : cp_built pend_mip /\ (forall solve, feedback_built (pend_mip_loop solve)) /\
  (forall solve, fb_fwd (pend_mip_loop solve) = cp_fwd solve pend_mip) /\
  vle (cp_xlo pend_mip) (cp_xup pend_mip) /\
  lyap_args 2 net_const2 [PI - 1; -1] [PI + 1; 1] (Some pend_R) [PI; 0] /\
  no_slope_one (hidden net_const2) /\ solver_ok ideal_solve /\ solver_total ideal_solve.
Proof.
  exact (conj pend_mip_built (conj pend_mip_loop_built (conj (fun _ => eq_refl) (conj pend_box
    (conj pend_args (conj const2_ns (conj ideal_ok ideal_total))))))).
Qed.
Example C68_loop_positivity_case : exists m xv,
  positivity_milp ideal_solve MIP net_const2 2 [PI - 1; -1] [PI + 1; 1] [PI; 0] 1 (1/2) (Some pend_R)
    = Some (m, xv) /\ ideal_solve m = GOptimal 0.
Proof. exact pend_mip_positive_case. Qed.
Example C68_loop_decrease_case : exists d,
  continuous_milp ideal_solve MIP net_const2 2 [PI - 1; -1] [PI + 1; 1]
    (cp_loop_add ideal_solve pend_mip (pend_mip_loop ideal_solve))
    (optimisation_bounds ideal_solve MIP net_const2 [PI - 1; -1] [PI + 1; 1]
       (loop_bound_prog ideal_solve pend_mip (pend_mip_loop ideal_solve)))
    [PI; 0] 1 1 ExpLower (Some pend_R) None None = Some d /\
  ideal_solve (cd_mip d) = GOptimal 0.
Proof. exact pend_mip_decrease_case. Qed.
Example C68_loop_flow_case : forall solve b,
  flow [PI - 1; -1] [PI + 1; 1] (fun y w => fb_step (pend_mip_loop solve) y = Some w) b pend_path.
Proof. exact pend_mip_flow. Qed.
