(** Continuous-time plants with a learned acceleration (C66). *)

Require Import Reals List.
Require Import Verif.Vec Verif.ModelMip Verif.SpecMip Verif.SpecCore Verif.ModelNet Verif.SpecNet
  Verif.SpecStep Verif.ModelPattern Verif.SpecPattern Verif.ModelLyapunov Verif.SpecLyapunov
  Verif.ModelSystems Verif.SpecSystems Verif.ModelContinuous Verif.SpecContinuous
  Verif.ModelExamples Verif.ModelContExamples
  Verif.ModelContSys Verif.SpecContSys Verif.ModelContSysEx
  Verif.ProofExamples Verif.ProofContSys2 Verif.ProofContSys3.
Import ListNotations.
Open Scope R_scope.

(** C66.  A point of the program extends to the new variables exactly when the state
    is in the box, the input within the bounds in force, and the velocity that of
    step_forward. *)
Theorem C66_exact : forall solve, solver_ok solve ->
  forall S st vt m m' xv xn uv alo aup r bnd, cp_built S -> vt <> VCont -> history st m ->
  below (nvars m) xv -> below (nvars m) xn -> below (nvars m) uv ->
  length xv = cp_nx (cp_kind_ S) -> length xn = cp_nx (cp_kind_ S) -> length uv = cp_nu (cp_kind_ S) ->
  (forall a, alo = Some a -> length a = cp_nu (cp_kind_ S)) ->
  (forall a, aup = Some a -> length a = cp_nu (cp_kind_ S)) ->
  cp_add_ret solve S xv xn uv alo aup vt m = Some (m', r, bnd) ->
  (forall sg, feas vt m' sg -> feas vt m sg) /\
  forall sg, feas vt m sg ->
    ((exists sg', feas vt m' sg' /\ agree m sg sg') <->
     in_box (cp_xlo S) (cp_xup S) (map sg xv) /\
     in_box (given (cp_ulo S) alo) (given (cp_uup S) aup) (map sg uv) /\
     cp_step S (map sg xv) (map sg uv) = Some (map sg xn)).
Proof. exact cp_exact. Qed.
Print Assumptions C66_exact.
(** The returned velocity bounds hold at every state and input of the boxes. *)
Theorem C66_bounds : forall solve, solver_ok solve ->
  forall S vt m m' xv xn uv alo aup r lo up, cp_built S ->
  (forall a, alo = Some a -> length a = cp_nu (cp_kind_ S)) ->
  (forall a, aup = Some a -> length a = cp_nu (cp_kind_ S)) ->
  cp_add_ret solve S xv xn uv alo aup vt m = Some (m', r, Some (lo, up)) ->
  forall x u d, in_box (cp_xlo S) (cp_xup S) x ->
  in_box (given (cp_ulo S) alo) (given (cp_uup S) aup) u ->
  cp_step S x u = Some d -> in_box lo up d.
Proof. exact cp_add_bounds. Qed.
Print Assumptions C66_bounds.
(** The constraints can be built whenever the boxes are not empty. *)
Theorem C66_total : forall solve, solver_ok solve -> solver_total solve ->
  forall S vt m xv xn uv alo aup, cp_built S ->
  (forall a, alo = Some a -> length a = cp_nu (cp_kind_ S)) ->
  (forall a, aup = Some a -> length a = cp_nu (cp_kind_ S)) ->
  vle (cp_xlo S) (cp_xup S) -> vle (given (cp_ulo S) alo) (given (cp_uup S) aup) ->
  cp_add_ret solve S xv xn uv alo aup vt m <> None.
Proof. exact cp_add_total. Qed.
Print Assumptions C66_total.
(** The declared equilibrium is at rest. *)
Theorem C66_equilibrium : forall S, cp_built S ->
  cp_step S (cp_xeq (cp_kind_ S)) (cp_ueq (cp_kind_ S)) = Some (zeros (cp_nx (cp_kind_ S))).
Proof. exact cp_equilibrium. Qed.
Print Assumptions C66_equilibrium.
(** Closed loop with a network or linear controller. *)
Theorem C66_loop : forall solve, solver_ok solve ->
  forall S F st vt m m' xv xn b, cp_built S -> fb_fwd F = cp_fwd solve S -> feedback_built F ->
  vle (cp_xlo S) (cp_xup S) -> vt <> VCont -> history st m ->
  below (nvars m) xv -> below (nvars m) xn ->
  length xv = cp_nx (cp_kind_ S) -> length xn = cp_nx (cp_kind_ S) -> NoDup (xv ++ xn) ->
  cp_loop_add solve S F xv xn vt m = Some (m', b) ->
  (forall sg, feas vt m' sg -> feas vt m sg) /\
  forall sg, feas vt m sg ->
    ((exists sg', feas vt m' sg' /\ agree m sg sg') <->
     in_box (cp_xlo S) (cp_xup S) (map sg xv) /\ fb_step F (map sg xv) = Some (map sg xn)).
Proof. exact cp_loop_exact. Qed.
Print Assumptions C66_loop.
Theorem C66_loop_total : forall solve, solver_ok solve -> solver_total solve ->
  forall S F st vt m xv xn, cp_built S -> fb_fwd F = cp_fwd solve S -> feedback_built F ->
  vle (cp_xlo S) (cp_xup S) -> vt <> VCont -> history st m ->
  below (nvars m) xv -> below (nvars m) xn ->
  length xv = cp_nx (cp_kind_ S) -> length xn = cp_nx (cp_kind_ S) -> NoDup (xv ++ xn) ->
  exists m' b, cp_loop_add solve S F xv xn vt m = Some (m', b) /\
    (cp_meth S = IA -> exists lo up, b = Some (lo, up)).
Proof. exact cp_loop_total. Qed.
Print Assumptions C66_loop_total.
(** So it fits the contract of the continuous-time programs (C55), *)
Theorem C66_contract : forall solve, solver_ok solve ->
  forall S F st, cp_built S -> fb_fwd F = cp_fwd solve S -> feedback_built F ->
  vle (cp_xlo S) (cp_xup S) ->
  flow_contract (cp_nx (cp_kind_ S)) st (cp_loop_add solve S F) (cp_xlo S) (cp_xup S)
    (fb_next F (cp_moves S)).
Proof. exact cp_flow_contract. Qed.
Print Assumptions C66_contract.
(** and two solver answers give exponential decrease along every solution of the
    simulated closed loop that stays in the box. *)
Theorem C66_certified : forall solve, solver_ok solve -> forall S F, cp_built S ->
  fb_fwd F = cp_fwd solve S -> feedback_built F -> vle (cp_xlo S) (cp_xup S) ->
  forall N R0 xeq, lyap_args (cp_nx (cp_kind_ S)) N (cp_xlo S) (cp_xup S) R0 xeq ->
  no_slope_one (hidden N) ->
  forall lam eps opt_bounds et d v eps1 mp xp vp,
  positivity_milp solve IA N (cp_nx (cp_kind_ S)) (cp_xlo S) (cp_xup S) xeq lam eps1 R0
    = Some (mp, xp) ->
  solve mp = GOptimal vp -> vp <= 0 ->
  continuous_milp solve IA N (cp_nx (cp_kind_ S)) (cp_xlo S) (cp_xup S) (cp_loop_add solve S F)
    opt_bounds xeq lam eps et R0 None None = Some d ->
  solve (cd_mip d) = GOptimal v -> v <= 0 ->
  forall b x, flow (cp_xlo S) (cp_xup S) (fun y w => fb_step F y = Some w) b x ->
  forall t, 0 <= t <= b ->
    eps1 * error1 (R_of (cp_nx (cp_kind_ S)) R0) xeq (x t)
      <= V N (R_of (cp_nx (cp_kind_ S)) R0) lam xeq (x t) /\
    V N (R_of (cp_nx (cp_kind_ S)) R0) lam xeq (x t)
      <= exp (- eps * t) * V N (R_of (cp_nx (cp_kind_ S)) R0) lam xeq (x 0).
Proof. exact cp_certified. Qed.
Print Assumptions C66_certified.
(** The input limits given to the plant are not kept once bounds come from outside:
    in a closed loop the controller's bounds replace them. *)
Theorem C66_limits_refuted : forall solve, solver_ok solve -> solver_total solve ->
  exists m xv xn m' b s u,
    cp_loop_add solve pend_ex (pend_loop solve) xv xn VBin m = Some (m', b) /\ gfeas m' s /\
    cp_step pend_ex (map s xv) u = Some (map s xn) /\
    compute_u (pend_loop solve) (map s xv) = Some u /\
    ~ in_box (cp_ulo pend_ex) (cp_uup pend_ex) u.
Proof. exact pend_limits_missing. Qed.
Print Assumptions C66_limits_refuted.

(** A pendulum closed with u = - (theta - pi) - w, certified with V = |2 e1 + e2| + |e1 + e2|; both
    optima are 0, and a solution from a state other than the equilibrium. *)
Example C66_plant_case : cp_built pend_ex /\ cp_built quad_ex /\
  vle (cp_xlo pend_ex) (cp_xup pend_ex) /\ vle (cp_xlo quad_ex) (cp_xup quad_ex) /\
  solver_ok ideal_solve /\ solver_total ideal_solve.
Proof.
  exact (conj pend_ex_built (conj quad_ex_built (conj pend_box (conj quad_box (conj ideal_ok ideal_total))))).
Qed.
Example C66_loop_case : (forall solve, feedback_built (pend_loop solve)) /\
  (forall solve, feedback_built (quad_loop solve)) /\
  (forall solve th w, fb_step (pend_loop solve) [th; w] = Some [w; -2 * (th - PI) - 3 * w]).
Proof. exact (conj pend_loop_built (conj quad_loop_built pend_loop_step)). Qed.
Example C66_args_case : lyap_args 2 net_const2 [PI - 1; -1] [PI + 1; 1] (Some pend_R) [PI; 0] /\
  no_slope_one (hidden net_const2).
Proof. exact (conj pend_args const2_ns). Qed.
Example C66_positivity_case : exists m xv,
  positivity_milp ideal_solve IA net_const2 2 [PI - 1; -1] [PI + 1; 1] [PI; 0] 1 (1/2) (Some pend_R)
    = Some (m, xv) /\ ideal_solve m = GOptimal 0.
Proof. exact pend_positive_case. Qed.
Example C66_decrease_case : exists d,
  continuous_milp ideal_solve IA net_const2 2 [PI - 1; -1] [PI + 1; 1]
    (cp_loop_add ideal_solve pend_ex (pend_loop ideal_solve)) no_opt [PI; 0] 1 1 ExpLower
    (Some pend_R) None None = Some d /\
  ideal_solve (cd_mip d) = GOptimal 0.
Proof. exact pend_decrease_case. Qed.
Example C66_flow_case : forall solve b,
  flow [PI - 1; -1] [PI + 1; 1] (fun y w => fb_step (pend_loop solve) y = Some w) b pend_path.
Proof. exact pend_path_flow. Qed.
