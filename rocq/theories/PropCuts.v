(** Strengthening the decrease program of a closed loop (C29). *)

Require Import Reals List Lra Lia.
Require Import Verif.Vec Verif.ModelMip Verif.SpecMip Verif.SpecCore Verif.ModelNet Verif.SpecNet
  Verif.SpecUtils Verif.ModelLyapunov Verif.SpecLyapunov Verif.ModelHybrid Verif.SpecHybrid
  Verif.ModelSystems Verif.SpecSystems Verif.ModelFeedbackCuts Verif.SpecFeedbackCuts
  Verif.ModelStrengthen Verif.SpecStrengthen
  Verif.ModelExamples Verif.ModelExamples2 Verif.ProofExamples Verif.ProofDynamics
  Verif.ProofFeedbackCuts Verif.ProofCutsTotal Verif.ProofExamples2.
Import ListNotations.
Open Scope R_scope.

(** C29.  Any number of rounds of cuts of the Lyapunov network, the forward
    network and the controller network, with any relaxed solutions, leave the
    decrease program of the closed loop exact. *)
Theorem C29_relu_loop_rounds : forall solve, solver_ok solve -> forall C F, ctl_built C ->
  fb_fwd F = ctl_fwd solve C -> feedback_built F ->
  (is_net (fb_ctl F) \/ match ct_kind C with CResidue _ _ _ _ => False | _ => True end) ->
  controller_slopes (fb_ctl F) -> no_slope_one (hidden (ct_net C)) ->
  forall meth N x_lo x_up R0 xeq, lyap_args (ct_nx C) N x_lo x_up R0 xeq ->
  no_slope_one (hidden N) -> forall lam eps et lower upper lp num d,
  strengthen_derivative solve meth N (ct_nx C) x_lo x_up (fb_add solve F) lp
    (fb_sys_cuts solve (Some (ct_net C)) F) xeq lam eps et R0 lower upper num = Some d ->
  obj_max (d_mip d) = true /\
  (forall sg, gfeas (d_mip d) sg ->
     in_box x_lo x_up (map sg (d_x d)) /\ in_box x_lo x_up (map sg (d_next d)) /\
     fb_next F (ctl_next C) (map sg (d_x d)) (map sg (d_next d)) /\
     within lower upper (V N (R_of (ct_nx C) R0) lam xeq (map sg (d_x d))) /\
     objective (d_mip d) sg
     = violation et N (R_of (ct_nx C) R0) lam eps xeq (map sg (d_x d)) (map sg (d_next d))) /\
  (forall x x', in_box x_lo x_up x -> in_box x_lo x_up x' -> fb_next F (ctl_next C) x x' ->
     within lower upper (V N (R_of (ct_nx C) R0) lam xeq x) ->
     exists sg, gfeas (d_mip d) sg /\ map sg (d_x d) = x /\ map sg (d_next d) = x').
Proof. exact relu_loop_strengthened. Qed.
Print Assumptions C29_relu_loop_rounds.
(** The same for a hybrid linear forward system. *)
Theorem C29_hybrid_loop_rounds : forall solve, solver_ok solve ->
  forall bounds bounded nx nu h f F net, bounds_valid bounds -> built bounds bounded nx nu h ->
  hybrid_fwd h = Some f -> fb_fwd F = f -> feedback_built F -> vle (f_lo f) (f_up f) ->
  controller_slopes (fb_ctl F) ->
  forall meth N x_lo x_up R0 xeq, lyap_args nx N x_lo x_up R0 xeq ->
  no_slope_one (hidden N) -> forall lam eps et lower upper lp num d,
  strengthen_derivative solve meth N nx x_lo x_up (fb_add solve F) lp
    (fb_sys_cuts solve net F) xeq lam eps et R0 lower upper num = Some d ->
  obj_max (d_mip d) = true /\
  (forall sg, gfeas (d_mip d) sg ->
     in_box x_lo x_up (map sg (d_x d)) /\ in_box x_lo x_up (map sg (d_next d)) /\
     fb_next F (hybrid_next h) (map sg (d_x d)) (map sg (d_next d)) /\
     within lower upper (V N (R_of nx R0) lam xeq (map sg (d_x d))) /\
     objective (d_mip d) sg
     = violation et N (R_of nx R0) lam eps xeq (map sg (d_x d)) (map sg (d_next d))) /\
  (forall x x', in_box x_lo x_up x -> in_box x_lo x_up x' -> fb_next F (hybrid_next h) x x' ->
     within lower upper (V N (R_of nx R0) lam xeq x) ->
     exists sg, gfeas (d_mip d) sg /\ map sg (d_x d) = x /\ map sg (d_next d) = x').
Proof. exact hybrid_loop_strengthened. Qed.
Print Assumptions C29_hybrid_loop_rounds.

(** The rounds do not raise: if the relaxed program is solved whenever it has a
    point and the loop has one transition to verify, the program is returned. *)
Theorem C29_relu_loop_rounds_total : forall solve, solver_ok solve -> forall C F, ctl_built C ->
  fb_fwd F = ctl_fwd solve C -> feedback_built F ->
  (is_net (fb_ctl F) \/ match ct_kind C with CResidue _ _ _ _ => False | _ => True end) ->
  controller_cut_slopes (fb_ctl F) -> cut_slopes (hidden (ct_net C)) ->
  system_total (ct_nx C) false (fb_add solve F) ->
  forall meth N x_lo x_up R0 xeq, lyap_args (ct_nx C) N x_lo x_up R0 xeq ->
  cut_slopes (hidden N) ->
  (exists c B out, output_constraint solve meth N x_lo x_up = Some (c, B, out)) ->
  forall lam lower upper,
  (exists x x', in_box x_lo x_up x /\ in_box x_lo x_up x' /\ fb_next F (ctl_next C) x x' /\
     within lower upper (V N (R_of (ct_nx C) R0) lam xeq x)) ->
  forall lp, (forall m, (exists sg, gfeas m sg) -> lp m <> None) ->
  forall eps et num, exists d,
  strengthen_derivative solve meth N (ct_nx C) x_lo x_up (fb_add solve F) lp
    (fb_sys_cuts solve (Some (ct_net C)) F) xeq lam eps et R0 lower upper num = Some d.
Proof. exact relu_rounds_total. Qed.
Print Assumptions C29_relu_loop_rounds_total.
Example C29_relu_loop_case : exists d,
  strengthen_derivative ideal_solve IA net_abs2 2 [-1; -1] [1; 1]
    (fb_add ideal_solve (fb_ex ideal_solve)) (fun _ => Some (fun _ => 1/2))
    (fb_sys_cuts ideal_solve (Some net_kink3) (fb_ex ideal_solve)) [0; 0] 1 (1/2) ExpLower None
    None None 3 = Some d.
Proof. exact fb_ex_rounds. Qed.
(** The same for a hybrid linear forward system, whose loop then also accepts
    the constraints. *)
Theorem C37_hybrid_closed_loop_total : forall solve, solver_ok solve -> solver_total solve ->
  forall bounds bounded nx nu h f F st x x', bounds_valid bounds -> built bounds bounded nx nu h ->
  hybrid_fwd h = Some f -> fb_fwd F = f -> feedback_built F -> vle (f_lo f) (f_up f) ->
  finite_modes h -> fb_next F (hybrid_next h) x x' ->
  system_total nx st (fb_add solve F).
Proof. exact hybrid_loop_total. Qed.
Print Assumptions C37_hybrid_closed_loop_total.
Theorem C29_hybrid_loop_rounds_total : forall solve, solver_ok solve -> solver_total solve ->
  forall bounds bounded nx nu h f F net, bounds_valid bounds -> built bounds bounded nx nu h ->
  hybrid_fwd h = Some f -> fb_fwd F = f -> feedback_built F -> vle (f_lo f) (f_up f) ->
  finite_modes h -> controller_cut_slopes (fb_ctl F) ->
  (forall N, net = Some N -> cut_slopes (hidden N)) ->
  forall meth N x_lo x_up R0 xeq, lyap_args nx N x_lo x_up R0 xeq ->
  cut_slopes (hidden N) ->
  (exists c B out, output_constraint solve meth N x_lo x_up = Some (c, B, out)) ->
  forall lam lower upper,
  (exists x x', in_box x_lo x_up x /\ in_box x_lo x_up x' /\ fb_next F (hybrid_next h) x x' /\
     within lower upper (V N (R_of nx R0) lam xeq x)) ->
  forall lp, (forall m, (exists sg, gfeas m sg) -> lp m <> None) ->
  forall eps et num, exists d,
  strengthen_derivative solve meth N nx x_lo x_up (fb_add solve F) lp
    (fb_sys_cuts solve net F) xeq lam eps et R0 lower upper num = Some d.
Proof. exact hybrid_rounds_total. Qed.
Print Assumptions C29_hybrid_loop_rounds_total.
Example C29_hybrid_loop_case :
  built row_bounds (fun _ => true) 1 1 sysu /\ hybrid_fwd sysu = Some fwd_u /\ feedback_built fb_u /\
  fb_next fb_u (hybrid_next sysu) [0] [0] /\
  exists d, strengthen_derivative ideal_solve IA net_abs 1 [-1] [1] (fb_add ideal_solve fb_u)
    (fun _ => Some (fun _ => 1/2)) (fb_sys_cuts ideal_solve None fb_u) [0] 1 (1/2) ExpLower None
    None None 3 = Some d.
Proof.
  exact (conj sysu_built (conj sysu_fwd (conj fb_u_built (conj fb_u_fixed fb_u_rounds)))).
Qed.
