(** The properties of learned dynamics and closed loops (C35 - C37). *)

Require Import Reals List Lra Lia.
Require Import Verif.Vec Verif.ModelMip Verif.SpecMip Verif.SpecCore Verif.ModelNet Verif.SpecNet
  Verif.SpecStep Verif.ModelHybrid Verif.SpecHybrid Verif.ModelLyapunov Verif.SpecLyapunov
  Verif.ModelSystems Verif.SpecSystems
  Verif.ModelExamples Verif.ProofExamples Verif.ProofSystems Verif.ProofSystems2
  Verif.ProofFeedback Verif.ProofDynamics.
Import ListNotations.
Open Scope R_scope.

(** C35.  [d = true]: discrete time, the equilibrium is a fixed point; otherwise
    the derivative vanishes there. *)
Theorem C35_autonomous : forall n A xeq d, auto_built n A ->
  au_kind A = AGiven xeq d \/ au_kind A = AResidual xeq d ->
  auto_step A xeq = if d then xeq else zeros n.
Proof. exact auto_equilibrium. Qed.
Print Assumptions C35_autonomous.
Theorem C35_controlled : forall S xeq ueq, ctl_built S -> ctl_usable S ->
  ct_eq S = Some (xeq, ueq) ->
  ctl_step S xeq ueq =
  Some (match ct_kind S with CGiven _ _ false => zeros (ct_nx S) | _ => xeq end).
Proof. exact ctl_equilibrium. Qed.
Print Assumptions C35_controlled.
Example C35_case : auto_built 1 (auto_ex (AResidual [1/3] true)) /\
  (ctl_built second_ex /\ ctl_usable second_ex /\ ct_eq second_ex = Some ([1/2; 0], [1/4])) /\
  (ctl_built residue_ex /\ ctl_usable residue_ex /\ ct_eq residue_ex = Some ([1/2; 0], [1/4])).
Proof.
  exact (conj (auto_ex_built (AResidual [1/3] true) eq_refl)
    (conj (conj (proj1 second_ex_built) (conj (proj2 second_ex_built) eq_refl))
          (conj (proj1 residue_ex_built) (conj (proj2 residue_ex_built) eq_refl)))).
Qed.

(** C36.  A point of the program extends to the new variables exactly when the
    state (and input) is within bounds and the next state is the simulated one. *)
Theorem C36_autonomous : forall solve n A st vt m m' xv xn, solver_ok solve -> auto_built n A ->
  vt <> VCont -> history st m -> below (nvars m) xv -> below (nvars m) xn ->
  length xv = n -> length xn = n -> NoDup (xv ++ xn) -> auto_add solve A xv xn vt m = Some m' ->
  (forall sg, feas vt m' sg -> feas vt m sg) /\
  forall sg, feas vt m sg ->
    ((exists sg', feas vt m' sg' /\ agree m sg sg') <->
     in_box (au_lo A) (au_up A) (map sg xv) /\ map sg xn = auto_step A (map sg xv)).
Proof. exact auto_exact. Qed.
Print Assumptions C36_autonomous.
Theorem C36_autonomous_total : forall solve, solver_ok solve -> solver_total solve ->
  forall n st A, auto_built n A -> system_total n st (auto_add solve A).
Proof. exact auto_total. Qed.
Print Assumptions C36_autonomous_total.
(** So it fits the contract under which the Lyapunov programs are certified. *)
Theorem C36_autonomous_contract : forall solve, solver_ok solve -> forall n st A, auto_built n A ->
  system_contract n st (auto_add solve A) (auto_next A).
Proof. exact auto_contract. Qed.
Print Assumptions C36_autonomous_contract.
(** The bounds reported for the next state are valid. *)
Theorem C36_next_bounds : forall solve, solver_ok solve ->
  forall n A xv xn vt m m' r lo up, auto_built n A ->
  auto_add_ret solve A xv xn vt m = Some (m', r, Some (lo, up)) ->
  forall x x', auto_next A x x' -> in_box lo up x'.
Proof. exact auto_bounds. Qed.
Print Assumptions C36_next_bounds.
Theorem C36_controlled : forall solve C st vt m m' xv xn uv alo aup, solver_ok solve ->
  ctl_built C -> vt <> VCont -> history st m ->
  below (nvars m) xv -> below (nvars m) xn -> below (nvars m) uv ->
  length xv = ct_nx C -> length xn = ct_nx C -> length uv = ct_nu C ->
  (forall a, alo = Some a -> length a = ct_nu C) -> (forall a, aup = Some a -> length a = ct_nu C) ->
  ctl_add solve C xv xn uv alo aup vt m = Some m' ->
  (forall sg, feas vt m' sg -> feas vt m sg) /\
  forall sg, feas vt m sg ->
    ((exists sg', feas vt m' sg' /\ agree m sg sg') <->
     confined C (map sg xv) /\ in_box (ct_ulo C) (ct_uup C) (map sg uv) /\
     opt_box alo aup (map sg uv) /\ ctl_step C (map sg xv) (map sg uv) = Some (map sg xn)).
Proof. exact ctl_exact. Qed.
Print Assumptions C36_controlled.
Theorem C36_controlled_total : forall solve C vt m xv xn uv alo aup u, solver_ok solve ->
  solver_total solve -> ctl_built C -> ctl_usable C -> length xv = ct_nx C ->
  (forall a, alo = Some a -> length a = ct_nu C) -> (forall a, aup = Some a -> length a = ct_nu C) ->
  in_box (ct_ulo C) (ct_uup C) u -> opt_box alo aup u ->
  ctl_add solve C xv xn uv alo aup vt m <> None.
Proof. exact ctl_total. Qed.
Print Assumptions C36_controlled_total.
Example C36_case : solver_ok ideal_solve /\ solver_total ideal_solve /\
  auto_built 1 (auto_ex (AGiven [1/3] true)) /\ ctl_built second_ex /\ ctl_built residue_ex.
Proof.
  exact (conj ideal_ok (conj ideal_total (conj (auto_ex_built (AGiven [1/3] true) eq_refl)
    (conj (proj1 second_ex_built) (proj1 residue_ex_built))))).
Qed.

(** C37.  The control of simulation: within the limits, the value nearest to the
    network's, and u* at x*. *)
Theorem C37_control : forall F x, controller_wf (f_nx (fb_fwd F)) (f_nu (fb_fwd F)) (fb_ctl F) ->
  new_feedback (fb_fwd F) (fb_ctl F) (fb_xeq F) (fb_ueq F) (fb_lower F) (fb_upper F) (fb_meth F)
    = Some F ->
  Forall2 limit_any (fb_lower F) (fb_upper F) -> length x = f_nx (fb_fwd F) ->
  exists u, compute_u F x = Some u /\ length u = f_nu (fb_fwd F) /\
    within_limits (fb_lower F) (fb_upper F) u /\
    (within_limits (fb_lower F) (fb_upper F) (pre_saturation F x) -> u = pre_saturation F x) /\
    (forall w i, within_limits (fb_lower F) (fb_upper F) w ->
       Rabs (nth i u 0 - nth i (pre_saturation F x) 0) <=
       Rabs (nth i w 0 - nth i (pre_saturation F x) 0)) /\
    (x = fb_xeq F -> within_limits (fb_lower F) (fb_upper F) (fb_ueq F) -> u = fb_ueq F).
Proof. exact compute_u_spec. Qed.
Print Assumptions C37_control.
(** The program of the closed loop. *)
Theorem C37_closed_loop : forall solve C F st vt m m' xv xn r, solver_ok solve -> ctl_built C ->
  ctl_usable C -> fb_fwd F = ctl_fwd solve C -> feedback_built F ->
  (is_net (fb_ctl F) \/ match ct_kind C with CResidue _ _ _ _ => False | _ => True end) ->
  vt <> VCont -> history st m -> below (nvars m) xv -> below (nvars m) xn ->
  length xv = ct_nx C -> length xn = ct_nx C ->
  fb_add_ret solve F xv xn vt m = Some (m', r) ->
  (forall sg, feas vt m' sg ->
     feas vt m sg /\ in_box (ct_xlo C) (ct_xup C) (map sg xv) /\
     compute_u F (map sg xv) = Some (map sg (fr_u r)) /\
     fb_step F (map sg xv) = Some (map sg xn)) /\
  (forall sg u, feas vt m sg -> in_box (ct_xlo C) (ct_xup C) (map sg xv) ->
     compute_u F (map sg xv) = Some u -> in_box (ct_ulo C) (ct_uup C) u ->
     fb_step F (map sg xv) = Some (map sg xn) ->
     exists sg', feas vt m' sg' /\ agree m sg sg').
Proof. exact closed_loop_exact. Qed.
Print Assumptions C37_closed_loop.
Theorem C37_closed_loop_total : forall solve C F st u0, solver_ok solve -> solver_total solve ->
  ctl_built C -> ctl_usable C -> fb_fwd F = ctl_fwd solve C -> feedback_built F ->
  forall x0, in_box (ct_xlo C) (ct_xup C) x0 -> compute_u F x0 = Some u0 ->
  in_box (ct_ulo C) (ct_uup C) u0 ->
  system_total (ct_nx C) st (fb_add solve F).
Proof. exact closed_loop_total. Qed.
Print Assumptions C37_closed_loop_total.
(** Closed loops fit the contract of the Lyapunov programs. *)
Theorem C37_closed_loop_contract : forall solve C F st, solver_ok solve -> ctl_built C ->
  fb_fwd F = ctl_fwd solve C -> feedback_built F ->
  (is_net (fb_ctl F) \/ match ct_kind C with CResidue _ _ _ _ => False | _ => True end) ->
  system_contract (ct_nx C) st (fb_add solve F) (fb_next F (ctl_next C)).
Proof. exact closed_loop_contract. Qed.
Print Assumptions C37_closed_loop_contract.
Theorem C37_hybrid_closed_loop_contract : forall solve bounds bounded nx nu h f F st,
  solver_ok solve -> bounds_valid bounds -> built bounds bounded nx nu h ->
  hybrid_fwd h = Some f -> fb_fwd F = f -> feedback_built F -> vle (f_lo f) (f_up f) ->
  system_contract nx st (fb_add solve F) (fb_next F (hybrid_next h)).
Proof. exact closed_hybrid_contract. Qed.
Print Assumptions C37_hybrid_closed_loop_contract.
Example C37_case : (ctl_built second_ex /\ ctl_usable second_ex) /\
  feedback_built (fb_ex ideal_solve) /\ feedback_built (fb_lin ideal_solve) /\
  compute_u (fb_ex ideal_solve) [1/2; 0] = Some [1/4] /\
  system_total 2 true (fb_add ideal_solve (fb_ex ideal_solve)).
Proof.
  exact (conj second_ex_built (conj (fb_ex_built ideal_solve) (conj (fb_lin_built ideal_solve)
    (conj (fb_ex_u ideal_solve) (fb_ex_total true))))).
Qed.
