(** The example systems (C60) and their closed loops (C61). *)

Require Import Reals List Lra Lia.
Require Import Verif.Vec Verif.ModelMip Verif.SpecMip Verif.SpecCore Verif.ModelNet Verif.SpecNet
  Verif.SpecStep Verif.SpecLyapunov Verif.ModelSystems Verif.SpecSystems Verif.ModelExamples
  Verif.ModelExSystems Verif.SpecExSystems Verif.ModelExamplesEx Verif.ProofExamples
  Verif.ProofExSystems2 Verif.ProofExSystems3.
Import ListNotations.
Open Scope R_scope.

(** C60.  A point of the program extends to the new variables exactly when what the
    network reads is within bounds and the next state is the simulated one. *)
Theorem C60_exact : forall solve S vt st m m' xv xn uv alo aup r, solver_ok solve ->
  ex_built S -> ex_reads_all (ex_kind_ S) -> vt <> VCont -> history st m ->
  below (nvars m) xv -> below (nvars m) xn -> below (nvars m) uv ->
  length xv = ex_nx (ex_kind_ S) -> length xn = ex_nx (ex_kind_ S) -> length uv = ex_nu (ex_kind_ S) ->
  (forall a, alo = Some a -> length a = ex_nu (ex_kind_ S)) ->
  (forall a, aup = Some a -> length a = ex_nu (ex_kind_ S)) ->
  ex_add_ret solve S xv xn uv alo aup vt m = Some (m', r) ->
  (forall sg, feas vt m' sg -> feas vt m sg) /\
  forall sg, feas vt m sg ->
    ((exists sg', feas vt m' sg' /\ agree m sg sg') <->
     ex_domain S alo aup (map sg xv) (map sg uv) /\
     ex_step S (map sg xv) (map sg uv) = Some (map sg xn)).
Proof. exact ex_exact_step. Qed.
Print Assumptions C60_exact.
(** For the cars whose network does not read the angular velocity this holds for the
    equations of step_forward without its assertion on the limits. *)
Theorem C60_equations_partial : forall solve, solver_ok solve -> forall S vt st m m' xv xn uv alo aup r,
  ex_built S -> vt <> VCont -> history st m ->
  below (nvars m) xv -> below (nvars m) xn -> below (nvars m) uv ->
  length xv = ex_nx (ex_kind_ S) -> length xn = ex_nx (ex_kind_ S) -> length uv = ex_nu (ex_kind_ S) ->
  (forall a, alo = Some a -> length a = ex_nu (ex_kind_ S)) ->
  (forall a, aup = Some a -> length a = ex_nu (ex_kind_ S)) ->
  ex_add_ret solve S xv xn uv alo aup vt m = Some (m', r) ->
  (forall sg, feas vt m' sg -> feas vt m sg) /\
  forall sg, feas vt m sg ->
    ((exists sg', feas vt m' sg' /\ agree m sg sg') <->
     ex_domain S alo aup (map sg xv) (map sg uv) /\
     ex_move S (map sg xv) (map sg uv) = Some (map sg xn)).
Proof. exact ex_exact. Qed.
Print Assumptions C60_equations_partial.
(** The assertion itself is not part of the program. *)
Theorem C60_limits_refuted : exists S m xv xn uv m' r sg, ex_built S /\
  ex_kind_ S = KUnicycle false /\ history true m /\ below (nvars m) (xv ++ xn ++ uv) /\
  NoDup (xv ++ xn ++ uv) /\
  ex_add_ret ideal_solve S xv xn uv None None VBin m = Some (m', r) /\ gfeas m' sg /\
  ex_step S (map sg xv) (map sg uv) = None.
Proof. exact unicycle_limits_refuted. Qed.
Print Assumptions C60_limits_refuted.
(** The program can be built whenever the bounds leave a point. *)
Theorem C60_total : forall solve, solver_ok solve -> solver_total solve ->
  forall S vt st m xv xn uv alo aup x u, ex_built S -> vt <> VCont -> history st m ->
  below (nvars m) xv -> below (nvars m) xn -> below (nvars m) uv ->
  length xv = ex_nx (ex_kind_ S) -> length xn = ex_nx (ex_kind_ S) -> length uv = ex_nu (ex_kind_ S) ->
  NoDup (xv ++ xn ++ uv) ->
  (forall a, alo = Some a -> length a = ex_nu (ex_kind_ S)) ->
  (forall a, aup = Some a -> length a = ex_nu (ex_kind_ S)) ->
  ex_domain S alo aup x u ->
  ex_add_ret solve S xv xn uv alo aup vt m <> None.
Proof. exact ex_total. Qed.
Print Assumptions C60_total.
(** The declared equilibrium is one. *)
Theorem C60_equilibrium : forall S, ex_built S ->
  match ex_kind_ S with
  | KUnicycle _ | KZeroVel _ => in_box (ex_ulo S) (ex_uup S) (zeros 2)
  | _ => True
  end ->
  ex_step S (ex_xeq (ex_kind_ S)) (ex_ueq (ex_kind_ S)) = Some (ex_xeq (ex_kind_ S)).
Proof. exact ex_equilibrium. Qed.
Print Assumptions C60_equilibrium.
(** UnicycleReLUZeroVelModel: without a velocity the car only turns. *)
Theorem C60_zero_velocity : forall S td px py th w, ex_built S -> ex_kind_ S = KZeroVel td ->
  in_box (ex_ulo S) (ex_uup S) [0; w] ->
  ex_step S [px; py; th] [0; w] = Some [px; py; th + w * ex_dt S].
Proof. exact zerovel_turns. Qed.
Print Assumptions C60_zero_velocity.
Example C60_case : (forall k, ex_built (ex_of k)) /\
  ex_reads_all (KUnicycle true) /\ ex_reads_all (KZeroVel true) /\ ex_reads_all KAccel /\
  ex_reads_all (KPixhawk 1) /\ ex_reads_all (KQuad 1 LP) /\ ex_reads_all (KPole 1 IA) /\
  in_box (ex_ulo (ex_of (KUnicycle true))) (ex_uup (ex_of (KUnicycle true))) (zeros 2) /\
  solver_ok ideal_solve /\ solver_total ideal_solve.
Proof.
  exact (conj ex_of_built (conj eq_refl (conj eq_refl (conj eq_refl (conj eq_refl (conj eq_refl
    (conj eq_refl (conj (zeros_box 2) (conj ideal_ok ideal_total))))))))).
Qed.

(** C61.  The quadrotor closed with a network controller. *)
Theorem C61_quadrotor : forall solve S h meth F st vt m m' xv xn r, solver_ok solve -> ex_built S ->
  ex_kind_ S = KQuad h meth -> vle (ex_xlo S) (ex_xup S) ->
  fb_fwd F = ex_fwd solve S -> feedback_built F -> is_net (fb_ctl F) ->
  vt <> VCont -> history st m -> below (nvars m) xv -> below (nvars m) xn ->
  length xv = 12%nat -> length xn = 12%nat ->
  fb_add_ret solve F xv xn vt m = Some (m', r) ->
  (forall sg, feas vt m' sg ->
     feas vt m sg /\ in_box (ex_xlo S) (ex_xup S) (map sg xv) /\
     compute_u F (map sg xv) = Some (map sg (fr_u r)) /\
     in_box (ex_ulo S) (ex_uup S) (map sg (fr_u r)) /\
     fb_step F (map sg xv) = Some (map sg xn)) /\
  (forall sg u, feas vt m sg -> in_box (ex_xlo S) (ex_xup S) (map sg xv) ->
     compute_u F (map sg xv) = Some u -> in_box (ex_ulo S) (ex_uup S) u ->
     fb_step F (map sg xv) = Some (map sg xn) ->
     exists sg', feas vt m' sg' /\ agree m sg sg').
Proof. exact quad_loop_exact. Qed.
Print Assumptions C61_quadrotor.
(** So it fits the contract under which the Lyapunov programs are certified. *)
Theorem C61_quadrotor_contract : forall solve S h meth F st, solver_ok solve -> ex_built S ->
  ex_kind_ S = KQuad h meth -> vle (ex_xlo S) (ex_xup S) ->
  fb_fwd F = ex_fwd solve S -> feedback_built F -> is_net (fb_ctl F) ->
  system_contract 12 st (fb_add solve F) (fb_next F (ex_next S)).
Proof. exact quad_loop_contract. Qed.
Print Assumptions C61_quadrotor_contract.
Theorem C61_quadrotor_total : forall solve S h meth F st x0 u0, solver_ok solve -> solver_total solve ->
  ex_built S -> ex_kind_ S = KQuad h meth -> vle (ex_xlo S) (ex_xup S) ->
  fb_fwd F = ex_fwd solve S -> feedback_built F ->
  in_box (ex_xlo S) (ex_xup S) x0 -> compute_u F x0 = Some u0 -> in_box (ex_ulo S) (ex_uup S) u0 ->
  system_total 12 st (fb_add solve F).
Proof. exact quad_loop_total. Qed.
Print Assumptions C61_quadrotor_total.
(** Every other example system raises in every closed loop, whatever the program. *)
Theorem C61_others_refuted : forall solve S F xv xn vt m, fb_fwd F = ex_fwd solve S ->
  (forall h meth, ex_kind_ S <> KQuad h meth) -> fb_add_ret solve F xv xn vt m = None.
Proof. exact ex_loop_raises. Qed.
Print Assumptions C61_others_refuted.
Example C61_case : feedback_built (quad_ex ideal_solve) /\
  compute_u (quad_ex ideal_solve) (zeros 12) = Some (repeat (1/4) 4) /\
  system_total 12 true (fb_add ideal_solve (quad_ex ideal_solve)) /\
  (forall h meth, ex_kind_ (ex_of (KUnicycle true)) <> KQuad h meth).
Proof.
  exact (conj (quad_ex_built ideal_solve) (conj (quad_ex_u ideal_solve) (conj (quad_ex_total true) uni_not_quad))).
Qed.
