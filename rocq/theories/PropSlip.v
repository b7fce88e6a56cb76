(** C53: the spring loaded inverted pendulum. *)

Require Import Reals List.
Require Import Verif.Vec Verif.ModelSlip Verif.SpecSlip Verif.ProofSlip Verif.ProofSlipChain Verif.ProofSlipEx.
Import ListNotations.
Open Scope R_scope.

(** A touchdown with the foot on the ground keeps the energy. *)
Theorem C53_touchdown_energy : forall p s theta, l0 p <> 0 -> touchdown_guard p s theta = 0 ->
  stance_phase_energy p (touchdown_transition p s theta) = flight_phase_energy p s.
Proof. exact touchdown_energy. Qed.
Print Assumptions C53_touchdown_energy.
Example C53_touchdown_energy_case : touchdown_guard hopper [3; 5; 2; -1] (PI / 3) = 0 /\ l0 hopper <> 0.
Proof. exact touchdown_case. Qed.

(** A liftoff at the rest length keeps the energy. *)
Theorem C53_liftoff_energy : forall p s, liftoff_guard p s = 0 ->
  flight_phase_energy p (liftoff_transition p s) = stance_phase_energy p s.
Proof. exact liftoff_energy. Qed.
Print Assumptions C53_liftoff_energy.
Example C53_liftoff_energy_case : liftoff_guard hopper [10; PI / 3; 1; 2; 7] = 0 /\ l0 hopper <> 0.
Proof. exact liftoff_case. Qed.

(** The two transitions undo each other at the rest length. *)
Theorem C53_liftoff_undoes_touchdown : forall p s theta,
  length s = 4%nat -> l0 p <> 0 -> touchdown_guard p s theta = 0 ->
  liftoff_transition p (touchdown_transition p s theta) = s.
Proof. exact liftoff_touchdown. Qed.
Print Assumptions C53_liftoff_undoes_touchdown.
Theorem C53_touchdown_undoes_liftoff : forall p s,
  length s = 5%nat -> l0 p <> 0 -> liftoff_guard p s = 0 ->
  touchdown_transition p (liftoff_transition p s) (nth 1 s 0) = s.
Proof. exact touchdown_liftoff. Qed.
Print Assumptions C53_touchdown_undoes_liftoff.

(** Energy is constant along both phases, and the stance phase obeys Newton's law: the mass at
    (x_foot - r sin theta, r cos theta) feels gravity and the spring force along the leg. *)
Theorem C53_flight_energy : forall p phi a b, a <= b -> solves 4 (flight_dynamics p) a b phi ->
  flight_phase_energy p (phi b) = flight_phase_energy p (phi a).
Proof. exact flight_energy_constant. Qed.
Print Assumptions C53_flight_energy.
Example C53_flight_energy_case : solves 4 (flight_dynamics hopper) 0 1 (ballistic hopper [3; 5; 2; -1]).
Proof. exact (ballistic_solves hopper [3; 5; 2; -1] 0 1). Qed.
Theorem C53_stance_energy : forall p phi a b, mass p <> 0 -> a <= b -> solves 5 (stance_dynamics p) a b phi ->
  (forall t, a <= t <= b -> nth 0 (phi t) 0 <> 0) ->
  stance_phase_energy p (phi b) = stance_phase_energy p (phi a).
Proof. exact stance_energy_constant. Qed.
Print Assumptions C53_stance_energy.
Theorem C53_stance_newton : forall p phi a b, mass p <> 0 -> solves 5 (stance_dynamics p) a b phi ->
  forall t, a <= t <= b -> nth 0 (phi t) 0 <> 0 ->
  let r := nth 0 (phi t) 0 in let theta := nth 1 (phi t) 0 in
  let force := spring p * (l0 p - r) in
  let px := fun s => nth 4 (phi s) 0 - nth 0 (phi s) 0 * sin (nth 1 (phi s) 0) in
  let pz := fun s => nth 0 (phi s) 0 * cos (nth 1 (phi s) 0) in
  let vx := fun s => nth 2 (liftoff_transition p (phi s)) 0 in
  let vz := fun s => nth 3 (liftoff_transition p (phi s)) 0 in
  derivable_pt_lim px t (vx t) /\ derivable_pt_lim pz t (vz t) /\
  derivable_pt_lim vx t (- force / mass p * sin theta) /\
  derivable_pt_lim vz t (force / mass p * cos theta - grav p).
Proof. exact stance_newton. Qed.
Print Assumptions C53_stance_newton.

(** The apex map keeps the energy, if the stance phase is integrated exactly. *)
Theorem C53_apex_map_energy : forall p stance x h v a x' h' v' t', 0 < grav p -> l0 p <> 0 -> mass p <> 0 ->
  stance_exact p stance -> apex_map p stance x h v a = Some (x', h', v', t') ->
  flight_phase_energy p [x'; h'; v'; 0] = flight_phase_energy p [x; h; v; 0] /\ 0 <= t'.
Proof. exact apex_map_energy. Qed.
Print Assumptions C53_apex_map_energy.
Example C53_stance_case : stance_exact hopper hop_stance.
Proof. exact hop_exact. Qed.
Example C53_apex_map_case : exists t, apex_map hopper hop_stance 0 (21/2) 0 0 = Some (0, 21/2, 0, t).
Proof. exact hop_map. Qed.

(** Free flight is the solution of the flight dynamics. *)
Theorem C53_ballistic : forall p s, length s = 4%nat ->
  ballistic p s 0 = s /\ forall a b, solves 4 (flight_dynamics p) a b (ballistic p s).
Proof. exact (fun p s L => conj (ballistic_start p s L) (ballistic_solves p s)). Qed.
Print Assumptions C53_ballistic.

(** With the foot not below the stone, time_to_touchdown returns t exactly if the foot comes down on the
    stone at t. *)
Theorem C53_time_to_touchdown : forall p s st theta t, 0 < grav p -> stone_height st <= foot_z p s theta ->
  (time_to_touchdown p s st theta = Touchdown t <-> lands p s st theta t).
Proof. exact touchdown_lands. Qed.
Print Assumptions C53_time_to_touchdown.
Example C53_landing_case : exists t, 0 < t /\
  time_to_touchdown jumper [0; 2; 1; 0] (mkStone (Fin 0) (Fin 2) 0) 0 = Touchdown t.
Proof. exact landing_case. Qed.
Theorem C53_can_touch : forall p s st theta, 0 < grav p -> stone_height st <= foot_z p s theta ->
  (can_touch_stepping_stone p s st theta = true <-> exists t, lands p s st theta t).
Proof. exact can_touch_lands. Qed.
Print Assumptions C53_can_touch.
(** Before that time the foot is above the stone; the time is positive if the foot starts above the
    stone or rises. *)
Theorem C53_first_touchdown : forall p s st theta t, 0 < grav p ->
  time_to_touchdown p s st theta = Touchdown t ->
  (forall tau, 0 < tau < t -> stone_height st < foot_z p (ballistic p s tau) theta) /\
  (stone_height st < foot_z p s theta \/ 0 < nth 3 s 0 -> 0 < t).
Proof. exact touchdown_above. Qed.
Print Assumptions C53_first_touchdown.
(** A foot below the stone that jumps onto it, never meeting it from below, is reported as no touchdown. *)
Theorem C53_jump_refuted : exists p s st theta t, 0 < grav p /\ 0 < t /\ lands p s st theta t /\
  (forall t', 0 <= t' < t -> foot_z p (ballistic p s t') theta <= stone_height st ->
     ~ ext_le_r (stone_left st) (foot_x p (ballistic p s t') theta)) /\
  time_to_touchdown p s st theta = NoTouchdown.
Proof. exact jump_case. Qed.
Print Assumptions C53_jump_refuted.
(** The time may be zero. *)
Theorem C53_positive_time_refuted : exists p s st theta, 0 < grav p /\ time_to_touchdown p s st theta = Touchdown 0.
Proof. exact positive_case. Qed.
Print Assumptions C53_positive_time_refuted.
(** With g = 0, which the constructor accepts, there is no answer although the foot lands. *)
Theorem C53_zero_gravity_refuted : exists p s st theta t, 0 <= grav p /\ 0 < t /\ lands p s st theta t /\
  time_to_touchdown p s st theta = DividedByZero.
Proof. exact gravity_case. Qed.
Print Assumptions C53_zero_gravity_refuted.

(** The closed-form gradients are derivatives. *)
Theorem C53_stance_gradient : forall p x, nth 0 x 0 <> 0 ->
  jacobian 5 5 (stance_dynamics p) x (stance_dynamics_gradient p x).
Proof. exact stance_gradient. Qed.
Print Assumptions C53_stance_gradient.
Theorem C53_touchdown_gradient : forall p s theta,
  jacobian2 4 5 (fun x a => Some (touchdown_transition p x a)) s theta
    (fst (touchdown_transition_gradient p s theta)) (snd (touchdown_transition_gradient p s theta)).
Proof. exact touchdown_gradient. Qed.
Print Assumptions C53_touchdown_gradient.
Theorem C53_apex_to_touchdown_gradient : forall p apex a o, 0 < grav p -> 0 < nth 1 apex 0 - l0 p * cos a ->
  apex_to_touchdown_gradient p apex a = Some o ->
  jacobian2 3 5 (touchdown_outputs p) apex a (td_dx_dapex o ++ [td_dt_dapex o]) (td_dx_dangle o ++ [td_dt_dangle o]).
Proof. exact apex_touchdown_gradient. Qed.
Print Assumptions C53_apex_to_touchdown_gradient.
Theorem C53_liftoff_to_apex_gradient : forall p s o, 0 < nth 3 s 0 -> grav p <> 0 ->
  liftoff_to_apex_gradient p s = Some o ->
  wfm 4 4 (ap_dx o ++ [ap_dt o]) /\
  forall c d, curve 4 c s d ->
  (exists e, 0 < e /\ forall t, Rabs t < e -> apex_outputs p (c t) <> None) /\
  forall i, (i < 4)%nat ->
  derivable_pt_lim (fun t => entry_of (apex_outputs p (c t)) i) 0 (dot (nth i (ap_dx o ++ [ap_dt o]) []) d).
Proof. exact liftoff_apex_gradient. Qed.
Print Assumptions C53_liftoff_to_apex_gradient.
(** The gradient of the liftoff transition is right only for motions that keep the leg at its rest
    length. The full statement, jacobian 5 4 (liftoff_transition p) s (liftoff_transition_gradient p s) for
    every s with r = l0, is refuted below: the derivative by r is left out. *)
Theorem C53_liftoff_gradient_partial : forall p s c d, curve 5 c s d ->
  (exists e, 0 < e /\ forall t, Rabs t < e -> nth 0 (c t) 0 = l0 p) ->
  forall i, (i < 4)%nat ->
  derivable_pt_lim (fun t => nth i (liftoff_transition p (c t)) 0) 0
    (dot (nth i (liftoff_transition_gradient p s) []) d).
Proof. exact liftoff_gradient_rest. Qed.
Print Assumptions C53_liftoff_gradient_partial.
Theorem C53_liftoff_gradient_refuted : exists p s, length s = 5%nat /\ nth 0 s 0 = l0 p /\
  ~ jacobian 5 4 (liftoff_transition p) s (liftoff_transition_gradient p s).
Proof. exact liftoff_gradient_case. Qed.
Print Assumptions C53_liftoff_gradient_refuted.
(** Over the whole step the missing column does no harm: if the ODE solver returns the stance flow and
    its sensitivity, apex_to_apex_gradient returns the derivatives of the next apex state, of the time,
    and of the state after liftoff, by the apex state and by the leg angle. *)
Theorem C53_apex_to_apex_gradient : forall p ode apex a td z T M psi o,
  0 < grav p -> 0 < nth 1 apex 0 - l0 p * cos a ->
  apex_to_touchdown_gradient p apex a = Some td ->
  stance_flow p ode (touchdown_transition p (td_x td) a) z T M psi ->
  0 < nth 3 (liftoff_transition p z) 0 ->
  apex_to_apex_gradient p ode apex a = Some o ->
  jacobian2 3 8 (next_apex_outputs p ode) apex a
    (aa_dx_dapex o ++ [aa_dt_dapex o] ++ aa_lo_dapex o)
    (aa_dx_dangle o ++ [aa_dt_dangle o] ++ aa_lo_dangle o).
Proof. exact apex_to_apex_jacobian. Qed.
Print Assumptions C53_apex_to_apex_gradient.
Example C53_apex_to_apex_case : exists td o,
  0 < grav hopper /\ 0 < nth 1 [0; 21/2; 0] 0 - l0 hopper * cos 0 /\
  apex_to_touchdown_gradient hopper [0; 21/2; 0] 0 = Some td /\
  stance_flow hopper hop_ode (touchdown_transition hopper (td_x td) 0) hop_lo 1 (eye 5) hop_flow /\
  0 < nth 3 (liftoff_transition hopper hop_lo) 0 /\
  apex_to_apex_gradient hopper hop_ode [0; 21/2; 0] 0 = Some o.
Proof. exact hop_apex. Qed.
