(** C79: the linear approximation of a SLIP step on stepping stones. *)

Require Import Reals List.
Require Import Verif.Vec Verif.ModelSlip Verif.SpecSlip Verif.ProofSlipEx Verif.ModelSlipHybrid
  Verif.SpecSlipHybrid Verif.ProofSlipHybrid Verif.ProofSlipHybrid2.
Import ListNotations.
Open Scope R_scope.

(** At the apex and leg angle it was made for, the affine map gives the next apex and the duration of
    the apex map, with heights measured from the ground and not from the stone. *)
Theorem C79_exact_at_the_point : forall p ode apex st a o,
  0 < grav p -> length apex = 3%nat -> leg_forward apex a ->
  apex_map_linear_approximation p ode apex st a = Some o ->
  hop_to p (stance_of ode) (stone_height st) apex a = Some (affine_hop o apex a).
Proof. exact approx_value. Qed.
Print Assumptions C79_exact_at_the_point.

(** There is an approximation for every step that lands on the stone and reaches the next apex. *)
Theorem C79_defined : forall p ode apex st a v,
  0 < grav p -> length apex = 3%nat ->
  can_touch_stepping_stone p [nth 0 apex 0; nth 1 apex 0; nth 2 apex 0; 0] st a = true ->
  hop_to p (stance_of ode) (stone_height st) apex a = Some v ->
  apex_map_linear_approximation p ode apex st a <> None.
Proof. exact approx_defined. Qed.
Print Assumptions C79_defined.

(** Its matrices are the derivatives of the apex map, given a stance solver with its sensitivity. *)
Theorem C79_gradient : forall p ode apex st a td z T M psi,
  0 < grav p -> length apex = 3%nat -> stone_height st < foot_z p apex a ->
  apex_to_touchdown_gradient p [nth 0 apex 0; nth 1 apex 0 - stone_height st; nth 2 apex 0] a = Some td ->
  stance_flow p ode (touchdown_transition p (td_x td) a) z T M psi ->
  0 < nth 3 (liftoff_transition p z) 0 ->
  forall o, apex_map_linear_approximation p ode apex st a = Some o ->
  0 < nth 2 apex 0 * a ->
  jacobian2 3 4 (hop_to p (stance_of ode) (stone_height st)) apex a (ax_A o ++ [ax_at o]) (ax_B o ++ [ax_bt o]).
Proof. exact hop_gradient. Qed.
Print Assumptions C79_gradient.

(** The rows P [x; u] <= q say that the linearised margins of the step (foot above the stone at the apex, upward
    velocity after liftoff, foot between the ends of the stone) are not negative. *)
Theorem C79_constraints : forall p ode apex st a td z T M psi,
  0 < grav p -> length apex = 3%nat -> stone_height st < foot_z p apex a ->
  apex_to_touchdown_gradient p [nth 0 apex 0; nth 1 apex 0 - stone_height st; nth 2 apex 0] a = Some td ->
  stance_flow p ode (touchdown_transition p (td_x td) a) z T M psi ->
  0 < nth 3 (liftoff_transition p z) 0 ->
  forall o, apex_map_linear_approximation p ode apex st a = Some o ->
  exists m G h, margins p ode st apex a = Some m /\
  jacobian2 3 (length (ax_q o)) (margins p ode st) apex a G h /\ length m = length (ax_q o) /\
  forall x u, length x = 3%nat ->
    (vle (mv (ax_P o) (x ++ [u])) (ax_q o) <->
     forall i, (i < length (ax_q o))%nat ->
       0 <= nth i m 0 + dot (nth i G []) (vsub x apex) + nth i h 0 * (u - a)).
Proof. exact margins_jacobian. Qed.
Print Assumptions C79_constraints.
Example C79_walk_case : exists td o,
  0 < grav hopper /\ length walk_apex = 3%nat /\ stone_height walk_stone < foot_z hopper walk_apex (PI / 3) /\
  apex_to_touchdown_gradient hopper [nth 0 walk_apex 0; nth 1 walk_apex 0 - stone_height walk_stone; nth 2 walk_apex 0] (PI / 3)
    = Some td /\
  stance_flow hopper walk_ode (touchdown_transition hopper (td_x td) (PI / 3)) walk_lo 1 (eye 5) walk_flow /\
  0 < nth 3 (liftoff_transition hopper walk_lo) 0 /\
  apex_map_linear_approximation hopper walk_ode walk_apex walk_stone (PI / 3) = Some o /\
  0 < nth 2 walk_apex 0 * (PI / 3) /\ leg_forward walk_apex (PI / 3).
Proof. exact walk_case. Qed.

(** The apex and angle of the approximation satisfy its constraints. *)
Theorem C79_point_is_feasible : forall p ode apex st a o,
  0 < grav p -> length apex = 3%nat ->
  apex_map_linear_approximation p ode apex st a = Some o ->
  vle (mv (ax_P o) (apex ++ [a])) (ax_q o).
Proof. exact point_feasible. Qed.
Print Assumptions C79_point_is_feasible.

(** A leg that points backwards has no apex map, yet it has an approximation. *)
Theorem C79_backward_leg_refuted :
  (forall p stance apex st a, 0 < nth 2 apex 0 /\ a < 0 \/ nth 2 apex 0 < 0 /\ 0 < a ->
     hop_to p stance (stone_height st) apex a = None) /\
  exists o, apex_map_linear_approximation hopper (fun _ => Some (hop_lo, 1, eye 5)) walk_apex back_stone (- (PI / 3)) = Some o
    /\ 0 < nth 2 walk_apex 0 /\ - (PI / 3) < 0.
Proof. exact (conj backward_leg back_case). Qed.
Print Assumptions C79_backward_leg_refuted.
