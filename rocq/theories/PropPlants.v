(** Linearizations and equilibria of the plants (C64), their mechanics (C65). *)

Require Import Reals List.
Require Import Verif.Vec Verif.ModelMisc Verif.SpecMisc Verif.SpecSlip Verif.ModelPlants Verif.SpecPlants
  Verif.ProofPlants Verif.ProofPlants2 Verif.ProofPlants3 Verif.ProofPlants4 Verif.ProofPlants5 Verif.ProofPlants6
  Verif.ProofLinSolve Verif.ProofCars.
Import ListNotations.
Open Scope R_scope.

(** C64.  Wherever the dynamics are defined, the matrices that the code returns are their
    derivative. *)
Theorem C64_unicycle : gradient_of 3 2 unicycle_np unicycle_gradient_np.
Proof. exact unicycle_grad. Qed.
Print Assumptions C64_unicycle.
Theorem C64_pendulum : forall p, pd_mass p <> 0 -> pd_len p <> 0 ->
  gradient_of 2 1 (pendulum_np p) (fun x _ => pendulum_gradient p x).
Proof. exact pendulum_grad. Qed.
Print Assumptions C64_pendulum.
Theorem C64_quad2d : forall p, q2_mass p <> 0 -> q2_inertia p <> 0 ->
  gradient_of 6 2 (quad2d_np p) (quad2d_gradient p).
Proof. exact quad2d_grad. Qed.
Print Assumptions C64_quad2d.
Theorem C64_rocket : forall p, rk_mass p <> 0 -> rk_inertia p <> 0 ->
  gradient_of 6 2 (rocket_np p) (rocket_gradient p) /\ gradient_of 6 2 (rocket2_np p) (rocket2_gradient p).
Proof. exact (fun p m i => conj (rocket_grad p m i) (rocket2_grad p m i)). Qed.
Print Assumptions C64_rocket.
Theorem C64_quadrotor : forall p, q_mass p <> 0 -> q_ixx p <> 0 -> q_iyy p <> 0 -> q_izz p <> 0 ->
  gradient_of 12 4 (quad_np p) (quad_gradient p).
Proof. exact quad_grad. Qed.
Print Assumptions C64_quadrotor.
(** The documented points of rest. *)
Theorem C64_rest :
  (forall px py th, unicycle_np [px; py; th] [0; 0] = Some (zeros 3)) /\
  (forall px py th, acar_np [px; py; th; 0] [0; 0] = Some (zeros 4)) /\
  (forall p, pendulum_np p [0; 0] [0] = Some (zeros 2) /\ pendulum_np p [PI; 0] [0] = Some (zeros 2)) /\
  (forall p a b, q2_mass p <> 0 ->
     quad2d_np p [a; b; 0; 0; 0; 0] (quad2d_u_equilibrium p) = Some (zeros 6)) /\
  (forall p a b, rk_mass p <> 0 ->
     rocket_np p [a; b; 0; 0; 0; 0] [0; hover_thrust p] = Some (zeros 6) /\
     rocket2_np p [a; b; 0; 0; 0; 0] [0; hover_thrust p] = Some (zeros 6)) /\
  (forall p a b c yaw, q_mass p <> 0 ->
     quad_np p [a; b; c; 0; 0; yaw; 0; 0; 0; 0; 0; 0] (repeat (quad_hover_thrust p) 4) = Some (zeros 12)) /\
  (forall solve p d, lin_solve_ok solve -> 0 < po_ms p -> 0 < po_me p ->
     pole_dynamics solve p (zeros 7) [0; 0; (po_ms p + po_me p) * po_grav p] = Some d -> d = zeros 7).
Proof. exact (conj unicycle_rest (conj acar_rest (conj pendulum_rest (conj quad2d_hover (conj rocket_hover
  (conj quad_hover pole_rest)))))). Qed.
Print Assumptions C64_rest.
(** The branches for numpy and for torch compute the same. *)
Theorem C64_torch_partial : forall x u,
  (unicycle_torch x u = unicycle_np x u /\ unicycle_gradient_torch x u = unicycle_gradient_np x u) /\
  (forall p, pendulum_torch p x u = pendulum_np p x u) /\
  (forall p, quad2d_torch p x u = quad2d_np p x u) /\
  (forall p, rocket_torch p x u = rocket_np p x u /\ rocket2_torch p x u = rocket2_np p x u) /\
  (forall p, quad_torch p x u = quad_np p x u).
Proof. exact (fun x u => conj (unicycle_same x u) (conj (fun p => pendulum_same p x u)
  (conj (fun p => quad2d_same p x u) (conj (fun p => rocket_same p x u) (fun p => quad_same p x u))))). Qed.
Print Assumptions C64_torch_partial.
(** Not so for the car that is steered by its acceleration: given torch tensors it always raises. *)
Theorem C64_torch_refuted : forall a b th v u0 u1, acar_torch [a; b; th; v] [u0; u1] = None /\
  acar_np [a; b; th; v] [u0; u1] <> None.
Proof. exact acar_differ. Qed.
Print Assumptions C64_torch_refuted.

(** The constructors' values are admissible, and the dynamics are defined at a tilted state. *)
Example C64_case : q_mass quad_default <> 0 /\ q_ixx quad_default <> 0 /\ q_iyy quad_default <> 0 /\
  q_izz quad_default <> 0 /\
  quad_np quad_default [0; 0; 0; 1; 0; 2; 3; 4; 5; 6; 7; 8] [1; 2; 3; 4] <> None.
Proof. exact quad_default_ok. Qed.
Example C64_case_plane : pd_mass pendulum_default <> 0 /\ pd_len pendulum_default <> 0 /\
  q2_mass quad2d_default <> 0 /\ q2_inertia quad2d_default <> 0 /\
  rk_mass rocket_default <> 0 /\ rk_inertia rocket_default <> 0.
Proof. exact plane_default_ok. Qed.

(** C65.  Pendulum: the energy, as the code computes it, changes at the power of the torque and of the
    damping. *)
Theorem C65_pendulum : forall p th w u0 X d, pd_mass p <> 0 -> pd_len p <> 0 ->
  moves 2 (pendulum_np p) [th; w] [u0] X d ->
  derivable_pt_lim (fun t => pendulum_energy p (X t)) 0 (u0 * w - pd_damp p * w ^ 2).
Proof. exact pendulum_power. Qed.
Print Assumptions C65_pendulum.
(** Without damping, energy shaping drives the energy to the desired one. *)
Theorem C65_shaping : forall p th w x_des gain X d, pd_mass p <> 0 -> pd_len p <> 0 -> pd_damp p = 0 -> 0 <= gain ->
  moves 2 (pendulum_np p) [th; w] (energy_shaping_control p [th; w] x_des gain) X d ->
  exists r, derivable_pt_lim (fun t => (pendulum_energy p (X t) - pendulum_energy p x_des) ^ 2) 0 r /\ r <= 0 /\
    (0 < gain -> w <> 0 -> pendulum_energy p [th; w] <> pendulum_energy p x_des -> r < 0).
Proof. exact shaping_square. Qed.
Print Assumptions C65_shaping.
(** The two rockets describe the same body: a motion of the centre is, seen at the bottom, a motion
    of the second model. *)
Theorem C65_rockets : forall p x u X d, rk_mass p <> 0 -> rk_inertia p <> 0 -> moves 6 (rocket_np p) x u X d ->
  exists d', rocket2_np p (to_bottom p x) u = Some d' /\ curve 6 (fun t => to_bottom p (X t)) (to_bottom p x) d'.
Proof. exact rockets_agree. Qed.
Print Assumptions C65_rockets.
(** The energy of the rocket changes at the power of a thrust that acts at its bottom. *)
Theorem C65_rocket_power : forall p x u X d, rk_mass p <> 0 -> rk_inertia p <> 0 -> moves 6 (rocket_np p) x u X d ->
  exists vb, velocity 2 (fun t => firstn 2 (to_bottom p (X t))) vb /\
    derivable_pt_lim (fun t => rocket_energy p (X t)) 0 (dot (rocket_force x u) vb).
Proof. exact rocket_power. Qed.
Print Assumptions C65_rocket_power.
(** The energy of the planar quadrotor changes at the power of its two rotors. *)
Theorem C65_quad2d : forall p x u X d, q2_mass p <> 0 -> q2_inertia p <> 0 -> moves 6 (quad2d_np p) x u X d ->
  exists v0 v1, velocity 2 (fun t => rotor_pos (q2_len p) (X t)) v0 /\
    velocity 2 (fun t => rotor_pos (- q2_len p) (X t)) v1 /\
    derivable_pt_lim (fun t => quad2d_energy p (X t)) 0
      (nth 0 u 0 * dot (thrust_dir x) v0 + nth 1 u 0 * dot (thrust_dir x) v1).
Proof. exact quad2d_power. Qed.
Print Assumptions C65_quad2d.
(** The quadrotor turns with its angular velocity: R' = R [omega]x. *)
Theorem C65_rates : forall p x u X d, moves 12 (quad_np p) x u X d ->
  matrix_derivative (fun t => quad_R (X t)) 0 (mm 3 (quad_R x) (skew (quad_omega x))).
Proof. exact quad_rotation. Qed.
Print Assumptions C65_rates.
(** Its momentum and angular momentum, seen from the ground, change with the forces and torques of
    gravity and of the four rotors. *)
Theorem C65_quadrotor : forall p x u X d, q_mass p <> 0 -> q_ixx p <> 0 -> q_iyy p <> 0 -> q_izz p <> 0 ->
  moves 12 (quad_np p) x u X d ->
  velocity 3 (fun t => quad_momentum p (X t)) (vadd [0; 0; - q_mass p * q_grav p] (mv (quad_R x) [0; 0; vsum u])) /\
  velocity 3 (fun t => quad_angular_momentum p (X t)) (mv (quad_R x) (quad_torque p u)) /\
  derivable_pt_lim (fun t => quad_energy p (X t)) 0
    (dot (mv (quad_R x) [0; 0; vsum u]) (quad_vel x) + dot (quad_torque p u) (quad_omega x)).
Proof. exact (fun p x u X d m a b c H => conj (quad_force p x u X d m H) (conj (quad_spin p x u X d a b c H)
  (quad_power p x u X d m a b c H))). Qed.
Print Assumptions C65_quadrotor.
(** The cars move along their heading with their speed, and turn at the rate that is asked for; the car
    that is steered by its acceleration is the unicycle at its own speed, which the input changes. *)
Theorem C65_unicycle : forall a b th v w X d, moves 3 unicycle_np [a; b; th] [v; w] X d ->
  velocity 2 (fun t => firstn 2 (X t)) (vscale v [cos th; sin th]) /\
  derivable_pt_lim (fun t => nth 2 (X t) 0) 0 w.
Proof. exact unicycle_heading. Qed.
Print Assumptions C65_unicycle.
Theorem C65_acceleration_car : forall a b th v w acc X d, moves 4 acar_np [a; b; th; v] [w; acc] X d ->
  moves 3 unicycle_np [a; b; th] [v; w] (fun t => firstn 3 (X t)) (firstn 3 d) /\
  velocity 2 (fun t => firstn 2 (X t)) (vscale v [cos th; sin th]) /\
  derivable_pt_lim (fun t => nth 2 (X t) 0) 0 w /\ derivable_pt_lim (fun t => nth 3 (X t) 0) 0 acc.
Proof. exact acar_heading. Qed.
Print Assumptions C65_acceleration_car.
(** Pole: for positive masses the dynamics are defined wherever the rod is not horizontal; the height of
    the sphere changes as the rod prescribes. *)
Theorem C65_pole_defined : forall solve p x y a b c xd yd u0 u1 u2, lin_solve_ok solve -> 0 < po_ms p -> 0 < po_me p ->
  x ^ 2 + y ^ 2 < po_len p ^ 2 ->
  exists d, pole_dynamics solve p [x; y; a; b; c; xd; yd] [u0; u1; u2] = Some d /\ length d = 7%nat.
Proof. exact pole_defined. Qed.
Print Assumptions C65_pole_defined.
Theorem C65_pole_height : forall solve p s u X d, lin_solve_ok solve -> moves 7 (pole_dynamics solve p) s u X d ->
  derivable_pt_lim (fun t => pole_z p (X t)) 0 (pole_zdot p s).
Proof. exact pole_rate. Qed.
Print Assumptions C65_pole_height.
(** Newton's law holds for the two masses exactly at the states where the product of the two offsets
    and of the two velocities vanishes; there the energy changes at the power of the input.  Missing:
    the other states, see C65_pole_refuted. *)
Theorem C65_pole_partial : forall solve p s u X d, lin_solve_ok solve -> 0 < po_ms p ->
  moves 7 (pole_dynamics solve p) s u X d ->
  (pole_newton p s u X <-> nth 0 s 0 * nth 1 s 0 * nth 5 s 0 * nth 6 s 0 = 0).
Proof. exact pole_iff. Qed.
Print Assumptions C65_pole_partial.
Theorem C65_pole_energy_partial : forall solve p s u X d h, lin_solve_ok solve -> 0 < po_ms p ->
  moves 7 (pole_dynamics solve p) s u X d ->
  nth 0 s 0 * nth 1 s 0 * nth 5 s 0 * nth 6 s 0 = 0 -> derivable_pt_lim h 0 (nth 4 s 0) ->
  derivable_pt_lim (fun t => pole_energy p (X t) (h t)) 0 (dot u (pole_vA s)).
Proof. exact pole_power. Qed.
Print Assumptions C65_pole_energy_partial.
(** The sign of one term is wrong: a swinging pole breaks Newton's law. *)
Theorem C65_pole_refuted : forall solve, lin_solve_ok solve ->
  exists d, pole_dynamics solve pole_ex [2; 1; 0; 0; 0; 1; 1] [0; 0; 0] = Some d /\
    forall X, curve 7 X [2; 1; 0; 0; 0; 1; 1] d -> ~ pole_newton pole_ex [2; 1; 0; 0; 0; 1; 1] [0; 0; 0] X.
Proof. exact pole_wrong. Qed.
Print Assumptions C65_pole_refuted.

(** Every state where the dynamics are defined has a motion; linear equations can be solved. *)
Example C65_case : forall n f x u d, length x = n -> f x u = Some d -> length d = n -> moves n f x u (straight x d) d.
Proof. exact straight_moves. Qed.
Example C65_solver : exists solve, lin_solve_ok solve.
Proof. exact solver_exists. Qed.
