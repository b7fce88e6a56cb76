(** C50 (rotations), C57 (grid indices), C58 (fixed-control integrator). *)

Require Import Reals List.
Require Import Verif.Vec Verif.ModelMisc Verif.SpecMisc Verif.ProofMisc.
Import ListNotations.
Open Scope R_scope.

(** C50: for all angles the matrix is orthogonal with determinant one. *)
Theorem C50_rotation : forall r p y, let M := rpy2rotmat_np r p y in
  wfm 3 3 M /\ mm 3 M (transpose 3 M) = eye 3 /\ mm 3 (transpose 3 M) M = eye 3 /\ det3 M = 1.
Proof. exact (fun r p y => conj (rotmat_wf r p y) (rotmat_orthogonal r p y)). Qed.
Print Assumptions C50_rotation.

(** The numpy and torch branches agree. *)
Theorem C50_torch : forall r p y,
  rpy2rotmat_torch r p y = rpy2rotmat_np r p y /\ gradient_torch r p y = gradient_np r p y.
Proof. exact (fun r p y => conj (rotmat_same r p y) (gradient_same r p y)). Qed.
Print Assumptions C50_torch.

(** rpy2rotmat_gradient returns the derivatives in roll, pitch and yaw. *)
Theorem C50_gradient : forall r p y,
  matrix_derivative (fun a => rpy2rotmat_np a p y) r (fst (fst (gradient_np r p y))) /\
  matrix_derivative (fun a => rpy2rotmat_np r a y) p (snd (fst (gradient_np r p y))) /\
  matrix_derivative (fun a => rpy2rotmat_np r p a) y (snd (gradient_np r p y)).
Proof. exact (fun r p y => conj (rotmat_droll r p y) (conj (rotmat_dpitch r p y) (rotmat_dyaw r p y))). Qed.
Print Assumptions C50_gradient.

(** A quarter turn about the vertical axis takes x to y. *)
Example C50_case : rpy2rotmat_np 0 0 (PI / 2) = [[0; -1; 0]; [1; 0; 0]; [0; 0; 1]].
Proof. exact yaw_case. Qed.

(** C57: on a grid with at least one cell the conversions are inverse. *)
Theorem C57_flat : forall n_xy n_angle i t, flat_to_3d n_xy n_angle i = Some t ->
  threeD_to_flat n_xy n_angle (fst (fst t)) (snd (fst t)) (snd t) = i /\
  (snd (fst t) < n_xy)%nat /\ (snd t < n_angle)%nat.
Proof. exact grid_left. Qed.
Print Assumptions C57_flat.

Theorem C57_range : forall n_xy n_angle i t, flat_to_3d n_xy n_angle i = Some t ->
  (i < n_xy * n_xy * n_angle)%nat -> (fst (fst t) < n_xy)%nat.
Proof. exact grid_range. Qed.
Print Assumptions C57_range.

Theorem C57_3d : forall n_xy n_angle i0 i1 i2,
  (i1 < n_xy)%nat -> (i2 < n_angle)%nat ->
  flat_to_3d n_xy n_angle (threeD_to_flat n_xy n_angle i0 i1 i2) = Some (i0, i1, i2) /\
  ((i0 < n_xy)%nat -> (threeD_to_flat n_xy n_angle i0 i1 i2 < n_xy * n_xy * n_angle)%nat).
Proof. exact grid_right. Qed.
Print Assumptions C57_3d.

(** Cell 29 of the 3 x 3 x 4 grid is (2, 1, 1). *)
Example C57_case : flat_to_3d 3 4 29 = Some (2, 1, 1)%nat /\ threeD_to_flat 3 4 2 1 1 = 29%nat.
Proof. exact (conj eq_refl eq_refl). Qed.

(** C58: where the dynamics vanish the integrator stays. *)
Theorem C58_equilibrium : forall f controller x0 dt n,
  f x0 (controller x0) = zeros (length x0) ->
  rk4_constant_control f controller x0 dt n = (x0, controller x0).
Proof. exact rk4_equilibrium. Qed.
Print Assumptions C58_equilibrium.

Example C58_equilibrium_case : let f := fun (x u : vec) => vsub u x in
  f [1; 2] ((fun _ => [1; 2]) [1; 2]) = zeros 2.
Proof. exact equilibrium_case. Qed.

(** For dynamics constant in the state it returns the exact flow at time n dt,
    whatever the step size and number of steps. *)
Theorem C58_exact : forall f controller x0 dt n c phi,
  (forall y, length y = length x0 -> f y (controller x0) = c) -> length c = length x0 ->
  trajectory (length x0) f (controller x0) x0 phi ->
  rk4_constant_control f controller x0 dt n = (phi (INR n * dt), controller x0).
Proof. exact rk4_exact. Qed.
Print Assumptions C58_exact.

Example C58_exact_case : let f := fun (x u : vec) => u in
  trajectory 1 f [3] [5] (fun t => [5 + 3 * t]).
Proof. exact constant_case. Qed.

(** For dynamics linear in the state each step is the Taylor polynomial of
    order four of the flow. *)
Theorem C58_linear : forall n f u dt x, linear_map n (fun y => f y u) -> length x = n ->
  rk4_step f u dt x = taylor4 (fun y => f y u) dt x.
Proof. exact rk4_linear. Qed.
Print Assumptions C58_linear.

(** The double integrator, exactly integrated over a long step. *)
Example C58_linear_case : let f := fun (x u : vec) => [nth 1 x 0; 0] in
  linear_map 2 (fun x => f x []) /\
  fst (rk4_constant_control f (fun _ => []) [1; 2] 3 1) = [7; 2].
Proof. exact double_integrator_case. Qed.
