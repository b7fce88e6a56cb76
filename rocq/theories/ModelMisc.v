(** Rotation matrices (geometry_transform.py), the fixed-step integrator
    (integrator.py) and the grid indices of examples/car/value_iteration.py. *)

Require Import Reals List Arith.
Require Import Verif.Vec.
Import ListNotations.
Open Scope R_scope.

(** ** geometry_transform.py *)

(** np.zeros((3, 3)) / torch.zeros((3, 3)) followed by assignments M[i, j] = v. *)
Definition set_entry (i j : nat) (v : R) (M : mat) : mat :=
  map (fun k => if Nat.eqb k i then splice j [v] (nth k M []) else nth k M []) (seq 0 (length M)).

(** rpy2rotmat, the numpy branch (lines 6-19). *)
Definition roll_np (a : R) : mat := [[1; 0; 0]; [0; cos a; - sin a]; [0; sin a; cos a]].
Definition pitch_np (a : R) : mat := [[cos a; 0; sin a]; [0; 1; 0]; [- sin a; 0; cos a]].
Definition yaw_np (a : R) : mat := [[cos a; - sin a; 0]; [sin a; cos a; 0]; [0; 0; 1]].
Definition rpy2rotmat_np (r p y : R) : mat := mm 3 (mm 3 (yaw_np y) (pitch_np p)) (roll_np r).

(** The torch branch (lines 20-45). *)
Definition roll_torch (a : R) : mat :=
  set_entry 2 2 (cos a) (set_entry 2 1 (sin a) (set_entry 1 2 (- sin a) (set_entry 1 1 (cos a)
    (set_entry 0 0 1 (zerom 3 3))))).
Definition pitch_torch (a : R) : mat :=
  set_entry 2 2 (cos a) (set_entry 2 0 (- sin a) (set_entry 0 2 (sin a) (set_entry 0 0 (cos a)
    (set_entry 1 1 1 (zerom 3 3))))).
Definition yaw_torch (a : R) : mat :=
  set_entry 2 2 1 (set_entry 1 1 (cos a) (set_entry 1 0 (sin a) (set_entry 0 1 (- sin a)
    (set_entry 0 0 (cos a) (zerom 3 3))))).
Definition rpy2rotmat_torch (r p y : R) : mat := mm 3 (mm 3 (yaw_torch y) (pitch_torch p)) (roll_torch r).

(** rpy2rotmat_gradient, the numpy branch (lines 52-75). *)
Definition droll_np (a : R) : mat := [[0; 0; 0]; [0; - sin a; - cos a]; [0; cos a; - sin a]].
Definition dpitch_np (a : R) : mat := [[- sin a; 0; cos a]; [0; 0; 0]; [- cos a; 0; - sin a]].
Definition dyaw_np (a : R) : mat := [[- sin a; - cos a; 0]; [cos a; - sin a; 0]; [0; 0; 0]].
Definition gradient_np (r p y : R) : mat * mat * mat :=
  (mm 3 (mm 3 (yaw_np y) (pitch_np p)) (droll_np r),
   mm 3 (mm 3 (yaw_np y) (dpitch_np p)) (roll_np r),
   mm 3 (mm 3 (dyaw_np y) (pitch_np p)) (roll_np r)).
(** The torch branch (lines 76-119). *)
Definition droll_torch (a : R) : mat :=
  set_entry 2 2 (- sin a) (set_entry 2 1 (cos a) (set_entry 1 2 (- cos a) (set_entry 1 1 (- sin a) (zerom 3 3)))).
Definition dpitch_torch (a : R) : mat :=
  set_entry 2 2 (- sin a) (set_entry 2 0 (- cos a) (set_entry 0 2 (cos a) (set_entry 0 0 (- sin a) (zerom 3 3)))).
Definition dyaw_torch (a : R) : mat :=
  set_entry 1 1 (- sin a) (set_entry 1 0 (cos a) (set_entry 0 1 (- cos a) (set_entry 0 0 (- sin a) (zerom 3 3)))).
Definition gradient_torch (r p y : R) : mat * mat * mat :=
  (mm 3 (mm 3 (yaw_torch y) (pitch_torch p)) (droll_torch r),
   mm 3 (mm 3 (yaw_torch y) (dpitch_torch p)) (roll_torch r),
   mm 3 (mm 3 (dyaw_torch y) (pitch_torch p)) (roll_torch r)).

(** ** integrator.py *)

(** rk4_constant_control, lines 7-24. *)
Definition rk4_step (f : vec -> vec -> vec) (u : vec) (dt : R) (x : vec) : vec :=
  let k1 := f x u in
  let k2 := f (vadd x (vscale (dt / 2) k1)) u in
  let k3 := f (vadd x (vscale (dt / 2) k2)) u in
  let k4 := f (vadd x (vscale dt k3)) u in
  vadd x (vscale (1 / 6 * dt) (vadd (vadd (vadd k1 (vscale 2 k2)) (vscale 2 k3)) k4)).
Fixpoint rk4_loop (f : vec -> vec -> vec) (u : vec) (dt : R) (n : nat) (x : vec) : vec :=
  match n with O => x | S n => rk4_loop f u dt n (rk4_step f u dt x) end.
Definition rk4_constant_control (f : vec -> vec -> vec) (controller : vec -> vec) (x0 : vec) (dt : R) (n : nat)
  : vec * vec :=
  (rk4_loop f (controller x0) dt n x0, controller x0).

(** ** examples/car/value_iteration.py *)

(** flat_to_3d, lines 198-202; a division by zero is an exception. *)
Definition flat_to_3d (n_xy n_angle i : nat) : option (nat * nat * nat) :=
  if Nat.eqb (n_angle * n_xy) 0 then None
  else
    let i0 := (i / (n_angle * n_xy))%nat in
    let i1 := ((i - n_angle * n_xy * i0) / n_angle)%nat in
    let i2 := (i - n_angle * n_xy * i0 - n_angle * i1)%nat in
    Some (i0, i1, i2).
(** threeD_to_flat, lines 205-206. *)
Definition threeD_to_flat (n_xy n_angle i0 i1 i2 : nat) : nat :=
  (n_angle * n_xy * i0 + n_angle * i1 + i2)%nat.
