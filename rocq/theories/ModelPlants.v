(** The plants of the examples: continuous-time dynamics and their analytic gradients.

    States and inputs are given as [list R]; a wrong number of entries is [None] (an assertion in
    the rockets and the pole, an indexing or shape error elsewhere).  The numbers that the
    constructors store (mass, length, ...) are fields that a user may overwrite, so they are
    parameters here; the values set by the constructors are the [.._default] constants. *)

Require Import Reals List Arith Bool.
Require Import Verif.Vec Verif.ModelMisc.
Import ListNotations.
Open Scope R_scope.

(** A torch tensor as these functions handle it: a 0-dimensional one or a vector. *)
Inductive tensor := T0 (a : R) | T1 (v : vec).
(** torch.stack of 0-dimensional tensors (mixed shapes raise). *)
Fixpoint torch_stack (l : list tensor) : option vec :=
  match l with
  | [] => Some []
  | T0 a :: r => match torch_stack r with Some v => Some (a :: v) | None => None end
  | T1 _ :: _ => None
  end.
(** torch.cat of vectors (a 0-dimensional tensor raises). *)
Fixpoint torch_cat (l : list tensor) : option vec :=
  match l with
  | [] => Some []
  | T1 v :: r => match torch_cat r with Some w => Some (v ++ w) | None => None end
  | T0 _ :: _ => None
  end.

(** [A[i:i+k, j:j+l] = block]. *)
Definition set_block (i j : nat) (block A : mat) : mat :=
  firstn i A ++ map2 (fun b r => splice j b r) block (skipn i A) ++ skipn (i + length block) A.
(** [v / a]. *)
Definition vdivs (v : vec) (a : R) : vec := map (fun x => x / a) v.
(** [a / b] elementwise. *)
Definition vdiv (a b : vec) : vec := map2 Rdiv a b.
(** np.cross / torch.cross. *)
Definition cross (a b : vec) : vec :=
  match a, b with
  | [a0; a1; a2], [b0; b1; b2] => [a1 * b2 - a2 * b1; a2 * b0 - a0 * b2; a0 * b1 - a1 * b0]
  | _, _ => []
  end.

(** ** Unicycle (examples/car/unicycle.py) *)

(** Unicycle.dynamics, 23-34, numpy branch. *)
Definition unicycle_np (x u : vec) : option vec :=
  match x, u with
  | [_; _; theta], [vel; thetadot] => Some [vel * cos theta; vel * sin theta; thetadot]
  | _, _ => None
  end.
(** The torch branch. *)
Definition unicycle_torch (x u : vec) : option vec :=
  match x, u with
  | [_; _; theta], [vel; thetadot] => torch_stack [T0 (vel * cos theta); T0 (vel * sin theta); T0 thetadot]
  | _, _ => None
  end.
(** Unicycle.dynamics_gradient, 36-60, numpy branch. *)
Definition unicycle_gradient_np (x u : vec) : option (mat * mat) :=
  match x, u with
  | [_; _; theta], [vel; _] =>
      Some ([[0; 0; - vel * sin theta]; [0; 0; vel * cos theta]; [0; 0; 0]],
            [[cos theta; 0]; [sin theta; 0]; [0; 1]])
  | _, _ => None
  end.
(** The torch branch. *)
Definition unicycle_gradient_torch (x u : vec) : option (mat * mat) :=
  match x, u with
  | [_; _; theta], [vel; _] =>
      Some (set_entry 1 2 (vel * cos theta) (set_entry 0 2 (- vel * sin theta) (zerom 3 3)),
            set_entry 2 1 1 (set_entry 1 0 (sin theta) (set_entry 0 0 (cos theta) (zerom 3 2))))
  | _, _ => None
  end.

(** ** AccelerationCar (examples/car/acceleration_car.py) *)

(** AccelerationCar.dynamics, 23-34, numpy branch. *)
Definition acar_np (x u : vec) : option vec :=
  match x, u with
  | [_; _; theta; vel], [u0; u1] => Some [cos theta * vel; sin theta * vel; u0; u1]
  | _, _ => None
  end.
(** The torch branch: torch.cat of entries of tensors. *)
Definition acar_torch (x u : vec) : option vec :=
  match x, u with
  | [_; _; theta; vel], [u0; u1] => torch_cat [T0 (cos theta * vel); T0 (sin theta * vel); T0 u0; T0 u1]
  | _, _ => None
  end.

(** ** Pendulum (examples/pendulum/pendulum.py) *)

Record pendulum := { pd_mass : R; pd_grav : R; pd_len : R; pd_damp : R }.
(** Pendulum.__init__, 16-21. *)
Definition pendulum_default : pendulum :=
  {| pd_mass := 1; pd_grav := 981 / 100; pd_len := 1; pd_damp := 1 / 10 |}.
(** Pendulum.dynamics, 23-35: the angular acceleration. *)
Definition pendulum_acc (p : pendulum) (theta thetadot u0 : R) : R :=
  (u0 - pd_mass p * pd_grav p * pd_len p * sin theta - pd_damp p * thetadot)
  / (pd_mass p * pd_len p * pd_len p).
Definition pendulum_np (p : pendulum) (x u : vec) : option vec :=
  match x, u with
  | [theta; thetadot], [u0] => Some [thetadot; pendulum_acc p theta thetadot u0]
  | _, _ => None
  end.
Definition pendulum_torch (p : pendulum) (x u : vec) : option vec :=
  match x, u with
  | [theta; thetadot], [u0] => torch_cat [T1 [thetadot]; T1 [pendulum_acc p theta thetadot u0]]
  | _, _ => None
  end.
(** Pendulum.potential_energy, 37-42, and kinetic_energy, 44-49. *)
Definition potential_energy (p : pendulum) (x : vec) : R :=
  - pd_mass p * pd_grav p * pd_len p * cos (nth 0 x 0).
Definition kinetic_energy (p : pendulum) (x : vec) : R :=
  (1 / 2) * pd_mass p * (pd_len p * nth 1 x 0) ^ 2.
(** Pendulum.energy_shaping_control, 51-62. *)
Definition energy_shaping_control (p : pendulum) (x x_des : vec) (gain : R) : vec :=
  let E_des := potential_energy p x_des + kinetic_energy p x_des in
  let E := potential_energy p x + kinetic_energy p x in
  if Reqb (nth 1 x 0) 0 then [- gain * (E - E_des)] else [- gain * nth 1 x 0 * (E - E_des)].
(** Pendulum.dynamics_gradient, 64-77. *)
Definition pendulum_gradient (p : pendulum) (x : vec) : option (mat * mat) :=
  match x with
  | [theta; _] =>
      Some ([[0; 1]; [- pd_grav p / pd_len p * cos theta; - pd_damp p / (pd_mass p * pd_len p * pd_len p)]],
            [[0]; [1 / (pd_mass p * pd_len p * pd_len p)]])
  | _ => None
  end.

(** ** Quadrotor2D (examples/quadrotor2d/quadrotor_2d.py) *)

Record quad2d := { q2_len : R; q2_mass : R; q2_inertia : R; q2_grav : R }.
(** Quadrotor2D.__init__, 13-22. *)
Definition quad2d_default : quad2d :=
  {| q2_len := 25 / 100; q2_mass := 486 / 1000; q2_inertia := 383 / 100000; q2_grav := 981 / 100 |}.
(** Quadrotor2D.dynamics, 24-43: the accelerations. *)
Definition quad2d_acc (p : quad2d) (theta u0 u1 : R) : R * R * R :=
  (- sin theta / q2_mass p * (u0 + u1),
   cos theta / q2_mass p * (u0 + u1) - q2_grav p,
   q2_len p / q2_inertia p * (u0 - u1)).
Definition quad2d_np (p : quad2d) (x u : vec) : option vec :=
  match x, u with
  | [_; _; theta; xd; zd; thd], [u0; u1] =>
      let '(a, b, c) := quad2d_acc p theta u0 u1 in Some ([xd; zd; thd] ++ [a; b; c])
  | _, _ => None
  end.
Definition quad2d_torch (p : quad2d) (x u : vec) : option vec :=
  match x, u with
  | [_; _; theta; xd; zd; thd], [u0; u1] =>
      let '(a, b, c) := quad2d_acc p theta u0 u1 in
      match torch_stack [T0 a; T0 b; T0 c] with
      | Some qddot => torch_cat [T1 [xd; zd; thd]; T1 qddot]
      | None => None
      end
  | _, _ => None
  end.
(** Quadrotor2D.linearized_dynamics, 45-80 (the two branches assign the same entries). *)
Definition quad2d_gradient (p : quad2d) (x u : vec) : option (mat * mat) :=
  match x, u with
  | [_; _; theta; _; _; _], [u0; u1] =>
      let A := set_block 0 3 (eye 3) (zerom 6 6) in
      let A := set_entry 3 2 (- cos theta / q2_mass p * (u0 + u1)) A in
      let A := set_entry 4 2 (- sin theta / q2_mass p * (u0 + u1)) A in
      let b30 := - sin theta / q2_mass p in
      let B := set_entry 3 1 b30 (set_entry 3 0 b30 (zerom 6 2)) in
      let b40 := cos theta / q2_mass p in
      let B := set_entry 4 1 b40 (set_entry 4 0 b40 B) in
      let b50 := q2_len p / q2_inertia p in
      let B := set_entry 5 1 (- b50) (set_entry 5 0 b50 B) in
      Some (A, B)
  | _, _ => None
  end.
(** Quadrotor2D.u_equilibrium, 82-85. *)
Definition quad2d_u_equilibrium (p : quad2d) : vec := repeat (q2_mass p * q2_grav p / 2) 2.

(** ** Rocket and Rocket2 (examples/rocket/rocket.py) *)

Record rocket := { rk_len : R; rk_mass : R; rk_inertia : R; rk_grav : R }.
(** Rocket.__init__, 11-15. *)
Definition rocket_default : rocket :=
  {| rk_len := 2 / 10; rk_mass := 5 / 10; rk_inertia := 5 / 1000; rk_grav := 981 / 100 |}.
(** Rocket.hover_thrust, 17-19. *)
Definition hover_thrust (p : rocket) : R := rk_mass p * rk_grav p.
(** Rocket.dynamics, 21-43: the accelerations. *)
Definition rocket_acc (p : rocket) (theta u0 u1 : R) : R * R * R :=
  ((cos theta * u0 - sin theta * u1) / rk_mass p,
   (sin theta * u0 + cos theta * u1) / rk_mass p - rk_grav p,
   rk_len p / 2 * u0 / rk_inertia p).
Definition rocket_np (p : rocket) (x u : vec) : option vec :=
  match x, u with
  | [_; _; theta; xd; zd; thd], [u0; u1] =>
      let '(a, b, c) := rocket_acc p theta u0 u1 in Some ([xd; zd; thd] ++ [a; b; c])
  | _, _ => None
  end.
Definition rocket_torch (p : rocket) (x u : vec) : option vec :=
  match x, u with
  | [_; _; theta; xd; zd; thd], [u0; u1] =>
      let '(a, b, c) := rocket_acc p theta u0 u1 in
      match torch_stack [T0 a; T0 b; T0 c] with
      | Some qddot => torch_cat [T1 [xd; zd; thd]; T1 qddot]
      | None => None
      end
  | _, _ => None
  end.
(** Rocket.linearized_dynamics, 45-58. *)
Definition rocket_gradient (p : rocket) (x u : vec) : option (mat * mat) :=
  match x, u with
  | [_; _; theta; _; _; _], [u0; u1] =>
      let A := set_block 0 3 (eye 3) (zerom 6 6) in
      let A := set_entry 3 2 ((- sin theta * u0 - cos theta * u1) / rk_mass p) A in
      let A := set_entry 4 2 ((cos theta * u0 - sin theta * u1) / rk_mass p) A in
      let B := set_entry 3 0 (cos theta / rk_mass p) (zerom 6 2) in
      let B := set_entry 3 1 (- sin theta / rk_mass p) B in
      let B := set_entry 4 0 (sin theta / rk_mass p) B in
      let B := set_entry 4 1 (cos theta / rk_mass p) B in
      let B := set_entry 5 0 (rk_len p / (2 * rk_inertia p)) B in
      Some (A, B)
  | _, _ => None
  end.
(** Rocket2.dynamics, 70-100: the accelerations (the two branches compute the same numbers). *)
Definition rocket2_acc (p : rocket) (theta theta_dot u0 u1 : R) : R * R * R :=
  let theta_ddot := rk_len p * u0 / (2 * rk_inertia p) in
  let c_theta_ddot := - sin theta * theta_ddot - cos theta * theta_dot ^ 2 in
  let s_theta_ddot := cos theta * theta_ddot - sin theta * theta_dot ^ 2 in
  ((cos theta * u0 - sin theta * u1) / rk_mass p + rk_len p / 2 * s_theta_ddot,
   (sin theta * u0 + cos theta * u1) / rk_mass p - rk_grav p - rk_len p / 2 * c_theta_ddot,
   theta_ddot).
Definition rocket2_np (p : rocket) (x u : vec) : option vec :=
  match x, u with
  | [_; _; theta; xd; zd; thd], [u0; u1] =>
      let '(a, b, c) := rocket2_acc p theta thd u0 u1 in Some [xd; zd; thd; a; b; c]
  | _, _ => None
  end.
Definition rocket2_torch (p : rocket) (x u : vec) : option vec :=
  match x, u with
  | [_; _; theta; xd; zd; thd], [u0; u1] =>
      let '(a, b, c) := rocket2_acc p theta thd u0 u1 in
      torch_stack [T0 xd; T0 zd; T0 thd; T0 a; T0 b; T0 c]
  | _, _ => None
  end.
(** Rocket2.linearized_dynamics, 102-132. *)
Definition rocket2_gradient (p : rocket) (x u : vec) : option (mat * mat) :=
  match x, u with
  | [_; _; theta; _; _; thetadot], [u0; u1] =>
      let A := set_block 0 3 (eye 3) (zerom 6 6) in
      let A := set_entry 3 2 ((- sin theta * u0 - cos theta * u1) / rk_mass p + rk_len p / 2 *
                 (- sin theta * rk_len p * u0 / (2 * rk_inertia p) - cos theta * thetadot ^ 2)) A in
      let A := set_entry 3 5 (rk_len p / 2 * (- sin theta) * 2 * thetadot) A in
      let A := set_entry 4 2 ((cos theta * u0 - sin theta * u1) / rk_mass p + rk_len p / 2 *
                 (cos theta * rk_len p * u0 / (2 * rk_inertia p) - sin theta * thetadot ^ 2)) A in
      let A := set_entry 4 5 (rk_len p / 2 * cos theta * 2 * thetadot) A in
      let B := set_entry 3 0 (cos theta / rk_mass p + rk_len p ^ 2 / 4 * cos theta / rk_inertia p) (zerom 6 2) in
      let B := set_entry 3 1 (- sin theta / rk_mass p) B in
      let B := set_entry 4 0 (sin theta / rk_mass p + rk_len p ^ 2 * sin theta / (4 * rk_inertia p)) B in
      let B := set_entry 4 1 (cos theta / rk_mass p) B in
      let B := set_entry 5 0 (rk_len p / (2 * rk_inertia p)) B in
      Some (A, B)
  | _, _ => None
  end.

(** ** Quadrotor (examples/quadrotor3d/quadrotor.py) *)

Record quad := { q_mass : R; q_grav : R; q_arm : R; q_ixx : R; q_iyy : R; q_izz : R; q_kz : R }.
(** Quadrotor.__init__, 23-38. *)
Definition quad_default : quad :=
  {| q_mass := 468 / 1000; q_grav := 981 / 100; q_arm := 225 / 1000;
     q_ixx := 49 / 10000; q_iyy := 49 / 10000; q_izz := 88 / 10000; q_kz := (11 / 10) / 29 |}.
Definition quad_hover_thrust (p : quad) : R := q_mass p * q_grav p / 4.
Definition quad_inertia (p : quad) : vec := [q_ixx p; q_iyy p; q_izz p].
(** The matrix in Quadrotor.dynamics, 53-60. *)
Definition quad_alloc (p : quad) : mat :=
  [[1; 1; 1; 1];
   [0; q_arm p; 0; - q_arm p];
   [- q_arm p; 0; q_arm p; 0];
   [q_kz p; - q_kz p; q_kz p; - q_kz p]].
(** np.tan, away from the odd multiples of pi/2. *)
Definition quad_T_np (r p : R) : mat :=
  [[1; sin r * tan p; cos r * tan p]; [0; cos r; - sin r]; [0; sin r / cos p; cos r / cos p]].
(** Quadrotor.dynamics, 40-81, numpy branch.  Where the cosine of the pitch vanishes the tangent is
    not a number of the model: [None]. *)
Definition quad_np (p : quad) (x u : vec) : option vec :=
  match x, u with
  | [_; _; _; roll; pitch; yaw; xd; yd; zd; wx; wy; wz], [_; _; _; _] =>
      if Req_EM_T (cos pitch) 0 then None else
      let omega := [wx; wy; wz] in
      let plant_input := mv (quad_alloc p) u in
      let Rm := rpy2rotmat_np roll pitch yaw in
      let pos_ddot := vadd [0; 0; - q_grav p] (vdivs (mv Rm [0; 0; nth 0 plant_input 0]) (q_mass p)) in
      let omega_dot := vdiv (vadd (cross (vneg omega) (vmul (quad_inertia p) omega)) (skipn 1 plant_input))
                            (quad_inertia p) in
      let rpy_dot := mv (quad_T_np roll pitch) omega in
      Some ([xd; yd; zd] ++ rpy_dot ++ pos_ddot ++ omega_dot)
  | _, _ => None
  end.
(** The torch branch, 82-116. *)
Definition quad_torch (p : quad) (x u : vec) : option vec :=
  match x, u with
  | [_; _; _; roll; pitch; yaw; xd; yd; zd; wx; wy; wz], [_; _; _; _] =>
      if Req_EM_T (cos pitch) 0 then None else
      let omega := [wx; wy; wz] in
      let plant_input := mv (quad_alloc p) u in
      let Rm := rpy2rotmat_torch roll pitch yaw in
      let pos_ddot := vadd [0; 0; - q_grav p]
        (vdivs (map (fun r => nth 2 r 0 * nth 0 plant_input 0) Rm) (q_mass p)) in
      let omega_dot := vdiv (vadd (cross (vneg omega) (vmul (quad_inertia p) omega)) (skipn 1 plant_input))
                            (quad_inertia p) in
      let T := set_entry 0 0 1 (zerom 3 3) in
      let T := set_entry 0 1 (sin roll * tan pitch) T in
      let T := set_entry 0 2 (cos roll * tan pitch) T in
      let T := set_entry 1 1 (cos roll) T in
      let T := set_entry 1 2 (- sin roll) T in
      let T := set_entry 2 1 (sin roll / cos pitch) T in
      let T := set_entry 2 2 (cos roll / cos pitch) T in
      torch_cat [T1 [xd; yd; zd]; T1 (mv T omega); T1 pos_ddot; T1 omega_dot]
  | _, _ => None
  end.
(** Quadrotor.dynamics_gradient, 118-187. *)
Definition quad_gradient (p : quad) (x u : vec) : option (mat * mat) :=
  match x, u with
  | [_; _; _; roll; pitch; yaw; _; _; _; wx; wy; wz], [_; _; _; _] =>
      if Req_EM_T (cos pitch) 0 then None else
      let omega := [wx; wy; wz] in
      let sec := 1 / cos pitch in
      let A := set_block 0 6 (eye 3) (zerom 12 12) in
      let drpy_droll := mv [[0; cos roll * tan pitch; - sin roll * tan pitch];
                            [0; - sin roll; - cos roll];
                            [0; cos roll / cos pitch; - sin roll / cos pitch]] omega in
      let drpy_dpitch := mv [[0; sin roll * sec ^ 2; cos roll * sec ^ 2];
                             [0; 0; 0];
                             [0; sin roll * tan pitch * sec; cos roll * tan pitch * sec]] omega in
      let A := set_block 3 3 (col drpy_droll) A in
      let A := set_block 3 4 (col drpy_dpitch) A in
      let A := set_block 3 9 (quad_T_np roll pitch) A in
      let '(dRr, dRp, dRy) := gradient_np roll pitch yaw in
      let e := [0; 0; vsum u] in
      let A := set_block 6 3 (col (vdivs (mv dRr e) (q_mass p))) A in
      let A := set_block 6 4 (col (vdivs (mv dRp e) (q_mass p))) A in
      let A := set_block 6 5 (col (vdivs (mv dRy e) (q_mass p))) A in
      let Rz := col (vdivs (mv (rpy2rotmat_np roll pitch yaw) [0; 0; 1]) (q_mass p)) in
      let B := set_block 6 3 Rz (set_block 6 2 Rz (set_block 6 1 Rz (set_block 6 0 Rz (zerom 12 4)))) in
      let dw := [[0; (q_iyy p - q_izz p) / q_ixx p * wz; (q_iyy p - q_izz p) / q_ixx p * wy];
                 [(q_izz p - q_ixx p) / q_iyy p * wz; 0; (q_izz p - q_ixx p) / q_iyy p * wx];
                 [(q_ixx p - q_iyy p) / q_izz p * wy; (q_ixx p - q_iyy p) / q_izz p * wx; 0]] in
      let A := set_block 9 9 dw A in
      let B := set_block 9 0 [vdivs [0; q_arm p; 0; - q_arm p] (q_ixx p)] B in
      let B := set_block 10 0 [vdivs [- q_arm p; 0; q_arm p; 0] (q_iyy p)] B in
      let B := set_block 11 0 [vdivs [q_kz p; - q_kz p; q_kz p; - q_kz p] (q_izz p)] B in
      Some (A, B)
  | _, _ => None
  end.

(** ** Pole (examples/pole/pole.py) *)

Record pole := { po_ms : R; po_me : R; po_len : R; po_grav : R }.
(** The mass matrix in Pole.dynamics, 42-61 (torch: 77-92). *)
Definition pole_M (p : pole) (x y z : R) : mat :=
  let ms := po_ms p in let me := po_me p in
  [[ms + me; 0; 0; ms; 0];
   [0; ms + me; 0; 0; ms];
   [0; 0; ms + me; - ms * x / z; - ms * y / z];
   [ms; 0; - ms * x / z; ms + ms * (x / z) ^ 2; ms * x * y / z ^ 2];
   [0; ms; - ms * y / z; ms * x * y / z ^ 2; ms + ms * (y / z) ^ 2]].
(** The bias in Pole.dynamics, 62-74 (torch: 93-106). *)
Definition pole_C (p : pole) (x y z xd yd : R) : vec :=
  let ms := po_ms p in let me := po_me p in let g := po_grav p in let l := po_len p in
  [0; 0;
   (me + ms) * g - ms * (xd ^ 2 * (l ^ 2 - y ^ 2) / z ^ 3 + yd ^ 2 * (l ^ 2 - x ^ 2) / z ^ 3
                         - 2 * x * y * xd * yd / z ^ 3);
   - ms * g * x / z + ms * x * ((xd ^ 2 + yd ^ 2) / z ^ 2 + (x * xd + y * yd) ^ 2 / z ^ 4);
   - ms * g * y / z + ms * y * ((xd ^ 2 + yd ^ 2) / z ^ 2 + (x * xd + y * yd) ^ 2 / z ^ 4)].
(** Pole.dynamics, 34-109.  [solve] is np.linalg.solve / torch.linalg.solve, [None] for a singular
    matrix.  When the square root is not that of a positive number the result is not a number. *)
Definition pole_dynamics (solve : mat -> vec -> option vec) (p : pole) (s u : vec) : option vec :=
  match s, u with
  | [x; y; _; _; _; xd; yd], [u0; u1; u2] =>
      if Rlt_dec 0 (po_len p ^ 2 - x ^ 2 - y ^ 2) then
        let z := sqrt (po_len p ^ 2 - x ^ 2 - y ^ 2) in
        match solve (pole_M p x y z) (vsub [u0; u1; u2; 0; 0] (pole_C p x y z xd yd)) with
        | Some vdot => Some ([xd; yd] ++ vdot)
        | None => None
        end
      else None
  | _, _ => None
  end.
