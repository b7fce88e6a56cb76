(** What the plants are meant to be: linearizations as derivatives, equilibria, and the laws of
    mechanics that their dynamics should obey. *)

Require Import Reals List.
Require Import Verif.Vec Verif.ModelMisc Verif.SpecMisc Verif.SpecSlip Verif.ModelPlants.
Import ListNotations.
Open Scope R_scope.

(** (A, B) is the derivative of f at (x, u): along every pair of curves through x and u with
    velocities dx and du, f is defined near the point and moves with velocity A dx + B du. *)
Definition linearization (n m : nat) (f : vec -> vec -> option vec) (x u : vec) (A B : mat) : Prop :=
  wfm n n A /\ wfm n m B /\ forall X U dx du, curve n X x dx -> curve m U u du ->
  (exists e, 0 < e /\ forall t, Rabs t < e -> exists y, f (X t) (U t) = Some y /\ length y = n) /\
  forall i, (i < n)%nat ->
  derivable_pt_lim (fun t => entry_of (f (X t) (U t)) i) 0 (dot (nth i A []) dx + dot (nth i B []) du).

(** The code's gradient [grad] of the dynamics [f], defined wherever the dynamics are. *)
Definition gradient_of (n m : nat) (f : vec -> vec -> option vec) (grad : vec -> vec -> option (mat * mat)) : Prop :=
  forall x u, f x u <> None -> exists A B, grad x u = Some (A, B) /\ linearization n m f x u A B.

(** A curve of states through x that moves, at time 0, with the velocity of the dynamics under u. *)
Definition moves (n : nat) (f : vec -> vec -> option vec) (x u : vec) (X : R -> vec) (d : vec) : Prop :=
  f x u = Some d /\ curve n X x d.

(** The matrix of v -> w x v. *)
Definition skew (w : vec) : mat :=
  match w with [a; b; c] => [[0; - c; b]; [c; 0; - a]; [- b; a; 0]] | _ => [] end.

(** ** Rockets *)
(** The state with the position of the bottom, from the state with the position of the centre: the
    bottom is half a length from the centre, and moves with its own velocity. *)
Definition to_bottom (p : rocket) (x : vec) : vec :=
  match x with
  | [a; b; th; ad; bd; thd] =>
      [a + rk_len p / 2 * sin th; b - rk_len p / 2 * cos th; th;
       ad + rk_len p / 2 * (cos th * thd); bd + rk_len p / 2 * (sin th * thd); thd]
  | _ => []
  end.
Definition rocket_energy (p : rocket) (x : vec) : R :=
  rk_mass p * (nth 3 x 0 ^ 2 + nth 4 x 0 ^ 2) / 2 + rk_inertia p * nth 5 x 0 ^ 2 / 2 + rk_mass p * rk_grav p * nth 1 x 0.
(** The thrust in the world frame. *)
Definition rocket_force (x u : vec) : vec :=
  [cos (nth 2 x 0) * nth 0 u 0 - sin (nth 2 x 0) * nth 1 u 0;
   sin (nth 2 x 0) * nth 0 u 0 + cos (nth 2 x 0) * nth 1 u 0].

(** ** Planar quadrotor *)
Definition quad2d_energy (p : quad2d) (x : vec) : R :=
  q2_mass p * (nth 3 x 0 ^ 2 + nth 4 x 0 ^ 2) / 2 + q2_inertia p * nth 5 x 0 ^ 2 / 2 + q2_mass p * q2_grav p * nth 1 x 0.
(** The position of the rotor at the signed distance a from the centre, and the direction of thrust. *)
Definition rotor_pos (a : R) (x : vec) : vec :=
  [nth 0 x 0 + a * cos (nth 2 x 0); nth 1 x 0 + a * sin (nth 2 x 0)].
Definition thrust_dir (x : vec) : vec := [- sin (nth 2 x 0); cos (nth 2 x 0)].

(** ** Quadrotor *)
Definition quad_R (x : vec) : mat := rpy2rotmat_np (nth 3 x 0) (nth 4 x 0) (nth 5 x 0).
Definition quad_omega (x : vec) : vec := slice 9 3 x.
Definition quad_vel (x : vec) : vec := slice 6 3 x.
(** The rotors sit at the ends of the arms along +x, +y, -x, -y of the body, push along the body's z,
    and twist the body about z with alternating sense. *)
Definition quad_rotors (p : quad) : list vec :=
  [[q_arm p; 0; 0]; [0; q_arm p; 0]; [- q_arm p; 0; 0]; [0; - q_arm p; 0]].
Definition quad_torque (p : quad) (u : vec) : vec :=
  fold_right vadd [0; 0; q_kz p * (nth 0 u 0 - nth 1 u 0 + nth 2 u 0 - nth 3 u 0)]
    (map2 (fun r f => cross r [0; 0; f]) (quad_rotors p) u).
(** Momentum and angular momentum in the world frame. *)
Definition quad_momentum (p : quad) (x : vec) : vec := vscale (q_mass p) (quad_vel x).
Definition quad_angular_momentum (p : quad) (x : vec) : vec :=
  mv (quad_R x) (vmul (quad_inertia p) (quad_omega x)).
Definition quad_energy (p : quad) (x : vec) : R :=
  q_mass p * dot (quad_vel x) (quad_vel x) / 2
  + dot (quad_omega x) (vmul (quad_inertia p) (quad_omega x)) / 2 + q_mass p * q_grav p * nth 2 x 0.

(** F moves, at time 0, with velocity d. *)
Definition velocity (n : nat) (F : R -> vec) (d : vec) : Prop :=
  length d = n /\ (forall t, length (F t) = n) /\
  forall i, (i < n)%nat -> derivable_pt_lim (fun t => nth i (F t) 0) 0 (nth i d 0).

(** ** Pendulum *)
Definition pendulum_energy (p : pendulum) (x : vec) : R := potential_energy p x + kinetic_energy p x.

(** ** Pole: a massless rod of length l from the end-effector A to the sphere B above it. *)
(** The height of B over A, and its rate of change. *)
Definition pole_z (p : pole) (s : vec) : R := sqrt (po_len p ^ 2 - nth 0 s 0 ^ 2 - nth 1 s 0 ^ 2).
Definition pole_zdot (p : pole) (s : vec) : R :=
  - (nth 0 s 0 * nth 5 s 0 + nth 1 s 0 * nth 6 s 0) / pole_z p s.
(** The velocities of the two masses. *)
Definition pole_vA (s : vec) : vec := slice 2 3 s.
Definition pole_vB (p : pole) (s : vec) : vec :=
  vadd (pole_vA s) [nth 5 s 0; nth 6 s 0; pole_zdot p s].
(** Newton's law for both masses: the rod pulls them along itself with opposite forces. *)
Definition pole_newton (p : pole) (s u : vec) (X : R -> vec) : Prop :=
  exists aA aB tension,
    velocity 3 (fun t => pole_vA (X t)) aA /\ velocity 3 (fun t => pole_vB p (X t)) aB /\
    let rod := [nth 0 s 0; nth 1 s 0; pole_z p s] in
    vscale (po_me p) aA = vadd (vadd u [0; 0; - po_me p * po_grav p]) (vscale tension rod) /\
    vscale (po_ms p) aB = vadd [0; 0; - po_ms p * po_grav p] (vscale (- tension) rod).
(** The total energy, when A is at the height h. *)
Definition pole_energy (p : pole) (s : vec) (h : R) : R :=
  po_me p * dot (pole_vA s) (pole_vA s) / 2 + po_ms p * dot (pole_vB p s) (pole_vB p s) / 2
  + po_me p * po_grav p * h + po_ms p * po_grav p * (h + pole_z p s).
(** What is assumed of np.linalg.solve: a result solves the equations, and there is one whenever the
    matrix is square and not singular. *)
Definition lin_solve_ok (solve : mat -> vec -> option vec) : Prop :=
  (forall n M b v, wfm n n M -> length b = n -> solve M b = Some v -> length v = n /\ mv M v = b) /\
  (forall n M b, wfm n n M -> length b = n ->
     (forall v, length v = n -> mv M v = zeros n -> v = zeros n) -> exists v, solve M b = Some v).
