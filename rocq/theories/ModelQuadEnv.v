(** Model of Quadrotor2DEnv — /repo/neural_network_lyapunov/examples/quadrotor2d/quadrotor2d_env.py lines 9-54.

    The integrator behind Quadrotor2D.next_pose (quadrotor_2d.py 94-102) and the numbers torch.rand gives are
    arguments; rounding to single precision is left out. *)

Require Import Reals List Arith.
Require Import Verif.Vec Verif.ModelPlants.
Import ListNotations.
Open Scope R_scope.

(** __init__ (12-31). *)
Definition env_dt : R := / 100.
Definition env_x_up : vec := [3 / 10; 3 / 10; PI * (3 / 10); 15 / 10; 15 / 10; 9 / 10].
Definition env_x_lo : vec := vneg env_x_up.
Definition env_u_lo : vec := [0; 0].
Definition env_u_up : vec := [8; 8].
Definition env_obs_equ : vec := zeros 6.
(** u_equilibrium (quadrotor_2d.py 77-80). *)
Definition env_act_equ : vec := let u := q2_mass quad2d_default * q2_grav quad2d_default / 2 in [u; u].
Definition diag (d : vec) : mat := map (fun i => map (fun j => if Nat.eqb i j then nth i d 0 else 0) (seq 0 (length d))) (seq 0 (length d)).
Definition env_Q : mat := diag [10; 10; 10; 1; 1; q2_len quad2d_default / 2 / PI].
Definition env_R : mat := [[1 / 10; 5 / 100]; [5 / 100; 1 / 10]].

(** x_current, t_current, and how many times torch.rand was called. *)
Record env := mkEnv { ev_x : vec; ev_t : R; ev_draws : nat }.
Section Env.
Variable next_pose : vec -> vec -> R -> vec.
Variable rand : nat -> vec.

(** step (33-47). *)
Definition env_step (e : env) (a : vec) : env * vec * R * bool :=
  let x := next_pose (ev_x e) a env_dt in
  let da := vsub a env_act_equ in
  let dx := vsub x env_obs_equ in
  let reward := - dot da (mv env_R da) - dot dx (mv env_Q dx) in
  (mkEnv x (ev_t e + env_dt) (ev_draws e), x, reward, false).
(** reset (49-54). *)
Definition env_reset (e : env) : env * vec :=
  let x := vadd (map2 Rmult (rand (ev_draws e)) (vsub env_x_up env_x_lo)) env_x_lo in
  (mkEnv x 0 (S (ev_draws e)), x).
(** The environment after some actions and the sum of the rewards. *)
Fixpoint episode (e : env) (actions : list vec) : env * R :=
  match actions with
  | [] => (e, 0)
  | a :: rest => let '(e', _, r, _) := env_step e a in let (e'', s) := episode e' rest in (e'', r + s)
  end.
End Env.
