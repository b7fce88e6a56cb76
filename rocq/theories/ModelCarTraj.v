(** examples/car/unicycle_traj_opt.py: the trajectory optimisation of the car.

    A state is (x, y, theta), an input (velocity, turn rate); a trajectory has its states, its
    inputs and the lengths of its time steps.  The solver is an oracle and is not modelled
    here, only the program that it gets. *)

Require Import Reals List.
Import ListNotations.
Open Scope R_scope.

Notation cstate := (R * R * R)%type.
Notation cinput := (R * R)%type.
(** Unicycle.dynamics, unicycle.py:23-35. *)
Definition car_dynamics (x : cstate) (u : cinput) : cstate :=
  let '(_, _, theta) := x in let '(vel, thetadot) := u in (vel * cos theta, vel * sin theta, thetadot).
(** dynamics_constraint_evaluator, lines 9-17. *)
Definition defect (x_curr x_next : cstate) (u_curr u_next : cinput) (delta_t : R) : cstate :=
  let '(a0, a1, a2) := x_curr in let '(b0, b1, b2) := x_next in
  let '(f0, f1, f2) := car_dynamics x_curr u_curr in let '(g0, g1, g2) := car_dynamics x_next u_next in
  (b0 - a0 - (g0 + f0) / 2 * delta_t, b1 - a1 - (g1 + f1) / 2 * delta_t, b2 - a2 - (g2 + f2) / 2 * delta_t).

(** cost_trajectory, lines 20-23. *)
Definition cost_trajectory (us : list cinput) : list R := map (fun u => fst u ^ 2 + snd u ^ 2) us.
(** delta_cost_trajectory, lines 26-31. *)
Fixpoint delta_cost_trajectory (us : list cinput) : list R :=
  match us with
  | a :: (b :: _) as rest => (200 * (fst b - fst a) ^ 2 + 800 * (snd b - snd a) ^ 2) :: delta_cost_trajectory rest
  | _ => []
  end.
Definition total_of (l : list R) : R := fold_right Rplus 0 l.
(** cost, lines 34-36. *)
Definition traj_cost (us : list cinput) : R := total_of (cost_trajectory us) + total_of (delta_cost_trajectory us).

(** The constraints of lines 51-55. *)
Fixpoint defects (xs : list cstate) (us : list cinput) (dts : list R) : list cstate :=
  match xs, us, dts with
  | a :: (b :: _) as xr, u :: (v :: _) as ur, d :: dr => defect a b u v d :: defects xr ur dr
  | _, _, _ => []
  end.
(** construct_traj_opt, lines 39-63, with the bounds of the first and the last state set to
    [start] and [goal]: what a solution satisfies. *)
Definition traj_program (nT : nat) (u_lo u_up : cinput) (dt_min dt_max : R) (start goal : cstate)
    (xs : list cstate) (us : list cinput) (dts : list R) : Prop :=
  length xs = nT /\ length us = nT /\ length dts = (nT - 1)%nat /\
  Forall (fun d => dt_min <= d <= dt_max) dts /\
  Forall (fun e => e = (0, 0, 0)) (defects xs us dts) /\
  Forall (fun u => fst u_lo <= fst u <= fst u_up) us /\
  Forall (fun u => snd u_lo <= snd u <= snd u_up) us /\
  (forall x, nth_error xs (nT - 1) = Some x -> x = goal) /\
  (forall x, nth_error xs 0 = Some x -> x = start).

(** np.cumsum. *)
Fixpoint cumsum (acc : R) (l : list R) : list R :=
  match l with [] => [] | a :: r => (acc + a) :: cumsum (acc + a) r end.
(** cost_traj, lines 95-97. *)
Definition cost_traj (us : list cinput) : list R := rev (cumsum 0 (rev (cost_trajectory us))).
(** construct_training_set, lines 79-102: the rows of the three lists, for the solutions that
    were found, in their order. *)
Definition training_set (sols : list (list cstate * list cinput)) : list cstate * list cinput * list R :=
  fold_left (fun acc s =>
    let '(states, controls, costs) := acc in
    (states ++ removelast (fst s), controls ++ removelast (snd s), costs ++ cost_traj (snd s)))
  sols ([(0, 0, 0)], [(0, 0)], [0]).
