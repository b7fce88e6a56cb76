(** Simulation of a plant in continuous time with a network as its controller:
    neural_network_lyapunov/utils.py, simulate_plant_with_controller (1245-1266).

    The plant and the integrator (scipy.integrate.solve_ivp) are arbitrary functions; the
    latter gets the right-hand side, the two ends of the time span, the initial state and the
    times at which the state is asked for. *)

Require Import Reals List ZArith.
Require Import Verif.Vec Verif.ModelNet Verif.ModelSystems.
Import ListNotations.
Open Scope R_scope.

(** numpy.arange: ceil((stop - start) / step) numbers. *)
Definition ceil (x : R) : Z := (- Int_part (- x))%Z.
Definition arange (start stop step : R) : vec :=
  map (fun k => start + INR k * step) (seq 0 (Z.to_nat (ceil ((stop - start) / step)))).

Section Sim.
Variable dynamics : vec -> vec -> vec.
Variables (k : controller) (x_eq u_eq u_lo u_up : vec).

(** Lines 1255-1257. *)
Definition sim_input (x : vec) : vec :=
  let u := vadd (vsub (controller_forward k x) (controller_forward k x_eq)) u_eq in
  map2 Rmax (map2 Rmin u u_up) u_lo.
(** dyn, lines 1252-1258. *)
Definition sim_rhs (t : R) (x : vec) : vec := dynamics x (sim_input x).

(** Lines 1260-1266: the times and the states that are returned. *)
Definition simulate_plant (solve_ivp : (R -> vec -> vec) -> R -> R -> vec -> vec -> list vec)
    (t0 t1 : R) (x0 : vec) : vec * list vec :=
  let t_eval := arange t0 t1 (1 / 100) in
  (t_eval, solve_ivp sim_rhs t0 t1 x0 t_eval).
End Sim.
